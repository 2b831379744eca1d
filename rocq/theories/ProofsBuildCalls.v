(** Proofs about the number of trait calls that building tables takes, once the entries are free of duplicates. *)
From Coq Require Import Permutation.
From Verif Require Import ModelUtils ModelAnalyzers ModelTables ModelMaps ModelHostile Spec SpecHostile SpecCalls.
From Verif Require Import ProofsBase ProofsAnalyzer ProofsTable ProofsHostile ProofsCalls.
From Verif Require Import Prelude.
From Coq Require Import ZArith ZifyNat ZifyN ZifyBool.

(** ** Hash tables *)
Lemma codes_cost {T} : forall (l : list T), cost (length l) (length l) (h_codes l) (fun cs => length cs = length l).
Proof.
  induction l as [|x r IH]; cbn [h_codes length]; [apply cost_ret; reflexivity|].
  change (S (length r)) with (1 + length r)%nat. eapply cost_then; [apply cost_number|]. intros h _. eapply cost_last; [apply IH|]. intros hs E. apply cost_ret.
  cbv beta in E. cbn [length]. lia.
Qed.
Lemma prep_cost {T} m : m <> 0 -> forall (l : list T),
  cost (length l) (length l) (h_prep_items m l) (fun items => map snd items = l /\ forall x, In x items -> fst x < m).
Proof.
  intros Hm. induction l as [|x r IH]; cbn [h_prep_items length]; [apply cost_ret; split; [reflexivity|intros _ []]|].
  change (S (length r)) with (1 + length r)%nat. eapply cost_then; [apply cost_number|]. intros h _.
  eapply (cost_first _ _ _ _ (fun s => s < m)).
  { apply cost_ok. destruct (N.eqb_spec m 0); [lia|]. apply N.mod_lt; auto. }
  intros s Hs. eapply cost_last; [apply IH|]. intros items [E B]. apply cost_ret. cbn. split; [congruence|].
  intros y [<-|Hy]; auto.
Qed.
Lemma ht_new_cost {T} usort cm (l : list T) : sorts_by_slot usort ->
  let k := if is_nil l || (max_capacity cm <? N.of_nat (length l)) then 0%nat else (2 * length l)%nat in
  cost k k (h_ht_new usort cm l) (fun _ => True).
Proof.
  intros HU. cbv zeta. unfold h_ht_new. destruct (is_nil l) eqn:Hnil; [apply cost_ret; exact I|]. cbn [orb].
  destruct (N.ltb_spec (max_capacity cm) (N.of_nat (length l))) as [C|C]; [apply cost_ret; exact I|].
  replace (2 * length l)%nat with (length l + length l)%nat by lia.
  eapply cost_then; [apply codes_cost|]. intros codes Hc.
  destruct (analyze_hash_codes_spec codes) as [m [coll [A1 [[k Hk] _]]]].
  { intros ->. destruct l; discriminate. }
  rewrite A1. eapply (cost_first _ _ _ _ (fun a => a = (m, coll))); [apply cost_ok; reflexivity|]. intros a ->. cbv zeta. cbn [fst].
  assert (Hm : m <> 0) by (subst m; apply pow2_nz).
  rewrite <- (rev_length l). eapply cost_last; [apply (prep_cost m Hm)|]. intros items [Hs Hb].
  destruct (HU items) as [HP HS].
  assert (Hin : forall x, In x (usort items) -> fst x < m).
  { intros x Hx. apply Hb. eapply Permutation_in; [apply Permutation_sym; eauto|auto]. }
  assert (Hlen : length (usort items) = length l).
  { rewrite <- (Permutation_length HP). rewrite <- (rev_length l), <- Hs, map_length. reflexivity. }
  destruct (fill_slots_spec cm m (S (length (usort items))) (rev (usort items)) 0 (repeat (0, 0) (N.to_nat m)) [] [])
    as [slots [F1 F2]].
  - rewrite rev_length. lia.
  - reflexivity.
  - reflexivity.
  - rewrite rev_length. lia.
  - intros x Hx. apply in_rev in Hx. auto.
  - intros i j x y Hij Hi Hj.
    assert (Hil : (i < length (rev (usort items)))%nat) by (apply nth_error_Some; congruence).
    assert (Hjl : (j < length (rev (usort items)))%nat) by (apply nth_error_Some; congruence).
    rewrite rev_length in Hil, Hjl.
    assert (R : forall i z, (i < length (usort items))%nat -> nth_error (rev (usort items)) i = Some z ->
                nth_error (usort items) (length (usort items) - S i) = Some z).
    { intros i' z Hi' Hz. rewrite (nth_error_nth' _ z) in Hz by (rewrite rev_length; auto).
      rewrite rev_nth in Hz by auto. rewrite <- Hz. apply nth_error_nth'. lia. }
    apply (HS (length (usort items) - S j)%nat (length (usort items) - S i)%nat); auto. lia.
  - intros c x [].
  - split; [apply repeat_length|]. intros s Hs'. exists (0, 0). split.
    + rewrite (nth_error_nth' _ (0,0)) by (rewrite repeat_length; lia). f_equal. apply nth_repeat.
    + cbn. split; [lia|]. split; [lia|]. intros p c Hp. destruct p; discriminate.
  - rewrite F1. eapply (cost_first _ _ _ _ (fun a => a = (slots, [] ++ map snd (rev (usort items))))); [apply cost_ok; reflexivity|].
    intros r ->. destruct F2 as [F2 _].
    assert (Hmask : sub_no_underflow (N.of_nat (length slots)) 1 = Ok (2 ^ k - 1)).
    { unfold sub_no_underflow. rewrite F2, N2Nat.id. destruct (N.leb_spec 1 m); [|lia]. rewrite Hk. reflexivity. }
    rewrite Hmask. eapply (cost_first _ _ _ _ (fun _ => True)); [apply cost_ok; exact I|]. intros mask _. apply cost_ret. exact I.
Qed.
Lemma hash_built {K V} usort cm (entries : list (K * V)) adv n : sorts_by_slot usort ->
  let k := if is_nil entries || (max_capacity cm <? N.of_nat (length entries)) then 0%nat else (2 * length entries)%nat in
  match h_hash_from_dedupped usort cm entries adv n with
  | Ok (_, n') => n' = (n + k)%nat
  | Panic => exists i, (i < k)%nat /\ a_panics (adv (n + i)%nat) = true
  | UB => False
  end.
Proof.
  intros HU. cbv zeta.
  assert (C : cost (if is_nil entries || (max_capacity cm <? N.of_nat (length entries)) then 0 else 2 * length entries)
    (if is_nil entries || (max_capacity cm <? N.of_nat (length entries)) then 0 else 2 * length entries) (h_hash_from_dedupped usort cm entries) (fun _ => True)).
  { unfold h_hash_from_dedupped. eapply cost_last; [apply (ht_new_cost usort cm entries HU)|]. intros t _. apply cost_ret. exact I. }
  specialize (C adv n). destruct (h_hash_from_dedupped usort cm entries adv n) as [[x n']| |]; [lia|exact C|exact C].
Qed.

(** ** Scalar maps *)

(** [x] has made exactly [k] calls when it ends. *)
Definition exact {A} (k : nat) (x : hostile A) : Prop := forall adv n a n', x adv n = Ok (a, n') -> n' = (n + k)%nat.
Lemma exact_ret {A} (a : A) : exact 0 (ret a).
Proof. intros adv n b n' E. injection E as _ <-. lia. Qed.
Lemma exact_lift {A B} (r : res A) k (f : A -> hostile B) : (forall a, exact k (f a)) -> exact k (andthen (lift r) f).
Proof. intros H adv n b n' E. unfold andthen, lift in E. destruct r; [|discriminate..]. eapply H, E. Qed.
Lemma exact_then {A B} k k' (x : hostile A) (f : A -> hostile B) : exact k x -> (forall a, exact k' (f a)) -> exact (k + k') (andthen x f).
Proof.
  intros X H adv n b n' E. unfold andthen in E. destruct (x adv n) as [[a n1]| |] eqn:E1; [|discriminate..]. apply X in E1. apply H in E. lia.
Qed.
Lemma exact_number : exact 1 ask_number.
Proof.
  intros adv n b n' E. unfold ask_number, andthen, ask, ret in E. destruct (a_panics (adv n)); [discriminate|]. injection E as _ <-. lia.
Qed.
Lemma exact_number_then {B} k (f : N -> hostile B) : (forall i, exact k (f i)) -> exact (S k) (andthen ask_number f).
Proof. exact (exact_then 1 k ask_number f exact_number). Qed.
Lemma exact_last {A B} k (x : hostile A) (f : A -> hostile B) : exact k x -> (forall a, exact 0 (f a)) -> exact k (andthen x f).
Proof. intros X H. rewrite <- (Nat.add_0_r k). apply exact_then; assumption. Qed.

Lemma min_max_exact {T} : forall (keys : list T) mn mx count, exact (2 * length keys) (h_scalar_min_max keys mn mx count).
Proof.
  induction keys as [|x r IH]; intros mn mx count; cbn [h_scalar_min_max length]; [apply exact_ret|].
  replace (2 * S (length r))%nat with (S (S (2 * length r))) by lia. apply exact_number_then. intros i. apply exact_number_then. intros j. apply IH.
Qed.
Lemma analysis_exact {T} md (keys : list T) : exact (2 * length keys) (h_analyze_scalar_keys md keys).
Proof.
  unfold h_analyze_scalar_keys. apply exact_last; [apply min_max_exact|]. intros [[mn mx] count]. destruct (count =? 0); [apply exact_ret|].
  apply exact_lift. intros d. apply exact_lift. intros c. destruct (c =? count); [apply exact_ret|]. destruct (_ || _); apply exact_ret.
Qed.
Lemma dense_exact {K V} (es : list (K * V)) : exact 2 (h_dense_from_sorted es).
Proof. unfold h_dense_from_sorted. apply exact_lift. intros _. apply exact_number_then. intros mn. apply exact_lift. intros _. apply exact_number_then. intros mx. apply exact_ret. Qed.
Lemma fill_exact {K V} md mn : forall (es : list (K * V)) i lookup, exact (length es) (h_sparse_fill md mn i es lookup).
Proof.
  induction es as [|e r IH]; intros i lookup; cbn [h_sparse_fill length]; [apply exact_ret|].
  apply exact_number_then. intros k. apply exact_lift. intros j. apply exact_lift. intros l. apply IH.
Qed.
Lemma sparse_exact {K V} md (es : list (K * V)) : exact (2 + length es) (h_sparse_from_sorted md es).
Proof.
  unfold h_sparse_from_sorted. apply exact_lift. intros _. apply exact_number_then. intros mn. apply exact_lift. intros _. apply exact_number_then. intros mx.
  apply exact_lift. intros d. apply exact_lift. intros c. apply exact_last; [apply fill_exact|]. intros l. apply exact_ret.
Qed.
Lemma dense_new_calls {K V} md (es : list (K * V)) adv n r n' : h_dense_new_sorted md es adv n = Ok (r, n') ->
  n' = (n + match es, r with [], _ => 0 | _, ROk _ => 4 | _, RErr _ => 2 end)%nat.
Proof.
  unfold h_dense_new_sorted. destruct es as [|e r0]; cbn [is_nil]; [intros E; injection E as _ <-; lia|]. set (es := e :: r0).
  unfold andthen, lift, ret. intros E. destruct (index es 0) as [a0| |]; [|discriminate..].
  destruct (ask_number adv n) as [[mn n1]| |] eqn:E1; [|discriminate..]. apply exact_number in E1.
  destruct (index es (length es - 1)) as [a1| |]; [|discriminate..]. destruct (ask_number adv n1) as [[mx n2]| |] eqn:E2; [|discriminate..]. apply exact_number in E2.
  destruct (usub md mx mn) as [d| |]; [|discriminate..]. destruct (uadd md d 1) as [c| |]; [|discriminate..]. destruct (N.of_nat (length es) =? c).
  - destruct (h_dense_from_sorted es adv n2) as [[m n3]| |] eqn:E3; [|discriminate..]. apply dense_exact in E3. injection E as <- <-. lia.
  - injection E as <- <-. lia.
Qed.

(** ** The constructors *)
Lemma hash_unwrapped {K V} usort (es : list (K * V)) adv n (r : result (any_map K V)) n' : sorts_by_slot usort ->
  (x <~ h_hash_from_dedupped usort Large es ;; m <~ h_unwrap x ;; ret (ROk (AnyHash m))) adv n = Ok (r, n') ->
  n' = (n + 2 * length es)%nat /\ exists m, r = ROk (AnyHash m).
Proof.
  intros HU E. unfold andthen in E. pose proof (hash_built usort Large es adv n HU) as B. cbv zeta in B.
  destruct (h_hash_from_dedupped usort Large es adv n) as [[x n1]| |] eqn:E1; [|discriminate..].
  unfold h_unwrap, lift, unwrap in E. destruct x as [m|s]; [|discriminate]. injection E as <- <-. split; [|eauto].
  destruct (N.ltb_spec (max_capacity Large) (N.of_nat (length es))) as [H|H].
  - exfalso. unfold h_hash_from_dedupped, h_ht_new, andthen, ret in E1. destruct (N.ltb_spec (max_capacity Large) (N.of_nat (length es))); [|lia].
    destruct (is_nil es) eqn:Z; [|discriminate]. destruct es; [|discriminate]. cbn in H. lia.
  - rewrite B. destruct es; cbn [is_nil orb length]; lia.
Qed.
Lemma made_calls {K V} usort md (entries es : list (K * V)) adv n n1 r n' : sorts_by_slot usort ->
  (h_using_hash entries adv n = Ok (es, n1) -> h_make usort md MakeFzHash entries adv n = Ok (r, n') -> n' = (n1 + 2 * length es)%nat) /\
  (h_sorted_and_dedupped entries adv n = Ok (es, n1) ->
    (h_make usort md MakeSparse entries adv n = Ok (r, n') -> n' = (n1 + if is_nil es then 0 else length es + 2)%nat) /\
    (h_make usort md MakeDense entries adv n = Ok (r, n') -> n' = (n1 + if is_nil es then 0 else match r with ROk _ => 4 | RErr _ => 2 end)%nat) /\
    (h_make usort md MakeFzScalar entries adv n = Ok (r, n') ->
      match r with
      | ROk (AnyDense _) => n' = (n1 + 2 * length es + 2)%nat
      | ROk (AnySparse _) => n' = (n1 + 3 * length es + 2)%nat
      | ROk (AnyHash _) => n' = (n1 + 4 * length es)%nat
      | _ => False
      end)).
Proof.
  intros HU. split; [|intros S; split; [|split]].
  - intros E1 E. cbn [h_make] in E. unfold andthen at 1 in E. rewrite E1 in E. apply (hash_unwrapped usort es adv n1 r n' HU E).
  - intros E. cbn [h_make] in E. unfold h_sparse_map_new, andthen at 1 2 in E. rewrite S in E. destruct (is_nil es); [injection E as _ <-; lia|].
    destruct (h_sparse_from_sorted md es adv n1) as [[m n2]| |] eqn:E2; [|discriminate..]. apply sparse_exact in E2. injection E as _ <-. lia.
  - intros E. cbn [h_make] in E. unfold h_dense_map_new, andthen at 1 2 in E. rewrite S in E.
    destruct (h_dense_new_sorted md es adv n1) as [[x n2]| |] eqn:E2; [|discriminate..]. apply dense_new_calls in E2. injection E as <- <-. rewrite E2.
    destruct es, x; reflexivity.
  - intros E. cbn [h_make] in E. unfold andthen at 1 in E. rewrite S in E. unfold andthen at 1 in E.
    destruct (h_analyze_scalar_keys md es adv n1) as [[a n2]| |] eqn:E2; [|discriminate..]. apply analysis_exact in E2. destruct a.
    + destruct (hash_unwrapped usort es adv n2 r n' HU E) as [L [m ->]]. lia.
    + unfold andthen in E. destruct (h_dense_from_sorted es adv n2) as [[m n3]| |] eqn:E3; [|discriminate..]. apply dense_exact in E3. injection E as <- <-. lia.
    + unfold andthen in E. destruct (h_sparse_from_sorted md es adv n2) as [[m n3]| |] eqn:E3; [|discriminate..]. apply sparse_exact in E3. injection E as <- <-. lia.
Qed.
