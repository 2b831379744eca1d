(** Proofs for C76: what the plain model does, the hostile model does for some answers. *)
From Verif Require Import ModelUtils ModelAnalyzers ModelTables ModelMaps ModelHostile Spec SpecHostile SpecAnalysis SpecCovers.
From Verif Require Import ProofsBase ProofsDedup ProofsCost ProofsSlices ProofsFz ProofsHostile.
From Coq Require Import Permutation.
From Verif Require Import Prelude.

(** The answers from the [n]th on start with [l]. *)
Definition follows (adv : nat -> answer) (n : nat) (l : list answer) : Prop :=
  forall i a, nth_error l i = Some a -> adv (n + i)%nat = a.

Definition quiet (l : list answer) : Prop := Forall (fun a => a_panics a = false) l.

(** Given the right answers, [x] does [r]. *)
Definition can {A} (x : hostile A) (r : res A) : Prop :=
  exists l, quiet l /\ forall adv n, follows adv n l ->
    x adv n = match r with Ok a => Ok (a, (n + length l)%nat) | Panic => Panic | UB => UB end.

Lemma follows_app adv n l1 l2 : follows adv n (l1 ++ l2) -> follows adv n l1 /\ follows adv (n + length l1) l2.
Proof.
  intros H. split; intros i a E.
  - apply H. rewrite nth_error_app1; auto. apply nth_error_Some. congruence.
  - rewrite <- Nat.add_assoc. apply H. rewrite nth_error_app2 by lia. replace (length l1 + i - length l1)%nat with i by lia. auto.
Qed.

Lemma can_ret {A} (a : A) : can (ret a) (Ok a).
Proof. exists []. split; [constructor|]. intros adv n _. cbn. rewrite Nat.add_0_r. reflexivity. Qed.

Lemma can_lift {A} (r : res A) : can (lift r) r.
Proof. exists []. split; [constructor|]. intros adv n _. unfold lift. cbn. destruct r; auto. rewrite Nat.add_0_r. reflexivity. Qed.

Lemma can_then {A B} (x : hostile A) (k : A -> hostile B) r f : can x r -> (forall a, r = Ok a -> can (k a) (f a)) ->
  can (andthen x k) (bind r f).
Proof.
  intros [l1 [Q1 H1]] H2. unfold andthen. destruct r as [a| |]; cbn [bind].
  - destruct (H2 a eq_refl) as [l2 [Q2 H3]]. exists (l1 ++ l2). split; [apply Forall_app; auto|].
    intros adv n F. apply follows_app in F. destruct F as [F1 F2]. rewrite (H1 adv n F1), (H3 adv _ F2), app_length, Nat.add_assoc.
    reflexivity.
  - exists l1. split; auto. intros adv n F. rewrite (H1 adv n F). reflexivity.
  - exists l1. split; auto. intros adv n F. rewrite (H1 adv n F). reflexivity.
Qed.

Lemma can_ask a : a_panics a = false -> can ask (Ok a).
Proof.
  intros H. exists [a]. split; [repeat constructor; auto|]. intros adv n F. unfold ask.
  specialize (F 0%nat a eq_refl). rewrite Nat.add_0_r in F. rewrite F, H. cbn. rewrite Nat.add_1_r. reflexivity.
Qed.

Lemma can_ask_then {A} a (k : answer -> hostile A) r : a_panics a = false -> can (k a) r -> can (andthen ask k) r.
Proof. intros H C. apply (can_then ask k (Ok a) (fun _ => r)); [apply can_ask; auto|]. intros x E. injection E as <-. exact C. Qed.

Lemma can_bool b : can ask_bool (Ok b).
Proof. apply (can_ask_then {| a_panics := false; a_bool := b; a_order := Eq; a_number := 0 |}); [reflexivity|apply can_ret]. Qed.

Lemma can_order c : can ask_order (Ok c).
Proof. apply (can_ask_then {| a_panics := false; a_bool := false; a_order := c; a_number := 0 |}); [reflexivity|apply can_ret]. Qed.

Lemma can_number x : x < two64 -> can ask_number (Ok x).
Proof.
  intros H. apply (can_ask_then {| a_panics := false; a_bool := false; a_order := Eq; a_number := x |}); [reflexivity|].
  cbn [a_number]. rewrite (N.mod_small x two64 H). apply can_ret.
Qed.

Lemma can_bool_then {A} b (k : bool -> hostile A) r : can (k b) r -> can (andthen ask_bool k) r.
Proof. intros C. apply (can_then ask_bool k (Ok b) (fun _ => r)); [apply can_bool|]. intros x E. injection E as <-. exact C. Qed.

Lemma can_order_then {A} b (k : comparison -> hostile A) r : can (k b) r -> can (andthen ask_order k) r.
Proof. intros C. apply (can_then ask_order k (Ok b) (fun _ => r)); [apply can_order|]. intros x E. injection E as <-. exact C. Qed.

Lemma can_number_then {A} b (k : N -> hostile A) r : b < two64 -> can (k b) r -> can (andthen ask_number k) r.
Proof.
  intros H C. apply (can_then ask_number k (Ok b) (fun _ => r)); [apply can_number; auto|]. intros x E. injection E as <-. exact C.
Qed.

Lemma can_ok_then {A B} (x : hostile A) a (k : A -> hostile B) r : can x (Ok a) -> can (k a) r -> can (andthen x k) r.
Proof. intros C D. apply (can_then x k (Ok a) (fun _ => r)); auto. intros y E. injection E as <-. exact D. Qed.

Lemma can_lift_then {A B} (y : res A) (k : A -> hostile B) f : (forall a, y = Ok a -> can (k a) (f a)) -> can (andthen (lift y) k) (bind y f).
Proof. intros H. apply can_then; auto. apply can_lift. Qed.

Lemma can_fmap {A B} (x : hostile A) (g : A -> B) r : can x r -> can (andthen x (fun a => ret (g a))) (fmap g r).
Proof.
  intros H. replace (fmap g r) with (bind r (fun a => Ok (g a))) by (destruct r; reflexivity). apply can_then; auto.
  intros a _. apply can_ret.
Qed.

Lemma can_eq {A} (x : hostile A) r r' : can x r -> r = r' -> can x r'.
Proof. intros H <-. exact H. Qed.

(** * Deduplication *)
Lemma can_using_eq {T} (eq : T -> T -> bool) l : can (h_using_eq l) (Ok (using_eq l eq)).
Proof.
  assert (I : forall r (x : T), can (h_using_eq_inner r) (Ok (using_eq_inner eq x r))).
  { induction r as [|y r IH]; intros x; cbn [h_using_eq_inner using_eq_inner]; [apply can_ret|].
    apply (can_bool_then (eq x y)). destruct (eq x y); [apply can_ret|apply IH]. }
  assert (D : forall r i d, can (h_using_eq_dupes i r d) (Ok (using_eq_dupes eq i r d))).
  { induction r as [|y r IH]; intros i d; cbn [h_using_eq_dupes using_eq_dupes]; [apply can_ret|].
    eapply can_ok_then; [apply (I r y)|]. apply IH. }
  unfold h_using_eq, using_eq. destruct (Nat.leb 2 (length l)); [|apply can_ret].
  eapply can_ok_then; [apply D|]. apply can_ret.
Qed.

(** What [find_entry] takes out is at some place. *)
Lemma keep_find_at {T} h (eq : T -> bool) : forall keep old keep', keep_find_remove h eq keep = Some (old, keep') ->
  exists p, nth_error (map (fun x => snd (fst x)) keep) p = Some old /\
    map (fun x => snd (fst x)) keep' = remove_nth p (map (fun x => snd (fst x)) keep).
Proof.
  induction keep as [|[[h' i] y] r IH]; intros old keep' E; cbn [keep_find_remove] in E; [discriminate|].
  destruct ((h' =? h) && eq y)%bool.
  - injection E as <- <-. exists 0%nat. split; reflexivity.
  - destruct (keep_find_remove h eq r) as [[j r']|] eqn:F; [|discriminate]. injection E as <- <-.
    destruct (IH _ _ eq_refl) as [p [A B]]. exists (S p). split; [exact A|]. cbn [map]. rewrite B. reflexivity.
Qed.

Lemma pick_mod {A} (l : list A) p x : nth_error l p = Some x -> N.to_nat (N.of_nat p mod N.of_nat (length l)) = p.
Proof. intros H. assert (p < length l)%nat by (apply nth_error_Some; congruence). rewrite N.mod_small by lia. apply Nat2N.id. Qed.

Lemma can_using_hash {T} (hasher : T -> N) (eq : T -> T -> bool) l : can (h_using_hash l) (Ok (using_hash l hasher eq)).
Proof.
  assert (D : forall r index (keep : keep_table T) d,
    can (h_using_hash_dupes index r (map (fun x => snd (fst x)) keep) d) (Ok (using_hash_dupes hasher eq index r keep d))).
  { induction r as [|y r IH]; intros index keep d; cbn [h_using_hash_dupes using_hash_dupes]; [apply can_ret|].
    apply (can_number_then 0); [reflexivity|]. cbv zeta.
    destruct (keep_find_remove (hasher y) (eq y) keep) as [[old keep']|] eqn:F.
    - destruct (keep_find_at _ _ _ _ _ F) as [p [A B]].
      apply (can_ask_then {| a_panics := false; a_bool := true; a_order := Eq; a_number := N.of_nat p |}); [reflexivity|].
      cbn [a_bool a_number]. rewrite (pick_mod _ _ _ A), A, <- B. apply (IH (S index) ((hasher y, index, y) :: keep')).
    - apply (can_ask_then {| a_panics := false; a_bool := false; a_order := Eq; a_number := 0 |}); [reflexivity|].
      cbn [a_bool]. apply (IH (S index) ((hasher y, index, y) :: keep)). }
  unfold h_using_hash, using_hash. destruct (Nat.leb 2 (length l)); [|apply can_ret].
  eapply can_ok_then; [apply (D l 0%nat [] [])|]. apply can_ret.
Qed.

(** Every permutation can come out of the sort. *)
Lemma can_sort {T} : forall (l' l : list T), Permutation l l' -> can (h_sort (length l) l) (Ok l').
Proof.
  induction l' as [|x r IH]; intros l P.
  - apply Permutation_sym, Permutation_nil in P. subst l. apply can_ret.
  - assert (E : length l = S (length r)) by (rewrite (Permutation_length P); reflexivity). rewrite E. cbn [h_sort].
    assert (I : In x l) by (eapply Permutation_in; [apply Permutation_sym; exact P|left; reflexivity]).
    destruct (In_nth_error _ _ I) as [i Hi].
    apply (can_ask_then {| a_panics := false; a_bool := false; a_order := Eq; a_number := N.of_nat i |}); [reflexivity|].
    cbn [a_number]. cbv zeta. rewrite (pick_mod _ _ _ Hi), Hi.
    assert (P' : Permutation (remove_nth i l) r).
    { apply (Permutation_cons_inv (a := x)). eapply perm_trans; [apply Permutation_sym, remove_nth_perm; exact Hi|exact P]. }
    rewrite <- (Permutation_length P'). eapply can_ok_then; [apply IH; exact P'|]. apply can_ret.
Qed.

Lemma can_sorted {T} (cmp : T -> T -> comparison) l : can (h_sorted_and_dedupped l) (Ok (sorted_and_dedupped l cmp)).
Proof.
  assert (D : forall r i d, can (h_adjacent_dupes i r d) (Ok (adjacent_dupes cmp i r d))).
  { induction r as [|x r IH]; intros i d; cbn [h_adjacent_dupes adjacent_dupes]; [apply can_ret|].
    destruct r as [|y r]; [apply can_ret|]. apply (can_order_then (cmp x y)). apply IH. }
  unfold h_sorted_and_dedupped, sorted_and_dedupped.
  eapply can_ok_then; [apply can_sort, (stable_sort_perm cmp)|]. destruct (Nat.leb 2 (length (stable_sort cmp l))); [|apply can_ret].
  eapply can_ok_then; [apply D|]. apply can_ret.
Qed.

(** * Constructors *)
Section Make.
Context {K V : Type}.
Variable idx : K -> N.
Hypothesis idx64 : forall k, idx k < two64.

Lemma can_dense_from (es : list (K * V)) : can (h_dense_from_sorted es) (dense_from_sorted idx es).
Proof.
  unfold h_dense_from_sorted, dense_from_sorted. apply can_lift_then. intros first _.
  apply (can_number_then (idx (fst first))); auto. apply can_lift_then. intros last _.
  apply (can_number_then (idx (fst last))); auto. apply can_ret.
Qed.

Lemma can_dense_new md (es : list (K * V)) : can (h_dense_new_sorted md es) (dense_new_sorted md idx es).
Proof.
  unfold h_dense_new_sorted, dense_new_sorted. destruct (is_nil es); [apply can_ret|]. apply can_lift_then. intros first _.
  apply (can_number_then (idx (fst first))); auto. apply can_lift_then. intros last _.
  apply (can_number_then (idx (fst last))); auto. apply can_lift_then. intros d _. apply can_lift_then. intros needed _.
  destruct (N.of_nat (length es) =? needed); [|apply can_ret]. apply can_fmap, can_dense_from.
Qed.

Lemma can_sparse_fill md mn : forall (es : list (K * V)) i lookup, can (h_sparse_fill md mn i es lookup) (sparse_fill md idx mn i es lookup).
Proof.
  induction es as [|e r IH]; intros i lookup; cbn [h_sparse_fill sparse_fill]; [apply can_ret|].
  apply (can_number_then (idx (fst e))); auto. apply can_lift_then. intros j _. apply can_lift_then. intros l _. apply IH.
Qed.

Lemma can_sparse_from md (es : list (K * V)) : can (h_sparse_from_sorted md es) (sparse_from_sorted md idx es).
Proof.
  unfold h_sparse_from_sorted, sparse_from_sorted. apply can_lift_then. intros first _.
  apply (can_number_then (idx (fst first))); auto. apply can_lift_then. intros last _.
  apply (can_number_then (idx (fst last))); auto. cbv zeta. apply can_lift_then. intros d _. apply can_lift_then. intros count _.
  apply can_then; [apply can_sparse_fill|]. intros lookup _. apply can_ret.
Qed.

Lemma can_min_max : forall (es : list (K * V)) mn mx c,
  can (h_scalar_min_max es mn mx c) (Ok (scalar_min_max (map (fun e => idx (fst e)) es) mn mx c)).
Proof.
  induction es as [|e r IH]; intros mn mx c; cbn [h_scalar_min_max scalar_min_max map]; [apply can_ret|].
  apply (can_number_then (idx (fst e))); auto. apply (can_number_then (idx (fst e))); auto.
Qed.

Lemma can_analyze md (es : list (K * V)) :
  can (h_analyze_scalar_keys md es) (analyze_scalar_keys md (map (fun e => idx (fst e)) es)).
Proof.
  unfold h_analyze_scalar_keys, analyze_scalar_keys. eapply can_ok_then; [apply can_min_max|].
  destruct (scalar_min_max _ _ _ _) as [[mn mx] count]. destruct (count =? 0); [apply can_ret|].
  apply can_lift_then. intros d _. apply can_lift_then. intros needed _.
  destruct (needed =? count); [apply can_ret|]. destruct ((needed <=? 128) || (needed <? saturating_mul count 10)); apply can_ret.
Qed.
End Make.

Section Hashed.
Context {T : Type}.
Variable hash : T -> res N.

Lemma can_codes : forall l, (forall e, In e l -> exists h, hash e = Ok h /\ h < two64) -> can (h_codes l) (mapM hash l).
Proof.
  induction l as [|e r IH]; intros H; cbn [h_codes mapM]; [apply can_ret|].
  destruct (H e (or_introl eq_refl)) as [h [E B]]. rewrite E. cbn [bind]. apply (can_number_then h); auto.
  apply can_then; [apply IH; intros x Hx; apply H; right; auto|]. intros hs _. apply can_ret.
Qed.

Lemma can_prep slots : forall l, (forall e, In e l -> exists h, hash e = Ok h /\ h < two64) ->
  can (h_prep_items slots l) (mapM (fun e => h <- hash e ;; if slots =? 0 then Panic else Ok (h mod slots, e)) l).
Proof.
  induction l as [|e r IH]; intros H; cbn [h_prep_items mapM]; [apply can_ret|].
  destruct (H e (or_introl eq_refl)) as [h [E B]]. rewrite E. cbn [bind]. apply (can_number_then h); auto.
  destruct (slots =? 0).
  { apply (can_then (lift Panic) _ Panic (fun _ => Panic)); [apply can_lift|discriminate]. }
  cbn [bind].
  eapply can_ok_then; [apply can_lift|]. apply can_then; [apply IH; intros x Hx; apply H; right; auto|]. intros items _. apply can_ret.
Qed.

Lemma can_ht_new usort cm l : (forall e, In e l -> exists h, hash e = Ok h /\ h < two64) -> can (h_ht_new usort cm l) (ht_new usort cm l hash).
Proof.
  intros H. unfold h_ht_new, ht_new. destruct (is_nil l); [apply can_ret|].
  destruct (max_capacity cm <? N.of_nat (length l)); [apply can_ret|].
  apply can_then; [apply can_codes; auto|]. intros codes _. apply can_lift_then. intros a _. cbv zeta. unfold prep_items.
  apply can_then; [apply can_prep; intros e He; apply H, in_rev; auto|]. intros items _. apply can_lift_then. intros [slots fe] _.
  apply can_lift_then. intros mask _. apply can_ret.
Qed.
End Hashed.

Lemma can_hash_from {K V} usort cm (hK : K -> res N) (l : list (K * V)) : (forall e, In e l -> exists h, hK (fst e) = Ok h /\ h < two64) ->
  can (h_hash_from_dedupped usort cm l) (hash_from_dedupped usort cm hK l).
Proof.
  intros H. unfold h_hash_from_dedupped, hash_from_dedupped. apply can_then; [apply (can_ht_new (fun e => hK (fst e))); auto|].
  intros t _. apply can_ret.
Qed.

(** * Queries *)

(** The hostile requests to [any m] can do what [ops] does to [m], as long as [inv], which lasts. *)
Definition emulates {M K V Q} (ops : map_ops M K V Q) (any : M -> any_map K V) (inv : M -> Prop) : Prop :=
  forall q rq m, inv m ->
    can (h_request rq (any m)) (fmap (fun x => (fst x, any (snd x))) (plain_request ops q rq m)) /\
    plain_request ops q rq m <> Panic /\ forall x, plain_request ops q rq m = Ok x -> inv (snd x).

(** It is enough to look at the three lookups. *)
Lemma emulates_by {M K V Q} (ops : map_ops M K V Q) (any : M -> any_map K V) (inv : M -> Prop) :
  (forall m, any_entries (any m) = mo_entries ops m) ->
  (forall m es, any_with_entries (any m) es = any (mo_with_entries ops m es)) ->
  (forall m q, mo_contains_key ops m q = fmap is_some (mo_get ops m q)) ->
  (forall m es, inv m -> inv (mo_with_entries ops m es)) ->
  (forall m q, inv m -> can (h_get (any m)) (mo_get ops m q) /\ can (h_get_mut (any m)) (mo_get_mut ops m q) /\
     can (h_get_key_value (any m)) (mo_get_key_value ops m q)) ->
  (forall m q, inv m -> mo_get ops m q <> Panic /\ mo_get_mut ops m q <> Panic /\ mo_get_key_value ops m q <> Panic) ->
  (forall m q p, inv m -> mo_get_mut ops m q = Ok (Some p) -> (p < length (mo_entries ops m))%nat) ->
  emulates ops any inv.
Proof.
  intros HE HW HC HI HG HP HR q rq m Im. destruct (HG m q Im) as [G1 [G2 G3]]. destruct (HP m q Im) as [P1 [P2 P3]].
  unfold h_request, plain_request. destruct rq as [|v| |].
  - repeat split.
    + apply (can_eq _ (bind (mo_get ops m q) (fun o => Ok (RpValue o, any m)))); [|destruct (mo_get ops m q); reflexivity].
      apply can_then; auto. intros o _. apply can_ret.
    + destruct (mo_get ops m q); cbn [bind]; congruence.
    + intros x E. destruct (mo_get ops m q); cbn [bind] in E; [|discriminate..]. injection E as <-. exact Im.
  - unfold map_put. destruct (mo_get_mut ops m q) as [[p|]| |] eqn:E; cbn [bind fmap] in *; try congruence.
    + pose proof (HR m q p Im E) as L. destruct (nth_error (mo_entries ops m) p) as [e|] eqn:Ee; [|apply nth_error_None in Ee; lia].
      unfold write_value. rewrite Ee. cbn [fst snd is_some]. repeat split; [|discriminate|intros x Ex; injection Ex as <-; cbn [snd]; auto].
      eapply can_ok_then; [exact G2|]. cbn beta iota. rewrite HE, <- HW. eapply can_ok_then; [|apply can_ret].
      unfold get_unchecked. rewrite Ee. apply can_lift.
    + repeat split; [|discriminate|intros x Ex; injection Ex as <-; exact Im].
      eapply can_ok_then; [exact G2|]. apply can_ret.
    + repeat split; try discriminate.
      apply (can_then (h_get_mut (any m)) _ UB (fun _ => UB)); [exact G2|discriminate].
  - repeat split.
    + apply (can_eq _ (bind (mo_get_key_value ops m q) (fun o => Ok (RpEntry o, any m)))); [|destruct (mo_get_key_value ops m q); reflexivity].
      apply can_then; auto. intros o _. apply can_ret.
    + destruct (mo_get_key_value ops m q); cbn [bind]; congruence.
    + intros x E. destruct (mo_get_key_value ops m q); cbn [bind] in E; [|discriminate..]. injection E as <-. exact Im.
  - rewrite HC. repeat split.
    + unfold h_contains_key.
      apply (can_eq _ (bind (fmap is_some (mo_get ops m q)) (fun o => Ok (RpBool o, any m)))); [|destruct (mo_get ops m q); reflexivity].
      apply can_then; [apply can_fmap; auto|]. intros o _. apply can_ret.
    + destruct (mo_get ops m q); cbn [bind fmap]; congruence.
    + intros x E. destruct (mo_get ops m q); cbn [bind fmap] in E; [|discriminate..]. injection E as <-. exact Im.
Qed.

Lemma unchecked_calm {A} (l : list A) i : get_unchecked l i <> Panic.
Proof. unfold get_unchecked. destruct (nth_error l i); discriminate. Qed.

Lemma bind_calm {A B} (x : res A) (k : A -> res B) : x <> Panic -> (forall a, x = Ok a -> k a <> Panic) -> bind x k <> Panic.
Proof. intros H1 H2. destruct x; cbn [bind]; auto. discriminate. Qed.

Lemma fmap_calm {A B} (x : res A) (g : A -> B) : x <> Panic -> fmap g x <> Panic.
Proof. intros H. destruct x; cbn [fmap]; congruence. Qed.

Lemma unchecked_inv {A} (l : list A) i x : get_unchecked l i = Ok x -> (i < length l)%nat.
Proof. unfold get_unchecked. destruct (nth_error l i) eqn:E; [|discriminate]. intros _. apply nth_error_Some. congruence. Qed.

Lemma emulates_scan {K V Q} (eqv : Q -> K -> bool) : emulates (scan_ops eqv) (@AnyScan K V) (fun _ => True).
Proof.
  apply emulates_by; auto.
  - intros [es] q _. cbn [h_get h_get_mut h_get_key_value mo_get mo_get_mut mo_get_key_value scan_ops sm_entries].
    unfold scan_get, scan_get_mut, scan_get_key_value. cbn [sm_entries].
    generalize (@None V) (@None nat) (@None (K * V)) 0%nat. induction es as [|e r IH]; intros a b c i.
    + repeat split; apply can_ret.
    + cbn [h_scan_get h_scan_get_mut h_scan_get_key_value scan_get_loop scan_get_mut_loop scan_get_key_value_loop].
      destruct (IH (if eqv q (fst e) then Some (snd e) else a) (if eqv q (fst e) then Some i else b)
        (if eqv q (fst e) then Some (fst e, snd e) else c) (S i)) as [A [B C]].
      repeat split; apply (can_bool_then (eqv q (fst e))); auto.
  - intros m q _. repeat split; discriminate.
  - intros [es] q p _ E. cbn in *. unfold scan_get_mut in E. injection E as E. cbn [sm_entries] in E.
    assert (G : forall es pos o, (forall p, o = Some p -> (p < pos)%nat) -> forall p, scan_get_mut_loop eqv (V := V) es pos q o = Some p ->
      (p < pos + length es)%nat).
    { clear. induction es as [|e r IH]; intros pos o Ho p H; cbn [scan_get_mut_loop length] in *; [rewrite Nat.add_0_r; auto|].
      apply IH in H; [lia|]. intros p' E. destruct (eqv q (fst e)); [injection E as <-; lia|]. apply Ho in E. lia. }
    apply (G es 0%nat None) in E; auto. discriminate.
Qed.

Lemma can_search {T} (data : list T) f : can (h_search data) (eytzinger_search_by data f).
Proof.
  unfold h_search, eytzinger_search_by. generalize (S (length data)) 0%nat. induction n as [|fuel IH]; intros i; cbn [h_search_loop eytzinger_search_loop];
    [apply can_lift|]. destruct (nth_error data i) as [v|]; [|apply can_ret].
  apply (can_order_then (f v)). destruct (f v); [apply can_ret|apply IH|apply IH].
Qed.

Lemma emulates_ordered {K V Q} (cmpQ : Q -> K -> comparison) : emulates (eytzinger_ops cmpQ) (@AnyOrdered K V) (fun _ => True).
Proof.
  assert (S : forall (m : eytzinger_map K V) q, eytzinger_search_by (em_entries m) (fun entry => CompOpp (cmpQ q (fst entry))) <> Panic).
  { intros m q. destruct (search_cost (em_entries m) (fun entry => CompOpp (cmpQ q (fst entry)))) as [o [log [_ [E _]]]]. rewrite E. discriminate. }
  apply emulates_by; auto.
  - intros m q _. cbn [h_get h_get_mut h_get_key_value mo_get mo_get_mut mo_get_key_value eytzinger_ops].
    unfold eytzinger_get, eytzinger_get_mut, eytzinger_get_key_value.
    repeat split; (apply can_then; [apply can_search|]); intros [i|] _; try apply can_ret; apply can_lift_then; intros e _; apply can_ret.
  - intros m q _. cbn. unfold eytzinger_get, eytzinger_get_mut, eytzinger_get_key_value.
    repeat split; (apply bind_calm; [apply S|]); intros [i|] _; try discriminate; (apply bind_calm; [apply unchecked_calm|discriminate]).
  - intros m q p _ E. cbn in *. unfold eytzinger_get_mut in E. destruct (eytzinger_search_by _ _) as [[i|]| |]; cbn [bind] in E; try discriminate.
    destruct (get_unchecked (em_entries m) i) eqn:G; cbn [bind] in E; try discriminate. injection E as <-. eapply unchecked_inv; eauto.
Qed.

Lemma emulates_dense {K V Q} (idxQ : Q -> N) : (forall q, idxQ q < two64) -> emulates (dense_ops idxQ) (@AnyDense K V) (fun _ => True).
Proof.
  intros H. apply emulates_by; auto.
  - intros m q _. cbn [h_get h_get_mut h_get_key_value mo_get mo_get_mut mo_get_key_value dense_ops].
    repeat split; apply (can_number_then (idxQ q)); auto; apply can_lift.
  - intros m q _. cbn. unfold dense_get, dense_get_mut, dense_get_key_value. cbv zeta.
    destruct ((dm_min m <=? idxQ q) && (idxQ q <=? dm_max m))%bool; repeat split; try discriminate;
      (apply bind_calm; [apply unchecked_calm|discriminate]).
  - intros m q p _ E. cbn in *. unfold dense_get_mut in E. cbv zeta in E.
    destruct ((dm_min m <=? idxQ q) && (idxQ q <=? dm_max m))%bool; [|discriminate].
    destruct (get_unchecked (dm_entries m) (N.to_nat (idxQ q - dm_min m))) eqn:G; cbn [bind] in E; try discriminate.
    injection E as <-. eapply unchecked_inv; eauto.
Qed.

Lemma emulates_sparse {K V Q} (idxQ : Q -> N) : (forall q, idxQ q < two64) -> emulates (sparse_ops idxQ) (@AnySparse K V) (fun _ => True).
Proof.
  intros H. apply emulates_by; auto.
  - intros m q _. cbn [h_get h_get_mut h_get_key_value mo_get mo_get_mut mo_get_key_value sparse_ops].
    repeat split; apply (can_number_then (idxQ q)); auto; apply can_lift.
  - intros m q _. cbn. unfold sparse_get, sparse_get_mut, sparse_get_key_value. cbv zeta.
    destruct ((sp_min m <=? idxQ q) && (idxQ q <=? sp_max m))%bool; repeat split; try discriminate;
      (apply bind_calm; [apply unchecked_calm|]); intros i _; (destruct (0 <? i); [|discriminate]);
      (apply bind_calm; [apply unchecked_calm|discriminate]).
  - intros m q p _ E. cbn in *. unfold sparse_get_mut in E. cbv zeta in E.
    destruct ((sp_min m <=? idxQ q) && (idxQ q <=? sp_max m))%bool; [|discriminate].
    destruct (get_unchecked (sp_lookup m) _) as [i| |]; cbn [bind] in E; try discriminate. destruct (0 <? i); [|discriminate].
    destruct (get_unchecked (sp_entries m) _) eqn:G; cbn [bind] in E; try discriminate. injection E as <-. eapply unchecked_inv; eauto.
Qed.

Lemma slice_calm {A} (l : list A) lo hi : slice_unchecked l lo hi <> Panic.
Proof. unfold slice_unchecked. destruct (_ && _)%bool; discriminate. Qed.

Lemma can_find {T} (t : hash_table T) h eq : can (h_ht_find t h) (ht_find t h eq).
Proof.
  unfold h_ht_find, ht_find. apply can_lift_then. intros [mn mx] _. apply can_lift_then. intros es _.
  induction es as [|e r IH]; cbn [h_scan_slot scan_slot]; [apply can_ret|]. apply (can_bool_then (eq e)). destruct (eq e); [apply can_ret|apply IH].
Qed.

Lemma can_find_mut {T} (t : hash_table T) h eq : can (h_ht_find_mut t h) (ht_find_mut t h eq).
Proof.
  unfold h_ht_find_mut, ht_find_mut. apply can_lift_then. intros [mn mx] _. apply can_lift_then. intros es _. generalize (N.to_nat mn).
  induction es as [|e r IH]; intros pos; cbn [h_scan_slot_mut scan_slot_mut]; [apply can_ret|].
  apply (can_bool_then (eq e)). destruct (eq e); [apply can_ret|apply IH].
Qed.

Lemma find_calm {T} (t : hash_table T) h eq : ht_find t h eq <> Panic /\ ht_find_mut t h eq <> Panic.
Proof.
  unfold ht_find, ht_find_mut. split; (apply bind_calm; [apply unchecked_calm|]); intros [mn mx] _; (apply bind_calm; [apply slice_calm|discriminate]).
Qed.

Lemma find_mut_range {T} (t : hash_table T) h eq p : ht_find_mut t h eq = Ok (Some p) -> (p < length (ht_entries t))%nat.
Proof.
  unfold ht_find_mut. destruct (get_unchecked (ht_slots t) _) as [[mn mx]| |]; cbn [bind]; try discriminate.
  unfold slice_unchecked. destruct (Nat.leb (N.to_nat mn) (N.to_nat mx) && Nat.leb (N.to_nat mx) (length (ht_entries t)))%bool eqn:B; cbn [bind]; [|discriminate].
  apply andb_prop in B. destruct B as [B1 B2]. apply Nat.leb_le in B1, B2. intros E. injection E as E.
  assert (G : forall l pos, scan_slot_mut eq pos l = Some p -> (p < pos + length l)%nat).
  { clear. induction l as [|e r IH]; intros pos E; cbn [scan_slot_mut length] in *; [discriminate|].
    destruct (eq e); [injection E as <-; lia|]. apply IH in E. lia. }
  apply G in E. rewrite firstn_length, skipn_length in E. lia.
Qed.

Lemma hash_parts {K V Q} (hQ : Q -> res N) (eqv : Q -> K -> bool) (m : hash_map K V) q h : hQ q = Ok h -> h < two64 ->
  (can (h_get (AnyHash m)) (hash_get hQ eqv m q) /\ can (h_get_mut (AnyHash m)) (hash_get_mut hQ eqv m q) /\
   can (h_get_key_value (AnyHash m)) (hash_get_key_value hQ eqv m q)) /\
  (hash_get hQ eqv m q <> Panic /\ hash_get_mut hQ eqv m q <> Panic /\ hash_get_key_value hQ eqv m q <> Panic) /\
  (forall p, hash_get_mut hQ eqv m q = Ok (Some p) -> (p < length (ht_entries (hm_table m)))%nat).
Proof.
  intros E B. unfold hash_get, hash_get_mut, hash_get_key_value. rewrite E. cbn [bind]. repeat split.
  - cbn [h_get]. apply (can_number_then h); auto. apply can_fmap, can_find.
  - cbn [h_get_mut]. apply (can_number_then h); auto. apply can_find_mut.
  - cbn [h_get_key_value]. apply (can_number_then h); auto. apply can_fmap, can_find.
  - apply fmap_calm, find_calm.
  - apply find_calm.
  - apply fmap_calm, find_calm.
  - intros p. apply find_mut_range.
Qed.

Lemma emulates_hash {K V Q} (hQ : Q -> res N) (eqv : Q -> K -> bool) : (forall q, exists h, hQ q = Ok h /\ h < two64) ->
  emulates (hash_ops hQ eqv) (@AnyHash K V) (fun _ => True).
Proof.
  intros H. apply emulates_by; auto.
  - intros m q _. destruct (H q) as [h [E B]]. apply (hash_parts hQ eqv m q h E B).
  - intros m q _. destruct (H q) as [h [E B]]. apply (hash_parts hQ eqv m q h E B).
  - intros m q p _. destruct (H q) as [h [E B]]. apply (hash_parts hQ eqv m q h E B).
Qed.

Lemma emulates_nc {K V Q} (hQ : Q -> res N) (eqv : Q -> K -> bool) : (forall q, exists h, hQ q = Ok h /\ h < two64) ->
  emulates (nc_ops hQ eqv) (@AnyNoCollisions K V) (fun _ => True).
Proof.
  intros H. apply emulates_by; auto.
  - intros m q _. destruct (H q) as [h [E B]]. cbn [h_get h_get_mut h_get_key_value mo_get mo_get_mut mo_get_key_value nc_ops].
    unfold nc_get, nc_get_mut, nc_get_key_value. rewrite E. cbn [bind].
    assert (F : can (h_nc_find (ncm_table m) h) (nc_find (ncm_table m) h (fun entry => eqv q (fst entry)))).
    { unfold h_nc_find, nc_find. apply can_lift_then. intros i _. destruct (0 <? i); [|apply can_ret]. apply can_lift_then. intros e _.
      apply (can_bool_then (eqv q (fst e))). apply can_ret. }
    repeat split; apply (can_number_then h); auto; try (apply can_fmap; exact F).
    unfold h_nc_find_mut, nc_find_mut. apply can_lift_then. intros i _. destruct (0 <? i); [|apply can_ret]. apply can_lift_then. intros e _.
    apply (can_bool_then (eqv q (fst e))). apply can_ret.
  - intros m q _. destruct (H q) as [h [E B]]. cbn. unfold nc_get, nc_get_mut, nc_get_key_value. rewrite E. cbn [bind].
    assert (F : nc_find (ncm_table m) h (fun entry => eqv q (fst entry)) <> Panic /\
                nc_find_mut (ncm_table m) h (fun entry => eqv q (fst entry)) <> Panic).
    { unfold nc_find, nc_find_mut. split; (apply bind_calm; [apply unchecked_calm|]); intros i _; (destruct (0 <? i); [|discriminate]);
        (apply bind_calm; [apply unchecked_calm|discriminate]). }
    destruct F. repeat split; auto; apply fmap_calm; auto.
  - intros m q p _ E. destruct (H q) as [h [Eh B]]. cbn in *. unfold nc_get_mut, nc_find_mut in E. rewrite Eh in E. cbn [bind] in E.
    destruct (get_unchecked (nc_slots (ncm_table m)) _) as [i| |]; cbn [bind] in E; try discriminate. destruct (0 <? i); [|discriminate].
    destruct (get_unchecked (nc_entries (ncm_table m)) _) as [e| |] eqn:G; cbn [bind] in E; try discriminate.
    destruct (eqv q (fst e)); [|discriminate]. injection E as <-. eapply unchecked_inv; eauto.
Qed.

(** The hasher that a string map carries. *)
Definition string_code {V} (m : fz_string_map V) (q : bytes) : res N :=
  match m with
  | SmLeft bh lo hi _ => left_range_hash_one bh lo hi q
  | SmRight bh lo hi _ => right_range_hash_one bh lo hi q
  | SmHash bh _ => bridge_hash_one bh q
  end.

Lemma emulates_string {V} : emulates (@fz_string_ops V) string_any (fun m => forall q, exists h, string_code m q = Ok h /\ h < two64).
Proof.
  apply emulates_by.
  - intros []; reflexivity.
  - intros [] es; reflexivity.
  - intros [] q; reflexivity.
  - intros [] es H q; exact (H q).
  - intros m q H. destruct (H q) as [h [E B]]. destruct m as [bh lo hi m|bh lo hi m|bh m].
    + apply (hash_parts (left_range_hash_one bh lo hi) bytes_eqb m q h E B).
    + apply (hash_parts (right_range_hash_one bh lo hi) bytes_eqb m q h E B).
    + apply (hash_parts (bridge_hash_one bh) bytes_eqb m q h E B).
  - intros m q H. destruct (H q) as [h [E B]]. destruct m as [bh lo hi m|bh lo hi m|bh m].
    + apply (hash_parts (left_range_hash_one bh lo hi) bytes_eqb m q h E B).
    + apply (hash_parts (right_range_hash_one bh lo hi) bytes_eqb m q h E B).
    + apply (hash_parts (bridge_hash_one bh) bytes_eqb m q h E B).
  - intros m q p H. destruct (H q) as [h [E B]]. destruct m as [bh lo hi m|bh lo hi m|bh m].
    + apply (hash_parts (left_range_hash_one bh lo hi) bytes_eqb m q h E B).
    + apply (hash_parts (right_range_hash_one bh lo hi) bytes_eqb m q h E B).
    + apply (hash_parts (bridge_hash_one bh) bytes_eqb m q h E B).
Qed.

Lemma emulates_scalar {K V Q} (idxQ : Q -> N) (eqv : Q -> K -> bool) : (forall q, idxQ q < two64) ->
  emulates (fz_scalar_ops idxQ eqv) (@scalar_any K V) (fun _ => True).
Proof.
  intros H q rq m _.
  assert (W : forall (M' : Type) (ops : map_ops M' K V Q) (wrap : M' -> fz_scalar_map K V) any', emulates ops any' (fun _ => True) ->
    (forall m', scalar_any (wrap m') = any' m') ->
    (forall m', plain_request (fz_scalar_ops idxQ eqv) q rq (wrap m') = fmap (fun x => (fst x, wrap (snd x))) (plain_request ops q rq m')) ->
    forall m', can (h_request rq (scalar_any (wrap m')))
        (fmap (fun x => (fst x, scalar_any (snd x))) (plain_request (fz_scalar_ops idxQ eqv) q rq (wrap m'))) /\
      plain_request (fz_scalar_ops idxQ eqv) q rq (wrap m') <> Panic /\
      forall x, plain_request (fz_scalar_ops idxQ eqv) q rq (wrap m') = Ok x -> True).
  { intros M' ops wrap any' HE HA HP m'. destruct (HE q rq m' I) as [A [B _]]. rewrite HP, HA. repeat split; [|apply fmap_calm; auto].
    eapply can_eq; [exact A|]. destruct (plain_request ops q rq m') as [[rp m'']| |]; cbn; rewrite ?HA; reflexivity. }
  assert (D : forall (M' : Type) (ops : map_ops M' K V Q) (wrap : M' -> fz_scalar_map K V),
    (forall m', mo_get (fz_scalar_ops idxQ eqv) (wrap m') q = mo_get ops m' q /\ mo_get_mut (fz_scalar_ops idxQ eqv) (wrap m') q = mo_get_mut ops m' q /\
      mo_get_key_value (fz_scalar_ops idxQ eqv) (wrap m') q = mo_get_key_value ops m' q /\
      mo_contains_key (fz_scalar_ops idxQ eqv) (wrap m') q = mo_contains_key ops m' q /\
      mo_entries (fz_scalar_ops idxQ eqv) (wrap m') = mo_entries ops m' /\
      forall es, mo_with_entries (fz_scalar_ops idxQ eqv) (wrap m') es = wrap (mo_with_entries ops m' es)) ->
    forall m', plain_request (fz_scalar_ops idxQ eqv) q rq (wrap m') = fmap (fun x => (fst x, wrap (snd x))) (plain_request ops q rq m')).
  { intros M' ops wrap HD m'. destruct (HD m') as [D1 [D2 [D3 [D4 [D5 D6]]]]]. unfold plain_request, map_put. destruct rq; rewrite ?D1, ?D2, ?D3, ?D4.
    - destruct (mo_get ops m' q); reflexivity.
    - destruct (mo_get_mut ops m' q) as [[p|]| |]; cbn [bind fmap]; rewrite ?D5, ?D6; reflexivity.
    - destruct (mo_get_key_value ops m' q); reflexivity.
    - destruct (mo_contains_key ops m' q); reflexivity. }
  destruct m as [m|m|m].
  - apply (W _ (hash_ops (fun q => scalar_hash_one (idxQ q)) eqv) FsHash AnyHash); [apply emulates_hash; intros q'; exists (idxQ q'); split; auto; reflexivity|reflexivity|].
    apply D. intros m'. repeat split.
  - apply (W _ (dense_ops idxQ) FsDense AnyDense); [apply emulates_dense; auto|reflexivity|]. apply D. intros m'. repeat split.
  - apply (W _ (sparse_ops idxQ) FsSparse AnySparse); [apply emulates_sparse; auto|reflexivity|]. apply D. intros m'. repeat split.
Qed.

(** * Sessions and programs *)
Lemma can_session {M K V Q} (ops : map_ops M K V Q) any inv : emulates ops any inv -> forall rqs m, inv m ->
  can (h_session (map snd rqs) (any m)) (fmap (fun x => (fst x, any (snd x))) (plain_session ops rqs m)).
Proof.
  intros HE. induction rqs as [|[q rq] r IH]; intros m Im; cbn [map snd h_session plain_session]; [apply can_ret|].
  destruct (HE q rq m Im) as [[l1 [Q1 H1]] [NP Hinv]].
  destruct (plain_request ops q rq m) as [[rp m']| |]; cbn [fmap bind fst snd] in *; [|congruence|].
  - specialize (IH m' (Hinv _ eq_refl)).
    assert (C : can (andthen (h_session (map snd r) (any m')) (fun x => ret (Some rp :: fst x, snd x)))
      (fmap (fun x => (fst x, any (snd x))) (bind (plain_session ops r m') (fun y => Ok (Some rp :: fst y, snd y))))).
    { eapply can_eq; [apply can_fmap; exact IH|]. destruct (plain_session ops r m') as [[rps m'']| |]; reflexivity. }
    destruct C as [l2 [Q2 H2]]. exists (l1 ++ l2). split; [apply Forall_app; auto|]. intros adv n F. apply follows_app in F.
    destruct F as [F1 F2]. rewrite (H1 adv n F1), (H2 adv _ F2), app_length, Nat.add_assoc. reflexivity.
  - exists l1. split; auto. intros adv n F. rewrite (H1 adv n F). reflexivity.
Qed.

Lemma can_use {M K V Q} (ops : map_ops M K V Q) any inv usort md mk (entries : list (K * V)) rqs made :
  emulates ops any inv -> (forall m, made = Ok (ROk m) -> inv m) ->
  can (h_make usort md mk entries) (fmap (fun r => match r with ROk m => ROk (any m) | RErr s => RErr s end) made) ->
  can (h_program usort md mk entries (map snd rqs)) (plain_use ops any rqs made).
Proof.
  intros HE HI HM. unfold h_program, plain_use.
  apply (can_eq _ (bind (fmap (fun r => match r with ROk m => ROk (any m) | RErr s => RErr s end) made)
    (fun _ => plain_use ops any rqs made))).
  2:{ unfold plain_use. destruct made; reflexivity. }
  apply can_then; [exact HM|]. intros x E. unfold plain_use. destruct made as [[m|s]| |]; cbn [fmap bind] in *; try discriminate; injection E as <-.
  - eapply can_eq; [apply can_fmap, (can_session ops any inv HE rqs m); auto|].
    destruct (plain_session ops rqs m) as [[rps m']| |]; reflexivity.
  - apply can_ret.
Qed.

Lemma can_program {K V Q} (t : traits K Q) usort md mk (entries : list (K * V)) rqs : sixty_four_bits t -> mk <> MakeFzString ->
  can (h_program usort md mk entries (map snd rqs)) (plain_program t usort md mk entries rqs).
Proof.
  intros [B1 [B2 [B3 B4]]] HS.
  assert (HH : forall q, exists h, Ok (t_hashQ t q) = Ok h /\ h < two64) by (intros q; exists (t_hashQ t q); auto).
  destruct mk; unfold plain_program; cbv zeta; try congruence.
  - eapply can_use; [apply emulates_scan|intros; exact I|]. cbn [h_make fmap]. unfold scan_map_new.
    eapply can_ok_then; [apply (can_using_eq (fun x y => t_eq t (fst x) (fst y)))|]. apply can_ret.
  - eapply can_use; [apply emulates_scan|intros; exact I|]. cbn [h_make]. unfold inline_scan_map_new.
    eapply can_ok_then; [apply (can_using_eq (fun x y => t_eq t (fst x) (fst y)))|].
    eapply can_eq; [eapply can_lift_then; intros a _; apply can_ret|]. destruct (into_array _ _); reflexivity.
  - eapply can_use; [apply emulates_ordered|intros; exact I|]. cbn [h_make]. unfold eytzinger_map_new.
    eapply can_ok_then; [apply (can_sorted (fun x y => t_cmp t (fst x) (fst y)))|].
    eapply can_eq; [eapply can_lift_then; intros a _; apply can_ret|]. destruct (eytzinger_from_sorted _); reflexivity.
  - eapply can_use; [apply emulates_ordered|intros; exact I|]. cbn [h_make]. unfold inline_eytzinger_map_new.
    eapply can_ok_then; [apply (can_sorted (fun x y => t_cmp t (fst x) (fst y)))|].
    eapply can_eq; [eapply can_lift_then; intros a _; eapply can_lift_then; intros b _; apply can_ret|].
    destruct (eytzinger_layout _) as [l| |]; cbn [bind fmap]; auto. destruct (into_array _ _); reflexivity.
  - eapply can_use; [apply emulates_sparse; auto|intros; exact I|]. cbn [h_make]. unfold sparse_map_new, h_sparse_map_new. cbv zeta.
    match goal with |- can _ ?r => apply (can_eq _ (fmap (fun m => ROk (AnySparse m)) (sparse_map_new md (t_idx t) (t_cmp t) entries))) end.
    2:{ unfold sparse_map_new. cbv zeta. destruct (if is_nil _ then _ else _); reflexivity. }
    apply can_fmap. unfold sparse_map_new. cbv zeta. eapply can_ok_then; [apply (can_sorted (fun x y => t_cmp t (fst x) (fst y)))|].
    destruct (is_nil _); [apply can_ret|]. apply can_sparse_from; auto.
  - eapply can_use; [apply emulates_dense; auto|intros; exact I|]. cbn [h_make]. apply can_fmap. unfold dense_map_new, h_dense_map_new.
    eapply can_ok_then; [apply (can_sorted (fun x y => t_cmp t (fst x) (fst y)))|]. apply can_dense_new; auto.
  - eapply can_use; [apply emulates_hash; auto|intros; exact I|]. cbn [h_make]. unfold hash_map_with_hasher. cbv zeta.
    eapply can_ok_then; [apply (can_using_hash (fun x => t_hash t (fst x)) (fun x y => t_eq t (fst x) (fst y)))|].
    apply can_fmap. apply can_hash_from. intros e _. exists (t_hash t (fst e)). auto.
  - eapply can_use; [apply emulates_hash; auto|intros; exact I|]. cbn [h_make]. unfold fz_hash_map_with_hasher. cbv zeta.
    eapply can_ok_then; [apply (can_using_hash (fun x => t_hash t (fst x)) (fun x y => t_eq t (fst x) (fst y)))|].
    match goal with |- can _ (fmap _ (fmap _ (bind ?h ?k))) => apply (can_eq _ (bind h (fun r => bind (unwrap r) (fun m => Ok (ROk (AnyHash m)))))) end.
    2:{ destruct (hash_from_dedupped _ _ _ _) as [[|]| |]; reflexivity. }
    apply can_then; [apply can_hash_from; intros e _; exists (t_hash t (fst e)); auto|]. intros r _. apply can_lift_then. intros m _. apply can_ret.
  - eapply can_use; [apply emulates_ordered|intros; exact I|]. cbn [h_make]. unfold fz_ordered_map_new.
    eapply can_ok_then; [apply (can_sorted (fun x y => t_cmp t (fst x) (fst y)))|].
    eapply can_eq; [eapply can_lift_then; intros a _; apply can_ret|]. destruct (eytzinger_from_sorted _); reflexivity.
  - eapply can_use; [apply emulates_scalar; auto|intros; exact I|]. cbn [h_make]. unfold fz_scalar_map_new, fz_scalar_new_sorted.
    eapply can_ok_then; [apply (can_sorted (fun x y => t_cmp t (fst x) (fst y)))|].
    set (es := sorted_and_dedupped _ _). clearbody es.
    match goal with |- can _ (fmap ?g (fmap ?f (bind ?h ?k))) => apply (can_eq _ (bind h (fun a => fmap g (fmap f (k a))))) end.
    2:{ destruct (analyze_scalar_keys _ _); reflexivity. }
    apply can_then; [apply can_analyze; auto|]. intros [| |] _.
    + match goal with |- can _ (fmap _ (fmap _ (bind ?h ?k))) => apply (can_eq _ (bind h (fun r => bind (unwrap r) (fun m => Ok (ROk (AnyHash m)))))) end.
      2:{ destruct (hash_from_dedupped _ _ _ _) as [[|]| |]; reflexivity. }
      apply can_then; [apply can_hash_from; intros e _; exists (t_idx t (fst e)); split; auto; reflexivity|].
      intros r _. apply can_lift_then. intros m _. apply can_ret.
    + apply (can_eq _ (fmap (fun m => ROk (AnyDense m)) (dense_from_sorted (t_idx t) es))); [|destruct (dense_from_sorted _ _); reflexivity].
      apply can_fmap, can_dense_from; auto.
    + apply (can_eq _ (fmap (fun m => ROk (AnySparse m)) (sparse_from_sorted md (t_idx t) es))); [|destruct (sparse_from_sorted _ _ _); reflexivity].
      apply can_fmap, can_sparse_from; auto.
Qed.

Lemma sorted_incl {T} (cmp : T -> T -> comparison) l : incl (sorted_and_dedupped l cmp) l.
Proof.
  assert (P : incl (stable_sort cmp l) l).
  { intros x Hx. eapply Permutation_in; [apply Permutation_sym, (stable_sort_perm cmp)|exact Hx]. }
  unfold sorted_and_dedupped. destruct (Nat.leb 2 (length (stable_sort cmp l))); [|exact P].
  eapply incl_tran; [apply retain_some|exact P].
Qed.

Lemma can_string_program {V} usort md bh (entries : list (bytes * V)) rqs :
  (forall s, bh_str bh s < two64 /\ bh_bytes bh s < two64) -> (forall e, In e entries -> N.of_nat (length (fst e)) <= usize_max) ->
  can (h_program usort md MakeFzString entries (map snd rqs)) (plain_string_program usort bh entries rqs).
Proof.
  intros HB HL. unfold plain_string_program.
  destruct (analyze_slice_keys_spec N.eqb (bh_bytes bh) N.eqb_refl (map fst (using_cmp entries (fun x y => bytes_cmp (fst x) (fst y)))))
    as [a [EA HA]].
  { intros s Hs. apply in_map_iff in Hs. destruct Hs as [e [<- He]]. apply HL. eapply sorted_incl; eauto. }
  assert (HK : forall (hK : bytes -> res N) (wrap : hash_map bytes V -> fz_string_map V) es,
    (forall q, exists h, hK q = Ok h /\ h < two64) -> (forall m, sm_inner (wrap m) = m) ->
    can (andthen (h_hash_from_dedupped usort Large es) (fun r => m <~ h_unwrap r ;; ret (ROk (AnyHash m))))
      (fmap (fun r => match r with ROk m => ROk (string_any m) | RErr s => RErr s end)
        (fmap ROk (r <- hash_from_dedupped usort Large hK es ;; fmap wrap (unwrap r))))).
  { intros hK wrap es H1 H2.
    apply (can_eq _ (bind (hash_from_dedupped usort Large hK es) (fun r => bind (unwrap r) (fun m => Ok (ROk (AnyHash m)))))).
    2:{ destruct (hash_from_dedupped _ _ _ _) as [[m|]| |]; try reflexivity. cbn. unfold string_any. rewrite H2. reflexivity. }
    apply can_then; [apply can_hash_from; auto|]. intros r _. apply can_lift_then. intros m _. apply can_ret. }
  assert (H0 : forall q, exists h, bridge_hash_one bh q = Ok h /\ h < two64) by (intros q; exists (bh_str bh q); split; [reflexivity|apply HB]).
  assert (H1 : forall lo hi, lo <= hi -> forall q, exists h, left_range_hash_one bh lo hi q = Ok h /\ h < two64).
  { intros lo hi L q. rewrite (left_range_total bh lo hi q L). eexists. split; [reflexivity|].
    destruct (N.of_nat (length q) <? hi); [reflexivity|apply HB]. }
  assert (H2 : forall lo hi, lo <= hi -> forall q, exists h, right_range_hash_one bh lo hi q = Ok h /\ h < two64).
  { intros lo hi L q. rewrite (right_range_total bh lo hi q L). eexists. split; [reflexivity|].
    destruct (N.of_nat (length q) <? hi); [reflexivity|apply HB]. }
  eapply can_use; [apply emulates_string| |].
  - intros m E q. unfold fz_string_map_with_hasher in E. rewrite EA in E. cbn [bind] in E.
    destruct a as [|lo hi|lo hi|]; cbn [analysis_ok] in HA;
      destruct (hash_from_dedupped _ _ _ _) as [[m'|]| |]; cbn [bind unwrap fmap] in E; try discriminate; injection E as <-; cbn [string_code]; auto.
    + apply H1. destruct HA as [HA _]. lia.
    + apply H2. destruct HA as [HA _]. lia.
  - cbn [h_make]. unfold fz_string_map_with_hasher. rewrite EA. cbn [bind].
    eapply can_ok_then; [apply (can_sorted (fun x y => bytes_cmp (fst x) (fst y)))|].
    apply (can_ask_then {| a_panics := false; a_bool := false; a_order := Eq; a_number := 0 |}); [reflexivity|].
    change (sorted_and_dedupped entries (fun x y => bytes_cmp (fst x) (fst y))) with (using_cmp entries (fun x y => bytes_cmp (fst x) (fst y))).
    destruct a as [|lo hi|lo hi|]; cbn [analysis_ok] in HA.
    + apply (HK (bridge_hash_one bh) (SmHash bh)); auto.
    + apply (HK (left_range_hash_one bh lo hi) (SmLeft bh lo hi)); auto. apply H1. destruct HA as [HA _]. lia.
    + apply (HK (right_range_hash_one bh lo hi) (SmRight bh lo hi)); auto. apply H2. destruct HA as [HA _]. lia.
    + apply (HK (bridge_hash_one bh) (SmHash bh)); auto.
Qed.

(** From [can] to a stream. *)
Definition after (l : list answer) : nat -> answer :=
  fun i => nth i l {| a_panics := false; a_bool := false; a_order := Lt; a_number := 0 |}.

Lemma can_adv {A} (x : hostile A) r : can x r -> exists adv, (forall i, a_panics (adv i) = false) /\ fmap fst (x adv 0%nat) = r.
Proof.
  intros [l [Q H]]. exists (after l). split.
  - intros i. unfold after. destruct (Nat.lt_ge_cases i (length l)) as [L|L].
    + apply (proj1 (Forall_forall _ _) Q). apply nth_In. exact L.
    + rewrite nth_overflow by lia. reflexivity.
  - rewrite (H (after l) 0%nat); [destruct r; reflexivity|]. intros i a E. unfold after. cbn. apply nth_error_nth. exact E.
Qed.

Theorem program_covered {K V Q} (t : traits K Q) usort md mk (entries : list (K * V)) rqs : sixty_four_bits t -> mk <> MakeFzString ->
  exists adv, (forall i, a_panics (adv i) = false) /\
    fmap fst (h_program usort md mk entries (map snd rqs) adv 0%nat) = plain_program t usort md mk entries rqs.
Proof. intros H1 H2. apply can_adv, can_program; auto. Qed.

Theorem string_program_covered {V} usort md bh (entries : list (bytes * V)) rqs :
  (forall s, bh_str bh s < two64 /\ bh_bytes bh s < two64) -> (forall e, In e entries -> N.of_nat (length (fst e)) <= usize_max) ->
  exists adv, (forall i, a_panics (adv i) = false) /\
    fmap fst (h_program usort md MakeFzString entries (map snd rqs) adv 0%nat) = plain_string_program usort bh entries rqs.
Proof. intros H1 H2. apply can_adv, can_string_program; auto. Qed.

Lemma session_covered {M K V Q} (ops : map_ops M K V Q) any rqs m : emulates ops any (fun _ => True) ->
  exists adv, (forall i, a_panics (adv i) = false) /\
    fmap fst (h_session (map snd rqs) (any m) adv 0%nat) = fmap (fun x => (fst x, any (snd x))) (plain_session ops rqs m).
Proof. intros H. apply can_adv, (can_session ops any (fun _ => True)); auto. Qed.
