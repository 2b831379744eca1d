(** Proofs for ModelHasher.v. *)
From Verif Require Import ModelUtils ModelAnalyzers ModelTables ModelMaps ModelHostile ModelHasher.
From Verif Require Import Spec SpecHostile SpecHasher SpecAnalysis ProofsBase ProofsDedup ProofsSlices ProofsFz ProofsHostile ProofsCovers.
From Coq Require Import Permutation.
From Verif Require Import Prelude.

(** ** Deduplication *)
Section Dedup.
Context {T : Type}.
Variable eq : T -> T -> bool.

Definition later_equal (all : list T) (d : nat) : Prop :=
  exists j x y, (d < j)%nat /\ nth_error all d = Some x /\ nth_error all j = Some y /\ eq y x = true.

Lemma remove_nth_incl {A} (l : list A) i : incl (remove_nth i l) l.
Proof.
  intros x H. unfold remove_nth in H. apply in_app_or in H. destruct H as [H|H].
  - rewrite <- (firstn_skipn i l). apply in_or_app. left. exact H.
  - rewrite <- (firstn_skipn (S i) l). apply in_or_app. right. exact H.
Qed.

Lemma dupes_runs q (all : list T) : forall l index keep dupes,
  (forall i x, nth_error l i = Some x -> nth_error all (index + i) = Some x) ->
  Forall (fun k => (fst k < index)%nat /\ nth_error all (fst k) = Some (snd k)) keep -> Forall (later_equal all) dupes ->
  runs q (s_using_hash_dupes eq index l keep dupes) (Forall (later_equal all)).
Proof.
  induction l as [|v r IH]; intros index keep dupes HL HK HD; cbn [s_using_hash_dupes]; [apply runs_ret; exact HD|].
  assert (HV : nth_error all index = Some v) by (rewrite <- (Nat.add_0_r index); apply HL; reflexivity).
  assert (HR : forall i x, nth_error r i = Some x -> nth_error all (S index + i) = Some x).
  { intros i x E. replace (S index + i)%nat with (index + S i)%nat by lia. apply HL. exact E. }
  assert (HC : forall keep', incl keep' keep -> Forall (fun k => (fst k < S index)%nat /\ nth_error all (fst k) = Some (snd k)) ((index, v) :: keep')).
  { intros keep' I. constructor; [cbn; split; [lia|exact HV]|]. apply Forall_forall. intros k Hk.
    destruct (proj1 (Forall_forall _ _) HK k (I k Hk)) as [A B]. split; [lia|exact B]. }
  eapply runs_then; [apply (runs_number q (fun _ => True)); auto|]. intros _h _.
  eapply runs_then; [apply (runs_ask q (fun _ => True)); auto|]. intros a _. cbv zeta.
  set (at_ := N.to_nat (a_number a mod N.of_nat (length keep))). clearbody at_.
  destruct (a_bool a); [|apply IH; auto using incl_refl].
  destruct (nth_error keep at_) as [[old other]|] eqn:E; [|apply IH; auto using incl_refl].
  destruct (eq v other) eqn:Eq; [|apply IH; auto using incl_refl].
  apply IH; auto using remove_nth_incl. constructor; auto.
  destruct (proj1 (Forall_forall _ _) HK _ (nth_error_In _ _ E)) as [A B]. cbn [fst snd] in *. exists index, other, v. repeat split; auto.
Qed.

Lemma retain_keeps dupes x : forall (l : list T) i p, nth_error l p = Some x -> ~ In (i + p)%nat dupes -> In x (retain_from i dupes l).
Proof.
  induction l as [|y r IH]; intros i [|p] E N; cbn [retain_from nth_error] in *; try discriminate.
  - injection E as ->. destruct (existsb (Nat.eqb i) dupes) eqn:X; cbn [negb]; [|left; reflexivity].
    apply existsb_exists in X. destruct X as [j [Hj Ej]]. apply Nat.eqb_eq in Ej. subst j. exfalso. apply N. rewrite Nat.add_0_r. exact Hj.
  - assert (H : In x (retain_from (S i) dupes r)) by (apply (IH (S i) p); [exact E|]; replace (S i + p)%nat with (i + S p)%nat by lia; exact N).
    destruct (negb (existsb (Nat.eqb i) dupes)); [right; exact H|exact H].
Qed.

Lemma survivors_last (l : list T) x : In x (survivors eq l) -> exists p, nth_error l p = Some x /\ forall j y, (p < j)%nat -> nth_error l j = Some y -> eq x y = false.
Proof.
  induction l as [|a r IH]; cbn [survivors]; [intros []|]. destruct (existsb (eq a) r) eqn:E.
  - intros H. destruct (IH H) as [p [A B]]. exists (S p). split; [exact A|]. intros [|j] y L Y; [lia|]. apply (B j); [lia|exact Y].
  - intros [->|H].
    + exists 0%nat. split; [reflexivity|]. intros [|j] y L Y; [lia|]. destruct (eq x y) eqn:D; [|reflexivity]. cbn in Y.
      enough (existsb (eq x) r = true) by congruence. apply existsb_exists. exists y. split; [eapply nth_error_In; eauto|exact D].
    + destruct (IH H) as [p [A B]]. exists (S p). split; [exact A|]. intros [|j] y L Y; [lia|]. apply (B j); [lia|exact Y].
Qed.

(** What is left: the last of every key, perhaps more of them, and nothing else. *)
Lemma s_using_hash_runs q (l : list T) : lawful_eq eq ->
  runs q (s_using_hash eq l) (fun es => part_of l es /\ incl (survivors eq l) es).
Proof.
  intros HE. unfold s_using_hash. destruct (Nat.leb 2 (length l)).
  - eapply runs_then; [apply (dupes_runs q l l 0 [] []); [auto|constructor..]|]. intros dupes D. apply runs_ret. split; [apply retain_part|].
    intros x Hx. apply survivors_last in Hx. destruct Hx as [p [E HL]].
    destruct (negb (is_nil dupes)); [|eapply nth_error_In; eauto]. apply (retain_keeps dupes x l 0 p E). cbn [Nat.add]. intros N.
    destruct (proj1 (Forall_forall _ _) D p N) as [j [x' [y [L [E' [Ey Q]]]]]]. assert (x' = x) as -> by congruence.
    apply (eq_sym_law _ HE) in Q. rewrite (HL j y L Ey) in Q. discriminate.
  - apply runs_ret. split; [apply part_of_refl|apply survivors_incl].
Qed.
End Dedup.

(** ** Constructors *)
Lemma lawful_pair {K V} (eqK : K -> K -> bool) : lawful_eq eqK -> lawful_eq (fun x y : K * V => eqK (fst x) (fst y)).
Proof.
  intros H. split; [intros; apply (eq_refl_law _ H)|intros x y; apply (eq_sym_law _ H)|intros x y z; apply (eq_trans_law _ H)].
Qed.

Lemma s_hash_map_runs q {K V} usort cm (eqK : K -> K -> bool) (input : list (K * V)) : sorts_by_slot usort -> lawful_eq eqK ->
  runs q (s_hash_map usort cm eqK input) (fun r => match r with
    | ROk m => sound (AnyHash m) /\ part_of input (ht_entries (hm_table m)) /\ incl (survivors (same_key eqK) input) (ht_entries (hm_table m))
    | RErr _ => max_capacity cm < N.of_nat (length input) end).
Proof.
  intros HU HE. unfold s_hash_map. eapply runs_then; [apply s_using_hash_runs, lawful_pair, HE|]. intros es [[I L] S].
  eapply runs_weaken; [apply hash_runs, HU|]. intros [m|s].
  - intros [HS P]. split; [exact HS|]. split; [split|].
    + intros x Hx. apply I. eapply Permutation_in; [apply Permutation_sym; exact P|exact Hx].
    + rewrite <- (Permutation_length P). exact L.
    + intros x Hx. eapply Permutation_in; [exact P|]. apply S. exact Hx.
  - intros H. lia.
Qed.

Lemma s_fz_hash_runs q {K V} usort (eqK : K -> K -> bool) (input : list (K * V)) : sorts_by_slot usort -> lawful_eq eqK ->
  N.of_nat (length input) <= usize_max ->
  runs q (s_fz_hash usort eqK input) (fun m =>
    sound (AnyHash m) /\ part_of input (ht_entries (hm_table m)) /\ incl (survivors (same_key eqK) input) (ht_entries (hm_table m))).
Proof.
  intros HU HE HL. unfold s_fz_hash. eapply runs_then; [apply s_hash_map_runs; eauto|]. intros [m|s] H; unfold h_unwrap; apply runs_lift; cbn [unwrap].
  - exact H.
  - cbn [max_capacity index_max] in H. exfalso. lia.
Qed.

Lemma s_fz_string_runs q {V} usort (input : list (bytes * V)) : sorts_by_slot usort -> N.of_nat (length input) <= usize_max ->
  runs q (s_fz_string usort input) (fun m => sound (AnyHash m) /\ Permutation (survivors (same_key bytes_eqb) input) (ht_entries (hm_table m))).
Proof.
  intros HU HL. unfold s_fz_string. cbv zeta. pose proof (string_sorted_perm input) as P.
  set (es := using_cmp input _) in *. clearbody es.
  eapply runs_then; [apply (runs_ask q (fun _ => True)); auto|]. intros _a _.
  eapply runs_then; [apply hash_runs, HU|]. intros [m|s] H; unfold h_unwrap; apply runs_lift; cbn [unwrap].
  - destruct H as [HS HP]. split; [exact HS|]. eapply perm_trans; eauto.
  - cbn [max_capacity index_max] in H. exfalso. apply Permutation_length in P.
    assert (length (survivors (same_key bytes_eqb) input) <= length input)%nat.
    { clear. induction input as [|x r IH]; cbn [survivors length]; [lia|]. destruct (existsb _ r); cbn [length]; lia. }
    lia.
Qed.

(** ** Queries *)
Section Queries.
Context {K V Q : Type}.
Variable eqv : Q -> K -> bool.

Lemma scan_slot_found {T} (f : T -> bool) l e : scan_slot f l = Some e -> In e l /\ f e = true.
Proof. induction l as [|x r IH]; cbn [scan_slot]; [discriminate|]. destruct (f x) eqn:E; [intros H; injection H as <-; split; [left|]; auto|intros H; destruct (IH H); split; [right|]; auto]. Qed.
Lemma scan_slot_mut_found {T} (f : T -> bool) : forall l pos p, scan_slot_mut f pos l = Some p ->
  exists i e, p = (pos + i)%nat /\ nth_error l i = Some e /\ f e = true.
Proof.
  induction l as [|x r IH]; intros pos p; cbn [scan_slot_mut]; [discriminate|]. destruct (f x) eqn:E.
  - intros H. injection H as <-. exists 0%nat, x. repeat split; auto; lia.
  - intros H. destruct (IH _ _ H) as [i [e [-> R]]]. exists (S i), e. split; [lia|exact R].
Qed.

Lemma ht_find_sound {T} (t : hash_table T) h f : ht_sound t -> h < two64 ->
  exists o, ht_find t h f = Ok o /\ forall e, o = Some e -> In e (ht_entries t) /\ f e = true.
Proof.
  intros HS Hh. destruct (HS h Hh) as [lo [hi [E B]]]. unfold ht_find, get_unchecked, slice_unchecked. rewrite E. cbn [bind].
  replace (Nat.leb _ _ && Nat.leb _ _)%bool with true by (symmetry; rewrite andb_true_iff, !Nat.leb_le; lia). cbn [bind].
  eexists. split; [reflexivity|]. intros e He. apply scan_slot_found in He. destruct He as [I F]. split; [|exact F].
  apply (In_nth_error) in I. destruct I as [i I]. rewrite nth_error_firstn, nth_error_skipn in I. destruct (Nat.ltb i _); [|discriminate].
  eapply nth_error_In; eauto.
Qed.

Lemma ht_find_mut_sound {T} (t : hash_table T) h f : ht_sound t -> h < two64 ->
  exists o, ht_find_mut t h f = Ok o /\ forall p, o = Some p -> exists e, nth_error (ht_entries t) p = Some e /\ f e = true.
Proof.
  intros HS Hh. destruct (HS h Hh) as [lo [hi [E B]]]. unfold ht_find_mut, get_unchecked, slice_unchecked. rewrite E. cbn [bind].
  replace (Nat.leb _ _ && Nat.leb _ _)%bool with true by (symmetry; rewrite andb_true_iff, !Nat.leb_le; lia). cbn [bind].
  eexists. split; [reflexivity|]. intros p Hp. apply scan_slot_mut_found in Hp. destruct Hp as [i [e [-> [I F]]]]. exists e. split; [|exact F].
  rewrite nth_error_firstn, nth_error_skipn in I. destruct (Nat.ltb i _); [exact I|discriminate].
Qed.

(** A hit is a stored entry with an equal key. *)
Definition hit (es : list (K * V)) (q : Q) (e : K * V) : Prop := In e es /\ eqv q (fst e) = true.

Lemma s_get_runs q0 (m : hash_map K V) q : sound (AnyHash m) ->
  runs q0 (s_get eqv m q) (fun o => forall v, o = Some v -> exists e, hit (ht_entries (hm_table m)) q e /\ snd e = v).
Proof.
  intros HS. unfold s_get. eapply runs_then; [apply (runs_number q0 (fun h => h < two64)); auto|]. intros h Hh. apply runs_lift.
  destruct (ht_find_sound (hm_table m) h (fun entry => eqv q (fst entry)) HS Hh) as [o [E F]]. rewrite E. cbn [fmap].
  intros v Hv. destruct o as [e|]; [|discriminate]. cbn in Hv. injection Hv as <-. exists e. split; [exact (F e eq_refl)|reflexivity].
Qed.
Lemma s_get_key_value_runs q0 (m : hash_map K V) q : sound (AnyHash m) ->
  runs q0 (s_get_key_value eqv m q) (fun o => forall e, o = Some e -> hit (ht_entries (hm_table m)) q e).
Proof.
  intros HS. unfold s_get_key_value. eapply runs_then; [apply (runs_number q0 (fun h => h < two64)); auto|]. intros h Hh. apply runs_lift.
  destruct (ht_find_sound (hm_table m) h (fun entry => eqv q (fst entry)) HS Hh) as [o [E F]]. rewrite E. cbn [fmap].
  intros e' He. destruct o as [[k v]|]; [|discriminate]. cbn in He. injection He as <-. exact (F _ eq_refl).
Qed.
Lemma s_get_mut_runs q0 (m : hash_map K V) q : sound (AnyHash m) ->
  runs q0 (s_get_mut eqv m q) (fun o => forall p, o = Some p -> exists e, nth_error (ht_entries (hm_table m)) p = Some e /\ eqv q (fst e) = true).
Proof.
  intros HS. unfold s_get_mut. eapply runs_then; [apply (runs_number q0 (fun h => h < two64)); auto|]. intros h Hh. apply runs_lift.
  destruct (ht_find_mut_sound (hm_table m) h (fun entry => eqv q (fst entry)) HS Hh) as [o [E F]]. rewrite E. exact F.
Qed.

Definition hits_at (es : list (K * V)) (q : Q) (o : option nat) : Prop :=
  forall p, o = Some p -> exists e, nth_error es p = Some e /\ eqv q (fst e) = true.

Lemma s_disjoint_unchecked_runs q0 (m : hash_map K V) : sound (AnyHash m) -> forall keys,
  runs q0 (s_disjoint_unchecked eqv m keys) (Forall2 (hits_at (ht_entries (hm_table m))) keys).
Proof.
  intros HS. induction keys as [|q r IH]; cbn [s_disjoint_unchecked]; [apply runs_ret; constructor|].
  eapply runs_then; [apply s_get_mut_runs, HS|]. intros o Ho. eapply runs_then; [exact IH|]. intros os Hos. apply runs_ret. constructor; auto.
Qed.

Variable eqQ : Q -> Q -> bool.
Hypothesis HQ : forall q q' k, eqv q k = true -> eqv q' k = true -> eqQ q q' = true.

Lemma hits_disjoint (es : list (K * V)) keys os : has_duplicates eqQ keys = false -> Forall2 (hits_at es) keys os ->
  forall i j p, nth_error os i = Some (Some p) -> nth_error os j = Some (Some p) -> i = j.
Proof.
  intros D F. assert (X : forall i j p, (i < j)%nat -> nth_error os i = Some (Some p) -> nth_error os j = Some (Some p) -> False).
  { intros i j p L Hi Hj.
    assert (G : forall i, nth_error os i = Some (Some p) -> exists q e, nth_error keys i = Some q /\ nth_error es p = Some e /\ eqv q (fst e) = true).
    { clear -F. induction F as [|q o ks os' Ho F IH]; intros [|i] E; cbn [nth_error] in E; try discriminate.
      - injection E as ->. destruct (Ho p eq_refl) as [e H]. exists q, e. split; [reflexivity|exact H].
      - apply IH. exact E. }
    destruct (G i Hi) as [q [e [A1 [A2 A3]]]], (G j Hj) as [q' [e' [B1 [B2 B3]]]]. assert (e' = e) as -> by congruence.
    enough (has_duplicates eqQ keys = true) by congruence. apply has_duplicates_spec. exists i, j, q, q'. repeat split; auto. eapply HQ; eauto. }
  intros i j p Hi Hj. destruct (Nat.lt_trichotomy i j) as [L|[L|L]]; [destruct (X i j p L Hi Hj)|exact L|destruct (X j i p L Hj Hi)].
Qed.

Lemma twice_false : forall os, (forall i j p, nth_error os i = Some (Some p) -> nth_error os j = Some (Some p) -> i = j) -> twice os = false.
Proof.
  induction os as [|o r IH]; intros H; cbn [twice]; [reflexivity|].
  assert (R : twice r = false). { apply IH. intros i j p Hi Hj. specialize (H (S i) (S j) p Hi Hj). congruence. }
  destruct o as [p|]; [|exact R]. rewrite R, orb_false_r. apply not_true_is_false. intros E. apply existsb_exists in E.
  destruct E as [[p'|] [I Ep]]; [|discriminate]. apply Nat.eqb_eq in Ep. subst p'. apply In_nth_error in I. destruct I as [j Hj].
  specialize (H 0%nat (S j) p eq_refl Hj). discriminate.
Qed.

Lemma no_two_spec keys : has_duplicates eqQ keys = false -> no_two_equal eqQ keys.
Proof.
  intros D i j x y L X Y. destruct (eqQ x y) eqn:E; [|reflexivity]. enough (has_duplicates eqQ keys = true) by congruence.
  apply has_duplicates_spec. exists i, j, x, y. auto.
Qed.

(** ** Any keys *)
Lemma put_at_keys (es : list (K * V)) o v : map fst (put_at es o v) = map fst es.
Proof.
  destruct o as [p|]; [|reflexivity]. unfold put_at. destruct (nth_error es p) as [e|] eqn:E; [|reflexivity].
  revert p E. induction es as [|x r IH]; intros [|p] E; cbn [nth_error list_set map] in *; try discriminate.
  - injection E as ->. reflexivity.
  - f_equal. apply IH. exact E.
Qed.
Lemma put_all_keys : forall os vs (es : list (K * V)), map fst (put_all es os vs) = map fst es.
Proof. induction os as [|o os IH]; intros [|v vs] es; cbn [put_all]; auto. rewrite IH. apply put_at_keys. Qed.

Lemma with_sound (m : hash_map K V) es : sound (AnyHash m) -> map fst es = map fst (ht_entries (hm_table m)) -> sound (AnyHash (with_hash_entries m es)).
Proof. intros S E. apply (sound_with_entries (AnyHash m) es); [|exact S]. cbn [any_entries]. rewrite <- (map_length fst es), E. apply map_length. Qed.

Lemma hits_stored (es : list (K * V)) q o : hits_at es q o -> stored eqv es q (value_at es o).
Proof.
  intros H v E. destruct o as [p|]; [|discriminate]. destruct (H p eq_refl) as [[k v'] [E1 E2]]. cbn [value_at] in E. rewrite E1 in E. cbn in E.
  injection E as <-. exists k. split; [eapply nth_error_In; eauto|exact E2].
Qed.

Lemma call_safe (c : call V Q) (m : hash_map K V) : sound (AnyHash m) ->
  runs false (s_call eqv eqQ c m) (fun r => reply_stored eqv eqQ (ht_entries (hm_table m)) c (fst r) /\
    map fst (ht_entries (hm_table (snd r))) = map fst (ht_entries (hm_table m)) /\ sound (AnyHash (snd r))).
Proof.
  intros S. destruct c as [q|q|q v|kvs]; cbn [s_call].
  - eapply runs_then; [apply s_get_runs, S|]. intros o Ho. apply runs_ret. cbn [fst snd reply_stored]. split; [|auto].
    intros v E. destruct (Ho v E) as [[k v'] [[I1 I2] <-]]. exists k. split; assumption.
  - eapply runs_then; [apply s_get_key_value_runs, S|]. intros o Ho. apply runs_ret. cbn [fst snd reply_stored]. split; [|auto].
    intros k v E. exact (Ho _ E).
  - eapply runs_then; [apply s_get_mut_runs, S|]. intros o Ho. apply runs_ret. cbn [fst snd reply_stored hm_table with_hash_entries ht_entries].
    split; [apply hits_stored; exact Ho|]. split; [apply put_at_keys|]. apply with_sound; [exact S|]. apply put_at_keys.
  - unfold s_disjoint. destruct (has_duplicates eqQ (map fst kvs)) eqn:DU; [intros adv n HA; reflexivity|].
    eapply runs_then; [apply s_disjoint_unchecked_runs, S|]. intros os F.
    rewrite (twice_false os (hits_disjoint _ _ _ DU F)). apply runs_ret. cbn [fst snd reply_stored hm_table with_hash_entries ht_entries].
    split; [split; [apply no_two_spec; exact DU|]|split; [apply put_all_keys|apply with_sound; [exact S|apply put_all_keys]]].
    clear -F. induction F as [|q o ks os Ho F IH]; cbn [map]; constructor; auto. apply hits_stored. exact Ho.
Qed.

Lemma calls_safe : forall cs (m : hash_map K V) adv n, sound (AnyHash m) ->
  exists bs m' n', s_calls eqv eqQ cs m adv n = Ok ((bs, m'), n') /\ length bs = length cs /\
    map fst (ht_entries (hm_table m')) = map fst (ht_entries (hm_table m)) /\ sound (AnyHash m').
Proof.
  induction cs as [|c cs IH]; intros m adv n P; cbn [s_calls].
  - exists [], m, n. auto.
  - pose proof (call_safe c m P adv n ltac:(discriminate)) as C.
    destruct (s_call eqv eqQ c m adv n) as [[[b m1] n1]| |]; [| |contradiction].
    + cbn [fst snd] in C. destruct C as [_ [M P1]]. destruct (IH m1 adv n1 P1) as [bs [m' [n' [E [A [B D]]]]]].
      exists (Some b :: bs), m', n'. split; [unfold andthen, ret; rewrite E; reflexivity|]. cbn [length]. repeat split; [lia|congruence|exact D].
    + destruct (IH m adv (Datatypes.S n) P) as [bs [m' [n' [E [A [B D]]]]]].
      exists (None :: bs), m', n'. split; [unfold andthen, ret; rewrite E; reflexivity|]. cbn [length]. repeat split; [lia|exact B|exact D].
Qed.

(** ** Distinct keys *)
Variable eqK : K -> K -> bool.
Hypothesis HV : lawful_equivalent eqK eqv.

Lemma unique_hit (es : list (K * V)) q i j e e' : distinct (same_key eqK) es -> nth_error es i = Some e -> nth_error es j = Some e' ->
  eqv q (fst e) = true -> eqv q (fst e') = true -> i = j.
Proof.
  intros D Hi Hj E E'. assert (X : forall i j e e', (i < j)%nat -> nth_error es i = Some e -> nth_error es j = Some e' -> eqv q (fst e) = true -> eqv q (fst e') = true -> False).
  { intros a b x y L A B X Y. pose proof (distinct_nth _ _ _ _ _ _ D L A B) as N. unfold same_key in N. rewrite (HV q (fst x) (fst y) X) in Y. congruence. }
  destruct (Nat.lt_trichotomy i j) as [L|[L|L]]; [destruct (X i j e e' L); auto|exact L|destruct (X j i e' e L); auto].
Qed.

Lemma entry_of_hit (es : list (K * V)) q e : distinct (same_key eqK) es -> hit es q e -> entry_of eqv es q = Some e.
Proof.
  intros D [I E]. unfold entry_of. destruct (find _ es) as [e'|] eqn:F.
  - apply find_some in F. destruct F as [I' E']. apply In_nth_error in I, I'. destruct I as [i Hi], I' as [j Hj].
    assert (i = j) by (eapply unique_hit; eauto). congruence.
  - pose proof (find_none _ _ F e I) as N. cbn in N. congruence.
Qed.

Lemma put_at_updated (es : list (K * V)) q p e v : distinct (same_key eqK) es -> nth_error es p = Some e -> eqv q (fst e) = true ->
  put_at es (Some p) v = updated eqv es q v.
Proof.
  intros D E Q1. unfold put_at, updated. rewrite E.
  assert (G : forall (l : list (K * V)) i, (forall j x, nth_error l j = Some x -> eqv q (fst x) = true -> j = i) -> nth_error l i = Some e ->
    list_set l i (fst e, v) = map (fun e => if eqv q (fst e) then (fst e, v) else e) l).
  { induction l as [|x r IH]; intros [|i] H Hi; cbn [list_set map nth_error] in *; try discriminate.
    - injection Hi as ->. rewrite Q1. f_equal. rewrite (map_ext_in _ (fun x => x)); [symmetry; apply map_id|].
      intros y Hy. destruct (eqv q (fst y)) eqn:Ey; [|reflexivity]. apply In_nth_error in Hy. destruct Hy as [j Hj].
      specialize (H (S j) y Hj Ey). discriminate.
    - destruct (eqv q (fst x)) eqn:Ex; [specialize (H 0%nat x eq_refl Ex); discriminate|]. f_equal. apply IH; auto.
      intros j y Hj Ey. specialize (H (S j) y Hj Ey). congruence. }
  apply G; auto. intros j x Hj Ex. eapply unique_hit; eauto.
Qed.

Lemma updated_keys (es : list (K * V)) q v : map fst (updated eqv es q v) = map fst es.
Proof. unfold updated. rewrite map_map. apply map_ext. intros e. destruct (eqv q (fst e)); reflexivity. Qed.

Lemma distinct_keys (es es' : list (K * V)) : map fst es' = map fst es -> distinct (same_key eqK) es -> distinct (same_key eqK) es'.
Proof. intros E D. apply (distinct_map fst eqK). rewrite E. apply (distinct_map fst eqK). exact D. Qed.

Lemma same_keys_at (es es' : list (K * V)) p e : map fst es' = map fst es -> nth_error es p = Some e -> exists e', nth_error es' p = Some e' /\ fst e' = fst e.
Proof.
  intros E H. assert (nth_error (map fst es') p = Some (fst e)) as X by (rewrite E, nth_error_map, H; reflexivity).
  rewrite nth_error_map in X. destruct (nth_error es' p) as [e'|]; [|discriminate]. injection X as X. eauto.
Qed.

Lemma put_all_updates (es0 : list (K * V)) : distinct (same_key eqK) es0 -> forall kvs os es, map fst es = map fst es0 ->
  Forall2 (hits_at es0) (map fst kvs) os ->
  all_put eqv es0 es kvs (map (value_at es0) os) (put_all es os (map snd kvs)) /\ map fst (put_all es os (map snd kvs)) = map fst es0.
Proof.
  intros D. induction kvs as [|[q v] kvs IH]; intros os es EK F; cbn [map] in F; inversion F as [|q' o' ks os' Ho F']; subst; cbn [put_all map].
  - split; [constructor|exact EK].
  - cbn [fst snd] in *. destruct o' as [p|].
    + destruct (Ho p eq_refl) as [e [E1 E2]]. destruct (same_keys_at es0 es p e EK E1) as [e' [E3 E4]].
      rewrite (put_at_updated es q p e' v); [|eapply distinct_keys; eauto|exact E3|rewrite E4; exact E2].
      destruct (IH os' (updated eqv es q v)) as [A B]; [rewrite updated_keys; exact EK|exact F'|]. split; [|exact B].
      cbn [value_at]. rewrite E1. cbn [option_map]. destruct e as [k old]. apply all_put_hit with (k := k); [|exact A].
      apply entry_of_hit; [exact D|]. split; [eapply nth_error_In; eauto|exact E2].
    + cbn [put_at value_at]. destruct (IH os' es EK F') as [A B]. split; [|exact B]. apply all_put_miss. exact A.
Qed.

Definition proper (m : hash_map K V) : Prop := sound (AnyHash m) /\ distinct (same_key eqK) (ht_entries (hm_table m)).

Lemma proper_with (m : hash_map K V) es : proper m -> map fst es = map fst (ht_entries (hm_table m)) -> proper (with_hash_entries m es).
Proof.
  intros [S D] E. split.
  - apply (sound_with_entries (AnyHash m) es); [|exact S]. cbn [any_entries]. rewrite <- (map_length fst es), E. apply map_length.
  - cbn. eapply distinct_keys; eauto.
Qed.

Lemma call_runs q0 (c : call V Q) (m : hash_map K V) : proper m ->
  (q0 = true -> match c with CPutAll kvs => has_duplicates eqQ (map fst kvs) = false | _ => True end) ->
  runs q0 (s_call eqv eqQ c m) (fun r => may eqv eqQ (ht_entries (hm_table m)) c (Some (fst r)) (ht_entries (hm_table (snd r))) /\ proper (snd r)).
Proof.
  intros [S D] HQ0. destruct c as [q|q|q v|kvs]; cbn [s_call].
  - eapply runs_then; [apply s_get_runs, S|]. intros o Ho. apply runs_ret. cbn [fst snd]. split; [|split; assumption].
    destruct o as [v|]; [|constructor]. destruct (Ho v eq_refl) as [[k v'] [H <-]]. econstructor. apply entry_of_hit; eauto.
  - eapply runs_then; [apply s_get_key_value_runs, S|]. intros o Ho. apply runs_ret. cbn [fst snd]. split; [|split; assumption].
    destruct o as [[k v]|]; [|constructor]. constructor. apply entry_of_hit; auto.
  - eapply runs_then; [apply s_get_mut_runs, S|]. intros o Ho. apply runs_ret. cbn [fst snd hm_table with_hash_entries ht_entries].
    destruct o as [p|].
    + destruct (Ho p eq_refl) as [e [E1 E2]]. rewrite (put_at_updated _ q p e v D E1 E2). cbn [value_at]. rewrite E1. cbn [option_map].
      destruct e as [k old]. split.
      * apply may_put with (k := k). apply entry_of_hit; [exact D|]. split; [eapply nth_error_In; eauto|exact E2].
      * apply proper_with; [split; assumption|]. apply updated_keys.
    + cbn [put_at value_at]. split; [constructor|]. apply proper_with; [split; assumption|reflexivity].
  - unfold s_disjoint. destruct (has_duplicates eqQ (map fst kvs)) eqn:DU.
    + intros adv n HA. unfold andthen, lift. destruct q0; [specialize (HQ0 eq_refl); congruence|reflexivity].
    + eapply runs_then; [apply s_disjoint_unchecked_runs, S|]. intros os F.
      rewrite (twice_false os (hits_disjoint _ _ _ DU F)). apply runs_ret. cbn [fst snd hm_table with_hash_entries ht_entries].
      destruct (put_all_updates (ht_entries (hm_table m)) D kvs os (ht_entries (hm_table m)) eq_refl F) as [A B].
      split; [|apply proper_with; [split; assumption|exact B]]. constructor; [apply no_two_spec; exact DU|exact A].
Qed.

Lemma calls_may : forall cs (m : hash_map K V) adv n, proper m ->
  exists bs m' n', s_calls eqv eqQ cs m adv n = Ok ((bs, m'), n') /\ may_all eqv eqQ (ht_entries (hm_table m)) cs bs (ht_entries (hm_table m')) /\ proper m'.
Proof.
  induction cs as [|c cs IH]; intros m adv n P; cbn [s_calls].
  - exists [], m, n. split; [reflexivity|]. split; [constructor|exact P].
  - pose proof (call_runs false c m P ltac:(discriminate) adv n ltac:(discriminate)) as C.
    destruct (s_call eqv eqQ c m adv n) as [[[b m1] n1]| |]; [| |contradiction].
    + cbn [fst snd] in C. destruct C as [M P1]. destruct (IH m1 adv n1 P1) as [bs [m' [n' [E [A B]]]]].
      exists (Some b :: bs), m', n'. split; [unfold andthen, ret; rewrite E; reflexivity|]. split; [econstructor; eauto|exact B].
    + destruct (IH m adv (Datatypes.S n) P) as [bs [m' [n' [E [A B]]]]].
      exists (None :: bs), m', n'. split; [unfold andthen, ret; rewrite E; reflexivity|]. split; [|exact B]. econstructor; [apply may_panic|exact A].
Qed.

Lemma call_panics (c : call V Q) (m : hash_map K V) adv n : proper m -> (forall i, a_panics (adv i) = false) ->
  (s_call eqv eqQ c m adv n = Panic <-> exists kvs, c = CPutAll kvs /\ ~ no_two_equal eqQ (map fst kvs)).
Proof.
  intros P QA. destruct (match c with CPutAll kvs => has_duplicates eqQ (map fst kvs) | _ => false end) eqn:DU.
  - destruct c as [| | |kvs]; try discriminate. unfold s_call, s_disjoint, andthen, lift. rewrite DU. split; [|reflexivity]. intros _.
    exists kvs. split; [reflexivity|]. intros N. apply has_duplicates_spec in DU. destruct DU as [i [j [x [y [L [X [Y E]]]]]]].
    rewrite (N i j x y L X Y) in E. discriminate.
  - assert (R : true = true -> match c with CPutAll kvs => has_duplicates eqQ (map fst kvs) = false | _ => True end) by (destruct c; auto).
    pose proof (call_runs true c m P R adv n (fun _ => QA)) as C. split.
    + intros E. rewrite E in C. discriminate.
    + intros [kvs [-> N]]. exfalso. apply N, no_two_spec. exact DU.
Qed.
End Queries.

(** ** The functions among the streams *)
Lemma keep_pair_at {T} h (eq : T -> bool) : forall keep old keep', keep_find_remove h eq keep = Some (old, keep') ->
  exists p other, nth_error (map (fun x => (snd (fst x), snd x)) keep) p = Some (old, other) /\ eq other = true /\
    map (fun x => (snd (fst x), snd x)) keep' = remove_nth p (map (fun x => (snd (fst x), snd x)) keep).
Proof.
  induction keep as [|[[h' i] y] r IH]; intros old keep' E; cbn [keep_find_remove] in E; [discriminate|].
  destruct ((h' =? h) && eq y)%bool eqn:B.
  - injection E as <- <-. apply andb_prop in B. exists 0%nat, y. split; [reflexivity|]. split; [apply B|reflexivity].
  - destruct (keep_find_remove h eq r) as [[j r']|] eqn:F; [|discriminate]. injection E as <- <-.
    destruct (IH _ _ eq_refl) as [p [o [A [Q B']]]]. exists (S p), o. split; [exact A|]. split; [exact Q|]. cbn [map]. rewrite B'. reflexivity.
Qed.

Lemma can_s_using_hash {T} (hasher : T -> N) (eq : T -> T -> bool) l : can (s_using_hash eq l) (Ok (using_hash l hasher eq)).
Proof.
  assert (D : forall r index (keep : keep_table T) d,
    can (s_using_hash_dupes eq index r (map (fun x => (snd (fst x), snd x)) keep) d) (Ok (using_hash_dupes hasher eq index r keep d))).
  { induction r as [|y r IH]; intros index keep d; cbn [s_using_hash_dupes using_hash_dupes]; [apply can_ret|].
    apply (can_number_then 0); [reflexivity|]. cbv zeta.
    destruct (keep_find_remove (hasher y) (eq y) keep) as [[old keep']|] eqn:F.
    - destruct (keep_pair_at _ _ _ _ _ F) as [p [o [A [Q B]]]].
      apply (can_ask_then {| a_panics := false; a_bool := true; a_order := Eq; a_number := N.of_nat p |}); [reflexivity|].
      cbn [a_bool a_number]. rewrite (pick_mod _ _ _ A), A, Q, <- B. apply (IH (S index) ((hasher y, index, y) :: keep')).
    - apply (can_ask_then {| a_panics := false; a_bool := false; a_order := Eq; a_number := 0 |}); [reflexivity|].
      cbn [a_bool]. apply (IH (S index) ((hasher y, index, y) :: keep)). }
  unfold s_using_hash, using_hash. destruct (Nat.leb 2 (length l)); [|apply can_ret].
  eapply can_ok_then; [apply (D l 0%nat [] [])|]. apply can_ret.
Qed.

Lemma can_s_hash_map {K V} usort cm (eqK : K -> K -> bool) (hK : K -> N) (l : list (K * V)) : (forall k, hK k < two64) ->
  can (s_hash_map usort cm eqK l) (hash_map_with_hasher usort cm eqK hK l).
Proof.
  intros H. unfold s_hash_map, hash_map_with_hasher. cbv zeta.
  eapply can_ok_then; [apply (can_s_using_hash (fun x => hK (fst x)) (fun x y => eqK (fst x) (fst y)))|].
  apply can_hash_from. intros e _. eauto.
Qed.

Lemma can_s_fz_hash {K V} usort (eqK : K -> K -> bool) (hK : K -> N) (l : list (K * V)) : (forall k, hK k < two64) ->
  can (s_fz_hash usort eqK l) (fz_hash_map_with_hasher usort eqK hK l).
Proof.
  intros H. unfold s_fz_hash. change (fz_hash_map_with_hasher usort eqK hK l) with (bind (hash_map_with_hasher usort Large eqK hK l) unwrap).
  apply can_then; [apply can_s_hash_map; exact H|]. intros r _. apply can_lift.
Qed.

Lemma can_s_fz_string {V} usort bh (l : list (bytes * V)) :
  (forall s, bh_str bh s < two64 /\ bh_bytes bh s < two64) -> (forall e, In e l -> N.of_nat (length (fst e)) <= usize_max) ->
  can (s_fz_string usort l) (fmap sm_inner (fz_string_map_with_hasher usort bh l)).
Proof.
  intros HB HL. unfold s_fz_string, fz_string_map_with_hasher. cbv zeta.
  destruct (analyze_slice_keys_spec N.eqb (bh_bytes bh) N.eqb_refl (map fst (using_cmp l (fun x y => bytes_cmp (fst x) (fst y)))))
    as [a [EA HA]].
  { intros s Hs. apply in_map_iff in Hs. destruct Hs as [e [<- He]]. apply HL. eapply sorted_incl; eauto. }
  rewrite EA. cbn [bind]. set (es := using_cmp l _). clearbody es. clear EA HL.
  apply (can_ask_then {| a_panics := false; a_bool := false; a_order := Eq; a_number := 0 |}); [reflexivity|].
  assert (HK : forall (hK : bytes -> res N) (wrap : hash_map bytes V -> fz_string_map V),
    (forall q, exists h, hK q = Ok h /\ h < two64) -> (forall m, sm_inner (wrap m) = m) ->
    can (andthen (h_hash_from_dedupped usort Large es) (fun r => h_unwrap r))
      (fmap sm_inner (r <- hash_from_dedupped usort Large hK es ;; fmap wrap (unwrap r)))).
  { intros hK wrap H1 H2.
    apply (can_eq _ (bind (hash_from_dedupped usort Large hK es) (fun r => unwrap r))).
    2:{ destruct (hash_from_dedupped _ _ _ _) as [[m|]| |]; try reflexivity. cbn. rewrite H2. reflexivity. }
    apply can_then; [apply can_hash_from; auto|]. intros r _. apply can_lift. }
  destruct a as [|lo hi|lo hi|]; cbn [analysis_ok] in HA.
  - apply (HK (bridge_hash_one bh) (SmHash bh)); auto. intros q; exists (bh_str bh q); split; [reflexivity|apply HB].
  - apply (HK (left_range_hash_one bh lo hi) (SmLeft bh lo hi)); auto. intros q. assert (L : lo <= hi) by (destruct HA as [HA _]; lia).
    rewrite (left_range_total bh lo hi q L). eexists. split; [reflexivity|]. destruct (N.of_nat (length q) <? hi); [reflexivity|apply HB].
  - apply (HK (right_range_hash_one bh lo hi) (SmRight bh lo hi)); auto. intros q. assert (L : lo <= hi) by (destruct HA as [HA _]; lia).
    rewrite (right_range_total bh lo hi q L). eexists. split; [reflexivity|]. destruct (N.of_nat (length q) <? hi); [reflexivity|apply HB].
  - apply (HK (bridge_hash_one bh) (SmHash bh)); auto. intros q; exists (bh_str bh q); split; [reflexivity|apply HB].
Qed.

Lemma can_s_lookups {K V Q} (hQ : Q -> res N) (eqv : Q -> K -> bool) (m : hash_map K V) q h : hQ q = Ok h -> h < two64 ->
  can (s_get eqv m q) (hash_get hQ eqv m q) /\ can (s_get_mut eqv m q) (hash_get_mut hQ eqv m q) /\
  can (s_get_key_value eqv m q) (hash_get_key_value hQ eqv m q).
Proof.
  intros E L. unfold s_get, s_get_mut, s_get_key_value, hash_get, hash_get_mut, hash_get_key_value. rewrite E. cbn [bind].
  repeat split; apply (can_number_then h); auto using can_lift.
Qed.

Lemma can_s_disjoint {K V Q} (hQ : Q -> res N) (eqv : Q -> K -> bool) eqQ (m : hash_map K V) qs : (forall q, In q qs -> exists h, hQ q = Ok h /\ h < two64) ->
  can (s_disjoint eqv eqQ m qs) (get_disjoint_mut (hash_ops hQ eqv) eqQ m qs).
Proof.
  intros H. unfold s_disjoint, get_disjoint_mut. destruct (has_duplicates eqQ qs); [apply can_lift|].
  unfold get_disjoint_unchecked_mut. induction qs as [|q r IH]; cbn [s_disjoint_unchecked mapM]; [apply can_ret|].
  destruct (H q (or_introl eq_refl)) as [h [E L]]. apply can_then; [apply (can_s_lookups hQ eqv m q h E L)|]. intros o _.
  apply can_then; [apply IH; intros q' I; apply H; right; exact I|]. intros os _. apply can_ret.
Qed.

(** ** From construction to the last call *)
Lemma runs_both {A} (x : hostile A) (P : A -> Prop) : (forall q, runs q x P) -> forall adv n,
  match x adv n with Ok (a, _) => P a | Panic => ~ forall i, a_panics (adv i) = false | UB => False end.
Proof.
  intros H adv n. pose proof (H false adv n ltac:(discriminate)) as F. pose proof (H true adv n) as T.
  destruct (x adv n) as [[a n']| |]; [exact F| |exact F]. intros Q. discriminate (T (fun _ => Q)).
Qed.

Lemma hash_map_made {K V} usort cm (eqK : K -> K -> bool) (input : list (K * V)) adv n : sorts_by_slot usort -> lawful_eq eqK ->
  match s_hash_map usort cm eqK input adv n with
  | Ok (ROk m, _) => sound (AnyHash m) /\ part_of input (ht_entries (hm_table m)) /\
      incl (survivors (same_key eqK) input) (ht_entries (hm_table m))
  | Ok (RErr _, _) => max_capacity cm < N.of_nat (length input)
  | Panic => ~ forall i, a_panics (adv i) = false
  | UB => False
  end.
Proof.
  intros HU HE. pose proof (runs_both _ _ (fun q => s_hash_map_runs q usort cm eqK input HU HE) adv n) as H.
  destruct (s_hash_map usort cm eqK input adv n) as [[[m|s] n']| |]; exact H.
Qed.

Lemma fz_hash_map_made {K V} usort (eqK : K -> K -> bool) (input : list (K * V)) adv n : sorts_by_slot usort -> lawful_eq eqK ->
  N.of_nat (length input) <= usize_max ->
  match s_fz_hash usort eqK input adv n with
  | Ok (m, _) => sound (AnyHash m) /\ part_of input (ht_entries (hm_table m)) /\
      incl (survivors (same_key eqK) input) (ht_entries (hm_table m))
  | Panic => ~ forall i, a_panics (adv i) = false
  | UB => False
  end.
Proof. intros HU HE HL. exact (runs_both _ _ (fun q => s_fz_hash_runs q usort eqK input HU HE HL) adv n). Qed.

Lemma string_map_calls {V} usort (input : list (bytes * V)) adv n : sorts_by_slot usort -> N.of_nat (length input) <= usize_max ->
  match s_fz_string usort input adv n with
  | Ok (m, n') =>
      Permutation (survivors (same_key bytes_eqb) input) (ht_entries (hm_table m)) /\
      forall cs, exists bs m' n'', s_calls bytes_eqb bytes_eqb cs m adv n' = Ok ((bs, m'), n'') /\
        may_all bytes_eqb bytes_eqb (ht_entries (hm_table m)) cs bs (ht_entries (hm_table m'))
  | Panic => ~ forall i, a_panics (adv i) = false
  | UB => False
  end.
Proof.
  intros HU HL. pose proof (runs_both _ _ (fun q => s_fz_string_runs q usort input HU HL) adv n) as R.
  destruct (s_fz_string usort input adv n) as [[m n']| |]; [|exact R|exact R].
  destruct R as [S P]. split; [exact P|]. intros cs.
  assert (Pr : proper bytes_eqb m).
  { split; [exact S|]. eapply distinct_perm; [|exact P|apply survivors_distinct].
    apply (eq_sym_law _ (lawful_same_key bytes_eqb bytes_eqb_lawful)). }
  assert (HQ : forall q q' k : bytes, bytes_eqb q k = true -> bytes_eqb q' k = true -> bytes_eqb q q' = true).
  { intros q q' k A B. apply (eq_trans_law _ bytes_eqb_lawful q k q' A). apply (eq_sym_law _ bytes_eqb_lawful). exact B. }
  destruct (calls_may bytes_eqb bytes_eqb HQ bytes_eqb bytes_eqb_equivalent cs m adv n' Pr) as [bs [m' [n'' [E [M _]]]]].
  exists bs, m', n''. split; assumption.
Qed.
