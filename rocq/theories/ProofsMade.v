(** Consequences for every map made by the crate. *)
From Verif Require Import Prelude Spec ModelUtils ModelAnalyzers ModelTables ModelMaps ModelWidth ModelIter ModelEmit SpecSets SpecEmit SpecMade
  ProofsBase ProofsDedup ProofsTable ProofsMaps ProofsScalar ProofsSlices ProofsFz ProofsWidth ProofsIter ProofsEmit.
From Coq Require Import Permutation.
From Coq Require Import ZArith ZifyNat ZifyN ZifyBool.

Lemma scan_default_built {K V Q} (eqK : K -> K -> bool) (eqv : Q -> K -> bool) :
  built (scan_ops eqv) eqK eqv (scan_map_default (K := K) (V := V)) [].
Proof. apply (scan_map_new_built (V:=V) eqK eqv []). Qed.

Lemma hash_default_built {K V Q} (eqK : K -> K -> bool) (eqv : Q -> K -> bool) hQ :
  built (hash_ops (fun q => Ok (hQ q)) eqv) eqK eqv (hash_map_default (K := K) (V := V)) [].
Proof.
  constructor; [|apply Permutation_refl]. constructor; auto. intros [|e es] E q; [|discriminate].
  set (t := {| ht_slots := [(0, 0)]; ht_entries := []; ht_mask := 0 |} : hash_table (K * V)).
  assert (E0 : forall h, N.to_nat (N.land h 0) = O) by (intros; rewrite N.land_0_r; reflexivity).
  assert (E1 : forall h p, ht_find t h p = Ok None) by (intros; unfold ht_find; cbn [t ht_slots ht_mask]; rewrite E0; reflexivity).
  assert (E2 : forall h p, ht_find_mut t h p = Ok None) by (intros; unfold ht_find_mut; cbn [t ht_slots ht_mask]; rewrite E0; reflexivity).
  exists None. cbn. unfold hash_get_mut, hash_contains_key, hash_get, hash_get_key_value. cbn [bind hm_table]. fold t. rewrite !E1, !E2.
  split; [auto|]. split; [auto|]. split; [auto|]. split; [auto|]. intros e He. destruct He.
Qed.

Lemma nodup_range_length l mn mx : NoDup l -> (forall x, In x l -> mn <= x <= mx) -> N.of_nat (length l) <= mx - mn + 1.
Proof.
  intros ND Hb. set (rng := map (fun i => mn + N.of_nat i) (seq 0 (N.to_nat (mx - mn + 1)))).
  assert (HL : (length l <= length rng)%nat).
  { apply NoDup_incl_length; auto. intros x Hx. apply Hb in Hx. unfold rng. apply in_map_iff. exists (N.to_nat (x - mn)).
    split; [lia|]. apply in_seq. lia. }
  unfold rng in HL. rewrite map_length, seq_length in HL. lia.
Qed.

Lemma unwrap_Ok {A} (r : result A) a : unwrap r = Ok a -> r = ROk a.
Proof. destruct r; cbn; congruence. Qed.

Lemma perm_distinct_survivors {K V} (eqK : K -> K -> bool) (es : list (K * V)) : lawful_eq eqK -> distinct (same_key eqK) es ->
  survivors (same_key eqK) es = es.
Proof. intros _. apply survivors_distinct_id. Qed.

Lemma distinct_same_keys {K V W} (eqK : K -> K -> bool) (es : list (K * V)) (es' : list (K * W)) :
  map fst es' = map fst es -> distinct (same_key eqK) es -> distinct (same_key eqK) es'.
Proof.
  intros E H. assert (G : forall {U} (l : list (K * U)), distinct (same_key eqK) l <-> distinct eqK (map fst l)).
  { intros U l. rewrite distinct_map. reflexivity. }
  apply G. rewrite E. apply G. auto.
Qed.

Lemma fz_string_too_many {V} usort bh (input : list (bytes * V)) :
  (forall e, In e input -> N.of_nat (length (fst e)) <= usize_max) ->
  usize_max < N.of_nat (length (survivors (same_key bytes_eqb) input)) ->
  fz_string_map_with_hasher usort bh input = Panic.
Proof.
  intros Hl Hc. rewrite (Permutation_length (string_sorted_perm input)) in Hc. unfold fz_string_map_with_hasher.
  set (s := using_cmp input _) in *.
  destruct (analyze_slice_keys_spec N.eqb (bh_bytes bh) N.eqb_refl (map fst s)) as [a [EA HA]].
  { intros x Hx. apply in_map_iff in Hx. destruct Hx as [e [<- He]]. apply Hl.
    eapply Permutation_in in He; [|symmetry; apply string_sorted_perm]. eapply survivors_incl; eauto. }
  assert (HE : forall hK, exists msg, hash_from_dedupped usort Large hK s = Ok (RErr msg)).
  { intros hK. unfold hash_from_dedupped. destruct (ht_new_too_many usort Large s (fun e => hK (fst e)) Hc) as [msg E].
    rewrite E. eexists. reflexivity. }
  rewrite EA. cbn [bind]. destruct a as [|lo hi|lo hi|].
  - destruct (HE (bridge_hash_one bh)) as [msg ->]. reflexivity.
  - destruct (HE (left_range_hash_one bh lo hi)) as [msg ->]. reflexivity.
  - destruct (HE (right_range_hash_one bh lo hi)) as [msg ->]. reflexivity.
  - destruct (HE (bridge_hash_one bh)) as [msg ->]. reflexivity.
Qed.

Lemma contiguous_dec {K V} (idx : K -> N) cmp (LS : lawful_scalar idx cmp) (input : list (K * V)) :
  contiguous idx (map fst input) \/ ~ contiguous idx (map fst input).
Proof.
  destruct input as [|e0 r0]; [left; intros a b x []|].
  destruct (first_last_exist (sorted_and_dedupped (e0 :: r0) (fun x y : K * V => cmp (fst x) (fst y)))) as [first [last [E1 E2]]].
  { intros E. rewrite (scalar_sorted_nil idx cmp LS) in E. discriminate E. }
  rewrite <- (contiguous_sorted idx cmp LS _ first last E1 E2).
  destruct (N.eq_dec (idx (fst last) - idx (fst first) + 1)
    (N.of_nat (length (sorted_and_dedupped (e0 :: r0) (fun x y : K * V => cmp (fst x) (fst y)))))); auto.
Qed.

Lemma inline_scan_len {K V} (eqK : K -> K -> bool) sz (input : list (K * V)) m : inline_scan_map_new eqK sz input = Ok m ->
  sz = length (survivors (same_key eqK) input).
Proof.
  unfold inline_scan_map_new, into_array. rewrite using_eq_survivors.
  change (fun x y : K * V => eqK (fst x) (fst y)) with (@same_key K V eqK).
  destruct (Nat.eqb_spec (length (survivors (same_key eqK) input)) sz); [auto|discriminate].
Qed.

Lemma inline_ordered_len {K V Q} cmp cmpQ (LO : lawful_ord cmp) (LC : lawful_comparable (Q:=Q) cmp cmpQ) sz (input : list (K * V)) m :
  inline_eytzinger_map_new cmp sz input = Ok m -> sz = length (survivors (same_key (fun x y => is_eq (cmp x y))) input).
Proof.
  destruct (eytzinger_map_new_built cmp cmpQ LO LC input) as [m' [E B]].
  unfold eytzinger_map_new, eytzinger_from_sorted in E. unfold inline_eytzinger_map_new.
  destruct (eytzinger_layout _) as [es| |]; cbn [bind] in *; try discriminate. injection E as <-.
  unfold into_array. pose proof (Permutation_length (built_entries _ _ _ _ _ B)) as HL. cbn in HL.
  rewrite <- HL. destruct (Nat.eqb_spec (length (survivors (same_key (fun x y : K => is_eq (cmp x y))) input)) sz); [auto|discriminate].
Qed.

Lemma made_facts {M K V Q} (ops : map_ops M K V Q) eqK eqv m input : made ops eqK eqv m input ->
  lawful_eq eqK /\ lawful_equivalent eqK eqv /\ built ops eqK eqv m input.
Proof.
  induction 1.
  - split; [auto|]. split; [auto|].
    destruct (N.le_gt_cases (N.of_nat (length (survivors (same_key eqK) input))) usize_max) as [Hc|Hc].
    + destruct (fz_hash_map_built usort H eqK eqv hK hQ input H0 H2 H3 Hc) as [m' [E B]]. congruence.
    + destruct (hash_map_with_hasher_err usort Large eqK hK input H0 H2 Hc) as [msg E].
      unfold fz_hash_map_with_hasher in H4. unfold hash_map_with_hasher in E. rewrite E in H4. discriminate.
  - split; [apply lawful_eq_of_ord; auto|]. split; [apply lawful_equivalent_of_comparable; auto|].
    destruct (eytzinger_map_new_built cmp cmpQ H H0 input) as [m' [E B]].
    change (fz_ordered_map_new cmp input) with (eytzinger_map_new cmp input) in H1. rewrite H1 in E. injection E as <-. exact B.
  - split; [apply same_idx_eq|]. split; [apply (same_idx_equivalent idx idxQ eqv); auto|].
    destruct (N.le_gt_cases (N.of_nat (length (survivors (same_key (same_idx idx)) input))) usize_max) as [Hc|Hc].
    + destruct (fz_scalar_map_built idx cmp idxQ eqv H0 H1 usort H md input H2 Hc) as [m' [E B]]. rewrite H3 in E. injection E as <-. exact B.
    + exfalso. rewrite (Permutation_length (scalar_sorted_perm idx cmp H0 input)) in Hc.
      pose proof (scalar_sorted_incr idx cmp H0 input) as HI.
      set (s := sorted_and_dedupped input (fun x y : K * V => cmp (fst x) (fst y))) in *.
      destruct (first_last_exist s) as [first [last [E1 E2]]]; [intros E; rewrite E in Hc; cbn in Hc; lia|].
      pose proof (nodup_range_length (ixs idx s) (idx (fst first)) (idx (fst last)) (incr_NoDup _ HI) (incr_first_last idx s first last HI E1 E2)) as HN.
      pose proof (span_sorted idx cmp H0 input first last H2 E1 E2). unfold ixs in HN. rewrite map_length in HN. unfold usize_max in *. lia.
  - split; [apply bytes_eqb_lawful|]. split; [apply bytes_eqb_equivalent|].
    destruct (N.le_gt_cases (N.of_nat (length (survivors (same_key bytes_eqb) input))) usize_max) as [Hc|Hc].
    + destruct (fz_string_map_built usort bh H input Hc H0) as [m' [E B]]. congruence.
    + rewrite (fz_string_too_many usort bh input H0 Hc) in H1. discriminate.
  - split; [auto|]. split; [auto|]. apply scan_map_new_built.
  - split; [apply lawful_eq_of_ord; auto|]. split; [apply lawful_equivalent_of_comparable; auto|].
    destruct (eytzinger_map_new_built cmp cmpQ H H0 input) as [m' [E B]]. rewrite H1 in E. injection E as <-. exact B.
  - split; [apply same_idx_eq|]. split; [apply (same_idx_equivalent idx idxQ eqv); auto|].
    destruct (contiguous_dec idx cmp H input) as [HC|HC].
    + destruct (dense_map_new_built idx cmp idxQ eqv H H0 md input H1 HC) as [m' [E B]]. rewrite H2 in E. injection E as <-. exact B.
    + destruct (dense_map_new_err idx cmp H md input H1 HC) as [msg E]. congruence.
  - split; [apply same_idx_eq|]. split; [apply (same_idx_equivalent idx idxQ eqv); auto|].
    destruct (sparse_map_new_built idx cmp idxQ eqv H H0 md input H1) as [m' [E B]]. rewrite H2 in E. injection E as <-. exact B.
  - split; [auto|]. split; [auto|].
    destruct (N.le_gt_cases (N.of_nat (length (survivors (same_key eqK) input))) (max_capacity cm)) as [Hc|Hc].
    + destruct (hash_map_with_hasher_built usort H cm eqK eqv hK hQ input H0 H2 H3 Hc) as [m' [E B]]. congruence.
    + destruct (hash_map_with_hasher_err usort cm eqK hK input H0 H2 Hc) as [msg E]. congruence.
  - split; [apply same_idx_eq|]. split; [apply (same_idx_equivalent idx idxQ eqv); auto|].
    destruct (extremes_dec umax idx input) as [X|X].
    + rewrite (fz_scalar_on_over umax H idx cmp H1 input H3 usort md X) in H4. discriminate.
    + destruct (fz_scalar_on_ok umax H idx cmp idxQ eqv H1 H2 input H3 usort H0 md X) as [m' [E B]]. rewrite H4 in E. injection E as <-. exact B.
  - split; [apply bytes_eqb_lawful|]. split; [apply bytes_eqb_equivalent|].
    assert (Hl : forall e, In e input -> N.of_nat (length (fst e)) <= usize_max) by (intros e He; specialize (H1 e He); lia).
    rewrite (fz_string_on_eq umax H usort bh input H1) in H2.
    destruct (N.le_gt_cases (N.of_nat (length (survivors (same_key bytes_eqb) input))) usize_max) as [Hc|Hc].
    + destruct (fz_string_map_built usort bh H0 input Hc Hl) as [m' [E B]]. congruence.
    + rewrite (fz_string_too_many usort bh input Hl Hc) in H2. discriminate.
  - split; [apply same_idx_eq|]. split; [apply (same_idx_equivalent idx idxQ eqv); auto|].
    destruct (extremes_dec umax idx input) as [X|X].
    + pose proof (dense_map_on_over umax H idx cmp H0 input H2 md X) as E. destruct md; [congruence|]. destruct E as [msg E]. congruence.
    + destruct (contiguous_dec idx cmp H0 input) as [HC|HC].
      * destruct (dense_map_on_ok umax H idx cmp idxQ eqv H0 H1 input H2 md X HC) as [m' [E B]]. rewrite H3 in E. injection E as <-. exact B.
      * destruct (dense_map_on_err umax H idx cmp H0 input H2 md X HC) as [msg E]. congruence.
  - split; [apply same_idx_eq|]. split; [apply (same_idx_equivalent idx idxQ eqv); auto|].
    destruct (extremes_dec umax idx input) as [X|X].
    + rewrite (sparse_map_on_over umax H idx cmp H0 input H2 md X) in H3. discriminate.
    + destruct (sparse_map_on_ok umax H idx cmp idxQ eqv H0 H1 input H2 md X) as [m' [E B]]. rewrite H3 in E. injection E as <-. exact B.
  - split; [auto|]. split; [auto|].
    destruct (inline_scan_map_new_built eqK eqv sz input (inline_scan_len eqK sz input m H1)) as [m' [E B]]. congruence.
  - split; [apply lawful_eq_of_ord; auto|]. split; [apply lawful_equivalent_of_comparable; auto|].
    destruct (inline_eytzinger_map_new_built cmp cmpQ H H0 sz input (inline_ordered_len cmp cmpQ H H0 sz input m H1)) as [m' [E B]].
    rewrite H1 in E. injection E as <-. exact B.
  - split; [auto|]. split; [auto|]. apply scan_default_built.
  - split; [apply lawful_eq_of_ord; auto|]. split; [apply lawful_equivalent_of_comparable; auto|].
    destruct (eytzinger_map_new_built (V:=V) cmp cmpQ H H0 []) as [m' [E B]]. cbn in E. injection E as <-. exact B.
  - split; [apply same_idx_eq|]. split; [apply (same_idx_equivalent idx idxQ eqv); auto|]. apply dense_default_built; auto.
  - split; [apply same_idx_eq|]. split; [apply (same_idx_equivalent idx idxQ eqv); auto|]. apply sparse_default_built; auto.
  - split; [auto|]. split; [auto|]. apply hash_default_built.
  - split; [apply same_idx_eq|]. split; [apply (same_idx_equivalent idx idxQ eqv); auto|]. apply fs_dense_built. apply dense_default_built; auto.
  - split; [apply bytes_eqb_lawful|]. split; [apply bytes_eqb_equivalent|].
    apply sm_built. apply (hash_default_built bytes_eqb bytes_eqb).
  - destruct IHmade as [LE [LV B]]. split; [auto|]. split; [auto|]. constructor.
    + apply map_ok_with; auto. apply (built_ok _ _ _ _ _ B).
    + rewrite (ok_entries _ _ _ (built_ok _ _ _ _ _ B)). rewrite survivors_distinct_id; [apply Permutation_refl|].
      eapply distinct_same_keys; eauto. eapply built_distinct; eauto.
  - split; [apply same_idx_eq|]. split; [apply (same_idx_equivalent idxK idxQ eqv); auto|].
    pose proof (emit_scalar_options _ _ _ _ _ _ _ _ H5).
    eapply emitted_run; [eapply (emit_scalar_emitted evK evV eqR cmpR (idx_eq idxK) eqv cmpQ idxQ (scalar_hasher idxQ) idxB idxK)|exact H5|exact H6]; eauto.
  - split; [apply bytes_eqb_lawful|]. split; [apply bytes_eqb_equivalent|].
    assert (options_consistent em) by (eapply finish_options; exact H5).
    eapply emitted_run; [eapply (emit_string_emitted evK evV eqR cmpR cmpQ idxQ)|exact H5|exact H6]; eauto.
  - split; [auto|]. split; [auto|]. assert (options_consistent em) by (eapply finish_options; exact H7).
    eapply emitted_run; [eapply (emit_hash_emitted evK evV eqR cmpR eqK eqv cmpQ idxQ (general_hasher hashR))|exact H7|exact H8]; eauto.
    intros q. exists (hashR seed q). split; [reflexivity|]. intros e He Hq. symmetry. auto.
  - split; [apply lawful_eq_of_ord; auto|].
    split; [eapply lawful_equivalent_ext; [exact H2|]; apply lawful_equivalent_of_comparable; auto|].
    assert (options_consistent em) by (eapply finish_options; exact H4).
    eapply emitted_run; [eapply (emit_ordered_emitted evK evV eqR cmpR (cmp_eq cmpK) eqv cmpQ idxQ hashQ unit_expr cmpB cmpK)|exact H4|exact H5]; eauto.
  - split; [auto|]. split; [auto|]. cbn [run_ctor] in H1. destruct (inline_scan_map_new _ _ _) as [s| |] eqn:E; cbn in H1; try discriminate.
    injection H1 as <-. apply rt_scan_built. pose proof (inline_scan_len _ _ _ _ E) as HL.
    destruct (inline_scan_map_new_built eqK eqv len (eval_entries evK evV es) HL) as [m' [E' B]]. rewrite E in E'. injection E' as <-. exact B.
  - split; [apply lawful_eq_of_ord; auto|].
    split; [eapply lawful_equivalent_ext; [exact H1|]; apply lawful_equivalent_of_comparable; auto|].
    cbn [run_ctor] in H2. destruct (inline_eytzinger_map_new _ _ _) as [s| |] eqn:E; cbn in H2; try discriminate.
    injection H2 as <-. apply rt_eytzinger_built. pose proof (inline_ordered_len cmpK cmpQ H H0 _ _ _ E) as HL.
    destruct (inline_eytzinger_map_new_built cmpK cmpQ H H0 len (eval_entries evK evV es) HL) as [m' [E' [B1 B2]]]. rewrite E in E'. injection E' as <-.
    constructor; [|exact B2]. apply (map_ok_ext eqv _ (fun q k => is_eq (cmpQ q k))); [intros; symmetry; apply H1|exact B1].
Qed.

Section Made.
Context {M K V Q : Type} (ops : map_ops M K V Q) (eqK : K -> K -> bool) (eqv : Q -> K -> bool) (m : M) (input : list (K * V)).
Hypothesis MD : made ops eqK eqv m input.

Let LE : lawful_eq eqK := proj1 (made_facts _ _ _ _ _ MD).
Let LV : lawful_equivalent eqK eqv := proj1 (proj2 (made_facts _ _ _ _ _ MD)).
Let B : built ops eqK eqv m input := proj2 (proj2 (made_facts _ _ _ _ _ MD)).

Lemma made_lawful : lawful_eq eqK /\ lawful_equivalent eqK eqv.
Proof. exact (conj LE LV). Qed.
Lemma made_get q : mo_get ops m q = Ok (spec_get eqv input q).
Proof. apply (built_get ops eqK eqv LE LV m input B). Qed.
Lemma made_gkv q : mo_get_key_value ops m q = Ok (spec_entry eqv input q).
Proof. apply (built_gkv ops eqK eqv LE LV m input B). Qed.
Lemma made_contains q : mo_contains_key ops m q = Ok (is_some (spec_entry eqv input q)).
Proof. apply (built_contains ops eqK eqv LE LV m input B). Qed.
Lemma made_entries : Permutation (survivors (same_key eqK) input) (mo_entries ops m).
Proof. apply (built_entries _ _ _ _ _ B). Qed.
Lemma made_distinct : distinct (same_key eqK) (mo_entries ops m).
Proof. apply (built_distinct ops eqK eqv LE m input B). Qed.
Lemma made_len : map_len ops m = key_count eqK input.
Proof. apply (built_len ops eqK eqv m input B). Qed.
Lemma made_is_empty : map_is_empty ops m = true <-> input = [].
Proof. rewrite (built_is_empty ops eqK eqv LE m input B). destruct input; cbn; split; congruence. Qed.
Lemma made_get_mut q : exists o, mo_get_mut ops m q = Ok o /\ opt_bind o (nth_error (mo_entries ops m)) = spec_entry eqv input q /\
  is_some o = is_some (spec_entry eqv input q).
Proof. destruct (built_queries ops eqK eqv LE LV m input B q) as [o H]. exists o. tauto. Qed.
Lemma made_put q v : exists m', map_put ops m q v = Ok m' /\ mo_entries ops m' = map (upd eqv q v) (mo_entries ops m) /\
  built ops eqK eqv m' (map (upd eqv q v) input).
Proof. apply (put_spec ops eqK eqv LE LV m input B). Qed.
Lemma made_puts ws : exists m', map_puts ops m ws = Ok m' /\
    let f := fun l => fold_left (fun l w => map (upd eqv (fst w) (snd w)) l) ws l in
    mo_entries ops m' = f (mo_entries ops m) /\ built ops eqK eqv m' (f input).
Proof. apply (puts_spec ops eqK eqv LE LV). exact B. Qed.
Lemma made_built : built ops eqK eqv m input.
Proof. exact B. Qed.

(** get_disjoint_mut *)
Lemma mapM_Forall2 {A C} (f : A -> res C) l l' : mapM f l = Ok l' <-> Forall2 (fun a c => f a = Ok c) l l'.
Proof.
  revert l'. induction l as [|a r IH]; intros l'; cbn [mapM].
  - split; [intros E; injection E as <-; constructor|]. intros H; inversion H; auto.
  - destruct (f a) as [c| |] eqn:E; cbn [bind]; try (split; [discriminate|intros H; inversion H; congruence]).
    destruct (mapM f r) as [l0| |] eqn:E0; cbn [bind].
    + split; [intros E1; injection E1 as <-; constructor; auto; apply IH; auto|].
      intros H; inversion H; subst. apply IH in H4. congruence.
    + split; [discriminate|]. intros H; inversion H; subst. apply IH in H4. discriminate.
    + split; [discriminate|]. intros H; inversion H; subst. apply IH in H4. discriminate.
Qed.

Lemma made_disjoint eqQ keys :
  ((exists i j x y, (i < j)%nat /\ nth_error keys i = Some x /\ nth_error keys j = Some y /\ eqQ x y = true) ->
     get_disjoint_mut ops eqQ m keys = Panic) /\
  ((~ exists i j x y, (i < j)%nat /\ nth_error keys i = Some x /\ nth_error keys j = Some y /\ eqQ x y = true) ->
   exists l, get_disjoint_mut ops eqQ m keys = Ok l /\ Forall2 (fun q o => mo_get_mut ops m q = Ok o) keys l /\
     ((forall q q' k, eqv q k = true -> eqv q' k = true -> eqQ q q' = true) ->
      forall i j p, nth_error l i = Some (Some p) -> nth_error l j = Some (Some p) -> i = j)).
Proof.
  unfold get_disjoint_mut. rewrite <- has_duplicates_spec. destruct (has_duplicates eqQ keys) eqn:E.
  - split; auto. intros H. congruence.
  - split; [discriminate|]. intros _. unfold get_disjoint_unchecked_mut.
    assert (HX : exists l, Forall2 (fun q o => mo_get_mut ops m q = Ok o) keys l).
    { clear E. induction keys as [|q r [l IH]]; [exists []; constructor|]. destruct (made_get_mut q) as [o [Eo _]].
      exists (o :: l). constructor; auto. }
    destruct HX as [l HF]. exists l. split; [apply mapM_Forall2; auto|]. split; auto.
    intros HA i j p Hi Hj.
    assert (HG : forall i j, (i < j)%nat -> nth_error l i = Some (Some p) -> nth_error l j = Some (Some p) -> False).
    { clear i j Hi Hj. intros i j Hij Hi Hj.
      assert (HK : forall i, nth_error l i = Some (Some p) -> exists q, nth_error keys i = Some q /\ mo_get_mut ops m q = Ok (Some p)).
      { clear -HF. induction HF as [|q o r r' Ho HF IH]; intros [|i] Hi; cbn in *; try discriminate; eauto. injection Hi as ->. eauto. }
      destruct (HK i Hi) as [q [Eq1 Eq2]], (HK j Hj) as [q' [Eq1' Eq2']].
      assert (HE : forall q, mo_get_mut ops m q = Ok (Some p) -> exists e, nth_error (mo_entries ops m) p = Some e /\ eqv q (fst e) = true).
      { intros q0 H0. destruct (map_ok_lookup ops eqv m q0 (built_ok _ _ _ _ _ B)) as [o [E1 [_ [_ [_ E5]]]]].
        rewrite H0 in E1. injection E1 as <-. exact E5. }
      destruct (HE q Eq2) as [e [H1 H2]], (HE q' Eq2') as [e' [H1' H2']]. rewrite H1 in H1'. injection H1' as <-.
      enough (has_duplicates eqQ keys = true) by congruence. apply has_duplicates_spec. exists i, j, q, q'.
      split; [auto|]. split; [auto|]. split; [auto|]. eapply HA; eauto. }
    destruct (Nat.lt_trichotomy i j) as [H|[H|H]]; [exfalso; eauto|auto|exfalso; eauto].
Qed.
End Made.

(** ** equality *)
Section Equality.
Context {M K V : Type} (ops : map_ops M K V K) (eqK : K -> K -> bool) (eqV : V -> V -> bool) (m : M) (input input' : list (K * V)).
Variable other : map_query K V.
Hypothesis MD : made ops eqK eqK m input.
Hypothesis HO : holds eqK other input'.

Let LE : lawful_eq eqK := proj1 (made_lawful _ _ _ _ _ MD).

Lemma spec_entry_cong (l : list (K * V)) a b : eqK a b = true -> spec_entry eqK l a = spec_entry eqK l b.
Proof. intros H. unfold spec_entry. apply last_match_ext. intros x _. apply (eq_cong eqK LE). auto. Qed.

Lemma spec_get_member (l : list (K * V)) k : spec_get eqK l k <> None <-> member eqK k (map fst (survivors (same_key eqK) l)).
Proof.
  unfold spec_get. rewrite <- (survivors_lookup eqK eqK LE (lawful_self_equivalent eqK LE) l _ k (Permutation_refl _)).
  destruct (last_match (fun e => eqK k (fst e)) (survivors (same_key eqK) l)) as [e|] eqn:E; cbn.
  - apply last_match_Some in E. split; [|discriminate]. intros _. exists (fst e). split; [apply in_map|]; apply E.
  - rewrite last_match_None in E. split; [congruence|]. intros [y [Hy Ey]]. apply in_map_iff in Hy. destruct Hy as [e [<- He]].
    rewrite E in Ey by auto. discriminate.
Qed.

Lemma eq_all_spec es : exists b, eq_all eqV es other = Ok b /\
  (b = true <-> forall k v, In (k, v) es -> exists v', spec_get eqK input' k = Some v' /\ eqV v v' = true).
Proof.
  induction es as [|[k v] r IH]; cbn [eq_all].
  - exists true. split; auto. split; auto. intros _ k v [].
  - rewrite (proj2 HO k). cbn [bind]. destruct (spec_get eqK input' k) as [v'|] eqn:E.
    + destruct (eqV v v') eqn:Ev.
      * destruct IH as [b [E1 H]]. exists b. split; auto. rewrite H. split.
        -- intros G k0 v0 [E0|H0]; [injection E0 as <- <-; eauto|eauto].
        -- intros G k0 v0 H0. apply G. right. auto.
      * exists false. split; auto. split; [discriminate|]. intros G. destruct (G k v (or_introl eq_refl)) as [w [Ew Hw]]. congruence.
    + exists false. split; auto. split; [discriminate|]. intros G. destruct (G k v (or_introl eq_refl)) as [w [Ew Hw]]. congruence.
Qed.

Lemma entries_get k : forall v, spec_get eqK input k = Some v <-> exists k', In (k', v) (mo_entries ops m) /\ eqK k k' = true.
Proof.
  intros v. unfold spec_get. rewrite <- (survivors_lookup eqK eqK LE (lawful_self_equivalent eqK LE) input _ k (made_entries _ _ _ _ _ MD)).
  split.
  - destruct (last_match (fun e => eqK k (fst e)) (mo_entries ops m)) as [[k' v']|] eqn:E; cbn; [|discriminate]. intros E'. injection E' as <-.
    apply last_match_Some in E. exists k'. auto.
  - intros [k' [H1 H2]]. rewrite (last_match_unique (same_key eqK) _ _ (k', v)); auto.
    + apply (eq_sym_law _ (lawful_same_key eqK LE)).
    + apply (made_distinct _ _ _ _ _ MD).
    + intros x y Hx Hy. apply (match_same eqK eqK (lawful_self_equivalent eqK LE) k); auto.
Qed.

Lemma map_eq_spec : exists b, map_eq ops eqV m other = Ok b /\
  (b = true <-> forall k, opt_eq eqV (spec_get eqK input k) (spec_get eqK input' k)).
Proof.
  unfold map_eq. rewrite (made_len _ _ _ _ _ MD), (proj1 HO).
  set (k1 := map fst (survivors (same_key eqK) input)). set (k2 := map fst (survivors (same_key eqK) input')).
  assert (D1 : distinct eqK k1) by (apply distinct_map; apply survivors_distinct).
  assert (D2 : distinct eqK k2) by (apply distinct_map; apply survivors_distinct).
  assert (L1 : length k1 = key_count eqK input) by apply map_length.
  assert (L2 : length k2 = key_count eqK input') by apply map_length.
  destruct (Nat.eqb_spec (key_count eqK input) (key_count eqK input')) as [E|E]; cbn [negb].
  - destruct (eq_all_spec (mo_entries ops m)) as [b [E1 H]]. exists b. split; auto. rewrite H. clear H. split.
    + intros G k. destruct (spec_get eqK input k) as [v|] eqn:Ek.
      * apply entries_get in Ek. destruct Ek as [k' [H1 H2]]. destruct (G k' v H1) as [v' [H3 H4]].
        unfold spec_get in *. rewrite (spec_entry_cong _ k k' H2), H3. exact H4.
      * destruct (spec_get eqK input' k) as [v'|] eqn:Ek'; [|exact I]. exfalso.
        assert (HM : member eqK k k2) by (apply spec_get_member; congruence).
        assert (HM1 : member eqK k k1).
        { destruct HM as [y [Hy Ey]]. apply (member_cong eqK LE k y); auto.
          apply (distinct_incl_back eqK LE k1 k2 D1); auto; [lia|]. intros x Hx. apply spec_get_member.
          apply in_map_iff in Hx. destruct Hx as [[kx vx] [<- He]].
          eapply Permutation_in in He; [|apply (made_entries _ _ _ _ _ MD)]. destruct (G kx vx He) as [w [Hw _]]. cbn [fst]. congruence. }
        apply spec_get_member in HM1. congruence.
    + intros G k v Hkv. specialize (G k). assert (E' : spec_get eqK input k = Some v).
      { apply entries_get. exists k. split; auto. apply (eq_refl_law _ LE). }
      rewrite E' in G. cbn in G. destruct (spec_get eqK input' k) as [v'|]; [eauto|destruct G].
  - exists false. split; auto. split; [discriminate|]. intros G. exfalso. apply E. rewrite <- L1, <- L2.
    apply Nat.le_antisymm; apply (distinct_incl_length eqK LE); auto; intros x Hx; apply (member_In eqK LE) in Hx;
      apply spec_get_member in Hx; apply spec_get_member; specialize (G x); unfold opt_eq in G;
      destruct (spec_get eqK input x), (spec_get eqK input' x); try congruence; destruct G.
Qed.
End Equality.

Lemma made_holds {M K V} (ops : map_ops M K V K) eqK m input : made ops eqK eqK m input -> holds eqK (as_query ops m) input.
Proof. intros MD. split; [apply (made_len _ _ _ _ _ MD)|]. intros k. apply (made_get _ _ _ _ _ MD). Qed.

Lemma made_set {M T} (ops : map_ops M T unit T) eqT m input : made ops eqT eqT m input ->
  lawful_set eqT (as_set ops m) /\ forall x, elem eqT x (as_set ops m) <-> member eqT x (map fst input).
Proof. intros MD. apply built_set_lawful; [apply (made_lawful _ _ _ _ _ MD)|apply (made_built _ _ _ _ _ MD)]. Qed.
