(** Construction on targets whose [usize] is narrower than 64 bits. *)
From Coq Require Import Permutation ZArith ZifyNat ZifyN ZifyBool.
From Verif Require Import Prelude Spec ModelUtils ModelAnalyzers ModelTables ModelMaps ModelWidth
  ProofsBase ProofsDedup ProofsEytzinger ProofsTable ProofsMaps ProofsScalar ProofsSlices ProofsFz.

Section Width.
Variable umax : N.
Hypothesis HU : umax <= usize_max.

Lemma usub_on_ok md a b : b <= a -> usub_on umax md a b = Ok (a - b).
Proof. intros H. unfold usub_on. destruct (N.leb_spec b a); [auto|lia]. Qed.
Lemma uadd_on_ok md a b : a + b <= umax -> uadd_on umax md a b = Ok (a + b).
Proof. intros H. unfold uadd_on. destruct (N.leb_spec (a + b) umax); [auto|lia]. Qed.
(** [usize::MAX + 1]. *)
Lemma uadd_on_over md : uadd_on umax md umax 1 = match md with Debug => Panic | Release => Ok 0 end.
Proof.
  unfold uadd_on. destruct (N.leb_spec (umax + 1) umax); [lia|]. destruct md; [auto|]. rewrite N.mod_same by lia. reflexivity.
Qed.

Lemma min_max_on l : l <> [] -> (forall x, In x l -> x <= umax) ->
  exists mn mx, scalar_min_max l umax 0 0 = (mn, mx, N.of_nat (length l)) /\ In mn l /\ In mx l /\ forall x, In x l -> mn <= x <= mx.
Proof.
  intros Hne Hb. pose proof (scalar_min_max_spec l umax 0 0) as H.
  destruct (scalar_min_max l umax 0 0) as [[mn mx] c]. destruct H as [H1 [H2 [H3 [H4 [H5 H6]]]]].
  exists mn, mx. rewrite N.add_0_l in H1. subst c.
  assert (exists x, In x l) by (destruct l; [congruence|eexists; left; reflexivity]). destruct H as [x Hx].
  pose proof (H4 x Hx). pose proof (Hb x Hx).
  repeat split; auto; try (apply H4; auto).
  - destruct H5 as [->|]; auto. assert (x = umax) by lia. subst; auto.
  - destruct H6 as [->|]; auto. assert (x = 0) by lia. subst; auto.
Qed.

(** Without both extremes the classification goes by span and count, up to the saturation of the product. *)
Lemma analyze_on_ok md l : l <> [] -> (forall x, In x l -> x <= umax) -> ~ (In 0 l /\ In umax l) ->
  exists mn mx, In mn l /\ In mx l /\ (forall x, In x l -> mn <= x <= mx) /\ mx < mn + umax /\
  analyze_scalar_keys_on umax md l = Ok (
    if mx - mn + 1 =? N.of_nat (length l) then DenseRange
    else if (mx - mn + 1 <=? 128) || (mx - mn + 1 <? saturating_mul_on umax (N.of_nat (length l)) 10) then SparseRange
    else ScalarGeneral).
Proof.
  intros Hne Hb Hs. destruct (min_max_on l Hne Hb) as [mn [mx [E [H1 [H2 H3]]]]].
  assert (HS : mx < mn + umax).
  { destruct (N.lt_ge_cases mx (mn + umax)) as [|Hge]; [auto|]. exfalso. apply Hs. pose proof (Hb mx H2). 
    assert (mn = 0) by lia. assert (mx = umax) by lia. subst. auto. }
  exists mn, mx. split; [auto|]. split; [auto|]. split; [auto|]. split; [exact HS|]. unfold analyze_scalar_keys_on. rewrite E.
  destruct (N.eqb_spec (N.of_nat (length l)) 0); [destruct l; [congruence|cbn in *; lia]|].
  pose proof (H3 mn H1). rewrite usub_on_ok by lia. cbn [bind].
  rewrite uadd_on_ok by lia. cbn [bind].
  destruct (mx - mn + 1 =? N.of_nat (length l)); auto.
  destruct ((mx - mn + 1 <=? 128) || (mx - mn + 1 <? saturating_mul_on umax (N.of_nat (length l)) 10)); auto.
Qed.

(** With both extremes the count overflows. *)
Lemma analyze_on_over md l : (forall x, In x l -> x <= umax) -> In 0 l -> In umax l ->
  analyze_scalar_keys_on umax md l = match md with Debug => Panic | Release => Ok SparseRange end.
Proof.
  intros Hb H0 Hm. assert (Hne : l <> []) by (intros ->; destruct H0).
  destruct (min_max_on l Hne Hb) as [mn [mx [E [H1 [H2 H3]]]]].
  pose proof (H3 0 H0). pose proof (H3 umax Hm). pose proof (Hb mx H2). assert (mn = 0) by lia. assert (mx = umax) by lia. subst mn mx.
  unfold analyze_scalar_keys_on. rewrite E. destruct (N.eqb_spec (N.of_nat (length l)) 0) as [E0|N0]; [destruct l; [congruence|cbn in *; lia]|].
  rewrite usub_on_ok by lia. cbn [bind]. rewrite N.sub_0_r, uadd_on_over. destruct md; [reflexivity|]. cbn [bind].
  destruct (N.eqb_spec 0 (N.of_nat (length l))); [lia|]. reflexivity.
Qed.

Lemma sparse_fill_on_eq {K V} md (idx : K -> N) mn : forall (es : list (K * V)) i lookup, (forall e, In e es -> mn <= idx (fst e)) ->
  sparse_fill_on umax md idx mn i es lookup = sparse_fill md idx mn i es lookup.
Proof.
  induction es as [|e r IH]; intros i lookup H; cbn [sparse_fill_on sparse_fill]; [reflexivity|].
  rewrite usub_on_ok, usub_ok by (apply H; left; reflexivity). cbn [bind].
  destruct (store lookup _ _); cbn [bind]; auto. apply IH. intros e' He'. apply H. right. exact He'.
Qed.

Section Scalars.
Context {K V Q : Type} (idx : K -> N) (cmp : K -> K -> comparison) (idxQ : Q -> N) (eqv : Q -> K -> bool).
Hypothesis LS : lawful_scalar idx cmp.
Hypothesis LQ : lawful_query_scalar idx idxQ eqv.
Notation sorted input := (sorted_and_dedupped input (fun x y : K * V => cmp (fst x) (fst y))).

Definition extremes (input : list (K * V)) : Prop := exists a b, In a (map fst input) /\ In b (map fst input) /\ idx a = 0 /\ idx b = umax.

Lemma extremes_dec (input : list (K * V)) : extremes input \/ ~ extremes input.
Proof.
  assert (D : forall x, (exists k, In k (map fst input) /\ idx k = x) \/ ~ exists k, In k (map fst input) /\ idx k = x).
  { intros x. destruct (in_dec N.eq_dec x (map idx (map fst input))) as [H|H].
    - left. apply in_map_iff in H. destruct H as [k [E Hk]]. exists k. auto.
    - right. intros [k [Hk E]]. apply H. apply in_map_iff. exists k. auto. }
  destruct (D 0) as [[a [Ha Ea]]|N0]; [|right; intros (a & b & Ha & _ & Ea & _); apply N0; exists a; auto].
  destruct (D umax) as [[b [Hb Eb]]|Nm]; [left; exists a, b; auto|right; intros (a' & b & _ & Hb & _ & Eb); apply Nm; exists b; auto].
Qed.

Lemma sorted_index (input : list (K * V)) x : In x (ixs idx (sorted input)) <-> exists k, In k (map fst input) /\ idx k = x.
Proof.
  unfold ixs. rewrite in_map_iff. split.
  - intros [e [<- He]]. exists (fst e). split; auto. apply in_map. apply (scalar_sorted_in idx cmp LS). auto.
  - intros [k [Hk <-]]. apply in_map_iff in Hk. destruct Hk as [e [<- He]].
    destruct (scalar_sorted_cover idx cmp LS input e He) as [e' [He' E]]. exists e'. auto.
Qed.

Lemma extremes_sorted (input : list (K * V)) : extremes input <-> In 0 (ixs idx (sorted input)) /\ In umax (ixs idx (sorted input)).
Proof.
  rewrite !sorted_index. split.
  - intros (a & b & Ha & Hb & Ea & Eb). split; [exists a|exists b]; auto.
  - intros [[a [Ha Ea]] [b [Hb Eb]]]. exists a, b. auto.
Qed.

Lemma first_last_on (input : list (K * V)) : input <> [] -> exists first last,
  nth_error (sorted input) 0 = Some first /\ nth_error (sorted input) (length (sorted input) - 1) = Some last /\
  In (idx (fst first)) (ixs idx (sorted input)) /\ In (idx (fst last)) (ixs idx (sorted input)) /\
  forall x, In x (ixs idx (sorted input)) -> idx (fst first) <= x <= idx (fst last).
Proof.
  intros Hne. destruct (first_last_exist (sorted input)) as [first [last [E1 E2]]].
  { rewrite (scalar_sorted_nil idx cmp LS). auto. }
  exists first, last. split; [auto|]. split; [auto|].
  split; [apply (in_map (fun e => idx (fst e))); eapply nth_error_In; eauto|].
  split; [apply (in_map (fun e => idx (fst e))); eapply nth_error_In; eauto|].
  exact (incr_first_last idx (sorted input) first last (scalar_sorted_incr idx cmp LS input) E1 E2).
Qed.

Context (input : list (K * V)).
Hypothesis HB : forall k, In k (map fst input) -> idx k <= umax.

Lemma ixs_on_bound x : In x (ixs idx (sorted input)) -> x <= umax.
Proof. intros H. apply sorted_index in H. destruct H as [k [Hk <-]]. auto. Qed.

(** The extremes, seen on the first and last of the sorted entries. *)
Lemma extremes_first_last (first last : K * V) : In (idx (fst first)) (ixs idx (sorted input)) -> In (idx (fst last)) (ixs idx (sorted input)) ->
  (forall x, In x (ixs idx (sorted input)) -> idx (fst first) <= x <= idx (fst last)) ->
  (extremes input -> idx (fst first) = 0 /\ idx (fst last) = umax) /\ (~ extremes input -> idx (fst last) < idx (fst first) + umax).
Proof.
  intros Hf Hl H. rewrite extremes_sorted. pose proof (ixs_on_bound _ Hl) as Hb. split.
  - intros [H0 Hm]. apply H in H0, Hm. lia.
  - intros HN. destruct (N.lt_ge_cases (idx (fst last)) (idx (fst first) + umax)) as [|Hge]; [auto|]. exfalso. apply HN.
    assert (E0 : idx (fst first) = 0) by lia. assert (Em : idx (fst last) = umax) by lia. rewrite E0 in Hf. rewrite Em in Hl. auto.
Qed.

Lemma sparse_on_built md : input <> [] -> ~ extremes input ->
  exists m, sparse_from_sorted_on umax md idx (sorted input) = Ok m /\ built (sparse_ops idxQ) (same_idx idx) eqv m input.
Proof.
  intros Hne HX. destruct (first_last_on input Hne) as (first & last & E1 & E2 & Hf & Hl & H).
  pose proof (proj2 (extremes_first_last first last Hf Hl H) HX) as HS. pose proof (H _ Hf) as Hle.
  assert (E : sparse_from_sorted_on umax md idx (sorted input) = sparse_from_sorted md idx (sorted input)).
  { unfold sparse_from_sorted_on, sparse_from_sorted, index. rewrite E1, E2. cbn [bind].
    rewrite usub_on_ok, usub_ok by lia. cbn [bind]. rewrite uadd_on_ok, uadd_ok by lia. cbn [bind].
    rewrite sparse_fill_on_eq; [reflexivity|]. intros e He. apply H. apply (in_map (fun e => idx (fst e))). exact He. }
  rewrite E. apply (sparse_sorted_built idx cmp idxQ eqv LS LQ); [exact Hne|].
  intros a b Ha Hb. assert (Ia : In (idx a) (ixs idx (sorted input))) by (apply sorted_index; eauto).
  assert (Ib : In (idx b) (ixs idx (sorted input))) by (apply sorted_index; eauto). apply H in Ia, Ib. lia.
Qed.

Lemma sparse_on_over md : extremes input -> sparse_from_sorted_on umax md idx (sorted input) = Panic.
Proof.
  intros HX. assert (Hne : input <> []) by (destruct HX as (a & b & Ha & _); intros ->; destruct Ha).
  destruct (first_last_on input Hne) as (first & last & E1 & E2 & Hf & Hl & H).
  destruct (proj1 (extremes_first_last first last Hf Hl H) HX) as [E0 Em].
  unfold sparse_from_sorted_on, index. rewrite E1, E2. cbn [bind]. rewrite E0, Em, usub_on_ok by lia. cbn [bind].
  rewrite N.sub_0_r, uadd_on_over. destruct md; [reflexivity|]. cbn [bind].
  destruct (sorted input) as [|e r]; [discriminate|]. cbn [sparse_fill_on]. rewrite usub_on_ok by lia. cbn [bind].
  unfold store. cbn. reflexivity.
Qed.

Context (usort : list (N * (K * V)) -> list (N * (K * V))).
Hypothesis US : sorts_by_slot usort.

Lemma fz_scalar_on_ok md : ~ extremes input ->
  exists m, fz_scalar_map_new_on umax usort md idx cmp input = Ok m /\ built (fz_scalar_ops idxQ eqv) (same_idx idx) eqv m input.
Proof.
  intros HX. assert (D : input = [] \/ input <> []) by (destruct input; [left; reflexivity|right; discriminate]).
  unfold fz_scalar_map_new_on. cbv zeta. destruct D as [E|Hne].
  - rewrite E. cbn. eexists. split; [reflexivity|].
    destruct (scalar_hash_built idx cmp idxQ eqv LS LQ usort US []) as [m [Em B]]; [cbn; lia|]. cbn in Em. injection Em as <-. apply fs_hash_built. exact B.
  - destruct (analyze_on_ok md (ixs idx (sorted input))) as [mn [mx [H1 [H2 [H3 [HS EA]]]]]].
    { unfold ixs. intros H. apply map_eq_nil in H. rewrite (scalar_sorted_nil idx cmp LS) in H. exact (Hne H). }
    { exact ixs_on_bound. }
    { rewrite <- extremes_sorted. exact HX. }
    change (map (fun e : K * V => idx (fst e)) (sorted input)) with (ixs idx (sorted input)). rewrite EA. cbn [bind]. clear EA.
    assert (HL : length (ixs idx (sorted input)) = length (sorted input)) by (unfold ixs; apply map_length).
    destruct (N.eqb_spec (mx - mn + 1) (N.of_nat (length (ixs idx (sorted input))))) as [ED|ED].
    + destruct (first_last_on input Hne) as (first & last & E1 & E2 & Hf & Hl & H).
      pose proof (H _ H1). pose proof (H _ H2). pose proof (H3 _ Hf). pose proof (H3 _ Hl).
      destruct (dense_sorted_built idx cmp idxQ eqv LS LQ input first last E1 E2) as [m [Em B]]; [lia|].
      rewrite Em. cbn. eexists. split; [reflexivity|]. apply fs_dense_built. auto.
    + destruct ((mx - mn + 1 <=? 128) || _).
      * destruct (sparse_on_built md Hne HX) as [m [Em B]]. rewrite Em. cbn. eexists. split; [reflexivity|]. apply fs_sparse_built. auto.
      * assert (HC : N.of_nat (length (sorted input)) <= usize_max).
        { rewrite <- HL. pose proof (NoDup_incl_length (incr_NoDup _ (scalar_sorted_incr idx cmp LS input))
            (l' := map (fun i => mn + N.of_nat i) (seq 0 (N.to_nat (mx - mn + 1))))) as HN.
          rewrite map_length, seq_length in HN.
          assert (HI : incl (ixs idx (sorted input)) (map (fun i => mn + N.of_nat i) (seq 0 (N.to_nat (mx - mn + 1))))).
          { intros x Hx. apply H3 in Hx. apply in_map_iff. exists (N.to_nat (x - mn)). split; [lia|]. apply in_seq. lia. }
          specialize (HN HI). lia. }
        destruct (scalar_hash_built idx cmp idxQ eqv LS LQ usort US input HC) as [m [Em B]]. rewrite Em. cbn. eexists. split; [reflexivity|].
        apply fs_hash_built. auto.
Qed.

Lemma fz_scalar_on_over md : extremes input -> fz_scalar_map_new_on umax usort md idx cmp input = Panic.
Proof.
  intros HX. unfold fz_scalar_map_new_on. cbv zeta.
  change (map (fun e : K * V => idx (fst e)) (sorted input)) with (ixs idx (sorted input)).
  rewrite (analyze_on_over md _ ixs_on_bound); [|apply extremes_sorted; exact HX|apply extremes_sorted; exact HX].
  destruct md; [reflexivity|]. cbn [bind]. rewrite sparse_on_over by exact HX. reflexivity.
Qed.

Lemma sparse_map_on_ok md : ~ extremes input ->
  exists m, sparse_map_new_on umax md idx cmp input = Ok m /\ built (sparse_ops idxQ) (same_idx idx) eqv m input.
Proof.
  intros HX. unfold sparse_map_new_on. cbv zeta. destruct (sorted input) eqn:E; cbn [is_nil].
  - rewrite (scalar_sorted_nil idx cmp LS) in E. rewrite E. eexists. split; [reflexivity|]. apply (sparse_default_built idx idxQ eqv LQ).
  - rewrite <- E. apply sparse_on_built; auto. intros E'. apply (proj2 (scalar_sorted_nil idx cmp LS input)) in E'. congruence.
Qed.

Lemma sparse_map_on_over md : extremes input -> sparse_map_new_on umax md idx cmp input = Panic.
Proof.
  intros HX. unfold sparse_map_new_on. cbv zeta. destruct (sorted input) eqn:E; cbn [is_nil].
  - rewrite (scalar_sorted_nil idx cmp LS) in E. rewrite E in HX. destruct HX as (a & b & [] & _).
  - rewrite <- E. apply sparse_on_over. exact HX.
Qed.

Lemma dense_map_on_ok md : ~ extremes input -> contiguous idx (map fst input) ->
  exists m, dense_map_new_on umax md idx cmp input = Ok (ROk m) /\ built (dense_ops idxQ) (same_idx idx) eqv m input.
Proof.
  intros HX HC. unfold dense_map_new_on. cbv zeta. destruct (sorted input) as [|e0 r0] eqn:E; cbn [is_nil].
  - rewrite (scalar_sorted_nil idx cmp LS) in E. rewrite E. eexists. split; [reflexivity|]. apply (dense_default_built idx idxQ eqv LQ).
  - rewrite <- E. assert (Hne : input <> []) by (intros E'; apply (proj2 (scalar_sorted_nil idx cmp LS input)) in E'; congruence). clear E e0 r0.
    destruct (first_last_on input Hne) as (first & last & E1 & E2 & Hf & Hl & H).
    pose proof (proj2 (extremes_first_last first last Hf Hl H) HX) as HS. pose proof (H _ Hf) as Hle.
    unfold index. rewrite E1, E2. cbn [bind]. rewrite usub_on_ok by lia. cbn [bind]. rewrite uadd_on_ok by lia. cbn [bind].
    pose proof (proj2 (contiguous_sorted idx cmp LS input first last E1 E2) HC) as HE. rewrite HE, N.eqb_refl.
    destruct (dense_sorted_built idx cmp idxQ eqv LS LQ input first last E1 E2 HE) as [m [Em B]]. exists m. rewrite Em. auto.
Qed.

Lemma dense_map_on_err md : ~ extremes input -> ~ contiguous idx (map fst input) -> exists msg, dense_map_new_on umax md idx cmp input = Ok (RErr msg).
Proof.
  intros HX HC. unfold dense_map_new_on. cbv zeta. destruct (sorted input) as [|e0 r0] eqn:E; cbn [is_nil].
  - rewrite (scalar_sorted_nil idx cmp LS) in E. rewrite E in HC. exfalso. apply HC. intros a b x [].
  - rewrite <- E. assert (Hne : input <> []) by (intros E'; apply (proj2 (scalar_sorted_nil idx cmp LS input)) in E'; congruence). clear E e0 r0.
    destruct (first_last_on input Hne) as (first & last & E1 & E2 & Hf & Hl & H).
    pose proof (proj2 (extremes_first_last first last Hf Hl H) HX) as HS. pose proof (H _ Hf) as Hle.
    unfold index. rewrite E1, E2. cbn [bind]. rewrite usub_on_ok by lia. cbn [bind]. rewrite uadd_on_ok by lia. cbn [bind].
    destruct (N.eqb_spec (N.of_nat (length (sorted input))) (idx (fst last) - idx (fst first) + 1)) as [EC|EC].
    + exfalso. apply HC. apply (contiguous_sorted idx cmp LS input first last E1 E2). auto.
    + eexists. reflexivity.
Qed.

(** With both extremes: a panic, or in release builds a refusal, even if the keys fill the whole type. *)
Lemma dense_map_on_over md : extremes input ->
  match md with Debug => dense_map_new_on umax md idx cmp input = Panic | Release => exists msg, dense_map_new_on umax md idx cmp input = Ok (RErr msg) end.
Proof.
  intros HX. assert (Hne : input <> []) by (destruct HX as (a & b & Ha & _); intros ->; destruct Ha).
  destruct (first_last_on input Hne) as (first & last & E1 & E2 & Hf & Hl & H).
  destruct (proj1 (extremes_first_last first last Hf Hl H) HX) as [E0 Em].
  unfold dense_map_new_on. cbv zeta. destruct (sorted input) as [|e0 r0] eqn:E; [discriminate|]. cbn [is_nil]. rewrite <- E in *.
  unfold index. rewrite E1, E2. cbn [bind]. rewrite E0, Em, usub_on_ok by lia. cbn [bind]. rewrite N.sub_0_r, uadd_on_over.
  destruct md; [reflexivity|]. cbn [bind]. destruct (N.eqb_spec (N.of_nat (length (sorted input))) 0) as [EL|]; [|eexists; reflexivity].
  rewrite E in EL. cbn in EL. lia.
Qed.
End Scalars.

(** Strings no longer than [usize::MAX] bytes. *)
Lemma measure_on_eq {T} (eqT : T -> T -> bool) k0 r : N.of_nat (length k0) <= umax ->
  measure_loop eqT k0 (k0 :: r) umax 0 umax umax = measure_loop eqT k0 (k0 :: r) usize_max 0 usize_max usize_max.
Proof.
  intros H. cbn [measure_loop]. cbv zeta. set (len := N.of_nat (length k0)) in *.
  replace (N.min umax len) with len by lia. replace (N.min usize_max len) with len by lia.
  assert (E : forall b, len <= b -> (if len <? b then len else b) = len).
  { intros b Hb. destruct (N.ltb_spec len b); lia. }
  rewrite (E umax) by exact H. rewrite (E usize_max) by lia. reflexivity.
Qed.

Lemma analyze_slice_on_eq {T} (eqT : T -> T -> bool) hash_one (keys : list (list T)) : (forall k, In k keys -> N.of_nat (length k) <= umax) ->
  analyze_slice_keys_on umax eqT hash_one keys = analyze_slice_keys eqT hash_one keys.
Proof.
  intros H. destruct keys as [|k0 r]; [reflexivity|]. unfold analyze_slice_keys_on, analyze_slice_keys, analyze_subslices_on, analyze_subslices.
  cbn [hd]. rewrite (measure_on_eq eqT k0 r (H k0 (or_introl eq_refl))). reflexivity.
Qed.

Lemma fz_string_on_eq {V} usort bh (input : list (bytes * V)) : (forall e, In e input -> N.of_nat (length (fst e)) <= umax) ->
  fz_string_map_with_hasher_on umax usort bh input = fz_string_map_with_hasher usort bh input.
Proof.
  intros H. unfold fz_string_map_with_hasher_on, fz_string_map_with_hasher. cbv zeta. rewrite analyze_slice_on_eq; [reflexivity|].
  intros k Hk. apply in_map_iff in Hk. destruct Hk as [e [<- He]]. apply H.
  eapply Permutation_in in He; [|symmetry; apply string_sorted_perm]. eapply survivors_incl; eauto.
Qed.
End Width.
