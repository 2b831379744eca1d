(** Scalar-keyed maps: analyzer, dense and sparse construction. *)
From Verif Require Import Prelude Spec ModelUtils ModelAnalyzers ModelTables ModelMaps
  ProofsBase ProofsDedup ProofsAnalyzer ProofsTable ProofsMaps.
From Coq Require Import Permutation Sorted.
From Coq Require Import ZArith ZifyNat ZifyN ZifyBool.

(** * Strictly increasing lists of numbers *)
Definition incr (l : list N) : Prop := StronglySorted N.lt l.

Lemma incr_nth l : incr l -> forall p q a b, (p <= q)%nat -> nth_error l p = Some a -> nth_error l q = Some b ->
  a + N.of_nat (q - p) <= b.
Proof.
  induction 1 as [|x r HS IH HF]; intros p q a b Hpq Hp Hq.
  - destruct p; discriminate.
  - destruct q as [|q].
    + assert (p = 0)%nat by lia. subst. cbn in Hp, Hq. inversion Hp; inversion Hq; subst. lia.
    + destruct p as [|p].
      * cbn in Hp, Hq. inversion Hp; subst. destruct r as [|y r']; [destruct q; discriminate|].
        assert (a < y) by (inversion HF; auto). specialize (IH 0%nat q y b ltac:(lia) eq_refl Hq). lia.
      * cbn in Hp, Hq. specialize (IH p q a b ltac:(lia) Hp Hq). lia.
Qed.

Lemma incr_NoDup l : incr l -> NoDup l.
Proof.
  induction 1 as [|x r HS IH HF]; constructor; auto. intros Hx. rewrite Forall_forall in HF. specialize (HF x Hx). lia.
Qed.

(** * scalar_min_max *)
Lemma scalar_min_max_spec l : forall mn mx c, let '(mn', mx', c') := scalar_min_max l mn mx c in
  c' = c + N.of_nat (length l) /\ mn' <= mn /\ mx <= mx' /\
  (forall x, In x l -> mn' <= x <= mx') /\ (mn' = mn \/ In mn' l) /\ (mx' = mx \/ In mx' l).
Proof.
  induction l as [|x r IH]; intros mn mx c; cbn [scalar_min_max].
  - cbn. repeat split; auto; try lia; destruct H.
  - specialize (IH (N.min mn x) (N.max mx x) (c + 1)).
    destruct (scalar_min_max r (N.min mn x) (N.max mx x) (c + 1)) as [[mn' mx'] c'].
    destruct IH as [H1 [H2 [H3 [H4 [H5 H6]]]]]. cbn [length In]. repeat split; try lia.
    + destruct H as [->|H]; [lia|]. apply H4 in H. lia.
    + destruct H as [->|H]; [lia|]. apply H4 in H. lia.
    + destruct H5 as [->|H5]; auto. destruct (N.le_gt_cases mn x); [left; lia|right; left; lia].
    + destruct H6 as [->|H6]; auto. destruct (N.le_gt_cases x mx); [left; lia|right; left; lia].
Qed.

(** least and greatest elements of a non-empty list *)
Lemma scalar_min_max_bounds l : l <> [] -> (forall x, In x l -> x <= usize_max) ->
  exists mn mx, scalar_min_max l usize_max 0 0 = (mn, mx, N.of_nat (length l)) /\
    In mn l /\ In mx l /\ forall x, In x l -> mn <= x <= mx.
Proof.
  intros Hne Hb. pose proof (scalar_min_max_spec l usize_max 0 0) as H.
  destruct (scalar_min_max l usize_max 0 0) as [[mn mx] c]. destruct H as [H1 [H2 [H3 [H4 [H5 H6]]]]].
  exists mn, mx. rewrite N.add_0_l in H1. subst c.
  assert (exists x, In x l) by (destruct l; [congruence|eexists; left; reflexivity]). destruct H as [x Hx].
  pose proof (H4 x Hx). pose proof (Hb x Hx).
  repeat split; auto; try (apply H4; auto).
  - destruct H5 as [->|]; auto. assert (x = usize_max) by lia. subst; auto.
  - destruct H6 as [->|]; auto. assert (x = 0) by lia. subst; auto.
Qed.

Lemma usub_ok md a b : b <= a -> usub md a b = Ok (a - b).
Proof. intros H. unfold usub. destruct (N.leb_spec b a); [auto|lia]. Qed.
Lemma uadd_ok md a b : a + b <= usize_max -> uadd md a b = Ok (a + b).
Proof. intros H. unfold uadd. destruct (N.leb_spec (a + b) usize_max); [auto|lia]. Qed.

(** classification by span and count *)
Lemma analyze_scalar_spec md l : l <> [] -> (forall x, In x l -> x <= usize_max) ->
  (forall a b, In a l -> In b l -> a < b + usize_max) ->
  exists mn mx, In mn l /\ In mx l /\ (forall x, In x l -> mn <= x <= mx) /\
  analyze_scalar_keys md l = Ok (
    if mx - mn + 1 =? N.of_nat (length l) then DenseRange
    else if (mx - mn + 1 <=? 128) || (mx - mn + 1 <? saturating_mul (N.of_nat (length l)) 10) then SparseRange
    else ScalarGeneral).
Proof.
  intros Hne Hb Hs. destruct (scalar_min_max_bounds l Hne Hb) as [mn [mx [E [H1 [H2 H3]]]]].
  exists mn, mx. split; auto. split; auto. split; auto. unfold analyze_scalar_keys. rewrite E.
  destruct (N.eqb_spec (N.of_nat (length l)) 0); [destruct l; [congruence|cbn in *; lia]|].
  rewrite usub_ok by (apply H3; auto). cbn [bind].
  rewrite uadd_ok by (specialize (Hs mx mn H2 H1); specialize (H3 mn H1); lia). cbn [bind].
  destruct (mx - mn + 1 =? N.of_nat (length l)); auto.
  destruct ((mx - mn + 1 <=? 128) || (mx - mn + 1 <? saturating_mul (N.of_nat (length l)) 10)); auto.
Qed.

(** a duplicate-free list fills its span iff its length is the span *)
Lemma nodup_fills l mn mx : NoDup l -> In mn l -> (forall x, In x l -> mn <= x <= mx) ->
  (mx - mn + 1 = N.of_nat (length l) <-> forall x, mn <= x <= mx -> In x l).
Proof.
  intros ND Hmn Hb. pose proof (Hb mn Hmn) as Hmm.
  set (rng := map (fun i => mn + N.of_nat i) (seq 0 (N.to_nat (mx - mn + 1)))).
  assert (Hr : forall x, In x rng <-> mn <= x <= mx).
  { intros x. unfold rng. rewrite in_map_iff. split.
    - intros [i [<- Hi]]. apply in_seq in Hi. lia.
    - intros Hx. exists (N.to_nat (x - mn)). split; [lia|]. apply in_seq. lia. }
  assert (NR : NoDup rng).
  { unfold rng. apply FinFun.Injective_map_NoDup; [intros a b Hab; lia|apply seq_NoDup]. }
  assert (LR : length rng = N.to_nat (mx - mn + 1)) by (unfold rng; rewrite map_length, seq_length; reflexivity).
  split.
  - intros Hlen x Hx. assert (I : incl rng l).
    { apply NoDup_length_incl; auto; [lia|]. intros y Hy. apply Hr, Hb, Hy. }
    apply I, Hr, Hx.
  - intros Hall. assert (length rng <= length l)%nat by (apply NoDup_incl_length; auto; intros y Hy; apply Hall, Hr, Hy).
    assert (length l <= length rng)%nat by (apply NoDup_incl_length; auto; intros y Hy; apply Hr, Hb, Hy). lia.
Qed.

(** * Entries sorted by a key order that agrees with the index *)
Section Sorted.
Context {K V : Type} (idx : K -> N) (cmp : K -> K -> comparison).
Hypothesis LS : lawful_scalar idx cmp.

Lemma scalar_lawful_ord : lawful_ord cmp.
Proof.
  constructor; intros; rewrite ?(idx_cmp_law _ _ LS) in *.
  - apply N.compare_refl.
  - apply N.compare_antisym.
  - apply N.compare_eq in H. congruence.
  - rewrite N.compare_lt_iff in *. lia.
Qed.

Lemma lawful_ord_fst : lawful_ord (fun x y : K * V => cmp (fst x) (fst y)).
Proof.
  destruct scalar_lawful_ord as [A B C D]. constructor; intros; auto.
  - eapply D; eauto.
Qed.

Definition ixs (es : list (K * V)) : list N := map (fun e => idx (fst e)) es.

Lemma sorted_incr (es : list (K * V)) : StronglySorted (fun x y => cmp (fst x) (fst y) = Lt) es -> incr (ixs es).
Proof.
  intros H. unfold incr, ixs. apply (map_sorted (fun e : K * V => idx (fst e)) N.lt).
  induction H as [|x r HS IH HF]; constructor; auto. apply Forall_forall. intros y Hy. rewrite Forall_forall in HF.
  specialize (HF y Hy). rewrite (idx_cmp_law _ _ LS) in HF. apply N.compare_lt_iff. auto.
Qed.

Lemma ixs_bound (es : list (K * V)) x : In x (ixs es) -> x <= usize_max.
Proof. intros H. apply in_map_iff in H. destruct H as [e [<- _]]. apply (idx_bound_law _ _ LS). Qed.

Lemma incr_first_last (es : list (K * V)) first last : incr (ixs es) ->
  nth_error es 0 = Some first -> nth_error es (length es - 1) = Some last ->
  forall x, In x (ixs es) -> idx (fst first) <= x <= idx (fst last).
Proof.
  intros Hi Hf Hl x Hx. apply In_nth_error in Hx. destruct Hx as [p Hp].
  assert (p < length es)%nat by (rewrite <- (map_length (fun e => idx (fst e)) es); apply nth_error_Some; unfold ixs in Hp; congruence).
  pose proof (incr_nth _ Hi 0 p (idx (fst first)) x ltac:(lia)) as A.
  pose proof (incr_nth _ Hi p (length es - 1) x (idx (fst last)) ltac:(lia)) as B.
  unfold ixs in A, B. rewrite !nth_error_map, Hf in A. rewrite !nth_error_map, Hl in B.
  unfold ixs in Hp. rewrite nth_error_map in Hp.
  specialize (A eq_refl Hp). specialize (B Hp eq_refl). lia.
Qed.

Lemma first_last_exist (es : list (K * V)) : es <> [] ->
  exists first last, nth_error es 0 = Some first /\ nth_error es (length es - 1) = Some last.
Proof.
  intros H. destruct es as [|e r]; [congruence|]. exists e.
  destruct (index_Ok (e :: r) (length (e :: r) - 1)) as [l [Hl _]]; [cbn; lia|]. exists l. auto.
Qed.

(** dense *)
Lemma dense_from_sorted_spec (es : list (K * V)) first last : incr (ixs es) ->
  nth_error es 0 = Some first -> nth_error es (length es - 1) = Some last ->
  idx (fst last) - idx (fst first) + 1 = N.of_nat (length es) ->
  exists m, dense_from_sorted idx es = Ok m /\ dm_entries m = es /\ dense_inv idx (dm_min m) (dm_max m) (map fst es).
Proof.
  intros Hi Hf Hl Hc. unfold dense_from_sorted, index. rewrite Hf, Hl. cbn [bind]. eexists. split; [reflexivity|].
  cbn [dm_entries dm_min dm_max]. split; [reflexivity|].
  assert (Hlen : (0 < length es)%nat) by (apply nth_error_Some; congruence).
  pose proof (incr_nth _ Hi 0 (length es - 1) (idx (fst first)) (idx (fst last)) ltac:(lia)) as AB.
  unfold ixs in AB. rewrite !nth_error_map, Hf, Hl in AB. specialize (AB eq_refl eq_refl).
  split.
  - intros p k Hp. rewrite nth_error_map in Hp. destruct (nth_error es p) as [e|] eqn:Ep; [|discriminate].
    cbn in Hp. inversion Hp; subst k.
    assert (p < length es)%nat by (apply nth_error_Some; congruence).
    pose proof (incr_nth _ Hi 0 p (idx (fst first)) (idx (fst e)) ltac:(lia)) as A.
    pose proof (incr_nth _ Hi p (length es - 1) (idx (fst e)) (idx (fst last)) ltac:(lia)) as B.
    unfold ixs in A, B. rewrite !nth_error_map, Hf, Ep in A. rewrite !nth_error_map, Ep, Hl in B.
    specialize (A eq_refl eq_refl). specialize (B eq_refl eq_refl). lia.
  - right. rewrite map_length. lia.
Qed.

(** sparse *)
Definition lookup_inv (mn : N) (lookup : list N) (keys : list K) : Prop :=
  forall s i, nth_error lookup s = Some i ->
    if i =? 0 then (forall k, In k keys -> idx k <> mn + N.of_nat s)
    else exists k, nth_error keys (N.to_nat (i - 1)) = Some k /\ idx k = mn + N.of_nat s.

Lemma sparse_fill_spec md mn : forall (es : list (K * V)) pre lookup,
  (forall e, In e es -> mn <= idx (fst e) /\ idx (fst e) - mn < N.of_nat (length lookup)) ->
  lookup_inv mn lookup pre ->
  exists lookup', sparse_fill md idx mn (N.of_nat (length pre)) es lookup = Ok lookup' /\
    length lookup' = length lookup /\ lookup_inv mn lookup' (pre ++ map fst es).
Proof.
  induction es as [|e r IH]; intros pre lookup Hb Hinv; cbn [sparse_fill].
  - exists lookup. cbn [map]. rewrite app_nil_r. auto.
  - destruct (Hb e (or_introl eq_refl)) as [B1 B2].
    rewrite usub_ok by auto. cbn [bind]. unfold store.
    destruct (Nat.ltb_spec (N.to_nat (idx (fst e) - mn)) (length lookup)); [|lia]. cbn [bind].
    replace (N.of_nat (length pre) + 1) with (N.of_nat (length (pre ++ [fst e]))) by (rewrite app_length; cbn; lia).
    destruct (IH (pre ++ [fst e]) (list_set lookup (N.to_nat (idx (fst e) - mn)) (N.of_nat (length (pre ++ [fst e])))))
      as [l' [E1 [E2 E3]]].
    + intros e' He'. rewrite list_set_length. apply Hb. right; auto.
    + intros s i Hs. rewrite nth_error_list_set in Hs.
      destruct (Nat.eqb_spec (N.to_nat (idx (fst e) - mn)) s) as [Es|Ns].
      * destruct (Nat.ltb_spec (N.to_nat (idx (fst e) - mn)) (length lookup)); [|lia]. inversion Hs; subst i.
        rewrite app_length. cbn [length]. destruct (N.eqb_spec (N.of_nat (length pre + 1)) 0); [lia|].
        exists (fst e). split; [|lia]. rewrite nth_error_app2 by lia.
        replace (N.to_nat (N.of_nat (length pre + 1) - 1) - length pre)%nat with 0%nat by lia. reflexivity.
      * specialize (Hinv s i Hs). destruct (N.eqb_spec i 0).
        -- intros k Hk. apply in_app_or in Hk. destruct Hk as [Hk|[<-|[]]]; auto. lia.
        -- destruct Hinv as [k [Hk1 Hk2]]. exists k. split; auto. rewrite nth_error_app1; auto.
           apply nth_error_Some. congruence.
    + exists l'. split; auto. rewrite list_set_length in E2. split; auto.
      rewrite <- app_assoc in E3. exact E3.
Qed.

Lemma sparse_from_sorted_spec md (es : list (K * V)) first last : incr (ixs es) ->
  nth_error es 0 = Some first -> nth_error es (length es - 1) = Some last ->
  idx (fst last) < idx (fst first) + usize_max ->
  exists m, sparse_from_sorted md idx es = Ok m /\ sp_entries m = es /\
    sparse_inv idx (sp_min m) (sp_max m) (sp_lookup m) (map fst es).
Proof.
  intros Hi Hf Hl Hs. unfold sparse_from_sorted, index. rewrite Hf, Hl. cbn [bind].
  pose proof (incr_first_last es first last Hi Hf Hl) as FL.
  assert (Hfl : idx (fst first) <= idx (fst last)).
  { apply FL. apply (in_map (fun e => idx (fst e))). eapply nth_error_In; eauto. }
  rewrite usub_ok by auto. cbn [bind]. rewrite uadd_ok by lia. cbn [bind].
  destruct (sparse_fill_spec md (idx (fst first)) es [] (repeat 0 (N.to_nat (idx (fst last) - idx (fst first) + 1))))
    as [lookup [E1 [E2 E3]]].
  - intros e He. rewrite repeat_length. apply (in_map (fun e => idx (fst e))) in He. apply FL in He. lia.
  - intros s i Hsi. assert (i = 0) by (apply nth_error_In in Hsi; eapply repeat_spec; eauto). subst. cbn. intros k [].
  - cbn [length] in E1. change (N.of_nat 0) with 0 in E1. rewrite E1. cbn [bind]. eexists. split; [reflexivity|].
    cbn [sp_entries sp_min sp_max sp_lookup]. split; auto. rewrite repeat_length in E2. split; [right; lia|].
    split; [|exact E3]. intros k Hk. apply in_map_iff in Hk. destruct Hk as [e [<- He]]. apply FL.
    apply (in_map (fun e => idx (fst e))). auto.
Qed.
End Sorted.
