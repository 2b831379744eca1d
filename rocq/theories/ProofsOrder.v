(** Scalar maps whose keys' order is not the order of the indices (C88). *)
From Coq Require Import Permutation Sorted ZArith ZifyNat ZifyN ZifyBool.
From Verif Require Import Prelude Spec ModelUtils ModelAnalyzers ModelTables ModelMaps SpecMade SpecAnalysis SpecOrder
  ProofsBase ProofsDedup ProofsMaps ProofsScalar ProofsFz ProofsMade ProofsProps ProofsLimits ProofsEmitProps.

Section Order.
Context {K V Q : Type} (idx : K -> N) (cmp : K -> K -> comparison) (idxQ : Q -> N) (eqv : Q -> K -> bool).
Hypothesis OO : own_order idx cmp.
Hypothesis LQ : lawful_query_scalar idx idxQ eqv.

Notation same := (same_idx idx).
Notation sorted input := (sorted_and_dedupped input (fun x y : K * V => cmp (fst x) (fst y))).

Lemma own_fst : lawful_ord (fun x y : K * V => cmp (fst x) (fst y)).
Proof.
  destruct (oo_ord _ _ OO) as [A B C D]. constructor; intros; auto. eapply D; eauto.
Qed.

Lemma own_same a b : is_eq (cmp a b) = same a b.
Proof.
  pose proof (oo_same _ _ OO a b) as H. unfold same_idx. destruct (cmp a b) eqn:E; cbn; symmetry.
  - apply N.eqb_eq. tauto.
  - apply N.eqb_neq. intros X. apply H in X. discriminate.
  - apply N.eqb_neq. intros X. apply H in X. discriminate.
Qed.

Lemma own_perm (input : list (K * V)) : Permutation (survivors (same_key same) input) (sorted input).
Proof.
  symmetry. eapply perm_trans; [apply (sorted_and_dedupped_perm _ own_fst)|].
  rewrite (survivors_ext _ (same_key same)); [apply Permutation_refl|]. intros x y _ _. apply own_same.
Qed.

Lemma own_sorted (input : list (K * V)) : StronglySorted (fun x y => cmp (fst x) (fst y) = Lt) (sorted input).
Proof. apply (sorted_and_dedupped_sorted _ own_fst). Qed.

Lemma own_nil (input : list (K * V)) : sorted input = [] <-> input = [].
Proof. apply (sorted_and_dedupped_nil _ own_fst). Qed.

Lemma own_in (input : list (K * V)) e : In e (sorted input) -> In e input.
Proof. intros H. eapply Permutation_in in H; [|symmetry; apply own_perm]. eapply survivors_incl; eauto. Qed.

Lemma own_cover (input : list (K * V)) e : In e input -> exists e', In e' (sorted input) /\ idx (fst e) = idx (fst e').
Proof.
  intros H. destruct (survivors_cover (same_key same) input e (lawful_same_key _ (same_idx_eq idx)) H) as [y [Hy E]].
  exists y. split; [eapply Permutation_in; [apply own_perm|]; auto|]. apply N.eqb_eq. exact E.
Qed.

Lemma own_distinct (input : list (K * V)) : distinct (same_key same) (sorted input).
Proof.
  eapply (distinct_perm (same_key same)); [apply (lawful_same_key _ (same_idx_eq idx))|apply own_perm|apply survivors_distinct].
Qed.

Lemma own_nodup (input : list (K * V)) : NoDup (ixs idx (sorted input)).
Proof.
  pose proof (own_distinct input) as D. induction (sorted input) as [|e r IH]; cbn; [constructor|]. destruct D as [D1 D2].
  constructor; [|auto]. intros H. apply in_map_iff in H. destruct H as [e' [E H]]. specialize (D1 e' H). unfold same_key, same_idx in D1. lia.
Qed.

(** ** first and last *)
Lemma sorted_at (input : list (K * V)) p q a b : (p < q)%nat -> nth_error (sorted input) p = Some a -> nth_error (sorted input) q = Some b ->
  cmp (fst a) (fst b) = Lt.
Proof.
  pose proof (own_sorted input) as H. revert p q. induction H as [|x r HS IH HF]; intros p q Hpq Hp Hq; [destruct p; discriminate|].
  destruct q as [|q]; [lia|]. cbn in Hq. destruct p as [|p]; cbn in Hp.
  - injection Hp as <-. rewrite Forall_forall in HF. apply HF. eapply nth_error_In; eauto.
  - apply (IH p q); [lia|exact Hp|exact Hq].
Qed.

Lemma key_in (input : list (K * V)) p e : nth_error (sorted input) p = Some e -> In (fst e) (map fst input).
Proof. intros H. apply in_map, own_in. eapply nth_error_In; eauto. Qed.

Lemma key_at (input : list (K * V)) k : In k (map fst input) -> exists p e, nth_error (sorted input) p = Some e /\ cmp k (fst e) = Eq /\ idx k = idx (fst e).
Proof.
  intros H. apply in_map_iff in H. destruct H as [e [<- H]]. destruct (own_cover input e H) as [e' [H1 H2]].
  apply In_nth_error in H1. destruct H1 as [p H1]. exists p, e'. split; [auto|]. split; [apply (oo_same _ _ OO); auto|auto].
Qed.

Lemma cmp_same_r a b c : cmp b c = Eq -> cmp a b = cmp a c.
Proof.
  intros H. destruct (oo_ord _ _ OO) as [R O E L]. rewrite (O b a), (O c a). f_equal. apply E. exact H.
Qed.

Lemma first_is (input : list (K * V)) first : nth_error (sorted input) 0 = Some first -> first_key cmp (map fst input) (fst first).
Proof.
  intros H. split; [eapply key_in; eauto|]. intros k Hk. destruct (key_at input k Hk) as (p & e & Hp & E & _).
  rewrite (cmp_same_r _ _ _ E). destruct p as [|p].
  - rewrite H in Hp. injection Hp as <-. rewrite (cmp_refl_law _ (oo_ord _ _ OO)). discriminate.
  - rewrite (sorted_at input 0 (S p) first e ltac:(lia) H Hp). discriminate.
Qed.

Lemma last_is (input : list (K * V)) last : nth_error (sorted input) (length (sorted input) - 1) = Some last -> last_key cmp (map fst input) (fst last).
Proof.
  intros H. split; [eapply key_in; eauto|]. intros k Hk. destruct (key_at input k Hk) as (p & e & Hp & E & _).
  rewrite (cmp_same_r _ _ _ E). assert (p < length (sorted input))%nat by (apply nth_error_Some; congruence).
  destruct (Nat.eq_dec p (length (sorted input) - 1)) as [->|Np].
  - rewrite H in Hp. injection Hp as <-. rewrite (cmp_refl_law _ (oo_ord _ _ OO)). discriminate.
  - pose proof (sorted_at input p (length (sorted input) - 1) e last ltac:(lia) Hp H) as L.
    rewrite (cmp_opp_law _ (oo_ord _ _ OO)), L. discriminate.
Qed.

Lemma two_firsts keys a b : first_key cmp keys a -> first_key cmp keys b -> idx a = idx b.
Proof.
  intros [A1 A2] [B1 B2]. apply (oo_same _ _ OO). specialize (A2 b B1). specialize (B2 a A1).
  rewrite (cmp_opp_law _ (oo_ord _ _ OO)) in B2. destruct (cmp a b); cbn in *; congruence.
Qed.
Lemma two_lasts keys a b : last_key cmp keys a -> last_key cmp keys b -> idx a = idx b.
Proof.
  intros [A1 A2] [B1 B2]. apply (oo_same _ _ OO). specialize (A2 b B1). specialize (B2 a A1).
  rewrite (cmp_opp_law _ (oo_ord _ _ OO)) in B2. destruct (cmp a b); cbn in *; congruence.
Qed.

Lemma ends_iff (input : list (K * V)) first last :
  nth_error (sorted input) 0 = Some first -> nth_error (sorted input) (length (sorted input) - 1) = Some last ->
  (ends_agree idx cmp (map fst input) <-> forall e, In e (sorted input) -> idx (fst first) <= idx (fst e) <= idx (fst last)).
Proof.
  intros E1 E2. pose proof (first_is input first E1) as F. pose proof (last_is input last E2) as L. split.
  - intros H e He. apply (H _ _ (fst e) F L). apply in_map, own_in, He.
  - intros H lo hi k Hlo Hhi Hk. rewrite (two_firsts _ _ _ Hlo F), (two_lasts _ _ _ Hhi L).
    destruct (key_at input k Hk) as (p & e & Hp & _ & ->). apply H. eapply nth_error_In; eauto.
Qed.

(** ** agreement *)
Lemma agree_iff (input : list (K * V)) : agree idx cmp (map fst input) <-> incr (ixs idx (sorted input)).
Proof.
  split.
  - intros H. unfold incr, ixs. apply (map_sorted (fun e : K * V => idx (fst e)) N.lt).
    pose proof (own_sorted input) as S. assert (HI : forall e, In e (sorted input) -> In (fst e) (map fst input)) by (intros e He; apply in_map, own_in, He).
    induction S as [|x r HS IH HF]; constructor.
    + apply IH. intros e He. apply HI. right. exact He.
    + apply Forall_forall. intros y Hy. rewrite Forall_forall in HF. specialize (HF y Hy). rewrite H in HF.
      * apply N.compare_lt_iff. exact HF.
      * apply HI. left. reflexivity.
      * apply HI. right. exact Hy.
  - intros HI a b Ha Hb. destruct (key_at input a Ha) as (p & e & Hp & Ep & ->), (key_at input b Hb) as (q & f & Hq & Eq' & ->).
    rewrite (cmp_eq_law _ (oo_ord _ _ OO) _ _ _ Ep), (cmp_same_r _ _ _ Eq').
    assert (P : forall p q e f, (p < q)%nat -> nth_error (sorted input) p = Some e -> nth_error (sorted input) q = Some f ->
      idx (fst e) < idx (fst f)).
    { clear -HI. intros p q e f Hpq Hp Hq. pose proof (incr_nth _ HI p q (idx (fst e)) (idx (fst f)) ltac:(lia)) as A.
      unfold ixs in A. rewrite !nth_error_map, Hp, Hq in A. specialize (A eq_refl eq_refl). lia. }
    destruct (Nat.lt_trichotomy p q) as [H|[H|H]].
    + rewrite (sorted_at input p q e f H Hp Hq). symmetry. apply N.compare_lt_iff. eauto.
    + subst q. rewrite Hp in Hq. injection Hq as <-. rewrite (cmp_refl_law _ (oo_ord _ _ OO)), N.compare_refl. reflexivity.
    + rewrite (cmp_opp_law _ (oo_ord _ _ OO)), (sorted_at input q p f e H Hq Hp). symmetry. apply N.compare_gt_iff. eauto.
Qed.

Lemma stored_entry (input : list (K * V)) e : In e (sorted input) -> spec_entry same input (fst e) = Some e.
Proof.
  intros H. unfold spec_entry. apply last_match_iff.
  assert (HS : In e (survivors (same_key same) input)) by (eapply Permutation_in; [symmetry; apply own_perm|exact H]).
  apply (survivors_iff (same_key same) input e) in HS; [|intros a; apply (eq_refl_law _ (same_idx_eq idx))].
  destruct HS as (pre & post & -> & HP). exists pre, post. split; [reflexivity|]. split; [apply (eq_refl_law _ (same_idx_eq idx))|exact HP].
Qed.

Lemma own_answers {M} (ops : map_ops M K V Q) m input : map_ok ops eqv m -> mo_entries ops m = sorted input -> answers ops same eqv m input.
Proof.
  intros H E. apply built_answers; [apply same_idx_eq|apply (same_idx_equivalent idx idxQ eqv LQ)|]. constructor; [exact H|].
  rewrite E. apply own_perm.
Qed.

(** ** dense *)
Lemma dense_made (input : list (K * V)) m : dense_from_sorted idx (sorted input) = Ok m -> exists first last,
  nth_error (sorted input) 0 = Some first /\ nth_error (sorted input) (length (sorted input) - 1) = Some last /\
  m = {| dm_min := idx (fst first); dm_max := idx (fst last); dm_entries := sorted input |}.
Proof.
  unfold dense_from_sorted, index. destruct (nth_error (sorted input) 0) as [first|]; cbn [bind]; [|discriminate].
  destruct (nth_error (sorted input) (length (sorted input) - 1)) as [last|]; cbn [bind]; [|discriminate].
  intros E. injection E as <-. eauto.
Qed.

Lemma dense_right (input : list (K * V)) m first last : dense_from_sorted idx (sorted input) = Ok m ->
  nth_error (sorted input) 0 = Some first -> nth_error (sorted input) (length (sorted input) - 1) = Some last ->
  idx (fst last) - idx (fst first) + 1 = N.of_nat (length (sorted input)) ->
  agree idx cmp (map fst input) -> answers (dense_ops idxQ) same eqv m input.
Proof.
  intros E E1 E2 HC A. apply agree_iff in A. destruct (dense_from_sorted_spec idx (sorted input) first last A E1 E2 HC) as [m' [E' [Hm HI]]].
  rewrite E in E'. injection E' as <-. apply own_answers; [|exact Hm]. apply (dense_ok idx idxQ eqv LQ). rewrite Hm. exact HI.
Qed.
End Order.

Section Queries.
Context {K V : Type} (idx : K -> N) (cmp : K -> K -> comparison).
Hypothesis OO : own_order idx cmp.
Notation same := (same_idx idx).
Notation sorted input := (sorted_and_dedupped input (fun x y : K * V => cmp (fst x) (fst y))).

(** Right answers for the supplied keys need the orders to agree. *)
Lemma dense_only (input : list (K * V)) m : dense_from_sorted idx (sorted input) = Ok m ->
  (forall k, In k (map fst input) -> mo_get_key_value (dense_ops idx) m k = Ok (spec_entry same input k)) -> agree idx cmp (map fst input).
Proof.
  intros E H. destruct (dense_made idx cmp input m E) as (first & last & E1 & E2 & ->). apply (agree_iff idx cmp OO).
  assert (P : forall p e, nth_error (sorted input) p = Some e -> idx (fst e) = idx (fst first) + N.of_nat p).
  { intros p e Hp. pose proof (H (fst e) (key_in idx cmp OO input p e Hp)) as G.
    rewrite (stored_entry idx cmp OO input e (nth_error_In _ _ Hp)) in G. cbn in G. unfold dense_get_key_value in G. cbn [dm_min dm_max dm_entries] in G.
    destruct (N.leb_spec (idx (fst first)) (idx (fst e))) as [L1|L1]; cbn [andb] in G; [|discriminate].
    destruct (idx (fst e) <=? idx (fst last)); [|discriminate]. unfold get_unchecked in G.
    destruct (nth_error (sorted input) (N.to_nat (idx (fst e) - idx (fst first)))) as [f|] eqn:Ef; cbn in G; [|discriminate].
    assert (f = e) by (destruct f, e; cbn in *; congruence). subst f.
    pose proof (distinct_nth (same_key same) (lawful_same_key _ (same_idx_eq idx)) _ (own_distinct idx cmp OO input) _ _ _ _ Hp Ef
      (eq_refl_law _ (same_idx_eq idx) (fst e))) as D. lia. }
  clear -P. unfold incr, ixs. revert P. generalize (idx (fst first)). induction (sorted input) as [|x r IH]; intros n P; cbn; [constructor|].
  constructor.
  - apply (IH (n + 1)). intros p e Hp. rewrite (P (S p) e Hp). lia.
  - apply Forall_forall. intros y Hy. apply in_map_iff in Hy. destruct Hy as [e [<- He]]. apply In_nth_error in He. destruct He as [p Hp].
    rewrite (P (S p) e Hp), (P 0%nat x eq_refl). lia.
Qed.
End Queries.

Section Whole.
Context {K V Q : Type} (idx : K -> N) (cmp : K -> K -> comparison) (idxQ : Q -> N) (eqv : Q -> K -> bool).
Hypothesis OO : own_order idx cmp.
Hypothesis LQ : lawful_query_scalar idx idxQ eqv.
Notation same := (same_idx idx).
Notation sorted input := (sorted_and_dedupped input (fun x y : K * V => cmp (fst x) (fst y))).

(** ** sparse *)
Lemma fill_outside md mn (n : nat) : mn + N.of_nat n <= two64 -> forall (es : list (K * V)) i lookup, length lookup = n ->
  (exists e, In e es /\ ~ (mn <= idx (fst e) < mn + N.of_nat n)) -> sparse_fill md idx mn i es lookup = Panic.
Proof.
  intros Hn. induction es as [|e r IH]; intros i lookup HL [b [Hb B]]; [destruct Hb|]. cbn [sparse_fill].
  pose proof (oo_bound _ _ OO (fst e)) as Be. unfold usub.
  destruct (N.leb_spec mn (idx (fst e))) as [L1|L1].
  - cbn [bind]. unfold store. destruct (Nat.ltb_spec (N.to_nat (idx (fst e) - mn)) (length lookup)) as [L2|L2]; cbn [bind]; [|reflexivity].
    apply IH; [rewrite list_set_length; exact HL|]. destruct Hb as [<-|Hb]; [lia|]. eauto.
  - destruct md; cbn [bind]; [reflexivity|]. unfold store.
    destruct (Nat.ltb_spec (N.to_nat (idx (fst e) + two64 - mn)) (length lookup)) as [L2|L2]; cbn [bind]; [|reflexivity]. exfalso. lia.
Qed.

Lemma sparse_sorted_own md (input : list (K * V)) : input <> [] -> span_representable idx (map fst input) ->
  (ends_agree idx cmp (map fst input) -> exists m, sparse_from_sorted md idx (sorted input) = Ok m /\ answers (sparse_ops idxQ) same eqv m input) /\
  (~ ends_agree idx cmp (map fst input) -> md = Debug \/ ends_ordered idx cmp (map fst input) ->
     sparse_from_sorted md idx (sorted input) = Panic).
Proof.
  intros Hne Hspan. destruct (first_last_exist (sorted input)) as [first [last [E1 E2]]].
  { intros X. exact (Hne (proj1 (own_nil idx cmp OO input) X)). }
  assert (S : idx (fst last) < idx (fst first) + usize_max) by (apply Hspan; eapply (key_in idx cmp OO); eauto).
  assert (S' : idx (fst first) < idx (fst last) + usize_max) by (apply Hspan; eapply (key_in idx cmp OO); eauto).
  rewrite (ends_iff idx cmp OO input first last E1 E2). unfold sparse_from_sorted, index. rewrite E1, E2. cbn [bind]. split.
  - intros FL. assert (Hfl : idx (fst first) <= idx (fst last)) by (apply FL; eapply nth_error_In; eauto).
    rewrite usub_ok by auto. cbn [bind]. rewrite uadd_ok by lia. cbn [bind].
    destruct (sparse_fill_spec idx md (idx (fst first)) (sorted input) [] (repeat 0 (N.to_nat (idx (fst last) - idx (fst first) + 1))))
      as [lookup [G1 [G2 G3]]].
    + intros e He. rewrite repeat_length. apply FL in He. lia.
    + intros s i Hsi. assert (i = 0) by (apply nth_error_In in Hsi; eapply repeat_spec; eauto). subst. cbn. intros k [].
    + cbn [length] in G1. change (N.of_nat 0) with 0 in G1. rewrite G1. cbn [bind]. eexists. split; [reflexivity|].
      apply (own_answers idx cmp idxQ eqv OO LQ); [|reflexivity]. apply (sparse_ok idx idxQ eqv LQ).
      cbn [sp_entries sp_min sp_max sp_lookup]. rewrite repeat_length in G2. split; [right; lia|]. split; [|exact G3].
      intros k Hk. apply in_map_iff in Hk. destruct Hk as [e [<- He]]. apply FL, He.
  - intros NE HM. unfold usub at 1. destruct (N.leb_spec (idx (fst first)) (idx (fst last))) as [L|L].
    2:{ destruct HM as [->|HM]; [reflexivity|]. exfalso.
        specialize (HM _ _ (first_is idx cmp OO input first E1) (last_is idx cmp OO input last E2)). lia. }
    cbn [bind]. rewrite uadd_ok by lia. cbn [bind].
    pose proof (oo_bound _ _ OO (fst last)) as Bl.
    rewrite (fill_outside md (idx (fst first)) (N.to_nat (idx (fst last) - idx (fst first) + 1))); [reflexivity| |apply repeat_length|].
    + unfold usize_max, two64 in *. lia.
    + assert (EX : existsb (fun e => negb ((idx (fst first) <=? idx (fst e)) && (idx (fst e) <=? idx (fst last)))) (sorted input) = true).
      { destruct (existsb _ _) eqn:X; [reflexivity|]. exfalso. apply NE. intros e He.
        pose proof (proj1 (existsb_false_forall _ _) X e He) as Y. cbn in Y. lia. }
      apply existsb_exists in EX. destruct EX as [e [He B]]. exists e. split; [exact He|]. lia.
Qed.

(** ** hashed *)
Context (usort : list (N * (K * V)) -> list (N * (K * V))).
Hypothesis US : sorts_by_slot usort.

Lemma hash_sorted_own (input : list (K * V)) : N.of_nat (length (sorted input)) <= usize_max ->
  exists m, hash_from_dedupped usort Large (fun k => scalar_hash_one (idx k)) (sorted input) = Ok (ROk m) /\
    built (hash_ops (fun q => scalar_hash_one (idxQ q)) eqv) same eqv m input.
Proof.
  intros Hc.
  destruct (hash_from_dedupped_spec usort Large (fun k => scalar_hash_one (idx k)) idx (sorted input) US) as [m [E [HP HI]]]; auto.
  exists m. split; auto. constructor.
  - apply (hash_ok idx); auto. intros q. exists (idxQ q). split; auto. intros k Hk. rewrite (idxq_eqv_law _ _ _ LQ) in Hk.
    apply N.eqb_eq in Hk. auto.
  - cbn. eapply perm_trans; [apply (own_perm idx cmp OO)|auto].
Qed.

Lemma own_count (input : list (K * V)) : span_representable idx (map fst input) -> N.of_nat (length (sorted input)) <= usize_max.
Proof.
  intros Hspan. destruct input as [|e0 r0] eqn:Ei; [cbn; lia|]. rewrite <- Ei in *.
  assert (Hne : ixs idx (sorted input) <> []).
  { intros X. apply map_eq_nil in X. pose proof (proj1 (own_nil idx cmp OO input) X). congruence. }
  destruct (scalar_min_max_bounds (ixs idx (sorted input)) Hne) as [mn [mx [_ [H1 [H2 H3]]]]].
  { intros x Hx. apply in_map_iff in Hx. destruct Hx as [e [<- _]]. apply (oo_bound _ _ OO). }
  pose proof (nodup_range_length (ixs idx (sorted input)) mn mx (own_nodup idx cmp OO input) H3) as L. unfold ixs in L. rewrite map_length in L.
  assert (mx < mn + usize_max).
  { apply in_map_iff in H1, H2. destruct H1 as [e1 [<- H1]], H2 as [e2 [<- H2]]. apply Hspan; apply in_map, (own_in idx cmp OO); auto. }
  assert (usize_max = 18446744073709551615) by reflexivity. lia.
Qed.

Lemma answers_fs_dense m (input : list (K * V)) : answers (dense_ops idxQ) same eqv m input -> answers (fz_scalar_ops idxQ eqv) same eqv (FsDense m) input.
Proof. intros [A B C D E F]. constructor; auto. Qed.
Lemma answers_fs_sparse m (input : list (K * V)) : answers (sparse_ops idxQ) same eqv m input -> answers (fz_scalar_ops idxQ eqv) same eqv (FsSparse m) input.
Proof. intros [A B C D E F]. constructor; auto. Qed.
Lemma answers_fs_hash m (input : list (K * V)) : built (hash_ops (fun q => scalar_hash_one (idxQ q)) eqv) same eqv m input ->
  answers (fz_scalar_ops idxQ eqv) same eqv (FsHash m) input.
Proof. intros B. apply built_answers; [apply same_idx_eq|apply (same_idx_equivalent idx idxQ eqv LQ)|]. apply fs_hash_built. exact B. Qed.

Lemma analyzed md (input : list (K * V)) : input <> [] -> span_representable idx (map fst input) ->
  exists mn mx, In mn (ixs idx (sorted input)) /\ In mx (ixs idx (sorted input)) /\
    (forall x, In x (ixs idx (sorted input)) -> mn <= x <= mx) /\
    (contiguous idx (map fst input) <-> mx - mn + 1 = N.of_nat (length (sorted input))) /\
    analyze_scalar_keys md (map (fun e => idx (fst e)) (sorted input)) = Ok (
      if mx - mn + 1 =? N.of_nat (length (sorted input)) then DenseRange
      else if (mx - mn + 1 <=? 128) || (mx - mn + 1 <? saturating_mul (N.of_nat (length (sorted input))) 10) then SparseRange
      else ScalarGeneral).
Proof.
  intros Hne Hspan.
  assert (Hin : forall x, In x (ixs idx (sorted input)) -> exists k, In k (map fst input) /\ idx k = x).
  { intros x Hx. unfold ixs in Hx. apply in_map_iff in Hx. destruct Hx as [e [<- He]]. exists (fst e). split; auto.
    apply in_map. apply (own_in idx cmp OO). auto. }
  assert (Hback : forall k, In k (map fst input) -> In (idx k) (ixs idx (sorted input))).
  { intros k Hk. destruct (key_at idx cmp OO input k Hk) as (p & e & Hp & _ & ->). apply (in_map (fun e => idx (fst e))). eapply nth_error_In; eauto. }
  destruct (analyze_scalar_spec md (ixs idx (sorted input))) as [mn [mx [H1 [H2 [H3 EA]]]]].
  { intros X. apply map_eq_nil in X. exact (Hne (proj1 (own_nil idx cmp OO input) X)). }
  { intros x Hx. apply Hin in Hx. destruct Hx as [k [_ <-]]. apply (oo_bound _ _ OO). }
  { intros a b Ha Hb. apply Hin in Ha, Hb. destruct Ha as [ka [Ha <-]], Hb as [kb [Hb <-]]. apply Hspan; auto. }
  exists mn, mx. repeat (split; [assumption|]).
  assert (HL : length (ixs idx (sorted input)) = length (sorted input)) by (unfold ixs; apply map_length).
  pose proof (nodup_fills _ mn mx (own_nodup idx cmp OO input) H1 H3) as F. rewrite HL in *. split; [|exact EA].
  rewrite F. split.
  - intros C x Hx. destruct (Hin mn H1) as [a [Ha Ea]], (Hin mx H2) as [b [Hb Eb]].
    destruct (C a b x Ha Hb) as [k [Hk <-]]; [lia|]. apply Hback, Hk.
  - intros C a b x Ha Hb Hx. pose proof (H3 _ (Hback a Ha)). pose proof (H3 _ (Hback b Hb)). destruct (Hin x) as [k [Hk E]]; [apply C; lia|]. eauto.
Qed.

Lemma fz_range md (input : list (K * V)) : span_representable idx (map fst input) -> contiguous idx (map fst input) ->
  exists m, fz_scalar_map_new usort md idx cmp input = Ok m /\
    (agree idx cmp (map fst input) -> answers (fz_scalar_ops idxQ eqv) same eqv m input) /\
    (input = [] \/ exists d, m = FsDense d /\ dense_from_sorted idx (sorted input) = Ok d).
Proof.
  intros Hspan HC. unfold fz_scalar_map_new, fz_scalar_new_sorted. destruct input as [|e0 r0] eqn:Ei.
  - cbn. eexists. split; [reflexivity|]. split; [|left; reflexivity]. intros _. 
    destruct (hash_sorted_own []) as [m [Em B]]; [cbn; lia|]. cbn in Em. injection Em as <-. apply answers_fs_hash. exact B.
  - rewrite <- Ei in *. assert (Hne : input <> []) by congruence. clear Ei e0 r0.
    destruct (analyzed md input Hne Hspan) as (mn & mx & H1 & H2 & H3 & HCC & EA). rewrite EA. cbn [bind]. apply HCC in HC.
    rewrite (proj2 (N.eqb_eq _ _) HC). destruct (first_last_exist (sorted input)) as [first [last [E1 E2]]].
    { intros X. exact (Hne (proj1 (own_nil idx cmp OO input) X)). }
    destruct (dense_from_sorted idx (sorted input)) as [d| |] eqn:ED;
      try (unfold dense_from_sorted, index in ED; rewrite E1, E2 in ED; discriminate).
    cbn. eexists. split; [reflexivity|]. split; [|right; eauto]. intros A. apply answers_fs_dense.
    eapply (dense_right idx cmp idxQ eqv OO LQ); eauto. apply (agree_iff idx cmp OO) in A.
    pose proof (incr_first_last idx (sorted input) first last A E1 E2) as HB.
    assert (Hf : In (idx (fst first)) (ixs idx (sorted input))) by (apply (in_map (fun e => idx (fst e))); eapply nth_error_In; eauto).
    assert (Hl : In (idx (fst last)) (ixs idx (sorted input))) by (apply (in_map (fun e => idx (fst e))); eapply nth_error_In; eauto).
    pose proof (HB _ H1). pose proof (HB _ H2). pose proof (H3 _ Hf). pose proof (H3 _ Hl). lia.
Qed.

Lemma fz_gaps md (input : list (K * V)) : span_representable idx (map fst input) -> ~ contiguous idx (map fst input) ->
  10 * N.of_nat (key_count same input) <= usize_max ->
  exists n, spans (map idx (map fst input)) n /\
    ((128 < n /\ 10 * N.of_nat (key_count same input) <= n) \/ ends_agree idx cmp (map fst input) ->
       exists m, fz_scalar_map_new usort md idx cmp input = Ok m /\ answers (fz_scalar_ops idxQ eqv) same eqv m input) /\
    (n <= 128 \/ n < 10 * N.of_nat (key_count same input) -> ~ ends_agree idx cmp (map fst input) ->
       md = Debug \/ ends_ordered idx cmp (map fst input) -> fz_scalar_map_new usort md idx cmp input = Panic).
Proof.
  intros Hspan HC Hk. assert (Hne : input <> []) by (intros ->; apply HC; intros a b x []).
  unfold key_count in *. rewrite (Permutation_length (own_perm idx cmp OO input)) in *.
  destruct (analyzed md input Hne Hspan) as (mn & mx & H1 & H2 & H3 & HCC & EA).
  exists (mx - mn + 1). split.
  { assert (Hiff : forall x, In x (ixs idx (sorted input)) <-> In x (map idx (map fst input))).
    { intros x. split; intros Hx.
      - apply in_map_iff in Hx. destruct Hx as [e [<- He]]. apply in_map, in_map, (own_in idx cmp OO), He.
      - apply in_map_iff in Hx. destruct Hx as [k [<- Hx]]. destruct (key_at idx cmp OO input k Hx) as (p & e & Hp & _ & ->).
        apply (in_map (fun e => idx (fst e))). eapply nth_error_In; eauto. }
    exists mn, mx. rewrite <- !Hiff. split; [auto|]. split; [auto|]. split; [|auto]. intros x Hx. apply H3, Hiff, Hx. }
  unfold fz_scalar_map_new, fz_scalar_new_sorted. rewrite EA. cbn [bind].
  destruct (N.eqb_spec (mx - mn + 1) (N.of_nat (length (sorted input)))) as [ED|ED]; [exfalso; apply HC, HCC, ED|].
  unfold saturating_mul. replace (N.min (N.of_nat (length (sorted input)) * 10) usize_max) with (10 * N.of_nat (length (sorted input))) by lia.
  destruct (sparse_sorted_own md input Hne Hspan) as [SA SB].
  destruct ((mx - mn + 1 <=? 128) || (mx - mn + 1 <? 10 * N.of_nat (length (sorted input)))) eqn:ER.
  - split.
    + intros [X|X]; [lia|]. destruct (SA X) as [m [Em A]]. rewrite Em. cbn. eexists. split; [reflexivity|]. apply answers_fs_sparse, A.
    + intros _ NE HM. rewrite (SB NE HM). reflexivity.
  - split; [|intros X; lia]. intros _. destruct (hash_sorted_own input (own_count input Hspan)) as [m [Em B]]. rewrite Em. cbn.
    eexists. split; [reflexivity|]. apply answers_fs_hash, B.
Qed.

Lemma sparse_own md (input : list (K * V)) : span_representable idx (map fst input) ->
  (ends_agree idx cmp (map fst input) -> exists m, sparse_map_new md idx cmp input = Ok m /\ answers (sparse_ops idxQ) same eqv m input) /\
  (~ ends_agree idx cmp (map fst input) -> md = Debug \/ ends_ordered idx cmp (map fst input) -> sparse_map_new md idx cmp input = Panic).
Proof.
  intros Hspan. destruct input as [|e0 r0] eqn:Ei.
  - split.
    + intros _. eexists. split; [reflexivity|]. apply built_answers; [apply same_idx_eq|apply (same_idx_equivalent idx idxQ eqv LQ)|].
      apply (sparse_default_built idx idxQ eqv LQ).
    + intros NE. exfalso. apply NE. intros lo hi k _ _ [].
  - rewrite <- Ei in *. assert (Hne : input <> []) by congruence. unfold sparse_map_new. destruct (sorted input) eqn:E; cbn [is_nil].
    + pose proof (proj1 (own_nil idx cmp OO input) E). congruence.
    + rewrite <- E. apply sparse_sorted_own; auto.
Qed.

Lemma dense_own md (input : list (K * V)) m : span_representable idx (map fst input) -> dense_map_new md idx cmp input = Ok (ROk m) ->
  (agree idx cmp (map fst input) -> answers (dense_ops idxQ) same eqv m input) /\
  (input = [] \/ dense_from_sorted idx (sorted input) = Ok m).
Proof.
  intros Hspan E. unfold dense_map_new, dense_new_sorted in E. destruct (sorted input) as [|e r] eqn:ES; cbn [is_nil] in E.
  - pose proof (proj1 (own_nil idx cmp OO input) ES) as ->. injection E as <-. split; [|left; reflexivity]. intros _.
    apply built_answers; [apply same_idx_eq|apply (same_idx_equivalent idx idxQ eqv LQ)|]. apply (dense_default_built idx idxQ eqv LQ).
  - rewrite <- ES in *. destruct (first_last_exist (sorted input)) as [first [last [E1 E2]]]; [congruence|].
    unfold index in E. rewrite E1, E2 in E. cbn [bind] in E.
    destruct (usub md (idx (fst last)) (idx (fst first))) as [d| |] eqn:EU; cbn [bind] in E; try discriminate.
    destruct (uadd md d 1) as [needed| |] eqn:EV; cbn [bind] in E; try discriminate.
    destruct (N.eqb_spec (N.of_nat (length (sorted input))) needed) as [EN|EN]; [|discriminate].
    destruct (dense_from_sorted idx (sorted input)) as [m'| |] eqn:ED; cbn in E; try discriminate. injection E as ->.
    split; [|right; reflexivity]. intros A. eapply (dense_right idx cmp idxQ eqv OO LQ); eauto. apply (agree_iff idx cmp OO) in A.
    pose proof (incr_first_last idx (sorted input) first last A E1 E2 (idx (fst first))
      (in_map (fun e => idx (fst e)) _ _ (nth_error_In _ _ E1))) as HB.
    assert (S : idx (fst last) < idx (fst first) + usize_max) by (apply Hspan; eapply (key_in idx cmp OO); eauto).
    rewrite usub_ok in EU by lia. injection EU as <-. rewrite uadd_ok in EV by lia. congruence.
Qed.
End Whole.

Section Exact.
Context {K V : Type} (idx : K -> N) (cmp : K -> K -> comparison).
Hypothesis OO : own_order idx cmp.
Notation keys_right ops m input := (forall k, In k (map fst input) -> mo_get_key_value ops m k = Ok (spec_entry (same_idx idx) input k)).

Lemma self_query : lawful_query_scalar idx idx (same_idx idx).
Proof. split; [apply (oo_bound _ _ OO)|reflexivity]. Qed.

Lemma fz_range_exact usort md (input : list (K * V)) : sorts_by_slot usort -> span_representable idx (map fst input) -> contiguous idx (map fst input) ->
  exists m, fz_scalar_map_new usort md idx cmp input = Ok m /\
    (keys_right (fz_scalar_ops idx (same_idx idx)) m input <-> agree idx cmp (map fst input)).
Proof.
  intros US Hspan HC. destruct (fz_range idx cmp idx (same_idx idx) OO self_query usort US md input Hspan HC) as (m & E & A & D).
  exists m. split; [exact E|]. split.
  - intros H. destruct D as [->|(d & -> & Ed)]; [intros a b []|]. exact (dense_only idx cmp OO input d Ed H).
  - intros H k _. apply (answers_get_key_value _ _ _ _ _ (A H)).
Qed.

Lemma dense_exact md (input : list (K * V)) m : span_representable idx (map fst input) -> dense_map_new md idx cmp input = Ok (ROk m) ->
  (keys_right (dense_ops idx) m input <-> agree idx cmp (map fst input)).
Proof.
  intros Hspan E. destruct (dense_own idx cmp idx (same_idx idx) OO self_query md input m Hspan E) as [A D]. split.
  - intros H. destruct D as [->|Ed]; [intros a b []|]. exact (dense_only idx cmp OO input m Ed H).
  - intros H k _. apply (answers_get_key_value _ _ _ _ _ (A H)).
Qed.
End Exact.
