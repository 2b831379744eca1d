(** The limit on the size of a vector, and scalar maps whose keys' order is not the order of the indices (C88). *)
From Coq Require Import Permutation Sorted ZArith ZifyNat ZifyN ZifyBool.
From Verif Require Import Prelude Spec ModelUtils ModelAnalyzers ModelTables ModelMaps ModelSerde ModelAlloc SpecMade SpecAnalysis SpecOrder
  ProofsBase ProofsDedup ProofsMaps ProofsScalar ProofsFz ProofsMade ProofsProps ProofsLimits ProofsEmitProps ProofsOrder.

Section Alloc.
Context {K V Q : Type} (idx : K -> N) (cmp : K -> K -> comparison) (idxQ : Q -> N) (eqv : Q -> K -> bool).
Hypothesis OO : own_order idx cmp.
Hypothesis LQ : lawful_query_scalar idx idxQ eqv.
Notation same := (same_idx idx).
Notation sorted input := (sorted_and_dedupped input (fun x y : K * V => cmp (fst x) (fst y))).

Lemma own_spans (input : list (K * V)) n first last : spans (map idx (map fst input)) n ->
  nth_error (sorted input) 0 = Some first -> nth_error (sorted input) (length (sorted input) - 1) = Some last ->
  idx (fst first) < idx (fst last) + n /\ idx (fst last) < idx (fst first) + n.
Proof.
  intros (mn & mx & _ & _ & HB & ->) E1 E2.
  assert (B1 : mn <= idx (fst first) <= mx) by (apply HB, in_map, (key_in idx cmp OO input _ _ E1)).
  assert (B2 : mn <= idx (fst last) <= mx) by (apply HB, in_map, (key_in idx cmp OO input _ _ E2)). lia.
Qed.

Lemma sparse_sorted_alloc md (input : list (K * V)) n : input <> [] -> span_representable idx (map fst input) ->
  spans (map idx (map fst input)) n -> 8 * n <= isize_max ->
  (ends_agree idx cmp (map fst input) -> exists m, sparse_from_sorted_alloc md idx (sorted input) = Ok m /\ answers (sparse_ops idxQ) same eqv m input) /\
  (~ ends_agree idx cmp (map fst input) -> sparse_from_sorted_alloc md idx (sorted input) = Panic).
Proof.
  intros Hne Hspan Hn Hm. destruct (first_last_exist (sorted input)) as [first [last [E1 E2]]].
  { intros X. exact (Hne (proj1 (own_nil idx cmp OO input) X)). }
  destruct (sparse_sorted_own idx cmp idxQ eqv OO LQ md input Hne Hspan) as [SA SB].
  destruct (own_spans input n first last Hn E1 E2) as [B1 B2].
  assert (EU : usize_max = 18446744073709551615) by reflexivity. assert (ET : two64 = 18446744073709551616) by reflexivity.
  assert (EI : isize_max = 9223372036854775807) by reflexivity.
  unfold sparse_from_sorted_alloc. destruct (N.leb_spec (idx (fst first)) (idx (fst last))) as [L|L].
  - assert (EA : sparse_alloc md idx (sorted input) = Ok tt).
    { unfold sparse_alloc, index. rewrite E1, E2. cbn [bind]. rewrite usub_ok by auto. cbn [bind]. rewrite uadd_ok by lia. cbn [bind].
      unfold with_capacity. rewrite (proj2 (N.leb_le _ _)); [reflexivity|lia]. }
    rewrite EA. cbn [bind]. split; [exact SA|]. intros NE. apply (SB NE). right.
    intros lo hi H1 H2. rewrite (two_firsts idx cmp OO _ _ _ H1 (first_is idx cmp OO input first E1)),
      (two_lasts idx cmp OO _ _ _ H2 (last_is idx cmp OO input last E2)). exact L.
  - split.
    { intros A. exfalso. apply (ends_iff idx cmp OO input first last E1 E2) with (e := first) in A; [lia|]. eapply nth_error_In; eauto. }
    intros _. unfold sparse_alloc, sparse_from_sorted, index. rewrite E1, E2. cbn [bind]. unfold usub.
    rewrite (proj2 (N.leb_gt _ _) L). destruct md; cbn [bind]; [reflexivity|]. unfold uadd.
    destruct (N.leb_spec (idx (fst last) + two64 - idx (fst first) + 1) usize_max) as [L2|L2]; cbn [bind].
    + unfold with_capacity. rewrite (proj2 (N.leb_gt _ _)); [reflexivity|lia].
    + (* the number of slots wraps around to 0, and the first store panics *)
      replace ((idx (fst last) + two64 - idx (fst first) + 1) mod two64) with 0.
      2:{ replace (idx (fst last) + two64 - idx (fst first) + 1) with two64 by lia. reflexivity. }
      cbn [bind N.to_nat repeat]. change (with_capacity 8 0) with (Ok tt). cbn [bind].
      destruct (sorted input) as [|e r]; [discriminate|]. cbn in E1. injection E1 as ->. cbn [sparse_fill]. unfold usub. rewrite N.leb_refl. cbn [bind].
      unfold store. rewrite (proj2 (Nat.ltb_ge _ _)); [reflexivity|cbn; lia].
Qed.

Lemma sparse_alloc_too_wide md (input : list (K * V)) n : input <> [] -> span_representable idx (map fst input) ->
  spans (map idx (map fst input)) n -> isize_max < 8 * n -> ends_agree idx cmp (map fst input) ->
  sparse_from_sorted_alloc md idx (sorted input) = Panic.
Proof.
  intros Hne Hspan (mn & mx & H1 & H2 & HB & ->) Hm A. destruct (first_last_exist (sorted input)) as [first [last [E1 E2]]].
  { intros X. exact (Hne (proj1 (own_nil idx cmp OO input) X)). }
  pose proof (first_is idx cmp OO input first E1) as F1. pose proof (last_is idx cmp OO input last E2) as F2.
  apply in_map_iff in H1, H2. destruct H1 as [k1 [<- K1]], H2 as [k2 [<- K2]].
  pose proof (A _ _ _ F1 F2 K1) as A1. pose proof (A _ _ _ F1 F2 K2) as A2.
  assert (S : idx (fst last) < idx (fst first) + usize_max) by (apply Hspan; [exact (proj1 F2)|exact (proj1 F1)]).
  unfold sparse_from_sorted_alloc, sparse_alloc, index. rewrite E1, E2. cbn [bind]. rewrite usub_ok by lia. cbn [bind]. rewrite uadd_ok by lia. cbn [bind].
  unfold with_capacity. rewrite (proj2 (N.leb_gt _ _)); [reflexivity|lia].
Qed.

Lemma sparse_own_alloc md (input : list (K * V)) n : span_representable idx (map fst input) -> spans (map idx (map fst input)) n ->
  (ends_agree idx cmp (map fst input) ->
     (8 * n <= isize_max -> exists m, sparse_map_new_alloc md idx cmp input = Ok m /\ answers (sparse_ops idxQ) same eqv m input) /\
     (isize_max < 8 * n -> sparse_map_new_alloc md idx cmp input = Panic)) /\
  (~ ends_agree idx cmp (map fst input) -> 8 * n <= isize_max -> sparse_map_new_alloc md idx cmp input = Panic).
Proof.
  intros Hspan Hn. assert (Hne : input <> []) by (destruct Hn as (mn & mx & H & _); intros ->; destruct H).
  unfold sparse_map_new_alloc. destruct (sorted input) eqn:E; cbn [is_nil].
  { pose proof (proj1 (own_nil idx cmp OO input) E). congruence. }
  rewrite <- E. split.
  - intros A. split; intros Hm.
    + apply (proj1 (sparse_sorted_alloc md input n Hne Hspan Hn Hm) A).
    + eapply sparse_alloc_too_wide; eauto.
  - intros NE Hm. apply (proj2 (sparse_sorted_alloc md input n Hne Hspan Hn Hm) NE).
Qed.

Context (usort : list (N * (K * V)) -> list (N * (K * V))).
Hypothesis US : sorts_by_slot usort.

Lemma fz_gaps_alloc md (input : list (K * V)) : span_representable idx (map fst input) -> ~ contiguous idx (map fst input) ->
  80 * N.of_nat (key_count same input) <= isize_max ->
  exists n, spans (map idx (map fst input)) n /\
    ((128 < n /\ 10 * N.of_nat (key_count same input) <= n) \/ ends_agree idx cmp (map fst input) ->
       exists m, fz_scalar_map_new_alloc usort md idx cmp input = Ok m /\ answers (fz_scalar_ops idxQ eqv) same eqv m input) /\
    (n <= 128 \/ n < 10 * N.of_nat (key_count same input) -> ~ ends_agree idx cmp (map fst input) ->
       fz_scalar_map_new_alloc usort md idx cmp input = Panic).
Proof.
  intros Hspan HC Hk. assert (Hne : input <> []) by (intros ->; apply HC; intros a b x []).
  assert (EU : usize_max = 18446744073709551615) by reflexivity. assert (EI : isize_max = 9223372036854775807) by reflexivity.
  destruct (fz_gaps idx cmp idxQ eqv OO LQ usort US md input Hspan HC) as (n & Hn & G1 & G2); [lia|].
  exists n. split; [exact Hn|]. clear G2.
  destruct (analyzed idx cmp OO md input Hne Hspan) as (mn & mx & H1 & H2 & H3 & HCC & EA).
  assert (E : n = mx - mn + 1).
  { destruct Hn as (a & b & Ha & Hb & HB & ->).
    assert (Hiff : forall x, In x (ixs idx (sorted input)) <-> In x (map idx (map fst input))).
    { intros x. split; intros Hx.
      - apply in_map_iff in Hx. destruct Hx as [e [<- He]]. apply in_map, in_map, (own_in idx cmp OO), He.
      - apply in_map_iff in Hx. destruct Hx as [k [<- Hx]]. destruct (key_at idx cmp OO input k Hx) as (p & e & Hp & _ & ->).
        apply (in_map (fun e => idx (fst e))). eapply nth_error_In; eauto. }
    apply Hiff in H1, H2. pose proof (HB _ H1). pose proof (HB _ H2). apply Hiff in Ha, Hb. pose proof (H3 _ Ha). pose proof (H3 _ Hb). lia. }
  unfold key_count in *. rewrite (Permutation_length (own_perm idx cmp OO input)) in *.
  unfold fz_scalar_map_new, fz_scalar_new_sorted in G1. unfold fz_scalar_map_new_alloc, fz_scalar_new_sorted.
  rewrite EA in *. cbn [bind] in *. rewrite <- E in *.
  destruct (N.eqb_spec n (N.of_nat (length (sorted input)))) as [ED|ED]; [exfalso; apply HC, HCC, ED|].
  unfold saturating_mul in *. replace (N.min (N.of_nat (length (sorted input)) * 10) usize_max) with (10 * N.of_nat (length (sorted input))) in * by lia.
  destruct ((n <=? 128) || (n <? 10 * N.of_nat (length (sorted input)))) eqn:ER.
  - destruct (sparse_sorted_alloc md input n Hne Hspan Hn) as [SA SB]; [lia|]. split.
    + intros [X|X]; [lia|]. destruct (SA X) as [m [Em A]]. rewrite Em. cbn. eexists. split; [reflexivity|]. apply answers_fs_sparse, A.
    + intros _ NE. rewrite (SB NE). reflexivity.
  - split; [exact G1|]. intros X. lia.
Qed.
End Alloc.

(** ** The limit adds nothing but panics *)
Lemma sparse_alloc_or {K V} md idx (entries : list (K * V)) :
  sparse_from_sorted_alloc md idx entries = sparse_from_sorted md idx entries \/ sparse_from_sorted_alloc md idx entries = Panic.
Proof.
  unfold sparse_from_sorted_alloc, sparse_alloc. unfold index. destruct (nth_error entries 0); [|auto]. cbn [bind].
  destruct (nth_error entries (length entries - 1)); [|auto]. cbn [bind]. unfold usub, uadd, with_capacity.
  repeat (first [progress cbn [bind]|match goal with |- context [bind (if ?b then _ else _) _] => destruct b
    |  |- context [bind (match md with Debug => _ | Release => _ end) _] => destruct md end]); auto.
Qed.
Lemma sparse_new_or {K V} md idx cmp (input : list (K * V)) :
  sparse_map_new_alloc md idx cmp input = sparse_map_new md idx cmp input \/ (input <> [] /\ sparse_map_new_alloc md idx cmp input = Panic).
Proof.
  unfold sparse_map_new_alloc, sparse_map_new. destruct (is_nil _) eqn:E; [auto|]. destruct (sparse_alloc_or md idx (sorted_and_dedupped input (fun x y => cmp (fst x) (fst y)))) as [H|H]; auto.
  right. split; [|exact H]. intros ->. discriminate.
Qed.
Lemma fz_new_or {K V} usort md idx cmp (input : list (K * V)) :
  fz_scalar_map_new_alloc usort md idx cmp input = fz_scalar_map_new usort md idx cmp input \/
  (input <> [] /\ fz_scalar_map_new_alloc usort md idx cmp input = Panic).
Proof.
  unfold fz_scalar_map_new_alloc, fz_scalar_map_new. set (s := sorted_and_dedupped input _).
  destruct (analyze_scalar_keys md (map (fun e => idx (fst e)) s)) as [a| |] eqn:E; cbn [bind];
    [|left; unfold fz_scalar_new_sorted; rewrite E; reflexivity..].
  destruct a; try (left; unfold fz_scalar_new_sorted; rewrite E; reflexivity).
  destruct (sparse_alloc_or md idx s) as [H|H]; rewrite H; [left; unfold fz_scalar_new_sorted; rewrite E; reflexivity|]. right. split; [|reflexivity]. intros ->. cbn in s. subst s. vm_compute in E. discriminate.
Qed.

Section Same.
Context {K V : Type} (idx : K -> N) (cmp : K -> K -> comparison).
Hypothesis OO : own_order idx cmp.
Context (usort : list (N * (K * V)) -> list (N * (K * V))).
Hypothesis US : sorts_by_slot usort.
Lemma fz_alloc_same md (input : list (K * V)) : span_representable idx (map fst input) -> ends_agree idx cmp (map fst input) ->
  80 * N.of_nat (key_count (same_idx idx) input) <= isize_max ->
  fz_scalar_map_new_alloc usort md idx cmp input = fz_scalar_map_new usort md idx cmp input.
Proof.
  intros Hspan HE Hk. destruct (fz_new_or usort md idx cmp input) as [H|[Hne H]]; [exact H|].
  pose proof (self_query idx cmp OO) as LQ.
  destruct (analyzed idx cmp OO md input Hne Hspan) as (mn & mx & H1 & H2 & H3 & HCC & EA).
  destruct (N.eqb_spec (mx - mn + 1) (N.of_nat (length (sorted_and_dedupped input (fun x y : K * V => cmp (fst x) (fst y)))))) as [ED|ED].
  - unfold fz_scalar_map_new_alloc, fz_scalar_map_new, fz_scalar_new_sorted. rewrite EA. reflexivity.
  - destruct (fz_gaps_alloc idx cmp idx (same_idx idx) OO LQ usort US md input Hspan) as (n & _ & G & _); [|exact Hk|].
    + intros C. apply ED, HCC, C.
    + destruct G as (m & Em & _); [right; exact HE|]. congruence.
Qed.
End Same.

(** ** Lawful scalars *)
Lemma lawful_own {K} (idx : K -> N) cmp : lawful_scalar idx cmp -> own_order idx cmp.
Proof.
  intros [LB LC]. constructor; [exact LB| |intros a b; rewrite LC; apply N.compare_eq_iff]. constructor; intros *; rewrite ?LC.
  - apply N.compare_refl.
  - apply N.compare_antisym.
  - intros H. apply N.compare_eq in H. rewrite H. reflexivity.
  - rewrite !N.compare_lt_iff. apply N.lt_trans.
Qed.
Lemma lawful_ends {K} (idx : K -> N) cmp : lawful_scalar idx cmp -> forall keys, ends_agree idx cmp keys.
Proof.
  intros [LB LC] keys lo hi k [_ H1] [_ H2] Hk. specialize (H1 k Hk). specialize (H2 k Hk). rewrite LC in H1, H2.
  rewrite N.compare_gt_iff in H1. rewrite N.compare_lt_iff in H2. lia.
Qed.
