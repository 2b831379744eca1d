(** The analyzer, layout, deduplication and hasher theorems in the form in which they are stated in [PropertiesUtils.v]. *)
From Verif Require Import Spec ModelUtils ModelAnalyzers ModelTables ModelMaps SpecAnalysis
  ProofsBase ProofsDedup ProofsAnalyzer ProofsTable ProofsEytzinger ProofsScalar ProofsSlices ProofsSlicesExact.
From Verif Require Import Prelude.
From Coq Require Import Permutation Sorted.
From Coq Require Import ZArith ZifyNat ZifyN ZifyBool.

(** * sizing *)
Lemma sizing codes :
  (codes = [] -> analyze_hash_codes codes = Ok (0, 0)) /\
  (codes <> [] -> let len := N.of_nat (length codes) in
   exists slots coll, analyze_hash_codes codes = Ok (slots, coll) /\
     (exists k, slots = 2 ^ k) /\ len - tolerated len 0 <= slots < 2 * (growth len * len) /\ coll = collisions codes slots /\
     chosen codes len (N.log2_up (len - tolerated len 0)) (N.log2_up (growth len * len)) slots coll).
Proof.
  split; [intros ->; vm_compute; reflexivity|]. intros Hne len.
  destruct (analyze_hash_codes_spec codes Hne) as [slots [coll [E [K [Hmin [Hmax Hc]]]]]].
  destruct (analyze_hash_codes_exact codes Hne) as [s' [c' [E' C]]]. rewrite E in E'. inversion E'; subst s' c'. fold len in Hmin, Hmax, C. clear E'.
  exists slots, coll. split; [auto|]. split; [auto|]. split; [|auto].
  rewrite analysis_min_size_eq in Hmin. rewrite analysis_max_size_eq in Hmax. change (max_factor len) with (growth len) in Hmax.
  change (initial_acceptable len) with (tolerated len 0) in Hmin.
  pose proof (npt_ge (len - tolerated len 0)). split; [lia|].
  assert (0 < growth len * len).
  { assert (0 < len) by (unfold len; destruct codes; [congruence|cbn [length]; lia]).
    assert (3 <= growth len) by (unfold growth; destruct (len <? 128); [lia|]; destruct (len <? 1000); lia). nia. }
  pose proof (npt_lt_double (growth len * len)). lia.
Qed.

(** * scalar classification *)
Lemma scalar_class md l : l <> [] -> NoDup l -> (forall x, In x l -> x <= usize_max) -> (forall a b, In a l -> In b l -> a < b + usize_max) ->
  10 * N.of_nat (length l) <= usize_max ->
  exists n, spans l n /\
    (contiguous (fun x => x) l -> analyze_scalar_keys md l = Ok DenseRange) /\
    (~ contiguous (fun x => x) l -> analyze_scalar_keys md l = Ok (if (n <=? 128) || (n <? 10 * N.of_nat (length l)) then SparseRange else ScalarGeneral)).
Proof.
  intros Hne ND Hb Hs Hl. destruct (analyze_scalar_spec md l Hne Hb Hs) as [mn [mx [H1 [H2 [H3 E]]]]].
  exists (mx - mn + 1). split; [exists mn, mx; auto|]. rewrite E.
  pose proof (nodup_fills l mn mx ND H1 H3) as F.
  assert (C : contiguous (fun x => x) l <-> mx - mn + 1 = N.of_nat (length l)).
  { rewrite F. unfold contiguous. split.
    - intros H x Hx. destruct (H mn mx x H1 H2 Hx) as [k [Hk <-]]. auto.
    - intros H a b x Ha Hb' Hx. exists x. split; auto. apply H. pose proof (H3 a Ha). pose proof (H3 b Hb'). lia. }
  split; intros HC; rewrite C in HC; f_equal.
  - destruct (N.eqb_spec (mx - mn + 1) (N.of_nat (length l))); [auto|congruence].
  - destruct (N.eqb_spec (mx - mn + 1) (N.of_nat (length l))); [congruence|]. unfold saturating_mul.
    replace (N.min (N.of_nat (length l) * 10) usize_max) with (10 * N.of_nat (length l)) by lia. reflexivity.
Qed.

Lemma scalar_class_empty md : analyze_scalar_keys md [] = Ok ScalarGeneral.
Proof. reflexivity. Qed.

(** * Eytzinger *)
Lemma layout_search {T} (src : list T) : exists out, eytzinger_layout src = Ok out /\ Permutation src out /\
  forall f, consistent f src -> exists o, eytzinger_search_by out f = Ok o /\
    match o with
    | Some p => exists x, nth_error out p = Some x /\ f x = Eq
    | None => forall x, In x src -> f x <> Eq
    end.
Proof.
  destruct (layout_spec src) as [out [E [Hl Hn]]]. exists out. split; [auto|]. pose proof (layout_perm src out E) as P. split; [auto|].
  intros f Hf. destruct (search_spec src out f Hl Hn Hf) as [o [E1 E2]]. exists o. split; auto. destruct o; auto.
  intros x Hx. apply E2. eapply Permutation_in; eauto.
Qed.

(** * deduplication *)
Lemma dedup_eq {T} (eq : T -> T -> bool) (l : list T) : using_eq l eq = survivors eq l.
Proof. exact (using_eq_survivors l eq). Qed.

Lemma dedup_cmp {T} (cmp : T -> T -> comparison) (l : list T) : lawful_ord cmp ->
  Permutation (using_cmp l cmp) (survivors (fun x y => is_eq (cmp x y)) l) /\ StronglySorted (fun x y => cmp x y = Lt) (using_cmp l cmp).
Proof.
  intros L. split; [|apply sorted_and_dedupped_sorted; auto].
  etransitivity; [apply sorted_and_dedupped_perm; auto|]. apply Permutation_refl'. apply survivors_ext. intros. reflexivity.
Qed.

Lemma survivors_char {T} (same : T -> T -> bool) l : lawful_eq same ->
  distinct same (survivors same l) /\ (forall x, In x l -> exists y, In y (survivors same l) /\ same x y = true) /\
  (forall x, In x (survivors same l) -> exists pre post, l = pre ++ x :: post /\ forall y, In y post -> same x y = false).
Proof.
  intros LE. split; [apply survivors_distinct|]. split; [intros x Hx; apply survivors_cover; auto|].
  induction l as [|z r IH]; cbn [survivors]; intros x Hx; [destruct Hx|].
  destruct (existsb (same z) r) eqn:E.
  - destruct (IH x Hx) as [pre [post [-> H]]]. exists (z :: pre), post. auto.
  - destruct Hx as [->|Hx].
    + exists [], r. split; auto. apply existsb_false_forall. auto.
    + destruct (IH x Hx) as [pre [post [-> H]]]. exists (z :: pre), post. auto.
Qed.

Lemma has_duplicates_spec {T} (eq : T -> T -> bool) (l : list T) : has_duplicates eq l = false <-> distinct eq l.
Proof.
  unfold has_duplicates.
  assert (G : forall rest seen, has_duplicates_from eq seen rest = false <->
    (forall x y, In x seen -> In y rest -> eq x y = false) /\ distinct eq rest).
  { induction rest as [|z r IH]; intros seen; cbn [has_duplicates_from distinct].
    - split; auto. split; auto. intros x y _ [].
    - destruct (existsb (fun y => eq y z) seen) eqn:E.
      + split; [discriminate|]. intros [H _]. apply existsb_exists in E. destruct E as [y [Hy1 Hy2]].
        rewrite (H y z Hy1 (or_introl eq_refl)) in Hy2. discriminate.
      + rewrite IH. rewrite existsb_false_forall in E. split.
        * intros [H1 H2]. split; [|split; auto].
          -- intros x y Hx [<-|Hy]; [apply E; auto|apply H1; auto; apply in_app_iff; auto].
          -- intros y Hy. apply H1; auto. apply in_app_iff. right; left; auto.
        * intros [H1 [H2 H3]]. split; auto. intros x y Hx Hy. apply in_app_iff in Hx. destruct Hx as [Hx|[<-|[]]].
          -- apply H1; auto. right; auto.
          -- apply H2; auto. }
  rewrite G. split; [tauto|]. intros H. split; auto. intros x y [].
Qed.

(** * hashers *)
Lemma slice_left (s : bytes) lo hi : lo <= hi -> hi <= N.of_nat (length s) -> slice s (N.to_nat lo) (N.to_nat hi) = Ok (left_part lo hi s).
Proof.
  intros H1 H2. unfold slice, left_part. destruct (Nat.leb_spec (N.to_nat lo) (N.to_nat hi)); [|lia].
  destruct (Nat.leb_spec (N.to_nat hi) (length s)); [|lia]. cbn [andb]. do 2 f_equal. lia.
Qed.

Lemma left_hash bh lo hi s : lo <= hi ->
  left_range_hash_one bh lo hi s = Ok (if N.of_nat (length s) <? hi then 0 else bh_bytes bh (left_part lo hi s)) /\
  inline_left_range_hash_one lo hi bh s = left_range_hash_one bh lo hi s.
Proof.
  intros H. split; [|reflexivity]. unfold left_range_hash_one. destruct (N.ltb_spec (N.of_nat (length s)) hi); auto.
  rewrite slice_left by auto. reflexivity.
Qed.

Lemma right_hash bh lo hi s : lo <= hi ->
  right_range_hash_one bh lo hi s = Ok (if N.of_nat (length s) <? hi then 0 else bh_bytes bh (right_part lo hi s)) /\
  inline_right_range_hash_one lo hi bh s = right_range_hash_one bh lo hi s.
Proof.
  intros H. split; [|reflexivity]. unfold right_range_hash_one. destruct (N.ltb_spec (N.of_nat (length s)) hi); auto.
  unfold sub_no_underflow. destruct (N.leb_spec hi (N.of_nat (length s))); [|lia]. cbn [bind].
  destruct (N.leb_spec lo (N.of_nat (length s))); [|lia]. cbn [bind].
  rewrite slice_left by lia. cbn [bind]. do 2 f_equal. unfold left_part, right_part.
  f_equal; [lia|]. f_equal. lia.
Qed.

Lemma backwards_range_panics bh lo hi s : hi < lo -> hi <= N.of_nat (length s) ->
  left_range_hash_one bh lo hi s = Panic /\ right_range_hash_one bh lo hi s = Panic.
Proof.
  intros H1 H2. unfold left_range_hash_one, right_range_hash_one. destruct (N.ltb_spec (N.of_nat (length s)) hi); [lia|].
  unfold sub_no_underflow, slice. split.
  - destruct (Nat.leb_spec (N.to_nat lo) (N.to_nat hi)); [lia|]. reflexivity.
  - destruct (N.leb_spec hi (N.of_nat (length s))); [|lia]. cbn [bind].
    destruct (N.leb_spec lo (N.of_nat (length s))); [|reflexivity]. cbn [bind].
    match goal with |- context [Nat.leb ?a ?b] => destruct (Nat.leb_spec a b); [lia|] end. reflexivity.
Qed.

Lemma right_part_rev {T} lo hi (s : list T) : lo <= hi -> hi <= N.of_nat (length s) -> right_part lo hi s = rev (left_part lo hi (rev s)).
Proof.
  intros H1 H2. unfold right_part, left_part. apply nth_error_ext. intros i.
  set (d := N.to_nat (hi - lo)).
  assert (LR : length (firstn d (skipn (N.to_nat lo) (rev s))) = d) by (rewrite firstn_length, skipn_length, rev_length; unfold d; lia).
  rewrite nth_error_firstn, nth_error_skipn. destruct (Nat.ltb_spec i d) as [Hi|Hi].
  - rewrite nth_error_rev_lt by (rewrite LR; lia). rewrite LR, nth_error_firstn, nth_error_skipn.
    destruct (Nat.ltb_spec (d - i - 1) d); [|lia]. rewrite nth_error_rev_lt by (unfold d in *; lia). f_equal. unfold d in *. lia.
  - symmetry. apply nth_error_None. rewrite rev_length, LR. lia.
Qed.
