(** Hash code analysis (analyzers/hash_code_analyzer.rs, utils/bitvec.rs). *)
From Verif Require Import Prelude Spec ModelUtils ModelAnalyzers ProofsBase.

(** * powers of two *)
Lemma npt_pow2 k : next_power_of_two (2 ^ k) = 2 ^ k.
Proof. unfold next_power_of_two. rewrite N.log2_up_pow2 by lia. reflexivity. Qed.

Lemma npt_succ_pow2 k : next_power_of_two (2 ^ k + 1) = 2 ^ (k + 1).
Proof. unfold next_power_of_two. rewrite N.add_1_r, N.log2_up_succ_pow2 by lia. rewrite N.add_1_r. reflexivity. Qed.

Lemma round_up_pow2 n : (if negb (is_power_of_two n) then next_power_of_two n else n) = next_power_of_two n.
Proof.
  unfold is_power_of_two. destruct (N.eqb_spec n 0) as [->|Hn]; cbn [negb andb]; [reflexivity|].
  destruct (N.eqb_spec (2 ^ N.log2 n) n) as [E|E]; cbn [negb]; [|reflexivity].
  rewrite <- E. rewrite npt_pow2. reflexivity.
Qed.

Lemma npt_ge n : n <= next_power_of_two n.
Proof.
  unfold next_power_of_two. destruct (N.eq_dec n 0) as [->|H]; [lia|].
  destruct (N.le_gt_cases n 1) as [H1|H1].
  - assert (n = 1) by lia. subst. cbn. lia.
  - apply N.log2_up_spec. lia.
Qed.

Lemma npt_lt_double n : 0 < n -> next_power_of_two n < 2 * n.
Proof.
  intros Hn. unfold next_power_of_two. destruct (N.le_gt_cases n 1) as [H1|H1].
  - assert (n = 1) by lia. subst. cbn. lia.
  - pose proof (N.log2_up_spec n H1) as [H2 H3].
    assert (0 < N.log2_up n) by (apply N.log2_up_pos; lia).
    replace (N.log2_up n) with (N.succ (N.pred (N.log2_up n))) by lia.
    rewrite N.pow_succ_r by lia. lia.
Qed.

Lemma npt_mono a b : a <= b -> next_power_of_two a <= next_power_of_two b.
Proof. intros H. unfold next_power_of_two. apply N.pow_le_mono_r; [lia|]. apply N.log2_up_le_mono. lia. Qed.

(** [next_power_of_two n] is the least power of two that is at least [n]. *)
Lemma npt_least n k : n <= 2 ^ k -> next_power_of_two n <= 2 ^ k.
Proof. intros H. rewrite <- (npt_pow2 k). apply npt_mono, H. Qed.

(** * bitvec *)
Definition bv_ok (b : bitvec) : Prop := length (bv_bits b) = N.to_nat (div_ceil (bv_len b) 64).
Definition bv_mem (b : bitvec) (i : N) : bool := N.testbit (nth (N.to_nat (i / 64)) (bv_bits b) 0) (i mod 64).

Lemma word_in_range cap i : i < cap -> i / 64 < div_ceil cap 64.
Proof.
  intros H. unfold div_ceil. replace (cap + 64 - 1) with ((cap - 1) + 1 * 64) by lia.
  rewrite N.div_add by lia. pose proof (N.div_le_mono i (cap - 1) 64). lia.
Qed.

Lemma bv_with_capacity_ok c : bv_ok (bv_with_capacity c).
Proof. unfold bv_ok, bv_with_capacity. cbn [bv_bits bv_len]. rewrite map_length, seq_length. reflexivity. Qed.

Lemma bv_clear_ok b : bv_ok b -> bv_ok (bv_clear_all b).
Proof. unfold bv_ok, bv_clear_all. cbn [bv_bits bv_len]. rewrite map_length. auto. Qed.

Lemma bv_clear_mem b i : bv_mem (bv_clear_all b) i = false.
Proof.
  unfold bv_mem, bv_clear_all. cbn [bv_bits].
  replace (nth (N.to_nat (i / 64)) (map (fun _ => 0) (bv_bits b)) 0) with 0; [apply N.bits_0|].
  generalize (N.to_nat (i / 64)). induction (bv_bits b); intros [|n]; cbn; auto.
Qed.

Lemma land_bit w k : negb (N.land w (N.shiftl 1 k) =? 0) = N.testbit w k.
Proof.
  rewrite N.shiftl_1_l. destruct (N.testbit w k) eqn:E.
  - apply negb_true_iff, N.eqb_neq. intros H.
    assert (N.testbit (N.land w (2 ^ k)) k = false) by (rewrite H; apply N.bits_0).
    rewrite N.land_spec, E, N.pow2_bits_true in H0. discriminate.
  - apply negb_false_iff, N.eqb_eq. apply N.bits_inj_0. intros j. rewrite N.land_spec.
    destruct (N.eq_dec k j) as [<-|Hj]; [rewrite E; reflexivity|].
    rewrite N.pow2_bits_false by assumption. apply andb_false_r.
Qed.

Lemma bv_get_spec b i : bv_ok b -> i < bv_len b -> bv_get b i = Ok (bv_mem b i).
Proof.
  intros H Hi. unfold bv_get. destruct (N.ltb_spec i (bv_len b)); [|lia].
  pose proof (word_in_range _ _ Hi). destruct (index_Ok (bv_bits b) (N.to_nat (i / 64))) as [w [Hw1 Hw2]].
  { rewrite H. lia. }
  rewrite Hw2. cbn [bind]. rewrite land_bit. unfold bv_mem. rewrite (nth_error_nth _ _ _ Hw1). reflexivity.
Qed.

Lemma bv_set_spec b i : bv_ok b -> i < bv_len b ->
  exists b', bv_set b i = Ok b' /\ bv_ok b' /\ bv_len b' = bv_len b /\
    (forall j, bv_mem b' j = (j =? i) || bv_mem b j).
Proof.
  intros H Hi. unfold bv_set. destruct (N.ltb_spec i (bv_len b)); [|lia].
  pose proof (word_in_range _ _ Hi). destruct (index_Ok (bv_bits b) (N.to_nat (i / 64))) as [w [Hw1 Hw2]].
  { rewrite H. lia. }
  rewrite Hw2. cbn [bind]. unfold store.
  destruct (Nat.ltb_spec (N.to_nat (i / 64)) (length (bv_bits b))); [|rewrite H in *; lia]. cbn [bind].
  eexists. split; [reflexivity|]. unfold bv_ok. cbn [bv_bits bv_len]. rewrite list_set_length. split; [auto|].
  split; [reflexivity|]. intros j. unfold bv_mem. cbn [bv_bits].
  pose proof (nth_error_list_set (bv_bits b) (N.to_nat (i / 64)) (N.to_nat (j / 64)) (N.lor w (N.shiftl 1 (i mod 64)))) as E.
  destruct (Nat.eqb_spec (N.to_nat (i / 64)) (N.to_nat (j / 64))) as [Eq|Ne].
  - destruct (Nat.ltb_spec (N.to_nat (i / 64)) (length (bv_bits b))); [|lia].
    rewrite (nth_error_nth _ _ 0 E). rewrite N.lor_spec, N.shiftl_1_l.
    assert (Hd : i / 64 = j / 64) by lia.
    rewrite <- Eq. rewrite (nth_error_nth _ _ 0 Hw1). rewrite orb_comm. f_equal.
    destruct (N.eqb_spec j i) as [->|Hji].
    + apply N.pow2_bits_true.
    + apply N.pow2_bits_false. intros Hm. apply Hji.
      rewrite (N.div_mod i 64), (N.div_mod j 64) by lia. lia.
  - destruct (N.eqb_spec j i) as [->|Hji]; [congruence|]. cbn [orb]. f_equal.
    destruct (nth_error (bv_bits b) (N.to_nat (j / 64))) eqn:E2.
    + rewrite (nth_error_nth _ _ 0 E). rewrite (nth_error_nth _ _ 0 E2). reflexivity.
    + apply nth_error_None in E2. rewrite !nth_overflow; auto. rewrite list_set_length. auto.
Qed.

(** * counting *)
(** number of elements already seen, and the list of distinct ones *)
Fixpoint scan_dups (seen : list N) (l : list N) : N * list N :=
  match l with
  | [] => (0, seen)
  | x :: r => if existsb (N.eqb x) seen then let (d, s) := scan_dups seen r in (d + 1, s) else scan_dups (x :: seen) r
  end.

Lemma existsb_eqb_In x l : existsb (N.eqb x) l = true <-> In x l.
Proof.
  rewrite existsb_exists. split.
  - intros [y [H1 H2]]. apply N.eqb_eq in H2. subst; auto.
  - intros H. exists x. split; auto. apply N.eqb_refl.
Qed.

Lemma scan_dups_spec l : forall seen, NoDup seen ->
  let (d, s) := scan_dups seen l in
  NoDup s /\ (forall x, In x s <-> In x seen \/ In x l) /\
  d + N.of_nat (length s) = N.of_nat (length l) + N.of_nat (length seen).
Proof.
  induction l as [|x r IH]; intros seen ND; cbn [scan_dups].
  - repeat split; auto; try tauto. intros [H|[]]; auto.
  - destruct (existsb (N.eqb x) seen) eqn:E.
    + specialize (IH seen ND). destruct (scan_dups seen r) as [d s]. destruct IH as [I1 [I2 I3]].
      split; auto. split.
      * intros y. rewrite I2. apply existsb_eqb_In in E. cbn [In]. intuition. subst; auto.
      * cbn [length]. lia.
    + assert (ND' : NoDup (x :: seen)).
      { constructor; auto. intros H. apply existsb_eqb_In in H. congruence. }
      specialize (IH (x :: seen) ND'). destruct (scan_dups (x :: seen) r) as [d s]. destruct IH as [I1 [I2 I3]].
      split; auto. split.
      * intros y. rewrite I2. cbn [In]. tauto.
      * cbn [length] in *. lia.
Qed.

Lemma scan_dups_repeats l : fst (scan_dups [] l) = repeats l.
Proof.
  pose proof (scan_dups_spec l [] (NoDup_nil _)) as H.
  destruct (scan_dups [] l) as [d s]. destruct H as [H1 [H2 H3]]. cbn [fst].
  unfold repeats. cbn [length] in H3.
  assert (length s = length (nodup N.eq_dec l)).
  { apply Nat.le_antisymm; apply NoDup_incl_length; auto using NoDup_nodup; intros x Hx.
    - apply nodup_In. apply H2 in Hx. destruct Hx as [[]|]; auto.
    - apply H2. right. apply nodup_In in Hx. auto. }
  lia.
Qed.

Lemma scan_dups_collisions codes m : fst (scan_dups [] (map (fun c => c mod m) codes)) = collisions codes m.
Proof. apply scan_dups_repeats. Qed.

Lemma collisions_lt codes m : codes <> [] -> collisions codes m < N.of_nat (length codes).
Proof.
  intros H. unfold collisions, repeats. rewrite map_length. destruct codes as [|c r]; [congruence|].
  assert (In (c mod m) (nodup N.eq_dec (map (fun c => c mod m) (c :: r)))) by (apply nodup_In; left; auto).
  destruct (nodup N.eq_dec (map (fun c => c mod m) (c :: r))); [destruct H0|]. cbn [length]. lia.
Qed.

(** the counting loop *)
Lemma count_collisions_spec codes m best : forall b seen n,
  0 < m -> m <= bv_len b -> bv_ok b -> (forall j, j < m -> bv_mem b j = existsb (N.eqb j) seen) ->
  exists n' b', count_collisions codes m best b n = Ok (n', b') /\ bv_ok b' /\ bv_len b' = bv_len b /\
    let d := fst (scan_dups seen (map (fun c => c mod m) codes)) in
    (n + d < best -> n' = n + d) /\ (n' < best -> n' = n + d).
Proof.
  induction codes as [|c r IH]; intros b seen n Hm Hb Hok Hmem; cbn [count_collisions map scan_dups].
  - exists n, b. cbn [fst]. repeat split; auto; lia.
  - destruct (N.eqb_spec m 0); [lia|].
    assert (Hc : c mod m < m) by (apply N.mod_lt; lia).
    rewrite bv_get_spec by (auto; lia). cbn [bind]. rewrite Hmem by assumption.
    destruct (existsb (N.eqb (c mod m)) seen) eqn:E.
    + destruct (N.leb_spec best (n + 1)).
      * exists (n + 1), b. split; [reflexivity|]. repeat split; auto; destruct (scan_dups seen _); cbn [fst]; lia.
      * destruct (IH b seen (n + 1) Hm Hb Hok Hmem) as [n' [b' [H1 [H2 [H3 H4]]]]].
        exists n', b'. split; [exact H1|]. split; auto. split; auto.
        destruct (scan_dups seen (map (fun c => c mod m) r)) as [d s]. cbn [fst] in *. lia.
    + destruct (bv_set_spec b (c mod m) Hok) as [b1 [S1 [S2 [S3 S4]]]]; [lia|]. rewrite S1. cbn [bind].
      destruct (IH b1 (c mod m :: seen) n Hm) as [n' [b' [H1 [H2 [H3 H4]]]]]; auto; [lia| |].
      { intros j Hj. rewrite S4. cbn [existsb]. rewrite Hmem by assumption. reflexivity. }
      exists n', b'. repeat split; auto; try lia; apply H4.
Qed.

Definition best_ok (codes : list N) (lo hi : N) (bs bc : N) : Prop :=
  (exists k, bs = 2 ^ k) /\ lo <= bs /\ bs <= hi /\ bc = collisions codes bs.

Lemma pow2_nz k : 2 ^ k <> 0.
Proof. apply N.pow_nonzero. lia. Qed.

Lemma analyze_loop_spec codes lo hk : forall fuel k acc b bs bc,
  codes <> [] -> bv_ok b -> bv_len b = 2 ^ hk -> lo <= 2 ^ k -> k <= hk + 1 ->
  (hk + 2 <= N.of_nat fuel + k) ->
  ((bs = 0 /\ bc = N.of_nat (length codes) /\ k <= hk) \/ best_ok codes lo (2 ^ hk) bs bc) ->
  exists bs' bc', analyze_loop fuel codes (2 ^ hk) (2 ^ k) acc b bs bc = Ok (bs', bc') /\
    best_ok codes lo (2 ^ hk) bs' bc'.
Proof.
  induction fuel as [|fuel IH]; intros k acc b bs bc Hne Hok Hlen Hlo Hk Hf Hbest; [lia|].
  cbn [analyze_loop]. destruct (N.leb_spec (2 ^ k) (2 ^ hk)) as [Hle|Hgt].
  - apply N.pow_le_mono_r_iff in Hle; [|lia].
    assert (H2k : 2 ^ k <= 2 ^ hk) by (apply N.pow_le_mono_r; lia).
    destruct (count_collisions_spec codes (2 ^ k) bc (bv_clear_all b) [] 0) as [n [b' [C1 [C2 [C3 [C4 C5]]]]]].
    + pose proof (pow2_nz k). lia.
    + unfold bv_clear_all. cbn [bv_len]. lia.
    + apply bv_clear_ok, Hok.
    + intros j _. rewrite bv_clear_mem. reflexivity.
    + rewrite C1. cbn [bind]. rewrite scan_dups_collisions in C4, C5. rewrite N.add_0_l in C4, C5.
      assert (Hb' : bv_len b' = 2 ^ hk) by (rewrite C3; exact Hlen).
      rewrite npt_succ_pow2.
      assert (Hlo' : lo <= 2 ^ (k + 1)) by (rewrite N.add_1_r, N.pow_succ_r by lia; lia).
      assert (Hnew : n < bc -> best_ok codes lo (2 ^ hk) (2 ^ k) n).
      { intros Hn. split; [eauto|]. repeat split; auto. }
      destruct Hbest as [[-> [-> Hkh]]|HB].
      * pose proof (collisions_lt codes (2 ^ k) Hne) as Hcl. specialize (C4 Hcl). subst n.
        destruct (N.ltb_spec (collisions codes (2 ^ k)) (N.of_nat (length codes))); [|lia].
        rewrite N.eqb_refl. cbn [orb andb].
        destruct (collisions codes (2 ^ k) <=? acc).
        -- eexists _, _. split; [reflexivity|]. apply Hnew. lia.
        -- apply IH; auto; lia.
      * assert (Hbs : bs =? 0 = false).
        { destruct HB as [[j ->] _]. apply N.eqb_neq, pow2_nz. }
        rewrite Hbs. cbn [orb].
        destruct (N.ltb_spec n bc); cbn [andb].
        -- destruct (n <=? acc).
           ++ eexists _, _. split; [reflexivity|]. auto.
           ++ apply IH; auto; lia.
        -- apply IH; auto; lia.
  - eexists _, _. split; [reflexivity|]. destruct Hbest as [[_ [_ ?]]|HB]; auto.
    apply N.pow_lt_mono_r_iff in Hgt; lia.
Qed.

Definition min_slots (len : N) : N := next_power_of_two (len - initial_acceptable len).
Definition max_factor (len : N) : N := if len <? 128 then 10 else if len <? 1000 then 7 else 3.

Lemma analysis_min_size_eq len : analysis_min_size len = next_power_of_two (len - initial_acceptable len).
Proof. unfold analysis_min_size. apply round_up_pow2. Qed.

Lemma analysis_max_size_eq len : analysis_max_size len = next_power_of_two (max_factor len * len).
Proof.
  unfold analysis_max_size. rewrite round_up_pow2. f_equal. unfold max_factor.
  destruct (len <? 128); [lia|]. destruct (len <? 1000); lia.
Qed.

Theorem analyze_hash_codes_spec codes : codes <> [] ->
  let len := N.of_nat (length codes) in
  exists slots coll, analyze_hash_codes codes = Ok (slots, coll) /\
    (exists k, slots = 2 ^ k) /\ analysis_min_size len <= slots /\ slots <= analysis_max_size len /\
    coll = collisions codes slots.
Proof.
  intros Hne len. unfold analyze_hash_codes. fold len.
  rewrite analysis_min_size_eq, analysis_max_size_eq.
  assert (Hlog : N.log2 (next_power_of_two (max_factor len * len)) = N.log2_up (max_factor len * len))
    by (unfold next_power_of_two; apply N.log2_pow2; lia).
  rewrite Hlog. unfold next_power_of_two at 3 4 5.
  assert (Hl : len - initial_acceptable len <= max_factor len * len).
  { assert (1 <= max_factor len) by (unfold max_factor; destruct (len <? 128); [lia|]; destruct (len <? 1000); lia). nia. }
  destruct (analyze_loop_spec codes (next_power_of_two (len - initial_acceptable len)) (N.log2_up (max_factor len * len))
     (S (S (N.to_nat (N.log2_up (max_factor len * len))))) (N.log2_up (len - initial_acceptable len))
     (initial_acceptable len) (bv_with_capacity (2 ^ N.log2_up (max_factor len * len))) 0 len)
    as [bs [bc [A1 [A2 [A3 [A4 A5]]]]]]; auto.
  - apply bv_with_capacity_ok.
  - unfold next_power_of_two. lia.
  - pose proof (N.log2_up_le_mono _ _ Hl). lia.
  - lia.
  - left. split; auto. split; auto. apply N.log2_up_le_mono, Hl.
  - exists bs, bc. split; [exact A1|]. auto.
Qed.

(** * Exact choice *)
Lemma tolerated_le len i : tolerated len i <= tolerated len 0.
Proof.
  induction i as [|i IH]; [lia|]. cbn [tolerated]. pose proof (N.mul_div_le (tolerated len i) 100).
  change (if len <? 128 then 0 else len / 100 * 5) with (tolerated len 0) in *. lia.
Qed.

Lemma analyze_loop_exact codes len k0 hk : forall fuel i b,
  codes <> [] -> bv_ok b -> bv_len b = 2 ^ hk -> (0 < i)%nat -> k0 + N.of_nat i <= hk + 1 ->
  (hk + 2 <= N.of_nat fuel + (k0 + N.of_nat i)) ->
  (forall j, (j < i)%nat -> tolerated len j < collisions codes (2 ^ (k0 + N.of_nat j))) ->
  exists bs' bc', analyze_loop fuel codes (2 ^ hk) (2 ^ (k0 + N.of_nat i)) (tolerated len i) b (2 ^ k0) (collisions codes (2 ^ k0)) = Ok (bs', bc') /\
    chosen codes len k0 hk bs' bc'.
Proof.
  induction fuel as [|fuel IH]; intros i b Hne Hok Hlen Hi Hk Hf Hprev; [lia|].
  cbn [analyze_loop]. destruct (N.leb_spec (2 ^ (k0 + N.of_nat i)) (2 ^ hk)) as [Hle|Hgt].
  - apply N.pow_le_mono_r_iff in Hle; [|lia].
    assert (H2k : 2 ^ (k0 + N.of_nat i) <= 2 ^ hk) by (apply N.pow_le_mono_r; lia).
    set (bc := collisions codes (2 ^ k0)). set (k := k0 + N.of_nat i) in *.
    assert (Hbc : tolerated len 0 < bc) by (specialize (Hprev O Hi); rewrite N.add_0_r in Hprev; exact Hprev).
    pose proof (tolerated_le len i) as Hti.
    destruct (count_collisions_spec codes (2 ^ k) bc (bv_clear_all b) [] 0) as [n [b' [C1 [C2 [C3 [C4 C5]]]]]].
    + pose proof (pow2_nz k). lia.
    + unfold bv_clear_all. cbn [bv_len]. lia.
    + apply bv_clear_ok, Hok.
    + intros j _. rewrite bv_clear_mem. reflexivity.
    + rewrite C1. cbn [bind]. rewrite scan_dups_collisions in C4, C5. rewrite N.add_0_l in C4, C5.
      assert (Hb' : bv_len b' = 2 ^ hk) by (rewrite C3; exact Hlen).
      rewrite npt_succ_pow2. destruct (N.eqb_spec (2 ^ k0) 0) as [E0|_]; [exfalso; apply (pow2_nz k0 E0)|]. cbn [orb].
      destruct (N.le_gt_cases (collisions codes (2 ^ k)) (tolerated len i)) as [Hc|Hc].
      * specialize (C4 ltac:(lia)). subst n. destruct (N.ltb_spec (collisions codes (2 ^ k)) bc); [|lia].
        destruct (N.leb_spec (collisions codes (2 ^ k)) (tolerated len i)); [|lia]. cbn [andb].
        eexists _, _. split; [reflexivity|]. split; [reflexivity|]. left. exists i. auto.
      * assert (Hno : (n <? bc) && (n <=? tolerated len i) = false).
        { destruct (N.ltb_spec n bc) as [Hn|Hn]; cbn [andb]; auto. specialize (C5 Hn). subst n. apply N.leb_gt. lia. }
        rewrite Hno.
        assert (Ht : (if 0 <? tolerated len i then tolerated len i / 100 * 20 else tolerated len i) = tolerated len (S i)).
        { cbn [tolerated]. destruct (N.ltb_spec 0 (tolerated len i)); auto. assert (tolerated len i = 0) as -> by lia. reflexivity. }
        rewrite Ht. replace (k + 1) with (k0 + N.of_nat (S i)) by lia. apply IH; auto; try lia.
        intros j Hj. destruct (Nat.eq_dec j i) as [->|]; [auto|apply Hprev; lia].
  - apply N.pow_lt_mono_r_iff in Hgt; [|lia]. eexists _, _. split; [reflexivity|]. split; [reflexivity|]. right. split; auto.
    intros j Hj. apply Hprev. lia.
Qed.

Theorem analyze_hash_codes_exact codes : codes <> [] ->
  let len := N.of_nat (length codes) in
  exists slots coll, analyze_hash_codes codes = Ok (slots, coll) /\
    chosen codes len (N.log2_up (len - tolerated len 0)) (N.log2_up (growth len * len)) slots coll.
Proof.
  intros Hne len. unfold analyze_hash_codes. fold len.
  rewrite analysis_min_size_eq, analysis_max_size_eq.
  change (max_factor len) with (growth len). change (initial_acceptable len) with (tolerated len 0).
  assert (Hl : len - tolerated len 0 <= growth len * len).
  { assert (1 <= growth len) by (unfold growth; destruct (len <? 128); [lia|]; destruct (len <? 1000); lia). nia. }
  set (k0 := N.log2_up (len - tolerated len 0)). set (hk := N.log2_up (growth len * len)).
  assert (Hk : k0 <= hk) by (apply N.log2_up_le_mono, Hl).
  assert (Hlog : N.log2 (next_power_of_two (growth len * len)) = hk) by (unfold next_power_of_two; apply N.log2_pow2; lia).
  rewrite Hlog. change (next_power_of_two (growth len * len)) with (2 ^ hk). change (next_power_of_two (len - tolerated len 0)) with (2 ^ k0).
  remember (S (N.to_nat hk)) as fuel eqn:Hfu. cbn [analyze_loop]. destruct (N.leb_spec (2 ^ k0) (2 ^ hk)) as [_|Hgt].
  2: { apply N.pow_lt_mono_r_iff in Hgt; lia. }
  assert (H2k : 2 ^ k0 <= 2 ^ hk) by (apply N.pow_le_mono_r; lia).
  destruct (count_collisions_spec codes (2 ^ k0) len (bv_clear_all (bv_with_capacity (2 ^ hk))) [] 0) as [n [b' [C1 [C2 [C3 [C4 C5]]]]]].
  - pose proof (pow2_nz k0). lia.
  - unfold bv_clear_all, bv_with_capacity. cbn [bv_len]. lia.
  - apply bv_clear_ok, bv_with_capacity_ok.
  - intros j _. rewrite bv_clear_mem. reflexivity.
  - rewrite C1. cbn [bind]. rewrite scan_dups_collisions in C4, C5. rewrite N.add_0_l in C4, C5.
    pose proof (collisions_lt codes (2 ^ k0) Hne) as Hcl. specialize (C4 Hcl). subst n.
    rewrite npt_succ_pow2. destruct (N.ltb_spec (collisions codes (2 ^ k0)) len); [|fold len in Hcl; lia]. rewrite N.eqb_refl. cbn [orb andb].
    destruct (N.leb_spec (collisions codes (2 ^ k0)) (tolerated len 0)) as [Hc|Hc].
    + eexists _, _. split; [reflexivity|]. split; [reflexivity|]. left. exists O. rewrite N.add_0_r.
      split; [auto|]. split; [auto|]. split; [auto|]. intros j Hj. lia.
    + assert (Ht : (if 0 <? tolerated len 0 then tolerated len 0 / 100 * 20 else tolerated len 0) = tolerated len 1).
      { cbn [tolerated]. destruct (N.ltb_spec 0 (if len <? 128 then 0 else len / 100 * 5)) as [E|E]; auto.
        assert ((if len <? 128 then 0 else len / 100 * 5) = 0) as -> by (clear - E; apply N.le_0_r; exact E). reflexivity. }
      rewrite Ht. change (k0 + 1) with (k0 + N.of_nat 1). apply analyze_loop_exact; auto; try lia.
      intros j Hj. assert (j = O) as -> by lia. rewrite N.add_0_r. auto.
Qed.
