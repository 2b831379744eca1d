(** Arithmetic of the hash code analyzer on machines of any width (C92). *)
From Coq Require Import ZArith ZifyNat ZifyN ZifyBool String.
From Verif Require Import Prelude Spec ModelUtils ModelAnalyzers ModelTables ModelMaps ModelWidth ModelArith ProofsBase ProofsAnalyzer ProofsWork.

Section Arith.
Context (w : N) (md : mode).
Hypothesis W : 16 <= w.
Notation umax := (umax_of w).
Notation imax := (imax_of w).

Lemma pow_w : 2 ^ w = 8 * 2 ^ (w - 3) /\ 2 ^ (w - 1) = 4 * 2 ^ (w - 3) /\ 2 ^ (w - 2) = 2 * 2 ^ (w - 3) /\ 2 * 2 ^ (w - 4) = 2 ^ (w - 3) /\ 2 ^ 13 <= 2 ^ (w - 3).
Proof.
  assert (P : forall a b, 2 ^ (a + b) = 2 ^ a * 2 ^ b) by (intros; apply N.pow_add_r).
  pose proof (P 3 (w - 3)) as A. pose proof (P 2 (w - 3)) as B. pose proof (P 1 (w - 3)) as C. pose proof (P 1 (w - 4)) as D.
  replace (3 + (w - 3)) with w in A by lia. replace (2 + (w - 3)) with (w - 1) in B by lia. replace (1 + (w - 3)) with (w - 2) in C by lia.
  replace (1 + (w - 4)) with (w - 3) in D by lia. rewrite A, B, C, D. change (2 ^ 3) with 8. change (2 ^ 2) with 4. change (2 ^ 1) with 2.
  repeat split. change (2 * 2 ^ (w - 4)) with (2 ^ 1 * 2 ^ (w - 4)). rewrite <- P. apply N.pow_le_mono_r; lia.
Qed.

Lemma uadd_fits a b : a + b <= umax -> uadd_on umax md a b = Ok (a + b).
Proof. intros H. unfold uadd_on. rewrite (proj2 (N.leb_le _ _) H). reflexivity. Qed.
Lemma umul_fits a b : a * b <= umax -> umul_on w md a b = Ok (a * b).
Proof. intros H. unfold umul_on. rewrite (proj2 (N.leb_le _ _) H). reflexivity. Qed.
Lemma npt_fits n : next_power_of_two n <= umax -> npt_on w md n = Ok (next_power_of_two n).
Proof. intros H. unfold npt_on. rewrite (proj2 (N.leb_le _ _) H). reflexivity. Qed.
Lemma vec_fits size n : size * n <= imax -> vec_on w size n = Ok tt.
Proof. intros H. unfold vec_on. rewrite (proj2 (N.leb_le _ _) H). reflexivity. Qed.
Lemma round_fits n : next_power_of_two n <= umax -> (if negb (is_power_of_two n) then npt_on w md n else Ok n) = Ok (next_power_of_two n).
Proof. intros H. rewrite (npt_fits n H). rewrite <- (round_up_pow2 n) at 2. destruct (is_power_of_two n); reflexivity. Qed.

Lemma count_same num_slots best : num_slots <= umax -> forall codes use_table c, c + N.of_nat (length codes) <= umax ->
  count_collisions_on w md codes num_slots best use_table c = count_collisions codes num_slots best use_table c.
Proof.
  intros HS. induction codes as [|x r IH]; intros use_table c Hc; cbn [count_collisions_on count_collisions length] in *; [reflexivity|].
  destruct (N.eqb_spec num_slots 0) as [|Hn]; [reflexivity|]. pose proof (N.mod_lt x num_slots Hn) as M.
  assert (E : (x mod num_slots) mod 2 ^ w = x mod num_slots) by (apply N.mod_small; unfold umax_of in *; lia). rewrite E.
  destruct (bv_get use_table (x mod num_slots)) as [[|]| |]; cbn [bind]; try reflexivity.
  - rewrite uadd_fits by lia. cbn [bind]. destruct (best <=? c + 1); [reflexivity|]. apply IH. lia.
  - destruct (bv_set use_table (x mod num_slots)); cbn [bind]; try reflexivity. apply IH. lia.
Qed.

Lemma loop_same codes max_size : N.of_nat (length codes) <= umax -> max_size <= 2 ^ (w - 2) -> forall fuel k acceptable use_table s c, acceptable <= umax ->
  analyze_loop_on w md fuel codes max_size (2 ^ k) acceptable use_table s c = analyze_loop fuel codes max_size (2 ^ k) acceptable use_table s c.
Proof.
  intros HL HM. destruct pow_w as (P0 & P1 & P2 & _ & P3). assert (EU : umax = 2 ^ w - 1) by reflexivity.
  induction fuel as [|fuel IH]; intros k acceptable use_table s c HA; cbn [analyze_loop_on analyze_loop]; [reflexivity|].
  destruct (N.leb_spec (2 ^ k) max_size) as [L|L]; [|reflexivity].
  rewrite count_same by lia. destruct (count_collisions codes (2 ^ k) c (bv_clear_all use_table) 0) as [[n t]| |]; cbn [bind]; try reflexivity.
  set (b := ((n <? c) && (n <=? acceptable))%bool). destruct b; [reflexivity|].
  assert (D : acceptable / 100 * 20 <= acceptable) by (pose proof (N.div_mod' acceptable 100); lia).
  assert (E : (if 0 <? acceptable then umul_on w md (acceptable / 100) 20 else Ok acceptable) = Ok (if 0 <? acceptable then acceptable / 100 * 20 else acceptable)).
  { destruct (0 <? acceptable); [|reflexivity]. apply umul_fits. lia. }
  rewrite E. cbn [bind]. rewrite uadd_fits by lia. cbn [bind].
  rewrite npt_fits; rewrite npt_succ_pow2; [|rewrite N.pow_add_r; change (2 ^ 1) with 2; lia]. cbn [bind]. apply IH. destruct (0 <? acceptable); lia.
Qed.

Lemma analysis_same codes : analyze_hash_codes_on w md codes = if 8 * N.of_nat (length codes) <=? imax then analyze_hash_codes codes else Panic.
Proof.
  destruct pow_w as (P0 & P1 & P2 & P4 & P3). assert (EU : umax = 2 ^ w - 1) by reflexivity. assert (EI : imax = 2 ^ (w - 1) - 1) by reflexivity.
  change (2 ^ 13) with 8192 in P3.
  unfold analyze_hash_codes_on, vec_on at 1. set (len := N.of_nat (length codes)). destruct (N.leb_spec (8 * len) imax) as [HL|HL]; [|reflexivity]. cbn [bind].
  assert (D : len / 100 * 5 <= len) by (pose proof (N.div_mod' len 100); lia).
  assert (EA : (if len <? 128 then Ok 0 else umul_on w md (len / 100) 5) = Ok (initial_acceptable len)).
  { unfold initial_acceptable. destruct (len <? 128); [reflexivity|]. apply umul_fits. lia. }
  rewrite EA. cbn [bind].
  assert (IA : initial_acceptable len <= len) by (unfold initial_acceptable; destruct (len <? 128); lia).
  unfold usub_on. rewrite (proj2 (N.leb_le _ _) IA). cbn [bind].
  assert (M1 : next_power_of_two (len - initial_acceptable len) <= 2 ^ (w - 2)) by (apply npt_least; lia).
  rewrite round_fits by lia. cbn [bind].
  assert (MX : max_factor len * len <= 2 ^ (w - 2)).
  { unfold max_factor. destruct (N.ltb_spec len 128); [lia|]. destruct (N.ltb_spec len 1000); lia. }
  assert (EM : (if len <? 128 then umul_on w md len 10 else if len <? 1000 then umul_on w md len 7 else umul_on w md len 3) = Ok (max_factor len * len)).
  { unfold max_factor in *. destruct (len <? 128); [|destruct (len <? 1000)]; rewrite umul_fits; try (f_equal; lia); lia. }
  rewrite EM. cbn [bind]. pose proof (npt_least _ _ MX) as M2. rewrite round_fits by lia. cbn [bind].
  rewrite vec_fits.
  2:{ unfold div_ceil. pose proof (N.div_mod' (next_power_of_two (max_factor len * len) + 64 - 1) 64). lia. }
  cbn [bind]. unfold analyze_hash_codes. cbv zeta. fold len. rewrite analysis_max_size_eq, analysis_min_size_eq.
  set (mx := next_power_of_two (max_factor len * len)) in *. unfold next_power_of_two. apply loop_same; [fold len; lia|exact M2|lia].
Qed.

Lemma ht_new_same {T} slot_size item_size usort cm (entries : list T) hash :
  8 * N.of_nat (length entries) <= imax -> item_size * N.of_nat (length entries) <= imax -> slot_size * (20 * N.of_nat (length entries)) <= imax ->
  ht_new_on w md slot_size item_size usort cm entries hash = ht_new usort cm entries hash.
Proof.
  intros H1 H2 H3. unfold ht_new_on, ht_new. destruct entries as [|e0 r0] eqn:Ee; [reflexivity|]. rewrite <- Ee in *. cbn [is_nil]. rewrite Ee. cbn [is_nil]. rewrite <- Ee.
  assert (HL : 1 <= N.of_nat (length entries)) by (rewrite Ee; cbn [length]; lia).
  destruct (max_capacity cm <? _); [reflexivity|]. destruct (mapM hash entries) as [codes| |] eqn:EM; cbn [bind]; try reflexivity.
  apply mapM_length in EM. rewrite analysis_same, EM, (proj2 (N.leb_le _ _) H1).
  destruct (analysis_total codes) as [a [EA HA]]. rewrite EA. cbn [bind]. rewrite vec_fits by exact H2. cbn [bind].
  destruct (prep_items hash (fst a) entries); cbn [bind]; try reflexivity. rewrite vec_fits; [reflexivity|].
  rewrite EM in HA. pose proof (analysis_max_bound (N.of_nat (length entries))) as HB.
  assert (fst a <= 20 * N.of_nat (length entries)) by lia. nia.
Qed.

Lemma fz_hash_same {K V} slot_size item_size usort eqK hK (input : list (K * V)) :
  let n := N.of_nat (length (using_hash input (fun x => hK (fst x)) (fun x y => eqK (fst x) (fst y)))) in
  8 * n <= imax -> item_size * n <= imax -> slot_size * (20 * n) <= imax ->
  fz_hash_map_with_hasher_on w md slot_size item_size usort eqK hK input = fz_hash_map_with_hasher usort eqK hK input.
Proof.
  intros n H1 H2 H3. unfold fz_hash_map_with_hasher_on, fz_hash_map_with_hasher, hash_from_dedupped. rewrite ht_new_same by assumption.
  destruct (ht_new _ _ _ _) as [[t|s]| |]; reflexivity.
Qed.
End Arith.
