(** Property theorems about the arithmetic of building hash tables (C92). Statements only; proofs are in [ProofsArith.v]. Each theorem is
    followed by the axioms it depends on and by a concrete case. *)
From Coq Require Import ZArith ZifyNat ZifyN ZifyBool.
From Verif Require Import Prelude Spec ModelUtils ModelAnalyzers ModelTables ModelMaps ModelArith SpecMade ProofsBase ProofsDedup ProofsMaps ProofsFz ProofsEmitProps ProofsArith Instances.

(** The hash code analyzer never overflows, on any machine of at least 16 bits and in either build: what does not fit is stopped when the codes
    are collected. *)
Theorem C92_analysis : forall w md codes, 16 <= w ->
  analyze_hash_codes_on w md codes = if 8 * N.of_nat (length codes) <=? 2 ^ (w - 1) - 1 then analyze_hash_codes codes else Panic.
Proof. exact (fun w md codes W => analysis_same w md W codes). Qed.
Print Assumptions C92_analysis.

(** [HashTable::new] is the one with unbounded arithmetic as long as the codes, the prepared items and 20 slots per entry fit into a vector. *)
Theorem C92_hash_table : forall w md T slot_size item_size usort cm (entries : list T) hash, 16 <= w ->
  8 * N.of_nat (length entries) <= 2 ^ (w - 1) - 1 -> item_size * N.of_nat (length entries) <= 2 ^ (w - 1) - 1 ->
  slot_size * (20 * N.of_nat (length entries)) <= 2 ^ (w - 1) - 1 ->
  ht_new_on w md slot_size item_size usort cm entries hash = ht_new usort cm entries hash.
Proof. exact (fun w md T slot_size item_size usort cm entries hash W => ht_new_same w md W slot_size item_size usort cm entries hash). Qed.
Print Assumptions C92_hash_table.

(** Hence a [FzHashMap] of lawful keys comes out and answers rightly. *)
Theorem C92_fz_hash_map : forall w md K V Q slot_size item_size usort eqK hK hQ (eqv : Q -> K -> bool) (input : list (K * V)), 16 <= w <= 64 ->
  sorts_by_slot usort -> lawful_eq eqK -> lawful_equivalent eqK eqv -> lawful_hash eqK hK -> lawful_query_hash eqv hQ hK ->
  8 * N.of_nat (key_count eqK input) <= 2 ^ (w - 1) - 1 -> item_size * N.of_nat (key_count eqK input) <= 2 ^ (w - 1) - 1 ->
  slot_size * (20 * N.of_nat (key_count eqK input)) <= 2 ^ (w - 1) - 1 ->
  exists m, fz_hash_map_with_hasher_on w md slot_size item_size usort eqK hK input = Ok m /\
    answers (hash_ops (fun q => Ok (hQ q)) eqv) eqK eqv m input.
Proof.
  intros w md K V Q slot_size item_size usort eqK hK hQ eqv input [W1 W2] US LE LV LH LQ H1 H2 H3.
  assert (HB : 2 ^ (w - 1) <= 2 ^ 63) by (apply N.pow_le_mono_r; lia). change (2 ^ 63) with 9223372036854775808 in HB.
  assert (EU : usize_max = 18446744073709551615) by reflexivity. unfold key_count in *.
  destruct (fz_hash_map_built usort US eqK eqv hK hQ input LE LH LQ) as [m [E B]]; [lia|]. exists m. split.
  - rewrite fz_hash_same; [exact E|exact W1|..]; (rewrite using_hash_survivors; [assumption|exact (lawful_same_key _ LE)|intros x y; apply LH]).
  - apply built_answers; auto.
Qed.
Print Assumptions C92_fz_hash_map.

(** 16 bits: a table of three entries; 4096 codes cannot be collected, and 4095 lead to a table within reach; what the next power
    of two of a large number would be. *)
Example C92_example :
  (exists m, fz_hash_map_with_hasher_on 16 Release 4 12 slot_sort N.eqb (fun k => k * 7) [(1, 10); (2, 20); (300, 30); (2, 21)] = Ok m /\
     mo_get (hash_ops (fun q => Ok (q * 7)) N.eqb) m 2 = Ok (Some 21) /\ mo_get (hash_ops (fun q => Ok (q * 7)) N.eqb) m 3 = Ok None) /\
  (forall md, analyze_hash_codes_on 16 md (repeat 5 4096) = Panic) /\
  (forall md, analyze_hash_codes_on 16 md [3; 7; 11; 64] = Ok (16, 0)) /\
  (forall md, vec_on 16 8 4095 = Ok tt /\ umul_on 16 md 4095 3 = Ok 12285 /\ npt_on 16 md 12285 = Ok 16384) /\
  npt_on 16 Release 40000 = Ok 0 /\ npt_on 16 Debug 40000 = Panic.
Proof.
  split; [eexists; repeat split; vm_compute; reflexivity|]. split; [intros []; vm_compute; reflexivity|]. split; [intros []; vm_compute; reflexivity|].
  split; [intros []; vm_compute; repeat split|]. split; vm_compute; reflexivity.
Qed.
