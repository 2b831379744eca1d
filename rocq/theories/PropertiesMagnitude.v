(** Hash maps over a user's implementation of [CollectionMagnitude] (C77). *)
From Coq Require Import String.
From Verif Require Import ModelUtils ModelTables ModelMaps ModelMagnitude Spec SpecMade SpecSafe SpecMagnitude ProofsMagnitude Instances.
From Verif Require Import Prelude.

(** ** C77 *)

(** Whatever the traits of the keys do: building ends with a map or the error, and no query of the map leaves the arrays. *)
Theorem C77_in_range : forall cm, mg_max_capacity cm <= usize_max -> keeps_in_range cm ->
  forall K V Q usort (eqK : K -> K -> bool) (hK : K -> N) (hQ : Q -> N) (eqv : Q -> K -> bool) (input : list (K * V)), sorts_by_slot usort ->
  (exists r, ct_with_hasher cm usort eqK hK input = Ok r /\
     forall m, r = ROk m -> forall q, answers_safely (ct_ops cm (fun q => Ok (hQ q)) eqv) m q) /\
  forall q, answers_safely (ct_ops cm (fun q => Ok (hQ q)) eqv) (ct_default cm (T := K * V)) q.
Proof.
  intros cm HC KR K V Q usort eqK hK hQ eqv input HU. split; [exact (cm_safe cm HC KR K V Q usort eqK hK hQ eqv input HU)|].
  intros q. apply cm_default_safe. apply KR.
Qed.
Print Assumptions C77_in_range.

(** Nothing less will do, even for sets of integers with two hash codes. *)
Theorem C77_in_range_only_if : forall cm usort, mg_max_capacity cm <= usize_max -> sorts_by_slot usort ->
  (forall (h : N -> N) (input : list (N * unit)) m q, (forall k, h k < 2) -> ct_with_hasher cm usort N.eqb h input = Ok (ROk m) ->
     mo_get (ct_ops cm (fun q => Ok (h q)) N.eqb) m q <> UB) ->
  keeps_in_range cm.
Proof. intros cm usort HC HU H. exact (cm_safe_only_if cm HC usort HU H). Qed.
Print Assumptions C77_in_range_only_if.

(** With indices kept, and lawful keys, the map answers every query as it should, unless there are more distinct keys than the capacity. *)
Theorem C77_exact : forall cm, mg_max_capacity cm <= usize_max -> keeps_indices cm ->
  forall K V Q usort eqK eqv hK hQ (input : list (K * V)),
  sorts_by_slot usort -> lawful_eq eqK -> lawful_equivalent eqK eqv -> lawful_hash eqK hK -> lawful_query_hash (Q := Q) eqv hQ hK ->
  (N.of_nat (key_count eqK input) <= mg_max_capacity cm ->
     exists m, ct_with_hasher cm usort eqK hK input = Ok (ROk m) /\ answers (ct_ops cm (fun q => Ok (hQ q)) eqv) eqK eqv m input) /\
  (mg_max_capacity cm < N.of_nat (key_count eqK input) ->
     ct_with_hasher cm usort eqK hK input = Ok (RErr "too many entries for the selected collection magnitude")).
Proof.
  intros cm HC KI K V Q usort eqK eqv hK hQ input HU LE LV LH LQ. split.
  - exact (cm_exact cm HC KI K V Q usort eqK eqv hK hQ input HU LE LV LH LQ).
  - exact (cm_too_many cm HC K V usort eqK hK input LE LH).
Qed.
Print Assumptions C77_exact.

Theorem C77_exact_only_if : forall cm usort, mg_max_capacity cm <= usize_max -> sorts_by_slot usort ->
  (forall (h : N -> N) (input : list (N * unit)) m q, (forall k, h k < 2) -> ct_with_hasher cm usort N.eqb h input = Ok (ROk m) ->
     mo_get (ct_ops cm (fun q => Ok (h q)) N.eqb) m q = Ok (spec_get N.eqb input q)) ->
  keeps_indices cm.
Proof. intros cm usort HC HU H. exact (cm_exact_only_if cm HC usort HU H). Qed.
Print Assumptions C77_exact_only_if.

(** [u8], [u16] and [usize] keep indices; over them these are the tables of the other properties. *)
Theorem C77_builtin : forall cm K V Q usort (eqK : K -> K -> bool) hK (hQ : Q -> res N) (eqv : Q -> K -> bool) (input : list (K * V)),
  keeps_indices (builtin cm) /\
  hash_map_with_hasher usort cm eqK hK input =
    fmap (fun r => match r with ROk m => ROk (plain m) | RErr s => RErr s end) (ct_with_hasher (builtin cm) usort eqK hK input) /\
  plain (ct_default (builtin cm)) = hash_map_default (K := K) (V := V) /\
  forall (m : cm_table (builtin cm) (K * V)) q,
    mo_entries (hash_ops hQ eqv) (plain m) = mo_entries (ct_ops (builtin cm) hQ eqv) m /\
    mo_get (hash_ops hQ eqv) (plain m) q = mo_get (ct_ops (builtin cm) hQ eqv) m q /\
    mo_get_mut (hash_ops hQ eqv) (plain m) q = mo_get_mut (ct_ops (builtin cm) hQ eqv) m q /\
    mo_get_key_value (hash_ops hQ eqv) (plain m) q = mo_get_key_value (ct_ops (builtin cm) hQ eqv) m q /\
    mo_contains_key (hash_ops hQ eqv) (plain m) q = mo_contains_key (ct_ops (builtin cm) hQ eqv) m q.
Proof. exact builtin_same. Qed.
Print Assumptions C77_builtin.

(** The trait is safe to implement, but a wrong implementation is not safe to use: with [off_by_one] a lookup reads outside its array. *)
Theorem C77_off_by_one_refuted : forall bits, 0 < bits -> bits < 64 -> forall usort, sorts_by_slot usort ->
  exists (h : N -> N) (input : list (N * unit)) m q,
    ct_with_hasher (off_by_one bits) usort N.eqb h input = Ok (ROk m) /\ N.of_nat (List.length input) = 2 ^ bits /\
    mo_get (ct_ops (off_by_one bits) (fun q => Ok (h q)) N.eqb) m q = UB.
Proof. exact off_by_one_ub. Qed.
Print Assumptions C77_off_by_one_refuted.

(** In range without keeping indices: a magnitude that stores nothing. Its maps are harmless, and find nothing. *)
Definition forgetful : magnitude_impl := {|
  mg_elem := unit; mg_max_capacity := 3; mg_zero := tt; mg_try_from := fun _ => Some tt; mg_into := fun _ => 0 |}.
(** Two indices in one bit pattern: numbers are rounded down to even ones. *)
Definition halves : magnitude_impl := {|
  mg_elem := N; mg_max_capacity := 4; mg_zero := 0; mg_try_from := fun v => Some (v / 2); mg_into := fun v => 2 * v |}.
(** Off by one over two bits. *)
Definition two_bits := off_by_one 2.
Example C77_example :
  (keeps_in_range forgetful /\ keeps_in_range halves /\ keeps_indices (builtin Small) /\ ~ keeps_in_range two_bits) /\
  (exists m, ct_with_hasher forgetful slot_sort N.eqb (fun k => k) [(5, 50); (6, 60); (5, 51)] = Ok (ROk m) /\
     map (mo_get (ct_ops forgetful (fun k => Ok k) N.eqb) m) [5; 6; 7] = [Ok None; Ok None; Ok None]) /\
  (exists m, ct_with_hasher halves slot_sort N.eqb (fun k => 7) [(5, 50); (6, 60); (7, 70)] = Ok (ROk m) /\
     map (mo_get (ct_ops halves (fun k => Ok 7) N.eqb) m) [5; 6; 7] = [Ok (Some 50); Ok (Some 60); Ok None]) /\
  (exists m, ct_with_hasher two_bits slot_sort N.eqb (fun k => k) [(0, 10); (1, 11); (2, 12); (3, 13)] = Ok (ROk m) /\
     map (mo_get (ct_ops two_bits (fun k => Ok k) N.eqb) m) [0; 1; 2; 3] = [UB; Ok (Some 11); Ok (Some 12); Ok (Some 13)]) /\
  ct_with_hasher two_bits slot_sort N.eqb (fun k => k) [(0, 10); (1, 11); (2, 12); (3, 13); (4, 14)] =
    Ok (RErr "too many entries for the selected collection magnitude").
Proof.
  assert (S : forall v, v <= 4 -> v = 0 \/ v = 1 \/ v = 2 \/ v = 3 \/ v = 4) by lia.
  split; [repeat split|].
  - intros v H1 H2. cbn. lia.
  - intros v H1. cbn. lia.
  - intros v H1 H2. destruct (S v H2) as [C|[C|[C|[C|C]]]]; rewrite C; vm_compute; congruence.
  - intros v H1. assert (H2 : v <= 4) by (cbn in H1; lia). destruct (S v H2) as [C|[C|[C|[C|C]]]]; rewrite C; vm_compute; congruence.
  - apply (C77_builtin Small N N N slot_sort N.eqb (fun k => k) (fun k => Ok k) N.eqb []).
  - intros KR. apply (kr_in_order _ KR 3); [vm_compute; congruence|reflexivity].
  - repeat split; try (eexists; (split; [vm_compute; reflexivity|vm_compute; reflexivity])).
Qed.
