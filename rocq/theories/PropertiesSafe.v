(** Memory safety without trait laws (C51, C52). *)
From Verif Require Import ModelUtils ModelAnalyzers ModelTables ModelMaps Spec SpecSafe ProofsSafe Instances.
From Verif Require Import Prelude.

(** ** C51 *)
Theorem C51_safe_without_laws : forall M K V Q (ops : map_ops M K V Q) m, assembled ops m -> forall q, answers_safely ops m q.
Proof. exact @assembled_safe. Qed.
Print Assumptions C51_safe_without_laws.

(** Every public constructor yields such a map, whatever [Eq], [Ord], [Hash], [Scalar] and [BuildHasher] do.
    (Keys of the string collections are [str], whose traits are lawful: see C25.) *)
Theorem C51_constructors : forall K V Q (eqK : K -> K -> bool) (eqv : Q -> K -> bool) (cmp : K -> K -> comparison)
    (cmpQ : Q -> K -> comparison) (hK : K -> N) (hQ : Q -> N) (idx : K -> N) (idxQ : Q -> N) usort md cm (input : list (K * V)),
  sorts_by_slot usort -> (forall k, idx k <= usize_max) ->
  (forall m, fz_hash_map_with_hasher usort eqK hK input = Ok m -> assembled (hash_ops (fun q => Ok (hQ q)) eqv) m) /\
  (forall m, fz_ordered_map_new cmp input = Ok m -> assembled (eytzinger_ops cmpQ) m) /\
  (forall m, fz_scalar_map_new usort md idx cmp input = Ok m -> assembled (fz_scalar_ops idxQ eqv) m) /\
  assembled (scan_ops eqv) (scan_map_new eqK input) /\
  (forall m, eytzinger_map_new cmp input = Ok m -> assembled (eytzinger_ops cmpQ) m) /\
  (forall m, dense_map_new md idx cmp input = Ok (ROk m) -> assembled (dense_ops idxQ) m) /\
  (forall m, sparse_map_new md idx cmp input = Ok m -> assembled (sparse_ops idxQ) m) /\
  (forall m, hash_map_with_hasher usort cm eqK hK input = Ok (ROk m) -> assembled (hash_ops (fun q => Ok (hQ q)) eqv) m).
Proof. exact @constructors_assembled. Qed.
Print Assumptions C51_constructors.

(** A map over keys whose [Eq] calls nothing equal (so nothing is deduplicated), whose [Hash] is constant and whose
    queries match anything. *)
Example C51_example :
  exists m, fz_hash_map_with_hasher slot_sort (fun _ _ => false) (fun _ => 7) [(1, 10); (1, 11); (2, 12)] = Ok m /\
    assembled (hash_ops (fun q : N => Ok (q * 3)) (fun _ (_ : N) => true)) m /\
    mo_get (hash_ops (fun q : N => Ok (q * 3)) (fun _ (_ : N) => true)) m 5 = Ok (Some 10) /\
    mo_get (hash_ops (fun q : N => Ok (q * 3)) (fun _ (_ : N) => true)) m 0 = Ok None.
Proof.
  eexists. split; [vm_compute; reflexivity|]. split; [|split; vm_compute; reflexivity].
  eapply (proj1 (constructors_assembled N N N (fun _ _ => false) (fun _ _ => true) N.compare N.compare (fun _ => 7) (fun q => q * 3)
    (fun _ => 0) (fun _ => 0) slot_sort Debug Large [(1, 10); (1, 11); (2, 12)] _ _)). vm_compute. reflexivity.
  Unshelve. exact slot_sort_sorts. intros; unfold usize_max; lia.
Qed.

(** ** C52 *)
(** [DenseScalarLookupMap::new] calls [index] twice on the first and last keys (dense_scalar_lookup_map.rs L51-52 and, in
    [from_sorted_and_dedupped], L70-71). [Scalar] is a safe trait and nothing stops [index] from answering differently the
    second time. [idx1]: its first answers, [idx2]: its second answers. *)
Theorem C52_inconsistent_index_refuted :
  exists (idx1 idx2 : N -> N) (entries : list (N * N)) m1 m2 q,
    dense_new_sorted Debug idx1 entries = Ok (ROk m1) /\ dense_from_sorted idx2 entries = Ok m2 /\
    mo_get (dense_ops idx2) m2 q = UB.
Proof.
  exists (fun k => k), (fun k => 10 * k), [(1, 10); (2, 20)]. eexists _, _, 2.
  split; [|split]; vm_compute; reflexivity.
Qed.
Print Assumptions C52_inconsistent_index_refuted.
