(** Memory safety without trait laws.

    [assembled ops m]: the map [m] came out of the crate's construction code, given some vector of entries and some
    implementations of the traits of which nothing is assumed except that they are functions (their answer depends
    only on their arguments) and, for scalars, that an index is a [usize]. The entry vector is the one left after
    deduplication; as the deduplication uses those same traits it can be any vector whatever. *)
From Verif Require Import ModelUtils ModelAnalyzers ModelTables ModelMaps Spec.
From Verif Require Import Prelude.

Inductive assembled : forall {M K V Q : Type}, map_ops M K V Q -> M -> Prop :=
| asm_scan K V Q (eqv : Q -> K -> bool) (entries : list (K * V)) :
    assembled (scan_ops eqv) {| sm_entries := entries |}
| asm_ordered K V Q (cmpQ : Q -> K -> comparison) (entries : list (K * V)) m :
    eytzinger_from_sorted entries = Ok m -> assembled (eytzinger_ops cmpQ) m
| asm_dense K V Q md (idx : K -> N) (idxQ : Q -> N) (entries : list (K * V)) m :
    (forall k, idx k <= usize_max) -> dense_new_sorted md idx entries = Ok (ROk m) -> assembled (dense_ops idxQ) m
| asm_sparse K V Q md (idx : K -> N) (idxQ : Q -> N) (entries : list (K * V)) m :
    (forall k, idx k <= usize_max) -> sparse_from_sorted md idx entries = Ok m -> assembled (sparse_ops idxQ) m
| asm_hash K V Q usort cm (hK : K -> res N) (hQ : Q -> N) (eqv : Q -> K -> bool) (entries : list (K * V)) m :
    sorts_by_slot usort -> hash_from_dedupped usort cm hK entries = Ok (ROk m) ->
    assembled (hash_ops (fun q => Ok (hQ q)) eqv) m
| asm_fz_scalar K V Q usort md (idx : K -> N) (idxQ : Q -> N) (eqv : Q -> K -> bool) (entries : list (K * V)) m :
    sorts_by_slot usort -> (forall k, idx k <= usize_max) -> fz_scalar_new_sorted usort md idx entries = Ok m ->
    assembled (fz_scalar_ops idxQ eqv) m
| asm_default_dense K V Q (idxQ : Q -> N) : assembled (dense_ops idxQ) (dense_map_default (K := K) (V := V))
| asm_default_sparse K V Q (idxQ : Q -> N) : assembled (sparse_ops idxQ) (sparse_map_default (K := K) (V := V))
| asm_default_hash K V Q (hQ : Q -> N) (eqv : Q -> K -> bool) :
    assembled (hash_ops (fun q => Ok (hQ q)) eqv) (hash_map_default (K := K) (V := V))
(** after any writes to the values *)
| asm_values M K V Q (ops : map_ops M K V Q) m es :
    assembled ops m -> length es = length (mo_entries ops m) -> assembled ops (mo_with_entries ops m es).

(** Every query returns (it neither panics nor performs an out-of-range unchecked access), and what it returns or
    points to is an element of the entry array. *)
Record answers_safely {M K V Q} (ops : map_ops M K V Q) (m : M) (q : Q) : Prop := {
  as_get : exists o, mo_get ops m q = Ok o /\ forall v, o = Some v -> In v (map snd (mo_entries ops m));
  as_get_mut : exists o, mo_get_mut ops m q = Ok o /\ forall p, o = Some p -> (p < length (mo_entries ops m))%nat;
  as_get_key_value : exists o, mo_get_key_value ops m q = Ok o /\ forall e, o = Some e -> In e (mo_entries ops m);
  as_contains_key : exists b, mo_contains_key ops m q = Ok b }.
