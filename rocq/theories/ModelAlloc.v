(** Construction of scalar maps with std's limit on the size of a vector. [ModelMaps.v] assumes that the lookup table of a
    [SparseScalarLookupMap] can be allocated; here it is requested first. *)
From Verif Require Import Prelude ModelUtils ModelAnalyzers ModelTables ModelMaps ModelSerde.

(** maps/sparse_scalar_lookup_map.rs L58-62: the number of slots and their allocation, [vec![0; count]]. The slots are [usize], 8 bytes on
    a 64-bit target. Running out of memory is not modelled. *)
Definition sparse_alloc {K V} (md : mode) (idx : K -> N) (entries : list (K * V)) : res unit :=
  first <- index entries 0 ;;
  last <- index entries (List.length entries - 1) ;;
  d <- usub md (idx (fst last)) (idx (fst first)) ;;
  count <- uadd md d 1 ;;
  with_capacity 8 count.

(** maps/sparse_scalar_lookup_map.rs L54-76: [from_sorted_and_dedupped]. The lines up to the allocation have no effect but a panic, so they
    can be run once more by [sparse_from_sorted]. *)
Definition sparse_from_sorted_alloc {K V} (md : mode) (idx : K -> N) (entries : list (K * V)) : res (sparse_map K V) :=
  _ <- sparse_alloc md idx entries ;; sparse_from_sorted md idx entries.

(** maps/sparse_scalar_lookup_map.rs L40-50: [SparseScalarLookupMap::new]. *)
Definition sparse_map_new_alloc {K V} (md : mode) (idx : K -> N) (cmp : K -> K -> comparison) (entries : list (K * V))
    : res (sparse_map K V) :=
  let entries := sorted_and_dedupped entries (fun x y => cmp (fst x) (fst y)) in
  if is_nil entries then Ok sparse_map_default else sparse_from_sorted_alloc md idx entries.

(** fz_maps/fz_scalar_map.rs L52-65: [FzScalarMap::new]. *)
Definition fz_scalar_map_new_alloc {K V} (usort : list (N * (K * V)) -> list (N * (K * V))) (md : mode)
    (idx : K -> N) (cmp : K -> K -> comparison) (entries : list (K * V)) : res (fz_scalar_map K V) :=
  let entries := sorted_and_dedupped entries (fun x y => cmp (fst x) (fst y)) in
  a <- analyze_scalar_keys md (map (fun e => idx (fst e)) entries) ;;
  match a with
  | SparseRange => fmap FsSparse (sparse_from_sorted_alloc md idx entries)
  | DenseRange | ScalarGeneral => fz_scalar_new_sorted usort md idx entries
  end.
