(** The constructors that depend on the width of [usize], for any width. The other models take [usize] to be 64 bits wide; the functions here
    are the same ones with [usize::MAX] as the parameter [umax] ([PropertiesWidth.v] proves that [umax = usize_max] gives the 64-bit models).
    Queries do no arithmetic that depends on the width. The limit of [LargeCollection] is [usize::MAX] entries, more than a vector can hold,
    and stays as in [ModelTables.v]. *)
From Coq Require Import String.
From Verif Require Import ModelUtils ModelAnalyzers ModelTables ModelMaps.
From Verif Require Import Prelude.

Section Width.
Variable umax : N.      (* [usize::MAX] *)

(** [+] and [-] on [usize]. *)
Definition uadd_on (m : mode) (a b : N) : res N :=
  if a + b <=? umax then Ok (a + b)
  else match m with Debug => Panic | Release => Ok ((a + b) mod (umax + 1)) end.
Definition usub_on (m : mode) (a b : N) : res N :=
  if b <=? a then Ok (a - b)
  else match m with Debug => Panic | Release => Ok (a + (umax + 1) - b) end.

(** [usize::saturating_mul]. *)
Definition saturating_mul_on (a b : N) : N := N.min (a * b) umax.

(** scalar_key_analyzer.rs L18-43: [analyze_scalar_keys]. *)
Definition analyze_scalar_keys_on (m : mode) (keys : list N) : res scalar_analysis :=
  let '(mn, mx, count) := scalar_min_max keys umax 0 0 in
  if count =? 0 then Ok ScalarGeneral else
  d <- usub_on m mx mn ;;
  needed_count <- uadd_on m d 1 ;;
  if needed_count =? count then Ok DenseRange
  else if (needed_count <=? 128) || (needed_count <? saturating_mul_on count 10) then Ok SparseRange
  else Ok ScalarGeneral.

(** maps/dense_scalar_lookup_map.rs L42-59: [DenseScalarLookupMap::new]. *)
Definition dense_map_new_on {K V} (md : mode) (idx : K -> N) (cmp : K -> K -> comparison) (entries : list (K * V))
    : res (result (dense_map K V)) :=
  let entries := sorted_and_dedupped entries (fun x y => cmp (fst x) (fst y)) in
  if is_nil entries then Ok (ROk dense_map_default) else
  first <- index entries 0 ;;
  last <- index entries (List.length entries - 1) ;;
  d <- usub_on md (idx (fst last)) (idx (fst first)) ;;
  needed <- uadd_on md d 1 ;;
  if N.of_nat (List.length entries) =? needed then fmap ROk (dense_from_sorted idx entries)
  else Ok (RErr "keys must be in a contiguous range <= usize::MAX in size").

(** maps/sparse_scalar_lookup_map.rs L64-68. *)
Fixpoint sparse_fill_on {K V} (md : mode) (idx : K -> N) (mn : N) (i : N) (entries : list (K * V)) (lookup : list N)
    : res (list N) :=
  match entries with
  | [] => Ok lookup
  | e :: r =>
      index_in_lookup <- usub_on md (idx (fst e)) mn ;;
      lookup <- store lookup (N.to_nat index_in_lookup) (i + 1) ;;
      sparse_fill_on md idx mn (i + 1) r lookup
  end.

(** maps/sparse_scalar_lookup_map.rs L54-76: [from_sorted_and_dedupped]. *)
Definition sparse_from_sorted_on {K V} (md : mode) (idx : K -> N) (entries : list (K * V)) : res (sparse_map K V) :=
  first <- index entries 0 ;;
  last <- index entries (List.length entries - 1) ;;
  let mn := idx (fst first) in
  let mx := idx (fst last) in
  d <- usub_on md mx mn ;;
  count <- uadd_on md d 1 ;;
  lookup <- sparse_fill_on md idx mn 0 entries (repeat 0 (N.to_nat count)) ;;
  Ok {| sp_min := mn; sp_max := mx; sp_lookup := lookup; sp_entries := entries |}.

(** maps/sparse_scalar_lookup_map.rs L40-50: [SparseScalarLookupMap::new]. *)
Definition sparse_map_new_on {K V} (md : mode) (idx : K -> N) (cmp : K -> K -> comparison) (entries : list (K * V))
    : res (sparse_map K V) :=
  let entries := sorted_and_dedupped entries (fun x y => cmp (fst x) (fst y)) in
  if is_nil entries then Ok sparse_map_default else sparse_from_sorted_on md idx entries.

(** fz_maps/fz_scalar_map.rs L52-65: [FzScalarMap::new]. *)
Definition fz_scalar_map_new_on {K V} (usort : list (N * (K * V)) -> list (N * (K * V))) (md : mode)
    (idx : K -> N) (cmp : K -> K -> comparison) (entries : list (K * V)) : res (fz_scalar_map K V) :=
  let entries := sorted_and_dedupped entries (fun x y => cmp (fst x) (fst y)) in
  a <- analyze_scalar_keys_on md (map (fun e => idx (fst e)) entries) ;;
  match a with
  | DenseRange => fmap FsDense (dense_from_sorted idx entries)
  | SparseRange => fmap FsSparse (sparse_from_sorted_on md idx entries)
  | ScalarGeneral =>
      r <- hash_from_dedupped usort Large (fun k => scalar_hash_one (idx k)) entries ;;
      fmap FsHash (unwrap r)
  end.

(** slice_key_analyzer.rs L81-172: [analyze_subslices]. *)
Definition analyze_subslices_on {T} (eqT : T -> T -> bool) (hash_one : list T -> N) (keys : list (list T)) : res slice_analysis :=
  let k0 := hd [] keys in
  q <- measure_loop eqT k0 keys umax 0 umax umax ;;
  let '(min_len, max_len, prefix_len, suffix_len) := (q : N * N * N * N) in
  let acceptable_duplicates := Nat.div (List.length keys) 20 in
  let max_subslice_len := N.min min_len 16 in
  length_loop hash_one (N.to_nat max_subslice_len) (S (S (List.length k0))) keys min_len max_len prefix_len suffix_len 1
    acceptable_duplicates.

(** slice_key_analyzer.rs L38-55: [analyze_slice_keys]. *)
Definition analyze_slice_keys_on {T} (eqT : T -> T -> bool) (hash_one : list T -> N) (keys : list (list T)) : res slice_analysis :=
  match analyze_lengths keys with
  | SliceGeneral => analyze_subslices_on eqT hash_one keys
  | r => Ok r
  end.

(** fz_maps/fz_string_map.rs L62-94: [FzStringMap::with_hasher]. *)
Definition fz_string_map_with_hasher_on {V} (usort : list (N * (bytes * V)) -> list (N * (bytes * V)))
    (bh : build_hasher) (entries : list (bytes * V)) : res (fz_string_map V) :=
  let entries := using_cmp entries (fun x y => bytes_cmp (fst x) (fst y)) in
  a <- analyze_slice_keys_on N.eqb (bh_bytes bh) (map fst entries) ;;
  match a with
  | SliceGeneral | SliceLength =>
      r <- hash_from_dedupped usort Large (bridge_hash_one bh) entries ;;
      fmap (SmHash bh) (unwrap r)
  | LeftHandSubslice lo hi =>
      r <- hash_from_dedupped usort Large (left_range_hash_one bh lo hi) entries ;;
      fmap (SmLeft bh lo hi) (unwrap r)
  | RightHandSubslice lo hi =>
      r <- hash_from_dedupped usort Large (right_range_hash_one bh lo hi) entries ;;
      fmap (SmRight bh lo hi) (unwrap r)
  end.
End Width.
