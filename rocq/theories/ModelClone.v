(** [Clone] of the collections (all derived) and of the set iterators (written out in sets/iterators.rs). *)
From Verif Require Import ModelUtils ModelAnalyzers ModelTables ModelMaps ModelIter ModelHostile SpecMagnitude ModelMagnitude.
From Verif Require Import Prelude.

Section Clone.
Context {K V : Type}.
(** The user's [Clone for K] and [Clone for V]. Every entry is cloned exactly once, so letting the result depend on where the entry is covers
    implementations with state. *)
Variable cK : nat -> K -> res K.
Variable cV : nat -> V -> res V.

(** [Clone] of a [Box<[(K, V)]>] or [[(K, V); SZ]] (standard library): entry by entry from the front, each tuple from the left. Dropping the
    entries cloned so far when a later one panics is not modelled. *)
Fixpoint clone_entries (pos : nat) (es : list (K * V)) : res (list (K * V)) :=
  match es with
  | [] => Ok []
  | e :: r => k <- cK pos (fst e) ;; v <- cV pos (snd e) ;; es' <- clone_entries (S pos) r ;; Ok ((k, v) :: es')
  end.

(** Derived: field by field. The numbers in the fields (bounds, lookup tables and slots over [u8], [u16] or [usize], masks) are copied. *)

(** maps/scan_map.rs L28, inline_maps/inline_scan_map.rs L33. *)
Definition scan_clone (m : scan_map K V) : res (scan_map K V) :=
  es <- clone_entries 0 (sm_entries m) ;; Ok {| sm_entries := es |}.

(** maps/eytzinger_search_map.rs L29, inline_maps/inline_eytzinger_search_map.rs L34; fz_maps/fz_ordered_map.rs L37 is a wrapper. *)
Definition eytzinger_clone (m : eytzinger_map K V) : res (eytzinger_map K V) :=
  es <- clone_entries 0 (em_entries m) ;; Ok {| em_entries := es |}.

(** maps/dense_scalar_lookup_map.rs L28, inline_maps/inline_dense_scalar_lookup_map.rs L29. *)
Definition dense_clone (m : dense_map K V) : res (dense_map K V) :=
  es <- clone_entries 0 (dm_entries m) ;; Ok {| dm_min := dm_min m; dm_max := dm_max m; dm_entries := es |}.

(** maps/sparse_scalar_lookup_map.rs L29, inline_maps/inline_sparse_scalar_lookup_map.rs L31. *)
Definition sparse_clone (m : sparse_map K V) : res (sparse_map K V) :=
  es <- clone_entries 0 (sp_entries m) ;;
  Ok {| sp_min := sp_min m; sp_max := sp_max m; sp_lookup := sp_lookup m; sp_entries := es |}.

(** hash_tables/hash_table.rs L21, hash_table_slot.rs L9, inline_hash_table.rs L18. *)
Definition ht_clone (t : hash_table (K * V)) : res (hash_table (K * V)) :=
  es <- clone_entries 0 (ht_entries t) ;; Ok {| ht_slots := ht_slots t; ht_entries := es; ht_mask := ht_mask t |}.

(** maps/hash_map.rs L31, inline_maps/inline_hash_map.rs L35 (fz_maps/fz_hash_map.rs L40 is a wrapper). The record of [ModelMaps.v] leaves out
    the hasher; its clone is the hash function that the clone is queried with. *)
Definition hash_clone (m : hash_map K V) : res (hash_map K V) :=
  t <- ht_clone (hm_table m) ;; Ok {| hm_table := t |}.

(** inline_maps/inline_hash_map_no_collisions.rs L35 over hash_tables/inline_hash_table_no_collisions.rs L16. *)
Definition nc_clone (m : nc_map K V) : res (nc_map K V) :=
  es <- clone_entries 0 (nc_entries (ncm_table m)) ;;
  Ok {| ncm_table := {| nc_entries := es; nc_slots := nc_slots (ncm_table m); nc_mask := nc_mask (ncm_table m) |} |}.

(** fz_maps/fz_scalar_map.rs L28, L43. *)
Definition fz_scalar_clone (m : fz_scalar_map K V) : res (fz_scalar_map K V) :=
  match m with
  | FsHash m => fmap FsHash (hash_clone m)
  | FsDense m => fmap FsDense (dense_clone m)
  | FsSparse m => fmap FsSparse (sparse_clone m)
  end.

(** Any of them. *)
Definition any_clone (m : any_map K V) : res (any_map K V) :=
  match m with
  | AnyScan m => fmap AnyScan (scan_clone m)
  | AnyOrdered m => fmap AnyOrdered (eytzinger_clone m)
  | AnyDense m => fmap AnyDense (dense_clone m)
  | AnySparse m => fmap AnySparse (sparse_clone m)
  | AnyHash m => fmap AnyHash (hash_clone m)
  | AnyNoCollisions m => fmap AnyNoCollisions (nc_clone m)
  end.

(** hash_tables/hash_table.rs L21 with hash_table_slot.rs L9 over any [CollectionMagnitude]: cloning a slot clones both its numbers.
    Simplification: cloning a number is a function of it. *)
Definition ct_clone {cm} (ce : mg_elem cm -> mg_elem cm) (t : cm_table cm (K * V)) : res (cm_table cm (K * V)) :=
  let slots := map (fun slot => (ce (fst slot), ce (snd slot))) (ct_slots t) in
  es <- clone_entries 0 (ct_entries t) ;;
  Ok {| ct_slots := slots; ct_entries := es; ct_mask := ct_mask t |}.
End Clone.

(** fz_maps/fz_string_map.rs L25, L41: the keys are [Box<str>], whose clone is equal; each hasher holds the range and a clone of the
    [BuildHasher] (hashers/left_range_hasher.rs L10, right_range_hasher.rs L10, bridge_hasher.rs L8). *)
Definition string_clone {V} (cB : build_hasher -> build_hasher) (cV : nat -> V -> res V) (m : fz_string_map V) : res (fz_string_map V) :=
  let clone := hash_clone (fun _ k => Ok k) cV in
  match m with
  | SmLeft bh lo hi h => h <- clone h ;; Ok (SmLeft (cB bh) lo hi h)
  | SmRight bh lo hi h => h <- clone h ;; Ok (SmRight (cB bh) lo hi h)
  | SmHash bh h => h <- clone h ;; Ok (SmHash (cB bh) h)
  end.

(** The iterators of set operations: references to the sets are copied, slice iterators cloned. *)
Section Iterators.
Context {T : Type}.
(** sets/iterators.rs L185-200. *)
Definition union_clone (u : union_st T) : union_st T :=
  {| un_s1 := un_s1 u; un_rest1 := un_rest1 u; un_s2 := un_s2 u; un_rest2 := un_rest2 u |}.
(** sets/iterators.rs L344-358. *)
Definition difference_clone (d : difference_st T) : difference_st T :=
  {| df_rest1 := df_rest1 d; df_s2 := df_s2 d |}.
(** sets/iterators.rs L439-454. *)
Definition intersection_clone (i : intersection_st T) : intersection_st T :=
  {| in_s1 := in_s1 i; in_rest1 := in_rest1 i; in_s2 := in_s2 i; in_rest2 := in_rest2 i |}.
(** sets/iterators.rs L264-274, over [core::iter::Chain]. *)
Definition symmetric_difference_clone (c : symmetric_difference_st T) : symmetric_difference_st T :=
  {| sd_a := option_map difference_clone (sd_a c); sd_b := difference_clone (sd_b c) |}.
End Iterators.
