(** Model of frozen-collections-core/src/maps and src/fz_maps, src/fz_sets (construction and queries). *)
From Verif Require Import ModelUtils ModelAnalyzers ModelTables.
From Coq Require Import String.
From Verif Require Import Prelude.

(** The observable operations of a map type [M] with keys [K], values [V], queried with [Q].
    [mo_entries] is the entry array that iteration walks. [mo_get_mut] returns the position in that array of the
    value borrowed. [mo_with_entries m es] is [m] after its entry array has been overwritten with [es]; safe code can
    only do this through [&mut V] references, i.e. without changing keys. *)
Record map_ops (M K V Q : Type) := {
  mo_entries : M -> list (K * V);
  mo_with_entries : M -> list (K * V) -> M;
  mo_get : M -> Q -> res (option V);
  mo_get_mut : M -> Q -> res (option nat);
  mo_get_key_value : M -> Q -> res (option (K * V));
  mo_contains_key : M -> Q -> res bool }.
Arguments mo_entries {M K V Q}.
Arguments mo_with_entries {M K V Q}.
Arguments mo_get {M K V Q}.
Arguments mo_get_mut {M K V Q}.
Arguments mo_get_key_value {M K V Q}.
Arguments mo_contains_key {M K V Q}.

Definition is_some {A} (o : option A) : bool := match o with Some _ => true | None => false end.

(** * Scan maps: maps/decl_macros.rs L493-569 *)

(** maps/scan_map.rs L29-31; inline_maps/inline_scan_map.rs uses the same macros on an array. *)
Record scan_map (K V : Type) := { sm_entries : list (K * V) }.
Arguments sm_entries {K V}.

Section Scan.
Context {K V Q : Type}.
Variable eqv : Q -> K -> bool.  (* [Equivalent<K> for Q] *)

(** decl_macros.rs L501-508: [get]; every match overwrites [result]. *)
Fixpoint scan_get_loop (es : list (K * V)) (key : Q) (result : option V) : option V :=
  match es with
  | [] => result
  | e :: r => scan_get_loop r key (if eqv key (fst e) then Some (snd e) else result)
  end.
Definition scan_get (m : scan_map K V) (key : Q) : res (option V) := Ok (scan_get_loop (sm_entries m) key None).

(** decl_macros.rs L517-524: [get_mut]. *)
Fixpoint scan_get_mut_loop (es : list (K * V)) (pos : nat) (key : Q) (result : option nat) : option nat :=
  match es with
  | [] => result
  | e :: r => scan_get_mut_loop r (S pos) key (if eqv key (fst e) then Some pos else result)
  end.
Definition scan_get_mut (m : scan_map K V) (key : Q) : res (option nat) :=
  Ok (scan_get_mut_loop (sm_entries m) 0 key None).

(** decl_macros.rs L533-540: [get_key_value]. *)
Fixpoint scan_get_key_value_loop (es : list (K * V)) (key : Q) (result : option (K * V)) : option (K * V) :=
  match es with
  | [] => result
  | e :: r => scan_get_key_value_loop r key (if eqv key (fst e) then Some (fst e, snd e) else result)
  end.
Definition scan_get_key_value (m : scan_map K V) (key : Q) : res (option (K * V)) :=
  Ok (scan_get_key_value_loop (sm_entries m) key None).

(** decl_macros.rs L546-551: [contains_key]. *)
Definition scan_contains_key (m : scan_map K V) (key : Q) : res bool := fmap is_some (scan_get m key).

Definition scan_ops : map_ops (scan_map K V) K V Q := {|
  mo_entries := sm_entries;
  mo_with_entries := fun _ es => {| sm_entries := es |};
  mo_get := scan_get;
  mo_get_mut := scan_get_mut;
  mo_get_key_value := scan_get_key_value;
  mo_contains_key := scan_contains_key |}.
End Scan.

(** maps/scan_map.rs L36-49: [ScanMap::new]. *)
Definition scan_map_new {K V} (eqK : K -> K -> bool) (entries : list (K * V)) : scan_map K V :=
  {| sm_entries := using_eq entries (fun x y => eqK (fst x) (fst y)) |}.

(** maps/scan_map.rs L55-59: [Default]. *)
Definition scan_map_default {K V} : scan_map K V := {| sm_entries := [] |}.

(** inline_maps/inline_scan_map.rs L45-50: [InlineScanMap::<_, _, SZ>::new]. *)
Definition inline_scan_map_new {K V} (eqK : K -> K -> bool) (sz : nat) (entries : list (K * V)) : res (scan_map K V) :=
  es <- into_array sz (using_eq entries (fun x y => eqK (fst x) (fst y))) ;;
  Ok {| sm_entries := es |}.

(** inline_maps/inline_scan_map.rs L54-56: [new_raw]. *)
Definition inline_scan_map_new_raw {K V} (entries : list (K * V)) : scan_map K V := {| sm_entries := entries |}.

(** * Eytzinger maps: maps/decl_macros.rs L157-216 *)

(** maps/eytzinger_search_map.rs L30-32. *)
Record eytzinger_map (K V : Type) := { em_entries : list (K * V) }.
Arguments em_entries {K V}.

Section Eytzinger.
Context {K V Q : Type}.
Variable cmpQ : Q -> K -> comparison.  (* [Comparable<K> for Q] *)

(** decl_macros.rs L161-172: [get]. *)
Definition eytzinger_get (m : eytzinger_map K V) (key : Q) : res (option V) :=
  o <- eytzinger_search_by (em_entries m) (fun entry => CompOpp (cmpQ key (fst entry))) ;;
  match o with
  | Some i => e <- get_unchecked (em_entries m) i ;; Ok (Some (snd e))
  | None => Ok None
  end.

(** decl_macros.rs L176-187: [get_mut]. *)
Definition eytzinger_get_mut (m : eytzinger_map K V) (key : Q) : res (option nat) :=
  o <- eytzinger_search_by (em_entries m) (fun entry => CompOpp (cmpQ key (fst entry))) ;;
  match o with
  | Some i => _e <- get_unchecked (em_entries m) i ;; Ok (Some i)
  | None => Ok None
  end.

(** decl_macros.rs L191-202: [get_key_value]. *)
Definition eytzinger_get_key_value (m : eytzinger_map K V) (key : Q) : res (option (K * V)) :=
  o <- eytzinger_search_by (em_entries m) (fun entry => CompOpp (cmpQ key (fst entry))) ;;
  match o with
  | Some i => e <- get_unchecked (em_entries m) i ;; Ok (Some (fst e, snd e))
  | None => Ok None
  end.

(** decl_macros.rs L207-212: [contains_key]. *)
Definition eytzinger_contains_key (m : eytzinger_map K V) (key : Q) : res bool := fmap is_some (eytzinger_get m key).

Definition eytzinger_ops : map_ops (eytzinger_map K V) K V Q := {|
  mo_entries := em_entries;
  mo_with_entries := fun _ es => {| em_entries := es |};
  mo_get := eytzinger_get;
  mo_get_mut := eytzinger_get_mut;
  mo_get_key_value := eytzinger_get_key_value;
  mo_contains_key := eytzinger_contains_key |}.
End Eytzinger.

(** maps/eytzinger_search_map.rs L47-53: [from_sorted_and_dedupped]. *)
Definition eytzinger_from_sorted {K V} (entries : list (K * V)) : res (eytzinger_map K V) :=
  es <- eytzinger_layout entries ;; Ok {| em_entries := es |}.

(** maps/eytzinger_search_map.rs L37-43: [EytzingerSearchMap::new]. *)
Definition eytzinger_map_new {K V} (cmp : K -> K -> comparison) (entries : list (K * V)) : res (eytzinger_map K V) :=
  eytzinger_from_sorted (sorted_and_dedupped entries (fun x y => cmp (fst x) (fst y))).

(** maps/eytzinger_search_map.rs L59-63: [Default]. *)
Definition eytzinger_map_default {K V} : eytzinger_map K V := {| em_entries := [] |}.

(** inline_maps/inline_eytzinger_search_map.rs L46-57: [InlineEytzingerSearchMap::<_, _, SZ>::new]. *)
Definition inline_eytzinger_map_new {K V} (cmp : K -> K -> comparison) (sz : nat) (entries : list (K * V))
    : res (eytzinger_map K V) :=
  es <- eytzinger_layout (sorted_and_dedupped entries (fun x y => cmp (fst x) (fst y))) ;;
  es <- into_array sz es ;;
  Ok {| em_entries := es |}.

(** inline_eytzinger_search_map.rs L63-65: [new_raw]. *)
Definition inline_eytzinger_map_new_raw {K V} (entries : list (K * V)) : eytzinger_map K V := {| em_entries := entries |}.

(** * Dense scalar maps: maps/decl_macros.rs L99-155 *)

(** maps/dense_scalar_lookup_map.rs L29-33. *)
Record dense_map (K V : Type) := { dm_min : N; dm_max : N; dm_entries : list (K * V) }.
Arguments dm_min {K V}.
Arguments dm_max {K V}.
Arguments dm_entries {K V}.

Section Dense.
Context {K V Q : Type}.
Variable idxQ : Q -> N.  (* [Scalar::index for Q] *)

(** decl_macros.rs L103-113: [get]. *)
Definition dense_get (m : dense_map K V) (key : Q) : res (option V) :=
  let index := idxQ key in
  if (dm_min m <=? index) && (index <=? dm_max m) then
    e <- get_unchecked (dm_entries m) (N.to_nat (index - dm_min m)) ;; Ok (Some (snd e))
  else Ok None.

(** decl_macros.rs L117-127: [get_mut]. *)
Definition dense_get_mut (m : dense_map K V) (key : Q) : res (option nat) :=
  let index := idxQ key in
  if (dm_min m <=? index) && (index <=? dm_max m) then
    _e <- get_unchecked (dm_entries m) (N.to_nat (index - dm_min m)) ;; Ok (Some (N.to_nat (index - dm_min m)))
  else Ok None.

(** decl_macros.rs L131-141: [get_key_value]. *)
Definition dense_get_key_value (m : dense_map K V) (key : Q) : res (option (K * V)) :=
  let index := idxQ key in
  if (dm_min m <=? index) && (index <=? dm_max m) then
    e <- get_unchecked (dm_entries m) (N.to_nat (index - dm_min m)) ;; Ok (Some (fst e, snd e))
  else Ok None.

(** decl_macros.rs L146-151: [contains_key]. *)
Definition dense_contains_key (m : dense_map K V) (key : Q) : res bool := fmap is_some (dense_get m key).

Definition dense_ops : map_ops (dense_map K V) K V Q := {|
  mo_entries := dm_entries;
  mo_with_entries := fun m es => {| dm_min := dm_min m; dm_max := dm_max m; dm_entries := es |};
  mo_get := dense_get;
  mo_get_mut := dense_get_mut;
  mo_get_key_value := dense_get_key_value;
  mo_contains_key := dense_contains_key |}.
End Dense.

(** maps/dense_scalar_lookup_map.rs L81-89: [Default]. *)
Definition dense_map_default {K V} : dense_map K V := {| dm_min := 1; dm_max := 0; dm_entries := [] |}.

(** maps/dense_scalar_lookup_map.rs L66-75: [from_sorted_and_dedupped]. *)
Definition dense_from_sorted {K V} (idx : K -> N) (entries : list (K * V)) : res (dense_map K V) :=
  first <- index entries 0 ;;
  last <- index entries (List.length entries - 1) ;;
  Ok {| dm_min := idx (fst first); dm_max := idx (fst last); dm_entries := entries |}.

(** maps/dense_scalar_lookup_map.rs L48-58: the part of [DenseScalarLookupMap::new] after sorting. *)
Definition dense_new_sorted {K V} (md : mode) (idx : K -> N) (entries : list (K * V)) : res (result (dense_map K V)) :=
  if is_nil entries then Ok (ROk dense_map_default) else
  first <- index entries 0 ;;
  last <- index entries (List.length entries - 1) ;;
  d <- usub md (idx (fst last)) (idx (fst first)) ;;
  needed <- uadd md d 1 ;;
  if N.of_nat (List.length entries) =? needed then fmap ROk (dense_from_sorted idx entries)
  else Ok (RErr "keys must be in a contiguous range <= usize::MAX in size").

(** maps/dense_scalar_lookup_map.rs L42-59: [DenseScalarLookupMap::new]. *)
Definition dense_map_new {K V} (md : mode) (idx : K -> N) (cmp : K -> K -> comparison) (entries : list (K * V))
    : res (result (dense_map K V)) :=
  dense_new_sorted md idx (sorted_and_dedupped entries (fun x y => cmp (fst x) (fst y))).

(** * Sparse scalar maps: maps/decl_macros.rs L587-667 *)

(** maps/sparse_scalar_lookup_map.rs L30-35. *)
Record sparse_map (K V : Type) := { sp_min : N; sp_max : N; sp_lookup : list N; sp_entries : list (K * V) }.
Arguments sp_min {K V}.
Arguments sp_max {K V}.
Arguments sp_lookup {K V}.
Arguments sp_entries {K V}.

Section Sparse.
Context {K V Q : Type}.
Variable idxQ : Q -> N.

(** decl_macros.rs L591-609: [get]. *)
Definition sparse_get (m : sparse_map K V) (key : Q) : res (option V) :=
  let index := idxQ key in
  if (sp_min m <=? index) && (index <=? sp_max m) then
    i <- get_unchecked (sp_lookup m) (N.to_nat (index - sp_min m)) ;;
    if 0 <? i then e <- get_unchecked (sp_entries m) (N.to_nat (i - 1)) ;; Ok (Some (snd e)) else Ok None
  else Ok None.

(** decl_macros.rs L613-631: [get_mut]. *)
Definition sparse_get_mut (m : sparse_map K V) (key : Q) : res (option nat) :=
  let index := idxQ key in
  if (sp_min m <=? index) && (index <=? sp_max m) then
    i <- get_unchecked (sp_lookup m) (N.to_nat (index - sp_min m)) ;;
    if 0 <? i then _e <- get_unchecked (sp_entries m) (N.to_nat (i - 1)) ;; Ok (Some (N.to_nat (i - 1))) else Ok None
  else Ok None.

(** decl_macros.rs L635-653: [get_key_value]. *)
Definition sparse_get_key_value (m : sparse_map K V) (key : Q) : res (option (K * V)) :=
  let index := idxQ key in
  if (sp_min m <=? index) && (index <=? sp_max m) then
    i <- get_unchecked (sp_lookup m) (N.to_nat (index - sp_min m)) ;;
    if 0 <? i then e <- get_unchecked (sp_entries m) (N.to_nat (i - 1)) ;; Ok (Some (fst e, snd e)) else Ok None
  else Ok None.

(** decl_macros.rs L658-663: [contains_key]. *)
Definition sparse_contains_key (m : sparse_map K V) (key : Q) : res bool := fmap is_some (sparse_get m key).

Definition sparse_ops : map_ops (sparse_map K V) K V Q := {|
  mo_entries := sp_entries;
  mo_with_entries := fun m es =>
    {| sp_min := sp_min m; sp_max := sp_max m; sp_lookup := sp_lookup m; sp_entries := es |};
  mo_get := sparse_get;
  mo_get_mut := sparse_get_mut;
  mo_get_key_value := sparse_get_key_value;
  mo_contains_key := sparse_contains_key |}.
End Sparse.

(** maps/sparse_scalar_lookup_map.rs L82-91: [Default]. *)
Definition sparse_map_default {K V} : sparse_map K V :=
  {| sp_min := 1; sp_max := 0; sp_lookup := []; sp_entries := [] |}.

(** maps/sparse_scalar_lookup_map.rs L64-68: fill the lookup table. *)
Fixpoint sparse_fill {K V} (md : mode) (idx : K -> N) (mn : N) (i : N) (entries : list (K * V)) (lookup : list N)
    : res (list N) :=
  match entries with
  | [] => Ok lookup
  | e :: r =>
      index_in_lookup <- usub md (idx (fst e)) mn ;;
      lookup <- store lookup (N.to_nat index_in_lookup) (i + 1) ;;
      sparse_fill md idx mn (i + 1) r lookup
  end.

(** maps/sparse_scalar_lookup_map.rs L54-76: [from_sorted_and_dedupped]. Allocation of [vec![0; count]] is assumed to
    succeed. *)
Definition sparse_from_sorted {K V} (md : mode) (idx : K -> N) (entries : list (K * V)) : res (sparse_map K V) :=
  first <- index entries 0 ;;
  last <- index entries (List.length entries - 1) ;;
  let mn := idx (fst first) in
  let mx := idx (fst last) in
  d <- usub md mx mn ;;
  count <- uadd md d 1 ;;
  lookup <- sparse_fill md idx mn 0 entries (repeat 0 (N.to_nat count)) ;;
  Ok {| sp_min := mn; sp_max := mx; sp_lookup := lookup; sp_entries := entries |}.

(** maps/sparse_scalar_lookup_map.rs L40-50: [SparseScalarLookupMap::new]. *)
Definition sparse_map_new {K V} (md : mode) (idx : K -> N) (cmp : K -> K -> comparison) (entries : list (K * V))
    : res (sparse_map K V) :=
  let entries := sorted_and_dedupped entries (fun x y => cmp (fst x) (fst y)) in
  if is_nil entries then Ok sparse_map_default else sparse_from_sorted md idx entries.

(** * Hash maps: maps/decl_macros.rs L280-347 *)

(** maps/hash_map.rs L32-35. The hasher is passed to the operations. *)
Record hash_map (K V : Type) := { hm_table : hash_table (K * V) }.
Arguments hm_table {K V}.

Section Hash.
Context {K V Q : Type}.
Variable hQ : Q -> res N.        (* [self.hasher.hash_one] at the query type *)
Variable eqv : Q -> K -> bool.   (* [Equivalent<K> for Q] *)

(** decl_macros.rs L284-292: [get]. *)
Definition hash_get (m : hash_map K V) (key : Q) : res (option V) :=
  h <- hQ key ;;
  fmap (option_map snd) (ht_find (hm_table m) h (fun entry => eqv key (fst entry))).

(** decl_macros.rs L296-304: [get_mut]. *)
Definition hash_get_mut (m : hash_map K V) (key : Q) : res (option nat) :=
  h <- hQ key ;;
  ht_find_mut (hm_table m) h (fun entry => eqv key (fst entry)).

(** decl_macros.rs L308-316: [get_key_value]. *)
Definition hash_get_key_value (m : hash_map K V) (key : Q) : res (option (K * V)) :=
  h <- hQ key ;;
  fmap (option_map (fun e => (fst e, snd e))) (ht_find (hm_table m) h (fun entry => eqv key (fst entry))).

(** decl_macros.rs L321-327: [contains_key]. *)
Definition hash_contains_key (m : hash_map K V) (key : Q) : res bool := fmap is_some (hash_get m key).

Definition hash_ops : map_ops (hash_map K V) K V Q := {|
  mo_entries := fun m => ht_entries (hm_table m);
  mo_with_entries := fun m es =>
    {| hm_table := {| ht_slots := ht_slots (hm_table m); ht_entries := es; ht_mask := ht_mask (hm_table m) |} |};
  mo_get := hash_get;
  mo_get_mut := hash_get_mut;
  mo_get_key_value := hash_get_key_value;
  mo_contains_key := hash_contains_key |}.
End Hash.

(** maps/hash_map.rs L62-72: [HashMap::from_dedupped]. *)
Definition hash_from_dedupped {K V} (usort : list (N * (K * V)) -> list (N * (K * V))) (cm : magnitude)
    (hK : K -> res N) (entries : list (K * V)) : res (result (hash_map K V)) :=
  t <- ht_new usort cm entries (fun e => hK (fst e)) ;;
  Ok (match t with ROk t => ROk {| hm_table := t |} | RErr s => RErr s end).

(** maps/hash_map.rs L47-54: [HashMap::with_hasher]. *)
Definition hash_map_with_hasher {K V} (usort : list (N * (K * V)) -> list (N * (K * V))) (cm : magnitude)
    (eqK : K -> K -> bool) (hK : K -> N) (entries : list (K * V)) : res (result (hash_map K V)) :=
  let entries := using_hash entries (fun x => hK (fst x)) (fun x y => eqK (fst x) (fst y)) in
  hash_from_dedupped usort cm (fun k => Ok (hK k)) entries.

(** maps/hash_map.rs L78-89: [Default]. *)
Definition hash_map_default {K V} : hash_map K V := {| hm_table := ht_default |}.

(** * Inline hash map without collisions: inline_maps/inline_hash_map_no_collisions.rs (same macros, other table) *)

Record nc_map (K V : Type) := { ncm_table : nc_table (K * V) }.
Arguments ncm_table {K V}.

Section NoCollisions.
Context {K V Q : Type}.
Variable hQ : Q -> res N.
Variable eqv : Q -> K -> bool.

(** decl_macros.rs L284-292 over inline_hash_table_no_collisions.rs L41-58. *)
Definition nc_get (m : nc_map K V) (key : Q) : res (option V) :=
  h <- hQ key ;;
  fmap (option_map snd) (nc_find (ncm_table m) h (fun entry => eqv key (fst entry))).

(** decl_macros.rs L296-304 over inline_hash_table_no_collisions.rs L61-78. *)
Definition nc_get_mut (m : nc_map K V) (key : Q) : res (option nat) :=
  h <- hQ key ;;
  nc_find_mut (ncm_table m) h (fun entry => eqv key (fst entry)).

(** decl_macros.rs L308-316. *)
Definition nc_get_key_value (m : nc_map K V) (key : Q) : res (option (K * V)) :=
  h <- hQ key ;;
  fmap (option_map (fun e => (fst e, snd e))) (nc_find (ncm_table m) h (fun entry => eqv key (fst entry))).

(** decl_macros.rs L321-327. *)
Definition nc_contains_key (m : nc_map K V) (key : Q) : res bool := fmap is_some (nc_get m key).

Definition nc_ops : map_ops (nc_map K V) K V Q := {|
  mo_entries := fun m => nc_entries (ncm_table m);
  mo_with_entries := fun m es =>
    {| ncm_table := {| nc_entries := es; nc_slots := nc_slots (ncm_table m); nc_mask := nc_mask (ncm_table m) |} |};
  mo_get := nc_get;
  mo_get_mut := nc_get_mut;
  mo_get_key_value := nc_get_key_value;
  mo_contains_key := nc_contains_key |}.
End NoCollisions.

(** * Trait functions common to all maps *)

Section Common.
Context {M K V Q : Type}.
Variable ops : map_ops M K V Q.

(** maps/decl_macros.rs L61-63, L77-79: [len]; hash_table.rs L106-108. *)
Definition map_len (m : M) : nat := List.length (mo_entries ops m).

(** maps/decl_macros.rs L68-70, L84-86: [is_empty]. *)
Definition map_is_empty (m : M) : bool := Nat.eqb (map_len m) 0.

(** maps/decl_macros.rs L354-356: [Index::index]; [expect] panics on [None]. *)
Definition map_index (m : M) (q : Q) : res V :=
  o <- mo_get ops m q ;; match o with Some v => Ok v | None => Panic end.

(** maps/decl_macros.rs L265-277: [get_disjoint_unchecked_mut]; the pointers are positions. *)
Definition get_disjoint_unchecked_mut (m : M) (keys : list Q) : res (list (option nat)) :=
  mapM (mo_get_mut ops m) keys.

(** maps/decl_macros.rs L255-263: [get_disjoint_mut]. *)
Definition get_disjoint_mut (eqQ : Q -> Q -> bool) (m : M) (keys : list Q) : res (list (option nat)) :=
  if has_duplicates eqQ keys then Panic else get_disjoint_unchecked_mut m keys.

(** Writing [v] through a mutable reference to the value at position [p] of the entry array. *)
Definition write_value (es : list (K * V)) (p : nat) (v : V) : list (K * V) :=
  match nth_error es p with Some e => list_set es p (fst e, v) | None => es end.

(** [if let Some(r) = m.get_mut(q) { *r = v }]. *)
Definition map_put (m : M) (q : Q) (v : V) : res M :=
  o <- mo_get_mut ops m q ;;
  match o with
  | Some p => Ok (mo_with_entries ops m (write_value (mo_entries ops m) p v))
  | None => Ok m
  end.

(** A history of such writes. *)
Fixpoint map_puts (m : M) (ws : list (Q * V)) : res M :=
  match ws with
  | [] => Ok m
  | (q, v) :: r => m <- map_put m q v ;; map_puts m r
  end.
End Common.

(** The part of [MapQuery<K, V>] + [Len] that map equality uses from the other map. *)
Record map_query (K V : Type) := { mq_len : nat; mq_get : K -> res (option V) }.
Arguments mq_len {K V}.
Arguments mq_get {K V}.

(** maps/decl_macros.rs L488: [iter().all(..)], short-circuiting. *)
Fixpoint eq_all {K V} (eqV : V -> V -> bool) (es : list (K * V)) (other : map_query K V) : res bool :=
  match es with
  | [] => Ok true
  | (k, v) :: r =>
      o <- mq_get other k ;;
      if (match o with Some v' => eqV v v' | None => false end) then eq_all eqV r other else Ok false
  end.

(** maps/decl_macros.rs L483-489: [PartialEq::eq]. *)
Definition map_eq {M K V} (ops : map_ops M K V K) (eqV : V -> V -> bool) (m : M) (other : map_query K V) : res bool :=
  if negb (Nat.eqb (map_len ops m) (mq_len other)) then Ok false
  else eq_all eqV (mo_entries ops m) other.

(** A frozen map seen as the right-hand side of an equality. *)
Definition as_query {M K V} (ops : map_ops M K V K) (m : M) : map_query K V :=
  {| mq_len := map_len ops m; mq_get := mo_get ops m |}.

(** * fz_maps *)

(** fz_maps/fz_hash_map.rs L66-75: [FzHashMap::with_hasher]; [hK] is [bh.hash_one] at the key type. Queries are those
    of [HashMap] (L80-115). *)
Definition fz_hash_map_with_hasher {K V} (usort : list (N * (K * V)) -> list (N * (K * V)))
    (eqK : K -> K -> bool) (hK : K -> N) (entries : list (K * V)) : res (hash_map K V) :=
  let entries := using_hash entries (fun x => hK (fst x)) (fun x y => eqK (fst x) (fst y)) in
  r <- hash_from_dedupped usort Large (fun k => Ok (hK k)) entries ;;
  unwrap r.

(** fz_maps/fz_ordered_map.rs L45-54: [FzOrderedMap::new]. Queries are those of [EytzingerSearchMap]. *)
Definition fz_ordered_map_new {K V} (cmp : K -> K -> comparison) (entries : list (K * V)) : res (eytzinger_map K V) :=
  eytzinger_from_sorted (sorted_and_dedupped entries (fun x y => cmp (fst x) (fst y))).

(** fz_maps/fz_scalar_map.rs L29-33. *)
Inductive fz_scalar_map (K V : Type) :=
| FsHash (m : hash_map K V)
| FsDense (m : dense_map K V)
| FsSparse (m : sparse_map K V).
Arguments FsHash {K V}.
Arguments FsDense {K V}.
Arguments FsSparse {K V}.

(** fz_maps/fz_scalar_map.rs L55-64: the part of [FzScalarMap::new] after sorting. *)
Definition fz_scalar_new_sorted {K V} (usort : list (N * (K * V)) -> list (N * (K * V))) (md : mode)
    (idx : K -> N) (entries : list (K * V)) : res (fz_scalar_map K V) :=
  a <- analyze_scalar_keys md (map (fun e => idx (fst e)) entries) ;;
  match a with
  | DenseRange => fmap FsDense (dense_from_sorted idx entries)
  | SparseRange => fmap FsSparse (sparse_from_sorted md idx entries)
  | ScalarGeneral =>
      r <- hash_from_dedupped usort Large (fun k => scalar_hash_one (idx k)) entries ;;
      fmap FsHash (unwrap r)
  end.

(** fz_maps/fz_scalar_map.rs L52-65: [FzScalarMap::new]. *)
Definition fz_scalar_map_new {K V} (usort : list (N * (K * V)) -> list (N * (K * V))) (md : mode)
    (idx : K -> N) (cmp : K -> K -> comparison) (entries : list (K * V)) : res (fz_scalar_map K V) :=
  fz_scalar_new_sorted usort md idx (sorted_and_dedupped entries (fun x y => cmp (fst x) (fst y))).

(** fz_maps/fz_scalar_map.rs L259-265: [Default]. *)
Definition fz_scalar_map_default {K V} : fz_scalar_map K V := FsDense dense_map_default.

(** fz_maps/fz_scalar_map.rs L69-118 and the iteration functions (L160-256): dispatch on the variant. *)
Definition fz_scalar_ops {K V Q} (idxQ : Q -> N) (eqv : Q -> K -> bool) : map_ops (fz_scalar_map K V) K V Q :=
  let hops := hash_ops (fun q => scalar_hash_one (idxQ q)) eqv in
  let dops := dense_ops idxQ in
  let sops := sparse_ops idxQ in
  {| mo_entries := fun m => match m with
       | FsHash m => mo_entries hops m | FsDense m => mo_entries dops m | FsSparse m => mo_entries sops m end;
     mo_with_entries := fun m es => match m with
       | FsHash m => FsHash (mo_with_entries hops m es)
       | FsDense m => FsDense (mo_with_entries dops m es)
       | FsSparse m => FsSparse (mo_with_entries sops m es) end;
     mo_get := fun m q => match m with
       | FsHash m => mo_get hops m q | FsDense m => mo_get dops m q | FsSparse m => mo_get sops m q end;
     mo_get_mut := fun m q => match m with
       | FsHash m => mo_get_mut hops m q | FsDense m => mo_get_mut dops m q | FsSparse m => mo_get_mut sops m q end;
     mo_get_key_value := fun m q => match m with
       | FsHash m => mo_get_key_value hops m q
       | FsDense m => mo_get_key_value dops m q
       | FsSparse m => mo_get_key_value sops m q end;
     mo_contains_key := fun m q => match m with
       | FsHash m => mo_contains_key hops m q
       | FsDense m => mo_contains_key dops m q
       | FsSparse m => mo_contains_key sops m q end |}.

(** fz_maps/fz_string_map.rs L26-30; the hasher (with its range) is part of the map. *)
Inductive fz_string_map (V : Type) :=
| SmLeft (bh : build_hasher) (lo hi : N) (m : hash_map bytes V)
| SmRight (bh : build_hasher) (lo hi : N) (m : hash_map bytes V)
| SmHash (bh : build_hasher) (m : hash_map bytes V).
Arguments SmLeft {V}.
Arguments SmRight {V}.
Arguments SmHash {V}.

(** [str::cmp]: lexicographic on bytes. *)
Fixpoint bytes_cmp (a b : bytes) : comparison :=
  match a, b with
  | [], [] => Eq
  | [], _ :: _ => Lt
  | _ :: _, [] => Gt
  | x :: a', y :: b' => match N.compare x y with Eq => bytes_cmp a' b' | c => c end
  end.

(** [str ==]. *)
Fixpoint bytes_eqb (a b : bytes) : bool :=
  match a, b with
  | [], [] => true
  | x :: a', y :: b' => (x =? y) && bytes_eqb a' b'
  | _, _ => false
  end.

(** fz_maps/fz_string_map.rs L62-94: [FzStringMap::with_hasher]. *)
Definition fz_string_map_with_hasher {V} (usort : list (N * (bytes * V)) -> list (N * (bytes * V)))
    (bh : build_hasher) (entries : list (bytes * V)) : res (fz_string_map V) :=
  let entries := using_cmp entries (fun x y => bytes_cmp (fst x) (fst y)) in
  a <- analyze_slice_keys N.eqb (bh_bytes bh) (map fst entries) ;;
  match a with
  | SliceGeneral | SliceLength =>
      r <- hash_from_dedupped usort Large (bridge_hash_one bh) entries ;;
      fmap (SmHash bh) (unwrap r)
  | LeftHandSubslice lo hi =>
      r <- hash_from_dedupped usort Large (left_range_hash_one bh lo hi) entries ;;
      fmap (SmLeft bh lo hi) (unwrap r)
  | RightHandSubslice lo hi =>
      r <- hash_from_dedupped usort Large (right_range_hash_one bh lo hi) entries ;;
      fmap (SmRight bh lo hi) (unwrap r)
  end.

(** fz_maps/fz_string_map.rs L289-299: [Default]. *)
Definition fz_string_map_default {V} (bh : build_hasher) : fz_string_map V := SmHash bh hash_map_default.

(** fz_maps/fz_string_map.rs L98-152 and iteration functions: dispatch on the variant. The query is the [&str]
    obtained from the argument by [as_ref]. *)
Definition sm_inner {V} (m : fz_string_map V) : hash_map bytes V :=
  match m with SmLeft _ _ _ h => h | SmRight _ _ _ h => h | SmHash _ h => h end.
Definition sm_with_inner {V} (m : fz_string_map V) (h : hash_map bytes V) : fz_string_map V :=
  match m with SmLeft bh lo hi _ => SmLeft bh lo hi h | SmRight bh lo hi _ => SmRight bh lo hi h | SmHash bh _ => SmHash bh h end.
Definition sm_ops {V} (m : fz_string_map V) : map_ops (hash_map bytes V) bytes V bytes :=
  match m with
  | SmLeft bh lo hi _ => hash_ops (left_range_hash_one bh lo hi) bytes_eqb
  | SmRight bh lo hi _ => hash_ops (right_range_hash_one bh lo hi) bytes_eqb
  | SmHash bh _ => hash_ops (bridge_hash_one bh) bytes_eqb
  end.
Definition fz_string_ops {V} : map_ops (fz_string_map V) bytes V bytes :=
  {| mo_entries := fun m => mo_entries (sm_ops m) (sm_inner m);
     mo_with_entries := fun m es => sm_with_inner m (mo_with_entries (sm_ops m) (sm_inner m) es);
     mo_get := fun m q => mo_get (sm_ops m) (sm_inner m) q;
     mo_get_mut := fun m q => mo_get_mut (sm_ops m) (sm_inner m) q;
     mo_get_key_value := fun m q => mo_get_key_value (sm_ops m) (sm_inner m) q;
     mo_contains_key := fun m q => mo_contains_key (sm_ops m) (sm_inner m) q |}.

(** * fz_sets: a set is a map with unit values *)

(** fz_sets/fz_hash_set.rs L69, fz_ordered_set.rs L53, fz_scalar_set.rs L48, fz_string_set.rs L54: [map(|x| (x, ()))]. *)
Definition unit_entries {T} (values : list T) : list (T * unit) := map (fun x => (x, tt)) values.

Section Sets.
Context {M T Q : Type}.
Variable ops : map_ops M T unit Q.

(** [get]: [Some(self.map.get_key_value(value)?.0)] (fz_hash_set.rs L79, fz_ordered_set.rs L63, fz_scalar_set.rs L58,
    fz_string_set.rs L65, sets/decl_macros.rs L82). *)
Definition set_get (m : M) (q : Q) : res (option T) := fmap (option_map fst) (mo_get_key_value ops m q).

(** [contains]: [self.map.contains_key(value)] (fz_hash_set.rs L89, fz_ordered_set.rs L73, fz_scalar_set.rs L68,
    fz_string_set.rs L75). *)
Definition set_contains (m : M) (q : Q) : res bool := mo_contains_key ops m q.

(** sets/decl_macros.rs L88-94: [contains] of the inner set types. *)
Definition set_contains_via_get (m : M) (q : Q) : res bool := fmap is_some (set_get m q).

(** [len] and the values visited by [iter] (sets/iterators.rs L20-22). *)
Definition set_len (m : M) : nat := map_len ops m.
Definition set_values (m : M) : list T := map fst (mo_entries ops m).
End Sets.
