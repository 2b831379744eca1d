(** Construction and queries under trait implementations that keep state, answer as they please and may panic.

    The functions of ModelMaps.v take [Eq], [Ord], [Hash], [Scalar] and their query counterparts as functions. Nothing
    in safe Rust makes them functions: with a [Cell] in the key or a static atomic, each call may answer differently. Here every call
    of a trait method takes the next answer of a stream. As the stream is arbitrary, it stands for every implementation,
    whatever it looks at. *)
From Verif Require Import ModelUtils ModelAnalyzers ModelTables ModelMaps.
From Coq Require Import String.
From Verif Require Import Prelude.

(** One answer: what is used of it depends on the method called. *)
Record answer := { a_panics : bool; a_bool : bool; a_order : comparison; a_number : N }.

(** Code run against a stream of answers: from the number of answers used so far to an outcome and the new number. *)
Definition hostile (A : Type) : Type := (nat -> answer) -> nat -> res (A * nat).

Definition ret {A} (a : A) : hostile A := fun _ n => Ok (a, n).
Definition andthen {A B} (x : hostile A) (k : A -> hostile B) : hostile B :=
  fun adv n => match x adv n with Ok (a, n') => k a adv n' | Panic => Panic | UB => UB end.
Definition lift {A} (r : res A) : hostile A :=
  fun _ n => match r with Ok a => Ok (a, n) | Panic => Panic | UB => UB end.
Notation "x <~ e ;; k" := (andthen e (fun x => k)) (at level 61, e at next level, right associativity).

(** A call that panics unwinds. *)
Definition ask : hostile answer := fun adv n => if a_panics (adv n) then Panic else Ok (adv n, S n).

(** [Eq::eq], [Equivalent::equivalent]. *)
Definition ask_bool : hostile bool := a <~ ask ;; ret (a_bool a).
(** [Ord::cmp], [Comparable::compare]. *)
Definition ask_order : hostile comparison := a <~ ask ;; ret (a_order a).
(** [Scalar::index], [Hasher::hash_one]: a 64-bit number. *)
Definition ask_number : hostile N := a <~ ask ;; ret (a_number a mod two64).

(** * utils/dedup.rs *)

(** dedup.rs L20-26. *)
Fixpoint h_using_eq_inner {T} (rest : list T) : hostile bool :=
  match rest with
  | [] => ret false
  | _ :: r => b <~ ask_bool ;; if (b : bool) then ret true else h_using_eq_inner r
  end.

(** dedup.rs L19-27. *)
Fixpoint h_using_eq_dupes {T} (i : nat) (l : list T) (dupes : list nat) : hostile (list nat) :=
  match l with
  | [] => ret dupes
  | _ :: r => b <~ h_using_eq_inner r ;; h_using_eq_dupes (S i) r (if (b : bool) then i :: dupes else dupes)
  end.

(** dedup.rs L16-40: [DeduppedVec::using_eq]. *)
Definition h_using_eq {T} (entries : list T) : hostile (list T) :=
  if Nat.leb 2 (List.length entries) then
    dupes <~ h_using_eq_dupes 0 entries [] ;;
    ret (if negb (is_nil dupes) then retain_from 0 dupes entries else entries)
  else ret entries.

Definition remove_nth {A} (i : nat) (l : list A) : list A := firstn i l ++ skipn (S i) l.

(** dedup.rs L51-61. hashbrown calls the closures as often as it likes; all that can come of it is that [find_entry]
    yields any of the stored indices or none. One answer decides. *)
Fixpoint h_using_hash_dupes {T} (index : nat) (l : list T) (keep : list nat) (dupes : list nat) : hostile (list nat) :=
  match l with
  | [] => ret dupes
  | _ :: r =>
      _h <~ ask_number ;;
      a <~ ask ;;
      let at_ := N.to_nat (a_number a mod N.of_nat (List.length keep)) in
      match (if a_bool a then nth_error keep at_ else None) with
      | Some old => h_using_hash_dupes (S index) r (index :: remove_nth at_ keep) (old :: dupes)
      | None => h_using_hash_dupes (S index) r (index :: keep) dupes
      end
  end.

(** dedup.rs L47-76: [DeduppedVec::using_hash]. *)
Definition h_using_hash {T} (entries : list T) : hostile (list T) :=
  if Nat.leb 2 (List.length entries) then
    dupes <~ h_using_hash_dupes 0 entries [] [] ;;
    ret (if negb (is_nil dupes) then retain_from 0 dupes entries else entries)
  else ret entries.

(** [slice::sort_by] (dedup.rs L119): given an order that is none, std leaves some permutation or panics. Each answer
    picks the next element out of those left ([todo] of them). *)
Fixpoint h_sort {T} (todo : nat) (l : list T) : hostile (list T) :=
  match todo with
  | O => ret l
  | S todo' =>
      a <~ ask ;;
      let i := N.to_nat (a_number a mod N.of_nat (List.length l)) in
      match nth_error l i with
      | Some x => r <~ h_sort todo' (remove_nth i l) ;; ret (x :: r)
      | None => ret l
      end
  end.

(** dedup.rs L123-128. *)
Fixpoint h_adjacent_dupes {T} (i : nat) (l : list T) (dupes : list nat) : hostile (list nat) :=
  match l with
  | [] => ret dupes
  | _ :: r =>
      match r with
      | [] => ret dupes
      | _ :: _ => c <~ ask_order ;; h_adjacent_dupes (S i) r (match c with Eq => i :: dupes | _ => dupes end)
      end
  end.

(** dedup.rs L118-141: [SortedAndDeduppedVec::new]. *)
Definition h_sorted_and_dedupped {T} (entries : list T) : hostile (list T) :=
  entries <~ h_sort (List.length entries) entries ;;
  if Nat.leb 2 (List.length entries) then
    dupes <~ h_adjacent_dupes 0 entries [] ;;
    ret (if negb (is_nil dupes) then retain_from 0 dupes entries else entries)
  else ret entries.

(** * analyzers/scalar_key_analyzer.rs *)

(** L25-29: [index] is called twice for each key. *)
Fixpoint h_scalar_min_max {T} (keys : list T) (mn mx count : N) : hostile (N * N * N) :=
  match keys with
  | [] => ret (mn, mx, count)
  | _ :: r => i <~ ask_number ;; j <~ ask_number ;; h_scalar_min_max r (N.min mn i) (N.max mx j) (count + 1)
  end.

(** L18-43: [analyze_scalar_keys]. *)
Definition h_analyze_scalar_keys {T} (md : mode) (keys : list T) : hostile scalar_analysis :=
  x <~ h_scalar_min_max keys usize_max 0 0 ;;
  let '(mn, mx, count) := (x : N * N * N) in
  if count =? 0 then ret ScalarGeneral else
  d <~ lift (usub md mx mn) ;;
  needed_count <~ lift (uadd md d 1) ;;
  if needed_count =? count then ret DenseRange
  else if (needed_count <=? 128) || (needed_count <? saturating_mul count 10) then ret SparseRange
  else ret ScalarGeneral.

(** * Constructors *)

(** maps/dense_scalar_lookup_map.rs L66-75: [from_sorted_and_dedupped]. *)
Definition h_dense_from_sorted {K V} (entries : list (K * V)) : hostile (dense_map K V) :=
  _first <~ lift (index entries 0) ;;
  mn <~ ask_number ;;
  _last <~ lift (index entries (List.length entries - 1)) ;;
  mx <~ ask_number ;;
  ret {| dm_min := mn; dm_max := mx; dm_entries := entries |}.

(** maps/dense_scalar_lookup_map.rs L48-58. *)
Definition h_dense_new_sorted {K V} (md : mode) (entries : list (K * V)) : hostile (result (dense_map K V)) :=
  if is_nil entries then ret (ROk dense_map_default) else
  _first <~ lift (index entries 0) ;;
  mn <~ ask_number ;;
  _last <~ lift (index entries (List.length entries - 1)) ;;
  mx <~ ask_number ;;
  d <~ lift (usub md mx mn) ;;
  needed <~ lift (uadd md d 1) ;;
  if N.of_nat (List.length entries) =? needed then m <~ h_dense_from_sorted entries ;; ret (ROk m)
  else ret (RErr "keys must be in a contiguous range <= usize::MAX in size").

(** maps/dense_scalar_lookup_map.rs L42-59: [DenseScalarLookupMap::new]. *)
Definition h_dense_map_new {K V} (md : mode) (entries : list (K * V)) : hostile (result (dense_map K V)) :=
  entries <~ h_sorted_and_dedupped entries ;; h_dense_new_sorted md entries.

(** maps/sparse_scalar_lookup_map.rs L64-68. *)
Fixpoint h_sparse_fill {K V} (md : mode) (mn : N) (i : N) (entries : list (K * V)) (lookup : list N) : hostile (list N) :=
  match entries with
  | [] => ret lookup
  | _ :: r =>
      k <~ ask_number ;;
      index_in_lookup <~ lift (usub md k mn) ;;
      lookup <~ lift (store lookup (N.to_nat index_in_lookup) (i + 1)) ;;
      h_sparse_fill md mn (i + 1) r lookup
  end.

(** maps/sparse_scalar_lookup_map.rs L54-76: [from_sorted_and_dedupped]. As in ModelMaps.v, [vec![0; count]] is assumed
    to succeed; where it does not, the program panics or aborts. *)
Definition h_sparse_from_sorted {K V} (md : mode) (entries : list (K * V)) : hostile (sparse_map K V) :=
  _first <~ lift (index entries 0) ;;
  mn <~ ask_number ;;
  _last <~ lift (index entries (List.length entries - 1)) ;;
  mx <~ ask_number ;;
  d <~ lift (usub md mx mn) ;;
  count <~ lift (uadd md d 1) ;;
  lookup <~ h_sparse_fill md mn 0 entries (repeat 0 (N.to_nat count)) ;;
  ret {| sp_min := mn; sp_max := mx; sp_lookup := lookup; sp_entries := entries |}.

(** maps/sparse_scalar_lookup_map.rs L40-50: [SparseScalarLookupMap::new]. *)
Definition h_sparse_map_new {K V} (md : mode) (entries : list (K * V)) : hostile (sparse_map K V) :=
  entries <~ h_sorted_and_dedupped entries ;;
  if is_nil entries then ret sparse_map_default else h_sparse_from_sorted md entries.

(** hash_table.rs L48: the codes given to the analyzer. *)
Fixpoint h_codes {T} (entries : list T) : hostile (list N) :=
  match entries with
  | [] => ret []
  | _ :: r => h <~ ask_number ;; hs <~ h_codes r ;; ret (h :: hs)
  end.

(** hash_table.rs L50-59: every entry is hashed again. [entries] from the end. *)
Fixpoint h_prep_items {T} (num_hash_slots : N) (entries : list T) : hostile (list (N * T)) :=
  match entries with
  | [] => ret []
  | e :: r =>
      h <~ ask_number ;;
      slot <~ lift (if num_hash_slots =? 0 then Panic else Ok (h mod num_hash_slots)) ;;
      items <~ h_prep_items num_hash_slots r ;;
      ret ((slot, e) :: items)
  end.

(** hash_table.rs L41-101: [HashTable::new]. The sort is by slot numbers, whose order is lawful. *)
Definition h_ht_new {T} (usort : list (N * T) -> list (N * T)) (cm : magnitude) (entries : list T)
    : hostile (result (hash_table T)) :=
  if is_nil entries then ret (ROk ht_default)
  else if max_capacity cm <? N.of_nat (List.length entries) then
    ret (RErr "too many entries for the selected collection magnitude")
  else
    codes <~ h_codes entries ;;
    a <~ lift (analyze_hash_codes codes) ;;
    let num_hash_slots := fst (a : N * N) in
    items <~ h_prep_items num_hash_slots (rev entries) ;;
    let items := usort items in
    r <~ lift (fill_slots cm (S (List.length items)) (rev items) 0 (repeat (0, 0) (N.to_nat num_hash_slots)) []) ;;
    let (slots, final_entries) := (r : list (N * N) * list T) in
    mask <~ lift (sub_no_underflow (N.of_nat (List.length slots)) 1) ;;
    ret (ROk {| ht_slots := slots; ht_entries := final_entries; ht_mask := mask |}).

(** maps/hash_map.rs L62-72: [HashMap::from_dedupped]. *)
Definition h_hash_from_dedupped {K V} (usort : list (N * (K * V)) -> list (N * (K * V))) (cm : magnitude)
    (entries : list (K * V)) : hostile (result (hash_map K V)) :=
  t <~ h_ht_new usort cm entries ;;
  ret (match t with ROk t => ROk {| hm_table := t |} | RErr s => RErr s end).

(** The map types that a constructor can produce. *)
Inductive any_map (K V : Type) :=
| AnyScan (m : scan_map K V)
| AnyOrdered (m : eytzinger_map K V)
| AnyDense (m : dense_map K V)
| AnySparse (m : sparse_map K V)
| AnyHash (m : hash_map K V)
| AnyNoCollisions (m : nc_map K V).
Arguments AnyScan {K V}.
Arguments AnyOrdered {K V}.
Arguments AnyDense {K V}.
Arguments AnySparse {K V}.
Arguments AnyHash {K V}.
Arguments AnyNoCollisions {K V}.

(** The public constructors that take a vector. *)
Inductive maker :=
| MakeScan                     (** maps/scan_map.rs L36-49 *)
| MakeInlineScan (sz : nat)    (** inline_maps/inline_scan_map.rs L45-50 *)
| MakeEytzinger                (** maps/eytzinger_search_map.rs L37-53 *)
| MakeInlineEytzinger (sz : nat) (** inline_maps/inline_eytzinger_search_map.rs L46-57 *)
| MakeSparse                   (** maps/sparse_scalar_lookup_map.rs L40-76 *)
| MakeDense                    (** maps/dense_scalar_lookup_map.rs L42-75 *)
| MakeHash (cm : magnitude)    (** maps/hash_map.rs L47-72 *)
| MakeFzHash                   (** fz_maps/fz_hash_map.rs L66-75 *)
| MakeFzOrdered                (** fz_maps/fz_ordered_map.rs L45-54 *)
| MakeFzScalar                 (** fz_maps/fz_scalar_map.rs L52-65 *)
| MakeFzString.                (** fz_maps/fz_string_map.rs L62-94 *)

(** [unwrap]. *)
Definition h_unwrap {A} (r : result A) : hostile A := lift (unwrap r).

Definition h_make {K V} (usort : list (N * (K * V)) -> list (N * (K * V))) (md : mode) (mk : maker) (entries : list (K * V))
    : hostile (result (any_map K V)) :=
  match mk with
  | MakeScan => es <~ h_using_eq entries ;; ret (ROk (AnyScan {| sm_entries := es |}))
  | MakeInlineScan sz =>
      es <~ h_using_eq entries ;; es <~ lift (into_array sz es) ;; ret (ROk (AnyScan {| sm_entries := es |}))
  | MakeEytzinger | MakeFzOrdered =>
      es <~ h_sorted_and_dedupped entries ;; m <~ lift (eytzinger_from_sorted es) ;; ret (ROk (AnyOrdered m))
  | MakeInlineEytzinger sz =>
      es <~ h_sorted_and_dedupped entries ;; es <~ lift (eytzinger_layout es) ;; es <~ lift (into_array sz es) ;;
      ret (ROk (AnyOrdered {| em_entries := es |}))
  | MakeSparse => m <~ h_sparse_map_new md entries ;; ret (ROk (AnySparse m))
  | MakeDense =>
      r <~ h_dense_map_new md entries ;; ret (match r with ROk m => ROk (AnyDense m) | RErr s => RErr s end)
  | MakeHash cm =>
      es <~ h_using_hash entries ;; r <~ h_hash_from_dedupped usort cm es ;;
      ret (match r with ROk m => ROk (AnyHash m) | RErr s => RErr s end)
  | MakeFzHash =>
      es <~ h_using_hash entries ;; r <~ h_hash_from_dedupped usort Large es ;; m <~ h_unwrap r ;; ret (ROk (AnyHash m))
  | MakeFzScalar =>
      es <~ h_sorted_and_dedupped entries ;;
      a <~ h_analyze_scalar_keys md es ;;
      match a with
      | DenseRange => m <~ h_dense_from_sorted es ;; ret (ROk (AnyDense m))
      | SparseRange => m <~ h_sparse_from_sorted md es ;; ret (ROk (AnySparse m))
      | ScalarGeneral => r <~ h_hash_from_dedupped usort Large es ;; m <~ h_unwrap r ;; ret (ROk (AnyHash m))
      end
  | MakeFzString =>
      (** Only the hash builder is the caller's. The analysis and the range hashers contain no unsafe code and at most
          panic; which hasher was chosen shows in nothing but the codes, and those are arbitrary. The order of [str] is
          lawful; an arbitrary one includes it. *)
      es <~ h_sorted_and_dedupped entries ;; _a <~ ask ;;
      r <~ h_hash_from_dedupped usort Large es ;; m <~ h_unwrap r ;; ret (ROk (AnyHash m))
  end.

(** * Queries *)

(** maps/decl_macros.rs L501-508. *)
Fixpoint h_scan_get {K V} (es : list (K * V)) (result : option V) : hostile (option V) :=
  match es with
  | [] => ret result
  | e :: r => b <~ ask_bool ;; h_scan_get r (if (b : bool) then Some (snd e) else result)
  end.

(** maps/decl_macros.rs L517-524. *)
Fixpoint h_scan_get_mut {K V} (es : list (K * V)) (pos : nat) (result : option nat) : hostile (option nat) :=
  match es with
  | [] => ret result
  | _ :: r => b <~ ask_bool ;; h_scan_get_mut r (S pos) (if (b : bool) then Some pos else result)
  end.

(** maps/decl_macros.rs L533-540. *)
Fixpoint h_scan_get_key_value {K V} (es : list (K * V)) (result : option (K * V)) : hostile (option (K * V)) :=
  match es with
  | [] => ret result
  | e :: r => b <~ ask_bool ;; h_scan_get_key_value r (if (b : bool) then Some (fst e, snd e) else result)
  end.

(** utils/eytzinger.rs L46-64, on fuel (exhaustion = [Panic]). *)
Fixpoint h_search_loop {T} (fuel : nat) (data : list T) (i : nat) : hostile (option nat) :=
  match fuel with
  | O => lift Panic
  | S fuel' =>
      match nth_error data i with
      | Some _ =>
          order <~ ask_order ;;
          match order with
          | Eq => ret (Some i)
          | order =>
              let o := ordering_as_usize order in
              let o := N.land (N.shiftr o 1) 1 in
              h_search_loop fuel' data (2 * i + 1 + N.to_nat o)%nat
          end
      | None => ret None
      end
  end.
Definition h_search {T} (data : list T) : hostile (option nat) := h_search_loop (S (List.length data)) data 0.

(** hash_tables/decl_macros.rs L17-27. *)
Fixpoint h_scan_slot {T} (l : list T) : hostile (option T) :=
  match l with
  | [] => ret None
  | e :: r => b <~ ask_bool ;; if (b : bool) then ret (Some e) else h_scan_slot r
  end.

(** hash_tables/decl_macros.rs L46-56. *)
Fixpoint h_scan_slot_mut {T} (pos : nat) (l : list T) : hostile (option nat) :=
  match l with
  | [] => ret None
  | _ :: r => b <~ ask_bool ;; if (b : bool) then ret (Some pos) else h_scan_slot_mut (S pos) r
  end.

(** hash_tables/decl_macros.rs L4-30. *)
Definition h_ht_find {T} (t : hash_table T) (hash_code : N) : hostile (option T) :=
  slot <~ lift (get_unchecked (ht_slots t) (N.to_nat (N.land hash_code (ht_mask t)))) ;;
  let (mn, mx) := (slot : N * N) in
  entries <~ lift (slice_unchecked (ht_entries t) (N.to_nat mn) (N.to_nat mx)) ;;
  h_scan_slot entries.

(** hash_tables/decl_macros.rs L33-59. *)
Definition h_ht_find_mut {T} (t : hash_table T) (hash_code : N) : hostile (option nat) :=
  slot <~ lift (get_unchecked (ht_slots t) (N.to_nat (N.land hash_code (ht_mask t)))) ;;
  let (mn, mx) := (slot : N * N) in
  entries <~ lift (slice_unchecked (ht_entries t) (N.to_nat mn) (N.to_nat mx)) ;;
  h_scan_slot_mut (N.to_nat mn) entries.

(** inline_hash_table_no_collisions.rs L41-58. *)
Definition h_nc_find {T} (t : nc_table T) (hash_code : N) : hostile (option T) :=
  i <~ lift (get_unchecked (nc_slots t) (N.to_nat (N.land hash_code (nc_mask t)))) ;;
  if 0 <? i then
    e <~ lift (get_unchecked (nc_entries t) (N.to_nat (i - 1))) ;;
    b <~ ask_bool ;;
    ret (if (b : bool) then Some e else None)
  else ret None.

(** inline_hash_table_no_collisions.rs L61-78. *)
Definition h_nc_find_mut {T} (t : nc_table T) (hash_code : N) : hostile (option nat) :=
  i <~ lift (get_unchecked (nc_slots t) (N.to_nat (N.land hash_code (nc_mask t)))) ;;
  if 0 <? i then
    _e <~ lift (get_unchecked (nc_entries t) (N.to_nat (i - 1))) ;;
    b <~ ask_bool ;;
    ret (if (b : bool) then Some (N.to_nat (i - 1)) else None)
  else ret None.

(** [get] (maps/decl_macros.rs L103-113, L161-172, L284-292, L501-508, L591-609). The scalar kinds call [index] once and
    then run as in ModelMaps.v. *)
Definition h_get {K V} (m : any_map K V) : hostile (option V) :=
  match m with
  | AnyScan m => h_scan_get (sm_entries m) None
  | AnyOrdered m =>
      o <~ h_search (em_entries m) ;;
      match o with
      | Some i => e <~ lift (get_unchecked (em_entries m) i) ;; ret (Some (snd e))
      | None => ret None
      end
  | AnyDense m => i <~ ask_number ;; lift (dense_get (fun i : N => i) m i)
  | AnySparse m => i <~ ask_number ;; lift (sparse_get (fun i : N => i) m i)
  | AnyHash m => h <~ ask_number ;; o <~ h_ht_find (hm_table m) h ;; ret (option_map snd o)
  | AnyNoCollisions m => h <~ ask_number ;; o <~ h_nc_find (ncm_table m) h ;; ret (option_map snd o)
  end.

(** [get_mut] (maps/decl_macros.rs L117-127, L176-187, L296-304, L517-524, L613-631): where the borrowed value is. *)
Definition h_get_mut {K V} (m : any_map K V) : hostile (option nat) :=
  match m with
  | AnyScan m => h_scan_get_mut (sm_entries m) 0 None
  | AnyOrdered m =>
      o <~ h_search (em_entries m) ;;
      match o with
      | Some i => _e <~ lift (get_unchecked (em_entries m) i) ;; ret (Some i)
      | None => ret None
      end
  | AnyDense m => i <~ ask_number ;; lift (dense_get_mut (fun i : N => i) m i)
  | AnySparse m => i <~ ask_number ;; lift (sparse_get_mut (fun i : N => i) m i)
  | AnyHash m => h <~ ask_number ;; h_ht_find_mut (hm_table m) h
  | AnyNoCollisions m => h <~ ask_number ;; h_nc_find_mut (ncm_table m) h
  end.

(** [get_key_value] (maps/decl_macros.rs L131-141, L191-202, L308-316, L533-540, L635-653). *)
Definition h_get_key_value {K V} (m : any_map K V) : hostile (option (K * V)) :=
  match m with
  | AnyScan m => h_scan_get_key_value (sm_entries m) None
  | AnyOrdered m =>
      o <~ h_search (em_entries m) ;;
      match o with
      | Some i => e <~ lift (get_unchecked (em_entries m) i) ;; ret (Some (fst e, snd e))
      | None => ret None
      end
  | AnyDense m => i <~ ask_number ;; lift (dense_get_key_value (fun i : N => i) m i)
  | AnySparse m => i <~ ask_number ;; lift (sparse_get_key_value (fun i : N => i) m i)
  | AnyHash m => h <~ ask_number ;; o <~ h_ht_find (hm_table m) h ;; ret (option_map (fun e => (fst e, snd e)) o)
  | AnyNoCollisions m => h <~ ask_number ;; o <~ h_nc_find (ncm_table m) h ;; ret (option_map (fun e => (fst e, snd e)) o)
  end.

(** [contains_key]: [self.get(key).is_some()]. *)
Definition h_contains_key {K V} (m : any_map K V) : hostile bool := o <~ h_get m ;; ret (is_some o).

(** * Sessions *)

(** The entry array, and the map with other values in it. *)
Definition any_entries {K V} (m : any_map K V) : list (K * V) :=
  match m with
  | AnyScan m => sm_entries m
  | AnyOrdered m => em_entries m
  | AnyDense m => dm_entries m
  | AnySparse m => sp_entries m
  | AnyHash m => ht_entries (hm_table m)
  | AnyNoCollisions m => nc_entries (ncm_table m)
  end.

Definition any_with_entries {K V} (m : any_map K V) (es : list (K * V)) : any_map K V :=
  match m with
  | AnyScan _ => AnyScan {| sm_entries := es |}
  | AnyOrdered _ => AnyOrdered {| em_entries := es |}
  | AnyDense m => AnyDense {| dm_min := dm_min m; dm_max := dm_max m; dm_entries := es |}
  | AnySparse m => AnySparse {| sp_min := sp_min m; sp_max := sp_max m; sp_lookup := sp_lookup m; sp_entries := es |}
  | AnyHash m =>
      AnyHash {| hm_table := {| ht_slots := ht_slots (hm_table m); ht_entries := es; ht_mask := ht_mask (hm_table m) |} |}
  | AnyNoCollisions m =>
      AnyNoCollisions
        {| ncm_table := {| nc_entries := es; nc_slots := nc_slots (ncm_table m); nc_mask := nc_mask (ncm_table m) |} |}
  end.

(** What a client asks of a map. Which key it asks about makes no difference here. *)
Inductive request (V : Type) :=
| RqGet
| RqPut (v : V)          (** [if let Some(r) = m.get_mut(k) { *r = v }] *)
| RqGetKeyValue
| RqContains.
Arguments RqGet {V}.
Arguments RqPut {V}.
Arguments RqGetKeyValue {V}.
Arguments RqContains {V}.

Inductive reply (K V : Type) :=
| RpValue (o : option V)
| RpPut (done : bool)
| RpEntry (o : option (K * V))
| RpBool (b : bool).
Arguments RpValue {K V}.
Arguments RpPut {K V}.
Arguments RpEntry {K V}.
Arguments RpBool {K V}.

(** Writing through the reference of [get_mut] is a plain write to the array; outside of it, undefined behaviour. *)
Definition h_request {K V} (rq : request V) (m : any_map K V) : hostile (reply K V * any_map K V) :=
  match rq with
  | RqGet => o <~ h_get m ;; ret (RpValue o, m)
  | RqPut v =>
      o <~ h_get_mut m ;;
      match o with
      | Some p =>
          e <~ lift (get_unchecked (any_entries m) p) ;;
          ret (RpPut true, any_with_entries m (list_set (any_entries m) p (fst e, v)))
      | None => ret (RpPut false, m)
      end
  | RqGetKeyValue => o <~ h_get_key_value m ;; ret (RpEntry o, m)
  | RqContains => b <~ h_contains_key m ;; ret (RpBool b, m)
  end.

(** A request that panics is caught ([catch_unwind]) and the session goes on: nothing has been written by then, and the
    stream carries on from wherever it was, which as the stream is arbitrary may as well be the next answer. *)
Fixpoint h_session {K V} (rqs : list (request V)) (m : any_map K V) : hostile (list (option (reply K V)) * any_map K V) :=
  match rqs with
  | [] => ret ([], m)
  | rq :: r =>
      fun adv n =>
        match h_request rq m adv n with
        | Ok ((rp, m'), n') => (x <~ h_session r m' ;; ret (Some rp :: fst x, snd x)) adv n'
        | Panic => (x <~ h_session r m ;; ret (None :: fst x, snd x)) adv (S n)
        | UB => UB
        end
  end.

(** Make a map and use it. *)
Definition h_program {K V} (usort : list (N * (K * V)) -> list (N * (K * V))) (md : mode) (mk : maker)
    (entries : list (K * V)) (rqs : list (request V)) : hostile (result (list (option (reply K V)) * any_map K V)) :=
  r <~ h_make usort md mk entries ;;
  match r with
  | ROk m => x <~ h_session rqs m ;; ret (ROk x)
  | RErr s => ret (RErr s)
  end.
