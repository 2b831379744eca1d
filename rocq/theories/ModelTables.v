(** Model of frozen-collections-core/src/hashers and src/hash_tables. *)
From Verif Require Import Prelude ModelUtils ModelAnalyzers.
From Coq Require Import String.

(** [core::result::Result<A, String>]. *)
Inductive result (A : Type) : Type :=
| ROk (a : A)
| RErr (msg : string).
Arguments ROk {A} a.
Arguments RErr {A} msg.

(** [Result::unwrap]. *)
Definition unwrap {A} (r : result A) : res A := match r with ROk a => Ok a | RErr _ => Panic end.

(** * hashers *)

(** A string or byte slice is its list of bytes. *)
Definition bytes := list N.

(** A [BuildHasher], as far as strings are concerned: [hash_one::<str>] and [hash_one::<[u8]>] are two unrelated
    functions. *)
Record build_hasher := { bh_str : bytes -> N; bh_bytes : bytes -> N }.

(** hashers/bridge_hasher.rs L27-29, at type [str]/[Box<str>]. *)
Definition bridge_hash_one (bh : build_hasher) (value : bytes) : res N := Ok (bh_str bh value).

(** hashers/left_range_hasher.rs L30-36, L44-52, L61-69 (three copies of the same body). *)
Definition left_range_hash_one (bh : build_hasher) (lo hi : N) (value : bytes) : res N :=
  if N.of_nat (List.length value) <? hi then Ok 0
  else b <- slice value (N.to_nat lo) (N.to_nat hi) ;; Ok (bh_bytes bh b).

(** hashers/right_range_hasher.rs L30-38, L46-55, L64-74. *)
Definition right_range_hash_one (bh : build_hasher) (lo hi : N) (value : bytes) : res N :=
  if N.of_nat (List.length value) <? hi then Ok 0
  else
    a <- sub_no_underflow (N.of_nat (List.length value)) hi ;;
    z <- sub_no_underflow (N.of_nat (List.length value)) lo ;;
    b <- slice value (N.to_nat a) (N.to_nat z) ;; Ok (bh_bytes bh b).

(** hashers/inline_left_range_hasher.rs L28-35, L43-51, L60-68; the range is a pair of const generics. *)
Definition inline_left_range_hash_one (range_start range_end : N) (bh : build_hasher) (value : bytes) : res N :=
  if N.of_nat (List.length value) <? range_end then Ok 0
  else b <- slice value (N.to_nat range_start) (N.to_nat range_end) ;; Ok (bh_bytes bh b).

(** hashers/inline_right_range_hasher.rs L28-36, L44-53, L62-71. *)
Definition inline_right_range_hash_one (range_start range_end : N) (bh : build_hasher) (value : bytes) : res N :=
  if N.of_nat (List.length value) <? range_end then Ok 0
  else
    a <- sub_no_underflow (N.of_nat (List.length value)) range_end ;;
    z <- sub_no_underflow (N.of_nat (List.length value)) range_start ;;
    b <- slice value (N.to_nat a) (N.to_nat z) ;; Ok (bh_bytes bh b).

(** hashers/length_hasher.rs L14-16. *)
Definition length_hash_one (value : bytes) : res N := Ok (N.of_nat (List.length value)).

(** hashers/scalar_hasher.rs L14-16, on the index of the scalar. *)
Definition scalar_hash_one (index : N) : res N := Ok index.

(** * traits/collection_magnitude.rs *)

Inductive magnitude := Small | Medium | Large.

(** collection_magnitude.rs L14, L22, L30: the integer types [u8], [u16] and [usize]; their [MAX]. *)
Definition index_max (cm : magnitude) : N :=
  match cm with Small => 255 | Medium => 65535 | Large => usize_max end.

(** collection_magnitude.rs L17, L25, L33: [MAX_CAPACITY]. *)
Definition max_capacity (cm : magnitude) : N :=
  match cm with Small => index_max Small | Medium => index_max Medium | Large => index_max Large end.

(** [CM::try_from(v).unwrap_or(CM::ZERO)] (hash_table.rs L89-90). *)
Definition try_from_or_zero (cm : magnitude) (v : N) : N := if v <=? index_max cm then v else 0.

(** * hash_tables *)

(** hash_tables/hash_table.rs L22-26; a slot is (min_index, max_index) (hash_table_slot.rs L10-13). *)
Record hash_table (T : Type) := {
  ht_slots : list (N * N);
  ht_entries : list T;
  ht_mask : N }.
Arguments ht_slots {T}.
Arguments ht_entries {T}.
Arguments ht_mask {T}.

(** hash_table.rs L120-131: [Default]. *)
Definition ht_default {T} : hash_table T := {| ht_slots := [(0, 0)]; ht_entries := []; ht_mask := 0 |}.

(** hash_table.rs L50-59: pop entries from the end, tagging each with its slot. [hash % 0] panics. *)
Definition prep_items {T} (hash : T -> res N) (num_hash_slots : N) (entries : list T) : res (list (N * T)) :=
  mapM (fun e => h <- hash e ;; if num_hash_slots =? 0 then Panic else Ok (h mod num_hash_slots, e)) (rev entries).

(** hash_table.rs L74-86: pop the items that share the slot of the item popped before; returns their entries and
    the items left. [items] is [prep_items] with its end first. *)
Fixpoint pop_run {T} (slot : N) (items : list (N * T)) : list T * list (N * T) :=
  match items with
  | (s, e) :: r => if s =? slot then let (run, rest) := pop_run slot r in (e :: run, rest) else ([], items)
  | [] => ([], [])
  end.

(** hash_table.rs L70-94: the outer loop, on fuel (exhaustion = [Panic]). *)
Fixpoint fill_slots {T} (cm : magnitude) (fuel : nat) (items : list (N * T)) (entry_index : N)
    (slots : list (N * N)) (final_entries : list T) : res (list (N * N) * list T) :=
  match fuel with
  | O => Panic
  | S fuel' =>
      match items with
      | [] => Ok (slots, final_entries)
      | (slot, e) :: r =>
          let (run, rest) := pop_run slot r in
          let num_entries := N.of_nat (S (List.length run)) in
          slots <- store slots (N.to_nat slot)
                     (try_from_or_zero cm entry_index, try_from_or_zero cm (entry_index + num_entries)) ;;
          fill_slots cm fuel' rest (entry_index + num_entries) slots (final_entries ++ e :: run)
      end
  end.

(** hash_table.rs L41-101: [HashTable::new]. [usort] is [sort_unstable_by] on the slot: any function returning a
    sorted permutation. *)
Definition ht_new {T} (usort : list (N * T) -> list (N * T)) (cm : magnitude) (entries : list T)
    (hash : T -> res N) : res (result (hash_table T)) :=
  if is_nil entries then Ok (ROk ht_default)
  else if max_capacity cm <? N.of_nat (List.length entries) then
    Ok (RErr "too many entries for the selected collection magnitude")
  else
    codes <- mapM hash entries ;;
    a <- analyze_hash_codes codes ;;
    let num_hash_slots := fst a in
    items <- prep_items hash num_hash_slots entries ;;
    let items := usort items in
    r <- fill_slots cm (S (List.length items)) (rev items) 0 (repeat (0, 0) (N.to_nat num_hash_slots)) [] ;;
    let (slots, final_entries) := (r : list (N * N) * list T) in
    mask <- sub_no_underflow (N.of_nat (List.length slots)) 1 ;;
    Ok (ROk {| ht_slots := slots; ht_entries := final_entries; ht_mask := mask |}).

(** hash_tables/decl_macros.rs L17-27: walk the slot's entries. *)
Fixpoint scan_slot {T} (eq : T -> bool) (l : list T) : option T :=
  match l with
  | [] => None
  | e :: r => if eq e then Some e else scan_slot eq r
  end.

(** hash_tables/decl_macros.rs L46-56: the same, returning where the entry is. *)
Fixpoint scan_slot_mut {T} (eq : T -> bool) (pos : nat) (l : list T) : option nat :=
  match l with
  | [] => None
  | e :: r => if eq e then Some pos else scan_slot_mut eq (S pos) r
  end.

(** hash_tables/decl_macros.rs L4-30: [find]. *)
Definition ht_find {T} (t : hash_table T) (hash_code : N) (eq : T -> bool) : res (option T) :=
  slot <- get_unchecked (ht_slots t) (N.to_nat (N.land hash_code (ht_mask t))) ;;
  let (mn, mx) := (slot : N * N) in
  entries <- slice_unchecked (ht_entries t) (N.to_nat mn) (N.to_nat mx) ;;
  Ok (scan_slot eq entries).

(** hash_tables/decl_macros.rs L33-59: [find_mut]. *)
Definition ht_find_mut {T} (t : hash_table T) (hash_code : N) (eq : T -> bool) : res (option nat) :=
  slot <- get_unchecked (ht_slots t) (N.to_nat (N.land hash_code (ht_mask t))) ;;
  let (mn, mx) := (slot : N * N) in
  entries <- slice_unchecked (ht_entries t) (N.to_nat mn) (N.to_nat mx) ;;
  Ok (scan_slot_mut eq (N.to_nat mn) entries).

(** hash_table.rs L111-117: [has_collisions]. *)
Definition ht_has_collisions {T} (t : hash_table T) : bool :=
  existsb (fun slot => 1 <? snd slot - fst slot) (ht_slots t).

(** hash_tables/inline_hash_table_no_collisions.rs L17-21. *)
Record nc_table (T : Type) := {
  nc_entries : list T;
  nc_slots : list N;
  nc_mask : N }.
Arguments nc_entries {T}.
Arguments nc_slots {T}.
Arguments nc_mask {T}.

(** inline_hash_table_no_collisions.rs L27-33: [new_raw]; [NHS - 1] is a compile-time subtraction. *)
Definition nc_new_raw {T} (slots : list N) (entries : list T) : nc_table T :=
  {| nc_entries := entries; nc_slots := slots; nc_mask := N.of_nat (List.length slots) - 1 |}.

(** inline_hash_table.rs L29-35: [InlineHashTable::new_raw]; its [find]/[find_mut] are the same macro as
    [HashTable], so the same record is used. *)
Definition iht_new_raw {T} (slots : list (N * N)) (entries : list T) : hash_table T :=
  {| ht_slots := slots; ht_entries := entries; ht_mask := N.of_nat (List.length slots) - 1 |}.

(** inline_hash_table_no_collisions.rs L41-58: [find]. *)
Definition nc_find {T} (t : nc_table T) (hash_code : N) (eq : T -> bool) : res (option T) :=
  i <- get_unchecked (nc_slots t) (N.to_nat (N.land hash_code (nc_mask t))) ;;
  if 0 <? i then
    e <- get_unchecked (nc_entries t) (N.to_nat (i - 1)) ;;
    Ok (if eq e then Some e else None)
  else Ok None.

(** inline_hash_table_no_collisions.rs L61-78: [find_mut]. *)
Definition nc_find_mut {T} (t : nc_table T) (hash_code : N) (eq : T -> bool) : res (option nat) :=
  i <- get_unchecked (nc_slots t) (N.to_nat (N.land hash_code (nc_mask t))) ;;
  if 0 <? i then
    e <- get_unchecked (nc_entries t) (N.to_nat (i - 1)) ;;
    Ok (if eq e then Some (N.to_nat (i - 1)) else None)
  else Ok None.
