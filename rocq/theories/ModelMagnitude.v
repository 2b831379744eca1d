(** [HashTable] and [HashMap] (hash_tables/hash_table.rs, maps/hash_map.rs) over any implementation of [CollectionMagnitude]. [ModelTables.v] and
    [ModelMaps.v] have them over the three implementations of the crate ([C77_builtin] proves that those are instances of the functions here). *)
From Coq Require Import String.
From Verif Require Import ModelUtils ModelAnalyzers ModelTables ModelMaps SpecMagnitude.
From Verif Require Import Prelude.

Section Table.
Variable cm : magnitude_impl.

(** hash_tables/hash_table.rs L22-26 with hash_table_slot.rs L10-13. *)
Record cm_table (T : Type) := {
  ct_slots : list (mg_elem cm * mg_elem cm);
  ct_entries : list T;
  ct_mask : N }.
Arguments ct_slots {T}.
Arguments ct_entries {T}.
Arguments ct_mask {T}.

(** hash_table.rs L120-131: [Default]. *)
Definition ct_default {T} : cm_table T := {| ct_slots := [(mg_zero cm, mg_zero cm)]; ct_entries := []; ct_mask := 0 |}.

(** [CM::try_from(v).unwrap_or(CM::ZERO)] (hash_table.rs L89-90). *)
Definition try_from_or (v : N) : mg_elem cm := match mg_try_from cm v with Some e => e | None => mg_zero cm end.

(** hash_table.rs L70-94, on fuel (exhaustion = [Panic]). *)
Fixpoint ct_fill_slots {T} (fuel : nat) (items : list (N * T)) (entry_index : N) (slots : list (mg_elem cm * mg_elem cm))
    (final_entries : list T) : res (list (mg_elem cm * mg_elem cm) * list T) :=
  match fuel with
  | O => Panic
  | S fuel' =>
      match items with
      | [] => Ok (slots, final_entries)
      | (slot, e) :: r =>
          let (run, rest) := pop_run slot r in
          let num_entries := N.of_nat (S (List.length run)) in
          slots <- store slots (N.to_nat slot) (try_from_or entry_index, try_from_or (entry_index + num_entries)) ;;
          ct_fill_slots fuel' rest (entry_index + num_entries) slots (final_entries ++ e :: run)
      end
  end.

(** hash_table.rs L41-101: [HashTable::new]. *)
Definition ct_new {T} (usort : list (N * T) -> list (N * T)) (entries : list T) (hash : T -> res N) : res (result (cm_table T)) :=
  if is_nil entries then Ok (ROk ct_default)
  else if mg_max_capacity cm <? N.of_nat (List.length entries) then
    Ok (RErr "too many entries for the selected collection magnitude")
  else
    codes <- mapM hash entries ;;
    a <- analyze_hash_codes codes ;;
    let num_hash_slots := fst a in
    items <- prep_items hash num_hash_slots entries ;;
    let items := usort items in
    r <- ct_fill_slots (S (List.length items)) (rev items) 0 (repeat (mg_zero cm, mg_zero cm) (N.to_nat num_hash_slots)) [] ;;
    let (slots, final_entries) := (r : list (mg_elem cm * mg_elem cm) * list T) in
    mask <- sub_no_underflow (N.of_nat (List.length slots)) 1 ;;
    Ok (ROk {| ct_slots := slots; ct_entries := final_entries; ct_mask := mask |}).

(** hash_tables/decl_macros.rs L4-30: [find]. *)
Definition ct_find {T} (t : cm_table T) (hash_code : N) (eq : T -> bool) : res (option T) :=
  slot <- get_unchecked (ct_slots t) (N.to_nat (N.land hash_code (ct_mask t))) ;;
  let mn := mg_into cm (fst slot) in
  let mx := mg_into cm (snd slot) in
  entries <- slice_unchecked (ct_entries t) (N.to_nat mn) (N.to_nat mx) ;;
  Ok (scan_slot eq entries).

(** hash_tables/decl_macros.rs L33-59: [find_mut]. *)
Definition ct_find_mut {T} (t : cm_table T) (hash_code : N) (eq : T -> bool) : res (option nat) :=
  slot <- get_unchecked (ct_slots t) (N.to_nat (N.land hash_code (ct_mask t))) ;;
  let mn := mg_into cm (fst slot) in
  let mx := mg_into cm (snd slot) in
  entries <- slice_unchecked (ct_entries t) (N.to_nat mn) (N.to_nat mx) ;;
  Ok (scan_slot_mut eq (N.to_nat mn) entries).

(** maps/decl_macros.rs L285-327: the queries, as in [ModelMaps.v]. *)
Section Queries.
Context {K V Q : Type}.
Variable hQ : Q -> res N.
Variable eqv : Q -> K -> bool.
Definition ct_get (m : cm_table (K * V)) (key : Q) : res (option V) :=
  h <- hQ key ;; fmap (option_map snd) (ct_find m h (fun entry => eqv key (fst entry))).
Definition ct_get_mut (m : cm_table (K * V)) (key : Q) : res (option nat) :=
  h <- hQ key ;; ct_find_mut m h (fun entry => eqv key (fst entry)).
Definition ct_get_key_value (m : cm_table (K * V)) (key : Q) : res (option (K * V)) :=
  h <- hQ key ;; fmap (option_map (fun e => (fst e, snd e))) (ct_find m h (fun entry => eqv key (fst entry))).
Definition ct_contains_key (m : cm_table (K * V)) (key : Q) : res bool := fmap is_some (ct_get m key).
Definition ct_ops : map_ops (cm_table (K * V)) K V Q := {|
  mo_entries := fun m => ct_entries m;
  mo_with_entries := fun m es => {| ct_slots := ct_slots m; ct_entries := es; ct_mask := ct_mask m |};
  mo_get := ct_get;
  mo_get_mut := ct_get_mut;
  mo_get_key_value := ct_get_key_value;
  mo_contains_key := ct_contains_key |}.
End Queries.

(** maps/hash_map.rs L47-54: [HashMap::with_hasher]. *)
Definition ct_with_hasher {K V} (usort : list (N * (K * V)) -> list (N * (K * V))) (eqK : K -> K -> bool) (hK : K -> N)
    (entries : list (K * V)) : res (result (cm_table (K * V))) :=
  let entries := using_hash entries (fun x => hK (fst x)) (fun x y => eqK (fst x) (fst y)) in
  ct_new usort entries (fun e => Ok (hK (fst e))).
End Table.
Arguments ct_slots {cm T}.
Arguments ct_entries {cm T}.
Arguments ct_mask {cm T}.

(** collection_magnitude.rs L13-36: the implementations for [u8], [u16] and [usize]; [TryFrom<usize>] and [Into<usize>] of these types are the
    standard library's. *)
Definition builtin (cm : magnitude) : magnitude_impl := {|
  mg_elem := N;
  mg_max_capacity := max_capacity cm;
  mg_zero := 0;
  mg_try_from := fun v => if v <=? index_max cm then Some v else None;
  mg_into := fun v => v |}.

(** A table over one of those, as the record of [ModelTables.v]. *)
Definition plain {cm K V} (m : cm_table (builtin cm) (K * V)) : hash_map K V :=
  {| hm_table := {| ht_slots := ct_slots m; ht_entries := ct_entries m; ht_mask := ct_mask m |} |}.
