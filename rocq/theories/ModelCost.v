(** The lookups of [ModelUtils.v], [ModelTables.v] and [ModelMaps.v] once more, this time also recording every stored entry that is
    compared with the query, in order. [ProofsCost.v] proves that forgetting the record gives back the plain lookup. *)
From Verif Require Import ModelUtils ModelAnalyzers ModelTables ModelMaps.
From Verif Require Import Prelude.

(** utils/eytzinger.rs L46-64: [eytzinger_search_by]. *)
Fixpoint eytzinger_search_log {T} (fuel : nat) (data : list T) (f : T -> comparison) (i : nat) : res (option nat * list T) :=
  match fuel with
  | O => Panic
  | S fuel' =>
      match nth_error data i with
      | Some v =>
          match f v with
          | Eq => Ok (Some i, [v])
          | order =>
              let o := ordering_as_usize order in
              let o := N.land (N.shiftr o 1) 1 in
              r <- eytzinger_search_log fuel' data f (2 * i + 1 + N.to_nat o)%nat ;; Ok (fst r, v :: snd r)
          end
      | None => Ok (None, [])
      end
  end.
Definition eytzinger_search_by_log {T} (data : list T) (f : T -> comparison) : res (option nat * list T) :=
  eytzinger_search_log (S (length data)) data f 0.

(** hash_tables/decl_macros.rs L17-27. *)
Fixpoint scan_slot_log {T} (eq : T -> bool) (l : list T) : option T * list T :=
  match l with
  | [] => (None, [])
  | e :: r => if eq e then (Some e, [e]) else let (o, log) := scan_slot_log eq r in (o, e :: log)
  end.

(** hash_tables/decl_macros.rs L4-30: [find]. *)
Definition ht_find_log {T} (t : hash_table T) (hash_code : N) (eq : T -> bool) : res (option T * list T) :=
  slot <- get_unchecked (ht_slots t) (N.to_nat (N.land hash_code (ht_mask t))) ;;
  let (mn, mx) := (slot : N * N) in
  entries <- slice_unchecked (ht_entries t) (N.to_nat mn) (N.to_nat mx) ;;
  Ok (scan_slot_log eq entries).

(** inline_hash_table_no_collisions.rs L41-58: [find]. *)
Definition nc_find_log {T} (t : nc_table T) (hash_code : N) (eq : T -> bool) : res (option T * list T) :=
  i <- get_unchecked (nc_slots t) (N.to_nat (N.land hash_code (nc_mask t))) ;;
  if 0 <? i then
    e <- get_unchecked (nc_entries t) (N.to_nat (i - 1)) ;;
    Ok (if eq e then Some e else None, [e])
  else Ok (None, []).
