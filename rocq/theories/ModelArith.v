(** The hash code analyzer and [HashTable::new] once more, on a machine with [w]-bit [usize], where arithmetic overflows and vectors are limited
    to [isize::MAX] bytes. [ModelAnalyzers.v] and [ModelTables.v] do the same arithmetic without bounds. *)
From Coq Require Import String.
From Verif Require Import ModelUtils ModelAnalyzers ModelTables ModelMaps ModelWidth.
From Verif Require Import Prelude.

Section Arith.
Variable w : N.         (* the number of bits of [usize] *)
Variable md : mode.

Definition umax_of : N := 2 ^ w - 1.                  (* [usize::MAX] *)
Definition imax_of : N := 2 ^ (w - 1) - 1.            (* [isize::MAX] *)

(** [*] on [usize]. *)
Definition umul_on (a b : N) : res N :=
  if a * b <=? umax_of then Ok (a * b) else match md with Debug => Panic | Release => Ok ((a * b) mod 2 ^ w) end.
(** [usize::next_power_of_two]: if the power does not fit, a panic in debug builds and 0 in release builds. *)
Definition npt_on (n : N) : res N :=
  if next_power_of_two n <=? umax_of then Ok (next_power_of_two n) else match md with Debug => Panic | Release => Ok 0 end.
(** The allocation of a vector of [n] elements of [size] bytes; running out of memory is not modelled. *)
Definition vec_on (size n : N) : res unit := if size * n <=? imax_of then Ok tt else Panic.

(** hash_code_analyzer.rs L71-83. *)
Fixpoint count_collisions_on (codes : list N) (num_slots best : N) (use_table : bitvec) (num_collisions : N) : res (N * bitvec) :=
  match codes with
  | [] => Ok (num_collisions, use_table)
  | code :: r =>
      if num_slots =? 0 then Panic else
      let slot := (code mod num_slots) mod 2 ^ w in
      used <- bv_get use_table slot ;;
      if (used : bool) then
        num_collisions <- uadd_on umax_of md num_collisions 1 ;;
        if best <=? num_collisions then Ok (num_collisions, use_table)
        else count_collisions_on r num_slots best use_table num_collisions
      else
        use_table <- bv_set use_table slot ;;
        count_collisions_on r num_slots best use_table num_collisions
  end.

(** hash_code_analyzer.rs L67-105, on fuel (exhaustion = [Panic]). *)
Fixpoint analyze_loop_on (fuel : nat) (codes : list N) (max_size num_slots acceptable : N)
    (use_table : bitvec) (best_slots best_collisions : N) : res (N * N) :=
  match fuel with
  | O => Panic
  | S fuel' =>
      if num_slots <=? max_size then
        let use_table := bv_clear_all use_table in
        r <- count_collisions_on codes num_slots best_collisions use_table 0 ;;
        let (num_collisions, use_table) := (r : N * bitvec) in
        let improved := num_collisions <? best_collisions in
        let take := improved && ((best_slots =? 0) || (num_collisions <=? acceptable)) in
        let best_collisions' := if take then num_collisions else best_collisions in
        let best_slots' := if take then num_slots else best_slots in
        if improved && (num_collisions <=? acceptable) then Ok (best_slots', best_collisions')
        else
          acceptable <- (if 0 <? acceptable then umul_on (acceptable / 100) 20 else Ok acceptable) ;;
          next <- uadd_on umax_of md num_slots 1 ;;
          next <- npt_on next ;;
          analyze_loop_on fuel' codes max_size next acceptable use_table best_slots' best_collisions'
      else Ok (best_slots, best_collisions)
  end.

(** hash_code_analyzer.rs L18-111: [analyze_hash_codes]. L34 collects the codes, [u64] each, and L61 allocates the words of the bit vector. *)
Definition analyze_hash_codes_on (codes : list N) : res (N * N) :=
  let len := N.of_nat (List.length codes) in
  _ <- vec_on 8 len ;;
  acceptable <- (if len <? 128 then Ok 0 else umul_on (len / 100) 5) ;;
  min_size <- usub_on umax_of md len acceptable ;;
  min_size <- (if negb (is_power_of_two min_size) then npt_on min_size else Ok min_size) ;;
  max_size <- (if len <? 128 then umul_on len 10 else if len <? 1000 then umul_on len 7 else umul_on len 3) ;;
  max_size <- (if negb (is_power_of_two max_size) then npt_on max_size else Ok max_size) ;;
  _ <- vec_on 8 (div_ceil max_size 64) ;;
  analyze_loop_on (S (S (N.to_nat (N.log2 max_size)))) codes max_size min_size acceptable (bv_with_capacity max_size) 0 len.

(** hash_table.rs L41-101: [HashTable::new], with [slot_size] the size of a [HashTableSlot] and [item_size] that of a [PrepItem]. The counts of
    L71-96 are bounded by the number of entries and stay unbounded here. *)
Definition ht_new_on {T} (slot_size item_size : N) (usort : list (N * T) -> list (N * T)) (cm : magnitude) (entries : list T)
    (hash : T -> res N) : res (result (hash_table T)) :=
  if is_nil entries then Ok (ROk ht_default)
  else if max_capacity cm <? N.of_nat (List.length entries) then
    Ok (RErr "too many entries for the selected collection magnitude")
  else
    codes <- mapM hash entries ;;
    a <- analyze_hash_codes_on codes ;;
    let num_hash_slots := fst a in
    _ <- vec_on item_size (N.of_nat (List.length entries)) ;;
    items <- prep_items hash num_hash_slots entries ;;
    let items := usort items in
    _ <- vec_on slot_size num_hash_slots ;;
    r <- fill_slots cm (S (List.length items)) (rev items) 0 (repeat (0, 0) (N.to_nat num_hash_slots)) [] ;;
    let (slots, final_entries) := (r : list (N * N) * list T) in
    mask <- sub_no_underflow (N.of_nat (List.length slots)) 1 ;;
    Ok (ROk {| ht_slots := slots; ht_entries := final_entries; ht_mask := mask |}).

(** fz_maps/fz_hash_map.rs L66-75: [FzHashMap::with_hasher], through maps/hash_map.rs L62-72. *)
Definition fz_hash_map_with_hasher_on {K V} (slot_size item_size : N) (usort : list (N * (K * V)) -> list (N * (K * V)))
    (eqK : K -> K -> bool) (hK : K -> N) (entries : list (K * V)) : res (hash_map K V) :=
  let entries := using_hash entries (fun x => hK (fst x)) (fun x y => eqK (fst x) (fst y)) in
  t <- ht_new_on slot_size item_size usort Large entries (fun e => Ok (hK (fst e))) ;;
  match t with ROk t => Ok {| hm_table := t |} | RErr _ => Panic end.
End Arith.
