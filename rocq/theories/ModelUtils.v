(** Model of frozen-collections-core/src/utils (dedup.rs, bitvec.rs, eytzinger.rs). *)
From Verif Require Import Prelude.

(** * utils/dedup.rs *)

(** The [retain] closure shared by dedup.rs L31-35, L67-71, L132-136: keep the elements whose running index is not
    in [dupes]. [HashbrownSet<usize>]/[Vec<usize>] membership is list membership. *)
Fixpoint retain_from {T} (index : nat) (dupes : list nat) (entries : list T) : list T :=
  match entries with
  | [] => []
  | x :: r => if negb (existsb (Nat.eqb index) dupes) then x :: retain_from (S index) dupes r
              else retain_from (S index) dupes r
  end.

Definition is_nil {A} (l : list A) : bool := match l with [] => true | _ => false end.

(** dedup.rs L20-26: the inner [for j] loop with its [break]; returns whether [i] was marked. *)
Fixpoint using_eq_inner {T} (cmp : T -> T -> bool) (x : T) (rest : list T) : bool :=
  match rest with
  | [] => false
  | y :: r => if cmp x y then true else using_eq_inner cmp x r
  end.

(** dedup.rs L19-27: the outer [for i] loop building [dupes]. *)
Fixpoint using_eq_dupes {T} (cmp : T -> T -> bool) (i : nat) (l : list T) (dupes : list nat) : list nat :=
  match l with
  | [] => dupes
  | x :: r => using_eq_dupes cmp (S i) r (if using_eq_inner cmp x r then i :: dupes else dupes)
  end.

(** dedup.rs L16-40: [DeduppedVec::using_eq]. *)
Definition using_eq {T} (entries : list T) (cmp : T -> T -> bool) : list T :=
  if Nat.leb 2 (length entries) then
    let dupes := using_eq_dupes cmp 0 entries [] in
    if negb (is_nil dupes) then retain_from 0 dupes entries else entries
  else entries.

(** The hashbrown [HashTable<usize>] of dedup.rs L50 as a list of (hash, index, entries[index]).
    Simplification: the element the closure reads as [entries[*other]] is stored beside its index. *)
Definition keep_table (T : Type) := list (N * nat * T).

(** hashbrown [find_entry] + [OccupiedEntry::remove] (dedup.rs L54-58): first stored element with the same hash
    accepted by the closure, and the table without it. *)
Fixpoint keep_find_remove {T} (hash : N) (eq : T -> bool) (keep : keep_table T) : option (nat * keep_table T) :=
  match keep with
  | [] => None
  | (h, i, y) :: r =>
      if ((h =? hash) && eq y)%bool then Some (i, r)
      else match keep_find_remove hash eq r with
           | Some (j, r') => Some (j, (h, i, y) :: r')
           | None => None
           end
  end.

(** dedup.rs L51-61: the loop over [entries.iter().enumerate()]; returns [dupes] (pushed order reversed). *)
Fixpoint using_hash_dupes {T} (hasher : T -> N) (eq : T -> T -> bool) (index : nat) (l : list T)
    (keep : keep_table T) (dupes : list nat) : list nat :=
  match l with
  | [] => dupes
  | value :: r =>
      let hash := hasher value in
      match keep_find_remove hash (eq value) keep with
      | Some (old, keep') => using_hash_dupes hasher eq (S index) r ((hash, index, value) :: keep') (old :: dupes)
      | None => using_hash_dupes hasher eq (S index) r ((hash, index, value) :: keep) dupes
      end
  end.

(** dedup.rs L47-76: [DeduppedVec::using_hash]. *)
Definition using_hash {T} (entries : list T) (hasher : T -> N) (eq : T -> T -> bool) : list T :=
  if Nat.leb 2 (length entries) then
    let dupes := using_hash_dupes hasher eq 0 entries [] [] in
    if negb (is_nil dupes) then retain_from 0 dupes entries else entries
  else entries.

(** Stable [slice::sort_by] (used at dedup.rs L119), as stable insertion sort. Any stable sort computes the same
    function on a lawful comparison. *)
Fixpoint stable_insert {T} (cmp : T -> T -> comparison) (x : T) (l : list T) : list T :=
  match l with
  | [] => [x]
  | y :: r => match cmp x y with Gt => y :: stable_insert cmp x r | _ => x :: y :: r end
  end.
Definition stable_sort {T} (cmp : T -> T -> comparison) (l : list T) : list T :=
  fold_right (stable_insert cmp) [] l.

(** dedup.rs L123-128: mark [i] when entries [i] and [i+1] compare equal. *)
Fixpoint adjacent_dupes {T} (cmp : T -> T -> comparison) (i : nat) (l : list T) (dupes : list nat) : list nat :=
  match l with
  | [] => dupes
  | x :: r =>
      match r with
      | [] => dupes
      | y :: _ => adjacent_dupes cmp (S i) r (match cmp x y with Eq => i :: dupes | _ => dupes end)
      end
  end.

(** dedup.rs L118-141: [SortedAndDeduppedVec::new]. *)
Definition sorted_and_dedupped {T} (entries : list T) (cmp : T -> T -> comparison) : list T :=
  let entries := stable_sort cmp entries in
  if Nat.leb 2 (length entries) then
    let dupes := adjacent_dupes cmp 0 entries [] in
    if negb (is_nil dupes) then retain_from 0 dupes entries else entries
  else entries.

(** dedup.rs L42-45: [DeduppedVec::using_cmp]. *)
Definition using_cmp {T} (entries : list T) (cmp : T -> T -> comparison) : list T :=
  sorted_and_dedupped entries cmp.

(** dedup.rs L86-90: [DeduppedVec::into_array::<N>], panics on a length mismatch. *)
Definition into_array {T} (n : nat) (l : list T) : res (list T) :=
  if Nat.eqb (length l) n then Ok l else Panic.

(** dedup.rs L173-186: [has_duplicates]; [seen] is [values[0..i]]. *)
Fixpoint has_duplicates_from {T} (eq : T -> T -> bool) (seen rest : list T) : bool :=
  match rest with
  | [] => false
  | x :: r => if existsb (fun y => eq y x) seen then true else has_duplicates_from eq (seen ++ [x]) r
  end.
Definition has_duplicates {T} (eq : T -> T -> bool) (values : list T) : bool := has_duplicates_from eq [] values.

(** * utils/bitvec.rs *)

Record bitvec := { bv_bits : list N; bv_len : N }.

(** bitvec.rs L12-17: [with_capacity]; the words really are initialised with 0,1,2,... *)
Definition bv_with_capacity (capacity : N) : bitvec :=
  {| bv_bits := map N.of_nat (seq 0 (N.to_nat (div_ceil capacity 64))); bv_len := capacity |}.

(** bitvec.rs L19-21: [clear_all]. *)
Definition bv_clear_all (b : bitvec) : bitvec :=
  {| bv_bits := map (fun _ => 0) (bv_bits b); bv_len := bv_len b |}.

(** bitvec.rs L23-27: [set]. The [debug_assert!] is treated as always on. *)
Definition bv_set (b : bitvec) (i : N) : res bitvec :=
  if i <? bv_len b then
    w <- index (bv_bits b) (N.to_nat (i / 64)) ;;
    bits <- store (bv_bits b) (N.to_nat (i / 64)) (N.lor w (N.shiftl 1 (i mod 64))) ;;
    Ok {| bv_bits := bits; bv_len := bv_len b |}
  else Panic.

(** bitvec.rs L29-33: [get]. The [debug_assert!] is treated as always on. *)
Definition bv_get (b : bitvec) (i : N) : res bool :=
  if i <? bv_len b then
    w <- index (bv_bits b) (N.to_nat (i / 64)) ;;
    Ok (negb (N.land w (N.shiftl 1 (i mod 64)) =? 0))
  else Panic.

(** * utils/eytzinger.rs *)

(** A [usize] subtraction that must not underflow; treated as a panic in every build mode, so a theorem
    concluding [Ok] also shows that no underflow happens. *)
Definition sub_no_underflow (a b : N) : res N := if b <=? a then Ok (a - b) else Panic.

(** eytzinger.rs L10-20: [get_eytzinger_index]. *)
Definition get_eytzinger_index (original_index slice_len : N) : res N :=
  let ipk := trailing_zeros (next_power_of_two (original_index + 2)) in
  ipk1 <- sub_no_underflow ipk 1 ;;
  li <- sub_no_underflow (original_index + 1) (N.shiftl 1 ipk1) ;;
  let zk := li * 2 + 1 in
  let last_power_of_two := next_power_of_two (slice_len + 2) / 2 in
  let y := N.shiftr last_power_of_two ipk1 * zk in
  let kp := N.shiftr y 1 in
  let x := kp + last_power_of_two in
  let x := x - (slice_len + 1) in (* saturating_sub *)
  yx <- sub_no_underflow y x ;;
  sub_no_underflow yx 1.

(** hashbrown [HashMap<usize, usize>] used at eytzinger.rs L22, as a finite function. *)
Definition nat_map := nat -> option nat.
Definition nm_empty : nat_map := fun _ => None.
Definition nm_insert (k v : nat) (m : nat_map) : nat_map := fun j => if Nat.eqb j k then Some v else m j.
Definition nm_remove (k : nat) (m : nat_map) : nat_map := fun j => if Nat.eqb j k then None else m j.

(** [slice::swap]: panics when out of range. *)
Definition swap {T} (l : list T) (i j : nat) : res (list T) :=
  a <- index l i ;; b <- index l j ;; Ok (list_set (list_set l i b) j a).

(** eytzinger.rs L23-39: one iteration of the loop body. *)
Definition eytzinger_step {T} (n : nat) (i : nat) (st : list T * nat_map) : res (list T * nat_map) :=
  let (arr, map) := st in
  t <- get_eytzinger_index (N.of_nat i) (N.of_nat n) ;;
  let target := N.to_nat t in
  tm <- (if Nat.ltb target i then
           match map target with
           | Some t' => Ok (t', nm_remove target map)
           | None => Panic (* unwrap *)
           end
         else Ok (target, map)) ;;
  let (target, map) := (tm : nat * nat_map) in
  arr <- swap arr i target ;;
  let '(i, map) := match map i with Some x => (x, nm_remove i map) | None => (i, map) end in
  let map := if negb (Nat.eqb target i) then nm_insert i target (nm_insert target i map) else map in
  Ok (arr, map).

(** eytzinger.rs L23: [for mut i in 0..sorted_entries.len()]. *)
Fixpoint eytzinger_loop {T} (n : nat) (todo : nat) (i : nat) (st : list T * nat_map) : res (list T * nat_map) :=
  match todo with
  | O => Ok st
  | S todo' => st' <- eytzinger_step n i st ;; eytzinger_loop n todo' (S i) st'
  end.

(** eytzinger.rs L9-40: [eytzinger_layout]. *)
Definition eytzinger_layout {T} (sorted_entries : list T) : res (list T) :=
  r <- eytzinger_loop (length sorted_entries) (length sorted_entries) 0 (sorted_entries, nm_empty) ;;
  Ok (fst r).

(** [Ordering as usize]: Less = -1, Equal = 0, Greater = 1 (eytzinger.rs L57). *)
Definition ordering_as_usize (c : comparison) : N :=
  match c with Lt => usize_max | Eq => 0 | Gt => 1 end.

(** eytzinger.rs L46-64: [eytzinger_search_by]. The [loop] runs on fuel; running out is reported as [Panic] and
    excluded by the theorems. *)
Fixpoint eytzinger_search_loop {T} (fuel : nat) (data : list T) (f : T -> comparison) (i : nat) : res (option nat) :=
  match fuel with
  | O => Panic
  | S fuel' =>
      match nth_error data i with
      | Some v =>
          match f v with
          | Eq => Ok (Some i)
          | order =>
              let o := ordering_as_usize order in
              let o := N.land (N.shiftr o 1) 1 in
              eytzinger_search_loop fuel' data f (2 * i + 1 + N.to_nat o)%nat
          end
      | None => Ok None
      end
  end.
Definition eytzinger_search_by {T} (data : list T) (f : T -> comparison) : res (option nat) :=
  eytzinger_search_loop (S (length data)) data f 0.
