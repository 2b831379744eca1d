(** Model of frozen-collections-core/src/analyzers. *)
From Verif Require Import Prelude ModelUtils.

(** * analyzers/hash_code_analyzer.rs *)

(** hash_code_analyzer.rs L71-83: the [for code in &hash_codes] loop with its early [break].
    [code % 0] panics. *)
Fixpoint count_collisions (codes : list N) (num_slots best : N) (use_table : bitvec) (num_collisions : N)
    : res (N * bitvec) :=
  match codes with
  | [] => Ok (num_collisions, use_table)
  | code :: r =>
      if num_slots =? 0 then Panic else
      let slot := code mod num_slots in
      used <- bv_get use_table slot ;;
      if (used : bool) then
        let num_collisions := num_collisions + 1 in
        if best <=? num_collisions then Ok (num_collisions, use_table)
        else count_collisions r num_slots best use_table num_collisions
      else
        use_table <- bv_set use_table slot ;;
        count_collisions r num_slots best use_table num_collisions
  end.

(** hash_code_analyzer.rs L67-105: the [while num_slots <= max_size] loop, on fuel (exhaustion = [Panic]).
    Returns (best_num_slots, best_num_collisions). *)
Fixpoint analyze_loop (fuel : nat) (codes : list N) (max_size num_slots acceptable : N)
    (use_table : bitvec) (best_slots best_collisions : N) : res (N * N) :=
  match fuel with
  | O => Panic
  | S fuel' =>
      if num_slots <=? max_size then
        let use_table := bv_clear_all use_table in
        r <- count_collisions codes num_slots best_collisions use_table 0 ;;
        let (num_collisions, use_table) := (r : N * bitvec) in
        let improved := num_collisions <? best_collisions in
        let take := improved && ((best_slots =? 0) || (num_collisions <=? acceptable)) in
        let best_collisions' := if take then num_collisions else best_collisions in
        let best_slots' := if take then num_slots else best_slots in
        if improved && (num_collisions <=? acceptable) then Ok (best_slots', best_collisions')
        else
          let acceptable := if 0 <? acceptable then (acceptable / 100) * 20 else acceptable in
          analyze_loop fuel' codes max_size (next_power_of_two (num_slots + 1)) acceptable use_table
            best_slots' best_collisions'
      else Ok (best_slots, best_collisions)
  end.

(** hash_code_analyzer.rs L35-40: initial number of acceptable collisions. *)
Definition initial_acceptable (len : N) : N := if len <? 128 then 0 else (len / 100) * 5.

(** hash_code_analyzer.rs L43-46. *)
Definition analysis_min_size (len : N) : N :=
  let min_size := len - initial_acceptable len in
  if negb (is_power_of_two min_size) then next_power_of_two min_size else min_size.

(** hash_code_analyzer.rs L49-59. *)
Definition analysis_max_size (len : N) : N :=
  let max_size := if len <? 128 then len * 10 else if len <? 1000 then len * 7 else len * 3 in
  if negb (is_power_of_two max_size) then next_power_of_two max_size else max_size.

(** hash_code_analyzer.rs L18-111: [analyze_hash_codes], result (num_hash_slots, num_hash_collisions).
    Arithmetic is unbounded: all quantities are at most a small multiple of the vector length. *)
Definition analyze_hash_codes (codes : list N) : res (N * N) :=
  let len := N.of_nat (length codes) in
  let max_size := analysis_max_size len in
  analyze_loop (S (S (N.to_nat (N.log2 max_size)))) codes max_size (analysis_min_size len) (initial_acceptable len)
    (bv_with_capacity max_size) 0 len.

(** * analyzers/scalar_key_analyzer.rs *)

(** scalar_key_analyzer.rs L5-14. *)
Inductive scalar_analysis := ScalarGeneral | DenseRange | SparseRange.

(** scalar_key_analyzer.rs L25-29: running minimum, maximum and count of the key indices. *)
Fixpoint scalar_min_max (keys : list N) (mn mx count : N) : N * N * N :=
  match keys with
  | [] => (mn, mx, count)
  | k :: r => scalar_min_max r (N.min mn k) (N.max mx k) (count + 1)
  end.

(** [usize::saturating_mul]. *)
Definition saturating_mul (a b : N) : N := N.min (a * b) usize_max.

(** scalar_key_analyzer.rs L18-43: [analyze_scalar_keys] on the indices of the keys. *)
Definition analyze_scalar_keys (m : mode) (keys : list N) : res scalar_analysis :=
  let '(mn, mx, count) := scalar_min_max keys usize_max 0 0 in
  if count =? 0 then Ok ScalarGeneral else
  d <- usub m mx mn ;;
  needed_count <- uadd m d 1 ;;
  if needed_count =? count then Ok DenseRange
  else if (needed_count <=? 128) || (needed_count <? saturating_mul count 10) then Ok SparseRange
  else Ok ScalarGeneral.

(** * analyzers/slice_key_analyzer.rs *)

(** slice_key_analyzer.rs L12-24. *)
Inductive slice_analysis :=
| SliceGeneral
| LeftHandSubslice (lo hi : N)
| RightHandSubslice (lo hi : N)
| SliceLength.

Section Slices.
Context {T : Type}.
Variable eqT : T -> T -> bool.        (* [T: Eq] *)
Variable hash_one : list T -> N.      (* [bh.hash_one] on a slice *)

(** slice_key_analyzer.rs L63-74: the loop over the keys; [lengths] maps a length to its count. *)
Fixpoint analyze_lengths_loop (keys : list (list T)) (max_identical : nat) (lengths : nat_map) : slice_analysis :=
  match keys with
  | [] => SliceLength
  | s :: r =>
      match lengths (length s) with
      | Some count =>
          if Nat.leb max_identical count then SliceGeneral
          else analyze_lengths_loop r max_identical (nm_insert (length s) (S count) lengths)
      | None => analyze_lengths_loop r max_identical (nm_insert (length s) 1%nat lengths)
      end
  end.

(** slice_key_analyzer.rs L58-77: [analyze_lengths]. *)
Definition analyze_lengths (keys : list (list T)) : slice_analysis :=
  analyze_lengths_loop keys (Nat.div (length keys) 20) nm_empty.

(** slice_key_analyzer.rs L109-114: compare with the first key from the left; the position of the first
    difference below the current prefix length, if any. *)
Fixpoint prefix_loop (todo i : nat) (s k0 : list T) : res (option nat) :=
  match todo with
  | O => Ok None
  | S todo' =>
      a <- index s i ;; b <- index k0 i ;;
      if negb (eqT a b) then Ok (Some i) else prefix_loop todo' (S i) s k0
  end.

(** slice_key_analyzer.rs L116-121: the same from the right. *)
Fixpoint suffix_loop (todo i : nat) (s k0 : list T) : res (option nat) :=
  match todo with
  | O => Ok None
  | S todo' =>
      a <- (if Nat.ltb i (length s) then index s (length s - i - 1) else Panic) ;;
      b <- (if Nat.ltb i (length k0) then index k0 (length k0 - i - 1) else Panic) ;;
      if negb (eqT a b) then Ok (Some i) else suffix_loop todo' (S i) s k0
  end.

Definition or_else (o : option nat) (d : N) : N := match o with Some i => N.of_nat i | None => d end.

(** slice_key_analyzer.rs L95-122: lengths of the shortest and longest key, of the common prefix and suffix. *)
Fixpoint measure_loop (k0 : list T) (keys : list (list T)) (min_len max_len prefix_len suffix_len : N)
    : res (N * N * N * N) :=
  match keys with
  | [] => Ok (min_len, max_len, prefix_len, suffix_len)
  | s :: r =>
      let len := N.of_nat (length s) in
      let min_len := N.min min_len len in
      let max_len := N.max max_len len in
      let prefix_len := if len <? prefix_len then len else prefix_len in
      let suffix_len := if len <? suffix_len then len else suffix_len in
      p <- prefix_loop (N.to_nat prefix_len) 0 s k0 ;;
      q <- suffix_loop (N.to_nat suffix_len) 0 s k0 ;;
      measure_loop k0 r min_len max_len (or_else p prefix_len) (or_else q suffix_len)
  end.

(** slice_key_analyzer.rs L190-195: the subslice of one key. *)
Definition subslice (left_justified : bool) (s : list T) (subslice_index subslice_len : N) : res (list T) :=
  if left_justified then slice s (N.to_nat subslice_index) (N.to_nat (subslice_index + subslice_len))
  else
    a <- sub_no_underflow (N.of_nat (length s)) subslice_index ;;
    start <- sub_no_underflow a subslice_len ;;
    slice s (N.to_nat start) (N.to_nat (start + subslice_len)).

(** slice_key_analyzer.rs L174-207: [is_sufficiently_unique]; [set] is the hash codes seen so far. *)
Fixpoint is_sufficiently_unique (keys : list (list T)) (subslice_index subslice_len : N) (left_justified : bool)
    (set : list N) (acceptable_duplicates : nat) : res bool :=
  match keys with
  | [] => Ok true
  | s :: r =>
      sub <- subslice left_justified s subslice_index subslice_len ;;
      let h := hash_one sub in
      if existsb (N.eqb h) set then
        match acceptable_duplicates with
        | O => Ok false
        | S d => is_sufficiently_unique r subslice_index subslice_len left_justified set d
        end
      else is_sufficiently_unique r subslice_index subslice_len left_justified (h :: set) acceptable_duplicates
  end.

(** slice_key_analyzer.rs L137-148 and L157-164: try every index for one length and one justification;
    [Some i] when index [i] is sufficiently unique. On fuel (exhaustion = [Panic]). *)
Fixpoint index_loop (fuel : nat) (keys : list (list T)) (left_justified : bool) (subslice_index subslice_len last : N)
    (acceptable_duplicates : nat) : res (option N) :=
  match fuel with
  | O => Panic
  | S fuel' =>
      if subslice_index <=? last then
        u <- is_sufficiently_unique keys subslice_index subslice_len left_justified [] acceptable_duplicates ;;
        if (u : bool) then Ok (Some subslice_index)
        else index_loop fuel' keys left_justified (subslice_index + 1) subslice_len last acceptable_duplicates
      else Ok None
  end.

(** slice_key_analyzer.rs L133-171: the loop over subslice lengths. [todo] = number of lengths left to try,
    at most 16. *)
Fixpoint length_loop (todo : nat) (fuel : nat) (keys : list (list T))
    (min_len max_len prefix_len suffix_len subslice_len : N) (acceptable_duplicates : nat) : res slice_analysis :=
  match todo with
  | O => Ok SliceGeneral
  | S todo' =>
      last <- sub_no_underflow min_len subslice_len ;;
      l <- index_loop fuel keys true prefix_len subslice_len last acceptable_duplicates ;;
      match l with
      | Some i => Ok (if subslice_len =? max_len then SliceGeneral else LeftHandSubslice i (i + subslice_len))
      | None =>
          r <- (if negb (min_len =? max_len)
                then index_loop fuel keys false suffix_len subslice_len last acceptable_duplicates
                else Ok None) ;;
          match r with
          | Some i => Ok (RightHandSubslice i (i + subslice_len))
          | None => length_loop todo' fuel keys min_len max_len prefix_len suffix_len (subslice_len + 1)
                      acceptable_duplicates
          end
      end
  end.

(** slice_key_analyzer.rs L81-172: [analyze_subslices]. *)
Definition analyze_subslices (keys : list (list T)) : res slice_analysis :=
  let k0 := hd [] keys in
  q <- measure_loop k0 keys usize_max 0 usize_max usize_max ;;
  let '(min_len, max_len, prefix_len, suffix_len) := (q : N * N * N * N) in
  let acceptable_duplicates := Nat.div (length keys) 20 in
  let max_subslice_len := N.min min_len 16 in
  length_loop (N.to_nat max_subslice_len) (S (S (length k0))) keys min_len max_len prefix_len suffix_len 1
    acceptable_duplicates.

(** slice_key_analyzer.rs L38-55: [analyze_slice_keys]. *)
Definition analyze_slice_keys (keys : list (list T)) : res slice_analysis :=
  match analyze_lengths keys with
  | SliceGeneral => analyze_subslices keys
  | r => Ok r
  end.

End Slices.
