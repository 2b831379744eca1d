(** The analyzers of [ModelAnalyzers.v] once more, this time also recording what they look at. [ProofsWork.v] proves that forgetting the
    record gives back the plain analyzers. *)
From Verif Require Import ModelUtils ModelAnalyzers SpecWork.
From Verif Require Import Prelude.

(** Sequencing of computations with a record. *)
Definition lbind {A B E} (x : res (A * list E)) (f : A -> res (B * list E)) : res (B * list E) :=
  r <- x ;; s <- f (fst r) ;; Ok (fst s, snd r ++ snd s).
Notation "x <~ e ;; k" := (lbind e (fun x => k)) (at level 61, e at next level, right associativity).
Definition silent {A E} (x : res A) : res (A * list E) := fmap (fun a => (a, [])) x.
Definition note {E} (e : E) : res (unit * list E) := Ok (tt, [e]).

(** * analyzers/hash_code_analyzer.rs *)

(** hash_code_analyzer.rs L71-83. *)
Fixpoint count_collisions_log (codes : list N) (num_slots best : N) (use_table : bitvec) (num_collisions : N)
    : res ((N * bitvec) * list table_work) :=
  match codes with
  | [] => silent (Ok (num_collisions, use_table))
  | code :: r =>
      _ <~ note (LookAt code) ;;
      if num_slots =? 0 then Panic else
      let slot := code mod num_slots in
      used <~ silent (bv_get use_table slot) ;;
      if (used : bool) then
        let num_collisions := num_collisions + 1 in
        if best <=? num_collisions then silent (Ok (num_collisions, use_table))
        else count_collisions_log r num_slots best use_table num_collisions
      else
        use_table <~ silent (bv_set use_table slot) ;;
        count_collisions_log r num_slots best use_table num_collisions
  end.

(** hash_code_analyzer.rs L67-105. *)
Fixpoint analyze_loop_log (fuel : nat) (codes : list N) (max_size num_slots acceptable : N)
    (use_table : bitvec) (best_slots best_collisions : N) : res ((N * N) * list table_work) :=
  match fuel with
  | O => Panic
  | S fuel' =>
      if num_slots <=? max_size then
        _ <~ note (TrySize num_slots) ;;
        let use_table := bv_clear_all use_table in
        r <~ count_collisions_log codes num_slots best_collisions use_table 0 ;;
        let (num_collisions, use_table) := (r : N * bitvec) in
        let improved := num_collisions <? best_collisions in
        let take := improved && ((best_slots =? 0) || (num_collisions <=? acceptable)) in
        let best_collisions' := if take then num_collisions else best_collisions in
        let best_slots' := if take then num_slots else best_slots in
        if improved && (num_collisions <=? acceptable) then silent (Ok (best_slots', best_collisions'))
        else
          let acceptable := if 0 <? acceptable then (acceptable / 100) * 20 else acceptable in
          analyze_loop_log fuel' codes max_size (next_power_of_two (num_slots + 1)) acceptable use_table
            best_slots' best_collisions'
      else silent (Ok (best_slots, best_collisions))
  end.

(** hash_code_analyzer.rs L18-111: [analyze_hash_codes]. *)
Definition analyze_hash_codes_log (codes : list N) : res ((N * N) * list table_work) :=
  let len := N.of_nat (length codes) in
  let max_size := analysis_max_size len in
  analyze_loop_log (S (S (N.to_nat (N.log2 max_size)))) codes max_size (analysis_min_size len) (initial_acceptable len)
    (bv_with_capacity max_size) 0 len.

(** * analyzers/slice_key_analyzer.rs *)
Section Slices.
Context {T : Type}.
Variable eqT : T -> T -> bool.
Variable hash_one : list T -> N.

(** slice_key_analyzer.rs L109-114. *)
Fixpoint prefix_loop_log (todo i : nat) (s k0 : list T) : res (option nat * list (slice_work T)) :=
  match todo with
  | O => silent (Ok None)
  | S todo' =>
      a <~ silent (index s i) ;; b <~ silent (index k0 i) ;;
      _ <~ note (Compared a b) ;;
      if negb (eqT a b) then silent (Ok (Some i)) else prefix_loop_log todo' (S i) s k0
  end.

(** slice_key_analyzer.rs L116-121. *)
Fixpoint suffix_loop_log (todo i : nat) (s k0 : list T) : res (option nat * list (slice_work T)) :=
  match todo with
  | O => silent (Ok None)
  | S todo' =>
      a <~ silent (if Nat.ltb i (length s) then index s (length s - i - 1) else Panic) ;;
      b <~ silent (if Nat.ltb i (length k0) then index k0 (length k0 - i - 1) else Panic) ;;
      _ <~ note (Compared a b) ;;
      if negb (eqT a b) then silent (Ok (Some i)) else suffix_loop_log todo' (S i) s k0
  end.

(** slice_key_analyzer.rs L95-122. *)
Fixpoint measure_loop_log (k0 : list T) (keys : list (list T)) (min_len max_len prefix_len suffix_len : N)
    : res ((N * N * N * N) * list (slice_work T)) :=
  match keys with
  | [] => silent (Ok (min_len, max_len, prefix_len, suffix_len))
  | s :: r =>
      let len := N.of_nat (length s) in
      let min_len := N.min min_len len in
      let max_len := N.max max_len len in
      let prefix_len := if len <? prefix_len then len else prefix_len in
      let suffix_len := if len <? suffix_len then len else suffix_len in
      p <~ prefix_loop_log (N.to_nat prefix_len) 0 s k0 ;;
      q <~ suffix_loop_log (N.to_nat suffix_len) 0 s k0 ;;
      measure_loop_log k0 r min_len max_len (or_else p prefix_len) (or_else q suffix_len)
  end.

(** slice_key_analyzer.rs L174-207: [is_sufficiently_unique]. *)
Fixpoint is_sufficiently_unique_log (keys : list (list T)) (subslice_index subslice_len : N) (left_justified : bool)
    (set : list N) (acceptable_duplicates : nat) : res (bool * list (slice_work T)) :=
  match keys with
  | [] => silent (Ok true)
  | s :: r =>
      sub <~ silent (subslice left_justified s subslice_index subslice_len) ;;
      _ <~ note (Hashed sub) ;;
      let h := hash_one sub in
      if existsb (N.eqb h) set then
        match acceptable_duplicates with
        | O => silent (Ok false)
        | S d => is_sufficiently_unique_log r subslice_index subslice_len left_justified set d
        end
      else is_sufficiently_unique_log r subslice_index subslice_len left_justified (h :: set) acceptable_duplicates
  end.

(** slice_key_analyzer.rs L137-148 and L157-164. *)
Fixpoint index_loop_log (fuel : nat) (keys : list (list T)) (left_justified : bool) (subslice_index subslice_len last : N)
    (acceptable_duplicates : nat) : res (option N * list (slice_work T)) :=
  match fuel with
  | O => Panic
  | S fuel' =>
      if subslice_index <=? last then
        u <~ is_sufficiently_unique_log keys subslice_index subslice_len left_justified [] acceptable_duplicates ;;
        if (u : bool) then silent (Ok (Some subslice_index))
        else index_loop_log fuel' keys left_justified (subslice_index + 1) subslice_len last acceptable_duplicates
      else silent (Ok None)
  end.

(** slice_key_analyzer.rs L133-171. *)
Fixpoint length_loop_log (todo : nat) (fuel : nat) (keys : list (list T))
    (min_len max_len prefix_len suffix_len subslice_len : N) (acceptable_duplicates : nat) : res (slice_analysis * list (slice_work T)) :=
  match todo with
  | O => silent (Ok SliceGeneral)
  | S todo' =>
      last <~ silent (sub_no_underflow min_len subslice_len) ;;
      l <~ index_loop_log fuel keys true prefix_len subslice_len last acceptable_duplicates ;;
      match l with
      | Some i => silent (Ok (if subslice_len =? max_len then SliceGeneral else LeftHandSubslice i (i + subslice_len)))
      | None =>
          r <~ (if negb (min_len =? max_len)
                then index_loop_log fuel keys false suffix_len subslice_len last acceptable_duplicates
                else silent (Ok None)) ;;
          match r with
          | Some i => silent (Ok (RightHandSubslice i (i + subslice_len)))
          | None => length_loop_log todo' fuel keys min_len max_len prefix_len suffix_len (subslice_len + 1)
                      acceptable_duplicates
          end
      end
  end.

(** slice_key_analyzer.rs L81-172: [analyze_subslices]. *)
Definition analyze_subslices_log (keys : list (list T)) : res (slice_analysis * list (slice_work T)) :=
  let k0 := hd [] keys in
  q <~ measure_loop_log k0 keys usize_max 0 usize_max usize_max ;;
  let '(min_len, max_len, prefix_len, suffix_len) := (q : N * N * N * N) in
  let acceptable_duplicates := Nat.div (length keys) 20 in
  let max_subslice_len := N.min min_len 16 in
  length_loop_log (N.to_nat max_subslice_len) (S (S (length k0))) keys min_len max_len prefix_len suffix_len 1
    acceptable_duplicates.

(** slice_key_analyzer.rs L38-55: [analyze_slice_keys]. [analyze_lengths] looks at no element. *)
Definition analyze_slice_keys_log (keys : list (list T)) : res (slice_analysis * list (slice_work T)) :=
  match analyze_lengths keys with
  | SliceGeneral => analyze_subslices_log keys
  | r => silent (Ok r)
  end.

End Slices.
