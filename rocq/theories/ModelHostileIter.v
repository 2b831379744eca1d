(** The iterators of the set operations and the comparisons of sets (ModelIter.v) over sets whose [contains] calls trait
    implementations that keep state, answer as they please and may panic (ModelHostile.v). A panic out of [next] is caught and the
    iterator used further. *)
From Verif Require Import ModelUtils ModelAnalyzers ModelTables ModelMaps ModelIter ModelHostile.
From Verif Require Import Prelude.

(** A set is a map to [()]. [contains] of the facade sets asks [contains_key] (fz_sets/fz_hash_set.rs L89, fz_ordered_set.rs L73,
    fz_scalar_set.rs L68, fz_string_set.rs L75), [contains] of the inner sets asks [get] (sets/decl_macros.rs L88-94). *)
Record h_set (T : Type) := { hs_map : any_map T unit; hs_facade : bool }.
Arguments hs_map {T}.
Arguments hs_facade {T}.

Definition hs_items {T} (s : h_set T) : list T := map fst (any_entries (hs_map s)).
Definition hs_len {T} (s : h_set T) : nat := length (any_entries (hs_map s)).
Definition h_contains {T} (s : h_set T) : hostile bool :=
  if hs_facade s then h_contains_key (hs_map s) else o <~ h_get_key_value (hs_map s) ;; ret (is_some (option_map fst o)).

(** What a caller sees of one call of [next]. *)
Inductive event (T : Type) := Item (x : T) | Done | Caught.
Arguments Item {T}.
Arguments Done {T}.
Arguments Caught {T}.

(** [loop { let item = iter.next()?; if contains(item) == want { return Some(item) } }]. When [contains] panics, the inner iterator has
    already moved past the item in question. (As in [h_session], the stream carries on with the next answer.) *)
Fixpoint h_where {T} (want : bool) (s : h_set T) (rest : list T) : hostile (event T * list T) :=
  match rest with
  | [] => ret (Done, [])
  | x :: r => fun adv n =>
      match h_contains s adv n with
      | Ok (b, n') => if Bool.eqb b want then Ok ((Item x, r), n') else h_where want s r adv n'
      | Panic => Ok ((Caught, r), S n)
      | UB => UB
      end
  end.

Section HostileIters.
Context {T : Type}.

(** sets/iterators.rs L107-131: [Union]. *)
Record h_union := { hu_s1 : h_set T; hu_rest1 : list T; hu_s2 : h_set T; hu_rest2 : list T }.
Definition h_union_new (s1 s2 : h_set T) : h_union := {| hu_s1 := s1; hu_rest1 := hs_items s1; hu_s2 := s2; hu_rest2 := hs_items s2 |}.
Definition hu_with1 (u : h_union) (r : list T) : h_union :=
  {| hu_s1 := hu_s1 u; hu_rest1 := r; hu_s2 := hu_s2 u; hu_rest2 := hu_rest2 u |}.
Definition hu_with2 (u : h_union) (r : list T) : h_union :=
  {| hu_s1 := hu_s1 u; hu_rest1 := hu_rest1 u; hu_s2 := hu_s2 u; hu_rest2 := r |}.

(** sets/iterators.rs L142-168: [Union::next]. *)
Definition h_union_next (u : h_union) : hostile (event T * h_union) :=
  if Nat.ltb (hs_len (hu_s2 u)) (hs_len (hu_s1 u)) then
    match hu_rest1 u with
    | x :: r => ret (Item x, hu_with1 u r)
    | [] => p <~ h_where false (hu_s1 u) (hu_rest2 u) ;; ret (fst p, hu_with2 u (snd p))
    end
  else
    match hu_rest2 u with
    | x :: r => ret (Item x, hu_with2 u r)
    | [] => p <~ h_where false (hu_s2 u) (hu_rest1 u) ;; ret (fst p, hu_with1 u (snd p))
    end.

(** sets/iterators.rs L170-182: [Union::size_hint]. *)
Definition h_union_size_hint (u : h_union) : N * option N :=
  let h1 := it_size_hint slice_iter (hu_rest1 u) in
  let h2 := it_size_hint slice_iter (hu_rest2 u) in
  (N.max (fst h1) (fst h2), match snd h1, snd h2 with Some a, Some b => checked_add a b | _, _ => None end).

(** sets/iterators.rs L297-341: [Difference]. *)
Record h_difference := { hd_rest1 : list T; hd_s2 : h_set T }.
Definition h_difference_new (s1 s2 : h_set T) : h_difference := {| hd_rest1 := hs_items s1; hd_s2 := s2 |}.
Definition h_difference_next (d : h_difference) : hostile (event T * h_difference) :=
  p <~ h_where false (hd_s2 d) (hd_rest1 d) ;; ret (fst p, {| hd_rest1 := snd p; hd_s2 := hd_s2 d |}).
Definition h_difference_size_hint (d : h_difference) : N * option N := (0, snd (it_size_hint slice_iter (hd_rest1 d))).

(** sets/iterators.rs L381-436: [Intersection]. *)
Record h_intersection := { hi_s1 : h_set T; hi_rest1 : list T; hi_s2 : h_set T; hi_rest2 : list T }.
Definition h_intersection_new (s1 s2 : h_set T) : h_intersection :=
  {| hi_s1 := s1; hi_rest1 := hs_items s1; hi_s2 := s2; hi_rest2 := hs_items s2 |}.
Definition h_intersection_next (i : h_intersection) : hostile (event T * h_intersection) :=
  if Nat.ltb (hs_len (hi_s1 i)) (hs_len (hi_s2 i)) then
    p <~ h_where true (hi_s2 i) (hi_rest1 i) ;;
    ret (fst p, {| hi_s1 := hi_s1 i; hi_rest1 := snd p; hi_s2 := hi_s2 i; hi_rest2 := hi_rest2 i |})
  else
    p <~ h_where true (hi_s1 i) (hi_rest2 i) ;;
    ret (fst p, {| hi_s1 := hi_s1 i; hi_rest1 := hi_rest1 i; hi_s2 := hi_s2 i; hi_rest2 := snd p |}).
Definition h_intersection_size_hint (i : h_intersection) : N * option N :=
  (0, Some (N.min (N.of_nat (hs_len (hi_s1 i))) (N.of_nat (hs_len (hi_s2 i))))).

(** sets/iterators.rs L229-257 with [core::iter::Chain], which lets go of its first half when that says [None], before it asks the
    second; when the first half panics it is kept. *)
Record h_symmetric_difference := { hx_a : option h_difference; hx_b : h_difference }.
Definition h_symmetric_difference_new (s1 s2 : h_set T) : h_symmetric_difference :=
  {| hx_a := Some (h_difference_new s1 s2); hx_b := h_difference_new s2 s1 |}.
Definition h_symmetric_difference_next (c : h_symmetric_difference) : hostile (event T * h_symmetric_difference) :=
  let from_b := p <~ h_difference_next (hx_b c) ;; ret (fst p, {| hx_a := None; hx_b := snd p |}) in
  match hx_a c with
  | Some a =>
      p <~ h_difference_next a ;;
      match fst p with
      | Done => from_b
      | e => ret (e, {| hx_a := Some (snd p); hx_b := hx_b c |})
      end
  | None => from_b
  end.
Definition h_symmetric_difference_size_hint (c : h_symmetric_difference) : N * option N :=
  let b := h_difference_size_hint (hx_b c) in
  match hx_a c with
  | Some a =>
      let a := h_difference_size_hint a in
      (saturating_add (fst a) (fst b), match snd a, snd b with Some x, Some y => checked_add x y | _, _ => None end)
  | None => b
  end.

(** [k] calls of [next], whatever each does. *)
Fixpoint h_calls {St} (next : St -> hostile (event T * St)) (k : nat) (st : St) : hostile (list (event T) * St) :=
  match k with
  | O => ret ([], st)
  | S k' => p <~ next st ;; q <~ h_calls next k' (snd p) ;; ret (fst p :: fst q, snd q)
  end.

(** [iter().all(|v| contains(v) == want)]. *)
Fixpoint h_all (want : bool) (s : h_set T) (l : list T) : hostile bool :=
  match l with
  | [] => ret true
  | x :: r => b <~ h_contains s ;; if Bool.eqb b want then h_all want s r else ret false
  end.

(** traits/set_ops.rs L60-70. *)
Definition h_is_disjoint (s1 s2 : h_set T) : hostile bool :=
  if Nat.leb (hs_len s1) (hs_len s2) then h_all false s2 (hs_items s1) else h_all false s1 (hs_items s2).
(** traits/set_ops.rs L75-85. *)
Definition h_is_subset (s1 s2 : h_set T) : hostile bool :=
  if Nat.leb (hs_len s1) (hs_len s2) then h_all true s2 (hs_items s1) else ret false.
(** traits/set_ops.rs L90-100. *)
Definition h_is_superset (s1 s2 : h_set T) : hostile bool :=
  if Nat.leb (hs_len s2) (hs_len s1) then h_all true s1 (hs_items s2) else ret false.
(** sets/decl_macros.rs L122-128. *)
Definition h_set_eq (s1 s2 : h_set T) : hostile bool :=
  if negb (Nat.eqb (hs_len s1) (hs_len s2)) then ret false else h_all true s2 (hs_items s1).
End HostileIters.
Arguments h_union : clear implicits.
Arguments h_difference : clear implicits.
Arguments h_intersection : clear implicits.
Arguments h_symmetric_difference : clear implicits.
