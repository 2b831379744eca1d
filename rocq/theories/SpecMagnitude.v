(** The safe trait [CollectionMagnitude] (traits/collection_magnitude.rs L5-11), which anyone can implement, and what an implementation has to
    obey. Nothing here mentions the implementation of the tables. *)
From Verif Require Import Prelude.

(** An implementation: a type with [TryFrom<usize>], [Into<usize>], [MAX_CAPACITY] (a [usize]) and [ZERO]. Simplification: the conversions are
    functions of their argument that do not panic. *)
Record magnitude_impl := {
  mg_elem : Type;
  mg_max_capacity : N;
  mg_zero : mg_elem;
  mg_try_from : N -> option mg_elem;
  mg_into : mg_elem -> N }.

(** What becomes of a number that is stored and read again; [ZERO] is stored instead of a number that cannot be. *)
Definition read_back (cm : magnitude_impl) (v : N) : N :=
  match mg_try_from cm v with Some e => mg_into cm e | None => mg_into cm (mg_zero cm) end.

(** Enough for every lookup to stay within its array: [ZERO] is 0, and storing the numbers up to the capacity neither enlarges them nor reverses
    their order. *)
Record keeps_in_range (cm : magnitude_impl) : Prop := {
  kr_zero : mg_into cm (mg_zero cm) = 0;
  kr_not_more : forall v, 1 <= v -> v <= mg_max_capacity cm -> read_back cm v <= v;
  kr_in_order : forall v, v + 1 <= mg_max_capacity cm -> read_back cm v <= read_back cm (v + 1) }.

(** Enough for every key to be found: the numbers up to the capacity come back as they were. (With a capacity of 0 nothing is stored.) *)
Record keeps_indices (cm : magnitude_impl) : Prop := {
  ki_zero : mg_into cm (mg_zero cm) = 0;
  ki_exact : forall v, 1 <= mg_max_capacity cm -> v <= mg_max_capacity cm -> read_back cm v = v }.

(** A type of [bits] bits whose [MAX_CAPACITY] is one more than the largest number it holds. *)
Definition off_by_one (bits : N) : magnitude_impl := {|
  mg_elem := N;
  mg_max_capacity := 2 ^ bits;
  mg_zero := 0;
  mg_try_from := fun v => if v <? 2 ^ bits then Some v else None;
  mg_into := fun v => v |}.
