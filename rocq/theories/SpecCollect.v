(** What it means to build a collection from an iterator. *)
From Verif Require Import ModelSerde ModelCollect.
From Verif Require Import Prelude.

Section Spec.
Context {A S : Type}.
Variable src : source A S.

(** [s] yields the items [l] and is then in [s']. *)
Inductive reaches : S -> list A -> S -> Prop :=
| reaches_here s : reaches s [] s
| reaches_next s x s1 l s' : src_next src s = Yield x s1 -> reaches s1 l s' -> reaches s (x :: l) s'.

(** The items up to the first [None]. *)
Definition yields (s : S) (l : list A) : Prop := exists s' s'', reaches s l s' /\ src_next src s' = Done s''.
(** The iterator panics after the items [l]. *)
Definition breaks (s : S) (l : list A) : Prop := exists s', reaches s l s' /\ src_next src s' = Panics.
(** [size_hint] never promises more than there is, and does not panic. *)
Definition honest (s : S) : Prop :=
  forall l1 s' l2, reaches s l1 s' -> yields s' l2 -> exists n, src_hint src s' = Some n /\ n <= N.of_nat (length l2).

(** [r], run with enough fuel, makes of the items of [s] what [good] says. *)
Definition collects {M} (size : N) (s : S) (r : nat -> option (res M)) (good : M -> list A -> Prop) : Prop :=
  (** What comes out was made of exactly the items up to the first [None]. *)
  (forall fuel m, r fuel = Some (Ok m) -> exists l, yields s l /\ good m l) /\
  (** It does come out of honest iterators whose items, doubled, fit into memory. *)
  (forall l, yields s l -> honest s -> size * N.max 8 (2 * N.of_nat (length l)) <= isize_max -> N.of_nat (length l) <= usize_max ->
     exists fuel m, r fuel = Some (Ok m) /\ good m l) /\
  (** The iterator's panic comes through, and iterators without end are cut off by one. *)
  (forall l, breaks s l -> exists fuel, r fuel = Some Panic) /\
  ((forall l, ~ yields s l) -> exists fuel, r fuel = Some Panic) /\
  (** It always ends, never in undefined behaviour, and more fuel changes nothing. *)
  (exists fuel, r fuel <> None) /\
  (forall fuel, r fuel <> Some UB) /\
  (forall fuel more x, r fuel = Some x -> r (fuel + more)%nat = Some x).
End Spec.
