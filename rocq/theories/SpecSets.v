(** When a value seen through the set interface really is a set. *)
From Verif Require Import Prelude Spec ModelIter.

(** Iteration yields pairwise different elements, [len] counts them, [contains] tells membership and never fails. *)
Record lawful_set {T} (eqT : T -> T -> bool) (s : set_val T) : Prop := {
  set_distinct_law : distinct eqT (sv_items s);
  set_len_law : sv_len s = length (sv_items s);
  set_contains_law : forall x, exists b, sv_contains s x = Ok b /\ (b = true <-> member eqT x (sv_items s)) }.

(** [x] is an element of [s]. *)
Definition elem {T} (eqT : T -> T -> bool) (x : T) (s : set_val T) : Prop := member eqT x (sv_items s).

(** Everything an [ExactSizeIterator + FusedIterator] promises in state [st] when the items [l] are still to come. *)
Record exact_contract {St A} (it : iter_ops St A) (st : St) (l : list A) : Prop := {
  ct_yields : yields (it_next it) st l;
  ct_fused : forall st1 st2 st3, reaches (it_next it) st st1 -> it_next it st1 = Ok (None, st2) -> reaches (it_next it) st2 st3 ->
    exists st4, it_next it st3 = Ok (None, st4);
  ct_hint : it_size_hint it st = (N.of_nat (length l), Some (N.of_nat (length l)));
  ct_len : it_len it st = length l;
  ct_count : it_count it st = length l;
  ct_fold : forall B (init : B) g, it_fold it st init g = fold_left g l init }.

(** Two listings hold the same elements up to [eqT]. *)
Definition same_elements {T} (eqT : T -> T -> bool) (l l' : list T) : Prop := forall x, member eqT x l <-> member eqT x l'.

(** [takes next st l st']: from [st], as many calls of [next] as [l] is long each gave an item, the items are [l], and they lead to [st']. *)
Inductive takes {S A} (next : S -> res (option A * S)) : S -> list A -> S -> Prop :=
| takes_none st : takes next st [] st
| takes_one st x st1 l st2 : next st = Ok (Some x, st1) -> takes next st1 l st2 -> takes next st (x :: l) st2.
