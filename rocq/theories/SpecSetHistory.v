(** Histories of sets: what finite sets answer to a client that holds several of them. Nothing here mentions the implementation. *)
From Verif Require Import Prelude Spec.

Inductive set_op := OpUnion | OpIntersection | OpDifference | OpSymmetricDifference.

(** The calls a client can make. It holds numbered sets, and [CallKeep] gives it another one. *)
Inductive set_call (T : Type) : Type :=
| CallContains (i : nat) (x : T)
| CallSize (i : nat)
| CallNone (i : nat)
(** Iterate over a set, counting the elements of which [p] holds. *)
| CallCountIf (i : nat) (p : T -> bool)
| CallEqual (i j : nat)
| CallSubset (i j : nat)
| CallSuperset (i j : nat)
| CallDisjoint (i j : nat)
(** Count the elements of the union, intersection ... without building it. *)
| CallCount (o : set_op) (i j : nat)
(** Build the union, intersection ... and keep it. *)
| CallKeep (o : set_op) (i j : nat).
Arguments CallContains {T}.
Arguments CallSize {T}.
Arguments CallNone {T}.
Arguments CallCountIf {T}.
Arguments CallEqual {T}.
Arguments CallSubset {T}.
Arguments CallSuperset {T}.
Arguments CallDisjoint {T}.
Arguments CallCount {T}.
Arguments CallKeep {T}.

Inductive set_answer := SaysBool (b : bool) | SaysCount (n : nat) | SaysKept | SaysNoSuchSet.

Section Reference.
Context {T : Type} (eqT : T -> T -> bool).

(** A finite set is a list of pairwise different elements. *)
Definition has (l : list T) (x : T) : bool := existsb (eqT x) l.
Definition lacks (l : list T) (x : T) : bool := negb (has l x).
Fixpoint without_repeats (l : list T) : list T :=
  match l with [] => [] | x :: r => x :: filter (fun y => negb (eqT x y)) (without_repeats r) end.

Definition ref_op (o : set_op) (a b : list T) : list T :=
  match o with
  | OpUnion => a ++ filter (lacks a) b
  | OpIntersection => filter (has b) a
  | OpDifference => filter (lacks b) a
  | OpSymmetricDifference => filter (lacks b) a ++ filter (lacks a) b
  end.

(** Answer from one set, or from two. *)
Definition about {S A} (env : list S) (i : nat) (f : S -> A) (none : A) : A := match nth_error env i with Some s => f s | None => none end.
Definition about2 {S A} (env : list S) (i j : nat) (f : S -> S -> A) (none : A) : A :=
  about env i (fun a => about env j (fun b => f a b) none) none.

Definition ref_set_call (env : list (list T)) (c : set_call T) : set_answer * list (list T) :=
  match c with
  | CallContains i x => (about env i (fun a => SaysBool (has a x)) SaysNoSuchSet, env)
  | CallSize i => (about env i (fun a => SaysCount (length a)) SaysNoSuchSet, env)
  | CallNone i => (about env i (fun a => SaysBool (Nat.eqb (length a) 0)) SaysNoSuchSet, env)
  | CallCountIf i p => (about env i (fun a => SaysCount (length (filter p a))) SaysNoSuchSet, env)
  | CallEqual i j => (about2 env i j (fun a b => SaysBool (forallb (has b) a && forallb (has a) b)) SaysNoSuchSet, env)
  | CallSubset i j => (about2 env i j (fun a b => SaysBool (forallb (has b) a)) SaysNoSuchSet, env)
  | CallSuperset i j => (about2 env i j (fun a b => SaysBool (forallb (has a) b)) SaysNoSuchSet, env)
  | CallDisjoint i j => (about2 env i j (fun a b => SaysBool (forallb (lacks b) a)) SaysNoSuchSet, env)
  | CallCount o i j => (about2 env i j (fun a b => SaysCount (length (ref_op o a b))) SaysNoSuchSet, env)
  | CallKeep o i j => about2 env i j (fun a b => (SaysKept, env ++ [ref_op o a b])) (SaysNoSuchSet, env)
  end.

(** Questions about elements do not tell equal elements apart. *)
Definition respectful (c : set_call T) : Prop :=
  match c with CallCountIf _ p => forall x y, eqT x y = true -> p x = p y | _ => True end.
End Reference.

(** A client decides on its next call, or to stop, from the answers seen so far, most recent first; it makes at most [n] calls. *)
Fixpoint converse {C A S} (step : S -> C -> res (A * S)) (client : list A -> option C) (n : nat) (seen : list A) (s : S) : res (list A * S) :=
  match n with
  | O => Ok (seen, s)
  | Datatypes.S n' =>
      match client seen with
      | None => Ok (seen, s)
      | Some c => r <- step s c ;; converse step client n' (fst r :: seen) (snd r)
      end
  end.
