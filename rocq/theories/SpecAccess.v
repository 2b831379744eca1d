(** What it means to deserialize a collection from an access that may do anything. *)
From Coq Require Import String.
From Verif Require Import ModelTables ModelSerde ModelAccess.
From Verif Require Import Prelude.

Section Spec.
Context {E S B : Type}.
Variable rd : reader E S.
(** The item that is taken for [b] is [lend b]; the items in [withheld] cannot be taken. *)
Variable lend : B -> E.
Variable withheld : E -> Prop.

(** From [s] the access gives the items [l] and is then in [s']. *)
Inductive given : S -> list E -> S -> Prop :=
| given_none s : given s [] s
| given_one s x s1 l s' : rd_next rd s = Gives x s1 -> given s1 l s' -> given s (x :: l) s'.

(** It gives the items of [l] and then ends, fails, gives something that cannot be taken, or panics; [s'] is the access after that. *)
Definition ends (s : S) (l : list B) (s' : S) : Prop := exists s1, given s (map lend l) s1 /\ rd_next rd s1 = Ends s'.
Definition fails (s : S) (l : list B) (msg : string) (s' : S) : Prop := exists s1, given s (map lend l) s1 /\ rd_next rd s1 = Fails msg s'.
Definition refuses (s : S) (l : list B) (s' : S) : Prop := exists s1 x, given s (map lend l) s1 /\ rd_next rd s1 = Gives x s' /\ withheld x.
Definition crashes (s : S) (l : list B) : Prop := exists s1, given s (map lend l) s1 /\ rd_next rd s1 = Crashes.
(** The items [l] were announced, or fit into memory when doubled. *)
Definition fit (size : N) (hint : option N) (l : list B) : Prop :=
  N.of_nat (List.length l) <= usize_max /\
  (size * N.max 8 (2 * N.of_nat (List.length l)) <= isize_max \/ exists n, hint = Some n /\ N.of_nat (List.length l) <= n).

(** [run], given enough fuel, makes of the access in state [s] what [good] says. *)
Definition deserializes {M} (size : N) (s : S) (run : nat -> option (res (result M * S))) (good : M -> list B -> Prop) : Prop :=
  (** It always ends, never in undefined behaviour, and more fuel changes nothing. *)
  (exists fuel, run fuel <> None) /\
  (forall fuel, run fuel <> Some UB) /\
  (forall fuel more x, run fuel = Some x -> run (fuel + more)%nat = Some x) /\
  (** A size hint that panics, or promises more than can be allocated, is a panic. *)
  (rd_hint rd s = None -> exists fuel, run fuel = Some Panic) /\
  (forall n s0, rd_hint rd s = Some (Some n, s0) -> isize_max < size * n -> exists fuel, run fuel = Some Panic) /\
  (** A collection is made of exactly the items up to the end, an error is the first one; the access is not asked again after either. *)
  (forall fuel m s', run fuel = Some (Ok (ROk m, s')) -> exists hint s0 l, rd_hint rd s = Some (hint, s0) /\ ends s0 l s' /\ good m l) /\
  (forall fuel msg s', run fuel = Some (Ok (RErr msg, s')) ->
     exists hint s0 l, rd_hint rd s = Some (hint, s0) /\ (fails s0 l msg s' \/ refuses s0 l s')) /\
  forall hint s0, rd_hint rd s = Some (hint, s0) -> (forall n, hint = Some n -> size * n <= isize_max) ->
    (** They do come out if the items before them fit. *)
    (forall l s', ends s0 l s' -> fit size hint l -> exists fuel m, run fuel = Some (Ok (ROk m, s')) /\ good m l) /\
    (forall l msg s', fails s0 l msg s' -> fit size hint l -> exists fuel, run fuel = Some (Ok (RErr msg, s'))) /\
    (forall l s', refuses s0 l s' -> fit size hint l -> exists fuel msg, run fuel = Some (Ok (RErr msg, s'))) /\
    (** A panic of the access comes through, and an access without end is cut off by one. *)
    (forall l, crashes s0 l -> exists fuel, run fuel = Some Panic) /\
    ((forall l s', ~ ends s0 l s') -> (forall l msg s', ~ fails s0 l msg s') -> (forall l s', ~ refuses s0 l s') ->
     exists fuel, run fuel = Some Panic).
End Spec.

(** Strings that cannot be borrowed from the input. *)
Definition transient_entry {V} (x : str_datum * V) : Prop := match fst x with Transient _ => True | Lent _ => False end.
Definition transient (x : str_datum) : Prop := match x with Transient _ => True | Lent _ => False end.

(** An access that reads off a list. *)
Definition listed {E} (hint : option N) : reader E (list (result E)) :=
  {| rd_hint := fun s => Some (hint, s);
     rd_next := fun s => match s with [] => Ends [] | ROk x :: r => Gives x r | RErr msg :: r => Fails msg r end |}.
