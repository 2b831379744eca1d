(** What a client of a map does over time, as far as Rust's borrow checker allows it: it borrows the map, uses what it got, lets go of it, and
    borrows the map again. Nothing here mentions the implementation. *)
From Coq Require Import Cantor.
From Verif Require Import SpecAliasing.
From Verif Require Import Prelude.

(** ** One thing after the other *)

(** The pointers of the [k]-th program under names that no other one uses; all of them start from the same [Owner]. *)
Definition apart (k : nat) (t : tag) : tag := match t with Owner => Owner | Ptr i w => Ptr (Cantor.to_nat (k, i)) w end.
Definition rename (g : tag -> tag) (e : event) : event :=
  match e with Reborrow k parent new range => Reborrow k (g parent) (g new) range | Use write t l => Use write (g t) l end.
Fixpoint in_turn (k : nat) (ps : list (list event)) : list event :=
  match ps with [] => [] | p :: r => map (rename (apart k)) p ++ in_turn (S k) r end.
(** Everything is derived from the owner by reference: it is not made anew, nor cast to a raw pointer. *)
Definition from_owner (p : list event) : Prop :=
  forall e, In e p -> match e with Reborrow k parent new _ => new <> Owner /\ (k = Raw -> parent <> Owner) | Use _ _ _ => True end.

(** ** While the map is shared *)

(** A client looks up keys ([get], or [get_key_value] if [with_key]), starts iterators, takes the entry at [pos] from the iterator started by
    call [i] (in any order, so as to cover clones of iterators), and reads a key or value it was given by call [i], whenever it wants. *)
Inductive look (Q : Type) := Look (with_key : bool) (q : Q) | Walk | Step (i pos : nat) | Read (key : bool) (i pos : nat).
Arguments Look {Q}. Arguments Walk {Q}. Arguments Step {Q}. Arguments Read {Q}.

(** ** While it iterates mutably: it takes the next entry, or reads the key or reads or writes the value of one it has. *)
Inductive visit := Advance | ReadKey (pos : nat) | UseVal (write : bool) (pos : nat).

(** ** Everything *)
Inductive phase (Q : Type) :=
| Sharing (l : list (look Q))
| Taking (q : Q) (how : list bool)                          (* [get_mut], then reads and writes of the value *)
| Visiting (l : list visit)                                 (* [iter_mut] or [values_mut] *)
| TakingMany (keys : list Q) (how : list (nat * bool)).     (* [get_disjoint_mut], then reads and writes of the values *)
Arguments Sharing {Q}. Arguments Taking {Q}. Arguments Visiting {Q}. Arguments TakingMany {Q}.
(** No phase takes more than one key at once. *)
Definition one_at_a_time {Q} (ps : list (phase Q)) : Prop := forall keys how, In (TakingMany keys how) ps -> (length keys <= 1)%nat.
