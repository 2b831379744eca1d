(** The work of removing repeated keys in [DeduppedVec::using_hash] (utils/dedup.rs). There [dupes] is a vector, so that every
    [dupes.contains] goes through it from the start; in [using_eq] and [SortedAndDeduppedVec::new] it is a hash set. *)
From Verif Require Import Prelude ModelUtils.

(** [<[usize]>::contains], called at utils/dedup.rs L68: whether [x] is there, and how many elements it was compared with. *)
Fixpoint scan_contains (x : nat) (v : list nat) : bool * nat :=
  match v with
  | [] => (false, 0%nat)
  | y :: r => if Nat.eqb y x then (true, 1%nat) else let '(b, n) := scan_contains x r in (b, S n)
  end.

(** utils/dedup.rs L66-71: the [retain] with its running index; what is kept, and how many comparisons were made. *)
Fixpoint scan_retain {T} (index : nat) (dupes : list nat) (entries : list T) : list T * nat :=
  match entries with
  | [] => ([], 0%nat)
  | x :: r =>
      let '(b, n) := scan_contains index dupes in
      let '(kept, n') := scan_retain (S index) dupes r in
      (if negb b then x :: kept else kept, (n + n')%nat)
  end.

(** utils/dedup.rs L47-76: [DeduppedVec::using_hash]. [using_hash_dupes] returns the vector in reverse, hence [rev]. The probes of the
    hashbrown table are not counted. *)
Definition using_hash_counted {T} (entries : list T) (hasher : T -> N) (eq : T -> T -> bool) : list T * nat :=
  if Nat.leb 2 (length entries) then
    let dupes := rev (using_hash_dupes hasher eq 0 entries [] []) in
    if negb (is_nil dupes) then scan_retain 0 dupes entries else (entries, 0%nat)
  else (entries, 0%nat).
