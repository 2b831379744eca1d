(** Common vocabulary of the model: outcomes, machine arithmetic, array access. *)
From Coq Require Export List NArith Lia Bool Arith.
Export ListNotations.
Open Scope N_scope.

(** Outcome of running a piece of Rust code.
    [Ok]    : returns normally;
    [Panic] : unwinds (explicit panic, failed unwrap/expect, failed bounds check, overflow in a checked build);
    [UB]    : performs an out-of-range [get_unchecked], i.e. undefined behaviour. *)
Inductive res (A : Type) : Type :=
| Ok (a : A)
| Panic
| UB.
Arguments Ok {A} a.
Arguments Panic {A}.
Arguments UB {A}.

Definition bind {A B} (x : res A) (k : A -> res B) : res B :=
  match x with Ok a => k a | Panic => Panic | UB => UB end.

Notation "x <- e ;; k" := (bind e (fun x => k)) (at level 61, e at next level, right associativity).

Definition fmap {A B} (f : A -> B) (x : res A) : res B :=
  match x with Ok a => Ok (f a) | Panic => Panic | UB => UB end.

(** [Iterator::map] with a closure that may panic, collected into a vector. *)
Fixpoint mapM {A B} (f : A -> res B) (l : list A) : res (list B) :=
  match l with
  | [] => Ok []
  | x :: r => y <- f x ;; ys <- mapM f r ;; Ok (y :: ys)
  end.

(** [usize]/[u64] on a 64-bit target. *)
Definition usize_max : N := 18446744073709551615.
Definition two64 : N := 18446744073709551616.

(** Overflow behaviour of plain [+]/[-]: [Debug] = overflow checks on (panic), [Release] = wrap around. *)
Inductive mode := Debug | Release.

Definition uadd (m : mode) (a b : N) : res N :=
  if a + b <=? usize_max then Ok (a + b)
  else match m with Debug => Panic | Release => Ok ((a + b) mod two64) end.

Definition usub (m : mode) (a b : N) : res N :=
  if b <=? a then Ok (a - b)
  else match m with Debug => Panic | Release => Ok (a + two64 - b) end.

(** Plain indexing [v[i]]: bounds checked. *)
Definition index {A} (l : list A) (i : nat) : res A :=
  match nth_error l i with Some x => Ok x | None => Panic end.

(** [get_unchecked(i)]: undefined behaviour when out of range. *)
Definition get_unchecked {A} (l : list A) (i : nat) : res A :=
  match nth_error l i with Some x => Ok x | None => UB end.

(** [get_unchecked(lo..hi)]: undefined behaviour unless [lo <= hi <= len]. *)
Definition slice_unchecked {A} (l : list A) (lo hi : nat) : res (list A) :=
  if (Nat.leb lo hi && Nat.leb hi (length l))%bool then Ok (firstn (hi - lo) (skipn lo l)) else UB.

(** [&v[lo..hi]]: panics unless [lo <= hi <= len]. *)
Definition slice {A} (l : list A) (lo hi : nat) : res (list A) :=
  if (Nat.leb lo hi && Nat.leb hi (length l))%bool then Ok (firstn (hi - lo) (skipn lo l)) else Panic.

(** In-place write of one element (no effect when out of range; callers check). *)
Fixpoint list_set {A} (l : list A) (i : nat) (x : A) : list A :=
  match l, i with
  | [], _ => []
  | _ :: r, O => x :: r
  | y :: r, S i' => y :: list_set r i' x
  end.

(** [v[i] = x]: bounds checked. *)
Definition store {A} (l : list A) (i : nat) (x : A) : res (list A) :=
  if Nat.ltb i (length l) then Ok (list_set l i x) else Panic.

(** [usize::next_power_of_two]: least power of two [>= n] (1 for 0). Overflow for [n > 2^63] is not modelled:
    every argument in the code is a small multiple of a vector length. *)
Definition next_power_of_two (n : N) : N := 2 ^ N.log2_up n.

(** [usize::is_power_of_two]. *)
Definition is_power_of_two (n : N) : bool := negb (n =? 0) && (2 ^ N.log2 n =? n).

(** [usize::trailing_zeros] (64 for 0). *)
Fixpoint trailing_zeros_pos (p : positive) : N :=
  match p with xO q => N.succ (trailing_zeros_pos q) | _ => 0 end.
Definition trailing_zeros (n : N) : N :=
  match n with N0 => 64 | Npos p => trailing_zeros_pos p end.

(** [u64::div_ceil]. *)
Definition div_ceil (a b : N) : N := (a + b - 1) / b.
