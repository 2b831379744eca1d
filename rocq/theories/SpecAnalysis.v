(** What the key analyses must answer. *)
From Verif Require Import Prelude Spec ModelAnalyzers ModelTables.

(** The answer of the string-key analysis when [c] is the first good enough range: nothing found, or a whole key selected in keys of one
    length, means "general". *)
Definition verdict (mx : N) (c : option (bool * N * N)) : slice_analysis :=
  match c with
  | None => SliceGeneral
  | Some (true, lo, hi) => if hi - lo =? mx then SliceGeneral else LeftHandSubslice lo hi
  | Some (false, lo, hi) => RightHandSubslice lo hi
  end.

(** A usable range: not empty, at most 16 long, inside every key, a proper part of some key, and leaving at most the tolerated number of
    keys that hash like an earlier one. *)
Definition range_ok {T} (hash_one : list T -> N) (left : bool) (keys : list (list T)) (lo hi : N) : Prop :=
  lo < hi /\ hi - lo <= 16 /\ (forall s, In s keys -> hi <= N.of_nat (length s)) /\
  (exists s, In s keys /\ hi - lo < N.of_nat (length s)) /\
  repeats (map (fun s => hash_one (part left lo hi s)) keys) <= N.of_nat (length keys) / 20.

Definition analysis_ok {T} (hash_one : list T -> N) (keys : list (list T)) (a : slice_analysis) : Prop :=
  match a with
  | SliceGeneral => True
  | LeftHandSubslice lo hi => range_ok hash_one true keys lo hi
  | RightHandSubslice lo hi => range_ok hash_one false keys lo hi
  | SliceLength => spread_lengths keys
  end.

(** Number of integers between the least and the greatest element of [l]. *)
Definition spans (l : list N) (n : N) : Prop :=
  exists mn mx, In mn l /\ In mx l /\ (forall x, In x l -> mn <= x <= mx) /\ n = mx - mn + 1.

(** How many entries a hash map of each magnitude is documented to hold (traits/collection_magnitude.rs L13, L21, L29). *)
Definition magnitude_limit (cm : magnitude) : N := match cm with Small => 2 ^ 8 - 1 | Medium => 2 ^ 16 - 1 | Large => 2 ^ 64 - 1 end.
