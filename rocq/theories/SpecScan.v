(** Twice the number of comparisons when [d] of [n] entries are dropped: the kept ones are compared with all [d] noted indices, the dropped
    ones with 1, 2, .., [d] of them. *)
From Coq Require Import NArith Arith.

Definition twice_scans (n d : nat) : nat := 2 * ((n - d) * d) + d * (d + 1).
