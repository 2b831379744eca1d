(** Property theorems about the work of removing repeated keys (C91). Statements only; proofs are in [ProofsScan.v]. Each theorem is followed
    by the axioms it depends on and by a concrete case. *)
From Coq Require Import ZArith ZifyNat ZifyBool Psatz.
From Verif Require Import Prelude Spec ModelUtils ModelTables ModelMaps ModelScan SpecScan SpecMade ProofsBase ProofsDedup ProofsFz ProofsScan Instances.
Local Open Scope nat_scope.

(** Counting changes nothing: for any equality and hash, what is kept is what [using_hash] keeps. *)
Theorem C91_same : forall T (l : list T) hasher eq, fst (using_hash_counted l hasher eq) = using_hash l hasher eq.
Proof. exact @counted_same. Qed.
Print Assumptions C91_same.

(** Whatever equality and hashing do, dropping [d] of [n] entries takes exactly [(n-d)*d + d*(d+1)/2] comparisons of indices. *)
Theorem C91_exact : forall T (l : list T) hasher eq,
  2 * snd (using_hash_counted l hasher eq) = twice_scans (length l) (length l - length (using_hash l hasher eq)).
Proof. intros T l hasher eq. exact (proj2 (counted l hasher eq)). Qed.
Print Assumptions C91_exact.

(** For the entries of a [FzHashMap] or [HashMap] with lawful keys, [d] is the number of entries superseded by later ones. *)
Theorem C91_maps : forall K V eqK hK (input : list (K * V)), lawful_eq eqK -> lawful_hash eqK hK ->
  key_count eqK input <= length input /\
  2 * snd (using_hash_counted input (fun e => hK (fst e)) (fun x y => eqK (fst x) (fst y))) =
  twice_scans (length input) (length input - key_count eqK input).
Proof.
  intros K V eqK hK input LE LH. pose proof (counted input (fun e => hK (fst e)) (fun x y => eqK (fst x) (fst y))) as C.
  rewrite using_hash_survivors in C; [exact C|exact (lawful_same_key _ LE)|intros x y; apply LH].
Qed.
Print Assumptions C91_maps.

(** It is never more than [(n-1)*(n+2)/2], about half the square of the number of entries. *)
Theorem C91_most : forall T (l : list T) hasher eq, 2 * snd (using_hash_counted l hasher eq) <= (length l - 1) * (length l + 2).
Proof. exact @counted_most. Qed.
Print Assumptions C91_most.

(** That many are made whenever all keys are the same. *)
Theorem C91_attained : forall K V eqK hK (input : list (K * V)), lawful_eq eqK -> lawful_hash eqK hK ->
  (forall x y, In x input -> In y input -> eqK (fst x) (fst y) = true) ->
  2 * snd (using_hash_counted input (fun e => hK (fst e)) (fun x y => eqK (fst x) (fst y))) = (length input - 1) * (length input + 2).
Proof.
  intros K V eqK hK input LE LH H. rewrite (proj2 (C91_maps K V eqK hK input LE LH)). unfold key_count. destruct input as [|e r] eqn:E; [reflexivity|].
  rewrite <- E in *. rewrite survivors_constant; [|congruence|exact H]. assert (1 <= length input) by (rewrite E; cbn; lia). unfold twice_scans.
  destruct (length input) as [|n]; [lia|]. replace (S n - 1) with n by lia. replace (S n - n) with 1 by lia. ring.
Qed.
Print Assumptions C91_attained.

(** With every key twice it is still more than a third of the square; without repeated keys there is none. *)
Theorem C91_pairs : forall K V eqK hK (input : list (K * V)), lawful_eq eqK -> lawful_hash eqK hK ->
  (length input = 2 * key_count eqK input ->
   length input * length input <= 3 * snd (using_hash_counted input (fun e => hK (fst e)) (fun x y => eqK (fst x) (fst y)))) /\
  (length input = key_count eqK input -> snd (using_hash_counted input (fun e => hK (fst e)) (fun x y => eqK (fst x) (fst y))) = 0).
Proof.
  intros K V eqK hK input LE LH. pose proof (proj2 (C91_maps K V eqK hK input LE LH)) as C. unfold twice_scans in C. split; intros E.
  - replace (length input - key_count eqK input) with (key_count eqK input) in C by lia. nia.
  - rewrite <- E, Nat.sub_diag in C. lia.
Qed.
Print Assumptions C91_pairs.

(** 60 entries for one key; 60 entries for 30 keys; two keys repeated among five entries. *)
Example C91_example :
  snd (using_hash_counted (map (fun i => (7%N, i)) (seq 0 60)) (fun e => fst e) (fun x y => N.eqb (fst x) (fst y))) = 1829 /\
  snd (using_hash_counted (map (fun i => (N.of_nat (i / 2), i)) (seq 0 60)) (fun e => fst e) (fun x y => N.eqb (fst x) (fst y))) = 1365 /\
  using_hash_counted [(1%N, 10); (2%N, 20); (1%N, 11); (3%N, 30); (2%N, 21)] (fun e => fst e) (fun x y => N.eqb (fst x) (fst y)) =
    ([(1%N, 11); (3%N, 30); (2%N, 21)], 9).
Proof. repeat split; vm_compute; reflexivity. Qed.
