(** Which of the two inline hash tables the macros emit. *)
From Coq Require Import String Ascii.
From Verif Require Import Spec ModelUtils ModelAnalyzers ModelTables ModelMaps ModelEmit ProofsBase ProofsTable ProofsCost ProofsEmitProps.
From Verif Require Import Prelude.
From Coq Require Import Permutation.
From Coq Require Import ZArith ZifyNat ZifyN ZifyBool.

Theorem emitted_form {KB X W} (usort : list (N * entry KB X W) -> list (N * entry KB X W)) g (h : KB -> N) hc es out :
  sorts_by_slot usort -> N.of_nat (List.length es) <= usize_max ->
  gen_inline_hash usort g (fun k => Ok (h k)) hc es = Ok out ->
  (exists len n cm slots rendered, o_ctor out = CHash len n cm slots rendered hc /\ ~ NoDup (map (fun e => h (fst e) mod N.of_nat n) es)) \/
  (exists len n cm slots rendered, o_ctor out = CHashNc len n cm slots rendered hc /\ NoDup (map (fun e => h (fst e) mod N.of_nat n) es)).
Proof.
  intros HU HC E. unfold gen_inline_hash in E.
  destruct (ht_new usort Large es (fun x => Ok (h (e_key x)))) as [[t|m]| |] eqn:EN; cbn [bind unwrap] in E; try discriminate E.
  assert (HX := collisions_nodup usort Large es (fun x => h (e_key x)) t HU HC EN).
  injection E as <-. cbn [o_ctor]. destruct (ht_has_collisions t) eqn:EC.
  - left. do 5 eexists. split; [reflexivity|]. intros HD. apply HX in HD. discriminate.
  - right. do 5 eexists. split; [reflexivity|]. apply HX. reflexivity.
Qed.
