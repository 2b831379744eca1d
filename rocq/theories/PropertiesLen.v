(** Property theorems about [Len] for strings, std collections and pointers (C89). Statements only; proofs are in [ProofsLen.v]. *)
From Coq Require Import NArith List Lia.
From Verif Require Import Prelude ModelTables ModelLen SpecLen ProofsLen.

(** Every implementation returns, with the number of bytes of the text or of the items, through any number of pointers. *)
Theorem C89_text : forall A (v : held A) s, text v s ->
  returns (fun fuel => len_call len_impl fuel v) (length s) /\
  exists e, returns (fun fuel => is_empty_call len_impl fuel v) e /\ (e = true <-> s = []).
Proof.
  intros A v s H. apply text_len in H. split; [exact H|]. eexists. split; [apply returns_empty, H|]. destruct s; cbn; split; congruence.
Qed.
Print Assumptions C89_text.
Theorem C89_items : forall A (v : held A) l, items v l ->
  returns (fun fuel => len_call len_impl fuel v) (length l) /\
  exists e, returns (fun fuel => is_empty_call len_impl fuel v) e /\ (e = true <-> l = []).
Proof.
  intros A v s H. apply items_len in H. split; [exact H|]. eexists. split; [apply returns_empty, H|]. destruct s; cbn; split; congruence.
Qed.
Print Assumptions C89_items.

(** The length hasher gives a text the same code whatever type holds it: the one by which the emitted tables are laid out. *)
Theorem C89_length_hasher : forall A B (key : held A) (query : held B) s, text key s -> text query s ->
  exists code, length_hash_one s = Ok code /\ returns (fun fuel => length_hasher len_impl fuel key) code /\
    returns (fun fuel => length_hasher len_impl fuel query) code.
Proof. intros A B key query s HK HQ. eexists. split; [reflexivity|]. split; apply returns_hash, text_len; assumption. Qed.
Print Assumptions C89_length_hasher.

(** The plain body [self.len()] would call itself for ever in the types without a function of their own. *)
Theorem C89_plain_body : forall A (impl : held A -> len_body) v, impl v = SelfLen ->
  ((exists n, returns (fun fuel => len_call impl fuel v) n) <-> own_len v <> None).
Proof. exact @self_len. Qed.
Print Assumptions C89_plain_body.

Example C89_example :
  let shared := Behind PRc (Behind PBox (InStr (A := N) [104; 195; 169])) in
  text shared [104; 195; 169] /\ len_call len_impl 3 shared = Some 3%nat /\ len_call len_impl 2 shared = None /\
  is_empty_call len_impl 3 shared = Some false /\ length_hasher len_impl 3 shared = Some 3 /\
  text (InCString (A := N) [104; 105; 0]) [104; 105] /\ len_call len_impl 1 (InCString (A := N) [104; 105; 0]) = Some 2%nat /\
  is_empty_call len_impl 1 (InCStr (A := N) [0]) = Some true /\
  items (Behind PArc (InContainer BTreeSet [1; 2; 3])) [1; 2; 3] /\ len_call len_impl 2 (Behind PArc (InContainer BTreeSet [1; 2; 3])) = Some 3%nat /\
  own_len (InOsString (A := N) [104]) = None.
Proof.
  cbv zeta. repeat apply conj; try (vm_compute; reflexivity); repeat constructor. apply (text_c_string [104; 105]). cbn. intuition lia.
Qed.
