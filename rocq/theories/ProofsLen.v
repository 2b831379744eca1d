(** Proofs about [Len] for std types (C89). *)
From Coq Require Import NArith List Lia.
From Verif Require Import Prelude ModelTables ModelLen SpecLen.

Lemma text_len {A} (v : held A) s : text v s -> returns (fun fuel => len_call len_impl fuel v) (length s).
Proof.
  intros H. induction H as [s|s|s|s|s|s H|s H|p v s H [k IH]];
    try (exists 1%nat; intros [|fuel] L; [lia|]; cbn [len_call len_impl own_len]; unfold to_bytes; rewrite ?removelast_last; reflexivity).
  exists (S k). intros [|fuel] L; [lia|]. cbn [len_call len_impl]. apply IH. lia.
Qed.

Lemma items_len {A} (v : held A) l : items v l -> returns (fun fuel => len_call len_impl fuel v) (length l).
Proof.
  intros H. induction H as [c l|p v l H [k IH]].
  - exists 1%nat. intros [|fuel] L; [lia|]. reflexivity.
  - exists (S k). intros [|fuel] L; [lia|]. cbn [len_call len_impl]. apply IH. lia.
Qed.

Lemma returns_empty {A} (v : held A) n : returns (fun fuel => len_call len_impl fuel v) n -> returns (fun fuel => is_empty_call len_impl fuel v) (Nat.eqb n 0).
Proof. intros [k H]. exists k. intros fuel L. unfold is_empty_call. rewrite (H fuel L). reflexivity. Qed.

Lemma returns_hash {A} (v : held A) n : returns (fun fuel => len_call len_impl fuel v) n -> returns (fun fuel => length_hasher len_impl fuel v) (N.of_nat n).
Proof. intros [k H]. exists k. intros fuel L. unfold length_hasher. rewrite (H fuel L). reflexivity. Qed.

(** The body [self.len()] returns exactly for the types that have a function of their own. *)
Lemma self_len {A} (impl : held A -> len_body) v : impl v = SelfLen ->
  ((exists n, returns (fun fuel => len_call impl fuel v) n) <-> own_len v <> None).
Proof.
  intros E. split.
  - intros [n [k H]] N. assert (X : forall fuel, len_call impl fuel v = None).
    { induction fuel as [|fuel IH]; [reflexivity|]. cbn [len_call]. rewrite E, N. exact IH. }
    specialize (H k (le_n k)). congruence.
  - intros N. destruct (own_len v) as [n|] eqn:O; [|congruence]. exists n, 1%nat. intros [|fuel] L; [lia|]. cbn [len_call]. rewrite E, O. reflexivity.
Qed.
