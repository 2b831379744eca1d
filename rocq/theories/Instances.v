(** Concrete instances of the laws in [Spec.v], used by the Examples beside the theorems. *)
From Verif Require Import ModelUtils Spec ProofsBase ProofsDedup.
From Coq Require Import Permutation Sorted.
From Verif Require Import Prelude.

Lemma N_eqb_lawful : lawful_eq N.eqb.
Proof.
  split.
  - intro. apply N.eqb_refl.
  - intros x y H. rewrite N.eqb_sym. exact H.
  - intros x y z H1 H2. apply N.eqb_eq in H1, H2. subst. apply N.eqb_refl.
Qed.

Lemma self_equivalent {K} (eqK : K -> K -> bool) : lawful_eq eqK -> lawful_equivalent eqK eqK.
Proof.
  intros L q k1 k2 H. destruct (eqK q k2) eqn:E1, (eqK k1 k2) eqn:E2; auto; exfalso.
  - rewrite (eq_trans_law _ L k1 q k2) in E2; [discriminate| |auto]. apply (eq_sym_law _ L); auto.
  - rewrite (eq_trans_law _ L q k1 k2) in E1; auto; discriminate.
Qed.

Lemma N_eqb_equivalent : lawful_equivalent N.eqb N.eqb.
Proof. apply self_equivalent, N_eqb_lawful. Qed.

(** Any function of the key is a lawful hash when equality is Leibniz equality. *)
Lemma N_hash_lawful (h : N -> N) : lawful_hash N.eqb h.
Proof. intros x y H. apply N.eqb_eq in H. subst; auto. Qed.

Lemma N_query_hash_lawful (h : N -> N) : lawful_query_hash N.eqb h h.
Proof. intros x y H. apply N.eqb_eq in H. subst; auto. Qed.

Lemma N_compare_lawful : lawful_ord N.compare.
Proof.
  split.
  - apply N.compare_refl.
  - intros. apply N.compare_antisym.
  - intros x y z H. apply N.compare_eq_iff in H. subst; auto.
  - intros x y z H1 H2. rewrite N.compare_lt_iff in *. lia.
Qed.

Lemma self_comparable {K} (cmp : K -> K -> comparison) : lawful_ord cmp -> lawful_comparable cmp cmp.
Proof.
  intros [R O E L]. split.
  - intros. apply E; auto.
  - intros. eapply L; eauto.
  - intros q k1 k2 H1 H2. rewrite O, (L k2 k1 q H2); [reflexivity|]. rewrite O, H1. reflexivity.
  - intros q k1 k2 H. rewrite (O k1 q), (O k2 q), (E k1 k2 q H). reflexivity.
Qed.

Lemma N_comparable : lawful_comparable N.compare N.compare.
Proof. apply self_comparable, N_compare_lawful. Qed.

(** A key type with more keys than indices in use: bytes, as scalars. *)
Definition byte := { n : N | n <? 256 = true }.
Definition byte_val (b : byte) : N := proj1_sig b.
Definition mk_byte (n : N) : byte :=
  match Bool.bool_dec (n <? 256) true with left H => exist _ n H | right _ => exist _ 0 (eq_refl : 0 <? 256 = true) end.
Definition byte_cmp (a b : byte) : comparison := N.compare (byte_val a) (byte_val b).
Definition byte_eq (a b : byte) : bool := byte_val a =? byte_val b.

Lemma byte_scalar : lawful_scalar byte_val byte_cmp.
Proof.
  split.
  - intros [n H]. cbn. apply N.ltb_lt in H. unfold usize_max. lia.
  - reflexivity.
Qed.
Lemma byte_query_scalar : lawful_query_scalar byte_val byte_val byte_eq.
Proof. split; [apply (idx_bound_law _ _ byte_scalar)|reflexivity]. Qed.

(** Two different sorts of tagged items: an insertion sort, and one that also reverses items with equal tags. *)
Definition slot_sort {T} (l : list (N * T)) : list (N * T) := stable_sort (fun x y => N.compare (fst x) (fst y)) l.
Definition slot_sort_rev {T} (l : list (N * T)) : list (N * T) := slot_sort (rev l).

Lemma tag_cmp_lawful {T} : lawful_ord (fun x y : N * T => N.compare (fst x) (fst y)).
Proof.
  destruct N_compare_lawful as [R O E L]. split; intros; eauto.
Qed.

Lemma StronglySorted_nth {A} (R : A -> A -> Prop) l : (forall x, R x x) -> StronglySorted R l ->
  forall i j x y, (i <= j)%nat -> nth_error l i = Some x -> nth_error l j = Some y -> R x y.
Proof.
  intros RR S. induction S as [|a l S IH F]; intros i j x y H H1 H2.
  - destruct i; discriminate.
  - destruct i, j; cbn in *; try lia.
    + inversion H1; inversion H2; subst; auto.
    + inversion H1; subst. rewrite Forall_forall in F. apply F. eapply nth_error_In; eauto.
    + eapply (IH i j); eauto. lia.
Qed.

Lemma slot_sort_sorts {T} : sorts_by_slot (@slot_sort T).
Proof.
  intro l. split.
  - apply stable_sort_perm.
  - intros i j x y H H1 H2.
    pose proof (stable_sort_sorted _ tag_cmp_lawful l) as S.
    assert (H3 : N.compare (fst x) (fst y) <> Gt).
    { eapply (StronglySorted_nth (fun a b => N.compare (fst a) (fst b) <> Gt)); [|exact S|exact H|exact H1|exact H2].
      intros a. rewrite N.compare_refl. discriminate. }
    apply N.compare_le_iff. exact H3.
Qed.

Lemma slot_sort_rev_sorts {T} : sorts_by_slot (@slot_sort_rev T).
Proof.
  intro l. destruct (slot_sort_sorts (rev l)) as [P S]. split.
  - etransitivity; [apply Permutation_rev|exact P].
  - exact S.
Qed.
