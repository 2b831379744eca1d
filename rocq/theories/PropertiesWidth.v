(** Property C63: scalar and string collections on targets of any pointer width. *)
From Coq Require Import Permutation ZArith.
From Verif Require Import Prelude Spec ModelUtils ModelAnalyzers ModelTables ModelMaps ModelWidth SpecMade
  ProofsBase ProofsScalar ProofsFz ProofsWidth ProofsMade ProofsEmitProps Instances.

(** [usize::MAX] where pointers have 16 and 32 bits. *)
Definition max16 : N := 2 ^ 16 - 1.
Definition max32 : N := 2 ^ 32 - 1.

(** Some key sits at each end of the range of [usize]. *)
Definition both_ends {K V} (umax : N) (idx : K -> N) (input : list (K * V)) : Prop :=
  exists a b, In a (map fst input) /\ In b (map fst input) /\ idx a = 0 /\ idx b = umax.

(** ** C63 *)

(** The models used everywhere else are the 64-bit instance. *)
Theorem C63_sixty_four_bits : forall K V (idx : K -> N) cmp (input : list (K * V)) usort md,
  fz_scalar_map_new_on usize_max usort md idx cmp input = fz_scalar_map_new usort md idx cmp input /\
  dense_map_new_on usize_max md idx cmp input = dense_map_new md idx cmp input /\
  sparse_map_new_on usize_max md idx cmp input = sparse_map_new md idx cmp input.
Proof. intros. repeat split. Qed.
Print Assumptions C63_sixty_four_bits.

Theorem C63_sixty_four_bits_strings : forall V usort bh (input : list (bytes * V)),
  fz_string_map_with_hasher_on usize_max usort bh input = fz_string_map_with_hasher usort bh input.
Proof. reflexivity. Qed.
Print Assumptions C63_sixty_four_bits_strings.

(** Whatever the width and the build mode, construction fails exactly when there are keys at both ends; otherwise the map answers for
    the supplied entries. *)
Theorem C63_scalar_any_width : forall K V Q umax usort md idx cmp idxQ (eqv : Q -> K -> bool) (input : list (K * V)),
  umax <= usize_max -> sorts_by_slot usort -> lawful_scalar idx cmp -> lawful_query_scalar idx idxQ eqv ->
  (forall k, In k (map fst input) -> idx k <= umax) ->
  (both_ends umax idx input -> fz_scalar_map_new_on umax usort md idx cmp input = Panic) /\
  (~ both_ends umax idx input -> exists m, fz_scalar_map_new_on umax usort md idx cmp input = Ok m /\
     answers (fz_scalar_ops idxQ eqv) (idx_eq idx) eqv m input).
Proof.
  intros K V Q umax usort md idx cmp idxQ eqv input HU US LS LQ HB. split; intros X.
  - apply fz_scalar_on_over; auto.
  - destruct (fz_scalar_on_ok umax HU idx cmp idxQ eqv LS LQ input HB usort US md X) as [m [E _]]. exists m. split; [exact E|].
    apply made_answers. eapply made_fz_scalar_on; eauto.
Qed.
Print Assumptions C63_scalar_any_width.

Theorem C63_sparse_any_width : forall K V Q umax md idx cmp idxQ (eqv : Q -> K -> bool) (input : list (K * V)),
  umax <= usize_max -> lawful_scalar idx cmp -> lawful_query_scalar idx idxQ eqv ->
  (forall k, In k (map fst input) -> idx k <= umax) ->
  (both_ends umax idx input -> sparse_map_new_on umax md idx cmp input = Panic) /\
  (~ both_ends umax idx input -> exists m, sparse_map_new_on umax md idx cmp input = Ok m /\
     answers (sparse_ops idxQ) (idx_eq idx) eqv m input).
Proof.
  intros K V Q umax md idx cmp idxQ eqv input HU LS LQ HB. split; intros X.
  - apply sparse_map_on_over; auto.
  - destruct (sparse_map_on_ok umax HU idx cmp idxQ eqv LS LQ input HB md X) as [m [E _]]. exists m. split; [exact E|].
    apply made_answers. eapply made_sparse_on; eauto.
Qed.
Print Assumptions C63_sparse_any_width.

(** Keys at both ends: a panic in debug builds, a refusal in release builds. Otherwise accepted exactly when there is no gap. *)
Theorem C63_dense_any_width : forall K V Q umax md idx cmp idxQ (eqv : Q -> K -> bool) (input : list (K * V)),
  umax <= usize_max -> lawful_scalar idx cmp -> lawful_query_scalar idx idxQ eqv ->
  (forall k, In k (map fst input) -> idx k <= umax) ->
  (both_ends umax idx input -> match md with
     | Debug => dense_map_new_on umax md idx cmp input = Panic
     | Release => exists msg, dense_map_new_on umax md idx cmp input = Ok (RErr msg) end) /\
  (~ both_ends umax idx input -> contiguous idx (map fst input) -> exists m, dense_map_new_on umax md idx cmp input = Ok (ROk m) /\
     answers (dense_ops idxQ) (idx_eq idx) eqv m input) /\
  (~ both_ends umax idx input -> ~ contiguous idx (map fst input) -> exists msg, dense_map_new_on umax md idx cmp input = Ok (RErr msg)).
Proof.
  intros K V Q umax md idx cmp idxQ eqv input HU LS LQ HB. split; [|split].
  - intros X. apply dense_map_on_over; auto.
  - intros X C. destruct (dense_map_on_ok umax HU idx cmp idxQ eqv LS LQ input HB md X C) as [m [E _]]. exists m. split; [exact E|].
    apply made_answers. eapply made_dense_on; eauto.
  - intros X C. apply (dense_map_on_err umax HU idx cmp LS input HB md X C).
Qed.
Print Assumptions C63_dense_any_width.

(** Strings: every width gives the very map that 64 bits give, provided no key is longer than [usize::MAX] bytes. *)
Theorem C63_string_any_width : forall V umax usort bh (input : list (bytes * V)),
  umax <= usize_max -> (forall e, In e input -> N.of_nat (length (fst e)) <= umax) ->
  fz_string_map_with_hasher_on umax usort bh input = fz_string_map_with_hasher usort bh input.
Proof. intros V umax usort bh input HU HL. exact (fz_string_on_eq umax HU usort bh input HL). Qed.
Print Assumptions C63_string_any_width.

(** The same keys frozen on two targets answer alike whenever both constructions succeed. *)
Theorem C63_widths_agree : forall K V Q u1 u2 s1 s2 md1 md2 idx cmp idxQ (eqv : Q -> K -> bool) (input : list (K * V)) m1 m2,
  u1 <= usize_max -> u2 <= usize_max -> sorts_by_slot s1 -> sorts_by_slot s2 -> lawful_scalar idx cmp -> lawful_query_scalar idx idxQ eqv ->
  (forall k, In k (map fst input) -> idx k <= u1) -> (forall k, In k (map fst input) -> idx k <= u2) ->
  fz_scalar_map_new_on u1 s1 md1 idx cmp input = Ok m1 -> fz_scalar_map_new_on u2 s2 md2 idx cmp input = Ok m2 ->
  (forall q, mo_get (fz_scalar_ops idxQ eqv) m1 q = mo_get (fz_scalar_ops idxQ eqv) m2 q) /\
  map_len (fz_scalar_ops idxQ eqv) m1 = map_len (fz_scalar_ops idxQ eqv) m2.
Proof.
  intros K V Q u1 u2 s1 s2 md1 md2 idx cmp idxQ eqv input m1 m2 H1 H2 S1 S2 LS LQ B1 B2 E1 E2.
  assert (A1 : answers (fz_scalar_ops idxQ eqv) (idx_eq idx) eqv m1 input) by (apply made_answers; exact (made_fz_scalar_on _ _ _ u1 s1 md1 idx cmp idxQ eqv input m1 H1 S1 LS LQ B1 E1)).
  assert (A2 : answers (fz_scalar_ops idxQ eqv) (idx_eq idx) eqv m2 input) by (apply made_answers; exact (made_fz_scalar_on _ _ _ u2 s2 md2 idx cmp idxQ eqv input m2 H2 S2 LS LQ B2 E2)).
  split.
  - intros q. rewrite (answers_get _ _ _ _ _ A1 q), (answers_get _ _ _ _ _ A2 q). reflexivity.
  - rewrite (answers_len _ _ _ _ _ A1), (answers_len _ _ _ _ _ A2). reflexivity.
Qed.
Print Assumptions C63_widths_agree.

(** The keys [i32::MIN] and [i32::MAX], whose indices are the two ends of a 32-bit [usize], panic there in both modes and are fine on 64 bits. *)
Theorem C63_scalar_construction_total_refuted : exists (input : list (N * N)),
  (forall e, In e input -> fst e <= max32) /\
  (forall md, fz_scalar_map_new_on max32 slot_sort md (fun k => k) N.compare input = Panic) /\
  (forall md, exists m, fz_scalar_map_new_on usize_max slot_sort md (fun k => k) N.compare input = Ok m).
Proof.
  exists [(0, 10); (max32, 20)]. split; [|split].
  - intros e [<-|[<-|[]]]; vm_compute; discriminate.
  - intros []; vm_compute; reflexivity.
  - intros []; eexists; vm_compute; reflexivity.
Qed.
Print Assumptions C63_scalar_construction_total_refuted.

(** Keys filling all of [usize] (shown with a two-bit one) have no gap, and yet are refused. *)
Theorem C63_dense_full_range_refuted : exists (input : list (N * N)),
  contiguous (fun k => k) (map fst input) /\ (forall e, In e input -> fst e <= 3) /\ length input = 4%nat /\
  dense_map_new_on 3 Debug (fun k => k) N.compare input = Panic /\
  exists msg, dense_map_new_on 3 Release (fun k => k) N.compare input = Ok (RErr msg).
Proof.
  exists [(0, 1); (1, 2); (2, 3); (3, 4)]. split; [|split; [|split; [|split]]].
  - intros a b x Ha Hb Hx. cbn in Ha, Hb. assert (x = 0 \/ x = 1 \/ x = 2 \/ x = 3) by lia. exists x. cbn. lia.
  - intros e H. cbn in H. destruct H as [<-|[<-|[<-|[<-|[]]]]]; cbn; lia.
  - reflexivity.
  - reflexivity.
  - eexists. reflexivity.
Qed.
Print Assumptions C63_dense_full_range_refuted.

(** Examples: 32-bit sparse, dense and hashed maps. *)
Definition ask (umax : N) (input : list (N * N)) (q : N) : res (option N) :=
  m <- fz_scalar_map_new_on umax slot_sort Release (fun k => k) N.compare input ;;
  mo_get (fz_scalar_ops (fun k => k) N.eqb) m q.
Example C63_example :
  ask max32 [(5, 50); (9, 90); (5, 51)] 5 = Ok (Some 51) /\
  ask max32 [(0, 1); (max32 - 1, 2)] (max32 - 1) = Ok (Some 2) /\
  ask max32 [(1, 1); (max32, 2)] max32 = Ok (Some 2) /\
  ask max32 [(0, 1); (max32, 2)] 0 = Panic /\
  ask max16 [(0, 1); (max16, 2)] 0 = Panic /\
  ask usize_max [(0, 1); (max32, 2)] max32 = Ok (Some 2).
Proof. vm_compute. repeat split. Qed.
Example C63_example_both_ends : both_ends max32 (fun k => k) [(max32, 20); (7, 1); (0, 10)] /\ ~ both_ends max32 (fun k => k) [(max32, 20); (7, 1)].
Proof.
  split.
  - exists 0, max32. cbn. auto.
  - intros (a & b & Ha & _ & Ea & _). cbn in Ha. destruct Ha as [<-|[<-|[]]]; discriminate Ea.
Qed.
