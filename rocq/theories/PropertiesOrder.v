(** Property theorems about scalar maps whose keys are ordered differently from their indices (C88). Statements only; proofs are in
    [ProofsOrder.v]. Each theorem is followed by the axioms it depends on and by a concrete case. *)
From Coq Require Import ZArith ZifyNat ZifyN ZifyBool.
From Verif Require Import Prelude Spec ModelUtils ModelAnalyzers ModelTables ModelMaps ModelSerde ModelAlloc SpecMade SpecAnalysis SpecOrder
  ProofsBase ProofsOrder ProofsAlloc Instances.

(** The indices fill a range: construction always succeeds, and the supplied keys are looked up rightly exactly if the orders agree on them. *)
Theorem C88_range : forall K V usort md idx cmp (input : list (K * V)), own_order idx cmp -> sorts_by_slot usort ->
  span_representable idx (map fst input) -> contiguous idx (map fst input) ->
  exists m, fz_scalar_map_new usort md idx cmp input = Ok m /\
    ((forall k, In k (map fst input) -> mo_get_key_value (fz_scalar_ops idx (idx_eq idx)) m k = Ok (spec_entry (idx_eq idx) input k)) <->
     agree idx cmp (map fst input)).
Proof. exact (fun K V usort md idx cmp input OO US => fz_range_exact idx cmp OO usort md input US). Qed.
Print Assumptions C88_range.

(** If they agree, everything is answered rightly, for every query type. *)
Theorem C88_range_agreeing : forall K V Q usort md idx cmp idxQ (eqv : Q -> K -> bool) (input : list (K * V)) m,
  own_order idx cmp -> lawful_query_scalar idx idxQ eqv -> sorts_by_slot usort ->
  span_representable idx (map fst input) -> contiguous idx (map fst input) -> agree idx cmp (map fst input) ->
  fz_scalar_map_new usort md idx cmp input = Ok m -> answers (fz_scalar_ops idxQ eqv) (idx_eq idx) eqv m input.
Proof.
  intros K V Q usort md idx cmp idxQ eqv input m OO LQ US HS HC A E.
  destruct (fz_range idx cmp idxQ eqv OO LQ usort US md input HS HC) as (m' & E' & H & _). rewrite E in E'. injection E' as <-. exact (H A).
Qed.
Print Assumptions C88_range_agreeing.

(** The indices leave gaps: if the range is too wide for a table the order plays no part. Otherwise the map is right if the first and
    the last key have the least and the greatest index; if not, construction panics (in release builds, as long as the first index is
    not above the last; [C88_gaps_allocated] is about the rest). It is never silently wrong. *)
Theorem C88_gaps : forall K V Q usort md idx cmp idxQ (eqv : Q -> K -> bool) (input : list (K * V)),
  own_order idx cmp -> lawful_query_scalar idx idxQ eqv -> sorts_by_slot usort ->
  span_representable idx (map fst input) -> ~ contiguous idx (map fst input) -> 10 * N.of_nat (key_count (idx_eq idx) input) <= usize_max ->
  exists n, spans (map idx (map fst input)) n /\
    ((128 < n /\ 10 * N.of_nat (key_count (idx_eq idx) input) <= n) \/ ends_agree idx cmp (map fst input) ->
       exists m, fz_scalar_map_new usort md idx cmp input = Ok m /\ answers (fz_scalar_ops idxQ eqv) (idx_eq idx) eqv m input) /\
    (n <= 128 \/ n < 10 * N.of_nat (key_count (idx_eq idx) input) -> ~ ends_agree idx cmp (map fst input) ->
       md = Debug \/ ends_ordered idx cmp (map fst input) -> fz_scalar_map_new usort md idx cmp input = Panic).
Proof. exact (fun K V Q usort md idx cmp idxQ eqv input OO LQ US => fz_gaps idx cmp idxQ eqv OO LQ usort US md input). Qed.
Print Assumptions C88_gaps.

(** The same for the two maps on their own. *)
Theorem C88_sparse : forall K V Q md idx cmp idxQ (eqv : Q -> K -> bool) (input : list (K * V)),
  own_order idx cmp -> lawful_query_scalar idx idxQ eqv -> span_representable idx (map fst input) ->
  (ends_agree idx cmp (map fst input) -> exists m, sparse_map_new md idx cmp input = Ok m /\ answers (sparse_ops idxQ) (idx_eq idx) eqv m input) /\
  (~ ends_agree idx cmp (map fst input) -> md = Debug \/ ends_ordered idx cmp (map fst input) -> sparse_map_new md idx cmp input = Panic).
Proof. exact (fun K V Q md idx cmp idxQ eqv input OO LQ => sparse_own idx cmp idxQ eqv OO LQ md input). Qed.
Print Assumptions C88_sparse.

Theorem C88_dense : forall K V md idx cmp (input : list (K * V)) m, own_order idx cmp -> span_representable idx (map fst input) ->
  dense_map_new md idx cmp input = Ok (ROk m) ->
  ((forall k, In k (map fst input) -> mo_get_key_value (dense_ops idx) m k = Ok (spec_entry (idx_eq idx) input k)) <->
   agree idx cmp (map fst input)).
Proof. exact (fun K V md idx cmp input m OO => dense_exact idx cmp OO md input m). Qed.
Print Assumptions C88_dense.

(** Numbers in their own order, but with 5 and 6 exchanged. *)
Definition ex_swap (k : N) : N := if k =? 5 then 6 else if k =? 6 then 5 else k.
Definition ex_place (k : N) : N := N.min k usize_max.
Definition ex_cmp (a b : N) : comparison := N.compare (ex_swap (ex_place a)) (ex_swap (ex_place b)).
Lemma ex_swap_inj a b : ex_swap a = ex_swap b <-> a = b.
Proof. unfold ex_swap. destruct (N.eqb_spec a 5), (N.eqb_spec a 6), (N.eqb_spec b 5), (N.eqb_spec b 6); lia. Qed.
Example C88_own_order : own_order ex_place ex_cmp.
Proof.
  split.
  - intros k. unfold ex_place. apply N.le_min_r.
  - split; unfold ex_cmp.
    + intros x. apply N.compare_refl.
    + intros x y. apply N.compare_antisym.
    + intros x y z H. apply N.compare_eq in H. rewrite H. reflexivity.
    + intros x y z H1 H2. rewrite N.compare_lt_iff in *. eapply N.lt_trans; eauto.
  - intros a b. unfold ex_cmp. rewrite N.compare_eq_iff. apply ex_swap_inj.
Qed.

(** 4..7 is a range: 5 and 6 are mixed up. With a gap and 5 and 6 inside: right. With 5 or 6 at an end: a panic, or hashing. *)
Example C88_example :
  (exists m, fz_scalar_map_new slot_sort Release ex_place ex_cmp [(4, 40); (5, 50); (6, 60); (7, 70)] = Ok m /\
     mo_get (fz_scalar_ops ex_place (idx_eq ex_place)) m 5 = Ok (Some 60) /\ mo_get (fz_scalar_ops ex_place (idx_eq ex_place)) m 7 = Ok (Some 70)) /\
  (exists m, fz_scalar_map_new slot_sort Debug ex_place ex_cmp [(3, 30); (5, 50); (6, 60); (7, 70)] = Ok m /\
     mo_get (fz_scalar_ops ex_place (idx_eq ex_place)) m 5 = Ok (Some 50) /\ mo_get (fz_scalar_ops ex_place (idx_eq ex_place)) m 6 = Ok (Some 60)) /\
  (forall md, fz_scalar_map_new slot_sort md ex_place ex_cmp [(3, 30); (5, 50); (6, 60)] = Panic) /\
  (exists m, fz_scalar_map_new slot_sort Debug ex_place ex_cmp [(5, 50); (6, 60); (700, 70)] = Ok m /\
     mo_get (fz_scalar_ops ex_place (idx_eq ex_place)) m 5 = Ok (Some 50)) /\
  ~ agree ex_place ex_cmp [4; 5; 6; 7] /\ ~ contiguous ex_place [3; 5; 6; 7] /\ contiguous ex_place [4; 5; 6; 7].
Proof.
  split; [eexists; repeat split; vm_compute; reflexivity|]. split; [eexists; repeat split; vm_compute; reflexivity|].
  split; [intros []; vm_compute; reflexivity|]. split; [eexists; repeat split; vm_compute; reflexivity|]. split; [|split].
  - intros H. specialize (H 5 6 ltac:(cbn; auto) ltac:(cbn; auto)). vm_compute in H. discriminate.
  - intros H. destruct (H 3 7 4) as [k [Hk E]]; [cbn; auto|cbn; auto|vm_compute; split; discriminate|].
    cbn in Hk. repeat (destruct Hk as [<-|Hk]; [vm_compute in E; discriminate|]). destruct Hk.
  - intros a b x Ha Hb Hx. assert (A : 4 <= ex_place a) by (cbn in Ha; repeat (destruct Ha as [<-|Ha]; [vm_compute; discriminate|]); destruct Ha).
    assert (B : ex_place b <= 7) by (cbn in Hb; repeat (destruct Hb as [<-|Hb]; [vm_compute; discriminate|]); destruct Hb).
    assert (X : x = 4 \/ x = 5 \/ x = 6 \/ x = 7) by lia. exists x. cbn [In]. split; [lia|]. destruct X as [->|[->|[->| ->]]]; reflexivity.
Qed.

(** Since no vector can be larger than [isize::MAX] bytes, release builds are no exception: unless the ends agree, construction panics, in
    either build. *)
Theorem C88_gaps_allocated : forall K V Q usort md idx cmp idxQ (eqv : Q -> K -> bool) (input : list (K * V)),
  own_order idx cmp -> lawful_query_scalar idx idxQ eqv -> sorts_by_slot usort ->
  span_representable idx (map fst input) -> ~ contiguous idx (map fst input) -> 80 * N.of_nat (key_count (idx_eq idx) input) <= isize_max ->
  exists n, spans (map idx (map fst input)) n /\
    ((128 < n /\ 10 * N.of_nat (key_count (idx_eq idx) input) <= n) \/ ends_agree idx cmp (map fst input) ->
       exists m, fz_scalar_map_new_alloc usort md idx cmp input = Ok m /\ answers (fz_scalar_ops idxQ eqv) (idx_eq idx) eqv m input) /\
    (n <= 128 \/ n < 10 * N.of_nat (key_count (idx_eq idx) input) -> ~ ends_agree idx cmp (map fst input) ->
       fz_scalar_map_new_alloc usort md idx cmp input = Panic).
Proof. exact (fun K V Q usort md idx cmp idxQ eqv input OO LQ US => fz_gaps_alloc idx cmp idxQ eqv OO LQ usort US md input). Qed.
Print Assumptions C88_gaps_allocated.

(** The sparse map on its own, used directly, [n] being the number of slots that the keys need. *)
Theorem C88_sparse_allocated : forall K V Q md idx cmp idxQ (eqv : Q -> K -> bool) (input : list (K * V)) n,
  own_order idx cmp -> lawful_query_scalar idx idxQ eqv -> span_representable idx (map fst input) -> spans (map idx (map fst input)) n ->
  (ends_agree idx cmp (map fst input) ->
     (8 * n <= isize_max -> exists m, sparse_map_new_alloc md idx cmp input = Ok m /\ answers (sparse_ops idxQ) (idx_eq idx) eqv m input) /\
     (isize_max < 8 * n -> sparse_map_new_alloc md idx cmp input = Panic)) /\
  (~ ends_agree idx cmp (map fst input) -> 8 * n <= isize_max -> sparse_map_new_alloc md idx cmp input = Panic).
Proof. exact (fun K V Q md idx cmp idxQ eqv input n OO LQ => sparse_own_alloc idx cmp idxQ eqv OO LQ md input n). Qed.
Print Assumptions C88_sparse_allocated.

(** The limit adds nothing but panics, whatever the keys do: apart from them the maps are those without it. *)
Theorem C88_limit_only_panics : forall K V usort md idx cmp (input : list (K * V)),
  (sparse_map_new_alloc md idx cmp input = sparse_map_new md idx cmp input \/ (input <> [] /\ sparse_map_new_alloc md idx cmp input = Panic)) /\
  (fz_scalar_map_new_alloc usort md idx cmp input = fz_scalar_map_new usort md idx cmp input \/
   (input <> [] /\ fz_scalar_map_new_alloc usort md idx cmp input = Panic)).
Proof. intros K V usort md idx cmp input. split; [apply sparse_new_or|apply fz_new_or]. Qed.
Print Assumptions C88_limit_only_panics.

(** For keys whose order is that of the index [FzScalarMap::new] never meets the limit. *)
Theorem C88_limit_not_met : forall K V usort md idx cmp (input : list (K * V)), lawful_scalar idx cmp -> sorts_by_slot usort ->
  span_representable idx (map fst input) -> 80 * N.of_nat (key_count (idx_eq idx) input) <= isize_max ->
  fz_scalar_map_new_alloc usort md idx cmp input = fz_scalar_map_new usort md idx cmp input.
Proof.
  intros K V usort md idx cmp input LS US HS Hk. apply (fz_alloc_same idx cmp (lawful_own idx cmp LS) usort US md input HS); [|exact Hk].
  exact (lawful_ends idx cmp LS (map fst input)).
Qed.
Print Assumptions C88_limit_not_met.

(** Numbers in descending order. *)
Definition ex_down (a b : N) : comparison := N.compare (ex_place b) (ex_place a).
Example C88_descending : own_order ex_place ex_down.
Proof.
  split.
  - intros k. unfold ex_place. apply N.le_min_r.
  - split; unfold ex_down.
    + intros x. apply N.compare_refl.
    + intros x y. apply N.compare_antisym.
    + intros x y z H. apply N.compare_eq in H. rewrite H. reflexivity.
    + intros x y z H1 H2. rewrite N.compare_lt_iff in *. eapply N.lt_trans; eauto.
  - intros a b. unfold ex_down. rewrite N.compare_eq_iff. split; congruence.
Qed.

(** The last case cannot do without the limit on [n]: in release builds, a sparse map of two keys far apart that are in descending order is
    built by wrapping around and finds neither of them. *)
Theorem C88_sparse_wide_refuted : exists (idx : N -> N) cmp (input : list (N * N)) m, own_order idx cmp /\
  span_representable idx (map fst input) /\ ~ ends_agree idx cmp (map fst input) /\
  sparse_map_new_alloc Release idx cmp input = Ok m /\
  forall k, In k (map fst input) -> spec_entry (idx_eq idx) input k <> None /\ mo_get_key_value (sparse_ops idx) m k = Ok None.
Proof.
  exists ex_place, ex_down, [(0, 10); (18446744073709551613, 20)]. eexists. split; [exact C88_descending|].
  split; [|split; [|split; [vm_compute; reflexivity|]]].
  - intros a b Ha Hb. cbn [map fst In] in Ha, Hb. destruct Ha as [<-|[<-|[]]], Hb as [<-|[<-|[]]]; vm_compute; reflexivity.
  - intros H. destruct (H 18446744073709551613 0 0) as [X _].
    + split; [cbn; auto|]. intros k [<-|[<-|[]]]; vm_compute; discriminate.
    + split; [cbn; auto|]. intros k [<-|[<-|[]]]; vm_compute; discriminate.
    + cbn; auto.
    + vm_compute in X. apply X. reflexivity.
  - intros k [<-|[<-|[]]]; split; vm_compute; try discriminate; reflexivity.
Qed.
Print Assumptions C88_sparse_wide_refuted.

(** Descending with a gap: a panic in either build, by the arithmetic, by the size of the table or, for neighbouring ends, by the first store. *)
Example C88_allocated_example :
  (forall md, fz_scalar_map_new_alloc slot_sort md ex_place ex_down [(3, 30); (5, 50); (9, 90)] = Panic) /\
  sparse_alloc Release ex_place [(9, 90); (5, 50); (3, 30)] = Panic /\
  sparse_alloc Release ex_place [(9, 90); (8, 80)] = Ok tt /\ sparse_from_sorted_alloc Release ex_place [(9, 90); (8, 80)] = Panic /\
  (exists m, fz_scalar_map_new_alloc slot_sort Release ex_place ex_down [(3, 30); (5, 50); (900, 90)] = Ok m /\
     mo_get (fz_scalar_ops ex_place (idx_eq ex_place)) m 5 = Ok (Some 50)) /\
  (exists m, fz_scalar_map_new_alloc slot_sort Debug ex_place ex_cmp [(3, 30); (5, 50); (6, 60); (7, 70)] = Ok m /\
     mo_get (fz_scalar_ops ex_place (idx_eq ex_place)) m 6 = Ok (Some 60)).
Proof.
  split; [intros []; vm_compute; reflexivity|]. do 3 (split; [vm_compute; reflexivity|]).
  split; eexists; repeat split; vm_compute; reflexivity.
Qed.

(** Ascending, with gaps, and no entries at all: the limit is not met. *)
Definition ex_up (a b : N) : comparison := N.compare (ex_place a) (ex_place b).
Example C88_limit_example :
  lawful_scalar ex_place ex_up /\
  (exists m, fz_scalar_map_new_alloc slot_sort Release ex_place ex_up [(3, 30); (5, 50); (9, 90)] = Ok (FsSparse m) /\
     fz_scalar_map_new slot_sort Release ex_place ex_up [(3, 30); (5, 50); (9, 90)] = Ok (FsSparse m)) /\
  sparse_map_new_alloc (V := N) Release ex_place ex_up [] = Ok sparse_map_default.
Proof.
  split; [split; [intros k; unfold ex_place; apply N.le_min_r|reflexivity]|]. split; [eexists; split; vm_compute; reflexivity|reflexivity].
Qed.
