(** Collections from arrays and iterators: theorems about the definitions of ModelCollect.v in the terms of SpecCollect.v. *)
From Verif Require Import ModelUtils ModelAnalyzers ModelTables ModelMaps ModelSerde ModelCollect Spec SpecMade SpecCollect Instances
  ProofsMade ProofsSerde ProofsCollect.
From Verif Require Import Prelude.

(** ** C82: [collect] into a frozen map *)
Theorem C82_hash_map_iter : forall K V Q S usort eqK eqv hK hQ size (src : source (K * V) S) s,
  sorts_by_slot usort -> lawful_eq eqK -> lawful_equivalent eqK eqv -> lawful_hash eqK hK -> lawful_query_hash (Q := Q) eqv hQ hK ->
  collects src size s (fun fuel => fz_hash_map_from_iter usort eqK hK fuel size src s)
    (fun m l => made (hash_ops (fun q => Ok (hQ q)) eqv) eqK eqv m l).
Proof. exact @hash_from_iter. Qed.
Print Assumptions C82_hash_map_iter.
Theorem C82_ordered_map_iter : forall K V Q S cmp cmpQ size (src : source (K * V) S) s,
  lawful_ord cmp -> lawful_comparable (Q := Q) cmp cmpQ ->
  collects src size s (fun fuel => fz_ordered_map_from_iter cmp fuel size src s)
    (fun m l => made (eytzinger_ops cmpQ) (cmp_eq cmp) (cmp_eq cmpQ) m l).
Proof. exact @ordered_from_iter. Qed.
Print Assumptions C82_ordered_map_iter.
Theorem C82_scalar_map_iter : forall K V Q S usort md idx cmp idxQ eqv size (src : source (K * V) S) s,
  sorts_by_slot usort -> lawful_scalar idx cmp -> lawful_query_scalar (Q := Q) idx idxQ eqv ->
  (forall l, yields src s l -> span_representable idx (map fst l)) ->
  collects src size s (fun fuel => fz_scalar_map_from_iter usort md idx cmp fuel size src s)
    (fun m l => made (fz_scalar_ops idxQ eqv) (idx_eq idx) eqv m l).
Proof. exact @scalar_from_iter. Qed.
Print Assumptions C82_scalar_map_iter.
Theorem C82_string_map_iter : forall V S usort bh size (src : source (bytes * V) S) s,
  sorts_by_slot usort -> (forall l, yields src s l -> forall e, In e l -> N.of_nat (length (fst e)) <= usize_max) ->
  collects src size s (fun fuel => fz_string_map_from_iter usort bh fuel size src s) (fun m l => made fz_string_ops bytes_eqb bytes_eqb m l).
Proof. exact @string_from_iter. Qed.
Print Assumptions C82_string_map_iter.

(** ** C82: [collect] into a frozen set *)
Theorem C82_hash_set_iter : forall T Q S usort eqT eqv hT hQ size (src : source T S) s,
  sorts_by_slot usort -> lawful_eq eqT -> lawful_equivalent eqT eqv -> lawful_hash eqT hT -> lawful_query_hash (Q := Q) eqv hQ hT ->
  collects src size s (fun fuel => fz_hash_set_from_iter usort eqT hT fuel size src s)
    (fun m l => made (hash_ops (fun q => Ok (hQ q)) eqv) eqT eqv m (map (fun x => (x, tt)) l)).
Proof. exact @hash_set_from_iter. Qed.
Print Assumptions C82_hash_set_iter.
Theorem C82_ordered_set_iter : forall T Q S cmp cmpQ size (src : source T S) s,
  lawful_ord cmp -> lawful_comparable (Q := Q) cmp cmpQ ->
  collects src size s (fun fuel => fz_ordered_set_from_iter cmp fuel size src s)
    (fun m l => made (eytzinger_ops cmpQ) (cmp_eq cmp) (cmp_eq cmpQ) m (map (fun x => (x, tt)) l)).
Proof. exact @ordered_set_from_iter. Qed.
Print Assumptions C82_ordered_set_iter.
Theorem C82_scalar_set_iter : forall T Q S usort md idx cmp idxQ eqv size (src : source T S) s,
  sorts_by_slot usort -> lawful_scalar idx cmp -> lawful_query_scalar (Q := Q) idx idxQ eqv ->
  (forall l, yields src s l -> span_representable idx l) ->
  collects src size s (fun fuel => fz_scalar_set_from_iter usort md idx cmp fuel size src s)
    (fun m l => made (fz_scalar_ops idxQ eqv) (idx_eq idx) eqv m (map (fun x => (x, tt)) l)).
Proof. exact @scalar_set_from_iter. Qed.
Print Assumptions C82_scalar_set_iter.
Theorem C82_string_set_iter : forall S usort bh size (src : source bytes S) s,
  sorts_by_slot usort -> (forall l, yields src s l -> forall x, In x l -> N.of_nat (length x) <= usize_max) ->
  collects src size s (fun fuel => fz_string_set_from_iter usort bh fuel size src s)
    (fun m l => made fz_string_ops bytes_eqb bytes_eqb m (map (fun x => (x, tt)) l)).
Proof. exact @string_set_from_iter. Qed.
Print Assumptions C82_string_set_iter.

(** ** C82: arrays. They are in memory, so they fit into it. *)
Theorem C82_hash_map_array : forall K V Q usort eqK eqv hK hQ (entries : list (K * V)),
  sorts_by_slot usort -> lawful_eq eqK -> lawful_equivalent eqK eqv -> lawful_hash eqK hK -> lawful_query_hash (Q := Q) eqv hQ hK ->
  N.of_nat (length entries) <= usize_max ->
  exists m, fz_hash_map_from_array usort eqK hK entries = Ok m /\ made (hash_ops (fun q => Ok (hQ q)) eqv) eqK eqv m entries.
Proof. exact @build_hash. Qed.
Print Assumptions C82_hash_map_array.
Theorem C82_ordered_map_array : forall K V Q cmp cmpQ (entries : list (K * V)), lawful_ord cmp -> lawful_comparable (Q := Q) cmp cmpQ ->
  exists m, fz_ordered_map_from_array cmp entries = Ok m /\ made (eytzinger_ops cmpQ) (cmp_eq cmp) (cmp_eq cmpQ) m entries.
Proof. exact @build_ordered. Qed.
Print Assumptions C82_ordered_map_array.
Theorem C82_scalar_map_array : forall K V Q usort md idx cmp idxQ eqv (entries : list (K * V)),
  sorts_by_slot usort -> lawful_scalar idx cmp -> lawful_query_scalar (Q := Q) idx idxQ eqv -> span_representable idx (map fst entries) ->
  exists m, fz_scalar_map_from_array usort md idx cmp entries = Ok m /\ made (fz_scalar_ops idxQ eqv) (idx_eq idx) eqv m entries.
Proof. exact @build_scalar. Qed.
Print Assumptions C82_scalar_map_array.
Theorem C82_string_map_array : forall V usort bh (entries : list (bytes * V)),
  sorts_by_slot usort -> N.of_nat (length entries) <= usize_max -> (forall e, In e entries -> N.of_nat (length (fst e)) <= usize_max) ->
  exists m, fz_string_map_from_array usort bh entries = Ok m /\ made fz_string_ops bytes_eqb bytes_eqb m entries.
Proof. exact @build_string. Qed.
Print Assumptions C82_string_map_array.

Theorem C82_hash_set_array : forall T Q usort eqT eqv hT hQ size (values : list T),
  sorts_by_slot usort -> lawful_eq eqT -> lawful_equivalent eqT eqv -> lawful_hash eqT hT -> lawful_query_hash (Q := Q) eqv hQ hT ->
  N.of_nat (length values) <= usize_max -> size * N.of_nat (length values) <= isize_max ->
  exists m, fz_hash_set_from_array usort eqT hT size values = Ok m /\
    made (hash_ops (fun q => Ok (hQ q)) eqv) eqT eqv m (map (fun x => (x, tt)) values).
Proof.
  intros. unfold fz_hash_set_from_array. rewrite from_known_ok by auto. apply build_hash; auto. unfold unit_entries. rewrite map_length. auto.
Qed.
Print Assumptions C82_hash_set_array.
Theorem C82_ordered_set_array : forall T Q cmp cmpQ size (values : list T), lawful_ord cmp -> lawful_comparable (Q := Q) cmp cmpQ ->
  size * N.of_nat (length values) <= isize_max ->
  exists m, fz_ordered_set_from_array cmp size values = Ok m /\
    made (eytzinger_ops cmpQ) (cmp_eq cmp) (cmp_eq cmpQ) m (map (fun x => (x, tt)) values).
Proof. intros. unfold fz_ordered_set_from_array. rewrite from_known_ok by auto. apply build_ordered; auto. Qed.
Print Assumptions C82_ordered_set_array.
Theorem C82_scalar_set_array : forall T Q usort md idx cmp idxQ eqv size (values : list T),
  sorts_by_slot usort -> lawful_scalar idx cmp -> lawful_query_scalar (Q := Q) idx idxQ eqv -> span_representable idx values ->
  size * N.of_nat (length values) <= isize_max ->
  exists m, fz_scalar_set_from_array usort md idx cmp size values = Ok m /\
    made (fz_scalar_ops idxQ eqv) (idx_eq idx) eqv m (map (fun x => (x, tt)) values).
Proof.
  intros. unfold fz_scalar_set_from_array. rewrite from_known_ok by auto. eapply build_scalar; eauto. unfold unit_entries.
  rewrite map_map, map_id. auto.
Qed.
Print Assumptions C82_scalar_set_array.
Theorem C82_string_set_array : forall usort bh size (values : list bytes),
  sorts_by_slot usort -> N.of_nat (length values) <= usize_max -> (forall x, In x values -> N.of_nat (length x) <= usize_max) ->
  size * N.of_nat (length values) <= isize_max ->
  exists m, fz_string_set_from_array usort bh size values = Ok m /\ made fz_string_ops bytes_eqb bytes_eqb m (map (fun x => (x, tt)) values).
Proof.
  intros usort bh size values US HN HL HS. unfold fz_string_set_from_array. rewrite from_known_ok by auto. apply build_string; auto; unfold unit_entries.
  - rewrite map_length. auto.
  - intros e He. apply in_map_iff in He. destruct He as [x [<- Hx]]. exact (HL _ Hx).
Qed.
Print Assumptions C82_string_set_array.

(** ** Iterators for the examples: the items of a list, with [hint n] as the lower bound when [n] are left; items after the first [None] *)
Definition listed {A} (hint : nat -> option N) : source A (list (option A)) :=
  {| src_next := fun s => match s with [] => Done [] | Some x :: r => Yield x r | None :: r => Done r end;
     src_hint := fun s => hint (length s) |}.
Definition exact_hint (n : nat) : option N := Some (N.of_nat n).

Lemma listed_reaches {A} hint (l : list A) s l' s' : reaches (listed hint) s l' s' -> s = map Some l -> exists l2, l = l' ++ l2 /\ s' = map Some l2.
Proof.
  intros H. revert l. induction H as [s|s x s1 k s' E H IH]; intros l ->; [exists l; auto|]. destruct l as [|y l]; [discriminate|].
  injection E as <- <-. destruct (IH l eq_refl) as [l2 [-> ->]]. exists l2. auto.
Qed.
Lemma listed_yields {A} hint (l : list A) : yields (listed hint) (map Some l) l.
Proof. exists [], []. split; [|reflexivity]. induction l as [|x l IH]; cbn; [constructor|]. econstructor; [reflexivity|exact IH]. Qed.
Lemma listed_honest {A} (l : list A) : honest (listed exact_hint) (map Some l).
Proof.
  intros l1 s' l2 R Y. destruct (listed_reaches _ _ _ _ _ R eq_refl) as [l3 [-> ->]]. exists (N.of_nat (length (map Some l3))). split; [reflexivity|].
  rewrite map_length. rewrite (yields_det _ _ _ _ Y (listed_yields exact_hint l3)). lia.
Qed.

(** The hypotheses of the second clause of [collects] are met by a list's iterator, and these are its outcomes. *)
Example C82_honest_example : yields (listed exact_hint) (map Some [(5, 1); (3, 2); (5, 4)]) [(5, 1); (3, 2); (5, 4)] /\
  honest (listed exact_hint) (map Some [(5, 1); (3, 2); (5, 4)]) /\ 16 * N.max 8 (2 * 3) <= isize_max.
Proof. split; [apply listed_yields|]. split; [apply listed_honest|]. vm_compute. discriminate. Qed.
Example C82_outcome_example :
  option_map (fun r => m <- r ;; mo_get (eytzinger_ops N.compare) m 5)
    (fz_ordered_map_from_iter N.compare 3 16 (listed exact_hint) (map Some [(5, 1); (3, 2); (5, 4)])) = Some (Ok (Some 4)) /\
  option_map (fun r => m <- r ;; mo_contains_key (eytzinger_ops N.compare) m 7)
    (fz_ordered_set_from_iter N.compare 9 8 (listed (fun _ => Some 0)) [Some 5; Some 3; None; Some 7]) = Some (Ok false) /\
  fz_ordered_map_from_iter N.compare 2 16 (listed exact_hint) (map Some [(5, 1); (3, 2); (5, 4)]) = None.
Proof. vm_compute. auto. Qed.
(** More than four items with hints of zero: the vector grows. *)
Example C82_growth_example : vec_from_iter 10 16 (listed (fun _ => Some 0)) (map Some [1; 2; 3; 4; 5; 6; 7; 8; 9]) = Some (Ok [1; 2; 3; 4; 5; 6; 7; 8; 9]).
Proof. reflexivity. Qed.
Definition breaking : source N nat := {| src_next := fun n => match n with O => Panics | S n => Yield 7 n end; src_hint := fun _ => Some 0 |}.
Example C82_breaks_example : breaks breaking 2%nat [7; 7] /\ fz_ordered_set_from_iter N.compare 5 8 breaking 2%nat = Some Panic.
Proof. split; [|reflexivity]. exists O. split; [repeat (econstructor; [reflexivity|])|reflexivity]. constructor. Qed.
(** An iterator that never ends. *)
Definition endless : source N unit := {| src_next := fun s => Yield 7 s; src_hint := fun _ => Some usize_max |}.
Example C82_endless_example : (forall l, ~ yields endless tt l) /\ fz_ordered_set_from_iter N.compare 0 8 endless tt = Some Panic.
Proof. split; [|reflexivity]. intros l [s [s' [_ D]]]. discriminate. Qed.

(** A promise not kept makes [collect] panic although the only item would fit. *)
Theorem C82_any_hint_refuted : exists (src : source (N * N) (list (option (N * N)))) s l, yields src s l /\ 16 * N.max 8 (2 * N.of_nat (length l)) <= isize_max /\
  forall fuel, fz_ordered_map_from_iter N.compare fuel 16 src s = Some Panic.
Proof.
  exists (listed (fun _ => Some usize_max)), (map Some [(1, 2)]), [(1, 2)]. split; [apply listed_yields|]. split; [vm_compute; discriminate|]. reflexivity.
Qed.
Print Assumptions C82_any_hint_refuted.

(** The limits the theorems speak of. *)
Theorem C82_limits : isize_max = 2 ^ 63 - 1 /\ usize_max = 2 ^ 64 - 1.
Proof. split; reflexivity. Qed.
Print Assumptions C82_limits.
