(** Property theorems about sets and iterators (C09, C17-C24, C50). Statements only; proofs are in [Proofs*.v].
    Each theorem is followed by the axioms it depends on and by a concrete case. *)
From Verif Require Import Prelude Spec ModelUtils ModelAnalyzers ModelTables ModelMaps ModelIter SpecSets SpecMade
  ProofsBase ProofsFz ProofsIter ProofsMade ProofsProps ProofsSetProps ProofsLimits Instances.
From Coq Require Import Permutation.

(** ** C09 *)
Theorem C09_set_queries : forall M T Q (ops : map_ops M T unit Q) eqT eqv m values, made ops eqT eqv m (unit_entries values) -> forall q,
  set_get ops m q = Ok (last_match (eqv q) values) /\
  exists b, set_contains ops m q = Ok b /\ set_contains_via_get ops m q = Ok b /\ (b = true <-> exists x, In x values /\ eqv q x = true).
Proof. exact @set_queries. Qed.
Print Assumptions C09_set_queries.

(** The four public set types can be built from any vector and are instances of the theorem above. *)
Theorem C09_sets_constructed :
  (forall T Q usort eqT eqv hT hQ (values : list T), sorts_by_slot usort -> lawful_eq eqT -> lawful_equivalent (Q := Q) eqT eqv ->
     lawful_hash eqT hT -> lawful_query_hash eqv hQ hT -> N.of_nat (length values) <= usize_max ->
     exists m, fz_hash_map_with_hasher usort eqT hT (unit_entries values) = Ok m /\
       made (hash_ops (fun q => Ok (hQ q)) eqv) eqT eqv m (unit_entries values)) /\
  (forall T Q cmp cmpQ (values : list T), lawful_ord cmp -> lawful_comparable (Q := Q) cmp cmpQ ->
     exists m, fz_ordered_map_new cmp (unit_entries values) = Ok m /\
       made (eytzinger_ops cmpQ) (cmp_eq cmp) (cmp_eq cmpQ) m (unit_entries values)) /\
  (forall T Q usort md idx cmp idxQ eqv (values : list T), sorts_by_slot usort -> lawful_scalar idx cmp ->
     lawful_query_scalar (Q := Q) idx idxQ eqv -> span_representable idx values ->
     exists m, fz_scalar_map_new usort md idx cmp (unit_entries values) = Ok m /\
       made (fz_scalar_ops idxQ eqv) (idx_eq idx) eqv m (unit_entries values)) /\
  (forall usort bh (values : list bytes), sorts_by_slot usort -> N.of_nat (length values) <= usize_max ->
     (forall s, In s values -> N.of_nat (length s) <= usize_max) ->
     exists m, fz_string_map_with_hasher usort bh (unit_entries values) = Ok m /\
       made fz_string_ops bytes_eqb bytes_eqb m (unit_entries values)).
Proof. exact sets_constructed. Qed.
Print Assumptions C09_sets_constructed.

(** values equal up to parity: [get] returns the last of the equivalent values *)
Lemma even_hash_lawful : lawful_hash (fun a b => Bool.eqb (N.even a) (N.even b)) (fun a => if N.even a then 2 else 9).
Proof. intros x y. destruct (N.even x), (N.even y); auto; discriminate. Qed.
Example C09_example : exists m, fz_hash_map_with_hasher slot_sort (fun a b => Bool.eqb (N.even a) (N.even b)) (fun a => if N.even a then 2 else 9)
    (unit_entries [4; 6; 8]) = Ok m /\
  map (set_get (hash_ops (fun a => Ok (if N.even a then 2 else 9)) (fun a b => Bool.eqb (N.even a) (N.even b))) m) [2; 8; 7] = [Ok (Some 8); Ok (Some 8); Ok None] /\
  map (set_contains (hash_ops (fun a => Ok (if N.even a then 2 else 9)) (fun a b => Bool.eqb (N.even a) (N.even b))) m) [2; 8; 7] = [Ok true; Ok true; Ok false].
Proof. eexists. split; [vm_compute; reflexivity|]. split; vm_compute; reflexivity. Qed.
Example C09_ordered_example : exists m, fz_ordered_map_new N.compare (unit_entries [40; 6; 8; 6]) = Ok m /\
  map (set_contains (eytzinger_ops N.compare) m) [40; 6; 8; 7] = [Ok true; Ok true; Ok true; Ok false] /\ set_len (eytzinger_ops N.compare) m = 3%nat.
Proof. eexists. split; [vm_compute; reflexivity|]. split; vm_compute; reflexivity. Qed.

(** ** C17-C22: any two lawful sets; the frozen sets of this crate are lawful. *)
Theorem C17_frozen_sets_lawful : forall M T (ops : map_ops M T unit T) eqT m values, made ops eqT eqT m (unit_entries values) ->
  lawful_set eqT (as_set ops m) /\ forall x, elem eqT x (as_set ops m) <-> member eqT x values.
Proof. exact @frozen_set_lawful. Qed.
Print Assumptions C17_frozen_sets_lawful.

Theorem C17_set_eq_extensional : forall T (eqT : T -> T -> bool), lawful_eq eqT -> forall s1 s2,
  lawful_set eqT s1 -> lawful_set eqT s2 ->
  exists b, set_eq s1 s2 = Ok b /\ (b = true <-> forall x, elem eqT x s1 <-> elem eqT x s2).
Proof. exact @set_eq_spec. Qed.
Print Assumptions C17_set_eq_extensional.

(** Two sets of the crate of different types holding the same values, and a third one. *)
Definition ex_set (l : list N) : res (set_val N) :=
  m <- fz_hash_map_with_hasher slot_sort N.eqb (fun k => k mod 3) (unit_entries l) ;; Ok (as_set (hash_ops (fun q => Ok (q mod 3)) N.eqb) m).
Definition ex_ord (l : list N) : res (set_val N) :=
  m <- fz_ordered_map_new N.compare (unit_entries l) ;; Ok (as_set (eytzinger_ops N.compare) m).
Example ex_set_lawful l : N.of_nat (length l) <= usize_max ->
  exists s, ex_set l = Ok s /\ lawful_set N.eqb s /\ forall x, elem N.eqb x s <-> In x l.
Proof.
  intros H. destruct (proj1 C09_sets_constructed N N slot_sort N.eqb N.eqb (fun k => k mod 3) (fun k => k mod 3) l slot_sort_sorts N_eqb_lawful
    N_eqb_equivalent (N_hash_lawful _) (N_query_hash_lawful _) H) as [m [E MD]].
  exists (as_set (hash_ops (fun q => Ok (q mod 3)) N.eqb) m). unfold ex_set. rewrite E. split; [reflexivity|].
  destruct (C17_frozen_sets_lawful _ _ _ _ _ _ MD) as [HL HM]. split; [auto|]. intros x. rewrite HM. split.
  - intros [y [Hy Hxy]]. apply N.eqb_eq in Hxy. subst; auto.
  - intros Hx. exists x. split; auto. apply N.eqb_refl.
Qed.
Example C17_example :
  (s1 <- ex_set [1; 5; 3; 5] ;; s2 <- ex_ord [3; 1; 5; 1] ;; set_eq s1 s2) = Ok true /\
  (s1 <- ex_set [1; 5; 3; 5] ;; s2 <- ex_ord [3; 1; 4; 1] ;; set_eq s1 s2) = Ok false /\
  (s1 <- ex_set [1; 5; 3; 5] ;; s2 <- ex_ord [3; 1; 5; 4] ;; set_eq s1 s2) = Ok false.
Proof. split; [|split]; vm_compute; reflexivity. Qed.

(** ** C18 *)
Theorem C18_union : forall T (eqT : T -> T -> bool) s1 s2, lawful_eq eqT -> lawful_set eqT s1 -> lawful_set eqT s2 ->
  exists l, yields union_next (union_new s1 s2) l /\ distinct eqT l /\ forall x, member eqT x l <-> elem eqT x s1 \/ elem eqT x s2.
Proof. exact @union_yields. Qed.
Print Assumptions C18_union.

Definition ex1 := hb_set N.eqb [1; 5; 3; 8].
Definition ex2 := hb_set N.eqb [5; 9; 1].
Example ex_lawful : lawful_set N.eqb ex1 /\ lawful_set N.eqb ex2.
Proof.
  split; apply (hb_set_lawful N.eqb); cbn; repeat split; intros y H;
    repeat (destruct H as [<-|H]; [reflexivity|]); contradiction.
Qed.
Ltac run := repeat (eapply yields_cons; [cbn; reflexivity|]); eapply yields_nil; cbn; reflexivity.
Example C18_example : yields union_next (union_new ex1 ex2) [1; 5; 3; 8; 9] /\ yields union_next (union_new ex2 ex1) [1; 5; 3; 8; 9].
Proof. split; run. Qed.

(** ** C19 *)
Theorem C19_intersection : forall T (eqT : T -> T -> bool) s1 s2, lawful_eq eqT -> lawful_set eqT s1 -> lawful_set eqT s2 ->
  exists l, yields intersection_next (intersection_new s1 s2) l /\ distinct eqT l /\ forall x, member eqT x l <-> elem eqT x s1 /\ elem eqT x s2.
Proof. exact @intersection_yields. Qed.
Print Assumptions C19_intersection.
Theorem C19_difference : forall T (eqT : T -> T -> bool) s1 s2, lawful_eq eqT -> lawful_set eqT s1 -> lawful_set eqT s2 ->
  exists l, yields difference_next (difference_new s1 s2) l /\ distinct eqT l /\ forall x, member eqT x l <-> elem eqT x s1 /\ ~ elem eqT x s2.
Proof. exact @difference_yields. Qed.
Print Assumptions C19_difference.
Theorem C19_symmetric_difference : forall T (eqT : T -> T -> bool) s1 s2, lawful_eq eqT -> lawful_set eqT s1 -> lawful_set eqT s2 ->
  exists l, yields symmetric_difference_next (symmetric_difference_new s1 s2) l /\ distinct eqT l /\
    forall x, member eqT x l <-> (elem eqT x s1 /\ ~ elem eqT x s2) \/ (elem eqT x s2 /\ ~ elem eqT x s1).
Proof. exact @symmetric_difference_yields. Qed.
Print Assumptions C19_symmetric_difference.
Example C19_example : yields intersection_next (intersection_new ex1 ex2) [5; 1] /\ yields difference_next (difference_new ex1 ex2) [3; 8] /\
  yields symmetric_difference_next (symmetric_difference_new ex1 ex2) [3; 8; 9].
Proof. split; [|split]; run. Qed.

(** ** C20 *)
Theorem C20_is_disjoint : forall T (eqT : T -> T -> bool), lawful_eq eqT -> forall s1 s2, lawful_set eqT s1 -> lawful_set eqT s2 ->
  exists b, is_disjoint s1 s2 = Ok b /\ (b = true <-> forall x, ~ (elem eqT x s1 /\ elem eqT x s2)).
Proof. exact @is_disjoint_spec. Qed.
Print Assumptions C20_is_disjoint.
Theorem C20_is_subset : forall T (eqT : T -> T -> bool), lawful_eq eqT -> forall s1 s2, lawful_set eqT s1 -> lawful_set eqT s2 ->
  exists b, is_subset s1 s2 = Ok b /\ (b = true <-> forall x, elem eqT x s1 -> elem eqT x s2).
Proof. exact @is_subset_spec. Qed.
Print Assumptions C20_is_subset.
Theorem C20_is_superset : forall T (eqT : T -> T -> bool), lawful_eq eqT -> forall s1 s2, lawful_set eqT s1 -> lawful_set eqT s2 ->
  exists b, is_superset s1 s2 = Ok b /\ (b = true <-> forall x, elem eqT x s2 -> elem eqT x s1).
Proof. exact @is_superset_spec. Qed.
Print Assumptions C20_is_superset.
Example C20_example : is_disjoint ex1 ex2 = Ok false /\ is_disjoint ex1 (hb_set N.eqb [9]) = Ok true /\
  is_subset ex2 ex1 = Ok false /\ is_subset (hb_set N.eqb [8; 1]) ex1 = Ok true /\ is_superset ex1 (hb_set N.eqb [8; 1]) = Ok true /\
  is_subset ex1 ex2 = Ok false.
Proof. repeat split; vm_compute; reflexivity. Qed.

(** ** C21 *)
Theorem C21_operators : forall T (eqT : T -> T -> bool), lawful_eq eqT -> forall s1 s2, lawful_set eqT s1 -> lawful_set eqT s2 ->
  (exists s, set_bitor eqT s1 s2 = Ok s /\ lawful_set eqT s /\ forall x, elem eqT x s <-> elem eqT x s1 \/ elem eqT x s2) /\
  (exists s, set_bitand eqT s1 s2 = Ok s /\ lawful_set eqT s /\ forall x, elem eqT x s <-> elem eqT x s1 /\ elem eqT x s2) /\
  (exists s, set_bitxor eqT s1 s2 = Ok s /\ lawful_set eqT s /\
     forall x, elem eqT x s <-> (elem eqT x s1 /\ ~ elem eqT x s2) \/ (elem eqT x s2 /\ ~ elem eqT x s1)) /\
  (exists s, set_sub eqT s1 s2 = Ok s /\ lawful_set eqT s /\ forall x, elem eqT x s <-> elem eqT x s1 /\ ~ elem eqT x s2).
Proof.
  exact (fun T eqT LE s1 s2 L1 L2 => conj (bitor_spec eqT LE s1 s2 L1 L2) (conj (bitand_spec eqT LE s1 s2 L1 L2)
    (conj (bitxor_spec eqT LE s1 s2 L1 L2) (sub_spec eqT LE s1 s2 L1 L2)))).
Qed.
Print Assumptions C21_operators.
Example C21_example : fmap sv_items (set_bitor N.eqb ex1 ex2) = Ok [1; 5; 3; 8; 9] /\ fmap sv_items (set_bitand N.eqb ex1 ex2) = Ok [5; 1] /\
  fmap sv_items (set_bitxor N.eqb ex1 ex2) = Ok [3; 8; 9] /\ fmap sv_items (set_sub N.eqb ex1 ex2) = Ok [3; 8].
Proof. repeat split; vm_compute; reflexivity. Qed.

(** ** C22 *)
Theorem C22_size_hints : forall T (eqT : T -> T -> bool) s1 s2, lawful_eq eqT -> lawful_set eqT s1 -> lawful_set eqT s2 ->
  (forall st l, reaches difference_next (difference_new s1 s2) st -> yields difference_next st l -> brackets (difference_size_hint st) (length l)) /\
  (forall st l, reaches intersection_next (intersection_new s1 s2) st -> yields intersection_next st l -> brackets (intersection_size_hint st) (length l)) /\
  (forall st l, reaches symmetric_difference_next (symmetric_difference_new s1 s2) st -> yields symmetric_difference_next st l ->
     brackets (symmetric_difference_size_hint st) (length l)) /\
  (forall l, yields union_next (union_new s1 s2) l -> brackets (union_size_hint (union_new s1 s2)) (length l)) /\
  (forall st l, reaches union_next (union_new s1 s2) st -> yields union_next st l ->
     match snd (union_size_hint st) with Some u => N.of_nat (length l) <= u | None => True end).
Proof. exact @hints. Qed.
Print Assumptions C22_size_hints.
(** None of the bounds can be better: each is the number of items for all sets that are disjoint, or one within the other. *)
Theorem C22_bounds_attained : forall T (eqT : T -> T -> bool) s1 s2, lawful_eq eqT -> lawful_set eqT s1 -> lawful_set eqT s2 ->
  let disjoint := forall x, ~ (elem eqT x s1 /\ elem eqT x s2) in
  let within := forall x, elem eqT x s1 -> elem eqT x s2 in
  let around := forall x, elem eqT x s2 -> elem eqT x s1 in
  (forall l, yields difference_next (difference_new s1 s2) l ->
     (within -> fst (difference_size_hint (difference_new s1 s2)) = N.of_nat (length l)) /\
     (disjoint -> snd (difference_size_hint (difference_new s1 s2)) = Some (N.of_nat (length l)))) /\
  (forall l, yields intersection_next (intersection_new s1 s2) l ->
     (disjoint -> fst (intersection_size_hint (intersection_new s1 s2)) = N.of_nat (length l)) /\
     (within \/ around -> snd (intersection_size_hint (intersection_new s1 s2)) = Some (N.of_nat (length l)))) /\
  (forall l, yields symmetric_difference_next (symmetric_difference_new s1 s2) l ->
     (within /\ around -> fst (symmetric_difference_size_hint (symmetric_difference_new s1 s2)) = N.of_nat (length l)) /\
     (disjoint -> N.of_nat (length l) <= usize_max ->
      snd (symmetric_difference_size_hint (symmetric_difference_new s1 s2)) = Some (N.of_nat (length l)))) /\
  (forall l, yields union_next (union_new s1 s2) l ->
     (within \/ around -> fst (union_size_hint (union_new s1 s2)) = N.of_nat (length l)) /\
     (disjoint -> N.of_nat (length l) <= usize_max -> snd (union_size_hint (union_new s1 s2)) = Some (N.of_nat (length l)))).
Proof. exact @attained. Qed.
Print Assumptions C22_bounds_attained.
Example C22_example : difference_size_hint (difference_new ex1 ex2) = (0, Some 4) /\ intersection_size_hint (intersection_new ex1 ex2) = (0, Some 3) /\
  symmetric_difference_size_hint (symmetric_difference_new ex1 ex2) = (0, Some 7) /\ union_size_hint (union_new ex1 ex2) = (4, Some 7).
Proof. repeat split; vm_compute; reflexivity. Qed.

(** ** C23: refuted. The elements of the smaller set that are also in the larger one are still counted in the lower bound after the
    larger one is used up. *)
Theorem C23_union_lower_bound_refuted : exists (s1 s2 : set_val N) st l,
  lawful_set N.eqb s1 /\ lawful_set N.eqb s2 /\ reaches union_next (union_new s1 s2) st /\ yields union_next st l /\
  N.of_nat (length l) < fst (union_size_hint st).
Proof.
  exists (hb_set N.eqb [1; 2; 3]), (hb_set N.eqb [1; 2]).
  exists {| un_s1 := hb_set N.eqb [1; 2; 3]; un_rest1 := []; un_s2 := hb_set N.eqb [1; 2]; un_rest2 := [1; 2] |}, [].
  split; [|split; [|split; [|split]]].
  - apply (hb_set_lawful N.eqb); cbn; repeat split; intros y H; repeat (destruct H as [<-|H]; [reflexivity|]); contradiction.
  - apply (hb_set_lawful N.eqb); cbn; repeat split; intros y H; repeat (destruct H as [<-|H]; [reflexivity|]); contradiction.
  - eapply reaches_step; [eapply reaches_step; [eapply reaches_step; [apply reaches_refl|]|]|]; cbn; reflexivity.
  - run.
  - vm_compute. reflexivity.
Qed.
Print Assumptions C23_union_lower_bound_refuted.

(** Exactly when: [pre] has been taken, [l] is to come and [c] is what the sets share. Up to the end of the larger set the bound is
    wrong once all but [length c] of its elements are taken; after that it is wrong as long as a shared element is left. *)
Theorem C23_union_lower_bound_exactly : forall T eqT (s1 s2 : set_val T), lawful_eq eqT -> lawful_set eqT s1 -> lawful_set eqT s2 ->
  forall pre st l c, takes union_next (union_new s1 s2) pre st -> yields union_next st l ->
  distinct eqT c -> (forall x, member eqT x c <-> elem eqT x s1 /\ elem eqT x s2) ->
  ((length pre <= Nat.max (sv_len s1) (sv_len s2))%nat ->
     (N.of_nat (length l) < fst (union_size_hint st) <-> (Nat.max (sv_len s1) (sv_len s2) < length pre + length c)%nat)) /\
  ((Nat.max (sv_len s1) (sv_len s2) < length pre)%nat ->
     (N.of_nat (length l) < fst (union_size_hint st) <->
      exists x, In x (un_rest1 st ++ un_rest2 st) /\ elem eqT x s1 /\ elem eqT x s2)).
Proof. exact @union_lower_exact. Qed.
Print Assumptions C23_union_lower_bound_exactly.
Example C23_exactly_example : exists st2 st3 st5,
  takes union_next (union_new ex1 ex2) [1; 5] st2 /\ yields union_next st2 [3; 8; 9] /\ fst (union_size_hint st2) = 3 /\
  takes union_next (union_new ex1 ex2) [1; 5; 3] st3 /\ yields union_next st3 [8; 9] /\ fst (union_size_hint st3) = 3 /\
  takes union_next (union_new ex1 ex2) [1; 5; 3; 8; 9] st5 /\ yields union_next st5 [] /\ fst (union_size_hint st5) = 1 /\
  distinct N.eqb [1; 5] /\ (forall x, member N.eqb x [1; 5] <-> elem N.eqb x ex1 /\ elem N.eqb x ex2).
Proof.
  eexists _, _, _. repeat match goal with |- _ /\ _ => split end.
  - repeat (eapply takes_one; [vm_compute; reflexivity|]). apply takes_none.
  - run.
  - vm_compute. reflexivity.
  - repeat (eapply takes_one; [vm_compute; reflexivity|]). apply takes_none.
  - run.
  - vm_compute. reflexivity.
  - repeat (eapply takes_one; [vm_compute; reflexivity|]). apply takes_none.
  - run.
  - vm_compute. reflexivity.
  - cbn. repeat split; intros y H; repeat (destruct H as [<-|H]; [reflexivity|]); contradiction.
  - intros x. unfold elem. rewrite !member_existsb. change (sv_items ex1) with [1; 5; 3; 8]. change (sv_items ex2) with [5; 9; 1].
    cbn [existsb]. lia.
Qed.

(** ** C24 *)
Theorem C24_map_iterators : forall K V,
  (forall st : list (K * V), exact_contract map_iter st st) /\
  (forall st : list (K * V), exact_contract map_keys st (map fst st)) /\
  (forall st : list (K * V), exact_contract map_values st (map snd st)) /\
  (forall st : list (K * V), exact_contract map_into_iter st st) /\
  (forall st : list (K * V), exact_contract map_into_keys st (map fst st)) /\
  (forall st : list (K * V), exact_contract map_into_values st (map snd st)) /\
  (forall st : list (K * nat), exact_contract map_iter_mut st st) /\
  (forall st : list (K * nat), exact_contract map_values_mut st (map snd st)) /\
  (forall st : list (K * unit), exact_contract set_iter st (map fst st)) /\
  (forall st : list (K * unit), exact_contract set_into_iter st (map fst st)).
Proof.
  exact (fun K V => conj (exact_all _ _ map_iter_exact) (conj (exact_all _ _ map_keys_exact) (conj (exact_all _ _ map_values_exact)
    (conj (exact_all _ _ map_iter_exact) (conj (exact_all _ _ map_keys_exact) (conj (exact_all _ _ map_values_exact)
    (conj (exact_all _ _ map_iter_mut_exact) (conj (exact_all _ _ map_values_mut_exact) (conj (exact_all _ _ set_iter_exact)
    (exact_all _ _ set_iter_exact)))))))))).
Qed.
Print Assumptions C24_map_iterators.
Example C24_example : yields (it_next map_keys) (iter_new [(1, 10); (2, 20)]) [1; 2] /\ it_len map_keys (iter_new [(1, 10); (2, 20)]) = 2%nat /\
  it_fold map_values [(1, 10); (2, 20)] 0 N.add = 30.
Proof. split; [run|]. split; reflexivity. Qed.

(** ** C50 *)
Theorem C50_union_commutes : forall T (eqT : T -> T -> bool) s1 s2 l l', lawful_eq eqT -> lawful_set eqT s1 -> lawful_set eqT s2 ->
  yields union_next (union_new s1 s2) l -> yields union_next (union_new s2 s1) l' -> same_elements eqT l l' /\ length l = length l'.
Proof. exact @union_comm. Qed.
Print Assumptions C50_union_commutes.
Theorem C50_intersection_commutes : forall T (eqT : T -> T -> bool) s1 s2 l l', lawful_eq eqT -> lawful_set eqT s1 -> lawful_set eqT s2 ->
  yields intersection_next (intersection_new s1 s2) l -> yields intersection_next (intersection_new s2 s1) l' ->
  same_elements eqT l l' /\ length l = length l'.
Proof. exact @intersection_comm. Qed.
Print Assumptions C50_intersection_commutes.
Theorem C50_cardinality : forall T (eqT : T -> T -> bool) s1 s2, lawful_eq eqT -> lawful_set eqT s1 -> lawful_set eqT s2 ->
  forall l l', yields union_next (union_new s1 s2) l -> yields intersection_next (intersection_new s1 s2) l' ->
  (length l + length l' = sv_len s1 + sv_len s2)%nat.
Proof. exact @union_intersection_card. Qed.
Print Assumptions C50_cardinality.
Theorem C50_algebra : forall T (eqT : T -> T -> bool) s1 s2, lawful_eq eqT -> lawful_set eqT s1 -> lawful_set eqT s2 ->
  exists u i d x e, set_bitor eqT s1 s2 = Ok u /\ set_bitand eqT s1 s2 = Ok i /\ set_sub eqT s1 s2 = Ok d /\ set_bitxor eqT s1 s2 = Ok x /\
    set_sub eqT u i = Ok e /\
    is_disjoint d s2 = Ok true /\ is_subset s1 u = Ok true /\ is_subset s2 u = Ok true /\ is_subset i s1 = Ok true /\ is_subset i s2 = Ok true /\
    set_eq x e = Ok true /\ (sv_len u + sv_len i = sv_len s1 + sv_len s2)%nat.
Proof. exact @algebra. Qed.
Print Assumptions C50_algebra.
Theorem C50_subset_antisymmetric : forall T (eqT : T -> T -> bool) s1 s2, lawful_eq eqT -> lawful_set eqT s1 -> lawful_set eqT s2 ->
  (is_subset s1 s2 = Ok true /\ is_subset s2 s1 = Ok true <-> set_eq s1 s2 = Ok true) /\ is_superset s1 s2 = is_subset s2 s1.
Proof. exact @subset_antisym. Qed.
Print Assumptions C50_subset_antisymmetric.
Example C50_example : exists u i d x e, set_bitor N.eqb ex1 ex2 = Ok u /\ set_bitand N.eqb ex1 ex2 = Ok i /\ set_sub N.eqb ex1 ex2 = Ok d /\
  set_bitxor N.eqb ex1 ex2 = Ok x /\ set_sub N.eqb u i = Ok e /\ sv_items d = [3; 8] /\ sv_items x = [3; 8; 9] /\ sv_items e = [3; 8; 9].
Proof. do 5 eexists. repeat (split; [cbn; reflexivity|]). reflexivity. Qed.
