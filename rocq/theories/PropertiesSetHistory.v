(** Property theorems about set iterators used to the end and beyond (C71), and about clients of sets (C72). Proofs are in [ProofsSetHistory.v]. *)
From Coq Require Import Permutation.
From Verif Require Import Prelude Spec ModelUtils ModelAnalyzers ModelTables ModelMaps ModelIter SpecMade SpecSets SpecSetHistory ModelSetHistory
  ProofsIter ProofsSetHistory Instances PropertiesSets.

(** ** C71 *)
(** Once a set iterator has answered [None] it answers nothing else, in whatever state it was, and whatever the two sets claim to hold. *)
Theorem C71_fused : forall T,
  (forall st st1 st2 : union_st T, union_next st = Ok (None, st1) -> reaches union_next st1 st2 -> exists st3, union_next st2 = Ok (None, st3)) /\
  (forall st st1 st2 : intersection_st T, intersection_next st = Ok (None, st1) -> reaches intersection_next st1 st2 ->
     exists st3, intersection_next st2 = Ok (None, st3)) /\
  (forall st st1 st2 : difference_st T, difference_next st = Ok (None, st1) -> reaches difference_next st1 st2 ->
     exists st3, difference_next st2 = Ok (None, st3)) /\
  (forall st st1 st2 : symmetric_difference_st T, symmetric_difference_next st = Ok (None, st1) -> reaches symmetric_difference_next st1 st2 ->
     exists st3, symmetric_difference_next st2 = Ok (None, st3)).
Proof. exact (fun T => conj (@fused_union T) (conj (@fused_intersection T) (conj (@fused_difference T) (@fused_symmetric_difference T)))). Qed.
Print Assumptions C71_fused.

(** [count] answers the number of items still to come, in whatever state the iterator is. *)
Theorem C71_count : forall T,
  (forall (st : union_st T) l, yields union_next st l -> union_count st = Ok (length l)) /\
  (forall (st : intersection_st T) l, yields intersection_next st l -> intersection_count st = Ok (length l)) /\
  (forall (st : difference_st T) l, yields difference_next st l -> difference_count st = Ok (length l)) /\
  (forall (st : symmetric_difference_st T) l, yields symmetric_difference_next st l -> symmetric_difference_count st = Ok (length l)).
Proof. exact (fun T => conj (@union_counts T) (conj (@intersection_counts T) (conj (@difference_counts T) (@symmetric_difference_counts T)))). Qed.
Print Assumptions C71_count.

(** A symmetric difference after two items, in the middle of its second part, and used up. *)
Example C71_example : exists st1 st2 st3 st4,
  symmetric_difference_next (symmetric_difference_new ex1 ex2) = Ok (Some 3, st1) /\ symmetric_difference_next st1 = Ok (Some 8, st2) /\
  symmetric_difference_count st1 = Ok 2%nat /\ symmetric_difference_count st2 = Ok 1%nat /\
  symmetric_difference_next st2 = Ok (Some 9, st3) /\ symmetric_difference_count st3 = Ok 0%nat /\
  symmetric_difference_next st3 = Ok (None, st4) /\ fmap fst (symmetric_difference_next st4) = Ok None /\
  union_count (union_new ex1 ex2) = Ok 5%nat /\ intersection_count (intersection_new ex1 ex2) = Ok 2%nat.
Proof. do 4 eexists. repeat (split; [cbn; reflexivity|]). cbn. reflexivity. Qed.

(** ** C72 *)
(** A client holds frozen sets of any kinds and sets of hashbrown, asks questions about them and combines them into further sets, choosing each call
    from the answers so far. It gets exactly the answers finite sets give, and ends up with sets of the same elements. hashbrown may list
    elements in any order. *)
Theorem C72_set_history : forall T (eqT : T -> T -> bool) shuffle, lawful_eq eqT -> (forall l, Permutation l (shuffle l)) ->
  forall sets inputs, Forall2 (client_set eqT shuffle) sets inputs ->
  forall client n, (forall seen c, client seen = Some c -> respectful eqT c) ->
  exists answers refs' sets',
    converse (fun r c => Ok (ref_set_call eqT r c)) client n [] (map (without_repeats eqT) inputs) = Ok (answers, refs') /\
    converse (set_client_call eqT shuffle) client n [] sets = Ok (answers, sets') /\
    Forall2 (fun s l => lawful_set eqT s /\ forall x, elem eqT x s <-> member eqT x l) sets' refs'.
Proof. exact @set_history. Qed.
Print Assumptions C72_set_history.

(** A client with a hash set, a scan set and a set of hashbrown that lists its elements backwards. It keeps a union, takes from it an
    intersection, and asks about what is left; which sets it compares depends on what it has seen. *)
Definition ex_set_client (seen : list set_answer) : option (set_call N) :=
  match seen with
  | [] => Some (CallKeep OpUnion 0 1)
  | [SaysKept] => Some (CallKeep OpIntersection 1 2)
  | [SaysKept; SaysKept] => Some (CallKeep OpDifference 3 4)
  | [_; _; _] => Some (CallSize 5)
  | [SaysCount 4; _; _; _] => Some (CallSubset 5 0)
  | [SaysBool false; _; _; _; _] => Some (CallCountIf 5 (fun x => N.ltb 4 x))
  | [_; _; _; _; _; _] => Some (CallCount OpSymmetricDifference 0 2)
  | [_; _; _; _; _; _; _] => Some (CallDisjoint 4 5)
  | [_; _; _; _; _; _; _; _] => Some (CallContains 9 1)
  | _ => None
  end.
Definition ex_hb : set_val N := hb_set N.eqb (rev (hb_from_iter N.eqb [1; 5; 1; 2])).
Definition ex_scan : set_val N := as_set (scan_ops N.eqb) (scan_map_new N.eqb (unit_entries [9; 5; 1; 7; 5])).
Example C72_example : exists s0 sets',
  ex_set [1; 5; 1; 3; 8] = Ok s0 /\
  Forall2 (client_set N.eqb (@rev N)) [s0; ex_scan; ex_hb] [[1; 5; 1; 3; 8]; [9; 5; 1; 7; 5]; [1; 5; 1; 2]] /\
  (forall seen c, ex_set_client seen = Some c -> respectful N.eqb c) /\
  converse (set_client_call N.eqb (@rev N)) ex_set_client 20 [] [s0; ex_scan; ex_hb] =
    Ok ([SaysNoSuchSet; SaysBool true; SaysCount 3; SaysCount 3; SaysBool false; SaysCount 4; SaysKept; SaysKept; SaysKept], sets').
Proof.
  destruct (proj1 C09_sets_constructed N N slot_sort N.eqb N.eqb (fun k => k mod 3) (fun k => k mod 3) [1; 5; 1; 3; 8] slot_sort_sorts N_eqb_lawful
    N_eqb_equivalent (N_hash_lawful _) (N_query_hash_lawful _)) as [m0 [E0 M0]]; [vm_compute; discriminate|].
  exists (as_set (hash_ops (fun q => Ok (q mod 3)) N.eqb) m0).
  assert (exists sets', converse (set_client_call N.eqb (@rev N)) ex_set_client 20 []
      [as_set (hash_ops (fun q => Ok (q mod 3)) N.eqb) m0; ex_scan; ex_hb] =
    Ok ([SaysNoSuchSet; SaysBool true; SaysCount 3; SaysCount 3; SaysBool false; SaysCount 4; SaysKept; SaysKept; SaysKept], sets')) as [sets' E].
  { clear M0. vm_compute in E0. injection E0 as <-. eexists. vm_compute. reflexivity. }
  exists sets'. split; [unfold ex_set; rewrite E0; reflexivity|]. split; [|split; [|exact E]].
  - constructor; [exact (client_frozen _ _ _ _ _ _ M0)|]. constructor; [|constructor; [apply client_hashbrown|constructor]].
    apply client_frozen. exact (made_scan _ _ _ _ _ _ N_eqb_lawful N_eqb_equivalent).
  - intros seen c H. unfold ex_set_client in H.
    repeat match type of H with
    | match ?x with _ => _ end = _ => destruct x; try discriminate H
    | Some _ = Some _ => injection H as <-; try exact I
    end.
    all: cbn; intros x y E'; apply N.eqb_eq in E'; subst; reflexivity.
Qed.
