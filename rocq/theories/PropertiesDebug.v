(** Property theorems about [Debug] output (C69). Statements only; proofs are in [ProofsDebug.v]. Each theorem is followed by the axioms it
    depends on and by a concrete case. *)
From Coq Require Import String.
From Verif Require Import Prelude Spec SpecMade ModelUtils ModelTables ModelMaps ModelIter SpecSets SpecDebug ModelDebug ProofsMade ProofsProps ProofsDebug
  Instances PropertiesMaps PropertiesSets.

(** ** C69 *)

(** A map prints every key once, with the value given last for it, in iteration order; a set prints its elements. *)
Theorem C69_maps : forall M K V Q (ops : map_ops M K V Q) eqK eqv m input fK fV, made ops eqK eqv m input ->
  exists es, yields (it_next map_iter) (iter_new (mo_entries ops m)) es /\ map_debug fK fV ops m = Ok (braces (map (binding fK fV) es)) /\
    distinct eqK (map fst es) /\
    (forall e, In e es <-> exists pre post, input = pre ++ e :: post /\ forall e', In e' post -> eqK (fst e) (fst e') = false).
Proof.
  intros M K V Q ops eqK eqv m input fK fV H. destruct (made_iteration _ _ _ _ _ H) as [A [B [C _]]]. exists (mo_entries ops m).
  split; [exact C|]. split; [apply map_debug_text|]. split; assumption.
Qed.
Print Assumptions C69_maps.
Theorem C69_sets : forall M T Q (ops : map_ops M T unit Q) eqT eqv m values f, made ops eqT eqv m (unit_entries values) ->
  exists l, yields (it_next set_iter) (iter_new (mo_entries ops m)) l /\ set_debug f ops m = Ok (braces (map f l)) /\ distinct eqT l /\
    (forall x, In x l <-> exists pre post, values = pre ++ x :: post /\ forall y, In y post -> eqT x y = false).
Proof. exact @sets_print. Qed.
Print Assumptions C69_sets.

(** In any state, [Iter], [Keys], [Values] and the iterator of sets print what they have yet to yield. *)
Theorem C69_iterators : forall K V (fK : K -> string) (fV : V -> string),
  (forall st l, yields (it_next map_iter) st l -> iter_debug fK fV st = Ok (listing (map (pair_text fK fV) l))) /\
  (forall (st : list (K * V)) l, yields (it_next map_keys) st l -> keys_debug fK st = Ok (listing (map fK l))) /\
  (forall (st : list (K * V)) l, yields (it_next map_values) st l -> values_debug fV st = Ok (listing (map fV l))) /\
  (forall st l, yields (it_next set_iter) st l -> set_iter_debug fK st = Ok (listing (map fK l))).
Proof. exact @iterators_print. Qed.
Print Assumptions C69_iterators.
(** So do [Union], [Difference] and [Intersection], whatever the sets involved. *)
Theorem C69_set_operations : forall T (f : T -> string),
  (forall st l, yields union_next st l -> union_debug f st = Ok (listing (map f l))) /\
  (forall st l, yields difference_next st l -> difference_debug f st = Ok (listing (map f l))) /\
  (forall st l, yields intersection_next st l -> intersection_debug f st = Ok (listing (map f l))).
Proof. exact (fun T f => conj (union_debug_text f) (conj (difference_debug_text f) (intersection_debug_text f))). Qed.
Print Assumptions C69_set_operations.

(** [SymmetricDifference] does not: it prints the two differences it is made of, inside the name of a private detail. *)
Theorem C69_symmetric_difference : forall T (f : T -> string) s1 s2 a b,
  yields difference_next (difference_new s1 s2) a -> yields difference_next (difference_new s2 s1) b ->
  symmetric_difference_debug f (symmetric_difference_new s1 s2) =
    Ok ("Chain { a: Some(" ++ listing (map f a) ++ "), b: Some(" ++ listing (map f b) ++ ") }")%string.
Proof. exact @symmetric_difference_debug_text. Qed.
Print Assumptions C69_symmetric_difference.
Definition digit (n : N) : string := match n with 1 => "1" | 2 => "2" | 3 => "3" | 5 => "5" | 8 => "8" | 9 => "9" | _ => "?" end%string.
Theorem C69_symmetric_difference_refuted : exists (s1 s2 : set_val N) l, lawful_set N.eqb s1 /\ lawful_set N.eqb s2 /\
  yields symmetric_difference_next (symmetric_difference_new s1 s2) l /\
  symmetric_difference_debug digit (symmetric_difference_new s1 s2) <> Ok (listing (map digit l)).
Proof.
  exists ex1, ex2, [3; 8; 9]. destruct ex_lawful as [A B]. split; [exact A|]. split; [exact B|]. split; [run|]. vm_compute. discriminate.
Qed.
Print Assumptions C69_symmetric_difference_refuted.
(** Nor do [IterMut], [IntoIter] and what is built on them; [ValuesMut] and [IntoValues] print keys that they never yield. *)
Theorem C69_owned_iterators : forall K V (fK : K -> string) (fV : V -> string) (st : list (K * V)),
  let entries := listing (map (pair_text fK fV) st) in
  iter_mut_debug fK fV st = ("IterMut(" ++ entries ++ ")")%string /\ values_mut_debug fK fV st = ("IterMut(" ++ entries ++ ")")%string /\
  into_iter_debug fK fV st = ("IntoIter(" ++ entries ++ ")")%string /\
  into_keys_debug fK fV st = ("IntoKeys { inner: IntoIter(" ++ entries ++ ") }")%string /\
  into_values_debug fK fV st = ("IntoValues { inner: IntoIter(" ++ entries ++ ") }")%string.
Proof. exact @owned_print. Qed.
Print Assumptions C69_owned_iterators.
Theorem C69_values_only_refuted : exists st st' : list (N * N), map snd st = map snd st' /\
  values_debug digit st = values_debug digit st' /\ values_mut_debug digit digit st <> values_mut_debug digit digit st' /\
  into_values_debug digit digit st <> into_values_debug digit digit st'.
Proof. exists [(1, 5)], [(2, 5)]. vm_compute. repeat split; discriminate. Qed.
Print Assumptions C69_values_only_refuted.

(** Equal maps may print differently. *)
Theorem C69_equal_maps_refuted : exists input input' : list (N * N),
  let m := scan_map_new N.eqb input in let m' := scan_map_new N.eqb input' in
  made (scan_ops N.eqb) N.eqb N.eqb m input /\ made (scan_ops N.eqb) N.eqb N.eqb m' input' /\
  (forall k, spec_get N.eqb input k = spec_get N.eqb input' k) /\
  map_debug digit digit (scan_ops N.eqb (V := N)) m <> map_debug digit digit (scan_ops N.eqb) m'.
Proof.
  exists [(1, 5); (2, 8)], [(2, 8); (1, 5)]. cbv zeta. split; [apply made_scan; [exact N_eqb_lawful|exact N_eqb_equivalent]|].
  split; [apply made_scan; [exact N_eqb_lawful|exact N_eqb_equivalent]|]. split.
  - intros k. unfold spec_get, spec_entry. cbn. destruct (N.eqb_spec k 1) as [->|]; [reflexivity|]. destruct (N.eqb k 2); reflexivity.
  - vm_compute. discriminate.
Qed.
Print Assumptions C69_equal_maps_refuted.

Example C69_example :
  map_debug digit digit (scan_ops N.eqb) (scan_map_new N.eqb [(1, 5); (2, 8); (1, 9)]) = Ok "{2: 8, 1: 9}"%string /\
  map_debug digit digit (scan_ops N.eqb) (scan_map_new N.eqb []) = Ok "{}"%string /\
  union_debug digit (union_new ex1 ex2) = Ok "[1, 5, 3, 8, 9]"%string /\ difference_debug digit (difference_new ex1 ex2) = Ok "[3, 8]"%string /\
  symmetric_difference_debug digit (symmetric_difference_new ex1 ex2) = Ok "Chain { a: Some([3, 8]), b: Some([9]) }"%string /\
  keys_debug digit [(1, 5); (2, 8)] = Ok "[1, 2]"%string /\ iter_debug digit digit [(1, 5); (2, 8)] = Ok "[(1, 5), (2, 8)]"%string /\
  values_mut_debug digit digit [(1, 5); (2, 8)] = "IterMut([(1, 5), (2, 8)])"%string /\
  set_into_iter_debug digit [(1, tt)] = "IntoIter { inner: IntoIter([(1, ())]) }"%string.
Proof. repeat (split; [vm_compute; reflexivity|]). vm_compute. reflexivity. Qed.
