(** Clones of collections and of their iterators (C78). *)
From Verif Require Import ModelUtils ModelTables ModelMaps ModelIter ModelHostile SpecMagnitude ModelMagnitude ModelClone.
From Verif Require Import Spec SpecMade SpecHostile SpecClone ProofsEmitProps ProofsMade ProofsHostile ProofsClone Instances.
From Verif Require Import Prelude.

(** ** C78 *)

(** For every map, built by the crate or not: the clone has the clones of the entries where the originals are, and every query of the clone ends
    as the same query of the original does, with the counterpart of what that returns. *)
Theorem C78_same : forall M K V Q cK cV (ops : map_ops M K V Q) m ops' m', cloned cK cV ops m ops' m' ->
  copied cK cV (mo_entries ops m) (mo_entries ops' m') /\
  forall q,
    same_find cK cV snd (mo_entries ops m) (mo_entries ops' m') (mo_get ops m q) (mo_get ops' m' q) /\
    same_find cK cV (fun e => e) (mo_entries ops m) (mo_entries ops' m') (mo_get_key_value ops m q) (mo_get_key_value ops' m' q) /\
    mo_get_mut ops' m' q = mo_get_mut ops m q /\ mo_contains_key ops' m' q = mo_contains_key ops m q.
Proof. intros M K V Q cK cV ops m ops' m' H. destruct (cloned_alike _ _ _ _ _ _ H). auto. Qed.
Print Assumptions C78_same.

(** A clone of a map made from some entries answers like a map made from their clones. *)
Theorem C78_answers : forall M K V Q (cK : K -> K) (cV : V -> V) (ops : map_ops M K V Q) eqK eqv m ops' m' input,
  made ops eqK eqv m input -> (forall k, eqK (cK k) k = true) ->
  cloned (fun _ k => Ok (cK k)) (fun _ v => Ok (cV v)) ops m ops' m' ->
  answers ops' eqK eqv m' (map (fun e => (cK (fst e), cV (snd e))) input).
Proof.
  intros M K V Q cK cV ops eqK eqv m ops' m' input MD HK HC. destruct (made_lawful _ _ _ _ _ MD) as [LE LV].
  apply (clone_answers cK cV ops ops' m m' eqK eqv input HK LE).
  - intros q k. destruct (eqv q k) eqn:E1.
    + rewrite (LV q k (cK k) E1). apply (eq_sym_law _ LE), HK.
    + destruct (eqv q (cK k)) eqn:E2; [|reflexivity]. rewrite (LV q (cK k) k E2) in E1. rewrite HK in E1. discriminate E1.
  - exact (cloned_alike _ _ _ _ _ _ HC).
  - exact (made_answers _ _ _ _ _ MD).
Qed.
Print Assumptions C78_answers.

(** A clone equals the original and the original the clone. *)
Theorem C78_equal : forall M K V cK cV (ops : map_ops M K V K) eqK eqV m ops' m' input,
  made ops eqK eqK m input -> cloned cK cV ops m ops' m' ->
  ((forall n v v', cV n v = Ok v' -> eqV v v' = true) -> map_eq ops eqV m (as_query ops' m') = Ok true) /\
  ((forall n v v', cV n v = Ok v' -> eqV v' v = true) -> (forall n k k', cK n k = Ok k' -> eqK k k' = true) ->
     map_eq ops' eqV m' (as_query ops m) = Ok true).
Proof.
  intros M K V cK cV ops eqK eqV m ops' m' input MD HC. apply cloned_alike in HC. split.
  - exact (original_equal cK cV ops ops' m m' eqK eqV input MD HC).
  - exact (clone_equal cK cV ops ops' m m' eqK eqV input MD HC).
Qed.
Print Assumptions C78_equal.

(** Whatever the user's [clone] does: cloning a collection panics exactly if one of the calls does, never reads outside of an array, and gives a
    collection that is as sound as the original. *)
Theorem C78_safe : forall K V cK cV (m : any_map K V), (forall p k, cK p k <> UB) -> (forall p v, cV p v <> UB) ->
  (any_clone cK cV m = Panic <-> clone_panics cK cV (any_entries m)) /\
  match any_clone cK cV m with
  | Ok m' => copied cK cV (any_entries m) (any_entries m') /\ (sound m' <-> sound m) /\ (bounded m' <-> bounded m)
  | Panic => True
  | UB => False
  end.
Proof. exact @any_clone_ends. Qed.
Print Assumptions C78_safe.

(** So a client of the clone of a sound map gets replies, all made of what the clone holds and the client puts, with traits that change their minds
    and panic. *)
Theorem C78_session : forall K V cK cV (m m' : any_map K V) rqs adv n, (forall p k, cK p k <> UB) -> (forall p v, cV p v <> UB) ->
  sound m -> any_clone cK cV m = Ok m' ->
  exists rps m'' n', h_session rqs m' adv n = Ok ((rps, m''), n') /\ length rps = length rqs /\
    Forall (from_known (map fst (any_entries m')) (map snd (any_entries m') ++ put_values rqs)) rps.
Proof.
  intros K V cK cV m m' rqs adv n HK HV HS HC. destruct (any_clone_ends cK cV m HK HV) as [_ H]. rewrite HC in H. destruct H as (_ & H & _).
  destruct (session_full m' rqs adv n (proj2 H HS)) as (rps & m'' & n' & A & B & C & _). exists rps, m'', n'. auto.
Qed.
Print Assumptions C78_session.

(** Over a user's [CollectionMagnitude] the slots are cloned too, number by number, with the user's [clone]. The above holds if that keeps the
    numbers... *)
Theorem C78_magnitude : forall cm K V Q cK cV ce (hQ hQ' : Q -> res N) (eqv : Q -> K -> bool) (m m' : cm_table cm (K * V)),
  (forall x, mg_into cm (ce x) = mg_into cm x) ->
  (forall q n k k', cK n k = Ok k' -> eqv q k' = eqv q k) -> (forall q, hQ' q = hQ q) -> ct_clone cK cV ce m = Ok m' ->
  copied cK cV (ct_entries m) (ct_entries m') /\
  forall q,
    same_find cK cV snd (ct_entries m) (ct_entries m') (ct_get cm hQ eqv m q) (ct_get cm hQ' eqv m' q) /\
    same_find cK cV (fun e => e) (ct_entries m) (ct_entries m') (ct_get_key_value cm hQ eqv m q) (ct_get_key_value cm hQ' eqv m' q) /\
    ct_get_mut cm hQ' eqv m' q = ct_get_mut cm hQ eqv m q /\ ct_contains_key cm hQ' eqv m' q = ct_contains_key cm hQ eqv m q.
Proof. intros cm K V Q cK cV ce hQ hQ' eqv m m' HC HE HH H. destruct (magnitude_alike cK cV ce hQ hQ' eqv m m' HC HE HH H) as [A B C D E].
  split; [exact A|]. intros q. split; [exact (B q)|]. split; [exact (C q)|]. split; [exact (D q)|exact (E q)].
Qed.
Print Assumptions C78_magnitude.

(** ... but [Copy], which the trait asks for, does not make it so: with any magnitude that is otherwise right, some [clone] turns a map of one entry
    into one whose lookup reads outside of its array. *)
Theorem C78_magnitude_refuted : forall cm usort, mg_max_capacity cm <= usize_max -> keeps_indices cm -> 2 <= mg_max_capacity cm ->
  sorts_by_slot usort ->
  exists ce m m', ct_with_hasher cm usort N.eqb (fun k => k) [(0, tt)] = Ok (ROk m) /\
    ct_clone (fun _ k => Ok k) (fun _ v => Ok v) ce m = Ok m' /\
    mo_get (ct_ops cm (fun k => Ok k) N.eqb) m 0 = Ok (Some tt) /\
    mo_get (ct_ops cm (fun k => Ok k) N.eqb) m' 0 = UB.
Proof. exact magnitude_clone_ub. Qed.
Print Assumptions C78_magnitude_refuted.

(** A cloned iterator, at any point, hints at and yields what the original goes on to. *)
Theorem C78_iterators : forall T fuel,
  (forall u : union_st T, union_size_hint (union_clone u) = union_size_hint u /\ drain union_next fuel (union_clone u) = drain union_next fuel u) /\
  (forall d : difference_st T, difference_size_hint (difference_clone d) = difference_size_hint d /\
     drain difference_next fuel (difference_clone d) = drain difference_next fuel d) /\
  (forall i : intersection_st T, intersection_size_hint (intersection_clone i) = intersection_size_hint i /\
     drain intersection_next fuel (intersection_clone i) = drain intersection_next fuel i) /\
  (forall c : symmetric_difference_st T, symmetric_difference_size_hint (symmetric_difference_clone c) = symmetric_difference_size_hint c /\
     drain symmetric_difference_next fuel (symmetric_difference_clone c) = drain symmetric_difference_next fuel c).
Proof.
  intros T fuel. repeat split; rewrite ?union_clone_id, ?difference_clone_id, ?intersection_clone_id, ?symmetric_difference_clone_id; reflexivity.
Qed.
Print Assumptions C78_iterators.

(** Keys are equal if their last digits are; a clone is a different key that is equal, and says where it was made. *)
Definition digit_eq (a b : N) : bool := a mod 10 =? b mod 10.
Definition clone_key (n : nat) (k : N) : res N := Ok (k + 10 * (1 + N.of_nat n)).
Definition clone_value (n : nat) (v : N) : res N := if v =? 66 then Panic else Ok v.
Example C78_example :
  (exists m m', hash_map_with_hasher slot_sort Small digit_eq (fun k => k mod 10) [(3, 30); (14, 40); (13, 31); (5, 50)] = Ok (ROk m) /\
     hash_clone clone_key clone_value m = Ok m' /\
     cloned clone_key clone_value (hash_ops (fun k => Ok (k mod 10)) digit_eq) m (hash_ops (fun k => Ok (k mod 10)) digit_eq) m' /\
     map (hash_get_key_value (fun k => Ok (k mod 10)) digit_eq m) [3; 4; 95; 6] =
       [Ok (Some (13, 31)); Ok (Some (14, 40)); Ok (Some (5, 50)); Ok None] /\
     map (hash_get_key_value (fun k => Ok (k mod 10)) digit_eq m') [3; 4; 95; 6] =
       [Ok (Some (23, 31)); Ok (Some (44, 40)); Ok (Some (25, 50)); Ok None]) /\
  clone_panics clone_key clone_value [(1, 10); (2, 66); (3, 66)] /\
  any_clone clone_key clone_value (AnyOrdered {| em_entries := [(1, 10); (2, 66); (3, 66)] |}) = Panic /\
  any_clone clone_key clone_value (AnyScan {| sm_entries := [(1, 10); (2, 67)] |}) = Ok (AnyScan {| sm_entries := [(11, 10); (22, 67)] |}).
Proof.
  split; [|split; [|split; vm_compute; reflexivity]].
  - eexists. eexists. split; [vm_compute; reflexivity|]. split; [vm_compute; reflexivity|]. split; [|split; vm_compute; reflexivity].
    apply cloned_hash; [|reflexivity|vm_compute; reflexivity]. unfold clone_key, digit_eq. intros q n k k' H.
    assert (E : k' = k + 10 * (1 + N.of_nat n)) by congruence. rewrite E.
    replace ((k + 10 * (1 + N.of_nat n)) mod 10) with (k mod 10); [reflexivity|].
    replace (k + 10 * (1 + N.of_nat n)) with (k + (1 + N.of_nat n) * 10) by lia. rewrite N.mod_add by discriminate. reflexivity.
  - exists 1%nat, (2, 66). split; [reflexivity|]. split; [right; split; [eexists; reflexivity|reflexivity]|].
    intros p' e' L E. assert (p' = 0)%nat by lia. subst. injection E as <-. split; eexists; reflexivity.
Qed.
