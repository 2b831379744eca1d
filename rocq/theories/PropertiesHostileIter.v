(** C79: the set operations over sets whose [contains] keeps state and panics. Statements only; proofs are in [ProofsHostileIter.v]. *)
From Verif Require Import ModelUtils ModelAnalyzers ModelTables ModelMaps ModelIter ModelHostile ModelHostileIter.
From Verif Require Import Spec SpecHostile SpecCovers SpecHostileIter ProofsHostile ProofsHostileIter Instances.
From Verif Require Import Prelude.

(** In whatever state an iterator is (right after it was made or in the middle), over sets whose fields fit together: it stays within
    what it had left of the stored elements, in their order, each at most once; it ends, and stays ended; the upper bound it gives is one;
    nothing but a panicking trait method makes it panic. No law is assumed, and panics are caught and the iterator used further. *)
Theorem C79_iterators : forall T,
  (forall u : h_union T, sound (hs_map (hu_s1 u)) -> sound (hs_map (hu_s2 u)) ->
    tame h_union_next u
      (if Nat.ltb (hs_len (hu_s2 u)) (hs_len (hu_s1 u)) then hu_rest1 u ++ hu_rest2 u else hu_rest2 u ++ hu_rest1 u) (h_union_size_hint u)) /\
  (forall d : h_difference T, sound (hs_map (hd_s2 d)) -> tame h_difference_next d (hd_rest1 d) (h_difference_size_hint d)) /\
  (forall i : h_intersection T, sound (hs_map (hi_s1 i)) -> sound (hs_map (hi_s2 i)) ->
    (length (hi_rest1 i) <= hs_len (hi_s1 i))%nat -> (length (hi_rest2 i) <= hs_len (hi_s2 i))%nat ->
    tame h_intersection_next i (if Nat.ltb (hs_len (hi_s1 i)) (hs_len (hi_s2 i)) then hi_rest1 i else hi_rest2 i) (h_intersection_size_hint i)) /\
  (forall c : h_symmetric_difference T, (forall a, hx_a c = Some a -> sound (hs_map (hd_s2 a))) -> sound (hs_map (hd_s2 (hx_b c))) ->
    tame h_symmetric_difference_next c (match hx_a c with Some a => hd_rest1 a | None => [] end ++ hd_rest1 (hx_b c))
      (h_symmetric_difference_size_hint c)).
Proof.
  intros T. split; [exact union_tame|]. split; [exact difference_tame|]. split; [exact intersection_tame|]. exact symmetric_tame.
Qed.
Print Assumptions C79_iterators.

(** The larger set of a union (the second one, if they are equally large) comes out whole and first, without a question asked. So the lower
    bound a fresh union gives holds too. *)
Theorem C79_union_first : forall T (s1 s2 : h_set T) adv n k,
  let big := if Nat.ltb (hs_len s2) (hs_len s1) then hs_items s1 else hs_items s2 in
  fst (h_union_size_hint (h_union_new s1 s2)) = N.of_nat (length big) /\
  ((k <= length big)%nat -> exists st, h_calls h_union_next k (h_union_new s1 s2) adv n = Ok ((map Item (firstn k big), st), n)).
Proof.
  intros T s1 s2 adv n k. cbv zeta. split.
  - change (N.max (N.of_nat (length (hs_items s1))) (N.of_nat (length (hs_items s2))) =
      N.of_nat (length (if Nat.ltb (hs_len s2) (hs_len s1) then hs_items s1 else hs_items s2))).
    assert (L : forall s : h_set T, length (hs_items s) = hs_len s) by (intros s; apply map_length).
    destruct (Nat.ltb_spec (hs_len s2) (hs_len s1)); rewrite !L; lia.
  - apply union_first.
Qed.
Print Assumptions C79_union_first.

(** The comparisons of sets answer; they panic only if a trait method does. *)
Theorem C79_comparisons : forall T (s1 s2 : h_set T) adv n, sound (hs_map s1) -> sound (hs_map s2) ->
  Forall (fun compare => compare adv n <> UB /\ ((forall i, a_panics (adv i) = false) -> exists b n', compare adv n = Ok (b, n')))
    [h_is_disjoint s1 s2; h_is_subset s1 s2; h_is_superset s1 s2; h_set_eq s1 s2].
Proof.
  intros T s1 s2 adv n H1 H2. apply Forall_forall. intros x Hx. pose proof (relations_run false s1 s2 H1 H2 x Hx adv n ltac:(discriminate)) as A.
  pose proof (relations_run true s1 s2 H1 H2 x Hx adv n) as B. destruct (x adv n) as [[b n']| |]; (split; [congruence || contradiction|]).
  - eauto.
  - intros Q. specialize (B (fun _ => Q)). discriminate.
  - contradiction.
Qed.
Print Assumptions C79_comparisons.

(** Sets that came out of a constructor of the crate are such sets, unless it is one of the two that ask again (C74). *)
Theorem C79_made : forall T usort md mk (values : list (T * unit)) facade adv n m n', sorts_by_slot usort -> N.of_nat (length values) <= usize_max ->
  asks_again mk = false -> h_make usort md mk values adv n = Ok (ROk m, n') ->
  let s := {| hs_map := m; hs_facade := facade |} in
  sound (hs_map s) /\ incl (hs_items s) (map fst values) /\ (hs_len s <= length values)%nat.
Proof.
  intros T usort md mk values facade adv n m n' HU HL HA E. cbv zeta. destruct (make_full usort md mk values adv n HU HL) as [_ [M _]].
  destruct (M m n' E) as [I [L [_ S]]]. split; [apply S, HA|]. split; [|exact L]. intros x Hx. unfold hs_items in Hx. cbn [hs_map] in Hx.
  apply in_map_iff in Hx. destruct Hx as [e [<- He]]. apply in_map. apply I. exact He.
Qed.
Print Assumptions C79_made.

(** With one of those two, in safe code, taking the difference reads outside of an array. *)
Theorem C79_scalar_refuted : exists adv, (forall i, a_panics (adv i) = false) /\
  forall md mk facade, asks_again mk = true ->
    (r <~ h_make slot_sort md mk [(10, tt)] ;;
     match r with
     | ROk m => let s := {| hs_map := m; hs_facade := facade |} in h_calls h_difference_next 1 (h_difference_new s s)
     | RErr _ => ret ([], h_difference_new {| hs_map := AnyScan {| sm_entries := [] |}; hs_facade := facade |} {| hs_map := AnyScan {| sm_entries := [] |}; hs_facade := facade |})
     end) adv 0%nat = UB.
Proof.
  exists (numbers [0; 7; 7; 7; 9; 9]). split; [reflexivity|]. intros [] mk [] H; destruct mk; try discriminate; vm_compute; reflexivity.
Qed.
Print Assumptions C79_scalar_refuted.

(** Trait implementations that are functions are among the streams: whatever the iterators and comparisons of ModelIter.v do over
    such sets, those here do for some stream without panics. *)
Theorem C79_covers : forall T (t : traits T T) (s1 s2 : h_set T) k, sixty_four_bits t ->
  let p1 := plain_set t s1 in let p2 := plain_set t s2 in
  let some_stream A (x : hostile A) B (f : A -> B) (r : res B) := exists adv, (forall i, a_panics (adv i) = false) /\ fmap (fun y => f (fst y)) (x adv 0%nat) = r in
  some_stream _ (h_calls h_union_next k (h_union_new s1 s2)) _ fst (plain_calls union_next k (union_new p1 p2)) /\
  some_stream _ (h_calls h_difference_next k (h_difference_new s1 s2)) _ fst (plain_calls difference_next k (difference_new p1 p2)) /\
  some_stream _ (h_calls h_intersection_next k (h_intersection_new s1 s2)) _ fst (plain_calls intersection_next k (intersection_new p1 p2)) /\
  some_stream _ (h_calls h_symmetric_difference_next k (h_symmetric_difference_new s1 s2)) _ fst
    (plain_calls symmetric_difference_next k (symmetric_difference_new p1 p2)) /\
  some_stream _ (h_is_disjoint s1 s2) _ (fun b => b) (is_disjoint p1 p2) /\
  some_stream _ (h_is_subset s1 s2) _ (fun b => b) (is_subset p1 p2) /\
  some_stream _ (h_is_superset s1 s2) _ (fun b => b) (is_superset p1 p2) /\
  some_stream _ (h_set_eq s1 s2) _ (fun b => b) (set_eq p1 p2).
Proof. exact @iterators_covered. Qed.
Print Assumptions C79_covers.

(** In every state, the size hints are those of ModelIter.v in that state, which C22 and C23 are about. *)
Theorem C79_hints : forall T (t : traits T T),
  let plain_difference (d : h_difference T) := {| df_rest1 := hd_rest1 d; df_s2 := plain_set t (hd_s2 d) |} in
  (forall u, h_union_size_hint u =
    union_size_hint {| un_s1 := plain_set t (hu_s1 u); un_rest1 := hu_rest1 u; un_s2 := plain_set t (hu_s2 u); un_rest2 := hu_rest2 u |}) /\
  (forall d, h_difference_size_hint d = difference_size_hint (plain_difference d)) /\
  (forall i, h_intersection_size_hint i =
    intersection_size_hint {| in_s1 := plain_set t (hi_s1 i); in_rest1 := hi_rest1 i; in_s2 := plain_set t (hi_s2 i); in_rest2 := hi_rest2 i |}) /\
  (forall c, h_symmetric_difference_size_hint c =
    symmetric_difference_size_hint {| sd_a := option_map plain_difference (hx_a c); sd_b := plain_difference (hx_b c) |}).
Proof. intros T t. cbv zeta. repeat split; try reflexivity. intros [[a|] b]; reflexivity. Qed.
Print Assumptions C79_hints.
(** So the lower bounds of all but the union hold under any answers, being 0. *)
Theorem C79_lower_bounds : forall T, (forall d : h_difference T, fst (h_difference_size_hint d) = 0) /\
  (forall i : h_intersection T, fst (h_intersection_size_hint i) = 0) /\
  (forall c : h_symmetric_difference T, fst (h_symmetric_difference_size_hint c) = 0).
Proof. intros T. repeat split. intros [[a|] b]; reflexivity. Qed.
Print Assumptions C79_lower_bounds.

(** Two sets made under answers all over the place, and iterators over them. *)
Definition wild (n : nat) : answer :=
  let x := N.of_nat n * 2654435761 + 12345 in
  {| a_panics := Nat.leb 40 n && N.eqb (x mod 5) 3; a_bool := N.eqb (x mod 3) 1; a_order := match x mod 3 with 0 => Lt | 1 => Eq | _ => Gt end;
     a_number := x mod 1009 |}.
Definition made mk (l : list N) : h_set N :=
  {| hs_map := match h_make slot_sort Debug mk (map (fun x => (x, tt)) l) wild 7%nat with Ok (ROk m, _) => m | _ => AnyScan {| sm_entries := [] |} end;
     hs_facade := true |}.
Definition s_hash : h_set N := made MakeFzHash [1; 2; 3; 4; 5; 6].
Definition s_ordered : h_set N := made MakeFzOrdered [4; 5; 6; 7; 8].
Definition s_inner : h_set N := {| hs_map := hs_map (made MakeScan [9; 4; 1]); hs_facade := false |}.

Example C79_made_example : hs_items s_hash = [5; 6; 2; 3] /\ hs_items s_ordered = [4; 6; 8; 5] /\ hs_items s_inner = [4; 1].
Proof. vm_compute. auto. Qed.
Example C79_sound_example : sound (hs_map s_hash) /\ sound (hs_map s_ordered) /\ sound (hs_map s_inner).
Proof.
  assert (H : forall mk l, asks_again mk = false -> N.of_nat (length l) <= usize_max -> sound (hs_map (made mk l))).
  { intros mk l A L. unfold made. cbn [hs_map]. destruct (h_make slot_sort Debug mk _ wild 7%nat) as [[[m|]]| |] eqn:E; try exact I.
    refine (proj1 (C79_made _ _ _ _ _ true _ _ _ _ slot_sort_sorts _ A E)). rewrite map_length. exact L. }
  unfold s_hash, s_ordered, s_inner. cbn [hs_map]. split; [|split]; apply H; auto; vm_compute; discriminate.
Qed.

(** The union comes up with 5 twice, as its sets both have it and deny it; a panic costs the element asked about. *)
Definition seen {St} (r : res ((list (event N) * St) * nat)) : list (event N) := match r with Ok ((l, _), _) => l | _ => [] end.
Example C79_example :
  seen (h_calls h_union_next 10 (h_union_new s_hash s_ordered) wild 41%nat) =
    [Item 4; Item 6; Item 8; Item 5; Item 5; Caught; Item 2; Done; Done; Done] /\
  seen (h_calls h_difference_next 5 (h_difference_new s_hash s_ordered) wild 43%nat) = [Caught; Item 6; Caught; Done; Done] /\
  seen (h_calls h_intersection_next 4 (h_intersection_new s_hash s_ordered) wild 60%nat) = [Item 4; Caught; Done; Done] /\
  seen (h_calls h_symmetric_difference_next 7 (h_symmetric_difference_new s_hash s_inner) wild 41%nat) =
    [Item 5; Caught; Item 2; Caught; Item 1; Done; Done] /\
  map (fun c => match c wild 41%nat with Ok (b, _) => Some b | _ => None end)
    [h_is_disjoint s_hash s_ordered; h_is_subset s_hash s_ordered; h_is_superset s_hash s_ordered; h_set_eq s_hash s_ordered] =
    [None; Some false; Some false; Some false].
Proof. vm_compute. repeat split. Qed.

(** With functions. *)
Definition by_parity : traits N N := {|
  t_eq := N.eqb; t_cmp := N.compare; t_hash := fun k => k mod 256; t_idx := fun k => k mod 256;
  t_eqv := fun q k => Bool.eqb (N.even q) (N.even k); t_cmpQ := fun q k => N.compare q k;
  t_hashQ := fun q => q mod 2; t_idxQ := fun q => q mod 256 |}.
Example C79_covers_example : sixty_four_bits by_parity /\
  plain_calls union_next 8 (union_new (plain_set by_parity s_inner) (plain_set by_parity s_hash)) = Ok [Item 5; Item 6; Item 2; Item 3; Item 4; Done; Done; Done] /\
  plain_calls intersection_next 4 (intersection_new (plain_set by_parity s_inner) (plain_set by_parity s_hash)) = Ok [Item 1; Done; Done; Done].
Proof.
  assert (H : forall x m, m <> 0 -> m < two64 -> x mod m < two64) by (intros x m H0 H1; pose proof (N.mod_lt x m H0); lia).
  split; [|vm_compute; repeat split]. repeat split; intros k; apply H; (discriminate || reflexivity).
Qed.
