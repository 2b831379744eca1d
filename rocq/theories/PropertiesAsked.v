(** Property theorems about how many trait methods the comparisons of maps and sets and the iterators of set operations call (C85), whatever the methods
    answer. Statements only; proofs are in [ProofsAsked.v] and [ProofsSplice.v]. Each theorem is followed by the axioms it depends on and by a concrete case. *)
From Verif Require Import ModelUtils ModelAnalyzers ModelTables ModelMaps ModelIter ModelHostile ModelHostileIter ModelHostileEq.
From Verif Require Import Spec SpecHostile SpecCovers SpecCalls SpecAsked ProofsAsked ProofsSplice Instances.
From Verif Require Import Prelude.

(** ** C85 *)

(** Maps of different lengths are unequal without a question asked. *)
Theorem C85_map_eq_lengths : forall K V (m other : any_map K V) adv n, length (any_entries m) <> length (any_entries other) ->
  h_map_eq m other adv n = Ok (false, n).
Proof. intros K V m other adv n H. unfold h_map_eq. apply Nat.eqb_neq in H. rewrite H. reflexivity. Qed.
Print Assumptions C85_map_eq_lengths.

(** Comparing two maps takes at most one lookup and one comparison of values per entry of the first. It ends, panics only if a method does, and does not
    say "equal" without having asked for every entry. Nothing is assumed of the first map. *)
Theorem C85_map_eq : forall K V (m other : any_map K V) adv n, sound other ->
  match h_map_eq m other adv n with
  | Ok (b, n') => (n <= n' <= n + length (any_entries m) * S (most_calls other))%nat /\
      (b = true -> (n + length (any_entries m) * S (fewest_calls other) <= n')%nat)
  | Panic => exists i, (i < length (any_entries m) * S (most_calls other))%nat /\ a_panics (adv (n + i)%nat) = true
  | UB => False
  end.
Proof. exact @map_eq_compares. Qed.
Print Assumptions C85_map_eq.

(** Traits that are functions are among the streams: what equality says of them, it says here for some stream without panics. *)
Theorem C85_map_eq_covers : forall K V (t : traits K K) (eqV : V -> V -> bool) (m other : any_map K V), sixty_four_bits t ->
  exists adv, (forall i, a_panics (adv i) = false) /\ fmap (fun y => fst y) (h_map_eq m other adv 0%nat) = plain_eq t eqV m other.
Proof. exact @map_eq_covered. Qed.
Print Assumptions C85_map_eq_covers.

(** The comparisons of sets that the lengths decide ask nothing. *)
Theorem C85_lengths : forall T (s1 s2 : h_set T) adv n,
  ((hs_len s2 < hs_len s1)%nat -> h_is_subset s1 s2 adv n = Ok (false, n)) /\
  ((hs_len s1 < hs_len s2)%nat -> h_is_superset s1 s2 adv n = Ok (false, n)) /\
  (hs_len s1 <> hs_len s2 -> h_set_eq s1 s2 adv n = Ok (false, n)).
Proof.
  intros T s1 s2 adv n. unfold h_is_subset, h_is_superset, h_set_eq. split; [|split]; intros H.
  - destruct (Nat.leb_spec (hs_len s1) (hs_len s2)); [lia|reflexivity].
  - destruct (Nat.leb_spec (hs_len s2) (hs_len s1)); [lia|reflexivity].
  - apply Nat.eqb_neq in H. rewrite H. reflexivity.
Qed.
Print Assumptions C85_lengths.

(** The others ask about the elements of one set at most once each, and say "yes" only after having asked about all; disjointness asks about those
    of the smaller set (the first one, if they are equally large). *)
Theorem C85_comparisons : forall T (s1 s2 : h_set T) adv n, sound (hs_map s1) -> sound (hs_map s2) ->
  let few s := fewest_calls (hs_map s) in let most s := most_calls (hs_map s) in
  compares (hs_len s1) (few s2) (most s2) (h_is_subset s1 s2) adv n /\
  compares (hs_len s2) (few s1) (most s1) (h_is_superset s1 s2) adv n /\
  compares (hs_len s1) (few s2) (most s2) (h_set_eq s1 s2) adv n /\
  (let smaller := if Nat.leb (hs_len s1) (hs_len s2) then s1 else s2 in
   let other := if Nat.leb (hs_len s1) (hs_len s2) then s2 else s1 in
   compares (hs_len smaller) (few other) (most other) (h_is_disjoint s1 s2) adv n).
Proof. exact @comparisons_compare. Qed.
Print Assumptions C85_comparisons.

(** The iterators, in whatever state, ask about what is left of one set, once per element: the union of the smaller set (the first one, if they are equally
    large), the intersection too (the second one), the difference of the first. However often they are called, that is all they ask, and when they
    say [None] they have asked it. *)
Theorem C85_union : forall T (u : h_union T), sound (hs_map (hu_s1 u)) -> sound (hs_map (hu_s2 u)) ->
  let first := Nat.ltb (hs_len (hu_s2 u)) (hs_len (hu_s1 u)) in
  let asked := if first then hs_map (hu_s1 u) else hs_map (hu_s2 u) in let k := length (if first then hu_rest2 u else hu_rest1 u) in
  asks h_union_next u (k * fewest_calls asked) (k * most_calls asked).
Proof. exact @union_asks. Qed.
Print Assumptions C85_union.
Theorem C85_difference : forall T (d : h_difference T), sound (hs_map (hd_s2 d)) ->
  asks h_difference_next d (length (hd_rest1 d) * fewest_calls (hs_map (hd_s2 d))) (length (hd_rest1 d) * most_calls (hs_map (hd_s2 d))).
Proof. exact @difference_asks. Qed.
Print Assumptions C85_difference.
Theorem C85_intersection : forall T (i : h_intersection T), sound (hs_map (hi_s1 i)) -> sound (hs_map (hi_s2 i)) ->
  let first := Nat.ltb (hs_len (hi_s1 i)) (hs_len (hi_s2 i)) in
  let asked := if first then hs_map (hi_s2 i) else hs_map (hi_s1 i) in let k := length (if first then hi_rest1 i else hi_rest2 i) in
  asks h_intersection_next i (k * fewest_calls asked) (k * most_calls asked).
Proof. exact @intersection_asks. Qed.
Print Assumptions C85_intersection.
Theorem C85_symmetric_difference : forall T (s1 s2 : h_set T), sound (hs_map s1) -> sound (hs_map s2) ->
  asks h_symmetric_difference_next (h_symmetric_difference_new s1 s2)
    (hs_len s1 * fewest_calls (hs_map s2) + hs_len s2 * fewest_calls (hs_map s1)) (hs_len s1 * most_calls (hs_map s2) + hs_len s2 * most_calls (hs_map s1)).
Proof. exact @symmetric_asks. Qed.
Print Assumptions C85_symmetric_difference.

(** Both bounds are reached: for each of the first three, in every state. *)
Theorem C85_union_attained : forall T (u : h_union T),
  let first := Nat.ltb (hs_len (hu_s2 u)) (hs_len (hu_s1 u)) in
  let asked := if first then hs_map (hu_s1 u) else hs_map (hu_s2 u) in let k := length (if first then hu_rest2 u else hu_rest1 u) in
  sound asked -> slots_fit asked -> takes h_union_next u (k * fewest_calls asked) /\ takes h_union_next u (k * most_calls asked).
Proof. exact @union_takes. Qed.
Print Assumptions C85_union_attained.
Theorem C85_difference_attained : forall T (d : h_difference T), sound (hs_map (hd_s2 d)) -> slots_fit (hs_map (hd_s2 d)) ->
  takes h_difference_next d (length (hd_rest1 d) * fewest_calls (hs_map (hd_s2 d))) /\
  takes h_difference_next d (length (hd_rest1 d) * most_calls (hs_map (hd_s2 d))).
Proof. exact @difference_takes. Qed.
Print Assumptions C85_difference_attained.
Theorem C85_intersection_attained : forall T (i : h_intersection T),
  let first := Nat.ltb (hs_len (hi_s1 i)) (hs_len (hi_s2 i)) in
  let asked := if first then hs_map (hi_s2 i) else hs_map (hi_s1 i) in let k := length (if first then hi_rest1 i else hi_rest2 i) in
  sound asked -> slots_fit asked -> takes h_intersection_next i (k * fewest_calls asked) /\ takes h_intersection_next i (k * most_calls asked).
Proof. exact @intersection_takes. Qed.
Print Assumptions C85_intersection_attained.

(** For the symmetric difference too, from its start. (Which answers are worst may differ from one set to the other, so the stream changes in the middle,
    and so depends on where it starts.) *)
Theorem C85_symmetric_difference_attained : forall T (s1 s2 : h_set T) n calls, sound (hs_map s1) -> slots_fit (hs_map s1) -> sound (hs_map s2) -> slots_fit (hs_map s2) ->
  calls = (hs_len s1 * fewest_calls (hs_map s2) + hs_len s2 * fewest_calls (hs_map s1))%nat \/
  calls = (hs_len s1 * most_calls (hs_map s2) + hs_len s2 * most_calls (hs_map s1))%nat ->
  exists adv, (forall i, a_panics (adv i) = false) /\ forall k, exists evs st' n',
    h_calls h_symmetric_difference_next k (h_symmetric_difference_new s1 s2) adv n = Ok ((evs, st'), n') /\ (In Done evs -> n' = n + calls)%nat.
Proof. exact @symmetric_takes. Qed.
Print Assumptions C85_symmetric_difference_attained.

(** An ordered map of five entries (most 3 calls a lookup, fewest 1) against a scan map of five, and sets of five, three and two elements. *)
Definition scan5 : any_map N N := AnyScan {| sm_entries := [(1, 10); (2, 20); (3, 30); (4, 40); (5, 50)] |}.
Definition tree5 : any_map N N := AnyOrdered {| em_entries := [(4, 40); (2, 20); (5, 50); (1, 10); (3, 30)] |}.
Definition order_of (l : list comparison) (bool : bool) : nat -> answer :=
  fun i => {| a_panics := Nat.leb 30 i; a_bool := bool; a_order := nth (Nat.modulo i (length l)) l Gt; a_number := 0 |}.
Definition ended {A} (r : res (A * nat)) : option (A * nat) := match r with Ok x => Some x | _ => None end.
Example C85_ex_map_eq : sound tree5 /\ (fewest_calls tree5, most_calls tree5) = (1, 3)%nat /\
  ended (h_map_eq scan5 tree5 (order_of [Gt; Gt; Eq; Eq] true) 0%nat) = Some (true, 20%nat) /\ ended (h_map_eq scan5 tree5 (order_of [Eq] true) 7%nat) = Some (true, 17%nat) /\
  ended (h_map_eq scan5 tree5 (order_of [Eq] false) 7%nat) = Some (false, 9%nat) /\ ended (h_map_eq scan5 tree5 (order_of [Gt] false) 7%nat) = Some (false, 10%nat) /\
  h_map_eq scan5 tree5 (order_of [Eq] true) 22%nat = Panic.
Proof. split; [exact I|]. vm_compute. repeat split. Qed.
Definition odd_traits : traits N N := {|
  t_eq := N.eqb; t_cmp := N.compare; t_hash := fun k => k mod 256; t_idx := fun k => k mod 256; t_eqv := N.eqb; t_cmpQ := fun q k => N.compare q k;
  t_hashQ := fun q => q mod 256; t_idxQ := fun q => q mod 256 |}.
Example C85_ex_covers : sixty_four_bits odd_traits /\ plain_eq odd_traits N.eqb scan5 tree5 = Ok true /\ plain_eq odd_traits N.eqb tree5 scan5 = Ok true /\
  plain_eq odd_traits N.ltb tree5 scan5 = Ok false.
Proof.
  split; [|vm_compute; auto]. assert (H : forall k : N, k mod 256 < two64) by (intros k; apply (N.lt_trans _ 256); [apply N.mod_lt; discriminate|reflexivity]).
  unfold sixty_four_bits. cbn [odd_traits t_hash t_idx t_hashQ t_idxQ]. auto.
Qed.
Definition units (l : list N) : list (N * unit) := map (fun x => (x, tt)) l.
Definition set5 : h_set N := {| hs_map := AnyOrdered {| em_entries := units [4; 2; 5; 1; 3] |}; hs_facade := true |}.
Definition set3 : h_set N := {| hs_map := AnyScan {| sm_entries := units [7; 8; 9] |}; hs_facade := false |}.
Definition many {T St} (next : St -> hostile (event T * St)) (st : St) (adv : nat -> answer) : option nat := option_map snd (ended (h_calls next 12 st adv 0%nat)).
Example C85_ex_sets : sound (hs_map set5) /\ sound (hs_map set3) /\ slots_fit (hs_map set5) /\ slots_fit (hs_map set3) /\
  map (fun c => ended (c (order_of [Gt] false) 0%nat)) [h_is_subset set3 set5; h_is_superset set5 set3; h_is_disjoint set3 set5; h_is_disjoint set5 set3] =
    [Some (false, 3%nat); Some (false, 3%nat); Some (true, 9%nat); Some (true, 9%nat)] /\
  map (fun c => ended (c (order_of [Eq] true) 0%nat)) [h_is_subset set3 set5; h_is_superset set5 set3; h_is_disjoint set3 set5; h_is_subset set5 set3] =
    [Some (true, 3%nat); Some (true, 3%nat); Some (false, 1%nat); Some (false, 0%nat)].
Proof. do 4 (split; [exact I|]). vm_compute. split; reflexivity. Qed.
Example C85_ex_iterators :
  map (many h_union_next (h_union_new set3 set5)) [order_of [Gt] false; order_of [Eq] true] = [Some 9%nat; Some 3%nat] /\
  map (many h_intersection_next (h_intersection_new set3 set5)) [order_of [Gt] false; order_of [Eq] true] = [Some 9%nat; Some 3%nat] /\
  map (many h_difference_next (h_difference_new set3 set5)) [order_of [Gt] false; order_of [Eq] true] = [Some 9%nat; Some 3%nat] /\
  map (many h_difference_next (h_difference_new set5 set3)) [order_of [Gt] false; order_of [Eq] true] = [Some 15%nat; Some 15%nat] /\
  map (many h_symmetric_difference_next (h_symmetric_difference_new set3 set5)) [order_of [Gt] false; order_of [Eq] true] = [Some 24%nat; Some 18%nat].
Proof. vm_compute. repeat split. Qed.
(** Both entries of one set are in the even slot of its hash table, those of the other in the odd one: no number is worst for both. *)
Definition set_even : h_set N := {| hs_map := AnyHash {| hm_table := {| ht_slots := [(0, 2); (0, 0)]; ht_entries := units [1; 2]; ht_mask := 1 |} |}; hs_facade := true |}.
Definition set_odd : h_set N := {| hs_map := AnyHash {| hm_table := {| ht_slots := [(0, 0); (0, 2)]; ht_entries := units [3; 4]; ht_mask := 1 |} |}; hs_facade := false |}.
Definition number_until (k : nat) (a b : N) : nat -> answer :=
  fun i => {| a_panics := false; a_bool := false; a_order := Gt; a_number := if Nat.ltb i k then a else b |}.
Example C85_ex_splice : slots_fit (hs_map set_even) /\ slots_fit (hs_map set_odd) /\
  (fewest_calls (hs_map set_even), most_calls (hs_map set_even)) = (1, 3)%nat /\ (fewest_calls (hs_map set_odd), most_calls (hs_map set_odd)) = (1, 3)%nat /\
  map (many h_symmetric_difference_next (h_symmetric_difference_new set_even set_odd))
    [number_until 0 0 0; number_until 0 1 1; number_until 6 1 0; number_until 2 0 1] = [Some 8; Some 8; Some 12; Some 4]%nat.
Proof. vm_compute. repeat split; discriminate. Qed.
Example C85_ex_splice_sound : sound (hs_map set_even) /\ sound (hs_map set_odd).
Proof.
  assert (H : forall h, N.land h 1 = 0 \/ N.land h 1 = 1) by (intros h; change (N.land h 1) with (N.land h (N.ones 1)); rewrite N.land_ones; pose proof (N.mod_lt h (2 ^ 1) ltac:(discriminate)); change (2 ^ 1) with 2 in *; lia).
  split; intros h _; cbn [set_even set_odd hs_map hm_table ht_slots ht_entries ht_mask]; destruct (H h) as [-> | ->]; eexists _, _; (split; [reflexivity|]); cbn; lia.
Qed.
