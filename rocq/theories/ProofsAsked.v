(** Proofs about the number of trait calls of comparisons and of iterators over sets. *)
From Verif Require Import ModelUtils ModelAnalyzers ModelTables ModelMaps ModelIter ModelHostile ModelHostileIter ModelHostileEq.
From Verif Require Import Spec SpecHostile SpecCovers SpecHostileIter SpecCalls SpecAsked.
From Verif Require Import ProofsHostile ProofsCovers ProofsHostileIter ProofsCalls.
From Verif Require Import Prelude.
From Coq Require Import ZArith ZifyNat ZifyN ZifyBool.

(** ** Comparisons *)
Lemma compares_ret k few most b adv n : (b = true -> k = 0)%nat -> compares k few most (ret b) adv n.
Proof. intros H. unfold compares, ret. split; [lia|]. intros ->. rewrite H by reflexivity. lia. Qed.

(** One element asked about, then the others. *)
Lemma compares_step k few most (x : hostile bool) (y : hostile bool) adv n : cost few most x (fun _ => True) ->
  (forall n, compares k few most y adv n) -> compares (S k) few most (b <~ x ;; if b then y else ret false) adv n.
Proof.
  intros C H. unfold compares, andthen. specialize (C adv n). destruct (x adv n) as [[b n']| |].
  - destruct b; [|unfold ret; split; [lia|discriminate]]. specialize (H n'). unfold compares in H. destruct (y adv n') as [[b' n2]| |].
    + split; [lia|]. intros E. apply H in E. lia.
    + destruct H as [i [L E]]. exists (n' - n + i)%nat. split; [lia|]. rewrite <- E. do 2 f_equal. lia.
    + exact H.
  - destruct C as [i [L E]]. exists i. split; [lia|exact E].
  - exact C.
Qed.
Lemma compares_ext k few most (x y : hostile bool) adv n : (forall adv n, x adv n = y adv n) -> compares k few most y adv n -> compares k few most x adv n.
Proof. intros E H. unfold compares in *. rewrite E. exact H. Qed.

Lemma contains_cost {T} (s : h_set T) : sound (hs_map s) -> cost (fewest_calls (hs_map s)) (most_calls (hs_map s)) (h_contains s) (fun _ => True).
Proof.
  intros H. unfold h_contains, h_contains_key. destruct (hs_facade s).
  - eapply cost_last; [apply get_cost, H|]. intros a _. apply cost_ret. exact I.
  - eapply cost_last; [apply get_key_value_cost, H|]. intros a _. apply cost_ret. exact I.
Qed.

Lemma all_compares {T} want (s : h_set T) adv : sound (hs_map s) -> forall l n,
  compares (length l) (fewest_calls (hs_map s)) (most_calls (hs_map s)) (h_all want s l) adv n.
Proof.
  intros H. induction l as [|x r IH]; intros n; cbn [h_all length]; [apply compares_ret; reflexivity|].
  eapply compares_ext; [|apply (compares_step _ _ _ (b <~ h_contains s ;; ret (Bool.eqb b want)) (h_all want s r))].
  - intros adv' n'. unfold andthen, ret. destruct (h_contains s adv' n') as [[b n2]| |]; [|reflexivity..]. destruct (Bool.eqb b want); reflexivity.
  - eapply cost_last; [apply contains_cost, H|]. intros a _. apply cost_ret. exact I.
  - exact IH.
Qed.
Lemma items_len {T} (s : h_set T) : length (hs_items s) = hs_len s.
Proof. apply map_length. Qed.

Lemma comparisons_compare {T} (s1 s2 : h_set T) adv n : sound (hs_map s1) -> sound (hs_map s2) ->
  let few s := fewest_calls (hs_map s) in let most s := most_calls (hs_map s) in
  compares (hs_len s1) (few s2) (most s2) (h_is_subset s1 s2) adv n /\
  compares (hs_len s2) (few s1) (most s1) (h_is_superset s1 s2) adv n /\
  compares (hs_len s1) (few s2) (most s2) (h_set_eq s1 s2) adv n /\
  (let smaller := if Nat.leb (hs_len s1) (hs_len s2) then s1 else s2 in
   let other := if Nat.leb (hs_len s1) (hs_len s2) then s2 else s1 in
   compares (hs_len smaller) (few other) (most other) (h_is_disjoint s1 s2) adv n).
Proof.
  intros H1 H2. cbv zeta. unfold h_is_subset, h_is_superset, h_set_eq, h_is_disjoint.
  split; [|split; [|split]].
  - destruct (Nat.leb _ _); [|apply compares_ret; discriminate]. rewrite <- (items_len s1). apply all_compares, H2.
  - destruct (Nat.leb _ _); [|apply compares_ret; discriminate]. rewrite <- (items_len s2). apply all_compares, H1.
  - destruct (negb _); [apply compares_ret; discriminate|]. rewrite <- (items_len s1). apply all_compares, H2.
  - destruct (Nat.leb _ _); rewrite <- items_len; apply all_compares; assumption.
Qed.

Lemma eq_all_compares {K V} (other : any_map K V) adv : sound other -> forall es n,
  compares (length es) (fewest_calls other) (S (most_calls other)) (h_eq_all es other) adv n /\
  match h_eq_all es other adv n with Ok (true, n') => (n + length es * S (fewest_calls other) <= n')%nat | _ => True end.
Proof.
  intros H. induction es as [|e r IH]; intros n; cbn [h_eq_all length]; [split; [apply compares_ret; reflexivity|cbn; lia]|].
  pose (x := o <~ h_get other ;; match o with Some _ => ask_bool | None => ret false end).
  assert (C : cost (fewest_calls other) (S (most_calls other)) x (fun _ => True)).
  { unfold x. replace (S (most_calls other)) with (most_calls other + 1)%nat by lia. rewrite <- (Nat.add_0_r (fewest_calls other)).
    eapply cost_then; [apply get_cost, H|]. intros [v|] _; [apply cost_bool0|step (cost_ret false (fun _ => True))]. }
  assert (E : forall adv n, (o <~ h_get other ;; match o with Some _ => b <~ ask_bool ;; if b then h_eq_all r other else ret false | None => ret false end) adv n =
    (b <~ x ;; if b then h_eq_all r other else ret false) adv n).
  { intros adv' n'. unfold x, andthen, ret. destruct (h_get other adv' n') as [[[v|] n2]| |]; reflexivity. }
  split.
  - eapply compares_ext; [exact E|]. apply compares_step; [exact C|]. intros n'. apply IH.
  - unfold andthen. pose proof (get_cost other H adv n) as G. destruct (h_get other adv n) as [[[v|] n1]| |]; [|exact I..].
    pose proof (cost_bool adv n1) as B. destruct (ask_bool adv n1) as [[[|] n2]| |]; [|exact I..]. specialize (IH n2). destruct IH as [_ IH].
    destruct (h_eq_all r other adv n2) as [[[|] n3]| |]; [|exact I..]. destruct G, B. lia.
Qed.
Lemma map_eq_compares {K V} (m other : any_map K V) adv n : sound other ->
  compares (length (any_entries m)) (S (fewest_calls other)) (S (most_calls other)) (h_map_eq m other) adv n.
Proof.
  intros H. unfold h_map_eq. destruct (negb _); [apply compares_ret; discriminate|]. destruct (eq_all_compares other adv H (any_entries m) n) as [A B].
  unfold compares in *. destruct (h_eq_all _ other adv n) as [[b n']| |]; [|exact A|exact A]. split; [apply A|]. intros ->. exact B.
Qed.

(** ** Iterators *)
Definition within {T} (adv : nat -> answer) (s : h_set T) (lo hi : nat) : Prop := forall n, exists b n', h_contains s adv n = Ok (b, n') /\ (n + lo <= n' <= n + hi)%nat.
Lemma sound_within {T} (s : h_set T) adv : (forall i, a_panics (adv i) = false) -> sound (hs_map s) ->
  within adv s (fewest_calls (hs_map s)) (most_calls (hs_map s)).
Proof.
  intros Q H n. pose proof (contains_cost s H adv n) as C. destruct (h_contains s adv n) as [[b n']| |]; [|destruct C as [i [_ E]]; rewrite Q in E; discriminate|contradiction].
  destruct C as [C _]. eauto.
Qed.

Lemma where_within {T} adv want (s : h_set T) lo hi : within adv s lo hi -> forall rest n, exists e r n',
  h_where want s rest adv n = Ok ((e, r), n') /\ (n + length rest * lo <= n' + length r * lo)%nat /\ (n' + length r * hi <= n + length rest * hi)%nat /\
  (n <= n')%nat /\ (e = Done -> r = []).
Proof.
  intros W. induction rest as [|x r IH]; intros n; cbn [h_where length].
  - exists Done, [], n. split; [reflexivity|]. cbn [length]. repeat split; lia.
  - destruct (W n) as [b [n1 [E L]]]. rewrite E. destruct (Bool.eqb b want).
    + exists (Item x), r, n1. split; [reflexivity|]. repeat split; try lia. discriminate.
    + destruct (IH n1) as [e [r' [n2 [E2 [L1 [L2 [L3 D]]]]]]]. exists e, r', n2. split; [exact E2|]. repeat split; try lia. exact D.
Qed.

(** What an iterator has left to ask, at least and at most, as a function of its state. *)
Definition paced {T St} adv (next : St -> hostile (event T * St)) (ok : St -> Prop) (lo hi : St -> nat) : Prop :=
  forall st n, ok st -> exists e st' n', next st adv n = Ok ((e, st'), n') /\ ok st' /\ (n <= n')%nat /\ (n' + hi st' <= n + hi st)%nat /\
    (n + lo st <= n' + lo st')%nat /\ (e = Done -> lo st' = 0%nat).
Lemma paced_calls {T St} adv (next : St -> hostile (event T * St)) ok lo hi : paced adv next ok lo hi -> forall k st n, ok st ->
  exists evs st' n', h_calls next k st adv n = Ok ((evs, st'), n') /\ (n <= n' <= n + hi st)%nat /\ (In Done evs -> (n + lo st <= n')%nat).
Proof.
  intros P. induction k as [|k IH]; intros st n H; cbn [h_calls].
  - exists [], st, n. split; [reflexivity|]. split; [lia|intros []].
  - destruct (P st n H) as [e [st1 [n1 [E1 [H1 [L1 [L2 [L3 D]]]]]]]]. destruct (IH st1 n1 H1) as [evs [st2 [n2 [E2 [L4 L5]]]]].
    exists (e :: evs), st2, n2. unfold andthen. rewrite E1. cbn [snd]. rewrite E2. split; [reflexivity|]. split; [lia|]. cbn [In fst].
    intros [->|I]; [rewrite (D eq_refl) in L3|apply L5 in I]; lia.
Qed.

Section Paced.
Context {T : Type} (adv : nat -> answer).
Definition union_asked (u : h_union T) : list T := if Nat.ltb (hs_len (hu_s2 u)) (hs_len (hu_s1 u)) then hu_rest2 u else hu_rest1 u.
Lemma union_paced (s1 s2 : h_set T) lo hi : within adv (if Nat.ltb (hs_len s2) (hs_len s1) then s1 else s2) lo hi ->
  paced adv h_union_next (fun u => hu_s1 u = s1 /\ hu_s2 u = s2) (fun u => length (union_asked u) * lo)%nat (fun u => length (union_asked u) * hi)%nat.
Proof.
  intros W [q1 r1 q2 r2] n [E1 E2]. cbn [hu_s1 hu_s2] in E1, E2. subst q1 q2. unfold h_union_next, union_asked. cbn [hu_s1 hu_s2 hu_rest1 hu_rest2].
  destruct (Nat.ltb (hs_len s2) (hs_len s1)) eqn:L.
  - destruct r1 as [|x r].
    + destruct (where_within adv false s1 lo hi W r2 n) as [e [r [n' [E [L1 [L2 [L3 D]]]]]]]. unfold andthen, ret. rewrite E.
      exists e, (hu_with2 {| hu_s1 := s1; hu_rest1 := []; hu_s2 := s2; hu_rest2 := r2 |} r), n'. cbn [fst snd hu_with2 hu_s1 hu_s2 hu_rest1 hu_rest2]. rewrite L.
      repeat split; auto. intros X. rewrite (D X). reflexivity.
    + eexists _, _, _. split; [reflexivity|]. cbn [hu_with1 hu_s1 hu_s2 hu_rest1 hu_rest2]. rewrite L. repeat split; auto; try lia. discriminate.
  - destruct r2 as [|x r].
    + destruct (where_within adv false s2 lo hi W r1 n) as [e [r [n' [E [L1 [L2 [L3 D]]]]]]]. unfold andthen, ret. rewrite E.
      exists e, (hu_with1 {| hu_s1 := s1; hu_rest1 := r1; hu_s2 := s2; hu_rest2 := [] |} r), n'. cbn [fst snd hu_with1 hu_s1 hu_s2 hu_rest1 hu_rest2]. rewrite L.
      repeat split; auto. intros X. rewrite (D X). reflexivity.
    + eexists _, _, _. split; [reflexivity|]. cbn [hu_with2 hu_s1 hu_s2 hu_rest1 hu_rest2]. rewrite L. repeat split; auto; try lia. discriminate.
Qed.
Lemma difference_paced (s2 : h_set T) lo hi : within adv s2 lo hi ->
  paced adv h_difference_next (fun d => hd_s2 d = s2) (fun d => length (hd_rest1 d) * lo)%nat (fun d => length (hd_rest1 d) * hi)%nat.
Proof.
  intros W [r1 q2] n E. cbn [hd_s2] in E. subst q2. unfold h_difference_next, andthen, ret. cbn [hd_rest1 hd_s2].
  destruct (where_within adv false s2 lo hi W r1 n) as [e [r [n' [E [L1 [L2 [L3 D]]]]]]]. rewrite E. eexists _, _, _. split; [reflexivity|].
  cbn [fst snd hd_rest1 hd_s2]. repeat split; auto. intros X. rewrite (D X). reflexivity.
Qed.
Definition intersection_asked (i : h_intersection T) : list T := if Nat.ltb (hs_len (hi_s1 i)) (hs_len (hi_s2 i)) then hi_rest1 i else hi_rest2 i.
Lemma intersection_paced (s1 s2 : h_set T) lo hi : within adv (if Nat.ltb (hs_len s1) (hs_len s2) then s2 else s1) lo hi ->
  paced adv h_intersection_next (fun i => hi_s1 i = s1 /\ hi_s2 i = s2) (fun i => length (intersection_asked i) * lo)%nat
    (fun i => length (intersection_asked i) * hi)%nat.
Proof.
  intros W [q1 r1 q2 r2] n [E1 E2]. cbn [hi_s1 hi_s2] in E1, E2. subst q1 q2. unfold h_intersection_next, intersection_asked, andthen, ret.
  cbn [hi_s1 hi_s2 hi_rest1 hi_rest2]. destruct (Nat.ltb (hs_len s1) (hs_len s2)) eqn:L.
  - destruct (where_within adv true s2 lo hi W r1 n) as [e [r [n' [E [L1 [L2 [L3 D]]]]]]]. rewrite E. eexists _, _, _. split; [reflexivity|].
    cbn [fst snd hi_s1 hi_s2 hi_rest1 hi_rest2]. rewrite L. repeat split; auto. intros X. rewrite (D X). reflexivity.
  - destruct (where_within adv true s1 lo hi W r2 n) as [e [r [n' [E [L1 [L2 [L3 D]]]]]]]. rewrite E. eexists _, _, _. split; [reflexivity|].
    cbn [fst snd hi_s1 hi_s2 hi_rest1 hi_rest2]. rewrite L. repeat split; auto. intros X. rewrite (D X). reflexivity.
Qed.
Definition symmetric_left (a b : nat) (c : h_symmetric_difference T) : nat :=
  (match hx_a c with Some d => length (hd_rest1 d) * a | None => 0 end + length (hd_rest1 (hx_b c)) * b)%nat.
Lemma symmetric_paced (s1 s2 : h_set T) lo1 hi1 lo2 hi2 : within adv s1 lo1 hi1 -> within adv s2 lo2 hi2 ->
  paced adv h_symmetric_difference_next (fun c => (forall a, hx_a c = Some a -> hd_s2 a = s2) /\ hd_s2 (hx_b c) = s1) (symmetric_left lo2 lo1) (symmetric_left hi2 hi1).
Proof.
  intros W1 W2 [a b] n [Ha Hb]. cbn [hx_a hx_b] in Ha, Hb. unfold symmetric_left, h_symmetric_difference_next. cbn [hx_a hx_b]. cbv zeta.
  pose proof (difference_paced s1 lo1 hi1 W1) as B. pose proof (difference_paced s2 lo2 hi2 W2) as A. destruct a as [a|].
  - destruct (A a n (Ha a eq_refl)) as [e [a' [n1 [E1 [H1 [L1 [L2 [L3 D]]]]]]]]. unfold andthen, ret. rewrite E1. cbn [fst snd]. destruct e as [x| |].
    + eexists _, _, _. split; [reflexivity|]. cbn [hx_a hx_b]. split; [split; [intros a0 E0; injection E0 as <-; exact H1|exact Hb]|]. repeat split; try lia. discriminate.
    + destruct (B b n1 Hb) as [e [b' [n2 [E2 [H2 [M1 [M2 [M3 D']]]]]]]]. rewrite E2. eexists _, _, _. split; [reflexivity|]. cbn [fst snd hx_a hx_b].
      specialize (D eq_refl). split; [split; [discriminate|exact H2]|]. repeat split; try lia; intros X; specialize (D' X); lia.
    + eexists _, _, _. split; [reflexivity|]. cbn [hx_a hx_b]. split; [split; [intros a0 E0; injection E0 as <-; exact H1|exact Hb]|]. repeat split; try lia. discriminate.
  - destruct (B b n Hb) as [e [b' [n2 [E2 [H2 [M1 [M2 [M3 D']]]]]]]]. unfold andthen, ret. rewrite E2. eexists _, _, _. split; [reflexivity|]. cbn [fst snd hx_a hx_b].
    split; [split; [discriminate|exact H2]|]. repeat split; try lia; intros X; specialize (D' X); lia.
Qed.
End Paced.

Lemma union_asks {T} (u : h_union T) : sound (hs_map (hu_s1 u)) -> sound (hs_map (hu_s2 u)) ->
  let first := Nat.ltb (hs_len (hu_s2 u)) (hs_len (hu_s1 u)) in
  let asked := if first then hs_map (hu_s1 u) else hs_map (hu_s2 u) in let k := length (if first then hu_rest2 u else hu_rest1 u) in
  asks h_union_next u (k * fewest_calls asked) (k * most_calls asked).
Proof.
  intros H1 H2. cbv zeta. intros adv n k Q.
  assert (W : within adv (if Nat.ltb (hs_len (hu_s2 u)) (hs_len (hu_s1 u)) then hu_s1 u else hu_s2 u)
    (fewest_calls (if Nat.ltb (hs_len (hu_s2 u)) (hs_len (hu_s1 u)) then hs_map (hu_s1 u) else hs_map (hu_s2 u)))
    (most_calls (if Nat.ltb (hs_len (hu_s2 u)) (hs_len (hu_s1 u)) then hs_map (hu_s1 u) else hs_map (hu_s2 u)))).
  { destruct (Nat.ltb _ _); apply sound_within; assumption. }
  apply (paced_calls _ _ _ _ _ (union_paced adv _ _ _ _ W) k u n). auto.
Qed.
Lemma difference_asks {T} (d : h_difference T) : sound (hs_map (hd_s2 d)) ->
  asks h_difference_next d (length (hd_rest1 d) * fewest_calls (hs_map (hd_s2 d))) (length (hd_rest1 d) * most_calls (hs_map (hd_s2 d))).
Proof.
  intros H adv n k Q. apply (paced_calls _ _ _ _ _ (difference_paced adv _ _ _ (sound_within _ adv Q H)) k d n). reflexivity.
Qed.
Lemma intersection_asks {T} (i : h_intersection T) : sound (hs_map (hi_s1 i)) -> sound (hs_map (hi_s2 i)) ->
  let first := Nat.ltb (hs_len (hi_s1 i)) (hs_len (hi_s2 i)) in
  let asked := if first then hs_map (hi_s2 i) else hs_map (hi_s1 i) in let k := length (if first then hi_rest1 i else hi_rest2 i) in
  asks h_intersection_next i (k * fewest_calls asked) (k * most_calls asked).
Proof.
  intros H1 H2. cbv zeta. intros adv n k Q.
  assert (W : within adv (if Nat.ltb (hs_len (hi_s1 i)) (hs_len (hi_s2 i)) then hi_s2 i else hi_s1 i)
    (fewest_calls (if Nat.ltb (hs_len (hi_s1 i)) (hs_len (hi_s2 i)) then hs_map (hi_s2 i) else hs_map (hi_s1 i)))
    (most_calls (if Nat.ltb (hs_len (hi_s1 i)) (hs_len (hi_s2 i)) then hs_map (hi_s2 i) else hs_map (hi_s1 i)))).
  { destruct (Nat.ltb _ _); apply sound_within; assumption. }
  apply (paced_calls _ _ _ _ _ (intersection_paced adv _ _ _ _ W) k i n). auto.
Qed.
Lemma symmetric_asks {T} (s1 s2 : h_set T) : sound (hs_map s1) -> sound (hs_map s2) ->
  asks h_symmetric_difference_next (h_symmetric_difference_new s1 s2)
    (hs_len s1 * fewest_calls (hs_map s2) + hs_len s2 * fewest_calls (hs_map s1)) (hs_len s1 * most_calls (hs_map s2) + hs_len s2 * most_calls (hs_map s1)).
Proof.
  intros H1 H2 adv n k Q. rewrite <- !items_len.
  apply (paced_calls _ _ _ _ _ (symmetric_paced adv _ _ _ _ _ _ (sound_within _ adv Q H1) (sound_within _ adv Q H2)) k (h_symmetric_difference_new s1 s2) n).
  split; [intros a E; injection E as <-|]; reflexivity.
Qed.

(** ** Attained *)
Lemma worst_within {T} (s : h_set T) : sound (hs_map s) -> slots_fit (hs_map s) ->
  exists adv, (forall i, a_panics (adv i) = false) /\ within adv s (most_calls (hs_map s)) (most_calls (hs_map s)).
Proof.
  intros S F. destruct (worst_exists (hs_map s) S F) as [p W]. exists (steady p). split; [reflexivity|]. intros n. destruct (W n) as [[o1 E1] [_ [o3 E3]]].
  unfold h_contains, h_contains_key, andthen, ret. destruct (hs_facade s); [rewrite E1|rewrite E3]; eexists _, _; (split; [reflexivity|lia]).
Qed.
Lemma best_within {T} (s : h_set T) : sound (hs_map s) -> slots_fit (hs_map s) ->
  exists adv, (forall i, a_panics (adv i) = false) /\ within adv s (fewest_calls (hs_map s)) (fewest_calls (hs_map s)).
Proof.
  intros S F. destruct (best_exists (hs_map s) S F) as [p W]. exists (agree p). split; [reflexivity|]. intros n. destruct (W n) as [[o1 E1] [_ [o3 E3]]].
  unfold h_contains, h_contains_key, andthen, ret. destruct (hs_facade s); [rewrite E1|rewrite E3]; eexists _, _; (split; [reflexivity|lia]).
Qed.
Lemma paced_takes {T St} adv (next : St -> hostile (event T * St)) ok both st : (forall i, a_panics (adv i) = false) -> paced adv next ok both both -> ok st ->
  takes next st (both st).
Proof.
  intros Q P H. exists adv. split; [exact Q|]. intros n k evs st' n' E D. destruct (paced_calls _ _ _ _ _ P k st n H) as [evs' [st2 [n2 [E2 [L1 L2]]]]].
  rewrite E in E2. injection E2 as <- <- <-. specialize (L2 D). lia.
Qed.
Lemma union_takes {T} (u : h_union T) : 
  let first := Nat.ltb (hs_len (hu_s2 u)) (hs_len (hu_s1 u)) in
  let asked := if first then hs_map (hu_s1 u) else hs_map (hu_s2 u) in let k := length (if first then hu_rest2 u else hu_rest1 u) in
  sound asked -> slots_fit asked -> takes h_union_next u (k * fewest_calls asked) /\ takes h_union_next u (k * most_calls asked).
Proof.
  cbv zeta. intros S F. pose (s := if Nat.ltb (hs_len (hu_s2 u)) (hs_len (hu_s1 u)) then hu_s1 u else hu_s2 u).
  assert (E : (if Nat.ltb (hs_len (hu_s2 u)) (hs_len (hu_s1 u)) then hs_map (hu_s1 u) else hs_map (hu_s2 u)) = hs_map s) by (unfold s; destruct (Nat.ltb _ _); reflexivity).
  rewrite E in *. split.
  - destruct (best_within s S F) as [adv [Q W]]. apply (paced_takes adv h_union_next _ _ u Q (union_paced adv (hu_s1 u) (hu_s2 u) _ _ W)). auto.
  - destruct (worst_within s S F) as [adv [Q W]]. apply (paced_takes adv h_union_next _ _ u Q (union_paced adv (hu_s1 u) (hu_s2 u) _ _ W)). auto.
Qed.
Lemma difference_takes {T} (d : h_difference T) : sound (hs_map (hd_s2 d)) -> slots_fit (hs_map (hd_s2 d)) ->
  takes h_difference_next d (length (hd_rest1 d) * fewest_calls (hs_map (hd_s2 d))) /\ takes h_difference_next d (length (hd_rest1 d) * most_calls (hs_map (hd_s2 d))).
Proof.
  intros S F. split.
  - destruct (best_within _ S F) as [adv [Q W]]. apply (paced_takes adv h_difference_next _ _ d Q (difference_paced adv _ _ _ W)). reflexivity.
  - destruct (worst_within _ S F) as [adv [Q W]]. apply (paced_takes adv h_difference_next _ _ d Q (difference_paced adv _ _ _ W)). reflexivity.
Qed.
Lemma intersection_takes {T} (i : h_intersection T) :
  let first := Nat.ltb (hs_len (hi_s1 i)) (hs_len (hi_s2 i)) in
  let asked := if first then hs_map (hi_s2 i) else hs_map (hi_s1 i) in let k := length (if first then hi_rest1 i else hi_rest2 i) in
  sound asked -> slots_fit asked -> takes h_intersection_next i (k * fewest_calls asked) /\ takes h_intersection_next i (k * most_calls asked).
Proof.
  cbv zeta. intros S F. pose (s := if Nat.ltb (hs_len (hi_s1 i)) (hs_len (hi_s2 i)) then hi_s2 i else hi_s1 i).
  assert (E : (if Nat.ltb (hs_len (hi_s1 i)) (hs_len (hi_s2 i)) then hs_map (hi_s2 i) else hs_map (hi_s1 i)) = hs_map s) by (unfold s; destruct (Nat.ltb _ _); reflexivity).
  rewrite E in *. split.
  - destruct (best_within s S F) as [adv [Q W]]. apply (paced_takes adv h_intersection_next _ _ i Q (intersection_paced adv (hi_s1 i) (hi_s2 i) _ _ W)). auto.
  - destruct (worst_within s S F) as [adv [Q W]]. apply (paced_takes adv h_intersection_next _ _ i Q (intersection_paced adv (hi_s1 i) (hi_s2 i) _ _ W)). auto.
Qed.

(** ** The plain equality *)
Lemma can_get {M K V Q} (ops : map_ops M K V Q) (any : M -> any_map K V) m q : emulates ops any (fun _ => True) -> can (h_get (any m)) (mo_get ops m q).
Proof.
  intros H. destruct (H q RqGet m I) as [A _]. cbn [h_request plain_request] in A. apply (can_unret _ (fun o => (@RpValue K V o, any m))); [intros a b E; congruence|].
  eapply can_eq; [exact A|]. destruct (mo_get ops m q); reflexivity.
Qed.
Lemma query_can {K V} (t : traits K K) (m : any_map K V) q : sixty_four_bits t -> can (h_get m) (mq_get (plain_query t m) q) /\ mq_len (plain_query t m) = length (any_entries m).
Proof.
  intros [_ [_ [B3 B4]]]. assert (H : forall q, exists h, Ok (t_hashQ t q) = Ok h /\ h < two64) by (intros q'; exists (t_hashQ t q'); auto).
  destruct m as [m|m|m|m|m|m]; (split; [|reflexivity]); cbn [plain_query as_query mq_get].
  - apply (can_get _ AnyScan), emulates_scan.
  - apply (can_get _ AnyOrdered), emulates_ordered.
  - apply (can_get _ AnyDense), emulates_dense; auto.
  - apply (can_get _ AnySparse), emulates_sparse; auto.
  - apply (can_get _ AnyHash), emulates_hash; auto.
  - apply (can_get _ AnyNoCollisions), emulates_nc; auto.
Qed.
Lemma eq_all_can {K V} (t : traits K K) (eqV : V -> V -> bool) (other : any_map K V) : sixty_four_bits t -> forall es,
  can (h_eq_all es other) (eq_all eqV es (plain_query t other)).
Proof.
  intros B. induction es as [|[k v] r IH]; cbn [h_eq_all eq_all]; [apply can_ret|]. destruct (query_can t other k B) as [G _].
  apply can_then; [exact G|]. intros [v'|] _; [|apply can_ret]. apply (can_bool_then (eqV v v')). destruct (eqV v v'); [exact IH|apply can_ret].
Qed.
Lemma map_eq_can {K V} (t : traits K K) (eqV : V -> V -> bool) (m other : any_map K V) : sixty_four_bits t -> can (h_map_eq m other) (plain_eq t eqV m other).
Proof.
  intros B. unfold h_map_eq.
  assert (H : can (if negb (Nat.eqb (length (any_entries m)) (length (any_entries other))) then ret false else h_eq_all (any_entries m) other)
    (if negb (Nat.eqb (length (any_entries m)) (mq_len (plain_query t other))) then Ok false else eq_all eqV (any_entries m) (plain_query t other))).
  { assert (L : mq_len (plain_query t other) = length (any_entries other)) by (destruct other; reflexivity). rewrite L.
    destruct (negb _); [apply can_ret|apply eq_all_can, B]. }
  destruct m; exact H.
Qed.
Lemma map_eq_covered {K V} (t : traits K K) (eqV : V -> V -> bool) (m other : any_map K V) : sixty_four_bits t ->
  exists adv, (forall i, a_panics (adv i) = false) /\ fmap (fun y => fst y) (h_map_eq m other adv 0%nat) = plain_eq t eqV m other.
Proof. intros B. apply can_some, map_eq_can, B. Qed.
