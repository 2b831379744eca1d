(** Proofs that both bounds on the calls of symmetric differences are reached: one stream of answers up to the middle, another from there on. *)
From Verif Require Import ModelUtils ModelAnalyzers ModelTables ModelMaps ModelIter ModelHostile ModelHostileIter.
From Verif Require Import Spec SpecHostile SpecCovers SpecCalls SpecAsked.
From Verif Require Import ProofsCalls ProofsAsked.
From Verif Require Import Prelude.
From Coq Require Import ZArith ZifyNat ZifyN ZifyBool.

(** ** Code sees no more of the stream than the answers it uses. *)
Definition local {A} (x : hostile A) : Prop := forall adv n a n', x adv n = Ok (a, n') ->
  (n <= n')%nat /\ forall adv', (forall i, (n <= i < n')%nat -> adv' i = adv i) -> x adv' n = Ok (a, n').
Lemma local_ret {A} (a : A) : local (ret a).
Proof. intros adv n b n' E. unfold ret in *. injection E as <- <-. auto. Qed.
Lemma local_lift {A} (r : res A) : local (lift r).
Proof. intros adv n b n' E. unfold lift in *. destruct r; [|discriminate..]. injection E as <- <-. auto. Qed.
Lemma local_then {A B} (x : hostile A) (k : A -> hostile B) : local x -> (forall a, local (k a)) -> local (andthen x k).
Proof.
  intros X L adv n b n' E. unfold andthen in *. destruct (x adv n) as [[a n1]| |] eqn:E1; [|discriminate..]. destruct (X _ _ _ _ E1) as [L1 S1].
  destruct (L a _ _ _ _ E) as [L2 S2]. split; [lia|]. intros adv' H. rewrite S1 by (intros i Hi; apply H; lia). apply S2. intros i Hi. apply H. lia.
Qed.
Lemma local_ask : local ask.
Proof.
  intros adv n a n' E. unfold ask in *. destruct (a_panics (adv n)) eqn:P; [discriminate|]. injection E as <- <-. split; [lia|]. intros adv' H.
  rewrite H by lia. rewrite P. reflexivity.
Qed.
Lemma local_bool : local ask_bool.
Proof. apply local_then; [apply local_ask|intros; apply local_ret]. Qed.
Lemma local_order : local ask_order.
Proof. apply local_then; [apply local_ask|intros; apply local_ret]. Qed.
Lemma local_number : local ask_number.
Proof. apply local_then; [apply local_ask|intros; apply local_ret]. Qed.
Create HintDb local.
#[local] Hint Resolve local_ret local_lift local_bool local_order local_number : local.
Ltac locals := repeat first [solve [auto with local] | apply local_then; [|intros ?] | match goal with |- local (match ?x with _ => _ end) => destruct x end].
Lemma local_scan_get {K V} (es : list (K * V)) : forall o, local (h_scan_get es o).
Proof. induction es; intros o; cbn [h_scan_get]; locals. Qed.
Lemma local_scan_get_key_value {K V} (es : list (K * V)) : forall o, local (h_scan_get_key_value es o).
Proof. induction es; intros o; cbn [h_scan_get_key_value]; locals. Qed.
Lemma local_search {T} (data : list T) : local (h_search data).
Proof. unfold h_search. generalize (S (length data)) 0%nat. intros fuel. induction fuel; intros i; cbn [h_search_loop]; locals; apply IHfuel. Qed.
Lemma local_scan_slot {T} (l : list T) : local (h_scan_slot l).
Proof. induction l; cbn [h_scan_slot]; locals. Qed.
#[local] Hint Resolve local_scan_get local_scan_get_key_value local_search local_scan_slot : local.
Lemma local_ht_find {T} (t : hash_table T) h : local (h_ht_find t h).
Proof. unfold h_ht_find. locals. Qed.
Lemma local_nc_find {T} (t : nc_table T) h : local (h_nc_find t h).
Proof. unfold h_nc_find. locals. Qed.
#[local] Hint Resolve local_ht_find local_nc_find : local.
Lemma local_contains {T} (s : h_set T) : local (h_contains s).
Proof.
  unfold h_contains, h_contains_key. destruct (hs_facade s); apply local_then; try (intros; apply local_ret); destruct (hs_map s); cbn [h_get h_get_key_value]; locals.
Qed.

(** ** The two halves *)
Definition exactly {T} adv (s : h_set T) (c from to : nat) : Prop := forall n, (from <= n)%nat -> (n + c <= to)%nat -> exists b, h_contains s adv n = Ok (b, (n + c)%nat).
Lemma where_exactly {T} adv want (s : h_set T) c from to : exactly adv s c from to -> forall rest n, (from <= n)%nat -> (n + length rest * c = to)%nat ->
  exists e r n', h_where want s rest adv n = Ok ((e, r), n') /\ (n <= n')%nat /\ (n' + length r * c = to)%nat /\ e <> Caught /\ (e = Done -> r = []).
Proof.
  intros W. induction rest as [|x r IH]; intros n F L; cbn [h_where length] in *.
  - exists Done, [], n. repeat split; auto; discriminate.
  - destruct (W n F ltac:(lia)) as [b E]. rewrite E. destruct (Bool.eqb b want).
    + exists (Item x), r, (n + c)%nat. repeat split; try lia; discriminate.
    + destruct (IH (n + c)%nat ltac:(lia) ltac:(lia)) as [e [r' [n2 [E2 [L1 L2]]]]]. exists e, r', n2. split; [exact E2|]. split; [lia|exact L2].
Qed.
Lemma difference_exactly {T} adv (d : h_difference T) c from to n : exactly adv (hd_s2 d) c from to -> (from <= n)%nat -> (n + length (hd_rest1 d) * c = to)%nat ->
  exists e d' n', h_difference_next d adv n = Ok ((e, d'), n') /\ (n <= n')%nat /\ hd_s2 d' = hd_s2 d /\ (n' + length (hd_rest1 d') * c = to)%nat /\ e <> Caught /\
    (e = Done -> hd_rest1 d' = []).
Proof.
  intros W F L. unfold h_difference_next, andthen, ret. destruct (where_exactly adv false _ c from to W (hd_rest1 d) n F L) as [e [r [n' [E [L1 [L2 [L3 L4]]]]]]].
  rewrite E. cbn [fst snd]. eexists _, _, _. split; [reflexivity|]. cbn [hd_s2 hd_rest1]. auto 6.
Qed.

Section Halves.
Context {T : Type} (adv : nat -> answer) (s1 s2 : h_set T) (c1 c2 from middle to : nat).
Hypothesis A : exactly adv s2 c2 from middle.
Hypothesis B : exactly adv s1 c1 middle to.
(** On the way: in the first half with all of the second to come, or in the second. *)
Definition on_the_way (c : h_symmetric_difference T) (n : nat) : Prop :=
  hd_s2 (hx_b c) = s1 /\
  match hx_a c with
  | Some a => hd_s2 a = s2 /\ (from <= n)%nat /\ (n + length (hd_rest1 a) * c2 = middle)%nat /\ (middle + length (hd_rest1 (hx_b c)) * c1 = to)%nat
  | None => (middle <= n)%nat /\ (n + length (hd_rest1 (hx_b c)) * c1 = to)%nat
  end.
Lemma way_step c n : on_the_way c n -> exists e c' n', h_symmetric_difference_next c adv n = Ok ((e, c'), n') /\ (n <= n')%nat /\ on_the_way c' n' /\ (e = Done -> n' = to).
Proof.
  assert (Second : forall b m, hd_s2 b = s1 -> (middle <= m)%nat -> (m + length (hd_rest1 b) * c1 = to)%nat ->
    exists e b' n', h_difference_next b adv m = Ok ((e, b'), n') /\ (m <= n')%nat /\ on_the_way {| hx_a := None; hx_b := b' |} n' /\ (e = Done -> n' = to)).
  { intros b m E M L. rewrite <- E in B. destruct (difference_exactly adv b c1 middle to m B M L) as [e [b' [n' [E' [L1 [L2 [L3 [_ D]]]]]]]].
    exists e, b', n'. split; [exact E'|]. split; [exact L1|]. unfold on_the_way. cbn [hx_a hx_b]. rewrite L2. repeat split; auto; [lia|].
    intros X. rewrite (D X) in L3. cbn [length] in L3. lia. }
  destruct c as [[a|] b]; unfold on_the_way at 1; cbn [hx_a hx_b]; intros H; unfold h_symmetric_difference_next, andthen, ret; cbn [hx_a hx_b].
  - destruct H as [Hb [Ha [F [L M]]]]. pose proof A as A'. rewrite <- Ha in A'. destruct (difference_exactly adv a c2 from middle n A' F L) as [e [a' [n1 [E [L1 [L2 [L3 [Q D]]]]]]]].
    rewrite E. cbn [fst snd]. destruct e as [x| |]; [| |congruence].
    + eexists _, _, _. split; [reflexivity|]. split; [exact L1|]. split; [|discriminate]. unfold on_the_way. cbn [hx_a hx_b]. rewrite L2. repeat split; auto. lia.
    + rewrite (D eq_refl) in L3. cbn [length] in L3. destruct (Second b n1 Hb ltac:(lia) ltac:(lia)) as [e [b' [n2 [E2 [L4 [W D2]]]]]]. rewrite E2. cbn [fst snd].
      eexists _, _, _. split; [reflexivity|]. split; [lia|]. auto.
  - destruct H as [Hb [M L]]. destruct (Second b n Hb M L) as [e [b' [n2 [E2 [L4 [W D2]]]]]]. rewrite E2. cbn [fst snd]. eexists _, _, _. split; [reflexivity|]. auto.
Qed.
Lemma way_to c n : on_the_way c n -> (n <= to)%nat.
Proof. unfold on_the_way. destruct (hx_a c); lia. Qed.
Lemma way_calls : forall k c n, on_the_way c n -> exists evs c' n', h_calls h_symmetric_difference_next k c adv n = Ok ((evs, c'), n') /\ (n <= n' <= to)%nat /\
  (In Done evs -> n' = to).
Proof.
  induction k as [|k IH]; intros c n H; cbn [h_calls].
  - exists [], c, n. split; [reflexivity|]. split; [pose proof (way_to c n H); lia|intros []].
  - destruct (way_step c n H) as [e [c1' [n1 [E1 [L1 [H1 D1]]]]]]. destruct (IH c1' n1 H1) as [evs [c2' [n2 [E2 [L2 D2]]]]].
    unfold andthen. rewrite E1. cbn [fst snd]. rewrite E2. unfold ret. eexists _, _, _. split; [reflexivity|]. split; [lia|]. cbn [In fst].
    intros [X|X]; [specialize (D1 X); lia|auto].
Qed.
End Halves.

(** ** Spliced *)
Lemma spliced {T} (s1 s2 : h_set T) c1 c2 adv1 adv2 n : (forall i, a_panics (adv1 i) = false) -> (forall i, a_panics (adv2 i) = false) ->
  within adv1 s1 c1 c1 -> within adv2 s2 c2 c2 ->
  exists adv, (forall i, a_panics (adv i) = false) /\ forall k, exists evs st' n',
    h_calls h_symmetric_difference_next k (h_symmetric_difference_new s1 s2) adv n = Ok ((evs, st'), n') /\ (In Done evs -> n' = n + (hs_len s1 * c2 + hs_len s2 * c1))%nat.
Proof.
  intros Q1 Q2 W1 W2. pose (middle := (n + hs_len s1 * c2)%nat). pose (adv := fun i => if Nat.ltb i middle then adv2 i else adv1 i). exists adv.
  split; [intros i; unfold adv; destruct (Nat.ltb i middle); auto|].
  assert (A : exactly adv s2 c2 n middle).
  { intros m _ L. destruct (W2 m) as [b [m' [E M]]]. replace m' with (m + c2)%nat in E by lia. exists b. apply (local_contains s2 _ _ _ _ E).
    intros i Hi. unfold adv. destruct (Nat.ltb_spec i middle); [reflexivity|lia]. }
  assert (B : exactly adv s1 c1 middle (middle + hs_len s2 * c1)).
  { intros m F _. destruct (W1 m) as [b [m' [E M]]]. replace m' with (m + c1)%nat in E by lia. exists b. apply (local_contains s1 _ _ _ _ E).
    intros i Hi. unfold adv. destruct (Nat.ltb_spec i middle); [lia|reflexivity]. }
  intros k. destruct (way_calls adv s1 s2 c1 c2 n middle _ A B k (h_symmetric_difference_new s1 s2) n) as [evs [st' [n' [E [_ D]]]]].
  { unfold on_the_way, h_symmetric_difference_new, h_difference_new. cbn [hx_a hx_b hd_s2 hd_rest1]. rewrite !items_len. unfold middle. auto 6. }
  exists evs, st', n'. split; [exact E|]. intros X. rewrite (D X). unfold middle. lia.
Qed.
Lemma symmetric_takes {T} (s1 s2 : h_set T) n calls : sound (hs_map s1) -> slots_fit (hs_map s1) -> sound (hs_map s2) -> slots_fit (hs_map s2) ->
  calls = (hs_len s1 * fewest_calls (hs_map s2) + hs_len s2 * fewest_calls (hs_map s1))%nat \/
  calls = (hs_len s1 * most_calls (hs_map s2) + hs_len s2 * most_calls (hs_map s1))%nat ->
  exists adv, (forall i, a_panics (adv i) = false) /\ forall k, exists evs st' n',
    h_calls h_symmetric_difference_next k (h_symmetric_difference_new s1 s2) adv n = Ok ((evs, st'), n') /\ (In Done evs -> n' = n + calls)%nat.
Proof.
  intros S1 F1 S2 F2 [-> | ->].
  - destruct (best_within s1 S1 F1) as [adv1 [Q1 W1]], (best_within s2 S2 F2) as [adv2 [Q2 W2]]. exact (spliced s1 s2 _ _ adv1 adv2 n Q1 Q2 W1 W2).
  - destruct (worst_within s1 S1 F1) as [adv1 [Q1 W1]], (worst_within s2 S2 F2) as [adv2 [Q2 W2]]. exact (spliced s1 s2 _ _ adv1 adv2 n Q1 Q2 W1 W2).
Qed.
