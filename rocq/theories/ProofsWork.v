(** Work done by the analyzers and space taken by the tables. *)
From Verif Require Import Spec SpecAnalysis SpecWork ModelUtils ModelAnalyzers ModelTables ModelMaps ModelEmit ModelWork
  ProofsBase ProofsAnalyzer ProofsTable ProofsSlices ProofsDedup ProofsScalar ProofsFz.
From Verif Require Import Prelude.
From Coq Require Import Permutation.
From Coq Require Import ZArith ZifyNat ZifyN ZifyBool.

(** * Forgetting the log *)
Lemma erase_lbind {A B E} (x : res (A * list E)) (f : A -> res (B * list E)) :
  fmap fst (lbind x f) = (a <- fmap fst x ;; fmap fst (f a)).
Proof. unfold lbind. destruct x as [[a l]| |]; cbn; auto. destruct (f a) as [[b l']| |]; reflexivity. Qed.
Lemma erase_silent {A E} (x : res A) : fmap fst (silent (E := E) x) = x.
Proof. destruct x; reflexivity. Qed.
Lemma erase_note {E} (e : E) : fmap fst (note e) = Ok tt.
Proof. reflexivity. Qed.
Lemma bind_ext {A B} (x : res A) (f g : A -> res B) : (forall a, f a = g a) -> bind x f = bind x g.
Proof. intros H. destruct x; cbn; auto. Qed.

Ltac erase := rewrite ?erase_lbind, ?erase_silent, ?erase_note; cbn [bind].

Lemma count_collisions_erase codes m best : forall b n,
  fmap fst (count_collisions_log codes m best b n) = count_collisions codes m best b n.
Proof.
  induction codes as [|c r IH]; intros b n; cbn [count_collisions_log count_collisions]; erase; auto.
  destruct (m =? 0); auto. cbv zeta. erase. apply bind_ext. intros [|].
  - destruct (best <=? n + 1); erase; auto.
  - erase. apply bind_ext. intros b'. apply IH.
Qed.

Lemma analyze_loop_erase codes mx : forall fuel m acc b bs bc,
  fmap fst (analyze_loop_log fuel codes mx m acc b bs bc) = analyze_loop fuel codes mx m acc b bs bc.
Proof.
  induction fuel as [|fuel IH]; intros m acc b bs bc; cbn [analyze_loop_log analyze_loop]; auto.
  destruct (m <=? mx); [|apply erase_silent]. erase. cbv zeta. erase. rewrite count_collisions_erase. apply bind_ext. intros [n b'].
  match goal with |- fmap fst (if ?x then _ else _) = _ => destruct x end; [apply erase_silent|apply IH].
Qed.

Lemma analyze_hash_codes_erase codes : fmap fst (analyze_hash_codes_log codes) = analyze_hash_codes codes.
Proof. apply analyze_loop_erase. Qed.

Section Slices.
Context {T : Type} (eqT : T -> T -> bool) (hash_one : list T -> N).

Lemma prefix_erase s k0 : forall todo i, fmap fst (prefix_loop_log eqT todo i s k0) = prefix_loop eqT todo i s k0.
Proof.
  induction todo as [|todo IH]; intros i; cbn [prefix_loop_log prefix_loop]; erase; auto.
  apply bind_ext. intros a. erase. apply bind_ext. intros b. erase. destruct (eqT a b); cbn [negb]; [apply IH|apply erase_silent].
Qed.
Lemma suffix_erase s k0 : forall todo i, fmap fst (suffix_loop_log eqT todo i s k0) = suffix_loop eqT todo i s k0.
Proof.
  induction todo as [|todo IH]; intros i; cbn [suffix_loop_log suffix_loop]; erase; auto.
  apply bind_ext. intros a. erase. apply bind_ext. intros b. erase. destruct (eqT a b); cbn [negb]; [apply IH|apply erase_silent].
Qed.
Lemma measure_erase k0 : forall keys mn mx pl sl,
  fmap fst (measure_loop_log eqT k0 keys mn mx pl sl) = measure_loop eqT k0 keys mn mx pl sl.
Proof.
  induction keys as [|s r IH]; intros mn mx pl sl; cbn [measure_loop_log measure_loop]; erase; auto. cbv zeta. erase.
  rewrite prefix_erase. apply bind_ext. intros p. erase. rewrite suffix_erase. apply bind_ext. intros q. apply IH.
Qed.
Lemma unique_erase i l left : forall keys set d,
  fmap fst (is_sufficiently_unique_log hash_one keys i l left set d) = is_sufficiently_unique hash_one keys i l left set d.
Proof.
  induction keys as [|s r IH]; intros set d; cbn [is_sufficiently_unique_log is_sufficiently_unique]; erase; auto.
  apply bind_ext. intros sub. erase. cbv zeta. destruct (existsb _ set); [|apply IH]. destruct d; [apply erase_silent|apply IH].
Qed.
Lemma index_erase keys left l last d : forall fuel i,
  fmap fst (index_loop_log hash_one fuel keys left i l last d) = index_loop hash_one fuel keys left i l last d.
Proof.
  induction fuel as [|fuel IH]; intros i; cbn [index_loop_log index_loop]; auto. destruct (i <=? last); [|apply erase_silent]. erase.
  rewrite unique_erase. apply bind_ext. intros [|]; [apply erase_silent|apply IH].
Qed.
Lemma length_erase fuel keys mn mx pl sl d : forall todo l,
  fmap fst (length_loop_log hash_one todo fuel keys mn mx pl sl l d) = length_loop hash_one todo fuel keys mn mx pl sl l d.
Proof.
  induction todo as [|todo IH]; intros l; cbn [length_loop_log length_loop]; erase; auto. apply bind_ext. intros last. erase.
  rewrite index_erase. apply bind_ext. intros [i|]; [apply erase_silent|]. erase. destruct (negb (mn =? mx)).
  - rewrite index_erase. apply bind_ext. intros [i|]; [apply erase_silent|apply IH].
  - erase. apply IH.
Qed.
Lemma analyze_slice_keys_erase keys : fmap fst (analyze_slice_keys_log eqT hash_one keys) = analyze_slice_keys eqT hash_one keys.
Proof.
  unfold analyze_slice_keys_log, analyze_slice_keys. destruct (analyze_lengths keys); try apply erase_silent.
  unfold analyze_subslices_log, analyze_subslices. cbv zeta. erase. rewrite measure_erase. apply bind_ext. intros [[[mn mx] pl] sl]. apply length_erase.
Qed.
End Slices.

(** * Counting *)
Lemma lbind_Ok {A B E} (x : res (A * list E)) (f : A -> res (B * list E)) b l : lbind x f = Ok (b, l) ->
  exists a l1 l2, x = Ok (a, l1) /\ f a = Ok (b, l2) /\ l = l1 ++ l2.
Proof.
  unfold lbind. destruct x as [[a l1]| |]; cbn; try discriminate. destruct (f a) as [[b' l2]| |] eqn:F; cbn; try discriminate.
  intros H. injection H as <- <-. eauto 6.
Qed.
Lemma silent_Ok {A E} (x : res A) a (l : list E) : silent x = Ok (a, l) -> x = Ok a /\ l = [].
Proof. destruct x; cbn; try discriminate. intros H. injection H as <- <-. auto. Qed.
Lemma note_Ok {E} (e : E) a (l : list E) : note e = Ok (a, l) -> l = [e].
Proof. intros H. injection H as _ <-. reflexivity. Qed.

Ltac split_log H :=
  let a := fresh "a" in let l1 := fresh "l" in let l2 := fresh "l" in let E1 := fresh "E" in let E2 := fresh "E" in
  apply lbind_Ok in H; destruct H as [a [l1 [l2 [E1 [E2 ->]]]]].
Ltac done_log H := let E := fresh "E" in apply silent_Ok in H; destruct H as [E ->].
Ltac noted H := apply note_Ok in H; match type of H with ?l = _ => subst l end.

Lemma comparisons_app {T} (a b : list (slice_work T)) : comparisons (a ++ b) = (comparisons a + comparisons b)%nat.
Proof. unfold comparisons. rewrite map_app, list_sum_app. reflexivity. Qed.
Lemma hash_calls_app {T} (a b : list (slice_work T)) : hash_calls (a ++ b) = (hash_calls a + hash_calls b)%nat.
Proof. unfold hash_calls. rewrite map_app, list_sum_app. reflexivity. Qed.
Lemma elements_app {T} (a b : list (slice_work T)) : elements_hashed (a ++ b) = (elements_hashed a + elements_hashed b)%nat.
Proof. unfold elements_hashed. rewrite map_app, list_sum_app. reflexivity. Qed.

Section Slices.
Context {T : Type} (eqT : T -> T -> bool) (hash_one : list T -> N).

Lemma prefix_cost s k0 : forall todo i o log, prefix_loop_log eqT todo i s k0 = Ok (o, log) ->
  (comparisons log <= todo)%nat /\ hash_calls log = 0%nat /\ elements_hashed log = 0%nat.
Proof.
  induction todo as [|todo IH]; intros i o log H; cbn [prefix_loop_log] in H; [done_log H; cbn; lia|].
  split_log H. done_log E. split_log E0. done_log E. split_log E2. noted E. destruct (eqT a a0); cbn [negb] in *.
  - apply IH in E3. cbn [app]. unfold comparisons, hash_calls, elements_hashed in *. cbn [map list_sum fold_right app]. unfold list_sum in E3. lia.
  - done_log E3. cbn. lia.
Qed.
Lemma suffix_cost s k0 : forall todo i o log, suffix_loop_log eqT todo i s k0 = Ok (o, log) ->
  (comparisons log <= todo)%nat /\ hash_calls log = 0%nat /\ elements_hashed log = 0%nat.
Proof.
  induction todo as [|todo IH]; intros i o log H; cbn [suffix_loop_log] in H; [done_log H; cbn; lia|].
  split_log H. done_log E. split_log E0. done_log E. split_log E2. noted E. destruct (eqT a a0); cbn [negb] in *.
  - apply IH in E3. cbn [app]. unfold comparisons, hash_calls, elements_hashed in *. cbn [map list_sum fold_right app]. unfold list_sum in E3. lia.
  - done_log E3. cbn. lia.
Qed.

Lemma measure_cost k0 : forall keys mn mx pl sl r log, measure_loop_log eqT k0 keys mn mx pl sl = Ok (r, log) ->
  (comparisons log <= 2 * total_size keys)%nat /\ hash_calls log = 0%nat /\ elements_hashed log = 0%nat.
Proof.
  induction keys as [|s r IH]; intros mn mx pl sl o log H; cbn [measure_loop_log] in H; [done_log H; cbn; lia|]. cbv zeta in H.
  split_log H. split_log E0. apply prefix_cost in E. apply suffix_cost in E1. apply IH in E2.
  rewrite !comparisons_app, !hash_calls_app, !elements_app. unfold total_size in *. cbn [map list_sum fold_right].
  fold (list_sum (map (@length T) r)).
  destruct (N.ltb_spec (N.of_nat (length s)) pl), (N.ltb_spec (N.of_nat (length s)) sl); lia.
Qed.

Lemma subslice_length left (s : list T) i l sub : subslice left s i l = Ok sub -> N.of_nat (length sub) = l.
Proof.
  unfold subslice. destruct left.
  - unfold slice. destruct (Nat.leb_spec (N.to_nat i) (N.to_nat (i + l))); [|discriminate].
    destruct (Nat.leb_spec (N.to_nat (i + l)) (length s)); [|discriminate]. cbn [andb]. intros H1. injection H1 as <-.
    rewrite firstn_length, skipn_length. lia.
  - unfold sub_no_underflow. destruct (N.leb_spec i (N.of_nat (length s))); [|discriminate]. cbn [bind].
    destruct (N.leb_spec l (N.of_nat (length s) - i)); [|discriminate]. cbn [bind]. unfold slice.
    match goal with |- (if (Nat.leb ?a ?b && Nat.leb ?b ?c) then _ else _) = _ -> _ =>
      destruct (Nat.leb_spec a b); [|discriminate]; destruct (Nat.leb_spec b c); [|discriminate] end.
    cbn [andb]. intros H3. injection H3 as <-. rewrite firstn_length, skipn_length. lia.
Qed.

(** Hashing [n] subslices of length [l] at most. *)
Definition cost (log : list (slice_work T)) (n l : nat) : Prop :=
  comparisons log = 0%nat /\ (hash_calls log <= n)%nat /\ (elements_hashed log <= n * l)%nat /\ forall s, In (Hashed s) log -> length s = l.

Lemma cost_nil n l : cost [] n l.
Proof. unfold cost. cbn. repeat split; try lia. Qed.
Lemma cost_app a b n m l : cost a n l -> cost b m l -> cost (a ++ b) (n + m) l.
Proof.
  unfold cost. rewrite comparisons_app, hash_calls_app, elements_app. intros [A1 [A2 [A3 A4]]] [B1 [B2 [B3 B4]]]. repeat split; try lia.
  intros s Hs. apply in_app_or in Hs. destruct Hs; auto.
Qed.
Lemma cost_le a n m l : (n <= m)%nat -> cost a n l -> cost a m l.
Proof. unfold cost. intros H [A1 [A2 [A3 A4]]]. repeat split; auto; try lia. nia. Qed.

Lemma unique_cost i l left : forall keys set d b log, is_sufficiently_unique_log hash_one keys i l left set d = Ok (b, log) ->
  cost log (length keys) (N.to_nat l).
Proof.
  induction keys as [|s r IH]; intros set d b log H; cbn [is_sufficiently_unique_log] in H; [done_log H; apply cost_nil|].
  split_log H. done_log E. apply subslice_length in E1. split_log E0. noted E. cbv zeta in E2. cbn [app].
  assert (C1 : cost [Hashed a] 1 (N.to_nat l)).
  { unfold cost. cbn. repeat split; try lia. intros s0 [H|[]]. injection H as <-. lia. }
  match goal with |- cost (Hashed a :: ?x) _ _ => change (Hashed a :: x) with ([Hashed a] ++ x) end. change (length (s :: r)) with (1 + length r)%nat. apply cost_app; auto.
  destruct (existsb _ set); [|eapply IH; eauto]. destruct d; [done_log E2; apply cost_nil|eapply IH; eauto].
Qed.

Lemma index_cost keys left l last d : forall fuel i o log, index_loop_log hash_one fuel keys left i l last d = Ok (o, log) ->
  cost log (N.to_nat (last + 1 - i) * length keys) (N.to_nat l).
Proof.
  induction fuel as [|fuel IH]; intros i o log H; cbn [index_loop_log] in H; [discriminate|].
  destruct (N.leb_spec i last) as [Hi|Hi]; [|done_log H; apply cost_nil]. split_log H. apply unique_cost in E.
  replace (N.to_nat (last + 1 - i) * length keys)%nat with (length keys + N.to_nat (last + 1 - (i + 1)) * length keys)%nat by nia.
  apply cost_app; auto. destruct a; [done_log E0; apply cost_nil|eapply IH; eauto].
Qed.

(** The sum [l + (l + 1) + ...] of [todo] numbers. *)
Fixpoint sum_from (l todo : nat) : nat := match todo with O => 0 | S t => l + sum_from (S l) t end.

Lemma length_cost fuel keys mn mx pl sl d sides : sides = (if (mn =? mx)%N then 1 else 2)%nat -> forall todo l o log,
  0 < l -> length_loop_log hash_one todo fuel keys mn mx pl sl l d = Ok (o, log) ->
  comparisons log = 0%nat /\ (hash_calls log <= sides * todo * (N.to_nat mn * length keys))%nat /\
  (elements_hashed log <= sides * sum_from (N.to_nat l) todo * (N.to_nat mn * length keys))%nat /\
  forall s, In (Hashed s) log -> (length s < N.to_nat l + todo)%nat.
Proof.
  intros HS. induction todo as [|todo IH]; intros l o log Hl H; cbn [length_loop_log] in H; [done_log H; cbn; repeat split; try lia; intros s []|].
  split_log H. done_log E. unfold sub_no_underflow in E1. destruct (N.leb_spec l mn); [|discriminate]. injection E1 as <-.
  split_log E0. set (u := (N.to_nat mn * length keys)%nat) in *.
  assert (HU : forall i, (N.to_nat (mn - l + 1 - i) * length keys <= u)%nat) by (intros i; unfold u; apply Nat.mul_le_mono_r; lia).
  apply index_cost in E. apply (cost_le _ _ u) in E; [|apply HU]. cbn [app sum_from].
  assert (STOP : forall n log', (n <= sides)%nat -> cost log' (n * u) (N.to_nat l) ->
    comparisons log' = 0%nat /\ (hash_calls log' <= sides * S todo * u)%nat /\
    (elements_hashed log' <= sides * (N.to_nat l + sum_from (S (N.to_nat l)) todo) * u)%nat /\
    forall s, In (Hashed s) log' -> (length s < N.to_nat l + S todo)%nat).
  { intros n log' Hn [A1 [A2 [A3 A4]]]. split; [auto|]. split; [|split].
    - transitivity (n * u)%nat; [auto|]. apply Nat.mul_le_mono_r. nia.
    - transitivity (n * u * N.to_nat l)%nat; [auto|]. rewrite <- Nat.mul_assoc, (Nat.mul_comm u), Nat.mul_assoc. apply Nat.mul_le_mono_r. nia.
    - intros s Hs. apply A4 in Hs. lia. }
  assert (GO : forall n log1 log2, (n <= sides)%nat -> cost log1 (n * u) (N.to_nat l) ->
    length_loop_log hash_one todo fuel keys mn mx pl sl (l + 1) d = Ok (o, log2) ->
    comparisons (log1 ++ log2) = 0%nat /\ (hash_calls (log1 ++ log2) <= sides * S todo * u)%nat /\
    (elements_hashed (log1 ++ log2) <= sides * (N.to_nat l + sum_from (S (N.to_nat l)) todo) * u)%nat /\
    forall s, In (Hashed s) (log1 ++ log2) -> (length s < N.to_nat l + S todo)%nat).
  { intros n log1 log2 Hn [A1 [A2 [A3 A4]]] H2. apply IH in H2; [|lia]. destruct H2 as [B1 [B2 [B3 B4]]].
    replace (N.to_nat (l + 1)) with (S (N.to_nat l)) in * by lia. rewrite comparisons_app, hash_calls_app, elements_app.
    split; [lia|]. split; [|split].
    - replace (sides * S todo * u)%nat with (sides * u + sides * todo * u)%nat by nia.
      apply Nat.add_le_mono; auto. transitivity (n * u)%nat; auto. apply Nat.mul_le_mono_r. auto.
    - rewrite Nat.mul_add_distr_l, Nat.mul_add_distr_r. apply Nat.add_le_mono; auto.
      transitivity (n * u * N.to_nat l)%nat; [auto|]. rewrite <- Nat.mul_assoc, (Nat.mul_comm u), Nat.mul_assoc. apply Nat.mul_le_mono_r.
      apply Nat.mul_le_mono_r. auto.
    - intros s Hs. apply in_app_or in Hs. destruct Hs as [Hs|Hs]; [apply A4 in Hs|apply B4 in Hs]; lia. }
  destruct a as [i|].
  { done_log E1. rewrite app_nil_r. apply (STOP 1%nat); [destruct (mn =? mx); lia|]. rewrite Nat.mul_1_l. exact E. }
  split_log E1. destruct (mn =? mx); cbn [negb] in E0.
  - done_log E0. injection E1 as <-. cbn [app]. apply (GO 1%nat); [lia| |auto]. rewrite Nat.mul_1_l. exact E.
  - apply index_cost in E0. apply (cost_le _ _ u) in E0; [|apply HU]. assert (C2 : cost (l0 ++ l1) (2 * u) (N.to_nat l)).
    { replace (2 * u)%nat with (u + u)%nat by lia. apply cost_app; auto. }
    rewrite app_assoc. destruct a as [i|].
    + done_log E2. rewrite app_nil_r. apply (STOP 2%nat); [lia|exact C2].
    + apply (GO 2%nat); [lia|exact C2|exact E2].
Qed.

Lemma sum_from_mono : forall m n l, (m <= n)%nat -> (sum_from l m <= sum_from l n)%nat.
Proof. induction m as [|m IH]; intros n l H; [cbn; lia|]. destruct n as [|n]; [lia|]. cbn [sum_from]. specialize (IH n (S l)). lia. Qed.

End Slices.

Lemma total_size_ge {T} (keys : list (list T)) n : (forall s, In s keys -> (n <= length s)%nat) -> (n * length keys <= total_size keys)%nat.
Proof.
  induction keys as [|s r IH]; intros H; [cbn; lia|]. unfold total_size in *. cbn [map length list_sum fold_right]. fold (list_sum (map (@length T) r)).
  specialize (IH (fun x Hx => H x (or_intror Hx))). specialize (H s (or_introl eq_refl)). lia.
Qed.

(** The keys all have the same length. *)
Theorem slice_work_bound {T} (eqT : T -> T -> bool) (hash_one : list T -> N) : (forall x, eqT x x = true) -> forall keys,
  (forall s, In s keys -> N.of_nat (length s) <= usize_max) ->
  exists a log, analyze_slice_keys_log eqT hash_one keys = Ok (a, log) /\ analyze_slice_keys eqT hash_one keys = Ok a /\
    (comparisons log <= 2 * total_size keys)%nat /\ (hash_calls log <= 32 * total_size keys)%nat /\
    (elements_hashed log <= 272 * total_size keys)%nat /\ (forall s, In (Hashed s) log -> (length s <= 16)%nat) /\
    ((forall s s', In s keys -> In s' keys -> length s = length s') ->
     (hash_calls log <= 16 * total_size keys)%nat /\ (elements_hashed log <= 136 * total_size keys)%nat).
Proof.
  intros HR keys Hb. destruct (analyze_slice_keys_spec eqT hash_one HR keys Hb) as [a [E _]].
  pose proof (analyze_slice_keys_erase eqT hash_one keys) as ER. rewrite E in ER.
  destruct (analyze_slice_keys_log eqT hash_one keys) as [[a' log]| |] eqn:EL; try discriminate. injection ER as ->.
  exists a, log. split; [auto|]. split; [auto|]. unfold analyze_slice_keys_log in EL. destruct keys as [|k0 r].
  { cbn in EL. injection EL as <- <-. cbn. repeat split; try lia. }
  set (keys := k0 :: r) in *.
  destruct (analyze_lengths keys); try (done_log EL; cbn; repeat split; try lia; fail).
  unfold analyze_subslices_log in EL. cbv zeta in EL. split_log EL. destruct a0 as [[[mn mx] pl] sl].
  pose proof (measure_erase eqT (hd [] keys) keys usize_max 0 usize_max usize_max) as EM. rewrite E0 in EM. cbn [fmap fst] in EM.
  destruct (measure_all eqT hash_one HR k0 r) as [mn' [mx' [pl' [sl' [EM' [_ [_ [A3 [[smn [A4 A4']] [smx [A5 A5']]]]]]]]]]]; [apply Hb; left; auto|].
  change (k0 :: r) with keys in EM', A3, A4, A5. change (hd [] keys) with k0 in EM. rewrite EM' in EM. injection EM as <- <- <- <-.
  apply measure_cost in E0; [|exact hash_one]. destruct E0 as [C1 [C2 C3]]. rewrite comparisons_app, hash_calls_app, elements_app, C2, C3.
  set (sides := if mn =? mx then 1%nat else 2%nat).
  apply (length_cost hash_one _ _ _ _ _ _ _ sides) in E1; [|unfold sides; destruct (mn =? mx); reflexivity|lia].
  destruct E1 as [D1 [D2 [D3 D4]]]. rewrite D1.
  assert (HT : (N.to_nat mn * length keys <= total_size keys)%nat).
  { apply total_size_ge. intros s Hs. apply A3 in Hs. lia. }
  set (u := (N.to_nat mn * length keys)%nat) in *. set (t := N.to_nat (N.min mn 16)) in *.
  assert (Ht : (t <= 16)%nat) by (unfold t; lia).
  assert (HS : (sum_from (N.to_nat 1) t <= 136)%nat) by (transitivity (sum_from 1 16); [apply sum_from_mono, Ht|vm_compute; lia]).
  set (sf := sum_from (N.to_nat 1) t) in *.
  assert (G : forall k, sides = k -> (hash_calls l0 <= k * 16 * total_size keys)%nat /\ (elements_hashed l0 <= k * 136 * total_size keys)%nat).
  { intros k <-. split; (etransitivity; [eassumption|]); apply Nat.mul_le_mono; auto; apply Nat.mul_le_mono_l; auto. }
  split; [lia|]. split; [|split; [|split]].
  - destruct (G sides eq_refl) as [G1 _]. unfold sides in G1. destruct (mn =? mx); lia.
  - destruct (G sides eq_refl) as [_ G1]. unfold sides in G1. destruct (mn =? mx); lia.
  - intros s Hs. apply in_app_or in Hs. destruct Hs as [Hs|Hs].
    + exfalso. unfold hash_calls in C2. apply in_split in Hs. destruct Hs as [x [y ->]]. rewrite map_app, list_sum_app in C2. cbn in C2. lia.
    + apply D4 in Hs. lia.
  - intros HL. assert (E1 : mn = mx) by (specialize (HL smn smx A4 A5); lia). unfold sides in G. rewrite E1, N.eqb_refl in G.
    destruct (G 1%nat eq_refl). lia.
Qed.

(** * Hash code analysis *)
Lemma sizes_app a b : sizes_tried (a ++ b) = sizes_tried a ++ sizes_tried b.
Proof. unfold sizes_tried. apply flat_map_app. Qed.
Lemma codes_app a b : codes_looked_at (a ++ b) = codes_looked_at a ++ codes_looked_at b.
Proof. unfold codes_looked_at. apply flat_map_app. Qed.

Lemma count_cost m best : forall codes b n o log, count_collisions_log codes m best b n = Ok (o, log) ->
  sizes_tried log = [] /\ (length (codes_looked_at log) <= length codes)%nat /\ exists rest, codes = codes_looked_at log ++ rest.
Proof.
  induction codes as [|c r IH]; intros b n o log H; cbn [count_collisions_log] in H.
  - done_log H. cbn. repeat split; auto. exists []. auto.
  - split_log H. noted E. destruct (m =? 0); [discriminate|]. cbv zeta in E0. split_log E0. done_log E.
    cbn [app]. match goal with |- context[LookAt c :: ?x] => change (LookAt c :: x) with ([LookAt c] ++ x) end. rewrite sizes_app, codes_app. cbn [sizes_tried codes_looked_at flat_map app length].
    destruct a0.
    + destruct (best <=? n + 1).
      * done_log E1. cbn. repeat split; try lia. exists r. auto.
      * apply IH in E1. destruct E1 as [E1 [E2 [rest E3]]]. repeat split; auto; [lia|]. exists rest. congruence.
    + split_log E1. done_log E. apply IH in E2. destruct E2 as [E2 [E3 [rest E4]]]. cbn [app]. repeat split; auto; [lia|]. exists rest. congruence.
Qed.

Lemma loop_cost codes hk : forall fuel k acc b bs bc o log,
  analyze_loop_log fuel codes (2 ^ hk) (2 ^ k) acc b bs bc = Ok (o, log) ->
  (length (sizes_tried log) <= N.to_nat (hk + 1 - k))%nat /\ (length (codes_looked_at log) <= length (sizes_tried log) * length codes)%nat /\
  forall n, In n (sizes_tried log) -> n <= 2 ^ hk.
Proof.
  induction fuel as [|fuel IH]; intros k acc b bs bc o log H; cbn [analyze_loop_log] in H; [discriminate|].
  destruct (N.leb_spec (2 ^ k) (2 ^ hk)) as [Hk|Hk]; [|done_log H; cbn; repeat split; try lia; intros n []].
  apply N.pow_le_mono_r_iff in Hk; [|lia]. split_log H. noted E. cbv zeta in E0. split_log E0. apply count_cost in E. destruct E as [C1 [C2 _]].
  cbn [app]. match goal with |- context[TrySize (2 ^ k) :: ?x] => change (TrySize (2 ^ k) :: x) with ([TrySize (2 ^ k)] ++ x) end. rewrite !sizes_app, !codes_app, C1.
  cbn [sizes_tried codes_looked_at flat_map app]. cbn [length]. rewrite app_length.
  assert (HK : 2 ^ k <= 2 ^ hk) by (apply N.pow_le_mono_r; lia).
  destruct a0 as [nc ut].
  match type of E1 with (if ?x then _ else _) = _ => destruct x end.
  - done_log E1. cbn. repeat split; try lia.
  - rewrite npt_succ_pow2 in E1. apply IH in E1. destruct E1 as [B1 [B2 B3]]. repeat split; try lia. intros n [<-|Hn]; auto.
Qed.

Lemma rounds_bound len : 0 < len -> N.log2_up (max_factor len * len) + 1 - N.log2_up (len - initial_acceptable len) <= N.of_nat (most_sizes (N.to_nat len)).
Proof.
  intros H. set (a := N.log2_up (len - initial_acceptable len)). set (b := N.log2_up (max_factor len * len)).
  assert (Ha : len - initial_acceptable len <= 2 ^ a) by (apply npt_ge).
  assert (Hb : 2 ^ b < 2 * (max_factor len * len)).
  { apply npt_lt_double. unfold max_factor. destruct (len <? 128); [lia|]. destruct (len <? 1000); lia. }
  unfold most_sizes, max_factor, initial_acceptable in *.
  assert (HK : forall j, 2 ^ b < 2 ^ (a + j) -> b < a + j) by (intros j; apply N.pow_lt_mono_r_iff; lia).
  destruct (N.ltb_spec len 128).
  - destruct (Nat.ltb_spec (N.to_nat len) 128); [|lia]. cut (b < a + 5); [lia|]. apply HK. rewrite N.pow_add_r. change (2 ^ 5) with 32. lia.
  - destruct (Nat.ltb_spec (N.to_nat len) 128); [lia|]. pose proof (N.mul_div_le len 100). destruct (N.ltb_spec len 1000).
    + destruct (Nat.ltb_spec (N.to_nat len) 1000); [|lia]. cut (b < a + 4); [lia|]. apply HK. rewrite N.pow_add_r. change (2 ^ 4) with 16. lia.
    + destruct (Nat.ltb_spec (N.to_nat len) 1000); [lia|]. cut (b < a + 3); [lia|]. apply HK. rewrite N.pow_add_r. change (2 ^ 3) with 8. lia.
Qed.

Lemma analysis_max_bound len : analysis_max_size len <= N.max 1 (20 * len).
Proof.
  rewrite analysis_max_size_eq. destruct (N.eq_dec len 0) as [->|H]; [cbn; lia|].
  assert (next_power_of_two (max_factor len * len) < 2 * (max_factor len * len)).
  { apply npt_lt_double. unfold max_factor. destruct (len <? 128); [lia|]. destruct (len <? 1000); lia. }
  unfold max_factor in *. destruct (len <? 128); [lia|]. destruct (len <? 1000); lia.
Qed.

Lemma analysis_total codes : exists r, analyze_hash_codes codes = Ok r /\ fst r <= analysis_max_size (N.of_nat (length codes)).
Proof.
  destruct codes as [|c r]; [exists (0, 0); split; [reflexivity|cbn; lia]|].
  destruct (analyze_hash_codes_spec (c :: r)) as [s [n [E [_ [_ [H _]]]]]]; [discriminate|]. exists (s, n). auto.
Qed.

Theorem hash_work_bound codes : exists r log, analyze_hash_codes_log codes = Ok (r, log) /\ analyze_hash_codes codes = Ok r /\
  (length (sizes_tried log) <= most_sizes (length codes))%nat /\
  (length (codes_looked_at log) <= length (sizes_tried log) * length codes)%nat /\
  forall n, In n (sizes_tried log) -> n <= N.max 1 (20 * N.of_nat (length codes)).
Proof.
  destruct (analysis_total codes) as [r [E _]]. pose proof (analyze_hash_codes_erase codes) as ER. rewrite E in ER.
  destruct (analyze_hash_codes_log codes) as [[r' log]| |] eqn:EL; try discriminate. injection ER as ->. exists r, log. split; [auto|]. split; [auto|].
  unfold analyze_hash_codes_log in EL. cbv zeta in EL. set (len := N.of_nat (length codes)) in *.
  pose proof (analysis_max_bound len) as HM. rewrite analysis_max_size_eq in HM. rewrite analysis_max_size_eq, analysis_min_size_eq in EL.
  apply loop_cost in EL. destruct EL as [A1 [A2 A3]]. split; [|split; [exact A2|]].
  - destruct (N.eq_dec len 0) as [E0|E0]; [|assert (HL : 0 < len) by lia; pose proof (rounds_bound len HL) as HR; replace (N.to_nat len) with (length codes) in HR by (unfold len; lia); set (x := N.log2_up (max_factor len * len)) in *; set (y := N.log2_up (len - initial_acceptable len)) in *; clearbody x y; lia].
    rewrite E0 in A1. cbn in A1. unfold most_sizes. replace (length codes) with 0%nat by (unfold len in E0; lia). cbn. lia.
  - intros n Hn. apply A3 in Hn. unfold next_power_of_two in HM. lia.
Qed.

(** * Table sizes *)
Lemma mapM_length {A B} (f : A -> res B) l l' : mapM f l = Ok l' -> length l' = length l.
Proof.
  revert l'. induction l as [|x r IH]; intros l' H; cbn [mapM] in H; [injection H as <-; reflexivity|].
  destruct (f x); cbn [bind] in H; try discriminate. destruct (mapM f r); cbn [bind] in H; try discriminate. injection H as <-. cbn [length]. rewrite (IH _ eq_refl). reflexivity.
Qed.

Lemma store_length {A} (l : list A) i x l' : store l i x = Ok l' -> length l' = length l.
Proof. unfold store. destruct (Nat.ltb _ _); [|discriminate]. intros H. injection H as <-. apply list_set_length. Qed.

Lemma fill_slots_length {T} cm : forall fuel (items : list (N * T)) idx slots F slots' F',
  fill_slots cm fuel items idx slots F = Ok (slots', F') -> length slots' = length slots /\ length F' = (length F + length items)%nat.
Proof.
  induction fuel as [|fuel IH]; intros items idx slots F slots' F' H; cbn [fill_slots] in H; [discriminate|].
  destruct items as [|[slot e] r]; [injection H as <- <-; cbn; lia|].
  pose proof (pop_run_spec slot r) as HP. destruct (pop_run slot r) as [run rest]. destruct HP as [-> _].
  destruct (store _ _ _) as [s| |] eqn:ES; cbn [bind] in H; try discriminate. apply store_length in ES. apply IH in H. destruct H as [H1 H2].
  rewrite H2, app_length. cbn [length]. rewrite app_length, map_length. split; [congruence|lia].
Qed.

Lemma ht_new_size {T} usort cm (entries : list T) hash t : sorts_by_slot usort -> ht_new usort cm entries hash = Ok (ROk t) ->
  (length (ht_slots t) <= Nat.max 1 (20 * length (ht_entries t)))%nat /\ length (ht_entries t) = length entries.
Proof.
  intros HU H. unfold ht_new in H. destruct entries as [|e0 es0] eqn:EE; cbn [is_nil] in H; [injection H as <-; cbn; lia|]. rewrite <- EE in *. clear e0 es0 EE.
  destruct (_ <? _); [discriminate|]. destruct (mapM hash entries) as [codes| |] eqn:EC; cbn [bind] in H; try discriminate. apply mapM_length in EC.
  destruct (analysis_total codes) as [a [EA HA]]. rewrite EA in H. cbn [bind] in H. cbv zeta in H.
  destruct (prep_items hash (fst a) entries) as [items| |] eqn:EP; cbn [bind] in H; try discriminate.
  unfold prep_items in EP. apply mapM_length in EP. rewrite rev_length in EP.
  destruct (fill_slots _ _ _ _ _ _) as [[slots F]| |] eqn:EF; cbn [bind] in H; try discriminate.
  destruct (sub_no_underflow _ _); cbn [bind] in H; try discriminate. injection H as <-. cbn [ht_slots ht_entries].
  apply fill_slots_length in EF. rewrite rev_length, repeat_length in EF. destruct (HU items) as [HP _]. apply Permutation_length in HP.
  pose proof (analysis_max_bound (N.of_nat (length codes))). cbn [length] in EF. lia.
Qed.

Lemma from_dedupped_size {K V} usort cm hK (es : list (K * V)) m : sorts_by_slot usort -> hash_from_dedupped usort cm hK es = Ok (ROk m) ->
  (hash_side m <= Nat.max 1 (20 * length (ht_entries (hm_table m))))%nat /\ length (ht_entries (hm_table m)) = length es.
Proof.
  intros HU H. unfold hash_from_dedupped in H. destruct (ht_new usort cm es _) as [[t|s]| |] eqn:E; cbn [bind] in H; try discriminate.
  injection H as <-. unfold hash_side. cbn [hm_table]. eapply ht_new_size; eauto.
Qed.

Lemma unwrap_from_dedupped {K V B} usort cm hK (es : list (K * V)) (f : hash_map K V -> B) m :
  (r <- hash_from_dedupped usort cm hK es ;; fmap f (unwrap r)) = Ok m ->
  exists h, hash_from_dedupped usort cm hK es = Ok (ROk h) /\ m = f h.
Proof.
  destruct (hash_from_dedupped usort cm hK es) as [[h|s]| |]; cbn; try discriminate. intros H. injection H as <-. eauto.
Qed.

Lemma hash_map_space {K V} usort cm eqK hK (input : list (K * V)) m : sorts_by_slot usort -> hash_map_with_hasher usort cm eqK hK input = Ok (ROk m) ->
  (hash_side m <= Nat.max 1 (20 * length (ht_entries (hm_table m))))%nat.
Proof. intros HU H. unfold hash_map_with_hasher in H. eapply from_dedupped_size; eauto. Qed.

Lemma fz_hash_map_space {K V} usort eqK hK (input : list (K * V)) m : sorts_by_slot usort -> fz_hash_map_with_hasher usort eqK hK input = Ok m ->
  (hash_side m <= Nat.max 1 (20 * length (ht_entries (hm_table m))))%nat.
Proof.
  intros HU H. unfold fz_hash_map_with_hasher in H. match type of H with (r <- ?x ;; _) = _ => destruct x as [[h|s]| |] eqn:E end; cbn in H; try discriminate.
  injection H as <-. eapply from_dedupped_size; eauto.
Qed.

Lemma fz_string_map_space {V} usort bh (input : list (bytes * V)) m : sorts_by_slot usort -> fz_string_map_with_hasher usort bh input = Ok m ->
  (string_side m <= Nat.max 1 (20 * length (mo_entries fz_string_ops m)))%nat.
Proof.
  intros HU H. unfold fz_string_map_with_hasher in H. cbv zeta in H. destruct (analyze_slice_keys _ _ _) as [a| |]; cbn [bind] in H; try discriminate.
  destruct a; apply unwrap_from_dedupped in H; destruct H as [h [E ->]]; eapply from_dedupped_size; eauto.
Qed.

(** The span of keys that are put in a sparse table. *)
Lemma sparse_span md l mn mx d c : l <> [] -> (forall x, In x l -> x <= usize_max) -> In mn l -> In mx l -> (forall x, In x l -> mn <= x <= mx) ->
  analyze_scalar_keys md l = Ok SparseRange -> usub md mx mn = Ok d -> uadd md d 1 = Ok c -> c <= N.max 128 (10 * N.of_nat (length l)).
Proof.
  intros Hne Hb Hmn Hmx HB H E1 E2. destruct (scalar_min_max_bounds l Hne Hb) as [mn' [mx' [E [A1 [A2 A3]]]]].
  assert (mn' = mn) by (pose proof (HB _ A1); pose proof (A3 _ Hmn); lia). assert (mx' = mx) by (pose proof (HB _ A2); pose proof (A3 _ Hmx); lia). subst mn' mx'.
  unfold analyze_scalar_keys in H. rewrite E in H. destruct (_ =? 0) in H; [discriminate|]. rewrite E1 in H. cbn [bind] in H. rewrite E2 in H. cbn [bind] in H.
  destruct (_ =? _) in H; [discriminate|]. destruct (N.leb_spec c 128); [lia|]. cbn [orb] in H.
  unfold saturating_mul in H. match type of H with (if ?x then _ else _) = _ => destruct x eqn:EX end; [|discriminate]. lia.
Qed.

Lemma sparse_fill_length {K V} md (idx : K -> N) mn : forall (es : list (K * V)) i l l', sparse_fill md idx mn i es l = Ok l' -> length l' = length l.
Proof.
  induction es as [|e r IH]; intros i l l' H; cbn [sparse_fill] in H; [injection H as <-; auto|].
  destruct (usub _ _ _); cbn [bind] in H; try discriminate. destruct (store _ _ _) eqn:E; cbn [bind] in H; try discriminate.
  apply IH in H. apply store_length in E. congruence.
Qed.

Lemma ends_in {K V} (idx : K -> N) (es : list (K * V)) first last : incr (map (fun e => idx (fst e)) es) ->
  nth_error es 0 = Some first -> nth_error es (length es - 1) = Some last ->
  let l := map (fun e => idx (fst e)) es in In (idx (fst first)) l /\ In (idx (fst last)) l /\ forall x, In x l -> idx (fst first) <= x <= idx (fst last).
Proof.
  intros HI Hf Hl l. split; [|split].
  - apply (in_map (fun e => idx (fst e))). eapply nth_error_In; eauto.
  - apply (in_map (fun e => idx (fst e))). eapply nth_error_In; eauto.
  - intros x. apply (incr_first_last idx); auto.
Qed.

Lemma fz_scalar_map_space {K V Q} usort md idx cmp idxQ eqv (input : list (K * V)) m : sorts_by_slot usort -> lawful_scalar idx cmp ->
  fz_scalar_map_new usort md idx cmp input = Ok m ->
  (scalar_side m <= Nat.max 128 (20 * length (mo_entries (fz_scalar_ops (Q := Q) idxQ eqv) m)))%nat.
Proof.
  intros HU LS H. unfold fz_scalar_map_new in H. set (es := sorted_and_dedupped _ _) in H.
  assert (HI : incr (map (fun e => idx (fst e)) es)).
  { apply (sorted_incr idx cmp LS). apply (sorted_and_dedupped_sorted _ (lawful_ord_fst idx cmp LS)). }
  unfold fz_scalar_new_sorted in H. destruct (analyze_scalar_keys md _) as [a| |] eqn:EA; cbn [bind] in H; try discriminate. destruct a.
  - apply unwrap_from_dedupped in H. destruct H as [h [E ->]]. apply from_dedupped_size in E; auto. cbn [scalar_side mo_entries fz_scalar_ops hash_ops]. lia.
  - destruct (dense_from_sorted idx es); cbn in H; try discriminate. injection H as <-. cbn. lia.
  - unfold sparse_from_sorted, index in H. destruct (nth_error es 0) as [e|] eqn:E0; cbn [bind fmap] in H; try discriminate.
    destruct (nth_error es (List.length es - 1)) as [e2|] eqn:E1; cbn [bind fmap] in H; try discriminate.
    destruct (usub md _ _) as [d| |] eqn:E2; cbn [bind fmap] in H; try discriminate. destruct (uadd md d 1) as [c| |] eqn:E3; cbn [bind fmap] in H; try discriminate.
    destruct (sparse_fill _ _ _ _ _ _) as [l| |] eqn:E4; cbn [bind fmap] in H; try discriminate. injection H as <-. cbn [scalar_side sp_lookup mo_entries fz_scalar_ops sparse_ops sp_entries].
    apply sparse_fill_length in E4. rewrite repeat_length in E4. destruct (ends_in idx es e e2 HI E0 E1) as [A1 [A2 A3]].
    assert (HNE : map (fun e => idx (fst e)) es <> []) by (intros HE; rewrite HE in A1; destruct A1).
    pose proof (sparse_span md _ _ _ d c HNE (ixs_bound idx cmp LS es) A1 A2 A3 EA E2 E3) as HS.
    rewrite map_length in HS. lia.
Qed.

(** * Emitted tables *)
Lemma gen_hash_space {KB X W} usort g hash_one h (es : list (entry KB X W)) out : sorts_by_slot usort -> gen_inline_hash usort g hash_one h es = Ok out ->
  (ctor_side (o_ctor out) <= Nat.max 1 (20 * length (ctor_entries (o_ctor out))))%nat /\ length (ctor_entries (o_ctor out)) = length es.
Proof.
  intros HU H. unfold gen_inline_hash in H. destruct (ht_new _ _ _ _) as [[t|s]| |] eqn:E; cbn [bind unwrap] in H; try discriminate.
  apply ht_new_size in E; auto. injection H as <-. cbn [o_ctor].
  destruct (ht_has_collisions t); cbn [ctor_side ctor_entries]; unfold render; rewrite !map_length; lia.
Qed.

Lemma gen_lookup_length {KB X W} md (idx : KB -> N) mn : forall (es : list (entry KB X W)) i l l', gen_lookup md idx mn i es l = Ok l' -> length l' = length l.
Proof.
  induction es as [|e r IH]; intros i l l' H; cbn [gen_lookup] in H; [injection H as <-; auto|].
  destruct (usub _ _ _); cbn [bind] in H; try discriminate. destruct (uadd _ _ _); cbn [bind] in H; try discriminate.
  destruct (store _ _ _) eqn:E; cbn [bind] in H; try discriminate. apply IH in H. apply store_length in E. congruence.
Qed.

Lemma finish_out {X W} em n (gen : generator -> res (output X W)) d out : finish em n gen = Ok (ROk (d, out)) -> exists g, gen g = Ok out.
Proof.
  unfold finish. destruct (preflight em n) as [g|]; [|discriminate]. destruct (gen g) as [o| |] eqn:E; cbn [bind]; try discriminate.
  destruct (postflight em); cbn [bind]; try discriminate. intros H. injection H as <- <-. eauto.
Qed.

Lemma emit_hash_space {KB X W} usort unit_expr seed hash eqB em (es : list (entry KB X W)) d out : sorts_by_slot usort ->
  emit_hash_collection usort unit_expr seed hash eqB em es = Ok (ROk (d, out)) ->
  (ctor_side (o_ctor out) <= 20 * length (ctor_entries (o_ctor out)))%nat.
Proof.
  intros HU H. unfold emit_hash_collection in H. cbv zeta in H. set (es1 := using_hash _ _ _) in H. apply finish_out in H. destruct H as [g H].
  destruct (Nat.ltb_spec (length es1) 4).
  - injection H as <-. cbn. lia.
  - apply gen_hash_space in H; auto. lia.
Qed.

Lemma emit_ordered_space {KB X W} unit_expr cmpB em (es : list (entry KB X W)) d out :
  emit_ordered_collection unit_expr cmpB em es = Ok (ROk (d, out)) -> ctor_side (o_ctor out) = 0%nat.
Proof.
  intros H. unfold emit_ordered_collection in H. cbv zeta in H. set (es1 := sorted_and_dedupped _ _) in H. apply finish_out in H. destruct H as [g H].
  destruct (Nat.ltb _ _); [injection H as <-; reflexivity|].
  unfold gen_inline_eytzinger_search in H. match type of H with (r <- ?x ;; _) = _ => destruct x end; cbn in H; try discriminate. injection H as <-. reflexivity.
Qed.

Lemma emit_string_space {X W} usort unit_expr seed fixed_state em (es : list (entry bytes X W)) d out : sorts_by_slot usort ->
  emit_string_collection usort unit_expr seed fixed_state em es = Ok (ROk (d, out)) ->
  (ctor_side (o_ctor out) <= 20 * length (ctor_entries (o_ctor out)))%nat.
Proof.
  intros HU H. unfold emit_string_collection in H. cbv zeta in H. set (es1 := using_cmp _ _) in H. apply finish_out in H. destruct H as [g H].
  destruct (Nat.ltb_spec (length es1) 4); [injection H as <-; cbn; lia|].
  destruct (analyze_slice_keys _ _ _) as [a| |]; cbn [bind] in H; try discriminate.
  destruct a; apply gen_hash_space in H; auto; lia.
Qed.

Lemma emit_scalar_space {KB X W} usort md unit_expr idx cmpB em (es : list (entry KB X W)) d out : sorts_by_slot usort -> lawful_scalar idx cmpB ->
  emit_scalar_collection usort md unit_expr idx cmpB em es = Ok (ROk (d, out)) ->
  (ctor_side (o_ctor out) <= Nat.max 128 (20 * length (ctor_entries (o_ctor out))))%nat.
Proof.
  intros HU LS H. unfold emit_scalar_collection in H. cbv zeta in H.
  change (fun x y : entry KB X W => cmpB (e_key x) (e_key y)) with (fun x y : KB * (X * W) => cmpB (fst x) (fst y)) in H. set (es1 := sorted_and_dedupped _ _) in H.
  change (map (fun x : entry KB X W => idx (e_key x)) es1) with (map (fun e : KB * (X * W) => idx (fst e)) es1) in H.
  destruct (analyze_scalar_keys _ _) as [a| |] eqn:EA; cbn [bind] in H; try discriminate.
  assert (HI : incr (map (fun e => idx (fst e)) es1)).
  { apply (sorted_incr idx cmpB LS). apply (sorted_and_dedupped_sorted _ (lawful_ord_fst idx cmpB LS)). }
  apply finish_out in H. destruct H as [g H]. destruct a.
  - destruct (Nat.ltb_spec (length es1) 8); [injection H as <-; cbn; lia|]. apply gen_hash_space in H; auto. lia.
  - unfold gen_inline_dense_scalar_lookup in H. destruct (index es1 0); cbn [bind] in H; try discriminate.
    destruct (index es1 _); cbn [bind] in H; try discriminate. injection H as <-. cbn. lia.
  - unfold gen_inline_sparse_scalar_lookup, index in H. destruct (nth_error es1 0) as [e|] eqn:E0; cbn [bind] in H; [|discriminate].
    destruct (nth_error es1 (length es1 - 1)) as [e2|] eqn:E1; cbn [bind] in H; [|discriminate].
    destruct (usub _ _ _) as [x| |] eqn:E2; cbn [bind] in H; try discriminate. destruct (uadd _ _ _) as [c| |] eqn:E3; cbn [bind] in H; try discriminate.
    destruct (gen_lookup _ _ _ _ _ _) as [l| |] eqn:E4; cbn [bind] in H; try discriminate. injection H as <-. cbn [o_ctor ctor_side ctor_entries].
    apply gen_lookup_length in E4. rewrite repeat_length in E4. destruct (ends_in idx es1 e e2 HI E0 E1) as [A1 [A2 A3]].
    assert (HNE : map (fun e => idx (fst e)) es1 <> []) by (intros HE; rewrite HE in A1; destruct A1).
    pose proof (sparse_span md _ _ _ x c HNE (ixs_bound idx cmpB LS es1) A1 A2 A3 EA E2 E3) as HS.
    unfold render. rewrite map_length in *. lia.
Qed.
