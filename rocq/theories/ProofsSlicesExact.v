(** String key analysis: exactly which range is selected. *)
From Verif Require Import Prelude Spec ModelUtils ModelAnalyzers SpecAnalysis ProofsBase ProofsAnalyzer ProofsSlices.
From Coq Require Import ZArith ZifyNat ZifyN ZifyBool.

Lemma find_app {A} (p : A -> bool) l l' : find p (l ++ l') = match find p l with Some x => Some x | None => find p l' end.
Proof. induction l as [|x r IH]; cbn [app find]; auto. destruct (p x); auto. Qed.

Lemma find_map {A B} (f : A -> B) (p : B -> bool) l : find p (map f l) = option_map f (find (fun x => p (f x)) l).
Proof. induction l as [|x r IH]; cbn [map find]; auto. destruct (p (f x)); auto. Qed.

Lemma range_N_cons a b : a <= b -> range_N a b = a :: range_N (a + 1) b.
Proof.
  intros H. unfold range_N. replace (N.to_nat (b + 1 - a)) with (S (N.to_nat (b + 1 - (a + 1)))) by lia. cbn [seq map].
  f_equal; [lia|]. rewrite <- seq_shift, map_map. apply map_ext. intros i. lia.
Qed.

Lemma range_N_nil a b : b < a -> range_N a b = [].
Proof. intros H. unfold range_N. replace (N.to_nat (b + 1 - a)) with 0%nat by lia. reflexivity. Qed.

Lemma nth_error_rev_lt {T} (s : list T) i : (i < length s)%nat -> nth_error (rev s) i = nth_error s (length s - i - 1).
Proof.
  intros H. destruct (nth_error s (length s - i - 1)) as [x|] eqn:E.
  - rewrite (nth_error_nth' (rev s) x) by (rewrite rev_length; lia). f_equal. rewrite rev_nth by lia.
    replace (length s - S i)%nat with (length s - i - 1)%nat by lia. apply nth_error_nth with (d := x) in E. auto.
  - apply nth_error_None in E. lia.
Qed.

Section Slices.
Context {T : Type} (eqT : T -> T -> bool) (hash_one : list T -> N).
Hypothesis LE : lawful_eq eqT.

(** ** the search over ranges *)
Lemma index_loop_exact left l last keys : forall fuel i,
  (forall s, In s keys -> last + l <= N.of_nat (length s)) ->
  last + 2 <= N.of_nat fuel + i -> (0 < fuel)%nat ->
  index_loop hash_one fuel keys left i l last (Nat.div (length keys) 20) =
    Ok (find (fun x => tolerable hash_one keys (left, x, x + l)) (range_N i last)).
Proof.
  induction fuel as [|fuel IH]; intros i H Hf Hf0; cbn [index_loop]; [lia|].
  destruct (N.leb_spec i last) as [Hi|Hi].
  - destruct (is_sufficiently_unique_spec hash_one left i l keys [] (Nat.div (length keys) 20)) as [b [E1 E2]].
    { intros s Hs. specialize (H s Hs). lia. }
    rewrite scan_dups_repeats in E2. rewrite range_N_cons by auto. cbn [find].
    assert (E3 : tolerable hash_one keys (left, i, i + l) = b).
    { unfold tolerable. cbn [fst snd]. change 20 with (N.of_nat 20). rewrite <- Nat2N.inj_div.
      destruct b; [apply N.leb_le, E2; auto|]. apply N.leb_gt. apply N.nle_gt. intros HX. apply E2 in HX. discriminate. }
    rewrite E1, E3. cbn [bind]. destruct b; [reflexivity|]. apply IH; auto; lia.
  - rewrite range_N_nil by lia. reflexivity.
Qed.

Definition cands_of (mn mx pl sl l : N) : list (bool * N * N) :=
  map (fun i => (true, i, i + l)) (range_N pl (mn - l)) ++
  (if mn =? mx then [] else map (fun i => (false, i, i + l)) (range_N sl (mn - l))).

Lemma length_loop_exact keys mn mx pl sl fuel : forall todo l,
  (forall s, In s keys -> mn <= N.of_nat (length s)) ->
  mn + 2 <= N.of_nat fuel -> 0 < l -> l + N.of_nat todo <= mn + 1 ->
  length_loop hash_one todo fuel keys mn mx pl sl l (Nat.div (length keys) 20) =
    Ok (verdict mx (find (tolerable hash_one keys) (flat_map (cands_of mn mx pl sl) (range_N l (l + N.of_nat todo - 1))))).
Proof.
  induction todo as [|todo IH]; intros l Hb Hfuel Hl Hm; cbn [length_loop].
  - rewrite range_N_nil by lia. reflexivity.
  - unfold sub_no_underflow. destruct (N.leb_spec l mn); [|lia]. cbn [bind].
    assert (Hin : forall s, In s keys -> mn - l + l <= N.of_nat (length s)) by (intros s Hs; specialize (Hb s Hs); lia).
    rewrite index_loop_exact by (auto; lia). cbn [bind].
    rewrite (range_N_cons l) by lia. cbn [flat_map]. unfold cands_of at 1. rewrite !find_app, find_map.
    destruct (find _ (range_N pl (mn - l))) as [x|]; cbn [option_map].
    + cbn [verdict]. replace (x + l - x) with l by lia. reflexivity.
    + replace (l + N.of_nat (S todo) - 1) with (l + 1 + N.of_nat todo - 1) by lia.
      destruct (N.eqb_spec mn mx) as [Hmm|Hmm]; cbn [negb bind find].
      * apply IH; auto; lia.
      * rewrite index_loop_exact by (auto; lia). cbn [bind]. rewrite find_map.
        destruct (find _ (range_N sl (mn - l))) as [x|]; cbn [option_map]; [reflexivity|]. apply IH; auto; lia.
Qed.

(** ** common prefix and suffix *)
Definition sided (left : bool) (s : list T) : list T := if left then s else rev s.

Definition agree2 (left : bool) (s t : list T) (p : N) : Prop :=
  forall i, N.of_nat i < p -> exists a b, nth_error (sided left s) i = Some a /\ nth_error (sided left t) i = Some b /\ eqT a b = true.

Lemma agree2_sym left s t p : agree2 left s t p -> agree2 left t s p.
Proof. intros H i Hi. destruct (H i Hi) as [a [b [H1 [H2 H3]]]]. exists b, a. split; [auto|]. split; auto. apply (eq_sym_law _ LE); auto. Qed.
Lemma agree2_trans left s t u p : agree2 left s t p -> agree2 left t u p -> agree2 left s u p.
Proof.
  intros H1 H2 i Hi. destruct (H1 i Hi) as [a [b [A1 [A2 A3]]]]. destruct (H2 i Hi) as [b' [c [B1 [B2 B3]]]].
  exists a, c. split; [auto|]. split; [auto|]. rewrite A2 in B1. inversion B1; subst. eapply (eq_trans_law _ LE); eauto.
Qed.
Lemma agree2_le left s t p p' : p' <= p -> agree2 left s t p -> agree2 left s t p'.
Proof. intros H A i Hi. apply A. lia. Qed.

(** the two comparison loops, on the sided keys *)
Fixpoint sided_loop (todo i : nat) (s k0 : list T) : option nat :=
  match todo with
  | O => None
  | S todo' => match nth_error s i, nth_error k0 i with
               | Some a, Some b => if eqT a b then sided_loop todo' (S i) s k0 else Some i
               | _, _ => None
               end
  end.

Lemma prefix_sided s k0 : forall todo i, (i + todo <= length s)%nat -> (i + todo <= length k0)%nat ->
  prefix_loop eqT todo i s k0 = Ok (sided_loop todo i s k0).
Proof.
  induction todo as [|todo IH]; intros i H1 H2; cbn [prefix_loop sided_loop]; auto.
  destruct (index_Ok s i) as [a [Na Ha]]; [lia|]. destruct (index_Ok k0 i) as [b [Nb Hb]]; [lia|].
  rewrite Ha, Hb, Na, Nb. cbn [bind]. destruct (eqT a b); cbn [negb]; auto. apply IH; lia.
Qed.

Lemma suffix_sided s k0 : forall todo i, (i + todo <= length s)%nat -> (i + todo <= length k0)%nat ->
  suffix_loop eqT todo i s k0 = Ok (sided_loop todo i (rev s) (rev k0)).
Proof.
  induction todo as [|todo IH]; intros i H1 H2; cbn [suffix_loop sided_loop]; auto.
  destruct (Nat.ltb_spec i (length s)); [|lia]. destruct (Nat.ltb_spec i (length k0)); [|lia].
  rewrite !nth_error_rev_lt by lia.
  destruct (index_Ok s (length s - i - 1)) as [a [Na Ha]]; [lia|]. destruct (index_Ok k0 (length k0 - i - 1)) as [b [Nb Hb]]; [lia|].
  rewrite Ha, Hb, Na, Nb. cbn [bind]. destruct (eqT a b); cbn [negb]; auto. apply IH; lia.
Qed.

(** the loop computes the agreement with the first key, up to the current bound *)
Lemma sided_loop_spec s k0 : forall todo i, (i + todo <= length s)%nat -> (i + todo <= length k0)%nat ->
  let p := match sided_loop todo i s k0 with Some j => j | None => (i + todo)%nat end in
  (i <= p <= i + todo)%nat /\
  (forall j, (i <= j < p)%nat -> exists a b, nth_error s j = Some a /\ nth_error k0 j = Some b /\ eqT a b = true) /\
  (p = (i + todo)%nat \/ exists a b, nth_error s p = Some a /\ nth_error k0 p = Some b /\ eqT a b = false).
Proof.
  induction todo as [|todo IH]; intros i H1 H2; cbn [sided_loop].
  - cbn zeta. split; [lia|]. split; [intros j Hj; lia|left; lia].
  - destruct (index_Ok s i) as [a [Na _]]; [lia|]. destruct (index_Ok k0 i) as [b [Nb _]]; [lia|]. rewrite Na, Nb.
    destruct (eqT a b) eqn:E.
    + specialize (IH (S i) ltac:(lia) ltac:(lia)). cbn zeta in IH |- *.
      destruct (sided_loop todo (S i) s k0) as [j|].
      * destruct IH as [A1 [A2 A3]]. split; [lia|]. split.
        -- intros j' Hj. destruct (Nat.eq_dec j' i) as [->|]; [eauto|]. apply A2; lia.
        -- destruct A3; [left; lia|right; auto].
      * destruct IH as [A1 [A2 A3]]. split; [lia|]. split.
        -- intros j' Hj. destruct (Nat.eq_dec j' i) as [->|]; [eauto|]. apply A2; lia.
        -- left; lia.
    + cbn zeta. split; [lia|]. split; [intros j Hj; lia|]. right. eauto.
Qed.

(** [maxi left seen k0 p]: [p] is the largest agreement of all of [seen] with [k0] *)
Definition maxi (left : bool) (k0 : list T) (seen : list (list T)) (p : N) : Prop :=
  p <= N.of_nat (length k0) /\ (forall s, In s seen -> p <= N.of_nat (length s)) /\
  (forall s, In s seen -> agree2 left k0 s p) /\
  (p = N.of_nat (length k0) \/ exists s, In s seen /\ ~ agree2 left k0 s (p + 1)).

Lemma sided_length left s : length (sided left s) = length s.
Proof. destruct left; cbn; auto. apply rev_length. Qed.

Lemma maxi_step left k0 seen s p : maxi left k0 seen p ->
  let len := N.of_nat (length s) in
  let p1 := if len <? p then len else p in
  maxi left k0 (seen ++ [s]) (or_else (sided_loop (N.to_nat p1) 0 (sided left s) (sided left k0)) p1).
Proof.
  intros [M1 [M2 [M3 M4]]] len p1.
  assert (HP : p1 <= p /\ p1 <= len) by (unfold p1; destruct (N.ltb_spec len p); lia).
  destruct (sided_loop_spec (sided left s) (sided left k0) (N.to_nat p1) 0) as [A1 [A2 A3]];
    [rewrite sided_length; unfold len in *; lia|rewrite sided_length; lia|].
  set (q := match sided_loop (N.to_nat p1) 0 (sided left s) (sided left k0) with Some j => j | None => (0 + N.to_nat p1)%nat end) in *.
  assert (EQ : or_else (sided_loop (N.to_nat p1) 0 (sided left s) (sided left k0)) p1 = N.of_nat q).
  { unfold q. destruct (sided_loop _ _ _ _); cbn [or_else]; lia. }
  rewrite EQ. split; [lia|]. split; [|split].
  - intros t Ht. apply in_app_iff in Ht. destruct Ht as [Ht|[<-|[]]]; [specialize (M2 t Ht); lia|unfold len in *; lia].
  - intros t Ht. apply in_app_iff in Ht. destruct Ht as [Ht|[<-|[]]].
    + apply (agree2_le _ _ _ p); [lia|auto].
    + intros i Hi. destruct (A2 i) as [a [b [B1 [B2 B3]]]]; [lia|]. exists b, a. split; [auto|]. split; auto. apply (eq_sym_law _ LE); auto.
  - destruct A3 as [A3|[a [b [B1 [B2 B3]]]]].
    + assert (Eq1 : N.of_nat q = p1) by lia. rewrite Eq1. unfold p1. destruct (N.ltb_spec len p) as [HL|HL].
      * right. exists s. split; [apply in_app_iff; right; left; auto|]. intros HA. destruct (HA (length s)) as [a [b [_ [B2 _]]]]; [unfold len; lia|].
        assert (nth_error (sided left s) (length s) = None) by (apply nth_error_None; rewrite sided_length; lia). congruence.
      * destruct M4 as [->|[t [Ht HN]]]; [left; auto|right]. exists t. split; [apply in_app_iff; auto|auto].
    + right. exists s. split; [apply in_app_iff; right; left; auto|]. intros HA. destruct (HA q) as [a' [b' [C1 [C2 C3]]]]; [lia|].
      rewrite B1 in C2. rewrite B2 in C1. inversion C1; inversion C2; subst. apply (eq_sym_law _ LE) in C3. congruence.
Qed.

Lemma measure_loop_exact k0 : forall keys seen mn mx pl sl,
  maxi true k0 seen pl -> maxi false k0 seen sl ->
  exists mn' mx' pl' sl', measure_loop eqT k0 keys mn mx pl sl = Ok (mn', mx', pl', sl') /\
    maxi true k0 (seen ++ keys) pl' /\ maxi false k0 (seen ++ keys) sl'.
Proof.
  induction keys as [|s r IH]; intros seen mn mx pl sl Hpl Hsl; cbn [measure_loop].
  - exists mn, mx, pl, sl. rewrite app_nil_r. auto.
  - pose proof (maxi_step true k0 seen s pl Hpl) as S1. pose proof (maxi_step false k0 seen s sl Hsl) as S2. cbn zeta in S1, S2.
    set (len := N.of_nat (length s)) in *. set (pl1 := if len <? pl then len else pl) in *. set (sl1 := if len <? sl then len else sl) in *.
    destruct Hpl as [P1 _], Hsl as [Q1 _].
    assert (pl1 <= N.of_nat (length k0) /\ pl1 <= len) by (unfold pl1; destruct (N.ltb_spec len pl); lia).
    assert (sl1 <= N.of_nat (length k0) /\ sl1 <= len) by (unfold sl1; destruct (N.ltb_spec len sl); lia).
    rewrite prefix_sided, suffix_sided by (unfold len in *; lia). cbn [bind].
    change (seen ++ s :: r) with (seen ++ [s] ++ r). rewrite app_assoc. apply IH; auto.
Qed.

Lemma maxi_longest left k0 r p : maxi left k0 (k0 :: r) p -> longest_agreement eqT left (k0 :: r) p.
Proof.
  intros [M1 [M2 [M3 M4]]]. split.
  - intros s t i Hs Ht Hi. apply (agree2_trans left s k0 t p); auto. apply agree2_sym. auto.
  - intros HA. destruct M4 as [->|[s [Hs HN]]].
    + destruct (HA k0 k0 (length k0)) as [a [_ [H _]]]; [left; auto|left; auto|lia|].
      assert (nth_error (sided left k0) (length k0) = None) by (apply nth_error_None; rewrite sided_length; lia). unfold sided in *. congruence.
    + apply HN. intros i Hi. apply HA; auto. left; auto.
Qed.

Lemma measure_exact k0 r : N.of_nat (length k0) <= usize_max ->
  exists mn mx pl sl, measure_loop eqT k0 (k0 :: r) usize_max 0 usize_max usize_max = Ok (mn, mx, pl, sl) /\
    least_length (k0 :: r) mn /\ greatest_length (k0 :: r) mx /\
    longest_agreement eqT true (k0 :: r) pl /\ longest_agreement eqT false (k0 :: r) sl.
Proof.
  intros Hk0. destruct (measure_all eqT hash_one (eq_refl_law _ LE) k0 r Hk0) as [mn [mx [pl [sl [E [_ [_ [A3 [A4 A5]]]]]]]]].
  exists mn, mx, pl, sl. split; [auto|]. split; [split; [auto|intros s Hs; apply A3; auto]|]. split; [split; [auto|intros s Hs; apply A3; auto]|].
  assert (HM : maxi true k0 (k0 :: r) pl /\ maxi false k0 (k0 :: r) sl).
  { revert E. cbn [measure_loop]. set (len := N.of_nat (length k0)).
    assert (Ep : (if len <? usize_max then len else usize_max) = len) by (destruct (N.ltb_spec len usize_max); unfold len in *; lia).
    rewrite !Ep. rewrite prefix_loop_same by (first [exact hash_one | exact (eq_refl_law _ LE) | unfold len; lia]).
    rewrite suffix_loop_same by (first [exact hash_one | exact (eq_refl_law _ LE) | unfold len; lia]). cbn [bind or_else].
    assert (HB : forall left, maxi left k0 [k0] len).
    { intros left. split; [unfold len; lia|]. split; [intros s [<-|[]]; unfold len; lia|]. split; [|left; auto].
      intros s [<-|[]] i Hi. destruct (nth_error (sided left k0) i) as [a|] eqn:Ea.
      - exists a, a. split; [auto|]. split; auto. apply (eq_refl_law _ LE).
      - apply nth_error_None in Ea. rewrite sided_length in Ea. unfold len in *. lia. }
    destruct (measure_loop_exact k0 r [k0] (N.min usize_max len) (N.max 0 len) len len (HB true) (HB false)) as [a [b [c [d [E [C1 C2]]]]]].
    rewrite E. intros HX. inversion HX; subst. auto. }
  destruct HM. split; apply maxi_longest; auto.
Qed.

(** ** the whole analysis *)
Theorem analyze_slice_keys_exact keys : (forall s, In s keys -> N.of_nat (length s) <= usize_max) ->
  (spread_lengths keys -> analyze_slice_keys eqT hash_one keys = Ok SliceLength) /\
  (~ spread_lengths keys -> exists mn mx pl sl,
    least_length keys mn /\ greatest_length keys mx /\ longest_agreement eqT true keys pl /\ longest_agreement eqT false keys sl /\
    analyze_slice_keys eqT hash_one keys = Ok (verdict mx (find (tolerable hash_one keys) (candidates mn mx pl sl)))).
Proof.
  intros Hb. unfold analyze_slice_keys, analyze_lengths.
  assert (HS : spread_lengths keys <-> forall n, (count_len n keys <= Nat.max 1 (Nat.div (length keys) 20))%nat).
  { unfold spread_lengths, count_len. change 20 with (N.of_nat 20). rewrite <- Nat2N.inj_div. split; intros H n; specialize (H n); lia. }
  destruct (analyze_lengths_loop_spec hash_one (Nat.div (length keys) 20) keys [] nm_empty) as [[E [n Hn]]|[E H]].
  - intros n. reflexivity.
  - intros n. cbn. lia.
  - rewrite E. split; [intros HX; rewrite HS in HX; specialize (HX n); cbn [app] in Hn; lia|]. intros _.
    destruct keys as [|k0 r]; [discriminate|]. unfold analyze_subslices. cbn [hd].
    destruct (measure_exact k0 r) as [mn [mx [pl [sl [EM [A1 [A2 [A3 A4]]]]]]]]; [apply Hb; left; auto|].
    exists mn, mx, pl, sl. do 4 (split; [auto|]). rewrite EM. cbn [bind].
    destruct A1 as [_ A1]. rewrite length_loop_exact; auto; try lia.
    + f_equal. f_equal. f_equal. unfold candidates, cands_of. replace (1 + N.of_nat (N.to_nat (N.min mn 16)) - 1) with (N.min mn 16) by lia. reflexivity.
    + specialize (A1 k0 (or_introl eq_refl)). lia.
  - rewrite E. split; [auto|]. intros HX. exfalso. apply HX, HS. auto.
Qed.
End Slices.
