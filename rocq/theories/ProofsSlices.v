(** String key analysis (analyzers/slice_key_analyzer.rs). *)
From Verif Require Import Prelude Spec ModelUtils ModelAnalyzers SpecAnalysis ProofsBase ProofsAnalyzer.
From Coq Require Import ZArith ZifyNat ZifyN ZifyBool.

Section Slices.
Context {T : Type} (eqT : T -> T -> bool) (hash_one : list T -> N).
Hypothesis eqT_refl : forall x, eqT x x = true.

Lemma prefix_loop_spec (s k0 : list T) : forall todo i,
  (i + todo <= length s)%nat -> (i + todo <= length k0)%nat ->
  exists o, prefix_loop eqT todo i s k0 = Ok o /\ match o with Some p => (p < i + todo)%nat | None => True end.
Proof.
  induction todo as [|todo IH]; intros i H1 H2; cbn [prefix_loop].
  - exists None. auto.
  - destruct (index_Ok s i) as [a [_ Ha]]; [lia|]. destruct (index_Ok k0 i) as [b [_ Hb]]; [lia|].
    rewrite Ha, Hb. cbn [bind]. destruct (eqT a b); cbn [negb].
    + destruct (IH (S i)) as [o [E Ho]]; [lia|lia|]. exists o. split; auto. destruct o; auto. lia.
    + exists (Some i). split; auto. lia.
Qed.

Lemma prefix_loop_same (s : list T) : forall todo i, (i + todo <= length s)%nat -> prefix_loop eqT todo i s s = Ok None.
Proof.
  induction todo as [|todo IH]; intros i H1; cbn [prefix_loop]; auto.
  destruct (index_Ok s i) as [a [_ Ha]]; [lia|]. rewrite Ha. cbn [bind]. rewrite eqT_refl. cbn [negb]. apply IH. lia.
Qed.

Lemma suffix_loop_spec (s k0 : list T) : forall todo i,
  (i + todo <= length s)%nat -> (i + todo <= length k0)%nat ->
  exists o, suffix_loop eqT todo i s k0 = Ok o /\ match o with Some p => (p < i + todo)%nat | None => True end.
Proof.
  induction todo as [|todo IH]; intros i H1 H2; cbn [suffix_loop].
  - exists None. auto.
  - destruct (Nat.ltb_spec i (length s)); [|lia]. destruct (Nat.ltb_spec i (length k0)); [|lia].
    destruct (index_Ok s (length s - i - 1)) as [a [_ Ha]]; [lia|].
    destruct (index_Ok k0 (length k0 - i - 1)) as [b [_ Hb]]; [lia|].
    rewrite Ha, Hb. cbn [bind]. destruct (eqT a b); cbn [negb].
    + destruct (IH (S i)) as [o [E Ho]]; [lia|lia|]. exists o. split; auto. destruct o; auto. lia.
    + exists (Some i). split; auto. lia.
Qed.

Lemma suffix_loop_same (s : list T) : forall todo i, (i + todo <= length s)%nat -> suffix_loop eqT todo i s s = Ok None.
Proof.
  induction todo as [|todo IH]; intros i H1; cbn [suffix_loop]; auto.
  destruct (Nat.ltb_spec i (length s)); [|lia].
  destruct (index_Ok s (length s - i - 1)) as [a [_ Ha]]; [lia|]. rewrite Ha. cbn [bind]. rewrite eqT_refl. cbn [negb].
  apply IH. lia.
Qed.

Lemma measure_loop_spec k0 : forall keys mn mx pl sl,
  pl <= mn -> sl <= mn -> mn <= N.of_nat (length k0) ->
  exists mn' mx' pl' sl', measure_loop eqT k0 keys mn mx pl sl = Ok (mn', mx', pl', sl') /\
    mn' <= mn /\ mx <= mx' /\ pl' <= mn' /\ sl' <= mn' /\
    (forall s, In s keys -> mn' <= N.of_nat (length s) <= mx') /\
    (mn' = mn \/ exists s, In s keys /\ N.of_nat (length s) = mn') /\
    (mx' = mx \/ exists s, In s keys /\ N.of_nat (length s) = mx').
Proof.
  induction keys as [|s r IH]; intros mn mx pl sl Hpl Hsl Hmn; cbn [measure_loop].
  - exists mn, mx, pl, sl. repeat split; auto; try lia; destruct H.
  - set (len := N.of_nat (length s)).
    set (pl1 := if len <? pl then len else pl). set (sl1 := if len <? sl then len else sl).
    assert (Hpl1 : pl1 <= N.min mn len) by (unfold pl1; destruct (N.ltb_spec len pl); lia).
    assert (Hsl1 : sl1 <= N.min mn len) by (unfold sl1; destruct (N.ltb_spec len sl); lia).
    destruct (prefix_loop_spec s k0 (N.to_nat pl1) 0) as [o1 [E1 H1]]; [unfold len in *; lia|lia|].
    destruct (suffix_loop_spec s k0 (N.to_nat sl1) 0) as [o2 [E2 H2]]; [unfold len in *; lia|lia|].
    rewrite E1, E2. cbn [bind].
    destruct (IH (N.min mn len) (N.max mx len) (or_else o1 pl1) (or_else o2 sl1)) as
      [mn' [mx' [pl' [sl' [E [A1 [A2 [A3 [A4 [A5 [A6 A7]]]]]]]]]]].
    + destruct o1; cbn [or_else]; lia.
    + destruct o2; cbn [or_else]; lia.
    + lia.
    + exists mn', mx', pl', sl'. split; [exact E|]. repeat split; auto; try lia.
      * destruct H as [<-|H]; [fold len; lia|]. apply A5 in H. lia.
      * destruct H as [<-|H]; [fold len; lia|]. apply A5 in H. lia.
      * destruct A6 as [->|[z [Hz1 Hz2]]]; [|right; exists z; split; [right|]; auto].
        destruct (N.le_gt_cases mn len); [left; lia|right; exists s; split; [left; auto|fold len; lia]].
      * destruct A7 as [->|[z [Hz1 Hz2]]]; [|right; exists z; split; [right|]; auto].
        destruct (N.le_gt_cases len mx); [left; lia|right; exists s; split; [left; auto|fold len; lia]].
Qed.

Lemma measure_all k0 r : (N.of_nat (length k0) <= usize_max) ->
  exists mn mx pl sl, measure_loop eqT k0 (k0 :: r) usize_max 0 usize_max usize_max = Ok (mn, mx, pl, sl) /\
    pl <= mn /\ sl <= mn /\
    (forall s, In s (k0 :: r) -> mn <= N.of_nat (length s) <= mx) /\
    (exists s, In s (k0 :: r) /\ N.of_nat (length s) = mn) /\
    (exists s, In s (k0 :: r) /\ N.of_nat (length s) = mx).
Proof.
  intros Hk0. cbn [measure_loop]. set (len := N.of_nat (length k0)).
  set (p := if len <? usize_max then len else usize_max).
  assert (Ep : p = len) by (unfold p; destruct (N.ltb_spec len usize_max); unfold len in *; lia).
  rewrite !Ep. rewrite prefix_loop_same by (unfold len; lia). rewrite suffix_loop_same by (unfold len; lia).
  cbn [bind or_else]. replace (N.min usize_max len) with len by (unfold len; lia).
  replace (N.max 0 len) with len by lia.
  destruct (measure_loop_spec k0 r len len len len) as [mn' [mx' [pl' [sl' [E [A1 [A2 [A3 [A4 [A5 [A6 A7]]]]]]]]]]];
    try (unfold len; lia).
  exists mn', mx', pl', sl'. split; [exact E|]. split; auto. split; auto. split.
  { intros s [<-|Hs]; [fold len; lia|]. apply A5 in Hs. lia. }
  split.
  - destruct A6 as [->|[z [Hz1 Hz2]]]; [exists k0; split; [left|]; auto|exists z; split; [right|]; auto].
  - destruct A7 as [->|[z [Hz1 Hz2]]]; [exists k0; split; [left|]; auto|exists z; split; [right|]; auto].
Qed.

(** subslices *)

Lemma subslice_spec left (s : list T) i l : i + l <= N.of_nat (length s) -> subslice left s i l = Ok (part left i (i + l) s).
Proof.
  intros H. unfold subslice, part, left_part, right_part. destruct left.
  - unfold slice. destruct (Nat.leb_spec (N.to_nat i) (N.to_nat (i + l))); [|lia].
    destruct (Nat.leb_spec (N.to_nat (i + l)) (length s)); [|lia]. cbn [andb]. do 2 f_equal. lia.
  - unfold sub_no_underflow. destruct (N.leb_spec i (N.of_nat (length s))); [|lia]. cbn [bind].
    destruct (N.leb_spec l (N.of_nat (length s) - i)); [|lia]. cbn [bind]. unfold slice.
    match goal with |- (if (Nat.leb ?a ?b && Nat.leb ?b ?c) then _ else _) = _ =>
      destruct (Nat.leb_spec a b); [|lia]; destruct (Nat.leb_spec b c); [|lia] end.
    cbn [andb]. do 2 f_equal; [lia|]. f_equal. lia.
Qed.

Lemma is_sufficiently_unique_spec left i l : forall keys set d,
  (forall s, In s keys -> i + l <= N.of_nat (length s)) ->
  exists b, is_sufficiently_unique hash_one keys i l left set d = Ok b /\
    (b = true <-> fst (scan_dups set (map (fun s => hash_one (part left i (i + l) s)) keys)) <= N.of_nat d).
Proof.
  induction keys as [|s r IH]; intros set d H; cbn [is_sufficiently_unique map scan_dups].
  - exists true. split; auto. cbn. split; auto. lia.
  - rewrite subslice_spec by (apply H; left; auto). cbn [bind].
    assert (H' : forall s, In s r -> i + l <= N.of_nat (length s)) by (intros; apply H; right; auto).
    destruct (existsb (N.eqb (hash_one (part left i (i + l) s))) set) eqn:E.
    + destruct d as [|d].
      * exists false. split; auto. destruct (scan_dups set _). cbn [fst]. split; [discriminate|lia].
      * destruct (IH set d H') as [b [E1 E2]]. exists b. split; auto. rewrite E2.
        destruct (scan_dups set _). cbn [fst]. lia.
    + apply IH. auto.
Qed.

Lemma index_loop_spec left l last d keys : forall fuel i,
  (forall s, In s keys -> last + l <= N.of_nat (length s)) ->
  last + 2 <= N.of_nat fuel + i -> (0 < fuel)%nat ->
  exists o, index_loop hash_one fuel keys left i l last d = Ok o /\
    match o with
    | Some x => i <= x <= last /\ repeats (map (fun s => hash_one (part left x (x + l) s)) keys) <= N.of_nat d
    | None => True
    end.
Proof.
  induction fuel as [|fuel IH]; intros i H Hf Hf0; cbn [index_loop]; [lia|].
  destruct (N.leb_spec i last) as [Hi|Hi].
  - destruct (is_sufficiently_unique_spec left i l keys [] d) as [b [E1 E2]].
    { intros s Hs. specialize (H s Hs). lia. }
    rewrite E1. cbn [bind]. destruct b.
    + exists (Some i). split; auto. split; [lia|]. rewrite <- scan_dups_repeats. apply E2. reflexivity.
    + destruct (IH (i + 1) H) as [o [E Ho]]; [lia|lia|]. exists o. split; auto. destruct o; auto. destruct Ho; split; auto; lia.
  - exists None. auto.
Qed.

Lemma length_loop_spec keys mn mx pl sl fuel : forall todo l,
  (forall s, In s keys -> mn <= N.of_nat (length s) <= mx) ->
  (exists s, In s keys /\ N.of_nat (length s) = mx) ->
  mn + 2 <= N.of_nat fuel -> 0 < l -> l + N.of_nat todo <= mn + 1 -> l + N.of_nat todo <= 17 ->
  exists a, length_loop hash_one todo fuel keys mn mx pl sl l (Nat.div (length keys) 20) = Ok a /\ analysis_ok hash_one keys a.
Proof.
  induction todo as [|todo IH]; intros l Hb Hmx Hfuel Hl Hm H16; cbn [length_loop].
  - exists SliceGeneral. cbn. auto.
  - unfold sub_no_underflow. destruct (N.leb_spec l mn); [|lia]. cbn [bind].
    assert (Hin : forall s, In s keys -> mn - l + l <= N.of_nat (length s)) by (intros s Hs; specialize (Hb s Hs); lia).
    assert (Hacc : N.of_nat (Nat.div (length keys) 20) = N.of_nat (length keys) / 20) by (rewrite Nat2N.inj_div; reflexivity).
    destruct (index_loop_spec true l (mn - l) (Nat.div (length keys) 20) keys fuel pl Hin) as [o [E Ho]]; [lia|lia|].
    rewrite E. cbn [bind]. destruct o as [x|].
    + eexists. split; [reflexivity|]. destruct (N.eqb_spec l mx) as [Hx|Hx]; [exact I|].
      destruct Ho as [Ho1 Ho2]. rewrite Hacc in Ho2. destruct Hmx as [z [Hz1 Hz2]]. pose proof (Hb z Hz1).
      repeat split; try lia; auto.
      * intros s Hs. specialize (Hb s Hs). lia.
      * exists z. split; auto. lia.
    + destruct (N.eqb_spec mn mx) as [Hmm|Hmm]; cbn [negb bind].
      * apply IH; auto; lia.
      * destruct (index_loop_spec false l (mn - l) (Nat.div (length keys) 20) keys fuel sl Hin) as [o [E' Ho']]; [lia|lia|].
        rewrite E'. cbn [bind]. destruct o as [x|]; [|apply IH; auto; lia].
        eexists. split; [reflexivity|]. destruct Ho' as [Ho1 Ho2]. rewrite Hacc in Ho2. destruct Hmx as [z [Hz1 Hz2]]. pose proof (Hb z Hz1).
        repeat split; try lia; auto.
        -- intros s Hs. specialize (Hb s Hs). lia.
        -- exists z. split; auto. lia.
Qed.

Lemma analyze_subslices_spec keys : keys <> [] -> (forall s, In s keys -> N.of_nat (length s) <= usize_max) ->
  exists a, analyze_subslices eqT hash_one keys = Ok a /\ analysis_ok hash_one keys a.
Proof.
  intros Hne Hb. destruct keys as [|k0 r] eqn:E; [congruence|]. unfold analyze_subslices. cbn [hd].
  destruct (measure_all k0 r) as [mn [mx [pl [sl [EM [A1 [A2 [A3 [A4 A5]]]]]]]]]; [apply Hb; left; auto|].
  rewrite EM. cbn [bind]. apply length_loop_spec; auto; try lia.
  specialize (A3 k0 (or_introl eq_refl)). lia.
Qed.

(** lengths *)
Definition count_len (n : nat) (keys : list (list T)) : nat := length (filter (fun s => Nat.eqb (length s) n) keys).

Lemma analyze_lengths_loop_spec mi : forall keys pre lengths,
  (forall n, lengths n = match count_len n pre with O => None | c => Some c end) ->
  (forall n, (count_len n pre <= Nat.max 1 mi)%nat) ->
  (analyze_lengths_loop keys mi lengths = SliceGeneral /\ exists n, (Nat.max 1 mi < count_len n (pre ++ keys))%nat) \/
  (analyze_lengths_loop keys mi lengths = SliceLength /\ forall n, (count_len n (pre ++ keys) <= Nat.max 1 mi)%nat).
Proof.
  induction keys as [|s r IH]; intros pre lengths HL HC; cbn [analyze_lengths_loop].
  - right. rewrite app_nil_r. auto.
  - assert (HS : forall n, count_len n (pre ++ [s]) = (count_len n pre + (if Nat.eqb (length s) n then 1 else 0))%nat).
    { intros n. unfold count_len. rewrite filter_app, app_length. cbn [filter]. destruct (Nat.eqb (length s) n); cbn; lia. }
    replace (pre ++ s :: r) with ((pre ++ [s]) ++ r) by (rewrite <- app_assoc; reflexivity).
    rewrite HL. destruct (count_len (length s) pre) as [|c] eqn:EC.
    + apply IH; intros n; rewrite HS; unfold nm_insert; try rewrite (Nat.eqb_sym n).
      * destruct (Nat.eqb_spec (length s) n) as [<-|Hn]; [rewrite EC; reflexivity|]. rewrite Nat.add_0_r. apply HL.
      * specialize (HC n). destruct (Nat.eqb_spec (length s) n) as [<-|Hn]; lia.
    + destruct (Nat.leb_spec mi (S c)) as [Hm|Hm].
      { left. split; [reflexivity|]. exists (length s). specialize (HS (length s)). rewrite Nat.eqb_refl in HS.
        unfold count_len in *. rewrite filter_app, app_length. lia. }
      apply IH; intros n; rewrite HS; unfold nm_insert; try rewrite (Nat.eqb_sym n).
      * destruct (Nat.eqb_spec (length s) n) as [<-|Hn].
        -- rewrite EC. replace (S c + 1)%nat with (S (S c)) by lia. reflexivity.
        -- rewrite Nat.add_0_r. apply HL.
      * specialize (HC n). destruct (Nat.eqb_spec (length s) n) as [<-|Hn]; lia.
Qed.

Theorem analyze_slice_keys_spec keys : (forall s, In s keys -> N.of_nat (length s) <= usize_max) ->
  exists a, analyze_slice_keys eqT hash_one keys = Ok a /\ analysis_ok hash_one keys a.
Proof.
  intros Hb. unfold analyze_slice_keys, analyze_lengths.
  destruct (analyze_lengths_loop_spec (Nat.div (length keys) 20) keys [] nm_empty) as [[E _]|[E H]].
  - intros n. reflexivity.
  - intros n. cbn. lia.
  - rewrite E. apply analyze_subslices_spec; auto. intros ->. discriminate.
  - rewrite E. exists SliceLength. split; auto. cbn [analysis_ok app] in *. unfold spread_lengths. intros n. specialize (H n).
    unfold count_len in H. change 20 with (N.of_nat 20). rewrite <- Nat2N.inj_div. lia.
Qed.
End Slices.
