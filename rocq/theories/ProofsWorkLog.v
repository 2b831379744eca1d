(** The records of [ModelWork.v] leave nothing out: what is not in them cannot change the outcome. *)
From Verif Require Import Spec SpecAnalysis SpecWork ModelUtils ModelAnalyzers ModelWork ProofsBase ProofsAnalyzer ProofsWork.
From Verif Require Import Prelude.
From Coq Require Import ZArith ZifyNat ZifyN ZifyBool.

Lemma lbind_intro {A B E} (x : res (A * list E)) (f : A -> res (B * list E)) a l1 b l2 : x = Ok (a, l1) -> f a = Ok (b, l2) ->
  lbind x f = Ok (b, l1 ++ l2).
Proof. intros -> H. unfold lbind. cbn. rewrite H. reflexivity. Qed.

(** * Slices *)
Section Slices.
Context {T : Type} (eqT eqT' : T -> T -> bool) (hash hash' : list T -> N).
Notation same log := (same_where_asked log eqT eqT' hash hash').

Lemma same_app a b : same (a ++ b) -> same a /\ same b.
Proof. intros [C H]. repeat split; intros; first [apply C|apply H]; apply in_or_app; auto. Qed.
Lemma same_compared a b log : same (Compared a b :: log) -> eqT' a b = eqT a b /\ same log.
Proof. intros [C H]. split; [apply C; left; reflexivity|]. split; intros; first [apply C|apply H]; right; assumption. Qed.
Lemma same_hashed s log : same (Hashed s :: log) -> hash' s = hash s /\ same log.
Proof. intros [C H]. split; [apply H; left; reflexivity|]. split; intros; first [apply C|apply H]; right; assumption. Qed.

Lemma prefix_same s k0 : forall todo i o log, prefix_loop_log eqT todo i s k0 = Ok (o, log) -> same log ->
  prefix_loop_log eqT' todo i s k0 = Ok (o, log).
Proof.
  induction todo as [|todo IH]; intros i o log H S; cbn [prefix_loop_log] in *; [exact H|].
  split_log H. apply same_app in S. destruct S as [_ S]. eapply lbind_intro; [exact E|]. done_log E.
  split_log E0. apply same_app in S. destruct S as [_ S]. eapply lbind_intro; [exact E|]. done_log E.
  split_log E2. noted E. cbn [app] in S. apply same_compared in S. destruct S as [C S]. eapply lbind_intro; [reflexivity|]. rewrite C.
  destruct (eqT a a0); cbn [negb] in *; [apply IH; assumption|exact E3].
Qed.
Lemma suffix_same s k0 : forall todo i o log, suffix_loop_log eqT todo i s k0 = Ok (o, log) -> same log ->
  suffix_loop_log eqT' todo i s k0 = Ok (o, log).
Proof.
  induction todo as [|todo IH]; intros i o log H S; cbn [suffix_loop_log] in *; [exact H|].
  split_log H. apply same_app in S. destruct S as [_ S]. eapply lbind_intro; [exact E|]. done_log E.
  split_log E0. apply same_app in S. destruct S as [_ S]. eapply lbind_intro; [exact E|]. done_log E.
  split_log E2. noted E. cbn [app] in S. apply same_compared in S. destruct S as [C S]. eapply lbind_intro; [reflexivity|]. rewrite C.
  destruct (eqT a a0); cbn [negb] in *; [apply IH; assumption|exact E3].
Qed.
Lemma measure_same k0 : forall keys mn mx pl sl r log, measure_loop_log eqT k0 keys mn mx pl sl = Ok (r, log) -> same log ->
  measure_loop_log eqT' k0 keys mn mx pl sl = Ok (r, log).
Proof.
  induction keys as [|s r IH]; intros mn mx pl sl o log H S; cbn [measure_loop_log] in *; [exact H|]. cbv zeta in *.
  split_log H. apply same_app in S. destruct S as [S1 S]. eapply lbind_intro; [apply prefix_same; eassumption|].
  split_log E0. apply same_app in S. destruct S as [S2 S]. eapply lbind_intro; [apply suffix_same; eassumption|]. apply IH; assumption.
Qed.
Lemma unique_same i l left : forall keys set d b log, is_sufficiently_unique_log hash keys i l left set d = Ok (b, log) -> same log ->
  is_sufficiently_unique_log hash' keys i l left set d = Ok (b, log).
Proof.
  induction keys as [|s r IH]; intros set d b log H S; cbn [is_sufficiently_unique_log] in *; [exact H|].
  split_log H. apply same_app in S. destruct S as [_ S]. eapply lbind_intro; [exact E|]. done_log E.
  split_log E0. noted E. cbn [app] in S. apply same_hashed in S. destruct S as [C S]. eapply lbind_intro; [reflexivity|]. cbv zeta in *. rewrite C.
  destruct (existsb _ set); [destruct d; [exact E2|]|]; apply IH; assumption.
Qed.
Lemma index_same keys left l last d : forall fuel i o log, index_loop_log hash fuel keys left i l last d = Ok (o, log) -> same log ->
  index_loop_log hash' fuel keys left i l last d = Ok (o, log).
Proof.
  induction fuel as [|fuel IH]; intros i o log H S; cbn [index_loop_log] in *; [exact H|]. destruct (i <=? last); [|exact H].
  split_log H. apply same_app in S. destruct S as [S1 S]. eapply lbind_intro; [apply unique_same; eassumption|].
  destruct a; [exact E0|apply IH; assumption].
Qed.
Lemma length_same fuel keys mn mx pl sl d : forall todo l o log, length_loop_log hash todo fuel keys mn mx pl sl l d = Ok (o, log) -> same log ->
  length_loop_log hash' todo fuel keys mn mx pl sl l d = Ok (o, log).
Proof.
  induction todo as [|todo IH]; intros l o log H S; cbn [length_loop_log] in *; [exact H|].
  split_log H. apply same_app in S. destruct S as [_ S]. eapply lbind_intro; [exact E|]. done_log E.
  split_log E0. apply same_app in S. destruct S as [S1 S]. eapply lbind_intro; [apply index_same; eassumption|]. destruct a0 as [i|]; [exact E2|].
  split_log E2. apply same_app in S. destruct S as [S2 S].
  eapply lbind_intro; [destruct (negb (mn =? mx)); [apply index_same; eassumption|exact E0]|].
  destruct a0; [exact E3|apply IH; assumption].
Qed.
Lemma slice_record keys a log : analyze_slice_keys_log eqT hash keys = Ok (a, log) -> same log ->
  analyze_slice_keys_log eqT' hash' keys = Ok (a, log).
Proof.
  unfold analyze_slice_keys_log. destruct (analyze_lengths keys); auto. unfold analyze_subslices_log. cbv zeta. intros H S.
  split_log H. apply same_app in S. destruct S as [S1 S]. eapply lbind_intro; [apply measure_same; eassumption|].
  destruct a0 as [[[mn mx] pl] sl]. apply length_same; assumption.
Qed.
End Slices.

(** * Hash codes *)
Lemma find_seq f n j : (j <= n)%nat -> f j = true -> (forall k, (k < j)%nat -> f k = false) -> find f (seq 0 (S n)) = Some j.
Proof.
  intros H T F. assert (G : forall len k, (k <= j)%nat -> (j < k + len)%nat -> find f (seq k len) = Some j).
  { induction len as [|len IH]; intros k H1 H2; [lia|]. cbn [seq find]. destruct (Nat.eq_dec k j) as [->|Hk]; [rewrite T; reflexivity|].
    rewrite F by lia. apply IH; lia. }
  apply G; lia.
Qed.
Lemma find_none {A} (f : A -> bool) l : (forall x, In x l -> f x = false) -> find f l = None.
Proof. induction l as [|x l IH]; intros H; cbn; [reflexivity|]. rewrite (H x (or_introl eq_refl)). apply IH. intros; apply H; right; assumption. Qed.

(** The counting loop looks at codes until there are too many collisions. *)
Lemma count_looks m best : 0 < m -> forall codes b seen n o log, count_collisions_log codes m best b n = Ok (o, log) ->
  m <= bv_len b -> bv_ok b -> (forall j, j < m -> bv_mem b j = existsb (N.eqb j) seen) -> n < best ->
  let d k := n + fst (scan_dups seen (map (fun c => c mod m) (firstn k codes))) in
  bv_ok (snd o) /\ bv_len (snd o) = bv_len b /\ exists looked rest, codes = looked ++ rest /\ log = map LookAt looked /\ fst o = d (length looked) /\
    (forall k, (k < length looked)%nat -> d k < best) /\ (best <= fst o \/ rest = []).
Proof.
  intros Hm. induction codes as [|c r IH]; intros b seen n o log H Hb Hok Hmem Hn d; cbn [count_collisions_log] in H.
  - done_log H. injection E as <-. cbn [fst snd]. split; [exact Hok|]. split; [reflexivity|]. exists [], []. repeat split; auto; subst d; cbn; intros; lia.
  - split_log H. noted E. destruct (N.eqb_spec m 0); [lia|]. cbv zeta in E0. split_log E0. done_log E.
    assert (Hc : c mod m < m) by (apply N.mod_lt; lia). rename E0 into E2. rewrite bv_get_spec in E2 by (auto; lia). rewrite Hmem in E2 by assumption. injection E2 as E2.
    assert (D0 : d 0%nat = n) by (subst d; cbn; lia). cbn [app]. destruct a0.
    + assert (DS : forall k, d (S k) = n + 1 + fst (scan_dups seen (map (fun c => c mod m) (firstn k r)))).
      { intros k. subst d. cbn [firstn map scan_dups]. rewrite E2. destruct (scan_dups seen _). cbn [fst]. lia. }
      destruct (N.leb_spec best (n + 1)).
      * done_log E1. injection E as <-. cbn [fst snd]. split; [exact Hok|]. split; [reflexivity|]. exists [c], r. cbn [length app map]. repeat split; auto.
        -- rewrite DS. cbn. lia.
        -- intros k Hk. replace k with 0%nat by lia. lia.
      * destruct (IH _ _ _ _ _ E1 Hb Hok Hmem H) as [A1 [A2 [lk [rest [-> [-> [B1 [B2 B3]]]]]]]]. split; [exact A1|]. split; [exact A2|].
        exists (c :: lk), rest. cbn [length app map]. repeat split; auto; [rewrite DS; exact B1|]. intros [|k] Hk; [lia|]. rewrite DS. apply B2. lia.
    + split_log E1. done_log E. destruct (bv_set_spec b (c mod m) Hok) as [b1 [S1 [S2 [S3 S4]]]]; [lia|]. rewrite S1 in E1. injection E1 as <-.
      assert (DS : forall k, d (S k) = n + fst (scan_dups (c mod m :: seen) (map (fun c => c mod m) (firstn k r)))).
      { intros k. subst d. cbn [firstn map scan_dups]. rewrite E2. lia. }
      assert (M1 : forall j, j < m -> bv_mem b1 j = existsb (N.eqb j) (c mod m :: seen)).
      { intros j Hj. rewrite S4. cbn [existsb]. rewrite Hmem by assumption. reflexivity. }
      rewrite <- S3 in Hb. destruct (IH _ _ _ _ _ E0 Hb S2 M1 Hn) as [A1 [A2 [lk [rest [-> [-> [B1 [B2 B3]]]]]]]].
      split; [exact A1|]. split; [congruence|].
      exists (c :: lk), rest. cbn [length app map]. repeat split; auto; [rewrite DS; exact B1|]. intros [|k] Hk; [lia|]. rewrite DS. apply B2. lia.
Qed.

(** One table size, on a cleared table. *)
Lemma count_until codes m best b o log : 0 < m -> m <= bv_len b -> bv_ok b -> 0 < best ->
  count_collisions_log codes m best (bv_clear_all b) 0 = Ok (o, log) ->
  bv_ok (snd o) /\ bv_len (snd o) = bv_len b /\ log = map LookAt (until codes best m) /\
  (collisions codes m < best -> until codes best m = codes /\ fst o = collisions codes m).
Proof.
  intros Hm Hb Hok H0 H. apply (count_looks m best Hm codes _ [] 0 o log) in H; auto using bv_clear_ok; [|intros j _; apply bv_clear_mem].
  cbv zeta in H. destruct H as [A1 [A2 [lk [rest [E [-> [B1 [B2 B3]]]]]]]]. split; [exact A1|]. split; [exact A2|].
  assert (D : forall k, 0 + fst (scan_dups [] (map (fun c => c mod m) (firstn k codes))) = collisions (firstn k codes) m)
    by (intros k; rewrite scan_dups_collisions; lia).
  rewrite D in B1. assert (FL : firstn (length lk) codes = lk) by (rewrite E, firstn_app, firstn_all, Nat.sub_diag; cbn; apply app_nil_r).
  assert (U : until codes best m = lk).
  { unfold until. destruct (N.leb_spec best (fst o)) as [Hr|Hr].
    - rewrite (find_seq _ (length codes) (length lk)); [exact FL| | |].
      + rewrite E, app_length. lia.
      + apply N.leb_le. rewrite <- B1. exact Hr.
      + intros k Hk. apply N.leb_gt. rewrite <- D. apply B2, Hk.
    - destruct B3 as [B3|B3]; [lia|]. subst rest. rewrite app_nil_r in E. subst lk. rewrite find_none; [reflexivity|]. intros k Hk. apply in_seq in Hk.
      apply N.leb_gt. destruct (Nat.eq_dec k (length codes)) as [->|Hne]; [rewrite <- B1; exact Hr|]. rewrite <- D. apply B2. lia. }
  rewrite U. split; [reflexivity|]. intros HC. destruct B3 as [B3|B3].
  - exfalso. rewrite FL in B1. rewrite B1 in B3. rewrite E in HC.
    assert (P : collisions lk m <= collisions (lk ++ rest) m); [|lia].
    rewrite <- !scan_dups_collisions, map_app. generalize (map (fun c => c mod m) lk) (map (fun c => c mod m) rest) (@nil N).
    intros x y. induction x as [|z x IH]; intros seen; cbn [app scan_dups fst]; [lia|].
    destruct (existsb (N.eqb z) seen); [|apply IH]. specialize (IH seen). destruct (scan_dups seen x), (scan_dups seen (x ++ y)). cbn [fst] in *. lia.
  - subst rest. rewrite app_nil_r in E. subst lk. rewrite firstn_all in B1. auto.
Qed.

Lemma later_sizes codes most hk : 0 < most -> forall fuel k acc b bs o log, bs <> 0 -> bv_ok b -> bv_len b = 2 ^ hk ->
  analyze_loop_log fuel codes (2 ^ hk) (2 ^ k) acc b bs most = Ok (o, log) ->
  exists tries, log = flat_map (fun m => block m (until codes most m)) tries /\
    (forall i m, nth_error tries i = Some m -> m = 2 ^ k * 2 ^ N.of_nat i) /\ (fst o = bs \/ In (fst o) tries).
Proof.
  intros H0. induction fuel as [|fuel IH]; intros k acc b bs o log Hbs Hok Hlen H; cbn [analyze_loop_log] in H; [discriminate|].
  destruct (N.leb_spec (2 ^ k) (2 ^ hk)) as [Hk|Hk].
  2: { done_log H. injection E as <-. exists []. split; [reflexivity|]. split; [intros [|i] m Hi; discriminate|]. auto. }
  pose proof (pow2_nz k) as Hnz. split_log H. noted E. cbv zeta in E0. split_log E0. apply count_until in E; auto; try lia. destruct E as [A1 [A2 [-> _]]].
  destruct a0 as [nc ut]. cbn [fst snd] in *. assert (Hz : bs =? 0 = false) by (apply N.eqb_neq; exact Hbs). rewrite Hz in E1. cbn [orb] in E1.
  destruct ((nc <? most) && (nc <=? acc)) eqn:ET.
  - done_log E1. injection E as <-. exists [2 ^ k]. cbn [flat_map block app fst]. rewrite !app_nil_r. split; [reflexivity|].
    split; [|right; left; reflexivity]. intros [|[|i]] m Hi; cbn in Hi; try discriminate. injection Hi as <-. rewrite N.mul_1_r. reflexivity.
  - rewrite npt_succ_pow2 in E1. apply IH in E1; [|auto|auto|congruence]. destruct E1 as [tries [-> [T1 T2]]]. exists (2 ^ k :: tries).
    cbn [flat_map block app]. split; [reflexivity|]. split; [|destruct T2; [left|right; right]; assumption].
    intros [|i] m Hi; cbn in Hi; [injection Hi as <-; rewrite N.mul_1_r; reflexivity|]. apply T1 in Hi. rewrite Hi, <- !N.pow_add_r. f_equal. lia.
Qed.

Lemma hash_record codes r log : codes <> [] -> analyze_hash_codes_log codes = Ok (r, log) -> exists j tries,
  let m := 2 ^ j in
  log = block m codes ++ flat_map (fun m' => block m' (until codes (collisions codes m) m')) tries /\
  (forall i m', nth_error tries i = Some m' -> m' = m * 2 ^ N.of_nat (S i)) /\ In (fst r) (m :: tries).
Proof.
  intros Hne. unfold analyze_hash_codes_log. cbv zeta. set (len := N.of_nat (length codes)).
  assert (Hlen : 0 < len) by (unfold len; destruct codes; [congruence|cbn [length]; lia]).
  rewrite analysis_max_size_eq, analysis_min_size_eq. set (w := max_factor len * len). set (v := len - initial_acceptable len).
  assert (HV : v <= w). { unfold w, v, max_factor. destruct (len <? 128); [lia|]. destruct (len <? 1000); lia. }
  pose proof (npt_mono v w HV) as HP. unfold next_power_of_two in *. set (j := N.log2_up v) in *. set (hk := N.log2_up w) in *.
  generalize (S (N.to_nat (N.log2 (2 ^ hk)))) as fuel. intros fuel H. exists j. cbn [analyze_loop_log] in H. destruct (N.leb_spec (2 ^ j) (2 ^ hk)); [|lia]. pose proof (pow2_nz j) as Hnz.
  split_log H. noted E. cbv zeta in E0. split_log E0. pose proof (bv_with_capacity_ok (2 ^ hk)) as HB.
  apply count_until in E; auto; try (cbn; lia). destruct E as [A1 [A2 [-> A3]]]. pose proof (collisions_lt codes (2 ^ j) Hne) as HC.
  destruct (A3 HC) as [U F]. rewrite U. destruct a0 as [nc ut]. cbn [fst snd] in *. subst nc. change (bv_len (bv_with_capacity (2 ^ hk))) with (2 ^ hk) in A2.
  destruct (N.ltb_spec (collisions codes (2 ^ j)) len); [|unfold len in *; lia]. cbn [N.eqb orb andb] in E1.
  destruct (N.leb_spec (collisions codes (2 ^ j)) (initial_acceptable len)) as [HA|HA].
  - done_log E1. injection E as <-. exists []. cbv zeta. cbn [flat_map block app fst]. rewrite !app_nil_r. split; [reflexivity|].
    split; [intros [|i] m Hi; discriminate|]. left. reflexivity.
  - rewrite npt_succ_pow2 in E1. apply later_sizes in E1; auto; try lia. destruct E1 as [tries [-> [T1 T2]]]. exists tries. cbv zeta.
    cbn [block app]. split; [reflexivity|]. split; [|destruct T2; [left; congruence|right; assumption]].
    intros i m Hi. apply T1 in Hi. rewrite Hi, <- !N.pow_add_r. f_equal. lia.
Qed.

Lemma plain_of_log {A E} (x : res (A * list E)) (y : res A) a l : fmap fst x = y -> x = Ok (a, l) -> y = Ok a.
Proof. intros <- ->. reflexivity. Qed.
