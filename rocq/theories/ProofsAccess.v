(** Deserialization from accesses that may do anything. *)
From Coq Require Import String.
From Verif Require Import ModelUtils ModelAnalyzers ModelTables ModelMaps ModelSerde ModelCollect ModelAccess Spec SpecMade SpecSerde SpecAccess
  ProofsMade ProofsSerde ProofsCollect.
From Verif Require Import Prelude.

Section Reader.
Context {E S : Type}.
Variable rd : reader E S.
Notation given := (given rd).
Definition pends (s : S) (l : list E) (s' : S) : Prop := exists s1, given s l s1 /\ rd_next rd s1 = Ends s'.
Definition pfails (s : S) (l : list E) (msg : string) (s' : S) : Prop := exists s1, given s l s1 /\ rd_next rd s1 = Fails msg s'.
Definition pcrashes (s : S) (l : list E) : Prop := exists s1, given s l s1 /\ rd_next rd s1 = Crashes.
Definition plain {M} (size : N) (s : S) (run : nat -> option (res (result M * S))) (good : M -> list E -> Prop) : Prop :=
  (exists fuel, run fuel <> None) /\
  (forall fuel, run fuel <> Some UB) /\
  (forall fuel more x, run fuel = Some x -> run (fuel + more)%nat = Some x) /\
  (rd_hint rd s = None -> exists fuel, run fuel = Some Panic) /\
  (forall n s0, rd_hint rd s = Some (Some n, s0) -> isize_max < size * n -> exists fuel, run fuel = Some Panic) /\
  (forall fuel m s', run fuel = Some (Ok (ROk m, s')) -> exists hint s0 l, rd_hint rd s = Some (hint, s0) /\ pends s0 l s' /\ good m l) /\
  (forall fuel msg s', run fuel = Some (Ok (RErr msg, s')) -> exists hint s0 l, rd_hint rd s = Some (hint, s0) /\ pfails s0 l msg s') /\
  forall hint s0, rd_hint rd s = Some (hint, s0) -> (forall n, hint = Some n -> size * n <= isize_max) ->
    (forall l s', pends s0 l s' -> fit size hint l -> exists fuel m, run fuel = Some (Ok (ROk m, s')) /\ good m l) /\
    (forall l msg s', pfails s0 l msg s' -> fit size hint l -> exists fuel, run fuel = Some (Ok (RErr msg, s'))) /\
    (forall l, pcrashes s0 l -> exists fuel, run fuel = Some Panic) /\
    ((forall l s', ~ pends s0 l s') -> (forall l msg s', ~ pfails s0 l msg s') -> exists fuel, run fuel = Some Panic).
Notation len v := (N.of_nat (List.length v)).

Lemma given_fork s l s1 : given s l s1 -> forall l' s2, given s l' s2 ->
  (exists r, l' = l ++ r /\ given s1 r s2) \/ (exists r, l = l' ++ r /\ given s2 r s1).
Proof.
  intros H. induction H as [s|s x s1 l s' E1 H IH]; intros l' s2 H2.
  - left. exists l'. auto.
  - inversion H2 as [|? y s3 l2 ? E2 H3]; subst; [right; exists (x :: l); split; [reflexivity|econstructor; eauto]|].
    rewrite E1 in E2. injection E2 as <- <-. destruct (IH _ _ H3) as [[r [-> R]]|[r [-> R]]]; [left|right]; exists r; auto.
Qed.
Definition stuck (s : S) : Prop := forall x s', rd_next rd s <> Gives x s'.
Lemma given_last s l s1 l' s2 : given s l s1 -> given s l' s2 -> stuck s1 -> stuck s2 -> s1 = s2.
Proof.
  intros H1 H2 K1 K2. destruct (given_fork _ _ _ H1 _ _ H2) as [[r [_ H]]|[r [_ H]]]; inversion H as [|? ? ? ? ? E1]; subst;
    try reflexivity; [elim (K1 _ _ E1)|elim (K2 _ _ E1)].
Qed.
Lemma crashes_not_ends s l : pcrashes s l -> forall l' s', ~ pends s l' s'.
Proof.
  intros [s1 [R P]] l' s' [s2 [R' D]]. assert (s1 = s2) by (eapply given_last; eauto; intros x y; congruence). congruence.
Qed.
Lemma crashes_not_fails s l : pcrashes s l -> forall l' msg s', ~ pfails s l' msg s'.
Proof.
  intros [s1 [R P]] l' msg s' [s2 [R' D]]. assert (s1 = s2) by (eapply given_last; eauto; intros x y; congruence). congruence.
Qed.

Lemma push_room size cap n cap' : room size cap n -> push size cap n = Ok cap' -> room size cap' (n + 1).
Proof.
  intros HR. unfold push. destruct (N.eqb_spec n (capacity size cap)) as [EC|NC]; [apply reserve_room; lia|].
  intros [= <-]. unfold room in *. lia.
Qed.
Lemma push_not_ub size cap n : push size cap n <> UB.
Proof. unfold push. destruct (n =? capacity size cap); [apply reserve_not_ub|discriminate]. Qed.

Lemma read_all_ok fuel size : forall cap s v w s', room size cap (len v) -> read_all fuel size cap rd s v = Some (Ok (ROk w, s')) ->
  exists l, w = v ++ l /\ pends s l s' /\ len w <= usize_max.
Proof.
  induction fuel as [|fuel IH]; intros cap s v w s' HR H; [discriminate|]. cbn [read_all] in H.
  destruct (rd_next rd s) as [x s1|s1|msg s1|] eqn:EN; try discriminate.
  - destruct (push size cap (len v)) as [cap'| |] eqn:EP; try discriminate.
    apply (push_room _ _ _ _ HR) in EP. rewrite <- (push_len v x) in EP. destruct (IH _ _ _ _ _ EP H) as [l [-> [[s2 [G D]] HL]]].
    exists (x :: l). split; [rewrite <- app_assoc; reflexivity|]. split; [|exact HL]. exists s2. split; [econstructor; eauto|exact D].
  - injection H as <- <-. exists []. rewrite app_nil_r. split; [reflexivity|]. split; [exists s; split; [constructor|exact EN]|].
    unfold room in HR. lia.
Qed.
Lemma read_all_err fuel size : forall cap s v msg s', read_all fuel size cap rd s v = Some (Ok (RErr msg, s')) -> exists l, pfails s l msg s'.
Proof.
  induction fuel as [|fuel IH]; intros cap s v msg s' H; [discriminate|]. cbn [read_all] in H.
  destruct (rd_next rd s) as [x s1|s1|m s1|] eqn:EN; try discriminate.
  - destruct (push size cap (len v)) as [cap'| |] eqn:EP; try discriminate. destruct (IH _ _ _ _ _ H) as [l [s2 [G D]]].
    exists (x :: l), s2. split; [econstructor; eauto|exact D].
  - injection H as <- <-. exists [], s. split; [constructor|exact EN].
Qed.
Lemma read_all_not_ub fuel size : forall cap s v, read_all fuel size cap rd s v <> Some UB.
Proof.
  induction fuel as [|fuel IH]; intros cap s v; cbn [read_all]; [discriminate|]. destruct (rd_next rd s); try discriminate.
  destruct (push size cap (len v)) as [cap'| |] eqn:EP; [apply IH|discriminate|elim (push_not_ub _ _ _ EP)].
Qed.
Lemma read_all_more more size : forall fuel cap s v x, read_all fuel size cap rd s v = Some x -> read_all (fuel + more) size cap rd s v = Some x.
Proof.
  induction fuel as [|fuel IH]; intros cap s v x; [discriminate|]. cbn [read_all Nat.add]. destruct (rd_next rd s); auto.
  destruct (push size cap (len v)); auto.
Qed.
Lemma read_all_ends size (n : nat) : forall cap s v, room size cap (len v) -> usize_max < len v + N.of_nat n ->
  exists fuel, read_all fuel size cap rd s v <> None.
Proof.
  induction n as [|n IH]; intros cap s v HR HN; [unfold room in HR; lia|].
  destruct (rd_next rd s) as [x s1|s1|m s1|] eqn:EN; try (exists 1%nat; cbn [read_all]; rewrite EN; discriminate).
  destruct (push size cap (len v)) as [cap'| |] eqn:EP; try (exists 1%nat; cbn [read_all]; rewrite EN, EP; discriminate).
  apply (push_room _ _ _ _ HR) in EP as HP. rewrite <- (push_len v x) in HP. destruct (IH cap' s1 (v ++ [x]) HP) as [fuel HF]; [rewrite push_len; lia|].
  exists (Datatypes.S fuel). cbn [read_all]. rewrite EN, EP. exact HF.
Qed.

(** Items that fit are pushed. *)
Definition roomy (size cap total : N) : Prop := size * N.max 8 (2 * total) <= isize_max \/ total <= cap.
Lemma push_fits size cap n total : room size cap n -> n + 1 <= total -> roomy size cap total -> total <= usize_max ->
  exists cap', push size cap n = Ok cap' /\ roomy size cap' total.
Proof.
  intros HR HT HS HU. unfold push. destruct (N.eqb_spec n (capacity size cap)) as [EC|NC]; [|eauto].
  unfold reserve. destruct (N.ltb_spec usize_max (n + 1)) as [|_]; [lia|]. destruct (N.eqb_spec size 0) as [->|H0]; [eauto|]. cbv zeta.
  unfold capacity in EC. apply N.eqb_neq in H0. rewrite H0 in EC. destruct HS as [HS|HS]; [|lia].
  set (c := N.max (min_cap size) _). assert (HB : c <= N.max 8 (2 * total)) by (pose proof (min_cap_pos size); subst c; lia).
  unfold with_capacity. destruct (N.leb_spec (size * c) isize_max) as [_|HG]; [cbn; eexists; split; [reflexivity|left; exact HS]|].
  exfalso. pose proof (N.mul_le_mono_l _ _ size HB). lia.
Qed.
Lemma read_all_goes size s l s' : given s l s' -> forall cap v, room size cap (len v) -> roomy size cap (len v + len l) -> len v + len l <= usize_max ->
  exists cap', room size cap' (len (v ++ l)) /\ forall fuel, read_all (List.length l + fuel) size cap rd s v = read_all fuel size cap' rd s' (v ++ l).
Proof.
  intros H. induction H as [s|s x s1 l s' EN H IH]; intros cap v HR HS HU.
  - exists cap. rewrite app_nil_r. auto.
  - assert (EL : len v + len (x :: l) = len (v ++ [x]) + len l) by (rewrite push_len; cbn [List.length]; lia).
    destruct (push_fits size cap (len v) (len v + len (x :: l)) HR ltac:(cbn [List.length]; lia) HS HU) as [cap' [EP HS']].
    apply (push_room _ _ _ _ HR) in EP as HP. rewrite <- (push_len v x) in HP. rewrite EL in HS', HU.
    destruct (IH cap' (v ++ [x]) HP HS' HU) as [c [HC HE]]. rewrite <- app_assoc in HC, HE. exists c. split; [exact HC|].
    intros fuel. cbn [List.length Nat.add read_all]. rewrite EN, EP. apply HE.
Qed.

Lemma start_room size n : with_capacity size n = Ok tt -> room size n 0.
Proof.
  intros H. apply with_capacity_ok in H. unfold room, capacity. destruct (N.eqb_spec size 0) as [->|H0]; [unfold usize_max; lia|].
  split; [lia|]. exact (fits_cap _ _ H0 H).
Qed.

Section Make.
Context {M : Type}.
Variable make : list E -> res M.
Variable good : M -> list E -> Prop.

Lemma read_plain size s :
  (forall hint s0 l s', rd_hint rd s = Some (hint, s0) -> pends s0 l s' -> len l <= usize_max -> exists m, make l = Ok m /\ good m l) ->
  plain size s (fun fuel => read make fuel size rd s) good.
Proof.
  intros HM. unfold plain, read. destruct (rd_hint rd s) as [[hint s0]|] eqn:EH.
  2:{ split; [exists O; discriminate|]. split; [discriminate|]. split; [auto|]. split; [intros _; exists O; reflexivity|].
      split; [discriminate|]. split; [discriminate|]. split; [discriminate|]. discriminate. }
  cbv zeta. set (cap := match hint with Some n => n | None => 0 end).
  destruct (with_capacity size cap) as [[]| |] eqn:EW.
  3:{ destruct (with_capacity_cases size cap); congruence. }
  2:{ split; [exists O; discriminate|]. split; [discriminate|]. split; [auto|]. split; [discriminate|].
      split; [intros; exists O; reflexivity|]. split; [discriminate|]. split; [discriminate|]. intros hint' s0' [= <- <-] HH. exfalso.
      assert (HC : size * cap <= isize_max). { subst cap. destruct hint as [n|]; [auto|]. rewrite N.mul_0_r. unfold isize_max. lia. }
      unfold with_capacity in EW. apply N.leb_le in HC. rewrite HC in EW. discriminate. }
  apply start_room in EW as HR. apply with_capacity_ok in EW.
  set (finish := fun x : result (list E) * S => _).
  assert (A : forall fuel v s', read_all fuel size cap rd s0 [] = Some (Ok (ROk v, s')) ->
    pends s0 v s' /\ exists m, finish (ROk v, s') = Ok (ROk m, s') /\ good m v).
  { intros fuel v s' H. destruct (read_all_ok fuel size cap s0 [] v s' HR H) as [l [-> [D HL]]]. cbn [app] in *. split; [exact D|].
    destruct (HM hint s0 l s' eq_refl D HL) as [m [EM G]]. exists m. subst finish. cbn beta iota. rewrite EM. auto. }
  assert (B : forall r : option (res (result (list E) * S)), match r with None => None | Some r => Some (x <- r ;; finish x) end = None -> r = None).
  { intros [r|]; [discriminate|auto]. }
  assert (P : (forall l s', ~ pends s0 l s') -> (forall l msg s', ~ pfails s0 l msg s') -> exists fuel,
    match read_all fuel size cap rd s0 [] with None => None | Some r => Some (x <- r ;; finish x) end = Some Panic).
  { intros N1 N2. destruct (read_all_ends size (N.to_nat (usize_max + 1)) cap s0 [] HR) as [fuel HF]; [cbn [List.length]; lia|].
    exists fuel. destruct (read_all fuel size cap rd s0 []) as [[[[v|msg] s']| |]|] eqn:ER; try congruence; auto.
    - elim (N1 v s'). apply (A _ _ _ ER).
    - destruct (read_all_err _ _ _ _ _ _ _ ER) as [l D]. elim (N2 _ _ _ D).
    - elim (read_all_not_ub _ _ _ _ _ ER). }
  split; [|split; [|split; [|split; [|split; [|split; [|split]]]]]].
  - destruct (read_all_ends size (N.to_nat (usize_max + 1)) cap s0 [] HR) as [fuel HF]; [cbn [List.length]; lia|].
    exists fuel. intros H. apply HF. exact (B _ H).
  - intros fuel. destruct (read_all fuel size cap rd s0 []) as [[[[v|msg] s']| |]|] eqn:ER; try discriminate.
    + destruct (A _ _ _ ER) as [_ [m [EF _]]]. cbn [bind]. rewrite EF. discriminate.
    + elim (read_all_not_ub _ _ _ _ _ ER).
  - intros fuel more x. destruct (read_all fuel size cap rd s0 []) as [y|] eqn:ER; [|discriminate]. rewrite (read_all_more more _ _ _ _ _ _ ER). auto.
  - discriminate.
  - intros n s1 [= -> <-] HN. subst cap. cbn in EW. lia.
  - intros fuel m s'. destruct (read_all fuel size cap rd s0 []) as [[[[v|msg] s1]| |]|] eqn:ER; try discriminate.
    destruct (A _ _ _ ER) as [D [m' [EF G]]]. cbn [bind]. rewrite EF. intros [= -> ->]. exists hint, s0, v. auto.
  - intros fuel msg s'. destruct (read_all fuel size cap rd s0 []) as [[[[v|m1] s1]| |]|] eqn:ER; try discriminate.
    + destruct (A _ _ _ ER) as [D [m' [EF G]]]. cbn [bind]. rewrite EF. discriminate.
    + intros [= -> ->]. destruct (read_all_err _ _ _ _ _ _ _ ER) as [l D]. exists hint, s0, l. auto.
  - intros hint' s0' [= <- <-] _.
    assert (FR : forall l : list E, fit size hint l -> roomy size cap (len (@nil E) + len l) /\ len (@nil E) + len l <= usize_max).
    { intros l [HU [HS|[n [-> HS]]]]; (split; [|exact HU]); [left; exact HS|right; exact HS]. }
    split; [|split; [|split]].
    + intros l s' [s1 [G D]] HF. destruct (FR _ HF) as [HS HU]. destruct (read_all_goes size s0 l s1 G cap [] HR HS HU) as [c [HC HE]]. cbn [app] in HE.
      assert (ER : read_all (List.length l + 1) size cap rd s0 [] = Some (Ok (ROk l, s'))) by (rewrite HE; cbn [read_all]; rewrite D; reflexivity).
      destruct (A _ _ _ ER) as [_ [m [EF HG]]]. exists (List.length l + 1)%nat, m. rewrite ER. cbn [bind]. rewrite EF. auto.
    + intros l msg s' [s1 [G D]] HF. destruct (FR _ HF) as [HS HU]. destruct (read_all_goes size s0 l s1 G cap [] HR HS HU) as [c [HC HE]]. cbn [app] in HE.
      exists (List.length l + 1)%nat. rewrite HE. cbn [read_all]. rewrite D. reflexivity.
    + intros l HC. apply P; [exact (crashes_not_ends _ _ HC)|exact (crashes_not_fails _ _ HC)].
    + exact P.
Qed.
End Make.
End Reader.

(** * Taking items by a conversion that may fail *)
Section Converted.
Context {E S B C : Type}.
Variable rd : reader E S.
Variable rd' : reader C S.
Variable lend : B -> E.
Variable withheld : E -> Prop.
Variable keep : B -> C.
Hypothesis lend_inj : forall b b', lend b = lend b' -> b = b'.
Hypothesis lent_not_withheld : forall b, ~ withheld (lend b).
Hypothesis hints : forall s, rd_hint rd' s = rd_hint rd s.
Hypothesis turns : forall s,
  match rd_next rd s with
  | Gives x s' => (exists b, x = lend b /\ rd_next rd' s = Gives (keep b) s') \/ (withheld x /\ exists msg, rd_next rd' s = Fails msg s')
  | Ends s' => rd_next rd' s = Ends s'
  | Fails msg s' => rd_next rd' s = Fails msg s'
  | Crashes => rd_next rd' s = Crashes
  end.

Lemma given_to s x s' : given rd s x s' -> forall l, x = map lend l -> given rd' s (map keep l) s'.
Proof.
  intros H. induction H as [s|s x s1 r s' EN H IH]; intros l EL; destruct l as [|b l]; try discriminate; [constructor|].
  cbn in EL. injection EL as -> ->. cbn. econstructor; [|apply IH; reflexivity]. pose proof (turns s) as T. rewrite EN in T.
  destruct T as [[b' [Eb T]]|[W _]]; [apply lend_inj in Eb; subst b'; exact T|elim (lent_not_withheld _ W)].
Qed.
Lemma given_from s y s' : given rd' s y s' -> exists l, y = map keep l /\ given rd s (map lend l) s'.
Proof.
  intros H. induction H as [s|s y s1 r s' EN H [l [-> IH]]]; [exists []; split; [reflexivity|constructor]|].
  pose proof (turns s) as T. destruct (rd_next rd s) as [x s2|s2|msg s2|] eqn:ER; try congruence.
  destruct T as [[b [-> T]]|[_ [msg T]]]; [|congruence]. rewrite EN in T. injection T as -> ->.
  exists (b :: l). split; [reflexivity|]. cbn. econstructor; eauto.
Qed.
Lemma pends_from s y s' : pends rd' s y s' -> exists l, y = map keep l /\ ends rd lend s l s'.
Proof.
  intros [s2 [G D]]. destruct (given_from _ _ _ G) as [l [-> G']]. exists l. split; [reflexivity|]. exists s2. split; [exact G'|].
  pose proof (turns s2) as T. destruct (rd_next rd s2) as [x s3|s3|msg s3|]; try congruence. destruct T as [[b [_ T]]|[_ [msg T]]]; congruence.
Qed.
Lemma converted {M} size s (run : nat -> option (res (result M * S))) good :
  plain rd' size s run good -> deserializes rd lend withheld size s run (fun m l => good m (map keep l)).
Proof.
  intros [P1 [P2 [P3 [P4 [P5 [P6 [P7 P8]]]]]]]. rewrite hints in P4. split; [exact P1|]. split; [exact P2|]. split; [exact P3|]. split; [exact P4|].
  pose proof pends_from as TE.
  assert (TF : forall s y msg s', pfails rd' s y msg s' -> exists l, y = map keep l /\ (fails rd lend s l msg s' \/ refuses rd lend withheld s l s')).
  { intros s1 y msg s' [s2 [G D]]. destruct (given_from _ _ _ G) as [l [-> G']]. exists l. split; [reflexivity|].
    pose proof (turns s2) as T. destruct (rd_next rd s2) as [x s3|s3|m s3|] eqn:ER; try congruence.
    - destruct T as [[b [_ T]]|[W [m T]]]; [congruence|]. rewrite D in T. injection T as <- <-. right. exists s2, x. auto.
    - left. exists s2. split; [exact G'|]. congruence. }
  split; [intros n s0 EH; apply (P5 n s0); rewrite hints; exact EH|]. split; [|split].
  - intros fuel m s' H. destruct (P6 _ _ _ H) as [hint [s0 [y [EH [D G]]]]]. rewrite hints in EH. destruct (TE _ _ _ D) as [l [-> D']].
    exists hint, s0, l. auto.
  - intros fuel msg s' H. destruct (P7 _ _ _ H) as [hint [s0 [y [EH D]]]]. rewrite hints in EH. destruct (TF _ _ _ _ D) as [l [_ D']].
    exists hint, s0, l. auto.
  - intros hint s0 EH HH. rewrite <- hints in EH. destruct (P8 _ _ EH HH) as [Q1 [Q2 [Q3 Q4]]].
    assert (FT : forall l, fit size hint l -> fit size hint (map keep l)) by (intros l [F1 F2]; split; rewrite map_length; assumption).
    split; [|split; [|split; [|split]]].
    + intros l s' [s1 [G D]] F. apply (Q1 (map keep l) s'); [|auto]. exists s1. split; [eapply given_to; eauto|].
      pose proof (turns s1) as T. rewrite D in T. exact T.
    + intros l msg s' [s1 [G D]] F. apply (Q2 (map keep l) msg s'); [|auto]. exists s1. split; [eapply given_to; eauto|].
      pose proof (turns s1) as T. rewrite D in T. exact T.
    + intros l s' [s1 [x [G [D W]]]] F. pose proof (turns s1) as T. rewrite D in T. destruct T as [[b [-> _]]|[_ [msg T]]]; [elim (lent_not_withheld _ W)|].
      destruct (Q2 (map keep l) msg s') as [fuel H]; [exists s1; split; [eapply given_to; eauto|exact T]|auto|]. exists fuel, msg. exact H.
    + intros l [s1 [G D]]. apply (Q3 (map keep l)). exists s1. split; [eapply given_to; eauto|]. pose proof (turns s1) as T. rewrite D in T. exact T.
    + intros N1 N2 N3. apply Q4.
      * intros y s' D. destruct (TE _ _ _ D) as [l [_ D']]. exact (N1 _ _ D').
      * intros y msg s' D. destruct (TF _ _ _ _ D) as [l [_ [D'|D']]]; [exact (N2 _ _ _ D')|exact (N3 _ _ D')].
Qed.
End Converted.

Lemma deserializes_ext {E S B M} (rd : reader E S) (lend : B -> E) withheld size s (run : nat -> option (res (result M * S))) (good good' : M -> list B -> Prop) :
  (forall m l, good m l -> good' m l) -> deserializes rd lend withheld size s run good -> deserializes rd lend withheld size s run good'.
Proof.
  intros HG [P1 [P2 [P3 [P4 [P5 [P6 [P7 P8]]]]]]]. do 5 (split; [assumption|]). split; [|split; [assumption|]].
  - intros fuel m s' H. destruct (P6 _ _ _ H) as [hint [s0 [l [H1 [H2 H3]]]]]. exists hint, s0, l. auto.
  - intros hint s0 EH HH. destruct (P8 _ _ EH HH) as [Q1 Q]. split; [|exact Q]. intros l s' D F.
    destruct (Q1 _ _ D F) as [fuel [m [H G]]]. exists fuel, m. auto.
Qed.
Definition same {A} (x : A) : A := x.
Definition no_item {A} (_ : A) : Prop := False.
Lemma whole_plain {E S M} (rd : reader E S) size s (run : nat -> option (res (result M * S))) good :
  plain rd size s run good -> deserializes rd same no_item size s run good.
Proof.
  intros H. eapply deserializes_ext; [|apply (converted rd rd same no_item same) with (good := good)]; auto.
  - intros m l. unfold same. rewrite map_id. auto.
  - intros s1. destruct (rd_next rd s1); auto. left. unfold same. eauto.
Qed.
Lemma pends_whole {E S} (rd : reader E S) s l s' : pends rd s l s' -> ends rd same s l s'.
Proof. intros [s1 [G D]]. exists s1. unfold same. rewrite map_id. auto. Qed.
Lemma units_plain {T S M} (rd : reader T S) size s (run : nat -> option (res (result M * S))) good :
  plain (with_units rd) size s run good -> deserializes rd same no_item size s run (fun m l => good m (map (fun x => (x, tt)) l)).
Proof.
  intros H. apply (converted rd (with_units rd) same no_item (fun x => (x, tt))); auto.
  intros s1. cbn. destruct (rd_next rd s1); auto. left. unfold same. eauto.
Qed.
Lemma units_ends {T S} (rd : reader T S) s y s' : pends (with_units rd) s y s' -> exists l, y = map (fun x => (x, tt)) l /\ ends rd same s l s'.
Proof.
  apply (pends_from rd (with_units rd) same no_item (fun x => (x, tt))).
  intros s1. cbn. destruct (rd_next rd s1); auto. left. unfold same. eauto.
Qed.
Lemma borrow_turns {V S} (rd : reader (str_datum * V) S) s :
  match rd_next rd s with
  | Gives x s' => (exists b, x = lent_key b /\ rd_next (borrowing rd) s = Gives b s') \/ (transient_entry x /\ exists msg, rd_next (borrowing rd) s = Fails msg s')
  | Ends s' => rd_next (borrowing rd) s = Ends s'
  | Fails msg s' => rd_next (borrowing rd) s = Fails msg s'
  | Crashes => rd_next (borrowing rd) s = Crashes
  end.
Proof.
  cbn. destruct (rd_next rd s) as [[[k|k] v] s1|s1|msg s1|]; auto.
  - left. exists (k, v). auto.
  - right. split; [exact I|]. eexists. reflexivity.
Qed.
Lemma borrow_plain {V S M} (rd : reader (str_datum * V) S) size s (run : nat -> option (res (result M * S))) good :
  plain (borrowing rd) size s run good -> deserializes rd lent_key transient_entry size s run good.
Proof.
  intros H. eapply deserializes_ext; [|apply (converted rd (borrowing rd) lent_key transient_entry same) with (good := good)]; auto.
  - intros m l. unfold same. rewrite map_id. auto.
  - intros [k v] [k' v'] E. injection E as -> ->. reflexivity.
  - intros s1. exact (borrow_turns rd s1).
Qed.
Lemma elem_turns {S} (rd : reader str_datum S) s :
  match rd_next rd s with
  | Gives x s' => (exists b, x = Lent b /\ rd_next (borrowing (with_units rd)) s = Gives (b, tt) s') \/
                  (transient x /\ exists msg, rd_next (borrowing (with_units rd)) s = Fails msg s')
  | Ends s' => rd_next (borrowing (with_units rd)) s = Ends s'
  | Fails msg s' => rd_next (borrowing (with_units rd)) s = Fails msg s'
  | Crashes => rd_next (borrowing (with_units rd)) s = Crashes
  end.
Proof.
  cbn. destruct (rd_next rd s) as [[k|k] s1|s1|msg s1|]; auto.
  - left. exists k. auto.
  - right. split; [exact I|]. eexists. reflexivity.
Qed.
Lemma elem_plain {S M} (rd : reader str_datum S) size s (run : nat -> option (res (result M * S))) good :
  plain (borrowing (with_units rd)) size s run good -> deserializes rd Lent transient size s run (fun m l => good m (map (fun x => (x, tt)) l)).
Proof.
  intros H. apply (converted rd (borrowing (with_units rd)) Lent transient (fun x => (x, tt))); auto.
  - intros b b' E. injection E as ->. reflexivity.
  - exact (elem_turns rd).
Qed.

(** * The collections *)
Section Types.
Context {K V Q S : Type}.
Lemma hash_read usort eqK eqv hK hQ size (rd : reader (K * V) S) s :
  sorts_by_slot usort -> lawful_eq eqK -> lawful_equivalent eqK eqv -> lawful_hash eqK hK -> lawful_query_hash (Q := Q) eqv hQ hK ->
  deserializes rd same no_item size s (fun fuel => fz_hash_map_read usort eqK hK fuel size rd s) (made (hash_ops (fun q => Ok (hQ q)) eqv) eqK eqv).
Proof. intros US LE LV LH LQ. apply whole_plain. apply read_plain. intros _ _ l _ _ _ HN. apply build_hash; auto. Qed.
Lemma ordered_read cmp cmpQ size (rd : reader (K * V) S) s : lawful_ord cmp -> lawful_comparable (Q := Q) cmp cmpQ ->
  deserializes rd same no_item size s (fun fuel => fz_ordered_map_read cmp fuel size rd s) (made (eytzinger_ops cmpQ) (cmp_eq cmp) (cmp_eq cmpQ)).
Proof. intros LO LC. apply whole_plain. apply read_plain. intros _ _ l _ _ _ HN. apply build_ordered; auto. Qed.
Lemma scalar_read usort md idx cmp idxQ eqv size (rd : reader (K * V) S) s :
  sorts_by_slot usort -> lawful_scalar idx cmp -> lawful_query_scalar (Q := Q) idx idxQ eqv ->
  (forall hint s0 l s', rd_hint rd s = Some (hint, s0) -> ends rd same s0 l s' -> span_representable idx (map fst l)) ->
  deserializes rd same no_item size s (fun fuel => fz_scalar_map_read usort md idx cmp fuel size rd s) (made (fz_scalar_ops idxQ eqv) (idx_eq idx) eqv).
Proof.
  intros US LS LQ SR. apply whole_plain. apply read_plain. intros hint s0 l s' EH D HN. eapply build_scalar; eauto.
  exact (SR _ _ _ _ EH (pends_whole _ _ _ _ D)).
Qed.
End Types.
Lemma string_read {V S} usort bh size (rd : reader (str_datum * V) S) s : sorts_by_slot usort ->
  (forall hint s0 l s', rd_hint rd s = Some (hint, s0) -> ends rd lent_key s0 l s' -> forall e, In e l -> N.of_nat (List.length (fst e)) <= usize_max) ->
  deserializes rd lent_key transient_entry size s (fun fuel => fz_string_map_read usort bh fuel size rd s) (made fz_string_ops bytes_eqb bytes_eqb).
Proof.
  intros US HL. apply borrow_plain. apply read_plain. intros hint s0 l s' EH D HN. eapply build_string; eauto. apply (HL hint s0 l s' EH).
  destruct (pends_from rd (borrowing rd) lent_key transient_entry same (borrow_turns rd) _ _ _ D) as [k [Ek D']].
  unfold same in Ek. rewrite map_id in Ek. subst k. exact D'.
Qed.
Section SetTypes.
Context {T Q S : Type}.
Lemma hash_set_read usort eqT eqv hT hQ size (rd : reader T S) s :
  sorts_by_slot usort -> lawful_eq eqT -> lawful_equivalent eqT eqv -> lawful_hash eqT hT -> lawful_query_hash (Q := Q) eqv hQ hT ->
  deserializes rd same no_item size s (fun fuel => fz_hash_set_read usort eqT hT fuel size rd s)
    (fun m l => made (hash_ops (fun q => Ok (hQ q)) eqv) eqT eqv m (map (fun x => (x, tt)) l)).
Proof. intros US LE LV LH LQ. apply units_plain. apply read_plain. intros _ _ l _ _ _ HN. apply build_hash; auto. Qed.
Lemma ordered_set_read cmp cmpQ size (rd : reader T S) s : lawful_ord cmp -> lawful_comparable (Q := Q) cmp cmpQ ->
  deserializes rd same no_item size s (fun fuel => fz_ordered_set_read cmp fuel size rd s)
    (fun m l => made (eytzinger_ops cmpQ) (cmp_eq cmp) (cmp_eq cmpQ) m (map (fun x => (x, tt)) l)).
Proof. intros LO LC. apply units_plain. apply read_plain. intros _ _ l _ _ _ HN. apply build_ordered; auto. Qed.
Lemma scalar_set_read usort md idx cmp idxQ eqv size (rd : reader T S) s :
  sorts_by_slot usort -> lawful_scalar idx cmp -> lawful_query_scalar (Q := Q) idx idxQ eqv ->
  (forall hint s0 l s', rd_hint rd s = Some (hint, s0) -> ends rd same s0 l s' -> span_representable idx l) ->
  deserializes rd same no_item size s (fun fuel => fz_scalar_set_read usort md idx cmp fuel size rd s)
    (fun m l => made (fz_scalar_ops idxQ eqv) (idx_eq idx) eqv m (map (fun x => (x, tt)) l)).
Proof.
  intros US LS LQ SR. apply units_plain. apply read_plain. intros hint s0 l s' EH D HN. eapply build_scalar; eauto.
  destruct (units_ends _ _ _ _ D) as [k [-> D']]. rewrite map_map. cbn. rewrite map_id. exact (SR _ _ _ _ EH D').
Qed.
Lemma string_set_read usort bh size (rd : reader str_datum S) s : sorts_by_slot usort ->
  (forall hint s0 l s', rd_hint rd s = Some (hint, s0) -> ends rd Lent s0 l s' -> forall x, In x l -> N.of_nat (List.length x) <= usize_max) ->
  deserializes rd Lent transient size s (fun fuel => fz_string_set_read usort bh fuel size rd s)
    (fun m l => made fz_string_ops bytes_eqb bytes_eqb m (map (fun x => (x, tt)) l)).
Proof.
  intros US HL. apply elem_plain. apply read_plain. intros hint s0 l s' EH D HN. eapply build_string; eauto.
  destruct (pends_from rd (borrowing (with_units rd)) Lent transient (fun x => (x, tt)) (elem_turns rd) _ _ _ D) as [k [-> D']].
  intros e He. apply in_map_iff in He. destruct He as [x [<- Hx]]. exact (HL _ _ _ _ EH D' x Hx).
Qed.
End SetTypes.

(** * Lists *)
Lemma listed_given {E} hint (l : list E) r : given (listed hint) (map (fun x => ROk x) l ++ r) l r.
Proof. induction l as [|x l IH]; cbn; [constructor|]. econstructor; [reflexivity|exact IH]. Qed.
Lemma collect_err {E} (items : list (result E)) msg : collect items = RErr msg ->
  exists l r, items = map (fun x => ROk x) l ++ RErr msg :: r.
Proof.
  induction items as [|[x|e] items IH]; cbn; try discriminate.
  - destruct (collect items) as [v|e']; [discriminate|]. intros [= ->]. destruct (IH eq_refl) as [l [r ->]]. exists (x :: l), r. reflexivity.
  - intros [= ->]. exists [], items. reflexivity.
Qed.
Lemma collect_ok {E} (items : list (result E)) l : collect items = ROk l -> items = map (fun x => ROk x) l.
Proof.
  revert l. induction items as [|[x|e] items IH]; cbn; intros l; try discriminate; [intros [= <-]; reflexivity|].
  destruct (collect items) as [v|e']; [|discriminate]. intros [= <-]. cbn. f_equal. auto.
Qed.
Lemma read_listed {E M} (build : list E -> res M) size (a : access E) :
  size * N.max 8 (2 * N.of_nat (List.length (ac_items a))) <= isize_max -> N.of_nat (List.length (ac_items a)) <= usize_max ->
  exists fuel, option_map (fun r => bind r (fun x => Ok (fst x))) (read build fuel size (listed (ac_hint a)) (ac_items a)) = Some (visit size a build).
Proof.
  intros HS HU. unfold read, visit. cbn [rd_hint listed]. cbv zeta.
  destruct (with_capacity size (match ac_hint a with Some n => n | None => 0 end)) as [[]| |] eqn:EW; cbn [bind]; try (exists O; reflexivity).
  apply start_room in EW. destruct a as [hint items]. cbn [ac_hint ac_items] in *.
  assert (HX : forall l r, items = map (fun x => ROk x) l ++ r -> exists cap', forall fuel,
    read_all (List.length l + fuel) size (match hint with Some n => n | None => 0 end) (listed hint) items [] = read_all fuel size cap' (listed hint) r l).
  { intros l r ->. rewrite app_length, map_length in HS, HU.
    destruct (read_all_goes (listed hint) size _ _ _ (listed_given hint l r) _ [] EW) as [cap' [_ HE]]; [|cbn; lia|eauto].
    left. cbn [List.length]. eapply N.le_trans; [|exact HS]. apply N.mul_le_mono_l. lia. }
  destruct (collect items) as [l|msg] eqn:EC.
  - apply collect_ok in EC. destruct (HX l []) as [cap' HE]; [rewrite app_nil_r; exact EC|]. exists (List.length l + 1)%nat. rewrite HE.
    cbn. destruct (build l); reflexivity.
  - apply collect_err in EC. destruct EC as [l [r EC]]. destruct (HX l _ EC) as [cap' HE]. exists (List.length l + 1)%nat. rewrite HE. reflexivity.
Qed.
