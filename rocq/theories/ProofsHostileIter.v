(** Proofs for ModelHostileIter.v. *)
From Verif Require Import ModelUtils ModelAnalyzers ModelTables ModelMaps ModelIter ModelHostile ModelHostileIter.
From Verif Require Import Spec SpecHostile SpecCovers SpecHostileIter ProofsBase ProofsHostile ProofsCovers.
From Verif Require Import Prelude.

Lemma contains_runs q {T} (s : h_set T) : sound (hs_map s) -> runs q (h_contains s) (fun _ => True).
Proof.
  intros H. unfold h_contains. destruct (hs_facade s); [unfold h_contains_key|].
  - eapply runs_then; [apply get_runs; auto|]. intros; apply runs_ret; exact I.
  - eapply runs_then; [apply get_key_value_runs; auto|]. intros; apply runs_ret; exact I.
Qed.

Lemma contains_cases {T} (s : h_set T) adv n : sound (hs_map s) ->
  (exists b n', h_contains s adv n = Ok (b, n')) \/
  (h_contains s adv n = Panic /\ ~ (forall i, a_panics (adv i) = false)).
Proof.
  intros H. pose proof (contains_runs false s H adv n ltac:(discriminate)) as A. pose proof (contains_runs true s H adv n) as B.
  destruct (h_contains s adv n) as [[b n']| |]; [left; eauto|right|contradiction]. split; auto. intros C. specialize (B (fun _ => C)). discriminate.
Qed.

(** ** Thinning *)
Lemma thinned_refl {T} (l : list T) : thinned l l.
Proof. induction l; constructor; auto. Qed.
Lemma thinned_app {T} (a l l' : list T) : thinned l l' -> thinned l (a ++ l').
Proof. intros H. induction a; cbn; auto. constructor; auto. Qed.
Lemma thinned_length {T} (l l' : list T) : thinned l l' -> (length l <= length l')%nat.
Proof. induction 1; cbn; lia. Qed.
Lemma thinned_none {T} (l : list T) : thinned [] l.
Proof. induction l; constructor; auto. Qed.

(** ** One step *)
Definition step {T St} (source : St -> list T) (adv : nat -> answer) (st : St) (e : event T) (st' : St) : Prop :=
  match e with
  | Item x => exists pre, source st = pre ++ x :: source st'
  | Caught => (exists pre x, source st = pre ++ x :: source st') /\ ~ (forall i, a_panics (adv i) = false)
  | Done => source st' = []
  end.
Definition steps {T St} (next : St -> hostile (event T * St)) (source : St -> list T) (inv : St -> Prop) : Prop :=
  forall st adv n, inv st -> exists e st' n', next st adv n = Ok ((e, st'), n') /\ inv st' /\ step source adv st e st'.

Lemma where_steps {T} want (s : h_set T) : sound (hs_map s) -> forall rest adv n,
  exists e r' n', h_where want s rest adv n = Ok ((e, r'), n') /\ step (fun l => l) adv rest e r'.
Proof.
  intros H. induction rest as [|x r IH]; intros adv n; cbn [h_where].
  - exists Done, [], n. repeat split.
  - destruct (contains_cases s adv n H) as [[b [n1 E]]|[E P]]; rewrite E.
    + destruct (Bool.eqb b want).
      * exists (Item x), r, n1. split; auto. exists []. reflexivity.
      * destruct (IH adv n1) as [e [r' [n' [E' S']]]]. exists e, r', n'. split; auto. destruct e as [y| |]; cbn [step] in *.
        -- destruct S' as [pre ->]. exists (x :: pre). reflexivity.
        -- exact S'.
        -- destruct S' as [[pre [y ->]] P]. split; auto. exists (x :: pre), y. reflexivity.
    + exists Caught, r, (S n). split; auto. split; auto. exists [], x. reflexivity.
Qed.

Lemma calls_tame {T St} (next : St -> hostile (event T * St)) source inv : steps next source inv -> forall k st adv n, inv st ->
  exists evs st' n', h_calls next k st adv n = Ok ((evs, st'), n') /\
    (exists busy, evs = busy ++ repeat Done (k - length busy) /\ ~ In Done busy /\ (length busy <= k)%nat /\
       (length busy <= length (source st))%nat) /\
    thinned (items evs) (source st) /\ ((forall i, a_panics (adv i) = false) -> ~ In Caught evs).
Proof.
  intros HS. induction k as [|k IH]; intros st adv n I; cbn [h_calls].
  - exists [], st, n. split; [reflexivity|]. split; [exists []; cbn; repeat split; auto; lia|]. split; [apply thinned_none|]. intros _ [].
  - destruct (HS st adv n I) as [e [st1 [n1 [E [I1 S1]]]]]. destruct (IH st1 adv n1 I1) as [evs [st2 [n2 [E2 [[busy [B1 [B2 [B3 B4]]]] [TH C]]]]]].
    exists (e :: evs), st2, n2. unfold andthen. rewrite E. cbn [fst snd]. rewrite E2. cbn [fst snd]. split; [reflexivity|].
    destruct e as [x| |]; cbn [step] in S1.
    + destruct S1 as [pre S1]. rewrite S1. split; [|split].
      * exists (Item x :: busy). cbn [length app Nat.sub]. rewrite <- B1, app_length. cbn [length]. repeat split; try lia. intros [D|D]; [discriminate|auto].
      * cbn [items flat_map app]. apply thinned_app. constructor. exact TH.
      * intros Q [D|D]; [discriminate|]. exact (C Q D).
    + rewrite S1 in *. assert (busy = []) by (destruct busy; auto; cbn in B4; lia). subst busy. cbn [app length] in *. rewrite Nat.sub_0_r in B1.
      split; [|split].
      * exists []. cbn. rewrite B1. repeat split; auto; lia.
      * cbn [items flat_map app]. fold (items evs). inversion TH. apply thinned_none.
      * intros Q [D|D]; [discriminate|]. exact (C Q D).
    + destruct S1 as [[pre [x S1]] P]. rewrite S1. split; [|split].
      * exists (Caught :: busy). cbn [length app Nat.sub]. rewrite <- B1, app_length. cbn [length]. repeat split; try lia. intros [D|D]; [discriminate|auto].
      * cbn [items flat_map app]. apply thinned_app. constructor. exact TH.
      * intros Q. contradiction (P Q).
Qed.

Lemma tame_by {T St} (next : St -> hostile (event T * St)) source inv st hint : steps next source inv -> inv st ->
  (forall u, snd hint = Some u -> N.of_nat (length (source st)) <= u) -> tame next st (source st) hint.
Proof.
  intros HS I HU k adv n. destruct (calls_tame next source inv HS k st adv n I) as [evs [st' [n' [E [B [TH C]]]]]].
  exists evs, st', n'. repeat split; auto. intros u Eu. specialize (HU u Eu). apply thinned_length in TH. lia.
Qed.

(** ** The iterators *)
Definition union_source {T} (u : h_union T) : list T :=
  if Nat.ltb (hs_len (hu_s2 u)) (hs_len (hu_s1 u)) then hu_rest1 u ++ hu_rest2 u else hu_rest2 u ++ hu_rest1 u.

Lemma union_steps {T} : steps (@h_union_next T) union_source (fun u => sound (hs_map (hu_s1 u)) /\ sound (hs_map (hu_s2 u))).
Proof.
  intros [s1 r1 s2 r2] adv n [H1 H2]. cbn [hu_s1 hu_s2] in *. unfold h_union_next, hu_with1, hu_with2. cbn [hu_s1 hu_s2 hu_rest1 hu_rest2].
  destruct (Nat.ltb (hs_len s2) (hs_len s1)) eqn:L.
  - destruct r1 as [|x r].
    + destruct (where_steps false s1 H1 r2 adv n) as [e [r' [n' [E S']]]]. unfold andthen. rewrite E. exists e, {| hu_s1 := s1; hu_rest1 := []; hu_s2 := s2; hu_rest2 := r' |}, n'.
      repeat split; auto. destruct e; cbn [step] in *; unfold union_source; cbn [hu_s1 hu_s2 hu_rest1 hu_rest2]; rewrite L; exact S'.
    + exists (Item x), {| hu_s1 := s1; hu_rest1 := r; hu_s2 := s2; hu_rest2 := r2 |}, n. repeat split; auto.
      exists []. unfold union_source. cbn [hu_s1 hu_s2 hu_rest1 hu_rest2]. rewrite L. reflexivity.
  - destruct r2 as [|x r].
    + destruct (where_steps false s2 H2 r1 adv n) as [e [r' [n' [E S']]]]. unfold andthen. rewrite E. exists e, {| hu_s1 := s1; hu_rest1 := r'; hu_s2 := s2; hu_rest2 := [] |}, n'.
      repeat split; auto. destruct e; cbn [step] in *; unfold union_source; cbn [hu_s1 hu_s2 hu_rest1 hu_rest2]; rewrite L; exact S'.
    + exists (Item x), {| hu_s1 := s1; hu_rest1 := r1; hu_s2 := s2; hu_rest2 := r |}, n. repeat split; auto.
      exists []. unfold union_source. cbn [hu_s1 hu_s2 hu_rest1 hu_rest2]. rewrite L. reflexivity.
Qed.

Lemma union_tame {T} (u : h_union T) : sound (hs_map (hu_s1 u)) -> sound (hs_map (hu_s2 u)) ->
  tame h_union_next u (if Nat.ltb (hs_len (hu_s2 u)) (hs_len (hu_s1 u)) then hu_rest1 u ++ hu_rest2 u else hu_rest2 u ++ hu_rest1 u) (h_union_size_hint u).
Proof.
  intros H1 H2. apply (tame_by h_union_next union_source _ u _ union_steps); auto. intros b E.
  unfold h_union_size_hint in E. cbn [snd slice_iter it_size_hint] in E. unfold checked_add in E. destruct (N.leb _ _); [|discriminate].
  injection E as <-. unfold union_source. destruct (Nat.ltb _ _); rewrite app_length; lia.
Qed.

Lemma difference_steps {T} : steps (@h_difference_next T) hd_rest1 (fun d => sound (hs_map (hd_s2 d))).
Proof.
  intros [r1 s2] adv n H. cbn [hd_s2 hd_rest1] in *. unfold h_difference_next. cbn [hd_s2 hd_rest1].
  destruct (where_steps false s2 H r1 adv n) as [e [r' [n' [E S']]]]. unfold andthen. rewrite E.
  exists e, {| hd_rest1 := r'; hd_s2 := s2 |}, n'. repeat split; auto.
Qed.

Lemma difference_tame {T} (d : h_difference T) : sound (hs_map (hd_s2 d)) ->
  tame h_difference_next d (hd_rest1 d) (h_difference_size_hint d).
Proof.
  intros H. apply (tame_by h_difference_next hd_rest1 _ d _ difference_steps H). intros u E. injection E as <-. lia.
Qed.

Definition intersection_source {T} (i : h_intersection T) : list T :=
  if Nat.ltb (hs_len (hi_s1 i)) (hs_len (hi_s2 i)) then hi_rest1 i else hi_rest2 i.

Lemma intersection_steps {T} : steps (@h_intersection_next T) intersection_source (fun i => sound (hs_map (hi_s1 i)) /\ sound (hs_map (hi_s2 i))).
Proof.
  intros [s1 r1 s2 r2] adv n [H1 H2]. cbn [hi_s1 hi_s2] in *. unfold h_intersection_next. cbn [hi_s1 hi_s2 hi_rest1 hi_rest2].
  destruct (Nat.ltb (hs_len s1) (hs_len s2)) eqn:L.
  - destruct (where_steps true s2 H2 r1 adv n) as [e [r' [n' [E S']]]]. unfold andthen. rewrite E.
    exists e, {| hi_s1 := s1; hi_rest1 := r'; hi_s2 := s2; hi_rest2 := r2 |}, n'. repeat split; auto.
    destruct e; cbn [step] in *; unfold intersection_source; cbn [hi_s1 hi_s2 hi_rest1 hi_rest2]; rewrite L; exact S'.
  - destruct (where_steps true s1 H1 r2 adv n) as [e [r' [n' [E S']]]]. unfold andthen. rewrite E.
    exists e, {| hi_s1 := s1; hi_rest1 := r1; hi_s2 := s2; hi_rest2 := r' |}, n'. repeat split; auto.
    destruct e; cbn [step] in *; unfold intersection_source; cbn [hi_s1 hi_s2 hi_rest1 hi_rest2]; rewrite L; exact S'.
Qed.

Lemma intersection_tame {T} (i : h_intersection T) : sound (hs_map (hi_s1 i)) -> sound (hs_map (hi_s2 i)) ->
  (length (hi_rest1 i) <= hs_len (hi_s1 i))%nat -> (length (hi_rest2 i) <= hs_len (hi_s2 i))%nat ->
  tame h_intersection_next i (if Nat.ltb (hs_len (hi_s1 i)) (hs_len (hi_s2 i)) then hi_rest1 i else hi_rest2 i) (h_intersection_size_hint i).
Proof.
  intros H1 H2 L1 L2. apply (tame_by h_intersection_next intersection_source _ i _ intersection_steps); auto. intros u E.
  injection E as <-. unfold intersection_source. destruct (Nat.ltb_spec (hs_len (hi_s1 i)) (hs_len (hi_s2 i))); lia.
Qed.

Definition symmetric_source {T} (c : h_symmetric_difference T) : list T :=
  match hx_a c with Some a => hd_rest1 a | None => [] end ++ hd_rest1 (hx_b c).
Definition symmetric_inv {T} (c : h_symmetric_difference T) : Prop :=
  (forall a, hx_a c = Some a -> sound (hs_map (hd_s2 a))) /\ sound (hs_map (hd_s2 (hx_b c))).

Lemma symmetric_steps {T} : steps (@h_symmetric_difference_next T) symmetric_source symmetric_inv.
Proof.
  intros [a b] adv n [H1 H2]. cbn [hx_a hx_b] in *. unfold h_symmetric_difference_next. cbn [hx_a hx_b]. cbv zeta.
  assert (FB : forall pre n, exists e c' n',
    (p <~ h_difference_next b ;; ret (fst p, {| hx_a := None; hx_b := snd p |})) adv n = Ok ((e, c'), n') /\ symmetric_inv c' /\
    step (fun c => match hx_a c with Some _ => pre | None => [] end ++ hd_rest1 (hx_b c)) adv {| hx_a := a; hx_b := b |} e c' /\ hx_a c' = None).
  { intros pre n0. destruct (difference_steps b adv n0 H2) as [e [b' [n' [E [I' S']]]]]. unfold andthen. rewrite E.
    exists e, {| hx_a := None; hx_b := b' |}, n'. repeat split; auto; [discriminate|].
    cbn [snd]. destruct e as [x| |]; cbn [step hx_a hx_b] in *; cbn [app].
    - destruct S' as [p ->]. destruct a; [exists (pre ++ p)|exists p]; rewrite ?app_assoc; reflexivity.
    - exact S'.
    - destruct S' as [[p [x ->]] P]. split; auto. destruct a; [exists (pre ++ p), x|exists p, x]; rewrite ?app_assoc; reflexivity. }
  destruct a as [a|].
  - destruct (difference_steps a adv n (H1 a eq_refl)) as [e [a' [n' [E [I' S']]]]]. unfold andthen at 1. rewrite E. cbn [fst snd].
    destruct e as [x| |]; cbn [step] in S'.
    + exists (Item x), {| hx_a := Some a'; hx_b := b |}, n'. repeat split; auto; [intros a0 E0; injection E0 as <-; exact I'|].
      destruct S' as [p S']. exists p. unfold symmetric_source. cbn [hx_a hx_b]. rewrite S', <- app_assoc. reflexivity.
    + destruct (FB (hd_rest1 a) n') as [e [c' [n2 [E2 [I2 [S2 N2]]]]]]. exists e, c', n2. split; [exact E2|]. split; auto.
      destruct e as [x| |]; cbn [step hx_a hx_b] in *; unfold symmetric_source; cbn [hx_a hx_b]; rewrite N2 in *; exact S2.
    + exists Caught, {| hx_a := Some a'; hx_b := b |}, n'. repeat split; auto; [intros a0 E0; injection E0 as <-; exact I'| |apply S'].
      destruct S' as [[p [x S']] _]. exists p, x. unfold symmetric_source. cbn [hx_a hx_b]. rewrite S', <- app_assoc. reflexivity.
  - destruct (FB [] n) as [e [c' [n2 [E2 [I2 [S2 N2]]]]]]. exists e, c', n2. split; [exact E2|]. split; auto.
    destruct e as [x| |]; cbn [step hx_a hx_b] in *; unfold symmetric_source; cbn [hx_a hx_b]; rewrite N2 in *; exact S2.
Qed.

Lemma symmetric_tame {T} (c : h_symmetric_difference T) : (forall a, hx_a c = Some a -> sound (hs_map (hd_s2 a))) ->
  sound (hs_map (hd_s2 (hx_b c))) ->
  tame h_symmetric_difference_next c (match hx_a c with Some a => hd_rest1 a | None => [] end ++ hd_rest1 (hx_b c)) (h_symmetric_difference_size_hint c).
Proof.
  intros H1 H2. apply (tame_by h_symmetric_difference_next symmetric_source symmetric_inv c _ symmetric_steps); [split; auto|]. intros u E.
  unfold h_symmetric_difference_size_hint, symmetric_source in *. cbv zeta in E. rewrite app_length. destruct (hx_a c) as [a|].
  - cbn [snd h_difference_size_hint slice_iter it_size_hint] in E. unfold checked_add in E. destruct (N.leb _ _); [|discriminate]. injection E as <-. lia.
  - injection E as <-. cbn. lia.
Qed.

(** The larger set of a union comes out whole. *)
Lemma union_first {T} (s1 s2 : h_set T) adv : forall k r1 r2 n,
  (k <= length (if Nat.ltb (hs_len s2) (hs_len s1) then r1 else r2))%nat ->
  exists st', h_calls h_union_next k {| hu_s1 := s1; hu_rest1 := r1; hu_s2 := s2; hu_rest2 := r2 |} adv n =
    Ok ((map Item (firstn k (if Nat.ltb (hs_len s2) (hs_len s1) then r1 else r2)), st'), n).
Proof.
  induction k as [|k IH]; intros r1 r2 n L; cbn [h_calls]; [eexists; reflexivity|].
  assert (N1 : h_union_next {| hu_s1 := s1; hu_rest1 := r1; hu_s2 := s2; hu_rest2 := r2 |} adv n =
    if Nat.ltb (hs_len s2) (hs_len s1)
    then match r1 with x :: r => Ok ((Item x, {| hu_s1 := s1; hu_rest1 := r; hu_s2 := s2; hu_rest2 := r2 |}), n)
         | [] => h_union_next {| hu_s1 := s1; hu_rest1 := []; hu_s2 := s2; hu_rest2 := r2 |} adv n end
    else match r2 with x :: r => Ok ((Item x, {| hu_s1 := s1; hu_rest1 := r1; hu_s2 := s2; hu_rest2 := r |}), n)
         | [] => h_union_next {| hu_s1 := s1; hu_rest1 := r1; hu_s2 := s2; hu_rest2 := [] |} adv n end).
  { unfold h_union_next. cbn [hu_s1 hu_s2 hu_rest1 hu_rest2]. destruct (Nat.ltb _ _); [destruct r1|destruct r2]; reflexivity. }
  unfold andthen. rewrite N1. clear N1.
  destruct (Nat.ltb (hs_len s2) (hs_len s1)).
  - destruct r1 as [|x r]; cbn [length] in L; [lia|]. destruct (IH r r2 n ltac:(lia)) as [st' E].
    exists st'. cbn [fst snd]. rewrite E. reflexivity.
  - destruct r2 as [|x r]; cbn [length] in L; [lia|]. destruct (IH r1 r n ltac:(lia)) as [st' E].
    exists st'. cbn [fst snd]. rewrite E. reflexivity.
Qed.

(** ** Comparisons *)
Lemma all_runs q {T} want (s : h_set T) l : sound (hs_map s) -> runs q (h_all want s l) (fun _ => True).
Proof.
  intros H. induction l as [|x r IH]; cbn [h_all]; [apply runs_ret; exact I|].
  eapply runs_then; [apply contains_runs, H|]. intros b _. destruct (Bool.eqb b want); [exact IH|apply runs_ret; exact I].
Qed.

Lemma relations_run q {T} (s1 s2 : h_set T) : sound (hs_map s1) -> sound (hs_map s2) ->
  forall x, In x [h_is_disjoint s1 s2; h_is_subset s1 s2; h_is_superset s1 s2; h_set_eq s1 s2] -> runs q x (fun _ => True).
Proof.
  intros H1 H2 x. unfold h_is_disjoint, h_is_subset, h_is_superset, h_set_eq.
  intros [<-|[<-|[<-|[<-|[]]]]]; try destruct (Nat.leb _ _); try destruct (negb _); auto using all_runs; apply runs_ret; exact I.
Qed.

(** ** The plain model *)
Lemma can_unret {A B} (x : hostile A) (f : A -> B) r : (forall a b, f a = f b -> a = b) ->
  can (andthen x (fun a => ret (f a))) (fmap f r) -> can x r.
Proof.
  intros I [l [Q H]]. exists l. split; auto. intros adv n F. specialize (H adv n F). unfold andthen, ret in H.
  destruct (x adv n) as [[a n']| |], r as [b| |]; cbn [fmap bind] in H; try discriminate; auto.
  assert (E1 : f a = f b) by congruence. assert (E2 : n' = (n + length l)%nat) by congruence. rewrite E2, (I _ _ E1). reflexivity.
Qed.

Definition fits {T} (s : h_set T) (p : set_val T) : Prop :=
  hs_items s = sv_items p /\ hs_len s = sv_len p /\ forall x, can (h_contains s) (sv_contains p x) /\ sv_contains p x <> Panic.

Lemma emulates_contains {M T} (ops : map_ops M T unit T) (any : M -> any_map T unit) m x facade : emulates ops any (fun _ => True) ->
  can (h_contains {| hs_map := any m; hs_facade := facade |}) (if facade then set_contains ops m x else set_contains_via_get ops m x) /\
  (if facade then set_contains ops m x else set_contains_via_get ops m x) <> Panic.
Proof.
  intros H. unfold h_contains. cbn [hs_facade hs_map]. destruct facade.
  - destruct (H x RqContains m I) as [A [B _]]. cbn [h_request plain_request] in A, B. unfold set_contains. split.
    + apply (can_unret _ (fun b => (@RpBool T unit b, any m))); [intros a b E; congruence|].
      eapply can_eq; [exact A|]. destruct (mo_contains_key ops m x); reflexivity.
    + intros E. rewrite E in B. apply B. reflexivity.
  - destruct (H x RqGetKeyValue m I) as [A [B _]]. cbn [h_request plain_request] in A, B. unfold set_contains_via_get, set_get. split.
    + eapply can_eq; [apply can_then with (f := fun o => Ok (is_some (option_map fst o)))|].
      * apply (can_unret _ (fun b => (@RpEntry T unit b, any m))); [intros a b E; congruence|].
        eapply can_eq; [exact A|]. instantiate (1 := mo_get_key_value ops m x). destruct (mo_get_key_value ops m x); reflexivity.
      * intros o _. apply can_ret.
      * destruct (mo_get_key_value ops m x); reflexivity.
    + intros E. destruct (mo_get_key_value ops m x); cbn [fmap bind] in *; congruence.
Qed.

Lemma plain_fits {T} (t : traits T T) (s : h_set T) : sixty_four_bits t -> fits s (plain_set t s).
Proof.
  intros [_ [_ [B3 B4]]]. split; [reflexivity|]. split; [reflexivity|]. intros x. destruct s as [m facade]. unfold plain_set. cbn [sv_contains hs_map hs_facade].
  assert (H : forall q, exists h, Ok (t_hashQ t q) = Ok h /\ h < two64) by (intros q; exists (t_hashQ t q); auto).
  destruct m as [m|m|m|m|m|m]; cbv zeta.
  - apply (emulates_contains _ AnyScan), emulates_scan.
  - apply (emulates_contains _ AnyOrdered), emulates_ordered.
  - apply (emulates_contains _ AnyDense), emulates_dense; auto.
  - apply (emulates_contains _ AnySparse), emulates_sparse; auto.
  - apply (emulates_contains _ AnyHash), emulates_hash; auto.
  - apply (emulates_contains _ AnyNoCollisions), emulates_nc; auto.
Qed.

Definition as_event {T} (o : option T) : event T := match o with Some x => Item x | None => Done end.

Lemma can_where {T} want (s : h_set T) (p : set_val T) (f : T -> res bool) : fits s p ->
  (forall x, f x = fmap (fun b => Bool.eqb b want) (sv_contains p x)) -> forall rest,
  can (h_where want s rest) (fmap (fun r => (as_event (fst r), snd r)) (next_where f rest)).
Proof.
  intros [_ [_ HC]] HF. induction rest as [|x r IH]; cbn [h_where next_where]; [apply can_ret|].
  destruct (HC x) as [[l [Q H]] NP]. rewrite HF. destruct (sv_contains p x) as [b| |]; cbn [fmap bind]; [|congruence|].
  - destruct (Bool.eqb b want) eqn:E.
    + exists l. split; auto. intros adv n F. rewrite (H adv n F), E. reflexivity.
    + destruct IH as [l2 [Q2 H2]]. exists (l ++ l2). split; [apply Forall_app; auto|]. intros adv n F. apply follows_app in F.
      destruct F as [F1 F2]. rewrite (H adv n F1), E, (H2 adv _ F2), app_length, Nat.add_assoc. reflexivity.
  - exists l. split; auto. intros adv n F. rewrite (H adv n F). reflexivity.
Qed.

Lemma can_where_not {T} (s : h_set T) (p : set_val T) rest : fits s p ->
  can (h_where false s rest) (fmap (fun r => (as_event (fst r), snd r)) (next_where (fun x => fmap negb (sv_contains p x)) rest)).
Proof. intros H. eapply can_where; [exact H|]. intros x. destruct (sv_contains p x) as [[|]| |]; reflexivity. Qed.

Lemma can_where_yes {T} (s : h_set T) (p : set_val T) rest : fits s p ->
  can (h_where true s rest) (fmap (fun r => (as_event (fst r), snd r)) (next_where (sv_contains p) rest)).
Proof. intros H. eapply can_where; [exact H|]. intros x. destruct (sv_contains p x) as [[|]| |]; reflexivity. Qed.

(** The two iterators are in corresponding states and stay so. *)
Definition simulated {T St P} (next : St -> hostile (event T * St)) (pnext : P -> res (option T * P)) (to : P -> St) (inv : P -> Prop) : Prop :=
  forall p, inv p -> can (next (to p)) (fmap (fun r => (as_event (fst r), to (snd r))) (pnext p)) /\
    forall r, pnext p = Ok r -> inv (snd r).

Lemma can_calls {T St P} (next : St -> hostile (event T * St)) (pnext : P -> res (option T * P)) to inv : simulated next pnext to inv ->
  forall k p, inv p -> can (q <~ h_calls next k (to p) ;; ret (fst q)) (plain_calls pnext k p).
Proof.
  intros HS. induction k as [|k IH]; intros p I; cbn [h_calls plain_calls].
  - eapply can_ok_then; [apply can_ret|]. apply can_ret.
  - destruct (HS p I) as [C I'].
    assert (D : can (e <~ next (to p) ;; l <~ (q <~ h_calls next k (snd e) ;; ret (fst q)) ;; ret (fst e :: l))
      (p0 <- pnext p ;; l <- plain_calls pnext k (snd p0) ;; Ok (as_event (fst p0) :: l))).
    { destruct (pnext p) as [[o p']| |]; cbn [fmap bind fst snd] in *.
      - eapply can_ok_then; [exact C|]. cbn [fst snd].
        eapply can_eq; [apply can_fmap, (IH p' (I' _ eq_refl))|]. destruct (plain_calls pnext k p'); reflexivity.
      - apply (can_then (next (to p)) _ Panic (fun _ => Panic)); [exact C|discriminate].
      - apply (can_then (next (to p)) _ UB (fun _ => UB)); [exact C|discriminate]. }
    destruct D as [l [Q D]]. exists l. split; auto. intros adv n F. etransitivity; [|exact (D adv n F)]. unfold andthen, ret.
    destruct (next (to p) adv n) as [[[e st] n']| |]; auto. cbn [fst snd]. destruct (h_calls next k st adv n') as [[[evs st'] n'']| |]; auto.
Qed.

Lemma union_simulated {T} (s1 s2 : h_set T) p1 p2 : fits s1 p1 -> fits s2 p2 ->
  simulated h_union_next union_next (fun p => {| hu_s1 := s1; hu_rest1 := un_rest1 p; hu_s2 := s2; hu_rest2 := un_rest2 p |})
    (fun p => un_s1 p = p1 /\ un_s2 p = p2).
Proof.
  intros F1 F2 [q1 r1 q2 r2] [E1 E2]. cbn [un_s1 un_s2] in E1, E2. subst q1 q2.
  unfold h_union_next, union_next, hu_with1, hu_with2, un_with1, un_with2. cbn [hu_s1 hu_rest1 hu_s2 hu_rest2 un_s1 un_rest1 un_s2 un_rest2].
  pose proof F1 as [_ [L1 _]]. pose proof F2 as [_ [L2 _]]. rewrite L1, L2.
  destruct (Nat.ltb (sv_len p2) (sv_len p1)).
  - destruct r1 as [|x r]; [|split; [apply can_ret|intros o E; injection E as <-; auto]]. split.
    + eapply can_eq; [apply can_fmap, can_where_not, F1|]. destruct (next_where _ r2) as [[o r']| |]; reflexivity.
    + intros o E. destruct (next_where _ r2) as [[o' r']| |]; try discriminate. injection E as <-. auto.
  - destruct r2 as [|x r]; [|split; [apply can_ret|intros o E; injection E as <-; auto]]. split.
    + eapply can_eq; [apply can_fmap, can_where_not, F2|]. destruct (next_where _ r1) as [[o r']| |]; reflexivity.
    + intros o E. destruct (next_where _ r1) as [[o' r']| |]; try discriminate. injection E as <-. auto.
Qed.

Lemma difference_simulated {T} (s2 : h_set T) p2 : fits s2 p2 ->
  simulated h_difference_next difference_next (fun p => {| hd_rest1 := df_rest1 p; hd_s2 := s2 |}) (fun p => df_s2 p = p2).
Proof.
  intros F2 [r1 q2] E2. cbn [df_s2] in E2. subst q2. unfold h_difference_next, difference_next. cbn [hd_rest1 hd_s2 df_rest1 df_s2]. split.
  - eapply can_eq; [apply can_fmap, can_where_not, F2|]. destruct (next_where _ r1) as [[o r']| |]; reflexivity.
  - intros o E. destruct (next_where _ r1) as [[o' r']| |]; try discriminate. injection E as <-. reflexivity.
Qed.

Lemma intersection_simulated {T} (s1 s2 : h_set T) p1 p2 : fits s1 p1 -> fits s2 p2 ->
  simulated h_intersection_next intersection_next (fun p => {| hi_s1 := s1; hi_rest1 := in_rest1 p; hi_s2 := s2; hi_rest2 := in_rest2 p |})
    (fun p => in_s1 p = p1 /\ in_s2 p = p2).
Proof.
  intros F1 F2 [q1 r1 q2 r2] [E1 E2]. cbn [in_s1 in_s2] in E1, E2. subst q1 q2.
  unfold h_intersection_next, intersection_next. cbn [hi_s1 hi_rest1 hi_s2 hi_rest2 in_s1 in_rest1 in_s2 in_rest2].
  pose proof F1 as [_ [L1 _]]. pose proof F2 as [_ [L2 _]]. rewrite L1, L2.
  destruct (Nat.ltb (sv_len p1) (sv_len p2)); split.
  - eapply can_eq; [apply can_fmap, can_where_yes, F2|]. destruct (next_where _ r1) as [[o r']| |]; reflexivity.
  - intros o E. destruct (next_where _ r1) as [[o' r']| |]; try discriminate. injection E as <-. auto.
  - eapply can_eq; [apply can_fmap, can_where_yes, F1|]. destruct (next_where _ r2) as [[o r']| |]; reflexivity.
  - intros o E. destruct (next_where _ r2) as [[o' r']| |]; try discriminate. injection E as <-. auto.
Qed.

Definition symmetric_to {T} (s1 s2 : h_set T) (p : symmetric_difference_st T) : h_symmetric_difference T :=
  {| hx_a := option_map (fun a => {| hd_rest1 := df_rest1 a; hd_s2 := s2 |}) (sd_a p); hx_b := {| hd_rest1 := df_rest1 (sd_b p); hd_s2 := s1 |} |}.

Lemma symmetric_simulated {T} (s1 s2 : h_set T) p1 p2 : fits s1 p1 -> fits s2 p2 ->
  simulated h_symmetric_difference_next symmetric_difference_next (symmetric_to s1 s2)
    (fun p => (forall a, sd_a p = Some a -> df_s2 a = p2) /\ df_s2 (sd_b p) = p1).
Proof.
  intros F1 F2 [a b] [Ea Eb]. cbn [sd_a sd_b] in Ea, Eb.
  destruct (difference_simulated s1 p1 F1 b Eb) as [CB IB].
  assert (FB : can (p <~ h_difference_next {| hd_rest1 := df_rest1 b; hd_s2 := s1 |} ;; ret (fst p, {| hx_a := None; hx_b := snd p |}))
      (fmap (fun r => (as_event (fst r), symmetric_to s1 s2 (snd r))) (fmap (fun p => (fst p, {| sd_a := None; sd_b := snd p |})) (difference_next b))) /\
    forall r, fmap (fun p => (fst p, {| sd_a := None; sd_b := snd p |})) (difference_next b) = Ok r ->
      (forall a, sd_a (snd r) = Some a -> df_s2 a = p2) /\ df_s2 (sd_b (snd r)) = p1).
  { split.
    - eapply can_eq; [apply can_fmap, CB|]. destruct (difference_next b) as [[o b']| |]; reflexivity.
    - intros r E. destruct (difference_next b) as [[o b']| |]; try discriminate. injection E as <-. cbn [snd sd_a sd_b]. split; [discriminate|].
      apply (IB _ eq_refl). }
  unfold h_symmetric_difference_next, symmetric_difference_next, symmetric_to at 1 2. cbn [sd_a sd_b hx_a hx_b]. cbv zeta.
  destruct a as [a|]; cbn [option_map]; [|exact FB]. destruct (difference_simulated s2 p2 F2 a (Ea a eq_refl)) as [CA IA]. split.
  - eapply can_eq; [eapply can_then with (f := fun x => match fst x with
        | Done => fmap (fun r => (as_event (fst r), symmetric_to s1 s2 (snd r))) (fmap (fun p => (fst p, {| sd_a := None; sd_b := snd p |})) (difference_next b))
        | e => Ok (e, {| hx_a := Some (snd x); hx_b := {| hd_rest1 := df_rest1 b; hd_s2 := s1 |} |}) end); [exact CA|]|].
    + intros [e d] _. cbn [fst snd]. destruct e; [apply can_ret|apply FB|apply can_ret].
    + destruct (difference_next a) as [[[x|] a']| |]; reflexivity.
  - intros r E. destruct (difference_next a) as [[[x|] a']| |]; cbn [bind fst snd] in E; try discriminate.
    + injection E as <-. cbn [snd sd_a sd_b]. split; auto. intros a0 E0. injection E0 as <-. apply (IA _ eq_refl).
    + apply FB. exact E.
Qed.

Lemma can_all {T} want (s : h_set T) (p : set_val T) (f : T -> res bool) : fits s p ->
  (forall x, f x = fmap (fun b => Bool.eqb b want) (sv_contains p x)) -> forall l, can (h_all want s l) (all_items f l).
Proof.
  intros [_ [_ HC]] HF. induction l as [|x r IH]; cbn [h_all all_items]; [apply can_ret|]. rewrite HF.
  eapply can_eq; [eapply can_then with (f := fun b => if Bool.eqb b want then all_items f r else Ok false); [apply (proj1 (HC x))|]|].
  - intros b _. destruct (Bool.eqb b want); [exact IH|apply can_ret].
  - destruct (sv_contains p x); reflexivity.
Qed.

Lemma relations_can {T} (s1 s2 : h_set T) p1 p2 : fits s1 p1 -> fits s2 p2 ->
  can (h_is_disjoint s1 s2) (is_disjoint p1 p2) /\ can (h_is_subset s1 s2) (is_subset p1 p2) /\
  can (h_is_superset s1 s2) (is_superset p1 p2) /\ can (h_set_eq s1 s2) (set_eq p1 p2).
Proof.
  intros F1 F2. pose proof F1 as [I1 [L1 _]]. pose proof F2 as [I2 [L2 _]].
  unfold h_is_disjoint, h_is_subset, h_is_superset, h_set_eq, is_disjoint, is_subset, is_superset, set_eq. rewrite I1, I2, L1, L2.
  assert (N : forall p : set_val T, forall x, fmap negb (sv_contains p x) = fmap (fun b => Bool.eqb b false) (sv_contains p x))
    by (intros p x; destruct (sv_contains p x) as [[|]| |]; reflexivity).
  assert (Y : forall p : set_val T, forall x, sv_contains p x = fmap (fun b => Bool.eqb b true) (sv_contains p x))
    by (intros p x; destruct (sv_contains p x) as [[|]| |]; reflexivity).
  repeat split; try destruct (Nat.leb _ _); try destruct (negb _); try apply can_ret; eapply can_all; eauto.
Qed.

(** Given [can], there is a stream. *)
Lemma calls_covered {T St P} (next : St -> hostile (event T * St)) (pnext : P -> res (option T * P)) to inv k p st :
  simulated next pnext to inv -> inv p -> to p = st ->
  exists adv, (forall i, a_panics (adv i) = false) /\ fmap (fun r => fst (fst r)) (h_calls next k st adv 0%nat) = plain_calls pnext k p.
Proof.
  intros S I <-. destruct (can_adv _ _ (can_calls next pnext to inv S k p I)) as [adv [Q E]]. exists adv. split; auto. rewrite <- E.
  unfold andthen, ret. destruct (h_calls next k (to p) adv 0%nat) as [[[evs st'] n']| |]; reflexivity.
Qed.

Lemma can_some {A} (x : hostile A) r : can x r -> exists adv, (forall i, a_panics (adv i) = false) /\ fmap (fun y => fst y) (x adv 0%nat) = r.
Proof. apply can_adv. Qed.

Lemma iterators_covered {T} (t : traits T T) (s1 s2 : h_set T) k : sixty_four_bits t ->
  let p1 := plain_set t s1 in let p2 := plain_set t s2 in
  let some_stream A (x : hostile A) B (f : A -> B) (r : res B) := exists adv, (forall i, a_panics (adv i) = false) /\ fmap (fun y => f (fst y)) (x adv 0%nat) = r in
  some_stream _ (h_calls h_union_next k (h_union_new s1 s2)) _ fst (plain_calls union_next k (union_new p1 p2)) /\
  some_stream _ (h_calls h_difference_next k (h_difference_new s1 s2)) _ fst (plain_calls difference_next k (difference_new p1 p2)) /\
  some_stream _ (h_calls h_intersection_next k (h_intersection_new s1 s2)) _ fst (plain_calls intersection_next k (intersection_new p1 p2)) /\
  some_stream _ (h_calls h_symmetric_difference_next k (h_symmetric_difference_new s1 s2)) _ fst
    (plain_calls symmetric_difference_next k (symmetric_difference_new p1 p2)) /\
  some_stream _ (h_is_disjoint s1 s2) _ (fun b => b) (is_disjoint p1 p2) /\
  some_stream _ (h_is_subset s1 s2) _ (fun b => b) (is_subset p1 p2) /\
  some_stream _ (h_is_superset s1 s2) _ (fun b => b) (is_superset p1 p2) /\
  some_stream _ (h_set_eq s1 s2) _ (fun b => b) (set_eq p1 p2).
Proof.
  intros HB. cbv zeta. pose proof (plain_fits t s1 HB) as F1. pose proof (plain_fits t s2 HB) as F2.
  destruct (relations_can s1 s2 _ _ F1 F2) as [R1 [R2 [R3 R4]]].
  split; [|split; [|split; [|split; [|repeat split; apply can_some; assumption]]]].
  - eapply calls_covered; [apply (union_simulated s1 s2 _ _ F1 F2)|split; reflexivity|reflexivity].
  - eapply calls_covered; [apply (difference_simulated s2 _ F2)|reflexivity|reflexivity].
  - eapply calls_covered; [apply (intersection_simulated s1 s2 _ _ F1 F2)|split; reflexivity|reflexivity].
  - eapply calls_covered; [apply (symmetric_simulated s1 s2 _ _ F1 F2)|split; [|reflexivity]|reflexivity].
    intros a E. injection E as <-. reflexivity.
Qed.
