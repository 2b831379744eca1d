(** Exactly when the two limitations of [get_disjoint_mut] (C15) and of [Union::size_hint] (C23) show. *)
From Coq Require Import Permutation ZArith ZifyNat ZifyN ZifyBool.
From Verif Require Import Prelude Spec ModelUtils ModelAnalyzers ModelTables ModelMaps ModelIter SpecSets SpecMade
  ProofsBase ProofsMaps ProofsFz ProofsIter ProofsMade ProofsProps.

Section Disjoint.
Context {M K V Q : Type} (ops : map_ops M K V Q) (eqK : K -> K -> bool) (eqv : Q -> K -> bool) (m : M) (input : list (K * V)).
Hypothesis MD : made ops eqK eqv m input.

Let LE : lawful_eq eqK := proj1 (made_lawful _ _ _ _ _ MD).
Let LV : lawful_equivalent eqK eqv := proj2 (made_lawful _ _ _ _ _ MD).
Let B : built ops eqK eqv m input := made_built _ _ _ _ _ MD.

Lemma entry_in_input e : In e (mo_entries ops m) -> In e input.
Proof.
  intros H. apply (Permutation_in _ (Permutation_sym (made_entries _ _ _ _ _ MD))) in H. revert H. clear. 
  induction input as [|x r IH]; cbn [survivors]; auto. destruct (existsb _ _); cbn; intuition.
Qed.

Lemma distinct_nth {A} (eqA : A -> A -> bool) : lawful_eq eqA -> forall l, distinct eqA l -> forall i j x y,
  nth_error l i = Some x -> nth_error l j = Some y -> eqA x y = true -> i = j.
Proof.
  intros L l. induction l as [|a l IH]; intros D i j x y Hi Hj E; [destruct i; discriminate|].
  cbn [distinct] in D. destruct D as [D1 D2]. destruct i as [|i], j as [|j]; cbn in Hi, Hj; auto.
  - injection Hi as <-. apply nth_error_In in Hj. rewrite (D1 y Hj) in E. discriminate.
  - injection Hj as <-. apply nth_error_In in Hi. apply (eq_sym_law _ L) in E. rewrite (D1 x Hi) in E. discriminate.
  - f_equal. eapply IH; eauto.
Qed.

Lemma finds q p : mo_get_mut ops m q = Ok (Some p) -> exists e, nth_error (mo_entries ops m) p = Some e /\ eqv q (fst e) = true.
Proof.
  intros H0. destruct (map_ok_lookup ops eqv m q (built_ok _ _ _ _ _ B)) as [o [E1 [_ [_ [_ E5]]]]].
  rewrite H0 in E1. injection E1 as <-. exact E5.
Qed.

Lemma found q e : In e input -> eqv q (fst e) = true -> exists p, mo_get_mut ops m q = Ok (Some p).
Proof.
  intros H E. destruct (made_get_mut _ _ _ _ _ MD q) as [o [E1 [E2 E3]]]. rewrite E1. destruct o as [p|]; [eauto|].
  exfalso. destruct (spec_entry eqv input q) as [x|] eqn:ES; [discriminate|]. unfold spec_entry in ES. 
  rewrite last_match_None in ES. rewrite (ES e H) in E. discriminate.
Qed.

Lemma share_place x y (e : K * V) p p' : eqv x (fst e) = true -> eqv y (fst e) = true ->
  mo_get_mut ops m x = Ok (Some p) -> mo_get_mut ops m y = Ok (Some p') -> p = p'.
Proof.
  intros Ex Ey Hp Hp'. destruct (finds _ _ Hp) as [e1 [N1 V1]], (finds _ _ Hp') as [e2 [N2 V2]].
  eapply (distinct_nth (same_key eqK)); eauto using lawful_same_key, made_distinct.
  unfold same_key. rewrite (LV _ _ _ V1) in Ex. rewrite (LV _ _ _ V2) in Ey.
  eapply (eq_trans_law _ LE); [exact Ex|]. apply (eq_sym_law _ LE). exact Ey.
Qed.

Lemma aliases eqQ keys l : get_disjoint_mut ops eqQ m keys = Ok l -> forall i j x y,
  nth_error keys i = Some x -> nth_error keys j = Some y ->
  ((exists p, nth_error l i = Some (Some p) /\ nth_error l j = Some (Some p)) <->
   exists e, In e input /\ eqv x (fst e) = true /\ eqv y (fst e) = true).
Proof.
  intros HG i j x y Hi Hj. unfold get_disjoint_mut in HG. destruct (has_duplicates eqQ keys); [discriminate|].
  unfold get_disjoint_unchecked_mut in HG. apply mapM_Forall2 in HG.
  assert (HK : forall i q, nth_error keys i = Some q -> exists o, nth_error l i = Some o /\ mo_get_mut ops m q = Ok o).
  { clear -HG. induction HG as [|q o r r' Ho HF IH]; intros [|i] q' Hi; cbn in *; try discriminate; eauto. injection Hi as <-. eauto. }
  destruct (HK i x Hi) as [o [Lo Go]], (HK j y Hj) as [o' [Lo' Go']]. rewrite Lo, Lo'. split.
  - intros [p [A C]]. injection A as ->. injection C as ->.
    destruct (finds _ _ Go) as [e [N1 V1]], (finds _ _ Go') as [e2 [N2 V2]]. rewrite N1 in N2. injection N2 as <-.
    exists e. split; [|auto]. apply entry_in_input. eapply nth_error_In; eauto.
  - intros [e [H1 [H2 H3]]]. destruct (found x e H1 H2) as [p Hp], (found y e H1 H3) as [p' Hp'].
    pose proof (share_place _ _ _ _ _ H2 H3 Hp Hp') as <-. exists p. split; congruence.
Qed.

Lemma safe_exactly eqQ :
  (forall keys l i j p, get_disjoint_mut ops eqQ m keys = Ok l -> nth_error l i = Some (Some p) -> nth_error l j = Some (Some p) -> i = j) <->
  (forall q q' e, In e input -> eqv q (fst e) = true -> eqv q' (fst e) = true -> eqQ q q' = true).
Proof.
  split.
  - intros H q q' e He E E'. destruct (eqQ q q') eqn:D; [reflexivity|]. exfalso.
    assert (HN : ~ exists i j x y, (i < j)%nat /\ nth_error [q; q'] i = Some x /\ nth_error [q; q'] j = Some y /\ eqQ x y = true).
    { intros (i & j & x & y & Hij & Hx & Hy & Exy). destruct i as [|[|i]], j as [|[|j]]; cbn in Hx, Hy; try lia; try discriminate;
        try (destruct j; discriminate); try (destruct i; discriminate). congruence. }
    destruct (proj2 (made_disjoint _ _ _ _ _ MD eqQ [q; q']) HN) as [l [HG _]].
    destruct (proj2 (aliases eqQ _ l HG 0 1 q q' eq_refl eq_refl)) as [p [H1 H2]]; [eauto|].
    specialize (H _ _ _ _ _ HG H1 H2). discriminate.
  - intros H keys l i j p HG Hi Hj. unfold get_disjoint_mut in HG. destruct (has_duplicates eqQ keys) eqn:D; [discriminate|].
    assert (HG' : get_disjoint_mut ops eqQ m keys = Ok l) by (unfold get_disjoint_mut; rewrite D; exact HG).
    unfold get_disjoint_unchecked_mut in HG. apply mapM_Forall2 in HG.
    assert (HK : forall i o, nth_error l i = Some o -> exists q, nth_error keys i = Some q).
    { clear -HG. induction HG as [|q o r r' Ho HF IH]; intros [|i] o' Hi; cbn in *; try discriminate; eauto. }
    assert (HX : forall i j, (i < j)%nat -> nth_error l i = Some (Some p) -> nth_error l j = Some (Some p) -> False).
    { clear i j Hi Hj. intros i j Hij Hi Hj. destruct (HK _ _ Hi) as [x Hx], (HK _ _ Hj) as [y Hy].
      destruct (proj1 (aliases eqQ keys l HG' i j x y Hx Hy)) as [e [H1 [H2 H3]]]; [eauto|].
      enough (has_duplicates eqQ keys = true) by congruence. apply has_duplicates_spec. exists i, j, x, y. eauto 10. }
    destruct (Nat.lt_trichotomy i j) as [L|[L|L]]; [exfalso; eauto|auto|exfalso; eauto].
Qed.
End Disjoint.

Section Union.
Context {T : Type} (eqT : T -> T -> bool) (s1 s2 : set_val T).
Hypothesis LE : lawful_eq eqT.
Hypothesis L1 : lawful_set eqT s1.
Hypothesis L2 : lawful_set eqT s2.

Lemma takes_end {S A} (next : S -> res (option A * S)) st l x st1 st2 :
  takes next st l st1 -> next st1 = Ok (Some x, st2) -> takes next st (l ++ [x]) st2.
Proof. induction 1; intros E; cbn; [econstructor; eauto; constructor|econstructor; eauto]. Qed.

(** Where the iterator stands: in the larger set, or after it in what is left of the smaller one. *)
Definition stands (pre : list T) (u : union_st T) : Prop :=
  un_s1 u = s1 /\ un_s2 u = s2 /\
  if Nat.ltb (sv_len s2) (sv_len s1) then
    (sv_items s1 = pre ++ un_rest1 u /\ un_rest2 u = sv_items s2) \/
    (un_rest1 u = [] /\ (length (sv_items s1) < length pre)%nat /\ exists skipped, sv_items s2 = skipped ++ un_rest2 u)
  else
    (sv_items s2 = pre ++ un_rest2 u /\ un_rest1 u = sv_items s1) \/
    (un_rest2 u = [] /\ (length (sv_items s2) < length pre)%nat /\ exists skipped, sv_items s1 = skipped ++ un_rest1 u).

Lemma next_where_suffix {A} (p : A -> res bool) l o r : next_where p l = Ok (o, r) -> exists skipped, l = skipped ++ r.
Proof.
  revert o r. induction l as [|x l IH]; cbn; intros o r E.
  - injection E as <- <-. exists []. reflexivity.
  - destruct (p x) as [b| |]; cbn in E; try discriminate. destruct b.
    + injection E as <- <-. exists [x]. reflexivity.
    + destruct (IH _ _ E) as [sk ->]. exists (x :: sk). reflexivity.
Qed.

Lemma stands_next pre u x u' : stands pre u -> union_next u = Ok (Some x, u') -> stands (pre ++ [x]) u'.
Proof.
  intros [H1 [H2 H3]] E. unfold union_next in E. rewrite H1, H2 in E. unfold stands.
  destruct (Nat.ltb (sv_len s2) (sv_len s1)).
  - destruct (un_rest1 u) as [|y r] eqn:Er.
    + destruct (next_where _ (un_rest2 u)) as [[o r]| |] eqn:EN; cbn in E; try discriminate. injection E as -> <-. cbn.
      split; [auto|]. split; [auto|]. right. split; [auto|]. apply next_where_suffix in EN. destruct EN as [sk EN].
      rewrite app_length. cbn. destruct H3 as [[A C]|[_ [A [sk' C]]]].
      * rewrite A, app_length. cbn. split; [lia|]. exists sk. congruence.
      * split; [lia|]. exists (sk' ++ sk). rewrite C, EN, app_assoc. reflexivity.
    + injection E as <- <-. cbn. split; [auto|]. split; [auto|]. left. destruct H3 as [[A C]|[A _]]; [|discriminate].
      rewrite A, <- app_assoc. auto.
  - destruct (un_rest2 u) as [|y r] eqn:Er.
    + destruct (next_where _ (un_rest1 u)) as [[o r]| |] eqn:EN; cbn in E; try discriminate. injection E as -> <-. cbn.
      split; [auto|]. split; [auto|]. right. split; [auto|]. apply next_where_suffix in EN. destruct EN as [sk EN].
      rewrite app_length. cbn. destruct H3 as [[A C]|[_ [A [sk' C]]]].
      * rewrite A, app_length. cbn. split; [lia|]. exists sk. congruence.
      * split; [lia|]. exists (sk' ++ sk). rewrite C, EN, app_assoc. reflexivity.
    + injection E as <- <-. cbn. split; [auto|]. split; [auto|]. left. destruct H3 as [[A C]|[A _]]; [|discriminate].
      rewrite A, <- app_assoc. auto.
Qed.

Lemma takes_stands u pre u' : takes union_next u pre u' -> forall pre0, stands pre0 u -> stands (pre0 ++ pre) u'.
Proof.
  induction 1 as [u|u x u1 l u2 E HT IH]; intros pre0 H; [rewrite app_nil_r; auto|].
  change (x :: l) with ([x] ++ l). rewrite app_assoc. apply IH. eapply stands_next; eauto.
Qed.

Lemma common_count s s' c : lawful_set eqT s -> lawful_set eqT s' -> distinct eqT c ->
  (forall x, member eqT x c <-> elem eqT x s /\ elem eqT x s') -> length (filter (mem eqT (sv_items s)) (sv_items s')) = length c.
Proof.
  intros L L' D H. apply Nat.le_antisymm; apply (distinct_incl_length eqT LE); auto.
  - apply (distinct_filter eqT). apply (set_distinct_law _ _ L').
  - intros x Hx. apply filter_In in Hx. destruct Hx as [H1 H2]. apply H. unfold elem. rewrite (mem_iff eqT) in H2.
    split; auto. apply (member_In eqT LE); auto.
  - intros x Hx. apply (member_In eqT LE) in Hx. apply H in Hx. destruct Hx as [H1 H2].
    apply (member_filter eqT); [apply (mem_cong eqT LE)|]. rewrite (mem_iff eqT). split; auto.
Qed.

Lemma some_filtered (p : T -> bool) l : (length (filter (fun x => negb (p x)) l) < length l)%nat <-> exists x, In x l /\ p x = true.
Proof.
  rewrite <- (filter_split p l). split.
  - intros H. destruct (filter p l) as [|x r] eqn:E; [cbn in H; lia|]. exists x. apply filter_In. rewrite E. left. auto.
  - intros [x Hx]. apply filter_In in Hx. destruct (filter p l); [destruct Hx|cbn; lia].
Qed.

Lemma union_lower_exact pre st l c : takes union_next (union_new s1 s2) pre st -> yields union_next st l ->
  distinct eqT c -> (forall x, member eqT x c <-> elem eqT x s1 /\ elem eqT x s2) ->
  ((length pre <= Nat.max (sv_len s1) (sv_len s2))%nat ->
     (N.of_nat (length l) < fst (union_size_hint st) <-> (Nat.max (sv_len s1) (sv_len s2) < length pre + length c)%nat)) /\
  ((Nat.max (sv_len s1) (sv_len s2) < length pre)%nat ->
     (N.of_nat (length l) < fst (union_size_hint st) <->
      exists x, In x (un_rest1 st ++ un_rest2 st) /\ elem eqT x s1 /\ elem eqT x s2)).
Proof.
  intros HT HY D HC.
  assert (H0 : stands [] (union_new s1 s2)).
  { split; [reflexivity|]. split; [reflexivity|]. destruct (Nat.ltb (sv_len s2) (sv_len s1)); left; split; reflexivity. }
  pose proof (takes_stands _ _ _ HT _ H0) as HS. cbn [app] in HS. clear HT H0.
  destruct HS as [E1 [E2 HS]]. pose proof (union_sound eqT s1 s2 L1 L2) as HU.
  rewrite (yields_fun _ _ _ _ HY (sound_yields _ _ _ HU st (conj E1 E2))). clear HU HY l.
  unfold union_size_hint, un_out. cbn [it_size_hint slice_iter fst snd].
  pose proof (common_count s1 s2 c L1 L2 D HC) as C1.
  assert (C2 : length (filter (mem eqT (sv_items s2)) (sv_items s1)) = length c).
  { apply common_count; auto. intros x. rewrite HC. tauto. }
  rewrite (set_len_law _ _ L1), (set_len_law _ _ L2) in *.
  pose proof (filter_split (mem eqT (sv_items s1)) (un_rest2 st)) as F1. 
  pose proof (filter_split (mem eqT (sv_items s2)) (un_rest1 st)) as F2.
  destruct (Nat.ltb_spec (length (sv_items s2)) (length (sv_items s1))) as [HL|HL]; rewrite app_length; unfold notin.
  - destruct HS as [[A C]|[A [C [sk F]]]].
    + rewrite C in *. assert (length (sv_items s1) = length pre + length (un_rest1 st))%nat by (rewrite A, app_length; auto). lia.
    + rewrite A in *. cbn [length app]. split; [lia|]. intros _.
      pose proof (some_filtered (mem eqT (sv_items s1)) (un_rest2 st)) as SF.
      transitivity (length (filter (fun x => negb (mem eqT (sv_items s1) x)) (un_rest2 st)) < length (un_rest2 st))%nat; [lia|].
      rewrite SF. split; intros [x [Hx H]]; exists x; (split; [auto|]).
      * apply (mem_iff eqT) in H. split; [auto|]. apply (member_In eqT LE). rewrite F. apply in_or_app. auto.
      * apply (mem_iff eqT). apply H.
  - destruct HS as [[A C]|[A [C [sk F]]]].
    + rewrite C in *. assert (length (sv_items s2) = length pre + length (un_rest2 st))%nat by (rewrite A, app_length; auto). lia.
    + rewrite A in *. rewrite app_nil_r. cbn [length app]. split; [lia|]. intros _.
      pose proof (some_filtered (mem eqT (sv_items s2)) (un_rest1 st)) as SF.
      transitivity (length (filter (fun x => negb (mem eqT (sv_items s2) x)) (un_rest1 st)) < length (un_rest1 st))%nat; [lia|].
      rewrite SF. split; intros [x [Hx H]]; exists x; (split; [auto|]).
      * apply (mem_iff eqT) in H. split; [|auto]. apply (member_In eqT LE). rewrite F. apply in_or_app. auto.
      * apply (mem_iff eqT). apply H.
Qed.
End Union.
