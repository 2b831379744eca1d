(** Deduplication (utils/dedup.rs) computes the survivors. *)
From Verif Require Import Prelude Spec ModelUtils ProofsBase.
From Coq Require Import Permutation Sorted.

Lemma retain_survivors {T} (same : T -> T -> bool) dupes l : forall i0,
  (forall k x, nth_error l k = Some x -> existsb (Nat.eqb (i0 + k)) dupes = existsb (same x) (skipn (S k) l)) ->
  retain_from i0 dupes l = survivors same l.
Proof.
  induction l as [|x r IH]; intros i0 H; cbn [retain_from survivors]; auto.
  pose proof (H 0%nat x eq_refl) as H0. rewrite Nat.add_0_r in H0. cbn [skipn] in H0. rewrite H0.
  assert (E : retain_from (S i0) dupes r = survivors same r).
  { apply IH. intros k y Hk. specialize (H (S k) y Hk). rewrite Nat.add_succ_r in H. exact H. }
  rewrite E. destruct (existsb (same x) r); reflexivity.
Qed.

Lemma retain_nil {T} (l : list T) : forall i, retain_from i [] l = l.
Proof. induction l; intros; cbn [retain_from existsb negb]; auto. f_equal. auto. Qed.

Lemma retain_guard {T} (l : list T) dupes :
  (if negb (is_nil dupes) then retain_from 0 dupes l else l) = retain_from 0 dupes l.
Proof. destruct dupes; cbn [is_nil negb]; auto. rewrite retain_nil. reflexivity. Qed.

Lemma survivors_short {T} (same : T -> T -> bool) l : (length l < 2)%nat -> survivors same l = l.
Proof. destruct l as [|x [|y r]]; cbn; auto; lia. Qed.

(** * using_eq *)
Lemma using_eq_inner_existsb {T} (cmp : T -> T -> bool) x l : using_eq_inner cmp x l = existsb (cmp x) l.
Proof. induction l; cbn; auto. rewrite IHl. destruct (cmp x a); auto. Qed.

Lemma using_eq_dupes_lt {T} (cmp : T -> T -> bool) l : forall i d j,
  (j < i)%nat -> existsb (Nat.eqb j) (using_eq_dupes cmp i l d) = existsb (Nat.eqb j) d.
Proof.
  induction l as [|x r IH]; intros i d j H; cbn [using_eq_dupes]; auto.
  rewrite IH by lia. destruct (using_eq_inner cmp x r); auto. cbn [existsb].
  destruct (Nat.eqb_spec j i); [lia|reflexivity].
Qed.

Lemma using_eq_dupes_spec {T} (cmp : T -> T -> bool) l : forall i d k x,
  (forall j, (i <= j)%nat -> existsb (Nat.eqb j) d = false) ->
  nth_error l k = Some x ->
  existsb (Nat.eqb (i + k)) (using_eq_dupes cmp i l d) = existsb (cmp x) (skipn (S k) l).
Proof.
  induction l as [|y r IH]; intros i d k x Hd Hk; [destruct k; discriminate|].
  cbn [using_eq_dupes]. destruct k as [|k].
  - cbn in Hk. inversion Hk; subst. rewrite using_eq_dupes_lt by lia. rewrite Nat.add_0_r.
    rewrite using_eq_inner_existsb. cbn [skipn]. destruct (existsb (cmp x) r).
    + cbn [existsb]. rewrite Nat.eqb_refl. reflexivity.
    + apply Hd. lia.
  - rewrite Nat.add_succ_r. rewrite <- Nat.add_succ_l. rewrite (IH (S i) _ k x); auto.
    intros j Hj. destruct (using_eq_inner cmp y r); [|apply Hd; lia]. cbn [existsb].
    rewrite Hd by lia. destruct (Nat.eqb_spec j i); [lia|reflexivity].
Qed.

Theorem using_eq_survivors {T} (entries : list T) cmp : using_eq entries cmp = survivors cmp entries.
Proof.
  unfold using_eq. destruct (Nat.leb_spec 2 (length entries)) as [_|H].
  - rewrite retain_guard. apply retain_survivors. intros k x Hk. cbn [plus].
    apply (using_eq_dupes_spec cmp entries 0 [] k x); auto.
  - rewrite survivors_short; auto.
Qed.

(** * sorted_and_dedupped *)
Section Sorted.
Context {T : Type} (cmp : T -> T -> comparison).
Hypothesis L : lawful_ord cmp.

Let same x y := is_eq (cmp x y).

Lemma cmp_Eq_sym x y : cmp x y = Eq -> cmp y x = Eq.
Proof. intros H. rewrite (cmp_opp_law _ L), H. reflexivity. Qed.

Lemma cmp_Gt_Lt x y : cmp x y = Gt <-> cmp y x = Lt.
Proof. rewrite (cmp_opp_law _ L x y). destruct (cmp x y); cbn; split; congruence. Qed.

Lemma cmp_le_trans x y z : cmp x y <> Gt -> cmp y z <> Gt -> cmp x z <> Gt.
Proof.
  intros H1 H2. destruct (cmp x y) eqn:E1; [|destruct (cmp y z) eqn:E2|congruence].
  - rewrite (cmp_eq_law _ L x y z E1). auto.
  - rewrite (cmp_opp_law _ L z x). apply cmp_Eq_sym in E2. rewrite (cmp_eq_law _ L z y x E2).
    apply cmp_Gt_Lt in E1. rewrite E1. cbn. discriminate.
  - rewrite (cmp_lt_law _ L x y z E1 E2). discriminate.
  - congruence.
Qed.

Lemma lawful_same : lawful_eq same.
Proof.
  unfold same. constructor.
  - intros x. rewrite (cmp_refl_law _ L). reflexivity.
  - intros x y H. destruct (cmp x y) eqn:E; try discriminate. rewrite (cmp_Eq_sym _ _ E). reflexivity.
  - intros x y z H1 H2. destruct (cmp x y) eqn:E; try discriminate. rewrite (cmp_eq_law _ L _ _ _ E). exact H2.
Qed.

Lemma stable_insert_perm x l : Permutation (x :: l) (stable_insert cmp x l).
Proof.
  induction l as [|y r IH]; cbn [stable_insert]; auto.
  destruct (cmp x y); auto. eapply perm_trans; [apply perm_swap|]. constructor. exact IH.
Qed.

Lemma stable_sort_perm l : Permutation l (stable_sort cmp l).
Proof.
  induction l as [|x r IH]; cbn; auto. eapply perm_trans; [|apply stable_insert_perm]. constructor. exact IH.
Qed.

Definition sle x y := cmp x y <> Gt.

Lemma stable_insert_sorted x l : StronglySorted sle l -> StronglySorted sle (stable_insert cmp x l).
Proof.
  induction l as [|y r IH]; intros H; cbn [stable_insert].
  - constructor; constructor.
  - inversion H as [|? ? H1 H2]; subst. destruct (cmp x y) eqn:E.
    1,2: constructor; [exact H|]; constructor; [unfold sle; congruence|];
      apply Forall_forall; intros z Hz; rewrite Forall_forall in H2;
      apply (cmp_le_trans x y z); [congruence|apply H2; auto].
    constructor; [auto|]. apply Forall_forall. intros z Hz.
    apply (Permutation_in _ (Permutation_sym (stable_insert_perm x r))) in Hz. destruct Hz as [->|Hz].
    + apply cmp_Gt_Lt in E. unfold sle. congruence.
    + rewrite Forall_forall in H2. auto.
Qed.

Lemma stable_sort_sorted l : StronglySorted sle (stable_sort cmp l).
Proof. induction l as [|x r IH]; cbn; [constructor|]. apply stable_insert_sorted, IH. Qed.

Lemma stable_insert_survivors x l :
  Permutation (survivors same (stable_insert cmp x l)) (survivors same (x :: l)).
Proof.
  induction l as [|y r IH]; cbn [stable_insert]; auto.
  destruct (cmp x y) eqn:E; auto.
  assert (Sxy : same x y = false) by (unfold same; rewrite E; reflexivity).
  assert (Syx : same y x = false) by (apply cmp_Gt_Lt in E; unfold same; rewrite E; reflexivity).
  change (survivors same (y :: stable_insert cmp x r)) with
    (if existsb (same y) (stable_insert cmp x r) then survivors same (stable_insert cmp x r)
     else y :: survivors same (stable_insert cmp x r)).
  rewrite <- (existsb_perm (same y) _ _ (stable_insert_perm x r)). cbn [existsb]. rewrite Syx. cbn [orb].
  cbn [survivors existsb]. rewrite Sxy. cbn [orb]. cbn [survivors] in IH.
  destruct (existsb (same y) r), (existsb (same x) r); auto.
  eapply perm_trans; [|apply perm_swap]. constructor. exact IH.
Qed.

Lemma stable_sort_survivors l : Permutation (survivors same (stable_sort cmp l)) (survivors same l).
Proof.
  induction l as [|x r IH]; cbn [stable_sort fold_right]; auto.
  eapply perm_trans; [apply stable_insert_survivors|]. fold (stable_sort cmp r). cbn [survivors].
  rewrite <- (existsb_perm (same x) _ _ (stable_sort_perm r)).
  destruct (existsb (same x) r); auto.
Qed.

Lemma sorted_next_existsb x y r : StronglySorted sle (x :: y :: r) -> existsb (same x) (y :: r) = same x y.
Proof.
  intros H. cbn [existsb]. destruct (same x y) eqn:E; auto. cbn [orb].
  apply existsb_false_forall. intros z Hz. inversion H as [|? ? H1 H2]; subst. inversion H1 as [|? ? H3 H4]; subst.
  rewrite Forall_forall in H2, H4. unfold same in *. destruct (cmp x z) eqn:E2; auto. exfalso.
  assert (Hxy : cmp x y = Lt).
  { specialize (H2 y (or_introl eq_refl)). unfold sle in H2. destruct (cmp x y); auto; [discriminate|congruence]. }
  specialize (H4 z Hz). unfold sle in H4.
  destruct (cmp y z) eqn:E3; [| |congruence].
  - apply cmp_Eq_sym in E3. rewrite (cmp_opp_law _ L) in Hxy. rewrite (cmp_opp_law _ L) in E2.
    apply cmp_Eq_sym in E3. rewrite (cmp_eq_law _ L y z x E3) in Hxy.
    destruct (cmp z x); cbn in *; congruence.
  - rewrite (cmp_lt_law _ L x y z Hxy E3) in E2. discriminate.
Qed.

Lemma adjacent_dupes_lt l : forall i d j,
  (j < i)%nat -> existsb (Nat.eqb j) (adjacent_dupes cmp i l d) = existsb (Nat.eqb j) d.
Proof.
  induction l as [|x r IH]; intros i d j H; cbn [adjacent_dupes]; auto. destruct r as [|y r]; auto.
  rewrite IH by lia. destruct (cmp x y); auto. cbn [existsb].
  destruct (Nat.eqb_spec j i); [lia|reflexivity].
Qed.

Lemma adjacent_dupes_spec l : forall i d k x,
  StronglySorted sle l ->
  (forall j, (i <= j)%nat -> existsb (Nat.eqb j) d = false) ->
  nth_error l k = Some x ->
  existsb (Nat.eqb (i + k)) (adjacent_dupes cmp i l d) = existsb (same x) (skipn (S k) l).
Proof.
  induction l as [|y r IH]; intros i d k x HS Hd Hk; [destruct k; discriminate|].
  cbn [adjacent_dupes]. destruct r as [|z r].
  - destruct k as [|k]; [|destruct k; discriminate]. cbn [skipn existsb]. apply Hd. lia.
  - destruct k as [|k].
    + cbn in Hk. inversion Hk; subst. rewrite adjacent_dupes_lt by lia. rewrite Nat.add_0_r.
      cbn [skipn]. rewrite sorted_next_existsb by assumption. unfold same. destruct (cmp x z); cbn [is_eq].
      * cbn [existsb]. rewrite Nat.eqb_refl. reflexivity.
      * apply Hd. lia.
      * apply Hd. lia.
    + rewrite Nat.add_succ_r. rewrite <- Nat.add_succ_l. rewrite (IH (S i) _ k x); auto.
      * inversion HS; auto.
      * intros j Hj. destruct (cmp y z); try (apply Hd; lia). cbn [existsb].
        rewrite Hd by lia. destruct (Nat.eqb_spec j i); [lia|reflexivity].
Qed.

Lemma sorted_and_dedupped_survivors_sort l :
  sorted_and_dedupped l cmp = survivors same (stable_sort cmp l).
Proof.
  unfold sorted_and_dedupped. destruct (Nat.leb_spec 2 (length (stable_sort cmp l))) as [_|H].
  - rewrite retain_guard. apply retain_survivors. intros k x Hk. cbn [plus].
    apply (adjacent_dupes_spec (stable_sort cmp l) 0 [] k x); auto. apply stable_sort_sorted.
  - rewrite survivors_short; auto.
Qed.

Lemma sorted_and_dedupped_perm l : Permutation (sorted_and_dedupped l cmp) (survivors same l).
Proof. rewrite sorted_and_dedupped_survivors_sort. apply stable_sort_survivors. Qed.

Lemma sorted_survivors l :
  StronglySorted sle l -> StronglySorted (fun x y => cmp x y = Lt) (survivors same l).
Proof.
  induction l as [|x r IH]; intros H; cbn [survivors]; [constructor|].
  inversion H as [|? ? H1 H2]; subst. destruct (existsb (same x) r) eqn:E; auto.
  constructor; auto. apply Forall_forall. intros y Hy. apply survivors_incl in Hy.
  rewrite Forall_forall in H2. specialize (H2 y Hy). rewrite existsb_false_forall in E. specialize (E y Hy).
  unfold sle, same in *. destruct (cmp x y); auto; [discriminate|congruence].
Qed.

Lemma sorted_and_dedupped_sorted l : StronglySorted (fun x y => cmp x y = Lt) (sorted_and_dedupped l cmp).
Proof. rewrite sorted_and_dedupped_survivors_sort. apply sorted_survivors, stable_sort_sorted. Qed.

Lemma strict_sorted_distinct l : StronglySorted (fun x y => cmp x y = Lt) l -> distinct same l.
Proof.
  induction 1 as [|x r H1 IH H2]; cbn [distinct]; auto. split; auto.
  intros y Hy. rewrite Forall_forall in H2. unfold same. rewrite H2 by auto. reflexivity.
Qed.

(** Without duplicates, sorting does nothing but sort. *)
Lemma sorted_and_dedupped_nil l : sorted_and_dedupped l cmp = [] <-> l = [].
Proof.
  split; intros H.
  - destruct l as [|x r]; auto. exfalso.
    destruct (survivors_cover same (x :: r) x lawful_same (or_introl eq_refl)) as [y [Hy _]].
    apply (Permutation_in _ (Permutation_sym (sorted_and_dedupped_perm (x :: r)))) in Hy. rewrite H in Hy. destruct Hy.
  - subst. reflexivity.
Qed.
End Sorted.

(** * using_hash *)
Section UsingHash.
Context {T : Type} (hasher : T -> N) (eq : T -> T -> bool).
Hypothesis LE : lawful_eq eq.
Hypothesis LH : lawful_hash eq hasher.

(** State after processing the prefix [p]. *)
Definition uh_inv (p : list T) (keep : keep_table T) (dupes : list nat) : Prop :=
  (forall h i y, In (h, i, y) keep -> h = hasher y /\ nth_error p i = Some y /\ existsb (eq y) (skipn (S i) p) = false) /\
  (forall i y, nth_error p i = Some y -> existsb (Nat.eqb i) dupes = existsb (eq y) (skipn (S i) p)) /\
  (forall i y, nth_error p i = Some y -> existsb (eq y) (skipn (S i) p) = false -> In (hasher y, i, y) keep) /\
  (forall i, In i dupes -> (i < length p)%nat) /\
  NoDup keep.

Lemma keep_find_remove_spec h (e : T -> bool) (keep : keep_table T) :
  match keep_find_remove h e keep with
  | Some (i, keep') => exists y, e y = true /\ Permutation keep ((h, i, y) :: keep')
  | None => forall i y, In (h, i, y) keep -> e y = false
  end.
Proof.
  induction keep as [|[[h' i'] y'] r IH]; cbn [keep_find_remove].
  - intros i y [].
  - destruct (N.eqb_spec h' h) as [->|Hne]; cbn [andb].
    + destruct (e y') eqn:Ey.
      * exists y'. auto.
      * destruct (keep_find_remove h e r) as [[j r']|].
        -- destruct IH as [y [H1 H2]]. exists y. split; auto.
           eapply perm_trans; [apply perm_skip, H2|]. apply perm_swap.
        -- intros i y [H|H]; [inversion H; subst; auto|eauto].
    + destruct (keep_find_remove h e r) as [[j r']|].
      * destruct IH as [y [H1 H2]]. exists y. split; auto.
        eapply perm_trans; [apply perm_skip, H2|]. apply perm_swap.
      * intros i y [H|H]; [inversion H; congruence|eauto].
Qed.

Lemma eq_false_sym x y : eq x y = false -> eq y x = false.
Proof. intros H. destruct (eq y x) eqn:E; auto. apply (eq_sym_law _ LE) in E. congruence. Qed.

Lemma nth_error_snoc {A} (p : list A) v i y :
  nth_error (p ++ [v]) i = Some y -> (nth_error p i = Some y /\ (i < length p)%nat) \/ (i = length p /\ y = v).
Proof.
  intros H. destruct (Nat.lt_ge_cases i (length p)) as [Hi|Hi].
  - rewrite nth_error_app1 in H by lia. auto.
  - rewrite nth_error_app2 in H by lia. destruct (i - length p)%nat eqn:E.
    + cbn in H. inversion H; subst. right. split; auto. lia.
    + cbn in H. destruct n; discriminate.
Qed.

Lemma existsb_skipn_snoc (e : T -> bool) p v i :
  (i <= length p)%nat -> existsb e (skipn i (p ++ [v])) = existsb e (skipn i p) || e v.
Proof.
  intros H. rewrite skipn_app. replace (i - length p)%nat with 0%nat by lia. cbn [skipn].
  rewrite existsb_app. cbn [existsb]. rewrite orb_false_r. reflexivity.
Qed.

Lemma uh_step p v keep dupes :
  uh_inv p keep dupes ->
  match keep_find_remove (hasher v) (eq v) keep with
  | Some (old, keep') => uh_inv (p ++ [v]) ((hasher v, length p, v) :: keep') (old :: dupes)
  | None => uh_inv (p ++ [v]) ((hasher v, length p, v) :: keep) dupes
  end.
Proof.
  intros [I1 [I2 [I3 [I4 I5]]]]. pose proof (keep_find_remove_spec (hasher v) (eq v) keep) as K.
  assert (Lnew : nth_error (p ++ [v]) (length p) = Some v).
  { rewrite nth_error_app2, Nat.sub_diag by lia. reflexivity. }
  assert (Snew : skipn (S (length p)) (p ++ [v]) = []) by (apply skipn_all2; rewrite app_length; cbn; lia).
  (* two kept elements that are equal are the same element *)
  assert (U : forall i y j z, In (hasher y, i, y) keep -> In (hasher z, j, z) keep -> eq y z = true -> i = j).
  { intros i y j z Hi Hj E. destruct (I1 _ _ _ Hi) as [_ [Hi1 Hi2]]. destruct (I1 _ _ _ Hj) as [_ [Hj1 Hj2]].
    destruct (Nat.lt_trichotomy i j) as [H|[H|H]]; auto; exfalso.
    - rewrite existsb_false_forall in Hi2. rewrite Hi2 in E; [discriminate|].
      apply (nth_error_In _ (j - S i)). rewrite nth_error_skipn. replace (S i + (j - S i))%nat with j by lia. auto.
    - rewrite existsb_false_forall in Hj2. apply (eq_sym_law _ LE) in E. rewrite Hj2 in E; [discriminate|].
      apply (nth_error_In _ (i - S j)). rewrite nth_error_skipn. replace (S j + (i - S j))%nat with i by lia. auto. }
  destruct (keep_find_remove (hasher v) (eq v) keep) as [[old keep']|].
  - destruct K as [y [K2 KP]].
    assert (K1 : In (hasher v, old, y) keep) by (apply (Permutation_in _ (Permutation_sym KP)); left; auto).
    assert (K3 : forall z, In z keep' -> In z keep) by (intros z Hz; apply (Permutation_in _ (Permutation_sym KP)); right; auto).
    assert (K4 : forall z, In z keep -> (hasher v, old, y) = z \/ In z keep') by (intros z Hz; apply (Permutation_in _ KP) in Hz; exact Hz).
    assert (KN : ~ In (hasher v, old, y) keep' /\ NoDup keep') by (apply (Permutation_NoDup KP) in I5; inversion I5; auto).
    destruct KN as [KN1 KN2]. destruct (I1 _ _ _ K1) as [K5 [K6 K7]].
    assert (Hold : (old < length p)%nat) by (apply nth_error_Some; congruence).
    split; [|split; [|split; [|split]]].
    + intros h i z [Hz|Hz].
      * inversion Hz; subst. rewrite Snew. auto.
      * specialize (K3 _ Hz). pose proof (I1 _ _ _ K3) as [Hh [Hi Hz2]].
        assert (Hil : (i < length p)%nat) by (apply nth_error_Some; congruence).
        split; auto. split; [rewrite nth_error_app1; auto|].
        rewrite existsb_skipn_snoc by lia. rewrite Hz2. cbn [orb]. destruct (eq z v) eqn:E; auto. exfalso.
        assert (eq z y = true) by (eapply eq_trans_law; eauto).
        subst h. rewrite K5 in K1. pose proof (U i z old y K3 K1 H). subst i.
        assert (z = y) by congruence. subst z. apply KN1. rewrite K5. exact Hz.
    + intros i z Hz. cbn [existsb]. apply nth_error_snoc in Hz. destruct Hz as [[Hz Hil]|[-> ->]].
      * rewrite existsb_skipn_snoc by lia. rewrite (I2 i z Hz).
        destruct (Nat.eqb_spec i old) as [->|Hne].
        -- cbn [orb]. assert (z = y) by congruence. subst. rewrite (eq_sym_law _ LE _ _ K2). rewrite orb_true_r. reflexivity.
        -- cbn [orb]. destruct (existsb (eq z) (skipn (S i) p)) eqn:E; auto. cbn [orb].
           destruct (eq z v) eqn:E2; auto. exfalso. apply Hne.
           apply (U i z old y); [apply I3; auto|rewrite <- K5; auto|eapply eq_trans_law; eauto].
      * rewrite Snew. cbn [existsb]. destruct (Nat.eqb_spec (length p) old); [lia|]. cbn [orb].
        destruct (existsb (Nat.eqb (length p)) dupes) eqn:E; auto. exfalso.
        apply existsb_exists in E. destruct E as [x [Hx Hx2]]. apply Nat.eqb_eq in Hx2. apply I4 in Hx. lia.
    + intros i z Hz. apply nth_error_snoc in Hz. destruct Hz as [[Hz Hil]|[-> ->]].
      * rewrite existsb_skipn_snoc by lia. intros Hs. apply orb_false_iff in Hs. destruct Hs as [Hs1 Hs2].
        right. destruct (K4 _ (I3 i z Hz Hs1)) as [Heq|]; auto. inversion Heq; subst.
        rewrite (eq_sym_law _ LE _ _ K2) in Hs2. discriminate.
      * intros _. left; auto.
    + intros i [<-|Hi]; rewrite app_length; cbn [length]; [lia|]. apply I4 in Hi. lia.
    + constructor; auto. intros Hin. apply K3 in Hin. destruct (I1 _ _ _ Hin) as [_ [Hc _]].
      assert (length p < length p)%nat by (apply nth_error_Some; congruence). lia.
  - split; [|split; [|split; [|split]]].
    + intros h i z [Hz|Hz].
      * inversion Hz; subst. rewrite Snew. auto.
      * pose proof (I1 _ _ _ Hz) as [Hh [Hi Hz2]].
        assert (Hil : (i < length p)%nat) by (apply nth_error_Some; congruence).
        split; auto. split; [rewrite nth_error_app1; auto|].
        rewrite existsb_skipn_snoc by lia. rewrite Hz2. cbn [orb]. destruct (eq z v) eqn:E; auto. exfalso.
        subst h. rewrite (LH _ _ E) in Hz. specialize (K _ _ Hz). apply eq_false_sym in K. congruence.
    + intros i z Hz. apply nth_error_snoc in Hz. destruct Hz as [[Hz Hil]|[-> ->]].
      * rewrite existsb_skipn_snoc by lia. rewrite (I2 i z Hz).
        destruct (existsb (eq z) (skipn (S i) p)) eqn:E; auto. cbn [orb].
        destruct (eq z v) eqn:E2; auto. exfalso.
        pose proof (I3 i z Hz E) as Hk. rewrite (LH _ _ E2) in Hk. specialize (K _ _ Hk). apply eq_false_sym in K. congruence.
      * rewrite Snew. cbn [existsb].
        destruct (existsb (Nat.eqb (length p)) dupes) eqn:E; auto. exfalso.
        apply existsb_exists in E. destruct E as [x [Hx Hx2]]. apply Nat.eqb_eq in Hx2. apply I4 in Hx. lia.
    + intros i z Hz. apply nth_error_snoc in Hz. destruct Hz as [[Hz Hil]|[-> ->]].
      * rewrite existsb_skipn_snoc by lia. intros Hs. apply orb_false_iff in Hs. destruct Hs as [Hs1 Hs2].
        right. auto.
      * intros _. left; auto.
    + intros i Hi; rewrite app_length; cbn [length]. apply I4 in Hi. lia.
    + constructor; auto. intros Hin. destruct (I1 _ _ _ Hin) as [_ [Hc _]].
      assert (length p < length p)%nat by (apply nth_error_Some; congruence). lia.
Qed.

Lemma uh_loop l : forall p keep dupes,
  uh_inv p keep dupes ->
  exists keep', uh_inv (p ++ l) keep' (using_hash_dupes hasher eq (length p) l keep dupes).
Proof.
  induction l as [|v r IH]; intros p keep dupes H; cbn [using_hash_dupes].
  - rewrite app_nil_r. eauto.
  - pose proof (uh_step p v keep dupes H) as S1.
    replace (p ++ v :: r) with ((p ++ [v]) ++ r) by (rewrite <- app_assoc; reflexivity).
    replace (S (length p)) with (length (p ++ [v])) by (rewrite app_length; cbn [length]; lia).
    destruct (keep_find_remove (hasher v) (eq v) keep) as [[old keep']|]; apply IH; exact S1.
Qed.

Theorem using_hash_survivors entries : using_hash entries hasher eq = survivors eq entries.
Proof.
  unfold using_hash. destruct (Nat.leb_spec 2 (length entries)) as [_|H].
  - rewrite retain_guard. apply retain_survivors. intros k x Hk. cbn [plus].
    destruct (uh_loop entries [] [] []) as [keep' [_ [I2 _]]].
    + split; [|split; [|split; [|split]]].
      * intros h i y [].
      * intros i y Hi. destruct i; discriminate.
      * intros i y Hi. destruct i; discriminate.
      * intros i [].
      * constructor.
    + cbn [app length] in I2. apply I2. exact Hk.
  - rewrite survivors_short; auto.
Qed.
End UsingHash.
