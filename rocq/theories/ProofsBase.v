(** General lemmas about lists and the specification vocabulary. *)
From Verif Require Import Prelude Spec.
From Coq Require Import Permutation.

(** * res *)
Lemma bind_Ok {A B} (x : res A) (k : A -> res B) b :
  bind x k = Ok b -> exists a, x = Ok a /\ k a = Ok b.
Proof. destruct x; cbn; intros; try discriminate; eauto. Qed.

Lemma mapM_Ok_map {A B} (f : A -> res B) (g : A -> B) l :
  (forall x, In x l -> f x = Ok (g x)) -> mapM f l = Ok (map g l).
Proof.
  induction l as [|x r IH]; intros H; [reflexivity|].
  cbn [mapM map]. rewrite H by (left; reflexivity). cbn [bind].
  rewrite IH by (intros; apply H; right; assumption). reflexivity.
Qed.

Lemma mapM_inv {A B} (f : A -> res B) l ys :
  mapM f l = Ok ys -> Forall2 (fun x y => f x = Ok y) l ys.
Proof.
  revert ys. induction l as [|x r IH]; intros ys H; cbn [mapM] in H.
  - inversion H; constructor.
  - apply bind_Ok in H. destruct H as [y [Hy H]]. apply bind_Ok in H. destruct H as [ys' [Hys H]].
    inversion H; subst. constructor; auto.
Qed.

(** * list_set / nth_error *)
Lemma list_set_length {A} (l : list A) i x : length (list_set l i x) = length l.
Proof. revert i. induction l; destruct i; cbn [list_set length]; auto. Qed.

Lemma nth_error_list_set_same {A} (l : list A) i x :
  (i < length l)%nat -> nth_error (list_set l i x) i = Some x.
Proof.
  revert i. induction l; cbn [length]; intros i H; [lia|].
  destruct i; cbn; [reflexivity|]. apply IHl. lia.
Qed.

Lemma nth_error_list_set_other {A} (l : list A) i j x :
  i <> j -> nth_error (list_set l i x) j = nth_error l j.
Proof.
  revert i j. induction l; intros i j H; destruct i, j; cbn; try reflexivity; try congruence.
  apply IHl. congruence.
Qed.

Lemma nth_error_list_set {A} (l : list A) i j x :
  nth_error (list_set l i x) j =
  if Nat.eqb i j then (if Nat.ltb i (length l) then Some x else None) else nth_error l j.
Proof.
  destruct (Nat.eqb_spec i j) as [->|Hne].
  - destruct (Nat.ltb_spec j (length l)).
    + apply nth_error_list_set_same; assumption.
    + apply nth_error_None. rewrite list_set_length. assumption.
  - apply nth_error_list_set_other; assumption.
Qed.

Lemma list_set_out {A} (l : list A) i x : (length l <= i)%nat -> list_set l i x = l.
Proof.
  revert i. induction l; intros i H; destruct i; cbn in *; try reflexivity; try lia.
  rewrite IHl by lia. reflexivity.
Qed.

Lemma map_list_set {A B} (f : A -> B) l i x : map f (list_set l i x) = list_set (map f l) i (f x).
Proof. revert i. induction l; destruct i; cbn; congruence. Qed.

Lemma list_set_same {A} (l : list A) i x : nth_error l i = Some x -> list_set l i x = l.
Proof. revert i. induction l; destruct i; cbn; intros; try congruence. rewrite IHl by assumption. reflexivity. Qed.

Lemma nth_error_ext {A} (l1 l2 : list A) : (forall i, nth_error l1 i = nth_error l2 i) -> l1 = l2.
Proof.
  revert l2. induction l1 as [|x r IH]; intros [|y s] H; auto.
  - specialize (H 0%nat). discriminate.
  - specialize (H 0%nat). discriminate.
  - pose proof (H 0%nat) as H0. cbn in H0. inversion H0; subst. f_equal. apply IH. intros i. apply (H (S i)).
Qed.

Lemma nth_error_skipn {A} (l : list A) : forall n i, nth_error (skipn n l) i = nth_error l (n + i).
Proof. induction l as [|x r IH]; intros [|n] i; cbn [skipn plus]; auto; [destruct i; reflexivity|]. cbn [nth_error]. apply IH. Qed.

Lemma nth_error_firstn {A} (l : list A) : forall n i, nth_error (firstn n l) i = if Nat.ltb i n then nth_error l i else None.
Proof.
  induction l as [|x r IH]; intros [|n] i; cbn [firstn]; auto.
  - destruct i; reflexivity.
  - destruct (Nat.ltb i (S n)); destruct i; reflexivity.
  - destruct i; reflexivity.
  - destruct i; cbn [nth_error]; [reflexivity|]. rewrite IH. reflexivity.
Qed.

Lemma index_Ok {A} (l : list A) i : (i < length l)%nat -> exists x, nth_error l i = Some x /\ index l i = Ok x.
Proof.
  intros H. unfold index. destruct (nth_error l i) eqn:E; eauto.
  apply nth_error_None in E. lia.
Qed.

(** * distinct, survivors, last_match *)
Lemma distinct_app {A} (e : A -> A -> bool) l1 l2 :
  distinct e (l1 ++ l2) <-> distinct e l1 /\ distinct e l2 /\ (forall x y, In x l1 -> In y l2 -> e x y = false).
Proof.
  induction l1 as [|x r IH]; cbn [app distinct].
  - split; [intros H; repeat split; auto; intros ? ? [] | intros [_ [H _]]; exact H].
  - rewrite IH. split.
    + intros [H1 [H2 [H3 H4]]]. split; [split|split]; auto.
      * intros y Hy. apply H1. apply in_or_app; auto.
      * intros a b [->|Ha] Hb; auto. apply H1, in_or_app; auto.
    + intros [[H1 H2] [H3 H4]]. split; [|split; [|split]]; auto.
      * intros y Hy. apply in_app_or in Hy. destruct Hy; auto. apply H4; auto. left; auto.
      * intros; apply H4; auto. right; auto.
Qed.

Lemma distinct_nth {A} (e : A -> A -> bool) l i j x y :
  distinct e l -> (i < j)%nat -> nth_error l i = Some x -> nth_error l j = Some y -> e x y = false.
Proof.
  revert i j. induction l as [|a r IH]; intros i j D Hij Hi Hj.
  - destruct i; discriminate.
  - destruct D as [D1 D2]. destruct i.
    + cbn in Hi. inversion Hi; subst. destruct j; [lia|]. cbn in Hj. apply D1. eapply nth_error_In; eauto.
    + destruct j; [lia|]. cbn in Hi, Hj. apply (IH i j); auto. lia.
Qed.

Lemma distinct_of_nth {A} (e : A -> A -> bool) l :
  (forall i j x y, (i < j)%nat -> nth_error l i = Some x -> nth_error l j = Some y -> e x y = false) -> distinct e l.
Proof.
  induction l as [|a r IH]; intros H; cbn [distinct]; [exact I|]. split.
  - intros y Hy. apply In_nth_error in Hy. destruct Hy as [n Hn]. apply (H 0%nat (S n)); auto; lia.
  - apply IH. intros i j x y Hij Hi Hj. apply (H (S i) (S j)); auto; lia.
Qed.

Lemma distinct_perm {A} (e : A -> A -> bool) l l' :
  (forall x y, e x y = true -> e y x = true) -> Permutation l l' -> distinct e l -> distinct e l'.
Proof.
  intros Hs P. induction P; intros D; auto.
  - destruct D as [D1 D2]. split; auto. intros y Hy. apply D1. eapply Permutation_in; [|exact Hy]. apply Permutation_sym; auto.
  - destruct D as [D1 [D2 D3]]. cbn [distinct]. split; [|split]; auto.
    + intros z [->|Hz].
      * destruct (e x z) eqn:E; auto. apply Hs in E. rewrite (D1 x) in E; [discriminate|left; auto].
      * apply D2; auto.
    + intros z Hz. apply D1. right; auto.
Qed.

Lemma distinct_map {A B} (f : A -> B) (e : B -> B -> bool) l :
  distinct e (map f l) <-> distinct (fun x y => e (f x) (f y)) l.
Proof.
  induction l as [|x r IH]; cbn [map distinct]; [tauto|]. rewrite IH. split; intros [H1 H2]; split; auto.
  - intros y Hy. apply H1. apply in_map; auto.
  - intros y Hy. apply in_map_iff in Hy. destruct Hy as [z [<- Hz]]. auto.
Qed.

Lemma distinct_ext {A} (e e' : A -> A -> bool) l :
  (forall x y, In x l -> In y l -> e x y = e' x y) -> distinct e l -> distinct e' l.
Proof.
  induction l as [|x r IH]; intros H D; cbn [distinct] in *; auto. destruct D as [D1 D2]. split.
  - intros y Hy. rewrite <- H; auto; [left|right]; auto.
  - apply IH; auto. intros; apply H; right; auto.
Qed.

Lemma survivors_incl {A} (same : A -> A -> bool) l : incl (survivors same l) l.
Proof.
  induction l as [|x r IH]; cbn [survivors]; [intros y Hy; exact Hy|].
  destruct (existsb (same x) r).
  - apply incl_tl; auto.
  - intros y [->|Hy]; [left; auto|right; apply IH; auto].
Qed.

Lemma existsb_false_forall {A} (p : A -> bool) l : existsb p l = false <-> forall y, In y l -> p y = false.
Proof.
  induction l as [|x r IH]; cbn [existsb].
  - split; auto; intros _ y [].
  - rewrite orb_false_iff, IH. split.
    + intros [H1 H2] y [->|Hy]; auto.
    + intros H; split; [apply H; left; auto|intros; apply H; right; auto].
Qed.

Lemma survivors_distinct {A} (same : A -> A -> bool) l : distinct same (survivors same l).
Proof.
  induction l as [|x r IH]; cbn [survivors]; [exact I|].
  destruct (existsb (same x) r) eqn:E; auto.
  split; auto. intros y Hy. rewrite existsb_false_forall in E. apply E. apply survivors_incl in Hy. auto.
Qed.

Lemma survivors_distinct_id {A} (same : A -> A -> bool) l : distinct same l -> survivors same l = l.
Proof.
  induction l as [|x r IH]; intros D; cbn [survivors]; auto. destruct D as [D1 D2].
  assert (E : existsb (same x) r = false) by (apply existsb_false_forall; auto).
  rewrite E, IH; auto.
Qed.

Lemma last_match_Some {A} (p : A -> bool) l x : last_match p l = Some x -> In x l /\ p x = true.
Proof.
  induction l as [|a r IH]; cbn [last_match]; [discriminate|].
  destruct (last_match p r) eqn:E.
  - intros H; inversion H; subst. destruct IH; auto. split; [right|]; auto.
  - destruct (p a) eqn:Pa; [|discriminate]. intros H; inversion H; subst. split; [left|]; auto.
Qed.

Lemma last_match_None {A} (p : A -> bool) l : last_match p l = None <-> forall x, In x l -> p x = false.
Proof.
  induction l as [|a r IH]; cbn [last_match]; [split; auto; intros _ x []|].
  destruct (last_match p r) eqn:E.
  - split; [discriminate|]. intros H. apply last_match_Some in E. destruct E as [E1 E2].
    rewrite H in E2; [discriminate|right; auto].
  - destruct IH as [IH _]. specialize (IH eq_refl). destruct (p a) eqn:Pa.
    + split; [discriminate|]. intros H. rewrite H in Pa; [discriminate|left; auto].
    + split; auto. intros _ x [->|Hx]; auto.
Qed.

Lemma last_match_ext {A} (p q : A -> bool) l : (forall x, In x l -> p x = q x) -> last_match p l = last_match q l.
Proof.
  induction l as [|a r IH]; intros H; cbn [last_match]; auto.
  rewrite IH by (intros; apply H; right; auto). rewrite H by (left; auto). reflexivity.
Qed.

Lemma last_match_app {A} (p : A -> bool) l1 l2 :
  last_match p (l1 ++ l2) = match last_match p l2 with Some x => Some x | None => last_match p l1 end.
Proof.
  induction l1 as [|a r IH]; cbn [app last_match].
  - destruct (last_match p l2); auto.
  - rewrite IH. destruct (last_match p l2); auto.
Qed.

Lemma last_match_survivors {A} (same : A -> A -> bool) (p : A -> bool) l :
  (forall x y, same x y = true -> p x = true -> p y = true) ->
  last_match p (survivors same l) = last_match p l.
Proof.
  intros Hp. induction l as [|x r IH]; cbn [survivors last_match]; auto.
  destruct (existsb (same x) r) eqn:E.
  - rewrite IH. destruct (last_match p r) eqn:L; auto.
    destruct (p x) eqn:Px; auto. apply existsb_exists in E. destruct E as [y [Hy Hxy]].
    rewrite last_match_None in L. specialize (L y Hy). rewrite (Hp x y) in L; auto; discriminate.
  - cbn [last_match]. rewrite IH. reflexivity.
Qed.

(** In a list with at most one match the result does not depend on the order. *)
Lemma last_match_unique {A} (same : A -> A -> bool) (p : A -> bool) l x :
  (forall a b, same a b = true -> same b a = true) ->
  distinct same l -> (forall a b, p a = true -> p b = true -> same a b = true) ->
  In x l -> p x = true -> last_match p l = Some x.
Proof.
  intros Hs. induction l as [|a r IH]; intros D U Hx Px; [destruct Hx|].
  destruct D as [D1 D2]. cbn [last_match]. destruct Hx as [->|Hx].
  - destruct (last_match p r) eqn:E.
    + apply last_match_Some in E. destruct E as [E1 E2]. specialize (D1 a E1).
      rewrite (U x a) in D1; auto; discriminate.
    + rewrite Px. reflexivity.
  - rewrite IH; auto.
Qed.

Lemma last_match_perm {A} (same : A -> A -> bool) (p : A -> bool) l l' :
  (forall a b, same a b = true -> same b a = true) ->
  distinct same l -> (forall a b, p a = true -> p b = true -> same a b = true) ->
  Permutation l l' -> last_match p l' = last_match p l.
Proof.
  intros Hs D U P.
  destruct (last_match p l) eqn:E.
  - apply last_match_Some in E. destruct E as [E1 E2].
    eapply last_match_unique with (same := same); eauto.
    + eapply distinct_perm; eauto.
    + eapply Permutation_in; eauto.
  - rewrite last_match_None in *. intros x Hx. apply E. eapply Permutation_in; [apply Permutation_sym|]; eauto.
Qed.

Lemma survivors_ext {A} (s s' : A -> A -> bool) l :
  (forall x y, In x l -> In y l -> s x y = s' x y) -> survivors s l = survivors s' l.
Proof.
  induction l as [|x r IH]; intros H; cbn [survivors]; auto.
  rewrite IH by (intros; apply H; right; auto).
  replace (existsb (s' x) r) with (existsb (s x) r); auto.
  clear IH. assert (forall y, In y r -> s x y = s' x y) by (intros; apply H; [left|right]; auto).
  clear H. induction r as [|y r IH]; cbn [existsb]; auto. rewrite IH by (intros; apply H0; right; auto).
  rewrite H0 by (left; auto). reflexivity.
Qed.

Lemma existsb_perm {A} (p : A -> bool) l l' : Permutation l l' -> existsb p l = existsb p l'.
Proof.
  intros P. induction P; cbn [existsb]; auto; try congruence.
  destruct (p x), (p y); reflexivity.
Qed.

Lemma existsb_ext_in {A} (p q : A -> bool) l : (forall x, In x l -> p x = q x) -> existsb p l = existsb q l.
Proof.
  induction l as [|y r IH]; intros H; cbn [existsb]; auto.
  rewrite IH by (intros; apply H; right; auto). rewrite H by (left; auto). reflexivity.
Qed.

(** every supplied element is represented among the survivors *)
Lemma survivors_cover {A} (same : A -> A -> bool) l x :
  lawful_eq same -> In x l -> exists y, In y (survivors same l) /\ same x y = true.
Proof.
  intros L. induction l as [|a r IH]; intros Hx; [destruct Hx|]. cbn [survivors].
  destruct Hx as [->|Hx].
  - destruct (existsb (same x) r) eqn:E.
    + apply existsb_exists in E. destruct E as [z [Hz Hxz]].
      clear IH. revert Hz.
      assert (G : forall r z, In z r -> same x z = true -> exists y, In y (survivors same r) /\ same x y = true).
      { clear - L. induction r as [|b r IH]; intros z Hz Hxz; [destruct Hz|]. cbn [survivors].
        destruct Hz as [->|Hz].
        - destruct (existsb (same z) r) eqn:E.
          + apply existsb_exists in E. destruct E as [w [Hw Hzw]]. apply (IH w Hw). eapply eq_trans_law; eauto.
          + exists z; split; auto. left; auto.
        - destruct (IH z Hz Hxz) as [y [Hy1 Hy2]]. exists y. split; auto. destruct (existsb (same b) r); auto. right; auto. }
      intros Hz. apply (G r z); auto.
    + exists x. split; [left; auto|apply eq_refl_law; auto].
  - destruct (IH Hx) as [y [Hy1 Hy2]]. exists y. split; auto. destruct (existsb (same a) r); auto. right; auto.
Qed.
