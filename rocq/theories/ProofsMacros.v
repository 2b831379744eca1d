(** Proofs about the collection macros. *)
From Coq Require Import String ZArith Permutation.
From Verif Require Import ModelUtils ModelAnalyzers ModelTables ModelMaps ModelScalar ModelEmit ModelMacros
  Spec SpecEmit SpecMade SpecMacros ProofsBase ProofsScalarIndex ProofsEmit ProofsEmitProps.
From Verif Require Import Prelude.

Lemma scalar_type_eqb_eq a b : scalar_type_eqb a b = true <-> a = b.
Proof. destruct a, b; cbn; split; congruence. Qed.

(** * The loop as a fold *)
Definition join (st t : scalar_type) : option scalar_type :=
  if scalar_type_eqb t Undecided then Some st
  else if scalar_type_eqb st Undecided then Some t
  else if scalar_type_eqb t st then Some st else None.

Definition step (mk : macro_kind) (k : result discovered_key_kind) (a : nat * nat * scalar_type) : option (nat * nat * scalar_type) :=
  let '(ns, nc, st) := a in
  match k with
  | RErr _ => None
  | ROk LiteralString => match mk with MkScalar => None | _ => Some (S ns, nc, st) end
  | ROk Expression => Some (ns, nc, st)
  | ROk (LiteralScalar t) => match mk with MkString => None | _ => option_map (fun s => (ns, S nc, s)) (join st t) end
  end.

Fixpoint steps (mk : macro_kind) (ks : list (result discovered_key_kind)) (a : nat * nat * scalar_type) : option (nat * nat * scalar_type) :=
  match ks with [] => Some a | k :: r => match step mk k a with Some b => steps mk r b | None => None end end.

Definition to_option {A} (r : result A) : option A := match r with ROk a => Some a | RErr _ => None end.

Lemma assess_loop_steps {X W} mk (es : list (m_entry X W)) : forall ns nc st,
  to_option (assess_loop mk es ns nc st) = steps mk (map (fun e => discover (me_key e)) es) (ns, nc, st).
Proof.
  induction es as [|e r IH]; intros ns nc st; [reflexivity|]. cbn [map steps assess_loop].
  destruct (discover (me_key e)) as [[t| |]|m].
  - destruct t; cbn [step join scalar_type_eqb]; destruct mk; try reflexivity; try apply IH; destruct st; cbn; try apply IH; reflexivity.
  - destruct mk; cbn [step]; try reflexivity; apply IH.
  - destruct mk; cbn [step]; apply IH.
  - reflexivity.
Qed.

Lemma join_comm st a b :
  match join st a with Some s => join s b | None => None end = match join st b with Some s => join s a | None => None end.
Proof.
  unfold join.
  destruct (scalar_type_eqb a Undecided) eqn:A, (scalar_type_eqb b Undecided) eqn:B; rewrite ?A, ?B; try reflexivity;
    destruct (scalar_type_eqb st Undecided) eqn:S0; rewrite ?A, ?B; try reflexivity.
  - destruct (scalar_type_eqb b st); [|reflexivity]. reflexivity.
  - destruct (scalar_type_eqb a st); [|reflexivity]. reflexivity.
  - destruct (scalar_type_eqb b a) eqn:E1, (scalar_type_eqb a b) eqn:E2; try reflexivity.
    + apply scalar_type_eqb_eq in E1. congruence.
    + apply scalar_type_eqb_eq in E1. subst. destruct a; discriminate.
    + apply scalar_type_eqb_eq in E2. subst. destruct b; discriminate.
  - destruct (scalar_type_eqb a st) eqn:E1, (scalar_type_eqb b st) eqn:E2; rewrite ?S0, ?E1, ?E2; reflexivity.
Qed.

Lemma step_comm mk x y a :
  match step mk x a with Some b => step mk y b | None => None end = match step mk y a with Some b => step mk x b | None => None end.
Proof.
  destruct a as [[ns nc] st].
  destruct x as [[t| |]|], y as [[u| |]|], mk; cbn [step]; try reflexivity;
    try (destruct (join st t); reflexivity); try (destruct (join st u); reflexivity);
    pose proof (join_comm st t u) as J; destruct (join st t) as [s1|]; destruct (join st u) as [s2|]; cbn [option_map step] in *; rewrite ?J; try reflexivity.
  all: try (rewrite <- J; reflexivity).
Qed.

Lemma steps_perm mk ks ks' : Permutation ks ks' -> forall a, steps mk ks a = steps mk ks' a.
Proof.
  induction 1; intros a; cbn [steps]; [reflexivity| | |congruence].
  - destruct (step mk x a); auto.
  - pose proof (step_comm mk x y a) as C. destruct (step mk x a) as [b|], (step mk y a) as [c|]; cbn [steps]; rewrite ?C; try reflexivity.
    + rewrite <- C. reflexivity.
Qed.

Definition kind_of (mk : macro_kind) (n : nat) (a : nat * nat * scalar_type) : effective_key_kind :=
  let '(ns, nc, st) := a in
  if Nat.eqb nc n then AllLiteralScalars st
  else if Nat.ltb 0 nc && Nat.eqb ns 0 then LiteralAndExpressionScalars
  else if Nat.eqb ns n then AllLiteralStrings
  else if Nat.ltb 0 ns then LiteralAndExpressionStrings
  else match mk with
       | MkScalar => LiteralAndExpressionScalars | MkString => LiteralAndExpressionStrings | MkHashed => EffHashed | MkOrdered => EffOrdered
       end.

Lemma assess_keys_steps {X W} mk (es : list (m_entry X W)) :
  to_option (assess_keys es mk) =
  option_map (kind_of mk (List.length es)) (steps mk (map (fun e => discover (me_key e)) es) (0%nat, 0%nat, Undecided)).
Proof.
  unfold assess_keys. rewrite <- assess_loop_steps. destruct (assess_loop _ _ _ _ _) as [[[ns nc] st]|]; reflexivity.
Qed.

Lemma assess_keys_order {X W} mk (es es' : list (m_entry X W)) : Permutation es es' ->
  to_option (assess_keys es mk) = to_option (assess_keys es' mk).
Proof.
  intros P. rewrite !assess_keys_steps, (Permutation_length P). f_equal. apply steps_perm. apply Permutation_map. exact P.
Qed.

(** * Acceptance *)
Definition kind_ok (mk : macro_kind) (T : scalar_type) (k : result discovered_key_kind) : Prop :=
  match k with
  | RErr _ => False
  | ROk LiteralString => mk <> MkScalar
  | ROk (LiteralScalar t) => mk <> MkString /\ (t = Undecided \/ t = T)
  | ROk Expression => True
  end.
Definition is_string_kind (k : result discovered_key_kind) : bool := match k with ROk LiteralString => true | _ => false end.
Definition is_scalar_kind (k : result discovered_key_kind) : bool := match k with ROk (LiteralScalar _) => true | _ => false end.
Definition count {A} (f : A -> bool) (l : list A) : nat := List.length (filter f l).

Lemma join_some st t s : join st t = Some s -> (t = Undecided \/ t = s) /\ (st = Undecided \/ st = s) /\ (s = st \/ s = t).
Proof.
  unfold join. destruct (scalar_type_eqb t Undecided) eqn:A; [|destruct (scalar_type_eqb st Undecided) eqn:B; [|destruct (scalar_type_eqb t st) eqn:C]];
    intros E; try discriminate; injection E as <-; rewrite ?scalar_type_eqb_eq in *; auto.
Qed.
Lemma join_ok st t T : (t = Undecided \/ t = T) -> (st = Undecided \/ st = T) -> exists s, join st t = Some s /\ (s = Undecided \/ s = T).
Proof.
  intros Ht Hs. unfold join.
  destruct (scalar_type_eqb t Undecided) eqn:A; [eauto|]. destruct (scalar_type_eqb st Undecided) eqn:B; [eauto|].
  destruct Ht as [->|<-]; [discriminate|]. destruct Hs as [->|<-]; [discriminate|].
  assert (E : scalar_type_eqb st st = true) by (apply scalar_type_eqb_eq; reflexivity). rewrite E. eauto.
Qed.

Lemma steps_sound mk ks : forall ns nc st ns' nc' st', steps mk ks (ns, nc, st) = Some (ns', nc', st') ->
  (forall k, In k ks -> kind_ok mk st' k) /\ (st = Undecided \/ st = st') /\ (st' = st \/ In (ROk (LiteralScalar st')) ks) /\
  ns' = (ns + count is_string_kind ks)%nat /\ nc' = (nc + count is_scalar_kind ks)%nat.
Proof.
  induction ks as [|k r IH]; intros ns nc st ns' nc' st' E; cbn [steps] in E.
  - injection E as <- <- <-. repeat split; auto; try (intros ? []); cbn; lia.
  - destruct (step mk k (ns, nc, st)) as [[[ns1 nc1] st1]|] eqn:S1; [|discriminate].
    apply IH in E. destruct E as [H1 [H2 [H3 [H4 H5]]]].
    destruct k as [[t| |]|]; cbn [step] in S1; [| | |discriminate].
    + assert (mk <> MkString) by (destruct mk; congruence).
      assert (J : option_map (fun s => (ns, S nc, s)) (join st t) = Some (ns1, nc1, st1)) by (destruct mk; congruence).
      destruct (join st t) as [s|] eqn:JJ; [|discriminate]. cbn in J. injection J as <- <- <-.
      apply join_some in JJ. destruct JJ as [J1 [J2 J3]].
      unfold count in *. cbn [filter is_string_kind is_scalar_kind List.length].
      split; [|split; [|split; [|split; lia]]].
      * intros k [<-|Hk]; [|auto]. cbn. split; auto. destruct J1 as [H0| ->]; auto.
      * destruct J2 as [H0| ->]; auto.
      * destruct H3 as [->|H3]; [|right; right; auto]. destruct J3 as [->| ->]; auto. right. left. reflexivity.
    + assert (mk <> MkScalar) by (destruct mk; congruence).
      assert (J : (S ns, nc, st) = (ns1, nc1, st1)) by (destruct mk; congruence). injection J as <- <- <-.
      unfold count in *. cbn [filter is_string_kind is_scalar_kind List.length].
      split; [|split; [|split; [|split; lia]]]; auto.
      * intros k [<-|Hk]; auto.
      * destruct H3; auto. right; right; auto.
    + injection S1 as <- <- <-. unfold count in *. cbn [filter is_string_kind is_scalar_kind List.length].
      split; [|split; [|split; [|split; lia]]]; auto.
      * intros k [<-|Hk]; cbn; auto.
      * destruct H3; auto. right; right; auto.
Qed.

Lemma steps_complete mk T ks : (forall k, In k ks -> kind_ok mk T k) -> forall ns nc st, st = Undecided \/ st = T ->
  exists r, steps mk ks (ns, nc, st) = Some r.
Proof.
  induction ks as [|k r IH]; intros H ns nc st Hs; cbn [steps]; [eauto|].
  assert (IH' := IH (fun k Hk => H k (or_intror Hk))). specialize (H k (or_introl eq_refl)).
  destruct k as [[t| |]|]; cbn [kind_ok step] in *; [| | |contradiction].
  - destruct H as [Hm Ht]. destruct (join_ok st t T Ht Hs) as [s [-> H']]. destruct mk; try congruence; cbn; apply IH'; auto.
  - destruct mk; try congruence; apply IH'; auto.
  - apply IH'; auto.
Qed.

Lemma eval_int v s k : eval_literal_expr (LitInt v s) = ROk k <-> exists t, k = LiteralScalar t /\ In (s, t) suffix_table.
Proof.
  unfold eval_literal_expr.
  repeat match goal with |- context [String.eqb s ?c] => destruct (String.eqb_spec s c) as [->|?] end;
    try (split; [intros E; injection E as <-; eexists; split; [reflexivity|cbn; auto 20]|
                 intros [t [-> Ht]]; cbn in Ht; decompose [or] Ht; try contradiction;
                 match goal with H : (_, _) = (_, _) |- _ => injection H; intros; subst; (reflexivity || discriminate) end]).
  split; [discriminate|]. intros [t [-> Ht]]. cbn in Ht. decompose [or] Ht; try contradiction; congruence.
Qed.
Lemma suffix_fun s t t' : In (s, t) suffix_table -> In (s, t') suffix_table -> t = t'.
Proof.
  intros A B. assert (E1 := proj2 (eval_int 0 s (LiteralScalar t)) (ex_intro _ t (conj eq_refl A))).
  assert (E2 := proj2 (eval_int 0 s (LiteralScalar t')) (ex_intro _ t' (conj eq_refl B))). congruence.
Qed.
Definition suffix_of (t : scalar_type) : string :=
  match t with I8 => "i8" | I16 => "i16" | I32 => "i32" | I64 => "i64" | ISize => "isize"
  | U8 => "u8" | U16 => "u16" | U32 => "u32" | U64 => "u64" | USize => "usize" | Undecided => "" end.
Lemma suffix_inj s t : In (s, t) suffix_table <-> s = suffix_of t.
Proof.
  split.
  - cbn. intros H. decompose [or] H; try contradiction; match goal with H : (_, _) = (_, _) |- _ => injection H; intros; subst; reflexivity end.
  - intros ->. destruct t; cbn; auto 20.
Qed.
Lemma known_suffix_iff s : known_suffix s <-> exists t, s = suffix_of t.
Proof.
  unfold known_suffix. rewrite in_map_iff. split.
  - intros [[s' t] [<- H]]. exists t. apply suffix_inj. exact H.
  - intros [t ->]. exists (suffix_of t, t). split; [reflexivity|]. apply suffix_inj. reflexivity.
Qed.
Lemma suffix_of_inj t t' : suffix_of t = suffix_of t' -> t = t'.
Proof. destruct t, t'; cbn; congruence. Qed.

Lemma discover_literal {X} (key : expr X) :
  discover key = match literal_of key with Some l => eval_literal_expr l | None => ROk Expression end.
Proof. destruct key as [l|[l|e|x]|x]; reflexivity. Qed.
Lemma discover_str {X} (key : expr X) : discover key = ROk LiteralString <-> exists s, literal_of key = Some (LitStr s).
Proof.
  rewrite discover_literal. destruct (literal_of key) as [[s|v s|]|]; split; intros H; try (destruct H; discriminate); try discriminate; eauto.
  apply eval_int in H. destruct H as [t [? _]]. discriminate.
Qed.
Lemma discover_int {X} (key : expr X) t :
  discover key = ROk (LiteralScalar t) <-> exists v s, literal_of key = Some (LitInt v s) /\ s = suffix_of t.
Proof.
  rewrite discover_literal. destruct (literal_of key) as [[s|v s|]|]; split; intros H;
    try discriminate; try (destruct H as (? & ? & ? & ?); discriminate); eauto.
  - apply eval_int in H. destruct H as [t' [E H]]. injection E as <-. apply suffix_inj in H. eauto.
  - destruct H as [v' [s' [E ->]]]. injection E as <- ->. apply eval_int. exists t. split; [reflexivity|]. apply suffix_inj. reflexivity.
Qed.
Lemma discover_expr {X} (key : expr X) : discover key = ROk Expression <-> literal_of key = None.
Proof.
  rewrite discover_literal. destruct (literal_of key) as [[s|v s|]|]; split; intros H; try discriminate; eauto.
  apply eval_int in H. destruct H as [t' [E H]]. discriminate.
Qed.

Lemma acceptable_type {X W} mk (es : list (m_entry X W)) : acceptable mk es ->
  exists T, forall e, In e es -> kind_ok mk T (discover (me_key e)).
Proof.
  intros [A1 A2 A3 A4].
  (* a decided type among the keys, if there is one *)
  assert (D : (exists T e v, In e es /\ T <> Undecided /\ literal_of (me_key e) = Some (LitInt v (suffix_of T))) \/
              (forall e v s, In e es -> literal_of (me_key e) = Some (LitInt v s) -> s = ""%string)).
  { clear A2 A3 A4. induction es as [|e r IH]; [right; intros ? ? ? []|].
    destruct IH as [[T [e' [v [H1 H2]]]]|IH].
    - intros e' l He'. apply A1. right. exact He'.
    - left. exists T, e', v. split; [right|]; auto.
    - destruct (literal_of (me_key e)) as [[s|v s|]|] eqn:L.
      2:{ destruct (String.eqb_spec s "") as [->|Hs].
          - right. intros e' v' s' [<-|He'] L'; [congruence|eauto].
          - left. destruct (A1 e _ (or_introl eq_refl) L) as [[? ?]|[v' [s' [E K]]]]; [discriminate|]. injection E as <- <-.
            apply known_suffix_iff in K. destruct K as [T ->]. exists T, e, v. repeat split; auto; [left; auto|].
            intros ->. apply Hs. reflexivity. }
      all: right; intros e' v' s' [<-|He'] L'; [congruence|eauto]. }
  assert (G : forall T, (forall e v s, In e es -> literal_of (me_key e) = Some (LitInt v s) -> s = ""%string \/ s = suffix_of T) ->
    forall e, In e es -> kind_ok mk T (discover (me_key e))).
  { intros T HT e He. destruct (discover (me_key e)) as [[t| |]|m] eqn:E; cbn.
    - apply discover_int in E. destruct E as [v [s [L ->]]]. split; [intros ->; eapply A3; eauto|].
      destruct (HT e v _ He L) as [H|H]; [left; apply suffix_of_inj; exact H|right; apply suffix_of_inj; exact H].
    - apply discover_str in E. destruct E as [s L]. intros ->. eapply A2; eauto.
    - exact I.
    - destruct (literal_of (me_key e)) as [l|] eqn:L; [|apply discover_expr in L; congruence].
      destruct (A1 e l He L) as [[s ->]|[v [s [-> K]]]].
      + assert (discover (me_key e) = ROk LiteralString) by (apply discover_str; eauto). congruence.
      + apply known_suffix_iff in K. destruct K as [t ->].
        assert (discover (me_key e) = ROk (LiteralScalar t)) by (apply discover_int; eauto). congruence. }
  destruct D as [[T [e0 [v0 [H0 [H1 L0]]]]]|D].
  - exists T. apply G. intros e v s He L. destruct (A4 e0 e _ _ _ _ H0 He L0 L) as [H|[H|H]]; auto.
    exfalso. apply H1. apply suffix_of_inj. exact H.
  - exists Undecided. apply G. intros e v s He L. left. eauto.
Qed.

Lemma kinds_acceptable {X W} mk T (es : list (m_entry X W)) : (forall e, In e es -> kind_ok mk T (discover (me_key e))) -> acceptable mk es.
Proof.
  intros H. split.
  - intros e l He L. specialize (H e He). rewrite discover_literal, L in H. destruct l as [s|v s|]; [eauto| |destruct H].
    right. exists v, s. split; [reflexivity|]. destruct (eval_literal_expr (LitInt v s)) as [k|] eqn:E; [|destruct H].
    apply eval_int in E. destruct E as [t [_ E]]. apply known_suffix_iff. exists t. apply suffix_inj. exact E.
  - intros -> e s He L. specialize (H e He). rewrite discover_literal, L in H. apply H. reflexivity.
  - intros -> e v s He L. specialize (H e He). rewrite discover_literal, L in H. destruct (eval_literal_expr (LitInt v s)) as [k|] eqn:E; [|destruct H].
    apply eval_int in E. destruct E as [t [-> _]]. apply H. reflexivity.
  - assert (G : forall e v s, In e es -> literal_of (me_key e) = Some (LitInt v s) -> s = ""%string \/ s = suffix_of T).
    { intros e v s He L. specialize (H e He). rewrite discover_literal, L in H. destruct (eval_literal_expr (LitInt v s)) as [k|] eqn:E; [|destruct H].
      apply eval_int in E. destruct E as [t [-> E]]. apply suffix_inj in E. subst s. destruct H as [_ [->| ->]]; auto. }
    intros e1 e2 v1 v2 s1 s2 H1 H2 L1 L2. destruct (G _ _ _ H1 L1), (G _ _ _ H2 L2); subst; auto.
Qed.

Lemma assess_accepts {X W} mk (es : list (m_entry X W)) : (exists kind, assess_keys es mk = ROk kind) <-> acceptable mk es.
Proof.
  split.
  - intros [kind E]. pose proof (assess_keys_steps mk es) as S0. rewrite E in S0. cbn in S0.
    destruct (steps _ _ _) as [[[ns nc] st]|] eqn:S1; [|discriminate].
    apply steps_sound in S1. destruct S1 as [H _]. apply (kinds_acceptable mk st). intros e He. apply H. apply (in_map (fun e => discover (me_key e))). exact He.
  - intros A. destruct (acceptable_type mk es A) as [T H].
    destruct (steps_complete mk T (map (fun e => discover (me_key e)) es)) with (ns := 0%nat) (nc := 0%nat) (st := Undecided) as [r E].
    + intros k Hk. apply in_map_iff in Hk. destruct Hk as [e [<- He]]. auto.
    + auto.
    + pose proof (assess_keys_steps mk es) as S0. rewrite E in S0. destruct (assess_keys es mk) as [k|]; [eauto|discriminate].
Qed.

(** * Selection *)
Lemma count_le {A} (f : A -> bool) l : (count f l <= List.length l)%nat.
Proof. unfold count. induction l as [|a r IH]; cbn; [lia|]. destruct (f a); cbn; lia. Qed.
Lemma count_all {A} (f : A -> bool) l : count f l = List.length l <-> forall x, In x l -> f x = true.
Proof.
  split.
  - induction l as [|a r IH]; intros H x [].
    + subst a. unfold count in H. cbn in H. destruct (f x) eqn:E; [reflexivity|]. pose proof (count_le f r). unfold count in *. lia.
    + apply IH; auto. pose proof (count_le f r). unfold count in *. cbn in H. destruct (f a); cbn in H; lia.
  - induction l as [|a r IH]; intros H; [reflexivity|]. unfold count in *. cbn. rewrite (H a (or_introl eq_refl)). cbn. f_equal. apply IH. intros x Hx. apply H. right. exact Hx.
Qed.
Lemma count_zero {A} (f : A -> bool) l : count f l = 0%nat <-> forall x, In x l -> f x = false.
Proof.
  split.
  - induction l as [|a r IH]; intros H x []; unfold count in *; cbn in H.
    + subst a. destruct (f x) eqn:E; [discriminate|reflexivity].
    + apply IH; auto. destruct (f a); [discriminate|exact H].
  - induction l as [|a r IH]; intros H; [reflexivity|]. unfold count in *. cbn. rewrite (H a (or_introl eq_refl)). apply IH. intros x Hx. apply H. right. exact Hx.
Qed.

Section Selection.
Context {X W : Type} (mk : macro_kind) (es : list (m_entry X W)).
Let ks := map (fun e => discover (me_key e)) es.

Lemma in_ks k : In k ks <-> exists e, In e es /\ discover (me_key e) = k.
Proof. unfold ks. rewrite in_map_iff. firstorder. Qed.

Lemma str_kind e : is_string_kind (discover (me_key e)) = true <-> exists s, literal_of (me_key (X := X) (W := W) e) = Some (LitStr s).
Proof. rewrite <- discover_str. destruct (discover (me_key e)) as [[t| |]|]; cbn; split; congruence. Qed.
Lemma int_kind e : is_scalar_kind (discover (me_key e)) = true <-> exists t, discover (me_key (X := X) (W := W) e) = ROk (LiteralScalar t).
Proof. destruct (discover (me_key e)) as [[t| |]|]; cbn; split; try congruence; try (intros [? ?]; congruence); eauto. Qed.

Lemma strings_count : count is_string_kind ks = List.length es <-> all_strings es.
Proof.
  unfold ks. rewrite <- (map_length (fun e => discover (me_key e)) es), count_all. unfold all_strings. split.
  - intros H e He. apply str_kind. apply H. apply in_ks. eauto.
  - intros H k Hk. apply in_ks in Hk. destruct Hk as [e [He <-]]. apply str_kind. auto.
Qed.
Lemma strings_none : count is_string_kind ks = 0%nat <-> ~ some_string es.
Proof.
  rewrite count_zero. split.
  - intros H [e [s [He L]]]. assert (F := H _ (proj2 (in_ks _) (ex_intro _ e (conj He eq_refl)))).
    assert (is_string_kind (discover (me_key e)) = true) by (apply str_kind; eauto). congruence.
  - intros H k Hk. apply in_ks in Hk. destruct Hk as [e [He <-]]. destruct (is_string_kind (discover (me_key e))) eqn:E; [|reflexivity].
    exfalso. apply H. apply str_kind in E. destruct E as [s L]. exists e, s. auto.
Qed.
Lemma ints_none : acceptable mk es -> count is_scalar_kind ks = 0%nat <-> ~ some_integer es.
Proof.
  intros A. rewrite count_zero. split.
  - intros H [e [v [s [He L]]]]. assert (F := H _ (proj2 (in_ks _) (ex_intro _ e (conj He eq_refl)))).
    destruct (acc_literals _ _ A e _ He L) as [[? ?]|[v' [s' [E K]]]]; [discriminate|]. injection E as <- <-.
    apply known_suffix_iff in K. destruct K as [t ->].
    assert (is_scalar_kind (discover (me_key e)) = true) by (apply int_kind; exists t; apply discover_int; eauto). congruence.
  - intros H k Hk. apply in_ks in Hk. destruct Hk as [e [He <-]]. destruct (is_scalar_kind (discover (me_key e))) eqn:E; [|reflexivity].
    exfalso. apply H. apply int_kind in E. destruct E as [t E]. apply discover_int in E. destruct E as [v [s [L _]]]. exists e, v, s. auto.
Qed.

Lemma some_string_dec : some_string es \/ ~ some_string es.
Proof. destruct (Nat.eq_dec (count is_string_kind ks) 0) as [E|E]; [right; apply strings_none; exact E|left].
  unfold count in E. destruct (filter is_string_kind ks) as [|k r] eqn:F; [exfalso; apply E; reflexivity|].
  assert (Hk : In k (filter is_string_kind ks)) by (rewrite F; left; auto). apply filter_In in Hk. destruct Hk as [Hk H1].
  apply in_ks in Hk. destruct Hk as [e [He <-]]. apply str_kind in H1. destruct H1 as [s L]. exists e, s. auto.
Qed.
Lemma some_integer_found : count is_scalar_kind ks <> 0%nat -> some_integer es.
Proof.
  unfold count. destruct (filter is_scalar_kind ks) as [|k r] eqn:F; [intros E; exfalso; apply E; reflexivity|]. intros _.
  assert (Hk : In k (filter is_scalar_kind ks)) by (rewrite F; left; auto). apply filter_In in Hk. destruct Hk as [Hk H1].
  apply in_ks in Hk. destruct Hk as [e [He <-]]. apply int_kind in H1. destruct H1 as [t E]. apply discover_int in E. destruct E as [v [s [L _]]].
  exists e, v, s. auto.
Qed.

Lemma selected kind : es <> [] -> assess_keys es mk = ROk kind -> kind_selected mk es kind.
Proof.
  intros NE E. assert (A : acceptable mk es) by (apply assess_accepts; eauto).
  pose proof (assess_keys_steps mk es) as S0. rewrite E in S0. cbn in S0. fold ks in S0.
  destruct (steps mk ks _) as [[[ns nc] st]|] eqn:S1; [|discriminate]. injection S0 as ->.
  apply steps_sound in S1. destruct S1 as [H1 [_ [H3 [H4 H5]]]]. cbn in H4, H5. unfold kind_of.
  assert (NZ : List.length es <> 0%nat) by (destruct es; [congruence|discriminate]).
  destruct (Nat.eqb_spec nc (List.length es)) as [Hn|Hn].
  { cbn. subst nc. unfold ks in Hn at 1. rewrite <- (map_length (fun e => discover (me_key e)) es) in Hn. fold ks in Hn.
    assert (Hn' := proj1 (count_all _ _) Hn). split.
    - intros e He. assert (Ik : In (discover (me_key e)) ks) by (apply in_ks; eauto).
      pose proof (Hn' _ Ik) as IK. apply int_kind in IK. destruct IK as [t IK].
      specialize (H1 _ Ik). rewrite IK in H1. destruct H1 as [_ H1]. apply discover_int in IK. destruct IK as [v [s [L ->]]].
      exists v, (suffix_of t). split; [exact L|]. destruct H1 as [->| ->]; [left; reflexivity|right]. apply suffix_inj. reflexivity.
    - intros Hu. destruct H3 as [H3|H3]; [contradiction|]. apply in_ks in H3. destruct H3 as [e [He D]].
      apply discover_int in D. destruct D as [v [s [L ->]]]. exists e, v, (suffix_of st). split; [exact He|]. split; [exact L|]. apply suffix_inj. reflexivity. }
  assert (NI : forall t, ~ all_integers t es).
  { intros t [AI _]. apply Hn. subst nc. unfold ks at 1. rewrite <- (map_length (fun e => discover (me_key e)) es). apply count_all.
    intros k Hk. apply in_ks in Hk. destruct Hk as [e [He <-]]. destruct (AI e He) as [v [s [L Hs]]]. apply int_kind.
    destruct Hs as [->|Hs]; [exists Undecided|exists t]; apply discover_int; exists v; eexists; (split; [exact L|]); [reflexivity|apply suffix_inj; exact Hs]. }
  destruct (Nat.ltb_spec 0 nc) as [Hc|Hc]; cbn [andb].
  - destruct (Nat.eqb_spec ns 0) as [Hs|Hs].
    + split; [exact NI|]. split; [apply strings_none; lia|]. left. apply some_integer_found. lia.
    + assert (SS : some_string es).
      { destruct some_string_dec as [?|F]; [assumption|]. apply strings_none in F. lia. }
      destruct (Nat.eqb_spec ns (List.length es)) as [Ha|Ha].
      * apply strings_count. lia.
      * destruct (Nat.ltb_spec 0 ns) as [Hp|Hp]; [|lia]. split; [|auto]. intros F. apply strings_count in F. lia.
  - destruct (Nat.eqb_spec ns (List.length es)) as [Ha|Ha].
    + apply strings_count. lia.
    + assert (NS : ~ all_strings es) by (intros F; apply strings_count in F; lia).
      destruct (Nat.ltb_spec 0 ns) as [Hp|Hp].
      * split; [exact NS|]. left. destruct some_string_dec as [?|F]; [assumption|]. apply strings_none in F. lia.
      * assert (F1 : ~ some_string es) by (apply strings_none; lia). assert (F2 : ~ some_integer es) by (apply (ints_none A); lia).
        assert (NL : no_literals es).
        { intros e He. destruct (literal_of (me_key e)) as [l|] eqn:L; [|reflexivity]. exfalso.
          destruct (acc_literals _ _ A e l He L) as [[s ->]|[v [s [-> _]]]]; [apply F1; exists e, s; auto|apply F2; exists e, v, s; auto]. }
        destruct mk; cbn; auto.
Qed.

Lemma selected_unique k1 k2 : es <> [] -> acceptable mk es -> kind_selected mk es k1 -> kind_selected mk es k2 -> k1 = k2.
Proof.
  intros NE A S1 S2.
  assert (Hex : exists e, In e es) by (destruct es as [|e ?]; [congruence|exists e; left; auto]). destruct Hex as [e0 He0].
  assert (I1 : forall t, all_integers t es -> some_integer es) by (intros t [H _]; destruct (H e0 He0) as [v [s [L _]]]; exists e0, v, s; auto).
  assert (T1 : all_strings es -> some_string es) by (intros H; destruct (H e0 He0) as [s L]; exists e0, s; auto).
  assert (IT : forall t, all_integers t es -> ~ some_string es).
  { intros t [H _] [e [s [He L]]]. destruct (H e He) as [v [s' [L' _]]]. congruence. }
  assert (TI : all_strings es -> ~ some_integer es).
  { intros H [e [v [s [He L]]]]. destruct (H e He) as [s' L']. congruence. }
  assert (N1 : no_literals es -> ~ some_string es) by (intros H [e [s [He L]]]; rewrite (H e He) in L; discriminate).
  assert (N2 : no_literals es -> ~ some_integer es) by (intros H [e [v [s [He L]]]]; rewrite (H e He) in L; discriminate).
  assert (AM : mk = MkScalar -> ~ some_string es) by (intros M [e [s [He L]]]; exact (acc_no_strings _ _ A M e s He L)).
  assert (AN : mk = MkString -> ~ some_integer es) by (intros M [e [v [s [He L]]]]; exact (acc_no_integers _ _ A M e v s He L)).
  destruct k1 as [t1| | | | |], k2 as [t2| | | | |]; cbn in S1, S2; try reflexivity;
    try (exfalso; first [destruct S1; congruence | solve [intuition eauto] | intuition (eauto; congruence)]).
  f_equal. destruct S1 as [G1 P1], S2 as [G2 P2].
  assert (U : forall t t', (forall e, In e es -> exists v s, literal_of (me_key e) = Some (LitInt v s) /\ (s = ""%string \/ In (s, t) suffix_table)) ->
    (t' <> Undecided -> exists e v s, In e es /\ literal_of (me_key e) = Some (LitInt v s) /\ In (s, t') suffix_table) -> t' = Undecided \/ t' = t).
  { intros t t' G P. destruct (scalar_type_eqb t' Undecided) eqn:Q; [left; apply scalar_type_eqb_eq; exact Q|right].
    destruct P as [e [v [s [He [L Hs]]]]]; [intros F; apply scalar_type_eqb_eq in F; congruence|].
    destruct (G e He) as [v' [s' [L' Hs']]]. rewrite L in L'. injection L' as <- <-. destruct Hs' as [->|Hs'].
    - apply suffix_inj in Hs. destruct t'; discriminate.
    - apply (suffix_fun s); assumption. }
  destruct (U t1 t2 G1 P2) as [->|]; [|congruence]. destruct (U Undecided t1 G2 P1); congruence.
Qed.

Lemma selection : es <> [] -> acceptable mk es -> forall kind, assess_keys es mk = ROk kind <-> kind_selected mk es kind.
Proof.
  intros NE A kind. split; [apply selected; exact NE|]. intros S. destruct (proj2 (assess_accepts mk es) A) as [k E].
  rewrite E. f_equal. apply selected_unique; auto. apply selected; auto.
Qed.
End Selection.

(** * From the macro call to the running collection *)
Lemma mapR_map {A B} (f : A -> result B) (g : A -> B) l : (forall x, In x l -> f x = ROk (g x)) -> mapR f l = ROk (map g l).
Proof.
  induction l as [|a r IH]; intros H; [reflexivity|]. cbn. rewrite (H a (or_introl eq_refl)), IH; [reflexivity|]. intros x Hx. apply H. right. exact Hx.
Qed.
Lemma mapR_err {A B} (f : A -> result B) l x m : In x l -> f x = RErr m -> exists m', mapR f l = RErr m'.
Proof.
  intros H E. induction l as [|a r IH]; [destruct H|]. cbn. destruct (f a) as [y|m'] eqn:F; [|eauto].
  destruct H as [->|H]; [congruence|]. destruct (IH H) as [m' ->]. eauto.
Qed.

Lemma value_eq p t (a b : value_of p t) : proj1_sig a = proj1_sig b -> a = b.
Proof.
  destruct a as [a Ha], b as [b Hb]. cbn. intros ->. f_equal. apply Eqdep_dec.UIP_dec. apply Bool.bool_dec.
Qed.

Lemma key_lit_literal {X} (key : expr X) l : literal_of key = Some l -> key_lit key = Some l.
Proof. destruct key as [l'|[l'|e|x]|x]; cbn; congruence. Qed.
Lemma key_form {X} (key : expr X) l : literal_of key = Some l -> key = ELit l \/ key = EGroup (ELit l).
Proof. destruct key as [l'|[l'|e|x]|x]; cbn; intros E; try discriminate E; injection E as ->; auto. Qed.

Definition macro_emitter {X W} (is_map : bool) (input : macro_input (X := X) (W := W)) : emitter :=
  match input with
  | ShortForm _ => if is_map then new_with_inferred_types else new_with_inferred_key_type
  | LongForm var_name type_name _ visibility is_static is_mutable => long_emitter is_map var_name type_name visibility is_static is_mutable
  end.

Lemma macro_options {X W} is_map (input : macro_input (X := X) (W := W)) k v : not_static_mut input ->
  options_consistent (with_const (macro_emitter is_map input) k v).
Proof.
  destruct input as [p|n t p vis s m]; cbn.
  - intros _. destruct is_map; (split; cbn; [intros [F _]; discriminate|intros [F|[F|F]]; [discriminate..|congruence]]).
  - intros H. split; cbn; [exact H|discriminate].
Qed.
Lemma macro_decls {X W} is_map (input : macro_input (X := X) (W := W)) k v d :
  expected_decl (with_const (macro_emitter is_map input) k v) d -> d = macro_decl input (negb (k && v)).
Proof. destruct input as [p|n t p vis s m]; [destruct is_map|]; unfold expected_decl; cbn; [auto..|]. destruct s; auto. Qed.
Lemma macro_value_type {X W} is_map (input : macro_input (X := X) (W := W)) k v :
  em_has_value_type (with_const (macro_emitter is_map input) k v) = is_map.
Proof. destruct input, is_map; reflexivity. Qed.

Lemma emits_macro {X W X' K V Q} (r : res (result (decl * output X' W))) (input : macro_input (X := X) (W := W)) is_map k v evK evV eqR cmpR
    (ops : map_ops (rt_map K V) K V Q) eqK eqv pairs :
  emits r (with_const (macro_emitter is_map input) k v) evK evV eqR cmpR ops eqK eqv pairs ->
  macro_emits r input is_map (negb (k && v)) evK evV eqR cmpR ops eqK eqv pairs.
Proof.
  intros [d [out [m [H1 [H2 [H3 H4]]]]]]. exists d, out, m. split; [exact H1|]. split; [apply (macro_decls is_map); exact H2|].
  rewrite macro_value_type in H3. auto.
Qed.

Section EndToEnd.
Context {X W : Type} (usort : forall T : Type, list (N * T) -> list (N * T)) (md : mode) (unit_expr : W) (seed : N)
  (fixed_state : N -> build_hasher) (hash_i32 : N -> scalar_value I32 -> N).
Hypothesis HU : forall T, sorts_by_slot (usort T).
Notation fz := (fz_macro (X := X) usort md unit_expr seed fixed_state hash_i32).

Lemma fz_process is_map input mk :
  fz is_map input mk = process usort md unit_expr seed fixed_state hash_i32 (payload input) (macro_emitter is_map input) mk.
Proof. destruct input; reflexivity. Qed.

Lemma process_nonempty (es : list (m_entry X W)) em mk kind : es <> [] -> assess_keys es mk = ROk kind ->
  process usort md unit_expr seed fixed_state hash_i32 es em mk =
  match kind with
  | AllLiteralScalars Undecided => handle_literal_scalar_keys usort md unit_expr I32 em es "i32"
  | AllLiteralScalars t => handle_literal_scalar_keys usort md unit_expr t em es ""
  | LiteralAndExpressionScalars => handle_non_literal_scalar_keys unit_expr em es
  | AllLiteralStrings => handle_literal_string_keys usort unit_expr seed fixed_state em es
  | LiteralAndExpressionStrings => handle_non_literal_string_keys unit_expr em es
  | EffHashed => handle_hashed_keys unit_expr em es
  | EffOrdered => handle_ordered_keys unit_expr em es
  end.
Proof. intros NE E. destruct es as [|e r]; [congruence|]. unfold process. rewrite E. reflexivity. Qed.

Definition new_key (suffix : string) (e : m_entry X W) : expr X :=
  if String.eqb suffix "" then me_key e
  else match literal_of (me_key e) with Some (LitInt v s) => ELit (LitInt v (s ++ suffix)) | _ => me_key e end.
Definition entry_value (e : m_entry X W) : W := match me_value e with Some w => w | None => unit_expr end.

Section Ints.
Context (t : scalar_type) (evK : expr X -> scalar_value t).
Hypothesis EV : evaluates_integers t evK.

Lemma ev_key (e : m_entry X W) v s : literal_of (me_key e) = Some (LitInt v s) -> in_type Ptr64 (int_type_of t) (Z.of_N v) = true ->
  proj1_sig (evK (me_key e)) = Z.of_N v.
Proof. destruct EV as [E1 E2]. intros L F. destruct (key_form _ _ L) as [->| ->]; [auto|]. rewrite E2. auto. Qed.

Lemma scalar_entry suffix (e : m_entry X W) v s : literal_of (me_key e) = Some (LitInt v s) ->
  in_type Ptr64 (int_type_of t) (Z.of_N v) = true ->
  literal_scalar_entry unit_expr t suffix e = ROk (evK (me_key e), (new_key suffix e, entry_value e)).
Proof.
  intros L F. unfold literal_scalar_entry. rewrite (key_lit_literal _ _ L). unfold base10_parse.
  destruct (Bool.bool_dec _ true) as [H|]; [|congruence]. unfold new_key, entry_value. rewrite L.
  do 2 f_equal. apply value_eq. cbn. symmetry. eapply ev_key; eauto.
Qed.

Lemma ev_new_key suffix e v s : literal_of (me_key e) = Some (LitInt v s) -> in_type Ptr64 (int_type_of t) (Z.of_N v) = true ->
  evK (new_key suffix e) = evK (me_key e).
Proof.
  intros L F. unfold new_key. destruct (String.eqb suffix ""); [reflexivity|]. rewrite L. apply value_eq.
  rewrite (ev_key e v s L F). apply (proj1 EV). exact F.
Qed.

Lemma scalar_keys_emit {V Q} input is_map suffix (evV : W -> V) eqR cmpR idxQ (eqv : Q -> scalar_value t -> bool) cmpQ :
  let es := payload input in
  (forall e, In e es -> exists v s, literal_of (me_key e) = Some (LitInt v s)) -> values_fit t es -> not_static_mut input ->
  lawful_query_scalar (index_of Ptr64 (int_type_of t)) idxQ eqv ->
  span_representable (index_of Ptr64 (int_type_of t)) (map (fun e => evK (me_key e)) es) ->
  N.of_nat (List.length es) <= usize_max ->
  macro_emits (handle_literal_scalar_keys usort md unit_expr t (macro_emitter is_map input) es suffix) input is_map false evK evV eqR cmpR
    (rt_ops eqv cmpQ idxQ (scalar_hasher idxQ)) (idx_eq (index_of Ptr64 (int_type_of t))) eqv
    (macro_pairs evK evV (evV unit_expr) is_map es).
Proof.
  intros es HL HF HO LQ SP Hc. unfold handle_literal_scalar_keys.
  rewrite (mapR_map _ (fun e => (evK (me_key e), (new_key suffix e, entry_value e)))).
  2:{ intros e He. destruct (HL e He) as [v [s L]]. apply (scalar_entry _ _ v s); auto. eapply HF; eauto. }
  apply (emits_macro _ input is_map true true).
  set (coll := map _ es).
  assert (EP : macro_pairs evK evV (evV unit_expr) is_map es =
    rt_input evK evV (evV unit_expr) (em_has_value_type (with_const (macro_emitter is_map input) true true)) coll).
  { rewrite macro_value_type. unfold macro_pairs, rt_input, coll. rewrite map_map. apply map_ext_in. intros e He. unfold rt_key. cbn.
    destruct (HL e He) as [v [s L]]. rewrite (ev_new_key suffix e v s L) by (eapply HF; eauto). f_equal. unfold entry_value.
    destruct (me_value e), is_map; reflexivity. }
  rewrite EP. apply emit_scalar_emits; auto.
  - apply builtin_lawful_scalar.
  - intros e He. apply in_map_iff in He. destruct He as [e' [<- He]]. unfold rt_key. cbn.
    destruct (HL e' He) as [v [s L]]. rewrite (ev_new_key suffix e' v s L) by (eapply HF; eauto). reflexivity.
  - unfold coll. rewrite map_map. exact SP.
  - unfold coll. rewrite map_length. exact Hc.
  - apply macro_options. exact HO.
Qed.
End Ints.

Lemma integers_emit {V Q} is_map input mk t (evK : expr X -> scalar_value t) (evV : W -> V) eqR cmpR idxQ (eqv : Q -> scalar_value t -> bool) cmpQ :
  let es := payload input in
  es <> [] -> mk <> MkString -> all_integers t es -> values_fit t es -> not_static_mut input -> evaluates_integers t evK ->
  lawful_query_scalar (index_of Ptr64 (int_type_of t)) idxQ eqv ->
  span_representable (index_of Ptr64 (int_type_of t)) (map (fun e => evK (me_key e)) es) ->
  N.of_nat (List.length es) <= usize_max ->
  macro_emits (fz is_map input mk) input is_map false evK evV eqR cmpR
    (rt_ops eqv cmpQ idxQ (scalar_hasher idxQ)) (idx_eq (index_of Ptr64 (int_type_of t))) eqv
    (macro_pairs evK evV (evV unit_expr) is_map es).
Proof.
  intros es NE HM HI HF HO EV LQ SP Hc.
  assert (HL : forall e, In e es -> exists v s, literal_of (me_key e) = Some (LitInt v s)).
  { intros e He. destruct (proj1 HI e He) as [v [s [L _]]]. eauto. }
  assert (A : acceptable mk es).
  { apply (kinds_acceptable mk t). intros e He. destruct (proj1 HI e He) as [v [s [L Hs]]].
    assert (exists u, discover (me_key e) = ROk (LiteralScalar u) /\ (u = Undecided \/ u = t)) as [u [-> Hu]].
    { destruct Hs as [->|Hs]; [exists Undecided|exists t; apply suffix_inj in Hs]; (split; [apply discover_int; eauto|auto]). }
    cbn. auto. }
  assert (E : assess_keys es mk = ROk (AllLiteralScalars t)) by (apply selection; auto).
  rewrite fz_process, (process_nonempty _ _ _ _ NE E).
  destruct t; first [apply scalar_keys_emit; auto; fail | exact (scalar_keys_emit I32 evK EV input is_map "i32" evV eqR cmpR idxQ eqv cmpQ HL HF HO LQ SP Hc)].
Qed.

Lemma integers_reject is_map input mk t : let es := payload input in
  es <> [] -> all_integers t es -> ~ values_fit t es -> exists msg, fz is_map input mk = Ok (RErr msg).
Proof.
  intros es NE HI HF.
  assert (BAD : exists e v s, In e es /\ literal_of (me_key e) = Some (LitInt v s) /\ in_type Ptr64 (int_type_of t) (Z.of_N v) = false).
  { destruct HI as [HI _]. revert HI HF. clear NE. generalize es. clear es. induction es as [|e r IH]; intros HI HF.
    - exfalso. apply HF. intros ? ? ? [].
    - destruct (HI e (or_introl eq_refl)) as [v [s [L _]]].
      destruct (in_type Ptr64 (int_type_of t) (Z.of_N v)) eqn:F.
      + destruct IH as [e' [v' [s' [H1 H2]]]].
        * intros e' He'. apply HI. right. exact He'.
        * intros HF'. apply HF. intros e' v' s' [<-|He'] L'; [congruence|]. eapply HF'; eauto.
        * exists e', v', s'. split; [right; exact H1|exact H2].
      + exists e, v, s. split; [left; reflexivity|auto]. }
  destruct BAD as [e [v [s [He [L F]]]]]. rewrite fz_process. fold es.
  assert (G : forall suffix, exists msg, handle_literal_scalar_keys usort md unit_expr t (macro_emitter is_map input) es suffix = Ok (RErr msg)).
  { intros suffix. unfold handle_literal_scalar_keys.
    destruct (mapR_err (literal_scalar_entry unit_expr t suffix) es e "number too large to fit in target type" He) as [m ->]; [|eauto].
    unfold literal_scalar_entry. rewrite (key_lit_literal _ _ L). unfold base10_parse. destruct (Bool.bool_dec _ true); [congruence|reflexivity]. }
  destruct (assess_keys es mk) as [kind|msg] eqn:E.
  - assert (kind = AllLiteralScalars t) as ->.
    { assert (A : acceptable mk es) by (apply assess_accepts; eauto). apply (selected_unique mk es); auto. apply selected; auto. }
    rewrite (process_nonempty _ _ _ _ NE E). destruct t; apply G.
  - exists msg. destruct es as [|e0 r] eqn:EE; [congruence|]. unfold process. rewrite E. reflexivity.
Qed.

Lemma strings_emit {V} is_map input mk fsR (evK : expr X -> bytes) (evV : W -> V) eqR cmpR cmpQ idxQ :
  let es := payload input in
  es <> [] -> mk <> MkScalar -> all_strings es -> not_static_mut input -> evaluates_strings evK ->
  (forall s, bh_str (fsR seed) s = bh_str (fixed_state seed) s) -> (forall s, bh_bytes (fsR seed) s = bh_bytes (fixed_state seed) s) ->
  (forall e, In e es -> N.of_nat (List.length (evK (me_key e))) <= usize_max) ->
  N.of_nat (List.length es) <= usize_max ->
  macro_emits (fz is_map input mk) input is_map false evK evV eqR cmpR
    (rt_ops bytes_eqb cmpQ idxQ (string_hasher fsR)) bytes_eqb bytes_eqb (macro_pairs evK evV (evV unit_expr) is_map es).
Proof.
  intros es NE HM HS HO [EV1 EV2] B1 B2 Hl Hc.
  assert (A : acceptable mk es).
  { apply (kinds_acceptable mk Undecided). intros e He. rewrite (proj2 (discover_str (me_key e)) (HS e He)). cbn. exact HM. }
  assert (E : assess_keys es mk = ROk AllLiteralStrings) by (apply selection; auto).
  rewrite fz_process, (process_nonempty _ _ _ _ NE E). unfold handle_literal_string_keys.
  assert (EK : forall e s, literal_of (me_key e) = Some (LitStr s) -> evK (me_key (X := X) (W := W) e) = s).
  { intros e s L. destruct (key_form _ _ L) as [->| ->]; rewrite ?EV2; auto. }
  rewrite (mapR_map _ (fun e => (evK (me_key e), (me_key e, entry_value e)))).
  2:{ intros e He. destruct (HS e He) as [s L]. unfold literal_string_entry. rewrite (key_lit_literal _ _ L), (EK e s L). reflexivity. }
  apply (emits_macro _ input is_map true true). fold es.
  set (coll := map _ es).
  assert (EP : macro_pairs evK evV (evV unit_expr) is_map es =
    rt_input evK evV (evV unit_expr) (em_has_value_type (with_const (macro_emitter is_map input) true true)) coll).
  { rewrite macro_value_type. unfold macro_pairs, rt_input, coll. rewrite map_map. apply map_ext. intros e. unfold rt_key. cbn. f_equal. unfold entry_value.
    destruct (me_value e), is_map; reflexivity. }
  rewrite EP. apply emit_string_emits; auto.
  - intros e He. apply in_map_iff in He. destruct He as [e' [<- He]]. reflexivity.
  - intros e He. apply in_map_iff in He. destruct He as [e' [<- He]]. cbn. auto.
  - unfold coll. rewrite map_length. exact Hc.
  - apply macro_options. exact HO.
Qed.

(** The empty collection. *)
Lemma emit_hash_nil {KB Y} (h h' : N -> KB -> N) eqB em :
  emit_hash_collection (usort _) unit_expr seed h eqB em ([] : list (entry KB Y W)) = emit_hash_collection (usort _) unit_expr seed h' eqB em [].
Proof. unfold emit_hash_collection, clean_values. destruct (em_has_value_type em); reflexivity. Qed.
Lemma empty_short is_map mk : exists msg, fz is_map (ShortForm []) mk = Ok (RErr msg).
Proof. destruct is_map; eexists; reflexivity. Qed.

Lemma empty_long {K V Q} is_map input mk (evK : expr X -> K) (evV : W -> V) eqR cmpR eqK (eqv : Q -> K -> bool) cmpQ idxQ hashR :
  payload input = [] -> typed input = true -> not_static_mut input -> lawful_eq eqK -> lawful_equivalent eqK eqv ->
  macro_emits (fz is_map input mk) input is_map false evK evV eqR cmpR (rt_ops eqv cmpQ idxQ (general_hasher hashR)) eqK eqv [].
Proof.
  intros P T HO LE LV. rewrite fz_process, P. unfold process.
  assert (em_inferred_key_type (macro_emitter is_map input) = false) as -> by (destruct input, is_map; (discriminate || reflexivity)).
  apply (emits_macro _ input is_map true true).
  set (em := with_const _ true true).
  assert (E : @nil (K * V) = rt_input evK evV (evV unit_expr) (em_has_value_type em) (@nil (scalar_value I32 * (expr X * W)))) by reflexivity.
  assert (LB : lawful_eq (fun a b : scalar_value I32 => Z.eqb (proj1_sig a) (proj1_sig b))).
  { split; intros; rewrite ?Z.eqb_eq in *; rewrite ?Z.eqb_refl; auto; congruence. }
  rewrite (emit_hash_nil hash_i32 (fun _ _ => 0)), E. apply emit_hash_emits; auto.
  - intros x y _. reflexivity.
  - intros a b [].
  - intros q e [].
  - cbn. unfold usize_max. lia.
  - apply macro_options. exact HO.
Qed.

(** Keys that are not all literals. *)
Lemma non_literal_pairs {K V} is_map (es : list (m_entry X W)) (evK : expr X -> K) (evV : W -> V) : well_formed is_map es ->
  eval_entries evK evV (map snd (map (non_literal_entry unit_expr) es)) = macro_pairs evK evV (evV unit_expr) is_map es.
Proof.
  intros WF. unfold eval_entries, macro_pairs. rewrite !map_map. apply map_ext_in. intros e He. cbn. f_equal.
  specialize (WF e He). destruct (me_value e); [|reflexivity]. destruct is_map; [reflexivity|]. exfalso.
  assert (false = true) by (apply WF; discriminate). discriminate.
Qed.

Lemma expands (r : res (result (decl * output (expr X) W))) input is_map (P : ctor (expr X) W -> Prop) :
  (exists d out, r = Ok (ROk (d, out)) /\ expected_decl (with_const (macro_emitter is_map input) false false) d /\
    o_set out = negb (em_has_value_type (with_const (macro_emitter is_map input) false false)) /\ P (o_ctor out)) ->
  macro_expands r (input : macro_input (X := X) (W := W)) is_map P.
Proof.
  intros [d [out [H1 [H2 [H3 H4]]]]]. exists d, out. split; [exact H1|]. split; [apply (macro_decls is_map input false false); exact H2|].
  rewrite macro_value_type in H3. auto.
Qed.

Section Expressions.
Context {K V Q : Type} (is_map : bool) (input : macro_input (X := X) (W := W)) (mk : macro_kind).
Notation es := (payload input).
Hypothesis NE : es <> [].
Hypothesis A : acceptable mk es.
Hypothesis WF : well_formed is_map es.
Hypothesis HO : not_static_mut input.

Lemma fz_kind kind : kind_selected mk es kind -> assess_keys es mk = ROk kind.
Proof. apply selection; auto. Qed.
Lemma non_literal_length : List.length (map (non_literal_entry unit_expr) es) = List.length es.
Proof. apply map_length. Qed.

Lemma hashed_expands (evK : expr X -> K) (evV : W -> V) eqR cmpR (eqv : Q -> K -> bool) cmpQ idxQ hashQ hK hQ srt :
  kind_selected mk es EffHashed ->
  sorts_by_slot srt -> lawful_eq eqR -> lawful_equivalent eqR eqv -> lawful_hash eqR hK -> lawful_query_hash eqv hQ hK ->
  N.of_nat (List.length es) <= usize_max ->
  macro_expands (fz is_map input mk) input is_map (fun c =>
    if Nat.ltb (List.length es) 4
    then exact_or_panic (run_ctor evK evV eqR cmpR c) (rt_ops eqv cmpQ idxQ hashQ) eqR eqv (macro_pairs evK evV (evV unit_expr) is_map es)
    else exists m, run_fz_hash srt evK evV eqR hK c = Ok m /\
      answers (hash_ops (fun q => Ok (hQ q)) eqv) eqR eqv m (macro_pairs evK evV (evV unit_expr) is_map es)).
Proof.
  intros KS HS LE LV LH LQ Hc. rewrite fz_process, (process_nonempty _ _ _ _ NE (fz_kind _ KS)). apply expands. unfold handle_hashed_keys.
  rewrite <- (non_literal_pairs is_map es evK evV WF). rewrite <- non_literal_length in *.
  apply emit_hash_expr_spec; auto. apply macro_options. exact HO.
Qed.

Lemma ordered_expands (evK : expr X -> K) (evV : W -> V) eqR cmpK (eqv : Q -> K -> bool) cmpQ idxQ hashQ :
  kind_selected mk es EffOrdered ->
  lawful_ord cmpK -> lawful_comparable cmpK cmpQ -> (forall a b, eqR a b = cmp_eq cmpK a b) -> (forall q k, eqv q k = cmp_eq cmpQ q k) ->
  macro_expands (fz is_map input mk) input is_map (fun c =>
    exact_or_panic (run_ctor evK evV eqR cmpK c) (rt_ops eqv cmpQ idxQ hashQ) (cmp_eq cmpK) eqv
      (macro_pairs evK evV (evV unit_expr) is_map es)).
Proof.
  intros KS LO LC HE HV. rewrite fz_process, (process_nonempty _ _ _ _ NE (fz_kind _ KS)). apply expands. unfold handle_ordered_keys.
  rewrite <- (non_literal_pairs is_map es evK evV WF).
  apply emit_ordered_expr_spec; auto. apply macro_options. exact HO.
Qed.

Lemma scalars_expands (evK : expr X -> K) (evV : W -> V) idxK cmpK cmpR (eqv : Q -> K -> bool) cmpQ idxQ hashQ srt mode :
  kind_selected mk es LiteralAndExpressionScalars ->
  sorts_by_slot srt -> lawful_scalar idxK cmpK -> lawful_query_scalar idxK idxQ eqv ->
  span_representable idxK (map (fun e => evK (me_key e)) es) ->
  macro_expands (fz is_map input mk) input is_map (fun c =>
    if Nat.ltb (List.length es) 8
    then exact_or_panic (run_ctor evK evV (idx_eq idxK) cmpR c) (rt_ops eqv cmpQ idxQ hashQ) (idx_eq idxK) eqv
           (macro_pairs evK evV (evV unit_expr) is_map es)
    else exists m, run_fz_scalar srt mode evK evV idxK cmpK c = Ok m /\
      answers (fz_scalar_ops idxQ eqv) (idx_eq idxK) eqv m (macro_pairs evK evV (evV unit_expr) is_map es)).
Proof.
  intros KS HS LS LQ SP. rewrite fz_process, (process_nonempty _ _ _ _ NE (fz_kind _ KS)). apply expands. unfold handle_non_literal_scalar_keys.
  rewrite <- (non_literal_pairs is_map es evK evV WF). rewrite <- non_literal_length in *.
  apply emit_scalar_expr_spec; auto; [apply macro_options; exact HO|].
  rewrite (non_literal_pairs is_map es evK evV WF). unfold macro_pairs. rewrite map_map. exact SP.
Qed.
End Expressions.

Lemma strings_expands {V} is_map (input : macro_input (X := X) (W := W)) mk (evK : expr X -> bytes) (evV : W -> V) cmpR cmpQ idxQ hashQ srt bh :
  payload input <> [] -> acceptable mk (payload input) -> well_formed is_map (payload input) -> not_static_mut input ->
  kind_selected mk (payload input) LiteralAndExpressionStrings ->
  sorts_by_slot srt -> (forall e, In e (payload input) -> N.of_nat (List.length (evK (me_key e))) <= usize_max) ->
  N.of_nat (List.length (payload input)) <= usize_max ->
  macro_expands (fz is_map input mk) input is_map (fun c =>
    if Nat.ltb (List.length (payload input)) 4
    then exact_or_panic (run_ctor evK evV bytes_eqb cmpR c) (rt_ops bytes_eqb cmpQ idxQ hashQ) bytes_eqb bytes_eqb
           (macro_pairs evK evV (evV unit_expr) is_map (payload input))
    else exists m, run_fz_string srt bh evK evV c = Ok m /\
      answers fz_string_ops bytes_eqb bytes_eqb m (macro_pairs evK evV (evV unit_expr) is_map (payload input))).
Proof.
  intros NE A WF HO KS HS Hl Hc. rewrite fz_process, (process_nonempty _ _ _ _ NE (fz_kind input mk NE A _ KS)). apply expands.
  unfold handle_non_literal_string_keys.
  rewrite <- (non_literal_pairs is_map (payload input) evK evV WF). rewrite <- (map_length (non_literal_entry unit_expr) (payload input)) in *.
  apply emit_string_expr_spec; auto; [apply macro_options; exact HO|].
  rewrite (non_literal_pairs is_map (payload input) evK evV WF). intros e He. unfold macro_pairs in He.
  apply in_map_iff in He. destruct He as [e' [<- He]]. cbn. auto.
Qed.

Lemma fz_reject is_map input mk : payload input <> [] -> ~ acceptable mk (payload input) -> exists msg, fz is_map input mk = Ok (RErr msg).
Proof.
  intros NE NA. rewrite fz_process. destruct (assess_keys (payload input) mk) as [k|msg] eqn:E; [exfalso; apply NA; apply assess_accepts; eauto|].
  exists msg. destruct (payload input) as [|e r]; [congruence|]. unfold process. rewrite E. reflexivity.
Qed.

Lemma decide_no_err {A} em (r : result (decl * A)) msg : options_consistent em -> options_decide em r -> r = RErr msg -> False.
Proof. intros HO [H _] E. destruct (H HO) as [d [out [E' _]]]. congruence. Qed.

Lemma rejected_exactly is_map input mk : not_static_mut input ->
  (exists msg, fz is_map input mk = Ok (RErr msg)) <-> rejected mk input.
Proof.
  intros HO. split.
  - intros [msg E]. rewrite fz_process in E.
    assert (OC := macro_options is_map input true true HO). assert (OC' := macro_options is_map input false false HO).
    destruct (payload input) as [|e0 r0] eqn:P.
    + left. split; [exact P|]. destruct input as [p|n t p vis st mt]; [reflexivity|]. exfalso.
      assert (IK : em_inferred_key_type (macro_emitter is_map (LongForm n t p vis st mt)) = false) by (destruct is_map; reflexivity).
      cbn [process] in E. rewrite IK in E.
      exact (decide_no_err _ _ _ OC (finish_decide _ _ _ _ E) eq_refl).
    + right. rewrite P. split; [congruence|]. destruct (assess_keys (e0 :: r0) mk) as [kind|m] eqn:AK.
      2:{ left. intros A. apply assess_accepts in A. destruct A as [k A]. congruence. }
      rewrite (process_nonempty (e0 :: r0) _ mk kind ltac:(discriminate) AK) in E.
      assert (S := selected mk (e0 :: r0) kind ltac:(discriminate) AK).
      assert (SC : forall t suffix, (forall x, In x (e0 :: r0) -> exists v s, literal_of (me_key x) = Some (LitInt v s)) ->
        handle_literal_scalar_keys usort md unit_expr t (macro_emitter is_map input) (e0 :: r0) suffix = Ok (RErr msg) -> ~ values_fit t (e0 :: r0)).
      { intros t suffix HI EH HF. unfold handle_literal_scalar_keys in EH.
        destruct (mapR (literal_scalar_entry unit_expr t suffix) (e0 :: r0)) as [coll|m'] eqn:M.
        - exact (decide_no_err _ _ _ OC (scalar_decide _ _ _ _ _ _ _ _ EH) eq_refl).
        - assert (W1 : exists x m'', In x (e0 :: r0) /\ literal_scalar_entry unit_expr t suffix x = RErr m'').
          { clear - M. revert m' M. generalize (e0 :: r0). induction l as [|x r IH]; intros m' M; [discriminate|]. cbn in M.
            destruct (literal_scalar_entry unit_expr t suffix x) as [y|m''] eqn:F; [|exists x, m''; split; [left; auto|exact F]].
            destruct (mapR (literal_scalar_entry unit_expr t suffix) r) as [l'|m''] eqn:M'; [discriminate|].
            destruct (IH m'' eq_refl) as [x' [m3 [H1 H2]]]. exists x', m3. split; [right; exact H1|exact H2]. }
          destruct W1 as [x [m'' [Hx Fx]]]. destruct (HI x Hx) as [v [s L]]. unfold literal_scalar_entry in Fx.
          rewrite (key_lit_literal _ _ L) in Fx. unfold base10_parse in Fx. destruct (Bool.bool_dec _ true) as [|NB]; [discriminate|].
          apply NB. eapply HF; eauto. }
      destruct kind as [t| | | | |].
      * right. exists t. split; [exact S|]. assert (HL : forall x, In x (e0 :: r0) -> exists v s, literal_of (me_key x) = Some (LitInt v s)).
        { intros x Hx. destruct (proj1 S x Hx) as [v [s [L _]]]. eauto. }
        destruct t; try (exact (SC _ _ HL E)).
      * exfalso. exact (decide_no_err _ _ _ OC' (finish_decide _ _ _ _ E) eq_refl).
      * exfalso. unfold handle_literal_string_keys in E. destruct (mapR (literal_string_entry unit_expr) (e0 :: r0)) as [coll|m'] eqn:M.
        -- exact (decide_no_err _ _ _ OC (finish_decide _ _ _ _ E) eq_refl).
        -- rewrite (mapR_map _ (fun e => (match key_lit (me_key e) with Some (LitStr s) => s | _ => [] end, (me_key e, entry_value e)))) in M; [discriminate|].
           intros x Hx. destruct (S x Hx) as [s L]. unfold literal_string_entry. rewrite (key_lit_literal _ _ L). reflexivity.
      * exfalso. exact (decide_no_err _ _ _ OC' (finish_decide _ _ _ _ E) eq_refl).
      * exfalso. exact (decide_no_err _ _ _ OC' (finish_decide _ _ _ _ E) eq_refl).
      * exfalso. exact (decide_no_err _ _ _ OC' (finish_decide _ _ _ _ E) eq_refl).
  - intros [[P T]|[NE [NA|[t [HI HF]]]]].
    + destruct input as [p|]; [|discriminate]. cbn in P. subst p. apply empty_short.
    + apply fz_reject; auto.
    + eapply integers_reject; eauto.
Qed.
End EndToEnd.

Lemma acceptable_perm {X W} mk (a b : list (m_entry X W)) : Permutation a b -> acceptable mk a -> acceptable mk b.
Proof.
  intros P H. apply assess_accepts. apply assess_accepts in H. destruct H as [k E]. pose proof (assess_keys_order mk a b P) as O. rewrite E in O.
  destruct (assess_keys b mk); [eauto|discriminate].
Qed.
Lemma rejected_perm {X W} mk (input : macro_input (X := X) (W := W)) es : Permutation (payload input) es -> rejected mk input -> rejected mk (with_payload input es).
Proof.
  assert (PP : payload (with_payload input es) = es) by (destruct input; reflexivity).
  assert (TT : typed (with_payload input es) = typed input) by (destruct input; reflexivity).
  intros P [[E T]|[NE H]]; unfold rejected; rewrite PP, TT.
  - left. rewrite E in P. apply Permutation_nil in P. auto.
  - right. split; [intros ->; apply Permutation_sym, Permutation_nil in P; congruence|].
    assert (IN : forall e, In e es <-> In e (payload input)).
    { intros e. split; apply Permutation_in; [apply Permutation_sym|]; exact P. }
    destruct H as [H|[t [[H1 H2] H3]]]; [left|right].
    + intros A. apply H. apply (acceptable_perm mk es); [apply Permutation_sym; exact P|exact A].
    + exists t. split; [split|].
      * intros e He. apply H1. apply IN. exact He.
      * intros U. destruct (H2 U) as [e [v [s [He L]]]]. exists e, v, s. split; [apply IN; exact He|exact L].
      * intros F. apply H3. intros e v s He L. eapply F; [apply IN; exact He|exact L].
Qed.
