(** Proofs about the messages the collection macros report. *)
From Coq Require Import String ZArith.
From Verif Require Import ModelUtils ModelAnalyzers ModelTables ModelMaps ModelScalar ModelEmit ModelMacros
  Spec SpecEmit SpecMade SpecMacros ProofsBase ProofsEmit ProofsEmitProps ProofsMacros.
From Verif Require Import Prelude.

Lemma in_type_range p t v : in_type p (int_type_of t) v = true <-> (fst (int_range p t) <= v <= snd (int_range p t))%Z.
Proof.
  unfold in_type. destruct t, p; cbn [int_type_of it_signed it_nonzero it_width width_bits pointer_bits int_range fst snd];
    rewrite Bool.andb_true_iff; cbn [andb negb]; rewrite Bool.andb_true_iff;
    match goal with |- context [(2 ^ ?e)%Z] => let x := eval vm_compute in (2 ^ e)%Z in change (2 ^ e)%Z with x end;
    rewrite Z.leb_le, Z.ltb_lt; lia.
Qed.

(** The message for the next key, after keys that decided on the type [st]. *)
Definition step_err (mk : macro_kind) (st : scalar_type) (k : result discovered_key_kind) : option string :=
  match k with
  | RErr m => Some m
  | ROk LiteralString => match mk with MkScalar => Some "scalar macro cannot contain string keys"%string | _ => None end
  | ROk Expression => None
  | ROk (LiteralScalar t) =>
      match mk with
      | MkString => Some "string macro cannot contain scalar keys"%string
      | _ => match join st t with Some _ => None | None => Some "incompatible scalar literal type"%string end
      end
  end.

Lemma loop_err {X W} mk (es : list (m_entry X W)) : forall ns nc st msg, assess_loop mk es ns nc st = RErr msg <->
  exists pre e post ns' nc' st', es = pre ++ e :: post /\
    steps mk (map (fun e => discover (me_key e)) pre) (ns, nc, st) = Some (ns', nc', st') /\ step_err mk st' (discover (me_key e)) = Some msg.
Proof.
  induction es as [|e r IH]; intros ns nc st msg.
  - cbn. split; [discriminate|]. intros (pre & e & post & ? & ? & ? & E & _). destruct pre; discriminate.
  - assert (ONE : (exists m, assess_loop mk (e :: r) ns nc st = RErr m /\ step_err mk st (discover (me_key e)) = Some m /\
                     step mk (discover (me_key e)) (ns, nc, st) = None) \/
                  (exists a b c, step mk (discover (me_key e)) (ns, nc, st) = Some (a, b, c) /\ step_err mk st (discover (me_key e)) = None /\
                     assess_loop mk (e :: r) ns nc st = assess_loop mk r a b c)).
    { cbn [assess_loop]. destruct (discover (me_key e)) as [[t| |]|m]; [| | |left; eexists; repeat split; reflexivity].
      - destruct mk; [|left; eexists; repeat split; reflexivity| |]; destruct t, st; cbn;
          first [left; eexists; repeat split; reflexivity | right; do 3 eexists; repeat split; reflexivity].
      - destruct mk; first [left; eexists; repeat split; reflexivity | right; do 3 eexists; repeat split; reflexivity].
      - destruct mk; right; do 3 eexists; repeat split; reflexivity. }
    destruct ONE as [(m & -> & SE & SN)|(a & b & c & SS & SE & ->)].
    + split.
      * intros E. injection E as ->. exists [], e, r, ns, nc, st. repeat split; assumption.
      * intros (pre & e' & post & ns' & nc' & st' & E & S0 & S1). destruct pre as [|x pre].
        -- cbn [app map steps] in E, S0. injection E as <- <-. injection S0 as <- <- <-. congruence.
        -- cbn [app map steps] in E, S0. injection E as <- _. rewrite SN in S0. discriminate.
    + rewrite IH. split.
      * intros (pre & e' & post & ns' & nc' & st' & -> & S0 & S1). exists (e :: pre), e', post, ns', nc', st'.
        repeat split; auto. cbn [app map steps]. rewrite SS. exact S0.
      * intros (pre & e' & post & ns' & nc' & st' & E & S0 & S1). destruct pre as [|x pre].
        -- cbn [app map steps] in E, S0. injection E as <- <-. injection S0 as <- <- <-. congruence.
        -- cbn [app map steps] in E, S0. injection E as <- ->. rewrite SS in S0. exists pre, e', post, ns', nc', st'. auto.
Qed.

Lemma known_int {X} (key : expr X) v s : literal_of key = Some (LitInt v s) -> known_suffix s ->
  exists t, s = suffix_of t /\ discover key = ROk (LiteralScalar t).
Proof. intros L K. apply known_suffix_iff in K. destruct K as [t ->]. exists t. split; [reflexivity|]. apply discover_int. eauto. Qed.
Lemma unknown_int {X} (key : expr X) v s : literal_of key = Some (LitInt v s) -> ~ known_suffix s ->
  discover key = RErr ("unknown suffix " ++ s ++ " for scalar value")%string.
Proof.
  intros L K. rewrite discover_literal, L. destruct (eval_literal_expr (LitInt v s)) as [k|m] eqn:E.
  - exfalso. apply K. apply eval_int in E. destruct E as [t [_ E]]. apply known_suffix_iff. exists t. apply suffix_inj. exact E.
  - revert E. unfold eval_literal_expr.
    repeat match goal with |- context [String.eqb s ?c] => destruct (String.eqb s c); [discriminate|] end.
    intros E. injection E as <-. reflexivity.
Qed.

Lemma join_none st t : join st t = None <-> t <> Undecided /\ st <> Undecided /\ st <> t.
Proof. destruct st, t; cbn; intuition (congruence || discriminate). Qed.

(** After acceptable keys, the errors are the complaints. *)
Lemma err_complaint {X W} mk (pre : list (m_entry X W)) e ns nc st msg :
  steps mk (map (fun e => discover (me_key e)) pre) (0%nat, 0%nat, Undecided) = Some (ns, nc, st) ->
  step_err mk st (discover (me_key e)) = Some msg <-> complaint mk pre e msg.
Proof.
  intros S0. apply steps_sound in S0. destruct S0 as [KS [_ [SD _]]]. split.
  - intros E. destruct (literal_of (me_key e)) as [[s|v s|]|] eqn:L.
    + assert (D : discover (me_key e) = ROk LiteralString) by (apply discover_str; eauto). rewrite D in E. cbn in E.
      destruct mk; try discriminate. injection E as <-. eapply string_key; eauto.
    + destruct (in_dec string_dec s (map fst suffix_table)) as [K|K].
      * destruct (known_int _ _ _ L K) as [t [Hs D]]. rewrite D in E. cbn in E. destruct mk eqn:MK.
        2:{ injection E as <-. eapply scalar_key; eauto. }
        all: destruct (join st t) eqn:J; [discriminate|]; injection E as <-; apply join_none in J; destruct J as [J1 [J2 J3]];
          destruct SD as [SD|SD]; [congruence|]; apply in_map_iff in SD; destruct SD as [e' [D' He']];
          apply discover_int in D'; destruct D' as [v' [s' [L' ->]]]; subst s;
          eapply two_suffixes; eauto; try congruence; intros F;
          repeat match goal with
                 | F : suffix_of _ = ""%string |- _ => change ""%string with (suffix_of Undecided) in F
                 | F : suffix_of _ = suffix_of _ |- _ => apply suffix_of_inj in F
                 end; congruence.
      * rewrite (unknown_int _ _ _ L K) in E. injection E as <-. eapply bad_suffix; eauto.
    + rewrite discover_literal, L in E. injection E as <-. apply not_a_key. exact L.
    + rewrite discover_literal, L in E. discriminate.
  - intros C. destruct C as [L|v s L K|s MK L|v s MK L K|v s e' v' s' MK L K He' L' N1 N2 N3].
    + rewrite discover_literal, L. reflexivity.
    + rewrite (unknown_int _ _ _ L K). reflexivity.
    + assert (D : discover (me_key e) = ROk LiteralString) by (apply discover_str; eauto). rewrite D, MK. reflexivity.
    + destruct (known_int _ _ _ L K) as [t [_ ->]]. rewrite MK. reflexivity.
    + destruct (known_int _ _ _ L K) as [t [-> ->]].
      assert (KO := KS _ (in_map (fun e => discover (me_key e)) _ _ He')). cbn beta in KO.
      destruct (discover (me_key e')) as [[u| |]|] eqn:D'; rewrite discover_literal, L' in D'.
      * apply eval_int in D'. destruct D' as [u' [EU I]]. injection EU as <-. apply suffix_inj in I. subst s'.
        cbn in KO. destruct KO as [_ KO].
        assert (J : join st t = None).
        { apply join_none. repeat split; [intros ->; apply N1; reflexivity| |].
          - intros ->. destruct KO as [->| ->]; apply N2; reflexivity.
          - intros ->. destruct KO as [->| ->]; [apply N2; reflexivity|congruence]. }
        cbn. rewrite J. destruct mk; congruence.
      * apply eval_int in D'. destruct D' as [u' [EU _]]. discriminate.
      * apply eval_int in D'. destruct D' as [u' [EU _]]. discriminate.
      * destruct KO.
Qed.

Lemma assess_errors {X W} mk (es : list (m_entry X W)) msg : assess_keys es mk = RErr msg <->
  exists before e after, es = before ++ e :: after /\ acceptable mk before /\ complaint mk before e msg.
Proof.
  assert (A : assess_keys es mk = RErr msg <-> assess_loop mk es 0 0 Undecided = RErr msg).
  { unfold assess_keys. destruct (assess_loop mk es 0 0 Undecided) as [[[? ?] ?]|]; split; congruence. }
  rewrite A, loop_err. split.
  - intros (pre & e & post & ns & nc & st & E & S0 & S1). exists pre, e, post. split; [exact E|]. split; [|eapply err_complaint; eauto].
    apply assess_accepts. pose proof (assess_keys_steps mk pre) as S2. rewrite S0 in S2. destruct (assess_keys pre mk) as [k|]; [eauto|discriminate].
  - intros (pre & e & post & E & HA & C). apply assess_accepts in HA. destruct HA as [k HA].
    pose proof (assess_keys_steps mk pre) as S2. rewrite HA in S2.
    destruct (steps mk (map (fun e => discover (me_key e)) pre) (0%nat, 0%nat, Undecided)) as [[[ns nc] st]|] eqn:S0; [|discriminate].
    exists pre, e, post, ns, nc, st. repeat split; auto. eapply err_complaint; eauto.
Qed.

Lemma mapR_err_all {A B} (f : A -> result B) l m0 : (forall x m, In x l -> f x = RErr m -> m = m0) -> forall m, mapR f l = RErr m -> m = m0.
Proof.
  induction l as [|x r IH]; intros H m E; [discriminate|]. cbn in E. destruct (f x) as [y|m'] eqn:F.
  - destruct (mapR f r) as [l'|m'] eqn:M; [discriminate|]. injection E as <-. apply IH; [|reflexivity]. intros x' m'' Hx. apply H. right. exact Hx.
  - injection E as <-. apply (H x); [left; reflexivity|exact F].
Qed.

Section Messages.
Context {X W : Type} (usort : forall T : Type, list (N * T) -> list (N * T)) (md : mode) (unit_expr : W) (seed : N)
  (fixed_state : N -> build_hasher) (hash_i32 : N -> scalar_value I32 -> N).
Notation fz := (fz_macro (X := X) usort md unit_expr seed fixed_state hash_i32).

Lemma not_fit t (es : list (m_entry X W)) : all_integers t es -> ~ values_fit t es ->
  exists e v s, In e es /\ literal_of (me_key e) = Some (LitInt v s) /\ (snd (int_range Ptr64 t) < Z.of_N v)%Z.
Proof.
  intros [HI _] HF.
  assert (BAD : exists e v s, In e es /\ literal_of (me_key e) = Some (LitInt v s) /\ in_type Ptr64 (int_type_of t) (Z.of_N v) = false).
  { revert HI HF. induction es as [|e r IH]; intros HI HF.
    - exfalso. apply HF. intros ? ? ? [].
    - destruct (HI e (or_introl eq_refl)) as [v [s [L _]]].
      destruct (in_type Ptr64 (int_type_of t) (Z.of_N v)) eqn:F.
      + destruct IH as [e' [v' [s' [H1 H2]]]].
        * intros e' He'. apply HI. right. exact He'.
        * intros HF'. apply HF. intros e' v' s' [<-|He'] L'; [congruence|]. eapply HF'; eauto.
        * exists e', v', s'. split; [right; exact H1|exact H2].
      + exists e, v, s. split; [left; reflexivity|auto]. }
  destruct BAD as [e [v [s [He [L F]]]]]. exists e, v, s. split; [exact He|]. split; [exact L|].
  assert (NI : ~ (fst (int_range Ptr64 t) <= Z.of_N v <= snd (int_range Ptr64 t))%Z) by (rewrite <- in_type_range; congruence).
  assert (LO : (fst (int_range Ptr64 t) <= 0)%Z) by (destruct t; cbn; lia). lia.
Qed.
Lemma too_large_not_fit t (es : list (m_entry X W)) e v s : In e es -> literal_of (me_key e) = Some (LitInt v s) ->
  (snd (int_range Ptr64 t) < Z.of_N v)%Z -> ~ values_fit t es.
Proof. intros He L H HF. specialize (HF e v s He L). apply in_type_range in HF. lia. Qed.

(** Once the keys are accepted, the only message left is about integers out of range. *)
Lemma accepted_message is_map input mk msg : not_static_mut input -> payload input <> [] -> acceptable mk (payload input) ->
  fz is_map input mk = Ok (RErr msg) ->
  msg = "number too large to fit in target type"%string /\ exists t, all_integers t (payload input) /\ ~ values_fit t (payload input).
Proof.
  intros HO NE HA E.
  assert (R : rejected mk input) by (eapply rejected_exactly; eauto).
  destruct R as [[P _]|[_ [NA|[t [HI HF]]]]]; [congruence|contradiction|]. split; [|eauto].
  assert (AK : assess_keys (payload input) mk = ROk (AllLiteralScalars t)) by (apply selection; auto).
  rewrite fz_process, (process_nonempty _ _ _ _ _ _ _ _ _ _ NE AK) in E.
  assert (OC := macro_options is_map input true true HO).
  assert (SC : forall u suffix, (u = t \/ u = I32) ->
    handle_literal_scalar_keys usort md unit_expr u (macro_emitter is_map input) (payload input) suffix = Ok (RErr msg) ->
    msg = "number too large to fit in target type"%string).
  { intros u suffix _ EH. unfold handle_literal_scalar_keys in EH.
    destruct (mapR (literal_scalar_entry unit_expr u suffix) (payload input)) as [coll|m'] eqn:M.
    - exfalso. exact (decide_no_err _ _ _ OC (scalar_decide _ _ _ _ _ _ _ _ EH) eq_refl).
    - injection EH as <-. eapply mapR_err_all; [|exact M]. intros x m Hx Fx.
      destruct (proj1 HI x Hx) as [v [s [L _]]]. unfold literal_scalar_entry in Fx. rewrite (key_lit_literal _ _ L) in Fx.
      destruct (base10_parse u v); [discriminate|]. injection Fx as <-. reflexivity. }
  destruct t; (eapply SC; [|exact E]); auto.
Qed.

Lemma messages is_map input mk msg : not_static_mut input -> fz is_map input mk = Ok (RErr msg) <-> rejected_with mk input msg.
Proof.
  intros HO. split.
  - intros E. destruct (payload input) as [|e0 r0] eqn:P.
    + assert (R : rejected mk input) by (eapply rejected_exactly; eauto). destruct R as [[_ T]|[NE _]]; [|congruence].
      destruct input as [p|]; [|discriminate]. cbn in P. subst p.
      assert (M : fz is_map (ShortForm []) mk = Ok (RErr "no collection entries supplied"%string)) by (destruct is_map; reflexivity).
      rewrite M in E. injection E as <-. apply no_entries; reflexivity.
    + assert (NE : payload input <> []) by congruence. clear P e0 r0.
      destruct (assess_keys (payload input) mk) as [kind|m] eqn:AK.
      * assert (HA : acceptable mk (payload input)) by (apply assess_accepts; eauto).
        destruct (accepted_message _ _ _ _ HO NE HA E) as [-> [t [HI HF]]]. destruct (not_fit t _ HI HF) as [e [v [s [He [L H]]]]].
        eapply too_large; eauto.
      * assert (EM : fz is_map input mk = Ok (RErr m)).
        { rewrite fz_process. destruct (payload input); [congruence|]. unfold process. rewrite AK. reflexivity. }
        rewrite EM in E. injection E as ->. apply assess_errors in AK. destruct AK as (pre & e & post & H1 & H2 & H3).
        eapply first_complaint; eauto.
  - intros [P T|pre e post m P HA C|t e v s NE HA HI He L H].
    + destruct input as [p|]; [|discriminate]. cbn in P. subst p. destruct is_map; reflexivity.
    + assert (AK : assess_keys (payload input) mk = RErr m) by (apply assess_errors; eauto 8).
      rewrite fz_process. destruct (payload input) as [|e0 r0]; [destruct pre; discriminate|]. unfold process. rewrite AK. reflexivity.
    + destruct (integers_reject usort md unit_expr seed fixed_state hash_i32 is_map input mk t NE HI (too_large_not_fit _ _ _ _ _ He L H)) as [m E].
      destruct (accepted_message _ _ _ _ HO NE HA E) as [-> _]. exact E.
Qed.
End Messages.
