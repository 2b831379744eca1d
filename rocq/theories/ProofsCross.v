(** Expansions run on a target with another pointer width. *)
From Coq Require Import String ZArith.
From Verif Require Import ModelUtils ModelAnalyzers ModelTables ModelMaps ModelScalar ModelEmit ModelMacros
  Spec SpecEmit SpecMade SpecMacros SpecCross ProofsBase ProofsDedup ProofsScalar ProofsScalarIndex ProofsFz ProofsEmit ProofsEmitProps ProofsMacros.
From Verif Require Import Prelude.
From Coq Require Import ZifyNat ZifyN ZifyBool.

(** * The same value on both widths *)
Definition shift (t : scalar_type) : N := match t with ISize => 2 ^ 63 - 2 ^ 31 | _ => 0 end.

Lemma shift_bound t : shift t <= 2 ^ 63.
Proof. destruct t; cbn; lia. Qed.

Lemma in_type_wider t v : in_type Ptr32 (int_type_of t) v = true -> in_type Ptr64 (int_type_of t) v = true.
Proof. destruct t; cbn [int_type_of]; auto; unfold in_type; cbn -[Z.pow]; intros H; lia. Qed.

Lemma index_shift t v i j : has_scalar Ptr32 t -> in_type Ptr32 (int_type_of t) v = true ->
  scalar_index Ptr32 (int_type_of t) v = Some i -> scalar_index Ptr64 (int_type_of t) v = Some j -> j = i + shift t.
Proof.
  intros HS H Ei Ej. pose proof (scalar_index_value _ _ _ _ H Ei) as A. pose proof (scalar_index_value _ _ _ _ (in_type_wider t v H) Ej) as B.
  destruct t; cbn in HS; try contradiction; cbn -[Z.pow N.pow] in A, B; unfold shift; lia.
Qed.

Lemma defined_32 t v : has_scalar Ptr32 t -> exists i, scalar_index Ptr32 (int_type_of t) v = Some i.
Proof. intros H. apply scalar_index_defined. destruct t; cbn in *; try contradiction; lia. Qed.
Lemma defined_64 t v : exists i, scalar_index Ptr64 (int_type_of t) v = Some i.
Proof. apply scalar_index_defined. destruct t; cbn; lia. Qed.

Lemma index_of_shift t (a : value_of Ptr32 (int_type_of t)) (b : scalar_value t) : has_scalar Ptr32 t -> proj1_sig a = proj1_sig b ->
  index_of Ptr64 (int_type_of t) b = index_of Ptr32 (int_type_of t) a + shift t.
Proof.
  intros HS E. destruct a as [v Hv]. unfold index_of. rewrite <- E. cbn [proj1_sig].
  destruct (defined_32 t v HS) as [i Ei]. destruct (defined_64 t v) as [j Ej]. rewrite Ei, Ej. eapply index_shift; eauto.
Qed.

Lemma index_32 t (a : value_of Ptr32 (int_type_of t)) : has_scalar Ptr32 t -> index_of Ptr32 (int_type_of t) a < 2 ^ 32.
Proof.
  intros HS. destruct a as [v Hv]. unfold index_of. cbn [proj1_sig]. destruct (defined_32 t v HS) as [i Ei]. rewrite Ei.
  exact (proj2 (proj2 (scalar_index_order Ptr32 _ v v i i Hv Hv Ei Ei))).
Qed.

(** * What is printed for integers *)
Lemma emit_scalar_shape {KB X W} usort md unit_expr idx cmpB em (es : list (entry KB X W)) d out :
  lawful_scalar idx cmpB -> emit_scalar_collection usort md unit_expr idx cmpB em es = Ok (ROk (d, out)) ->
  match o_ctor out with
  | CDense _ _ mn _ | CSparse _ _ _ _ _ mn _ => exists k, In k (map fst es) /\ mn = idx k
  | CScan _ _ | CHash _ _ _ _ _ HcScalar | CHashNc _ _ _ _ _ HcScalar => True
  | _ => False
  end.
Proof.
  intros LS E. unfold emit_scalar_collection in E.
  change (fun x y : entry KB X W => cmpB (e_key x) (e_key y)) with (fun x y : KB * (X * W) => cmpB (fst x) (fst y)) in E.
  set (es0 := clean_values unit_expr em es) in E. set (es1 := sorted_and_dedupped es0 _) in E.
  assert (HI : forall e, In e es1 -> In (fst e) (map fst es)).
  { intros e He. rewrite <- (clean_keys unit_expr em es). apply in_map. eapply (scalar_sorted_in idx cmpB LS). exact He. }
  destruct (analyze_scalar_keys _ _) as [a| |]; cbn [bind] in E; try discriminate. unfold finish in E.
  destruct (preflight em _) as [g|]; [|discriminate].
  destruct a.
  - destruct (Nat.ltb (List.length es1) 8).
    + cbn [bind] in E. destruct (postflight em); cbn [bind] in E; try discriminate. injection E as <- <-. exact I.
    + unfold gen_inline_hash in E. destruct (ht_new _ _ _ _) as [r| |]; cbn [bind] in E; try discriminate.
      destruct r as [ht|]; cbn [bind unwrap] in E; try discriminate.
      destruct (postflight em); cbn [bind] in E; try discriminate. injection E as <- <-. cbn [o_ctor].
      destruct (ht_has_collisions ht); exact I.
  - unfold gen_inline_dense_scalar_lookup, index in E. destruct (nth_error es1 0) as [e|] eqn:E0; cbn [bind] in E; [|discriminate].
    destruct (nth_error es1 (List.length es1 - 1)) as [e2|]; cbn [bind] in E; [|discriminate].
    destruct (postflight em); cbn [bind] in E; try discriminate. injection E as <- <-. cbn [o_ctor].
    exists (fst e). split; [|reflexivity]. apply HI. eapply nth_error_In; eauto.
  - unfold gen_inline_sparse_scalar_lookup, index in E. destruct (nth_error es1 0) as [e|] eqn:E0; cbn [bind] in E; [|discriminate].
    destruct (nth_error es1 (List.length es1 - 1)) as [e2|]; cbn [bind] in E; [|discriminate].
    destruct (usub _ _ _); cbn [bind] in E; try discriminate. destruct (uadd _ _ _); cbn [bind] in E; try discriminate.
    destruct (gen_lookup _ _ _ _ _ _); cbn [bind] in E; try discriminate.
    destruct (postflight em); cbn [bind] in E; try discriminate. injection E as <- <-. cbn [o_ctor].
    exists (fst e). split; [|reflexivity]. apply HI. eapply nth_error_In; eauto.
Qed.

(** * Queries whose index differs by a multiple of 2^31 *)
Lemma land_shift x t mask : mask < 2 ^ 31 -> N.land (x + shift t) mask = N.land x mask.
Proof.
  intros H.
  assert (M : N.land (2 ^ 31 - 1) mask = mask).
  { destruct (N.eq_dec mask 0) as [->|Hm]; [apply N.land_0_r|]. rewrite N.land_comm.
    replace (2 ^ 31 - 1) with (N.ones 31) by reflexivity. rewrite N.land_ones. apply N.mod_small. exact H. }
  assert (E : forall y, N.land y mask = N.land (y mod 2 ^ 31) mask).
  { intros y. rewrite <- M at 1. rewrite N.land_assoc. f_equal. replace (2 ^ 31 - 1) with (N.ones 31) by reflexivity. apply N.land_ones. }
  rewrite E, (E x). f_equal. destruct t; cbn [shift]; rewrite ?N.add_0_r; try reflexivity.
  replace (2 ^ 63 - 2 ^ 31) with ((2 ^ 32 - 1) * 2 ^ 31) by reflexivity. apply N.mod_add. discriminate.
Qed.

Definition small_table {K V} (m : rt_map K V) : Prop :=
  match m with
  | RtScan _ => True
  | RtHash h m => h = HcScalar /\ ht_mask (hm_table m) < 2 ^ 31
  | RtHashNc h m => h = HcScalar /\ nc_mask (ncm_table m) < 2 ^ 31
  | _ => False
  end.

Section Shifted.
Context {K V Q : Type} (eqv : Q -> K -> bool) (cmpQ : Q -> K -> comparison) (idxQ : Q -> N) (t : scalar_type).
Notation idxQ' := (fun q => idxQ q + shift t).
Notation ops := (rt_ops eqv cmpQ idxQ (scalar_hasher idxQ)).
Notation ops' := (rt_ops eqv cmpQ idxQ' (scalar_hasher idxQ')).

Lemma shifted_same (m : rt_map K V) : small_table m -> forall q,
  mo_get ops m q = mo_get ops' m q /\ mo_get_key_value ops m q = mo_get_key_value ops' m q /\
  mo_contains_key ops m q = mo_contains_key ops' m q /\ mo_get_mut ops m q = mo_get_mut ops' m q.
Proof.
  destruct m as [m|m|m|m|h m|h m]; cbn [small_table]; try contradiction; [intros _ q; repeat split|intros [-> H] q|intros [-> H] q].
  - cbn [rt_ops mo_get mo_get_key_value mo_contains_key mo_get_mut]. unfold hash_contains_key, hash_get, hash_get_key_value, hash_get_mut.
    unfold scalar_hasher, scalar_hash_one. cbn [bind]. unfold ht_find, ht_find_mut. rewrite !land_shift by exact H. auto.
  - cbn [rt_ops mo_get mo_get_key_value mo_contains_key mo_get_mut]. unfold nc_contains_key, nc_get, nc_get_key_value, nc_get_mut.
    unfold scalar_hasher, scalar_hash_one. cbn [bind]. unfold nc_find, nc_find_mut. rewrite !land_shift by exact H. auto.
Qed.

Lemma answers_shifted (idxK : K -> N) (m : rt_map K V) input : small_table m ->
  answers ops' (idx_eq (fun k => idxK k + shift t)) eqv m input -> answers ops (idx_eq idxK) eqv m input.
Proof.
  intros HS [A1 A2 A3 A4 A5 A6]. pose proof (shifted_same m HS) as E.
  assert (EQ : forall a b, idx_eq (fun k => idxK k + shift t) a b = idx_eq idxK a b) by (intros a b; unfold idx_eq; lia).
  constructor.
  - intros q. destruct (E q) as [-> _]. apply A1.
  - intros q. destruct (E q) as [_ [-> _]]. apply A2.
  - intros q. destruct (E q) as [_ [_ [-> _]]]. apply A3.
  - intros q. destruct (E q) as [_ [_ [_ ->]]]. apply A4.
  - intros e. change (mo_entries ops m) with (mo_entries ops' m). rewrite A5.
    split; intros [pre [post [H1 H2]]]; exists pre, post; (split; [exact H1|]); intros e' He'; rewrite ?EQ; [rewrite <- EQ|]; auto.
  - change (map_len ops m) with (map_len ops' m). rewrite A6. unfold key_count. f_equal. apply survivors_ext.
    intros a b _ _. apply EQ.
Qed.
End Shifted.

Lemma answers_ext {M K V Q} (ops : map_ops M K V Q) (eqK eqK' : K -> K -> bool) eqv m input : (forall a b, eqK a b = eqK' a b) ->
  answers ops eqK eqv m input -> answers ops eqK' eqv m input.
Proof.
  intros E [A1 A2 A3 A4 A5 A6]. constructor; auto.
  - intros e. rewrite A5. split; intros [pre [post [H1 H2]]]; exists pre, post; (split; [exact H1|]); intros e' He'; [rewrite <- E|rewrite E]; auto.
  - rewrite A6. unfold key_count. f_equal. apply survivors_ext. intros a b _ _. apply E.
Qed.

Lemma answers_same_idx {K V Q} (eqv : Q -> K -> bool) cmpQ (i j : Q -> N) eqK (m : rt_map K V) input : (forall q, i q = j q) ->
  answers (rt_ops eqv cmpQ i (scalar_hasher i)) eqK eqv m input -> answers (rt_ops eqv cmpQ j (scalar_hasher j)) eqK eqv m input.
Proof.
  intros E [A1 A2 A3 A4 A5 A6].
  assert (S : forall q,
    mo_get (rt_ops eqv cmpQ j (scalar_hasher j)) m q = mo_get (rt_ops eqv cmpQ i (scalar_hasher i)) m q /\
    mo_get_key_value (rt_ops eqv cmpQ j (scalar_hasher j)) m q = mo_get_key_value (rt_ops eqv cmpQ i (scalar_hasher i)) m q /\
    mo_contains_key (rt_ops eqv cmpQ j (scalar_hasher j)) m q = mo_contains_key (rt_ops eqv cmpQ i (scalar_hasher i)) m q /\
    mo_get_mut (rt_ops eqv cmpQ j (scalar_hasher j)) m q = mo_get_mut (rt_ops eqv cmpQ i (scalar_hasher i)) m q).
  { intros q. assert (H : forall h, scalar_hasher j h q = scalar_hasher i h q) by (intros []; cbn; rewrite ?E; reflexivity).
    destruct m as [m|m|m|m|h m|h m]; cbn [rt_ops mo_get mo_get_key_value mo_contains_key mo_get_mut].
    - auto.
    - auto.
    - unfold dense_contains_key, dense_get, dense_get_key_value, dense_get_mut. rewrite !E. auto.
    - unfold sparse_contains_key, sparse_get, sparse_get_key_value, sparse_get_mut. rewrite !E. auto.
    - unfold hash_contains_key, hash_get, hash_get_key_value, hash_get_mut. rewrite !H. auto.
    - unfold nc_contains_key, nc_get, nc_get_key_value, nc_get_mut. rewrite !H. auto. }
  constructor; auto.
  - intros q. destruct (S q) as [-> _]. auto.
  - intros q. destruct (S q) as [_ [-> _]]. auto.
  - intros q. destruct (S q) as [_ [_ [-> _]]]. auto.
  - intros q. destruct (S q) as [_ [_ [_ ->]]]. auto.
Qed.

(** * Macros *)
Section Macro.
Context {X W : Type} (usort : forall T : Type, list (N * T) -> list (N * T)) (md : mode) (unit_expr : W) (seed : N)
  (fixed_state : N -> build_hasher) (hash_i32 : N -> scalar_value I32 -> N).
Hypothesis HU : forall T, sorts_by_slot (usort T).
Notation fz := (fz_macro (X := X) usort md unit_expr seed fixed_state hash_i32).
Context (t : scalar_type).
Hypothesis HS : has_scalar Ptr32 t.

Lemma zero_fits : in_type Ptr64 (int_type_of t) 0 = true.
Proof. destruct t; reflexivity. Qed.
Lemma handled em (es : list (m_entry X W)) : exists suffix,
  match AllLiteralScalars t with
  | AllLiteralScalars Undecided => handle_literal_scalar_keys usort md unit_expr I32 em es "i32"
  | AllLiteralScalars t => handle_literal_scalar_keys usort md unit_expr t em es ""
  | LiteralAndExpressionScalars => handle_non_literal_scalar_keys unit_expr em es
  | AllLiteralStrings => handle_literal_string_keys usort unit_expr seed fixed_state em es
  | LiteralAndExpressionStrings => handle_non_literal_string_keys unit_expr em es
  | EffHashed => handle_hashed_keys unit_expr em es
  | EffOrdered => handle_ordered_keys unit_expr em es
  end = handle_literal_scalar_keys usort md unit_expr t em es suffix.
Proof. destruct t; eexists; reflexivity. Qed.

(** evaluation of literals on the build machine *)
Definition ev64 (e : expr X) : scalar_value t :=
  match key_lit e with
  | Some (LitInt v _) => match base10_parse t v with Some k => k | None => exist _ 0%Z zero_fits end
  | _ => exist _ 0%Z zero_fits
  end.
Lemma ev64_ok : evaluates_integers t ev64.
Proof.
  split; [|reflexivity]. intros v s H. unfold ev64. cbn [key_lit]. unfold base10_parse.
  destruct (Bool.bool_dec _ true); [reflexivity|congruence].
Qed.

Context (evK : expr X -> value_of Ptr32 (int_type_of t)).
Hypothesis EV : evaluates_integers_on Ptr32 t evK.

Lemma ev32_key key v s : literal_of key = Some (LitInt v s) -> in_type Ptr32 (int_type_of t) (Z.of_N v) = true ->
  proj1_sig (evK key) = Z.of_N v.
Proof. destruct EV as [E1 E2]. intros L F. destruct (key_form _ _ L) as [->| ->]; [auto|]. rewrite E2. auto. Qed.

Lemma cross_new_key suffix (e : m_entry X W) v s : literal_of (me_key e) = Some (LitInt v s) -> in_type Ptr32 (int_type_of t) (Z.of_N v) = true ->
  evK (new_key suffix e) = evK (me_key e).
Proof.
  intros L F. unfold new_key. destruct (String.eqb suffix ""); [reflexivity|]. rewrite L. apply value_eq.
  rewrite (ev32_key _ v s L F). apply (proj1 EV). exact F.
Qed.

Lemma cross_emit {V Q} input is_map suffix (evV : W -> V) eqR cmpR idxQ (eqv : Q -> value_of Ptr32 (int_type_of t) -> bool) cmpQ :
  let es := payload input in
  (forall e, In e es -> exists v s, literal_of (me_key e) = Some (LitInt v s)) -> values_fit_on Ptr32 t es -> not_static_mut input ->
  target_query Ptr32 t idxQ eqv -> N.of_nat (List.length es) <= usize_max ->
  let idxQ' := fun q => idxQ q + shift t in
  let r := handle_literal_scalar_keys usort md unit_expr t (macro_emitter is_map input) es suffix in
  macro_emits r input is_map false evK evV eqR cmpR
    (rt_ops eqv cmpQ idxQ' (scalar_hasher idxQ')) (idx_eq (fun k => index_of Ptr32 (int_type_of t) k + shift t)) eqv
    (macro_pairs evK evV (evV unit_expr) is_map es) /\
  forall d out, r = Ok (ROk (d, out)) ->
    match o_ctor out with
    | CDense _ _ mn _ | CSparse _ _ _ _ _ mn _ => shift t <= mn
    | CScan _ _ | CHash _ _ _ _ _ HcScalar | CHashNc _ _ _ _ _ HcScalar => True
    | _ => False
    end.
Proof.
  intros es HL HF HO [LQ1 LQ2] Hc idxQ'.
  assert (HF' : forall e v s, In e es -> literal_of (me_key e) = Some (LitInt v s) -> in_type Ptr64 (int_type_of t) (Z.of_N v) = true).
  { intros e v s He L. apply in_type_wider. eapply HF; eauto. }
  unfold handle_literal_scalar_keys.
  rewrite (mapR_map _ (fun e => (ev64 (me_key e), (new_key suffix e, entry_value unit_expr e)))).
  2:{ intros e He. destruct (HL e He) as [v [s L]]. apply (scalar_entry unit_expr t ev64 ev64_ok _ _ v s); auto. eapply HF'; eauto. }
  assert (SV : forall e v s, In e es -> literal_of (me_key e) = Some (LitInt v s) -> proj1_sig (evK (me_key e)) = proj1_sig (ev64 (me_key e))).
  { intros e v s He L. rewrite (ev32_key _ v s L) by (eapply HF; eauto). symmetry. apply (ev_key t ev64 ev64_ok e v s); auto. eapply HF'; eauto. }
  assert (IX : forall e, In e es -> index_of Ptr64 (int_type_of t) (ev64 (me_key e)) = index_of Ptr32 (int_type_of t) (evK (me_key e)) + shift t).
  { intros e He. destruct (HL e He) as [v [s L]]. apply index_of_shift; auto. eapply SV; eauto. }
  set (coll := map _ es). cbv zeta. split.
  - apply (emits_macro _ input is_map true true).
    assert (EP : macro_pairs evK evV (evV unit_expr) is_map es =
      rt_input evK evV (evV unit_expr) (em_has_value_type (with_const (macro_emitter is_map input) true true)) coll).
    { rewrite macro_value_type. unfold macro_pairs, rt_input, coll. rewrite map_map. apply map_ext_in. intros e He. unfold rt_key. cbn.
      destruct (HL e He) as [v [s L]]. rewrite (cross_new_key suffix e v s L) by (eapply HF; eauto). f_equal. unfold entry_value.
      destruct (me_value e), is_map; reflexivity. }
    rewrite EP. apply emit_scalar_emits; auto.
    + apply builtin_lawful_scalar.
    + split.
      * intros q. unfold idxQ'. specialize (LQ1 q). pose proof (shift_bound t). unfold usize_max. cbn in LQ1. lia.
      * intros q k. rewrite LQ2. unfold idxQ'. lia.
    + intros e He. apply in_map_iff in He. destruct He as [e' [<- He]]. unfold rt_key. cbn [fst snd].
      destruct (HL e' He) as [v [s L]]. rewrite (cross_new_key suffix e' v s L) by (eapply HF; eauto). symmetry. apply IX. exact He.
    + unfold coll. rewrite map_map. intros a b Ha Hb. apply in_map_iff in Ha, Hb. destruct Ha as [ea [<- Ha]], Hb as [eb [<- Hb]].
      cbn [fst]. rewrite !IX by auto. pose proof (index_32 t (evK (me_key ea)) HS). unfold usize_max. lia.
    + unfold coll. rewrite map_length. exact Hc.
    + apply macro_options. exact HO.
  - intros d out E. apply emit_scalar_shape in E; [|apply builtin_lawful_scalar].
    assert (B : forall k, In k (map fst coll) -> shift t <= index_of Ptr64 (int_type_of t) k).
    { intros k Hk. unfold coll in Hk. rewrite map_map in Hk. apply in_map_iff in Hk. destruct Hk as [e [<- He]]. cbn [fst]. rewrite IX by auto. lia. }
    destruct (o_ctor out); auto; destruct E as [k [Hk ->]]; auto.
Qed.

Lemma cross_macro {V Q} input is_map mk (evV : W -> V) eqR cmpR idxQ (eqv : Q -> value_of Ptr32 (int_type_of t) -> bool) cmpQ :
  let es := payload input in
  es <> [] -> mk <> MkString -> all_integers t es -> values_fit_on Ptr32 t es -> not_static_mut input ->
  target_query Ptr32 t idxQ eqv -> N.of_nat (List.length es) <= usize_max ->
  exists d out, fz is_map input mk = Ok (ROk (d, out)) /\ d = macro_decl input false /\ o_set out = negb is_map /\ ctor_compiles (o_ctor out) = true /\
    (fits_target Ptr32 (o_ctor out) ->
     exists m, run_ctor evK evV eqR cmpR (o_ctor out) = Ok m /\
       answers (rt_ops eqv cmpQ idxQ (scalar_hasher idxQ)) (idx_eq (index_of Ptr32 (int_type_of t))) eqv m
         (macro_pairs evK evV (evV unit_expr) is_map es)) /\
    (t = ISize -> match o_ctor out with CDense _ _ _ _ | CSparse _ _ _ _ _ _ _ => ~ fits_target Ptr32 (o_ctor out) | _ => True end).
Proof.
  intros es NE HM HI HF HO LQ Hc.
  assert (HL : forall e, In e es -> exists v s, literal_of (me_key e) = Some (LitInt v s)).
  { intros e He. destruct (proj1 HI e He) as [v [s [L _]]]. eauto. }
  assert (A : acceptable mk es).
  { apply (kinds_acceptable mk t). intros e He. destruct (proj1 HI e He) as [v [s [L Hs]]].
    assert (exists u, discover (me_key e) = ROk (LiteralScalar u) /\ (u = Undecided \/ u = t)) as [u [-> Hu]].
    { destruct Hs as [->|Hs]; [exists Undecided|exists t; apply suffix_inj in Hs]; (split; [apply discover_int; eauto|auto]). }
    cbn. auto. }
  assert (E : assess_keys es mk = ROk (AllLiteralScalars t)) by (apply selection; auto).
  rewrite fz_process, (process_nonempty _ _ _ _ _ _ _ _ _ _ NE E).
  destruct (handled (macro_emitter is_map input) es) as [suffix ->].
  destruct (cross_emit input is_map suffix evV eqR cmpR idxQ eqv cmpQ HL HF HO LQ Hc) as [[d [out [m [E1 [E2 [E3 [E4 [E5 E6]]]]]]]] SH].
  exists d, out. split; [exact E1|]. split; [exact E2|]. split; [exact E3|]. split; [exact E4|]. specialize (SH d out E1).
  assert (BIG : t = ISize -> forall n, shift t <= n -> ~ n < 2 ^ 32) by (intros -> n; cbn; lia).
  split.
  - intros [F1 F2]. exists m. split; [exact E5|]. cbn in F1, F2.
    destruct (N.eq_dec (shift t) 0) as [Z|NZ].
    { eapply answers_ext; [|eapply answers_same_idx; [|exact E6]]; [intros a b; unfold idx_eq|intros q]; cbn; rewrite Z, ?N.add_0_r; reflexivity. }
    assert (T : t = ISize) by (destruct t; cbn in NZ; congruence || reflexivity). specialize (BIG T).
    apply (answers_shifted eqv cmpQ idxQ t); [|exact E6].
    destruct (o_ctor out) as [len l|len l|len l|len l|len l mn mx|len ns cm l lk mn mx|len ns cm sl l h|len ns cm sl l h|l|l|l] eqn:EC;
      try contradiction; cbn [run_ctor] in E5; try (injection E5 as <-; cbn [small_table]).
    + exact I.
    + exfalso. apply (BIG mn SH). apply F1. left. reflexivity.
    + exfalso. apply (BIG mn SH). apply F1. left. reflexivity.
    + destruct h; try contradiction. split; [reflexivity|]. cbn. cbn in E4. specialize (F2 (N.of_nat ns) (or_intror (or_introl eq_refl))).
      cbn in F2. lia.
    + destruct h; try contradiction. split; [reflexivity|]. cbn. cbn in E4. specialize (F2 (N.of_nat ns) (or_intror (or_introl eq_refl))).
      cbn in F2. lia.
  - intros T. specialize (BIG T). destruct (o_ctor out) eqn:EC; auto; intros [F1 _]; apply (BIG _ SH); apply F1; left; reflexivity.
Qed.
End Macro.

(** * An evaluation of literals for any target *)
Lemma zero_on p t : in_type p (int_type_of t) 0 = true.
Proof. destruct p, t; reflexivity. Qed.
Definition eval_on {X} (p : pointer_width) (t : scalar_type) (e : expr X) : value_of p (int_type_of t) :=
  match key_lit e with
  | Some (LitInt v _) =>
      match Bool.bool_dec (in_type p (int_type_of t) (Z.of_N v)) true with left H => exist _ _ H | right _ => exist _ 0%Z (zero_on p t) end
  | _ => exist _ 0%Z (zero_on p t)
  end.
Lemma eval_on_ok {X} p t : evaluates_integers_on (X := X) p t (eval_on p t).
Proof.
  split; [|reflexivity]. intros v s H. unfold eval_on. cbn [key_lit]. destruct (Bool.bool_dec _ true); [reflexivity|congruence].
Qed.
