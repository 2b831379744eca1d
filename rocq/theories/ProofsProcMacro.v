(** Proofs about the collection macros as functions from tokens to tokens. *)
From Coq Require Import String ZArith Permutation.
From Verif Require Import ModelUtils ModelAnalyzers ModelTables ModelMaps ModelScalar ModelEmit ModelMacros ModelTypes ModelParsing ModelTokens ModelRun
  ModelProcMacro.
From Verif Require Import Spec SpecEmit SpecMade SpecMacros SpecTypes SpecParsing SpecTokens SpecRun SpecProcMacro.
From Verif Require Import ProofsBase ProofsEmit ProofsEmitProps ProofsMacros ProofsTypes ProofsTypesEmit ProofsParsing ProofsTokens ProofsRun.
From Verif Require Import Prelude.
From Coq Require Import ZifyNat ZifyN ZifyBool.

Lemma names_not_keyword s : names s -> is_keyword s = false.
Proof.
  intros H. destruct (is_keyword s) eqn:E; [|reflexivity]. exfalso. apply H. unfold is_keyword in E. apply existsb_exists in E.
  destruct E as [x [HI E]]. apply String.eqb_eq in E. subst x. revert HI. apply incl_Forall_in_iff. clear H.
  repeat (constructor; [cbn; tauto|]). constructor.
Qed.

Section Stream.
Context {X T : Type} (is_expr : list token -> expr X -> Prop) (is_type : list token -> T -> Prop).
Context (parse_expr : list token -> result (expr X * list token)) (parse_type : list token -> result (T * list token)).
Hypothesis PE : expr_parser is_expr parse_expr.
Hypothesis PT : type_parser is_type parse_type.
Context (usort : forall T : Type, list (N * T) -> list (N * T)) (md : mode) (unit_expr : expr X) (seed : N)
  (fixed_state : N -> build_hasher) (hash_i32 : N -> scalar_value I32 -> N) (show : list token -> string) (is_ident : string -> bool).
Hypothesis HU : forall T, sorts_by_slot (usort T).
Hypothesis Hseed : seed < 2 ^ 64.
Notation fz := (fz_macro (X := X) usort md unit_expr seed fixed_state hash_i32).
Notation fzt := (fz_macro_tokens parse_expr parse_type usort md unit_expr seed fixed_state hash_i32 show).
Notation stream := (fz_macro_stream parse_expr parse_type usort md unit_expr seed fixed_state hash_i32 show is_ident).

(** the names a call writes are usable *)
Lemma call_names s is_map ts p : is_call is_expr is_type s is_map ts p -> knows_identifiers is_ident ts -> usable is_ident (input_names (to_input show p)).
Proof.
  intros H KI. destruct H as [content es HP|l types content colon lt gt comma C N1 N2 HT S1 S2 S3 S4 HP]; cbn [to_input input_names].
  - intros n [].
  - intros n [<-|[<-|[]]]; (split; [|apply names_not_keyword; assumption]); apply KI; apply in_or_app; right; [left; reflexivity|].
    right. right. left. reflexivity.
Qed.

Lemma call_types s is_map ts p : is_call is_expr is_type s is_map ts p -> forall ku vu,
  (match p with PShort _ => True | PLong l => ku = lf_key_type l /\ (is_map = true -> lf_value_type l = Some vu) end) ->
  written (emitter_key_type p) = macro_key_type (to_input show p) ku /\
  option_map written (emitter_value_type is_map p) = ModelTypes.macro_value_type is_map (to_input show p) vu.
Proof.
  intros H ku vu. destruct H as [content es HP|l types content colon lt gt comma C N1 N2 HT S1 S2 S3 S4 HP].
  - intros _. split; [reflexivity|]. destruct is_map; reflexivity.
  - intros [-> HV]. split; [reflexivity|]. cbn [emitter_value_type to_input]. unfold ModelTypes.macro_value_type.
    destruct HT; [rewrite HV by reflexivity|]; reflexivity.
Qed.

Lemma decl_usable input lazy : usable is_ident (input_names (input : macro_input (X := X) (W := expr X))) -> usable is_ident (names_of (macro_decl input lazy)).
Proof. destruct input as [es|symbol alias es vis [|] mu]; cbn; auto. Qed.
Lemma decl_symbol (p : parsed (X := X) (T := T)) lazy : symbol_of (macro_decl (to_input show p) lazy) = call_symbol p.
Proof. destruct p as [es|l]; [reflexivity|]. cbn. destruct (lf_is_static l); reflexivity. Qed.

(** every expansion is printed; the tokens are those of a program *)
Lemma stream_reads s is_map ts p mk d out : is_call is_expr is_type s is_map ts p -> knows_identifiers is_ident ts ->
  parse2 (if is_map then parse_map parse_expr parse_type else parse_set parse_expr parse_type) ts = ROk p ->
  fz is_map (to_input show p) mk = Ok (ROk (d, out)) ->
  becomes (stream is_map ts mk) (print_decl (written (emitter_key_type p)) (option_map written (emitter_value_type is_map p)) d out).
Proof.
  intros H KI EP EF. destruct (call_form _ _ _ _ show _ _ H) as [WF _].
  assert (Hs : seed <= 2 ^ 64 - 1) by lia.
  destruct (macro_expansion usort md unit_expr seed fixed_state hash_i32 HU Hs is_map _ mk d out WF EF) as [lit [key EX]].
  assert (US : usable is_ident (names_of d)) by (rewrite (ex_decl _ _ _ _ _ _ _ _ EX); apply decl_usable; eapply call_names; eauto).
  destruct (postflight_ok (emitter_key_type p) (emitter_value_type is_map p) is_ident d out US) as [ots EO].
  exists ots. split.
  - unfold fz_macro_stream. rewrite EP, EF. cbn [bind]. rewrite EO. reflexivity.
  - eapply postflight_reads; [|exact EO]. apply Forall_forall. intros n Hn. apply US, Hn.
Qed.

Lemma stream_total is_map ts mk : knows_identifiers is_ident ts ->
  (forall p, is_call is_expr is_type false is_map ts p -> moderate (payload (to_input show p))) -> exists r, stream is_map ts mk = Ok r.
Proof.
  intros KI M. destruct (parse2 (if is_map then parse_map parse_expr parse_type else parse_set parse_expr parse_type) ts) as [p|msg] eqn:E.
  2:{ unfold fz_macro_stream. rewrite E. eauto. }
  pose proof (call_sound _ _ _ _ PE PT _ _ _ E) as H. destruct (call_form _ _ _ _ show _ _ H) as [_ O].
  destruct (fz_total usort md unit_expr seed fixed_state hash_i32 HU is_map _ mk O (M _ H)) as [[[d out]|msg] EF].
  - destruct (stream_reads _ _ _ _ mk d out H KI E EF) as [ots [ER _]]. eauto.
  - unfold fz_macro_stream. rewrite E, EF. cbn [bind]. eauto.
Qed.

Lemma stream_rejected is_map ts mk : (forall p, is_call is_expr is_type false is_map ts p -> rejected mk (to_input show p)) ->
  exists msg, stream is_map ts mk = Ok (RErr msg).
Proof.
  intros R. destruct (tokens_rejected _ _ _ _ PE PT usort md unit_expr seed fixed_state hash_i32 show is_map ts mk R) as [msg E].
  exists msg. unfold fz_macro_tokens in E. unfold fz_macro_stream. destruct (parse2 _ ts) as [p|]; [|congruence]. rewrite E. reflexivity.
Qed.

Lemma declared (p : parsed (X := X) (T := T)) (kt : pty T) vt lit (out : output (expr X) (expr X)) : (lit = true <-> literal_call (payload (to_input show p))) ->
  declares show p (print_decl kt vt (macro_decl (to_input show p) (negb lit)) out).
Proof.
  intros HL. destruct p as [es|l]; cbn [to_input macro_decl declares] in *; [eexists; reflexivity|].
  destruct (lf_is_static l).
  - destruct lit; cbn [negb print_decl]; (eexists _, _, _; split; [reflexivity|]); split; intros F; try reflexivity; exfalso.
    + apply F, HL. reflexivity.
    + apply HL in F. discriminate.
  - eexists _, _. reflexivity.
Qed.

Lemma short_checks as_ref_str (means : T -> ty -> Prop) (expr_has : X -> ty -> Prop) (value_has : expr X -> ty -> Prop)
    (const_expr : X -> Prop) (const_value : expr X -> Prop) (complete : T -> Prop) is_map es mk d out :
  value_has unit_expr TUnit -> const_value unit_expr -> well_formed is_map es -> fz is_map (ShortForm es) mk = Ok (ROk (d, out)) ->
  accepted as_ref_str means (written_has expr_has) value_has (written_const const_expr) const_value complete []
    (print_decl PInfer (if is_map then Some PInfer else None) d out) <->
  exists k v, type_checks as_ref_str expr_has value_has const_value mk (ShortForm es : macro_input (X := X)) k v.
Proof.
  intros U1 U2 WF E. assert (Hs : seed <= 2 ^ 64 - 1) by lia. set (input := ShortForm es) in *. change es with (payload input) in WF. split.
  - intros H. apply (macro_backward usort md unit_expr seed fixed_state hash_i32 HU Hs as_ref_str means expr_has value_has const_expr const_value complete is_map input mk d out WF E) in H.
    destruct H as [env [k0 [v0 [H1 [H2 H3]]]]]. eauto.
  - intros [k [v [T1 T2 T3 T4]]].
    apply (macro_forward usort md unit_expr seed fixed_state hash_i32 HU Hs as_ref_str means expr_has value_has const_expr const_value complete U1 U2 is_map input mk d out WF E
      PInfer (if is_map then Some PInfer else None) k (if is_map then v else TUnit)).
    + intros env. apply D_infer.
    + intros env. destruct is_map; cbn; [apply D_infer|apply D_unit].
    + intros ->. reflexivity.
    + discriminate.
    + constructor; auto. intros e w He EV.
      assert (is_map = true) as F by (apply (WF e); [apply (printed_in input); exact He|congruence]). rewrite F. apply (T4 e); auto.
Qed.

Lemma stream_accepted is_map ts p mk : is_call is_expr is_type true is_map ts p -> knows_identifiers is_ident ts ->
  ~ rejected mk (to_input show p) -> moderate (payload (to_input show p)) ->
  forall as_ref_str (means : T -> ty -> Prop) (expr_has : X -> ty -> Prop) (value_has : expr X -> ty -> Prop) (const_expr : X -> Prop)
    (const_value : expr X -> Prop) (complete : T -> Prop), value_has unit_expr TUnit -> const_value unit_expr ->
  exists items, becomes (stream is_map ts mk) items /\ declares show p items /\
    let checks := accepted as_ref_str means (written_has expr_has) value_has (written_const const_expr) const_value complete [] items in
    match p with
    | PShort _ => checks <-> exists k v, type_checks as_ref_str expr_has value_has const_value mk (to_input show p) k v
    | PLong l => forall k v, types_mean means complete is_map l k v ->
        (checks <-> type_checks as_ref_str expr_has value_has const_value mk (to_input show p) k v)
    end.
Proof.
  intros H KI NR M as_ref_str means expr_has value_has const_expr const_value complete U1 U2.
  destruct (call_form _ _ _ _ show _ _ H) as [WF O]. pose proof (call_complete _ _ _ _ PE PT _ _ _ H) as EP.
  assert (Hs : seed <= 2 ^ 64 - 1) by lia.
  destruct (fz_total usort md unit_expr seed fixed_state hash_i32 HU is_map _ mk O M) as [[[d out]|msg] EF];
    [|exfalso; apply NR; eapply rejected_exactly; eauto].
  eexists. split; [eapply stream_reads; eauto|].
  destruct (macro_expansion usort md unit_expr seed fixed_state hash_i32 HU Hs is_map _ mk d out WF EF) as [lit [key EX]].
  split.
  { rewrite (ex_decl _ _ _ _ _ _ _ _ EX). apply declared. exact (ex_literal _ _ _ _ _ _ _ _ EX). }
  cbv zeta. pose proof (call_types _ _ _ _ H) as CT. destruct p as [es|l].
  - assert (TK : written (emitter_key_type (PShort es)) = @PInfer T) by reflexivity.
    assert (TV : option_map written (emitter_value_type is_map (PShort es)) = if is_map then Some (@PInfer T) else None) by (destruct is_map; reflexivity).
    rewrite TK, TV.
    apply short_checks; auto.
  - intros k v [K1 [K2 K3]]. inversion H; subst.
    destruct (lf_value_type l) as [vu|] eqn:EV.
    + destruct (CT (lf_key_type l) vu (conj eq_refl (fun _ => eq_refl))) as [-> ->].
      eapply long_form_checks; eauto.
    + destruct (CT (lf_key_type l) (lf_key_type l)) as [-> ->].
      { split; [reflexivity|]. intros ->. match goal with HT : is_types _ true _ _ _ |- _ => inversion HT end. }
      eapply long_form_checks; eauto. intros ->. match goal with HT : is_types _ true _ _ _ |- _ => inversion HT end.
Qed.

(** the value of the collection, for literal keys *)
Lemma stream_answers {K V Q} is_map ts p mk lazy (evK : expr X -> K) (evV : expr X -> V) eqR cmpR (ops : map_ops (rt_map K V) K V Q) eqK eqv pairs :
  is_call is_expr is_type true is_map ts p -> knows_identifiers is_ident ts ->
  macro_emits (fzt is_map ts mk) (to_input show p) is_map lazy evK evV eqR cmpR ops eqK eqv pairs ->
  exists items, becomes (stream is_map ts mk) items /\
    value_answers (value_of evK evV eqR cmpR (call_symbol p) items) is_map ops eqK eqv pairs.
Proof.
  intros H KI [d [out [m [HR [HD [HS [HC [HM HA]]]]]]]]. pose proof (call_complete _ _ _ _ PE PT _ _ _ H) as EP.
  rewrite (tokens_parsed _ _ _ _ PE PT _ _ _ _ _ _ _ _ _ _ _ H) in HR.
  eexists. split; [eapply stream_reads; eauto|]. exists m. split; [|exact HA].
  rewrite <- (decl_symbol p lazy), <- HD, value_printed, eval_out.
  - rewrite HC, HM. cbn [fmap bind]. unfold wrapped, collection. rewrite HS. destruct is_map; reflexivity.
  - destruct (o_ctor out); try reflexivity; discriminate HM.
Qed.

(** and for other keys *)
Lemma runtime_shape is_map input mk kind d out : payload input <> [] -> acceptable mk (payload input) -> kind_selected mk (payload input) kind ->
  fz is_map input mk = Ok (ROk (d, out)) ->
  let es := map snd (map (non_literal_entry unit_expr) (payload input)) in
  let n := List.length (payload input) in
  match kind with
  | EffHashed => o_ctor out = if Nat.ltb n 4 then CScanVec n es else CFzHash es
  | EffOrdered => o_ctor out = if Nat.ltb n 4 then CScanVec n es else CEytzingerVec n es
  | LiteralAndExpressionScalars => o_ctor out = if Nat.ltb n 8 then CScanVec n es else CFzScalar es
  | LiteralAndExpressionStrings => o_ctor out = if Nat.ltb n 4 then CScanVec n es else CFzString es
  | _ => True
  end.
Proof.
  intros NE A KS E. rewrite fz_process, (process_nonempty _ _ _ _ _ _ _ _ _ _ NE (fz_kind input mk NE A _ KS)) in E.
  destruct kind; cbv zeta; try exact I;
  unfold handle_hashed_keys, handle_ordered_keys, handle_non_literal_scalar_keys, handle_non_literal_string_keys,
    emit_hash_collection_expr, emit_ordered_collection_expr, emit_scalar_collection_expr, emit_string_collection_expr, finish in E;
  rewrite map_length in E;
  destruct (preflight _ _) as [g|] eqn:EG; try discriminate E;
  assert (GL : g_len g = List.length (payload input)) by (unfold preflight in EG; repeat (match type of EG with context [if ?b then _ else _] => destruct b end; try discriminate EG); injection EG as <-; reflexivity);
  match type of E with context [if Nat.ltb ?a ?b then _ else _] => destruct (Nat.ltb a b) end; cbn [bind] in E;
  destruct (postflight _) as [d'| |]; try discriminate E; cbn [bind] in E; injection E as <- <-; cbn; rewrite ?GL; reflexivity.
Qed.

Lemma runtime_value {K V} (evK : expr X -> K) (evV : expr X -> V) eqR cmpR is_map ts p mk d out lazy :
  is_call is_expr is_type true is_map ts p -> knows_identifiers is_ident ts ->
  fzt is_map ts mk = Ok (ROk (d, out)) -> d = macro_decl (to_input show p) lazy -> o_set out = negb is_map -> ctor_compiles (o_ctor out) = true ->
  exists items, becomes (stream is_map ts mk) items /\
    value_of evK evV eqR cmpR (call_symbol p) items =
    if is_fz (o_ctor out) then Some (Ok (collection is_map (VFz (fz_name (o_ctor out)) (eval_entries evK evV (fz_entries (o_ctor out))))))
    else Some (fmap (fun m => collection is_map (VMap m)) (run_ctor evK evV eqR cmpR (o_ctor out))).
Proof.
  intros H KI HR HD HS HC. pose proof (call_complete _ _ _ _ PE PT _ _ _ H) as EP.
  rewrite (tokens_parsed _ _ _ _ PE PT _ _ _ _ _ _ _ _ _ _ _ H) in HR.
  eexists. split; [eapply stream_reads; eauto|].
  rewrite <- (decl_symbol p lazy), <- HD, value_printed. destruct (is_fz (o_ctor out)) eqn:EF.
  - rewrite eval_fz by exact EF. unfold wrapped, collection. rewrite HS. destruct is_map; reflexivity.
  - rewrite eval_out by exact EF. rewrite HC. unfold wrapped, collection. rewrite HS. destruct is_map; reflexivity.
Qed.

Lemma exact_value {K V Q} is_map (r : res (rt_map K V)) (ops : map_ops (rt_map K V) K V Q) eqK eqv pairs :
  exact_or_panic r ops eqK eqv pairs ->
  value_answers_or_panics (Some (fmap (fun m => collection is_map (VMap m)) r)) is_map ops eqK eqv pairs.
Proof.
  intros [H1 H2]. split; intros D.
  - destruct (H1 D) as [m [-> A]]. exists m. split; [reflexivity|exact A].
  - rewrite (H2 D). reflexivity.
Qed.
End Stream.

Section Runtime.
Context {X T : Type} (is_expr : list token -> expr X -> Prop) (is_type : list token -> T -> Prop) (parse_expr : list token -> result (expr X * list token))
  (parse_type : list token -> result (T * list token)).
Hypothesis PE : expr_parser is_expr parse_expr.
Hypothesis PT : type_parser is_type parse_type.
Context (usort : forall T : Type, list (N * T) -> list (N * T)) (md : mode) (unit_expr : expr X) (seed : N)
  (fixed_state : N -> build_hasher) (hash_i32 : N -> scalar_value I32 -> N) (show : list token -> string) (is_ident : string -> bool).
Hypothesis HU : forall T, sorts_by_slot (usort T).
Hypothesis Hseed : seed < 2 ^ 64.
Context (is_map : bool) (ts : list token) (p : parsed (X := X) (T := T)) (mk : macro_kind).
Hypothesis IC : is_call is_expr is_type true is_map ts p.
Hypothesis KI : knows_identifiers is_ident ts.
Notation entries := (payload (to_input show p)).
Hypothesis NE : entries <> [].
Hypothesis A : acceptable mk entries.
Hypothesis M : moderate entries.
Notation stream := (fz_macro_stream parse_expr parse_type usort md unit_expr seed fixed_state hash_i32 show is_ident is_map ts mk).

Lemma hashed_call : forall K V Q (evK : expr X -> K) (evV : expr X -> V) eqR cmpR (eqv : Q -> K -> bool) cmpQ idxQ hashQ hK hQ srt,
  kind_selected mk entries EffHashed ->
  sorts_by_slot srt -> lawful_eq eqR -> lawful_equivalent eqR eqv -> lawful_hash eqR hK -> lawful_query_hash eqv hQ hK ->
  let pairs := macro_pairs evK evV (evV unit_expr) is_map entries in
  exists items, becomes stream items /\
    let v := value_of evK evV eqR cmpR (call_symbol p) items in
    if Nat.ltb (List.length entries) 4 then value_answers_or_panics v is_map (rt_ops eqv cmpQ idxQ hashQ) eqR eqv pairs
    else value_made v is_map "FzHashMap" (fz_hash_map_with_hasher srt eqR hK pairs) (hash_ops (fun q => Ok (hQ q)) eqv) eqR eqv pairs.
Proof.
  intros K V Q evK evV eqR cmpR eqv cmpQ idxQ hashQ hK hQ srt KS HS LE LV LH LQ pairs.
  destruct (call_form _ _ _ _ show _ _ IC) as [WF O].
  destruct (@hashed_expands X (expr X) usort md unit_expr seed fixed_state hash_i32 K V Q is_map _ mk NE A WF O evK evV eqR cmpR eqv cmpQ idxQ hashQ
    hK hQ srt KS HS LE LV LH LQ (mod_count _ M)) as [d [out [E [HD [HO HP]]]]].
  pose proof (runtime_shape usort md unit_expr seed fixed_state hash_i32 is_map _ mk EffHashed d out NE A KS E) as SH. cbv zeta in SH.
  rewrite <- (tokens_parsed _ _ _ _ PE PT _ _ _ _ _ _ _ _ _ _ _ IC) in E.
  destruct (runtime_value is_expr is_type parse_expr parse_type PE PT usort md unit_expr seed fixed_state hash_i32 show is_ident HU Hseed evK evV eqR cmpR
    is_map ts p mk d out true IC KI E HD HO) as [items [B EV]]; [rewrite SH; match goal with |- context [if ?b then _ else _] => destruct b end; reflexivity|].
  exists items. split; [exact B|]. cbv zeta. rewrite EV, SH in *. destruct (Nat.ltb (List.length entries) 4); cbn [is_fz].
  - apply exact_value. exact HP.
  - cbn [run_fz_hash fz_name fz_entries] in *. rewrite (non_literal_pairs unit_expr is_map entries evK evV WF) in *. split; [reflexivity|exact HP].
Qed.

Lemma ordered_call : forall K V Q (evK : expr X -> K) (evV : expr X -> V) eqR cmpK (eqv : Q -> K -> bool) cmpQ idxQ hashQ,
  kind_selected mk entries EffOrdered ->
  lawful_ord cmpK -> lawful_comparable cmpK cmpQ -> (forall a b, eqR a b = cmp_eq cmpK a b) -> (forall q k, eqv q k = cmp_eq cmpQ q k) ->
  exists items, becomes stream items /\
    value_answers_or_panics (value_of evK evV eqR cmpK (call_symbol p) items) is_map (rt_ops eqv cmpQ idxQ hashQ) (cmp_eq cmpK) eqv
      (macro_pairs evK evV (evV unit_expr) is_map entries).
Proof.
  intros K V Q evK evV eqR cmpK eqv cmpQ idxQ hashQ KS LO LC HE HV.
  destruct (call_form _ _ _ _ show _ _ IC) as [WF O].
  destruct (@ordered_expands X (expr X) usort md unit_expr seed fixed_state hash_i32 K V Q is_map _ mk NE A WF O evK evV eqR cmpK eqv cmpQ idxQ hashQ
    KS LO LC HE HV) as [d [out [E [HD [HO HP]]]]].
  pose proof (runtime_shape usort md unit_expr seed fixed_state hash_i32 is_map _ mk EffOrdered d out NE A KS E) as SH. cbv zeta in SH.
  rewrite <- (tokens_parsed _ _ _ _ PE PT _ _ _ _ _ _ _ _ _ _ _ IC) in E.
  destruct (runtime_value is_expr is_type parse_expr parse_type PE PT usort md unit_expr seed fixed_state hash_i32 show is_ident HU Hseed evK evV eqR cmpK
    is_map ts p mk d out true IC KI E HD HO) as [items [B EV]]; [rewrite SH; match goal with |- context [if ?b then _ else _] => destruct b end; reflexivity|].
  exists items. split; [exact B|]. rewrite EV, SH in *. destruct (Nat.ltb (List.length entries) 4); cbn [is_fz]; apply exact_value; exact HP.
Qed.

Lemma scalar_call : forall K V Q (evK : expr X -> K) (evV : expr X -> V) idxK cmpK cmpR (eqv : Q -> K -> bool) cmpQ idxQ hashQ srt mode,
  kind_selected mk entries LiteralAndExpressionScalars ->
  sorts_by_slot srt -> lawful_scalar idxK cmpK -> lawful_query_scalar idxK idxQ eqv ->
  span_representable idxK (map (fun e => evK (me_key e)) entries) ->
  let pairs := macro_pairs evK evV (evV unit_expr) is_map entries in
  exists items, becomes stream items /\
    let v := value_of evK evV (idx_eq idxK) cmpR (call_symbol p) items in
    if Nat.ltb (List.length entries) 8 then value_answers_or_panics v is_map (rt_ops eqv cmpQ idxQ hashQ) (idx_eq idxK) eqv pairs
    else value_made v is_map "FzScalarMap" (fz_scalar_map_new srt mode idxK cmpK pairs) (fz_scalar_ops idxQ eqv) (idx_eq idxK) eqv pairs.
Proof.
  intros K V Q evK evV idxK cmpK cmpR eqv cmpQ idxQ hashQ srt mode KS HS LS LQ SP pairs.
  destruct (call_form _ _ _ _ show _ _ IC) as [WF O].
  destruct (@scalars_expands X (expr X) usort md unit_expr seed fixed_state hash_i32 K V Q is_map _ mk NE A WF O evK evV idxK cmpK cmpR eqv cmpQ idxQ hashQ
    srt mode KS HS LS LQ SP) as [d [out [E [HD [HO HP]]]]].
  pose proof (runtime_shape usort md unit_expr seed fixed_state hash_i32 is_map _ mk LiteralAndExpressionScalars d out NE A KS E) as SH. cbv zeta in SH.
  rewrite <- (tokens_parsed _ _ _ _ PE PT _ _ _ _ _ _ _ _ _ _ _ IC) in E.
  destruct (runtime_value is_expr is_type parse_expr parse_type PE PT usort md unit_expr seed fixed_state hash_i32 show is_ident HU Hseed evK evV (idx_eq idxK) cmpR
    is_map ts p mk d out true IC KI E HD HO) as [items [B EV]]; [rewrite SH; match goal with |- context [if ?b then _ else _] => destruct b end; reflexivity|].
  exists items. split; [exact B|]. cbv zeta. rewrite EV, SH in *. destruct (Nat.ltb (List.length entries) 8); cbn [is_fz].
  - apply exact_value. exact HP.
  - cbn [run_fz_scalar fz_name fz_entries] in *. rewrite (non_literal_pairs unit_expr is_map entries evK evV WF) in *. split; [reflexivity|exact HP].
Qed.

Lemma string_expr_call : forall V (evK : expr X -> bytes) (evV : expr X -> V) cmpR cmpQ idxQ hashQ srt bh,
  kind_selected mk entries LiteralAndExpressionStrings ->
  sorts_by_slot srt -> (forall e, In e entries -> N.of_nat (List.length (evK (me_key e))) <= usize_max) ->
  let pairs := macro_pairs evK evV (evV unit_expr) is_map entries in
  exists items, becomes stream items /\
    let v := value_of evK evV bytes_eqb cmpR (call_symbol p) items in
    if Nat.ltb (List.length entries) 4 then value_answers_or_panics v is_map (rt_ops bytes_eqb cmpQ idxQ hashQ) bytes_eqb bytes_eqb pairs
    else value_made v is_map "FzStringMap" (fz_string_map_with_hasher srt bh pairs) fz_string_ops bytes_eqb bytes_eqb pairs.
Proof.
  intros V evK evV cmpR cmpQ idxQ hashQ srt bh KS HS HL pairs.
  destruct (call_form _ _ _ _ show _ _ IC) as [WF O].
  destruct (@strings_expands X (expr X) usort md unit_expr seed fixed_state hash_i32 V is_map _ mk evK evV cmpR cmpQ idxQ hashQ srt bh
    NE A WF O KS HS HL (mod_count _ M)) as [d [out [E [HD [HO HP]]]]].
  pose proof (runtime_shape usort md unit_expr seed fixed_state hash_i32 is_map _ mk LiteralAndExpressionStrings d out NE A KS E) as SH. cbv zeta in SH.
  rewrite <- (tokens_parsed _ _ _ _ PE PT _ _ _ _ _ _ _ _ _ _ _ IC) in E.
  destruct (runtime_value is_expr is_type parse_expr parse_type PE PT usort md unit_expr seed fixed_state hash_i32 show is_ident HU Hseed evK evV bytes_eqb cmpR
    is_map ts p mk d out true IC KI E HD HO) as [items [B EV]]; [rewrite SH; match goal with |- context [if ?b then _ else _] => destruct b end; reflexivity|].
  exists items. split; [exact B|]. cbv zeta. rewrite EV, SH in *. destruct (Nat.ltb (List.length entries) 4); cbn [is_fz].
  - apply exact_value. exact HP.
  - cbn [run_fz_string fz_name fz_entries] in *. rewrite (non_literal_pairs unit_expr is_map entries evK evV WF) in *. split; [reflexivity|exact HP].
Qed.
End Runtime.
