(** What the emit functions put into a constructor call, as far as types are concerned. *)
From Coq Require Import String ZArith Permutation.
From Verif Require Import ModelUtils ModelAnalyzers ModelTables ModelMaps ModelScalar ModelEmit ModelMacros ModelTypes.
From Verif Require Import Spec SpecEmit SpecMade SpecMacros SpecTypes.
From Verif Require Import ProofsBase ProofsDedup ProofsTable ProofsEytzinger ProofsMaps ProofsScalar ProofsFz ProofsEmit ProofsEmitProps ProofsMacros ProofsTypes ProofsScalarIndex.
From Verif Require Import Prelude.
From Coq Require Import ZifyNat ZifyN ZifyBool.

Lemma finish_parts {X W} em len (gen : generator -> res (output X W)) d out : finish em len gen = Ok (ROk (d, out)) ->
  exists g, g_len g = len /\ g_set g = negb (em_has_value_type em) /\ gen g = Ok out /\ expected_decl em d.
Proof.
  intros E. pose proof (finish_options _ _ _ _ E) as HO. unfold finish in E. rewrite (preflight_ok em len HO) in E.
  destruct (postflight_ok em HO) as [d' [E' HD]]. rewrite E' in E.
  destruct (gen _) as [o| |] eqn:EG; cbn [bind] in E; try discriminate. injection E as <- <-.
  eexists. split; [|split; [|split; [exact EG|exact HD]]]; reflexivity.
Qed.

(** [out] was printed for the entries [es] *)
Record parts {KB X W} (em : emitter) (const : bool) (es : list (entry KB X W)) (d : decl) (out : output X W) : Prop := {
  pa_decl : expected_decl em d;
  pa_set : o_set out = negb (em_has_value_type em);
  pa_entries : Permutation (ctor_entries (o_ctor out)) (render es);
  pa_const : const_ctor (o_ctor out) = const;
  pa_literals : literals_ok (o_ctor out);
  pa_compiles : ctor_compiles (o_ctor out) = true }.

Lemma gen_hash_parts {KB X W} (usort : list (N * entry KB X W) -> list (N * entry KB X W)) g hash_one hc es out :
  sorts_by_slot usort -> seed_ok hc -> gen_inline_hash usort g hash_one hc es = Ok out ->
  o_set out = g_set g /\ Permutation (ctor_entries (o_ctor out)) (render es) /\ const_ctor (o_ctor out) = true /\ literals_ok (o_ctor out).
Proof.
  intros HU HS E.
  assert (Hc : N.of_nat (List.length es) <= usize_max).
  { destruct (N.le_gt_cases (N.of_nat (List.length es)) usize_max) as [|Hc]; auto. exfalso.
    unfold gen_inline_hash in E. destruct (ht_new_too_many usort Large es (fun x : entry KB X W => hash_one (e_key x)) Hc) as [msg E'].
    rewrite E' in E. discriminate E. }
  set (h := fun k => match hash_one k with Ok c => c | _ => 0 end).
  assert (Hh : forall e, In e es -> hash_one (fst e) = Ok (h (fst e))).
  { intros e He. unfold gen_inline_hash, ht_new in E. destruct es as [|e0 r]; [destruct He|]. cbn [is_nil] in E.
    destruct (max_capacity Large <? _); [discriminate|].
    destruct (mapM (fun x : entry KB X W => hash_one (e_key x)) (e0 :: r)) as [codes| |] eqn:EM; try discriminate E.
    destruct (mapM_all_ok _ _ _ EM e He) as [c Ec]. unfold h. unfold e_key in Ec. rewrite Ec. reflexivity. }
  unfold gen_inline_hash in E.
  destruct (ht_new_spec usort Large es (fun x : entry KB X W => hash_one (fst x)) (fun e : entry KB X W => h (fst e)) HU Hh Hc) as [t [E' [P I]]].
  unfold e_key in E. rewrite E' in E. cbn [bind unwrap] in E. injection E as <-. cbn [o_set o_ctor].
  split; [reflexivity|].
  assert (P' : Permutation (render (ht_entries t)) (render es)) by (apply Permutation_map; symmetry; exact P).
  destruct (ht_has_collisions t); cbn [ctor_entries const_ctor literals_ok]; auto.
Qed.

Section Emit.
Context {KB X W : Type}.
Notation kept same unit_expr em es := (survivors (same_key (V := X * W) same) (clean_values (KB := KB) unit_expr em es)).

Lemma emit_hash_parts usort unit_expr seed hashB eqB em (es : list (entry KB X W)) d out :
  sorts_by_slot usort -> seed <= 2 ^ 64 - 1 -> lawful_eq eqB -> lawful_hash eqB (hashB seed) ->
  emit_hash_collection usort unit_expr seed hashB eqB em es = Ok (ROk (d, out)) ->
  parts em true (kept eqB unit_expr em es) d out.
Proof.
  intros HU HS LE LH E. pose proof (emit_hash_compiles _ _ _ _ _ _ _ _ _ HU E) as HC. unfold emit_hash_collection in E.
  rewrite (using_hash_survivors (fun x : entry KB X W => hashB seed (e_key x)) (fun x y => eqB (e_key x) (e_key y))) in E.
  2: exact (lawful_same_key eqB LE). 2: intros x y; apply LH.
  change (fun x y : entry KB X W => eqB (e_key x) (e_key y)) with (@same_key KB (X * W) eqB) in E.
  set (l := survivors _ _) in *. apply finish_parts in E. destruct E as [g [Hg [Hg2 [E HD]]]].
  destruct (Nat.ltb _ 4).
  - injection E as <-. constructor; cbn; auto.
  - destruct (gen_hash_parts usort g _ (HcBridge seed) l out HU HS E) as [H1 [H2 [H3 H4]]]. constructor; auto. congruence.
Qed.

Lemma emit_ordered_parts unit_expr cmpB em (es : list (entry KB X W)) d out : lawful_ord cmpB ->
  emit_ordered_collection unit_expr cmpB em es = Ok (ROk (d, out)) ->
  parts em true (kept (cmp_eq cmpB) unit_expr em es) d out.
Proof.
  intros LO E. pose proof (emit_ordered_compiles _ _ _ _ _ _ E) as HC. unfold emit_ordered_collection in E.
  change (fun x y : entry KB X W => cmpB (e_key x) (e_key y)) with (fun x y : KB * (X * W) => cmpB (fst x) (fst y)) in E.
  pose proof (sorted_and_dedupped_perm _ (ord_fst (V := X * W) cmpB LO) (clean_values unit_expr em es)) as P.
  set (l := sorted_and_dedupped _ _) in *. apply finish_parts in E. destruct E as [g [Hg [Hg2 [E HD]]]].
  assert (P' : Permutation (render l) (render (kept (cmp_eq cmpB) unit_expr em es))) by (apply Permutation_map; exact P).
  destruct (Nat.ltb _ 4).
  - injection E as <-. constructor; cbn; auto.
  - unfold gen_inline_eytzinger_search in E. destruct (layout_spec l) as [l' [E' _]]. pose proof (layout_perm _ _ E') as PL.
    rewrite E' in E. cbn [bind] in E. injection E as <-. constructor; cbn; auto.
    rewrite <- P'. apply Permutation_map. symmetry. exact PL.
Qed.

Lemma emit_scalar_parts usort md unit_expr idx cmpB em (es : list (entry KB X W)) d out :
  sorts_by_slot usort -> lawful_scalar idx cmpB ->
  emit_scalar_collection usort md unit_expr idx cmpB em es = Ok (ROk (d, out)) ->
  parts em true (kept (same_idx idx) unit_expr em es) d out.
Proof.
  intros HU LS E. pose proof (emit_scalar_compiles _ _ _ _ _ _ _ _ _ HU LS E) as HC. unfold emit_scalar_collection in E.
  change (fun x y : entry KB X W => cmpB (e_key x) (e_key y)) with (fun x y : KB * (X * W) => cmpB (fst x) (fst y)) in E.
  pose proof (scalar_sorted_perm idx cmpB LS (clean_values unit_expr em es)) as P.
  set (l := sorted_and_dedupped _ _) in *.
  destruct (analyze_scalar_keys _ _) as [a| |]; cbn [bind] in E; try discriminate.
  apply finish_parts in E. destruct E as [g [Hg [Hg2 [E HD]]]].
  assert (P' : Permutation (render l) (render (kept (same_idx idx) unit_expr em es))) by (apply Permutation_map; symmetry; exact P).
  pose proof (idx_bound_law _ _ LS) as HB. destruct a.
  - destruct (Nat.ltb _ 8).
    + injection E as <-. constructor; cbn; auto.
    + destruct (gen_hash_parts usort g _ HcScalar l out HU I E) as [H1 [H2 [H3 H4]]]. constructor; auto; [congruence|].
      rewrite H2. exact P'.
  - unfold gen_inline_dense_scalar_lookup in E. destruct (index l 0); cbn [bind] in E; try discriminate.
    destruct (index l _); cbn [bind] in E; try discriminate. injection E as <-. constructor; cbn; auto.
  - unfold gen_inline_sparse_scalar_lookup in E. destruct (index l 0); cbn [bind] in E; try discriminate.
    destruct (index l _); cbn [bind] in E; try discriminate. destruct (usub _ _ _); cbn [bind] in E; try discriminate.
    destruct (uadd _ _ _); cbn [bind] in E; try discriminate. destruct (gen_lookup _ _ _ _ _ _); cbn [bind] in E; try discriminate.
    injection E as <-. constructor; cbn; auto.
Qed.
End Emit.

Lemma emit_string_parts {X W} usort unit_expr seed fsB em (es : list (entry bytes X W)) d out :
  sorts_by_slot usort -> seed <= 2 ^ 64 - 1 ->
  emit_string_collection usort unit_expr seed fsB em es = Ok (ROk (d, out)) ->
  parts em true (survivors (same_key bytes_eqb) (clean_values unit_expr em es)) d out.
Proof.
  intros HU HS E. pose proof (emit_string_compiles _ _ _ _ _ _ _ _ HU E) as HC. unfold emit_string_collection in E.
  change (fun x y : entry bytes X W => bytes_cmp (e_key x) (e_key y)) with (fun x y : bytes * (X * W) => bytes_cmp (fst x) (fst y)) in E.
  pose proof (string_sorted_perm (clean_values unit_expr em es)) as P.
  set (l := using_cmp _ _) in *. apply finish_parts in E. destruct E as [g [Hg [Hg2 [E HD]]]].
  assert (P' : Permutation (render l) (render (survivors (same_key bytes_eqb) (clean_values unit_expr em es)))) by (apply Permutation_map; symmetry; exact P).
  destruct (Nat.ltb _ 4).
  - injection E as <-. constructor; cbn; auto.
  - cbv zeta in E.
    assert (HG : forall hash_one hc, seed_ok hc -> gen_inline_hash usort g hash_one hc l = Ok out ->
      parts em true (survivors (same_key bytes_eqb) (clean_values unit_expr em es)) d out).
    { intros hash_one hc S0 E0. destruct (gen_hash_parts usort g _ hc l out HU S0 E0) as [H1 [H2 [H3 H4]]]. constructor; auto; [congruence|].
      rewrite H2. exact P'. }
    destruct (analyze_slice_keys N.eqb _ _) as [[]| |]; cbn [bind] in E; try discriminate; (eapply HG; [|exact E]); cbn; auto.
Qed.

(** The [_expr] forms print the entries as they are. *)
Section Exprs.
Context {KB X W : Type} (em : emitter) (es : list (entry KB X W)) (d : decl) (out : output X W).
Notation string_ctor := (match o_ctor out with CFzString _ => true | _ => false end).

Ltac exprs E := apply finish_parts in E; destruct E as [g [Hg [Hg2 [E HD]]]];
  match type of E with context [Nat.ltb ?a ?b] => destruct (Nat.ltb a b) eqn:EL end; injection E as <-; (split; [constructor; cbn; auto|]); cbn.
Lemma hash_expr_parts : emit_hash_collection_expr em es = Ok (ROk (d, out)) -> parts em false es d out /\ string_ctor = false.
Proof. intros E. exprs E; reflexivity. Qed.
Lemma ordered_expr_parts : emit_ordered_collection_expr em es = Ok (ROk (d, out)) -> parts em false es d out /\ string_ctor = false.
Proof. intros E. exprs E; reflexivity. Qed.
Lemma scalar_expr_parts : emit_scalar_collection_expr em es = Ok (ROk (d, out)) -> parts em false es d out /\ string_ctor = false.
Proof. intros E. exprs E; reflexivity. Qed.
Lemma string_expr_parts : emit_string_collection_expr em es = Ok (ROk (d, out)) ->
  parts em false es d out /\ string_ctor = negb (Nat.ltb (List.length es) 4).
Proof. intros E. exprs E; reflexivity. Qed.
End Exprs.

(** * Emitters *)
Lemma clean_entry {KB X W} unit_expr em (es : list (entry KB X W)) e : In e (clean_values unit_expr em es) ->
  exists e0, In e0 es /\ fst (snd e) = fst (snd e0) /\ snd (snd e) = if em_has_value_type em then snd (snd e0) else unit_expr.
Proof.
  unfold clean_values. destruct (em_has_value_type em); [intros H; exists e; auto|].
  intros H. apply in_map_iff in H. destruct H as [e0 [<- H]]. exists e0. auto.
Qed.

Lemma parts_accepted {U KB X W} as_ref_str (means : U -> ty -> Prop) (key_has : X -> ty -> Prop) (value_has : W -> ty -> Prop)
    (const_key : X -> Prop) (const_value : W -> Prop) complete em ku vu k v
    (unit_expr : W) same (es : list (entry KB X W)) d out :
  value_has unit_expr TUnit -> const_value unit_expr ->
  described means complete key_has value_has const_key const_value em ku vu k v es ->
  parts em true (survivors same (clean_values unit_expr em es)) d out ->
  accepted as_ref_str means key_has value_has const_key const_value complete [] (print_decl (PUser ku) (option_map PUser vu) d out).
Proof.
  intros HU1 HU2 [D1 D2 D3 D4 D5] [P1 P2 P3 P4 P5 P6].
  assert (HS : forall l, o_ctor out <> CFzString l) by (intros l E; rewrite E in P4; discriminate P4).
  apply (decl_accepted as_ref_str means key_has value_has const_key const_value complete _ _ d out k v k).
  - intros env. apply D_user. exact D1.
  - intros env. destruct vu as [u|]; cbn; [apply D_user; apply D2|]. destruct D2 as [_ ->]. apply D_unit.
  - rewrite P2. destruct vu as [u|]; [destruct D2 as [-> _]; discriminate|]. intros _. apply D2.
  - exact P6.
  - exact P5.
  - unfold key_types. destruct (o_ctor out) eqn:E; auto. exfalso. eapply HS; reflexivity.
  - rewrite P3. unfold render. apply Forall_forall. intros x Hx. apply in_map_iff in Hx. destruct Hx as [e [<- He]].
    apply survivors_incl, clean_entry in He. destruct He as [e0 [H0 [E1 E2]]]. unfold entry_ok. rewrite E1, E2.
    destruct (D4 e0 H0) as [K1 K2].
    assert (HX : decl_ctx d = true -> em_const_keys em = true /\ em_const_values em = true).
    { unfold expected_decl in P1. destruct (em_symbol_name em); [|rewrite P1; discriminate]. destruct (em_is_static em); rewrite P1; [|discriminate].
      cbn. destruct (em_const_keys em), (em_const_values em); cbn; auto. }
    split; [exact K1|]. destruct (em_has_value_type em) eqn:EV.
    + destruct (D5 eq_refl e0 H0) as [V1 V2]. split; [exact V1|]. intros C. apply HX in C. destruct C. auto.
    + split; [destruct vu as [u|]; destruct D2 as [F D2]; [discriminate F|subst v; exact HU1]|]. intros C. apply HX in C. destruct C. auto.
  - intros _. exact P4.
  - intros H. assert (HD : em_is_static em = true \/ em_alias_name em <> None).
    { unfold expected_decl in P1. destruct (em_symbol_name em); [|rewrite P1 in H; discriminate]. destruct (em_is_static em); [auto|].
      right. rewrite P1 in H. cbn in H. destruct (em_alias_name em); [congruence|discriminate]. }
    destruct (D3 HD) as [C1 C2]. split; [exact C1|]. destruct vu as [u|]; cbn; auto.
Qed.

(** * Macros *)
Lemma in_survivors {A} (same : A -> A -> bool) l x : In x (survivors same l) <-> exists a b, l = a ++ x :: b /\ existsb (same x) b = false.
Proof.
  induction l as [|y r IH].
  - cbn. split; [tauto|]. intros [a [b [E _]]]. destruct a; discriminate.
  - cbn [survivors]. split.
    + intros H. destruct (existsb (same y) r) eqn:E.
      * apply IH in H. destruct H as [a [b [-> H]]]. exists (y :: a), b. auto.
      * destruct H as [<-|H]; [exists [], r; auto|]. apply IH in H. destruct H as [a [b [-> H]]]. exists (y :: a), b. auto.
    + intros [a [b [E H]]]. destruct a as [|z a]; injection E as <- ->.
      * rewrite H. left; auto.
      * assert (HI : In x (survivors same (a ++ x :: b))) by (apply IH; eauto). destruct (existsb (same y) _); [exact HI|right; exact HI].
Qed.

Lemma mapR_forall2 {A B} (f : A -> result B) : forall l l', mapR f l = ROk l' -> Forall2 (fun a b => f a = ROk b) l l'.
Proof.
  induction l as [|a r IH]; cbn; intros l' E; [injection E as <-; constructor|].
  destruct (f a) eqn:F; [|discriminate]. destruct (mapR f r); [|discriminate]. injection E as <-. constructor; auto.
Qed.

Lemma forall_perm {A} (P : A -> Prop) l l' : Permutation l l' -> Forall P l <-> Forall P l'.
Proof. intros H. split; intros F; [rewrite <- H|rewrite H]; exact F. Qed.

(** survivors of the images *)
Lemma survivors_images {A B} (same : B -> B -> bool) (f : A -> result B) l l' (P : B -> Prop) : mapR f l = ROk l' ->
  Forall P (survivors same l') <->
  forall a x b y, l = a ++ x :: b -> f x = ROk y -> (forall z z', In z b -> f z = ROk z' -> same y z' = false) -> P y.
Proof.
  intros M. apply mapR_forall2 in M. rewrite Forall_forall. split.
  - intros H a x b y -> E HB. apply H. apply in_survivors. apply Forall2_app_inv_l in M. destruct M as [a' [r [_ [M ->]]]].
    inversion M as [|? y' ? b' E' M']; subst. assert (y' = y) by congruence. subst y'. exists a', b'. split; [reflexivity|].
    apply existsb_false_forall. intros z' Hz. clear - M' Hz HB. induction M' as [|z w b b' F M' IH]; [destruct Hz|].
    destruct Hz as [<-|Hz]; [apply (HB z); cbn; auto|]. apply IH; auto. intros u u' Hu. apply HB. right. exact Hu.
  - intros H y Hy. apply in_survivors in Hy. destruct Hy as [a' [b' [-> HB]]]. apply Forall2_app_inv_r in M.
    destruct M as [a [r [_ [M ->]]]]. inversion M as [|x ? b ? E M']; subst. apply (H a x b); auto.
    intros z z' Hz F. rewrite existsb_false_forall in HB. apply HB. clear - M' Hz F. induction M' as [|u w b b' G M' IH]; [destruct Hz|].
    destruct Hz as [->|Hz]; [left; congruence|right; auto].
Qed.

Section Macro.
Context {X W : Type} (usort : forall T : Type, list (N * T) -> list (N * T)) (md : mode) (unit_expr : W) (seed : N)
  (fixed_state : N -> build_hasher) (hash_i32 : N -> scalar_value I32 -> N).
Hypothesis HU : forall T, sorts_by_slot (usort T).
Hypothesis Hseed : seed <= 2 ^ 64 - 1.
Notation fz := (fz_macro (X := X) usort md unit_expr seed fixed_state hash_i32).
Notation value := (entry_value unit_expr).

Definition string_ctor (c : ctor (expr X) W) : bool := match c with CFzString _ => true | _ => false end.

(** what a macro call expands to, as far as types are concerned; [lit] tells whether it was taken to be one with literal
    keys, [key] are the printed keys *)
Record expansion (lit : bool) (key : m_entry X W -> expr X) (is_map : bool) (input : macro_input (X := X) (W := W)) (mk : macro_kind)
    (d : decl) (out : output (expr X) W) : Prop := {
  ex_literal : lit = true <-> literal_call (payload input);
  ex_decl : d = macro_decl input (negb lit);
  ex_set : o_set out = negb is_map;
  ex_const : const_ctor (o_ctor out) = lit;
  ex_literals : literals_ok (o_ctor out);
  ex_compiles : ctor_compiles (o_ctor out) = true;
  ex_strings : string_ctor (o_ctor out) = true <-> large_string_call mk (payload input);
  ex_entries : forall P : expr X * W -> Prop, Forall P (ctor_entries (o_ctor out)) <-> forall e, printed (payload input) e -> P (key e, value e);
  ex_unsuffixed : unsuffixed_call (payload input) -> forall e, In e (payload input) -> exists v, key e = ELit (LitInt v "i32") /\ v <= 2 ^ 31 - 1;
  ex_written : ~ unsuffixed_call (payload input) -> forall e, In e (payload input) -> key e = me_key e;
  ex_dec : unsuffixed_call (payload input) \/ ~ unsuffixed_call (payload input) }.

Lemma clean_same {KB} em (l : list (entry KB (expr X) W)) : (em_has_value_type em = false -> forall e, In e l -> snd (snd e) = unit_expr) ->
  clean_values unit_expr em l = l.
Proof.
  unfold clean_values. destruct (em_has_value_type em); [reflexivity|]. intros H. rewrite <- (map_id l) at 2. apply map_ext_in.
  intros [k [x w]] He. cbn. specialize (H eq_refl _ He). cbn in H. rewrite H. reflexivity.
Qed.

Lemma mapR_in {A B} (f : A -> result B) l l' y : mapR f l = ROk l' -> In y l' -> exists x, In x l /\ f x = ROk y.
Proof.
  intros M. apply mapR_forall2 in M. induction M as [|a b l l' E M IH]; intros H; [destruct H|].
  destruct H as [<-|H]; [exists a; cbn; auto|]. destruct (IH H) as [x [Hx E']]. exists x. cbn. auto.
Qed.

Section Kinds.
Context (is_map : bool) (input : macro_input (X := X) (W := W)) (mk : macro_kind) (d : decl) (out : output (expr X) W).
Notation es := (payload input).
Notation em := (macro_emitter is_map input).
Hypothesis WF : well_formed is_map es.

Lemma set_values e : is_map = false -> In e es -> value e = unit_expr.
Proof.
  intros E He. unfold entry_value. destruct (me_value e) eqn:EV; [|reflexivity]. exfalso. specialize (WF e He). rewrite E, EV in WF.
  destruct WF as [_ F]. discriminate F. discriminate.
Qed.

(** the entries printed for a call with literal keys *)
Lemma literal_printed {KB} (f : m_entry X W -> result (entry KB (expr X) W)) (key : m_entry X W -> expr X) same l (P : expr X * W -> Prop) :
  mapR f es = ROk l -> (forall e y, In e es -> f e = ROk y -> snd y = (key e, value e)) -> literal_call es ->
  (forall e e' y y', In e es -> In e' es -> f e = ROk y -> f e' = ROk y' -> same y y' = true <-> same_literal (me_key e) (me_key e')) ->
  Forall P (render (survivors same (clean_values unit_expr (with_const em true true) l))) <-> forall e, printed es e -> P (key e, value e).
Proof.
  intros M HY HL HS. rewrite clean_same.
  2:{ rewrite macro_value_type. intros E y Hy. destruct (mapR_in _ _ _ _ M Hy) as [e [He F]]. rewrite (HY _ _ He F). cbn. apply set_values; auto. }
  unfold render. rewrite Forall_map, (survivors_images same f es l _ M).
  assert (HF : forall e, In e es -> exists y, f e = ROk y).
  { intros e He. apply mapR_forall2 in M. clear - M He. induction M; [destruct He|]. destruct He as [<-|He]; eauto. }
  split.
  - intros H e [a [b [E HB]]]. specialize (HB HL).
    assert (He : In e es) by (rewrite E; apply in_or_app; right; left; reflexivity).
    destruct (HF e He) as [y F]. rewrite <- (HY _ _ He F). apply (H a e b); auto.
    intros z z' Hz F'. assert (Hz' : In z es) by (rewrite E; apply in_or_app; right; right; exact Hz).
    destruct (same y z') eqn:ES; [|reflexivity]. exfalso. apply (HB z Hz). apply (HS e z y z'); auto.
  - intros H a e b y E F HB.
    assert (He : In e es) by (rewrite E; apply in_or_app; right; left; reflexivity).
    rewrite (HY _ _ He F). apply H. exists a, b. split; [exact E|]. intros _ z Hz ES.
    assert (Hz' : In z es) by (rewrite E; apply in_or_app; right; right; exact Hz).
    destruct (HF z Hz') as [z' F']. apply (HS e z y z') in ES; auto. rewrite (HB z z' Hz F') in ES. discriminate.
Qed.

(** * The kinds of calls *)
Hypothesis NE : es <> [].

Lemma some_entry : exists e, In e es.
Proof. destruct es as [|e r]; [congruence|]. exists e. left. reflexivity. Qed.

Lemma integers_not_strings t : all_integers t es -> ~ some_string es.
Proof. intros [H _] [e [s [He L]]]. destruct (H e He) as [v [u [L' _]]]. congruence. Qed.
Lemma integers_not_string_macro t : acceptable mk es -> all_integers t es -> mk <> MkString.
Proof. intros A [H _] E. destruct some_entry as [e He]. destruct (H e He) as [v [s [L _]]]. exact (acc_no_integers _ _ A E e v s He L). Qed.

Lemma scalar_entry_inv t suffix (e : m_entry X W) v s y : literal_of (me_key e) = Some (LitInt v s) ->
  literal_scalar_entry unit_expr t suffix e = ROk y ->
  proj1_sig (fst y) = Z.of_N v /\ snd y = (new_key suffix e, value e).
Proof.
  intros L E. unfold literal_scalar_entry in E. rewrite (key_lit_literal _ _ L) in E.
  destruct (base10_parse t v) as [k|] eqn:EB; [|discriminate]. injection E as <-. cbn.
  unfold base10_parse in EB. destruct (Bool.bool_dec _ _); [|discriminate]. injection EB as <-. cbn. split; [reflexivity|].
  unfold new_key. rewrite L. reflexivity.
Qed.

Lemma integers_expansion t t' suffix : acceptable mk es -> all_integers t es ->
  (t = Undecided /\ t' = I32 /\ suffix = "i32"%string \/ t <> Undecided /\ t' = t /\ suffix = ""%string) ->
  handle_literal_scalar_keys usort md unit_expr t' em es suffix = Ok (ROk (d, out)) ->
  expansion true (new_key suffix) is_map input mk d out.
Proof.
  intros A HI HT E. unfold handle_literal_scalar_keys in E. destruct (mapR _ es) as [l|] eqn:M; [|discriminate].
  apply emit_scalar_parts in E; [|apply HU|apply builtin_lawful_scalar]. destruct E as [P1 P2 P3 P4 P5 P6].
  assert (HL : forall e, In e es -> exists v s, literal_of (me_key e) = Some (LitInt v s)).
  { intros e He. destruct (proj1 HI e He) as [v [s [L _]]]. eauto. }
  assert (HC : literal_call es) by (right; exists t; exact HI).
  constructor.
  - tauto.
  - apply (macro_decls _ _ _ _ _ P1).
  - rewrite P2, macro_value_type. reflexivity.
  - exact P4.
  - exact P5.
  - exact P6.
  - split; [intros F; destruct (o_ctor out); try discriminate F; discriminate P4|].
    intros [_ [[F|F] _]]; exfalso; [exact (integers_not_strings _ HI F)|exact (integers_not_string_macro _ A HI F)].
  - intros P. rewrite (forall_perm P _ _ P3). apply (literal_printed (literal_scalar_entry unit_expr t' suffix)); auto.
    + intros e y He F. destruct (HL e He) as [v [s L]]. apply (scalar_entry_inv _ _ _ _ _ _ L F).
    + intros e e' y y' He He' F F'. destruct (HL e He) as [v [s L]], (HL e' He') as [v' [s' L']].
      destruct (scalar_entry_inv _ _ _ _ _ _ L F) as [K1 _], (scalar_entry_inv _ _ _ _ _ _ L' F') as [K1' _].
      unfold same_literal. rewrite L, L'. unfold same_key, same_idx.
      pose proof (idx_cmp_law _ _ (builtin_lawful_scalar (int_type_of t')) (fst y) (fst y')) as HCmp. cbv beta in HCmp. rewrite K1, K1' in HCmp.
      rewrite N.eqb_eq, <- N.compare_eq_iff, <- HCmp, Z.compare_eq_iff. lia.
  - intros [_ HI'] e He. destruct HT as [[_ [-> ->]]|[F [-> ->]]].
    + destruct (proj1 HI' e He) as [v [s [L Hs]]]. exists v. assert (s = ""%string) as -> by (destruct Hs as [|Hs]; [auto|apply suffix_inj in Hs; exact Hs]).
      split; [unfold new_key; rewrite L; reflexivity|].
      assert (HF : exists y, literal_scalar_entry unit_expr I32 "i32" e = ROk y).
      { apply mapR_forall2 in M. clear - M He. induction M; [destruct He|]. destruct He as [<-|He]; eauto. }
      destruct HF as [y F]. unfold literal_scalar_entry in F. rewrite (key_lit_literal _ _ L) in F.
      destruct (base10_parse I32 v) as [k|] eqn:EB; [|discriminate]. unfold base10_parse in EB.
      destruct (Bool.bool_dec _ _) as [HB|]; [|discriminate]. unfold in_type in HB. cbn in HB. lia.
    + exfalso. destruct HI as [_ H2]. destruct (H2 F) as [e0 [v [s [He0 [L Hs]]]]]. destruct (proj1 HI' e0 He0) as [v' [s' [L' Hs']]].
      rewrite L in L'. injection L' as <- <-. apply F. apply (suffix_fun s); [exact Hs|]. destruct Hs' as [->|Hs']; [|exact Hs'].
      apply suffix_inj. reflexivity.
  - intros NU e He. destruct HT as [[-> [-> ->]]|[F [-> ->]]]; [exfalso; apply NU; split; auto|]. reflexivity.
  - destruct HT as [[-> _]|[F _]]; [left; split; auto|right]. intros [_ HI']. destruct HI as [_ H2].
    destruct (H2 F) as [e0 [v [s [He0 [L Hs]]]]]. destruct (proj1 HI' e0 He0) as [v' [s' [L' Hs']]].
    rewrite L in L'. injection L' as <- <-. apply F. apply (suffix_fun s); [exact Hs|]. destruct Hs' as [->|Hs']; [|exact Hs'].
    apply suffix_inj. reflexivity.
Qed.

Lemma strings_expansion : all_strings es ->
  handle_literal_string_keys usort unit_expr seed fixed_state em es = Ok (ROk (d, out)) ->
  expansion true me_key is_map input mk d out.
Proof.
  intros HS E. unfold handle_literal_string_keys in E. destruct (mapR _ es) as [l|] eqn:M; [|discriminate].
  apply emit_string_parts in E; [|apply HU|exact Hseed]. destruct E as [P1 P2 P3 P4 P5 P6].
  assert (HC : literal_call es) by (left; exact HS).
  assert (HE : forall (e : m_entry X W) s y, literal_of (me_key e) = Some (LitStr s) -> literal_string_entry unit_expr e = ROk y -> y = (s, (me_key e, value e))).
  { intros e s y L F. unfold literal_string_entry in F. rewrite (key_lit_literal _ _ L) in F. injection F as <-. reflexivity. }
  constructor.
  - tauto.
  - apply (macro_decls _ _ _ _ _ P1).
  - rewrite P2, macro_value_type. reflexivity.
  - exact P4.
  - exact P5.
  - exact P6.
  - split; [intros F; destruct (o_ctor out); try discriminate F; discriminate P4|]. intros [F _]. contradiction.
  - intros P. rewrite (forall_perm P _ _ P3). apply (literal_printed (literal_string_entry unit_expr)); auto.
    + intros e y He F. destruct (HS e He) as [s L]. rewrite (HE _ _ _ L F). reflexivity.
    + intros e e' y y' He He' F F'. destruct (HS e He) as [s L], (HS e' He') as [s' L'].
      rewrite (HE _ _ _ L F), (HE _ _ _ L' F'). unfold same_literal. rewrite L, L'. unfold same_key. cbn. apply bytes_eqb_eq.
  - intros [_ HI] e He. destruct (HS e He) as [s L]. destruct (proj1 HI e He) as [v [u [L' _]]]. congruence.
  - reflexivity.
  - right. intros [_ HI]. destruct some_entry as [e He]. destruct (HS e He) as [s L]. destruct (proj1 HI e He) as [v [u [L' _]]]. congruence.
Qed.

Lemma expressions_expansion : ~ literal_call es ->
  parts (with_const em false false) false (map (non_literal_entry unit_expr) es) d out ->
  (string_ctor (o_ctor out) = true <-> large_string_call mk es) ->
  expansion false me_key is_map input mk d out.
Proof.
  intros NL [P1 P2 P3 P4 P5 P6] HS. constructor.
  - split; [discriminate|contradiction].
  - apply (macro_decls _ _ _ _ _ P1).
  - rewrite P2, macro_value_type. reflexivity.
  - exact P4.
  - exact P5.
  - exact P6.
  - exact HS.
  - intros P. rewrite (forall_perm P _ _ P3). unfold render. rewrite map_map. cbn [non_literal_entry snd]. rewrite Forall_map, Forall_forall. split.
    + intros H e [a [b [E _]]]. apply H. rewrite E. apply in_or_app. right. left. reflexivity.
    + intros H e He. apply H. apply in_split in He. destruct He as [a [b E]]. exists a, b. split; [exact E|contradiction].
  - intros [_ HI]. exfalso. apply NL. right. eauto.
  - reflexivity.
  - right. intros [_ HI]. apply NL. right. eauto.
Qed.

Lemma nonempty_expansion : fz is_map input mk = Ok (ROk (d, out)) -> exists lit key, expansion lit key is_map input mk d out.
Proof.
  intros E. rewrite fz_process in E. destruct (assess_keys es mk) as [kind|] eqn:EA.
  2:{ exfalso. destruct es as [|e0 r]; [congruence|]. unfold process in E. rewrite EA in E. discriminate E. }
  rewrite (process_nonempty _ _ _ _ _ _ _ _ _ _ NE EA) in E. pose proof (selected mk es kind NE EA) as HK.
  assert (A : acceptable mk es) by (apply assess_accepts; eauto).
  destruct some_entry as [e0 He0].
  assert (SI : forall t, all_integers t es -> some_integer es) by (intros t [H _]; destruct (H e0 He0) as [v [s [L _]]]; exists e0, v, s; auto).
  assert (SS : all_strings es -> some_string es) by (intros H; destruct (H e0 He0) as [s L]; exists e0, s; auto).
  destruct kind as [t| | | | |]; cbn [kind_selected] in HK.
  - exists true. destruct t; try (eexists; eapply (integers_expansion _ _ _ A HK); [right; split; [discriminate|split; reflexivity]|exact E]).
    eexists. eapply (integers_expansion _ _ _ A HK); [left; auto|exact E].
  - destruct HK as [H1 [H2 H3]]. exists false, me_key. apply scalar_expr_parts in E. destruct E as [E S0].
    apply expressions_expansion; [intros [F|[t F]]; [apply H2; auto|apply (H1 t F)]|exact E|].
    split; [unfold string_ctor; rewrite S0; discriminate|]. intros [_ [[F|F] _]]; [contradiction|]. exfalso.
    destruct H3 as [[e [v [s [He L]]]]|H3]; [exact (acc_no_integers _ _ A F e v s He L)|congruence].
  - exists true, me_key. apply strings_expansion; auto.
  - destruct HK as [H1 H2]. exists false, me_key. apply string_expr_parts in E. destruct E as [E S0].
    apply expressions_expansion; [intros [F|[t F]]; [contradiction|]|exact E|].
    + destruct H2 as [H2|H2]; [exact (integers_not_strings _ F H2)|exact (integers_not_string_macro _ A F H2)].
    + unfold string_ctor. rewrite S0, map_length, Bool.negb_true_iff, Nat.ltb_ge. unfold large_string_call. tauto.
  - destruct HK as [H1 H2]. exists false, me_key. apply hash_expr_parts in E. destruct E as [E S0].
    apply expressions_expansion; [|exact E|].
    + intros [F|[t F]]; [apply SS in F|apply SI in F]; destruct F as [e F]; repeat match goal with H : exists _, _ |- _ => destruct H end;
        match goal with H : _ /\ _ |- _ => destruct H as [He L] end; rewrite (H2 e He) in L; discriminate.
    + split; [unfold string_ctor; rewrite S0; discriminate|]. intros [_ [[[e [s [He L]]]|F] _]]; [rewrite (H2 e He) in L; discriminate|congruence].
  - destruct HK as [H1 H2]. exists false, me_key. apply ordered_expr_parts in E. destruct E as [E S0].
    apply expressions_expansion; [|exact E|].
    + intros [F|[t F]]; [apply SS in F|apply SI in F]; destruct F as [e F]; repeat match goal with H : exists _, _ |- _ => destruct H end;
        match goal with H : _ /\ _ |- _ => destruct H as [He L] end; rewrite (H2 e He) in L; discriminate.
    + split; [unfold string_ctor; rewrite S0; discriminate|]. intros [_ [[[e [s [He L]]]|F] _]]; [rewrite (H2 e He) in L; discriminate|congruence].
Qed.
End Kinds.

Lemma macro_expansion is_map input mk d out : well_formed is_map (payload input) -> fz is_map input mk = Ok (ROk (d, out)) ->
  exists lit key, expansion lit key is_map input mk d out.
Proof.
  intros WF E. destruct (payload input) as [|e0 r] eqn:EP.
  - rewrite fz_process, EP in E. unfold process in E. destruct (em_inferred_key_type _); [discriminate|].
    rewrite (emit_hash_nil _ _ _ _ (fun _ _ => 0)) in E.
    apply emit_hash_parts in E; [|apply HU|exact Hseed| |].
    + destruct E as [P1 P2 P3 P4 P5 P6]. exists true, me_key. constructor; rewrite ?EP.
      * split; auto. intros _. left. intros e [].
      * apply (macro_decls _ _ _ _ _ P1).
      * rewrite P2, macro_value_type. reflexivity.
      * exact P4.
      * exact P5.
      * exact P6.
      * split; [intros F; destruct (o_ctor out); try discriminate F; discriminate P4|]. intros [_ [_ F]]. cbn in F. lia.
      * intros P. rewrite (forall_perm P _ _ P3). unfold clean_values. destruct (em_has_value_type _); cbn; (split; [intros _ e [a [b [F _]]]; destruct a; discriminate F|constructor]).
      * intros [F _]. congruence.
      * intros _ e [].
      * right. intros [F _]. congruence.
    + constructor; intros; rewrite ?Z.eqb_eq in *; try lia.
    + intros a b _. reflexivity.
  - apply nonempty_expansion; [rewrite EP; exact WF|rewrite EP; discriminate|exact E].
Qed.

(** * Which calls type check *)
Section Check.
Context {U : Type} (as_ref_str : ty -> Prop) (means : U -> ty -> Prop) (expr_has : X -> ty -> Prop) (value_has : W -> ty -> Prop)
  (const_expr : X -> Prop) (const_value : W -> Prop) (complete : U -> Prop).
Hypothesis unit_type : value_has unit_expr TUnit.
Hypothesis unit_const : const_value unit_expr.
Context (is_map : bool) (input : macro_input (X := X) (W := W)) (mk : macro_kind) (d : decl) (out : output (expr X) W).
Notation es := (payload input).
Hypothesis WF : well_formed is_map es.
Hypothesis E : fz is_map input mk = Ok (ROk (d, out)).
Context (KT : pty U) (VT : option (pty U)).
Notation accepted := (accepted as_ref_str means (written_has expr_has) value_has (written_const const_expr) const_value complete).
Notation type_checks := (type_checks as_ref_str expr_has value_has const_value mk input).

Lemma literal_const e : literal_call es -> In e es -> written_const const_expr (me_key e).
Proof.
  intros HL He. assert (L : exists l, literal_of (me_key e) = Some l).
  { destruct HL as [HL|[t HL]]; [destruct (HL e He) as [s L]|destruct (proj1 HL e He) as [v [s [L _]]]]; eauto. }
  destruct L as [l L]. destruct (key_form _ _ L) as [->| ->]; exact I.
Qed.
Lemma printed_in e : printed es e -> In e es.
Proof. intros [a [b [-> _]]]. apply in_or_app. right. left. reflexivity. Qed.
Lemma unsuffixed_literal : unsuffixed_call es -> literal_call es.
Proof. intros [_ H]. right. eauto. Qed.
Lemma static_ctx lit : decl_ctx (macro_decl input (negb lit)) = true <-> static_call input /\ lit = true.
Proof. destruct input as [p|n t p vis [|] m], lit; cbn; intuition discriminate. Qed.
Lemma item_typed lit : decl_item (macro_decl input lit) = typed input.
Proof. destruct input as [p|n t p vis [|] m]; reflexivity. Qed.

Lemma macro_forward k v : (forall env, denotes means env KT k) -> (forall env, denotes means env (g_value_type VT) v) -> (is_map = false -> v = TUnit) ->
  (typed input = true -> spelled_out complete KT /\ spelled_out complete (g_value_type VT)) -> type_checks k v ->
  accepted [] (print_decl KT VT d out).
Proof.
  intros HK HV HS HC [T1 T2 T3 T4]. destruct (macro_expansion _ _ _ _ _ WF E) as [lit [key [X1 X2 X3 X4 X5 X6 X7 X8 X9 X10 X11]]].
  assert (HKT : exists k', key_types as_ref_str (o_ctor out) k k' /\ forall e, printed es e -> written_has expr_has (key e) k').
  { destruct (string_ctor (o_ctor out)) eqn:ES.
    - pose proof (proj1 X7 eq_refl) as HL. destruct (T2 HL) as [-> [k' [A1 A2]]]. exists k'. split.
      + destruct (o_ctor out); try discriminate ES. cbn. auto.
      + intros e He. apply printed_in in He. rewrite X10; auto. intros F. apply unsuffixed_literal, X1 in F.
        destruct (o_ctor out); try discriminate ES. rewrite F in X4. discriminate X4.
    - exists k. split; [destruct (o_ctor out); try discriminate ES; reflexivity|]. intros e He. destruct X11 as [F|F].
      + destruct (X9 F e (printed_in e He)) as [n [-> HN]]. rewrite (T1 F). cbn. exists "i32"%string, (2 ^ 31 - 1).
        split; [find_in|]. auto.
      + rewrite X10 by (auto using printed_in). apply T3; auto. intros G. apply X7 in G. discriminate. }
  destruct HKT as [k' [HK' HE]].
  assert (HCX : decl_ctx d = true -> static_call input /\ lit = true) by (rewrite X2; apply static_ctx).
  apply (decl_accepted as_ref_str means _ _ _ _ complete KT VT d out k v k'); auto.
  - rewrite X3. intros F. apply HS. destruct is_map; [discriminate|reflexivity].
  - apply X8. intros e He. unfold entry_ok. cbn [fst snd]. split; [apply HE; exact He|].
    assert (HI : In e es) by (apply printed_in; exact He).
    assert (HCK : decl_ctx d = true -> written_const const_expr (key e)).
    { intros C. destruct (HCX C) as [_ C2]. destruct X11 as [F|F]; [destruct (X9 F e HI) as [n [-> _]]; exact I|].
      rewrite X10 by auto. apply literal_const; [apply X1; exact C2|exact HI]. }
    unfold entry_value. destruct (me_value e) as [w|] eqn:EV.
    + destruct (T4 e w He EV) as [V1 V2]. split; [exact V1|]. intros C. split; [auto|]. apply V2; [apply HCX; exact C|apply X1; apply HCX; exact C].
    + split; [|auto]. assert (is_map = false) as F.
      { destruct is_map; [|reflexivity]. exfalso. apply (proj1 (WF e HI) eq_refl). exact EV. }
      rewrite (HS F). exact unit_type.
  - intros C. rewrite X4. apply HCX. exact C.
  - rewrite X2, item_typed. exact HC.
Qed.

Lemma last_printed : es <> [] -> exists e, printed es e.
Proof.
  intros NE. destruct (exists_last NE) as [a [e H]]. exists e, a, []. split; [exact H|]. intros _ e' [].
Qed.

Lemma macro_backward : accepted [] (print_decl KT VT d out) ->
  exists env k v, denotes means env KT k /\ denotes means env (g_value_type VT) v /\ type_checks k v.
Proof.
  intros H. destruct (macro_expansion _ _ _ _ _ WF E) as [lit [key [X1 X2 X3 X4 X5 X6 X7 X8 X9 X10 X11]]].
  apply decl_inv in H. destruct H as [env [k [v [k' [H1 [H2 [H3 [H4 H5]]]]]]]]. exists env, k, v. split; [exact H1|]. split; [exact H2|].
  rewrite X8 in H4.
  assert (HCX : static_call input -> literal_call es -> decl_ctx d = true) by (rewrite X2; intros S0 L; apply static_ctx; split; [exact S0|apply X1; exact L]).
  assert (HNS : string_ctor (o_ctor out) = false -> k' = k).
  { intros F. unfold key_types in H3. destruct (o_ctor out); try discriminate F; exact H3. }
  constructor.
  - intros F. assert (k' = k) as <-.
    { apply HNS. apply unsuffixed_literal, X1 in F. rewrite F in X4. destruct (o_ctor out); try reflexivity. discriminate X4. }
    destruct (last_printed (proj1 F)) as [e He]. destruct (H4 e He) as [K1 _]. cbn [fst] in K1.
    destruct (X9 F e (printed_in e He)) as [n [EK _]]. rewrite EK in K1. cbn in K1. destruct K1 as [name [max [_ [-> [_ [F'|F']]]]]]; [discriminate|].
    rewrite <- F'. reflexivity.
  - intros F. pose proof (proj2 X7 F) as ES. unfold key_types in H3. destruct (o_ctor out); try discriminate ES. destruct H3 as [-> A].
    split; [reflexivity|]. exists k'. split; [exact A|]. intros e He.
    assert (NL : ~ literal_call es) by (intros L; apply X1 in L; rewrite L in X4; discriminate X4).
    rewrite <- X10; [|intros G; apply NL, unsuffixed_literal, G|exact He]. apply (H4 e).
    apply in_split in He. destruct He as [a [b EE]]. exists a, b. split; [exact EE|]. intros L. contradiction.
  - intros NU NL e He. assert (k' = k) as <-.
    { apply HNS. destruct (string_ctor (o_ctor out)) eqn:ES; [|reflexivity]. exfalso. apply NL, X7. reflexivity. }
    destruct (H4 e He) as [K1 _]. cbn [fst] in K1. rewrite X10 in K1; auto using printed_in.
  - intros e w He EV. destruct (H4 e He) as [_ [V1 V2]]. cbn [fst snd] in V1, V2. unfold entry_value in V1, V2. rewrite EV in V1, V2.
    split; [exact V1|]. intros S0 L. apply V2. apply HCX; auto.
Qed.
End Check.

Lemma long_form_checks {U} as_ref_str (means : U -> ty -> Prop) (expr_has : X -> ty -> Prop) (value_has : W -> ty -> Prop)
    (const_expr : X -> Prop) (const_value : W -> Prop) (complete : U -> Prop) is_map input mk d out (ku vu : U) k v :
  value_has unit_expr TUnit -> const_value unit_expr -> well_formed is_map (payload input) -> typed input = true ->
  fz is_map input mk = Ok (ROk (d, out)) ->
  (forall t, means ku t <-> t = k) -> complete ku -> (is_map = true -> (forall t, means vu t <-> t = v) /\ complete vu) ->
  accepted as_ref_str means (written_has expr_has) value_has (written_const const_expr) const_value complete []
    (print_decl (macro_key_type input ku) (ModelTypes.macro_value_type is_map input vu) d out) <->
  type_checks as_ref_str expr_has value_has const_value mk input k v.
Proof.
  intros U1 U2 WF T E HK CK HV. destruct input as [p|n t p vis st m]; [discriminate T|].
  set (input := LongForm n t p vis st m) in *. unfold macro_key_type, ModelTypes.macro_value_type. cbn [input]. split.
  - intros H. apply (macro_backward as_ref_str means expr_has value_has const_expr const_value complete is_map input mk d out WF E) in H.
    destruct H as [env [k0 [v0 [H1 [H2 [T1 T2 T3 T4]]]]]]. inversion H1; subst. match goal with A : means ku _ |- _ => apply HK in A; subst k0 end.
    constructor; auto. intros e w He EV.
    assert (is_map = true) as F by (apply (WF e); [apply (printed_in input); exact He|congruence]).
    rewrite F in H2. destruct (HV F) as [HV1 _]. cbn in H2. inversion H2; subst. match goal with A : means vu _ |- _ => apply HV1 in A; subst v0 end.
    apply (T4 e); auto.
  - intros [T1 T2 T3 T4].
    apply (macro_forward as_ref_str means expr_has value_has const_expr const_value complete U1 U2 is_map input mk d out WF E
      (PUser ku) (if is_map then Some (PUser vu) else None) k (if is_map then v else TUnit)).
    + intros env. apply D_user, HK. reflexivity.
    + intros env. destruct is_map; cbn; [apply D_user; apply HV; auto|apply D_unit].
    + intros ->. reflexivity.
    + intros _. split; [exact CK|]. destruct is_map; cbn; [apply HV; reflexivity|exact I].
    + constructor; auto. intros e w He EV.
      assert (is_map = true) as F by (apply (WF e); [apply (printed_in input); exact He|congruence]). rewrite F. apply (T4 e); auto.
Qed.

Lemma short_form_checks {U} as_ref_str (means : U -> ty -> Prop) (expr_has : X -> ty -> Prop) (value_has : W -> ty -> Prop)
    (const_expr : X -> Prop) (const_value : W -> Prop) (complete : U -> Prop) is_map input mk d out (ku vu : U) :
  value_has unit_expr TUnit -> const_value unit_expr -> well_formed is_map (payload input) -> typed input = false ->
  fz is_map input mk = Ok (ROk (d, out)) ->
  accepted as_ref_str means (written_has expr_has) value_has (written_const const_expr) const_value complete []
    (print_decl (macro_key_type input ku) (ModelTypes.macro_value_type is_map input vu) d out) <->
  exists k v, type_checks as_ref_str expr_has value_has const_value mk input k v.
Proof.
  intros U1 U2 WF T E. destruct input as [p|n t p vis st m]; [|discriminate T].
  set (input := ShortForm p) in *. unfold macro_key_type, ModelTypes.macro_value_type. cbn [input]. split.
  - intros H. apply (macro_backward as_ref_str means expr_has value_has const_expr const_value complete is_map input mk d out WF E) in H.
    destruct H as [env [k0 [v0 [H1 [H2 H3]]]]]. eauto.
  - intros [k [v [T1 T2 T3 T4]]].
    apply (macro_forward as_ref_str means expr_has value_has const_expr const_value complete U1 U2 is_map input mk d out WF E
      PInfer (if is_map then Some PInfer else None) k (if is_map then v else TUnit)).
    + intros env. apply D_infer.
    + intros env. destruct is_map; cbn; [apply D_infer|apply D_unit].
    + intros ->. reflexivity.
    + discriminate.
    + constructor; auto. intros e w He EV.
      assert (is_map = true) as F by (apply (WF e); [apply (printed_in input); exact He|congruence]). rewrite F. apply (T4 e); auto.
Qed.
End Macro.
