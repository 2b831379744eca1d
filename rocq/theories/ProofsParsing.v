(** Lemmas about macro parsing. *)
From Coq Require Import String ZArith.
From Verif Require Import ModelUtils ModelAnalyzers ModelTables ModelMaps ModelScalar ModelEmit ModelMacros ModelParsing
  Spec SpecEmit SpecMade SpecMacros SpecParsing ProofsBase ProofsEmit ProofsScalarIndex ProofsMacros.
From Verif Require Import Prelude.

Lemma parse_punct_sep c t r : sep c t -> parse_punct c (t :: r) = ROk r.
Proof. intros [j ->]. cbn. rewrite String.eqb_refl. reflexivity. Qed.
Lemma parse_punct_inv c ts r : parse_punct c ts = ROk r -> exists t, sep c t /\ ts = t :: r.
Proof.
  unfold parse_punct. destruct ts as [|[| c' j| |] ts]; try discriminate. destruct (String.eqb_spec c' c); [|discriminate].
  intros H. injection H as <-. subst. exists (TPunct c j). split; [exists j|]; reflexivity.
Qed.
Lemma names_keywords s : names s <-> ~ In s keywords.
Proof.
  assert (A : forall l l' : list string, forallb (fun x => existsb (String.eqb x) l') l = true -> In s l -> In s l').
  { intros l l' H I. rewrite forallb_forall in H. apply H, existsb_exists in I. destruct I as [x [I E]]. apply String.eqb_eq in E. subst. exact I. }
  unfold names. split; intros H C; apply H; revert C; apply A; vm_compute; reflexivity.
Qed.
Lemma parse_ident_name s r : names s -> parse_ident (kw s :: r) = ROk (s, r).
Proof.
  intros H. unfold parse_ident, kw. destruct (existsb (String.eqb s) keywords) eqn:E; [|reflexivity].
  apply existsb_exists in E. destruct E as [x [Hx E]]. apply String.eqb_eq in E. subst. apply names_keywords in H. destruct (H Hx).
Qed.
Lemma parse_ident_inv ts s r : parse_ident ts = ROk (s, r) -> names s /\ ts = kw s :: r.
Proof.
  unfold parse_ident. destruct ts as [|[s'| | |] ts]; try discriminate. destruct (existsb (String.eqb s') keywords) eqn:E; [discriminate|].
  intros H. injection H as <- <-. split; [|reflexivity]. apply names_keywords. intros H.
  assert (existsb (String.eqb s') keywords = true) by (apply existsb_exists; exists s'; split; [exact H|apply String.eqb_refl]). congruence.
Qed.
Lemma peek_inv k ts : peek_kw k ts = true -> exists r, ts = kw k :: r.
Proof. unfold peek_kw. destruct ts as [|[s| | |] r]; try discriminate. intros H. apply String.eqb_eq in H. subst. exists r. reflexivity. Qed.
Lemma peek_here k r : peek_kw k (kw k :: r) = true.
Proof. apply String.eqb_refl. Qed.
Lemma parse_kw_here k r : parse_kw k (kw k :: r) = ROk r.
Proof. unfold parse_kw. cbn. rewrite String.eqb_refl. reflexivity. Qed.
Lemma braced_inv ts c r : braced ts = ROk (c, r) -> ts = TGroup Brace c :: r.
Proof. unfold braced. destruct ts as [|[| | |[] c'] r']; try discriminate. intros H. injection H as <- <-. reflexivity. Qed.

Lemma restriction_inv c : restriction c = true ->
  (exists s, In s ["crate"; "self"; "super"]%string /\ c = [kw s]) \/ exists first path, c = kw "in" :: first :: path.
Proof.
  destruct c as [|[s| | |] [|t c]]; cbn; try discriminate; intros H.
  - left. exists s. split; [|reflexivity]. apply orb_prop in H. destruct H as [H|H]; [apply orb_prop in H; destruct H as [H|H]|];
      apply String.eqb_eq in H; subst; cbn; auto.
  - right. apply String.eqb_eq in H. subst. exists t, c. reflexivity.
Qed.
Lemma visibility_inv ts v r : parse_visibility ts = (v, r) -> ts = v ++ r /\ is_visibility v.
Proof.
  unfold parse_visibility. destruct ts as [|[s| | |] ts]; try (intros H; injection H as <- <-; split; [reflexivity|left; reflexivity]).
  destruct (String.eqb_spec s "pub"); [subst|intros H; injection H as <- <-; split; [reflexivity|left; reflexivity]].
  assert (D : forall x y, ([TIdent "pub"], ts) = (x, y) -> TIdent "pub" :: ts = x ++ y /\ is_visibility x).
  { intros x y H. injection H as <- <-. split; [reflexivity|right; left; reflexivity]. }
  destruct ts as [|[| | |[] c] ts']; try apply D. destruct (restriction c) eqn:E; [|apply D].
  intros H. injection H as <- <-. split; [reflexivity|]. right; right. apply restriction_inv in E.
  destruct E as [[s [Hs ->]]|[f [p ->]]]; [left; exists s; split; [exact Hs|reflexivity]|right; exists f, p; reflexivity].
Qed.
Lemma visibility_static v r : is_visibility v -> parse_visibility (v ++ kw "static" :: r) = (v, kw "static" :: r).
Proof.
  intros [->|[->|[[s [Hs ->]]|[f [p ->]]]]]; try reflexivity.
  cbn in Hs. destruct Hs as [<-|[<-|[<-|[]]]]; reflexivity.
Qed.

Section Grammar.
Context {X T : Type} (is_expr : list token -> expr X -> Prop) (is_type : list token -> T -> Prop)
  (parse_expr : list token -> result (expr X * list token)) (parse_type : list token -> result (T * list token)).
Hypothesis PE : expr_parser is_expr parse_expr.
Hypothesis PT : type_parser is_type parse_type.

Lemma entry_sound is_map ts e r : (if is_map : bool then parse_entry parse_expr else parse_set_entry parse_expr) ts = ROk (e, r) ->
  exists front, ts = front ++ r /\ is_entry is_expr false is_map front e.
Proof.
  destruct is_map; unfold parse_entry, parse_set_entry.
  - destruct (parse_expr ts) as [[k t1]|] eqn:E1; [|discriminate]. destruct (parse_punct ":" t1) as [t2|] eqn:E2; [|discriminate].
    destruct (parse_expr t2) as [[v t3]|] eqn:E3; [|discriminate]. intros H. injection H as <- <-.
    apply (ep_sound _ _ PE) in E1. destruct E1 as [f1 [-> H1]]. apply parse_punct_inv in E2. destruct E2 as [c [Hc ->]].
    apply (ep_sound _ _ PE) in E3. destruct E3 as [f2 [-> H2]]. exists (f1 ++ c :: f2). split; [rewrite <- app_assoc; reflexivity|].
    constructor; try assumption. discriminate.
  - destruct (parse_expr ts) as [[k t1]|] eqn:E1; [|discriminate]. intros H. injection H as <- <-.
    apply (ep_sound _ _ PE) in E1. destruct E1 as [f1 [-> H1]]. exists f1. split; [reflexivity|]. constructor. exact H1.
Qed.
Lemma entry_nonempty s is_map ts e : is_entry is_expr s is_map ts e -> ts <> [].
Proof.
  intros H. destruct H as [ks k c vs v H1 H2 H3 H4|ks k H1].
  - destruct ks; discriminate.
  - intros ->. exact (ep_nonempty _ _ PE _ H1).
Qed.
Lemma after_comma c r : sep "," c -> after_expr (c :: r).
Proof. intros [j ->]. right. split; [exists r, j; left; reflexivity|]. intros [r' [j' H]]. discriminate. Qed.
Lemma entry_complete is_map ts e r : is_entry is_expr true is_map ts e -> r = [] \/ (exists c r', sep "," c /\ r = c :: r') ->
  (if is_map : bool then parse_entry parse_expr else parse_set_entry parse_expr) (ts ++ r) = ROk (e, r).
Proof.
  intros H R. assert (A : after_expr r) by (destruct R as [->|[c [r' [Hc ->]]]]; [left; reflexivity|apply after_comma, Hc]).
  destruct H as [ks k c vs v H1 H2 H3 H4|ks k H1]; unfold parse_entry, parse_set_entry.
  - rewrite <- app_assoc, (ep_complete _ _ PE _ _ _ H1).
    + rewrite <- app_comm_cons, (parse_punct_sep _ _ _ H3), (ep_complete _ _ PE _ _ _ H2 A). reflexivity.
    + right. destruct H3 as [j ->]. split; [exists (vs ++ r), j; right; reflexivity|]. intros [r' [j' E]].
      cbn in E. injection E as -> E. apply H4; [reflexivity|]. destruct vs as [|t vs]; [destruct (ep_nonempty _ _ PE _ H2)|].
      cbn in E. injection E as -> _. exists vs, j'. reflexivity.
  - rewrite (ep_complete _ _ PE _ _ _ H1 A). reflexivity.
Qed.

Lemma payload_sound is_map fuel ts es :
  parse_terminated_loop (if is_map : bool then parse_entry parse_expr else parse_set_entry parse_expr) fuel ts = ROk es ->
  is_payload is_expr false is_map ts es.
Proof.
  revert ts es. induction fuel as [|fuel IH]; intros ts es; cbn [parse_terminated_loop].
  - destruct ts; [|discriminate]. intros H. injection H as <-. constructor.
  - destruct ts as [|t ts]; [intros H; injection H as <-; constructor|].
    destruct ((if is_map then _ else _) (t :: ts)) as [[v r]|] eqn:E; [|discriminate].
    apply entry_sound in E. destruct E as [f [E Hf]]. rewrite E. destruct r as [|t' r].
    + intros H. injection H as <-. rewrite app_nil_r. constructor. exact Hf.
    + destruct (parse_punct "," (t' :: r)) as [r'|] eqn:E2; [|discriminate]. apply parse_punct_inv in E2. destruct E2 as [c [Hc ->]].
      destruct (parse_terminated_loop _ fuel r') as [vs|] eqn:E3; [|discriminate]. intros H. injection H as <-.
      constructor; auto.
Qed.
Lemma payload_complete is_map ts es : is_payload is_expr true is_map ts es -> forall fuel, (List.length ts < fuel)%nat ->
  parse_terminated_loop (if is_map : bool then parse_entry parse_expr else parse_set_entry parse_expr) fuel ts = ROk es.
Proof.
  induction 1 as [|ts e He|ts e c r es He Hc Hr IH]; intros fuel F; (destruct fuel as [|fuel]; [lia|]); cbn [parse_terminated_loop].
  - reflexivity.
  - pose proof (entry_complete _ _ _ [] He (or_introl eq_refl)) as E. rewrite app_nil_r in E. rewrite E.
    pose proof (entry_nonempty _ _ _ _ He). destruct ts; [congruence|reflexivity].
  - pose proof (entry_complete _ _ _ (c :: r) He (or_intror (ex_intro _ c (ex_intro _ r (conj Hc eq_refl))))) as E. rewrite E.
    pose proof (entry_nonempty _ _ _ _ He). destruct ts as [|t ts]; [congruence|]. cbn [app].
    rewrite (parse_punct_sep _ _ _ Hc), IH; [reflexivity|]. rewrite app_length in F. cbn in F. lia.
Qed.

Lemma pay_sound is_map ts es r : (if is_map : bool then parse_map_payload parse_expr else parse_set_payload parse_expr) ts = ROk (es, r) ->
  exists content, ts = TGroup Brace content :: r /\ is_payload is_expr false is_map content es.
Proof.
  intros H. assert (E : exists content, ts = TGroup Brace content :: r /\
    parse_terminated (if is_map then parse_entry parse_expr else parse_set_entry parse_expr) content = ROk es).
  { destruct is_map; unfold parse_map_payload, parse_set_payload in H;
      (destruct (braced ts) as [[c t]|] eqn:B; [|discriminate]; apply braced_inv in B;
       destruct (parse_terminated _ c) as [es'|] eqn:P; [|discriminate]; injection H as <- <-; exists c; split; assumption). }
  destruct E as [c [-> P]]. exists c. split; [reflexivity|]. exact (payload_sound _ _ _ _ P).
Qed.
Lemma pay_complete is_map content es r : is_payload is_expr true is_map content es ->
  (if is_map : bool then parse_map_payload parse_expr else parse_set_payload parse_expr) (TGroup Brace content :: r) = ROk (es, r).
Proof.
  intros H. assert (P := payload_complete _ _ _ H (S (List.length content)) (Nat.lt_succ_diag_r _)).
  destruct is_map; unfold parse_map_payload, parse_set_payload, parse_terminated; cbn [braced]; rewrite P; reflexivity.
Qed.

Definition tail_of (l : long_form (X := X) (T := T)) (colon lt gt comma : token) (types content : list token) : list token :=
  kw (lf_var_name l) :: colon :: kw (lf_type_name l) :: lt :: types ++ [gt; comma; TGroup Brace content].
Lemma long_sound is_map ts l r : (if is_map : bool then parse_long_map parse_expr parse_type else parse_long_set parse_expr parse_type) ts = ROk (l, r) ->
  lf_visibility l = [] /\ lf_is_static l = false /\ lf_is_mutable l = false /\
  exists types content colon lt gt comma,
    names (lf_var_name l) /\ names (lf_type_name l) /\ is_types is_type is_map types (lf_key_type l) (lf_value_type l) /\
    sep ":" colon /\ sep "<" lt /\ sep ">" gt /\ sep "," comma /\ is_payload is_expr false is_map content (lf_payload l) /\
    ts = tail_of l colon lt gt comma types content ++ r.
Proof.
  intros H. destruct is_map.
  - unfold parse_long_map in H. destruct (parse_ident ts) as [[v t1]|] eqn:E1; [|discriminate].
    destruct (parse_punct ":" t1) as [t2|] eqn:E2; [|discriminate]. destruct (parse_ident t2) as [[ty t3]|] eqn:E3; [|discriminate].
    destruct (parse_punct "<" t3) as [t4|] eqn:E4; [|discriminate]. destruct (parse_type t4) as [[k t5]|] eqn:E5; [|discriminate].
    destruct (parse_punct "," t5) as [t6|] eqn:E6; [|discriminate]. destruct (parse_type t6) as [[w t7]|] eqn:E7; [|discriminate].
    destruct (parse_punct ">" t7) as [t8|] eqn:E8; [|discriminate]. destruct (parse_punct "," t8) as [t9|] eqn:E9; [|discriminate].
    destruct (parse_map_payload parse_expr t9) as [[es t10]|] eqn:E10; [|discriminate]. injection H as <- <-. cbn.
    apply parse_ident_inv in E1, E3. destruct E1 as [N1 ->], E3 as [N2 ->].
    apply parse_punct_inv in E2, E4, E6, E8, E9.
    destruct E2 as [c1 [S1 E2]], E4 as [c2 [S2 E4]], E6 as [c3 [S3 E6]], E8 as [c4 [S4 E8]], E9 as [c5 [S5 E9]].
    apply (tp_sound _ _ PT) in E5, E7. destruct E5 as [f1 [E5 T1]], E7 as [f2 [E7 T2]]. apply (pay_sound true) in E10. destruct E10 as [c [E10 P]].
    subst. repeat split. exists (f1 ++ c3 :: f2), c, c1, c2, c4, c5. repeat (split; [solve [eauto using it_map]|]).
    unfold tail_of. cbn. rewrite <- ?app_assoc. cbn. rewrite <- ?app_assoc. reflexivity.
  - unfold parse_long_set in H. destruct (parse_ident ts) as [[v t1]|] eqn:E1; [|discriminate].
    destruct (parse_punct ":" t1) as [t2|] eqn:E2; [|discriminate]. destruct (parse_ident t2) as [[ty t3]|] eqn:E3; [|discriminate].
    destruct (parse_punct "<" t3) as [t4|] eqn:E4; [|discriminate]. destruct (parse_type t4) as [[k t5]|] eqn:E5; [|discriminate].
    destruct (parse_punct ">" t5) as [t8|] eqn:E8; [|discriminate]. destruct (parse_punct "," t8) as [t9|] eqn:E9; [|discriminate].
    destruct (parse_set_payload parse_expr t9) as [[es t10]|] eqn:E10; [|discriminate]. injection H as <- <-. cbn.
    apply parse_ident_inv in E1, E3. destruct E1 as [N1 ->], E3 as [N2 ->].
    apply parse_punct_inv in E2, E4, E8, E9.
    destruct E2 as [c1 [S1 E2]], E4 as [c2 [S2 E4]], E8 as [c4 [S4 E8]], E9 as [c5 [S5 E9]].
    apply (tp_sound _ _ PT) in E5. destruct E5 as [f1 [E5 T1]]. apply (pay_sound false) in E10. destruct E10 as [c [E10 P]].
    subst. repeat split. exists f1, c, c1, c2, c4, c5. repeat (split; [solve [eauto using it_set]|]).
    unfold tail_of. cbn. rewrite <- ?app_assoc. reflexivity.
Qed.
Lemma after_type_comma c r : sep "," c -> after_type (c :: r).
Proof. intros [j ->]. exists r, j. left. reflexivity. Qed.
Lemma after_type_gt c r : sep ">" c -> after_type (c :: r).
Proof. intros [j ->]. exists r, j. right. reflexivity. Qed.
Lemma long_complete is_map l types content colon lt gt comma r :
  names (lf_var_name l) -> names (lf_type_name l) -> is_types is_type is_map types (lf_key_type l) (lf_value_type l) ->
  sep ":" colon -> sep "<" lt -> sep ">" gt -> sep "," comma -> is_payload is_expr true is_map content (lf_payload l) ->
  (if is_map : bool then parse_long_map parse_expr parse_type else parse_long_set parse_expr parse_type) (tail_of l colon lt gt comma types content ++ r) =
    ROk (lf_override l [] false false, r).
Proof.
  intros N1 N2 HT S1 S2 S3 S4 HP. destruct l as [v ty k w es vis st mu]. cbn in *. unfold tail_of. cbn. rewrite <- ?app_assoc. cbn.
  destruct HT as [ks k c vs v' T1 T2 SC|ks k T1].
  - unfold parse_long_map. rewrite parse_ident_name, (parse_punct_sep _ _ _ S1), parse_ident_name, (parse_punct_sep _ _ _ S2) by assumption.
    rewrite <- app_assoc, (tp_complete _ _ PT _ _ _ T1) by (apply after_type_comma, SC).
    cbn [app]. rewrite (parse_punct_sep _ _ _ SC). rewrite (tp_complete _ _ PT _ _ _ T2) by (apply after_type_gt, S3).
    rewrite (parse_punct_sep _ _ _ S3), (parse_punct_sep _ _ _ S4), (pay_complete true _ _ _ HP). reflexivity.
  - unfold parse_long_set. rewrite parse_ident_name, (parse_punct_sep _ _ _ S1), parse_ident_name, (parse_punct_sep _ _ _ S2) by assumption.
    rewrite (tp_complete _ _ PT _ _ _ T1) by (apply after_type_gt, S3).
    rewrite (parse_punct_sep _ _ _ S3), (parse_punct_sep _ _ _ S4), (pay_complete false _ _ _ HP). reflexivity.
Qed.

Notation parse is_map := (if is_map : bool then parse_map parse_expr parse_type else parse_set parse_expr parse_type).
Lemma parse_split is_map : parse is_map = parse_collection
  (if is_map then parse_long_map parse_expr parse_type else parse_long_set parse_expr parse_type)
  (if is_map then parse_map_payload parse_expr else parse_set_payload parse_expr).
Proof. destruct is_map; reflexivity. Qed.

Theorem call_sound is_map ts p : parse2 (parse is_map) ts = ROk p -> is_call is_expr is_type false is_map ts p.
Proof.
  unfold parse2. rewrite parse_split. unfold parse_collection. intros H.
  destruct (parse_visibility ts) as [vis t1] eqn:V. apply visibility_inv in V. destruct V as [-> V].
  destruct (_ && _) eqn:C; [discriminate|]. destruct (peek_kw "static" t1) eqn:S.
  - apply peek_inv in S. destruct S as [r ->]. rewrite parse_kw_here in H.
    destruct ((if is_map then parse_long_map _ _ else _) r) as [[l t2]|] eqn:L; [|discriminate]. destruct t2; [|discriminate]. injection H as <-.
    apply long_sound in L. destruct L as [L1 [L2 [L3 [types [content [colon [lt [gt [comma [N1 [N2 [HT [S1 [S2 [S3 [S4 [HP ->]]]]]]]]]]]]]]]]].
    rewrite app_nil_r. replace (vis ++ kw "static" :: tail_of l colon lt gt comma types content)
      with (opening (lf_override l vis true (lf_is_mutable l)) ++ tail_of l colon lt gt comma types content)
      by (unfold opening; cbn; rewrite <- app_assoc; reflexivity).
    apply (ic_long _ _ _ _ (lf_override l vis true (lf_is_mutable l))); cbn; try assumption. split; assumption.
  - rewrite andb_true_r in C. destruct vis; [|discriminate]. cbn [app]. destruct (peek_kw "let" t1) eqn:LE.
    + apply peek_inv in LE. destruct LE as [r ->]. rewrite parse_kw_here in H.
      assert (M : exists mu r', r = (if mu : bool then [kw "mut"] else []) ++ r' /\
        (if peek_kw "mut" r then match parse_kw "mut" r with ROk ts => ROk (true, ts) | RErr e => RErr e end else ROk (false, r)) = ROk (mu, r')).
      { destruct (peek_kw "mut" r) eqn:PM.
        - apply peek_inv in PM. destruct PM as [r' ->]. exists true, r'. rewrite parse_kw_here. split; reflexivity.
        - exists false, r. split; reflexivity. }
      destruct M as [mu [r' [-> E]]]. rewrite E in H.
      destruct ((if is_map then parse_long_map _ _ else _) r') as [[l t2]|] eqn:L; [|discriminate]. destruct t2; [|discriminate]. injection H as <-.
      apply long_sound in L. destruct L as [L1 [L2 [L3 [types [content [colon [lt [gt [comma [N1 [N2 [HT [S1 [S2 [S3 [S4 [HP ->]]]]]]]]]]]]]]]]].
      rewrite app_nil_r. replace (kw "let" :: (if mu then [kw "mut"] else []) ++ tail_of l colon lt gt comma types content)
        with (opening (lf_override l [] false mu) ++ tail_of l colon lt gt comma types content) by (unfold opening; cbn; destruct mu; reflexivity).
      apply (ic_long _ _ _ _ (lf_override l [] false mu)); cbn; try assumption. reflexivity.
    + destruct ((if is_map then parse_map_payload _ else _) t1) as [[es t2]|] eqn:P; [|discriminate]. destruct t2; [|discriminate]. injection H as <-.
      apply pay_sound in P. destruct P as [c [-> P]]. constructor. exact P.
Qed.

Theorem call_complete is_map ts p : is_call is_expr is_type true is_map ts p -> parse2 (parse is_map) ts = ROk p.
Proof.
  unfold parse2. rewrite parse_split. unfold parse_collection. intros H.
  destruct H as [content es HP|l types content colon lt gt comma C N1 N2 HT S1 S2 S3 S4 HP].
  - cbn -[parse_terminated]. rewrite (pay_complete _ _ _ _ HP). reflexivity.
  - change (kw (lf_var_name l) :: _) with (tail_of l colon lt gt comma types content).
    pose proof (long_complete is_map l types content colon lt gt comma [] N1 N2 HT S1 S2 S3 S4 HP) as L. rewrite app_nil_r in L.
    unfold opening, consistent in *. destruct (lf_is_static l) eqn:ST.
    + destruct C as [V M]. rewrite <- app_assoc. cbn [app]. rewrite (visibility_static _ _ V). rewrite peek_here, andb_false_r, parse_kw_here, L. destruct l; cbn in *. subst. reflexivity.
    + assert (V : forall r, parse_visibility (kw "let" :: r) = ([], kw "let" :: r)) by reflexivity.
      assert (NS : forall r, peek_kw "static" (kw "let" :: r) = false) by reflexivity.
      destruct (lf_is_mutable l) eqn:M; cbn [app]; rewrite V; cbv beta iota; rewrite NS, peek_here, parse_kw_here; cbn [andb].
      * rewrite peek_here, parse_kw_here, L. destruct l; cbn in *. subst. reflexivity.
      * assert (NM : peek_kw "mut" (tail_of l colon lt gt comma types content) = false).
        { cbn. destruct (String.eqb_spec (lf_var_name l) "mut") as [E|]; [|reflexivity]. exfalso. apply N1. rewrite E. vm_compute. tauto. }
        rewrite NM, L. destruct l; cbn in *. subst. reflexivity.
Qed.

(** What the later stages rely on. *)
Lemma entry_form s is_map ts e : is_entry is_expr s is_map ts e -> is_map = true <-> me_value e <> None.
Proof. intros []; cbn; split; congruence. Qed.
Lemma payload_form s is_map ts es : is_payload is_expr s is_map ts es -> well_formed is_map es.
Proof.
  induction 1 as [|ts e He|ts e c r es He Hc Hr IH]; intros x Hx.
  - destruct Hx.
  - destruct Hx as [<-|[]]. eapply entry_form, He.
  - destruct Hx as [<-|Hx]; [eapply entry_form, He|]. apply IH, Hx.
Qed.
Lemma call_form s is_map show ts p : is_call is_expr is_type s is_map ts p ->
  well_formed is_map (payload (to_input show p)) /\ not_static_mut (to_input show p).
Proof.
  intros [content es HP|l types content colon lt gt comma C N1 N2 HT S1 S2 S3 S4 HP]; cbn.
  - split; [eapply payload_form, HP|exact I].
  - split; [eapply payload_form, HP|]. unfold consistent in C. intros [A B]. rewrite A in C. destruct C. congruence.
Qed.
End Grammar.

(** * Macro calls never panic *)
Section Total.
Context {X W : Type} (usort : forall T : Type, list (N * T) -> list (N * T)) (md : mode) (unit_expr : W) (seed : N)
  (fixed_state : N -> build_hasher) (hash_i32 : N -> scalar_value I32 -> N).
Hypothesis HU : forall T, sorts_by_slot (usort T).
Notation fz := (fz_macro (X := X) usort md unit_expr seed fixed_state hash_i32).

Lemma zero_fits t : in_type Ptr64 (int_type_of t) (Z.of_N 0) = true.
Proof. destruct t; reflexivity. Qed.
(** A reading of expressions as integers. *)
Definition read_int (t : scalar_type) (v : N) : scalar_value t :=
  match Bool.bool_dec (in_type Ptr64 (int_type_of t) (Z.of_N v)) true with
  | left H => exist _ (Z.of_N v) H
  | right _ => exist _ (Z.of_N 0) (zero_fits t)
  end.
Fixpoint read_key (t : scalar_type) (e : expr X) : scalar_value t :=
  match e with ELit (LitInt v _) => read_int t v | EGroup e => read_key t e | _ => read_int t 0 end.
Lemma read_key_evaluates t : evaluates_integers t (read_key t).
Proof. split; [|reflexivity]. intros v s H. cbn. unfold read_int. destruct (Bool.bool_dec _ true); [reflexivity|congruence]. Qed.
Fixpoint read_str (e : expr X) : bytes :=
  match e with ELit (LitStr s) => s | EGroup e => read_str e | _ => [] end.
Lemma read_str_evaluates : evaluates_strings read_str.
Proof. split; reflexivity. Qed.

Lemma spread_representable t (evK : expr X -> scalar_value t) (es : list (m_entry X W)) : evaluates_integers t evK ->
  all_integers t es -> values_fit t es -> moderate es ->
  span_representable (index_of Ptr64 (int_type_of t)) (map (fun e => evK (me_key e)) es).
Proof.
  intros EV HI HF HM a b Ha Hb. apply in_map_iff in Ha, Hb. destruct Ha as [e1 [<- H1]], Hb as [e2 [<- H2]].
  destruct (proj1 HI e1 H1) as [v1 [s1 [L1 _]]], (proj1 HI e2 H2) as [v2 [s2 [L2 _]]].
  pose proof (mod_spread _ HM _ _ _ _ _ _ H1 H2 L1 L2) as HS.
  assert (D : forall x : scalar_value t, exists i, scalar_index Ptr64 (int_type_of t) (proj1_sig x) = Some i) by (intros x; destruct t; eexists; reflexivity).
  assert (V : forall x : scalar_value t, Z.of_N (index_of Ptr64 (int_type_of t) x) =
    (if it_signed (int_type_of t) then proj1_sig x + 2 ^ (Z.of_N (width_bits Ptr64 (it_width (int_type_of t))) - 1) else proj1_sig x)%Z).
  { intros x. destruct (D x) as [i E]. unfold index_of. rewrite E. apply (scalar_index_value Ptr64); [exact (proj2_sig x)|exact E]. }
  pose proof (V (evK (me_key e1))) as V1. pose proof (V (evK (me_key e2))) as V2.
  rewrite (ev_key t evK EV e1 v1 s1 L1 (HF e1 v1 s1 H1 L1)) in V1. rewrite (ev_key t evK EV e2 v2 s2 L2 (HF e2 v2 s2 H2 L2)) in V2.
  clear D V. unfold usize_max in *. destruct (it_signed (int_type_of t)); lia.
Qed.

Lemma values_fit_dec t (es : list (m_entry X W)) : values_fit t es \/ ~ values_fit t es.
Proof.
  induction es as [|e r IH].
  - left. intros e v s [].
  - destruct IH as [IH|IH]; [|right; intros H; apply IH; intros e' v s He; apply (H e' v s (or_intror He))].
    destruct (literal_of (me_key e)) as [[s|v s|]|] eqn:L.
    1,3,4: left; intros e' v s' [<-|He] L'; [congruence|eapply IH; eauto].
    destruct (in_type Ptr64 (int_type_of t) (Z.of_N v)) eqn:F.
    + left. intros e' v' s' [<-|He] L'; [congruence|eapply IH; eauto].
    + right. intros H. specialize (H e v s (or_introl eq_refl) L). congruence.
Qed.

Lemma fz_total is_map input mk : not_static_mut input -> moderate (payload input) -> exists r, fz is_map input mk = Ok r.
Proof.
  intros HO HM.
  assert (HC : N.of_nat (List.length (payload input)) <= usize_max) by exact (mod_count _ HM).
  destruct (payload input) as [|e0 r0] eqn:P.
  { destruct (typed input) eqn:T.
    - destruct (empty_long usort md unit_expr seed fixed_state hash_i32 HU is_map input mk (fun _ => tt) (fun _ => tt) (fun _ _ => true) (fun _ _ => Eq)
        (fun _ _ => true) (fun _ _ => true) (fun (_ : unit) _ => Eq) (fun _ => 0) (fun _ _ => 0) P T HO) as [d [out [m [E _]]]].
      + repeat split.
      + repeat split.
      + eauto.
    - destruct input as [p|]; [|discriminate]. cbn in P. subst p. destruct (empty_short (X := X) usort md unit_expr seed fixed_state hash_i32 is_map mk) as [msg E]. eauto. }
  assert (NE : payload input <> []) by congruence. rewrite <- P in *. clear P e0 r0.
  destruct (assess_keys (payload input) mk) as [kind|msg] eqn:AK.
  2:{ rewrite fz_process. exists (RErr msg). destruct (payload input); [congruence|]. unfold process. rewrite AK. reflexivity. }
  assert (S := selected mk (payload input) kind NE AK).
  assert (A : acceptable mk (payload input)) by (apply assess_accepts; eauto).
  assert (OC := macro_options is_map input false false HO).
  assert (F : forall len (gen : generator -> res (output (expr X) W)), (forall g, exists o, gen g = Ok o) ->
    exists r, finish (with_const (macro_emitter is_map input) false false) len gen = Ok r).
  { intros len gen G. destruct (G {| g_len := len; g_set := negb (em_has_value_type (with_const (macro_emitter is_map input) false false)) |}) as [o E].
    destruct (finish_ok _ len gen o OC E) as [d [E' _]]. eauto. }
  destruct kind as [t| | | | |].
  - cbn in S. destruct (values_fit_dec t (payload input)) as [HF|HF].
    + destruct (integers_emit (X := X) usort md unit_expr seed fixed_state hash_i32 HU is_map input mk t (read_key t) (fun _ : W => tt) (fun _ _ => true) (fun _ _ => Eq)
        (index_of Ptr64 (int_type_of t)) (idx_eq (index_of Ptr64 (int_type_of t))) (fun _ _ => Eq)) as [d [out [m [E _]]]]; auto.
      * intros ->. destruct (payload input) as [|e r] eqn:P; [congruence|]. destruct (proj1 S e (or_introl eq_refl)) as [v [s [L _]]].
        exact (acc_no_integers _ _ A eq_refl e v s (or_introl eq_refl) L).
      * apply read_key_evaluates.
      * split; [|reflexivity]. intros q. exact (idx_bound_law _ _ (builtin_lawful_scalar (int_type_of t)) q).
      * apply spread_representable; auto. apply read_key_evaluates.
      * eauto.
    + destruct (integers_reject usort md unit_expr seed fixed_state hash_i32 is_map input mk t NE S HF) as [msg E]. eauto.
  - rewrite fz_process, (process_nonempty _ _ _ _ _ _ _ _ _ _ NE AK). apply F. intros g. destruct (Nat.ltb _ _); eauto.
  - destruct (strings_emit (X := X) usort md unit_expr seed fixed_state hash_i32 HU is_map input mk fixed_state read_str (fun _ : W => tt) (fun _ _ => true) (fun _ _ => Eq)
      (fun (_ : bytes) _ => Eq) (fun _ => 0)) as [d [out [m [E _]]]]; auto.
    + intros ->. destruct (payload input) as [|e r] eqn:P; [congruence|]. destruct (S e (or_introl eq_refl)) as [s L].
      exact (acc_no_strings _ _ A eq_refl e s (or_introl eq_refl) L).
    + apply read_str_evaluates.
    + intros e He. destruct (S e He) as [s L]. assert (read_str (me_key e) = s) as -> by (destruct (key_form _ _ L) as [->| ->]; reflexivity).
      exact (mod_strings _ HM e s He L).
    + eauto.
  - rewrite fz_process, (process_nonempty _ _ _ _ _ _ _ _ _ _ NE AK). apply F. intros g. destruct (Nat.ltb _ _); eauto.
  - rewrite fz_process, (process_nonempty _ _ _ _ _ _ _ _ _ _ NE AK). apply F. intros g. destruct (Nat.ltb _ _); eauto.
  - rewrite fz_process, (process_nonempty _ _ _ _ _ _ _ _ _ _ NE AK). apply F. intros g. destruct (Nat.ltb _ _); eauto.
Qed.
End Total.

(** * From tokens to expansions *)
Section Tokens.
Context {X T : Type} (is_expr : list token -> expr X -> Prop) (is_type : list token -> T -> Prop)
  (parse_expr : list token -> result (expr X * list token)) (parse_type : list token -> result (T * list token)).
Hypothesis PE : expr_parser is_expr parse_expr.
Hypothesis PT : type_parser is_type parse_type.
Context (usort : forall T : Type, list (N * T) -> list (N * T)) (md : mode) (unit_expr : expr X) (seed : N)
  (fixed_state : N -> build_hasher) (hash_i32 : N -> scalar_value I32 -> N) (show : list token -> string).
Hypothesis HU : forall T, sorts_by_slot (usort T).
Notation fzt := (fz_macro_tokens parse_expr parse_type usort md unit_expr seed fixed_state hash_i32 show).
Notation fz := (fz_macro (X := X) usort md unit_expr seed fixed_state hash_i32).

Lemma tokens_parsed is_map ts p mk : is_call is_expr is_type true is_map ts p -> fzt is_map ts mk = fz is_map (to_input show p) mk.
Proof. intros H. unfold fz_macro_tokens. rewrite (call_complete _ _ _ _ PE PT _ _ _ H). reflexivity. Qed.

Lemma tokens_total is_map ts mk : (forall p, is_call is_expr is_type false is_map ts p -> moderate (payload (to_input show p))) ->
  exists r, fzt is_map ts mk = Ok r.
Proof.
  intros H. unfold fz_macro_tokens. destruct (parse2 _ ts) as [p|msg] eqn:E; [|eauto].
  apply (call_sound _ _ _ _ PE PT) in E. destruct (call_form _ _ _ _ show _ _ E) as [_ O]. apply fz_total; auto.
Qed.

Lemma tokens_rejected is_map ts mk : (forall p, is_call is_expr is_type false is_map ts p -> rejected mk (to_input show p)) ->
  exists msg, fzt is_map ts mk = Ok (RErr msg).
Proof.
  intros H. unfold fz_macro_tokens. destruct (parse2 _ ts) as [p|msg] eqn:E; [|eauto].
  apply (call_sound _ _ _ _ PE PT) in E. destruct (call_form _ _ _ _ show _ _ E) as [_ O]. apply rejected_exactly; auto.
Qed.
Lemma tokens_expanded is_map ts p mk : is_call is_expr is_type true is_map ts p -> ~ rejected mk (to_input show p) ->
  moderate (payload (to_input show p)) -> exists d out, fzt is_map ts mk = Ok (ROk (d, out)).
Proof.
  intros H NR M. rewrite (tokens_parsed _ _ _ _ H). destruct (call_form _ _ _ _ show _ _ H) as [_ O].
  destruct (fz_total usort md unit_expr seed fixed_state hash_i32 HU is_map _ mk O M) as [[[d out]|msg] E]; [eauto|].
  exfalso. apply NR. eapply rejected_exactly; eauto.
Qed.
End Tokens.
