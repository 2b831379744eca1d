(** Property theorems about the types of emitted code (C60, C61). Statements only; proofs are in [ProofsTypes.v] and
    [ProofsTypesEmit.v]. *)
From Coq Require Import String ZArith.
From Verif Require Import ModelUtils ModelAnalyzers ModelTables ModelMaps ModelScalar ModelEmit ModelMacros ModelTypes
  Spec SpecEmit SpecMade SpecMacros SpecTypes ProofsBase ProofsFz ProofsTypes ProofsTypesEmit Instances PropertiesEmit PropertiesMacros.
From Verif Require Import Prelude.

(** ** C60 *)
(** The four emit functions print code that type checks, whatever collection they select, if what they were told is true. *)
Theorem C60_emit_hash : forall U KB X W usort (unit_expr : W) seed hash eqB em (entries : list (entry KB X W)) d out,
  sorts_by_slot usort -> seed < 2 ^ 64 -> lawful_eq eqB -> lawful_hash eqB (hash seed) ->
  emit_hash_collection usort unit_expr seed hash eqB em entries = Ok (ROk (d, out)) ->
  forall as_ref_str (means : U -> ty -> Prop) complete (key_has : X -> ty -> Prop) (value_has : W -> ty -> Prop) (const_key : X -> Prop)
    (const_value : W -> Prop)
    key_type value_type k v,
  value_has unit_expr TUnit -> const_value unit_expr ->
  described means complete key_has value_has const_key const_value em key_type value_type k v entries ->
  accepted as_ref_str means key_has value_has const_key const_value complete [] (print_decl (PUser key_type) (option_map PUser value_type) d out).
Proof.
  intros U KB X W usort u seed h eqB em es d out HU HS LE LH E. intros. eapply parts_accepted; eauto.
  eapply emit_hash_parts; eauto. lia.
Qed.
Print Assumptions C60_emit_hash.

Theorem C60_emit_ordered : forall U KB X W (unit_expr : W) cmpB em (entries : list (entry KB X W)) d out, lawful_ord cmpB ->
  emit_ordered_collection unit_expr cmpB em entries = Ok (ROk (d, out)) ->
  forall as_ref_str (means : U -> ty -> Prop) complete (key_has : X -> ty -> Prop) (value_has : W -> ty -> Prop) (const_key : X -> Prop)
    (const_value : W -> Prop)
    key_type value_type k v,
  value_has unit_expr TUnit -> const_value unit_expr ->
  described means complete key_has value_has const_key const_value em key_type value_type k v entries ->
  accepted as_ref_str means key_has value_has const_key const_value complete [] (print_decl (PUser key_type) (option_map PUser value_type) d out).
Proof. intros U KB X W u cmpB em es d out LO E. intros. eapply parts_accepted; eauto. eapply emit_ordered_parts; eauto. Qed.
Print Assumptions C60_emit_ordered.

Theorem C60_emit_scalar : forall U KB X W usort md (unit_expr : W) idx cmpB em (entries : list (entry KB X W)) d out,
  sorts_by_slot usort -> lawful_scalar idx cmpB ->
  emit_scalar_collection usort md unit_expr idx cmpB em entries = Ok (ROk (d, out)) ->
  forall as_ref_str (means : U -> ty -> Prop) complete (key_has : X -> ty -> Prop) (value_has : W -> ty -> Prop) (const_key : X -> Prop)
    (const_value : W -> Prop)
    key_type value_type k v,
  value_has unit_expr TUnit -> const_value unit_expr ->
  described means complete key_has value_has const_key const_value em key_type value_type k v entries ->
  accepted as_ref_str means key_has value_has const_key const_value complete [] (print_decl (PUser key_type) (option_map PUser value_type) d out).
Proof. intros U KB X W usort md u idx cmpB em es d out HU LS E. intros. eapply parts_accepted; eauto. eapply emit_scalar_parts; eauto. Qed.
Print Assumptions C60_emit_scalar.

Theorem C60_emit_string : forall U X W usort (unit_expr : W) seed fixed_state em (entries : list (entry bytes X W)) d out,
  sorts_by_slot usort -> seed < 2 ^ 64 ->
  emit_string_collection usort unit_expr seed fixed_state em entries = Ok (ROk (d, out)) ->
  forall as_ref_str (means : U -> ty -> Prop) complete (key_has : X -> ty -> Prop) (value_has : W -> ty -> Prop) (const_key : X -> Prop)
    (const_value : W -> Prop)
    key_type value_type k v,
  value_has unit_expr TUnit -> const_value unit_expr ->
  described means complete key_has value_has const_key const_value em key_type value_type k v entries ->
  accepted as_ref_str means key_has value_has const_key const_value complete [] (print_decl (PUser key_type) (option_map PUser value_type) d out).
Proof.
  intros U X W usort u seed fs em es d out HU HS E. intros. eapply parts_accepted; eauto. eapply emit_string_parts; eauto. lia.
Qed.
Print Assumptions C60_emit_string.

(** A macro call that names its types expands to code that type checks exactly if it meets the conditions of [type_checks]. *)
Theorem C60_long_form : forall U X W (usort : forall T, list (N * T) -> list (N * T)) md (unit_expr : W) seed fixed_state hash_i32,
  (forall T, sorts_by_slot (usort T)) -> seed < 2 ^ 64 ->
  forall as_ref_str (means : U -> ty -> Prop) (expr_has : X -> ty -> Prop) (value_has : W -> ty -> Prop) (const_expr : X -> Prop) (const_value : W -> Prop)
    (complete : U -> Prop),
  value_has unit_expr TUnit -> const_value unit_expr ->
  forall is_map input mk d out, well_formed is_map (payload input) -> typed input = true ->
  fz_macro usort md unit_expr seed fixed_state hash_i32 is_map input mk = Ok (ROk (d, out)) ->
  forall key_type value_type k v,
  (forall t, means key_type t <-> t = k) -> complete key_type ->
  (is_map = true -> (forall t, means value_type t <-> t = v) /\ complete value_type) ->
  accepted as_ref_str means (written_has expr_has) value_has (written_const const_expr) const_value complete []
    (print_decl (macro_key_type input key_type) (macro_value_type is_map input value_type) d out) <->
  type_checks as_ref_str expr_has value_has const_value mk input k v.
Proof.
  intros U X W usort md u seed fs h HU HS. intros. eapply long_form_checks; eauto. lia.
Qed.
Print Assumptions C60_long_form.

(** A macro call without types expands to code that type checks exactly if there are types with which it meets them. *)
Theorem C60_short_form : forall U X W (usort : forall T, list (N * T) -> list (N * T)) md (unit_expr : W) seed fixed_state hash_i32,
  (forall T, sorts_by_slot (usort T)) -> seed < 2 ^ 64 ->
  forall as_ref_str (means : U -> ty -> Prop) (expr_has : X -> ty -> Prop) (value_has : W -> ty -> Prop) (const_expr : X -> Prop) (const_value : W -> Prop)
    (complete : U -> Prop),
  value_has unit_expr TUnit -> const_value unit_expr ->
  forall is_map input mk d out, well_formed is_map (payload input) -> typed input = false ->
  fz_macro usort md unit_expr seed fixed_state hash_i32 is_map input mk = Ok (ROk (d, out)) ->
  forall key_type value_type,
  accepted as_ref_str means (written_has expr_has) value_has (written_const const_expr) const_value complete []
    (print_decl (macro_key_type input key_type) (macro_value_type is_map input value_type) d out) <->
  exists k v, type_checks as_ref_str expr_has value_has const_value mk input k v.
Proof.
  intros U X W usort md u seed fs h HU HS. intros. eapply short_form_checks; eauto. lia.
Qed.
Print Assumptions C60_short_form.

(** The examples: expression keys are of type [&str]; value expressions are of type [i32], [()] is written 0; 7 is not a constant. *)
Definition ex_i32 : ty := TName "i32" [].
Definition ex_as_ref (t : ty) : Prop := t = TStr \/ t = TBoxStr.
Definition ex_value_has (w : N) (t : ty) : Prop := if w =? 0 then t = TUnit else t = ex_i32.
Definition ex_const (w : N) : Prop := w <> 7.
Definition ex_entry (key : expr N) (value : N) : m_entry N N := {| me_key := key; me_value := Some value |}.
Definition ex_let (es : list (m_entry N N)) : macro_input := LongForm "m" "T" es "" false false.
Definition ex_static_call (es : list (m_entry N N)) : macro_input := LongForm "M" "T" es "" true false.
Definition ex_lit_str (n : N) : expr N := ELit (LitStr [n]).
Definition ex_expands {A B} (r : res (result (A * B))) : bool := match r with Ok (ROk _) => true | _ => false end.
Lemma ex_expands_exists {A B} (r : res (result (A * B))) : ex_expands r = true -> exists d out, r = Ok (ROk (d, out)).
Proof. destruct r as [[[d out]|]| |]; try discriminate. intros _. eauto. Qed.

(** All four emit functions meet the hypotheses for a static map whose keys are of type [u8] and whose values are of type [i32]; the
    selected collections differ. *)
Example C60_example : let es := map (fun k => (k, (k, k + 1))) [3; 9; 200; 4; 9] in let ss := map (fun e => ([fst e], snd e)) es in
  ex_expands (emit_hash_collection slot_sort 0 5 (fun s k => s + k) N.eqb ex_static es) = true /\
  ex_expands (emit_ordered_collection 0 N.compare ex_static es) = true /\
  ex_expands (emit_scalar_collection slot_sort Debug 0 ex_id N.compare ex_static es) = true /\
  ex_expands (emit_string_collection slot_sort 0 5 ex_bh ex_static ss) = true /\
  described (fun u t => t = u) (fun _ => True) (fun _ t => t = TName "u8" []) ex_value_has (fun _ => True) ex_const
    ex_static (TName "u8" []) (Some ex_i32) (TName "u8" []) ex_i32 es /\
  described (fun u t => t = u) (fun _ => True) (fun _ t => t = TName "u8" []) ex_value_has (fun _ => True) ex_const
    ex_static (TName "u8" []) (Some ex_i32) (TName "u8" []) ex_i32 ss.
Proof.
  cbv zeta. do 4 (split; [vm_compute; reflexivity|]).
  split; (constructor; [reflexivity|split; reflexivity|auto| |];
    [intros e _; auto|intros _ e He; repeat (destruct He as [<-|He]; [split; [reflexivity|intros _; discriminate]|]); destruct He]).
Qed.

(** A call without types, four strings not all of them literals. *)
Example C60_short_example : let input := ShortForm [ex_entry (ex_lit_str 97) 1; ex_entry (EOther 5) 2; ex_entry (EOther 6) 3; ex_entry (EOther 8) 7] in
  ex_expands (ex_fz true input MkString) = true /\ type_checks ex_as_ref (fun _ t => t = TStr) ex_value_has ex_const MkString input TBoxStr ex_i32.
Proof.
  cbv zeta. split; [vm_compute; reflexivity|].
  set (es := [ex_entry (ex_lit_str 97) 1; ex_entry (EOther 5) 2; ex_entry (EOther 6) 3; ex_entry (EOther 8) 7]). assert (P : In (ex_entry (EOther 5) 2) es) by (cbn; auto).
  assert (NS : ~ all_strings es) by (intros F; destruct (F _ P) as [s L]; discriminate L).
  constructor.
  - intros [_ [F _]]. destruct (F _ P) as [v [s [L _]]]. discriminate L.
  - intros _. split; [reflexivity|]. exists TStr. split; [left; reflexivity|].
    intros e He. repeat (destruct He as [<-|He]; [reflexivity|]). destruct He.
  - intros _ F. contradiction F. split; [exact NS|]. split; [right; reflexivity|]. cbn. lia.
  - intros e w [a [b [E _]]] EW. split; [|contradiction].
    assert (HI : In e es) by (cbn in E; rewrite E; apply in_or_app; right; left; reflexivity).
    repeat (destruct HI as [<-|HI]; [injection EW as <-; reflexivity|]). destruct HI.
Qed.

(** ** C61 *)
(** The keys and values have the types as written. *)
Definition ex_typed (k v : ty) (input : macro_input (X := N) (W := N)) : Prop :=
  forall e, In e (payload input) -> written_has (fun _ t => t = TStr) (me_key e) k /\ forall w, me_value e = Some w -> ex_value_has w v.
(** The call, declared with these types, expands to code that type checks. *)
Definition ex_accepted (k v : ty) (input : macro_input) (mk : macro_kind) : Prop :=
  exists d out, ex_fz true input mk = Ok (ROk (d, out)) /\
    accepted ex_as_ref (fun u t => t = u) (written_has (fun _ t => t = TStr)) ex_value_has (written_const (fun _ => True)) ex_const
      (fun _ => True) [] (print_decl (macro_key_type input k) (macro_value_type true input v) d out).

Lemma ex_accepted_checks k v input mk : ex_expands (ex_fz true input mk) = true -> well_formed true (payload input) -> typed input = true ->
  ex_accepted k v input mk <-> type_checks ex_as_ref (fun _ t => t = TStr) ex_value_has ex_const mk input k v.
Proof.
  intros E WF T. apply ex_expands_exists in E. destruct E as [d [out E]].
  assert (H := C60_long_form ty N N ex_usort Debug 0 5 ex_bh (fun _ _ => 0) (fun T => slot_sort_sorts) ltac:(lia) ex_as_ref (fun u t => t = u)
    (fun _ t => t = TStr) ex_value_has (fun _ => True) ex_const (fun _ => True) eq_refl ltac:(discriminate)
    true input mk d out WF T E k v k v ltac:(tauto) I ltac:(intros _; split; [tauto|exact I])).
  unfold ex_accepted. rewrite <- H. split.
  - intros [d' [out' [E' A]]]. rewrite E in E'. injection E' as <- <-. exact A.
  - intros A. exists d, out. split; [exact E|exact A].
Qed.
Lemma ex_well_formed es : Forall (fun e : m_entry N N => me_value e <> None) es -> well_formed true es.
Proof. intros H e He. rewrite Forall_forall in H. specialize (H e He). tauto. Qed.
Ltac ex_wf := apply ex_well_formed; cbn; repeat constructor; discriminate.

(** A call whose keys and values have the declared types need not type check: not if the keys are integers without suffixes, and the
    declared type is not [i32]; ... *)
Theorem C61_unsuffixed_refuted : exists input, let k := TName "u8" [] in
  ex_typed k ex_i32 input /\ (exists d out, ex_fz true input MkScalar = Ok (ROk (d, out))) /\ ~ ex_accepted k ex_i32 input MkScalar.
Proof.
  exists (ex_let [ex_int 1 ""; ex_int 2 ""]). cbv zeta. split; [|split; [apply ex_expands_exists; vm_compute; reflexivity|]].
  - intros e [<-|[<-|[]]]; (split; [|intros w E; injection E as <-; reflexivity]); exists "u8"%string, (2 ^ 8 - 1);
      (split; [find_in|]; split; [reflexivity|]; split; [vm_compute; discriminate|left; reflexivity]).
  - rewrite ex_accepted_checks; [|vm_compute; reflexivity|ex_wf|reflexivity].
    intros [T1 _ _ _]. assert (U : unsuffixed_call [ex_int 1 ""; ex_int 2 ""]).
    { split; [discriminate|]. split; [|intros F; contradiction F; reflexivity].
      intros e [<-|[<-|[]]]; eexists _, _; (split; [reflexivity|left; reflexivity]). }
    specialize (T1 U). injection T1. discriminate.
Qed.
Print Assumptions C61_unsuffixed_refuted.

(** ... not if the keys are strings, not all of them literals, and there are four or more; no type can be declared with which a call
    would type check before and after adding the fourth entry; ... *)
Theorem C61_strings_refuted : exists es e, let three := ex_let es in let four := ex_let (es ++ [e]) in
  ex_typed TStr ex_i32 four /\ ex_accepted TStr ex_i32 three MkString /\
  (exists d out, ex_fz true four MkString = Ok (ROk (d, out))) /\ ~ ex_accepted TStr ex_i32 four MkString /\
  forall k v, ex_accepted k v three MkString -> ~ ex_accepted k v four MkString.
Proof.
  exists [ex_entry (ex_lit_str 97) 1; ex_entry (EOther 5) 2; ex_entry (EOther 6) 3], (ex_entry (EOther 8) 4). cbv zeta.
  set (three := ex_let [ex_entry (ex_lit_str 97) 1; ex_entry (EOther 5) 2; ex_entry (EOther 6) 3]).
  set (four := ex_let _).
  assert (H3 : forall k v, ex_accepted k v three MkString <-> type_checks ex_as_ref (fun _ t => t = TStr) ex_value_has ex_const MkString three k v).
  { intros k v. rewrite ex_accepted_checks; [reflexivity|vm_compute; reflexivity|ex_wf|reflexivity]. }
  assert (H4 : forall k v, ex_accepted k v four MkString <-> type_checks ex_as_ref (fun _ t => t = TStr) ex_value_has ex_const MkString four k v).
  { intros k v. rewrite ex_accepted_checks; [reflexivity|vm_compute; reflexivity|ex_wf|reflexivity]. }
  assert (NS : forall es, In (ex_entry (EOther 5) 2) es -> ~ all_strings es) by (intros es HI F; destruct (F _ HI) as [s L]; discriminate L).
  assert (NI : forall es, In (ex_entry (EOther 5) 2) es -> ~ unsuffixed_call es) by (intros es HI [_ [F _]]; destruct (F _ HI) as [v [s [L _]]]; discriminate L).
  assert (BIG : large_string_call MkString (payload four)) by (split; [apply NS; cbn; auto|]; split; [auto|cbn; lia]).
  assert (SMALL : ~ large_string_call MkString (payload three)) by (intros [_ [_ F]]; cbn in F; lia).
  assert (HB : forall k v, ex_accepted k v four MkString -> k = TBoxStr) by (intros k v H; apply H4 in H; apply (tc_strings _ _ _ _ _ _ _ _ H BIG)).
  split; [|split; [|split; [apply ex_expands_exists; vm_compute; reflexivity|split]]].
  - intros e [<-|[<-|[<-|[<-|[]]]]]; (split; [reflexivity|intros w E; injection E as <-; reflexivity]).
  - apply H3. constructor; try contradiction.
    + intros F. exfalso. revert F. apply NI. cbn. auto.
    + intros _ _ e [a [b [E _]]]. assert (HI : In e (payload three)) by (rewrite E; apply in_or_app; right; left; reflexivity).
      destruct HI as [<-|[<-|[<-|[]]]]; reflexivity.
    + intros e w [a [b [E _]]] EW. assert (HI : In e (payload three)) by (rewrite E; apply in_or_app; right; left; reflexivity).
      destruct HI as [<-|[<-|[<-|[]]]]; injection EW as <-; (split; [reflexivity|intros F; discriminate F]).
  - intros H. discriminate (HB _ _ H).
  - intros k v A F. apply HB in F. subst k. apply H3 in A.
    assert (P : In (ex_entry (EOther 5) 2) (payload three)) by (cbn; auto).
    discriminate (tc_keys _ _ _ _ _ _ _ _ A (NI _ P) SMALL (ex_entry (EOther 5) 2)).
    exists [ex_entry (ex_lit_str 97) 1], [ex_entry (EOther 6) 3]. split; [reflexivity|].
    intros [L|[t [L _]]]; [contradiction (NS _ P L)|destruct (L _ P) as [n [s [L' _]]]; discriminate L'].
Qed.
Print Assumptions C61_strings_refuted.

(** ... and not if it is a static with literal keys and a value that is not a constant, although such values are allowed as soon as
    some key is not a literal. *)
Theorem C61_static_refuted : exists value key, let literal := ex_static_call [ex_entry (ex_lit_str 97) value] in
  let mixed := ex_static_call [ex_entry (ex_lit_str 97) value; ex_entry key 1] in
  ex_typed TStr ex_i32 literal /\ ex_typed TStr ex_i32 mixed /\
  (exists d out, ex_fz true literal MkString = Ok (ROk (d, out))) /\ ~ ex_accepted TStr ex_i32 literal MkString /\
  ex_accepted TStr ex_i32 mixed MkString.
Proof.
  exists 7, (EOther 5). cbv zeta. split; [|split; [|split; [apply ex_expands_exists; vm_compute; reflexivity|split]]].
  - intros e [<-|[]]; (split; [reflexivity|intros w E; injection E as <-; reflexivity]).
  - intros e [<-|[<-|[]]]; (split; [reflexivity|intros w E; injection E as <-; reflexivity]).
  - rewrite ex_accepted_checks; [|vm_compute; reflexivity|ex_wf|reflexivity]. intros [_ _ _ T4].
    destruct (T4 (ex_entry (ex_lit_str 97) 7) 7) as [_ C].
    + exists [], []. split; [reflexivity|]. intros _ e [].
    + reflexivity.
    + apply C; [reflexivity| |reflexivity]. left. intros e [<-|[]]. cbn. eauto.
  - rewrite ex_accepted_checks; [|vm_compute; reflexivity|ex_wf|reflexivity].
    assert (NL : ~ literal_call [ex_entry (ex_lit_str 97) 7; ex_entry (EOther 5) 1]).
    { intros [L|[t [L _]]]; [destruct (L (ex_entry (EOther 5) 1)) as [s F]|destruct (L (ex_entry (EOther 5) 1)) as [v [s [F _]]]]; cbn; auto; discriminate F. }
    constructor.
    + intros F. exfalso. apply NL. right. exists Undecided. apply F.
    + intros [_ [_ F]]. cbn in F. lia.
    + intros _ _ e [a [b [E _]]]. assert (HI : In e [ex_entry (ex_lit_str 97) 7; ex_entry (EOther 5) 1]) by (cbn in E; rewrite E; apply in_or_app; right; left; reflexivity).
      destruct HI as [<-|[<-|[]]]; reflexivity.
    + intros e w [a [b [E _]]] EW. assert (HI : In e [ex_entry (ex_lit_str 97) 7; ex_entry (EOther 5) 1]) by (cbn in E; rewrite E; apply in_or_app; right; left; reflexivity).
      split; [destruct HI as [<-|[<-|[]]]; injection EW as <-; reflexivity|]. intros _ L. contradiction.
Qed.
Print Assumptions C61_static_refuted.
