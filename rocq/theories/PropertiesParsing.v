(** Property theorems about the collection macros as token streams (C57, C58). Statements only; proofs are in [ProofsParsing.v]. *)
From Coq Require Import String ZArith.
From Verif Require Import ModelUtils ModelAnalyzers ModelTables ModelMaps ModelScalar ModelEmit ModelMacros ModelParsing
  Spec SpecEmit SpecMade SpecMacros SpecParsing ProofsBase ProofsMacros ProofsParsing Instances PropertiesEmit PropertiesMacros.
From Verif Require Import Prelude.

(** ** C57 *)
(** Every call the grammar allows is accepted, and its parts are what was written. *)
Theorem C57_grammar_accepted : forall X T (is_expr : list token -> expr X -> Prop) (is_type : list token -> T -> Prop) parse_expr parse_type,
  expr_parser is_expr parse_expr -> type_parser is_type parse_type ->
  forall is_map ts p, is_call is_expr is_type true is_map ts p ->
  parse2 (if is_map then parse_map parse_expr parse_type else parse_set parse_expr parse_type) ts = ROk p.
Proof. exact @call_complete. Qed.
Print Assumptions C57_grammar_accepted.

(** Nothing else is; no token is skipped. *)
Theorem C57_nothing_else : forall X T (is_expr : list token -> expr X -> Prop) (is_type : list token -> T -> Prop) parse_expr parse_type,
  expr_parser is_expr parse_expr -> type_parser is_type parse_type ->
  forall (is_map : bool) ts p, parse2 (if is_map then parse_map parse_expr parse_type else parse_set parse_expr parse_type) ts = ROk p ->
  is_call is_expr is_type false is_map ts p.
Proof. exact @call_sound. Qed.
Print Assumptions C57_nothing_else.

(** A call has one reading. *)
Theorem C57_unambiguous : forall X T (is_expr : list token -> expr X -> Prop) (is_type : list token -> T -> Prop) parse_expr parse_type,
  expr_parser is_expr parse_expr -> type_parser is_type parse_type ->
  forall is_map ts p q, is_call is_expr is_type true is_map ts p -> is_call is_expr is_type true is_map ts q -> p = q.
Proof.
  intros X T ie it pe pt PE PT is_map ts p q H1 H2. apply (call_complete _ _ _ _ PE PT) in H1, H2. congruence.
Qed.
Print Assumptions C57_unambiguous.

(** ** C58 *)
(** No token stream makes a macro panic, as long as the literals in it are of moderate size. *)
Theorem C58_never_panics : forall X T (is_expr : list token -> expr X -> Prop) (is_type : list token -> T -> Prop) parse_expr parse_type,
  expr_parser is_expr parse_expr -> type_parser is_type parse_type ->
  forall (usort : forall T, list (N * T) -> list (N * T)) md (unit_expr : expr X) seed fixed_state hash_i32 show,
  (forall T, sorts_by_slot (usort T)) ->
  forall is_map ts mk, (forall p, is_call is_expr is_type false is_map ts p -> moderate (payload (to_input show p))) ->
  exists r, fz_macro_tokens parse_expr parse_type usort md unit_expr seed fixed_state hash_i32 show is_map ts mk = Ok r.
Proof. exact @tokens_total. Qed.
Print Assumptions C58_never_panics.

(** What the grammar does not allow, and calls whose entries are to be rejected, end in an error. *)
Theorem C58_rejected : forall X T (is_expr : list token -> expr X -> Prop) (is_type : list token -> T -> Prop) parse_expr parse_type,
  expr_parser is_expr parse_expr -> type_parser is_type parse_type ->
  forall (usort : forall T, list (N * T) -> list (N * T)) md (unit_expr : expr X) seed fixed_state hash_i32 show is_map ts mk,
  (forall p, is_call is_expr is_type false is_map ts p -> rejected mk (to_input show p)) ->
  exists msg, fz_macro_tokens parse_expr parse_type usort md unit_expr seed fixed_state hash_i32 show is_map ts mk = Ok (RErr msg).
Proof. exact @tokens_rejected. Qed.
Print Assumptions C58_rejected.

(** Everything else expands. *)
Theorem C58_expanded : forall X T (is_expr : list token -> expr X -> Prop) (is_type : list token -> T -> Prop) parse_expr parse_type,
  expr_parser is_expr parse_expr -> type_parser is_type parse_type ->
  forall (usort : forall T, list (N * T) -> list (N * T)) md (unit_expr : expr X) seed fixed_state hash_i32 show,
  (forall T, sorts_by_slot (usort T)) ->
  forall is_map ts p mk, is_call is_expr is_type true is_map ts p -> ~ rejected mk (to_input show p) -> moderate (payload (to_input show p)) ->
  exists d out, fz_macro_tokens parse_expr parse_type usort md unit_expr seed fixed_state hash_i32 show is_map ts mk = Ok (ROk (d, out)).
Proof. exact @tokens_expanded. Qed.
Print Assumptions C58_expanded.

(** A call with integer keys, from its tokens to the answers of the collection. *)
Theorem C58_integer_call : forall X T (is_expr : list token -> expr X -> Prop) (is_type : list token -> T -> Prop) parse_expr parse_type,
  expr_parser is_expr parse_expr -> type_parser is_type parse_type ->
  forall (usort : forall T, list (N * T) -> list (N * T)) md (unit_expr : expr X) seed fixed_state hash_i32 show,
  (forall T, sorts_by_slot (usort T)) ->
  forall is_map ts p mk t, is_call is_expr is_type true is_map ts p ->
  let input := to_input show p in
  payload input <> [] -> mk <> MkString -> all_integers t (payload input) -> values_fit t (payload input) -> moderate (payload input) ->
  forall V Q (evK : expr X -> scalar_value t) (evV : expr X -> V) eqR cmpR idxQ (eqv : Q -> scalar_value t -> bool) cmpQ,
  evaluates_integers t evK -> lawful_query_scalar (index_of Ptr64 (int_type_of t)) idxQ eqv ->
  macro_emits (fz_macro_tokens parse_expr parse_type usort md unit_expr seed fixed_state hash_i32 show is_map ts mk) input is_map false
    evK evV eqR cmpR (rt_ops eqv cmpQ idxQ (scalar_hasher idxQ)) (idx_eq (index_of Ptr64 (int_type_of t))) eqv
    (macro_pairs evK evV (evV unit_expr) is_map (payload input)).
Proof.
  intros X T ie it pe pt PE PT usort md u seed fs h show HU is_map ts p mk t H input NE NM HI HF M V Q evK evV eqR cmpR idxQ eqv cmpQ EV LQ.
  rewrite (tokens_parsed _ _ _ _ PE PT _ _ _ _ _ _ _ _ _ _ _ H). destruct (call_form _ _ _ _ show _ _ H) as [_ O].
  apply integers_emit; auto; [apply spread_representable; auto|exact (mod_count _ M)].
Qed.
Print Assumptions C58_integer_call.

(** The same with string keys. *)
Theorem C58_string_call : forall X T (is_expr : list token -> expr X -> Prop) (is_type : list token -> T -> Prop) parse_expr parse_type,
  expr_parser is_expr parse_expr -> type_parser is_type parse_type ->
  forall (usort : forall T, list (N * T) -> list (N * T)) md (unit_expr : expr X) seed fixed_state hash_i32 show,
  (forall T, sorts_by_slot (usort T)) ->
  forall is_map ts p mk, is_call is_expr is_type true is_map ts p ->
  let input := to_input show p in
  payload input <> [] -> mk <> MkScalar -> all_strings (payload input) -> moderate (payload input) ->
  forall V fsR (evK : expr X -> bytes) (evV : expr X -> V) eqR cmpR cmpQ idxQ,
  evaluates_strings evK ->
  (forall s, bh_str (fsR seed) s = bh_str (fixed_state seed) s) -> (forall s, bh_bytes (fsR seed) s = bh_bytes (fixed_state seed) s) ->
  macro_emits (fz_macro_tokens parse_expr parse_type usort md unit_expr seed fixed_state hash_i32 show is_map ts mk) input is_map false
    evK evV eqR cmpR (rt_ops bytes_eqb cmpQ idxQ (string_hasher fsR)) bytes_eqb bytes_eqb
    (macro_pairs evK evV (evV unit_expr) is_map (payload input)).
Proof.
  intros X T ie it pe pt PE PT usort md u seed fs h show HU is_map ts p mk H input NE NM HS M V fsR evK evV eqR cmpR cmpQ idxQ EV B1 B2.
  rewrite (tokens_parsed _ _ _ _ PE PT _ _ _ _ _ _ _ _ _ _ _ H). destruct (call_form _ _ _ _ show _ _ H) as [_ O].
  apply strings_emit; auto; [|exact (mod_count _ M)].
  intros e He. destruct (HS e He) as [s L]. destruct EV as [E1 E2].
  assert (evK (me_key e) = s) as -> by (destruct (key_form _ _ L) as [->| ->]; rewrite ?E2; apply E1). exact (mod_strings _ M e s He L).
Qed.
Print Assumptions C58_string_call.

(** A call with keys that are expressions: hashed macros; the other kinds differ in the collection used. *)
Theorem C58_hashed_call : forall X T (is_expr : list token -> expr X -> Prop) (is_type : list token -> T -> Prop) parse_expr parse_type,
  expr_parser is_expr parse_expr -> type_parser is_type parse_type ->
  forall (usort : forall T, list (N * T) -> list (N * T)) md (unit_expr : expr X) seed fixed_state hash_i32 show is_map ts p,
  is_call is_expr is_type true is_map ts p ->
  let input := to_input show p in
  payload input <> [] -> no_literals (payload input) -> moderate (payload input) ->
  forall K V Q (evK : expr X -> K) (evV : expr X -> V) eqR cmpR (eqv : Q -> K -> bool) cmpQ idxQ hashQ hK hQ srt,
  sorts_by_slot srt -> lawful_eq eqR -> lawful_equivalent eqR eqv -> lawful_hash eqR hK -> lawful_query_hash eqv hQ hK ->
  let pairs := macro_pairs evK evV (evV unit_expr) is_map (payload input) in
  macro_expands (fz_macro_tokens parse_expr parse_type usort md unit_expr seed fixed_state hash_i32 show is_map ts MkHashed) input is_map (fun c =>
    if Nat.ltb (List.length (payload input)) 4
    then exact_or_panic (run_ctor evK evV eqR cmpR c) (rt_ops eqv cmpQ idxQ hashQ) eqR eqv pairs
    else exists m, run_fz_hash srt evK evV eqR hK c = Ok m /\ answers (hash_ops (fun q => Ok (hQ q)) eqv) eqR eqv m pairs).
Proof.
  intros X T ie it pe pt PE PT usort md u seed fs h show is_map ts p H input NE NL M K V Q evK evV eqR cmpR eqv cmpQ idxQ hashQ hK hQ srt
    HS LE LV LH LQ pairs.
  rewrite (tokens_parsed _ _ _ _ PE PT _ _ _ _ _ _ _ _ _ _ _ H). destruct (call_form _ _ _ _ show _ _ H) as [WF O].
  apply hashed_expands; auto; [|split; [reflexivity|exact NL]|exact (mod_count _ M)].
  split; try discriminate; intros; rewrite NL in *; auto; try discriminate.
Qed.
Print Assumptions C58_hashed_call.

(** A small language: an expression is a literal or a name, a type is a name. *)
Definition ex_parse_expr (ts : list token) : result (expr string * list token) :=
  match ts with
  | TLit l :: r => ROk (ELit l, r)
  | TIdent s :: r => if existsb (String.eqb s) keywords then RErr "expected expression" else ROk (EOther s, r)
  | _ => RErr "expected expression"
  end.
Definition ex_is_expr (ts : list token) (e : expr string) : Prop :=
  (exists l, ts = [TLit l] /\ e = ELit l) \/ exists s, names s /\ ts = [kw s] /\ e = EOther s.
Definition ex_is_type (ts : list token) (t : string) : Prop := names t /\ ts = [kw t].
Lemma ex_parsers : expr_parser ex_is_expr ex_parse_expr /\ type_parser ex_is_type parse_ident.
Proof.
  split; split.
  - intros e [[l [H _]]|[s [_ [H _]]]]; discriminate.
  - intros ts e rest [[l [-> ->]]|[s [N [-> ->]]]] _; [reflexivity|]. cbn [app].
    pose proof (parse_ident_name s rest N) as E. unfold parse_ident, kw, ex_parse_expr in *. destruct (existsb _ _); congruence.
  - intros ts e rest. unfold ex_parse_expr. destruct ts as [|[s| |l|] ts]; try discriminate.
    + destruct (existsb (String.eqb s) keywords) eqn:E; [discriminate|]. intros H. injection H as <- <-. exists [kw s]. split; [reflexivity|].
      right. exists s. split; [|auto]. assert (P : parse_ident (kw s :: ts) = ROk (s, ts)) by (unfold parse_ident, kw; rewrite E; reflexivity).
      apply parse_ident_inv in P. tauto.
    + intros H. injection H as <- <-. exists [TLit l]. split; [reflexivity|]. left. eauto.
  - intros ts t rest [N ->] _. apply parse_ident_name, N.
  - intros ts t rest H. apply parse_ident_inv in H. destruct H as [N ->]. exists [kw t]. split; [reflexivity|]. split; [exact N|reflexivity].
Qed.

(** [pub(crate) static COLORS: ColorMap<u8, u16>, { 3: 30, 200u8: 2000, 4: 40, }], and the same with [let mut] and without names. *)
Definition ex_int_tok (v : N) (s : string) : token := TLit (LitInt v s).
Definition ex_comma : token := TPunct "," false.
Definition ex_colon : token := TPunct ":" false.
Definition ex_body : list token :=
  [ex_int_tok 3 ""; ex_colon; ex_int_tok 30 ""; ex_comma; ex_int_tok 200 "u8"; ex_colon; ex_int_tok 2000 ""; ex_comma;
   ex_int_tok 4 ""; ex_colon; ex_int_tok 40 ""; ex_comma].
Definition ex_decl (opening : list token) : list token :=
  opening ++ [kw "COLORS"; ex_colon; kw "ColorMap"; TPunct "<" false; kw "u8"; ex_comma; kw "u16"; TPunct ">" true; ex_comma; TGroup Brace ex_body].
Definition ex_static : list token := ex_decl [kw "pub"; TGroup Paren [kw "crate"]; kw "static"].
Definition ex_entry (k : N) (s : string) (v : N) : m_entry string (expr string) :=
  {| me_key := ELit (LitInt k s); me_value := Some (ELit (LitInt v "")) |}.
Definition ex_entries : list (m_entry string (expr string)) := [ex_entry 3 "" 30; ex_entry 200 "u8" 2000; ex_entry 4 "" 40].
Definition ex_long_form (vis : list token) (st mu : bool) : long_form (X := string) (T := string) := {|
  lf_var_name := "COLORS"; lf_type_name := "ColorMap"; lf_key_type := "u8"%string; lf_value_type := Some "u16"%string; lf_payload := ex_entries;
  lf_visibility := vis; lf_is_static := st; lf_is_mutable := mu |}.
Definition ex_parse_map := parse2 (parse_map ex_parse_expr parse_ident).
Definition ex_parse_set := parse2 (parse_set ex_parse_expr parse_ident).
Example C57_example :
  ex_parse_map ex_static = ROk (PLong (ex_long_form [kw "pub"; TGroup Paren [kw "crate"]] true false)) /\
  ex_parse_map (ex_decl [kw "let"; kw "mut"]) = ROk (PLong (ex_long_form [] false true)) /\
  ex_parse_map [TGroup Brace ex_body] = ROk (PShort ex_entries) /\
  ex_parse_map [TGroup Brace []] = ROk (PShort []) /\
  is_call ex_is_expr ex_is_type false true ex_static (PLong (ex_long_form [kw "pub"; TGroup Paren [kw "crate"]] true false)) /\
  (* a set has no values, a map has *)
  ex_parse_set [TGroup Brace ex_body] = RErr "expected punctuation" /\
  ex_parse_set [TGroup Brace [ex_int_tok 1 ""; ex_comma; kw "x"]] =
    ROk (PShort [{| me_key := ELit (LitInt 1 ""); me_value := None |}; {| me_key := EOther "x"%string; me_value := None |}]) /\
  (* [pub let], [static mut], missing and extra tokens *)
  ex_parse_map (ex_decl [kw "pub"; kw "let"]) = RErr "expected `static`" /\
  ex_parse_map (ex_decl [kw "static"; kw "mut"]) = RErr "expected identifier" /\
  ex_parse_map [TGroup Brace [ex_int_tok 1 ""]] = RErr "expected punctuation" /\
  ex_parse_map [TGroup Brace [ex_comma]] = RErr "expected expression" /\
  ex_parse_map (ex_static ++ [TPunct ";" false]) = RErr "unexpected token".
Proof.
  repeat split; try (vm_compute; reflexivity).
  apply (C57_nothing_else _ _ ex_is_expr ex_is_type ex_parse_expr parse_ident); try apply ex_parsers. vm_compute. reflexivity.
Qed.

Definition ex_show (ts : list token) : string := match ts with [] => "" | _ => "pub(crate)" end.
Definition ex_fzt (is_map : bool) (ts : list token) (mk : macro_kind) :=
  fz_macro_tokens ex_parse_expr parse_ident ex_usort Debug (EOther "()"%string) 5 ex_bh (fun _ _ => 0) ex_show is_map ts mk.
Definition ex_value (e : expr string) : N := match e with ELit (LitInt v _) => v | _ => 0 end.
Fixpoint ex_read_u8 (e : expr string) : scalar_value U8 :=
  match e with ELit (LitInt v _) => ex_u8 v | EGroup e => ex_read_u8 e | _ => ex_u8 0 end.
Definition ex_token_answers (ts : list token) (mk : macro_kind) (queries : list N) :=
  match ex_fzt true ts mk with
  | Ok (ROk (d, out)) =>
      match run_ctor (V := N) ex_read_u8 ex_value (idx_eq ex_idx) (fun a b => N.compare (ex_idx a) (ex_idx b)) (o_ctor out) with
      | Ok m => Some (d, map (mo_get (rt_ops ex_eq8 ex_cmp8 ex_id (scalar_hasher ex_id)) m) queries)
      | _ => None
      end
  | _ => None
  end.
Example C58_example :
  ex_token_answers ex_static MkScalar [3; 5; 200] =
    Some (DeclStatic "pub(crate)" (Some "ColorMap"%string) "COLORS" false, [Ok (Some 30); Ok None; Ok (Some 2000)]) /\
  ex_token_answers (ex_decl [kw "let"; kw "mut"]) MkHashed [4] = Some (DeclLet (Some "ColorMap"%string) true "COLORS", [Ok (Some 40)]) /\
  (exists msg, ex_fzt true ex_static MkString = Ok (RErr msg)) /\
  (exists msg, ex_fzt false ex_static MkScalar = Ok (RErr msg)) /\
  is_call ex_is_expr ex_is_type true true ex_static (PLong (ex_long_form [kw "pub"; TGroup Paren [kw "crate"]] true false)) /\
  all_integers U8 ex_entries /\ values_fit U8 ex_entries /\ moderate ex_entries.
Proof.
  split; [vm_compute; reflexivity|]. split; [vm_compute; reflexivity|]. split; [eexists; vm_compute; reflexivity|].
  split; [eexists; vm_compute; reflexivity|].
  assert (N : forall s, existsb (String.eqb s) keywords = false -> names s).
  { intros s E. apply names_keywords. intros H. assert (existsb (String.eqb s) keywords = true) by (apply existsb_exists; exists s; split; [exact H|apply String.eqb_refl]). congruence. }
  split; [|split; [|split]].
  - apply (ic_long ex_is_expr ex_is_type true true (ex_long_form [kw "pub"; TGroup Paren [kw "crate"]] true false) [kw "u8"; ex_comma; kw "u16"] ex_body
      ex_colon (TPunct "<" false) (TPunct ">" true) ex_comma); try (eexists; reflexivity); try (apply N; vm_compute; reflexivity).
    + split; [|reflexivity]. right; right; left. exists "crate"%string. split; [cbn; auto|reflexivity].
    + apply (it_map ex_is_type [kw "u8"] "u8"%string ex_comma [kw "u16"] "u16"%string); [split|split|eexists]; try reflexivity; apply N; vm_compute; reflexivity.
    + assert (E : forall k s v, is_entry ex_is_expr true true [ex_int_tok k s; ex_colon; ex_int_tok v ""] (ex_entry k s v)).
      { intros k s v. apply (ie_map ex_is_expr true [ex_int_tok k s] _ ex_colon [ex_int_tok v ""]); try (left; eexists; split; reflexivity).
        - eexists; reflexivity.
        - intros _ [r [j H]]. discriminate. }
      apply (ip_more _ _ _ _ _ ex_comma _ _ (E 3 ""%string 30)); [eexists; reflexivity|].
      apply (ip_more _ _ _ _ _ ex_comma _ _ (E 200 "u8"%string 2000)); [eexists; reflexivity|].
      apply (ip_more _ _ _ _ _ ex_comma _ _ (E 4 ""%string 40)); [eexists; reflexivity|]. constructor.
  - split.
    + intros e [<-|[<-|[<-|[]]]]; eexists; eexists; (split; [reflexivity|]); cbn; auto 20.
    + intros _. exists (ex_entry 200 "u8" 2000). eexists. eexists. split; [cbn; auto|]. split; [reflexivity|]. cbn; auto 20.
  - intros e v s [<-|[<-|[<-|[]]]] E; injection E as <- <-; reflexivity.
  - split.
    + vm_compute. discriminate.
    + intros e s [<-|[<-|[<-|[]]]] E; discriminate E.
    + intros e1 e2 v1 v2 s1 s2 [<-|[<-|[<-|[]]]] [<-|[<-|[<-|[]]]] E1 E2; injection E1 as <- _; injection E2 as <- _; vm_compute; reflexivity.
Qed.
