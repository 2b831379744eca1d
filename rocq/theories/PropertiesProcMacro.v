(** Property theorems about the collection macros as functions from tokens to tokens (C70). Statements only; proofs are in
    [ProofsProcMacro.v]. *)
From Coq Require Import String ZArith.
From Verif Require Import ModelUtils ModelAnalyzers ModelTables ModelMaps ModelScalar ModelEmit ModelMacros ModelTypes ModelParsing ModelTokens
  ModelRun ModelProcMacro.
From Verif Require Import Spec SpecEmit SpecMade SpecMacros SpecTypes SpecParsing SpecTokens SpecRun SpecProcMacro.
From Verif Require Import ProofsMacros ProofsParsing ProofsRun ProofsProcMacro Instances PropertiesEmit PropertiesMacros PropertiesParsing.
From Verif Require Import Prelude.

(** ** C70 *)
(** No token stream makes a macro panic. *)
Theorem C70_never_panics : forall X T (is_expr : list token -> expr X -> Prop) (is_type : list token -> T -> Prop) parse_expr parse_type,
  expr_parser is_expr parse_expr -> type_parser is_type parse_type ->
  forall (usort : forall T, list (N * T) -> list (N * T)) md (unit_expr : expr X) seed fixed_state hash_i32 show is_ident,
  (forall T, sorts_by_slot (usort T)) -> seed < 2 ^ 64 ->
  forall is_map ts mk, knows_identifiers is_ident ts ->
  (forall p, is_call is_expr is_type false is_map ts p -> moderate (payload (to_input show p))) ->
  exists r, fz_macro_stream parse_expr parse_type usort md unit_expr seed fixed_state hash_i32 show is_ident is_map ts mk = Ok r.
Proof. intros. eapply stream_total; eauto. Qed.
Print Assumptions C70_never_panics.

(** What is not a call, or a call to be rejected, gives an error. *)
Theorem C70_rejected : forall X T (is_expr : list token -> expr X -> Prop) (is_type : list token -> T -> Prop) parse_expr parse_type,
  expr_parser is_expr parse_expr -> type_parser is_type parse_type ->
  forall (usort : forall T, list (N * T) -> list (N * T)) md (unit_expr : expr X) seed fixed_state hash_i32 show is_ident is_map ts mk,
  (forall p, is_call is_expr is_type false is_map ts p -> rejected mk (to_input show p)) ->
  exists msg, fz_macro_stream parse_expr parse_type usort md unit_expr seed fixed_state hash_i32 show is_ident is_map ts mk = Ok (RErr msg).
Proof. intros. eapply stream_rejected; eauto. Qed.
Print Assumptions C70_rejected.

(** Any other call becomes a program: it declares what the call asks for, and type checks exactly if the call meets the conditions of
    [type_checks]. *)
Theorem C70_accepted : forall X T (is_expr : list token -> expr X -> Prop) (is_type : list token -> T -> Prop) parse_expr parse_type,
  expr_parser is_expr parse_expr -> type_parser is_type parse_type ->
  forall (usort : forall T, list (N * T) -> list (N * T)) md (unit_expr : expr X) seed fixed_state hash_i32 show is_ident,
  (forall T, sorts_by_slot (usort T)) -> seed < 2 ^ 64 ->
  forall is_map ts p mk, is_call is_expr is_type true is_map ts p -> knows_identifiers is_ident ts ->
  ~ rejected mk (to_input show p) -> moderate (payload (to_input show p)) ->
  forall as_ref_str (means : T -> ty -> Prop) (expr_has : X -> ty -> Prop) (value_has : expr X -> ty -> Prop) (const_expr : X -> Prop)
    (const_value : expr X -> Prop) (complete : T -> Prop), value_has unit_expr TUnit -> const_value unit_expr ->
  exists items,
    becomes (fz_macro_stream parse_expr parse_type usort md unit_expr seed fixed_state hash_i32 show is_ident is_map ts mk) items /\
    declares show p items /\
    let checks := accepted as_ref_str means (written_has expr_has) value_has (written_const const_expr) const_value complete [] items in
    match p with
    | PShort _ => checks <-> exists k v, type_checks as_ref_str expr_has value_has const_value mk (to_input show p) k v
    | PLong l => forall k v, types_mean means complete is_map l k v ->
        (checks <-> type_checks as_ref_str expr_has value_has const_value mk (to_input show p) k v)
    end.
Proof. exact @stream_accepted. Qed.
Print Assumptions C70_accepted.

(** There is one such program. *)
Theorem C70_one_program : forall U X W (r : res (result (list (qtok U X W)))) a b, becomes r a -> becomes r b -> a = b.
Proof. intros U X W r a b [ta [Ea Ra]] [tb [Eb Rb]]. rewrite Ea in Eb. injection Eb as <-. eapply read_items_fuel_unique; eassumption. Qed.
Print Assumptions C70_one_program.

(** With integer keys: from the tokens of the call through the tokens of the expansion to the answers of the collection. *)
Theorem C70_integer_call : forall X T (is_expr : list token -> expr X -> Prop) (is_type : list token -> T -> Prop) parse_expr parse_type,
  expr_parser is_expr parse_expr -> type_parser is_type parse_type ->
  forall (usort : forall T, list (N * T) -> list (N * T)) md (unit_expr : expr X) seed fixed_state hash_i32 show is_ident,
  (forall T, sorts_by_slot (usort T)) -> seed < 2 ^ 64 ->
  forall is_map ts p mk t, is_call is_expr is_type true is_map ts p -> knows_identifiers is_ident ts ->
  let entries := payload (to_input show p) in
  entries <> [] -> mk <> MkString -> all_integers t entries -> values_fit t entries -> moderate entries ->
  forall V Q (evK : expr X -> scalar_value t) (evV : expr X -> V) eqR cmpR idxQ (eqv : Q -> scalar_value t -> bool) cmpQ,
  evaluates_integers t evK -> lawful_query_scalar (index_of Ptr64 (int_type_of t)) idxQ eqv ->
  exists items,
    becomes (fz_macro_stream parse_expr parse_type usort md unit_expr seed fixed_state hash_i32 show is_ident is_map ts mk) items /\
    value_answers (value_of evK evV eqR cmpR (call_symbol p) items) is_map (rt_ops eqv cmpQ idxQ (scalar_hasher idxQ))
      (idx_eq (index_of Ptr64 (int_type_of t))) eqv (macro_pairs evK evV (evV unit_expr) is_map entries).
Proof. intros. eapply stream_answers; eauto. eapply C58_integer_call; eauto. Qed.
Print Assumptions C70_integer_call.

(** With string keys. *)
Theorem C70_string_call : forall X T (is_expr : list token -> expr X -> Prop) (is_type : list token -> T -> Prop) parse_expr parse_type,
  expr_parser is_expr parse_expr -> type_parser is_type parse_type ->
  forall (usort : forall T, list (N * T) -> list (N * T)) md (unit_expr : expr X) seed fixed_state hash_i32 show is_ident,
  (forall T, sorts_by_slot (usort T)) -> seed < 2 ^ 64 ->
  forall is_map ts p mk, is_call is_expr is_type true is_map ts p -> knows_identifiers is_ident ts ->
  let entries := payload (to_input show p) in
  entries <> [] -> mk <> MkScalar -> all_strings entries -> moderate entries ->
  forall V fsR (evK : expr X -> bytes) (evV : expr X -> V) eqR cmpR cmpQ idxQ,
  evaluates_strings evK ->
  (forall s, bh_str (fsR seed) s = bh_str (fixed_state seed) s) -> (forall s, bh_bytes (fsR seed) s = bh_bytes (fixed_state seed) s) ->
  exists items,
    becomes (fz_macro_stream parse_expr parse_type usort md unit_expr seed fixed_state hash_i32 show is_ident is_map ts mk) items /\
    value_answers (value_of evK evV eqR cmpR (call_symbol p) items) is_map (rt_ops bytes_eqb cmpQ idxQ (string_hasher fsR))
      bytes_eqb bytes_eqb (macro_pairs evK evV (evV unit_expr) is_map entries).
Proof. intros. eapply stream_answers; eauto. eapply C58_string_call; eauto. Qed.
Print Assumptions C70_string_call.

(** With no entries: an empty collection, if there are types to go by. *)
Theorem C70_empty_call : forall X T (is_expr : list token -> expr X -> Prop) (is_type : list token -> T -> Prop) parse_expr parse_type,
  expr_parser is_expr parse_expr -> type_parser is_type parse_type ->
  forall (usort : forall T, list (N * T) -> list (N * T)) md (unit_expr : expr X) seed fixed_state hash_i32 show is_ident,
  (forall T, sorts_by_slot (usort T)) -> seed < 2 ^ 64 ->
  forall is_map ts l mk, is_call is_expr is_type true is_map ts (PLong l) -> knows_identifiers is_ident ts -> lf_payload l = [] ->
  forall K V Q (evK : expr X -> K) (evV : expr X -> V) eqR cmpR eqK (eqv : Q -> K -> bool) cmpQ idxQ hashR,
  lawful_eq eqK -> lawful_equivalent eqK eqv ->
  exists items,
    becomes (fz_macro_stream parse_expr parse_type usort md unit_expr seed fixed_state hash_i32 show is_ident is_map ts mk) items /\
    value_answers (value_of evK evV eqR cmpR (Some (lf_var_name l)) items) is_map (rt_ops eqv cmpQ idxQ (general_hasher hashR)) eqK eqv [].
Proof.
  intros X T ie it pe pt PE PT usort md u seed fs h show id HU HS is_map ts l mk H KI EL K V Q evK evV eqR cmpR eqK eqv cmpQ idxQ hashR LE LV.
  change (Some (lf_var_name l)) with (call_symbol (PLong l)). eapply stream_answers; eauto.
  rewrite (tokens_parsed _ _ _ _ PE PT _ _ _ _ _ _ _ _ _ _ _ H). destruct (call_form _ _ _ _ show _ _ H) as [_ O].
  apply C55_empty_macro; auto.
Qed.
Print Assumptions C70_empty_call.

(** With keys that are expressions, the four kinds of collection. Few entries are scanned, and equal keys are noticed when the
    collection is made. *)
Theorem C70_hashed_call : forall X T (is_expr : list token -> expr X -> Prop) (is_type : list token -> T -> Prop) parse_expr parse_type,
  expr_parser is_expr parse_expr -> type_parser is_type parse_type ->
  forall (usort : forall T, list (N * T) -> list (N * T)) md (unit_expr : expr X) seed fixed_state hash_i32 show is_ident,
  (forall T, sorts_by_slot (usort T)) -> seed < 2 ^ 64 ->
  forall is_map ts p mk, is_call is_expr is_type true is_map ts p -> knows_identifiers is_ident ts ->
  let entries := payload (to_input show p) in
  entries <> [] -> acceptable mk entries -> moderate entries ->
  forall K V Q (evK : expr X -> K) (evV : expr X -> V) eqR cmpR (eqv : Q -> K -> bool) cmpQ idxQ hashQ hK hQ srt,
  kind_selected mk entries EffHashed ->
  sorts_by_slot srt -> lawful_eq eqR -> lawful_equivalent eqR eqv -> lawful_hash eqR hK -> lawful_query_hash eqv hQ hK ->
  let pairs := macro_pairs evK evV (evV unit_expr) is_map entries in
  exists items, becomes (fz_macro_stream parse_expr parse_type usort md unit_expr seed fixed_state hash_i32 show is_ident is_map ts mk) items /\
    let v := value_of evK evV eqR cmpR (call_symbol p) items in
    if Nat.ltb (List.length entries) 4 then value_answers_or_panics v is_map (rt_ops eqv cmpQ idxQ hashQ) eqR eqv pairs
    else value_made v is_map "FzHashMap" (fz_hash_map_with_hasher srt eqR hK pairs) (hash_ops (fun q => Ok (hQ q)) eqv) eqR eqv pairs.
Proof. exact @hashed_call. Qed.
Print Assumptions C70_hashed_call.

Theorem C70_ordered_call : forall X T (is_expr : list token -> expr X -> Prop) (is_type : list token -> T -> Prop) parse_expr parse_type,
  expr_parser is_expr parse_expr -> type_parser is_type parse_type ->
  forall (usort : forall T, list (N * T) -> list (N * T)) md (unit_expr : expr X) seed fixed_state hash_i32 show is_ident,
  (forall T, sorts_by_slot (usort T)) -> seed < 2 ^ 64 ->
  forall is_map ts p mk, is_call is_expr is_type true is_map ts p -> knows_identifiers is_ident ts ->
  let entries := payload (to_input show p) in
  entries <> [] -> acceptable mk entries ->
  forall K V Q (evK : expr X -> K) (evV : expr X -> V) eqR cmpK (eqv : Q -> K -> bool) cmpQ idxQ hashQ,
  kind_selected mk entries EffOrdered ->
  lawful_ord cmpK -> lawful_comparable cmpK cmpQ -> (forall a b, eqR a b = cmp_eq cmpK a b) -> (forall q k, eqv q k = cmp_eq cmpQ q k) ->
  exists items, becomes (fz_macro_stream parse_expr parse_type usort md unit_expr seed fixed_state hash_i32 show is_ident is_map ts mk) items /\
    value_answers_or_panics (value_of evK evV eqR cmpK (call_symbol p) items) is_map (rt_ops eqv cmpQ idxQ hashQ) (cmp_eq cmpK) eqv
      (macro_pairs evK evV (evV unit_expr) is_map entries).
Proof. exact @ordered_call. Qed.
Print Assumptions C70_ordered_call.

Theorem C70_scalar_call : forall X T (is_expr : list token -> expr X -> Prop) (is_type : list token -> T -> Prop) parse_expr parse_type,
  expr_parser is_expr parse_expr -> type_parser is_type parse_type ->
  forall (usort : forall T, list (N * T) -> list (N * T)) md (unit_expr : expr X) seed fixed_state hash_i32 show is_ident,
  (forall T, sorts_by_slot (usort T)) -> seed < 2 ^ 64 ->
  forall is_map ts p mk, is_call is_expr is_type true is_map ts p -> knows_identifiers is_ident ts ->
  let entries := payload (to_input show p) in
  entries <> [] -> acceptable mk entries ->
  forall K V Q (evK : expr X -> K) (evV : expr X -> V) idxK cmpK cmpR (eqv : Q -> K -> bool) cmpQ idxQ hashQ srt mode,
  kind_selected mk entries LiteralAndExpressionScalars ->
  sorts_by_slot srt -> lawful_scalar idxK cmpK -> lawful_query_scalar idxK idxQ eqv ->
  span_representable idxK (map (fun e => evK (me_key e)) entries) ->
  let pairs := macro_pairs evK evV (evV unit_expr) is_map entries in
  exists items, becomes (fz_macro_stream parse_expr parse_type usort md unit_expr seed fixed_state hash_i32 show is_ident is_map ts mk) items /\
    let v := value_of evK evV (idx_eq idxK) cmpR (call_symbol p) items in
    if Nat.ltb (List.length entries) 8 then value_answers_or_panics v is_map (rt_ops eqv cmpQ idxQ hashQ) (idx_eq idxK) eqv pairs
    else value_made v is_map "FzScalarMap" (fz_scalar_map_new srt mode idxK cmpK pairs) (fz_scalar_ops idxQ eqv) (idx_eq idxK) eqv pairs.
Proof. exact @scalar_call. Qed.
Print Assumptions C70_scalar_call.

Theorem C70_string_expr_call : forall X T (is_expr : list token -> expr X -> Prop) (is_type : list token -> T -> Prop) parse_expr parse_type,
  expr_parser is_expr parse_expr -> type_parser is_type parse_type ->
  forall (usort : forall T, list (N * T) -> list (N * T)) md (unit_expr : expr X) seed fixed_state hash_i32 show is_ident,
  (forall T, sorts_by_slot (usort T)) -> seed < 2 ^ 64 ->
  forall is_map ts p mk, is_call is_expr is_type true is_map ts p -> knows_identifiers is_ident ts ->
  let entries := payload (to_input show p) in
  entries <> [] -> acceptable mk entries -> moderate entries ->
  forall V (evK : expr X -> bytes) (evV : expr X -> V) cmpR cmpQ idxQ hashQ srt bh,
  kind_selected mk entries LiteralAndExpressionStrings ->
  sorts_by_slot srt -> (forall e, In e entries -> N.of_nat (List.length (evK (me_key e))) <= usize_max) ->
  let pairs := macro_pairs evK evV (evV unit_expr) is_map entries in
  exists items, becomes (fz_macro_stream parse_expr parse_type usort md unit_expr seed fixed_state hash_i32 show is_ident is_map ts mk) items /\
    let v := value_of evK evV bytes_eqb cmpR (call_symbol p) items in
    if Nat.ltb (List.length entries) 4 then value_answers_or_panics v is_map (rt_ops bytes_eqb cmpQ idxQ hashQ) bytes_eqb bytes_eqb pairs
    else value_made v is_map "FzStringMap" (fz_string_map_with_hasher srt bh pairs) fz_string_ops bytes_eqb bytes_eqb pairs.
Proof. exact @string_expr_call. Qed.
Print Assumptions C70_string_expr_call.

(** The calls of [C57_example] and [C58_example], and one with names as keys, from text to text to answers. *)
Definition ex_is_ident (s : string) : bool := negb (String.eqb s "").
Definition ex_stream (is_map : bool) (ts : list token) (mk : macro_kind) :=
  fz_macro_stream ex_parse_expr parse_ident ex_usort Debug (EOther "()"%string) 5 ex_bh (fun _ _ => 0) ex_show ex_is_ident is_map ts mk.
Definition ex_items (r : res (result (list (qtok string (expr string) (expr string))))) :=
  match r with Ok (ROk ts) => read_items 60 ts | _ => None end.
Definition ex_int_answers (symbol : option string) (ts : list token) (mk : macro_kind) (queries : list N) :=
  match ex_items (ex_stream true ts mk) with
  | Some items =>
      match value_of (V := N) ex_read_u8 ex_value (idx_eq ex_idx) (fun a b => N.compare (ex_idx a) (ex_idx b)) symbol items with
      | Some (Ok (VMap m)) => Some (map (mo_get (rt_ops ex_eq8 ex_cmp8 ex_id (scalar_hasher ex_id)) m) queries)
      | _ => None
      end
  | None => None
  end.
Definition ex_names (keys : list string) : list token :=
  [TGroup ModelParsing.Brace (flat_map (fun s => [kw s; ex_colon; ex_int_tok (N.of_nat (String.length s)) ""; ex_comma]) keys)].
Definition ex_name_value (e : expr string) : N := match e with EOther s => N.of_nat (String.length s) | _ => 0 end.
Definition ex_name_run (ts : list token) :=
  match ex_items (ex_stream true ts MkHashed) with
  | Some items => value_of ex_name_value ex_value N.eqb N.compare None items
  | None => None
  end.
Example C70_example :
  ex_int_answers (Some "COLORS"%string) ex_static MkScalar [3; 5; 200] = Some [Ok (Some 30); Ok None; Ok (Some 2000)] /\
  ex_int_answers (Some "COLORS"%string) (ex_decl [kw "let"; kw "mut"]) MkHashed [4; 2] = Some [Ok (Some 40); Ok None] /\
  ex_int_answers None [TGroup ModelParsing.Brace ex_body] MkOrdered [200] = Some [Ok (Some 2000)] /\
  (* names as keys: scanned, equal keys found at run time, more than three *)
  (exists m, ex_name_run (ex_names ["a"; "bb"]%string) = Some (Ok (VMap m)) /\
     map (mo_get (rt_ops N.eqb N.compare ex_id (fun _ _ => Ok 0)) m) [0; 1; 2] = [Ok None; Ok (Some 1); Ok (Some 2)]) /\
  ex_name_run (ex_names ["a"; "bb"; "cc"]%string) = Some Panic /\
  ex_name_run (ex_names ["a"; "bb"; "cc"; "dddd"; "eeeee"]%string) = Some (Ok (VFz "FzHashMap" [(1, 1); (2, 2); (2, 2); (4, 4); (5, 5)])) /\
  (* not a call; a call to be rejected *)
  (exists msg, ex_stream true [kw "static"] MkHashed = Ok (RErr msg)) /\
  (exists msg, ex_stream true ex_static MkString = Ok (RErr msg)) /\
  knows_identifiers ex_is_ident ex_static.
Proof.
  split; [vm_compute; reflexivity|]. split; [vm_compute; reflexivity|]. split; [vm_compute; reflexivity|].
  split; [eexists; split; vm_compute; reflexivity|]. split; [vm_compute; reflexivity|]. split; [vm_compute; reflexivity|].
  split; [eexists; vm_compute; reflexivity|]. split; [eexists; vm_compute; reflexivity|].
  intros s H. repeat (destruct H as [H|H]; [try discriminate H; injection H as <-; reflexivity|]). destruct H.
Qed.
