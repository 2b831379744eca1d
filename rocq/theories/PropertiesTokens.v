(** Property theorems about printed code (C66, C67): the tokens the emitter prints, read by the grammar of the language and evaluated.
    Statements only; proofs are in [ProofsTokens.v] and [ProofsRun.v]. *)
From Coq Require Import String.
From Verif Require Import ModelUtils ModelAnalyzers ModelTables ModelMaps ModelEmit ModelScalar ModelMacros ModelTypes ModelTokens ModelRun
  Spec SpecEmit SpecMade SpecMacros SpecTypes SpecTokens SpecRun
  ProofsEmitProps ProofsMacros ProofsTypes ProofsTokens ProofsRun Instances PropertiesEmit PropertiesMacros PropertiesTypes.
From Verif Require Import Prelude.

(** ** C66 *)
(** What is printed reads as the syntax of [ModelTypes.v], *)
Theorem C66_tokens_read : forall U X W (key_type : option U) value_type is_ident d (out : output X W) ts,
  usable is_ident (names_of d) -> q_postflight key_type value_type is_ident d out = Ok ts ->
  reads_as ts (print_decl (written key_type) (option_map written value_type) d out).
Proof.
  intros U X W kt vt is_ident d out ts HU. apply (postflight_reads kt vt is_ident d out ts). apply Forall_forall. intros s HI. apply HU, HI.
Qed.
Print Assumptions C66_tokens_read.

(** and as nothing else. *)
Theorem C66_reading_unique : forall U X W (ts : list (qtok U X W)) a b, reads_as ts a -> reads_as ts b -> a = b.
Proof. exact @read_items_fuel_unique. Qed.
Print Assumptions C66_reading_unique.

(** A number is read as itself however it was printed: with or without a suffix, with or without underscores. *)
Theorem C66_literals : forall n suffix, suffix = ""%string \/ In suffix (map fst int_types) ->
  read_literal (decimal n ++ suffix) = Some (n, suffix) /\ read_literal (underscored (decimal n ++ suffix)) = Some (n, suffix).
Proof. intros n suffix H. split; [apply read_plain|apply read_under]; exact H. Qed.
Print Assumptions C66_literals.

(** Printing panics exactly if a name is not an identifier; there is no error for it. *)
Theorem C66_panics_exactly : forall U X W (key_type : option U) value_type is_ident d (out : output X W),
  q_postflight key_type value_type is_ident d out = Panic <-> exists s, In s (names_of d) /\ is_ident s = false.
Proof. exact @postflight_panics. Qed.
Print Assumptions C66_panics_exactly.

(** That every printed collection can be read is false: names are not checked for keywords. *)
Theorem C66_keywords_refuted : exists d (out : output N N) (ts : list (qtok unit N N)),
  q_postflight (Some tt) (Some (Some tt)) (fun _ => true) d out = Ok ts /\ forall items, ~ reads_as ts items.
Proof.
  exists (DeclLet None false "type"), {| o_ctor := CScan 0 []; o_set := false |}. eexists. split; [reflexivity|].
  intros items [n H]. specialize (H (S n) ltac:(lia)). discriminate.
Qed.
Print Assumptions C66_keywords_refuted.

Definition ex_ident (s : string) : bool := negb (String.eqb s "") && negb (String.eqb s "a b").
(** The reader on code that is not emitted: no trailing comma, an optional one, a suffix of its own, a path without the leading [::];
    and code it refuses: a missing comma, a suffix that is no type, tokens left over, a lone underscore in the place of a digit. *)
Example C66_example :
  read_items 20 ([QIdent "let"; QIdent "x"; QPunct Colon; QIdent "A"; QPunct Colon2; QIdent "B"; QPunct Lt; QUnderscore; QPunct Comma; QGroup Paren [];
                 QPunct Gt; QPunct Equals; QGroup Bracket [QLit "1_0_u8"; QPunct Comma; QLit "2"]; QPunct Semi]%string : list (qtok unit N N)) =
    Some [ItLet false "x" (PPath "A::B" [PInfer; PUnit]) (XArray [XInt 10 "u8"; XInt 2 ""])]%string /\
  read_items 20 ([QGroup Bracket [QLit "1"; QPunct Comma; QLit "2"; QPunct Comma]]%string : list (qtok unit N N)) =
    Some [ItExpr (XArray [XInt 1 ""; XInt 2 ""])]%string /\
  read_items 20 ([QGroup Bracket [QLit "1"; QLit "2"]]%string : list (qtok unit N N)) = None /\
  read_items 20 ([QLit "1u9"]%string : list (qtok unit N N)) = None /\
  read_items 20 ([QLit "1"; QLit "2"]%string : list (qtok unit N N)) = None /\
  read_items 20 ([QLit "_1"]%string : list (qtok unit N N)) = None /\
  (decimal 1234567 = "1234567" /\ underscored (decimal 1234567 ++ "usize") = "1_234_567usize" /\ read_literal "1_234_567usize" = Some (1234567, "usize"))%string /\
  usable ex_ident (names_of (DeclStatic "pub" (Some "Map"%string) "MAP" false)) /\
  (* [pub type Map = ..; pub static MAP: Map = ..;] of a scalar collection with keys up to 1000 *)
  match emit_scalar_collection slot_sort Debug 0 ex_id N.compare ex_static (ex_entries [3; 2; 997; 1000]) with
  | Ok (ROk (d, out)) =>
      match q_postflight (Some tt) (Some (Some tt)) ex_ident d out with
      | Ok ts => read_items 40 ts = Some (print_decl (PUser tt) (Some (PUser tt)) d out) /\ ts <> []
      | _ => False
      end
  | _ => False
  end /\
  q_postflight (Some tt) (Some (Some tt)) ex_ident (DeclLet None false "a b") {| o_ctor := CScan (X := N) (W := N) 0 []; o_set := false |} = Panic.
Proof.
  repeat split; try (vm_compute; reflexivity);
  try (match goal with H : In ?s _ |- _ => cbn in H; destruct H as [<-|[<-|[]]]; vm_compute; reflexivity end). vm_compute. discriminate.
Qed.

(** ** C67 *)
(** Compiled and run, printed code is what its constructor call says: it is rejected exactly if [ctor_compiles] says so, and otherwise the
    declared name is the collection of [run_ctor]. *)
Theorem C67_value : forall U X W K V (evK : X -> K) (evV : W -> V) eqR cmpR (key_type : option U) value_type is_ident d (out : output X W) ts,
  usable is_ident (names_of d) -> q_postflight key_type value_type is_ident d out = Ok ts ->
  exists items, reads_as ts items /\
    value_of evK evV eqR cmpR (symbol_of d) items =
    let wrap v := if o_set out then VSet v else v in
    match o_ctor out with
    | CFzHash es => Some (Ok (wrap (VFz "FzHashMap" (eval_entries evK evV es))))
    | CFzScalar es => Some (Ok (wrap (VFz "FzScalarMap" (eval_entries evK evV es))))
    | CFzString es => Some (Ok (wrap (VFz "FzStringMap" (eval_entries evK evV es))))
    | c => if ctor_compiles c then Some (fmap (fun m => wrap (VMap m)) (run_ctor evK evV eqR cmpR c)) else None
    end.
Proof.
  intros U X W K V evK evV eqR cmpR kt vt is_ident d out ts HU E.
  destruct (printed_value evK evV eqR cmpR kt vt is_ident d out ts HU E) as [items [HI HV]]. exists items. split; [exact HI|].
  rewrite (HV _ _ eq_refl eq_refl). cbv zeta. destruct (is_fz (o_ctor out)) eqn:EF.
  - rewrite eval_fz by exact EF. unfold wrapped. destruct (o_ctor out); try discriminate EF; reflexivity.
  - rewrite eval_out by exact EF. unfold wrapped. destruct (o_ctor out); try discriminate EF; reflexivity.
Qed.
Print Assumptions C67_value.

(** From keys and options to answers, through the text. *)
Theorem C67_scalar_collection : forall U KB X W K V Q usort md unit_expr idxB cmpB em (entries : list (entry KB X W))
    (evK : X -> K) (evV : W -> V) eqR cmpR idxK idxQ eqv cmpQ is_ident (key_type : option U) value_type,
  sorts_by_slot usort -> lawful_scalar idxB cmpB -> lawful_query_scalar (Q := Q) idxK idxQ eqv ->
  (forall e, In e entries -> idxK (rt_key evK e) = idxB (fst e)) ->
  span_representable idxB (map fst entries) -> N.of_nat (List.length entries) <= usize_max -> options_consistent em ->
  usable is_ident (option_names em) ->
  prints (emit_scalar_collection usort md unit_expr idxB cmpB em entries) is_ident key_type value_type (em_symbol_name em) (em_has_value_type em)
    evK evV eqR cmpR (rt_ops eqv cmpQ idxQ (scalar_hasher idxQ)) (idx_eq idxK) eqv
    (rt_input evK evV (evV unit_expr) (em_has_value_type em) entries).
Proof. intros. apply emits_prints; [apply emit_scalar_emits; assumption|assumption]. Qed.
Print Assumptions C67_scalar_collection.

Theorem C67_string_collection : forall U X W V usort unit_expr seed (fsB fsR : N -> build_hasher) em (entries : list (entry bytes X W))
    (evK : X -> bytes) (evV : W -> V) eqR cmpR cmpQ idxQ is_ident (key_type : option U) value_type,
  sorts_by_slot usort ->
  (forall s, bh_str (fsR seed) s = bh_str (fsB seed) s) -> (forall s, bh_bytes (fsR seed) s = bh_bytes (fsB seed) s) ->
  (forall e, In e entries -> rt_key evK e = fst e) ->
  (forall e, In e entries -> N.of_nat (List.length (fst e)) <= usize_max) ->
  N.of_nat (List.length entries) <= usize_max -> options_consistent em -> usable is_ident (option_names em) ->
  prints (emit_string_collection usort unit_expr seed fsB em entries) is_ident key_type value_type (em_symbol_name em) (em_has_value_type em)
    evK evV eqR cmpR (rt_ops bytes_eqb cmpQ idxQ (string_hasher fsR)) bytes_eqb bytes_eqb
    (rt_input evK evV (evV unit_expr) (em_has_value_type em) entries).
Proof. intros. apply emits_prints; [apply emit_string_emits; assumption|assumption]. Qed.
Print Assumptions C67_string_collection.

Theorem C67_hash_collection : forall U KB X W K V Q usort unit_expr seed hashB eqB em (entries : list (entry KB X W))
    (evK : X -> K) (evV : W -> V) eqR cmpR eqK eqv cmpQ idxQ hashR is_ident (key_type : option U) value_type,
  sorts_by_slot usort -> lawful_eq eqB -> lawful_hash eqB (hashB seed) -> lawful_eq eqK -> lawful_equivalent (Q := Q) eqK eqv ->
  (forall a b, In a entries -> In b entries -> eqK (rt_key evK a) (rt_key evK b) = eqB (fst a) (fst b)) ->
  (forall q e, In e entries -> eqv q (rt_key evK e) = true -> hashR seed q = hashB seed (fst e)) ->
  N.of_nat (List.length entries) <= usize_max -> options_consistent em -> usable is_ident (option_names em) ->
  prints (emit_hash_collection usort unit_expr seed hashB eqB em entries) is_ident key_type value_type (em_symbol_name em) (em_has_value_type em)
    evK evV eqR cmpR (rt_ops eqv cmpQ idxQ (general_hasher hashR)) eqK eqv
    (rt_input evK evV (evV unit_expr) (em_has_value_type em) entries).
Proof. intros. apply emits_prints; [apply emit_hash_emits; assumption|assumption]. Qed.
Print Assumptions C67_hash_collection.

Theorem C67_ordered_collection : forall U KB X W K V Q unit_expr cmpB em (entries : list (entry KB X W))
    (evK : X -> K) (evV : W -> V) eqR cmpR cmpK cmpQ eqv idxQ hashQ is_ident (key_type : option U) value_type,
  lawful_ord cmpB -> lawful_ord cmpK -> lawful_comparable (Q := Q) cmpK cmpQ -> (forall q k, eqv q k = cmp_eq cmpQ q k) ->
  (forall a b, In a entries -> In b entries -> cmpK (rt_key evK a) (rt_key evK b) = cmpB (fst a) (fst b)) ->
  options_consistent em -> usable is_ident (option_names em) ->
  prints (emit_ordered_collection unit_expr cmpB em entries) is_ident key_type value_type (em_symbol_name em) (em_has_value_type em)
    evK evV eqR cmpR (rt_ops eqv cmpQ idxQ hashQ) (cmp_eq cmpK) eqv
    (rt_input evK evV (evV unit_expr) (em_has_value_type em) entries).
Proof. intros. apply emits_prints; [apply emit_ordered_emits; assumption|assumption]. Qed.
Print Assumptions C67_ordered_collection.

(** The same for the macros with literal keys. *)
Theorem C67_integer_macro : forall U X W (usort : forall T, list (N * T) -> list (N * T)) md (unit_expr : W) seed fixed_state hash_i32,
  (forall T, sorts_by_slot (usort T)) ->
  forall V Q is_map input mk t (evK : expr X -> scalar_value t) (evV : W -> V) eqR cmpR idxQ (eqv : Q -> scalar_value t -> bool) cmpQ
    is_ident (key_type : option U) value_type,
  payload input <> [] -> mk <> MkString -> all_integers t (payload input) -> values_fit t (payload input) -> not_static_mut input ->
  evaluates_integers t evK -> lawful_query_scalar (index_of Ptr64 (int_type_of t)) idxQ eqv ->
  span_representable (index_of Ptr64 (int_type_of t)) (map (fun e => evK (me_key e)) (payload input)) ->
  N.of_nat (List.length (payload input)) <= usize_max -> usable is_ident (input_names input) ->
  prints (fz_macro usort md unit_expr seed fixed_state hash_i32 is_map input mk) is_ident key_type value_type (input_symbol input) is_map
    evK evV eqR cmpR (rt_ops eqv cmpQ idxQ (scalar_hasher idxQ)) (idx_eq (index_of Ptr64 (int_type_of t))) eqv
    (macro_pairs evK evV (evV unit_expr) is_map (payload input)).
Proof. intros. eapply macro_prints; [apply C53_integer_macro; eassumption|assumption]. Qed.
Print Assumptions C67_integer_macro.

Theorem C67_string_macro : forall U X W (usort : forall T, list (N * T) -> list (N * T)) md (unit_expr : W) seed fixed_state hash_i32,
  (forall T, sorts_by_slot (usort T)) ->
  forall V is_map input mk fsR (evK : expr X -> bytes) (evV : W -> V) eqR cmpR cmpQ idxQ is_ident (key_type : option U) value_type,
  payload input <> [] -> mk <> MkScalar -> all_strings (payload input) -> not_static_mut input -> evaluates_strings evK ->
  (forall s, bh_str (fsR seed) s = bh_str (fixed_state seed) s) -> (forall s, bh_bytes (fsR seed) s = bh_bytes (fixed_state seed) s) ->
  (forall e, In e (payload input) -> N.of_nat (List.length (evK (me_key e))) <= usize_max) ->
  N.of_nat (List.length (payload input)) <= usize_max -> usable is_ident (input_names input) ->
  prints (fz_macro usort md unit_expr seed fixed_state hash_i32 is_map input mk) is_ident key_type value_type (input_symbol input) is_map
    evK evV eqR cmpR (rt_ops bytes_eqb cmpQ idxQ (string_hasher fsR)) bytes_eqb bytes_eqb (macro_pairs evK evV (evV unit_expr) is_map (payload input)).
Proof. intros. eapply macro_prints; [apply C54_string_macro; eassumption|assumption]. Qed.
Print Assumptions C67_string_macro.

(** From text to answers: emit, print, read, evaluate, query. *)
Definition ex_through (em : emitter) (keys queries : list N) :=
  match emit_scalar_collection slot_sort Debug 0 ex_id N.compare em (ex_entries keys) with
  | Ok (ROk (d, out)) =>
      match q_postflight (Some tt) (if em_has_value_type em then Some (Some tt) else None) ex_ident d out with
      | Ok ts =>
          match read_items 100 ts with
          | Some items =>
              match value_of (K := N) (V := N) ex_id ex_id N.eqb N.compare (em_symbol_name em) items with
              | Some (Ok (VMap m)) | Some (Ok (VSet (VMap m))) => Some (map (mo_get (rt_ops N.eqb N.compare ex_id (scalar_hasher ex_id)) m) queries)
              | _ => None
              end
          | None => None
          end
      | _ => None
      end
  | _ => None
  end.
Example C67_example :
  ex_through ex_static [3; 2; 4; 5] [1; 2; 5; 6] = Some [Ok None; Ok (Some 7); Ok (Some 50); Ok None] /\
  ex_through ex_static [3; 2; 7; 20] [1; 2; 4; 20; 21] = Some [Ok None; Ok (Some 7); Ok None; Ok (Some 200); Ok None] /\
  ex_through ex_static [3; 2; 7; 2000; 13; 5; 6; 20; 999] [1; 2; 4; 999] = Some [Ok None; Ok (Some 7); Ok None; Ok (Some 9990)] /\
  ex_through ex_set [3; 2; 7; 2000] [1; 2; 2000] = Some [Ok None; Ok (Some 0); Ok (Some 0)] /\
  (* an array one element short, an index too large for its type, no slots *)
  eval (K := N) (V := N) ex_id ex_id N.eqb N.compare (ctor_expr (U := unit) PInfer None {| o_ctor := CScan 2 [(1, 1)]; o_set := false |}) = None /\
  eval (K := N) (V := N) ex_id ex_id N.eqb N.compare
    (ctor_expr (U := unit) PInfer None {| o_ctor := CSparse 1 1 Small [(1, 1)] [256] 1 1; o_set := true |}) = None /\
  eval (K := N) (V := N) ex_id ex_id N.eqb N.compare
    (ctor_expr (U := unit) PInfer None {| o_ctor := CHashNc 0 0 Small [] [] HcScalar; o_set := false |}) = None /\
  usable ex_ident (option_names ex_static) /\ options_consistent ex_static.
Proof.
  repeat split; try (vm_compute; reflexivity);
  try (match goal with H : In ?s _ |- _ => cbn in H; destruct H as [<-|[<-|[]]]; vm_compute; reflexivity end);
  cbn; try discriminate; intros [_ H]; discriminate.
Qed.
