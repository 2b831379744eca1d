(** Property theorems about the collection macros (C39, C53-C55). Statements only; proofs are in [ProofsMacros.v]. *)
From Coq Require Import String ZArith Permutation.
From Verif Require Import ModelUtils ModelAnalyzers ModelTables ModelMaps ModelScalar ModelEmit ModelMacros
  Spec SpecEmit SpecMade SpecMacros ProofsBase ProofsScalarIndex ProofsMacros ProofsMacroErrors Instances PropertiesEmit.
From Verif Require Import Prelude.

(** ** C39 *)
(** The kind of collection does not depend on the order of the keys, in any of the four kinds of macro. *)
Theorem C39_kind_order : forall X W mk (entries entries' : list (m_entry X W)), Permutation entries entries' ->
  forall kind, assess_keys entries mk = ROk kind <-> assess_keys entries' mk = ROk kind.
Proof.
  intros X W mk es es' P kind. pose proof (assess_keys_order mk es es' P) as O.
  destruct (assess_keys es mk), (assess_keys es' mk); cbn in O; split; congruence.
Qed.
Print Assumptions C39_kind_order.

(** Neither does whether a whole macro call is rejected. *)
Theorem C39_rejection_order : forall X W usort md (unit_expr : W) seed fixed_state hash_i32 is_map mk (input : macro_input (X := X)) entries,
  not_static_mut input -> Permutation (payload input) entries ->
  let fz i := fz_macro usort md unit_expr seed fixed_state hash_i32 is_map i mk in
  (exists msg, fz input = Ok (RErr msg)) <-> (exists msg, fz (with_payload input entries) = Ok (RErr msg)).
Proof.
  intros X W usort md u seed fs h is_map mk input es HO P fz. unfold fz.
  assert (HO' : not_static_mut (with_payload input es)) by (destruct input; exact HO).
  rewrite !rejected_exactly by assumption. split; intros H.
  - apply rejected_perm; assumption.
  - assert (E : input = with_payload (with_payload input es) (payload input)) by (destruct input; reflexivity).
    rewrite E. apply rejected_perm; [|exact H]. destruct input; apply Permutation_sym; exact P.
Qed.
Print Assumptions C39_rejection_order.

(** The keys that are accepted: literals are strings or integers with a known suffix, no strings in a scalar macro, no integers in a
    string macro, no two different suffixes. *)
Theorem C39_accepted_exactly : forall X W mk (entries : list (m_entry X W)),
  (exists kind, assess_keys entries mk = ROk kind) <-> acceptable mk entries.
Proof. exact @assess_accepts. Qed.
Print Assumptions C39_accepted_exactly.

(** Which message is reported for the other ones: that of the first key that does not go with those before it. *)
Theorem C39_message_exactly : forall X W mk (entries : list (m_entry X W)) msg, assess_keys entries mk = RErr msg <->
  exists before e after, entries = before ++ e :: after /\ acceptable mk before /\ complaint mk before e msg.
Proof. exact @assess_errors. Qed.
Print Assumptions C39_message_exactly.

(** The kind selected for them. *)
Theorem C39_kind_exactly : forall X W mk (entries : list (m_entry X W)), entries <> [] -> acceptable mk entries ->
  forall kind, assess_keys entries mk = ROk kind <-> kind_selected mk entries kind.
Proof. exact @selection. Qed.
Print Assumptions C39_kind_exactly.

(** Mixtures are rejected. *)
Theorem C39_mixtures_rejected : forall X W usort md (unit_expr : W) seed fixed_state hash_i32 is_map mk (input : macro_input (X := X)) e1 e2 v1 s1,
  In e1 (payload input) -> In e2 (payload input) -> literal_of (me_key e1) = Some (LitInt v1 s1) ->
  ((mk = MkScalar \/ mk = MkString) /\ (exists s2, literal_of (me_key e2) = Some (LitStr s2))) \/
  (exists v2 s2, literal_of (me_key e2) = Some (LitInt v2 s2) /\ s1 <> ""%string /\ s2 <> ""%string /\ s1 <> s2) ->
  exists msg, fz_macro usort md unit_expr seed fixed_state hash_i32 is_map input mk = Ok (RErr msg).
Proof.
  intros X W usort md u seed fs h is_map mk input e1 e2 v1 s1 H1 H2 L1 H. apply fz_reject.
  - intros E. rewrite E in H1. destruct H1.
  - intros [A1 A2 A3 A4]. destruct H as [[[->| ->] [s2 L2]]|[v2 [s2 [L2 [N1 [N2 N3]]]]]].
    + exact (A2 eq_refl _ _ H2 L2).
    + exact (A3 eq_refl _ _ _ H1 L1).
    + destruct (A4 _ _ _ _ _ _ H1 H2 L1 L2) as [|[|]]; congruence.
Qed.
Print Assumptions C39_mixtures_rejected.

Definition ex_int (v : N) (s : string) : m_entry N N := {| me_key := ELit (LitInt v s); me_value := Some (v * 10) |}.
Definition ex_str (s : bytes) : m_entry N N := {| me_key := EGroup (ELit (LitStr s)); me_value := Some 1 |}.
Definition ex_expr (x : N) : m_entry N N := {| me_key := EOther x; me_value := Some x |}.
Example C39_example :
  map (fun es => assess_keys es MkScalar) [[ex_int 1 ""; ex_int 2 "u8"]; [ex_int 2 "u8"; ex_int 1 ""]; [ex_int 1 ""]; [ex_int 1 "u8"; ex_expr 4]; [ex_expr 4]] =
    map ROk [AllLiteralScalars U8; AllLiteralScalars U8; AllLiteralScalars Undecided; LiteralAndExpressionScalars; LiteralAndExpressionScalars] /\
  map (fun es => assess_keys es MkString) [[ex_str [1]; ex_str []]; [ex_str [1]; ex_expr 4]; [ex_expr 4]] =
    map ROk [AllLiteralStrings; LiteralAndExpressionStrings; LiteralAndExpressionStrings] /\
  assess_keys [ex_int 1 "u8"; ex_int 1 "i8"] MkScalar = RErr "incompatible scalar literal type" /\
  assess_keys [ex_int 1 ""; ex_str []] MkScalar = RErr "scalar macro cannot contain string keys" /\
  assess_keys [ex_str []; ex_int 1 ""] MkString = RErr "string macro cannot contain scalar keys" /\
  assess_keys [ex_int 1 "u128"] MkScalar = RErr "unknown suffix u128 for scalar value" /\
  assess_keys [ex_expr 1] MkHashed = ROk EffHashed /\ assess_keys [ex_expr 1] MkOrdered = ROk EffOrdered /\
  (* a hashed macro takes mixed literals, as an expression of strings *)
  assess_keys [ex_int 1 ""; ex_str []] MkHashed = ROk LiteralAndExpressionStrings /\
  acceptable MkScalar [ex_int 1 ""; ex_int 2 "u8"; ex_expr 3] /\ ~ acceptable MkScalar [ex_int 1 "i8"; ex_int 2 "u8"; ex_expr 3].
Proof.
  repeat split; try (vm_compute; reflexivity).
  all: try (intros A; apply assess_accepts in A; destruct A as [k A]; vm_compute in A; discriminate).
  all: assert (A : acceptable MkScalar [ex_int 1 ""; ex_int 2 "u8"; ex_expr 3]) by (apply assess_accepts; eexists; vm_compute; reflexivity); apply A.
Qed.

(** ** C53 *)
Theorem C53_integer_macro : forall X W (usort : forall T, list (N * T) -> list (N * T)) md (unit_expr : W) seed fixed_state hash_i32,
  (forall T, sorts_by_slot (usort T)) ->
  forall V Q is_map input mk t (evK : expr X -> scalar_value t) (evV : W -> V) eqR cmpR idxQ (eqv : Q -> scalar_value t -> bool) cmpQ,
  payload input <> [] -> mk <> MkString -> all_integers t (payload input) -> values_fit t (payload input) -> not_static_mut input ->
  evaluates_integers t evK -> lawful_query_scalar (index_of Ptr64 (int_type_of t)) idxQ eqv ->
  span_representable (index_of Ptr64 (int_type_of t)) (map (fun e => evK (me_key e)) (payload input)) ->
  N.of_nat (List.length (payload input)) <= usize_max ->
  macro_emits (fz_macro usort md unit_expr seed fixed_state hash_i32 is_map input mk) input is_map false evK evV eqR cmpR
    (rt_ops eqv cmpQ idxQ (scalar_hasher idxQ)) (idx_eq (index_of Ptr64 (int_type_of t))) eqv
    (macro_pairs evK evV (evV unit_expr) is_map (payload input)).
Proof. intros X W usort md u seed fs h HU V Q. apply integers_emit. exact HU. Qed.
Print Assumptions C53_integer_macro.

Theorem C53_rejected_exactly : forall X W usort md (unit_expr : W) seed fixed_state hash_i32 is_map (input : macro_input (X := X)) mk,
  not_static_mut input ->
  (exists msg, fz_macro usort md unit_expr seed fixed_state hash_i32 is_map input mk = Ok (RErr msg)) <-> rejected mk input.
Proof. exact @rejected_exactly. Qed.
Print Assumptions C53_rejected_exactly.

(** With which message: complaints about the keys come before those about their values. *)
Theorem C53_message_exactly : forall X W usort md (unit_expr : W) seed fixed_state hash_i32 is_map (input : macro_input (X := X)) mk msg,
  not_static_mut input ->
  fz_macro usort md unit_expr seed fixed_state hash_i32 is_map input mk = Ok (RErr msg) <-> rejected_with mk input msg.
Proof. exact @messages. Qed.
Print Assumptions C53_message_exactly.

(** The type a suffix stands for has the range of that type. *)
Theorem C53_types : forall p t v, in_type p (int_type_of t) v = true <-> (fst (int_range p t) <= v <= snd (int_range p t))%Z.
Proof. exact in_type_range. Qed.
Print Assumptions C53_types.

(** ** C54 *)
Theorem C54_string_macro : forall X W (usort : forall T, list (N * T) -> list (N * T)) md (unit_expr : W) seed fixed_state hash_i32,
  (forall T, sorts_by_slot (usort T)) ->
  forall V is_map input mk fsR (evK : expr X -> bytes) (evV : W -> V) eqR cmpR cmpQ idxQ,
  payload input <> [] -> mk <> MkScalar -> all_strings (payload input) -> not_static_mut input -> evaluates_strings evK ->
  (forall s, bh_str (fsR seed) s = bh_str (fixed_state seed) s) -> (forall s, bh_bytes (fsR seed) s = bh_bytes (fixed_state seed) s) ->
  (forall e, In e (payload input) -> N.of_nat (List.length (evK (me_key e))) <= usize_max) ->
  N.of_nat (List.length (payload input)) <= usize_max ->
  macro_emits (fz_macro usort md unit_expr seed fixed_state hash_i32 is_map input mk) input is_map false evK evV eqR cmpR
    (rt_ops bytes_eqb cmpQ idxQ (string_hasher fsR)) bytes_eqb bytes_eqb (macro_pairs evK evV (evV unit_expr) is_map (payload input)).
Proof. intros X W usort md u seed fs h HU V. apply strings_emit. exact HU. Qed.
Print Assumptions C54_string_macro.

(** ** C55 *)
Theorem C55_hashed_macro : forall X W usort md (unit_expr : W) seed fixed_state hash_i32 K V Q is_map (input : macro_input (X := X)) mk,
  payload input <> [] -> acceptable mk (payload input) -> well_formed is_map (payload input) -> not_static_mut input ->
  forall (evK : expr X -> K) (evV : W -> V) eqR cmpR (eqv : Q -> K -> bool) cmpQ idxQ hashQ hK hQ srt,
  kind_selected mk (payload input) EffHashed ->
  sorts_by_slot srt -> lawful_eq eqR -> lawful_equivalent eqR eqv -> lawful_hash eqR hK -> lawful_query_hash eqv hQ hK ->
  N.of_nat (List.length (payload input)) <= usize_max ->
  let pairs := macro_pairs evK evV (evV unit_expr) is_map (payload input) in
  macro_expands (fz_macro usort md unit_expr seed fixed_state hash_i32 is_map input mk) input is_map (fun c =>
    if Nat.ltb (List.length (payload input)) 4
    then exact_or_panic (run_ctor evK evV eqR cmpR c) (rt_ops eqv cmpQ idxQ hashQ) eqR eqv pairs
    else exists m, run_fz_hash srt evK evV eqR hK c = Ok m /\ answers (hash_ops (fun q => Ok (hQ q)) eqv) eqR eqv m pairs).
Proof. exact @hashed_expands. Qed.
Print Assumptions C55_hashed_macro.

Theorem C55_ordered_macro : forall X W usort md (unit_expr : W) seed fixed_state hash_i32 K V Q is_map (input : macro_input (X := X)) mk,
  payload input <> [] -> acceptable mk (payload input) -> well_formed is_map (payload input) -> not_static_mut input ->
  forall (evK : expr X -> K) (evV : W -> V) eqR cmpK (eqv : Q -> K -> bool) cmpQ idxQ hashQ,
  kind_selected mk (payload input) EffOrdered ->
  lawful_ord cmpK -> lawful_comparable cmpK cmpQ -> (forall a b, eqR a b = cmp_eq cmpK a b) -> (forall q k, eqv q k = cmp_eq cmpQ q k) ->
  macro_expands (fz_macro usort md unit_expr seed fixed_state hash_i32 is_map input mk) input is_map (fun c =>
    exact_or_panic (run_ctor evK evV eqR cmpK c) (rt_ops eqv cmpQ idxQ hashQ) (cmp_eq cmpK) eqv
      (macro_pairs evK evV (evV unit_expr) is_map (payload input))).
Proof. exact @ordered_expands. Qed.
Print Assumptions C55_ordered_macro.

Theorem C55_scalar_macro : forall X W usort md (unit_expr : W) seed fixed_state hash_i32 K V Q is_map (input : macro_input (X := X)) mk,
  payload input <> [] -> acceptable mk (payload input) -> well_formed is_map (payload input) -> not_static_mut input ->
  forall (evK : expr X -> K) (evV : W -> V) idxK cmpK cmpR (eqv : Q -> K -> bool) cmpQ idxQ hashQ srt mode,
  kind_selected mk (payload input) LiteralAndExpressionScalars ->
  sorts_by_slot srt -> lawful_scalar idxK cmpK -> lawful_query_scalar idxK idxQ eqv ->
  span_representable idxK (map (fun e => evK (me_key e)) (payload input)) ->
  let pairs := macro_pairs evK evV (evV unit_expr) is_map (payload input) in
  macro_expands (fz_macro usort md unit_expr seed fixed_state hash_i32 is_map input mk) input is_map (fun c =>
    if Nat.ltb (List.length (payload input)) 8
    then exact_or_panic (run_ctor evK evV (idx_eq idxK) cmpR c) (rt_ops eqv cmpQ idxQ hashQ) (idx_eq idxK) eqv pairs
    else exists m, run_fz_scalar srt mode evK evV idxK cmpK c = Ok m /\ answers (fz_scalar_ops idxQ eqv) (idx_eq idxK) eqv m pairs).
Proof. exact @scalars_expands. Qed.
Print Assumptions C55_scalar_macro.

Theorem C55_string_macro : forall X W usort md (unit_expr : W) seed fixed_state hash_i32 V is_map (input : macro_input (X := X)) mk
    (evK : expr X -> bytes) (evV : W -> V) cmpR cmpQ idxQ hashQ srt bh,
  payload input <> [] -> acceptable mk (payload input) -> well_formed is_map (payload input) -> not_static_mut input ->
  kind_selected mk (payload input) LiteralAndExpressionStrings ->
  sorts_by_slot srt -> (forall e, In e (payload input) -> N.of_nat (List.length (evK (me_key e))) <= usize_max) ->
  N.of_nat (List.length (payload input)) <= usize_max ->
  let pairs := macro_pairs evK evV (evV unit_expr) is_map (payload input) in
  macro_expands (fz_macro usort md unit_expr seed fixed_state hash_i32 is_map input mk) input is_map (fun c =>
    if Nat.ltb (List.length (payload input)) 4
    then exact_or_panic (run_ctor evK evV bytes_eqb cmpR c) (rt_ops bytes_eqb cmpQ idxQ hashQ) bytes_eqb bytes_eqb pairs
    else exists m, run_fz_string srt bh evK evV c = Ok m /\ answers fz_string_ops bytes_eqb bytes_eqb m pairs).
Proof. exact @strings_expands. Qed.
Print Assumptions C55_string_macro.

Theorem C55_empty_macro : forall X W (usort : forall T, list (N * T) -> list (N * T)) md (unit_expr : W) seed fixed_state hash_i32,
  (forall T, sorts_by_slot (usort T)) ->
  forall K V Q is_map input mk (evK : expr X -> K) (evV : W -> V) eqR cmpR eqK (eqv : Q -> K -> bool) cmpQ idxQ hashR,
  payload input = [] -> typed input = true -> not_static_mut input -> lawful_eq eqK -> lawful_equivalent eqK eqv ->
  macro_emits (fz_macro usort md unit_expr seed fixed_state hash_i32 is_map input mk) input is_map false evK evV eqR cmpR
    (rt_ops eqv cmpQ idxQ (general_hasher hashR)) eqK eqv [].
Proof. intros X W usort md u seed fs h HU K V Q. apply empty_long. exact HU. Qed.
Print Assumptions C55_empty_macro.

(** Macro calls from text to answers: numbers as other expressions and as values; literals evaluate to themselves. *)
Definition ex_usort (T : Type) : list (N * T) -> list (N * T) := slot_sort.
Definition ex_fz (is_map : bool) (input : macro_input (X := N) (W := N)) (mk : macro_kind) :=
  fz_macro ex_usort Debug 0 5 ex_bh (fun _ _ => 0) is_map input mk.
Lemma u8_fits (x : N) : in_type Ptr64 (int_type_of U8) (Z.of_N (x mod 256)) = true.
Proof. pose proof (N.mod_lt x 256). unfold in_type, int_type_of. cbn [it_signed it_nonzero it_width width_bits]. lia. Qed.
Definition ex_u8 (x : N) : scalar_value U8 := exist _ _ (u8_fits x).
Fixpoint ex_eval_u8 (e : expr N) : scalar_value U8 :=
  match e with ELit (LitInt v _) => ex_u8 v | ELit _ => ex_u8 0 | EGroup e => ex_eval_u8 e | EOther x => ex_u8 x end.
Fixpoint ex_eval_bytes (e : expr N) : bytes :=
  match e with ELit (LitStr s) => s | ELit _ => [] | EGroup e => ex_eval_bytes e | EOther x => [x] end.
Lemma ex_evaluates : evaluates_integers U8 ex_eval_u8 /\ evaluates_strings ex_eval_bytes.
Proof.
  split; (split; [|reflexivity]); [|reflexivity]. intros v s H. cbn. unfold in_type, int_type_of in H. cbn [it_signed it_nonzero it_width width_bits] in H.
  rewrite N.mod_small; lia.
Qed.
Notation ex_idx := (index_of Ptr64 (int_type_of U8)).
Definition ex_eq8 (q : N) (k : scalar_value U8) : bool := q =? ex_idx k.
Definition ex_cmp8 (q : N) (k : scalar_value U8) : comparison := q ?= ex_idx k.

Definition ex_short : macro_input := ShortForm [ex_int 3 ""; ex_int 200 "u8"; ex_int 4 ""; ex_int 3 "u8"].
Definition ex_long (es : list (m_entry N N)) : macro_input := LongForm "M" "T" es "pub" true false.
Definition ex_answers8 (r : res (result (decl * output (expr N) N))) (queries : list N) :=
  match r with
  | Ok (ROk (d, out)) =>
      match run_ctor (V := N) ex_eval_u8 ex_id (idx_eq ex_idx) (fun a b => N.compare (ex_idx a) (ex_idx b)) (o_ctor out) with
      | Ok m => Some (d, map (mo_get (rt_ops ex_eq8 ex_cmp8 ex_id (scalar_hasher ex_id)) m) queries)
      | _ => None
      end
  | _ => None
  end.
Definition ex_answers_str (r : res (result (decl * output (expr N) N))) (queries : list bytes) :=
  match r with
  | Ok (ROk (d, out)) =>
      match run_ctor (V := N) ex_eval_bytes ex_id bytes_eqb bytes_cmp (o_ctor out) with
      | Ok m => Some (d, map (mo_get (rt_ops bytes_eqb bytes_cmp (fun _ => 0) (string_hasher ex_bh)) m) queries)
      | _ => None
      end
  | _ => None
  end.
Example C53_example :
  ex_answers8 (ex_fz true ex_short MkScalar) [3; 4; 5; 200; 300] = Some (DeclExpr, [Ok (Some 30); Ok (Some 40); Ok None; Ok (Some 2000); Ok None]) /\
  ex_answers8 (ex_fz true (ex_long (payload ex_short)) MkHashed) [3; 5] =
    Some (DeclStatic "pub" (Some "T"%string) "M" false, [Ok (Some 30); Ok None]) /\
  all_integers U8 (payload ex_short) /\ values_fit U8 (payload ex_short) /\
  span_representable ex_idx (map (fun e => ex_eval_u8 (me_key e)) (payload ex_short)) /\
  (exists msg, ex_fz true (ShortForm [ex_int 3 ""; ex_int 256 "u8"]) MkScalar = Ok (RErr msg)).
Proof.
  split; [vm_compute; reflexivity|]. split; [vm_compute; reflexivity|]. split; [|split; [|split]].
  - split.
    + intros e [<-|[<-|[<-|[<-|[]]]]]; eexists; eexists; (split; [reflexivity|]); cbn; auto 20.
    + intros _. exists (ex_int 200 "u8"). eexists. eexists. split; [cbn; auto|]. split; [reflexivity|]. cbn; auto 20.
  - intros e v s [<-|[<-|[<-|[<-|[]]]]] E; injection E as <- <-; reflexivity.
  - intros a b Ha Hb. cbn in Ha, Hb.
    destruct Ha as [<-|[<-|[<-|[<-|[]]]]], Hb as [<-|[<-|[<-|[<-|[]]]]]; vm_compute; reflexivity.
  - eexists. vm_compute. reflexivity.
Qed.

(** An unknown suffix before a clash, a clash before an unknown suffix, a value out of range without either. *)
Example C53_messages_example :
  ex_fz true (ShortForm [ex_int 1 "u8"; ex_int 2 "q"; ex_int 3 "i8"]) MkScalar = Ok (RErr "unknown suffix q for scalar value") /\
  ex_fz true (ShortForm [ex_int 1 "u8"; ex_int 3 "i8"; ex_int 2 "q"]) MkHashed = Ok (RErr "incompatible scalar literal type") /\
  ex_fz true (ShortForm [ex_int 300 ""; ex_int 3 "u8"]) MkOrdered = Ok (RErr "number too large to fit in target type") /\
  rejected_with MkScalar (ShortForm [ex_int 1 "u8"; ex_int 2 "q"; ex_int 3 "i8"]) "unknown suffix q for scalar value" /\
  in_type Ptr32 (int_type_of ISize) 2147483647 = true /\ in_type Ptr32 (int_type_of ISize) 2147483648 = false.
Proof.
  repeat split; try (vm_compute; reflexivity).
  apply (first_complaint _ _ [ex_int 1 "u8"] (ex_int 2 "q") [ex_int 3 "i8"]); [reflexivity| |].
  - apply assess_accepts. eexists. vm_compute. reflexivity.
  - apply (bad_suffix _ _ _ 2 "q"); [reflexivity|]. unfold known_suffix. cbn. intuition discriminate.
Qed.

Example C54_example :
  ex_answers_str (ex_fz true (ex_long [ex_str [1]; ex_str [2; 2]; ex_str [3]; ex_str [4; 5]; ex_str [6]]) MkString) [[1]; [2]; [4; 5]] =
    Some (DeclStatic "pub" (Some "T"%string) "M" false, [Ok (Some 1); Ok None; Ok (Some 1)]) /\
  all_strings [ex_str [1]; ex_str [2; 2]; ex_str [3]; ex_str [4; 5]; ex_str [6]].
Proof.
  split; [vm_compute; reflexivity|]. intros e [<-|[<-|[<-|[<-|[<-|[]]]]]]; eexists; reflexivity.
Qed.

Example C55_example :
  (* expressions: initialised lazily, duplicates found at run time *)
  ex_answers8 (ex_fz true (ex_long [ex_expr 3; ex_expr 9]) MkScalar) [3; 4] =
    Some (DeclStatic "pub" (Some "T"%string) "M" true, [Ok (Some 3); Ok None]) /\
  ex_answers8 (ex_fz true (ex_long [ex_expr 3; ex_expr 259]) MkScalar) [3; 4] = None /\
  (* a set macro without entries *)
  ex_answers_str (ex_fz false (ex_long []) MkOrdered) [[]; [1]] =
    Some (DeclStatic "pub" (Some "T"%string) "M" false, [Ok None; Ok None]) /\
  ex_fz false (ShortForm []) MkOrdered = Ok (RErr "no collection entries supplied") /\
  kind_selected MkScalar [ex_expr 3; ex_expr 9] LiteralAndExpressionScalars /\ well_formed true [ex_expr 3; ex_expr 9].
Proof.
  split; [vm_compute; reflexivity|]. split; [vm_compute; reflexivity|]. split; [vm_compute; reflexivity|]. split; [vm_compute; reflexivity|]. split.
  - apply selected; [discriminate|]. vm_compute. reflexivity.
  - intros e [<-|[<-|[]]]; split; cbn; congruence.
Qed.
