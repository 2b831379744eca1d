(** What the collection macros are supposed to do, in terms of their parsed arguments. *)
From Coq Require Import String ZArith.
From Verif Require Import ModelTables ModelMaps ModelScalar ModelEmit ModelMacros Spec SpecEmit SpecMade.
From Verif Require Import Prelude.

(** The literal a key consists of, if it is one. *)
Definition literal_of {X} (key : expr X) : option lit :=
  match key with ELit l | EGroup (ELit l) => Some l | _ => None end.

(** The integer type a suffix stands for; the empty suffix leaves the type open. *)
Definition suffix_table : list (string * scalar_type) :=
  [("i8", I8); ("i16", I16); ("i32", I32); ("i64", I64); ("isize", ISize);
   ("u8", U8); ("u16", U16); ("u32", U32); ("u64", U64); ("usize", USize); ("", Undecided)]%string.
Definition known_suffix (s : string) : Prop := In s (map fst suffix_table).

(** The keys of a macro fit together. *)
Record acceptable {X W} (mk : macro_kind) (entries : list (m_entry X W)) : Prop := {
  acc_literals : forall e l, In e entries -> literal_of (me_key e) = Some l ->
    (exists s, l = LitStr s) \/ exists v s, l = LitInt v s /\ known_suffix s;
  acc_no_strings : mk = MkScalar -> forall e s, In e entries -> literal_of (me_key e) <> Some (LitStr s);
  acc_no_integers : mk = MkString -> forall e v s, In e entries -> literal_of (me_key e) <> Some (LitInt v s);
  acc_one_suffix : forall e1 e2 v1 v2 s1 s2, In e1 entries -> In e2 entries ->
    literal_of (me_key e1) = Some (LitInt v1 s1) -> literal_of (me_key e2) = Some (LitInt v2 s2) ->
    s1 = ""%string \/ s2 = ""%string \/ s1 = s2 }.

(** All keys are integer literals, each with the suffix for [t] or none; for the open type, all without. *)
Definition all_integers {X W} (t : scalar_type) (entries : list (m_entry X W)) : Prop :=
  (forall e, In e entries -> exists v s, literal_of (me_key e) = Some (LitInt v s) /\ (s = ""%string \/ In (s, t) suffix_table)) /\
  (t <> Undecided -> exists e v s, In e entries /\ literal_of (me_key e) = Some (LitInt v s) /\ In (s, t) suffix_table).
Definition all_strings {X W} (entries : list (m_entry X W)) : Prop :=
  forall e, In e entries -> exists s, literal_of (me_key e) = Some (LitStr s).
(** Some key is an integer (a string) literal. *)
Definition some_integer {X W} (entries : list (m_entry X W)) : Prop := exists e v s, In e entries /\ literal_of (me_key e) = Some (LitInt v s).
Definition some_string {X W} (entries : list (m_entry X W)) : Prop := exists e s, In e entries /\ literal_of (me_key e) = Some (LitStr s).
(** No key is a literal. *)
Definition no_literals {X W} (entries : list (m_entry X W)) : Prop := forall e, In e entries -> literal_of (me_key e) = None.

(** The kind of collection to select for acceptable keys. *)
Definition kind_selected {X W} (mk : macro_kind) (entries : list (m_entry X W)) (kind : effective_key_kind) : Prop :=
  match kind with
  | AllLiteralScalars t => all_integers t entries
  | AllLiteralStrings => all_strings entries
  | LiteralAndExpressionScalars =>
      (forall t, ~ all_integers t entries) /\ ~ some_string entries /\ (some_integer entries \/ mk = MkScalar)
  | LiteralAndExpressionStrings => ~ all_strings entries /\ (some_string entries \/ mk = MkString)
  | EffHashed => mk = MkHashed /\ no_literals entries
  | EffOrdered => mk = MkOrdered /\ no_literals entries
  end.

(** Every integer literal is in the range of its type. *)
Definition values_fit {X W} (t : scalar_type) (entries : list (m_entry X W)) : Prop :=
  forall e v s, In e entries -> literal_of (me_key e) = Some (LitInt v s) -> in_type Ptr64 (int_type_of t) (Z.of_N v) = true.

(** rustc evaluates an integer literal at type [t] to its value; a group evaluates like its contents. *)
Definition evaluates_integers {X} (t : scalar_type) (evK : expr X -> scalar_value t) : Prop :=
  (forall v s, in_type Ptr64 (int_type_of t) (Z.of_N v) = true -> proj1_sig (evK (ELit (LitInt v s))) = Z.of_N v) /\
  forall e, evK (EGroup e) = evK e.
Definition evaluates_strings {X} (evK : expr X -> bytes) : Prop :=
  (forall s, evK (ELit (LitStr s)) = s) /\ forall e, evK (EGroup e) = evK e.

(** The pairs a macro call stands for. *)
Definition macro_pairs {X W K V} (evK : expr X -> K) (evV : W -> V) (unit_value : V) (is_map : bool) (entries : list (m_entry X W))
    : list (K * V) :=
  map (fun e => (evK (me_key e), match me_value e with Some w => if is_map then evV w else unit_value | None => unit_value end)) entries.

(** What the parser guarantees: map macros have values, set macros have none. *)
Definition well_formed {X W} (is_map : bool) (entries : list (m_entry X W)) : Prop :=
  forall e, In e entries -> is_map = true <-> me_value e <> None.

(** The payload and the options of a macro call. *)
Definition payload {X W} (input : macro_input (X := X) (W := W)) : list (m_entry X W) :=
  match input with ShortForm p => p | LongForm _ _ p _ _ _ => p end.
Definition typed {X W} (input : macro_input (X := X) (W := W)) : bool := match input with ShortForm _ => false | LongForm _ _ _ _ _ _ => true end.
(** The declaration a macro call asks for, the entries being constants ([lazy = false]) or not. *)
Definition macro_decl {X W} (input : macro_input (X := X) (W := W)) (lazy : bool) : decl :=
  match input with
  | ShortForm _ => DeclExpr
  | LongForm var_name type_name _ visibility is_static is_mutable =>
      if is_static then DeclStatic visibility (Some type_name) var_name lazy else DeclLet (Some type_name) is_mutable var_name
  end.
(** There is no [static mut]; the parser never produces one. *)
Definition not_static_mut {X W} (input : macro_input (X := X) (W := W)) : Prop :=
  match input with ShortForm _ => True | LongForm _ _ _ _ is_static is_mutable => ~ (is_static = true /\ is_mutable = true) end.

(** The macro call expands to the declaration it asks for; the expansion compiles; run, it gives a map (wrapped as a set if it is a set
    macro) that answers like one holding [pairs]. *)
Definition macro_emits {X W X' K V Q} (r : res (result (decl * output X' W))) (input : macro_input (X := X) (W := W)) (is_map lazy : bool)
    (evK : X' -> K) (evV : W -> V) (eqR : K -> K -> bool) (cmpR : K -> K -> comparison)
    (ops : map_ops (rt_map K V) K V Q) (eqK : K -> K -> bool) (eqv : Q -> K -> bool) (pairs : list (K * V)) : Prop :=
  exists d out m, r = Ok (ROk (d, out)) /\ d = macro_decl input lazy /\ o_set out = negb is_map /\
    ctor_compiles (o_ctor out) = true /\ run_ctor evK evV eqR cmpR (o_ctor out) = Ok m /\ answers ops eqK eqv m pairs.

(** For keys known at run time only: the macro call expands to the declaration it asks for, initialised when first used if it is
    static; running the expansion has the outcome [P]. *)
Definition macro_expands {X W X'} (r : res (result (decl * output X' W))) (input : macro_input (X := X) (W := W)) (is_map : bool)
    (P : ctor X' W -> Prop) : Prop :=
  exists d out, r = Ok (ROk (d, out)) /\ d = macro_decl input true /\ o_set out = negb is_map /\ P (o_ctor out).

(** The calls that are rejected: no entries and no types to go by, keys that do not fit together, integers too large for their type. *)
Definition rejected {X W} (mk : macro_kind) (input : macro_input (X := X) (W := W)) : Prop :=
  (payload input = [] /\ typed input = false) \/
  (payload input <> [] /\ (~ acceptable mk (payload input) \/ exists t, all_integers t (payload input) /\ ~ values_fit t (payload input))).

(** The same call with other entries. *)
Definition with_payload {X W} (input : macro_input (X := X) (W := W)) (entries : list (m_entry X W)) : macro_input :=
  match input with
  | ShortForm _ => ShortForm entries
  | LongForm var_name type_name _ visibility is_static is_mutable => LongForm var_name type_name entries visibility is_static is_mutable
  end.

(** The ranges of the integer types, written out. An integer literal without a suffix is an [i32]. *)
Definition int_range (p : pointer_width) (t : scalar_type) : Z * Z :=
  match t with
  | I8 => (-128, 127)
  | I16 => (-32768, 32767)
  | I32 | Undecided => (-2147483648, 2147483647)
  | I64 => (-9223372036854775808, 9223372036854775807)
  | U8 => (0, 255)
  | U16 => (0, 65535)
  | U32 => (0, 4294967295)
  | U64 => (0, 18446744073709551615)
  | ISize => match p with
             | Ptr32 => (-2147483648, 2147483647)
             | Ptr64 => (-9223372036854775808, 9223372036854775807)
             end
  | USize => match p with
             | Ptr32 => (0, 4294967295)
             | Ptr64 => (0, 18446744073709551615)
             end
  end%Z.

(** What is wrong with a key, given the acceptable keys before it, and how it is reported. *)
Inductive complaint {X W} (mk : macro_kind) (before : list (m_entry X W)) (e : m_entry X W) : string -> Prop :=
  | not_a_key : literal_of (me_key e) = Some LitOther -> complaint mk before e "invalid literal, expecting a scalar or string value"
  | bad_suffix v s : literal_of (me_key e) = Some (LitInt v s) -> ~ known_suffix s ->
      complaint mk before e ("unknown suffix " ++ s ++ " for scalar value")%string
  | string_key s : mk = MkScalar -> literal_of (me_key e) = Some (LitStr s) -> complaint mk before e "scalar macro cannot contain string keys"
  | scalar_key v s : mk = MkString -> literal_of (me_key e) = Some (LitInt v s) -> known_suffix s ->
      complaint mk before e "string macro cannot contain scalar keys"
  | two_suffixes v s e' v' s' : mk <> MkString -> literal_of (me_key e) = Some (LitInt v s) -> known_suffix s ->
      In e' before -> literal_of (me_key e') = Some (LitInt v' s') -> s <> ""%string -> s' <> ""%string -> s <> s' ->
      complaint mk before e "incompatible scalar literal type".

(** The message a macro call is rejected with: there are no keys and no type to take instead; or the first key that does not go with those before it
    is complained about; or the keys are integer literals not all of which fit their type. *)
Inductive rejected_with {X W} (mk : macro_kind) (input : macro_input (X := X) (W := W)) : string -> Prop :=
  | no_entries : payload input = [] -> typed input = false -> rejected_with mk input "no collection entries supplied"
  | first_complaint before e after msg : payload input = before ++ e :: after -> acceptable mk before -> complaint mk before e msg ->
      rejected_with mk input msg
  | too_large t e v s : payload input <> [] -> acceptable mk (payload input) -> all_integers t (payload input) ->
      In e (payload input) -> literal_of (me_key e) = Some (LitInt v s) -> (snd (int_range Ptr64 t) < Z.of_N v)%Z ->
      rejected_with mk input "number too large to fit in target type".
