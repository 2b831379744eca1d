(** Model of frozen-collections-core/src/macros/processor.rs and macro_api.rs, from the parsed macro arguments on.
    Parsing of the token stream ([macros/parsing]) is in [ModelParsing.v]. *)
From Coq Require Import String ZArith.
From Verif Require Import ModelUtils ModelAnalyzers ModelTables ModelMaps ModelScalar ModelEmit.
From Verif Require Import Prelude.

(** * processor.rs *)

(** processor.rs L15-21. *)
Inductive macro_kind := MkScalar | MkString | MkHashed | MkOrdered.

(** processor.rs L23-36. *)
Inductive scalar_type := I8 | I16 | I32 | I64 | ISize | U8 | U16 | U32 | U64 | USize | Undecided.
Definition scalar_type_eqb (a b : scalar_type) : bool :=
  match a, b with
  | I8, I8 | I16, I16 | I32, I32 | I64, I64 | ISize, ISize | U8, U8 | U16, U16 | U32, U32 | U64, U64 | USize, USize
  | Undecided, Undecided => true
  | _, _ => false
  end.

(** processor.rs L38-43, L45-52. *)
Inductive discovered_key_kind := LiteralScalar (t : scalar_type) | LiteralString | Expression.
Inductive effective_key_kind :=
| AllLiteralScalars (t : scalar_type)
| LiteralAndExpressionScalars
| AllLiteralStrings
| LiteralAndExpressionStrings
| EffHashed
| EffOrdered.

(** [syn::Lit]: a string literal with its value, an integer literal with its value and suffix, anything else. Integer
    literals have no sign. *)
Inductive lit := LitStr (value : bytes) | LitInt (value : N) (suffix : string) | LitOther.
(** [syn::Expr], as far as [processor.rs] distinguishes; [X] are the expressions it does not look into (negated literals
    among them). *)
Inductive expr (X : Type) := ELit (l : lit) | EGroup (e : expr X) | EOther (x : X).
Arguments ELit {X}.
Arguments EGroup {X}.
Arguments EOther {X}.

(** parsing/entry.rs L4-8. *)
Record m_entry (X W : Type) := { me_key : expr X; me_value : option W }.
Arguments me_key {X W}.
Arguments me_value {X W}.

(** processor.rs L146-174. *)
Definition eval_literal_expr (l : lit) : result discovered_key_kind :=
  match l with
  | LitStr _ => ROk LiteralString
  | LitInt _ suffix =>
      if String.eqb suffix "i8" then ROk (LiteralScalar I8)
      else if String.eqb suffix "i16" then ROk (LiteralScalar I16)
      else if String.eqb suffix "i32" then ROk (LiteralScalar I32)
      else if String.eqb suffix "i64" then ROk (LiteralScalar I64)
      else if String.eqb suffix "isize" then ROk (LiteralScalar ISize)
      else if String.eqb suffix "u8" then ROk (LiteralScalar U8)
      else if String.eqb suffix "u16" then ROk (LiteralScalar U16)
      else if String.eqb suffix "u32" then ROk (LiteralScalar U32)
      else if String.eqb suffix "u64" then ROk (LiteralScalar U64)
      else if String.eqb suffix "usize" then ROk (LiteralScalar USize)
      else if String.eqb suffix "" then ROk (LiteralScalar Undecided)
      else RErr ("unknown suffix " ++ suffix ++ " for scalar value")
  | LitOther => RErr "invalid literal, expecting a scalar or string value"
  end.

(** processor.rs L94-101. *)
Definition discover {X} (key : expr X) : result discovered_key_kind :=
  match key with
  | ELit l => eval_literal_expr l
  | EGroup (ELit l) => eval_literal_expr l
  | _ => ROk Expression
  end.

(** processor.rs L93-124: the loop. *)
Fixpoint assess_loop {X W} (mk : macro_kind) (entries : list (m_entry X W)) (num_strings num_scalars : nat) (st : scalar_type)
    : result (nat * nat * scalar_type) :=
  match entries with
  | [] => ROk (num_strings, num_scalars, st)
  | entry :: r =>
      match discover (me_key entry) with
      | RErr e => RErr e
      | ROk kind =>
          match mk, kind with
          | MkScalar, LiteralString => RErr "scalar macro cannot contain string keys"
          | MkString, LiteralScalar _ => RErr "string macro cannot contain scalar keys"
          | _, _ =>
              match kind with
              | LiteralScalar Undecided => assess_loop mk r num_strings (S num_scalars) st
              | LiteralScalar t =>
                  if scalar_type_eqb st Undecided then assess_loop mk r num_strings (S num_scalars) t
                  else if negb (scalar_type_eqb t st) then RErr "incompatible scalar literal type"
                  else assess_loop mk r num_strings (S num_scalars) st
              | LiteralString => assess_loop mk r (S num_strings) num_scalars st
              | Expression => assess_loop mk r num_strings num_scalars st
              end
          end
      end
  end.

(** processor.rs L88-144. *)
Definition assess_keys {X W} (entries : list (m_entry X W)) (mk : macro_kind) : result effective_key_kind :=
  match assess_loop mk entries 0 0 Undecided with
  | RErr e => RErr e
  | ROk (num_strings, num_scalars, st) =>
      ROk (
        if Nat.eqb num_scalars (List.length entries) then AllLiteralScalars st
        else if Nat.ltb 0 num_scalars && Nat.eqb num_strings 0 then LiteralAndExpressionScalars
        else if Nat.eqb num_strings (List.length entries) then AllLiteralStrings
        else if Nat.ltb 0 num_strings then LiteralAndExpressionStrings
        else match mk with
             | MkScalar => LiteralAndExpressionScalars
             | MkString => LiteralAndExpressionStrings
             | MkHashed => EffHashed
             | MkOrdered => EffOrdered
             end)
  end.

(** The integer type named by a scalar type; the macros run on the build machine, taken to be 64-bit. *)
Definition int_type_of (t : scalar_type) : int_type :=
  let mk s w := {| it_signed := s; it_nonzero := false; it_width := w |} in
  match t with
  | I8 => mk true W8 | I16 => mk true W16 | I32 => mk true W32 | I64 => mk true W64 | ISize => mk true WSize
  | U8 => mk false W8 | U16 => mk false W16 | U32 => mk false W32 | U64 => mk false W64 | USize => mk false WSize
  | Undecided => mk true W32
  end.
Notation scalar_value t := (value_of Ptr64 (int_type_of t)).

(** [parse2::<LitInt>(key.to_token_stream())]: the literal, looking through a group without delimiters. *)
Fixpoint key_lit {X} (key : expr X) : option lit :=
  match key with ELit l => Some l | EGroup e => key_lit e | EOther _ => None end.

(** [LitInt::base10_parse::<K>()]: fails when the value does not fit [K]. *)
Definition base10_parse (t : scalar_type) (v : N) : option (scalar_value t) :=
  match Bool.bool_dec (in_type Ptr64 (int_type_of t) (Z.of_N v)) true with
  | left H => Some (exist _ (Z.of_N v) H)
  | right _ => None
  end.

(** processor.rs L181-197, for one entry. [suffix] is appended to the printed literal unless empty; appending to a literal
    that has a suffix does not happen (the suffix argument is empty then). [set_entry] stores the expression [()]. *)
Definition literal_scalar_entry {X W} (unit_expr : W) (t : scalar_type) (suffix : string) (e : m_entry X W)
    : result (entry (scalar_value t) (expr X) W) :=
  match key_lit (me_key e) with
  | Some (LitInt v s) =>
      match base10_parse t v with
      | Some k =>
          let key := if String.eqb suffix "" then me_key e else ELit (LitInt v (s ++ suffix)) in
          ROk (k, (key, match me_value e with Some w => w | None => unit_expr end))
      | None => RErr "number too large to fit in target type"
      end
  | _ => RErr "expected integer literal"
  end.

Fixpoint mapR {A B} (f : A -> result B) (l : list A) : result (list B) :=
  match l with
  | [] => ROk []
  | x :: r => match f x with
              | RErr e => RErr e
              | ROk y => match mapR f r with RErr e => RErr e | ROk l' => ROk (y :: l') end
              end
  end.

(** collection_emitter.rs L185-196: the builder functions for constness. *)
Definition with_const (em : emitter) (keys values : bool) : emitter := {|
  em_has_value_type := em_has_value_type em; em_symbol_name := em_symbol_name em; em_alias_name := em_alias_name em;
  em_const_keys := keys; em_const_values := values; em_visibility := em_visibility em; em_is_mutable := em_is_mutable em;
  em_is_static := em_is_static em; em_inferred_key_type := em_inferred_key_type em |}.

Section Process.
Context {X W : Type}.
(** [sort_unstable_by], per element type. *)
Variable usort : forall T : Type, list (N * T) -> list (N * T).
Variable md : mode.
Variable unit_expr : W.
(** what [get_seed] returns *)
Variable seed : N.
Variable fixed_state : N -> build_hasher.
(** hashing of an [i32] (only ever applied to no key at all) *)
Variable hash_i32 : N -> scalar_value I32 -> N.

Notation out := (res (result (decl * output (expr X) W))).

(** processor.rs L176-204: [handle_literal_scalar_keys]. *)
Definition handle_literal_scalar_keys (t : scalar_type) (em : emitter) (entries : list (m_entry X W)) (suffix : string) : out :=
  match mapR (literal_scalar_entry unit_expr t suffix) entries with
  | RErr e => Ok (RErr e)
  | ROk coll_entries =>
      emit_scalar_collection (usort _) md unit_expr (index_of Ptr64 (int_type_of t))
        (fun a b => Z.compare (proj1_sig a) (proj1_sig b)) (with_const em true true) coll_entries
  end.

(** processor.rs L206-223: [handle_literal_string_keys]. *)
Definition literal_string_entry (e : m_entry X W) : result (entry bytes (expr X) W) :=
  match key_lit (me_key e) with
  | Some (LitStr s) => ROk (s, (me_key e, match me_value e with Some w => w | None => unit_expr end))
  | _ => RErr "expected string literal"
  end.
Definition handle_literal_string_keys (em : emitter) (entries : list (m_entry X W)) : out :=
  match mapR literal_string_entry entries with
  | RErr e => Ok (RErr e)
  | ROk coll_entries => emit_string_collection (usort _) unit_expr seed fixed_state (with_const em true true) coll_entries
  end.

(** processor.rs L227-233 (and the three copies): entries with [NonLiteralKey]. *)
Definition non_literal_entry (e : m_entry X W) : entry unit (expr X) W :=
  (tt, (me_key e, match me_value e with Some w => w | None => unit_expr end)).

(** processor.rs L225-240, L242-257, L259-274, L276-291. *)
Definition handle_non_literal_scalar_keys (em : emitter) (entries : list (m_entry X W)) : out :=
  emit_scalar_collection_expr (with_const em false false) (map non_literal_entry entries).
Definition handle_non_literal_string_keys (em : emitter) (entries : list (m_entry X W)) : out :=
  emit_string_collection_expr (with_const em false false) (map non_literal_entry entries).
Definition handle_hashed_keys (em : emitter) (entries : list (m_entry X W)) : out :=
  emit_hash_collection_expr (with_const em false false) (map non_literal_entry entries).
Definition handle_ordered_keys (em : emitter) (entries : list (m_entry X W)) : out :=
  emit_ordered_collection_expr (with_const em false false) (map non_literal_entry entries).

(** processor.rs L54-86: [process]. *)
Definition process (entries : list (m_entry X W)) (em : emitter) (mk : macro_kind) : out :=
  match entries with
  | [] =>
      if em_inferred_key_type em then Ok (RErr "no collection entries supplied")
      else emit_hash_collection (usort _) unit_expr seed hash_i32
             (fun a b => Z.eqb (proj1_sig a) (proj1_sig b)) (with_const em true true) ([] : list (entry (scalar_value I32) (expr X) W))
  | _ =>
      match assess_keys entries mk with
      | RErr e => Ok (RErr e)
      | ROk kind =>
          match kind with
          | AllLiteralScalars Undecided => handle_literal_scalar_keys I32 em entries "i32"
          | AllLiteralScalars t => handle_literal_scalar_keys t em entries ""
          | LiteralAndExpressionScalars => handle_non_literal_scalar_keys em entries
          | AllLiteralStrings => handle_literal_string_keys em entries
          | LiteralAndExpressionStrings => handle_non_literal_string_keys em entries
          | EffHashed => handle_hashed_keys em entries
          | EffOrdered => handle_ordered_keys em entries
          end
      end
  end.

(** * macro_api.rs *)

(** parsing/map.rs, long_form_map.rs, short_form_map.rs and the set counterparts, after parsing: a short form has entries
    only, a long form names the variable and the type, and is [static] (with a visibility) or [let] (maybe [mut]). *)
Inductive macro_input :=
| ShortForm (payload : list (m_entry X W))
| LongForm (var_name type_name : string) (payload : list (m_entry X W)) (visibility : string) (is_static is_mutable : bool).

(** collection_emitter.rs L115-133. *)
Definition emitter_new : emitter := {|
  em_has_value_type := false; em_symbol_name := None; em_alias_name := None; em_const_keys := false; em_const_values := false;
  em_visibility := ""; em_is_mutable := false; em_is_static := false; em_inferred_key_type := false |}.
(** The setters take the emitter and give it back with one field changed. *)
(** collection_emitter.rs L157-160. *)
Definition set_value_type (em : emitter) : emitter := {|
  em_has_value_type := true; em_symbol_name := em_symbol_name em; em_alias_name := em_alias_name em; em_const_keys := em_const_keys em;
  em_const_values := em_const_values em; em_visibility := em_visibility em; em_is_mutable := em_is_mutable em; em_is_static := em_is_static em; em_inferred_key_type := em_inferred_key_type em |}.
(** collection_emitter.rs L167-170. *)
Definition set_symbol_name (em : emitter) (name : string) : emitter := {|
  em_has_value_type := em_has_value_type em; em_symbol_name := Some name; em_alias_name := em_alias_name em; em_const_keys := em_const_keys em;
  em_const_values := em_const_values em; em_visibility := em_visibility em; em_is_mutable := em_is_mutable em; em_is_static := em_is_static em; em_inferred_key_type := em_inferred_key_type em |}.
(** collection_emitter.rs L178-181. *)
Definition set_alias_name (em : emitter) (name : string) : emitter := {|
  em_has_value_type := em_has_value_type em; em_symbol_name := em_symbol_name em; em_alias_name := Some name; em_const_keys := em_const_keys em;
  em_const_values := em_const_values em; em_visibility := em_visibility em; em_is_mutable := em_is_mutable em; em_is_static := em_is_static em; em_inferred_key_type := em_inferred_key_type em |}.
(** collection_emitter.rs L202-205. *)
Definition set_visibility (em : emitter) (visibility : string) : emitter := {|
  em_has_value_type := em_has_value_type em; em_symbol_name := em_symbol_name em; em_alias_name := em_alias_name em; em_const_keys := em_const_keys em;
  em_const_values := em_const_values em; em_visibility := visibility; em_is_mutable := em_is_mutable em; em_is_static := em_is_static em; em_inferred_key_type := em_inferred_key_type em |}.
(** collection_emitter.rs L209-212. *)
Definition set_static_instance (em : emitter) (is_static : bool) : emitter := {|
  em_has_value_type := em_has_value_type em; em_symbol_name := em_symbol_name em; em_alias_name := em_alias_name em; em_const_keys := em_const_keys em;
  em_const_values := em_const_values em; em_visibility := em_visibility em; em_is_mutable := em_is_mutable em; em_is_static := is_static; em_inferred_key_type := em_inferred_key_type em |}.
(** collection_emitter.rs L216-219. *)
Definition set_mutable (em : emitter) (is_mutable : bool) : emitter := {|
  em_has_value_type := em_has_value_type em; em_symbol_name := em_symbol_name em; em_alias_name := em_alias_name em; em_const_keys := em_const_keys em;
  em_const_values := em_const_values em; em_visibility := em_visibility em; em_is_mutable := is_mutable; em_is_static := em_is_static em; em_inferred_key_type := em_inferred_key_type em |}.
(** The two flags about inferred types; nothing reads the one for values. *)
Definition set_inferred_key_type (em : emitter) : emitter := {|
  em_has_value_type := em_has_value_type em; em_symbol_name := em_symbol_name em; em_alias_name := em_alias_name em; em_const_keys := em_const_keys em;
  em_const_values := em_const_values em; em_visibility := em_visibility em; em_is_mutable := em_is_mutable em; em_is_static := em_is_static em; em_inferred_key_type := true |}.
(** collection_emitter.rs L137-141. *)
Definition new_with_inferred_key_type : emitter := set_inferred_key_type emitter_new.
(** collection_emitter.rs L145-151. *)
Definition new_with_inferred_types : emitter := set_inferred_key_type (set_value_type emitter_new).
(** macro_api.rs L92-98, L114-119: the builder calls. *)
Definition long_emitter (has_value_type : bool) (var_name type_name visibility : string) (is_static is_mutable : bool) : emitter :=
  let em := if has_value_type then set_value_type emitter_new else emitter_new in
  set_visibility (set_static_instance (set_mutable (set_symbol_name (set_alias_name em type_name) var_name) is_mutable) is_static) visibility.

(** macro_api.rs L83-103 ([is_map]) and L105-124. *)
Definition fz_macro (is_map : bool) (input : macro_input) (mk : macro_kind) : out :=
  match input with
  | ShortForm payload => process payload (if is_map then new_with_inferred_types else new_with_inferred_key_type) mk
  | LongForm var_name type_name payload visibility is_static is_mutable =>
      process payload (long_emitter is_map var_name type_name visibility is_static is_mutable) mk
  end.
End Process.
