(** Model of the collection macros as functions from tokens to tokens: frozen-collections-core/src/macros/macro_api.rs as a whole, and
    frozen-collections-macros/src/lib.rs.

    Puts together [ModelParsing.v] (the arguments), [ModelMacros.v] (what to emit) and [ModelTokens.v] (how it is printed). The tokens that go in
    and those that come out are different types here: the latter have the user's types and expressions in them as single tokens, which is
    what [quote!] makes of [#key_type] and the like (they are syntax trees). *)
From Coq Require Import String.
From Verif Require Import ModelUtils ModelAnalyzers ModelTables ModelMaps ModelScalar ModelEmit ModelMacros ModelTypes ModelParsing ModelTokens.
From Verif Require Import Prelude.

Section Macro.
Context {X T : Type}.
Variable parse_expr : list token -> result (expr X * list token).
Variable parse_type : list token -> result (T * list token).

(** macro_api.rs L87, L91-92, L109, L113-116 with collection_emitter.rs L115-151, L157-160: the types the emitter has. [None] is [_]; a set
    has no value type. *)
Definition emitter_key_type (p : parsed (X := X) (T := T)) : option T :=
  match p with PShort _ => None | PLong l => Some (lf_key_type l) end.
Definition emitter_value_type (is_map : bool) (p : parsed (X := X) (T := T)) : option (option T) :=
  match p with PShort _ => if is_map then Some None else None | PLong l => option_map Some (lf_value_type l) end.

(** macro_api.rs L83-103 ([fz_map_macro]) and L105-124 ([fz_set_macro]); [process] ends in [postflight], which prints. *)
Definition fz_macro_stream (usort : forall T, list (N * T) -> list (N * T)) (md : mode) (unit_expr : expr X) (seed : N)
    (fixed_state : N -> build_hasher) (hash_i32 : _) (show : list token -> string) (is_ident : string -> bool) (is_map : bool)
    (args : list token) (mk : macro_kind) : res (result (list (qtok T (expr X) (expr X)))) :=
  match parse2 (if is_map then parse_map parse_expr parse_type else parse_set parse_expr parse_type) args with
  | RErr e => Ok (RErr e)
  | ROk p =>
      r <- fz_macro usort md unit_expr seed fixed_state hash_i32 is_map (to_input show p) mk ;;
      match r with
      | RErr e => Ok (RErr e)
      | ROk (d, out) =>
          ts <- q_postflight (emitter_key_type p) (emitter_value_type is_map p) is_ident d out ;;
          Ok (ROk ts)
      end
  end.
End Macro.
