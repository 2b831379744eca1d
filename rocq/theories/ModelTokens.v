(** Model of the tokens printed by frozen-collections-core/src/emit: the [quote!] templates of generator.rs, collection_emitter.rs,
    collection_entry.rs and hash_table_slot.rs, one by one.

    [ModelEmit.v] decides which template is used and with what numbers; [ModelTypes.v] is a reading of the templates as syntax trees.
    Here are the templates themselves. What the user supplies (types, key and value expressions, a visibility) is interpolated as one token. *)
From Coq Require Import String Ascii DecimalString.
From Verif Require Import ModelUtils ModelTables ModelMaps ModelEmit.
From Verif Require Import Prelude.

Inductive delim := Paren | Bracket | Brace.
(** Punctuation; [::] and [||] are two joint characters to the lexer and one token to the parser. *)
Inductive punct := Colon2 | Lt | Gt | Comma | Semi | Equals | Colon | OrOr | Bang.
Inductive qtok (U X W : Type) :=
| QIdent (s : string)
| QPunct (p : punct)
| QLit (s : string)
| QGroup (d : delim) (ts : list (qtok U X W))
| QUnderscore
| QType (u : U)
| QKey (x : X)
| QVal (w : W)
| QVis (s : string).
Arguments QIdent {U X W}.
Arguments QPunct {U X W}.
Arguments QLit {U X W}.
Arguments QGroup {U X W}.
Arguments QUnderscore {U X W}.
Arguments QType {U X W}.
Arguments QKey {U X W}.
Arguments QVal {U X W}.
Arguments QVis {U X W}.

(** Decimal digits of a number, as [Literal::usize_unsuffixed] and [to_tokens] of the integer types print them. *)
Definition decimal (n : N) : string := NilEmpty.string_of_uint (N.to_uint n).
(** generator.rs L407-438 on the text of a token. *)
Definition underscored (s : string) : string := string_of_list_ascii (inject_underscores (list_ascii_of_string s)).

Section Templates.
Context {U X W : Type}.
Notation tokens := (list (qtok U X W)).

Definition usize_unsuffixed (n : N) : qtok U X W := QLit (decimal n).
Definition usize_suffixed (n : N) : string := (decimal n ++ "usize")%string.

(** generator.rs L15-21. A type is [None] if it is [_]; without a value type the generator makes a set. *)
Variable key_type : option U.
Variable value_type : option (option U).
Definition q_type (t : option U) : qtok U X W := match t with None => QUnderscore | Some u => QType u end.
(** generator.rs L29-36: the fields of [Generator]. *)
Definition q_key_type : tokens := [q_type key_type].
Definition q_value_type : tokens := [match value_type with Some t => q_type t | None => QGroup Paren [] end].
Definition q_len (len : nat) : tokens := [QLit (underscored (decimal (N.of_nat len)))].

(** [#( #xs, )*] *)
Definition each_comma (xs : list tokens) : tokens := flat_map (fun x => x ++ [QPunct Comma]) xs.

(** collection_entry.rs L34-40. *)
Definition q_entry (e : X * W) : tokens := [QGroup Paren [QKey (fst e); QPunct Comma; QVal (snd e)]].
Definition q_entries (es : list (X * W)) : tokens := each_comma (map q_entry es).

(** [::frozen_collections::a::b] *)
Definition q_crate (segments : list string) : tokens := flat_map (fun s => [QPunct Colon2; QIdent s]) ("frozen_collections"%string :: segments).
(** [#ty::<...>], what the templates call [type_sig]. *)
Definition q_sig (ty : tokens) (generics : tokens) : tokens := ty ++ [QPunct Colon2; QPunct Lt] ++ generics ++ [QPunct Gt].
(** [#type_sig::f(...)] *)
Definition q_call (sig : tokens) (f : string) (args : tokens) : tokens := sig ++ [QPunct Colon2; QIdent f; QGroup Paren args].
Definition q_vec (ts : tokens) : tokens := [QIdent "vec"; QPunct Bang; QGroup Bracket ts].
(** [a, b, c] *)
Fixpoint q_list (xs : list tokens) : tokens :=
  match xs with [] => [] | [x] => x | x :: r => x ++ QPunct Comma :: q_list r end.

(** hash_table_slot.rs L32-39. *)
Definition q_slot (s : N * N) : tokens :=
  q_crate ["hash_tables"; "HashTableSlot"; "new"]%string ++ [QGroup Paren [usize_unsuffixed (fst s); QPunct Comma; usize_unsuffixed (snd s)]].

(** generator.rs L397-405. *)
Definition q_magnitude (cm : magnitude) : tokens :=
  match cm with
  | Small => q_crate ["SmallCollection"]%string
  | Medium => q_crate ["MediumCollection"]%string
  | Large => q_crate ["LargeCollection"]%string
  end.

(** collection_emitter.rs L252-257, L315-320, L351-396: the hasher types and the hasher expressions. *)
Definition q_fixed_state : tokens := q_crate ["foldhash"; "FixedState"]%string.
Definition q_seed (seed : N) : tokens := [QLit (underscored (decimal seed ++ "u64"))].
Definition q_with_seed (seed : N) : tokens := q_call q_fixed_state "with_seed" (q_seed seed).
Definition q_bound (n : N) : tokens := [QLit (underscored (decimal n))].
Definition q_hasher_type (h : hasher_code) : tokens :=
  match h with
  | HcBridge _ => q_crate ["hashers"; "BridgeHasher"]%string ++ [QPunct Lt] ++ q_fixed_state ++ [QPunct Gt]
  | HcScalar => q_crate ["hashers"; "ScalarHasher"]%string
  | HcLeft lo hi _ => q_sig (q_crate ["hashers"; "InlineLeftRangeHasher"]%string) (q_list [q_bound lo; q_bound hi; q_fixed_state])
  | HcRight lo hi _ => q_sig (q_crate ["hashers"; "InlineRightRangeHasher"]%string) (q_list [q_bound lo; q_bound hi; q_fixed_state])
  | HcLength => q_crate ["hashers"; "LengthHasher"]%string
  end.
Definition q_hasher_ctor (h : hasher_code) : tokens :=
  match h with
  | HcBridge seed => q_call (q_crate ["hashers"; "BridgeHasher"]%string) "new" (q_with_seed seed)
  | HcScalar => q_crate ["hashers"; "ScalarHasher"]%string ++ [QGroup Brace []]
  | HcLeft lo hi seed => q_call (q_sig (q_crate ["hashers"; "InlineLeftRangeHasher"]%string) (q_list [q_bound lo; q_bound hi; q_fixed_state])) "new" (q_with_seed seed)
  | HcRight lo hi seed => q_call (q_sig (q_crate ["hashers"; "InlineRightRangeHasher"]%string) (q_list [q_bound lo; q_bound hi; q_fixed_state])) "new" (q_with_seed seed)
  | HcLength => q_crate ["hashers"; "LengthHasher"]%string
  end.

(** The [type_sig] of the map and of the set, and the [ctor] of the map. *)
Definition q_map_sig (c : ctor X W) : tokens :=
  match c with
  (* generator.rs L239-241, L263-265 *)
  | CScan len _ | CScanVec len _ => q_sig (q_crate ["inline_maps"; "InlineScanMap"]%string) (q_list [q_key_type; q_value_type; q_len len])
  (* generator.rs L149-151, L173-175 *)
  | CEytzinger len _ | CEytzingerVec len _ =>
      q_sig (q_crate ["inline_maps"; "InlineEytzingerSearchMap"]%string) (q_list [q_key_type; q_value_type; q_len len])
  (* generator.rs L121-123 *)
  | CDense len _ _ _ => q_sig (q_crate ["inline_maps"; "InlineDenseScalarLookupMap"]%string) (q_list [q_key_type; q_value_type; q_len len])
  (* generator.rs L303-309 *)
  | CSparse len num_slots cm _ _ _ _ =>
      q_sig (q_crate ["inline_maps"; "InlineSparseScalarLookupMap"]%string)
        (q_list [q_key_type; q_value_type; q_len len; [usize_unsuffixed (N.of_nat num_slots)]; q_magnitude cm])
  (* generator.rs L207-214 *)
  | CHash len num_slots cm _ _ h =>
      q_sig (q_crate ["inline_maps"; "InlineHashMap"]%string)
        (q_list [q_key_type; q_value_type; q_len len; [usize_unsuffixed (N.of_nat num_slots)]; q_magnitude cm; q_hasher_type h])
  | CHashNc len num_slots cm _ _ h =>
      q_sig (q_crate ["inline_maps"; "InlineHashMapNoCollisions"]%string)
        (q_list [q_key_type; q_value_type; q_len len; [usize_unsuffixed (N.of_nat num_slots)]; q_magnitude cm; q_hasher_type h])
  (* generator.rs L42-44, L66-68, L90-92 *)
  | CFzHash _ => q_sig (q_crate ["FzHashMap"]%string) (q_list [q_key_type; q_value_type])
  | CFzScalar _ => q_sig (q_crate ["FzScalarMap"]%string) (q_list [q_key_type; q_value_type])
  | CFzString _ => q_sig (q_crate ["FzStringMap"]%string) (q_list [q_key_type; q_value_type])
  end.

(** generator.rs L352-363, L378-389: the table inside; after its last argument there is a comma. *)
Definition q_table (name : string) (len num_slots : nat) (cm : magnitude) (slots : list tokens) (es : list (X * W)) : tokens :=
  q_call
    (q_sig (q_crate ["hash_tables"; name]%string)
       (q_list [[QGroup Paren (q_list [q_key_type; q_value_type])]; q_len len; [usize_unsuffixed (N.of_nat num_slots)]; q_magnitude cm]))
    "new_raw" (each_comma [[QGroup Bracket (each_comma slots)]; [QGroup Bracket (q_entries es)]]).

Definition q_map_ctor (c : ctor X W) : tokens :=
  let sig := q_map_sig c in
  match c with
  (* generator.rs L242-246, L152-156 *)
  | CScan _ es | CEytzinger _ es => q_call sig "new_raw" [QGroup Bracket (q_entries es)]
  (* generator.rs L266-270, L176-180, L45-49, L69-73, L93-97 *)
  | CScanVec _ es | CEytzingerVec _ es | CFzHash es | CFzScalar es | CFzString es => q_call sig "new" (q_vec (q_entries es))
  (* generator.rs L118-119, L124-128 *)
  | CDense _ es min_key max_key =>
      q_call sig "new_raw"
        (q_list [[QGroup Bracket (q_entries es)]; [QLit (underscored (usize_suffixed min_key))]; [QLit (underscored (usize_suffixed max_key))]])
  (* generator.rs L286-287, L304, L310-319: [&usize] prints like [usize] *)
  | CSparse _ _ _ es lookup min_key max_key =>
      q_call sig "new_raw"
        (q_list [[QGroup Bracket (q_entries es)]; [QGroup Bracket (each_comma (map (fun i => [usize_unsuffixed i]) lookup))];
                 [QLit (usize_suffixed min_key)]; [QLit (usize_suffixed max_key)]])
  (* generator.rs L215, L352-363 *)
  | CHash len num_slots cm slots es h =>
      q_call sig "new_raw" (q_list [q_table "InlineHashTable" len num_slots cm (map q_slot slots) es; q_hasher_ctor h])
  (* generator.rs L215, L370-389 *)
  | CHashNc len num_slots cm slots es h =>
      q_call sig "new_raw"
        (q_list [q_table "InlineHashTableNoCollisions" len num_slots cm (map (fun i => [usize_unsuffixed i]) slots) es; q_hasher_ctor h])
  end.

Definition q_set_sig (c : ctor X W) : tokens :=
  match c with
  (* generator.rs L249-251, L273-275 *)
  | CScan len _ | CScanVec len _ => q_sig (q_crate ["inline_sets"; "InlineScanSet"]%string) (q_list [q_key_type; q_len len])
  (* generator.rs L159-161, L183-185 *)
  | CEytzinger len _ | CEytzingerVec len _ => q_sig (q_crate ["inline_sets"; "InlineEytzingerSearchSet"]%string) (q_list [q_key_type; q_len len])
  (* generator.rs L131-133 *)
  | CDense len _ _ _ => q_sig (q_crate ["inline_sets"; "InlineDenseScalarLookupSet"]%string) (q_list [q_key_type; q_len len])
  (* generator.rs L322-324 *)
  | CSparse len num_slots cm _ _ _ _ =>
      q_sig (q_crate ["inline_sets"; "InlineSparseScalarLookupSet"]%string)
        (q_list [q_key_type; q_len len; [usize_unsuffixed (N.of_nat num_slots)]; q_magnitude cm])
  (* generator.rs L218-225 *)
  | CHash len num_slots cm _ _ h =>
      q_sig (q_crate ["inline_sets"; "InlineHashSet"]%string)
        (q_list [q_key_type; q_len len; [usize_unsuffixed (N.of_nat num_slots)]; q_magnitude cm; q_hasher_type h])
  | CHashNc len num_slots cm _ _ h =>
      q_sig (q_crate ["inline_sets"; "InlineHashSetNoCollisions"]%string)
        (q_list [q_key_type; q_len len; [usize_unsuffixed (N.of_nat num_slots)]; q_magnitude cm; q_hasher_type h])
  (* generator.rs L52-54, L76-78, L100-102 *)
  | CFzHash _ => q_sig (q_crate ["FzHashSet"]%string) q_key_type
  | CFzScalar _ => q_sig (q_crate ["FzScalarSet"]%string) q_key_type
  | CFzString _ => q_sig (q_crate ["FzStringSet"]%string) q_key_type
  end.

(** generator.rs L23-26: an [Output]; the wrapping is at L55, L79, L103, L134, L162, L186, L226, L252, L276, L325. *)
Definition q_type_sig (out : output X W) : tokens := if o_set out then q_set_sig (o_ctor out) else q_map_sig (o_ctor out).
Definition q_ctor (out : output X W) : tokens :=
  if o_set out then
    q_call (q_set_sig (o_ctor out)) match o_ctor out with CFzHash _ | CFzScalar _ | CFzString _ => "from" | _ => "new" end (q_map_ctor (o_ctor out))
  else q_map_ctor (o_ctor out).

(** [#visibility]: [Visibility::Inherited] prints nothing. *)
Definition q_visibility (s : string) : tokens := if String.eqb s "" then [] else [QVis s].
(** [std::sync::LazyLock] *)
Definition q_lazy_lock : tokens := [QIdent "std"; QPunct Colon2; QIdent "sync"; QPunct Colon2; QIdent "LazyLock"].

(** [format_ident!("{}", name)] panics if the name is not an identifier; [is_ident] is the check of proc_macro2. *)
Variable is_ident : string -> bool.
Definition format_ident (name : string) : res (qtok U X W) := if is_ident name then Ok (QIdent name) else Panic.

(** [type #alias = #type_sig;] *)
Definition q_alias (visibility : string) (alias : qtok U X W) (sig : tokens) : tokens :=
  q_visibility visibility ++ [QIdent "type"; alias; QPunct Equals] ++ sig ++ [QPunct Semi].

(** collection_emitter.rs L474-522: [postflight]; which of the forms it is was decided in [ModelEmit.postflight]. *)
Definition q_postflight (d : decl) (out : output X W) : res tokens :=
  let sig := q_type_sig out in
  let ctor := q_ctor out in
  match d with
  | DeclStatic visibility alias symbol false =>
      (* L480-492 *)
      symbol <- format_ident symbol ;;
      match alias with
      | Some alias =>
          alias <- format_ident alias ;;
          Ok (q_alias visibility alias sig ++
              q_visibility visibility ++ [QIdent "static"; symbol; QPunct Colon; alias; QPunct Equals] ++ ctor ++ [QPunct Semi])
      | None => Ok (q_visibility visibility ++ [QIdent "static"; symbol; QPunct Colon] ++ sig ++ [QPunct Equals] ++ ctor ++ [QPunct Semi])
      end
  | DeclStatic visibility alias symbol true =>
      (* L480, L493-503 *)
      symbol <- format_ident symbol ;;
      let init := q_lazy_lock ++ [QPunct Colon2; QIdent "new"; QGroup Paren [QPunct OrOr; QGroup Brace ctor]; QPunct Semi] in
      match alias with
      | Some alias =>
          alias <- format_ident alias ;;
          Ok (q_alias visibility alias sig ++
              q_visibility visibility ++ [QIdent "static"; symbol; QPunct Colon] ++ q_lazy_lock ++ [QPunct Lt; alias; QPunct Gt; QPunct Equals] ++ init)
      | None =>
          Ok (q_visibility visibility ++ [QIdent "static"; symbol; QPunct Colon] ++ q_lazy_lock ++ [QPunct Lt] ++ sig ++ [QPunct Gt; QPunct Equals] ++ init)
      end
  | DeclLet alias mutable symbol =>
      (* L504-518 *)
      symbol <- format_ident symbol ;;
      let mutable := if (mutable : bool) then [QIdent "mut"%string] else [] in
      match alias with
      | Some alias =>
          alias <- format_ident alias ;;
          Ok (q_alias "" alias sig ++ [QIdent "let"] ++ mutable ++ [symbol; QPunct Colon; alias; QPunct Equals] ++ ctor ++ [QPunct Semi])
      | None => Ok ([QIdent "let"] ++ mutable ++ [symbol; QPunct Colon] ++ sig ++ [QPunct Equals] ++ ctor ++ [QPunct Semi])
      end
  (* L519-521 *)
  | DeclExpr => Ok ctor
  end.
End Templates.
