(** Model of the types and expressions printed by frozen-collections-core/src/emit (generator.rs, collection_emitter.rs).

    [ModelEmit.v] keeps of the printed code what decides which collection is built. Here is the code itself, as syntax:
    the type written for the collection, the constructor expression, the items around it. [U] are the types given by the
    user (the key and value types), not looked into. *)
From Coq Require Import String.
From Verif Require Import ModelUtils ModelTables ModelMaps ModelEmit ModelMacros.
From Verif Require Import Prelude.

(** * Syntax *)

(** A type as printed: [_], a type given by the user, a path with generic arguments, a pair, [()]; [PNum] is a generic
    argument for a const parameter. *)
Inductive pty (U : Type) :=
| PInfer
| PUser (u : U)
| PPath (name : string) (args : list (pty U))
| PNum (n : N)
| PPair (a b : pty U)
| PUnit.
Arguments PInfer {U}.
Arguments PUser {U}.
Arguments PPath {U}.
Arguments PNum {U}.
Arguments PPair {U}.
Arguments PUnit {U}.

(** An expression as printed: a key or value expression of an entry, an integer literal with its suffix, a pair, an array,
    a [vec![..]], a call [self::f(args)] of an associated function, a unit struct, a closure without arguments. *)
Inductive pexpr (U X W : Type) :=
| XKey (x : X)
| XVal (w : W)
| XInt (v : N) (suffix : string)
| XPair (a b : pexpr U X W)
| XArray (es : list (pexpr U X W))
| XVec (es : list (pexpr U X W))
| XCall (self : pty U) (f : string) (args : list (pexpr U X W))
| XStruct (name : string)
| XClosure (body : pexpr U X W).
Arguments XKey {U X W}.
Arguments XVal {U X W}.
Arguments XInt {U X W}.
Arguments XPair {U X W}.
Arguments XArray {U X W}.
Arguments XVec {U X W}.
Arguments XCall {U X W}.
Arguments XStruct {U X W}.
Arguments XClosure {U X W}.

(** An item or statement. *)
Inductive item (U X W : Type) :=
| ItType (visibility name : string) (t : pty U)
| ItStatic (visibility name : string) (t : pty U) (e : pexpr U X W)
| ItLet (mutable : bool) (name : string) (t : pty U) (e : pexpr U X W)
| ItExpr (e : pexpr U X W).
Arguments ItType {U X W}.
Arguments ItStatic {U X W}.
Arguments ItLet {U X W}.
Arguments ItExpr {U X W}.

(** Paths into the crate. *)
Definition fc (s : string) : string := ("::frozen_collections::" ++ s)%string.

(** * What the generator prints *)
Section Print.
Context {U X W : Type}.
(** generator.rs L29-36: [Generator::new] keeps the key type, and the value type or [()]. *)
Variable key_type : pty U.
Variable value_type : option (pty U).
Definition g_value_type : pty U := match value_type with Some t => t | None => PUnit end.

(** collection_entry.rs L33-39. *)
Definition p_entry (e : X * W) : pexpr U X W := XPair (XKey (fst e)) (XVal (snd e)).

(** generator.rs L397-405. *)
Definition p_magnitude (cm : magnitude) : pty U :=
  PPath (fc match cm with Small => "SmallCollection" | Medium => "MediumCollection" | Large => "LargeCollection" end) [].

(** collection_emitter.rs: [hasher_type] of the calls of [gen_inline_hash] (L256, L318, L360, L373, L383, L394). *)
Definition fixed_state_type : pty U := PPath (fc "foldhash::FixedState") [].
Definition hasher_type (h : hasher_code) : pty U :=
  match h with
  | HcBridge _ => PPath (fc "hashers::BridgeHasher") [fixed_state_type]
  | HcScalar => PPath (fc "hashers::ScalarHasher") []
  | HcLeft lo hi _ => PPath (fc "hashers::InlineLeftRangeHasher") [PNum lo; PNum hi; fixed_state_type]
  | HcRight lo hi _ => PPath (fc "hashers::InlineRightRangeHasher") [PNum lo; PNum hi; fixed_state_type]
  | HcLength => PPath (fc "hashers::LengthHasher") []
  end.
(** collection_emitter.rs: [hasher_ctor] (L257, L319, L361, L374, L384, L395). The seed is a [u64] and printed as one. *)
Definition with_seed (seed : N) : pexpr U X W := XCall fixed_state_type "with_seed" [XInt seed "u64"].
Definition hasher_ctor (h : hasher_code) : pexpr U X W :=
  match h with
  | HcBridge seed => XCall (PPath (fc "hashers::BridgeHasher") []) "new" [with_seed seed]
  | HcScalar => XStruct (fc "hashers::ScalarHasher")
  | HcLeft _ _ seed | HcRight _ _ seed => XCall (hasher_type h) "new" [with_seed seed]
  | HcLength => XStruct (fc "hashers::LengthHasher")
  end.

(** hash_table_slot.rs L32-39: [ToTokens] of a slot. *)
Definition p_slot (s : N * N) : pexpr U X W :=
  XCall (PPath (fc "hash_tables::HashTableSlot") []) "new" [XInt (fst s) ""; XInt (snd s) ""].

Definition p_len (n : nat) : pty U := PNum (N.of_nat n).

(** The map type and its constructor call. *)
Definition map_type (c : ctor X W) : pty U :=
  let kv := [key_type; g_value_type] in
  match c with
  (* generator.rs L239-241, L263-265 *)
  | CScan len _ | CScanVec len _ => PPath (fc "inline_maps::InlineScanMap") (kv ++ [p_len len])
  (* generator.rs L149-151, L173-175 *)
  | CEytzinger len _ | CEytzingerVec len _ => PPath (fc "inline_maps::InlineEytzingerSearchMap") (kv ++ [p_len len])
  (* generator.rs L121-123 *)
  | CDense len _ _ _ => PPath (fc "inline_maps::InlineDenseScalarLookupMap") (kv ++ [p_len len])
  (* generator.rs L307-309 *)
  | CSparse len num_slots cm _ _ _ _ =>
      PPath (fc "inline_maps::InlineSparseScalarLookupMap") (kv ++ [p_len len; p_len num_slots; p_magnitude cm])
  (* generator.rs L207-214 *)
  | CHash len num_slots cm _ _ h =>
      PPath (fc "inline_maps::InlineHashMap") (kv ++ [p_len len; p_len num_slots; p_magnitude cm; hasher_type h])
  | CHashNc len num_slots cm _ _ h =>
      PPath (fc "inline_maps::InlineHashMapNoCollisions") (kv ++ [p_len len; p_len num_slots; p_magnitude cm; hasher_type h])
  (* generator.rs L42-44, L66-68, L90-92 *)
  | CFzHash _ => PPath (fc "FzHashMap") kv
  | CFzScalar _ => PPath (fc "FzScalarMap") kv
  | CFzString _ => PPath (fc "FzStringMap") kv
  end.
Definition map_ctor (c : ctor X W) : pexpr U X W :=
  match c with
  (* generator.rs L242-246, L152-156 *)
  | CScan _ es | CEytzinger _ es => XCall (map_type c) "new_raw" [XArray (map p_entry es)]
  (* generator.rs L266-270, L176-180, L45-49, L69-73, L93-97 *)
  | CScanVec _ es | CEytzingerVec _ es | CFzHash es | CFzScalar es | CFzString es =>
      XCall (map_type c) "new" [XVec (map p_entry es)]
  (* generator.rs L118-119, L124-128: the bounds are printed as [usize] literals *)
  | CDense _ es min_key max_key =>
      XCall (map_type c) "new_raw" [XArray (map p_entry es); XInt min_key "usize"; XInt max_key "usize"]
  (* generator.rs L304, L310-319 *)
  | CSparse _ _ _ es lookup min_key max_key =>
      XCall (map_type c) "new_raw"
        [XArray (map p_entry es); XArray (map (fun i => XInt i "") lookup); XInt min_key "usize"; XInt max_key "usize"]
  (* generator.rs L215, L352-363 *)
  | CHash len num_slots cm slots es h =>
      XCall (map_type c) "new_raw"
        [XCall (PPath (fc "hash_tables::InlineHashTable") [PPair key_type g_value_type; p_len len; p_len num_slots; p_magnitude cm])
           "new_raw" [XArray (map p_slot slots); XArray (map p_entry es)];
         hasher_ctor h]
  (* generator.rs L215, L378-389 *)
  | CHashNc len num_slots cm slots es h =>
      XCall (map_type c) "new_raw"
        [XCall (PPath (fc "hash_tables::InlineHashTableNoCollisions")
                  [PPair key_type g_value_type; p_len len; p_len num_slots; p_magnitude cm])
           "new_raw" [XArray (map (fun i => XInt i "") slots); XArray (map p_entry es)];
         hasher_ctor h]
  end.

(** The set type and the function that wraps the map. *)
Definition set_type (c : ctor X W) : pty U :=
  match c with
  (* generator.rs L249-251, L273-275 *)
  | CScan len _ | CScanVec len _ => PPath (fc "inline_sets::InlineScanSet") [key_type; p_len len]
  (* generator.rs L159-161, L183-185 *)
  | CEytzinger len _ | CEytzingerVec len _ => PPath (fc "inline_sets::InlineEytzingerSearchSet") [key_type; p_len len]
  (* generator.rs L131-133 *)
  | CDense len _ _ _ => PPath (fc "inline_sets::InlineDenseScalarLookupSet") [key_type; p_len len]
  (* generator.rs L322-324 *)
  | CSparse len num_slots cm _ _ _ _ =>
      PPath (fc "inline_sets::InlineSparseScalarLookupSet") [key_type; p_len len; p_len num_slots; p_magnitude cm]
  (* generator.rs L218-225 *)
  | CHash len num_slots cm _ _ h =>
      PPath (fc "inline_sets::InlineHashSet") [key_type; p_len len; p_len num_slots; p_magnitude cm; hasher_type h]
  | CHashNc len num_slots cm _ _ h =>
      PPath (fc "inline_sets::InlineHashSetNoCollisions") [key_type; p_len len; p_len num_slots; p_magnitude cm; hasher_type h]
  (* generator.rs L52-54, L76-78, L100-102 *)
  | CFzHash _ => PPath (fc "FzHashSet") [key_type]
  | CFzScalar _ => PPath (fc "FzScalarSet") [key_type]
  | CFzString _ => PPath (fc "FzStringSet") [key_type]
  end.
Definition set_fn (c : ctor X W) : string :=
  match c with CFzHash _ | CFzScalar _ | CFzString _ => "from" | _ => "new" end.

(** generator.rs L23-26: the [type_sig] and [ctor] of an [Output]. *)
Definition type_sig (out : output X W) : pty U := if o_set out then set_type (o_ctor out) else map_type (o_ctor out).
Definition ctor_expr (out : output X W) : pexpr U X W :=
  if o_set out then XCall (set_type (o_ctor out)) (set_fn (o_ctor out)) [map_ctor (o_ctor out)] else map_ctor (o_ctor out).

(** collection_emitter.rs L474-522: the tokens [postflight] puts around them; which form it is was decided in
    [ModelEmit.postflight]. *)
Definition print_decl (d : decl) (out : output X W) : list (item U X W) :=
  let lazy_lock args := PPath "std::sync::LazyLock" args in
  match d with
  | DeclStatic vis (Some alias) symbol false =>
      [ItType vis alias (type_sig out); ItStatic vis symbol (PPath alias []) (ctor_expr out)]
  | DeclStatic vis None symbol false => [ItStatic vis symbol (type_sig out) (ctor_expr out)]
  | DeclStatic vis (Some alias) symbol true =>
      [ItType vis alias (type_sig out);
       ItStatic vis symbol (lazy_lock [PPath alias []]) (XCall (lazy_lock []) "new" [XClosure (ctor_expr out)])]
  | DeclStatic vis None symbol true =>
      [ItStatic vis symbol (lazy_lock [type_sig out]) (XCall (lazy_lock []) "new" [XClosure (ctor_expr out)])]
  | DeclLet (Some alias) mutable symbol =>
      [ItType "" alias (type_sig out); ItLet mutable symbol (PPath alias []) (ctor_expr out)]
  | DeclLet None mutable symbol => [ItLet mutable symbol (type_sig out) (ctor_expr out)]
  | DeclExpr => [ItExpr (ctor_expr out)]
  end.
End Print.

(** * The macros *)
(** macro_api.rs L83-124: the key and value types handed to the emitter; a set macro has no value type. The types written
    in a long form are [k] and [v]; the short form has [_] (collection_emitter.rs L137-151). *)
Definition macro_key_type {U X W} (input : macro_input (X := X) (W := W)) (k : U) : pty U :=
  match input with ShortForm _ => PInfer | LongForm _ _ _ _ _ _ => PUser k end.
Definition macro_value_type {U X W} (is_map : bool) (input : macro_input (X := X) (W := W)) (v : U) : option (pty U) :=
  if is_map then Some match input with ShortForm _ => PInfer | LongForm _ _ _ _ _ _ => PUser v end else None.
