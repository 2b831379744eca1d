(** When rustc accepts emitted code: the declarations of the crate that emitted code refers to, and the typing rules it needs.

    Left out: trait bounds (other than [AsRef<str>], which decides a type argument), lifetimes, privacy, and coercions other
    than what "the expression can be given the type" in the hypotheses about key and value expressions covers. Literals are
    checked against the ranges of a 64-bit target; lengths written as const arguments are not. *)
From Coq Require Import String.
From Verif Require Import ModelTables ModelMaps ModelEmit ModelMacros ModelTypes SpecMacros.
From Verif Require Import Prelude.

(** * Types *)
(** A type: a name with its generic arguments, all of them; [TNum] is a const argument. *)
Inductive ty :=
| TName (name : string) (args : list ty)
| TNum (n : N)
| TPair (a b : ty)
| TUnit
| TArray (t : ty) (n : N).
Definition TVec (t : ty) : ty := TName "Vec" [t].
(** [fn() -> t], to which a closure that captures nothing coerces. *)
Definition TFn (t : ty) : ty := TName "fn" [t].
Definition TUsize : ty := TName "usize" [].
Definition TStr : ty := TName "&str" [].
Definition TBoxStr : ty := TName "Box<str>" [].
Definition TFixedState : ty := TName (fc "foldhash::FixedState") [].
(** lib.rs L34, L38: one of two hashers of [foldhash], depending on features; its identity does not matter here. *)
Definition TDefaultBuildHasher : ty := TName "DefaultBuildHasher" [].

(** The largest value of each integer type. *)
Definition int_types : list (string * N) :=
  [("i8", 2 ^ 7 - 1); ("i16", 2 ^ 15 - 1); ("i32", 2 ^ 31 - 1); ("i64", 2 ^ 63 - 1); ("i128", 2 ^ 127 - 1); ("isize", 2 ^ 63 - 1);
   ("u8", 2 ^ 8 - 1); ("u16", 2 ^ 16 - 1); ("u32", 2 ^ 32 - 1); ("u64", 2 ^ 64 - 1); ("u128", 2 ^ 128 - 1); ("usize", 2 ^ 64 - 1)]%string.
(** An integer literal has the type of its suffix, or any integer type if it has none, if its value is in range. *)
Definition int_literal (v : N) (suffix : string) (t : ty) : Prop :=
  exists name max, In (name, max) int_types /\ t = TName name [] /\ v <= max /\ (suffix = ""%string \/ suffix = name).

(** * Declarations *)
(** traits/collection_magnitude.rs L14, L22, L30. *)
Definition crate_aliases : list (string * ty) :=
  [(fc "SmallCollection", TName "u8" []); (fc "MediumCollection", TName "u16" []); (fc "LargeCollection", TUsize)].

(** The generic parameters of the types, with their defaults (which may refer to earlier parameters). *)
Definition params_of : list (string * list (option (list ty -> ty))) :=
  let req := None in
  let dflt t := Some (fun _ => t) in
  let small := dflt (TName "u8" []) in
  let bridge := dflt (TName (fc "hashers::BridgeHasher") [TDefaultBuildHasher]) in
  [ (* inline_maps/*.rs *)
    (fc "inline_maps::InlineScanMap", [req; req; req]);
    (fc "inline_maps::InlineEytzingerSearchMap", [req; req; req]);
    (fc "inline_maps::InlineDenseScalarLookupMap", [req; req; req]);
    (fc "inline_maps::InlineSparseScalarLookupMap", [req; req; req; req; small]);
    (fc "inline_maps::InlineHashMap", [req; req; req; req; small; bridge]);
    (fc "inline_maps::InlineHashMapNoCollisions", [req; req; req; req; small; bridge]);
    (* inline_sets/*.rs *)
    (fc "inline_sets::InlineScanSet", [req; req]);
    (fc "inline_sets::InlineEytzingerSearchSet", [req; req]);
    (fc "inline_sets::InlineDenseScalarLookupSet", [req; req]);
    (fc "inline_sets::InlineSparseScalarLookupSet", [req; req; req; small]);
    (fc "inline_sets::InlineHashSet", [req; req; req; small; bridge]);
    (fc "inline_sets::InlineHashSetNoCollisions", [req; req; req; small; bridge]);
    (* hash_tables/*.rs *)
    (fc "hash_tables::InlineHashTable", [req; req; req; small]);
    (fc "hash_tables::InlineHashTableNoCollisions", [req; req; req; small]);
    (fc "hash_tables::HashTableSlot", [req]);
    (* fz_maps/*.rs, fz_sets/*.rs *)
    (fc "FzHashMap", [req; req; dflt TDefaultBuildHasher]);
    (fc "FzScalarMap", [req; req]);
    (fc "FzStringMap", [req; req; dflt TDefaultBuildHasher]);
    (fc "FzHashSet", [req; dflt TDefaultBuildHasher]);
    (fc "FzScalarSet", [req]);
    (fc "FzStringSet", [req; dflt TDefaultBuildHasher]);
    (* hashers/*.rs *)
    (fc "hashers::BridgeHasher", [dflt TDefaultBuildHasher]);
    (fc "hashers::InlineLeftRangeHasher", [req; req; dflt TFixedState]);
    (fc "hashers::InlineRightRangeHasher", [req; req; dflt TFixedState]);
    (fc "hashers::ScalarHasher", []);
    (fc "hashers::LengthHasher", []);
    (* foldhash::fast::FixedState; std::sync::LazyLock<T, F = fn() -> T> *)
    (fc "foldhash::FixedState", []);
    ("std::sync::LazyLock"%string, [req; Some (fun earlier => TFn (hd TUnit earlier))])].

(** In a type, omitted arguments are the defaults. *)
Fixpoint fill_in (params : list (option (list ty -> ty))) (given acc : list ty) : option (list ty) :=
  match params, given with
  | [], [] => Some acc
  | _ :: ps, g :: gs => fill_in ps gs (acc ++ [g])
  | Some d :: ps, [] => fill_in ps [] (acc ++ [d acc])
  | _, _ => None
  end.
Definition in_type_position (name : string) (given all : list ty) : Prop :=
  exists params, In (name, params) params_of /\ fill_in params given [] = Some all.
(** In a path to a function, omitted arguments are inferred; either all are omitted, or only ones that have defaults. *)
Definition in_expr_position (name : string) (given all : list ty) : Prop :=
  exists params omitted, In (name, params) params_of /\ all = given ++ omitted /\ List.length all = List.length params /\
    (given = [] \/ Forall (fun p => p <> None) (skipn (List.length given) params)).

(** Unit structs: hashers/scalar_hasher.rs L7, hashers/length_hasher.rs L7. *)
Definition unit_structs : list string := [fc "hashers::ScalarHasher"; fc "hashers::LengthHasher"].

Section Rules.
Context {U X W : Type}.
(** Which types implement [AsRef<str>]. *)
Variable as_ref_str : ty -> Prop.

(** [assoc_fn name args f params const]: the type [name<args>] has an associated function [f], taking [params] and returning
    [Self]; [const] tells whether it is a [const fn]. *)
Inductive assoc_fn : string -> list ty -> string -> list ty -> bool -> Prop :=
(* inline_maps/inline_scan_map.rs L45, L54 *)
| A_scan_new K V SZ : assoc_fn (fc "inline_maps::InlineScanMap") [K; V; TNum SZ] "new" [TVec (TPair K V)] false
| A_scan_raw K V SZ : assoc_fn (fc "inline_maps::InlineScanMap") [K; V; TNum SZ] "new_raw" [TArray (TPair K V) SZ] true
(* inline_maps/inline_eytzinger_search_map.rs L46, L63 *)
| A_eytzinger_new K V SZ : assoc_fn (fc "inline_maps::InlineEytzingerSearchMap") [K; V; TNum SZ] "new" [TVec (TPair K V)] false
| A_eytzinger_raw K V SZ : assoc_fn (fc "inline_maps::InlineEytzingerSearchMap") [K; V; TNum SZ] "new_raw" [TArray (TPair K V) SZ] true
(* inline_maps/inline_dense_scalar_lookup_map.rs L42 *)
| A_dense K V SZ : assoc_fn (fc "inline_maps::InlineDenseScalarLookupMap") [K; V; TNum SZ] "new_raw"
    [TArray (TPair K V) SZ; TUsize; TUsize] true
(* inline_maps/inline_sparse_scalar_lookup_map.rs L45 *)
| A_sparse K V SZ LTSZ CM : assoc_fn (fc "inline_maps::InlineSparseScalarLookupMap") [K; V; TNum SZ; TNum LTSZ; CM] "new_raw"
    [TArray (TPair K V) SZ; TArray CM LTSZ; TUsize; TUsize] true
(* inline_maps/inline_hash_map.rs L47, inline_hash_map_no_collisions.rs L47 *)
| A_hash K V SZ NHS CM H : assoc_fn (fc "inline_maps::InlineHashMap") [K; V; TNum SZ; TNum NHS; CM; H] "new_raw"
    [TName (fc "hash_tables::InlineHashTable") [TPair K V; TNum SZ; TNum NHS; CM]; H] true
| A_hash_nc K V SZ NHS CM H : assoc_fn (fc "inline_maps::InlineHashMapNoCollisions") [K; V; TNum SZ; TNum NHS; CM; H] "new_raw"
    [TName (fc "hash_tables::InlineHashTableNoCollisions") [TPair K V; TNum SZ; TNum NHS; CM]; H] true
(* hash_tables/inline_hash_table.rs L29, inline_hash_table_no_collisions.rs L27, hash_table_slot.rs L20 *)
| A_table T SZ NHS CM : assoc_fn (fc "hash_tables::InlineHashTable") [T; TNum SZ; TNum NHS; CM] "new_raw"
    [TArray (TName (fc "hash_tables::HashTableSlot") [CM]) NHS; TArray T SZ] true
| A_table_nc T SZ NHS CM : assoc_fn (fc "hash_tables::InlineHashTableNoCollisions") [T; TNum SZ; TNum NHS; CM] "new_raw"
    [TArray CM NHS; TArray T SZ] true
| A_slot CM : assoc_fn (fc "hash_tables::HashTableSlot") [CM] "new" [CM; CM] true
(* hashers/bridge_hasher.rs L16, inline_left_range_hasher.rs L17, inline_right_range_hasher.rs L17 *)
| A_bridge BH : assoc_fn (fc "hashers::BridgeHasher") [BH] "new" [BH] true
| A_left LO HI BH : assoc_fn (fc "hashers::InlineLeftRangeHasher") [TNum LO; TNum HI; BH] "new" [BH] true
| A_right LO HI BH : assoc_fn (fc "hashers::InlineRightRangeHasher") [TNum LO; TNum HI; BH] "new" [BH] true
(* foldhash: [const fn with_seed(per_hasher_seed: u64)] *)
| A_with_seed : assoc_fn (fc "foldhash::FixedState") [] "with_seed" [TName "u64" []] true
(* inline_sets/inline_scan_set.rs L38, inline_eytzinger_search_set.rs L40, inline_dense_scalar_lookup_set.rs L40 *)
| A_scan_set T SZ : assoc_fn (fc "inline_sets::InlineScanSet") [T; TNum SZ] "new"
    [TName (fc "inline_maps::InlineScanMap") [T; TUnit; TNum SZ]] true
| A_eytzinger_set T SZ : assoc_fn (fc "inline_sets::InlineEytzingerSearchSet") [T; TNum SZ] "new"
    [TName (fc "inline_maps::InlineEytzingerSearchMap") [T; TUnit; TNum SZ]] true
| A_dense_set T SZ : assoc_fn (fc "inline_sets::InlineDenseScalarLookupSet") [T; TNum SZ] "new"
    [TName (fc "inline_maps::InlineDenseScalarLookupMap") [T; TUnit; TNum SZ]] true
(* inline_sets/inline_sparse_scalar_lookup_set.rs L44, inline_hash_set.rs L47, inline_hash_set_no_collisions.rs L47 *)
| A_sparse_set T SZ LTSZ CM : assoc_fn (fc "inline_sets::InlineSparseScalarLookupSet") [T; TNum SZ; TNum LTSZ; CM] "new"
    [TName (fc "inline_maps::InlineSparseScalarLookupMap") [T; TUnit; TNum SZ; TNum LTSZ; CM]] true
| A_hash_set T SZ NHS CM H : assoc_fn (fc "inline_sets::InlineHashSet") [T; TNum SZ; TNum NHS; CM; H] "new"
    [TName (fc "inline_maps::InlineHashMap") [T; TUnit; TNum SZ; TNum NHS; CM; H]] true
| A_hash_set_nc T SZ NHS CM H : assoc_fn (fc "inline_sets::InlineHashSetNoCollisions") [T; TNum SZ; TNum NHS; CM; H] "new"
    [TName (fc "inline_maps::InlineHashMapNoCollisions") [T; TUnit; TNum SZ; TNum NHS; CM; H]] true
(* fz_maps/fz_hash_map.rs L45-48, fz_scalar_map.rs L48-52 *)
| A_fz_hash K V : assoc_fn (fc "FzHashMap") [K; V; TDefaultBuildHasher] "new" [TVec (TPair K V)] false
| A_fz_scalar K V : assoc_fn (fc "FzScalarMap") [K; V] "new" [TVec (TPair K V)] false
(* fz_maps/fz_string_map.rs L47-50: [new] exists for [Box<str>] only, and takes anything that can be read as a string *)
| A_fz_string S V : as_ref_str S -> assoc_fn (fc "FzStringMap") [TBoxStr; V; TDefaultBuildHasher] "new" [TVec (TPair S V)] false
(* fz_sets/fz_hash_set.rs L127-132, fz_scalar_set.rs L104-108, fz_string_set.rs L114-115 *)
| A_fz_hash_set T BH : assoc_fn (fc "FzHashSet") [T; BH] "from" [TName (fc "FzHashMap") [T; TUnit; BH]] false
| A_fz_scalar_set T : assoc_fn (fc "FzScalarSet") [T] "from" [TName (fc "FzScalarMap") [T; TUnit]] false
| A_fz_string_set BH : assoc_fn (fc "FzStringSet") [TBoxStr; BH] "from" [TName (fc "FzStringMap") [TBoxStr; TUnit; BH]] false
(* core: every type is [From] itself *)
| A_from_self name args : assoc_fn name args "from" [TName name args] false
(* std: [const fn new(f: F)], here with [F = fn() -> T] *)
| A_lazy T : assoc_fn "std::sync::LazyLock" [T; TFn T] "new" [TFn T] true.

(** What the types given by the user stand for; several types if there is a [_] inside. *)
Variable means : U -> ty -> Prop.
(** Aliases declared by the emitted code itself. *)
Notation aliases := (list (string * ty)).

(** The printed type [p] can stand for [t]. *)
Inductive denotes (env : aliases) : pty U -> ty -> Prop :=
| D_infer t : denotes env PInfer t
| D_user u t : means u t -> denotes env (PUser u) t
| D_alias name t : In (name, t) (env ++ crate_aliases) -> denotes env (PPath name []) t
| D_path name ps given all : Forall2 (denotes env) ps given -> in_type_position name given all -> denotes env (PPath name ps) (TName name all)
| D_num n : denotes env (PNum n) (TNum n)
| D_pair p q a b : denotes env p a -> denotes env q b -> denotes env (PPair p q) (TPair a b)
| D_unit : denotes env PUnit TUnit.

(** Which types a key or value expression can be given, and which of them are constant expressions. *)
Variable key_has : X -> ty -> Prop.
Variable value_has : W -> ty -> Prop.
Variable const_key : X -> Prop.
Variable const_value : W -> Prop.

(** The expression can be given the type [t]; [ctx] tells whether it is evaluated at compile time (the initializer of a
    [static] is). *)
Inductive has_type (env : aliases) : bool -> pexpr U X W -> ty -> Prop :=
| T_key ctx x t : key_has x t -> (ctx = true -> const_key x) -> has_type env ctx (XKey x) t
| T_val ctx w t : value_has w t -> (ctx = true -> const_value w) -> has_type env ctx (XVal w) t
| T_int ctx v suffix t : int_literal v suffix t -> has_type env ctx (XInt v suffix) t
| T_pair ctx a b s t : has_type env ctx a s -> has_type env ctx b t -> has_type env ctx (XPair a b) (TPair s t)
| T_array ctx es t : Forall (fun e => has_type env ctx e t) es -> has_type env ctx (XArray es) (TArray t (N.of_nat (List.length es)))
| T_vec es t : Forall (fun e => has_type env false e t) es -> has_type env false (XVec es) (TVec t)
| T_call ctx name ps given all f params const es :
    Forall2 (denotes env) ps given -> in_expr_position name given all -> assoc_fn name all f params const ->
    (ctx = true -> const = true) -> Forall2 (has_type env ctx) es params ->
    has_type env ctx (XCall (PPath name ps) f es) (TName name all)
| T_struct ctx name : In name unit_structs -> has_type env ctx (XStruct name) (TName name [])
| T_closure ctx e t : has_type env false e t -> has_type env ctx (XClosure e) (TFn t).

(** There is no [_] in the type; [complete u] for the types given by the user. *)
Variable complete : U -> Prop.
Fixpoint spelled_out (p : pty U) : Prop :=
  match p with
  | PInfer => False
  | PUser u => complete u
  | PPath _ ps => fold_right (fun q r => spelled_out q /\ r) True ps
  | PNum _ | PUnit => True
  | PPair a b => spelled_out a /\ spelled_out b
  end.

(** The items type check, one after the other. Types in items must be spelled out, initializers of statics constant. *)
Inductive accepted (env : aliases) : list (item U X W) -> Prop :=
| I_nil : accepted env []
| I_type vis name p t rest : spelled_out p -> denotes env p t -> accepted ((name, t) :: env) rest -> accepted env (ItType vis name p :: rest)
| I_static vis name p t e rest : spelled_out p -> denotes env p t -> has_type env true e t -> accepted env rest ->
    accepted env (ItStatic vis name p e :: rest)
| I_let mutable name p t e rest : denotes env p t -> has_type env false e t -> accepted env rest ->
    accepted env (ItLet mutable name p e :: rest)
| I_expr e t rest : has_type env false e t -> accepted env rest -> accepted env (ItExpr e :: rest).
End Rules.

(** * Macro keys *)
(** The types a key of a macro call can be given as written: those of the literal, or of the expression. (Literals that are
    neither strings nor integers are rejected by the macros.) *)
Fixpoint written_has {X} (expr_has : X -> ty -> Prop) (key : expr X) (t : ty) : Prop :=
  match key with
  | ELit (LitStr _) => t = TStr
  | ELit (LitInt v suffix) => int_literal v suffix t
  | ELit LitOther => False
  | EGroup e => written_has expr_has e t
  | EOther x => expr_has x t
  end.
(** Literals are constants. *)
Fixpoint written_const {X} (const_expr : X -> Prop) (key : expr X) : Prop :=
  match key with ELit _ => True | EGroup e => written_const const_expr e | EOther x => const_expr x end.

(** Every key is a literal, all of them strings or all of them integers. *)
Definition literal_call {X W} (es : list (m_entry X W)) : Prop := all_strings es \/ exists t, all_integers t es.
Definition same_literal {X} (a b : expr X) : Prop :=
  match literal_of a, literal_of b with
  | Some (LitInt v _), Some (LitInt v' _) => v = v'
  | Some (LitStr s), Some (LitStr s') => s = s'
  | _, _ => False
  end.
(** The entries that are printed: all of them, but of literals only the last with its value. *)
Definition printed {X W} (es : list (m_entry X W)) (e : m_entry X W) : Prop :=
  exists before after, es = before ++ e :: after /\
    (literal_call es -> forall e', In e' after -> ~ same_literal (me_key e) (me_key e')).
(** A call with string keys, not all of them literals, too many for a linear scan. *)
Definition large_string_call {X W} (mk : macro_kind) (es : list (m_entry X W)) : Prop :=
  ~ all_strings es /\ (some_string es \/ mk = MkString) /\ (4 <= List.length es)%nat.
Definition static_call {X W} (input : macro_input (X := X) (W := W)) : Prop :=
  match input with LongForm _ _ _ _ is_static _ => is_static = true | ShortForm _ => False end.
(** Integer literals without any suffix. *)
Definition unsuffixed_call {X W} (es : list (m_entry X W)) : Prop := es <> [] /\ all_integers Undecided es.

(** What a call with the declared key type [k] and value type [v] must satisfy for its expansion to type check. *)
Record type_checks {X W} (as_ref_str : ty -> Prop) (expr_has : X -> ty -> Prop) (value_has : W -> ty -> Prop) (const_value : W -> Prop)
    (mk : macro_kind) (input : macro_input (X := X) (W := W)) (k v : ty) : Prop := {
  tc_unsuffixed : unsuffixed_call (payload input) -> k = TName "i32" [];
  tc_strings : large_string_call mk (payload input) ->
    k = TBoxStr /\ exists k', as_ref_str k' /\ forall e, In e (payload input) -> written_has expr_has (me_key e) k';
  tc_keys : ~ unsuffixed_call (payload input) -> ~ large_string_call mk (payload input) ->
    forall e, printed (payload input) e -> written_has expr_has (me_key e) k;
  tc_values : forall e w, printed (payload input) e -> me_value e = Some w ->
    value_has w v /\ (static_call input -> literal_call (payload input) -> const_value w) }.

(** For the emitter: the types given are those of the expressions, the options tell the truth about constness, and the
    types are spelled out where an item needs them. *)
Record described {U KB X W} (means : U -> ty -> Prop) (complete : U -> Prop) (key_has : X -> ty -> Prop) (value_has : W -> ty -> Prop)
    (const_key : X -> Prop) (const_value : W -> Prop) (em : emitter) (key_type : U) (value_type : option U) (k v : ty)
    (entries : list (entry KB X W)) : Prop := {
  de_key_type : means key_type k;
  de_value_type : match value_type with Some u => em_has_value_type em = true /\ means u v | None => em_has_value_type em = false /\ v = TUnit end;
  de_complete : em_is_static em = true \/ em_alias_name em <> None -> complete key_type /\ forall u, value_type = Some u -> complete u;
  de_keys : forall e, In e entries -> key_has (fst (snd e)) k /\ (em_const_keys em = true -> const_key (fst (snd e)));
  de_values : em_has_value_type em = true ->
    forall e, In e entries -> value_has (snd (snd e)) v /\ (em_const_values em = true -> const_value (snd (snd e))) }.
