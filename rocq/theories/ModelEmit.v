(** Model of frozen-collections-core/src/emit (collection_emitter.rs, generator.rs, collection_entry.rs).

    The emitter produces Rust source. A piece of source is modelled by what it says: key and value expressions are
    values of abstract types [X] and [W], the emitted constructor call is a value of [ctor], the surrounding declaration
    a value of [decl]. [ctor_compiles] and [run_ctor] at the end say what rustc and the compiled program make of it. *)
From Coq Require Import String Ascii.
From Verif Require Import ModelUtils ModelAnalyzers ModelTables ModelMaps.
From Verif Require Import Prelude.

(** * collection_entry.rs *)

(** collection_entry.rs L12-16: [CollectionEntry<KB>]: the key as known at build time, the expression for it, the
    expression for the value. A nested pair, so that entry lists are lists of (key, expressions). *)
Notation entry KB X W := (KB * (X * W))%type (only parsing).
Definition e_key {KB X W} (e : entry KB X W) : KB := fst e.

(** collection_entry.rs L33-39: [ToTokens] prints [(key_expr, value_expr)]. *)
Definition render {KB X W} (entries : list (entry KB X W)) : list (X * W) := map snd entries.

(** * Emitted code *)

(** The hasher expressions the emitter can print. [FixedState::with_seed(seed)] is represented by its seed. *)
Inductive hasher_code :=
| HcBridge (seed : N)
| HcScalar
| HcLeft (range_start range_end seed : N)
| HcRight (range_start range_end seed : N)
| HcLength.

(** The constructor calls the generator can print. [len], [num_slots] and [cm] are the const generics and the type
    parameter written in the type. *)
Inductive ctor (X W : Type) :=
| CScan (len : nat) (entries : list (X * W))                  (* InlineScanMap::<_, _, len>::new_raw([..]) *)
| CScanVec (len : nat) (entries : list (X * W))               (* InlineScanMap::<_, _, len>::new(vec![..]) *)
| CEytzinger (len : nat) (entries : list (X * W))             (* InlineEytzingerSearchMap::<_, _, len>::new_raw([..]) *)
| CEytzingerVec (len : nat) (entries : list (X * W))          (* InlineEytzingerSearchMap::<_, _, len>::new(vec![..]) *)
| CDense (len : nat) (entries : list (X * W)) (min_key max_key : N)
| CSparse (len num_slots : nat) (cm : magnitude) (entries : list (X * W)) (lookup : list N) (min_key max_key : N)
| CHash (len num_slots : nat) (cm : magnitude) (slots : list (N * N)) (entries : list (X * W)) (h : hasher_code)
| CHashNc (len num_slots : nat) (cm : magnitude) (slots : list N) (entries : list (X * W)) (h : hasher_code)
| CFzHash (entries : list (X * W))                            (* FzHashMap::<_, _>::new(vec![..]) *)
| CFzScalar (entries : list (X * W))
| CFzString (entries : list (X * W)).
Arguments CScan {X W}.
Arguments CScanVec {X W}.
Arguments CEytzinger {X W}.
Arguments CEytzingerVec {X W}.
Arguments CDense {X W}.
Arguments CSparse {X W}.
Arguments CHash {X W}.
Arguments CHashNc {X W}.
Arguments CFzHash {X W}.
Arguments CFzScalar {X W}.
Arguments CFzString {X W}.

(** generator.rs L23-26: [Output]; [o_set] tells whether the map constructor is wrapped in the set type. *)
Record output (X W : Type) := { o_ctor : ctor X W; o_set : bool }.
Arguments o_ctor {X W}.
Arguments o_set {X W}.

(** What surrounds the constructor call. *)
Inductive decl :=
| DeclStatic (visibility : string) (alias : option string) (symbol : string) (lazy : bool)
| DeclLet (alias : option string) (mutable : bool) (symbol : string)
| DeclExpr.

(** * generator.rs *)

Definition is_ascii_digit (c : ascii) : bool := let n := N_of_ascii c in (48 <=? n) && (n <=? 57).

(** generator.rs L410-415: position of the first character that is not a digit. *)
Fixpoint suffix_index (index : nat) (full : list ascii) : option nat :=
  match full with
  | [] => None
  | c :: r => if negb (is_ascii_digit c) then Some index else suffix_index (S index) r
  end.

(** generator.rs L425-430. *)
Fixpoint group_loop (index : nat) (number out : list ascii) : list ascii :=
  match number with
  | [] => out
  | c :: r =>
      let out := if Nat.eqb (Nat.modulo index 3) 0 && negb (Nat.eqb index 0) then out ++ ["_"%char] else out in
      group_loop (S index) r (out ++ [c])
  end.

(** generator.rs L407-438: [inject_underscores], on the characters of the printed token. The final [parse_str] back to
    a token is not modelled. *)
Definition inject_underscores (full : list ascii) : list ascii :=
  let si := suffix_index 0 full in
  let number := match si with Some index => firstn index full | None => full end in
  let out := rev (group_loop 0 (rev number) []) in
  match si with Some index => out ++ skipn index full | None => out end.

(** generator.rs L397-405. *)
Definition collection_magnitude (len : N) : magnitude :=
  if len <=? max_capacity Small then Small
  else if len <=? max_capacity Medium then Medium
  else Large.

Section Generator.
Context {KB X W : Type}.
Variable usort : list (N * entry KB X W) -> list (N * entry KB X W).
Variable md : mode.

(** generator.rs L29-36: [Generator::new]. The key and value types are not modelled. *)
Record generator := { g_len : nat; g_set : bool }.

(** generator.rs L109-139. *)
Definition gen_inline_dense_scalar_lookup (g : generator) (idx : KB -> N) (entries : list (entry KB X W)) : res (output X W) :=
  first <- index entries 0 ;;
  last <- index entries (List.length entries - 1) ;;
  Ok {| o_ctor := CDense (g_len g) (render entries) (idx (e_key first)) (idx (e_key last)); o_set := g_set g |}.

(** generator.rs L141-166. *)
Definition gen_inline_eytzinger_search (g : generator) (entries : list (entry KB X W)) : res (output X W) :=
  entries <- eytzinger_layout entries ;;
  Ok {| o_ctor := CEytzinger (g_len g) (render entries); o_set := g_set g |}.

(** generator.rs L168-190. *)
Definition gen_inline_eytzinger_search_vec (g : generator) (entries : list (entry KB X W)) : output X W :=
  {| o_ctor := CEytzingerVec (g_len g) (render entries); o_set := g_set g |}.

(** generator.rs L232-256. *)
Definition gen_inline_scan (g : generator) (entries : list (entry KB X W)) : output X W :=
  {| o_ctor := CScan (g_len g) (render entries); o_set := g_set g |}.

(** generator.rs L258-280. *)
Definition gen_inline_scan_vec (g : generator) (entries : list (entry KB X W)) : output X W :=
  {| o_ctor := CScanVec (g_len g) (render entries); o_set := g_set g |}.

(** generator.rs L38-60, L63-84, L87-107. *)
Definition gen_fz_hash (g : generator) (entries : list (entry KB X W)) : output X W :=
  {| o_ctor := CFzHash (render entries); o_set := g_set g |}.
Definition gen_fz_scalar (g : generator) (entries : list (entry KB X W)) : output X W :=
  {| o_ctor := CFzScalar (render entries); o_set := g_set g |}.
Definition gen_fz_string (g : generator) (entries : list (entry KB X W)) : output X W :=
  {| o_ctor := CFzString (render entries); o_set := g_set g |}.

(** generator.rs L292-296: the loop over the entries. *)
Fixpoint gen_lookup (idx : KB -> N) (min_key : N) (i : N) (entries : list (entry KB X W)) (lookup : list N) : res (list N) :=
  match entries with
  | [] => Ok lookup
  | e :: r =>
      index_in_lookup <- usub md (idx (e_key e)) min_key ;;
      index_in_entries <- uadd md i 1 ;;
      lookup <- store lookup (N.to_nat index_in_lookup) index_in_entries ;;
      gen_lookup idx min_key (i + 1) r lookup
  end.

(** generator.rs L282-329. *)
Definition gen_inline_sparse_scalar_lookup (g : generator) (idx : KB -> N) (entries : list (entry KB X W)) : res (output X W) :=
  first <- index entries 0 ;;
  last <- index entries (List.length entries - 1) ;;
  let min_key := idx (e_key first) in
  let max_key := idx (e_key last) in
  d <- usub md max_key min_key ;;
  count <- uadd md d 1 ;;
  lookup <- gen_lookup idx min_key 0 entries (repeat 0 (N.to_nat count)) ;;
  Ok {| o_ctor := CSparse (g_len g) (List.length lookup) (collection_magnitude count) (render entries) lookup min_key max_key;
        o_set := g_set g |}.

(** hash_table_slot.rs L25-28: [is_empty]. *)
Definition slot_is_empty (s : N * N) : bool := snd s =? 0.

(** generator.rs L192-230 and L331-395: [gen_inline_hash] with [gen_inline_hash_table_components]. *)
Definition gen_inline_hash (g : generator) (hash_one : KB -> res N) (h : hasher_code) (entries : list (entry KB X W))
    : res (output X W) :=
  r <- ht_new usort Large entries (fun x => hash_one (e_key x)) ;;
  ht <- unwrap r ;;
  let slots := ht_slots ht in
  let entries := ht_entries ht in
  let cm := collection_magnitude (N.of_nat (List.length entries)) in
  Ok {| o_ctor :=
          if ht_has_collisions ht then CHash (g_len g) (List.length slots) cm slots (render entries) h
          else CHashNc (g_len g) (List.length slots) cm
                 (map (fun s => if slot_is_empty s then 0 else fst s + 1) slots) (render entries) h;
        o_set := g_set g |}.

(** * collection_emitter.rs *)

(** collection_emitter.rs L82-98. Types are not modelled beyond whether there is a value type. *)
Record emitter := {
  em_has_value_type : bool;
  em_symbol_name : option string;
  em_alias_name : option string;
  em_const_keys : bool;
  em_const_values : bool;
  em_visibility : string;
  em_is_mutable : bool;
  em_is_static : bool;
  em_inferred_key_type : bool }.

(** collection_emitter.rs L451-457; [unit_expr] is the expression [()]. *)
Definition clean_values (unit_expr : W) (em : emitter) (entries : list (entry KB X W)) : list (entry KB X W) :=
  if em_has_value_type em then entries
  else map (fun e => (fst e, (fst (snd e), unit_expr))) entries.

(** collection_emitter.rs L459-471. *)
Definition preflight (em : emitter) (len : nat) : result generator :=
  if em_is_static em && em_is_mutable em then RErr "mutable is not allowed for static collections"
  else if em_is_static em && negb (is_some (em_symbol_name em)) then RErr "symbol_name is required for static collections"
  else if em_is_mutable em && negb (is_some (em_symbol_name em)) then RErr "symbol_name is required for mutable collections"
  else if is_some (em_alias_name em) && negb (is_some (em_symbol_name em)) then RErr "alias_name cannot be used without symbol_name"
  else ROk {| g_len := len; g_set := negb (em_has_value_type em) |}.

(** collection_emitter.rs L474-522. The check of [format_ident!] on the names is in [ModelTokens.q_postflight]. *)
Definition postflight (em : emitter) : res decl :=
  if em_is_static em then
    match em_symbol_name em with
    | None => Panic
    | Some symbol_name =>
        if em_const_keys em && em_const_values em then
          match em_alias_name em with
          | Some alias_name => Ok (DeclStatic (em_visibility em) (Some alias_name) symbol_name false)
          | None => Ok (DeclStatic (em_visibility em) None symbol_name false)
          end
        else
          match em_alias_name em with
          | Some alias_name => Ok (DeclStatic (em_visibility em) (Some alias_name) symbol_name true)
          | None => Ok (DeclStatic (em_visibility em) None symbol_name true)
          end
    end
  else
    match em_symbol_name em with
    | Some symbol_name =>
        match em_alias_name em with
        | Some alias_name => Ok (DeclLet (Some alias_name) (em_is_mutable em) symbol_name)
        | None => Ok (DeclLet None (em_is_mutable em) symbol_name)
        end
    | None => Ok DeclExpr
    end.

(** The shape all emit functions share from [preflight] on. *)
Definition finish (em : emitter) (len : nat) (gen : generator -> res (output X W)) : res (result (decl * output X W)) :=
  match preflight em len with
  | RErr s => Ok (RErr s)
  | ROk g =>
      out <- gen g ;;
      d <- postflight em ;;
      Ok (ROk (d, out))
  end.

(** collection_emitter.rs L238-262. [seed] is what [get_seed] returned; [hash seed] is
    [BridgeHasher::new(FixedState::with_seed(seed)).hash_one]. *)
Definition emit_hash_collection (unit_expr : W) (seed : N) (hash : N -> KB -> N) (eqB : KB -> KB -> bool) (em : emitter)
    (entries : list (entry KB X W)) : res (result (decl * output X W)) :=
  let entries := clean_values unit_expr em entries in
  let entries := using_hash entries (fun x => hash seed (e_key x)) (fun x y => eqB (e_key x) (e_key y)) in
  finish em (List.length entries) (fun g =>
    if Nat.ltb (List.length entries) 4 then Ok (gen_inline_scan g entries)
    else gen_inline_hash g (fun k => Ok (hash seed k)) (HcBridge seed) entries).

(** collection_emitter.rs L272-288. *)
Definition emit_ordered_collection (unit_expr : W) (cmpB : KB -> KB -> comparison) (em : emitter)
    (entries : list (entry KB X W)) : res (result (decl * output X W)) :=
  let entries := clean_values unit_expr em entries in
  let entries := sorted_and_dedupped entries (fun x y => cmpB (e_key x) (e_key y)) in
  finish em (List.length entries) (fun g =>
    if Nat.ltb (List.length entries) 4 then Ok (gen_inline_scan g entries)
    else gen_inline_eytzinger_search g entries).

(** collection_emitter.rs L297-326. *)
Definition emit_scalar_collection (unit_expr : W) (idx : KB -> N) (cmpB : KB -> KB -> comparison) (em : emitter)
    (entries : list (entry KB X W)) : res (result (decl * output X W)) :=
  let entries := clean_values unit_expr em entries in
  let entries := sorted_and_dedupped entries (fun x y => cmpB (e_key x) (e_key y)) in
  a <- analyze_scalar_keys md (map (fun x => idx (e_key x)) entries) ;;
  finish em (List.length entries) (fun g =>
    match a with
    | DenseRange => gen_inline_dense_scalar_lookup g idx entries
    | SparseRange => gen_inline_sparse_scalar_lookup g idx entries
    | ScalarGeneral =>
        if Nat.ltb (List.length entries) 8 then Ok (gen_inline_scan g entries)
        else gen_inline_hash g (fun k => scalar_hash_one (idx k)) HcScalar entries
    end).

(** collection_emitter.rs L404-413, L416-425, L428-437, L440-449. The key of every entry is [NonLiteralKey]. *)
Definition emit_hash_collection_expr (em : emitter) (entries : list (entry KB X W)) : res (result (decl * output X W)) :=
  finish em (List.length entries) (fun g =>
    if Nat.ltb (List.length entries) 4 then Ok (gen_inline_scan_vec g entries) else Ok (gen_fz_hash g entries)).
Definition emit_ordered_collection_expr (em : emitter) (entries : list (entry KB X W)) : res (result (decl * output X W)) :=
  finish em (List.length entries) (fun g =>
    if Nat.ltb (List.length entries) 4 then Ok (gen_inline_scan_vec g entries)
    else Ok (gen_inline_eytzinger_search_vec g entries)).
Definition emit_scalar_collection_expr (em : emitter) (entries : list (entry KB X W)) : res (result (decl * output X W)) :=
  finish em (List.length entries) (fun g =>
    if Nat.ltb (List.length entries) 8 then Ok (gen_inline_scan_vec g entries) else Ok (gen_fz_scalar g entries)).
Definition emit_string_collection_expr (em : emitter) (entries : list (entry KB X W)) : res (result (decl * output X W)) :=
  finish em (List.length entries) (fun g =>
    if Nat.ltb (List.length entries) 4 then Ok (gen_inline_scan_vec g entries) else Ok (gen_fz_string g entries)).
End Generator.

(** collection_emitter.rs L335-401. [fixed_state seed] is [FixedState::with_seed(seed)]; strings are byte lists. *)
Definition emit_string_collection {X W} (usort : list (N * entry bytes X W) -> list (N * entry bytes X W))
    (unit_expr : W) (seed : N) (fixed_state : N -> build_hasher) (em : emitter) (entries : list (entry bytes X W))
    : res (result (decl * output X W)) :=
  let entries := clean_values unit_expr em entries in
  let entries := using_cmp entries (fun x y => bytes_cmp (e_key x) (e_key y)) in
  finish em (List.length entries) (fun g =>
    if Nat.ltb (List.length entries) 4 then Ok (gen_inline_scan g entries)
    else
      let bh := fixed_state seed in
      a <- analyze_slice_keys N.eqb (bh_bytes bh) (map e_key entries) ;;
      match a with
      | LeftHandSubslice lo hi => gen_inline_hash usort g (left_range_hash_one bh lo hi) (HcLeft lo hi seed) entries
      | RightHandSubslice lo hi => gen_inline_hash usort g (right_range_hash_one bh lo hi) (HcRight lo hi seed) entries
      | SliceLength => gen_inline_hash usort g length_hash_one HcLength entries
      | SliceGeneral => gen_inline_hash usort g (bridge_hash_one bh) (HcBridge seed) entries
      end).

(** * What the emitted code means *)

(** A literal [v] is in range for the integer type of magnitude [cm]; otherwise rustc rejects it
    ([overflowing_literals]). *)
Definition fits (cm : magnitude) (v : N) : bool := v <=? index_max cm.

(** rustc accepts the constructor call: array literals have the length written in the type, literals fit their type,
    and [NHS - 1] in the const fn [new_raw] does not underflow. *)
Definition ctor_compiles {X W} (c : ctor X W) : bool :=
  match c with
  | CScan len es | CEytzinger len es => Nat.eqb (List.length es) len
  | CDense len es _ _ => Nat.eqb (List.length es) len
  | CSparse len num_slots cm es lookup _ _ =>
      Nat.eqb (List.length es) len && Nat.eqb (List.length lookup) num_slots && forallb (fits cm) lookup
  | CHash len num_slots cm slots es _ =>
      Nat.eqb (List.length es) len && Nat.eqb (List.length slots) num_slots && negb (Nat.eqb num_slots 0) &&
      forallb (fun s => fits cm (fst s) && fits cm (snd s)) slots
  | CHashNc len num_slots cm slots es _ =>
      Nat.eqb (List.length es) len && Nat.eqb (List.length slots) num_slots && negb (Nat.eqb num_slots 0) &&
      forallb (fits cm) slots
  | CScanVec _ _ | CEytzingerVec _ _ | CFzHash _ | CFzScalar _ | CFzString _ => true
  end.

(** The value the constructor call evaluates to (the [Fz*] forms are run by [run_fz_*] below). *)
Inductive rt_map (K V : Type) :=
| RtScan (m : scan_map K V)
| RtEytzinger (m : eytzinger_map K V)
| RtDense (m : dense_map K V)
| RtSparse (m : sparse_map K V)
| RtHash (h : hasher_code) (m : hash_map K V)
| RtHashNc (h : hasher_code) (m : nc_map K V).
Arguments RtScan {K V}.
Arguments RtEytzinger {K V}.
Arguments RtDense {K V}.
Arguments RtSparse {K V}.
Arguments RtHash {K V}.
Arguments RtHashNc {K V}.

(** Method calls on it. [eqv], [cmpQ], [idxQ] are the run-time query traits, [hashQ h] the run-time hasher that the
    hasher expression [h] constructs. *)
Definition rt_ops {K V Q} (eqv : Q -> K -> bool) (cmpQ : Q -> K -> comparison) (idxQ : Q -> N)
    (hashQ : hasher_code -> Q -> res N) : map_ops (rt_map K V) K V Q := {|
  mo_entries := fun m => match m with
    | RtScan m => sm_entries m | RtEytzinger m => em_entries m | RtDense m => dm_entries m | RtSparse m => sp_entries m
    | RtHash _ m => ht_entries (hm_table m) | RtHashNc _ m => nc_entries (ncm_table m) end;
  mo_with_entries := fun m es => match m with
    | RtScan m => RtScan (mo_with_entries (scan_ops eqv) m es)
    | RtEytzinger m => RtEytzinger (mo_with_entries (eytzinger_ops cmpQ) m es)
    | RtDense m => RtDense (mo_with_entries (dense_ops idxQ) m es)
    | RtSparse m => RtSparse (mo_with_entries (sparse_ops idxQ) m es)
    | RtHash h m => RtHash h (mo_with_entries (hash_ops (hashQ h) eqv) m es)
    | RtHashNc h m => RtHashNc h (mo_with_entries (nc_ops (hashQ h) eqv) m es) end;
  mo_get := fun m q => match m with
    | RtScan m => scan_get eqv m q | RtEytzinger m => eytzinger_get cmpQ m q | RtDense m => dense_get idxQ m q
    | RtSparse m => sparse_get idxQ m q | RtHash h m => hash_get (hashQ h) eqv m q
    | RtHashNc h m => nc_get (hashQ h) eqv m q end;
  mo_get_mut := fun m q => match m with
    | RtScan m => scan_get_mut eqv m q | RtEytzinger m => eytzinger_get_mut cmpQ m q | RtDense m => dense_get_mut idxQ m q
    | RtSparse m => sparse_get_mut idxQ m q | RtHash h m => hash_get_mut (hashQ h) eqv m q
    | RtHashNc h m => nc_get_mut (hashQ h) eqv m q end;
  mo_get_key_value := fun m q => match m with
    | RtScan m => scan_get_key_value eqv m q | RtEytzinger m => eytzinger_get_key_value cmpQ m q
    | RtDense m => dense_get_key_value idxQ m q
    | RtSparse m => sparse_get_key_value idxQ m q | RtHash h m => hash_get_key_value (hashQ h) eqv m q
    | RtHashNc h m => nc_get_key_value (hashQ h) eqv m q end;
  mo_contains_key := fun m q => match m with
    | RtScan m => scan_contains_key eqv m q | RtEytzinger m => eytzinger_contains_key cmpQ m q
    | RtDense m => dense_contains_key idxQ m q
    | RtSparse m => sparse_contains_key idxQ m q | RtHash h m => hash_contains_key (hashQ h) eqv m q
    | RtHashNc h m => nc_contains_key (hashQ h) eqv m q end |}.

(** Evaluate the entry expressions. *)
Definition eval_entries {X W K V} (evK : X -> K) (evV : W -> V) (es : list (X * W)) : list (K * V) :=
  map (fun e => (evK (fst e), evV (snd e))) es.

(** Evaluate a constructor call. [eqK], [cmpK] are the run-time [Eq] and [Ord] of the key type, used by the [new]
    functions. The [Fz*] calls give other types, see below. *)
Definition run_ctor {X W K V} (evK : X -> K) (evV : W -> V) (eqK : K -> K -> bool) (cmpK : K -> K -> comparison)
    (c : ctor X W) : res (rt_map K V) :=
  let ev := eval_entries evK evV in
  match c with
  | CScan _ es => Ok (RtScan (inline_scan_map_new_raw (ev es)))
  | CScanVec len es => fmap RtScan (inline_scan_map_new eqK len (ev es))
  | CEytzinger _ es => Ok (RtEytzinger (inline_eytzinger_map_new_raw (ev es)))
  | CEytzingerVec len es => fmap RtEytzinger (inline_eytzinger_map_new cmpK len (ev es))
  | CDense _ es min_key max_key => Ok (RtDense {| dm_min := min_key; dm_max := max_key; dm_entries := ev es |})
  | CSparse _ _ _ es lookup min_key max_key =>
      Ok (RtSparse {| sp_min := min_key; sp_max := max_key; sp_lookup := lookup; sp_entries := ev es |})
  | CHash _ _ _ slots es h => Ok (RtHash h {| hm_table := iht_new_raw slots (ev es) |})
  | CHashNc _ _ _ slots es h => Ok (RtHashNc h {| ncm_table := nc_new_raw slots (ev es) |})
  | CFzHash _ | CFzScalar _ | CFzString _ => Panic
  end.

(** The run-time hashers for string keys. *)
Definition string_hasher (fixed_state : N -> build_hasher) (h : hasher_code) (q : bytes) : res N :=
  match h with
  | HcBridge seed => bridge_hash_one (fixed_state seed) q
  | HcLeft lo hi seed => inline_left_range_hash_one lo hi (fixed_state seed) q
  | HcRight lo hi seed => inline_right_range_hash_one lo hi (fixed_state seed) q
  | HcLength => length_hash_one q
  | HcScalar => Panic  (* not typable: [str] is not a [Scalar] *)
  end.

(** The run-time hashers for scalar keys. *)
Definition scalar_hasher {Q} (idxQ : Q -> N) (h : hasher_code) (q : Q) : res N :=
  match h with HcScalar => scalar_hash_one (idxQ q) | _ => Panic (* never emitted for scalars *) end.

(** The run-time hashers for general keys. *)
Definition general_hasher {Q} (hash : N -> Q -> N) (h : hasher_code) (q : Q) : res N :=
  match h with HcBridge seed => Ok (hash seed q) | _ => Panic (* never emitted for general keys *) end.

(** The calls [FzHashMap::new(vec![..])], [FzScalarMap::new(vec![..])], [FzStringMap::new(vec![..])]. *)
Definition run_fz_hash {X W K V} (usort : list (N * (K * V)) -> list (N * (K * V))) (evK : X -> K) (evV : W -> V)
    (eqK : K -> K -> bool) (hK : K -> N) (c : ctor X W) : res (hash_map K V) :=
  match c with CFzHash es => fz_hash_map_with_hasher usort eqK hK (eval_entries evK evV es) | _ => Panic end.
Definition run_fz_scalar {X W K V} (usort : list (N * (K * V)) -> list (N * (K * V))) (md : mode) (evK : X -> K) (evV : W -> V)
    (idx : K -> N) (cmp : K -> K -> comparison) (c : ctor X W) : res (fz_scalar_map K V) :=
  match c with CFzScalar es => fz_scalar_map_new usort md idx cmp (eval_entries evK evV es) | _ => Panic end.
Definition run_fz_string {X W V} (usort : list (N * (bytes * V)) -> list (N * (bytes * V))) (bh : build_hasher)
    (evK : X -> bytes) (evV : W -> V) (c : ctor X W) : res (fz_string_map V) :=
  match c with CFzString es => fz_string_map_with_hasher usort bh (eval_entries evK evV es) | _ => Panic end.
