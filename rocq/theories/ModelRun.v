(** What emitted code does when it is compiled and run: evaluation of the syntax of [ModelTypes.v], with the constructor functions of
    the crate that it calls, each with its body.

    [None] is code that rustc rejects for a number: an array whose length is not the one in the type, a literal that does not fit its
    type, an index mask [NHS - 1] that underflows at compile time. (What else rustc checks is in [SpecTypes.v].) *)
From Coq Require Import String.
From Verif Require Import ModelUtils ModelTables ModelMaps ModelEmit ModelTypes.
From Verif Require Import Prelude.

(** Run-time values. A [FixedState] is its seed; a hasher is the [hasher_code] that names it; [VFz] is what the constructor of a
    [Fz*Map] makes of these entries, see [run_fz_hash] and its siblings in [ModelEmit.v]. *)
Inductive value (K V : Type) :=
| VKey (k : K)
| VVal (v : V)
| VInt (n : N)
| VPair (a b : value K V)
| VArray (l : list (value K V))
| VVec (l : list (value K V))
| VSlot (min_index max_index : N)
| VState (seed : N)
| VHasher (h : hasher_code)
| VTable (nhs : N) (t : hash_table (K * V))
| VNcTable (nhs : N) (t : nc_table (K * V))
| VMap (m : rt_map K V)
| VFz (name : string) (entries : list (K * V))
| VSet (m : value K V).
Arguments VKey {K V}.
Arguments VVal {K V}.
Arguments VInt {K V}.
Arguments VPair {K V}.
Arguments VArray {K V}.
Arguments VVec {K V}.
Arguments VSlot {K V}.
Arguments VState {K V}.
Arguments VHasher {K V}.
Arguments VTable {K V}.
Arguments VNcTable {K V}.
Arguments VMap {K V}.
Arguments VFz {K V}.
Arguments VSet {K V}.

Section Run.
Context {U X W K V : Type}.
Variable evK : X -> K.
Variable evV : W -> V.
Variable eqK : K -> K -> bool.
Variable cmpK : K -> K -> comparison.
Notation val := (value K V).

(** Arguments of the types the functions ask for. *)
Fixpoint all_some {A} (l : list (option A)) : option (list A) :=
  match l with
  | [] => Some []
  | Some x :: r => match all_some r with Some xs => Some (x :: xs) | None => None end
  | None :: _ => None
  end.
Definition as_entry (v : val) : option (K * V) := match v with VPair (VKey k) (VVal v) => Some (k, v) | _ => None end.
Definition as_int (v : val) : option N := match v with VInt n => Some n | _ => None end.
Definition as_slot (v : val) : option (N * N) := match v with VSlot a b => Some (a, b) | _ => None end.
(** [[(K, V); SZ]] *)
Definition as_entries (sz : N) (v : val) : option (list (K * V)) :=
  match v with VArray l => if N.of_nat (List.length l) =? sz then all_some (map as_entry l) else None | _ => None end.
(** [[CM; N]] *)
Definition as_indices (cm : magnitude) (sz : N) (v : val) : option (list N) :=
  match v with
  | VArray l =>
      if N.of_nat (List.length l) =? sz then
        match all_some (map as_int l) with Some ns => if forallb (fits cm) ns then Some ns else None | None => None end
      else None
  | _ => None
  end.
(** [[HashTableSlot<CM>; NHS]] *)
Definition as_slots (cm : magnitude) (sz : N) (v : val) : option (list (N * N)) :=
  match v with
  | VArray l =>
      if N.of_nat (List.length l) =? sz then
        match all_some (map as_slot l) with
        | Some s => if forallb (fun s => fits cm (fst s) && fits cm (snd s)) s then Some s else None
        | None => None
        end
      else None
  | _ => None
  end.
(** [Vec<(K, V)>] *)
Definition as_vec (v : val) : option (list (K * V)) := match v with VVec l => all_some (map as_entry l) | _ => None end.
(** traits/collection_magnitude.rs L14, L22, L30. *)
Definition as_magnitude (t : pty U) : option magnitude :=
  match t with
  | PPath name [] =>
      if String.eqb name (fc "SmallCollection") then Some Small
      else if String.eqb name (fc "MediumCollection") then Some Medium
      else if String.eqb name (fc "LargeCollection") then Some Large
      else None
  | _ => None
  end.

Definition ok (v : val) : option (res val) := Some (Ok v).
(** A constructor that takes a map and wraps it. *)
Definition wrap_map (args : list val) : option (res val) := match args with [VMap m] => ok (VSet (VMap m)) | _ => None end.
Definition wrap_fz (name : string) (args : list val) : option (res val) :=
  match args with [VFz n es] => if String.eqb n name then ok (VSet (VFz n es)) else None | _ => None end.
Definition fz_new (name : string) (args : list val) : option (res val) :=
  match args with [v] => match as_vec v with Some es => ok (VFz name es) | None => None end | _ => None end.

(** The functions emitted code calls, with the generic arguments of the type and the arguments of the call. *)
Definition functions : list (string * (list (pty U) -> list val -> option (res val))) := [
  (* inline_maps/inline_scan_map.rs L45-56 *)
  (fc "inline_maps::InlineScanMap::new_raw", fun generics args =>
    match generics, args with
    | [_; _; PNum sz], [es] => match as_entries sz es with Some es => ok (VMap (RtScan (inline_scan_map_new_raw es))) | None => None end
    | _, _ => None
    end);
  (fc "inline_maps::InlineScanMap::new", fun generics args =>
    match generics, args with
    | [_; _; PNum sz], [es] =>
        match as_vec es with Some es => Some (fmap (fun m => VMap (RtScan m)) (inline_scan_map_new eqK (N.to_nat sz) es)) | None => None end
    | _, _ => None
    end);
  (* inline_maps/inline_eytzinger_search_map.rs L46-67 *)
  (fc "inline_maps::InlineEytzingerSearchMap::new_raw", fun generics args =>
    match generics, args with
    | [_; _; PNum sz], [es] => match as_entries sz es with Some es => ok (VMap (RtEytzinger (inline_eytzinger_map_new_raw es))) | None => None end
    | _, _ => None
    end);
  (fc "inline_maps::InlineEytzingerSearchMap::new", fun generics args =>
    match generics, args with
    | [_; _; PNum sz], [es] =>
        match as_vec es with Some es => Some (fmap (fun m => VMap (RtEytzinger m)) (inline_eytzinger_map_new cmpK (N.to_nat sz) es)) | None => None end
    | _, _ => None
    end);
  (* inline_maps/inline_dense_scalar_lookup_map.rs L42-48 *)
  (fc "inline_maps::InlineDenseScalarLookupMap::new_raw", fun generics args =>
    match generics, args with
    | [_; _; PNum sz], [es; VInt min; VInt max] =>
        match as_entries sz es with Some es => ok (VMap (RtDense {| dm_min := min; dm_max := max; dm_entries := es |})) | None => None end
    | _, _ => None
    end);
  (* inline_maps/inline_sparse_scalar_lookup_map.rs L45-52 *)
  (fc "inline_maps::InlineSparseScalarLookupMap::new_raw", fun generics args =>
    match generics, args with
    | [_; _; PNum sz; PNum ltsz; cm], [es; lookup; VInt min; VInt max] =>
        match as_magnitude cm with
        | Some cm =>
            match as_entries sz es, as_indices cm ltsz lookup with
            | Some es, Some lookup => ok (VMap (RtSparse {| sp_min := min; sp_max := max; sp_lookup := lookup; sp_entries := es |}))
            | _, _ => None
            end
        | None => None
        end
    | _, _ => None
    end);
  (* hash_tables/inline_hash_table.rs L29-35 *)
  (fc "hash_tables::InlineHashTable::new_raw", fun generics args =>
    match generics, args with
    | [_; PNum sz; PNum nhs; cm], [slots; es] =>
        match as_magnitude cm with
        | Some cm =>
            match as_slots cm nhs slots, as_entries sz es with
            | Some slots, Some es => if nhs =? 0 then None else ok (VTable nhs {| ht_mask := nhs - 1; ht_slots := slots; ht_entries := es |})
            | _, _ => None
            end
        | None => None
        end
    | _, _ => None
    end);
  (* hash_tables/inline_hash_table_no_collisions.rs L27-33 *)
  (fc "hash_tables::InlineHashTableNoCollisions::new_raw", fun generics args =>
    match generics, args with
    | [_; PNum sz; PNum nhs; cm], [slots; es] =>
        match as_magnitude cm with
        | Some cm =>
            match as_indices cm nhs slots, as_entries sz es with
            | Some slots, Some es => if nhs =? 0 then None else ok (VNcTable nhs {| nc_mask := nhs - 1; nc_slots := slots; nc_entries := es |})
            | _, _ => None
            end
        | None => None
        end
    | _, _ => None
    end);
  (* hash_tables/hash_table_slot.rs L20-22 *)
  (fc "hash_tables::HashTableSlot::new", fun generics args =>
    match args with [VInt min_index; VInt max_index] => ok (VSlot min_index max_index) | _ => None end);
  (* inline_maps/inline_hash_map.rs L47-49, inline_hash_map_no_collisions.rs L47-49 *)
  (fc "inline_maps::InlineHashMap::new_raw", fun generics args =>
    match generics, args with
    | [_; _; PNum sz; PNum nhs; _; _], [VTable n table; VHasher hasher] =>
        if (n =? nhs) && (N.of_nat (List.length (ht_entries table)) =? sz) then ok (VMap (RtHash hasher {| hm_table := table |})) else None
    | _, _ => None
    end);
  (fc "inline_maps::InlineHashMapNoCollisions::new_raw", fun generics args =>
    match generics, args with
    | [_; _; PNum sz; PNum nhs; _; _], [VNcTable n table; VHasher hasher] =>
        if (n =? nhs) && (N.of_nat (List.length (nc_entries table)) =? sz) then ok (VMap (RtHashNc hasher {| ncm_table := table |})) else None
    | _, _ => None
    end);
  (* foldhash *)
  (fc "foldhash::FixedState::with_seed", fun generics args => match args with [VInt seed] => ok (VState seed) | _ => None end);
  (* hashers/bridge_hasher.rs L16-18, inline_left_range_hasher.rs L17-19, inline_right_range_hasher.rs L17-19 *)
  (fc "hashers::BridgeHasher::new", fun generics args => match args with [VState seed] => ok (VHasher (HcBridge seed)) | _ => None end);
  (fc "hashers::InlineLeftRangeHasher::new", fun generics args =>
    match generics, args with [PNum lo; PNum hi; _], [VState seed] => ok (VHasher (HcLeft lo hi seed)) | _, _ => None end);
  (fc "hashers::InlineRightRangeHasher::new", fun generics args =>
    match generics, args with [PNum lo; PNum hi; _], [VState seed] => ok (VHasher (HcRight lo hi seed)) | _, _ => None end);
  (* inline_sets/*.rs: [new] *)
  (fc "inline_sets::InlineScanSet::new", fun _ => wrap_map);
  (fc "inline_sets::InlineEytzingerSearchSet::new", fun _ => wrap_map);
  (fc "inline_sets::InlineDenseScalarLookupSet::new", fun _ => wrap_map);
  (fc "inline_sets::InlineSparseScalarLookupSet::new", fun _ => wrap_map);
  (fc "inline_sets::InlineHashSet::new", fun _ => wrap_map);
  (fc "inline_sets::InlineHashSetNoCollisions::new", fun _ => wrap_map);
  (* fz_maps/*.rs: [new]; fz_sets/*.rs: [From] of the map *)
  (fc "FzHashMap::new", fun _ => fz_new "FzHashMap");
  (fc "FzScalarMap::new", fun _ => fz_new "FzScalarMap");
  (fc "FzStringMap::new", fun _ => fz_new "FzStringMap");
  (fc "FzHashSet::from", fun _ => wrap_fz "FzHashMap");
  (fc "FzScalarSet::from", fun _ => wrap_fz "FzScalarMap");
  (fc "FzStringSet::from", fun _ => wrap_fz "FzStringMap");
  (* std::sync::LazyLock: the value it has once it is used *)
  ("std::sync::LazyLock::new"%string, fun _ args => match args with [v] => ok v | _ => None end)].

(** Unit structs: hashers/scalar_hasher.rs L7, hashers/length_hasher.rs L7. *)
Definition structs : list (string * val) :=
  [(fc "hashers::ScalarHasher", VHasher HcScalar); (fc "hashers::LengthHasher", VHasher HcLength)].

Fixpoint lookup {A} (name : string) (l : list (string * A)) : option A :=
  match l with [] => None | (n, a) :: r => if String.eqb n name then Some a else lookup name r end.

(** Arguments and elements are evaluated from left to right. *)
Fixpoint in_order (l : list (option (res val))) : option (res (list val)) :=
  match l with
  | [] => Some (Ok [])
  | Some r :: rest => match in_order rest with Some rs => Some (v <- r ;; vs <- rs ;; Ok (v :: vs)) | None => None end
  | None :: _ => None
  end.
(** Apply to evaluated arguments; a panic in an argument is a panic of the call. *)
Definition apply (f : list val -> option (res val)) (args : option (res (list val))) : option (res val) :=
  match args with
  | None => None
  | Some (Ok vs) => f vs
  | Some Panic => Some Panic
  | Some UB => Some UB
  end.

Fixpoint eval (e : pexpr U X W) : option (res val) :=
  match e with
  | XKey x => ok (VKey (evK x))
  | XVal w => ok (VVal (evV w))
  | XInt v _ => ok (VInt v)
  | XPair a b => apply (fun vs => match vs with [a; b] => ok (VPair a b) | _ => None end) (in_order [eval a; eval b])
  | XArray es => apply (fun vs => ok (VArray vs)) (in_order (map eval es))
  | XVec es => apply (fun vs => ok (VVec vs)) (in_order (map eval es))
  | XCall (PPath name generics) f args =>
      match lookup (name ++ "::" ++ f)%string functions with
      | Some body => apply (body generics) (in_order (map eval args))
      | None => None
      end
  | XCall _ _ _ => None
  | XStruct name => match lookup name structs with Some v => ok v | None => None end
  | XClosure body => eval body
  end.

(** The expression a program gives to a name, or without a name the expression that it is. *)
Fixpoint defined_as (symbol : option string) (items : list (item U X W)) : option (pexpr U X W) :=
  match items with
  | [] => None
  | i :: r =>
      match i, symbol with
      | ItStatic _ name _ e, Some s | ItLet _ name _ e, Some s => if String.eqb name s then Some e else defined_as symbol r
      | ItExpr e, None => Some e
      | _, _ => defined_as symbol r
      end
  end.
(** The value of that name when it is used. *)
Definition value_of (symbol : option string) (items : list (item U X W)) : option (res val) :=
  match defined_as symbol items with Some e => eval e | None => None end.
End Run.
