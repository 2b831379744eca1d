(** Model of the serde support: [Serialize] of every collection, [Deserialize] of the frozen ones. *)
From Coq Require Import String.
From Verif Require Import ModelMaps ModelTables ModelUtils.
From Verif Require Import Prelude.

(** * Serialization *)

(** [serde::Serializer] after [serialize_map] or [serialize_seq]: begin with an announced length, take items one by one, end. *)
Record serializer (E St Out : Type) := {
  se_begin : option N -> result St;
  se_item : St -> E -> result St;
  se_end : St -> result Out }.
Arguments se_begin {E St Out}.
Arguments se_item {E St Out}.
Arguments se_end {E St Out}.

Fixpoint serialize_items {E St Out} (ser : serializer E St Out) (st : St) (items : list E) : result St :=
  match items with
  | [] => ROk st
  | x :: r => match se_item ser st x with RErr e => RErr e | ROk st' => serialize_items ser st' r end
  end.
Definition serialize {E St Out} (ser : serializer E St Out) (len : option N) (items : list E) : result Out :=
  match se_begin ser len with
  | RErr e => RErr e
  | ROk st => match serialize_items ser st items with RErr e => RErr e | ROk st' => se_end ser st' end
  end.

(** maps/decl_macros.rs L574-583: [serialize_trait_funcs] for maps. *)
Definition map_serialize {M K V Q St Out} (ops : map_ops M K V Q) (ser : serializer (K * V) St Out) (m : M) : result Out :=
  serialize ser (Some (N.of_nat (map_len ops m))) (mo_entries ops m).
(** sets/decl_macros.rs L135-144: [serialize_trait_funcs] for sets. *)
Definition set_serialize {M T Q St Out} (ops : map_ops M T unit Q) (ser : serializer T St Out) (m : M) : result Out :=
  serialize ser (Some (N.of_nat (set_len ops m))) (set_values ops m).

(** * Deserialization *)

(** [serde::MapAccess]/[SeqAccess]: the size hint, and what [next_entry]/[next_element] return call by call until [Ok(None)].
    Never-ending input: ModelAccess.v. *)
Record access (E : Type) := { ac_hint : option N; ac_items : list (result E) }.
Arguments ac_hint {E}.
Arguments ac_items {E}.

(** [isize::MAX] on a 64-bit target. *)
Definition isize_max : N := 9223372036854775807.
(** [Vec::with_capacity]: panics when the allocation would exceed [isize::MAX] bytes, [size] being the size of an element. Running out of
    memory is not modelled. *)
Definition with_capacity (size n : N) : res unit := if size * n <=? isize_max then Ok tt else Panic.

(** The loop [while let Some(x) = map.next_entry()? { v.push(x) }]. *)
Fixpoint collect {E} (items : list (result E)) : result (list E) :=
  match items with
  | [] => ROk []
  | RErr e :: _ => RErr e
  | ROk x :: r => match collect r with RErr e => RErr e | ROk l => ROk (x :: l) end
  end.

(** The common part of the [visit_map] and [visit_seq] functions: reserve, collect, build. *)
Definition visit {E M} (size : N) (a : access E) (build : list E -> res M) : res (result M) :=
  _ <- with_capacity size (match ac_hint a with Some n => n | None => 0 end) ;;
  match collect (ac_items a) with
  | RErr e => Ok (RErr e)
  | ROk v => m <- build v ;; Ok (ROk m)
  end.

(** fz_maps/fz_hash_map.rs L400-410; [hK] hashes with [BH::default()]. *)
Definition fz_hash_map_visit {K V} usort eqK hK (size : N) (a : access (K * V)) : res (result (hash_map K V)) :=
  visit size a (fz_hash_map_with_hasher usort eqK hK).
(** fz_maps/fz_ordered_map.rs L337-347. *)
Definition fz_ordered_map_visit {K V} cmp (size : N) (a : access (K * V)) : res (result (eytzinger_map K V)) :=
  visit size a (fz_ordered_map_new cmp).
(** fz_maps/fz_scalar_map.rs L422-432. *)
Definition fz_scalar_map_visit {K V} usort md idx cmp (size : N) (a : access (K * V)) : res (result (fz_scalar_map K V)) :=
  visit size a (fz_scalar_map_new usort md idx cmp).

(** A string as a deserializer hands it over: borrowed from the input, or only for the duration of the call. *)
Inductive str_datum := Lent (s : bytes) | Transient (s : bytes).
(** serde's [Deserialize for &'de str]. *)
Definition deserialize_str (d : str_datum) : result bytes :=
  match d with Lent s => ROk s | Transient _ => RErr "invalid type: string, expected a borrowed string" end.
Definition next_str {V} (r : result (str_datum * V)) : result (bytes * V) :=
  match r with
  | RErr e => RErr e
  | ROk (d, v) => match deserialize_str d with RErr e => RErr e | ROk s => ROk (s, v) end
  end.
(** fz_maps/fz_string_map.rs L523-533: the keys are taken as [&'de str]. *)
Definition fz_string_map_visit {V} usort bh (size : N) (a : access (str_datum * V)) : res (result (fz_string_map V)) :=
  visit size {| ac_hint := ac_hint a; ac_items := map next_str (ac_items a) |} (fz_string_map_with_hasher usort bh).

(** fz_sets/fz_hash_set.rs L314-324, fz_ordered_set.rs L260-270, fz_scalar_set.rs L254-264. *)
Definition fz_hash_set_visit {T} usort eqT hT (size : N) (a : access T) : res (result (hash_map T unit)) :=
  visit size a (fun v => fz_hash_map_with_hasher usort eqT hT (unit_entries v)).
Definition fz_ordered_set_visit {T} cmp (size : N) (a : access T) : res (result (eytzinger_map T unit)) :=
  visit size a (fun v => fz_ordered_map_new cmp (unit_entries v)).
Definition fz_scalar_set_visit {T} usort md idx cmp (size : N) (a : access T) : res (result (fz_scalar_map T unit)) :=
  visit size a (fun v => fz_scalar_map_new usort md idx cmp (unit_entries v)).
(** fz_sets/fz_string_set.rs L298-308. *)
Definition next_str_elem (r : result str_datum) : result bytes := match r with RErr e => RErr e | ROk d => deserialize_str d end.
Definition fz_string_set_visit usort bh (size : N) (a : access str_datum) : res (result (fz_string_map unit)) :=
  visit size {| ac_hint := ac_hint a; ac_items := map next_str_elem (ac_items a) |}
    (fun v => fz_string_map_with_hasher usort bh (unit_entries v)).
