(** Deserialization from accesses that keep state, fail, panic, lie about their length, or never end. *)
From Coq Require Import String.
From Verif Require Import ModelMaps ModelTables ModelUtils ModelSerde ModelCollect.
From Verif Require Import Prelude.

(** What [next_entry] of a [serde::MapAccess], or [next_element] of a [serde::SeqAccess], does in a state, the deserialization of the key and
    the value included. After [Ok(None)] or an error it may go on. *)
Inductive turn (E S : Type) :=
| Gives (x : E) (s : S)
| Ends (s : S)
| Fails (msg : string) (s : S)
| Crashes.
Arguments Gives {E S}.
Arguments Ends {E S}.
Arguments Fails {E S}.
Arguments Crashes {E S}.
(** [rd_hint] is [size_hint]: it may change the state, through a cell, and may panic ([None]). *)
Record reader (E S : Type) := { rd_hint : S -> option (option N * S); rd_next : S -> turn E S }.
Arguments rd_hint {E S}.
Arguments rd_next {E S}.

(** std's [Vec::push] on a vector of [len] elements: the new capacity. *)
Definition push (size cap len : N) : res N := if len =? capacity size cap then reserve size cap len 1 else Ok cap.

(** The loop [while let Some(x) = map.next_entry()? { v.push(x) }]: what it leaves in [v], or the error, and the access. [None]: it has not
    come to an end in [fuel] turns; it may never. *)
Fixpoint read_all {E S} (fuel : nat) (size cap : N) (rd : reader E S) (s : S) (v : list E) : option (res (result (list E) * S)) :=
  match fuel with
  | O => None
  | Datatypes.S fuel =>
      match rd_next rd s with
      | Crashes => Some Panic
      | Fails msg s => Some (Ok (RErr msg, s))
      | Ends s => Some (Ok (ROk v, s))
      | Gives x s =>
          match push size cap (N.of_nat (List.length v)) with
          | Ok cap => read_all fuel size cap rd s (v ++ [x])
          | Panic => Some Panic
          | UB => Some UB
          end
      end
  end.

(** The common part of the [visit_map] and [visit_seq] functions: reserve, collect, build. *)
Definition read {E S M} (build : list E -> res M) (fuel : nat) (size : N) (rd : reader E S) (s : S) : option (res (result M * S)) :=
  match rd_hint rd s with
  | None => Some Panic
  | Some (hint, s) =>
      let cap := match hint with Some n => n | None => 0 end in
      match with_capacity size cap with
      | Ok _ =>
          match read_all fuel size cap rd s [] with
          | None => None
          | Some r => Some (x <- r ;; match x with (RErr msg, s) => Ok (RErr msg, s) | (ROk v, s) => m <- build v ;; Ok (ROk m, s) end)
          end
      | Panic => Some Panic
      | UB => Some UB
      end
  end.

(** fz_maps/fz_hash_map.rs L400-410; [hK] hashes with [BH::default()]. *)
Definition fz_hash_map_read {K V S} usort eqK hK fuel size (rd : reader (K * V) S) (s : S) :=
  read (fz_hash_map_with_hasher usort eqK hK) fuel size rd s.
(** fz_maps/fz_ordered_map.rs L337-347. *)
Definition fz_ordered_map_read {K V S} cmp fuel size (rd : reader (K * V) S) (s : S) := read (fz_ordered_map_new cmp) fuel size rd s.
(** fz_maps/fz_scalar_map.rs L422-432. *)
Definition fz_scalar_map_read {K V S} usort md idx cmp fuel size (rd : reader (K * V) S) (s : S) :=
  read (fz_scalar_map_new usort md idx cmp) fuel size rd s.
(** fz_maps/fz_string_map.rs L523-533: the keys are taken as [&'de str], by serde's [Deserialize for &'de str]. An access that does not lend the
    key is not asked for the value; the value beside a [Transient] key plays no part. *)
Definition borrowing {V S} (rd : reader (str_datum * V) S) : reader (bytes * V) S :=
  {| rd_hint := rd_hint rd;
     rd_next := fun s =>
       match rd_next rd s with
       | Gives (d, v) s => match deserialize_str d with ROk k => Gives (k, v) s | RErr msg => Fails msg s end
       | Ends s => Ends s
       | Fails msg s => Fails msg s
       | Crashes => Crashes
       end |}.
Definition fz_string_map_read {V S} usort bh fuel size (rd : reader (str_datum * V) S) (s : S) :=
  read (fz_string_map_with_hasher usort bh) fuel size (borrowing rd) s.

(** fz_sets/fz_hash_set.rs L314-324, fz_ordered_set.rs L260-270, fz_scalar_set.rs L254-264: the vector holds pairs [(x, ())]. *)
Definition with_units {T S} (rd : reader T S) : reader (T * unit) S :=
  {| rd_hint := rd_hint rd;
     rd_next := fun s =>
       match rd_next rd s with
       | Gives x s => Gives (x, tt) s
       | Ends s => Ends s
       | Fails msg s => Fails msg s
       | Crashes => Crashes
       end |}.
Definition fz_hash_set_read {T S} usort eqT hT fuel size (rd : reader T S) (s : S) :=
  fz_hash_map_read usort eqT hT fuel size (with_units rd) s.
Definition fz_ordered_set_read {T S} cmp fuel size (rd : reader T S) (s : S) := fz_ordered_map_read cmp fuel size (with_units rd) s.
Definition fz_scalar_set_read {T S} usort md idx cmp fuel size (rd : reader T S) (s : S) :=
  fz_scalar_map_read usort md idx cmp fuel size (with_units rd) s.
(** fz_sets/fz_string_set.rs L298-308. *)
Definition fz_string_set_read {S} usort bh fuel size (rd : reader str_datum S) (s : S) :=
  fz_string_map_read usort bh fuel size (with_units rd) s.
