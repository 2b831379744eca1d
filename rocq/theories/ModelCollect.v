(** [From] arrays and [FromIterator] of the [fz_*] collections, over iterators that keep state and panic. *)
From Verif Require Import ModelUtils ModelAnalyzers ModelTables ModelMaps ModelSerde.
From Verif Require Import Prelude.

(** An iterator: what [next] does in a state, and the lower bound that [size_hint] returns there, or its panic. After [None] it may go on. *)
Inductive step (A S : Type) :=
| Yield (x : A) (s : S)
| Done (s : S)
| Panics.
Arguments Yield {A S}.
Arguments Done {A S}.
Arguments Panics {A S}.
Record source (A S : Type) := { src_next : S -> step A S; src_hint : S -> option N }.
Arguments src_next {A S}.
Arguments src_hint {A S}.

(** std's [Iterator::map] with a function that keeps no state. *)
Definition mapped {A B S} (f : A -> B) (src : source A S) : source B S :=
  {| src_next := fun s => match src_next src s with Yield x s' => Yield (f x) s' | Done s' => Done s' | Panics => Panics end;
     src_hint := src_hint src |}.

Definition saturating_succ (n : N) : N := N.min usize_max (n + 1).
(** std's [RawVec::MIN_NON_ZERO_CAP]. *)
Definition min_cap (size : N) : N := if size =? 1 then 8 else if size <=? 1024 then 4 else 1.
(** [Vec::capacity] of elements without size is [usize::MAX]. *)
Definition capacity (size cap : N) : N := if size =? 0 then usize_max else cap.

(** std's [Vec::reserve] on a full vector of [len] elements. *)
Definition reserve (size cap len additional : N) : res N :=
  if usize_max <? len + additional then Panic
  else if size =? 0 then Ok cap
  else
    let cap := N.max (min_cap size) (N.max (2 * cap) (len + additional)) in
    _u <- with_capacity size cap ;; Ok cap.

(** std's [Vec::extend_desugared]. [None]: it has not come to an end in [fuel] steps; it may never. *)
Fixpoint extend {A S} (fuel : nat) (size cap : N) (src : source A S) (s : S) (v : list A) : option (res (list A)) :=
  match fuel with
  | O => None
  | Datatypes.S fuel =>
      match src_next src s with
      | Panics => Some Panic
      | Done _ => Some (Ok v)
      | Yield x s =>
          if N.of_nat (List.length v) =? capacity size cap then
            match src_hint src s with
            | None => Some Panic
            | Some lower =>
                match reserve size cap (N.of_nat (List.length v)) (saturating_succ lower) with
                | Ok cap => extend fuel size cap src s (v ++ [x])
                | _ => Some Panic
                end
            end
          else extend fuel size cap src s (v ++ [x])
      end
  end.

(** std's [Vec::from_iter] for iterators it knows nothing about. *)
Definition vec_from_iter {A S} (fuel : nat) (size : N) (src : source A S) (s : S) : option (res (list A)) :=
  match src_next src s with
  | Panics => Some Panic
  | Done _ => Some (Ok [])
  | Yield x s =>
      match src_hint src s with
      | None => Some Panic
      | Some lower =>
          let cap := N.max (min_cap size) (saturating_succ lower) in
          match with_capacity size cap with
          | Ok _ => extend fuel size cap src s [x]
          | _ => Some Panic
          end
      end
  end.

Definition from_iter {A S M} (make : list A -> res M) (fuel : nat) (size : N) (src : source A S) (s : S) : option (res M) :=
  match vec_from_iter fuel size src s with
  | None => None
  | Some r => Some (v <- r ;; make v)
  end.

(** An array's [into_iter().map(...).collect()]: the length is known; one allocation. *)
Definition from_known {A B M} (make : list B -> res M) (size : N) (f : A -> B) (array : list A) : res M :=
  _u <- with_capacity size (N.of_nat (List.length array)) ;; make (map f array).

(** fz_maps/fz_hash_map.rs L214-216, L224-226. *)
Definition fz_hash_map_from_array {K V} usort eqK hK (entries : list (K * V)) := fz_hash_map_with_hasher usort eqK hK entries.
Definition fz_hash_map_from_iter {K V S} usort eqK hK fuel size (src : source (K * V) S) (s : S) :=
  from_iter (fz_hash_map_with_hasher usort eqK hK) fuel size src s.
(** fz_maps/fz_ordered_map.rs L186-188, L195-197. *)
Definition fz_ordered_map_from_array {K V} cmp (entries : list (K * V)) := fz_ordered_map_new cmp entries.
Definition fz_ordered_map_from_iter {K V S} cmp fuel size (src : source (K * V) S) (s : S) :=
  from_iter (fz_ordered_map_new cmp) fuel size src s.
(** fz_maps/fz_scalar_map.rs L271-273, L280-282. *)
Definition fz_scalar_map_from_array {K V} usort md idx cmp (entries : list (K * V)) := fz_scalar_map_new usort md idx cmp entries.
Definition fz_scalar_map_from_iter {K V S} usort md idx cmp fuel size (src : source (K * V) S) (s : S) :=
  from_iter (fz_scalar_map_new usort md idx cmp) fuel size src s.
(** fz_maps/fz_string_map.rs L306-308, L316-318. A key is the string its [as_ref] yields. *)
Definition fz_string_map_from_array {V} usort bh (entries : list (bytes * V)) := fz_string_map_with_hasher usort bh entries.
Definition fz_string_map_from_iter {V S} usort bh fuel size (src : source (bytes * V) S) (s : S) :=
  from_iter (fz_string_map_with_hasher usort bh) fuel size src s.

(** The sets: [Self::from(FzHashMap::from_iter(iter.into_iter().map(|x| (x, ()))))]; [Self::from] of a map wraps it. *)
Definition with_unit {T} (x : T) : T * unit := (x, tt).
(** fz_sets/fz_hash_set.rs L132-134, L142-144, L152-154. *)
Definition fz_hash_set_from_array {T} usort eqT hT size (entries : list T) :=
  from_known (fz_hash_map_with_hasher usort eqT hT) size with_unit entries.
Definition fz_hash_set_from_iter {T S} usort eqT hT fuel size (src : source T S) (s : S) :=
  fz_hash_map_from_iter usort eqT hT fuel size (mapped with_unit src) s.
(** fz_sets/fz_ordered_set.rs L114-116, L123-125, L132-134. *)
Definition fz_ordered_set_from_array {T} cmp size (entries : list T) := from_known (fz_ordered_map_new cmp) size with_unit entries.
Definition fz_ordered_set_from_iter {T S} cmp fuel size (src : source T S) (s : S) :=
  fz_ordered_map_from_iter cmp fuel size (mapped with_unit src) s.
(** fz_sets/fz_scalar_set.rs L108-110, L117-119, L126-128. *)
Definition fz_scalar_set_from_array {T} usort md idx cmp size (entries : list T) :=
  from_known (fz_scalar_map_new usort md idx cmp) size with_unit entries.
Definition fz_scalar_set_from_iter {T S} usort md idx cmp fuel size (src : source T S) (s : S) :=
  fz_scalar_map_from_iter usort md idx cmp fuel size (mapped with_unit src) s.
(** fz_sets/fz_string_set.rs L115-117, L125-127, L135-137. *)
Definition fz_string_set_from_array usort bh size (entries : list bytes) :=
  from_known (fz_string_map_with_hasher usort bh) size with_unit entries.
Definition fz_string_set_from_iter {S} usort bh fuel size (src : source bytes S) (s : S) :=
  fz_string_map_from_iter usort bh fuel size (mapped with_unit src) s.
