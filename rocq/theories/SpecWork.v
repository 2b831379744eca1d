(** Work done by the analyzers and space taken by the tables (C65). *)
From Verif Require Import ModelUtils ModelAnalyzers ModelTables ModelMaps ModelEmit Spec.
From Verif Require Import Prelude.

(** What the slice analyzer does with elements of the keys. *)
Inductive slice_work (T : Type) :=
| Compared (a b : T)
| Hashed (sub : list T).
Arguments Compared {T}.
Arguments Hashed {T}.

Definition comparisons {T} (log : list (slice_work T)) : nat :=
  list_sum (map (fun w => match w with Compared _ _ => 1 | Hashed _ => 0 end)%nat log).
Definition hash_calls {T} (log : list (slice_work T)) : nat :=
  list_sum (map (fun w => match w with Compared _ _ => 0 | Hashed _ => 1 end)%nat log).
Definition elements_hashed {T} (log : list (slice_work T)) : nat :=
  list_sum (map (fun w => match w with Compared _ _ => 0 | Hashed s => length s end)%nat log).

(** Equality and hashing do the same wherever the record says they were asked. *)
Definition same_where_asked {T} (log : list (slice_work T)) (eqT eqT' : T -> T -> bool) (hash hash' : list T -> N) : Prop :=
  (forall a b, In (Compared a b) log -> eqT' a b = eqT a b) /\ (forall s, In (Hashed s) log -> hash' s = hash s).

(** Number of elements in all keys together. *)
Definition total_size {T} (keys : list (list T)) : nat := list_sum (map (@length T) keys).

(** What the hash code analyzer does: start on a table size, look at a code. *)
Inductive table_work :=
| TrySize (num_slots : N)
| LookAt (code : N).

Definition sizes_tried (log : list table_work) : list N :=
  flat_map (fun w => match w with TrySize n => [n] | LookAt _ => [] end) log.
Definition codes_looked_at (log : list table_work) : list N :=
  flat_map (fun w => match w with TrySize _ => [] | LookAt c => [c] end) log.

(** The shortest stretch at the front of [codes] with [most] collisions among [m] slots, or all of [codes]. *)
Definition until (codes : list N) (most m : N) : list N :=
  match find (fun n => N.leb most (collisions (firstn n codes) m)) (seq 0 (S (length codes))) with Some n => firstn n codes | None => codes end.
(** The record of starting on a size and looking at codes. *)
Definition block (m : N) (looked : list N) : list table_work := TrySize m :: map LookAt looked.

(** How many table sizes there are to try. *)
Definition most_sizes (len : nat) : nat := if Nat.ltb len 128 then 5 else if Nat.ltb len 1000 then 4 else 3.

(** Length of the array that a map keeps beside its entries. *)
Definition hash_side {K V} (m : hash_map K V) : nat := length (ht_slots (hm_table m)).
Definition scalar_side {K V} (m : fz_scalar_map K V) : nat :=
  match m with FsHash m => hash_side m | FsDense _ => 0 | FsSparse m => length (sp_lookup m) end.
Definition string_side {V} (m : fz_string_map V) : nat := hash_side (sm_inner m).
Definition ctor_side {X W} (c : ctor X W) : nat :=
  match c with CSparse _ _ _ _ l _ _ => length l | CHash _ _ _ l _ _ => length l | CHashNc _ _ _ l _ _ => length l | _ => 0 end.
(** Number of entries written in an emitted constructor call. *)
Definition ctor_entries {X W} (c : ctor X W) : list (X * W) :=
  match c with
  | CScan _ es | CScanVec _ es | CEytzinger _ es | CEytzingerVec _ es | CDense _ es _ _ | CSparse _ _ _ es _ _ _ | CHash _ _ _ _ es _
  | CHashNc _ _ _ _ es _ | CFzHash es | CFzScalar es | CFzString es => es
  end.
