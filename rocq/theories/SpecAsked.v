(** How many calls of trait methods the comparisons of maps and sets and the iterators of set operations make. *)
From Verif Require Import ModelUtils ModelAnalyzers ModelTables ModelMaps ModelIter ModelHostile ModelHostileIter SpecCovers SpecCalls.
From Verif Require Import Prelude.

(** A comparison that asks about at most [k] elements, each with [few] to [most] calls: it ends, only a call makes it panic, and it does not say "yes"
    without having asked about all of them. *)
Definition compares (k few most : nat) (x : hostile bool) (adv : nat -> answer) (n : nat) : Prop :=
  match x adv n with
  | Ok (b, n') => (n <= n' <= n + k * most)%nat /\ (b = true -> (n + k * few <= n')%nat)
  | Panic => exists i, (i < k * most)%nat /\ a_panics (adv (n + i)%nat) = true
  | UB => False
  end.

(** An iterator in state [st], called any number of times, while no method panics: it makes no more than [hi] calls of trait methods in all, and at
    least [lo] by the time it says [None]. *)
Definition asks {T St} (next : St -> hostile (event T * St)) (st : St) (lo hi : nat) : Prop :=
  forall adv n k, (forall i, a_panics (adv i) = false) ->
  exists evs st' n', h_calls next k st adv n = Ok ((evs, st'), n') /\ (n <= n' <= n + hi)%nat /\ (In Done evs -> (n + lo <= n')%nat).

(** Some answers, without panics, make the iterator, used to its end, take exactly [calls] calls. *)
Definition takes {T St} (next : St -> hostile (event T * St)) (st : St) (calls : nat) : Prop :=
  exists adv, (forall i, a_panics (adv i) = false) /\
  forall n k evs st' n', h_calls next k st adv n = Ok ((evs, st'), n') -> In Done evs -> n' = (n + calls)%nat.

(** Equality of maps under trait implementations that are functions, for comparison. *)
Definition plain_query {K V} (t : traits K K) (m : any_map K V) : map_query K V :=
  match m with
  | AnyScan m => as_query (scan_ops (t_eqv t)) m
  | AnyOrdered m => as_query (eytzinger_ops (t_cmpQ t)) m
  | AnyDense m => as_query (dense_ops (t_idxQ t)) m
  | AnySparse m => as_query (sparse_ops (t_idxQ t)) m
  | AnyHash m => as_query (hash_ops (fun q => Ok (t_hashQ t q)) (t_eqv t)) m
  | AnyNoCollisions m => as_query (nc_ops (fun q => Ok (t_hashQ t q)) (t_eqv t)) m
  end.
Definition plain_eq {K V} (t : traits K K) (eqV : V -> V -> bool) (m other : any_map K V) : res bool :=
  match m with
  | AnyScan m => map_eq (scan_ops (t_eqv t)) eqV m (plain_query t other)
  | AnyOrdered m => map_eq (eytzinger_ops (t_cmpQ t)) eqV m (plain_query t other)
  | AnyDense m => map_eq (dense_ops (t_idxQ t)) eqV m (plain_query t other)
  | AnySparse m => map_eq (sparse_ops (t_idxQ t)) eqV m (plain_query t other)
  | AnyHash m => map_eq (hash_ops (fun q => Ok (t_hashQ t q)) (t_eqv t)) eqV m (plain_query t other)
  | AnyNoCollisions m => map_eq (nc_ops (fun q => Ok (t_hashQ t q)) (t_eqv t)) eqV m (plain_query t other)
  end.
