(** Emitted hash tables run with another hash function than the one they were laid out with (C64). *)
From Verif Require Import ModelTables ModelMaps ModelEmit Spec SpecEmit SpecMade.
From Verif Require Import Prelude.

(** Like [answers], but only the queries for which [ok] holds find anything. *)
Record answers_where {M K V Q} (ops : map_ops M K V Q) (eqK : K -> K -> bool) (eqv : Q -> K -> bool) (ok : Q -> bool) (m : M)
    (input : list (K * V)) : Prop := {
  where_get : forall q, mo_get ops m q = Ok (if ok q then spec_get eqv input q else None);
  where_get_key_value : forall q, mo_get_key_value ops m q = Ok (if ok q then spec_entry eqv input q else None);
  where_contains_key : forall q, mo_contains_key ops m q = Ok (if ok q then is_some (spec_entry eqv input q) else false);
  where_get_mut : forall q, exists o, mo_get_mut ops m q = Ok o /\
    match o with Some p => nth_error (mo_entries ops m) p | None => None end = if ok q then spec_entry eqv input q else None;
  where_entries : forall e, In e (mo_entries ops m) <->
    exists pre post, input = pre ++ e :: post /\ forall e', In e' post -> eqK (fst e) (fst e') = false;
  where_len : map_len ops m = key_count eqK input }.

(** The two hash codes select the same of [n] slots. *)
Definition same_slot (n : nat) (a b : res N) : bool :=
  match a, b with Ok a, Ok b => a mod N.of_nat n =? b mod N.of_nat n | _, _ => false end.

(** Querying with [q], the target computes the slot in which the build machine put the entry that [q] matches, if any. [hB h] is the hasher
    [h] on the build machine, [hR h] on the target. *)
Definition slot_found {KB X W K Q} (hB : hasher_code -> KB -> res N) (hR : hasher_code -> Q -> res N) (evK : X -> K) (eqv : Q -> K -> bool)
    (entries : list (entry KB X W)) (c : ctor X W) (q : Q) : bool :=
  match c with
  | CHash _ n _ _ _ h | CHashNc _ n _ _ _ h =>
      forallb (fun e => implb (eqv q (rt_key evK e)) (same_slot n (hB h (fst e)) (hR h q))) entries
  | _ => true
  end.

(** The same for string keys: the two machines send [q] to the same slot. *)
Definition string_slot_found {X W} (fsB fsR : N -> build_hasher) (c : ctor X W) (q : bytes) : bool :=
  match c with
  | CHash _ n _ _ _ h | CHashNc _ n _ _ _ h => same_slot n (string_hasher fsB h q) (string_hasher fsR h q)
  | _ => true
  end.

(** Emission succeeds, the emitted code [c] compiles and, run on the target, gives a map that answers exactly the queries for which [ok c] holds. *)
Definition emits_where {X W K V Q} (r : res (result (decl * output X W))) (em : emitter) (evK : X -> K) (evV : W -> V)
    (eqR : K -> K -> bool) (cmpR : K -> K -> comparison) (ops : map_ops (rt_map K V) K V Q) (eqK : K -> K -> bool) (eqv : Q -> K -> bool)
    (ok : ctor X W -> Q -> bool) (input : list (K * V)) : Prop :=
  exists d out m, r = Ok (ROk (d, out)) /\ expected_decl em d /\ o_set out = negb (em_has_value_type em) /\
    ctor_compiles (o_ctor out) = true /\ run_ctor evK evV eqR cmpR (o_ctor out) = Ok m /\
    answers_where ops eqK eqv (ok (o_ctor out)) m input.

(** The hasher printed in an emitted collection. *)
Definition hasher_of {X W} (c : ctor X W) : option hasher_code :=
  match c with CHash _ _ _ _ _ h | CHashNc _ _ _ _ _ h => Some h | _ => None end.
