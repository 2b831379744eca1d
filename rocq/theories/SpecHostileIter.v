(** What an iterator over a set may do, however [contains] behaves. *)
From Verif Require Import ModelUtils ModelAnalyzers ModelTables ModelMaps ModelIter ModelHostile ModelHostileIter SpecCovers.
From Verif Require Import Prelude.

(** [l1] is [l2] with some elements left out. *)
Inductive thinned {T} : list T -> list T -> Prop :=
| thinned_nil : thinned [] []
| thinned_keep x l1 l2 : thinned l1 l2 -> thinned (x :: l1) (x :: l2)
| thinned_skip x l1 l2 : thinned l1 l2 -> thinned l1 (x :: l2).

Definition items {T} (evs : list (event T)) : list T := flat_map (fun e => match e with Item x => [x] | _ => [] end) evs.

(** However often an iterator in state [st] is called, with panics caught: every call returns; what comes out is [source] with some elements
    left out; at most as many calls as [source] has elements do not say [None], and after that they all do; there are no more items than the upper
    bound of [hint]; and a call panics only if an answer does. *)
Definition tame {T St} (next : St -> hostile (event T * St)) (st : St) (source : list T) (hint : N * option N) : Prop :=
  forall k adv n, exists evs st' n', h_calls next k st adv n = Ok ((evs, st'), n') /\
    (exists busy, evs = busy ++ repeat Done (k - length busy) /\ ~ In Done busy /\ (length busy <= k)%nat /\
       (length busy <= length source)%nat) /\
    thinned (items evs) source /\
    (forall u, snd hint = Some u -> N.of_nat (length (items evs)) <= u) /\
    ((forall i, a_panics (adv i) = false) -> ~ In Caught evs).

(** ** The same sets under trait implementations that are functions, for comparison. *)
Definition plain_set {T} (t : traits T T) (s : h_set T) : set_val T :=
  let ask M (ops : map_ops M T unit T) m x := if hs_facade s then set_contains ops m x else set_contains_via_get ops m x in
  {| sv_items := map fst (any_entries (hs_map s)); sv_len := length (any_entries (hs_map s));
     sv_contains := match hs_map s with
       | AnyScan m => ask _ (scan_ops (t_eqv t)) m
       | AnyOrdered m => ask _ (eytzinger_ops (t_cmpQ t)) m
       | AnyDense m => ask _ (dense_ops (t_idxQ t)) m
       | AnySparse m => ask _ (sparse_ops (t_idxQ t)) m
       | AnyHash m => ask _ (hash_ops (fun q => Ok (t_hashQ t q)) (t_eqv t)) m
       | AnyNoCollisions m => ask _ (nc_ops (fun q => Ok (t_hashQ t q)) (t_eqv t)) m
       end |}.

(** [k] calls of [next] in the plain model. *)
Fixpoint plain_calls {T St} (next : St -> res (option T * St)) (k : nat) (st : St) : res (list (event T)) :=
  match k with
  | O => Ok []
  | S k' =>
      p <- next st ;; l <- plain_calls next k' (snd p) ;;
      Ok (match fst p with Some x => Item x | None => Done end :: l)
  end.
