(** Counting the items of set iterators, and clients of the sets: each call of [SpecSetHistory.v], made with the methods of the sets. *)
From Verif Require Import ModelUtils ModelAnalyzers ModelTables ModelMaps ModelIter SpecMade SpecSetHistory.
From Verif Require Import Prelude.

Section Clients.
Context {T : Type} (eqT : T -> T -> bool).

(** [Iterator::count] as [Union], [Difference] and [Intersection] inherit it: [next] until it answers [None] (fuel exhaustion = [Panic]). *)
Fixpoint count_next {St} (next : St -> res (option T * St)) (fuel : nat) (st : St) : res nat :=
  match fuel with
  | O => Panic
  | S fuel' => p <- next st ;; match fst p with Some _ => n <- count_next next fuel' (snd p) ;; Ok (S n) | None => Ok O end
  end.
Definition difference_count (d : difference_st T) : res nat := count_next difference_next (S (length (df_rest1 d))) d.
Definition union_count (u : union_st T) : res nat := count_next union_next (S (length (un_rest1 u) + length (un_rest2 u))) u.
Definition intersection_count (i : intersection_st T) : res nat :=
  count_next intersection_next (S (length (in_rest1 i) + length (in_rest2 i))) i.
(** sets/iterators.rs L259-261 with [Chain::count]: what is left of the first plus the second. *)
Definition symmetric_difference_count (c : symmetric_difference_st T) : res nat :=
  a <- match sd_a c with Some a => difference_count a | None => Ok O end ;;
  b <- difference_count (sd_b c) ;;
  Ok (a + b)%nat.

(** [s1.union(s2).count()] and the like. *)
Definition client_count (o : set_op) (s1 s2 : set_val T) : res nat :=
  match o with
  | OpUnion => union_count (union_new s1 s2)
  | OpIntersection => intersection_count (intersection_new s1 s2)
  | OpDifference => difference_count (difference_new s1 s2)
  | OpSymmetricDifference => symmetric_difference_count (symmetric_difference_new s1 s2)
  end.

(** The order in which hashbrown's sets list their elements is not specified; [shuffle] decides it. *)
Variable shuffle : list T -> list T.
Definition hb_shuffled (s : set_val T) : set_val T := hb_set eqT (shuffle (sv_items s)).
(** [&s1 | &s2] and the like. *)
Definition client_op (o : set_op) (s1 s2 : set_val T) : res (set_val T) :=
  fmap hb_shuffled
    match o with
    | OpUnion => set_bitor eqT s1 s2
    | OpIntersection => set_bitand eqT s1 s2
    | OpDifference => set_sub eqT s1 s2
    | OpSymmetricDifference => set_bitxor eqT s1 s2
    end.

Definition set_client_call (env : list (set_val T)) (c : set_call T) : res (set_answer * list (set_val T)) :=
  let says r := a <- r ;; Ok (a, env) in
  match c with
  | CallContains i x => says (about env i (fun s => fmap SaysBool (sv_contains s x)) (Ok SaysNoSuchSet))
  | CallSize i => says (about env i (fun s => Ok (SaysCount (sv_len s))) (Ok SaysNoSuchSet))
  | CallNone i => says (about env i (fun s => Ok (SaysBool (Nat.eqb (sv_len s) 0))) (Ok SaysNoSuchSet))
  | CallCountIf i p => says (about env i (fun s => Ok (SaysCount (it_fold slice_iter (sv_items s) O (fun n x => if p x then S n else n)))) (Ok SaysNoSuchSet))
  | CallEqual i j => says (about2 env i j (fun a b => fmap SaysBool (set_eq a b)) (Ok SaysNoSuchSet))
  | CallSubset i j => says (about2 env i j (fun a b => fmap SaysBool (is_subset a b)) (Ok SaysNoSuchSet))
  | CallSuperset i j => says (about2 env i j (fun a b => fmap SaysBool (is_superset a b)) (Ok SaysNoSuchSet))
  | CallDisjoint i j => says (about2 env i j (fun a b => fmap SaysBool (is_disjoint a b)) (Ok SaysNoSuchSet))
  | CallCount o i j => says (about2 env i j (fun a b => fmap SaysCount (client_count o a b)) (Ok SaysNoSuchSet))
  | CallKeep o i j => about2 env i j (fun a b => s <- client_op o a b ;; Ok (SaysKept, env ++ [s])) (Ok (SaysNoSuchSet, env))
  end.
End Clients.

(** The sets a client starts with: frozen sets of any kind, and hashbrown's sets, made from [values]. *)
Inductive client_set {T} (eqT : T -> T -> bool) (shuffle : list T -> list T) : set_val T -> list T -> Prop :=
| client_frozen M (ops : map_ops M T unit T) m values : made ops eqT eqT m (unit_entries values) -> client_set eqT shuffle (as_set ops m) values
| client_hashbrown values : client_set eqT shuffle (hb_set eqT (shuffle (hb_from_iter eqT values))) values.
