(** What calling a function of a collection should answer, whatever it is found in. *)
From Coq Require Import Permutation.
From Verif Require Import ModelUtils ModelMaps ModelForward Spec SpecMade.
From Verif Require Import Prelude.
Import ListNotations.

(** The collections that exist: what each type holds. *)
Inductive entry_map : kind -> Prop :=
| is_hash : entry_map HashMap
| is_dense : entry_map DenseScalarLookupMap
| is_sparse : entry_map SparseScalarLookupMap
| is_eytzinger : entry_map EytzingerSearchMap
| is_scan : entry_map ScanMap
| is_inline_hash : entry_map InlineHashMap
| is_inline_nc : entry_map InlineHashMapNoCollisions
| is_inline_dense : entry_map InlineDenseScalarLookupMap
| is_inline_sparse : entry_map InlineSparseScalarLookupMap
| is_inline_eytzinger : entry_map InlineEytzingerSearchMap
| is_inline_scan : entry_map InlineScanMap.

Inductive fz_map : kind -> value -> Prop :=
| fz_hash : fz_map FzHashMap (Wrap FzHashMap 0 (Leaf HashMap))
| fz_ordered : fz_map FzOrderedMap (Wrap FzOrderedMap 0 (Leaf EytzingerSearchMap))
| fz_scalar_hash : fz_map FzScalarMap (Wrap FzScalarMap 0 (Leaf HashMap))
| fz_scalar_dense : fz_map FzScalarMap (Wrap FzScalarMap 1 (Leaf DenseScalarLookupMap))
| fz_scalar_sparse : fz_map FzScalarMap (Wrap FzScalarMap 2 (Leaf SparseScalarLookupMap))
| fz_string_left : fz_map FzStringMap (Wrap FzStringMap 0 (Leaf HashMap))
| fz_string_right : fz_map FzStringMap (Wrap FzStringMap 1 (Leaf HashMap))
| fz_string_hash : fz_map FzStringMap (Wrap FzStringMap 2 (Leaf HashMap)).

Inductive crate_map : value -> Prop :=
| map_entries k : entry_map k -> crate_map (Leaf k)
| map_fz k v : fz_map k v -> crate_map v.

(** Set types and the map type inside. *)
Definition inline_sets : list (kind * kind) :=
  [(InlineHashSet, InlineHashMap); (InlineHashSetNoCollisions, InlineHashMapNoCollisions);
   (InlineDenseScalarLookupSet, InlineDenseScalarLookupMap); (InlineSparseScalarLookupSet, InlineSparseScalarLookupMap);
   (InlineEytzingerSearchSet, InlineEytzingerSearchMap); (InlineScanSet, InlineScanMap)].
Definition fz_sets : list (kind * kind) :=
  [(FzHashSet, FzHashMap); (FzOrderedSet, FzOrderedMap); (FzScalarSet, FzScalarMap); (FzStringSet, FzStringMap)].

Inductive crate_set : value -> Prop :=
| set_inline s k : In (s, k) inline_sets -> crate_set (Wrap s 0 (Leaf k))
| set_fz s k v : In (s, k) fz_sets -> fz_map k v -> crate_set (Wrap s 0 v).

Inductive foreign_map : kind -> Prop :=
| is_std_hash : foreign_map StdHashMap
| is_std_btree : foreign_map StdBTreeMap
| is_hashbrown : foreign_map HashbrownMap.
Inductive foreign_set : kind -> Prop :=
| is_std_hash_set : foreign_set StdHashSet
| is_std_btree_set : foreign_set StdBTreeSet
| is_hashbrown_set : foreign_set HashbrownSet.

(** The functions the traits ask for, and the inherent ones. *)
Definition of_trait (t : trait) : list meth :=
  match t with
  | Len => [m_len; m_is_empty]
  | MapQuery => [m_get; m_get_mut; m_contains_key]
  | MapExtras => [m_get_key_value; m_get_disjoint_mut; m_get_disjoint_unchecked_mut]
  | MapIteration => [m_iter; m_iter_mut; m_keys; m_into_keys; m_values; m_values_mut; m_into_values]
  | SetQuery => [m_contains]
  | SetExtras => [m_get]
  | SetIteration => [m_iter]
  | IntoIterator | IntoIteratorRef | IntoIteratorMut => [m_into_iter]
  | Index => [m_index]
  end.

Inductive map_function : origin -> meth -> Prop :=
| map_inherent f t : In t [Len; MapQuery; MapExtras; MapIteration; IntoIterator] -> In f (of_trait t) -> map_function Inherent f
| map_trait f t : In t [Len; MapQuery; MapExtras; MapIteration; IntoIterator; IntoIteratorRef; IntoIteratorMut; Index] -> In f (of_trait t) ->
    map_function (Of t) f.

Inductive set_function : origin -> meth -> Prop :=
| set_inherent f t : In t [Len; SetQuery; SetExtras; SetIteration; IntoIterator] -> In f (of_trait t) -> set_function Inherent f
| set_trait f t : In t [Len; SetQuery; SetExtras; SetIteration; IntoIterator; IntoIteratorRef] -> In f (of_trait t) -> set_function (Of t) f.

(** Running [call] with enough fuel gives [x], and with more fuel too. *)
Definition answers_with {X} (call : nat -> option X) (x : X) : Prop := exists enough, forall more, call (enough + more)%nat = Some x.

Section Answers.
Context {M K V Q : Type}.
Variable ops : map_ops M K V Q.
Variable m : M.
Variable eqK : K -> K -> bool.
Variable eqv : Q -> K -> bool.
Variable eqQ : Q -> Q -> bool.
Variable input : list (K * V).
Variable q : Q.
Variable qs : list Q.

(** The position [p] is where the entry for [q] is. *)
Definition points (q : Q) (p : option nat) : Prop :=
  match p with
  | Some p => exists e, nth_error (mo_entries ops m) p = Some e /\ spec_entry eqv input q = Some e
  | None => spec_entry eqv input q = None
  end.
Definition repeated : Prop := exists i j x y, (i < j)%nat /\ nth_error qs i = Some x /\ nth_error qs j = Some y /\ eqQ x y = true.

(** What function [f] of a map made of [input] answers for the query [q] or the keys [qs], by the entries alone. *)
Definition map_answer (f : meth) (x : answer K V) : Prop :=
  match f with
  | m_len => x = Num (Ok (key_count eqK input))
  | m_is_empty => exists b, x = Flag (Ok b) /\ (b = true <-> input = [])
  | m_get => x = Val (Ok (spec_get eqv input q))
  | m_get_mut => exists p, x = Pos (Ok p) /\ points q p
  | m_get_key_value => x = Pair (Ok (spec_entry eqv input q))
  | m_contains_key => exists b, x = Flag (Ok b) /\ (b = true <-> spec_entry eqv input q <> None)
  | m_get_disjoint_mut => (repeated -> x = Poss Panic) /\ (~ repeated -> exists ps, x = Poss (Ok ps) /\ Forall2 points qs ps)
  | m_get_disjoint_unchecked_mut => exists ps, x = Poss (Ok ps) /\ Forall2 points qs ps
  | m_iter | m_iter_mut | m_into_iter => exists es, x = Pairs es /\ Permutation (survivors (same_key eqK) input) es
  | m_keys | m_into_keys => exists ks, x = Keys ks /\ Permutation (map fst (survivors (same_key eqK) input)) ks
  | m_values | m_values_mut | m_into_values => exists vs, x = Vals vs /\ Permutation (map snd (survivors (same_key eqK) input)) vs
  | m_index => (forall v, spec_get eqv input q = Some v -> x = Got (Ok v)) /\ (spec_get eqv input q = None -> x = Got Panic)
  | m_contains | m_get_many_mut | m_get_many_unchecked_mut => False
  end.

(** The same for a set. *)
Definition set_answer (f : meth) (x : answer K V) : Prop :=
  match f with
  | m_len => x = Num (Ok (key_count eqK input))
  | m_is_empty => exists b, x = Flag (Ok b) /\ (b = true <-> input = [])
  | m_get => (forall e, spec_entry eqv input q = Some e -> x = Key (Ok (Some (fst e)))) /\ (spec_entry eqv input q = None -> x = Key (Ok None))
  | m_contains => exists b, x = Flag (Ok b) /\ (b = true <-> spec_entry eqv input q <> None)
  | m_iter | m_into_iter => exists ks, x = Keys ks /\ Permutation (map fst (survivors (same_key eqK) input)) ks
  | _ => False
  end.
End Answers.

(** What the functions of the std and hashbrown collections answer through the traits, in terms of their own functions. *)
Definition foreign_answer {K V} (k : kind) (own : meth -> answer K V) (f : meth) (x : answer K V) : Prop :=
  match f, k with
  | m_is_empty, _ => forall n, own m_len = Num (Ok n) -> exists b, x = Flag (Ok b) /\ (b = true <-> n = 0%nat)
  | m_get_disjoint_mut, HashbrownMap => x = own m_get_many_mut
  | m_get_disjoint_unchecked_mut, HashbrownMap => x = own m_get_many_unchecked_mut
  | _, _ => x = own f
  end.
