(** The functions of the collections that only hand a call on: which body each inherent function and each function of a
    trait implementation has, to which function the call in that body is resolved, and what running it answers.
    The code that does not hand a call on (searching, indexing, building an iterator) is [Own] code here: [own] gives what
    it answers, and the other Model files say what that is.

    Not distinguished: the argument (every one of these bodies hands on the argument it was given; FzStringMap calls
    [as_ref] on it first, fz_maps/fz_string_map.rs L102 and the lines like it), shared, mutable and owned receivers, and
    the inner magnitude and hasher parameters. *)
From Coq Require Import List NArith Bool Arith.
From Verif Require Import Prelude ModelMaps.
Import ListNotations.

(** The functions. [get_many_mut] and [get_many_unchecked_mut] are hashbrown's names. *)
Inductive meth :=
| m_len | m_is_empty | m_get | m_get_mut | m_get_key_value | m_contains_key | m_get_disjoint_mut | m_get_disjoint_unchecked_mut
| m_get_many_mut | m_get_many_unchecked_mut
| m_iter | m_iter_mut | m_into_iter | m_keys | m_into_keys | m_values | m_values_mut | m_into_values
| m_contains | m_index.

(** The traits; [IntoIteratorRef] and [IntoIteratorMut] are [IntoIterator] for [&C] and [&mut C]. *)
Inductive trait :=
| Len | MapQuery | MapExtras | MapIteration | SetQuery | SetExtras | SetIteration
| IntoIterator | IntoIteratorRef | IntoIteratorMut | Index.

Inductive origin := Inherent | Of (t : trait).

(** The collection types: maps/, inline_maps/, fz_maps/, inline_sets/, fz_sets/, and those of std and hashbrown that
    traits/ implements the traits for. *)
Inductive kind :=
| HashMap | DenseScalarLookupMap | SparseScalarLookupMap | EytzingerSearchMap | ScanMap
| InlineHashMap | InlineHashMapNoCollisions | InlineDenseScalarLookupMap | InlineSparseScalarLookupMap
| InlineEytzingerSearchMap | InlineScanMap
| FzHashMap | FzOrderedMap | FzScalarMap | FzStringMap
| InlineHashSet | InlineHashSetNoCollisions | InlineDenseScalarLookupSet | InlineSparseScalarLookupSet
| InlineEytzingerSearchSet | InlineScanSet
| FzHashSet | FzOrderedSet | FzScalarSet | FzStringSet
| StdHashMap | StdBTreeMap | HashbrownMap | StdHashSet | StdBTreeSet | HashbrownSet.

(** What a body does to the answer of the call it makes: nothing; [== 0]; [.is_some()]; [Some(..?.0)];
    [Iter::new(..)] or [IntoIter::new(..)] of sets/iterators.rs, which show the keys only; [.expect(..)]. *)
Inductive adapt := Same | IsZero | IsSome | Fst | KeysOf | Expect.

(** A body: own code, [self.m(..)], [Self::m(..)] of a trait in a default body of that trait, [self.map.m(..)] or
    [self.map_impl.m(..)], and [match self.map_impl { .. }] with one call per variant. *)
Inductive body :=
| Own
| Self_ (a : adapt) (m : meth)
| Default (t : trait) (a : adapt) (m : meth)
| Field (a : adapt) (m : meth)
| Variants (ms : list meth).

(** ** The bodies *)

(** maps/decl_macros.rs L1-88 [common_primary_funcs!], with the five [.._primary_funcs!] of L99-689: the inherent functions
    of the 11 maps that hold the entries themselves. *)
Definition own_map_funcs (m : meth) : option body :=
  match m with
  | m_is_empty => Some (Self_ IsZero m_len)
  | m_contains_key => Some (Self_ IsSome m_get)
  | m_len | m_get | m_get_mut | m_get_key_value | m_get_disjoint_mut | m_get_disjoint_unchecked_mut
  | m_iter | m_iter_mut | m_into_iter | m_keys | m_into_keys | m_values | m_values_mut | m_into_values => Some Own
  | _ => None
  end.

(** fz_maps/fz_hash_map.rs L77-196, fz_ordered_map.rs L56-171: [self.map_impl.f(..)]. *)
Definition field_map_funcs (m : meth) : option body :=
  match m with
  | m_get => Some (Field Same m_get)
  | m_get_mut => Some (Field Same m_get_mut)
  | m_get_key_value => Some (Field Same m_get_key_value)
  | m_contains_key => Some (Field Same m_contains_key)
  | m_get_disjoint_mut => Some (Field Same m_get_disjoint_mut)
  | m_get_disjoint_unchecked_mut => Some (Field Same m_get_disjoint_unchecked_mut)
  | m_len => Some (Field Same m_len)
  | m_is_empty => Some (Field Same m_is_empty)
  | m_iter => Some (Field Same m_iter)
  | m_iter_mut => Some (Field Same m_iter_mut)
  | m_into_iter => Some (Field Same m_into_iter)
  | m_keys => Some (Field Same m_keys)
  | m_into_keys => Some (Field Same m_into_keys)
  | m_values => Some (Field Same m_values)
  | m_values_mut => Some (Field Same m_values_mut)
  | m_into_values => Some (Field Same m_into_values)
  | _ => None
  end.

(** fz_maps/fz_scalar_map.rs L67-256 (Hash, Dense, Sparse), fz_string_map.rs L96-286 (LeftRange, RightRange, Hash). *)
Definition variant_map_funcs (m : meth) : option body :=
  match m with
  | m_get => Some (Variants [m_get; m_get; m_get])
  | m_get_mut => Some (Variants [m_get_mut; m_get_mut; m_get_mut])
  | m_get_key_value => Some (Variants [m_get_key_value; m_get_key_value; m_get_key_value])
  | m_contains_key => Some (Variants [m_contains_key; m_contains_key; m_contains_key])
  | m_get_disjoint_mut => Some (Variants [m_get_disjoint_mut; m_get_disjoint_mut; m_get_disjoint_mut])
  | m_get_disjoint_unchecked_mut => Some (Variants [m_get_disjoint_unchecked_mut; m_get_disjoint_unchecked_mut; m_get_disjoint_unchecked_mut])
  | m_len => Some (Variants [m_len; m_len; m_len])
  | m_is_empty => Some (Variants [m_is_empty; m_is_empty; m_is_empty])
  | m_iter => Some (Variants [m_iter; m_iter; m_iter])
  | m_iter_mut => Some (Variants [m_iter_mut; m_iter_mut; m_iter_mut])
  | m_into_iter => Some (Variants [m_into_iter; m_into_iter; m_into_iter])
  | m_keys => Some (Variants [m_keys; m_keys; m_keys])
  | m_into_keys => Some (Variants [m_into_keys; m_into_keys; m_into_keys])
  | m_values => Some (Variants [m_values; m_values; m_values])
  | m_values_mut => Some (Variants [m_values_mut; m_values_mut; m_values_mut])
  | m_into_values => Some (Variants [m_into_values; m_into_values; m_into_values])
  | _ => None
  end.

(** sets/decl_macros.rs L31-62 [common_primary_funcs!] and L72-96 [hash_primary_funcs!]; the [get] and [contains] written out
    in inline_sets/inline_dense_scalar_lookup_set.rs L44-62, inline_eytzinger_search_set.rs L44-62, inline_scan_set.rs L42-60,
    inline_sparse_scalar_lookup_set.rs L48-66 are the same. *)
Definition inline_set_funcs (m : meth) : option body :=
  match m with
  | m_get => Some (Field Fst m_get_key_value)
  | m_contains => Some (Self_ IsSome m_get)
  | m_iter => Some (Field KeysOf m_iter)
  | m_into_iter => Some (Field KeysOf m_into_iter)
  | m_len => Some (Field Same m_len)
  | m_is_empty => Some (Self_ IsZero m_len)
  | _ => None
  end.

(** fz_sets/fz_hash_set.rs L73-115, fz_ordered_set.rs L57-99, fz_scalar_set.rs L52-93, fz_string_set.rs L59-100. *)
Definition fz_set_funcs (m : meth) : option body :=
  match m with
  | m_get => Some (Field Fst m_get_key_value)
  | m_contains => Some (Field Same m_contains_key)
  | m_iter => Some (Field KeysOf m_iter)
  | m_into_iter => Some (Field KeysOf m_into_iter)
  | m_len => Some (Field Same m_len)
  | m_is_empty => Some (Field Same m_is_empty)
  | _ => None
  end.

(** The inherent functions of the std and hashbrown collections that the implementations in traits/ call.
    [std_disjoint]: whether std's HashMap has [get_disjoint_mut] and [get_disjoint_unchecked_mut] (since Rust 1.86). *)
Definition std_map_funcs (m : meth) : option body :=
  match m with
  | m_len | m_is_empty | m_get | m_get_mut | m_get_key_value | m_contains_key
  | m_iter | m_iter_mut | m_keys | m_into_keys | m_values | m_values_mut | m_into_values => Some Own
  | _ => None
  end.
Definition std_hash_map_funcs (std_disjoint : bool) (m : meth) : option body :=
  match m with
  | m_get_disjoint_mut | m_get_disjoint_unchecked_mut => if std_disjoint then Some Own else None
  | _ => std_map_funcs m
  end.
Definition hashbrown_map_funcs (m : meth) : option body :=
  match m with
  | m_get_many_mut | m_get_many_unchecked_mut => Some Own
  | _ => std_map_funcs m
  end.
Definition std_set_funcs (m : meth) : option body :=
  match m with
  | m_len | m_is_empty | m_get | m_contains | m_iter => Some Own
  | _ => None
  end.

Definition inherent (std_disjoint : bool) (k : kind) : meth -> option body :=
  match k with
  | HashMap | DenseScalarLookupMap | SparseScalarLookupMap | EytzingerSearchMap | ScanMap
  | InlineHashMap | InlineHashMapNoCollisions | InlineDenseScalarLookupMap | InlineSparseScalarLookupMap
  | InlineEytzingerSearchMap | InlineScanMap => own_map_funcs
  | FzHashMap | FzOrderedMap => field_map_funcs
  | FzScalarMap | FzStringMap => variant_map_funcs
  | InlineHashSet | InlineHashSetNoCollisions | InlineDenseScalarLookupSet | InlineSparseScalarLookupSet
  | InlineEytzingerSearchSet | InlineScanSet => inline_set_funcs
  | FzHashSet | FzOrderedSet | FzScalarSet | FzStringSet => fz_set_funcs
  | StdHashMap => std_hash_map_funcs std_disjoint
  | StdBTreeMap => std_map_funcs
  | HashbrownMap => hashbrown_map_funcs
  | StdHashSet | StdBTreeSet | HashbrownSet => std_set_funcs
  end.

(** Which inherent functions are not [pub] and so only found inside the module of their type: every [into_iter]
    (maps/decl_macros.rs L16, sets/decl_macros.rs L40, fz_hash_map.rs L163, ..); [get_mut] of the sparse maps
    (maps/decl_macros.rs L613); [get] of FzHashSet (fz_hash_set.rs L75). *)
Definition private (k : kind) (m : meth) : bool :=
  match m, k with
  | m_into_iter, _ => true
  | m_get_mut, SparseScalarLookupMap | m_get_mut, InlineSparseScalarLookupMap => true
  | m_get, FzHashSet => true
  | _, _ => false
  end.

(** maps/decl_macros.rs L393-405 [len_trait_funcs!]. *)
Definition len_trait_funcs (m : meth) : option body :=
  match m with m_len => Some (Self_ Same m_len) | m_is_empty => Some (Self_ Same m_is_empty) | _ => None end.

(** traits/len.rs: an implementation giving only [len], [is_empty] being the default of L14-16. *)
Definition len_only (b : body) (m : meth) : option body :=
  match m with m_len => Some b | m_is_empty => Some (Default Len IsZero m_len) | _ => None end.

(** maps/decl_macros.rs L462-479 [map_query_trait_funcs!]. *)
Definition map_query_trait_funcs (m : meth) : option body :=
  match m with
  | m_get => Some (Self_ Same m_get)
  | m_get_mut => Some (Self_ Same m_get_mut)
  | m_contains_key => Some (Self_ Same m_contains_key)
  | _ => None
  end.

(** maps/decl_macros.rs L407-425 [map_extras_trait_funcs!]; written out again in fz_string_map.rs L333-347. *)
Definition map_extras_trait_funcs (m : meth) : option body :=
  match m with
  | m_get_key_value => Some (Self_ Same m_get_key_value)
  | m_get_disjoint_mut => Some (Self_ Same m_get_disjoint_mut)
  | m_get_disjoint_unchecked_mut => Some (Self_ Same m_get_disjoint_unchecked_mut)
  | _ => None
  end.

(** traits/map_extras.rs: BTreeMap, with the bodies of [get_disjoint_mut_funcs!]. *)
Definition btree_map_extras (m : meth) : option body :=
  match m with
  | m_get_key_value => Some (Self_ Same m_get_key_value)
  | m_get_disjoint_mut | m_get_disjoint_unchecked_mut => Some Own
  | _ => None
  end.

(** traits/map_extras.rs: hashbrown's HashMap. *)
Definition hashbrown_map_extras (m : meth) : option body :=
  match m with
  | m_get_key_value => Some (Self_ Same m_get_key_value)
  | m_get_disjoint_mut => Some (Self_ Same m_get_many_mut)
  | m_get_disjoint_unchecked_mut => Some (Self_ Same m_get_many_unchecked_mut)
  | _ => None
  end.

(** maps/decl_macros.rs L427-460 [map_iteration_trait_funcs!]; written out again in fz_string_map.rs L394-420 and
    traits/map_iteration.rs. *)
Definition map_iteration_trait_funcs (m : meth) : option body :=
  match m with
  | m_iter => Some (Self_ Same m_iter)
  | m_iter_mut => Some (Self_ Same m_iter_mut)
  | m_keys => Some (Self_ Same m_keys)
  | m_into_keys => Some (Self_ Same m_into_keys)
  | m_values => Some (Self_ Same m_values)
  | m_values_mut => Some (Self_ Same m_values_mut)
  | m_into_values => Some (Self_ Same m_into_values)
  | _ => None
  end.

(** sets/decl_macros.rs L148-172 [set_extras_trait_funcs!], [set_iteration_trait_funcs!], [set_query_trait_funcs!]; written
    out again in fz_string_set.rs L153, L164, L175. *)
Definition set_extras_trait_funcs (m : meth) : option body :=
  match m with m_get => Some (Self_ Same m_get) | _ => None end.
Definition set_iteration_trait_funcs (m : meth) : option body :=
  match m with m_iter => Some (Self_ Same m_iter) | _ => None end.
Definition set_query_trait_funcs (m : meth) : option body :=
  match m with m_contains => Some (Self_ Same m_contains) | _ => None end.

(** maps/decl_macros.rs L349-391, sets/decl_macros.rs L98-118; written out again in fz_string_map.rs L439-459,
    fz_string_set.rs L236-247. *)
Definition into_iterator_trait_funcs (m : meth) : option body :=
  match m with m_into_iter => Some (Self_ Same m_into_iter) | _ => None end.
Definition into_iterator_trait_ref_funcs (m : meth) : option body :=
  match m with m_into_iter => Some (Self_ Same m_iter) | _ => None end.
Definition into_iterator_trait_mut_ref_funcs (m : meth) : option body :=
  match m with m_into_iter => Some (Self_ Same m_iter_mut) | _ => None end.
Definition index_trait_funcs (m : meth) : option body :=
  match m with m_index => Some (Self_ Expect m_get) | _ => None end.

Definition nothing (m : meth) : option body := None.

(** The trait implementations of the maps of this crate, of its sets, and those in traits/ for foreign collections. *)
Definition map_impl (t : trait) : meth -> option body :=
  match t with
  | Len => len_trait_funcs
  | MapQuery => map_query_trait_funcs
  | MapExtras => map_extras_trait_funcs
  | MapIteration => map_iteration_trait_funcs
  | IntoIterator => into_iterator_trait_funcs
  | IntoIteratorRef => into_iterator_trait_ref_funcs
  | IntoIteratorMut => into_iterator_trait_mut_ref_funcs
  | Index => index_trait_funcs
  | _ => nothing
  end.
Definition set_impl (t : trait) : meth -> option body :=
  match t with
  | Len => len_trait_funcs
  | SetQuery => set_query_trait_funcs
  | SetExtras => set_extras_trait_funcs
  | SetIteration => set_iteration_trait_funcs
  | IntoIterator => into_iterator_trait_funcs
  | IntoIteratorRef => into_iterator_trait_ref_funcs
  | _ => nothing
  end.
Definition foreign_map_impl (extras : meth -> option body) (t : trait) : meth -> option body :=
  match t with
  | Len => len_only (Self_ Same m_len)
  | MapQuery => map_query_trait_funcs
  | MapExtras => extras
  | MapIteration => map_iteration_trait_funcs
  | _ => nothing
  end.
Definition foreign_set_impl (t : trait) : meth -> option body :=
  match t with
  | Len => len_only (Self_ Same m_len)
  | SetQuery => set_query_trait_funcs
  | SetExtras => set_extras_trait_funcs
  | SetIteration => set_iteration_trait_funcs
  | _ => nothing
  end.

Definition implements (k : kind) (t : trait) : meth -> option body :=
  match k with
  | HashMap | DenseScalarLookupMap | SparseScalarLookupMap | EytzingerSearchMap | ScanMap
  | InlineHashMap | InlineHashMapNoCollisions | InlineDenseScalarLookupMap | InlineSparseScalarLookupMap
  | InlineEytzingerSearchMap | InlineScanMap
  | FzHashMap | FzOrderedMap | FzScalarMap | FzStringMap => map_impl t
  | InlineHashSet | InlineHashSetNoCollisions | InlineDenseScalarLookupSet | InlineSparseScalarLookupSet
  | InlineEytzingerSearchSet
  | FzHashSet | FzOrderedSet | FzScalarSet | FzStringSet => set_impl t
  (* inline_sets/inline_scan_set.rs L90-94: [fn len(&self) -> usize { SZ }], and nothing else. [SZ] is the length of the
     inner map's array, which its [len] (maps/decl_macros.rs L61-63) answers too. *)
  | InlineScanSet => match t with Len => len_only (Field Same m_len) | _ => set_impl t end
  | StdHashMap => foreign_map_impl map_extras_trait_funcs t
  | StdBTreeMap => foreign_map_impl btree_map_extras t
  | HashbrownMap => foreign_map_impl hashbrown_map_extras t
  | StdHashSet | StdBTreeSet | HashbrownSet => foreign_set_impl t
  end.

Definition code (std_disjoint : bool) (k : kind) (o : origin) : meth -> option body :=
  match o with Inherent => inherent std_disjoint k | Of t => implements k t end.

(** ** Resolving a call *)

(** The traits a module names in its [use] lines, with [IntoIterator] from the prelude: those of the maps and those of the
    sets; traits/*.rs see the trait they implement. *)
Definition is_map (k : kind) : bool :=
  match k with
  | HashMap | DenseScalarLookupMap | SparseScalarLookupMap | EytzingerSearchMap | ScanMap
  | InlineHashMap | InlineHashMapNoCollisions | InlineDenseScalarLookupMap | InlineSparseScalarLookupMap
  | InlineEytzingerSearchMap | InlineScanMap
  | FzHashMap | FzOrderedMap | FzScalarMap | FzStringMap
  | StdHashMap | StdBTreeMap | HashbrownMap => true
  | _ => false
  end.
Definition scope (k : kind) : list trait :=
  if is_map k then [Len; MapQuery; MapExtras; MapIteration; IntoIterator] else [Len; SetQuery; SetExtras; SetIteration; IntoIterator].

(** The first trait in scope whose implementation for [k] has the function. *)
Fixpoint find_trait (k : kind) (m : meth) (ts : list trait) : option origin :=
  match ts with
  | [] => None
  | t :: r => match implements k t m with Some _ => Some (Of t) | None => find_trait k m r end
  end.

(** [x.m(..)] in the module of type [caller] with [x : callee]: an inherent function that is visible there comes first, then
    the traits in scope. *)
Definition resolve (std_disjoint : bool) (caller callee : kind) (same_module : bool) (m : meth) : option origin :=
  match inherent std_disjoint callee m with
  | Some _ => if private callee m && negb same_module then find_trait callee m (scope caller) else Some Inherent
  | None => find_trait callee m (scope caller)
  end.

(** ** Running a call *)

(** A collection: its type, which variant its [map_impl] is, and the collection inside it. *)
Inductive value :=
| Leaf (k : kind)
| Wrap (k : kind) (variant : nat) (inner : value).
Definition kind_of (v : value) : kind := match v with Leaf k => k | Wrap k _ _ => k end.

Section Calls.
Context {K V : Type}.

(** What a function answers. Mutable references are positions, as everywhere else. *)
Inductive answer :=
| Num (n : res nat) | Flag (b : res bool) | Val (v : res (option V)) | Pos (p : res (option nat)) | Pair (e : res (option (K * V)))
| Key (k : res (option K)) | Poss (ps : res (list (option nat))) | Pairs (es : list (K * V)) | Keys (ks : list K) | Vals (vs : list V)
| Got (v : res V) | Nonsense.

Definition adapted (a : adapt) (x : answer) : answer :=
  match a, x with
  | Same, _ => x
  | IsZero, Num n => Flag (fmap (fun n => Nat.eqb n 0) n)
  | IsSome, Val v => Flag (fmap is_some v)
  | IsSome, Key k => Flag (fmap is_some k)
  | Fst, Pair e => Key (fmap (option_map fst) e)
  | KeysOf, Pairs es => Keys (map fst es)
  | Expect, Val v => Got (o <- v ;; match o with Some v => Ok v | None => Panic end)
  | _, _ => Nonsense
  end.

(** The call of function [m] found in [o] on [v]. No answer within the fuel, or no such function: [None]. *)
Fixpoint call (std_disjoint : bool) (own : meth -> answer) (fuel : nat) (v : value) (o : origin) (m : meth) : option answer :=
  match fuel with
  | O => None
  | S fuel =>
      let at_ w same a m :=
        match resolve std_disjoint (kind_of v) (kind_of w) same m with
        | Some o => option_map (adapted a) (call std_disjoint own fuel w o m)
        | None => None
        end in
      match code std_disjoint (kind_of v) o m with
      | None => None
      | Some Own => Some (own m)
      | Some (Self_ a m) => at_ v true a m
      | Some (Default t a m) => option_map (adapted a) (call std_disjoint own fuel v (Of t) m)
      | Some (Field a m) => match v with Wrap _ _ w => at_ w false a m | Leaf _ => None end
      | Some (Variants ms) =>
          match v with
          | Wrap _ i w => match nth_error ms i with Some m => at_ w false Same m | None => None end
          | Leaf _ => None
          end
      end
  end.
End Calls.
Arguments answer : clear implicits.

(** What the own code of the map types answers, by the models of the other files, on a map [m], for a query [q] and the keys
    [qs] of a [get_disjoint] call. *)
Definition own_code {M K V Q} (ops : map_ops M K V Q) (eqQ : Q -> Q -> bool) (m : M) (q : Q) (qs : list Q) (f : meth) : answer K V :=
  match f with
  | m_len => Num (Ok (map_len ops m))
  | m_get => Val (mo_get ops m q)
  | m_get_mut => Pos (mo_get_mut ops m q)
  | m_get_key_value => Pair (mo_get_key_value ops m q)
  | m_get_disjoint_mut => Poss (get_disjoint_mut ops eqQ m qs)
  | m_get_disjoint_unchecked_mut => Poss (get_disjoint_unchecked_mut ops m qs)
  | m_iter | m_iter_mut | m_into_iter => Pairs (mo_entries ops m)
  | m_keys | m_into_keys => Keys (map fst (mo_entries ops m))
  | m_values | m_values_mut | m_into_values => Vals (map snd (mo_entries ops m))
  | _ => Nonsense
  end.
