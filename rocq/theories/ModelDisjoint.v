(** [get_disjoint_mut] once more: under traits that keep state and panic (ModelHostile.v), and for [BTreeMap] (traits/map_extras.rs). *)
From Verif Require Import ModelUtils ModelAnalyzers ModelTables ModelMaps ModelHostile.
From Verif Require Import Prelude.

(** utils/dedup.rs L178-182: the comparisons of one key with the [seen] ones before it. *)
Fixpoint h_any_equal (seen : nat) : hostile bool :=
  match seen with
  | O => ret false
  | S seen' => b <~ ask_bool ;; if (b : bool) then ret true else h_any_equal seen'
  end.

(** utils/dedup.rs L173-186: [has_duplicates]; which keys are given does not matter, only how many there are left. *)
Fixpoint h_has_duplicates (seen left : nat) : hostile bool :=
  match left with
  | O => ret false
  | S left' => b <~ h_any_equal seen ;; if (b : bool) then ret true else h_has_duplicates (S seen) left'
  end.

(** maps/decl_macros.rs L265-277: [get_disjoint_unchecked_mut] with [n] keys; the pointers are positions. *)
Fixpoint h_disjoint_unchecked {K V} (m : any_map K V) (n : nat) : hostile (list (option nat)) :=
  match n with
  | O => ret []
  | S n' => o <~ h_get_mut m ;; r <~ h_disjoint_unchecked m n' ;; ret (o :: r)
  end.

(** maps/decl_macros.rs L255-263: [get_disjoint_mut]. *)
Definition h_disjoint {K V} (m : any_map K V) (n : nat) : hostile (list (option nat)) :=
  d <~ h_has_duplicates 0 n ;;
  if (d : bool) then lift Panic else h_disjoint_unchecked m n.

(** * BTreeMap *)

(** [alloc::collections::BTreeMap] is outside the crate: here it is the list of its entries in order. *)
Section BTree.
Context {K V Q : Type}.
Variable cmp : K -> K -> comparison.
Variable cmpQ : Q -> K -> comparison.

(** [insert]: an entry with an equal key keeps its key and gets the new value. *)
Fixpoint bt_insert (k : K) (v : V) (es : list (K * V)) : list (K * V) :=
  match es with
  | [] => [(k, v)]
  | e :: r =>
      match cmp k (fst e) with
      | Lt => (k, v) :: es
      | Eq => (fst e, v) :: r
      | Gt => e :: bt_insert k v r
      end
  end.
Definition bt_from_iter (input : list (K * V)) : list (K * V) := fold_left (fun es e => bt_insert (fst e) (snd e) es) input [].

(** [get_mut]: where the borrowed value is. *)
Fixpoint bt_find (pos : nat) (es : list (K * V)) (q : Q) : option nat :=
  match es with
  | [] => None
  | e :: r =>
      match cmpQ q (fst e) with
      | Lt => None
      | Eq => Some pos
      | Gt => bt_find (S pos) r q
      end
  end.

(** traits/map_extras.rs L37-53: the bodies of the macro over [BTreeMap::get_mut]. *)
Definition bt_disjoint_unchecked (es : list (K * V)) (keys : list Q) : list (option nat) := map (bt_find 0 es) keys.
Definition bt_disjoint (eqQ : Q -> Q -> bool) (es : list (K * V)) (keys : list Q) : res (list (option nat)) :=
  if has_duplicates eqQ keys then Panic else Ok (bt_disjoint_unchecked es keys).
End BTree.
