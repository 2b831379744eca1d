(** Model of map iterators (maps/iterators.rs), set iterators (sets/iterators.rs), set operations (traits/set_ops.rs)
    and set operators (sets/decl_macros.rs). *)
From Verif Require Import ModelUtils ModelAnalyzers ModelTables ModelMaps.
From Verif Require Import Prelude.

(** * Iterators *)

(** The methods of [Iterator + ExactSizeIterator] the crate overrides. [it_fold] is [fold] at a result type fixed by
    the caller. *)
Record iter_ops (St A : Type) := {
  it_next : St -> res (option A * St);
  it_size_hint : St -> N * option N;
  it_count : St -> nat;
  it_len : St -> nat;
  it_fold : forall {B : Type}, St -> B -> (B -> A -> B) -> B }.
Arguments it_next {St A}.
Arguments it_size_hint {St A}.
Arguments it_count {St A}.
Arguments it_len {St A}.
Arguments it_fold {St A} _ {B}.

(** [core::slice::Iter], [core::slice::IterMut], [alloc::vec::IntoIter]: the state is what remains. *)
Definition slice_iter {A} : iter_ops (list A) A := {|
  it_next := fun l => Ok (match l with x :: r => (Some x, r) | [] => (None, []) end);
  it_size_hint := fun l => (N.of_nat (length l), Some (N.of_nat (length l)));
  it_count := @length A;
  it_len := @length A;
  it_fold := fun _ l init f => fold_left f l init |}.

(** The shape shared by every wrapper below: [next().map(f)], everything else forwarded, [fold] with [f] applied.
    maps/iterators.rs L18-45, L74-101, L127-154, L185-212, L244-271, L298-325, L353-380, L398-425;
    sets/iterators.rs L17-44, L75-102. *)
Definition mapped_iter {St A B} (inner : iter_ops St A) (f : A -> B) : iter_ops St B := {|
  it_next := fun st => fmap (fun r => (option_map f (fst r), snd r)) (it_next inner st);
  it_size_hint := it_size_hint inner;
  it_count := it_count inner;
  it_len := it_len inner;
  it_fold := fun _ st init g => it_fold inner st init (fun acc x => g acc (f x)) |}.

Section MapIters.
Context {K V : Type}.

(** maps/iterators.rs L8-45: [Iter]. *)
Definition map_iter : iter_ops (list (K * V)) (K * V) := mapped_iter slice_iter (fun entry => (fst entry, snd entry)).
(** maps/iterators.rs L116-156: [Keys]. *)
Definition map_keys : iter_ops (list (K * V)) K := mapped_iter map_iter fst.
(** maps/iterators.rs L174-214: [Values]. *)
Definition map_values : iter_ops (list (K * V)) V := mapped_iter map_iter snd.
(** maps/iterators.rs L286-327: [IntoIter]. *)
Definition map_into_iter : iter_ops (list (K * V)) (K * V) := mapped_iter slice_iter (fun entry => (fst entry, snd entry)).
(** maps/iterators.rs L341-382: [IntoKeys]. *)
Definition map_into_keys : iter_ops (list (K * V)) K := mapped_iter map_into_iter fst.
(** maps/iterators.rs L386-427: [IntoValues]. *)
Definition map_into_values : iter_ops (list (K * V)) V := mapped_iter map_into_iter snd.

(** maps/iterators.rs L64-103: [IterMut]. A [&mut (K, V)] is the entry's key and the position of its value. *)
Definition map_iter_mut : iter_ops (list (K * nat)) (K * nat) := mapped_iter slice_iter (fun entry => (fst entry, snd entry)).
(** maps/iterators.rs L232-273: [ValuesMut]. *)
Definition map_values_mut : iter_ops (list (K * nat)) nat := mapped_iter map_iter_mut snd.

(** maps/decl_macros.rs L5-7, L16-18, L22-24, L28-32, L36-38, L48-52: constructors of the iterators over the entry array. *)
Definition iter_new (entries : list (K * V)) : list (K * V) := entries.
(** maps/decl_macros.rs L11-13, L42-44. *)
Definition iter_mut_new (entries : list (K * V)) : list (K * nat) := combine (map fst entries) (seq 0 (length entries)).
End MapIters.

(** * Sets as seen by the set operations *)

(** [Set<T>]: iteration order, [len], [contains] at type [T]. The iterators of all set types involved are assumed to have
    exact size hints, like the ones of the crate, of [hashbrown] and of [std]. *)
Record set_val (T : Type) := {
  sv_items : list T;
  sv_len : nat;
  sv_contains : T -> res bool }.
Arguments sv_items {T}.
Arguments sv_len {T}.
Arguments sv_contains {T}.

(** A frozen set (fz_sets/*.rs: iter, len, contains) seen through [Set<T>]. *)
Definition as_set {M T} (ops : map_ops M T unit T) (m : M) : set_val T := {|
  sv_items := set_values ops m;
  sv_len := set_len ops m;
  sv_contains := set_contains ops m |}.

(** sets/iterators.rs L17-44: [sets::Iter] over the entries of the inner map. *)
Definition set_iter {T} : iter_ops (list (T * unit)) T := mapped_iter map_iter fst.
(** sets/iterators.rs L75-102: [sets::IntoIter]. *)
Definition set_into_iter {T} : iter_ops (list (T * unit)) T := mapped_iter map_into_iter fst.

(** [loop { let item = iter.next()?; if p(item) { return Some(item) } }] *)
Fixpoint next_where {T} (p : T -> res bool) (rest : list T) : res (option T * list T) :=
  match rest with
  | [] => Ok (None, [])
  | x :: r => b <- p x ;; if (b : bool) then Ok (Some x, r) else next_where p r
  end.

Section SetIters.
Context {T : Type}.

(** sets/iterators.rs L107-117, L124-131: [Union]; the two sets and what remains of their iterators. *)
Record union_st := { un_s1 : set_val T; un_rest1 : list T; un_s2 : set_val T; un_rest2 : list T }.
Definition union_new (s1 s2 : set_val T) : union_st :=
  {| un_s1 := s1; un_rest1 := sv_items s1; un_s2 := s2; un_rest2 := sv_items s2 |}.

Definition un_with1 (u : union_st) (r : list T) : union_st :=
  {| un_s1 := un_s1 u; un_rest1 := r; un_s2 := un_s2 u; un_rest2 := un_rest2 u |}.
Definition un_with2 (u : union_st) (r : list T) : union_st :=
  {| un_s1 := un_s1 u; un_rest1 := un_rest1 u; un_s2 := un_s2 u; un_rest2 := r |}.

(** sets/iterators.rs L142-168: [Union::next]. *)
Definition union_next (u : union_st) : res (option T * union_st) :=
  if Nat.ltb (sv_len (un_s2 u)) (sv_len (un_s1 u)) then
    match un_rest1 u with
    | x :: r => Ok (Some x, un_with1 u r)
    | [] => fmap (fun p => (fst p, un_with2 u (snd p))) (next_where (fun x => fmap negb (sv_contains (un_s1 u) x)) (un_rest2 u))
    end
  else
    match un_rest2 u with
    | x :: r => Ok (Some x, un_with2 u r)
    | [] => fmap (fun p => (fst p, un_with1 u (snd p))) (next_where (fun x => fmap negb (sv_contains (un_s2 u) x)) (un_rest1 u))
    end.

(** [usize::checked_add]. *)
Definition checked_add (a b : N) : option N := if a + b <=? usize_max then Some (a + b) else None.

(** sets/iterators.rs L170-182: [Union::size_hint]. *)
Definition union_size_hint (u : union_st) : N * option N :=
  let h1 := it_size_hint slice_iter (un_rest1 u) in
  let h2 := it_size_hint slice_iter (un_rest2 u) in
  let max_bound := match snd h1 with
                   | Some h1x => match snd h2 with Some h2x => checked_add h1x h2x | None => None end
                   | None => None
                   end in
  (N.max (fst h1) (fst h2), max_bound).

(** sets/iterators.rs L297-306, L313-319: [Difference]. *)
Record difference_st := { df_rest1 : list T; df_s2 : set_val T }.
Definition difference_new (s1 s2 : set_val T) : difference_st := {| df_rest1 := sv_items s1; df_s2 := s2 |}.

(** sets/iterators.rs L329-336: [Difference::next]. *)
Definition difference_next (d : difference_st) : res (option T * difference_st) :=
  fmap (fun p => (fst p, {| df_rest1 := snd p; df_s2 := df_s2 d |}))
    (next_where (fun x => fmap negb (sv_contains (df_s2 d) x)) (df_rest1 d)).

(** sets/iterators.rs L338-341: [Difference::size_hint]. *)
Definition difference_size_hint (d : difference_st) : N * option N :=
  let (_, upper) := it_size_hint slice_iter (df_rest1 d) in (0, upper).

(** sets/iterators.rs L381-391, L398-405: [Intersection]. *)
Record intersection_st := { in_s1 : set_val T; in_rest1 : list T; in_s2 : set_val T; in_rest2 : list T }.
Definition intersection_new (s1 s2 : set_val T) : intersection_st :=
  {| in_s1 := s1; in_rest1 := sv_items s1; in_s2 := s2; in_rest2 := sv_items s2 |}.

(** sets/iterators.rs L416-432: [Intersection::next]. *)
Definition intersection_next (i : intersection_st) : res (option T * intersection_st) :=
  if Nat.ltb (sv_len (in_s1 i)) (sv_len (in_s2 i)) then
    fmap (fun p => (fst p, {| in_s1 := in_s1 i; in_rest1 := snd p; in_s2 := in_s2 i; in_rest2 := in_rest2 i |}))
      (next_where (sv_contains (in_s2 i)) (in_rest1 i))
  else
    fmap (fun p => (fst p, {| in_s1 := in_s1 i; in_rest1 := in_rest1 i; in_s2 := in_s2 i; in_rest2 := snd p |}))
      (next_where (sv_contains (in_s1 i)) (in_rest2 i)).

(** sets/iterators.rs L434-436: [Intersection::size_hint]. *)
Definition intersection_size_hint (i : intersection_st) : N * option N :=
  (0, Some (N.min (N.of_nat (sv_len (in_s1 i))) (N.of_nat (sv_len (in_s2 i))))).

(** sets/iterators.rs L229, L237-241: [SymmetricDifference] is a [core::iter::Chain] of two differences; [Chain] holds
    [Option]s and drops the first iterator when it is exhausted (core library, modelled here). *)
Record symmetric_difference_st := { sd_a : option difference_st; sd_b : difference_st }.
Definition symmetric_difference_new (s1 s2 : set_val T) : symmetric_difference_st :=
  {| sd_a := Some (difference_new s1 s2); sd_b := difference_new s2 s1 |}.

(** sets/iterators.rs L251-253 with [Chain::next]. *)
Definition symmetric_difference_next (c : symmetric_difference_st) : res (option T * symmetric_difference_st) :=
  let from_b := fmap (fun p => (fst p, {| sd_a := None; sd_b := snd p |})) (difference_next (sd_b c)) in
  match sd_a c with
  | Some a =>
      p <- difference_next a ;;
      match fst p with
      | Some x => Ok (Some x, {| sd_a := Some (snd p); sd_b := sd_b c |})
      | None => from_b
      end
  | None => from_b
  end.

(** [usize::saturating_add]. *)
Definition saturating_add (a b : N) : N := N.min (a + b) usize_max.

(** sets/iterators.rs L255-257 with [Chain::size_hint]. *)
Definition symmetric_difference_size_hint (c : symmetric_difference_st) : N * option N :=
  match sd_a c with
  | Some a =>
      let (a_lower, a_upper) := difference_size_hint a in
      let (b_lower, b_upper) := difference_size_hint (sd_b c) in
      (saturating_add a_lower b_lower,
       match a_upper, b_upper with Some x, Some y => checked_add x y | _, _ => None end)
  | None => difference_size_hint (sd_b c)
  end.

(** * traits/set_ops.rs *)

(** [iter().all(p)], short-circuiting. *)
Fixpoint all_items (p : T -> res bool) (l : list T) : res bool :=
  match l with
  | [] => Ok true
  | x :: r => b <- p x ;; if (b : bool) then all_items p r else Ok false
  end.

(** traits/set_ops.rs L60-70: [is_disjoint]. *)
Definition is_disjoint (s1 s2 : set_val T) : res bool :=
  if Nat.leb (sv_len s1) (sv_len s2) then all_items (fun v => fmap negb (sv_contains s2 v)) (sv_items s1)
  else all_items (fun v => fmap negb (sv_contains s1 v)) (sv_items s2).

(** traits/set_ops.rs L75-85: [is_subset]. *)
Definition is_subset (s1 s2 : set_val T) : res bool :=
  if Nat.leb (sv_len s1) (sv_len s2) then all_items (sv_contains s2) (sv_items s1) else Ok false.

(** traits/set_ops.rs L90-100: [is_superset]. *)
Definition is_superset (s1 s2 : set_val T) : res bool :=
  if Nat.leb (sv_len s2) (sv_len s1) then all_items (sv_contains s1) (sv_items s2) else Ok false.

(** sets/decl_macros.rs L122-128: [PartialEq::eq]. *)
Definition set_eq (s1 s2 : set_val T) : res bool :=
  if negb (Nat.eqb (sv_len s1) (sv_len s2)) then Ok false else all_items (sv_contains s2) (sv_items s1).

(** * Operators *)

(** [Iterator::collect]/[from_iter] loop on fuel (exhaustion = [Panic]). *)
Fixpoint drain {St} (next : St -> res (option T * St)) (fuel : nat) (st : St) : res (list T) :=
  match fuel with
  | O => Panic
  | S fuel' =>
      p <- next st ;;
      match fst p with
      | Some x => l <- drain next fuel' (snd p) ;; Ok (x :: l)
      | None => Ok []
      end
  end.

(** [hashbrown::HashSet] is outside the crate: here it is the list of its elements; [insert] of an element already
    present changes nothing, [contains] compares with [Eq]. *)
Variable eqT : T -> T -> bool.
Definition hb_insert (l : list T) (x : T) : list T := if existsb (eqT x) l then l else l ++ [x].
Definition hb_from_iter (l : list T) : list T := fold_left hb_insert l [].
Definition hb_set (l : list T) : set_val T := {| sv_items := l; sv_len := length l; sv_contains := fun x => Ok (existsb (eqT x) l) |}.

Definition op_fuel (s1 s2 : set_val T) : nat := S (length (sv_items s1) + length (sv_items s2)).

(** sets/decl_macros.rs L15-17: [&a | &b]. *)
Definition set_bitor (s1 s2 : set_val T) : res (set_val T) :=
  l <- drain union_next (op_fuel s1 s2) (union_new s1 s2) ;; Ok (hb_set (hb_from_iter l)).
(** sets/decl_macros.rs L5-7: [&a & &b]. *)
Definition set_bitand (s1 s2 : set_val T) : res (set_val T) :=
  l <- drain intersection_next (op_fuel s1 s2) (intersection_new s1 s2) ;; Ok (hb_set (hb_from_iter l)).
(** sets/decl_macros.rs L25-27: [&a ^ &b]. *)
Definition set_bitxor (s1 s2 : set_val T) : res (set_val T) :=
  l <- drain symmetric_difference_next (op_fuel s1 s2) (symmetric_difference_new s1 s2) ;; Ok (hb_set (hb_from_iter l)).
(** sets/decl_macros.rs L178-180: [&a - &b]. *)
Definition set_sub (s1 s2 : set_val T) : res (set_val T) :=
  l <- drain difference_next (op_fuel s1 s2) (difference_new s1 s2) ;; Ok (hb_set (hb_from_iter l)).
End SetIters.
Arguments union_st : clear implicits.
Arguments difference_st : clear implicits.
Arguments intersection_st : clear implicits.
Arguments symmetric_difference_st : clear implicits.
