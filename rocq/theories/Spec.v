(** Specification vocabulary. Nothing here mentions the implementation. *)
From Verif Require Import Prelude.
From Coq Require Import Permutation.

(** * Laws of the trait implementations supplied by the user *)

(** [Eq] is an equivalence relation. *)
Record lawful_eq {K} (eqK : K -> K -> bool) : Prop := {
  eq_refl_law : forall x, eqK x x = true;
  eq_sym_law : forall x y, eqK x y = true -> eqK y x = true;
  eq_trans_law : forall x y z, eqK x y = true -> eqK y z = true -> eqK x z = true }.

(** [Equivalent<K>] for a query type [Q]: a query equivalent to a key is equivalent to exactly the keys equal to it. *)
Definition lawful_equivalent {K Q} (eqK : K -> K -> bool) (eqv : Q -> K -> bool) : Prop :=
  forall q k1 k2, eqv q k1 = true -> eqv q k2 = eqK k1 k2.

(** Hashing agrees with equality. *)
Definition lawful_hash {K} (eqK : K -> K -> bool) (hK : K -> N) : Prop :=
  forall x y, eqK x y = true -> hK x = hK y.
Definition lawful_query_hash {K Q} (eqv : Q -> K -> bool) (hQ : Q -> N) (hK : K -> N) : Prop :=
  forall q k, eqv q k = true -> hQ q = hK k.

(** [Ord]: a total preorder given by a three-way comparison. *)
Record lawful_ord {K} (cmp : K -> K -> comparison) : Prop := {
  cmp_refl_law : forall x, cmp x x = Eq;
  cmp_opp_law : forall x y, cmp y x = CompOpp (cmp x y);
  cmp_eq_law : forall x y z, cmp x y = Eq -> cmp x z = cmp y z;
  cmp_lt_law : forall x y z, cmp x y = Lt -> cmp y z = Lt -> cmp x z = Lt }.

(** [Comparable<K>] for a query type [Q]: the query has a place in the order of the keys. *)
Record lawful_comparable {K Q} (cmp : K -> K -> comparison) (cmpQ : Q -> K -> comparison) : Prop := {
  cmpq_eq_law : forall q k1 k2, cmpQ q k1 = Eq -> cmpQ q k2 = cmp k1 k2;
  cmpq_lt_law : forall q k1 k2, cmpQ q k1 = Lt -> cmp k1 k2 = Lt -> cmpQ q k2 = Lt;
  cmpq_gt_law : forall q k1 k2, cmpQ q k1 = Gt -> cmp k2 k1 = Lt -> cmpQ q k2 = Gt;
  cmpq_same_law : forall q k1 k2, cmp k1 k2 = Eq -> cmpQ q k1 = cmpQ q k2 }.

(** Boolean "compares equal". *)
Definition is_eq (c : comparison) : bool := match c with Eq => true | _ => false end.

(** [Scalar]: the index fits [usize] and the order of the keys is the order of the indices. *)
Record lawful_scalar {K} (idx : K -> N) (cmp : K -> K -> comparison) : Prop := {
  idx_bound_law : forall k, idx k <= usize_max;
  idx_cmp_law : forall k1 k2, cmp k1 k2 = N.compare (idx k1) (idx k2) }.

(** A query scalar type: same index space, compares like the indices. *)
Record lawful_query_scalar {K Q} (idx : K -> N) (idxQ : Q -> N) (eqv : Q -> K -> bool) : Prop := {
  idxq_bound_law : forall q, idxQ q <= usize_max;
  idxq_eqv_law : forall q k, eqv q k = (idxQ q =? idx k) }.

(** * Meaning of a collection *)

(** Last entry of the supplied vector satisfying a predicate: "the last one supplied wins". *)
Fixpoint last_match {A} (p : A -> bool) (l : list A) : option A :=
  match l with
  | [] => None
  | x :: r => match last_match p r with
              | Some y => Some y
              | None => if p x then Some x else None
              end
  end.

(** The entry a map built from [entries] associates with a query, the query's relation to keys being [eqv]. *)
Definition spec_entry {K V Q} (eqv : Q -> K -> bool) (entries : list (K * V)) (q : Q) : option (K * V) :=
  last_match (fun e => eqv q (fst e)) entries.

Definition spec_get {K V Q} (eqv : Q -> K -> bool) (entries : list (K * V)) (q : Q) : option V :=
  option_map snd (spec_entry eqv entries q).

(** Keys pairwise different. *)
Fixpoint distinct {A} (eqA : A -> A -> bool) (l : list A) : Prop :=
  match l with
  | [] => True
  | x :: r => (forall y, In y r -> eqA x y = false) /\ distinct eqA r
  end.

(** [survivors]: the supplied entries that are the last with their key, in the supplied order.
    This is what iteration must enumerate (up to order), and its length is the number of distinct keys. *)
Fixpoint survivors {A} (same : A -> A -> bool) (l : list A) : list A :=
  match l with
  | [] => []
  | x :: r => if existsb (same x) r then survivors same r else x :: survivors same r
  end.

Definition same_key {K V} (eqK : K -> K -> bool) (e1 e2 : K * V) : bool := eqK (fst e1) (fst e2).

(** Number of elements equal to an earlier one: elements minus distinct elements. *)
Definition repeats (l : list N) : N := N.of_nat (length l) - N.of_nat (length (nodup N.eq_dec l)).

(** Number of hash codes that land in a slot already taken by an earlier one, with [m] slots. *)
Definition collisions (codes : list N) (m : N) : N := repeats (map (fun c => c mod m) codes).

(** [slice::sort_unstable_by] on the first components: some sorted permutation, which one is not known. *)
Definition sorts_by_slot {T} (usort : list (N * T) -> list (N * T)) : Prop :=
  forall l, Permutation l (usort l) /\
    forall i j x y, (i <= j)%nat -> nth_error (usort l) i = Some x -> nth_error (usort l) j = Some y -> fst x <= fst y.

(** A three-way classification consistent with the order of a sorted list: a (possibly empty) run of [Lt], at most one
    [Eq], then a run of [Gt]. *)
Definition consistent {T} (f : T -> comparison) (sorted : list T) : Prop :=
  forall i j x y, (i < j)%nat -> nth_error sorted i = Some x -> nth_error sorted j = Some y -> f x = Lt \/ f y = Gt.

(** The span of the indices of the keys is smaller than [usize::MAX], so that "span + 1" is representable. *)
Definition span_representable {K} (idx : K -> N) (keys : list K) : Prop :=
  forall a b, In a keys -> In b keys -> idx a < idx b + usize_max.

(** The indices of the keys are exactly a range of consecutive numbers. *)
Definition contiguous {K} (idx : K -> N) (keys : list K) : Prop :=
  forall a b x, In a keys -> In b keys -> idx a <= x <= idx b -> exists k, In k keys /\ idx k = x.

(** The part of a string a range hasher looks at: [lo..hi] counted from the left, or from the right. *)
Definition left_part {T} (lo hi : N) (s : list T) : list T := firstn (N.to_nat (hi - lo)) (skipn (N.to_nat lo) s).
Definition right_part {T} (lo hi : N) (s : list T) : list T :=
  firstn (N.to_nat (hi - lo)) (skipn (length s - N.to_nat hi) s).

(** * Iterators *)

(** [yields next st l]: calling [next] repeatedly from state [st] returns exactly the items of [l], in order, then [None]. *)
Inductive yields {S A} (next : S -> res (option A * S)) : S -> list A -> Prop :=
| yields_nil st st' : next st = Ok (None, st') -> yields next st []
| yields_cons st x st' l : next st = Ok (Some x, st') -> yields next st' l -> yields next st (x :: l).

(** [reaches next st st']: [st'] is the state after some number of calls of [next] from [st]. *)
Inductive reaches {S A} (next : S -> res (option A * S)) (st : S) : S -> Prop :=
| reaches_refl : reaches next st st
| reaches_step st1 o st2 : reaches next st st1 -> next st1 = Ok (o, st2) -> reaches next st st2.

(** A size hint brackets a number of items. *)
Definition brackets (hint : N * option N) (n : nat) : Prop :=
  fst hint <= N.of_nat n /\ match snd hint with Some u => N.of_nat n <= u | None => True end.

(** Membership up to [Eq]. *)
Definition member {T} (eqT : T -> T -> bool) (x : T) (l : list T) : Prop := exists y, In y l /\ eqT x y = true.

(** * Hash table sizing *)

(** Number of collisions tolerated at the [i]-th table size tried, for [len] keys: 5 percent (rounded down, none under 128
    keys), and at each further size a fifth (rounded down to a multiple of 20) of the previous tolerance. *)
Fixpoint tolerated (len : N) (i : nat) : N :=
  match i with
  | O => if len <? 128 then 0 else len / 100 * 5
  | S j => tolerated len j / 100 * 20
  end.

(** How many times larger than the number of keys the table may get (before rounding up to a power of two). *)
Definition growth (len : N) : N := if len <? 128 then 10 else if len <? 1000 then 7 else 3.

(** The table size [bs] (number of slots) and collision count [bc] chosen for [len] hash codes, sizes being tried from [2 ^ k0] upwards
    to [2 ^ hk]: the first size whose collisions are tolerated, or the smallest size when none is. *)
Definition chosen (codes : list N) (len k0 hk : N) (bs bc : N) : Prop :=
  bc = collisions codes bs /\
  ((exists i, bs = 2 ^ (k0 + N.of_nat i) /\ k0 + N.of_nat i <= hk /\ bc <= tolerated len i /\
      forall j, (j < i)%nat -> tolerated len j < collisions codes (2 ^ (k0 + N.of_nat j))) \/
   (bs = 2 ^ k0 /\ forall j, k0 + N.of_nat j <= hk -> tolerated len j < collisions codes (2 ^ (k0 + N.of_nat j)))).

(** * String key analysis *)

(** The part of a key selected by a range, counted from the left or from the right. *)
Definition part {T} (left : bool) (lo hi : N) (s : list T) : list T := if left then left_part lo hi s else right_part lo hi s.

(** A range is good enough: at most one key in twenty hashes (in the selected part) like an earlier one. *)
Definition tolerable {T} (hash_one : list T -> N) (keys : list (list T)) (c : bool * N * N) : bool :=
  repeats (map (fun s => hash_one (part (fst (fst c)) (snd (fst c)) (snd c) s)) keys) <=? N.of_nat (length keys) / 20.

(** The numbers from [a] to [b], both included. *)
Definition range_N (a b : N) : list N := map (fun i => a + N.of_nat i) (seq 0 (N.to_nat (b + 1 - a))).

(** The ranges tried, in the order in which they are tried: shortest first, for each length the ones counted from the left first
    (starting after the common prefix), then (if the keys have different lengths) the ones counted from the right (starting before
    the common suffix); never more than 16 long. [mn], [mx]: lengths of the shortest and longest key; [pl], [sl]: lengths of the
    common prefix and suffix. *)
Definition candidates (mn mx pl sl : N) : list (bool * N * N) :=
  flat_map (fun l => map (fun i => (true, i, i + l)) (range_N pl (mn - l)) ++
                     (if mn =? mx then [] else map (fun i => (false, i, i + l)) (range_N sl (mn - l))))
    (range_N 1 (N.min mn 16)).

(** All keys agree in their first (last) [p] elements. *)
Definition agree {T} (eqT : T -> T -> bool) (left : bool) (keys : list (list T)) (p : N) : Prop :=
  forall s t i, In s keys -> In t keys -> N.of_nat i < p ->
    exists a b, nth_error (if left then s else rev s) i = Some a /\ nth_error (if left then t else rev t) i = Some b /\ eqT a b = true.
Definition longest_agreement {T} (eqT : T -> T -> bool) (left : bool) (keys : list (list T)) (p : N) : Prop :=
  agree eqT left keys p /\ ~ agree eqT left keys (p + 1).

(** [m] is the least (greatest) key length. *)
Definition least_length {T} (keys : list (list T)) (m : N) : Prop :=
  (exists s, In s keys /\ N.of_nat (length s) = m) /\ forall s, In s keys -> m <= N.of_nat (length s).
Definition greatest_length {T} (keys : list (list T)) (m : N) : Prop :=
  (exists s, In s keys /\ N.of_nat (length s) = m) /\ forall s, In s keys -> N.of_nat (length s) <= m.

(** No length is shared by more than one key in twenty (one key is always allowed). *)
Definition spread_lengths {T} (keys : list (list T)) : Prop :=
  forall n, N.of_nat (length (filter (fun s => Nat.eqb (length s) n) keys)) <= N.max 1 (N.of_nat (length keys) / 20).
