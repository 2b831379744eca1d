(** Scalar types whose [Ord] is an order, but not the order of their indices: the trait [Scalar] asks for no more than that both exist. *)
From Coq Require Import NArith List.
From Verif Require Import Prelude Spec.

(** The order is a total order that agrees with [index] on which keys are equal. *)
Record own_order {K} (idx : K -> N) (cmp : K -> K -> comparison) : Prop := {
  oo_bound : forall k, idx k <= usize_max;
  oo_ord : lawful_ord cmp;
  oo_same : forall a b, cmp a b = Eq <-> idx a = idx b }.

(** The two orders agree on these keys. *)
Definition agree {K} (idx : K -> N) (cmp : K -> K -> comparison) (keys : list K) : Prop :=
  forall a b, In a keys -> In b keys -> cmp a b = N.compare (idx a) (idx b).

(** A first and a last key by [cmp]. *)
Definition first_key {K} (cmp : K -> K -> comparison) (keys : list K) (lo : K) : Prop := In lo keys /\ forall k, In k keys -> cmp lo k <> Gt.
Definition last_key {K} (cmp : K -> K -> comparison) (keys : list K) (hi : K) : Prop := In hi keys /\ forall k, In k keys -> cmp hi k <> Lt.

(** The first key has the least index and the last key the greatest. *)
Definition ends_agree {K} (idx : K -> N) (cmp : K -> K -> comparison) (keys : list K) : Prop :=
  forall lo hi k, first_key cmp keys lo -> last_key cmp keys hi -> In k keys -> idx lo <= idx k <= idx hi.

(** At least the first key's index is not above the last key's. *)
Definition ends_ordered {K} (idx : K -> N) (cmp : K -> K -> comparison) (keys : list K) : Prop :=
  forall lo hi, first_key cmp keys lo -> last_key cmp keys hi -> idx lo <= idx hi.
