(** Code expanded on a 64-bit build machine and compiled for a target with another pointer width. The build machine is always 64-bit:
    [processor.rs] needs [i64: Scalar], which only 64-bit targets have. *)
From Coq Require Import String ZArith.
From Verif Require Import ModelTables ModelMaps ModelScalar ModelEmit ModelMacros Spec SpecMacros.
From Verif Require Import Prelude.

(** [Scalar] is implemented for the type on the target. *)
Definition has_scalar (p : pointer_width) (t : scalar_type) : Prop :=
  match p, t with Ptr32, (I64 | U64) => False | _, _ => True end.

(** Every integer literal is in the range its type has on the target. *)
Definition values_fit_on {X W} (p : pointer_width) (t : scalar_type) (entries : list (m_entry X W)) : Prop :=
  forall e v s, In e entries -> literal_of (me_key e) = Some (LitInt v s) -> in_type p (int_type_of t) (Z.of_N v) = true.
(** rustc evaluates an integer literal for the target to its value. *)
Definition evaluates_integers_on {X} (p : pointer_width) (t : scalar_type) (evK : expr X -> value_of p (int_type_of t)) : Prop :=
  (forall v s, in_type p (int_type_of t) (Z.of_N v) = true -> proj1_sig (evK (ELit (LitInt v s))) = Z.of_N v) /\
  forall e, evK (EGroup e) = evK e.
(** Queries of the target: their index is a target [usize], and they match the keys of the same index. *)
Definition target_query {Q} (p : pointer_width) (t : scalar_type) (idxQ : Q -> N) (eqv : Q -> value_of p (int_type_of t) -> bool) : Prop :=
  (forall q, idxQ q < 2 ^ pointer_bits p) /\ forall q k, eqv q k = (idxQ q =? index_of p (int_type_of t) k).

(** The lengths of the arrays in an emitted constructor call, and the literals of type [usize] in it. *)
Definition array_lengths {X W} (c : ctor X W) : list N :=
  match c with
  | CScan len _ | CEytzinger len _ | CDense len _ _ _ => [N.of_nat len]
  | CSparse len num_slots _ _ _ _ _ | CHash len num_slots _ _ _ _ | CHashNc len num_slots _ _ _ _ => [N.of_nat len; N.of_nat num_slots]
  | _ => []
  end.
Definition usize_literals {X W} (c : ctor X W) : list N :=
  match c with
  | CDense _ _ min_key max_key => [min_key; max_key]
  | CSparse _ _ cm _ lookup min_key max_key => [min_key; max_key] ++ match cm with Large => lookup | _ => [] end
  | CHash _ _ Large slots _ _ => flat_map (fun s => [fst s; snd s]) slots
  | CHashNc _ _ Large slots _ _ => slots
  | _ => []
  end.
(** The literals are in range on the target, and the arrays not larger than an object can be there (half the address space). *)
Definition fits_target {X W} (p : pointer_width) (c : ctor X W) : Prop :=
  (forall n, In n (usize_literals c) -> n < 2 ^ pointer_bits p) /\ forall n, In n (array_lengths c) -> n < 2 ^ (pointer_bits p - 1).

(** The bounds of a table of consecutive indices, cut off at the width of [usize] on the target. *)
Definition cut_off {X W} (p : pointer_width) (c : ctor X W) : ctor X W :=
  let cut n := n mod 2 ^ pointer_bits p in
  match c with CDense len es min_key max_key => CDense len es (cut min_key) (cut max_key) | _ => c end.
