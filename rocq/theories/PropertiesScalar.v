(** Property theorems about scalar keys (C33, C49). *)
From Coq Require Import String ZArith.
From Verif Require Import ModelTables ModelScalar Spec ModelMaps ProofsScalarIndex Instances.
From Verif Require Import Prelude.

(** ** C33 *)
Theorem C33_index_order : forall p t v w i j,
  in_type p t v = true -> in_type p t w = true -> scalar_index p t v = Some i -> scalar_index p t w = Some j ->
  (i = j <-> v = w) /\ (i < j <-> (v < w)%Z) /\ i < 2 ^ pointer_bits p.
Proof. exact scalar_index_order. Qed.
Print Assumptions C33_index_order.

(** The types with an index are those no wider than a pointer. *)
Theorem C33_implemented_types : forall p t v,
  (exists i, scalar_index p t v = Some i) <-> width_bits p (it_width t) <= pointer_bits p.
Proof. exact scalar_index_defined. Qed.
Print Assumptions C33_implemented_types.

(** So every built-in type meets the laws the scalar collections need. *)
Theorem C33_builtin_types_lawful : forall t, lawful_scalar (index_of Ptr64 t) (fun a b => Z.compare (proj1_sig a) (proj1_sig b)).
Proof. exact builtin_lawful_scalar. Qed.
Print Assumptions C33_builtin_types_lawful.

Example C33_example :
  let i8 := {| it_signed := true; it_nonzero := false; it_width := W8 |} in
  let nzi64 := {| it_signed := true; it_nonzero := true; it_width := W64 |} in
  scalar_index Ptr64 i8 (-5) = Some 123 /\ scalar_index Ptr64 i8 (-128) = Some 0 /\ scalar_index Ptr64 i8 127 = Some 255 /\
  scalar_index Ptr64 nzi64 (-40) = Some (9223372036854775808 - 40) /\ scalar_index Ptr32 nzi64 (-40) = None /\
  in_type Ptr64 i8 (-5) = true /\ in_type Ptr64 nzi64 (-40) = true /\ in_type Ptr64 nzi64 0 = false.
Proof. vm_compute. repeat split; reflexivity. Qed.

(** ** C49 *)
Theorem C49_derive_accepts : forall d, (exists arms, derive_scalar d = ROk arms) <->
  exists vs, d = DataEnum vs /\ vs <> [] /\ forall v, In v vs -> v_fields v = FieldsUnit /\ v_discriminant v = false.
Proof. exact derive_accepts. Qed.
Print Assumptions C49_derive_accepts.

(** [NoDup]: rustc rejects two variants of the same name. *)
Theorem C49_derive_numbers : forall vs arms i v,
  derive_scalar (DataEnum vs) = ROk arms -> NoDup (map v_ident vs) -> nth_error vs i = Some v ->
  run_arms arms (v_ident v) = Some (N.of_nat i).
Proof. exact derive_numbers. Qed.
Print Assumptions C49_derive_numbers.

Example C49_example :
  let mk s := {| v_ident := s; v_fields := FieldsUnit; v_discriminant := false |} in
  derive_scalar (DataEnum [mk "Red"%string; mk "Green"%string; mk "Blue"%string]) = ROk [("Red", 0); ("Green", 1); ("Blue", 2)]%string /\
  run_arms [("Red"%string, 0); ("Green"%string, 1); ("Blue"%string, 2)]%string "Blue"%string = Some 2 /\
  NoDup (map v_ident [mk "Red"%string; mk "Green"%string; mk "Blue"%string]) /\
  (exists m, derive_scalar (DataEnum [mk "Red"%string; {| v_ident := "Green"%string; v_fields := FieldsUnnamed 0; v_discriminant := false |}]) = RErr m) /\
  (exists m, derive_scalar (DataEnum [mk "Red"%string; {| v_ident := "Green"%string; v_fields := FieldsUnit; v_discriminant := true |}]) = RErr m) /\
  (exists m, derive_scalar (DataEnum []) = RErr m) /\ (exists m, derive_scalar DataStruct = RErr m).
Proof.
  cbn. split; [reflexivity|]. split; [reflexivity|]. split; [|repeat split; eexists; reflexivity].
  repeat constructor; cbn; intros H; repeat (destruct H as [H|H]; [discriminate|]); exact H.
Qed.
