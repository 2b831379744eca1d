(** Property theorems about the code printed by derive(Scalar) (C90). Statements only; proofs are in [ProofsDerive.v]. *)
From Coq Require Import String NArith List Lia.
From Verif Require Import ModelTables ModelScalar ModelTokens ModelDerive ModelUtils ModelMaps SpecTokens SpecDerive Spec Instances ProofsDerive.
From Verif Require Import Prelude.

(** Accepted: the tokens read as an implementation for the enum, with its generics; the arms are its variants; [index] of each is its place. *)
Theorem C90_reads : forall U (input : derive_input U) ts, derive_scalar_macro input = ROk ts ->
  exists vs im, di_data input = DataEnum vs /\ read_impl ts = Some im /\
    si_enum im = di_ident input /\ si_impl_generics im = di_impl_generics input /\ si_ty_generics im = di_ty_generics input /\ si_where im = di_where input /\
    map fst (si_arms im) = map (fun v => (di_ident input, v_ident v)) vs /\
    (NoDup (map v_ident vs) -> forall i v, nth_error vs i = Some v -> run_match (si_arms im) (si_enum im) (v_ident v) = Some (N.of_nat i)).
Proof. exact @derived_reads. Qed.
Print Assumptions C90_reads.

(** With the derived order the implementation meets what the scalar collections ask of their keys, and its indices are 0, 1, 2, .. without gaps. *)
Theorem C90_lawful : forall U (input : derive_input U) ts vs im,
  derive_scalar_macro input = ROk ts -> di_data input = DataEnum vs -> read_impl ts = Some im ->
  NoDup (map v_ident vs) -> N.of_nat (List.length vs) <= usize_max ->
  lawful_scalar (derived_index (vs := vs) im) declaration_order /\ forall k, derived_index (vs := vs) im k = N.of_nat (proj1_sig k).
Proof. exact @derived_lawful. Qed.
Print Assumptions C90_lawful.

(** Maps keyed by the enum answer by the variant's name; if every variant is a key, the dense table is used. *)
Theorem C90_maps : forall U V (input : derive_input U) ts vs im usort md (entries : list (enum_value vs * V)),
  derive_scalar_macro input = ROk ts -> di_data input = DataEnum vs -> read_impl ts = Some im ->
  NoDup (map v_ident vs) -> N.of_nat (List.length vs) <= usize_max -> sorts_by_slot usort ->
  let same (q k : enum_value vs) := String.eqb (variant_name q) (variant_name k) in
  exists m, fz_scalar_map_new usort md (derived_index im) declaration_order entries = Ok m /\
    (forall q, mo_get (fz_scalar_ops (derived_index im) same) m q = Ok (spec_get same entries q)) /\
    (entries <> [] -> (forall k, In k (map fst entries)) -> exists d, m = FsDense d).
Proof. exact @derived_map. Qed.
Print Assumptions C90_maps.

(** Refused: exactly the inputs that are unfit, each with the message for the first thing wrong with it. *)
Theorem C90_refused_exactly : forall U (input : derive_input U) msg, derive_scalar_macro input = RErr msg <-> unfit (di_data input) msg.
Proof. exact @derived_errors. Qed.
Print Assumptions C90_refused_exactly.

Definition ex_variant (s : string) : variant := {| v_ident := s; v_fields := FieldsUnit; v_discriminant := false |}.
Definition ex_input (vs : list variant) : derive_input string :=
  {| di_ident := "Color"; di_impl_generics := Some "<const N: usize>"%string; di_ty_generics := Some "<N>"%string; di_where := None; di_data := DataEnum vs |}.
Example C90_example :
  let color := ex_input [ex_variant "Red"; ex_variant "Green"; ex_variant "Blue"] in
  (exists ts im, derive_scalar_macro color = ROk ts /\ read_impl ts = Some im /\ si_enum im = "Color"%string /\ si_ty_generics im = Some "<N>"%string /\
     run_match (si_arms im) "Color" "Green" = Some 1 /\ run_match (si_arms im) "Color" "Pink" = None) /\
  NoDup (map v_ident [ex_variant "Red"; ex_variant "Green"; ex_variant "Blue"]) /\
  derive_scalar_macro (ex_input [ex_variant "Red"; {| v_ident := "Rgb"; v_fields := FieldsUnnamed 3; v_discriminant := true |}]) =
    RErr "Scalar can only be used with enums that only contain unit variants" /\
  derive_scalar_macro (ex_input [{| v_ident := "Red"; v_fields := FieldsUnit; v_discriminant := true |}; {| v_ident := "Rgb"; v_fields := FieldsUnnamed 3; v_discriminant := false |}]) =
    RErr "Scalar can only be used with enums that do not have explicit discriminants".
Proof.
  cbv zeta. split; [do 2 eexists; split; [vm_compute; reflexivity|]; repeat split; vm_compute; reflexivity|].
  split; [|split; vm_compute; reflexivity]. repeat constructor; cbn; intros H; repeat (destruct H as [H|H]; [discriminate|]); exact H.
Qed.
(** What the reader accepts and refuses. *)
Example C90_reader_example :
  let arm e v n := [DIdent e; DPunct "::"; DIdent v; DPunct "=>"; DLit n] : list (dtok unit) in
  read_arms 2 (List.app (arm "E" "A" "0") (DPunct "," :: List.app (arm "E" "B" "1usize") [DPunct ","]))%string = Some [(("E", "A"), 0); (("E", "B"), 1)]%string /\
  read_arms 2 (List.app (arm "E" "A" "0") (arm "E" "B" "1"))%string = None /\ read_arms 2 (arm "E" "A" "0u8")%string = None.
Proof. repeat split; vm_compute; reflexivity. Qed.
Definition ex_vs : list variant := [ex_variant "Red"; ex_variant "Green"; ex_variant "Blue"].
Definition ex_red : enum_value ex_vs := exist _ 0%nat (le_S 1 2 (le_S 1 1 (le_n 1))).
Definition ex_green : enum_value ex_vs := exist _ 1%nat (le_S 2 2 (le_n 2)).
Definition ex_blue : enum_value ex_vs := exist _ 2%nat (le_n 3).
Example C90_maps_example : exists ts im m, derive_scalar_macro (ex_input ex_vs) = ROk ts /\ read_impl ts = Some im /\
  fz_scalar_map_new slot_sort Debug (derived_index im) declaration_order [(ex_blue, 30); (ex_green, 20); (ex_green, 21)] = Ok m /\
  map (mo_get (fz_scalar_ops (derived_index im) (fun q k => String.eqb (variant_name q) (variant_name k))) m) [ex_red; ex_green; ex_blue] =
    [Ok None; Ok (Some 21); Ok (Some 30)].
Proof. do 3 eexists. split; [vm_compute; reflexivity|]. split; [vm_compute; reflexivity|]. split; vm_compute; reflexivity. Qed.
