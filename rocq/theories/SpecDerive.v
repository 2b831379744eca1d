(** How rustc reads and runs a derived implementation of [Scalar], and when the derive macro is to refuse. *)
From Coq Require Import String NArith List.
From Verif Require Import ModelScalar ModelTokens ModelDerive SpecTokens Spec.
From Verif Require Import Prelude.

Section Reader.
Context {U : Type}.
Notation tokens := (list (dtok U)).
Notation "x <-? e ;; f" := (match e with Some x => f | None => None end) (at level 100, e at next level, f at level 200, right associativity).

Definition eat_ident (s : string) (ts : tokens) : option tokens :=
  match ts with DIdent s' :: r => if String.eqb s s' then Some r else None | _ => None end.
Definition eat_punct (s : string) (ts : tokens) : option tokens :=
  match ts with DPunct s' :: r => if String.eqb s s' then Some r else None | _ => None end.
Definition any_ident (ts : tokens) : option (string * tokens) := match ts with DIdent s :: r => Some (s, r) | _ => None end.
Definition group (d : delim) (ts : tokens) : option (tokens * tokens) :=
  match ts, d with
  | DGroup Paren g :: r, Paren | DGroup Bracket g :: r, Bracket | DGroup Brace g :: r, Brace => Some (g, r)
  | _, _ => None
  end.
Definition the_end (ts : tokens) : option unit := match ts with [] => Some tt | _ => None end.
Definition impl_generics (ts : tokens) : option U * tokens := match ts with DImplGenerics u :: r => (Some u, r) | _ => (None, ts) end.
Definition ty_generics (ts : tokens) : option U * tokens := match ts with DTyGenerics u :: r => (Some u, r) | _ => (None, ts) end.
Definition where_clause (ts : tokens) : option U * tokens := match ts with DWhere u :: r => (Some u, r) | _ => (None, ts) end.

(** Arms [Enum::Variant => number], the number untyped or a [usize], with commas between them and perhaps after the last. *)
Fixpoint read_arms (fuel : nat) (ts : tokens) : option (list (string * string * N)) :=
  match fuel, ts with
  | _, [] => Some []
  | O, _ => None
  | S fuel, _ =>
      x <-? any_ident ts ;; let (e, ts) := x : string * tokens in
      ts <-? eat_punct "::" ts ;;
      x <-? any_ident ts ;; let (v, ts) := x : string * tokens in
      ts <-? eat_punct "=>" ts ;;
      match ts with
      | DLit l :: ts =>
          match read_literal l with
          | Some (n, suffix) =>
              if String.eqb suffix "" || String.eqb suffix "usize" then
                match ts with
                | [] => Some [((e, v), n)]
                | _ => ts <-? eat_punct "," ts ;; r <-? read_arms fuel ts ;; Some (((e, v), n) :: r)
                end
              else None
          | None => None
          end
      | _ => None
      end
  end.

Record scalar_impl := {
  si_enum : string;
  si_impl_generics : option U;
  si_ty_generics : option U;
  si_where : option U;
  si_arms : list (string * string * N) }.

(** [#[automatically_derived] impl<..> ::frozen_collections::Scalar for Enum<..> where .. { fn index(&self) -> usize { match self { arms } } }] *)
Definition read_impl (ts : tokens) : option scalar_impl :=
  ts <-? eat_punct "#" ts ;; x <-? group Bracket ts ;; let (a, ts) := x : tokens * tokens in
  a <-? eat_ident "automatically_derived" a ;; _ <-? the_end a ;;
  ts <-? eat_ident "impl" ts ;; let (ig, ts) := impl_generics ts in
  ts <-? eat_punct "::" ts ;; ts <-? eat_ident "frozen_collections" ts ;; ts <-? eat_punct "::" ts ;; ts <-? eat_ident "Scalar" ts ;;
  ts <-? eat_ident "for" ts ;; x <-? any_ident ts ;; let (name, ts) := x : string * tokens in
  let (tg, ts) := ty_generics ts in let (wh, ts) := where_clause ts in
  x <-? group Brace ts ;; let (body, ts) := x : tokens * tokens in _ <-? the_end ts ;;
  b <-? eat_ident "fn" body ;; b <-? eat_ident "index" b ;;
  x <-? group Paren b ;; let (self_, b) := x : tokens * tokens in
  self_ <-? eat_punct "&" self_ ;; self_ <-? eat_ident "self" self_ ;; _ <-? the_end self_ ;;
  b <-? eat_punct "->" b ;; b <-? eat_ident "usize" b ;;
  x <-? group Brace b ;; let (m, b) := x : tokens * tokens in _ <-? the_end b ;;
  m <-? eat_ident "match" m ;; m <-? eat_ident "self" m ;;
  x <-? group Brace m ;; let (arms, m) := x : tokens * tokens in _ <-? the_end m ;;
  arms <-? read_arms (length arms) arms ;;
  Some {| si_enum := name; si_impl_generics := ig; si_ty_generics := tg; si_where := wh; si_arms := arms |}.
End Reader.

(** [match self { .. }] on a variant of an enum: the first arm that names it. *)
Fixpoint run_match (arms : list (string * string * N)) (enum variant : string) : option N :=
  match arms with
  | [] => None
  | ((e, v), n) :: r => if String.eqb e enum && String.eqb v variant then Some n else run_match r enum variant
  end.

(** The values of an enum with these variants, and rustc's derived order on them: that of the declarations. *)
Definition enum_value (vs : list variant) := { i : nat | (i < length vs)%nat }.
Definition variant_name {vs} (k : enum_value vs) : string := nth (proj1_sig k) (map v_ident vs) ""%string.
Definition declaration_order {vs} (a b : enum_value vs) : comparison := Nat.compare (proj1_sig a) (proj1_sig b).
(** The derived [index]; a value that no arm names does not occur in a program that compiles. *)
Definition derived_index {U vs} (im : @scalar_impl U) (k : enum_value vs) : N :=
  match run_match (si_arms im) (si_enum im) (variant_name k) with Some n => n | None => 0 end.

(** What is wrong with the input, and the message about it. *)
Inductive unfit : data -> string -> Prop :=
| unfit_struct : unfit DataStruct "Scalar can only be used with enums"
| unfit_union : unfit DataUnion "Scalar can only be used with enums"
| unfit_empty : unfit (DataEnum []) "Scalar can only be used with non-empty enums"
| unfit_fields before v after : (forall b, In b before -> v_fields b = FieldsUnit /\ v_discriminant b = false) -> v_fields v <> FieldsUnit ->
    unfit (DataEnum (before ++ v :: after)) "Scalar can only be used with enums that only contain unit variants"
| unfit_discriminant before v after : (forall b, In b before -> v_fields b = FieldsUnit /\ v_discriminant b = false) ->
    v_fields v = FieldsUnit -> v_discriminant v = true ->
    unfit (DataEnum (before ++ v :: after)) "Scalar can only be used with enums that do not have explicit discriminants".
