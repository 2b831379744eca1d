(** Model of frozen-collections-core/src/traits/scalar.rs and src/macros/derive_scalar_macro.rs. *)
From Coq Require Import String ZArith.
From Verif Require Import ModelTables.
From Verif Require Import Prelude.

(** * traits/scalar.rs *)

(** [target_pointer_width]. *)
Inductive pointer_width := Ptr32 | Ptr64.
Definition pointer_bits (p : pointer_width) : N := match p with Ptr32 => 32 | Ptr64 => 64 end.

(** Size of an integer type; [WSize] is the pointer size. *)
Inductive int_width := W8 | W16 | W32 | W64 | WSize.
Definition width_bits (p : pointer_width) (w : int_width) : N :=
  match w with W8 => 8 | W16 => 16 | W32 => 32 | W64 => 64 | WSize => pointer_bits p end.

(** An integer type: [u8] is [{| it_signed := false; it_nonzero := false; it_width := W8 |}], [NonZeroIsize] is
    [{| it_signed := true; it_nonzero := true; it_width := WSize |}]. *)
Record int_type := { it_signed : bool; it_nonzero : bool; it_width : int_width }.

(** A value of an integer type is the integer it denotes. *)
Definition in_type (p : pointer_width) (t : int_type) (v : Z) : bool :=
  let b := Z.of_N (width_bits p (it_width t)) in
  ((if it_signed t then (- 2 ^ (b - 1) <=? v) && (v <? 2 ^ (b - 1)) else (0 <=? v) && (v <? 2 ^ b)) &&
   negb (it_nonzero t && (v =? 0)))%Z.

(** [v as uN] for an integer [v]: two's complement truncation. *)
Definition as_unsigned (bits : N) (v : Z) : N := Z.to_N (v mod 2 ^ Z.of_N bits)%Z.

(** scalar.rs L9-22 ([impl_unsigned_scalar]) and L40-53 ([impl_unsigned_nz_scalar], after [get()]). *)
Definition unsigned_index (p : pointer_width) (v : Z) : N := as_unsigned (pointer_bits p) v.

(** scalar.rs L24-38 ([impl_signed_scalar]) and L55-69 ([impl_signed_nz_scalar], after [get()]): [bits] is the width of
    [$unsigned_ty], [mask] is [$mask]. *)
Definition signed_index (p : pointer_width) (bits mask : N) (v : Z) : N :=
  as_unsigned (pointer_bits p) (Z.of_N (N.lxor (as_unsigned bits v) mask)).

(** scalar.rs L71-78 (64-bit targets) and L80-87 (32-bit targets): the masks written in the invocations; [None] when
    the type has no [Scalar] implementation on that target. *)
Definition signed_mask (p : pointer_width) (w : int_width) : option N :=
  match p, w with
  | _, W8 => Some 128                                  (* 0x80 *)
  | _, W16 => Some 32768                               (* 0x8000 *)
  | _, W32 => Some 2147483648                          (* 0x8000_0000 *)
  | Ptr64, W64 => Some 9223372036854775808             (* 0x8000_0000_0000_0000 *)
  | Ptr64, WSize => Some 9223372036854775808
  | Ptr32, W64 => None
  | Ptr32, WSize => Some 2147483648
  end.
Definition unsigned_implemented (p : pointer_width) (w : int_width) : bool :=
  match p, w with Ptr32, W64 => false | _, _ => true end.

(** [<t as Scalar>::index]. *)
Definition scalar_index (p : pointer_width) (t : int_type) (v : Z) : option N :=
  if it_signed t then
    match signed_mask p (it_width t) with
    | Some mask => Some (signed_index p (width_bits p (it_width t)) mask v)
    | None => None
    end
  else if unsigned_implemented p (it_width t) then Some (unsigned_index p v) else None.

(** The values of a type, and the index of a value ([0] stands for "no implementation"). *)
Definition value_of (p : pointer_width) (t : int_type) := { v : Z | in_type p t v = true }.
Definition index_of (p : pointer_width) (t : int_type) (v : value_of p t) : N :=
  match scalar_index p t (proj1_sig v) with Some i => i | None => 0 end.

(** * macros/derive_scalar_macro.rs *)

(** [syn::Fields]; the number of fields is kept because [Fields::Unit] differs from an empty field list. *)
Inductive fields := FieldsUnit | FieldsNamed (n : nat) | FieldsUnnamed (n : nat).
Record variant := { v_ident : string; v_fields : fields; v_discriminant : bool (* [discriminant.is_some()] *) }.
(** [syn::Data]. *)
Inductive data := DataStruct | DataUnion | DataEnum (variants : list variant).

(** derive_scalar_macro.rs L27-41: the checking loop. *)
Fixpoint derive_check (vs : list variant) : result unit :=
  match vs with
  | [] => ROk tt
  | v :: r =>
      match v_fields v with
      | FieldsUnit =>
          if v_discriminant v then RErr "Scalar can only be used with enums that do not have explicit discriminants"
          else derive_check r
      | _ => RErr "Scalar can only be used with enums that only contain unit variants"
      end
  end.

(** derive_scalar_macro.rs L42-48: the match arms (identifier, index); [index] is [matches.len()]. *)
Fixpoint derive_arms (vs : list variant) (matches : list (string * N)) : list (string * N) :=
  match vs with
  | [] => matches
  | v :: r => derive_arms r (matches ++ [(v_ident v, N.of_nat (List.length matches))])
  end.

(** derive_scalar_macro.rs L13-60: [derive_scalar_macro]; the result is the list of arms of the generated [match self].
    Parsing is not modelled; the printed [impl] is in ModelDerive.v. *)
Definition derive_scalar (d : data) : result (list (string * N)) :=
  match d with
  | DataEnum vs =>
      match vs with
      | [] => RErr "Scalar can only be used with non-empty enums"
      | _ => match derive_check vs with ROk _ => ROk (derive_arms vs []) | RErr m => RErr m end
      end
  | _ => RErr "Scalar can only be used with enums"
  end.

(** derive_scalar_macro.rs L53-57: running the generated [index] on the variant named [self_]. [None]: no arm matches
    (rustc would reject such a match). *)
Fixpoint run_arms (arms : list (string * N)) (self_ : string) : option N :=
  match arms with
  | [] => None
  | (ident, index) :: r => if String.eqb ident self_ then Some index else run_arms r self_
  end.
