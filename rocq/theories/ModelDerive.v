(** The tokens printed by frozen-collections-core/src/macros/derive_scalar_macro.rs. Attributes, generics and the where clause come from [syn], which
    splits them for an [impl]; each is one opaque token here. *)
From Coq Require Import String Ascii.
From Verif Require Import ModelTables ModelScalar ModelTokens.
From Verif Require Import Prelude.

Inductive dtok (U : Type) :=
| DIdent (s : string)
| DPunct (s : string)
| DLit (s : string)
| DGroup (d : delim) (ts : list (dtok U))
| DImplGenerics (u : U)
| DTyGenerics (u : U)
| DWhere (u : U).
Arguments DIdent {U}.
Arguments DPunct {U}.
Arguments DLit {U}.
Arguments DGroup {U}.
Arguments DImplGenerics {U}.
Arguments DTyGenerics {U}.
Arguments DWhere {U}.

(** [syn::DeriveInput]; the generics as [split_for_impl] returns them (L16), [None] where nothing is printed. *)
Record derive_input (U : Type) := {
  di_ident : string;
  di_impl_generics : option U;
  di_ty_generics : option U;
  di_where : option U;
  di_data : data }.
Arguments di_ident {U}.
Arguments di_impl_generics {U}.
Arguments di_ty_generics {U}.
Arguments di_where {U}.
Arguments di_data {U}.

Section Derive.
Context {U : Type}.
Notation tokens := (list (dtok U)).

Definition opt_token (mk : U -> dtok U) (u : option U) : tokens := match u with Some u => [mk u] | None => [] end.

(** L47: [quote! { #name::#ident => #index}]; a [usize] prints with its suffix. *)
Definition d_arm (name : string) (arm : string * N) : tokens :=
  [DIdent name; DPunct "::"; DIdent (fst arm); DPunct "=>"; DLit (usize_suffixed (snd arm))].

(** L55: [#(#matches),*]. *)
Fixpoint d_arms (name : string) (arms : list (string * N)) : tokens :=
  match arms with
  | [] => []
  | [a] => d_arm name a
  | a :: r => d_arm name a ++ DPunct "," :: d_arms name r
  end.

(** L50-59. *)
Definition d_impl (input : derive_input U) (arms : list (string * N)) : tokens :=
  let name := di_ident input in
  [DPunct "#"; DGroup Bracket [DIdent "automatically_derived"]; DIdent "impl"] ++ opt_token DImplGenerics (di_impl_generics input) ++
  [DPunct "::"; DIdent "frozen_collections"; DPunct "::"; DIdent "Scalar"; DIdent "for"; DIdent name] ++
  opt_token DTyGenerics (di_ty_generics input) ++ opt_token DWhere (di_where input) ++
  [DGroup Brace [DIdent "fn"; DIdent "index"; DGroup Paren [DPunct "&"; DIdent "self"]; DPunct "->"; DIdent "usize";
     DGroup Brace [DIdent "match"; DIdent "self"; DGroup Brace (d_arms name arms)]]].

(** L13-60: [derive_scalar_macro], after parsing. *)
Definition derive_scalar_macro (input : derive_input U) : result tokens :=
  match derive_scalar (di_data input) with RErr m => RErr m | ROk arms => ROk (d_impl input arms) end.
End Derive.
