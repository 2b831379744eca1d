(** What a collection macro is to do, as a function from the tokens of a call to the tokens of its expansion. *)
From Coq Require Import String.
From Verif Require Import ModelTables ModelMaps ModelEmit ModelMacros ModelTypes ModelParsing ModelTokens ModelRun
  Spec SpecMade SpecMacros SpecTypes SpecParsing SpecTokens SpecRun.
From Verif Require Import Prelude.

(** [is_ident], the check of proc_macro2, lets the identifiers through that are in the stream already. *)
Definition knows_identifiers (is_ident : string -> bool) (ts : list token) : Prop := forall s, In (TIdent s) ts -> is_ident s = true.

(** The macro succeeds, and its output is the program [items]. *)
Definition becomes {U X W} (r : res (result (list (qtok U X W)))) (items : list (item U X W)) : Prop :=
  exists ts, r = Ok (ROk ts) /\ reads_as ts items.

(** The items declare what the call asks for, and nothing else: an expression, or a type alias and a [static] or [let] of that type. A
    [static] whose keys are not all literals is initialised when first used. *)
Definition declares {X T} (show : list token -> string) (p : parsed (X := X) (T := T)) (items : list (item T (expr X) (expr X))) : Prop :=
  match p with
  | PShort _ => exists e, items = [ItExpr e]
  | PLong l =>
      let alias := PPath (lf_type_name l) [] in
      if lf_is_static l then
        exists t t' e, items = [ItType (show (lf_visibility l)) (lf_type_name l) t; ItStatic (show (lf_visibility l)) (lf_var_name l) t' e] /\
          (literal_call (lf_payload l) -> t' = alias) /\ (~ literal_call (lf_payload l) -> t' = PPath "std::sync::LazyLock" [alias])
      else exists t e, items = [ItType "" (lf_type_name l) t; ItLet (lf_is_mutable l) (lf_var_name l) alias e]
  end.
(** The name of the collection. *)
Definition call_symbol {X T} (p : parsed (X := X) (T := T)) : option string := match p with PShort _ => None | PLong l => Some (lf_var_name l) end.

(** [v] is a map, or a set around one. *)
Definition collection {K V} (is_map : bool) (v : value K V) : value K V := if is_map then v else VSet v.
(** The value is a collection that answers like one holding [pairs]. *)
Definition value_answers {K V Q} (v : option (res (value K V))) (is_map : bool) (ops : map_ops (rt_map K V) K V Q) (eqK : K -> K -> bool)
    (eqv : Q -> K -> bool) (pairs : list (K * V)) : Prop :=
  exists m, v = Some (Ok (collection is_map (VMap m))) /\ answers ops eqK eqv m pairs.
(** Run, it is that collection, or panics if two keys are equal. *)
Definition value_answers_or_panics {K V Q} (v : option (res (value K V))) (is_map : bool) (ops : map_ops (rt_map K V) K V Q)
    (eqK : K -> K -> bool) (eqv : Q -> K -> bool) (pairs : list (K * V)) : Prop :=
  (distinct eqK (map fst pairs) -> value_answers v is_map ops eqK eqv pairs) /\ (~ distinct eqK (map fst pairs) -> v = Some Panic).
(** The value is what the constructor [name::new] makes of [pairs]; this, [made], answers like a map holding [pairs]. *)
Definition value_made {K V Q M} (v : option (res (value K V))) (is_map : bool) (name : string) (made : res M) (ops : map_ops M K V Q)
    (eqK : K -> K -> bool) (eqv : Q -> K -> bool) (pairs : list (K * V)) : Prop :=
  v = Some (Ok (collection is_map (VFz name pairs))) /\ exists m, made = Ok m /\ answers ops eqK eqv m pairs.

(** What the types written in a call mean: [k] and [v]. In a short form nothing is written. *)
Definition types_mean {X T} (means : T -> ty -> Prop) (complete : T -> Prop) (is_map : bool) (l : long_form (X := X) (T := T)) (k v : ty) : Prop :=
  (forall t, means (lf_key_type l) t <-> t = k) /\ complete (lf_key_type l) /\
  forall u, is_map = true -> lf_value_type l = Some u -> (forall t, means u t <-> t = v) /\ complete u.
