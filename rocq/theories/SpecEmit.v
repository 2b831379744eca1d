(** What emitted code is supposed to do. *)
From Coq Require Import String Ascii.
From Verif Require Import ModelTables ModelMaps ModelEmit Spec.
From Verif Require Import Prelude.

(** The key of an entry at run time. *)
Definition rt_key {KB X W K} (evK : X -> K) (e : entry KB X W) : K := evK (fst (snd e)).

(** The key/value pairs the source entries denote at run time; a set pairs every key with the unit value. *)
Definition rt_input {KB X W K V} (evK : X -> K) (evV : W -> V) (unit_value : V) (is_map : bool)
    (entries : list (entry KB X W)) : list (K * V) :=
  map (fun e => (rt_key evK e, if is_map then evV (snd (snd e)) else unit_value)) entries.

(** The options are consistent. *)
Definition options_consistent (em : emitter) : Prop :=
  ~ (em_is_static em = true /\ em_is_mutable em = true) /\
  (em_is_static em = true \/ em_is_mutable em = true \/ em_alias_name em <> None -> em_symbol_name em <> None).

(** What the user is told about options that are not: what went wrong follows from the two flags. *)
Definition complaint (em : emitter) : string :=
  match em_is_static em, em_is_mutable em with
  | true, true => "mutable is not allowed for static collections"
  | true, false => "symbol_name is required for static collections"
  | false, true => "symbol_name is required for mutable collections"
  | false, false => "alias_name cannot be used without symbol_name"
  end.

(** The declaration form the options ask for. *)
Definition expected_decl (em : emitter) (d : decl) : Prop :=
  match em_symbol_name em with
  | None => d = DeclExpr
  | Some name =>
      if em_is_static em then
        d = DeclStatic (em_visibility em) (em_alias_name em) name (negb (em_const_keys em && em_const_values em))
      else d = DeclLet (em_alias_name em) (em_is_mutable em) name
  end.

(** The index literals printed in an emitted table, and the largest number its index type can hold. *)
Definition stored_indices {X W} (c : ctor X W) : list N :=
  match c with
  | CSparse _ _ _ _ lookup _ _ => lookup
  | CHash _ _ _ slots _ _ => flat_map (fun s => [fst s; snd s]) slots
  | CHashNc _ _ _ slots _ _ => slots
  | _ => []
  end.
Definition index_type_max {X W} (c : ctor X W) : N :=
  match c with
  | CSparse _ _ cm _ _ _ _ | CHash _ _ cm _ _ _ | CHashNc _ _ cm _ _ _ =>
      match cm with Small => 2 ^ 8 - 1 | Medium => 2 ^ 16 - 1 | Large => 2 ^ 64 - 1 end
  | _ => 0
  end.

Definition is_digit (c : Ascii.ascii) : Prop := In c (list_ascii_of_string "0123456789").
Definition is_underscore (c : Ascii.ascii) : bool := Ascii.eqb c "_".
