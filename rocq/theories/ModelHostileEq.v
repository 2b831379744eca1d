(** Equality of maps (ModelMaps.v, [map_eq]) when the lookups of the other map and [PartialEq] of the values keep state, answer as they please and may
    panic (ModelHostile.v). *)
From Verif Require Import ModelUtils ModelAnalyzers ModelTables ModelMaps ModelHostile.
From Verif Require Import Prelude.

(** maps/decl_macros.rs L488: [iter().all(|(key, value)| other.get(key).map_or(false, |v| *value == *v))]. *)
Fixpoint h_eq_all {K V} (es : list (K * V)) (other : any_map K V) : hostile bool :=
  match es with
  | [] => ret true
  | _ :: r =>
      o <~ h_get other ;;
      match o with
      | Some _ => b <~ ask_bool ;; if b then h_eq_all r other else ret false
      | None => ret false
      end
  end.

(** maps/decl_macros.rs L483-489: [PartialEq::eq]. *)
Definition h_map_eq {K V} (m other : any_map K V) : hostile bool :=
  if negb (Nat.eqb (length (any_entries m)) (length (any_entries other))) then ret false else h_eq_all (any_entries m) other.
