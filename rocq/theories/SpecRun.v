(** What it takes for printed code to be the collection asked for: read by the grammar and evaluated, the declared name is it. *)
From Coq Require Import String.
From Verif Require Import ModelUtils ModelTables ModelMaps ModelEmit ModelMacros ModelTypes ModelTokens ModelRun Spec SpecMade SpecMacros SpecTokens.
From Verif Require Import Prelude.

(** A user's type as syntax: [_] or a type. *)
Definition written {U} (t : option U) : pty U := match t with None => PInfer | Some u => PUser u end.

(** The names a declaration introduces, and the one that holds the collection. *)
Definition names_of (d : decl) : list string :=
  match d with
  | DeclStatic _ alias symbol _ | DeclLet alias _ symbol => symbol :: match alias with Some a => [a] | None => [] end
  | DeclExpr => []
  end.
Definition symbol_of (d : decl) : option string :=
  match d with DeclStatic _ _ symbol _ | DeclLet _ _ symbol => Some symbol | DeclExpr => None end.

(** The names among the options of an emitter can be printed and read: they are identifiers, and not keywords. *)
Definition usable (is_ident : string -> bool) (names : list string) : Prop :=
  forall s, In s names -> is_ident s = true /\ is_keyword s = false.
Definition option_names (em : emitter) : list string :=
  match em_symbol_name em with Some s => [s] | None => [] end ++ match em_alias_name em with Some a => [a] | None => [] end.
Definition input_names {X W} (input : macro_input (X := X) (W := W)) : list string :=
  match input with ShortForm _ => [] | LongForm symbol alias _ _ _ _ => [symbol; alias] end.
Definition input_symbol {X W} (input : macro_input (X := X) (W := W)) : option string :=
  match input with ShortForm _ => None | LongForm symbol _ _ _ _ _ => Some symbol end.

(** The result [r] of emission prints as tokens, with whatever types the user wrote; these are a program in which [symbol] is a map (or a set
    around one) that answers like one holding [input]. *)
Definition prints {U X W K V Q} (r : res (result (decl * output X W))) (is_ident : string -> bool) (key_type : option U)
    (value_type : option (option U)) (symbol : option string) (is_map : bool) (evK : X -> K) (evV : W -> V) (eqR : K -> K -> bool)
    (cmpR : K -> K -> comparison) (ops : map_ops (rt_map K V) K V Q) (eqK : K -> K -> bool) (eqv : Q -> K -> bool)
    (input : list (K * V)) : Prop :=
  exists d out ts items m, r = Ok (ROk (d, out)) /\ q_postflight key_type value_type is_ident d out = Ok ts /\ reads_as ts items /\
    value_of evK evV eqR cmpR symbol items = Some (Ok (if is_map then VMap m else VSet (VMap m))) /\ answers ops eqK eqv m input.
