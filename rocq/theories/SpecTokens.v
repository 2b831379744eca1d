(** How rustc reads emitted code: the grammar of the few forms that occur, as a reader from tokens to the syntax of [ModelTypes.v].

    The reader knows nothing of the generator: paths may or may not have generic arguments, lists may or may not have a trailing
    comma, digits may be separated by underscores. Examples of what it reads and what it refuses are in [PropertiesTokens.v]. *)
From Coq Require Import String Ascii.
From Verif Require Import ModelTypes ModelTokens SpecTypes.
From Verif Require Import Prelude.

(** * Literals *)
(** The value of a decimal digit. *)
Definition digit_value (c : ascii) : option N :=
  let n := N_of_ascii c in if (48 <=? n) && (n <=? 57) then Some (n - 48) else None.
(** Digits and underscores; what is left is the suffix. *)
Fixpoint read_digits (acc : N) (s : string) : N * string :=
  match s with
  | EmptyString => (acc, s)
  | String c r =>
      match digit_value c with
      | Some d => read_digits (10 * acc + d) r
      | None => if Ascii.eqb c "_" then read_digits acc r else (acc, s)
      end
  end.
(** A decimal integer literal: a digit, digits and underscores, and nothing or the name of an integer type. *)
Definition read_literal (s : string) : option (N * string) :=
  match s with
  | EmptyString => None
  | String c _ =>
      match digit_value c with
      | None => None
      | Some _ =>
          let (v, suffix) := read_digits 0 s in
          if String.eqb suffix "" || existsb (String.eqb suffix) (map fst int_types) then Some (v, suffix) else None
      end
  end.

(** * Names *)
(** The strict keywords of the language; none is a name, except those that may begin a path, which the crate does not use. *)
Definition keywords : list string :=
  ["as"; "async"; "await"; "break"; "const"; "continue"; "crate"; "dyn"; "else"; "enum"; "extern"; "false"; "fn"; "for"; "if"; "impl"; "in"; "let";
   "loop"; "match"; "mod"; "move"; "mut"; "pub"; "ref"; "return"; "self"; "Self"; "static"; "struct"; "super"; "trait"; "true"; "type"; "unsafe";
   "use"; "where"; "while"]%string.
Definition is_keyword (s : string) : bool := existsb (String.eqb s) keywords.

Section Read.
Context {U X W : Type}.
Notation tokens := (list (qtok U X W)).

(** [::a::b], as far as it goes. *)
Fixpoint read_segments (ts : tokens) : list string * tokens :=
  match ts with
  | QPunct Colon2 :: QIdent s :: r =>
      if is_keyword s then ([], ts) else let (names, rest) := read_segments r in (s :: names, rest)
  | _ => ([], ts)
  end.
(** [a::b] or [::a::b]; in the second case the first name is empty. *)
Definition read_name (ts : tokens) : option (list string * tokens) :=
  match ts with
  | QIdent s :: r => if is_keyword s then None else let (names, rest) := read_segments r in Some (s :: names, rest)
  | _ => match read_segments ts with ([], _) => None | (names, rest) => Some ("" :: names, rest) end
  end%string.
Definition path_name (names : list string) : string := String.concat "::" names.

(** * Types *)
(** A type or a const argument, and what follows it. *)
Fixpoint read_type (fuel : nat) (ts : tokens) : option (pty U * tokens) :=
  match fuel with
  | O => None
  | S fuel =>
      match ts with
      | QUnderscore :: r => Some (PInfer, r)
      | QType u :: r => Some (PUser u, r)
      | QLit s :: r => match read_literal s with Some (v, suffix) => if String.eqb suffix "" then Some (PNum v, r) else None | None => None end
      | QGroup Paren g :: r =>
          match read_types fuel g with
          | Some ([], []) => Some (PUnit, r)
          | Some ([a; b], []) => Some (PPair a b, r)
          | _ => None
          end
      | _ =>
          match read_name ts with
          | None => None
          | Some (names, rest) =>
              let generics r := match read_types fuel r with Some (args, QPunct Gt :: r) => Some (PPath (path_name names) args, r) | _ => None end in
              match rest with
              | QPunct Lt :: r => generics r
              | QPunct Colon2 :: QPunct Lt :: r => generics r
              | _ => Some (PPath (path_name names) [], rest)
              end
          end
      end
  end
(** Types separated by commas, up to a [>] or the end. *)
with read_types (fuel : nat) (ts : tokens) : option (list (pty U) * tokens) :=
  match fuel with
  | O => None
  | S fuel =>
      match ts with
      | [] => Some ([], [])
      | QPunct Gt :: _ => Some ([], ts)
      | _ =>
          match read_type fuel ts with
          | None => None
          | Some (t, QPunct Comma :: r) => match read_types fuel r with Some (args, rest) => Some (t :: args, rest) | None => None end
          | Some (t, r) => Some ([t], r)
          end
      end
  end.

(** * Expressions *)
Fixpoint read_expr (fuel : nat) (ts : tokens) : option (pexpr U X W * tokens) :=
  match fuel with
  | O => None
  | S fuel =>
      match ts with
      | QKey x :: r => Some (XKey x, r)
      | QVal w :: r => Some (XVal w, r)
      | QLit s :: r => match read_literal s with Some (v, suffix) => Some (XInt v suffix, r) | None => None end
      | QGroup Paren g :: r => match read_exprs fuel g with Some [a; b] => Some (XPair a b, r) | _ => None end
      | QGroup Bracket g :: r => match read_exprs fuel g with Some es => Some (XArray es, r) | None => None end
      | QPunct OrOr :: QGroup Brace g :: r => match read_expr fuel g with Some (e, []) => Some (XClosure e, r) | _ => None end
      | QIdent name :: QPunct Bang :: QGroup Bracket g :: r =>
          if String.eqb name "vec" then match read_exprs fuel g with Some es => Some (XVec es, r) | None => None end else None
      | _ =>
          match read_name ts with
          | None => None
          | Some (names, rest) =>
              match rest with
              (* [path::<..>::f(..)] *)
              | QPunct Colon2 :: QPunct Lt :: r =>
                  match read_types fuel r with
                  | Some (generics, QPunct Gt :: QPunct Colon2 :: QIdent f :: QGroup Paren g :: r) =>
                      if is_keyword f then None else
                      match read_exprs fuel g with Some args => Some (XCall (PPath (path_name names) generics) f args, r) | None => None end
                  | _ => None
                  end
              (* [path::f(..)] *)
              | QGroup Paren g :: r =>
                  match read_exprs fuel g with
                  | Some args => Some (XCall (PPath (path_name (removelast names)) []) (last names ""%string) args, r)
                  | None => None
                  end
              (* [path {}], [path] *)
              | QGroup Brace [] :: r => Some (XStruct (path_name names), r)
              | _ => Some (XStruct (path_name names), rest)
              end
          end
      end
  end
(** Expressions separated by commas, up to the end. *)
with read_exprs (fuel : nat) (ts : tokens) : option (list (pexpr U X W)) :=
  match fuel with
  | O => None
  | S fuel =>
      match ts with
      | [] => Some []
      | _ =>
          match read_expr fuel ts with
          | Some (e, []) => Some [e]
          | Some (e, QPunct Comma :: r) => match read_exprs fuel r with Some es => Some (e :: es) | None => None end
          | _ => None
          end
      end
  end.

(** * Items *)
(** [type name = type;] after the keyword. *)
Definition read_type_item (fuel : nat) (visibility : string) (ts : tokens) : option (item U X W * tokens) :=
  match ts with
  | QIdent name :: QPunct Equals :: r =>
      if is_keyword name then None else
      match read_type fuel r with Some (t, QPunct Semi :: r) => Some (ItType visibility name t, r) | _ => None end
  | _ => None
  end.
(** [name: type = expr;] *)
Definition read_binding (fuel : nat) (ts : tokens) : option (string * pty U * pexpr U X W * tokens) :=
  match ts with
  | QIdent name :: QPunct Colon :: r =>
      if is_keyword name then None else
      match read_type fuel r with
      | Some (t, QPunct Equals :: r) => match read_expr fuel r with Some (e, QPunct Semi :: r) => Some (name, t, e, r) | _ => None end
      | _ => None
      end
  | _ => None
  end.
Definition read_item (fuel : nat) (ts : tokens) : option (item U X W * tokens) :=
  match ts with
  | QVis visibility :: QIdent kw :: r =>
      if String.eqb kw "type" then read_type_item fuel visibility r
      else if String.eqb kw "static" then
        match read_binding fuel r with Some (name, t, e, r) => Some (ItStatic visibility name t e, r) | None => None end
      else None
  | QIdent kw :: r =>
      if String.eqb kw "type" then read_type_item fuel "" r
      else if String.eqb kw "static" then
        match read_binding fuel r with Some (name, t, e, r) => Some (ItStatic "" name t e, r) | None => None end
      else if String.eqb kw "let" then
        match r with
        | QIdent kw' :: r' =>
            if String.eqb kw' "mut" then match read_binding fuel r' with Some (name, t, e, r) => Some (ItLet true name t e, r) | None => None end
            else match read_binding fuel r with Some (name, t, e, r) => Some (ItLet false name t e, r) | None => None end
        | _ => None
        end
      else match read_expr fuel ts with Some (e, []) => Some (ItExpr e, []) | _ => None end
  | _ => match read_expr fuel ts with Some (e, []) => Some (ItExpr e, []) | _ => None end
  end.
Fixpoint read_items (fuel : nat) (ts : tokens) : option (list (item U X W)) :=
  match fuel with
  | O => None
  | S fuel =>
      match ts with
      | [] => Some []
      | _ => match read_item fuel ts with Some (i, r) => match read_items fuel r with Some is => Some (i :: is) | None => None end | None => None end
      end
  end.

(** [reads_as ts items]: the reader, given enough fuel, reads exactly these items. *)
Definition reads_as (ts : tokens) (items : list (item U X W)) : Prop :=
  exists enough, forall fuel, (enough <= fuel)%nat -> read_items fuel ts = Some items.
End Read.
