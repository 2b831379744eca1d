(** Model of frozen-collections-core/src/macros/parsing and the parsing half of macro_api.rs: from a token stream to the parsed
    arguments of a collection macro.

    A [ParseStream] is the list of token trees left; parsing returns the value and what is left. [syn]'s parsers for expressions and
    types are arguments. Simplifications: spans and the wording of [syn]'s own errors are dropped; groups without delimiters, which
    [syn] looks through, do not occur around the tokens the grammar asks for. *)
From Coq Require Import String.
From Verif Require Import ModelUtils ModelAnalyzers ModelTables ModelMaps ModelScalar ModelEmit ModelMacros.
From Verif Require Import Prelude.

(** [proc_macro2::TokenTree]. Keywords are identifiers; punctuation comes one character at a time and says whether the next
    character follows without a space ([Spacing::Joint]). *)
Inductive delimiter := Brace | Paren | Bracket.
Inductive token :=
| TIdent (s : string)
| TPunct (c : string) (joint : bool)
| TLit (l : lit)
| TGroup (d : delimiter) (content : list token).

(** syn [accept_as_ident]: these are not identifiers. *)
Definition keywords : list string :=
  ["_"; "abstract"; "as"; "async"; "await"; "become"; "box"; "break"; "const"; "continue"; "crate"; "do"; "dyn"; "else"; "enum";
   "extern"; "false"; "final"; "fn"; "for"; "if"; "impl"; "in"; "let"; "loop"; "macro"; "match"; "mod"; "move"; "mut"; "override";
   "priv"; "pub"; "ref"; "return"; "Self"; "self"; "static"; "struct"; "super"; "trait"; "true"; "try"; "type"; "typeof"; "unsafe";
   "unsized"; "use"; "virtual"; "where"; "while"; "yield"]%string.

(** [input.parse::<Ident>()]. *)
Definition parse_ident (ts : list token) : result (string * list token) :=
  match ts with
  | TIdent s :: r => if existsb (String.eqb s) keywords then RErr "expected identifier" else ROk (s, r)
  | _ => RErr "expected identifier"
  end.
(** [input.parse::<Token![c]>()] for one character of punctuation. *)
Definition parse_punct (c : string) (ts : list token) : result (list token) :=
  match ts with
  | TPunct c' _ :: r => if String.eqb c' c then ROk r else RErr "expected punctuation"
  | _ => RErr "expected punctuation"
  end.
(** [input.peek(Token![kw])], [input.parse::<Token![kw]>()]. *)
Definition peek_kw (kw : string) (ts : list token) : bool :=
  match ts with TIdent s :: _ => String.eqb s kw | _ => false end.
Definition parse_kw (kw : string) (ts : list token) : result (list token) :=
  if peek_kw kw ts then ROk (tl ts) else RErr "expected keyword".

(** [input.parse::<Visibility>()]: the tokens the visibility consists of, none if inherited. [pub] may be followed by [(crate)],
    [(self)], [(super)] or [(in path)]; any other group is left alone. Simplification: the path is not checked. *)
Definition restriction (content : list token) : bool :=
  match content with
  | [TIdent s] => String.eqb s "crate" || String.eqb s "self" || String.eqb s "super"
  | TIdent s :: _ :: _ => String.eqb s "in"
  | _ => false
  end.
Definition parse_visibility (ts : list token) : list token * list token :=
  match ts with
  | TIdent s :: r =>
      if String.eqb s "pub" then
        match r with
        | TGroup Paren content :: r' => if restriction content then ([TIdent s; TGroup Paren content], r') else ([TIdent s], r)
        | _ => ([TIdent s], r)
        end
      else ([], ts)
  | _ => ([], ts)
  end.

(** syn [braced!]. *)
Definition braced (ts : list token) : result (list token * list token) :=
  match ts with
  | TGroup Brace content :: r => ROk (content, r)
  | _ => RErr "expected curly braces"
  end.

Notation "'LET' p := r 'IN' k" := (match r with ROk p => k | RErr e => RErr e end) (at level 200, p pattern, k at level 200).

Section Parsing.
Context {X T : Type}.
(** [input.parse::<Expr>()] and [input.parse::<Type>()]. *)
Variable parse_expr : list token -> result (expr X * list token).
Variable parse_type : list token -> result (T * list token).
Notation entry := (m_entry X (expr X)).

(** syn [Punctuated::parse_terminated_with]: values with commas in between, and one more at the end if you like. Every round
    consumes at least a comma, so the number of tokens is enough fuel. *)
Fixpoint parse_terminated_loop {A} (p : list token -> result (A * list token)) (fuel : nat) (ts : list token) : result (list A) :=
  match ts with
  | [] => ROk []
  | _ =>
      match fuel with
      | O => RErr "out of fuel"
      | S fuel =>
          LET (v, ts) := p ts IN
          match ts with
          | [] => ROk [v]
          | _ => LET ts := parse_punct "," ts IN LET vs := parse_terminated_loop p fuel ts IN ROk (v :: vs)
          end
      end
  end.
Definition parse_terminated {A} (p : list token -> result (A * list token)) (ts : list token) : result (list A) :=
  parse_terminated_loop p (S (List.length ts)) ts.

(** parsing/entry.rs L10-18. *)
Definition parse_entry (ts : list token) : result (entry * list token) :=
  LET (key, ts) := parse_expr ts IN
  LET ts := parse_punct ":" ts IN
  LET (value, ts) := parse_expr ts IN
  ROk ({| me_key := key; me_value := Some value |}, ts).
(** parsing/long_form_set.rs L44-54 and the [map] of payload.rs L23. *)
Definition parse_set_entry (ts : list token) : result (entry * list token) :=
  LET (value, ts) := parse_expr ts IN ROk ({| me_key := value; me_value := None |}, ts).

(** parsing/payload.rs L14-26, L28-36. *)
Definition parse_set_payload (ts : list token) : result (list entry * list token) :=
  LET (content, ts) := braced ts IN LET entries := parse_terminated parse_set_entry content IN ROk (entries, ts).
Definition parse_map_payload (ts : list token) : result (list entry * list token) :=
  LET (content, ts) := braced ts IN LET entries := parse_terminated parse_entry content IN ROk (entries, ts).

(** parsing/long_form_map.rs L6-18, long_form_set.rs L6-15: a set has no second type. *)
Record long_form := {
  lf_var_name : string; lf_type_name : string; lf_key_type : T; lf_value_type : option T; lf_payload : list entry;
  lf_visibility : list token; lf_is_static : bool; lf_is_mutable : bool }.
Definition lf_override (l : long_form) (visibility : list token) (is_static is_mutable : bool) : long_form := {|
  lf_var_name := lf_var_name l; lf_type_name := lf_type_name l; lf_key_type := lf_key_type l; lf_value_type := lf_value_type l;
  lf_payload := lf_payload l; lf_visibility := visibility; lf_is_static := is_static; lf_is_mutable := is_mutable |}.

(** parsing/long_form_map.rs L20-47. *)
Definition parse_long_map (ts : list token) : result (long_form * list token) :=
  LET (var_name, ts) := parse_ident ts IN
  LET ts := parse_punct ":" ts IN
  LET (type_name, ts) := parse_ident ts IN
  LET ts := parse_punct "<" ts IN
  LET (key_type, ts) := parse_type ts IN
  LET ts := parse_punct "," ts IN
  LET (value_type, ts) := parse_type ts IN
  LET ts := parse_punct ">" ts IN
  LET ts := parse_punct "," ts IN
  LET (payload, ts) := parse_map_payload ts IN
  ROk ({| lf_var_name := var_name; lf_type_name := type_name; lf_key_type := key_type; lf_value_type := Some value_type;
          lf_payload := payload; lf_visibility := []; lf_is_static := false; lf_is_mutable := false |}, ts).
(** parsing/long_form_set.rs L17-42. *)
Definition parse_long_set (ts : list token) : result (long_form * list token) :=
  LET (var_name, ts) := parse_ident ts IN
  LET ts := parse_punct ":" ts IN
  LET (type_name, ts) := parse_ident ts IN
  LET ts := parse_punct "<" ts IN
  LET (value_type, ts) := parse_type ts IN
  LET ts := parse_punct ">" ts IN
  LET ts := parse_punct "," ts IN
  LET (payload, ts) := parse_set_payload ts IN
  ROk ({| lf_var_name := var_name; lf_type_name := type_name; lf_key_type := value_type; lf_value_type := None;
          lf_payload := payload; lf_visibility := []; lf_is_static := false; lf_is_mutable := false |}, ts).

(** parsing/map.rs L7-10, set.rs L7-10. *)
Inductive parsed := PShort (payload : list entry) | PLong (l : long_form).

(** parsing/map.rs L12-44 and set.rs L12-44, which differ in the two parsers they call only. *)
Definition parse_collection (long : list token -> result (long_form * list token)) (short : list token -> result (list entry * list token))
    (ts : list token) : result (parsed * list token) :=
  let (visibility, ts) := parse_visibility ts in
  if match visibility with [] => false | _ => true end && negb (peek_kw "static" ts) then RErr "expected `static`"
  else if peek_kw "static" ts then
    LET ts := parse_kw "static" ts IN
    LET (m, ts) := long ts IN
    ROk (PLong (lf_override m visibility true (lf_is_mutable m)), ts)
  else if peek_kw "let" ts then
    LET ts := parse_kw "let" ts IN
    LET (is_mutable, ts) := (if peek_kw "mut" ts then LET ts := parse_kw "mut" ts IN ROk (true, ts) else ROk (false, ts)) IN
    LET (m, ts) := long ts IN
    ROk (PLong (lf_override m visibility false is_mutable), ts)
  else LET (payload, ts) := short ts IN ROk (PShort payload, ts).
Definition parse_map : list token -> result (parsed * list token) := parse_collection parse_long_map parse_map_payload.
Definition parse_set : list token -> result (parsed * list token) := parse_collection parse_long_set parse_set_payload.

(** syn [parse2]: nothing may be left over. *)
Definition parse2 {A} (p : list token -> result (A * list token)) (ts : list token) : result A :=
  LET (v, ts) := p ts IN match ts with [] => ROk v | _ => RErr "unexpected token" end.

(** macro_api.rs L92-98, L114-119: what the emitter is told. It keeps the types for the code it prints ([ModelEmit] does not print
    types) and the visibility, here as text. *)
Definition to_input (show : list token -> string) (p : parsed) : macro_input (X := X) (W := expr X) :=
  match p with
  | PShort payload => ShortForm payload
  | PLong l => LongForm (lf_var_name l) (lf_type_name l) (lf_payload l) (show (lf_visibility l)) (lf_is_static l) (lf_is_mutable l)
  end.

(** macro_api.rs L83-103 ([fz_map_macro]) and L105-124 ([fz_set_macro]). *)
Definition fz_macro_tokens (usort : forall T, list (N * T) -> list (N * T)) (md : mode) (unit_expr : expr X) (seed : N)
    (fixed_state : N -> build_hasher) (hash_i32 : _) (show : list token -> string) (is_map : bool) (args : list token) (mk : macro_kind) :=
  match parse2 (if is_map then parse_map else parse_set) args with
  | RErr e => Ok (RErr e)
  | ROk input => fz_macro usort md unit_expr seed fixed_state hash_i32 is_map (to_input show input) mk
  end.
End Parsing.
Arguments PShort {X T}.
Arguments PLong {X T}.
Arguments lf_var_name {X T}.
Arguments lf_type_name {X T}.
Arguments lf_key_type {X T}.
Arguments lf_value_type {X T}.
Arguments lf_payload {X T}.
Arguments lf_visibility {X T}.
Arguments lf_is_static {X T}.
Arguments lf_is_mutable {X T}.
