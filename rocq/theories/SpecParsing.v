(** The grammar of the collection macros, as the documentation gives it, and what is asked of [syn]'s parsers for expressions and
    types. *)
From Coq Require Import String.
From Verif Require Import ModelTables ModelEmit ModelMacros ModelParsing SpecMacros.
From Verif Require Import Prelude.

Definition kw (s : string) : token := TIdent s.
(** The words that name nothing: Rust's strict keywords, its reserved ones, and the underscore. *)
Definition strict : list string :=
  ["as"; "async"; "await"; "break"; "const"; "continue"; "crate"; "dyn"; "else"; "enum"; "extern"; "false"; "fn"; "for"; "if"; "impl";
   "in"; "let"; "loop"; "match"; "mod"; "move"; "mut"; "pub"; "ref"; "return"; "self"; "Self"; "static"; "struct"; "super"; "trait";
   "true"; "type"; "unsafe"; "use"; "where"; "while"]%string.
Definition reserved : list string :=
  ["abstract"; "become"; "box"; "do"; "final"; "macro"; "override"; "priv"; "try"; "typeof"; "unsized"; "virtual"; "yield"]%string.
Definition names (s : string) : Prop := ~ In s ("_"%string :: strict ++ reserved).

Section Grammar.
Context {X T : Type}.
(** The token sequences that are an expression (a type), and which. *)
Variable is_expr : list token -> expr X -> Prop.
Variable is_type : list token -> T -> Prop.

(** [rest] begins with [::]. *)
Definition path_sep (rest : list token) : Prop := exists r joint, rest = TPunct ":" true :: TPunct ":" joint :: r.
(** What comes after an expression in a macro call: nothing, a comma or a colon; after a type: a comma or an angle. *)
Definition after_expr (rest : list token) : Prop :=
  rest = [] \/ (exists r joint, rest = TPunct "," joint :: r \/ rest = TPunct ":" joint :: r) /\ ~ path_sep rest.
Definition after_type (rest : list token) : Prop :=
  exists r joint, rest = TPunct "," joint :: r \/ rest = TPunct ">" joint :: r.
(** A parser takes an expression off the front of the stream, and takes nothing else. *)
Record expr_parser (parse : list token -> result (expr X * list token)) : Prop := {
  ep_nonempty : forall e, ~ is_expr [] e;
  ep_complete : forall ts e rest, is_expr ts e -> after_expr rest -> parse (ts ++ rest) = ROk (e, rest);
  ep_sound : forall ts e rest, parse ts = ROk (e, rest) -> exists front, ts = front ++ rest /\ is_expr front e }.
Record type_parser (parse : list token -> result (T * list token)) : Prop := {
  tp_complete : forall ts t rest, is_type ts t -> after_type rest -> parse (ts ++ rest) = ROk (t, rest);
  tp_sound : forall ts t rest, parse ts = ROk (t, rest) -> exists front, ts = front ++ rest /\ is_type front t }.

(** Punctuation, however it is spaced. *)
Definition sep (c : string) (t : token) : Prop := exists joint, t = TPunct c joint.

(** [key : value] in a map, [value] in a set. [strict]: the colon is not stuck to a value that begins with [::]. *)
Inductive is_entry (strict : bool) : bool -> list token -> m_entry X (expr X) -> Prop :=
| ie_map : forall ks k colon vs v, is_expr ks k -> is_expr vs v -> sep ":" colon -> (strict = true -> ~ path_sep (colon :: vs)) ->
    is_entry strict true (ks ++ colon :: vs) {| me_key := k; me_value := Some v |}
| ie_set : forall ks k, is_expr ks k -> is_entry strict false ks {| me_key := k; me_value := None |}.

(** [entry, entry, ...], the last comma being optional. *)
Inductive is_payload (strict is_map : bool) : list token -> list (m_entry X (expr X)) -> Prop :=
| ip_nil : is_payload strict is_map [] []
| ip_last : forall ts e, is_entry strict is_map ts e -> is_payload strict is_map ts [e]
| ip_more : forall ts e comma rest es, is_entry strict is_map ts e -> sep "," comma -> is_payload strict is_map rest es ->
    is_payload strict is_map (ts ++ comma :: rest) (e :: es).

(** [<K, V>] in a map, [<T>] in a set. *)
Inductive is_types : bool -> list token -> T -> option T -> Prop :=
| it_map : forall ks k comma vs v, is_type ks k -> is_type vs v -> sep "," comma -> is_types true (ks ++ comma :: vs) k (Some v)
| it_set : forall ks k, is_type ks k -> is_types false ks k None.

(** [pub], [pub(crate)] and the like, or nothing. *)
Definition is_visibility (ts : list token) : Prop :=
  ts = [] \/ ts = [kw "pub"] \/ (exists s, In s ["crate"; "self"; "super"]%string /\ ts = [kw "pub"; TGroup Paren [kw s]]) \/
  exists first path, ts = [kw "pub"; TGroup Paren (kw "in" :: first :: path)].

(** [static NAME: Type<..>, { .. }] with a visibility, or [let NAME: Type<..>, { .. }] with or without [mut]. *)
Definition opening (l : long_form (X := X) (T := T)) : list token :=
  if lf_is_static l then lf_visibility l ++ [kw "static"] else if lf_is_mutable l then [kw "let"; kw "mut"] else [kw "let"].
Definition consistent (l : long_form (X := X) (T := T)) : Prop :=
  if lf_is_static l then is_visibility (lf_visibility l) /\ lf_is_mutable l = false else lf_visibility l = [].

Inductive is_call (strict is_map : bool) : list token -> parsed (X := X) (T := T) -> Prop :=
| ic_short : forall content es, is_payload strict is_map content es -> is_call strict is_map [TGroup Brace content] (PShort es)
| ic_long : forall l types content colon lt gt comma,
    consistent l -> names (lf_var_name l) -> names (lf_type_name l) -> is_types is_map types (lf_key_type l) (lf_value_type l) ->
    sep ":" colon -> sep "<" lt -> sep ">" gt -> sep "," comma ->
    is_payload strict is_map content (lf_payload l) ->
    is_call strict is_map
      (opening l ++ kw (lf_var_name l) :: colon :: kw (lf_type_name l) :: lt :: types ++ [gt; comma; TGroup Brace content]) (PLong l).
End Grammar.

(** The sizes a 64-bit machine can deal with: not too many entries, no string longer than the address space, and no two integer
    literals [2^64 - 1] apart. *)
Record moderate {X W} (entries : list (m_entry X W)) : Prop := {
  mod_count : N.of_nat (List.length entries) <= 2 ^ 64 - 1;
  mod_strings : forall e s, In e entries -> literal_of (me_key e) = Some (LitStr s) -> N.of_nat (List.length s) <= 2 ^ 64 - 1;
  mod_spread : forall e1 e2 v1 v2 s1 s2, In e1 entries -> In e2 entries ->
    literal_of (me_key e1) = Some (LitInt v1 s1) -> literal_of (me_key e2) = Some (LitInt v2 s2) -> v1 < v2 + (2 ^ 64 - 1) }.
