(** What [{:?}] and [{:#?}] print when parts of it may break off. A piece is the text a printer writes and how it ends. *)
From Coq Require Import String Ascii.
From Verif Require Import ModelPretty.
From Verif Require Import Prelude.

Definition piece : Type := string * ending.
Definition shown (o : output) : piece := (String.concat "" (o_pieces o), o_ending o).
Definition complete (p : piece) : Prop := snd p = Finished.

Definition line_feed : Ascii.ascii := "010"%char.
Definition lf : string := String line_feed "".
(** [s] with four blanks at the beginning of every line that has a character, be it the one that ends it. *)
Fixpoint indent (line_start : bool) (s : string) : string :=
  match s with
  | EmptyString => ""
  | String c r => (if line_start then "    " else "") ++ String c (indent (Ascii.eqb c line_feed) r)
  end%string.

(** What an item of a list takes, when it is complete and when it breaks off; what comes before the first and before others. *)
Definition row (alternate : bool) (t : string) : string := if alternate then indent true (t ++ "," ++ lf) else t.
Definition cut_row (alternate : bool) (t : string) : string := if alternate then indent true t else t.
Definition separator (alternate first : bool) : string :=
  if alternate then (if first then lf else "") else (if first then "" else ", ").
Fixpoint rows (alternate first : bool) (items : list piece) : piece :=
  match items with
  | [] => (""%string, Finished)
  | (t, Finished) :: r => let (s, e) := rows alternate false r in ((separator alternate first ++ row alternate t ++ s)%string, e)
  | (t, e) :: _ => ((separator alternate first ++ cut_row alternate t)%string, e)
  end.
Definition enclosed (alternate : bool) (open close : string) (items : list piece) : piece :=
  match rows alternate true items with
  | (s, Finished) => ((open ++ s ++ close)%string, Finished)
  | (s, e) => ((open ++ s)%string, e)
  end.

(** A piece after a complete text, and two pieces with a text in between. *)
Definition after (t : string) (p : piece) : piece := ((t ++ fst p)%string, snd p).
Definition joined (p : piece) (t : string) (q : piece) : piece :=
  match p with (s, Finished) => after (s ++ t) q | _ => p end.

(** Tuples, tuple structs and structs with fields. *)
Definition tuple_text (alternate : bool) (name : string) (fields : list piece) : piece := enclosed alternate (name ++ "(") ")" fields.
Definition struct_text (alternate : bool) (name : string) (fields : list (string * piece)) : piece :=
  enclosed alternate (name ++ (if alternate then " {" else " { ")) (if alternate then "}" else " }")
    (map (fun f => after (fst f ++ ": ") (snd f)) fields).
Definition pair_piece {K V} (alternate : bool) (fK : K -> output) (fV : V -> output) (e : K * V) : piece :=
  tuple_text alternate "" [shown (fK (fst e)); shown (fV (snd e))].
Definition binding_piece {K V} (fK : K -> output) (fV : V -> output) (e : K * V) : piece := joined (shown (fK (fst e))) ": " (shown (fV (snd e))).
Definition list_text (alternate : bool) (items : list piece) : piece := enclosed alternate "[" "]" items.
Definition braces_text (alternate : bool) (items : list piece) : piece := enclosed alternate "{" "}" items.

(** A complete piece; printing an output as a text that [ModelDebug] would give. *)
Definition whole (s : string) : piece := (s, Finished).
Definition agrees (r : res output) (r' : res string) : Prop := fmap shown r = fmap whole r'.

(** The writer accepts these pieces one after the other. *)
Inductive accepts {S : Type} (w : S -> string -> S * bool) : S -> list string -> S -> Prop :=
| accepts_nil st : accepts w st [] st
| accepts_cons st s st' r st'' : w st s = (st', true) -> accepts w st' r st'' -> accepts w st (s :: r) st''.
Fixpoint one_line (s : string) : bool := match s with EmptyString => true | String c r => negb (Ascii.eqb c line_feed) && one_line r end.
