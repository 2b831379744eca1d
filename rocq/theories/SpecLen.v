(** What a string, a collection or a pointer to one contains. *)
From Coq Require Import NArith List.
From Verif Require Import Prelude ModelTables ModelLen.

(** The text held, whoever owns it. A C string ends at its only NUL, which is not part of the text. *)
Inductive text {A} : held A -> bytes -> Prop :=
| text_string s : text (InString s) s
| text_str s : text (InStr s) s
| text_ref s : text (InRefStr s) s
| text_os_str s : text (InOsStr s) s
| text_os_string s : text (InOsString s) s
| text_c_str s : ~ In 0 s -> text (InCStr (s ++ [0])) s
| text_c_string s : ~ In 0 s -> text (InCString (s ++ [0])) s
| text_behind p v s : text v s -> text (Behind p v) s.

(** The items held. *)
Inductive items {A} : held A -> list A -> Prop :=
| items_container c l : items (InContainer c l) l
| items_behind p v l : items v l -> items (Behind p v) l.

(** From some number of nested calls on, the call has returned this. *)
Definition returns {R} (call : nat -> option R) (r : R) : Prop := exists enough, forall fuel, (enough <= fuel)%nat -> call fuel = Some r.
