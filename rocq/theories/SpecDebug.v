(** What [{:?}] should print: the items between brackets, separated by commas. Nothing here mentions the implementation. *)
From Coq Require Import String.
From Verif Require Import Prelude.

Definition listing (items : list string) : string := ("[" ++ String.concat ", " items ++ "]")%string.
Definition braces (items : list string) : string := ("{" ++ String.concat ", " items ++ "}")%string.
Definition binding {K V} (fK : K -> string) (fV : V -> string) (e : K * V) : string := (fK (fst e) ++ ": " ++ fV (snd e))%string.
Definition pair_text {K V} (fK : K -> string) (fV : V -> string) (e : K * V) : string := ("(" ++ fK (fst e) ++ ", " ++ fV (snd e) ++ ")")%string.
