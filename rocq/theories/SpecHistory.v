(** Histories: what a reference map answers to a client. Nothing here mentions the implementation. *)
From Verif Require Import Prelude.

(** The calls a client can make on a map it holds. *)
Inductive call (K V Q : Type) : Type :=
| CallGet (q : Q)
| CallGetKeyValue (q : Q)
| CallContainsKey (q : Q)
| CallIndex (q : Q)
| CallLen
| CallIsEmpty
| CallIter
| CallKeys
| CallValues
(** Replace the value of [q] if it has one, answering the old value. *)
| CallReplace (q : Q) (v : V)
(** Borrow the values of several queries at once and replace each, answering the old values. *)
| CallReplaceMany (ws : list (Q * V))
(** Replace every value by a function of its key and itself. *)
| CallUpdateAll (f : K -> V -> V)
(** Replace every value by a function of itself. *)
| CallUpdateValues (f : V -> V).
Arguments CallGet {K V Q}.
Arguments CallGetKeyValue {K V Q}.
Arguments CallContainsKey {K V Q}.
Arguments CallIndex {K V Q}.
Arguments CallLen {K V Q}.
Arguments CallIsEmpty {K V Q}.
Arguments CallIter {K V Q}.
Arguments CallKeys {K V Q}.
Arguments CallValues {K V Q}.
Arguments CallReplace {K V Q}.
Arguments CallReplaceMany {K V Q}.
Arguments CallUpdateAll {K V Q}.
Arguments CallUpdateValues {K V Q}.

Inductive answer (K V : Type) : Type :=
| AnsValue (v : V)
| AnsMaybe (o : option V)
| AnsEntry (o : option (K * V))
| AnsBool (b : bool)
| AnsCount (n : nat)
| AnsEntries (l : list (K * V))
| AnsKeys (l : list K)
| AnsValues (l : list V)
| AnsMany (l : list (option V))
| AnsDone
| AnsPanic.
Arguments AnsValue {K V}.
Arguments AnsMaybe {K V}.
Arguments AnsEntry {K V}.
Arguments AnsBool {K V}.
Arguments AnsCount {K V}.
Arguments AnsEntries {K V}.
Arguments AnsKeys {K V}.
Arguments AnsValues {K V}.
Arguments AnsMany {K V}.
Arguments AnsDone {K V}.
Arguments AnsPanic {K V}.

Section Reference.
Context {K V Q : Type} (eqv : Q -> K -> bool) (eqQ : Q -> Q -> bool).

(** The reference map is a list of entries. *)
Definition ref_find (l : list (K * V)) (q : Q) : option (K * V) := find (fun e => eqv q (fst e)) l.
Definition ref_replace (l : list (K * V)) (q : Q) (v : V) : list (K * V) :=
  map (fun e => (fst e, if eqv q (fst e) then v else snd e)) l.

(** Some query occurs twice. *)
Fixpoint repeated (qs : list Q) : bool :=
  match qs with [] => false | q :: r => existsb (eqQ q) r || repeated r end.

Definition ref_call (l : list (K * V)) (c : call K V Q) : answer K V * list (K * V) :=
  match c with
  | CallGet q => (AnsMaybe (option_map snd (ref_find l q)), l)
  | CallGetKeyValue q => (AnsEntry (ref_find l q), l)
  | CallContainsKey q => (AnsBool (match ref_find l q with Some _ => true | None => false end), l)
  | CallIndex q => (match ref_find l q with Some e => AnsValue (snd e) | None => AnsPanic end, l)
  | CallLen => (AnsCount (length l), l)
  | CallIsEmpty => (AnsBool (match l with [] => true | _ => false end), l)
  | CallIter => (AnsEntries l, l)
  | CallKeys => (AnsKeys (map fst l), l)
  | CallValues => (AnsValues (map snd l), l)
  | CallReplace q v => (AnsMaybe (option_map snd (ref_find l q)), ref_replace l q v)
  | CallReplaceMany ws =>
      if repeated (map fst ws) then (AnsPanic, l)
      else (AnsMany (map (fun w => option_map snd (ref_find l (fst w))) ws),
            fold_left (fun l w => ref_replace l (fst w) (snd w)) ws l)
  | CallUpdateAll f => (AnsDone, map (fun e => (fst e, f (fst e) (snd e))) l)
  | CallUpdateValues f => (AnsDone, map (fun e => (fst e, f (snd e))) l)
  end.
End Reference.

(** A client decides on its next call, or to stop, from the answers it has seen, most recent first. [play] lets it make at most [n]
    calls; the results are the answers seen and the final state. *)
Fixpoint play {K V Q S} (step : S -> call K V Q -> res (answer K V * S)) (client : list (answer K V) -> option (call K V Q))
    (n : nat) (seen : list (answer K V)) (s : S) : res (list (answer K V) * S) :=
  match n with
  | O => Ok (seen, s)
  | Datatypes.S n' =>
      match client seen with
      | None => Ok (seen, s)
      | Some c => r <- step s c ;; play step client n' (fst r :: seen) (snd r)
      end
  end.

(** The call does not reveal the order of the entries. *)
Definition order_free {K V Q} (c : call K V Q) : Prop :=
  match c with CallIter | CallKeys | CallValues => False | _ => True end.
