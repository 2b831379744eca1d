(** What a map with a misbehaving hasher may do: like an association list with distinct keys, except that it may not find a key, and that the
    hasher's panics come through. *)
From Verif Require Import ModelHasher Spec.
From Verif Require Import Prelude.

Section Spec.
Context {K V Q : Type}.
Variable eqv : Q -> K -> bool.
Variable eqQ : Q -> Q -> bool.

Definition entry_of (es : list (K * V)) (q : Q) : option (K * V) := find (fun e => eqv q (fst e)) es.
Definition updated (es : list (K * V)) (q : Q) (v : V) : list (K * V) := map (fun e => if eqv q (fst e) then (fst e, v) else e) es.

(** The keys written one after the other; the old values are those before all of it. *)
Inductive all_put (es0 : list (K * V)) : list (K * V) -> list (Q * V) -> list (option V) -> list (K * V) -> Prop :=
| all_put_nil es : all_put es0 es [] [] es
| all_put_miss es q v kvs os es' : all_put es0 es kvs os es' -> all_put es0 es ((q, v) :: kvs) (None :: os) es'
| all_put_hit es q v k old kvs os es' : entry_of es0 q = Some (k, old) -> all_put es0 (updated es q v) kvs os es' ->
    all_put es0 es ((q, v) :: kvs) (Some old :: os) es'.

Definition no_two_equal (qs : list Q) : Prop :=
  forall i j x y, (i < j)%nat -> nth_error qs i = Some x -> nth_error qs j = Some y -> eqQ x y = false.

(** [may es c b es']: on the entries [es] the call [c] may come back with [b] and leave [es']. [None] is a panic. *)
Inductive may (es : list (K * V)) : call V Q -> option (back K V) -> list (K * V) -> Prop :=
| may_panic c : may es c None es
| may_miss q : may es (CGet q) (Some (BValue None)) es
| may_get q k v : entry_of es q = Some (k, v) -> may es (CGet q) (Some (BValue (Some v))) es
| may_miss_entry q : may es (CEntry q) (Some (BEntry None)) es
| may_entry q k v : entry_of es q = Some (k, v) -> may es (CEntry q) (Some (BEntry (Some (k, v)))) es
| may_miss_put q v : may es (CPut q v) (Some (BOld None)) es
| may_put q v k old : entry_of es q = Some (k, old) -> may es (CPut q v) (Some (BOld (Some old))) (updated es q v)
| may_put_all kvs os es' : no_two_equal (map fst kvs) -> all_put es es kvs os es' -> may es (CPutAll kvs) (Some (BOlds os)) es'.

Inductive may_all : list (K * V) -> list (call V Q) -> list (option (back K V)) -> list (K * V) -> Prop :=
| may_all_nil es : may_all es [] [] es
| may_all_cons es c cs b bs es' es'' : may es c b es' -> may_all es' cs bs es'' -> may_all es (c :: cs) (b :: bs) es''.

(** With equal keys among the entries: what comes back belongs to one of the entries with the key asked for. *)
Definition stored (es : list (K * V)) (q : Q) (o : option V) : Prop :=
  forall v, o = Some v -> exists k, In (k, v) es /\ eqv q k = true.
Definition reply_stored (es : list (K * V)) (c : call V Q) (b : back K V) : Prop :=
  match c, b with
  | CGet q, BValue o => stored es q o
  | CEntry q, BEntry o => forall k v, o = Some (k, v) -> In (k, v) es /\ eqv q k = true
  | CPut q _, BOld o => stored es q o
  | CPutAll kvs, BOlds os => no_two_equal (map fst kvs) /\ Forall2 (stored es) (map fst kvs) os
  | _, _ => False
  end.
End Spec.
