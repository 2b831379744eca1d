(** What a data format is supposed to do, and what a round trip through one is. *)
From Coq Require Import String Permutation.
From Verif Require Import ModelMaps ModelTables ModelSerde Spec SpecMade.
From Verif Require Import Prelude.

(** The size hint of a format does not exceed the number of items. *)
Definition modest_hint {E} (a : access E) : Prop :=
  match ac_hint a with Some n => n <= N.of_nat (List.length (ac_items a)) | None => True end.

(** A format that reproduces the items that were written, provided their number was announced correctly; [view] is how the reader gets
    to see an item. *)
Definition faithful {E E' St Out} (ser : serializer E St Out) (de : Out -> access E') (view : E -> E') : Prop :=
  forall items out, serialize ser (Some (N.of_nat (List.length items))) items = ROk out ->
  ac_items (de out) = map (fun e => ROk (view e)) items /\ modest_hint (de out).

(** A serializer takes the items of a list one after the other, going from one state to another. *)
Inductive takes {E St Out} (ser : serializer E St Out) : St -> list E -> St -> Prop :=
| takes_none st : takes ser st [] st
| takes_one st x st1 l st2 : se_item ser st x = ROk st1 -> takes ser st1 l st2 -> takes ser st (x :: l) st2.
(** [run] is what comes of handing [items] to a serializer with [len] announced: what the serializer makes of them, or the first error it
    reports, after which it is not asked again. *)
Definition writes {E St Out} (ser : serializer E St Out) (len : N) (items : list E) (run : result Out) : Prop :=
  (forall msg, se_begin ser (Some len) = RErr msg -> run = RErr msg) /\
  (forall st pre x post st' msg, se_begin ser (Some len) = ROk st -> items = pre ++ x :: post -> takes ser st pre st' ->
   se_item ser st' x = RErr msg -> run = RErr msg) /\
  (forall st st', se_begin ser (Some len) = ROk st -> takes ser st items st' -> run = se_end ser st').

Definition whole {E} (e : E) : E := e.
Definition lent_key {V} (e : bytes * V) : str_datum * V := (Lent (fst e), snd e).
Definition transient_key {V} (e : bytes * V) : str_datum * V := (Transient (fst e), snd e).

(** [m'] cannot be told from [m] by any query, and has the same entries up to order. *)
Definition same_answers {M M' K V Q} (ops : map_ops M K V Q) (m : M) (ops' : map_ops M' K V Q) (m' : M') : Prop :=
  Permutation (mo_entries ops m) (mo_entries ops' m') /\ map_len ops' m' = map_len ops m /\ map_is_empty ops' m' = map_is_empty ops m /\
  forall q, mo_get ops' m' q = mo_get ops m q /\ mo_get_key_value ops' m' q = mo_get_key_value ops m q /\
    mo_contains_key ops' m' q = mo_contains_key ops m q.

(** The items of a stream up to the first error. *)
Definition first_error {E} (items : list (result E)) (msg : string) : Prop :=
  exists pre post, items = map (fun x => ROk x) pre ++ RErr msg :: post.

(** What a deserializing visitor [run] must do with the input [a], where items occupy [size] bytes and [good m l] says that [m] is the
    collection of the items [l]: panic if the hint asks for more than can be allocated, otherwise report the first error in the input, otherwise
    return the collection of all the items. *)
Definition visits {E M} (size : N) (a : access E) (run : res (result M)) (good : M -> list E -> Prop) : Prop :=
  (forall n, ac_hint a = Some n -> isize_max < size * n -> run = Panic) /\
  ((forall n, ac_hint a = Some n -> size * n <= isize_max) ->
   (forall msg, first_error (ac_items a) msg -> run = Ok (RErr msg)) /\
   (forall l, ac_items a = map (fun x => ROk x) l -> exists m, run = Ok (ROk m) /\ good m l)).

(** An entry a string map cannot read: an error of the input, or a key that cannot be borrowed from it. *)
Definition bad_str {V} (x : result (str_datum * V)) : Prop := match x with RErr _ | ROk (Transient _, _) => True | ROk (Lent _, _) => False end.
Definition bad_elem (x : result str_datum) : Prop := match x with RErr _ | ROk (Transient _) => True | ROk (Lent _) => False end.

(** ** A format: the announced length, checked, followed by the items *)
Definition list_ser (E : Type) : serializer E (N * list E) (N * list E) :=
  {| se_begin := fun len => match len with Some n => ROk (n, []) | None => RErr "length required" end;
     se_item := fun st e => ROk (fst st, snd st ++ [e]);
     se_end := fun st => if fst st =? N.of_nat (List.length (snd st)) then ROk st else RErr "wrong length" |}.
Definition list_de {E E'} (view : E -> E') (o : N * list E) : access E' :=
  {| ac_hint := Some (fst o); ac_items := map (fun e => ROk (view e)) (snd o) |}.
