(** Property theorems about [Debug] output with [{:?}] and [{:#?}] when keys, values or writers fail (C83). Statements only; proofs are in
    [ProofsPretty.v]. Each theorem is followed by the axioms it depends on and by a concrete case. *)
From Coq Require Import String.
From Verif Require ModelDebug.
From Verif Require Import Prelude Spec SpecMade ModelUtils ModelTables ModelMaps ModelIter SpecSets ModelPretty SpecPretty ProofsMade ProofsProps ProofsPretty
  Instances PropertiesMaps PropertiesSets.

(** ** C83 *)

(** Whatever the printers of keys and values do, a map prints its entries in iteration order up to the first that breaks off, and ends as that
    one did; only a map with complete entries gets its closing brace. *)
Theorem C83_maps : forall M K V Q (ops : map_ops M K V Q) eqK eqv m input alternate fK fV, made ops eqK eqv m input ->
  exists es o, yields (it_next map_iter) (iter_new (mo_entries ops m)) es /\ map_debug alternate fK fV ops m = Ok o /\
    shown o = braces_text alternate (map (binding_piece fK fV) es) /\ distinct eqK (map fst es) /\
    (forall e, In e es <-> exists pre post, input = pre ++ e :: post /\ forall e', In e' post -> eqK (fst e) (fst e') = false).
Proof.
  intros M K V Q ops eqK eqv m input alternate fK fV H. destruct (made_iteration _ _ _ _ _ H) as [A [B [C _]]].
  destruct (map_debug_shown alternate fK fV ops m) as [o [E S]]. exists (mo_entries ops m), o.
  split; [exact C|]. split; [exact E|]. split; [exact S|]. split; assumption.
Qed.
Print Assumptions C83_maps.
Theorem C83_sets : forall M T Q (ops : map_ops M T unit Q) eqT eqv m values alternate f, made ops eqT eqv m (unit_entries values) ->
  exists l o, yields (it_next set_iter) (iter_new (mo_entries ops m)) l /\ set_debug alternate f ops m = Ok o /\
    shown o = braces_text alternate (map (fun x => shown (f x)) l) /\ distinct eqT l /\
    (forall x, In x l <-> exists pre post, values = pre ++ x :: post /\ forall y, In y post -> eqT x y = false).
Proof. exact @sets_shown. Qed.
Print Assumptions C83_sets.

(** What the texts above look like: items that are complete, and an item that is not after some that are. *)
Theorem C83_complete : forall open close items, (forall p, In p items -> complete p) ->
  enclosed false open close items = whole (open ++ String.concat ", " (map fst items) ++ close) /\
  enclosed true open close items =
    whole (open ++ (match items with [] => "" | _ => lf end) ++ String.concat "" (map (fun p => indent true (fst p ++ "," ++ lf)) items) ++ close).
Proof. exact enclosed_layout. Qed.
Print Assumptions C83_complete.
Theorem C83_cut : forall open close pre t e post, (forall p, In p pre -> complete p) -> e <> Finished ->
  enclosed false open close (pre ++ (t, e) :: post) = ((open ++ String.concat ", " (map fst pre ++ [t]))%string, e) /\
  enclosed true open close (pre ++ (t, e) :: post) =
    ((open ++ lf ++ String.concat "" (map (fun p => indent true (fst p ++ "," ++ lf)) pre) ++ indent true t)%string, e).
Proof. exact enclosed_layout_cut. Qed.
Print Assumptions C83_cut.
Theorem C83_indentation : forall l r, one_line l = true ->
  indent true (l ++ lf ++ r) = ("    " ++ l ++ lf ++ indent true r)%string /\ indent true l = (if String.eqb l "" then "" else "    " ++ l)%string.
Proof. exact indent_lines. Qed.
Print Assumptions C83_indentation.

(** In any state, iterators print what they have yet to yield. *)
Theorem C83_iterators : forall K V alternate (fK : K -> output) (fV : V -> output),
  (forall st l, yields (it_next map_iter) st l ->
     exists o, iter_debug alternate fK fV st = Ok o /\ shown o = list_text alternate (map (pair_piece alternate fK fV) l)) /\
  (forall (st : list (K * V)) l, yields (it_next map_keys) st l ->
     exists o, keys_debug alternate fK st = Ok o /\ shown o = list_text alternate (map (fun k => shown (fK k)) l)) /\
  (forall (st : list (K * V)) l, yields (it_next map_values) st l ->
     exists o, values_debug alternate fV st = Ok o /\ shown o = list_text alternate (map (fun v => shown (fV v)) l)) /\
  (forall st l, yields (it_next set_iter) st l ->
     exists o, set_iter_debug alternate fK st = Ok o /\ shown o = list_text alternate (map (fun k => shown (fK k)) l)).
Proof. exact @iterators_shown. Qed.
Print Assumptions C83_iterators.
Theorem C83_set_operations : forall T alternate (f : T -> output),
  (forall st l, yields union_next st l ->
     exists o, union_debug alternate f st = Ok o /\ shown o = list_text alternate (map (fun x => shown (f x)) l)) /\
  (forall st l, yields difference_next st l ->
     exists o, difference_debug alternate f st = Ok o /\ shown o = list_text alternate (map (fun x => shown (f x)) l)) /\
  (forall st l, yields intersection_next st l ->
     exists o, intersection_debug alternate f st = Ok o /\ shown o = list_text alternate (map (fun x => shown (f x)) l)).
Proof. exact (fun T a f => conj (union_shown a f) (conj (difference_shown a f) (intersection_shown a f))). Qed.
Print Assumptions C83_set_operations.
Theorem C83_symmetric_difference : forall T alternate (f : T -> output) s1 s2 a b,
  yields difference_next (difference_new s1 s2) a -> yields difference_next (difference_new s2 s1) b ->
  let some l := tuple_text alternate "Some" [list_text alternate (map (fun x => shown (f x)) l)] in
  exists o, symmetric_difference_debug alternate f (symmetric_difference_new s1 s2) = Ok o /\
    shown o = struct_text alternate "Chain" [("a"%string, some a); ("b"%string, some b)].
Proof. exact @symmetric_difference_shown. Qed.
Print Assumptions C83_symmetric_difference.
Theorem C83_owned_iterators : forall K V alternate (fK : K -> output) (fV : V -> output) (st : list (K * V)),
  let entries := list_text alternate (map (pair_piece alternate fK fV) st) in
  shown (iter_mut_debug alternate fK fV st) = tuple_text alternate "IterMut" [entries] /\
  shown (values_mut_debug alternate fK fV st) = tuple_text alternate "IterMut" [entries] /\
  shown (into_iter_debug alternate fK fV st) = tuple_text alternate "IntoIter" [entries] /\
  shown (into_keys_debug alternate fK fV st) = struct_text alternate "IntoKeys" [("inner"%string, tuple_text alternate "IntoIter" [entries])] /\
  shown (into_values_debug alternate fK fV st) = struct_text alternate "IntoValues" [("inner"%string, tuple_text alternate "IntoIter" [entries])].
Proof. exact @owned_shown. Qed.
Print Assumptions C83_owned_iterators.
Theorem C83_owned_set_iterator : forall T alternate (f : T -> output) (st : list (T * unit)),
  let entries := list_text alternate (map (fun e => tuple_text alternate "" [shown (f (fst e)); whole "()"]) st) in
  shown (set_into_iter_debug alternate f st) = struct_text alternate "IntoIter" [("inner"%string, tuple_text alternate "IntoIter" [entries])].
Proof. exact (fun T a f st => inner_shown a f (fun _ => say "()") "IntoIter" st). Qed.
Print Assumptions C83_owned_set_iterator.

(** With printers that write one text and [{:?}], all of this is the text of C69. *)
Theorem C83_plain : forall K V (fK : K -> string) (fV : V -> string),
  let sK k := say (fK k) in let sV v := say (fV v) in
  (forall M Q (ops : map_ops M K V Q) m, agrees (map_debug false sK sV ops m) (ModelDebug.map_debug fK fV ops m)) /\
  (forall M Q (ops : map_ops M K unit Q) m, agrees (set_debug false sK ops m) (ModelDebug.set_debug fK ops m)) /\
  (forall st, agrees (iter_debug false sK sV st) (ModelDebug.iter_debug fK fV st)) /\
  (forall st : list (K * V), agrees (keys_debug false sK st) (ModelDebug.keys_debug fK st)) /\
  (forall st : list (K * V), agrees (values_debug false sV st) (ModelDebug.values_debug fV st)) /\
  (forall st, agrees (set_iter_debug false sK st) (ModelDebug.set_iter_debug fK st)) /\
  (forall st, shown (iter_mut_debug false sK sV st) = whole (ModelDebug.iter_mut_debug fK fV st)) /\
  (forall st, shown (values_mut_debug false sK sV st) = whole (ModelDebug.values_mut_debug fK fV st)) /\
  (forall st, shown (into_iter_debug false sK sV st) = whole (ModelDebug.into_iter_debug fK fV st)) /\
  (forall st, shown (into_keys_debug false sK sV st) = whole (ModelDebug.into_keys_debug fK fV st)) /\
  (forall st, shown (into_values_debug false sK sV st) = whole (ModelDebug.into_values_debug fK fV st)) /\
  (forall st, shown (set_into_iter_debug false sK st) = whole (ModelDebug.set_into_iter_debug fK st)) /\
  (forall st, agrees (union_debug false sK st) (ModelDebug.union_debug fK st)) /\
  (forall st, agrees (difference_debug false sK st) (ModelDebug.difference_debug fK st)) /\
  (forall st, agrees (intersection_debug false sK st) (ModelDebug.intersection_debug fK st)) /\
  (forall st, agrees (symmetric_difference_debug false sK st) (ModelDebug.symmetric_difference_debug fK st)).
Proof. exact @all_agree. Qed.
Print Assumptions C83_plain.

(** A writer is given the pieces in order. The first that it refuses is the last that it is given, and printing fails. *)
Theorem C83_writers : forall S (w : S -> string -> S * bool) o st,
  (exists st', accepts w st (o_pieces o) st' /\ print_to w st o = (st', o_ending o)) \/
  (exists pre s post st1 st2, o_pieces o = pre ++ s :: post /\ accepts w st pre st1 /\ w st1 s = (st2, false) /\ print_to w st o = (st2, Failed)).
Proof. exact @print_to_spec. Qed.
Print Assumptions C83_writers.

(** 7 fails after a part of its text, 8 panics; 9 takes two lines. *)
Definition digit (n : N) : output :=
  match n with
  | 1 => say "1" | 2 => say "2"
  | 7 => {| o_pieces := ["se"%string; "ve"%string]; o_ending := Failed |}
  | 8 => {| o_pieces := []; o_ending := Panicked |}
  | 9 => {| o_pieces := ["ni"%string; lf; "ne"%string]; o_ending := Finished |}
  | _ => say "?"
  end%string.
Definition lines (l : list string) : string := String.concat lf l.
Example C83_example :
  let ops := scan_ops N.eqb (V := N) in
  let print a l := fmap shown (map_debug a digit digit ops (scan_map_new N.eqb l)) in
  made ops N.eqb N.eqb (scan_map_new N.eqb [(1, 2); (2, 9); (1, 1)]) [(1, 2); (2, 9); (1, 1)] /\
  print true [(1, 2); (2, 9); (1, 1)] = Ok (lines ["{"; "    2: ni"; "    ne,"; "    1: 1,"; "}"], Finished)%string /\
  print true [] = Ok ("{}"%string, Finished) /\
  print false [(1, 2); (2, 7); (9, 1)] = Ok ("{1: 2, 2: seve"%string, Failed) /\
  print true [(1, 2); (2, 7); (9, 1)] = Ok (lines ["{"; "    1: 2,"; "    2: seve"], Failed)%string /\
  print false [(1, 2); (8, 7); (9, 1)] = Ok ("{1: 2, "%string, Panicked).
Proof.
  cbv zeta. split; [apply made_scan; [exact N_eqb_lawful|exact N_eqb_equivalent]|].
  repeat (split; [vm_compute; reflexivity|]). vm_compute. reflexivity.
Qed.
Example C83_example_iterators :
  fmap shown (iter_debug true digit digit [(1, 2)]) = Ok (lines ["["; "    ("; "        1,"; "        2,"; "    ),"; "]"], Finished)%string /\
  shown (into_values_debug true digit digit [(1, 7)]) =
    (lines ["IntoValues {"; "    inner: IntoIter("; "        ["; "            ("; "                1,"; "                seve"], Failed)%string /\
  fmap shown (symmetric_difference_debug true digit (symmetric_difference_new ex1 ex2)) =
    Ok (lines ["Chain {"; "    a: Some("; "        ["; "            ?,"; ""], Panicked)%string /\
  (* a buffer of five bytes that refuses what does not fit *)
  let w st s := if Nat.leb (String.length st + String.length s) 5 then ((st ++ s)%string, true) else (st, false) in
  fmap (print_to w ""%string) (keys_debug false digit [(1, 1); (2, 2); (1, 1)]) = Ok ("[1, 2"%string, Failed) /\
  fmap (print_to w ""%string) (keys_debug false digit [(1, 1)]) = Ok ("[1]"%string, Finished).
Proof. cbv zeta. repeat (split; [vm_compute; reflexivity|]). vm_compute. reflexivity. Qed.
