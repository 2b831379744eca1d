(** The [Debug] implementations of maps, sets and their iterators, printing with [{:?}] or [{:#?}], where the [Debug] of a key or value may
    fail or panic, and so may the writer. [core::fmt]'s builders and the [Debug] of tuples, [slice::IterMut], [vec::IntoIter], [Option] and
    [Chain] belong to the standard library and are modelled here. A key or value is taken to write the same pieces whoever reads them
    and to pass errors of the writer on. *)
From Coq Require Import String.
From Verif Require Import ModelUtils ModelTables ModelMaps ModelIter.
From Verif Require Import Prelude.

(** ** core::fmt *)

(** How a [fmt] ends, and the pieces passed to [write_str] until then. *)
Inductive ending := Finished | Failed | Panicked.
Record output := { o_pieces : list string; o_ending : ending }.
Definition say (s : string) : output := {| o_pieces := [s]; o_ending := Finished |}.
(** [a?; b] *)
Definition then_ (a b : output) : output :=
  match o_ending a with
  | Finished => {| o_pieces := o_pieces a ++ o_pieces b; o_ending := o_ending b |}
  | _ => a
  end.

(** [f.write_str], called with the pieces until it fails. [w] gives the next state of the writer and tells whether it succeeded. *)
Fixpoint write_pieces {S} (w : S -> string -> S * bool) (st : S) (pieces : list string) : S * bool :=
  match pieces with
  | [] => (st, true)
  | s :: r => let (st, ok) := w st s in if ok then write_pieces w st r else (st, false)
  end.
Definition print_to {S} (w : S -> string -> S * bool) (st : S) (o : output) : S * ending :=
  let (st, ok) := write_pieces w st (o_pieces o) in (st, if ok then o_ending o else Failed).

Definition newline : Ascii.ascii := Ascii.ascii_of_nat 10.
Definition nl : string := String newline "".
(** [str::split_inclusive('\n')] *)
Fixpoint split_inclusive (s : string) : list string :=
  match s with
  | EmptyString => []
  | String c r =>
      if Ascii.eqb c newline then String c "" :: split_inclusive r
      else match split_inclusive r with [] => [String c ""] | l :: ls => String c l :: ls end
  end.
Fixpoint ends_with_newline (s : string) : bool :=
  match s with EmptyString => false | String c "" => Ascii.eqb c newline | String _ r => ends_with_newline r end.
(** [PadAdapter::write_str], [on_newline] being its state: what it writes. *)
Fixpoint pad_lines (on_newline : bool) (lines : list string) : list string * bool :=
  match lines with
  | [] => ([], on_newline)
  | l :: r =>
      let (out, b) := pad_lines (ends_with_newline l) r in
      ((if on_newline then ["    "%string] else []) ++ l :: out, b)
  end.
Definition pad_write (on_newline : bool) (s : string) : list string * bool := pad_lines on_newline (split_inclusive s).
Fixpoint pad_pieces (on_newline : bool) (pieces : list string) : list string :=
  match pieces with
  | [] => []
  | s :: r => let (out, b) := pad_write on_newline s in out ++ pad_pieces b r
  end.
(** Printing through a new [PadAdapter]. *)
Definition padded (o : output) : output := {| o_pieces := pad_pieces true (o_pieces o); o_ending := o_ending o |}.

Section Alternate.
(** [f.alternate()] *)
Variable alternate : bool.

(** [DebugList], [DebugSet], [DebugMap], [DebugTuple], [DebugStruct]: what was printed, and whether an entry was. *)
Record builder := { b_out : output; b_has_fields : bool }.
Definition b_new (open : string) : builder := {| b_out := say open; b_has_fields := false |}.
(** [DebugInner::entry] ([first] is empty and [first_alt] is a newline), [DebugTuple::field] and [DebugStruct::field]; a failed builder stays as it is. *)
Definition b_field (first first_alt : list string) (b : builder) (entry : output) : builder :=
  {| b_out := then_ (b_out b)
       (if alternate then
          then_ {| o_pieces := if b_has_fields b then [] else first_alt; o_ending := Finished |} (padded (then_ entry (say ("," ++ nl))))
        else then_ {| o_pieces := if b_has_fields b then [", "%string] else first; o_ending := Finished |} entry);
     b_has_fields := true |}.
Definition b_entry : builder -> output -> builder := b_field [] [nl].
(** [DebugMap::entry]: [key] and then [value], which share a [PadAdapter]. *)
Definition b_map_entry (b : builder) (k v : output) : builder := b_entry b (then_ k (then_ (say ": ") v)).
Definition b_finish (b : builder) (close : string) : output := then_ (b_out b) (say close).

Definition debug_list (items : list output) : output := b_finish (fold_left b_entry items (b_new "[")) "]".
Definition debug_set (items : list output) : output := b_finish (fold_left b_entry items (b_new "{")) "}".
Definition debug_map (items : list (output * output)) : output :=
  b_finish (fold_left (fun b e => b_map_entry b (fst e) (snd e)) items (b_new "{")) "}".
(** [DebugTuple] with fields; the name of a tuple is empty. *)
Definition debug_tuple (name : string) (fields : list output) : output :=
  b_finish (fold_left (b_field ["("%string] [("(" ++ nl)%string]) fields (b_new name)) ")".
(** [DebugStruct] with fields. *)
Definition debug_struct (name : string) (fields : list (string * output)) : output :=
  b_finish (fold_left (fun b e => b_field [" { "%string] [(" {" ++ nl)%string] b (then_ (say (fst e)) (then_ (say ": ") (snd e)))) fields (b_new name))
    (if alternate then "}" else " }").
Definition debug_option (o : option output) : output := match o with Some s => debug_tuple "Some" [s] | None => say "None" end.

(** [f.debug_list().entries(iter.clone()).finish()]. After a failure the iterator is still run to its end. *)
Definition debug_iter {St T} (next : St -> res (option T * St)) (fuel : nat) (f : T -> output) (st : St) : res output :=
  l <- drain next fuel st ;; Ok (debug_list (map f l)).

(** ** Maps and sets. The printers know whether [{:#?}] was asked for. *)
Section Collections.
Context {K V : Type} (fK : K -> output) (fV : V -> output).

(** maps/decl_macros.rs L90-97; all map types use it. *)
Definition map_debug {M Q} (ops : map_ops M K V Q) (m : M) : res output :=
  pairs <- drain (it_next map_iter) (S (List.length (mo_entries ops m))) (iter_new (mo_entries ops m)) ;;
  Ok (debug_map (map (fun x => (fK (fst x), fV (snd x))) pairs)).
Definition debug_pair (e : K * V) : output := debug_tuple "" [fK (fst e); fV (snd e)].

(** maps/iterators.rs L53-61, L164-171, L222-229: [Iter], [Keys], [Values]. *)
Definition iter_debug (st : list (K * V)) : res output := debug_iter (it_next map_iter) (S (List.length st)) debug_pair st.
Definition keys_debug (st : list (K * V)) : res output := debug_iter (it_next map_keys) (S (List.length st)) fK st.
Definition values_debug (st : list (K * V)) : res output := debug_iter (it_next map_values) (S (List.length st)) fV st.

(** The slice of entries that remains, as the [Debug] of slices prints it. *)
Definition slice_debug (st : list (K * V)) : output := debug_list (map debug_pair st).
(** maps/iterators.rs L105-113, L275-283: [IterMut], and [ValuesMut], which prints the [IterMut] inside. *)
Definition iter_mut_debug (st : list (K * V)) : output := debug_tuple "IterMut" [slice_debug st].
Definition values_mut_debug (st : list (K * V)) : output := iter_mut_debug st.
(** maps/iterators.rs L329-337: [IntoIter]; L340, L385: [IntoKeys] and [IntoValues] derive [Debug]. *)
Definition into_iter_debug (st : list (K * V)) : output := debug_tuple "IntoIter" [slice_debug st].
Definition into_keys_debug (st : list (K * V)) : output := debug_struct "IntoKeys" [("inner"%string, into_iter_debug st)].
Definition into_values_debug (st : list (K * V)) : output := debug_struct "IntoValues" [("inner"%string, into_iter_debug st)].
End Collections.

Section Sets.
Context {T : Type} (f : T -> output).

(** sets/decl_macros.rs L64-70; all set types use it. *)
Definition set_debug {M Q} (ops : map_ops M T unit Q) (m : M) : res output :=
  values <- drain (it_next set_iter) (S (List.length (mo_entries ops m))) (iter_new (mo_entries ops m)) ;; Ok (debug_set (map f values)).
(** sets/iterators.rs L54-61: [Iter]; L64: [IntoIter] derives [Debug]. *)
Definition set_iter_debug (st : list (T * unit)) : res output := debug_iter (it_next set_iter) (S (List.length st)) f st.
Definition set_into_iter_debug (st : list (T * unit)) : output :=
  debug_struct "IntoIter" [("inner"%string, into_iter_debug f (fun _ => say "()") st)].

(** sets/iterators.rs L209-220, L367-378, L463-474: [Union], [Difference], [Intersection]. *)
Definition union_debug (u : union_st T) : res output :=
  debug_iter union_next (S (List.length (un_rest1 u) + List.length (un_rest2 u))) f u.
Definition difference_debug (d : difference_st T) : res output := debug_iter difference_next (S (List.length (df_rest1 d))) f d.
Definition intersection_debug (i : intersection_st T) : res output :=
  debug_iter intersection_next (S (List.length (in_rest1 i) + List.length (in_rest2 i))) f i.
(** sets/iterators.rs L283-294: [SymmetricDifference] prints the [Chain] inside, which derives [Debug]. *)
Definition symmetric_difference_debug (c : symmetric_difference_st T) : res output :=
  a <- match sd_a c with Some d => fmap Some (difference_debug d) | None => Ok None end ;;
  b <- difference_debug (sd_b c) ;;
  Ok (debug_struct "Chain" [("a"%string, debug_option a); ("b"%string, debug_option (Some b))]).
End Sets.
End Alternate.
