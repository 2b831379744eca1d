(** The [Debug] implementations of maps, sets and their iterators, printing with [{:?}]. [{:#?}] and what fails are in
    [ModelPretty.v]. How a key or value prints is a parameter. [core::fmt]'s builders and the [Debug] of [slice::IterMut], [vec::IntoIter], [Option]
    and [Chain] belong to the standard library and are modelled here. *)
From Coq Require Import String.
From Verif Require Import ModelUtils ModelTables ModelMaps ModelIter.
From Verif Require Import Prelude.

(** ** core::fmt *)

(** [DebugList], [DebugSet], [DebugMap]: what was written, and whether an entry was. *)
Record builder := { b_text : string; b_has_fields : bool }.
Definition b_new (open : string) : builder := {| b_text := open; b_has_fields := false |}.
Definition b_write (b : builder) (s : string) : builder := {| b_text := (b_text b ++ s)%string; b_has_fields := b_has_fields b |}.
(** [DebugInner::entry]. *)
Definition b_entry (b : builder) (s : string) : builder :=
  let b := if b_has_fields b then b_write b ", " else b in
  {| b_text := (b_text b ++ s)%string; b_has_fields := true |}.
(** [DebugMap::entry], which is [key] and then [value]. *)
Definition b_map_entry (b : builder) (k v : string) : builder := b_write (b_write (b_entry b k) ": ") v.
Definition b_finish (b : builder) (close : string) : string := b_text (b_write b close).

Definition debug_list (items : list string) : string := b_finish (fold_left b_entry items (b_new "[")) "]".
Definition debug_set (items : list string) : string := b_finish (fold_left b_entry items (b_new "{")) "}".
Definition debug_map (items : list (string * string)) : string :=
  b_finish (fold_left (fun b e => b_map_entry b (fst e) (snd e)) items (b_new "{")) "}".
(** A tuple of two, and a tuple struct or struct with one field. *)
Definition debug_pair (a b : string) : string := ("(" ++ a ++ ", " ++ b ++ ")")%string.
Definition debug_tuple1 (name a : string) : string := (name ++ "(" ++ a ++ ")")%string.
Definition debug_struct1 (name field a : string) : string := (name ++ " { " ++ field ++ ": " ++ a ++ " }")%string.
Definition debug_option (o : option string) : string := match o with Some s => debug_tuple1 "Some" s | None => "None"%string end.

(** [f.debug_list().entries(iter.clone()).finish()] *)
Definition debug_iter {St T} (next : St -> res (option T * St)) (fuel : nat) (f : T -> string) (st : St) : res string :=
  l <- drain next fuel st ;; Ok (debug_list (map f l)).

(** ** Maps and sets *)
Section Collections.
Context {K V : Type} (fK : K -> string) (fV : V -> string).

(** maps/decl_macros.rs L90-97; all map types use it. *)
Definition map_debug {M Q} (ops : map_ops M K V Q) (m : M) : res string :=
  pairs <- drain (it_next map_iter) (S (List.length (mo_entries ops m))) (iter_new (mo_entries ops m)) ;;
  Ok (debug_map (map (fun x => (fK (fst x), fV (snd x))) pairs)).

(** maps/iterators.rs L53-61, L164-171, L222-229: [Iter], [Keys], [Values]. *)
Definition iter_debug (st : list (K * V)) : res string :=
  debug_iter (it_next map_iter) (S (List.length st)) (fun e => debug_pair (fK (fst e)) (fV (snd e))) st.
Definition keys_debug (st : list (K * V)) : res string := debug_iter (it_next map_keys) (S (List.length st)) fK st.
Definition values_debug (st : list (K * V)) : res string := debug_iter (it_next map_values) (S (List.length st)) fV st.

(** The slice of entries that remains, as the [Debug] of slices prints it. *)
Definition slice_debug (st : list (K * V)) : string := debug_list (map (fun e => debug_pair (fK (fst e)) (fV (snd e))) st).
(** maps/iterators.rs L105-113, L275-283: [IterMut], and [ValuesMut], which prints the [IterMut] inside. *)
Definition iter_mut_debug (st : list (K * V)) : string := debug_tuple1 "IterMut" (slice_debug st).
Definition values_mut_debug (st : list (K * V)) : string := iter_mut_debug st.
(** maps/iterators.rs L329-337: [IntoIter]; L340, L385: [IntoKeys] and [IntoValues] derive [Debug]. *)
Definition into_iter_debug (st : list (K * V)) : string := debug_tuple1 "IntoIter" (slice_debug st).
Definition into_keys_debug (st : list (K * V)) : string := debug_struct1 "IntoKeys" "inner" (into_iter_debug st).
Definition into_values_debug (st : list (K * V)) : string := debug_struct1 "IntoValues" "inner" (into_iter_debug st).
End Collections.

Section Sets.
Context {T : Type} (f : T -> string).

(** sets/decl_macros.rs L64-70; all set types use it. *)
Definition set_debug {M Q} (ops : map_ops M T unit Q) (m : M) : res string :=
  values <- drain (it_next set_iter) (S (List.length (mo_entries ops m))) (iter_new (mo_entries ops m)) ;; Ok (debug_set (map f values)).
(** sets/iterators.rs L54-61: [Iter]; L64: [IntoIter] derives [Debug]. *)
Definition set_iter_debug (st : list (T * unit)) : res string := debug_iter (it_next set_iter) (S (List.length st)) f st.
Definition set_into_iter_debug (st : list (T * unit)) : string :=
  debug_struct1 "IntoIter" "inner" (into_iter_debug f (fun _ => "()"%string) st).

(** sets/iterators.rs L209-220, L367-378, L463-474: [Union], [Difference], [Intersection]. *)
Definition union_debug (u : union_st T) : res string :=
  debug_iter union_next (S (List.length (un_rest1 u) + List.length (un_rest2 u))) f u.
Definition difference_debug (d : difference_st T) : res string := debug_iter difference_next (S (List.length (df_rest1 d))) f d.
Definition intersection_debug (i : intersection_st T) : res string :=
  debug_iter intersection_next (S (List.length (in_rest1 i) + List.length (in_rest2 i))) f i.
(** sets/iterators.rs L283-294: [SymmetricDifference] prints the [Chain] inside, which derives [Debug]. *)
Definition symmetric_difference_debug (c : symmetric_difference_st T) : res string :=
  a <- match sd_a c with Some d => fmap Some (difference_debug d) | None => Ok None end ;;
  b <- difference_debug (sd_b c) ;;
  Ok ("Chain { a: " ++ debug_option a ++ ", b: " ++ debug_option (Some b) ++ " }")%string.
End Sets.
