(** Proofs about [{:?}] and [{:#?}]. *)
From Coq Require Import String.
From Verif Require Import Spec SpecMade ModelUtils ModelTables ModelMaps ModelIter SpecSets SpecDebug ModelPretty SpecPretty
  ProofsBase ProofsFz ProofsTable ProofsIter ProofsMade ProofsProps ProofsSetProps ProofsDebug.
From Verif Require ModelDebug.
From Verif Require Import Prelude.
From Coq Require Import ZArith ZifyNat ZifyN ZifyBool.

(** ** Texts *)
Lemma append_nil s : (s ++ "" = s)%string.
Proof. induction s; cbn; congruence. Qed.
Lemma concat_cons s l : String.concat "" (s :: l) = (s ++ String.concat "" l)%string.
Proof. destruct l as [|s' l]; cbn; [now rewrite append_nil|reflexivity]. Qed.
Lemma concat_app_text a b : String.concat "" (a ++ b) = (String.concat "" a ++ String.concat "" b)%string.
Proof. induction a as [|s a IH]; [reflexivity|]. cbn [app]. rewrite !concat_cons, IH. now rewrite append_assoc. Qed.

Lemma shown_say s : shown (say s) = (s, Finished).
Proof. reflexivity. Qed.
Lemma shown_then a b s : shown a = (s, Finished) -> shown (then_ a b) = after s (shown b).
Proof.
  unfold shown, then_, after. intros E. injection E as E1 E2. rewrite E2. cbn [o_pieces o_ending fst snd]. rewrite concat_app_text, E1. reflexivity.
Qed.
Lemma shown_then_stop a b s e : shown a = (s, e) -> e <> Finished -> then_ a b = a.
Proof. unfold shown, then_. intros E H. injection E as _ E2. rewrite E2. destruct e; congruence. Qed.
Lemma shown_joined a b t : shown (then_ a (then_ (say t) b)) = joined (shown a) t (shown b).
Proof.
  destruct (shown a) as [s e] eqn:E. destruct (match e with Finished => true | _ => false end) eqn:F.
  - destruct e; try discriminate. rewrite (shown_then _ _ _ E), (shown_then _ _ _ (shown_say t)). unfold joined, after. cbn. now rewrite append_assoc.
  - rewrite (shown_then_stop _ _ _ _ E) by (destruct e; congruence). rewrite E. destruct e; [discriminate|reflexivity..].
Qed.

(** ** Indentation *)
Definition starts (b : bool) (s : string) : bool := match s with EmptyString => b | _ => ends_with_newline s end.
Lemma starts_cons b c r : starts b (String c r) = starts (Ascii.eqb c newline) r.
Proof. destruct r; reflexivity. Qed.
Lemma indent_app s t : forall b, indent b (s ++ t) = (indent b s ++ indent (starts b s) t)%string.
Proof.
  induction s as [|c r IH]; intros b; [reflexivity|]. rewrite starts_cons. cbn [indent append]. rewrite IH, append_assoc. reflexivity.
Qed.
Lemma starts_app s t : forall b, starts b (s ++ t) = starts (starts b s) t.
Proof. induction s as [|c r IH]; intros b; [reflexivity|]. cbn [append]. rewrite !starts_cons. apply IH. Qed.

Lemma pad_lines_text s : forall b, String.concat "" (fst (pad_lines b (split_inclusive s))) = indent b s /\ snd (pad_lines b (split_inclusive s)) = starts b s.
Proof.
  induction s as [|c r IH]; intros b; [split; reflexivity|]. rewrite starts_cons. cbn [split_inclusive indent]. change line_feed with newline.
  destruct (Ascii.eqb c newline) eqn:C.
  - cbn [pad_lines ends_with_newline]. rewrite C. specialize (IH true). destruct (pad_lines true (split_inclusive r)) as [out b'].
    cbn [fst snd] in *. destruct IH as [<- <-]. split; [|reflexivity]. rewrite concat_app_text, concat_cons. destruct b; reflexivity.
  - specialize (IH false). destruct (split_inclusive r) as [|l ls] eqn:SI.
    + assert (r = ""%string) as ->.
      { destruct r as [|c' r']; [reflexivity|]. cbn [split_inclusive] in SI. destruct (Ascii.eqb c' newline); [discriminate|]. destruct (split_inclusive r'); discriminate. }
      cbn [pad_lines ends_with_newline fst snd]. rewrite C. split; [destruct b; reflexivity|reflexivity].
    + cbn [pad_lines] in *. assert (EN : ends_with_newline (String c l) = ends_with_newline l \/ l = ""%string) by (destruct l; auto).
      destruct EN as [EN|EN].
      * rewrite EN. destruct (pad_lines (ends_with_newline l) ls) as [out b']. cbn [fst snd app] in *. destruct IH as [IH <-]. split; [|reflexivity].
        rewrite concat_app_text, concat_cons. rewrite concat_cons in IH. rewrite <- IH. destruct b; reflexivity.
      * (* a line is not empty *)
        exfalso. subst l. clear - SI. destruct r as [|c' r']; [discriminate|]. cbn [split_inclusive] in SI.
        destruct (Ascii.eqb c' newline); [discriminate|]. destruct (split_inclusive r'); discriminate.
Qed.
Lemma pad_pieces_text ps : forall b, String.concat "" (pad_pieces b ps) = indent b (String.concat "" ps).
Proof.
  induction ps as [|s r IH]; intros b; [reflexivity|]. cbn [pad_pieces]. unfold pad_write. destruct (pad_lines_text s b) as [H1 H2].
  destruct (pad_lines b (split_inclusive s)) as [out b']. cbn [fst snd] in *. rewrite concat_app_text, concat_cons, IH, H1, H2, indent_app. reflexivity.
Qed.
Lemma shown_padded o : shown (padded o) = (indent true (fst (shown o)), snd (shown o)).
Proof. unfold shown, padded. cbn [o_pieces o_ending fst snd]. now rewrite pad_pieces_text. Qed.

(** ** The builders *)
Definition lead (alternate : bool) (first first_alt : list string) (h : bool) : string :=
  String.concat "" (if alternate then (if h then [] else first_alt) else (if h then [", "%string] else first)).
Section Build.
Variable alternate : bool.

Lemma field_ok first first_alt b entry s t : shown (b_out b) = (s, Finished) -> shown entry = (t, Finished) ->
  shown (b_out (b_field alternate first first_alt b entry)) = ((s ++ lead alternate first first_alt (b_has_fields b) ++ row alternate t)%string, Finished).
Proof.
  intros E1 E2. unfold b_field, lead, row. cbn [b_out]. rewrite (shown_then _ _ _ E1). destruct alternate.
  - erewrite shown_then by reflexivity. rewrite shown_padded, (shown_then _ _ _ E2). unfold after. cbn [fst snd]. reflexivity.
  - erewrite shown_then by reflexivity. rewrite E2. reflexivity.
Qed.
Lemma field_cut first first_alt b entry s t e : shown (b_out b) = (s, Finished) -> shown entry = (t, e) -> e <> Finished ->
  shown (b_out (b_field alternate first first_alt b entry)) = ((s ++ lead alternate first first_alt (b_has_fields b) ++ cut_row alternate t)%string, e).
Proof.
  intros E1 E2 H. unfold b_field, lead, cut_row. cbn [b_out]. rewrite (shown_then _ _ _ E1). destruct alternate.
  - erewrite shown_then by reflexivity. rewrite shown_padded, (shown_then_stop _ _ _ _ E2 H), E2. reflexivity.
  - erewrite shown_then by reflexivity. rewrite E2. reflexivity.
Qed.
Lemma fields_stopped first first_alt items s e : e <> Finished -> forall b, shown (b_out b) = (s, e) ->
  shown (b_out (fold_left (b_field alternate first first_alt) items b)) = (s, e).
Proof.
  intros H. induction items as [|i r IH]; intros b E; [exact E|]. cbn [fold_left]. apply IH. unfold b_field. cbn [b_out].
  rewrite (shown_then_stop _ _ _ _ E H). exact E.
Qed.

(** [rows], with the first separator left open. *)
Definition rows_after (before : string) (items : list piece) : piece :=
  match items with
  | [] => (""%string, Finished)
  | (t, Finished) :: r => let (s, e) := rows alternate false r in ((before ++ row alternate t ++ s)%string, e)
  | (t, e) :: _ => ((before ++ cut_row alternate t)%string, e)
  end.
Lemma rows_after_eq first items : rows alternate first items = rows_after (separator alternate first) items.
Proof. destruct items as [|[t []] r]; reflexivity. Qed.

Lemma fields_text first first_alt items : forall b s, shown (b_out b) = (s, Finished) ->
  shown (b_out (fold_left (b_field alternate first first_alt) items b)) = after s (rows_after (lead alternate first first_alt (b_has_fields b)) (map shown items)).
Proof.
  induction items as [|i r IH]; intros b s E; cbn [fold_left map].
  - rewrite E. unfold after. cbn. now rewrite append_nil.
  - destruct (shown i) as [t e] eqn:Ei. assert (D : e = Finished \/ e <> Finished) by (destruct e; auto; right; discriminate).
    destruct D as [->|D].
    + assert (SL : separator alternate false = lead alternate first first_alt true) by (unfold lead; destruct alternate; reflexivity).
      rewrite (IH _ _ (field_ok first first_alt _ _ _ _ E Ei)). cbn [b_has_fields b_field rows_after].
      rewrite rows_after_eq, SL. destruct (rows_after (lead alternate first first_alt true) (map shown r)) as [s' e'].
      unfold after. cbn [fst snd]. now rewrite !append_assoc.
    + rewrite (fields_stopped _ _ _ _ _ D _ (field_cut first first_alt _ _ _ _ _ E Ei D)). destruct e; [congruence|reflexivity..].
Qed.

Lemma finish_text b close s e : shown (b_out b) = (s, e) ->
  shown (b_finish b close) = match e with Finished => ((s ++ close)%string, Finished) | _ => (s, e) end.
Proof.
  intros E. unfold b_finish. assert (D : e = Finished \/ e <> Finished) by (destruct e; auto; right; discriminate). destruct D as [->|D].
  - rewrite (shown_then _ _ _ E). reflexivity.
  - rewrite (shown_then_stop _ _ _ _ E D), E. destruct e; congruence.
Qed.

(** The opening text may come in part with the first field. *)
Lemma built first first_alt name open close items :
  (items <> [] \/ name = open) ->
  ((name ++ lead alternate first first_alt false)%string = (open ++ separator alternate true)%string) ->
  shown (b_finish (fold_left (b_field alternate first first_alt) items (b_new name)) close) = enclosed alternate open close (map shown items).
Proof.
  intros HN HL. pose proof (fields_text first first_alt items (b_new name) name eq_refl) as F. cbn [b_new b_has_fields] in F.
  unfold enclosed. rewrite rows_after_eq. destruct items as [|i r].
  - destruct HN as [HN| ->]; [congruence|]. reflexivity.
  - cbn [map] in *. destruct (shown i) as [t e] eqn:Ei. destruct e.
    + cbn [rows_after] in *. destruct (rows alternate false (map shown r)) as [s' e']. unfold after in F. cbn [fst snd] in F.
      rewrite (finish_text _ _ _ _ F). rewrite <- append_assoc, HL. destruct e'; now rewrite !append_assoc.
    + cbn [rows_after] in *. unfold after in F. cbn [fst snd] in F. rewrite (finish_text _ _ _ _ F). now rewrite <- append_assoc, HL, append_assoc.
    + cbn [rows_after] in *. unfold after in F. cbn [fst snd] in F. rewrite (finish_text _ _ _ _ F). now rewrite <- append_assoc, HL, append_assoc.
Qed.

Lemma list_shown items : shown (debug_list alternate items) = list_text alternate (map shown items).
Proof. apply built; [auto|]. destruct alternate; reflexivity. Qed.
Lemma set_shown items : shown (debug_set alternate items) = braces_text alternate (map shown items).
Proof. apply built; [auto|]. destruct alternate; reflexivity. Qed.
Lemma map_as_set items : debug_map alternate items = debug_set alternate (map (fun e => then_ (fst e) (then_ (say ": ") (snd e))) items).
Proof.
  unfold debug_map, debug_set. f_equal. generalize (b_new "{"). induction items as [|e r IH]; intros b; [reflexivity|]. cbn [fold_left map]. apply IH.
Qed.
Lemma map_shown items : shown (debug_map alternate items) = braces_text alternate (map (fun e => joined (shown (fst e)) ": " (shown (snd e))) items).
Proof. rewrite map_as_set, set_shown, map_map. f_equal. apply map_ext. intros e. apply shown_joined. Qed.
Lemma tuple_shown name fields : fields <> [] -> shown (debug_tuple alternate name fields) = tuple_text alternate name (map shown fields).
Proof. intros H. apply built; [auto|]. unfold lead. destruct alternate; cbn; rewrite append_assoc; reflexivity. Qed.
Lemma struct_shown name fields : fields <> [] ->
  shown (debug_struct alternate name fields) = struct_text alternate name (map (fun f => (fst f, shown (snd f))) fields).
Proof.
  intros H. unfold debug_struct, struct_text.
  assert (E : fold_left (fun b e => b_field alternate [" { "%string] [(" {" ++ nl)%string] b (then_ (say (fst e)) (then_ (say ": ") (snd e)))) fields (b_new name) =
    fold_left (b_field alternate [" { "%string] [(" {" ++ nl)%string]) (map (fun e => then_ (say (fst e)) (then_ (say ": ") (snd e))) fields) (b_new name)).
  { generalize (b_new name). induction fields as [|e r IH]; intros b; [reflexivity|]. cbn [fold_left map]. destruct r; [reflexivity|]. apply IH. discriminate. }
  rewrite E, (built _ _ _ (name ++ (if alternate then " {" else " { "))).
  - rewrite !map_map. f_equal. apply map_ext. intros f. cbn [fst snd]. rewrite shown_joined, shown_say. reflexivity.
  - left. destruct fields; [congruence|discriminate].
  - unfold lead. destruct alternate; cbn; rewrite !append_assoc; reflexivity.
Qed.
End Build.

(** ** Collections and iterators *)
Lemma iter_shown {St A} (next : St -> res (option A * St)) mu alternate (f : A -> output) st l :
  (forall st x st', next st = Ok (Some x, st') -> (mu st' < mu st)%nat) -> yields next st l ->
  exists o, debug_iter alternate next (S (mu st)) f st = Ok o /\ shown o = list_text alternate (map (fun x => shown (f x)) l).
Proof.
  intros H Y. unfold debug_iter. rewrite (yields_drain _ _ _ Y) by (pose proof (yields_bounded _ _ H _ _ Y); lia). cbn [bind].
  eexists. split; [reflexivity|]. rewrite list_shown, map_map. reflexivity.
Qed.

Section Collections.
Context {K V : Type} (alternate : bool) (fK : K -> output) (fV : V -> output).

Lemma pair_shown e : shown (debug_pair alternate fK fV e) = pair_piece alternate fK fV e.
Proof. unfold debug_pair. rewrite tuple_shown by discriminate. reflexivity. Qed.
Lemma map_debug_shown {M Q} (ops : map_ops M K V Q) m :
  exists o, map_debug alternate fK fV ops m = Ok o /\ shown o = braces_text alternate (map (binding_piece fK fV) (mo_entries ops m)).
Proof.
  unfold map_debug, iter_new. rewrite (exact_drain _ _ _ _ map_iter_exact) by lia. cbn [bind]. eexists. split; [reflexivity|].
  rewrite map_shown, map_map. reflexivity.
Qed.
Lemma iter_debug_shown st : exists o, iter_debug alternate fK fV st = Ok o /\ shown o = list_text alternate (map (pair_piece alternate fK fV) st).
Proof.
  unfold iter_debug, debug_iter. rewrite (exact_drain _ _ _ _ map_iter_exact) by lia. cbn [bind]. eexists. split; [reflexivity|].
  rewrite list_shown, map_map. f_equal. apply map_ext. exact pair_shown.
Qed.
Lemma keys_debug_shown (st : list (K * V)) : exists o, keys_debug alternate fK st = Ok o /\ shown o = list_text alternate (map (fun e => shown (fK (fst e))) st).
Proof.
  unfold keys_debug, debug_iter. rewrite (exact_drain _ _ _ _ map_keys_exact) by (rewrite map_length; lia). cbn [bind]. eexists. split; [reflexivity|].
  rewrite list_shown, !map_map. reflexivity.
Qed.
Lemma values_debug_shown (st : list (K * V)) : exists o, values_debug alternate fV st = Ok o /\ shown o = list_text alternate (map (fun e => shown (fV (snd e))) st).
Proof.
  unfold values_debug, debug_iter. rewrite (exact_drain _ _ _ _ map_values_exact) by (rewrite map_length; lia). cbn [bind]. eexists. split; [reflexivity|].
  rewrite list_shown, !map_map. reflexivity.
Qed.
Lemma slice_shown st : shown (slice_debug alternate fK fV st) = list_text alternate (map (pair_piece alternate fK fV) st).
Proof. unfold slice_debug. rewrite list_shown, map_map. f_equal. apply map_ext. exact pair_shown. Qed.
Lemma iter_mut_shown st : shown (iter_mut_debug alternate fK fV st) = tuple_text alternate "IterMut" [list_text alternate (map (pair_piece alternate fK fV) st)].
Proof. unfold iter_mut_debug. rewrite tuple_shown by discriminate. cbn [map]. now rewrite slice_shown. Qed.
Lemma into_iter_shown st : shown (into_iter_debug alternate fK fV st) = tuple_text alternate "IntoIter" [list_text alternate (map (pair_piece alternate fK fV) st)].
Proof. unfold into_iter_debug. rewrite tuple_shown by discriminate. cbn [map]. now rewrite slice_shown. Qed.
Lemma inner_shown name st : shown (debug_struct alternate name [("inner"%string, into_iter_debug alternate fK fV st)]) =
  struct_text alternate name [("inner"%string, tuple_text alternate "IntoIter" [list_text alternate (map (pair_piece alternate fK fV) st)])].
Proof. rewrite struct_shown by discriminate. cbn [map fst snd]. now rewrite into_iter_shown. Qed.
End Collections.

Section Sets.
Context {T : Type} (alternate : bool) (f : T -> output).
Lemma set_debug_shown {M Q} (ops : map_ops M T unit Q) m :
  exists o, set_debug alternate f ops m = Ok o /\ shown o = braces_text alternate (map (fun e => shown (f (fst e))) (mo_entries ops m)).
Proof.
  unfold set_debug, iter_new. rewrite (exact_drain _ _ _ _ set_iter_exact) by (rewrite map_length; lia). cbn [bind]. eexists. split; [reflexivity|].
  rewrite set_shown, !map_map. reflexivity.
Qed.
Lemma set_iter_debug_shown st : exists o, set_iter_debug alternate f st = Ok o /\ shown o = list_text alternate (map (fun e => shown (f (fst e))) st).
Proof.
  unfold set_iter_debug, debug_iter. rewrite (exact_drain _ _ _ _ set_iter_exact) by (rewrite map_length; lia). cbn [bind]. eexists. split; [reflexivity|].
  rewrite list_shown, !map_map. reflexivity.
Qed.
Lemma difference_shown st l : yields difference_next st l ->
  exists o, difference_debug alternate f st = Ok o /\ shown o = list_text alternate (map (fun x => shown (f x)) l).
Proof.
  apply (iter_shown _ (fun d => List.length (df_rest1 d))). clear. intros d x d'. unfold difference_next.
  destruct (next_where _ (df_rest1 d)) as [[o r]| |] eqn:E; cbn; try discriminate. intros H. injection H as -> <-.
  exact (next_where_shorter _ _ _ _ E).
Qed.
Lemma union_shown st l : yields union_next st l ->
  exists o, union_debug alternate f st = Ok o /\ shown o = list_text alternate (map (fun x => shown (f x)) l).
Proof.
  apply (iter_shown _ (fun u => List.length (un_rest1 u) + List.length (un_rest2 u))%nat). clear. intros u x u'. unfold union_next.
  destruct (Nat.ltb _ _); [destruct (un_rest1 u) as [|y r1] eqn:E1|destruct (un_rest2 u) as [|y r2] eqn:E2].
  - destruct (next_where _ (un_rest2 u)) as [[o r]| |] eqn:E; cbn; try discriminate. intros H. injection H as -> <-. cbn. rewrite E1.
    apply next_where_shorter in E. cbn. lia.
  - intros H. injection H as _ <-. cbn. lia.
  - destruct (next_where _ (un_rest1 u)) as [[o r]| |] eqn:E; cbn; try discriminate. intros H. injection H as -> <-. cbn. rewrite E2.
    apply next_where_shorter in E. cbn. lia.
  - intros H. injection H as _ <-. cbn. lia.
Qed.
Lemma intersection_shown st l : yields intersection_next st l ->
  exists o, intersection_debug alternate f st = Ok o /\ shown o = list_text alternate (map (fun x => shown (f x)) l).
Proof.
  apply (iter_shown _ (fun i => List.length (in_rest1 i) + List.length (in_rest2 i))%nat). clear. intros i x i'. unfold intersection_next.
  destruct (Nat.ltb _ _).
  - destruct (next_where _ (in_rest1 i)) as [[o r]| |] eqn:E; cbn; try discriminate. intros H. injection H as -> <-. cbn.
    apply next_where_shorter in E. lia.
  - destruct (next_where _ (in_rest2 i)) as [[o r]| |] eqn:E; cbn; try discriminate. intros H. injection H as -> <-. cbn.
    apply next_where_shorter in E. lia.
Qed.
Lemma symmetric_difference_shown s1 s2 a b : yields difference_next (difference_new s1 s2) a -> yields difference_next (difference_new s2 s1) b ->
  let some l := tuple_text alternate "Some" [list_text alternate (map (fun x => shown (f x)) l)] in
  exists o, symmetric_difference_debug alternate f (symmetric_difference_new s1 s2) = Ok o /\
    shown o = struct_text alternate "Chain" [("a"%string, some a); ("b"%string, some b)].
Proof.
  intros A B. cbv zeta. destruct (difference_shown _ _ A) as [oa [EA SA]], (difference_shown _ _ B) as [ob [EB SB]].
  unfold symmetric_difference_debug, symmetric_difference_new. cbn [sd_a sd_b]. rewrite EA, EB. cbn [fmap bind debug_option]. eexists. split; [reflexivity|].
  rewrite struct_shown by discriminate. cbn [map fst snd]. rewrite !tuple_shown by discriminate. cbn [map]. now rewrite SA, SB.
Qed.
End Sets.

(** ** Complete pieces, and one that is not *)
Lemma rows_complete alternate items : (forall p, In p items -> complete p) -> forall first,
  rows alternate first items =
    ((match items with [] => "" | _ => separator alternate first end ++ String.concat (separator alternate false) (map (fun p => row alternate (fst p)) items))%string, Finished).
Proof.
  induction items as [|[t e] r IH]; intros H first; [reflexivity|]. assert (e = Finished) as -> by exact (H _ (or_introl eq_refl)). cbn [rows].
  rewrite IH by (intros p Hp; apply H; right; exact Hp). f_equal. f_equal. destruct r as [|p r]; [cbn; now rewrite append_nil|]. reflexivity.
Qed.
Lemma enclosed_complete alternate open close items : (forall p, In p items -> complete p) ->
  enclosed alternate open close items =
    ((open ++ (match items with [] => "" | _ => separator alternate true end ++
       String.concat (separator alternate false) (map (fun p => row alternate (fst p)) items)) ++ close)%string, Finished).
Proof. intros H. unfold enclosed. rewrite (rows_complete _ _ H). reflexivity. Qed.
Lemma rows_cut alternate pre t e post : (forall p, In p pre -> complete p) -> e <> Finished -> forall first,
  rows alternate first (pre ++ (t, e) :: post) =
    ((separator alternate first ++ String.concat (separator alternate false) (map (fun p => row alternate (fst p)) pre ++ [cut_row alternate t]))%string, e).
Proof.
  induction pre as [|[s e'] r IH]; intros H D first; cbn [app].
  - cbn [rows map app]. destruct e; [congruence|reflexivity..].
  - assert (e' = Finished) as -> by exact (H _ (or_introl eq_refl)). cbn [rows]. rewrite IH by (auto; intros p Hp; apply H; right; exact Hp).
    f_equal. f_equal. cbn [map app]. destruct (map (fun p => row alternate (fst p)) r ++ [cut_row alternate t]) eqn:E; [destruct r; discriminate|].
    reflexivity.
Qed.
Lemma enclosed_cut alternate open close pre t e post : (forall p, In p pre -> complete p) -> e <> Finished ->
  enclosed alternate open close (pre ++ (t, e) :: post) =
    ((open ++ separator alternate true ++ String.concat (separator alternate false) (map (fun p => row alternate (fst p)) pre ++ [cut_row alternate t]))%string, e).
Proof. intros H D. unfold enclosed. rewrite (rows_cut _ _ _ _ _ H D). destruct e; [congruence|reflexivity..]. Qed.

(** ** The plain form with printers that do not fail *)
Lemma enclosed_plain open close l : enclosed false open close (map whole l) = whole (open ++ String.concat ", " l ++ close).
Proof.
  rewrite enclosed_complete by (intros p Hp; apply in_map_iff in Hp; destruct Hp as [s [<- _]]; reflexivity).
  unfold whole. f_equal. rewrite map_map. cbn [row fst separator]. rewrite map_id. destruct l; reflexivity.
Qed.

Section Agree.
Context {K V : Type} (fK : K -> string) (fV : V -> string).
Notation sK := (fun k => say (fK k)).
Notation sV := (fun v => say (fV v)).
Lemma pair_plain e : pair_piece false sK sV e = whole (ModelDebug.debug_pair (fK (fst e)) (fV (snd e))).
Proof.
  unfold pair_piece, tuple_text. change [shown (say (fK (fst e))); shown (say (fV (snd e)))] with (map whole [fK (fst e); fV (snd e)]).
  rewrite enclosed_plain. unfold ModelDebug.debug_pair. cbn. f_equal. f_equal. now rewrite !append_assoc.
Qed.
Lemma iter_agree {St A} (next : St -> res (option A * St)) fuel g h st : (forall x, shown (g x) = whole (h x)) ->
  agrees (debug_iter false next fuel g st) (ModelDebug.debug_iter next fuel h st).
Proof.
  intros H. unfold agrees, debug_iter, ModelDebug.debug_iter. destruct (drain next fuel st) as [l| |]; [|reflexivity..]. cbn [bind fmap]. f_equal.
  rewrite list_shown, debug_list_text, map_map. unfold list_text, listing. rewrite <- enclosed_plain, map_map. f_equal. apply map_ext. exact H.
Qed.
Lemma map_agree {M Q} (ops : map_ops M K V Q) m : agrees (map_debug false sK sV ops m) (ModelDebug.map_debug fK fV ops m).
Proof.
  unfold agrees. destruct (map_debug_shown false sK sV ops m) as [o [-> E]]. rewrite map_debug_text. cbn [fmap bind]. f_equal. rewrite E.
  unfold braces_text, braces. rewrite <- enclosed_plain, map_map. f_equal. apply map_ext. intros e. unfold binding_piece, joined, binding, after, whole. cbn.
  now rewrite append_assoc.
Qed.
Lemma slice_plain st : list_text false (map (pair_piece false sK sV) st) = whole (ModelDebug.slice_debug fK fV st).
Proof.
  rewrite slice_debug_text. unfold list_text, listing. rewrite <- enclosed_plain, map_map. f_equal. apply map_ext. intros e. rewrite pair_plain. reflexivity.
Qed.
Lemma tuple1_plain name s : tuple_text false name [whole s] = whole (ModelDebug.debug_tuple1 name s).
Proof. unfold tuple_text. change [whole s] with (map whole [s]). rewrite enclosed_plain. unfold ModelDebug.debug_tuple1. cbn. now rewrite !append_assoc. Qed.
Lemma struct1_plain name field s : struct_text false name [(field, whole s)] = whole (ModelDebug.debug_struct1 name field s).
Proof.
  unfold struct_text. cbn [map fst snd]. unfold after. cbn [fst snd whole]. change [(((field ++ ": ") ++ s)%string, Finished)] with (map whole [((field ++ ": ") ++ s)%string]).
  rewrite enclosed_plain. unfold ModelDebug.debug_struct1. cbn. now rewrite !append_assoc.
Qed.
End Agree.

Lemma all_agree {K V} (fK : K -> string) (fV : V -> string) :
  let sK k := say (fK k) in let sV v := say (fV v) in
  (forall M Q (ops : map_ops M K V Q) m, agrees (map_debug false sK sV ops m) (ModelDebug.map_debug fK fV ops m)) /\
  (forall M Q (ops : map_ops M K unit Q) m, agrees (set_debug false sK ops m) (ModelDebug.set_debug fK ops m)) /\
  (forall st, agrees (iter_debug false sK sV st) (ModelDebug.iter_debug fK fV st)) /\
  (forall st : list (K * V), agrees (keys_debug false sK st) (ModelDebug.keys_debug fK st)) /\
  (forall st : list (K * V), agrees (values_debug false sV st) (ModelDebug.values_debug fV st)) /\
  (forall st, agrees (set_iter_debug false sK st) (ModelDebug.set_iter_debug fK st)) /\
  (forall st, shown (iter_mut_debug false sK sV st) = whole (ModelDebug.iter_mut_debug fK fV st)) /\
  (forall st, shown (values_mut_debug false sK sV st) = whole (ModelDebug.values_mut_debug fK fV st)) /\
  (forall st, shown (into_iter_debug false sK sV st) = whole (ModelDebug.into_iter_debug fK fV st)) /\
  (forall st, shown (into_keys_debug false sK sV st) = whole (ModelDebug.into_keys_debug fK fV st)) /\
  (forall st, shown (into_values_debug false sK sV st) = whole (ModelDebug.into_values_debug fK fV st)) /\
  (forall st, shown (set_into_iter_debug false sK st) = whole (ModelDebug.set_into_iter_debug fK st)) /\
  (forall st, agrees (union_debug false sK st) (ModelDebug.union_debug fK st)) /\
  (forall st, agrees (difference_debug false sK st) (ModelDebug.difference_debug fK st)) /\
  (forall st, agrees (intersection_debug false sK st) (ModelDebug.intersection_debug fK st)) /\
  (forall st, agrees (symmetric_difference_debug false sK st) (ModelDebug.symmetric_difference_debug fK st)).
Proof.
  cbv zeta.
  assert (IM : forall st, shown (iter_mut_debug false (fun k => say (fK k)) (fun v => say (fV v)) st) = whole (ModelDebug.iter_mut_debug fK fV st)).
  { intros st. rewrite iter_mut_shown, slice_plain, tuple1_plain. reflexivity. }
  assert (II : forall W (fW : W -> string) st, shown (into_iter_debug false (fun k => say (fK k)) (fun v => say (fW v)) st) = whole (ModelDebug.into_iter_debug fK fW st)).
  { intros W fW st. rewrite into_iter_shown, slice_plain, tuple1_plain. reflexivity. }
  assert (ST : forall name o s, shown o = whole s -> shown (debug_struct false name [("inner"%string, o)]) = whole (ModelDebug.debug_struct1 name "inner" s)).
  { intros name o s E. rewrite struct_shown by discriminate. cbn [map fst snd]. rewrite E. apply struct1_plain. }
  split; [intros; apply map_agree|]. split.
  { intros M Q ops m. unfold agrees. destruct (set_debug_shown false (fun k => say (fK k)) ops m) as [o [-> E]]. rewrite set_debug_text. cbn [fmap bind]. f_equal.
    rewrite E. unfold braces_text, braces. rewrite <- enclosed_plain, !map_map. reflexivity. }
  split.
  { intros st. apply iter_agree. intros e. rewrite pair_shown, pair_plain. reflexivity. }
  do 3 (split; [intros st; apply iter_agree; reflexivity|]).
  split; [exact IM|]. split; [exact IM|]. split; [intros; apply II|]. do 2 (split; [intros; apply ST, II|]). split; [intros st; apply ST, (II unit (fun _ => "()"%string))|].
  do 3 (split; [intros st; apply iter_agree; reflexivity|]).
  intros st. unfold agrees, symmetric_difference_debug, ModelDebug.symmetric_difference_debug.
  assert (D : forall d, agrees (difference_debug false (fun k => say (fK k)) d) (ModelDebug.difference_debug fK d)) by (intros d; apply iter_agree; reflexivity).
  assert (OPT : forall o s, shown o = whole s -> shown (debug_option false (Some o)) = whole (ModelDebug.debug_option (Some s))).
  { intros o s E. cbn [debug_option]. rewrite tuple_shown by discriminate. cbn [map]. rewrite E. apply tuple1_plain. }
  assert (CH : forall a b sa sb, shown a = whole sa -> shown b = whole sb ->
    shown (debug_struct false "Chain" [("a"%string, a); ("b"%string, b)]) = whole ("Chain { a: " ++ sa ++ ", b: " ++ sb ++ " }")%string).
  { intros a b sa sb EA EB. rewrite struct_shown by discriminate. cbn [map fst snd]. rewrite EA, EB. unfold struct_text. cbn [map fst snd]. unfold after. cbn [fst snd whole].
    change [(("a" ++ ": ") ++ sa, Finished); (("b" ++ ": ") ++ sb, Finished)]%string with (map whole [(("a" ++ ": ") ++ sa)%string; (("b" ++ ": ") ++ sb)%string]).
    rewrite enclosed_plain. cbn. now rewrite !append_assoc. }
  pose proof (D (sd_b st)) as DB. unfold agrees in DB. destruct (sd_a st) as [d|].
  - pose proof (D d) as DA. unfold agrees in DA.
    destruct (difference_debug false _ d) as [oa| |], (ModelDebug.difference_debug fK d) as [sa| |]; cbn [fmap bind] in *; try discriminate; try reflexivity.
    destruct (difference_debug false _ (sd_b st)) as [ob| |], (ModelDebug.difference_debug fK (sd_b st)) as [sb| |]; cbn [fmap bind] in *; try discriminate; try reflexivity.
    injection DA as DA1 DA2. injection DB as DB1 DB2. f_equal. apply CH; apply OPT; unfold shown, whole; congruence.
  - cbn [fmap bind].
    destruct (difference_debug false _ (sd_b st)) as [ob| |], (ModelDebug.difference_debug fK (sd_b st)) as [sb| |]; cbn [fmap bind] in *; try discriminate; try reflexivity.
    injection DB as DB1 DB2. f_equal. apply CH; [reflexivity|]. apply OPT; unfold shown, whole; congruence.
Qed.

(** ** Writers *)
Lemma write_pieces_spec {S} (w : S -> string -> S * bool) pieces : forall st,
  (exists st', accepts w st pieces st' /\ write_pieces w st pieces = (st', true)) \/
  (exists pre s post st1 st2, pieces = pre ++ s :: post /\ accepts w st pre st1 /\ w st1 s = (st2, false) /\ write_pieces w st pieces = (st2, false)).
Proof.
  induction pieces as [|s r IH]; intros st; cbn [write_pieces].
  - left. exists st. split; [constructor|reflexivity].
  - destruct (w st s) as [st' []] eqn:E.
    + destruct (IH st') as [[st2 [A W]]|(pre & s' & post & st1 & st2 & -> & A & F & W)].
      * left. exists st2. split; [econstructor; eauto|exact W].
      * right. exists (s :: pre), s', post, st1, st2. repeat split; auto. econstructor; eauto.
    + right. exists [], s, r, st, st'. repeat split; auto. constructor.
Qed.
Lemma print_to_spec {S} (w : S -> string -> S * bool) o st :
  (exists st', accepts w st (o_pieces o) st' /\ print_to w st o = (st', o_ending o)) \/
  (exists pre s post st1 st2, o_pieces o = pre ++ s :: post /\ accepts w st pre st1 /\ w st1 s = (st2, false) /\ print_to w st o = (st2, Failed)).
Proof.
  unfold print_to. destruct (write_pieces_spec w (o_pieces o) st) as [[st' [A ->]]|(pre & s & post & st1 & st2 & E & A & F & ->)].
  - left. exists st'. auto.
  - right. exists pre, s, post, st1, st2. auto.
Qed.

(** ** As stated in the properties *)
Lemma enclosed_layout open close items : (forall p, In p items -> complete p) ->
  enclosed false open close items = whole (open ++ String.concat ", " (map fst items) ++ close) /\
  enclosed true open close items =
    whole (open ++ (match items with [] => "" | _ => lf end) ++ String.concat "" (map (fun p => indent true (fst p ++ "," ++ lf)) items) ++ close).
Proof.
  intros H. split; rewrite (enclosed_complete _ _ _ _ H); unfold whole; f_equal; f_equal; rewrite append_assoc.
  - destruct items; reflexivity.
  - reflexivity.
Qed.
Lemma enclosed_layout_cut open close pre t e post : (forall p, In p pre -> complete p) -> e <> Finished ->
  enclosed false open close (pre ++ (t, e) :: post) = ((open ++ String.concat ", " (map fst pre ++ [t]))%string, e) /\
  enclosed true open close (pre ++ (t, e) :: post) =
    ((open ++ lf ++ String.concat "" (map (fun p => indent true (fst p ++ "," ++ lf)) pre) ++ indent true t)%string, e).
Proof.
  intros H D. split; rewrite (enclosed_cut _ _ _ _ _ _ _ H D); [reflexivity|]. cbn [separator row cut_row]. rewrite concat_app_text. reflexivity.
Qed.
Lemma indent_rest l r : one_line l = true -> indent false (l ++ r) = (l ++ indent false r)%string.
Proof.
  induction l as [|c l IH]; [reflexivity|]. cbn [one_line append indent]. intros H. apply andb_prop in H. destruct H as [H1 H2].
  apply negb_true_iff in H1. rewrite H1, IH by exact H2. reflexivity.
Qed.
Lemma indent_lines l r : one_line l = true ->
  indent true (l ++ lf ++ r) = ("    " ++ l ++ lf ++ indent true r)%string /\ indent true l = (if String.eqb l "" then "" else "    " ++ l)%string.
Proof.
  destruct l as [|c l]; [split; reflexivity|]. intros H. cbn [one_line] in H. apply andb_prop in H. destruct H as [H1 H2].
  apply negb_true_iff in H1. split.
  - change (String c l ++ lf ++ r)%string with (String c (l ++ lf ++ r)). cbn [indent]. rewrite H1, (indent_rest _ _ H2). reflexivity.
  - cbn [indent String.eqb]. rewrite H1. rewrite <- (append_nil l) at 1. rewrite (indent_rest _ _ H2). cbn [indent]. now rewrite append_nil.
Qed.

Lemma sets_shown {M T Q} (ops : map_ops M T unit Q) eqT eqv m values alternate f : made ops eqT eqv m (unit_entries values) ->
  exists l o, yields (it_next set_iter) (iter_new (mo_entries ops m)) l /\ set_debug alternate f ops m = Ok o /\
    shown o = braces_text alternate (map (fun x => shown (f x)) l) /\ distinct eqT l /\
    (forall x, In x l <-> exists pre post, values = pre ++ x :: post /\ forall y, In y post -> eqT x y = false).
Proof.
  intros H. destruct (sets_print ops eqT eqv m values (fun _ => ""%string) H) as [l [Y [_ [D I]]]].
  destruct (set_debug_shown alternate f ops m) as [o [E S]]. exists l, o. split; [exact Y|]. split; [exact E|]. split; [|split; assumption].
  rewrite (yields_fun _ _ _ _ Y (ct_yields _ _ _ (exact_all _ _ set_iter_exact _))). rewrite S. unfold iter_new. now rewrite map_map.
Qed.
Lemma iterators_shown {K V} alternate (fK : K -> output) (fV : V -> output) :
  (forall st l, yields (it_next map_iter) st l ->
     exists o, iter_debug alternate fK fV st = Ok o /\ shown o = list_text alternate (map (pair_piece alternate fK fV) l)) /\
  (forall (st : list (K * V)) l, yields (it_next map_keys) st l ->
     exists o, keys_debug alternate fK st = Ok o /\ shown o = list_text alternate (map (fun k => shown (fK k)) l)) /\
  (forall (st : list (K * V)) l, yields (it_next map_values) st l ->
     exists o, values_debug alternate fV st = Ok o /\ shown o = list_text alternate (map (fun v => shown (fV v)) l)) /\
  (forall st l, yields (it_next set_iter) st l ->
     exists o, set_iter_debug alternate fK st = Ok o /\ shown o = list_text alternate (map (fun k => shown (fK k)) l)).
Proof.
  split; [|split; [|split]]; intros st l Y.
  - rewrite (yields_fun _ _ _ _ Y (ct_yields _ _ _ (exact_all _ _ map_iter_exact st))). apply iter_debug_shown.
  - rewrite (yields_fun _ _ _ _ Y (ct_yields _ _ _ (exact_all _ _ map_keys_exact st))), map_map. apply keys_debug_shown.
  - rewrite (yields_fun _ _ _ _ Y (ct_yields _ _ _ (exact_all _ _ map_values_exact st))), map_map. apply values_debug_shown.
  - rewrite (yields_fun _ _ _ _ Y (ct_yields _ _ _ (exact_all _ _ set_iter_exact st))), map_map. apply set_iter_debug_shown.
Qed.
Lemma owned_shown {K V} alternate (fK : K -> output) (fV : V -> output) (st : list (K * V)) :
  let entries := list_text alternate (map (pair_piece alternate fK fV) st) in
  shown (iter_mut_debug alternate fK fV st) = tuple_text alternate "IterMut" [entries] /\
  shown (values_mut_debug alternate fK fV st) = tuple_text alternate "IterMut" [entries] /\
  shown (into_iter_debug alternate fK fV st) = tuple_text alternate "IntoIter" [entries] /\
  shown (into_keys_debug alternate fK fV st) = struct_text alternate "IntoKeys" [("inner"%string, tuple_text alternate "IntoIter" [entries])] /\
  shown (into_values_debug alternate fK fV st) = struct_text alternate "IntoValues" [("inner"%string, tuple_text alternate "IntoIter" [entries])].
Proof.
  cbv zeta. split; [apply iter_mut_shown|]. split; [apply iter_mut_shown|]. split; [apply into_iter_shown|]. split; apply inner_shown.
Qed.
