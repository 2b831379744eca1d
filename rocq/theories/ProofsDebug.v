(** [Debug] output. *)
From Coq Require Import String Permutation.
From Verif Require Import Prelude Spec SpecMade ModelUtils ModelTables ModelMaps ModelIter SpecSets SpecDebug ModelDebug
  ProofsBase ProofsFz ProofsTable ProofsIter ProofsMade ProofsProps ProofsSetProps.
From Coq Require Import ZArith ZifyNat ZifyN ZifyBool.

(** ** The builders *)

Lemma append_assoc (a b c : string) : ((a ++ b) ++ c = a ++ b ++ c)%string.
Proof. induction a; cbn; congruence. Qed.

Fixpoint tail_text (items : list string) : string := match items with [] => ""%string | s :: r => (", " ++ s ++ tail_text r)%string end.

Lemma concat_tail s r : String.concat ", " (s :: r) = (s ++ tail_text r)%string.
Proof.
  revert s. induction r as [|s' r IH]; intros s.
  - cbn. induction s; cbn; congruence.
  - change (String.concat ", " (s :: s' :: r)) with (s ++ ", " ++ String.concat ", " (s' :: r))%string. rewrite IH. reflexivity.
Qed.

Lemma entries_tail items : forall t, fold_left b_entry items {| b_text := t; b_has_fields := true |} = {| b_text := (t ++ tail_text items)%string; b_has_fields := true |}.
Proof.
  induction items as [|s r IH]; intros t; cbn [fold_left tail_text].
  - f_equal. induction t; cbn; congruence.
  - unfold b_entry at 2. cbn [b_has_fields b_write b_text]. rewrite IH. now rewrite !append_assoc.
Qed.

Lemma built_text open close items : b_finish (fold_left b_entry items (b_new open)) close = (open ++ String.concat ", " items ++ close)%string.
Proof.
  destruct items as [|s r]; [reflexivity|]. cbn [fold_left]. unfold b_entry at 2, b_new. cbn [b_has_fields b_text].
  rewrite entries_tail, concat_tail. unfold b_finish, b_write. cbn [b_text]. now rewrite !append_assoc.
Qed.

Lemma debug_list_text items : debug_list items = listing items.
Proof. apply built_text. Qed.
Lemma debug_set_text items : debug_set items = braces items.
Proof. apply built_text. Qed.

Lemma map_entry_text b k v : b_map_entry b k v = b_entry b (k ++ ": " ++ v)%string.
Proof. unfold b_map_entry, b_entry, b_write. destruct (b_has_fields b); cbn; now rewrite !append_assoc. Qed.

Lemma debug_map_text items : debug_map items = braces (map (fun e => (fst e ++ ": " ++ snd e)%string) items).
Proof.
  unfold debug_map, braces. rewrite <- built_text. f_equal. generalize (b_new "{"). induction items as [|e r IH]; intros b; cbn [fold_left map]; [reflexivity|].
  now rewrite map_entry_text, IH.
Qed.

(** ** Iterators *)

Lemma yields_bounded {St A} (next : St -> res (option A * St)) (mu : St -> nat) :
  (forall st x st', next st = Ok (Some x, st') -> (mu st' < mu st)%nat) -> forall st l, yields next st l -> (List.length l <= mu st)%nat.
Proof. intros H st l Y. induction Y as [|st x st' l E Y IH]; cbn [List.length]; [lia|]. apply H in E. lia. Qed.

Lemma debug_iter_text {St A} (next : St -> res (option A * St)) mu (f : A -> string) st l :
  (forall st x st', next st = Ok (Some x, st') -> (mu st' < mu st)%nat) -> yields next st l -> debug_iter next (S (mu st)) f st = Ok (listing (map f l)).
Proof.
  intros H Y. unfold debug_iter. rewrite (yields_drain _ _ _ Y) by (pose proof (yields_bounded _ _ H _ _ Y); lia). cbn [bind].
  now rewrite debug_list_text.
Qed.

Lemma next_where_shorter {T} (p : T -> res bool) rest x r : next_where p rest = Ok (Some x, r) -> (List.length r < List.length rest)%nat.
Proof.
  induction rest as [|y rest IH]; cbn; [discriminate|]. destruct (p y) as [[|]| |]; cbn; try discriminate.
  - intros H. injection H as _ <-. lia.
  - intros H. apply IH in H. lia.
Qed.

Lemma exact_drain {St A} (it : iter_ops St A) (out : St -> list A) st fuel : exact_iter it out -> (List.length (out st) < fuel)%nat ->
  drain (it_next it) fuel st = Ok (out st).
Proof. intros E. apply yields_drain. exact (ct_yields _ _ _ (exact_all it out E st)). Qed.

Section Collections.
Context {K V : Type} (fK : K -> string) (fV : V -> string).

Lemma iter_debug_text st : iter_debug fK fV st = Ok (listing (map (pair_text fK fV) st)).
Proof. unfold iter_debug, debug_iter. rewrite (exact_drain _ _ _ _ map_iter_exact) by lia. cbn [bind]. now rewrite debug_list_text. Qed.
Lemma keys_debug_text (st : list (K * V)) : keys_debug fK st = Ok (listing (map fK (map fst st))).
Proof. unfold keys_debug, debug_iter. rewrite (exact_drain _ _ _ _ map_keys_exact) by (rewrite map_length; lia). cbn [bind]. now rewrite debug_list_text. Qed.
Lemma values_debug_text (st : list (K * V)) : values_debug fV st = Ok (listing (map fV (map snd st))).
Proof. unfold values_debug, debug_iter. rewrite (exact_drain _ _ _ _ map_values_exact) by (rewrite map_length; lia). cbn [bind]. now rewrite debug_list_text. Qed.
Lemma slice_debug_text st : slice_debug fK fV st = listing (map (pair_text fK fV) st).
Proof. unfold slice_debug. now rewrite debug_list_text. Qed.

Lemma map_debug_text {M Q} (ops : map_ops M K V Q) m : map_debug fK fV ops m = Ok (braces (map (binding fK fV) (mo_entries ops m))).
Proof.
  unfold map_debug, iter_new. rewrite (exact_drain _ _ _ _ map_iter_exact) by lia. cbn [bind]. rewrite debug_map_text, map_map. reflexivity.
Qed.
End Collections.

Section Sets.
Context {T : Type} (f : T -> string).

Lemma set_debug_text {M Q} (ops : map_ops M T unit Q) m : set_debug f ops m = Ok (braces (map f (map fst (mo_entries ops m)))).
Proof. unfold set_debug, iter_new. rewrite (exact_drain _ _ _ _ set_iter_exact) by (rewrite map_length; lia). cbn [bind]. now rewrite debug_set_text. Qed.
Lemma set_iter_debug_text st : set_iter_debug f st = Ok (listing (map f (map fst st))).
Proof. unfold set_iter_debug, debug_iter. rewrite (exact_drain _ _ _ _ set_iter_exact) by (rewrite map_length; lia). cbn [bind]. now rewrite debug_list_text. Qed.

Lemma difference_debug_text st l : yields difference_next st l -> difference_debug f st = Ok (listing (map f l)).
Proof.
  apply (debug_iter_text _ (fun d => List.length (df_rest1 d))). clear. intros d x d'. unfold difference_next.
  destruct (next_where _ (df_rest1 d)) as [[o r]| |] eqn:E; cbn; try discriminate. intros H. injection H as -> <-.
  exact (next_where_shorter _ _ _ _ E).
Qed.

Lemma union_debug_text st l : yields union_next st l -> union_debug f st = Ok (listing (map f l)).
Proof.
  apply (debug_iter_text _ (fun u => List.length (un_rest1 u) + List.length (un_rest2 u))%nat). clear. intros u x u'. unfold union_next.
  destruct (Nat.ltb _ _); [destruct (un_rest1 u) as [|y r1] eqn:E1|destruct (un_rest2 u) as [|y r2] eqn:E2].
  - destruct (next_where _ (un_rest2 u)) as [[o r]| |] eqn:E; cbn; try discriminate. intros H. injection H as -> <-. cbn. rewrite E1.
    apply next_where_shorter in E. cbn. lia.
  - intros H. injection H as _ <-. cbn. lia.
  - destruct (next_where _ (un_rest1 u)) as [[o r]| |] eqn:E; cbn; try discriminate. intros H. injection H as -> <-. cbn. rewrite E2.
    apply next_where_shorter in E. cbn. lia.
  - intros H. injection H as _ <-. cbn. lia.
Qed.

Lemma intersection_debug_text st l : yields intersection_next st l -> intersection_debug f st = Ok (listing (map f l)).
Proof.
  apply (debug_iter_text _ (fun i => List.length (in_rest1 i) + List.length (in_rest2 i))%nat). clear. intros i x i'. unfold intersection_next.
  destruct (Nat.ltb _ _).
  - destruct (next_where _ (in_rest1 i)) as [[o r]| |] eqn:E; cbn; try discriminate. intros H. injection H as -> <-. cbn.
    apply next_where_shorter in E. lia.
  - destruct (next_where _ (in_rest2 i)) as [[o r]| |] eqn:E; cbn; try discriminate. intros H. injection H as -> <-. cbn.
    apply next_where_shorter in E. lia.
Qed.

Lemma symmetric_difference_debug_text s1 s2 a b : yields difference_next (difference_new s1 s2) a -> yields difference_next (difference_new s2 s1) b ->
  symmetric_difference_debug f (symmetric_difference_new s1 s2) =
    Ok ("Chain { a: Some(" ++ listing (map f a) ++ "), b: Some(" ++ listing (map f b) ++ ") }")%string.
Proof.
  intros A B. unfold symmetric_difference_debug, symmetric_difference_new. cbn [sd_a sd_b].
  rewrite (difference_debug_text _ _ A), (difference_debug_text _ _ B). cbn [fmap bind debug_option debug_tuple1]. unfold debug_tuple1.
  now rewrite !append_assoc.
Qed.
End Sets.

Lemma sets_print {M T Q} (ops : map_ops M T unit Q) eqT eqv m values f : made ops eqT eqv m (unit_entries values) ->
  exists l, yields (it_next set_iter) (iter_new (mo_entries ops m)) l /\ set_debug f ops m = Ok (braces (map f l)) /\ distinct eqT l /\
    (forall x, In x l <-> exists pre post, values = pre ++ x :: post /\ forall y, In y post -> eqT x y = false).
Proof.
  intros H. destruct (made_iteration _ _ _ _ _ H) as [A [B _]]. exists (map fst (mo_entries ops m)).
  split; [exact (ct_yields _ _ _ (exact_all _ _ set_iter_exact _))|]. split; [apply set_debug_text|]. split; [exact B|].
  assert (U : forall l : list T, map fst (unit_entries l) = l) by (intros; apply unit_fst). intros x. split.
  - intros I. apply in_map_iff in I. destruct I as [[y u] [<- I]]. apply A in I. destruct I as [pre [post [E P]]].
    exists (map fst pre), (map fst post). split.
    + rewrite <- (U values), E, map_app. reflexivity.
    + intros y' I. apply in_map_iff in I. destruct I as [e' [<- I]]. exact (P e' I).
  - intros [pre [post [E P]]]. apply in_map_iff. exists (x, tt). split; [reflexivity|]. apply A. exists (unit_entries pre), (unit_entries post).
    split; [rewrite E; unfold unit_entries; now rewrite map_app|]. intros e' I. unfold unit_entries in I. apply in_map_iff in I.
    destruct I as [y [<- I]]. exact (P y I).
Qed.

Lemma iterators_print {K V} (fK : K -> string) (fV : V -> string) :
  (forall st l, yields (it_next map_iter) st l -> iter_debug fK fV st = Ok (listing (map (pair_text fK fV) l))) /\
  (forall (st : list (K * V)) l, yields (it_next map_keys) st l -> keys_debug fK st = Ok (listing (map fK l))) /\
  (forall (st : list (K * V)) l, yields (it_next map_values) st l -> values_debug fV st = Ok (listing (map fV l))) /\
  (forall st l, yields (it_next set_iter) st l -> set_iter_debug fK st = Ok (listing (map fK l))).
Proof.
  split; [|split; [|split]]; intros st l Y.
  - rewrite (yields_fun _ _ _ _ Y (ct_yields _ _ _ (exact_all _ _ map_iter_exact st))). apply iter_debug_text.
  - rewrite (yields_fun _ _ _ _ Y (ct_yields _ _ _ (exact_all _ _ map_keys_exact st))). apply keys_debug_text.
  - rewrite (yields_fun _ _ _ _ Y (ct_yields _ _ _ (exact_all _ _ map_values_exact st))). apply values_debug_text.
  - rewrite (yields_fun _ _ _ _ Y (ct_yields _ _ _ (exact_all _ _ set_iter_exact st))). apply set_iter_debug_text.
Qed.

Lemma owned_print {K V} (fK : K -> string) (fV : V -> string) (st : list (K * V)) :
  let entries := listing (map (pair_text fK fV) st) in
  iter_mut_debug fK fV st = ("IterMut(" ++ entries ++ ")")%string /\ values_mut_debug fK fV st = ("IterMut(" ++ entries ++ ")")%string /\
  into_iter_debug fK fV st = ("IntoIter(" ++ entries ++ ")")%string /\
  into_keys_debug fK fV st = ("IntoKeys { inner: IntoIter(" ++ entries ++ ") }")%string /\
  into_values_debug fK fV st = ("IntoValues { inner: IntoIter(" ++ entries ++ ") }")%string.
Proof.
  cbv zeta. unfold values_mut_debug, into_keys_debug, into_values_debug, iter_mut_debug, into_iter_debug, debug_struct1, debug_tuple1. rewrite slice_debug_text.
  repeat split; now rewrite ?append_assoc.
Qed.
