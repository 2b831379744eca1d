(** Proofs about the reborrows that [get_mut] and [get_disjoint_mut] make. *)
From Verif Require Import ModelUtils ModelTables ModelMaps ModelEmit SpecAliasing ModelBorrows ProofsAliasing.
From Verif Require Import Prelude.

#[local] Arguments whole : simpl never.
#[local] Arguments from_to : simpl never.
#[local] Arguments entry_at : simpl never.
#[local] Arguments key_at : simpl never.
#[local] Arguments val_at : simpl never.
#[local] Arguments loc_eqb : simpl never.

(** ** Forgetting the record *)
Definition forgets (a : res borrows) (b : res (option nat)) : Prop := fmap snd a = b.

Lemma scan_forgets {K V Q} i c (eqv : Q -> K -> bool) (m : scan_map K V) q : forgets (scan_borrows i c eqv m q) (scan_get_mut eqv m q).
Proof.
  unfold forgets, scan_borrows, scan_get_mut. cbn. f_equal. generalize 0%nat as pos, (@None nat) as r. induction (sm_entries m) as [|e es IH]; intros pos r; cbn; [reflexivity|].
  apply IH.
Qed.
Lemma search_forgets {K V} c fuel (d : list (K * V)) f i s : forgets (search_borrows_loop c fuel d f i s) (eytzinger_search_loop fuel d f i).
Proof.
  revert i s. induction fuel as [|fuel IH]; intros i s; cbn; [reflexivity|]. destruct (nth_error d i) as [v|]; [|reflexivity].
  destruct (f v); [reflexivity| |]; unfold forgets in *;
    match goal with |- context [search_borrows_loop c fuel d f ?j (S s)] => specialize (IH j (S s)); rewrite <- IH; destruct (search_borrows_loop c fuel d f j (S s)) end; reflexivity.
Qed.
Lemma eytzinger_forgets {K V Q} i c (cmpQ : Q -> K -> comparison) (m : eytzinger_map K V) q :
  forgets (eytzinger_borrows i c cmpQ m q) (eytzinger_get_mut cmpQ m q).
Proof.
  unfold forgets, eytzinger_borrows, eytzinger_get_mut, eytzinger_search_by. rewrite <- (search_forgets c _ _ _ 0 0).
  destruct (search_borrows_loop _ _ _ _ _ _) as [[ev [p|]]| |]; cbn; try reflexivity. destruct (get_unchecked _ p); reflexivity.
Qed.
Lemma dense_forgets {K V Q} i c (idxQ : Q -> N) (m : dense_map K V) q : forgets (dense_borrows i c idxQ m q) (dense_get_mut idxQ m q).
Proof. unfold forgets, dense_borrows, dense_get_mut. cbv zeta. destruct (_ && _); [|reflexivity]. destruct (get_unchecked _ _); reflexivity. Qed.
Lemma sparse_forgets {K V Q} i c (idxQ : Q -> N) (m : sparse_map K V) q : forgets (sparse_borrows i c idxQ m q) (sparse_get_mut idxQ m q).
Proof.
  unfold forgets, sparse_borrows, sparse_get_mut. cbv zeta. destruct (_ && _); [|reflexivity].
  destruct (get_unchecked (sp_lookup m) _) as [x| |]; cbn [bind]; try reflexivity. destruct (0 <? x); [|reflexivity].
  destruct (get_unchecked _ _); reflexivity.
Qed.
Lemma slot_forgets {K V} c eq pos (l : list (K * V)) : snd (slot_borrows c eq pos l) = scan_slot_mut eq pos l.
Proof. revert pos. induction l as [|e r IH]; intros pos; cbn; [reflexivity|]. destruct (eq e); [reflexivity|]. apply IH. Qed.
Lemma hash_forgets {K V Q} i c hQ (eqv : Q -> K -> bool) (m : hash_map K V) q : forgets (hash_borrows i c hQ eqv m q) (hash_get_mut hQ eqv m q).
Proof.
  unfold forgets, hash_borrows, hash_get_mut, ht_find_mut. destruct (hQ q) as [h| |]; cbn [bind]; try reflexivity.
  destruct (get_unchecked _ _) as [[mn mx]| |]; cbn [bind]; try reflexivity. destruct (slice_unchecked _ _ _) as [es| |]; cbn [bind]; try reflexivity.
  cbn. rewrite slot_forgets. reflexivity.
Qed.
Lemma nc_forgets {K V Q} i c hQ (eqv : Q -> K -> bool) (m : nc_map K V) q : forgets (nc_borrows i c hQ eqv m q) (nc_get_mut hQ eqv m q).
Proof.
  unfold forgets, nc_borrows, nc_get_mut, nc_find_mut. destruct (hQ q) as [h| |]; cbn [bind]; try reflexivity.
  destruct (get_unchecked _ _) as [x| |]; cbn [bind]; try reflexivity. destruct (0 <? x); [|reflexivity].
  destruct (get_unchecked _ _) as [e| |]; reflexivity.
Qed.
Lemma recorded_forgets {M K V Q} (ops : map_ops M K V Q) m f : recorded ops m f -> forall inline call q, fmap snd (f inline call q) = mo_get_mut ops m q.
Proof.
  intros R i c q. destruct R.
  - exact (scan_forgets _ _ _ _ _).
  - exact (eytzinger_forgets _ _ _ _ _).
  - exact (dense_forgets _ _ _ _ _).
  - exact (sparse_forgets _ _ _ _ _).
  - exact (hash_forgets _ _ _ _ _ _).
  - exact (nc_forgets _ _ _ _ _ _).
  - destruct m; [exact (hash_forgets _ _ _ _ _ _)|exact (dense_forgets _ _ _ _ _)|exact (sparse_forgets _ _ _ _ _)].
  - destruct m; exact (hash_forgets _ _ _ _ _ _).
  - destruct m; [exact (scan_forgets _ _ _ _ _)|exact (eytzinger_forgets _ _ _ _ _)|exact (dense_forgets _ _ _ _ _)|exact (sparse_forgets _ _ _ _ _)|exact (hash_forgets _ _ _ _ _ _)|exact (nc_forgets _ _ _ _ _ _)].
Qed.
Lemma pointers_forget {M K V Q} (ops : map_ops M K V Q) m f inline : recorded ops m f -> forall keys c,
  fmap snd (pointers (f inline) c keys) = get_disjoint_unchecked_mut ops m keys.
Proof.
  intros R keys. unfold get_disjoint_unchecked_mut. induction keys as [|q r IH]; intros c; cbn [pointers mapM]; [reflexivity|].
  rewrite <- (recorded_forgets _ _ _ R inline c q). destruct (f inline c q) as [[ev o]| |]; cbn [bind fmap]; try reflexivity.
  rewrite <- (IH (S c)). destruct (pointers (f inline) (S c) r); reflexivity.
Qed.
Lemma disjoint_forgets {M K V Q} (ops : map_ops M K V Q) m f inline eqQ keys : recorded ops m f ->
  fmap snd (disjoint_borrows (f inline) eqQ keys) = get_disjoint_mut ops eqQ m keys.
Proof.
  intros R. unfold disjoint_borrows, get_disjoint_mut, unchecked_borrows. destruct (has_duplicates eqQ keys); [reflexivity|].
  rewrite <- (pointers_forget _ _ _ inline R keys 0). destruct (pointers (f inline) 0 keys); reflexivity.
Qed.

(** ** What each call does, location by location *)
Lemma entry_whole n p l : (p < n)%nat -> entry_at p l = true -> whole n l = true.
Proof. unfold entry_at, whole. intros H E. apply Nat.eqb_eq in E. apply Nat.ltb_lt. lia. Qed.
Lemma val_entry p l : val_at p l = true -> entry_at p l = true.
Proof. unfold val_at, entry_at. intros E. apply loc_eqb_spec in E. subst l. apply Nat.eqb_refl. Qed.
Lemma key_entry p l : key_at p l = true -> entry_at p l = true.
Proof. unfold key_at, entry_at. intros E. apply loc_eqb_spec in E. subst l. apply Nat.eqb_refl. Qed.
Lemma not_entry p l : entry_at p l = false -> val_at p l = false /\ key_at p l = false.
Proof.
  intros E. split; [destruct (val_at p l) eqn:X; [apply val_entry in X; congruence|reflexivity]|].
  destruct (key_at p l) eqn:X; [apply key_entry in X; congruence|reflexivity].
Qed.
Lemma entry_cases p l : entry_at p l = true -> (l = KeyAt p /\ key_at p l = true /\ val_at p l = false) \/ (l = ValAt p /\ key_at p l = false /\ val_at p l = true).
Proof.
  unfold entry_at, key_at, val_at. intros E. apply Nat.eqb_eq in E. destruct l as [i|i]; cbn in E; subst i; [left|right]; unfold loc_eqb; rewrite Nat.eqb_refl; auto.
Qed.
Lemma val_at_self p : val_at p (ValAt p) = true.
Proof. apply loc_eqb_refl. Qed.

Definition silent (l : loc) (e : event) : bool :=
  match e with Reborrow _ _ _ range => negb (range l) | Use _ _ l' => negb (loc_eqb l l') end.
Lemma wf_silent l e s : silent l e = true -> wf_step l e s = Some s.
Proof. destruct e; cbn; intros H; apply negb_true_iff in H; rewrite H; reflexivity. Qed.
Lemma sb_silent l e s : silent l e = true -> sb_step l e s = Some s.
Proof. destruct e; cbn; intros H; apply negb_true_iff in H; rewrite H; reflexivity. Qed.

Section Blocks.
Context {S : Type} (step : event -> S -> option S) (l : loc) (ok : forall e s, silent l e = true -> step e s = Some s).
Lemma run_silent p s : forallb (silent l) p = true -> run step p s = Some s.
Proof. induction p as [|e p IH]; cbn [forallb run]; [reflexivity|]. intros H. apply andb_prop in H. rewrite ok by apply H. apply IH, H. Qed.

Definition scan_block (c p : nat) (found : bool) : list event :=
  [Reborrow Mutable (Ptr c APtr) (Ptr c (AEntry p)) (entry_at p); Reborrow Shared (Ptr c (AEntry p)) (Ptr c (AKey p)) (key_at p);
   Use false (Ptr c (AKey p)) (KeyAt p)] ++ (if found then [Reborrow Mutable (Ptr c (AEntry p)) (Ptr c (AVal p)) (val_at p)] else []).
Lemma scan_block_silent c p found : entry_at p l = false -> forallb (silent l) (scan_block c p found) = true.
Proof.
  intros E. destruct (not_entry _ _ E) as [V K]. unfold scan_block. change (loc_eqb l (KeyAt p)) with (key_at p l) in *.
  destruct found; cbn; change (loc_eqb l (KeyAt p)) with (key_at p l); rewrite E, K, ?V; reflexivity.
Qed.
Lemma scan_run {K V Q} c (eqv : Q -> K -> bool) key (es : list (K * V)) pos r s :
  run step (fst (scan_borrows_loop c eqv es pos key r)) s =
  match (if Nat.ltb (entry_of l) pos then None else nth_error es (entry_of l - pos)) with
  | Some e => run step (scan_block c (entry_of l) (eqv key (fst e))) s
  | None => Some s
  end.
Proof.
  revert pos r s. induction es as [|e es IH]; intros pos r s.
  - cbn [scan_borrows_loop fst run]. destruct (Nat.ltb (entry_of l) pos); [reflexivity|]. destruct (entry_of l - pos)%nat; reflexivity.
  - cbn [scan_borrows_loop fst]. rewrite app_assoc. fold (scan_block c pos (eqv key (fst e))). rewrite run_app.
    destruct (entry_at pos l) eqn:E.
    + pose proof E as E'. unfold entry_at in E'. apply Nat.eqb_eq in E'. rewrite E', Nat.ltb_irrefl, Nat.sub_diag. cbn [nth_error].
      destruct (run step (scan_block c pos _) s) as [s1|]; [|reflexivity]. rewrite IH. rewrite E'.
      replace (Nat.ltb pos (Datatypes.S pos)) with true by (symmetry; apply Nat.ltb_lt; lia). reflexivity.
    + rewrite run_silent by (apply scan_block_silent; exact E). rewrite IH. unfold entry_at in E. apply Nat.eqb_neq in E.
      destruct (Nat.ltb (entry_of l) pos) eqn:L.
      * apply Nat.ltb_lt in L. replace (Nat.ltb (entry_of l) (Datatypes.S pos)) with true by (symmetry; apply Nat.ltb_lt; lia). reflexivity.
      * apply Nat.ltb_ge in L. replace (Nat.ltb (entry_of l) (Datatypes.S pos)) with false by (symmetry; apply Nat.ltb_ge; lia).
        replace (entry_of l - pos)%nat with (Datatypes.S (entry_of l - Datatypes.S pos)) by lia. reflexivity.
Qed.

Definition slot_block (c p : nat) (found : bool) : list event :=
  [Reborrow Shared (Ptr c APtr) (Ptr c (ASeen p)) (entry_at p); Use false (Ptr c (ASeen p)) (KeyAt p)] ++
  (if found then [Reborrow Mutable (Ptr c APtr) (Ptr c (AEntry p)) (entry_at p); Reborrow Mutable (Ptr c (AEntry p)) (Ptr c (AVal p)) (val_at p)] else []).
Lemma slot_block_silent c p found : entry_at p l = false -> forallb (silent l) (slot_block c p found) = true.
Proof.
  intros E. destruct (not_entry _ _ E) as [V K]. unfold slot_block.
  destruct found; cbn; change (loc_eqb l (KeyAt p)) with (key_at p l); rewrite E, K, ?V; reflexivity.
Qed.
(** Either the loop does not come to the entry of [l], or it runs its block there; the entry found is that of the last block. *)
Lemma slot_run {K V} c eq pos (es : list (K * V)) s :
  (run step (fst (slot_borrows c eq pos es)) s = Some s /\ snd (slot_borrows c eq pos es) <> Some (entry_of l)) \/
  exists found, (pos <= entry_of l < pos + length es)%nat /\ run step (fst (slot_borrows c eq pos es)) s = run step (slot_block c (entry_of l) found) s /\
    (snd (slot_borrows c eq pos es) = Some (entry_of l) -> found = true).
Proof.
  revert pos. induction es as [|e es IH]; intros pos; cbn [slot_borrows].
  - left. split; [reflexivity|discriminate].
  - destruct (entry_at pos l) eqn:E.
    + right. pose proof E as E'. unfold entry_at in E'. apply Nat.eqb_eq in E'. exists (eq e). split; [cbn [length]; lia|]. rewrite E'.
      destruct (eq e); [cbn [fst snd]; auto|]. cbn [fst snd]. rewrite run_app. unfold slot_block. rewrite app_nil_r. split.
      * destruct (run step [_; _] s) as [s1|]; [|reflexivity]. destruct (IH (Datatypes.S pos)) as [[H _]|[found [H _]]]; [|lia].
        (* the rest is silent *)
        clear -ok E'. revert s1. assert (L : (entry_of l < Datatypes.S pos)%nat) by lia. revert L. clear E'. generalize (Datatypes.S pos) as q.
        induction es as [|e es IH]; intros q L s1; cbn [slot_borrows]; [reflexivity|].
        assert (E : entry_at q l = false) by (unfold entry_at; apply Nat.eqb_neq; lia).
        destruct (eq e); cbn [fst]; [apply run_silent; exact (slot_block_silent c q true E)|]. rewrite run_app.
        pose proof (slot_block_silent c q false E) as X. unfold slot_block in X. rewrite app_nil_r in X. rewrite run_silent by exact X. apply IH. lia.
      * intros X. exfalso. rewrite slot_forgets in X. clear -X. assert (L : (pos < Datatypes.S pos)%nat) by lia. revert X L. generalize (Datatypes.S pos) as q.
        induction es as [|e es IH]; intros q X L; cbn in X; [discriminate|]. destruct (eq e); [injection X as X; lia|]. exact (IH _ X ltac:(lia)).
    + pose proof (fun f => slot_block_silent c pos f E) as X. unfold slot_block in X. destruct (eq e) eqn:Ee.
      * left. cbn [fst snd]. rewrite run_silent by exact (X true). split; [reflexivity|]. unfold entry_at in E. apply Nat.eqb_neq in E. congruence.
      * specialize (X false). rewrite app_nil_r in X. cbn [fst snd]. rewrite run_app, (run_silent _ _ X).
        destruct (IH (Datatypes.S pos)) as [H|[found [H1 H2]]]; [left; exact H|right; exists found]. split; [cbn [length]; lia|exact H2].
Qed.
End Blocks.

(** ** One call *)
Definition ext (c : nat) (ks ks' : names) : Prop := forall t, (forall w, t = Ptr c w -> w = ARaw \/ w = ARef) -> named t ks' = named t ks.
Lemma ext_refl c ks : ext c ks ks.
Proof. intros t _. reflexivity. Qed.
Lemma ext_cons c w b ks ks' : w <> ARaw -> w <> ARef -> ext c ks ks' -> ext c ks ((Ptr c w, b) :: ks').
Proof.
  intros H1 H2 X t Ht. cbn [named]. destruct (tag_eqb (Ptr c w) t) eqn:E; [|exact (X t Ht)]. apply tag_eqb_spec in E. subst t.
  destruct (Ht w eq_refl); congruence.
Qed.
Definition own_names (c : nat) (ev : list event) : Prop :=
  forall t, In t (flat_map introduces ev) -> exists w, t = Ptr c w /\ w <> ARaw /\ w <> ARef.
Lemma own_names_app c a b : own_names c a -> own_names c b -> own_names c (a ++ b).
Proof. intros A B t. rewrite flat_map_app. intros H. apply in_app_or in H. destruct H; auto. Qed.
Definition takes_all (n c : nat) (ev : list event) : Prop := exists pre w post, ev = pre ++ Reborrow Mutable Owner (Ptr c w) (whole n) :: post.
Lemma takes_all_app n c a b : takes_all n c a -> takes_all n c (a ++ b).
Proof. intros [pre [w [post ->]]]. exists pre, w, (post ++ b). rewrite <- app_assoc. reflexivity. Qed.
Lemma takes_all_pre n c a b : takes_all n c b -> takes_all n c (a ++ b).
Proof. intros [pre [w [post ->]]]. exists (a ++ pre), w, post. rewrite <- app_assoc. reflexivity. Qed.

Record good (inline : bool) (n c : nat) (b : borrows) : Prop := {
  g_range : forall p, snd b = Some p -> (p < n)%nat;
  g_names : own_names c (fst b);
  g_whole : snd b <> None \/ inline = true -> takes_all n c (fst b);
  g_wf : forall l ks, named Owner ks = Some true -> (forall w, named (Ptr c w) ks = None) ->
    exists ks', run (wf_step l) (fst b) ks = Some ks' /\ ext c ks ks' /\
      forall p, snd b = Some p -> l = ValAt p -> named (Ptr c (AVal p)) ks' = Some true;
  g_sb : forall l, exists s, run (sb_step l) (fst b) [(Unique, Owner)] = Some s /\
      forall p, snd b = Some p -> l = ValAt p -> exists s0, s = (Unique, Ptr c (AVal p)) :: s0 }.

Ltac facts :=
  repeat match goal with
  | H : named _ _ = _ |- _ => rewrite !H
  | H : (forall w, named (Ptr _ w) _ = None) |- _ => rewrite !H
  | H : whole _ _ = _ |- _ => rewrite !H
  | H : from_to _ _ _ = _ |- _ => rewrite !H
  | H : entry_at _ _ = _ |- _ => rewrite !H
  | H : key_at _ _ = _ |- _ => rewrite !H
  | H : val_at _ _ = _ |- _ => rewrite !H
  | H : loc_eqb _ _ = _ |- _ => rewrite !H
  end.
Ltac sym := repeat (progress (cbn; try unfold sb_access; rewrite ?Nat.eqb_refl, ?loc_eqb_refl; facts)).
Ltac at_entry p l :=
  destruct (entry_at p l) eqn:?E;
  [ destruct (entry_cases p l ltac:(assumption)) as [[?L [?K ?V]]|[?L [?K ?V]]] | destruct (not_entry p l ltac:(assumption)) as [?V ?K]];
  match goal with X : key_at p l = ?b |- _ => pose proof (X : loc_eqb l (KeyAt p) = b) end.
Ltac exts := repeat (apply ext_cons; [discriminate|discriminate|]); try apply ext_refl.
Ltac own := unfold own_names; cbn; intros t H; repeat (destruct H as [<-|H]; [eexists; split; [reflexivity|split; discriminate]|]); destruct H.

Section OneCall.
Variables (inline : bool) (c n : nat).

Lemma on_self_names : own_names c (on_self inline c n).
Proof. destruct inline; own. Qed.
Lemma on_self_takes : inline = true -> takes_all n c (on_self inline c n).
Proof. intros ->. exists [], ASelf, []. reflexivity. Qed.
Lemma slice_takes rest : takes_all n c (on_self inline c n ++ Reborrow Mutable (self_ptr inline c) (Ptr c ASlice) (whole n) :: rest).
Proof. destruct inline; cbn; [exists [], ASelf; eexists; reflexivity|exists [], ASlice; eexists; reflexivity]. Qed.

Lemma miss_good : good inline n c (on_self inline c n, None).
Proof.
  split; cbn [fst snd].
  - discriminate.
  - apply on_self_names.
  - intros [H|H]; [congruence|exact (on_self_takes H)].
  - intros l ks HO HF. destruct inline; cbn.
    + destruct (whole n l); [sym|]; (eexists; split; [reflexivity|]); (split; [exts|discriminate]).
    + eexists. split; [reflexivity|]. split; [exts|discriminate].
  - intros l. destruct inline; cbn; [destruct (whole n l); cbn|]; (eexists; split; [reflexivity|discriminate]).
Qed.
Lemma take_good p : (p < n)%nat -> good inline n c (on_self inline c n ++ take_entry inline c n p, Some p).
Proof.
  intros HP. split; cbn [fst snd].
  - intros q H. injection H as <-. exact HP.
  - apply own_names_app; [apply on_self_names|own].
  - intros _. apply slice_takes.
  - intros l ks HO HF. unfold take_entry, on_self, self_ptr. destruct (whole n l) eqn:W.
    + at_entry p l; destruct inline; sym; (eexists; split; [reflexivity|]); (split; [exts|]); intros q Hq ->; injection Hq as <-; try discriminate;
        try (rewrite val_at_self in *; discriminate); cbn; rewrite ?Nat.eqb_refl; cbn; rewrite ?Nat.eqb_refl; reflexivity.
    + destruct (entry_at p l) eqn:E; [rewrite (entry_whole n p l HP E) in W; discriminate|]. destruct (not_entry p l E) as [V K].
      destruct inline; sym; (eexists; split; [reflexivity|]); (split; [exts|]); intros q Hq ->; injection Hq as <-; rewrite val_at_self in V; discriminate.
  - intros l. unfold take_entry, on_self, self_ptr. destruct (whole n l) eqn:W.
    + at_entry p l; destruct inline; sym; (eexists; split; [reflexivity|]); intros q Hq ->; injection Hq as <-; try discriminate;
        try (rewrite val_at_self in *; discriminate); eexists; reflexivity.
    + destruct (entry_at p l) eqn:E; [rewrite (entry_whole n p l HP E) in W; discriminate|]. destruct (not_entry p l E) as [V K].
      destruct inline; sym; (eexists; split; [reflexivity|]); intros q Hq ->; injection Hq as <-; rewrite val_at_self in V; discriminate.
Qed.

(** *** Scan *)
Section Scan.
Context {K V Q : Type} (eqv : Q -> K -> bool) (key : Q).
Lemma scan_names (es : list (K * V)) pos r : own_names c (fst (scan_borrows_loop c eqv es pos key r)).
Proof.
  revert pos r. induction es as [|e es IH]; intros pos r; cbn [scan_borrows_loop fst]; [own|]. rewrite app_assoc. apply own_names_app; [|apply IH].
  destruct (eqv key (fst e)); own.
Qed.
Lemma scan_found (es : list (K * V)) pos r p : snd (scan_borrows_loop c eqv es pos key r) = Some p ->
  r = Some p \/ exists e, (pos <= p)%nat /\ nth_error es (p - pos) = Some e /\ eqv key (fst e) = true.
Proof.
  revert pos r. induction es as [|e es IH]; intros pos r; cbn [scan_borrows_loop snd]; [auto|]. intros H. destruct (IH _ _ H) as [X|[e' [L [N E]]]].
  - destruct (eqv key (fst e)) eqn:Ee; [|auto]. injection X as <-. right. exists e. rewrite Nat.sub_diag. cbn. auto.
  - right. exists e'. replace (p - pos)%nat with (S (p - S pos)) by lia. cbn. split; [lia|auto].
Qed.
Lemma scan_good (es : list (K * V)) : n = length es ->
  good inline n c (on_self inline c n ++ [Reborrow Mutable (self_ptr inline c) (Ptr c ASlice) (whole n); Reborrow Raw (Ptr c ASlice) (Ptr c APtr) (whole n)] ++
    fst (scan_borrows_loop c eqv es 0 key None), snd (scan_borrows_loop c eqv es 0 key None)).
Proof.
  intros HN.
  assert (FD : forall p, snd (scan_borrows_loop c eqv es 0 key None) = Some p -> exists e, nth_error es p = Some e /\ eqv key (fst e) = true).
  { intros p H. destruct (scan_found _ _ _ _ H) as [X|[e [_ X]]]; [discriminate|]. rewrite Nat.sub_0_r in X. eauto. }
  assert (FN : forall p, snd (scan_borrows_loop c eqv es 0 key None) = Some p -> (p < n)%nat).
  { intros p H. destruct (FD p H) as [e [X _]]. subst n. apply nth_error_Some. congruence. }
  assert (OUT : forall l, whole n l = false -> nth_error es (entry_of l - 0) = None).
  { intros l W. unfold whole in W. apply Nat.ltb_ge in W. apply nth_error_None. lia. }
  assert (IN : forall l, whole n l = true -> exists e, nth_error es (entry_of l - 0) = Some e).
  { intros l W. unfold whole in W. apply Nat.ltb_lt in W. destruct (nth_error es (entry_of l - 0)) eqn:X; [eauto|]. apply nth_error_None in X. lia. }
  split; cbn [fst snd].
  - exact FN.
  - apply own_names_app; [apply on_self_names|]. apply own_names_app; [own|apply scan_names].
  - intros _. apply slice_takes.
  - intros l ks HO HF. rewrite app_assoc, run_app.
    assert (X : run (wf_step l) (on_self inline c n ++ [Reborrow Mutable (self_ptr inline c) (Ptr c ASlice) (whole n); Reborrow Raw (Ptr c ASlice) (Ptr c APtr) (whole n)]) ks =
      Some (if whole n l then (Ptr c APtr, true) :: (Ptr c ASlice, true) :: (if inline then (Ptr c ASelf, true) :: ks else ks) else ks)).
    { unfold on_self, self_ptr. destruct inline; destruct (whole n l) eqn:W; sym; reflexivity. }
    rewrite X.
    rewrite (scan_run (wf_step l) l (wf_silent l)). change (Nat.ltb (entry_of l) 0) with false. cbv iota.
    destruct (whole n l) eqn:W.
    + destruct (IN l W) as [e HE]. rewrite HE. set (p := entry_of l) in *. assert (E : entry_at p l = true) by apply Nat.eqb_refl.
      unfold scan_block. destruct (entry_cases p l E) as [[L [Kk Vv]]|[L [Kk Vv]]]; pose proof (Kk : loc_eqb l (KeyAt p) = _) as KL; clearbody p.
      * destruct inline, (eqv key (fst e)); sym; (eexists; split; [reflexivity|]); (split; [exts|]); intros q _ ->; discriminate.
      * rewrite Nat.sub_0_r in HE. destruct inline, (eqv key (fst e)) eqn:FE; sym; (eexists; split; [reflexivity|]); (split; [exts|]); intros q Hq ->; injection L as <-;
          try (destruct (FD _ Hq) as [e' [X1 X2]]; congruence); cbn; rewrite ?Nat.eqb_refl; cbn; rewrite ?Nat.eqb_refl; reflexivity.
    + rewrite (OUT l W). destruct inline; (eexists; split; [reflexivity|]); (split; [exts|]); intros q Hq ->; apply FN in Hq; unfold whole in W; cbn in W;
        apply Nat.ltb_ge in W; lia.
  - intros l. rewrite app_assoc, run_app.
    assert (X : exists s, run (sb_step l) (on_self inline c n ++ [Reborrow Mutable (self_ptr inline c) (Ptr c ASlice) (whole n); Reborrow Raw (Ptr c ASlice) (Ptr c APtr) (whole n)]) [(Unique, Owner)] = Some s /\
      (whole n l = true -> exists r, s = (SharedRW, Ptr c APtr) :: r)).
    { unfold on_self, self_ptr. destruct inline; destruct (whole n l) eqn:W; sym; (eexists; split; [reflexivity|]); intros; try discriminate; eexists; reflexivity. }
    destruct X as [s [-> X2]].
    rewrite (scan_run (sb_step l) l (sb_silent l)). change (Nat.ltb (entry_of l) 0) with false. cbv iota.
    destruct (whole n l) eqn:W.
    + destruct (X2 eq_refl) as [r ->]. destruct (IN l W) as [e HE]. rewrite HE. set (p := entry_of l) in *. assert (E : entry_at p l = true) by apply Nat.eqb_refl.
      unfold scan_block. destruct (entry_cases p l E) as [[L [Kk Vv]]|[L [Kk Vv]]]; pose proof (Kk : loc_eqb l (KeyAt p) = _) as KL; clearbody p.
      * destruct (eqv key (fst e)); sym; (eexists; split; [reflexivity|]); intros q _ ->; discriminate.
      * rewrite Nat.sub_0_r in HE. destruct (eqv key (fst e)) eqn:FE; sym; (eexists; split; [reflexivity|]); intros q Hq ->; injection L as <-;
          try (destruct (FD _ Hq) as [e' [Y1 Y2]]; congruence); eexists; reflexivity.
    + rewrite (OUT l W). eexists. split; [reflexivity|]. intros q Hq ->. apply FN in Hq. unfold whole in W. cbn in W. apply Nat.ltb_ge in W. lia.
Qed.
End Scan.

(** *** Hash *)
Section Hash.
Context {K V : Type} (eq : K * V -> bool).
Lemma slot_names (es : list (K * V)) pos : own_names c (fst (slot_borrows c eq pos es)).
Proof.
  revert pos. induction es as [|e es IH]; intros pos; cbn [slot_borrows]; [own|]. destruct (eq e); cbn [fst]; [own|]. apply own_names_app; [own|apply IH].
Qed.
Lemma slot_range (es : list (K * V)) pos p : snd (slot_borrows c eq pos es) = Some p -> (pos <= p < pos + length es)%nat.
Proof.
  revert pos. induction es as [|e es IH]; intros pos; cbn [slot_borrows length]; [discriminate|]. destruct (eq e); cbn [snd].
  - intros H. injection H as <-. lia.
  - intros H. apply IH in H. lia.
Qed.
Lemma hash_good (es : list (K * V)) mn mx : (mn <= mx <= n)%nat -> length es = (mx - mn)%nat ->
  good inline n c (on_self inline c n ++ [Reborrow Mutable (self_ptr inline c) (Ptr c ASlice) (whole n);
      Reborrow Mutable (Ptr c ASlice) (Ptr c ARange) (from_to mn mx); Reborrow Raw (Ptr c ARange) (Ptr c APtr) (from_to mn mx)] ++
    fst (slot_borrows c eq mn es), snd (slot_borrows c eq mn es)).
Proof.
  intros HR HL.
  assert (IN : forall l, from_to mn mx l = true -> whole n l = true).
  { intros l. unfold from_to, whole. intros H. apply andb_prop in H. destruct H as [H1 H2]. apply Nat.leb_le in H1. apply Nat.ltb_lt in H2. apply Nat.ltb_lt. lia. }
  assert (VIS : forall l, (mn <= entry_of l < mn + length es)%nat -> from_to mn mx l = true).
  { intros l H. unfold from_to. apply andb_true_intro. split; [apply Nat.leb_le|apply Nat.ltb_lt]; lia. }
  split; cbn [fst snd].
  - intros p H. apply slot_range in H. lia.
  - apply own_names_app; [apply on_self_names|]. apply own_names_app; [own|apply slot_names].
  - intros _. apply slice_takes.
  - intros l ks HO HF. rewrite app_assoc, run_app.
    assert (X : exists ks1, run (wf_step l) (on_self inline c n ++ [Reborrow Mutable (self_ptr inline c) (Ptr c ASlice) (whole n);
      Reborrow Mutable (Ptr c ASlice) (Ptr c ARange) (from_to mn mx); Reborrow Raw (Ptr c ARange) (Ptr c APtr) (from_to mn mx)]) ks = Some ks1 /\ ext c ks ks1 /\
      (from_to mn mx l = true -> named (Ptr c APtr) ks1 = Some true /\ forall j, named (Ptr c (ASeen j)) ks1 = None /\ named (Ptr c (AEntry j)) ks1 = None /\ named (Ptr c (AVal j)) ks1 = None)).
    { unfold on_self, self_ptr. destruct (from_to mn mx l) eqn:F; [pose proof (IN l F) as W|destruct (whole n l) eqn:W]; destruct inline; sym;
        (eexists; split; [reflexivity|]); (split; [exts|]); intros; try discriminate; (split; [sym; reflexivity|]); intros j; sym; auto. }
    destruct X as [ks1 [-> [EX X]]]. destruct (slot_run (wf_step l) l (wf_silent l) c eq mn es ks1) as [[-> ND]|[found [RG [-> FD]]]].
    + exists ks1. split; [reflexivity|]. split; [exact EX|]. intros p Hp ->. cbn in ND. congruence.
    + destruct (X (VIS l RG)) as [X1 X2]. set (p := entry_of l) in *. destruct (X2 p) as [X3 [X4 X5]]. assert (E : entry_at p l = true) by apply Nat.eqb_refl. clear X X2 HF HO.
      assert (EX' : forall ks2, ext c ks1 ks2 -> ext c ks ks2) by (intros ks2 Z t Ht; rewrite (Z t Ht); exact (EX t Ht)). clear EX.
      unfold slot_block. destruct (entry_cases p l E) as [[L [Kk Vv]]|[L [Kk Vv]]]; pose proof (Kk : loc_eqb l (KeyAt p) = _) as KL; clearbody p.
      * destruct found; sym; (eexists; split; [reflexivity|]); (split; [apply EX'; exts|]); intros q _ ->; discriminate.
      * destruct found; sym; (eexists; split; [reflexivity|]); (split; [apply EX'; exts|]); intros q Hq ->; injection L as <-; [|specialize (FD Hq); discriminate];
          cbn; rewrite ?Nat.eqb_refl; cbn; rewrite ?Nat.eqb_refl; reflexivity.
  - intros l. rewrite app_assoc, run_app.
    assert (X : exists s, run (sb_step l) (on_self inline c n ++ [Reborrow Mutable (self_ptr inline c) (Ptr c ASlice) (whole n);
      Reborrow Mutable (Ptr c ASlice) (Ptr c ARange) (from_to mn mx); Reborrow Raw (Ptr c ARange) (Ptr c APtr) (from_to mn mx)]) [(Unique, Owner)] = Some s /\
      (from_to mn mx l = true -> exists r, s = (SharedRW, Ptr c APtr) :: r)).
    { unfold on_self, self_ptr. destruct (from_to mn mx l) eqn:F; [pose proof (IN l F) as W|destruct (whole n l) eqn:W]; destruct inline; sym;
        (eexists; split; [reflexivity|]); intros; try discriminate; eexists; reflexivity. }
    destruct X as [s [-> X]]. destruct (slot_run (sb_step l) l (sb_silent l) c eq mn es s) as [[-> ND]|[found [RG [-> FD]]]].
    + exists s. split; [reflexivity|]. intros p Hp ->. cbn in ND. congruence.
    + destruct (X (VIS l RG)) as [r ->]. set (p := entry_of l) in *. assert (E : entry_at p l = true) by apply Nat.eqb_refl.
      unfold slot_block. destruct (entry_cases p l E) as [[L [Kk Vv]]|[L [Kk Vv]]]; pose proof (Kk : loc_eqb l (KeyAt p) = _) as KL; clearbody p.
      * destruct found; sym; (eexists; split; [reflexivity|]); intros q _ ->; discriminate.
      * destruct found; sym; (eexists; split; [reflexivity|]); intros q Hq ->; injection L as <-; [|specialize (FD Hq); discriminate]; eexists; reflexivity.
Qed.
End Hash.
Lemma nc_good p (found : bool) : (p < n)%nat ->
  good inline n c (on_self inline c n ++ [Reborrow Mutable (self_ptr inline c) (Ptr c ASlice) (whole n); Reborrow Mutable (Ptr c ASlice) (Ptr c (AEntry p)) (entry_at p);
      Reborrow Shared (Ptr c (AEntry p)) (Ptr c (ASeen p)) (entry_at p); Use false (Ptr c (ASeen p)) (KeyAt p)] ++
    (if found then [Reborrow Mutable (Ptr c (AEntry p)) (Ptr c (AVal p)) (val_at p)] else []), if found then Some p else None).
Proof.
  intros HP. split; cbn [fst snd].
  - intros q. destruct found; [|discriminate]. intros H. injection H as <-. exact HP.
  - apply own_names_app; [apply on_self_names|]. destruct found; own.
  - intros _. apply slice_takes.
  - intros l ks HO HF. unfold on_self, self_ptr. destruct (whole n l) eqn:W.
    + at_entry p l; destruct inline, found; sym; (eexists; split; [reflexivity|]); (split; [exts|]); intros q Hq ->; try discriminate; injection Hq as <-;
        try (rewrite val_at_self in *; discriminate); cbn; rewrite ?Nat.eqb_refl; cbn; rewrite ?Nat.eqb_refl; reflexivity.
    + destruct (entry_at p l) eqn:E; [rewrite (entry_whole n p l HP E) in W; discriminate|]. destruct (not_entry p l E) as [V K]. pose proof (K : loc_eqb l (KeyAt p) = _).
      destruct inline, found; sym; (eexists; split; [reflexivity|]); (split; [exts|]); intros q Hq ->; try discriminate; injection Hq as <-; rewrite val_at_self in V; discriminate.
  - intros l. unfold on_self, self_ptr. destruct (whole n l) eqn:W.
    + at_entry p l; destruct inline, found; sym; (eexists; split; [reflexivity|]); intros q Hq ->; try discriminate; injection Hq as <-;
        try (rewrite val_at_self in *; discriminate); eexists; reflexivity.
    + destruct (entry_at p l) eqn:E; [rewrite (entry_whole n p l HP E) in W; discriminate|]. destruct (not_entry p l E) as [V K]. pose proof (K : loc_eqb l (KeyAt p) = _).
      destruct inline, found; sym; (eexists; split; [reflexivity|]); intros q Hq ->; try discriminate; injection Hq as <-; rewrite val_at_self in V; discriminate.
Qed.

(** *** Eytzinger *)
Section Eytzinger.
Context {K V : Type} (d : list (K * V)) (f : K * V -> comparison).
Hypothesis HN : n = length d.
Lemma search_names fuel i s b : search_borrows_loop c fuel d f i s = Ok b -> own_names c (fst b).
Proof.
  revert i s b. induction fuel as [|fuel IH]; intros i s b; cbn; [discriminate|]. destruct (nth_error d i) as [v|]; [|intros H; injection H as <-; own].
  destruct (f v); [intros H; injection H as <-; own|..]; intros H;
    match type of H with context [search_borrows_loop c fuel d f ?j (S s)] => destruct (search_borrows_loop c fuel d f j (S s)) as [b'| |] eqn:E; cbn in H; try discriminate end;
    injection H as <-; cbn [fst]; apply (own_names_app c [_; _]); [own|exact (IH _ _ _ E)|own|exact (IH _ _ _ E)].
Qed.
Lemma search_wf l fuel i s b : search_borrows_loop c fuel d f i s = Ok b -> forall ks, (whole n l = true -> named (Ptr c AView) ks = Some false) ->
  (forall j, (s <= j)%nat -> named (Ptr c (ASeen j)) ks = None) ->
  exists ks', run (wf_step l) (fst b) ks = Some ks' /\ forall t, (forall j, t <> Ptr c (ASeen j)) -> named t ks' = named t ks.
Proof.
  revert i s b. induction fuel as [|fuel IH]; intros i s b; cbn; [discriminate|]. destruct (nth_error d i) as [v|] eqn:NI; [|intros H; injection H as <-; cbn; eauto].
  assert (HI : (i < n)%nat) by (rewrite HN; apply nth_error_Some; congruence).
  assert (STEP : forall ks, (whole n l = true -> named (Ptr c AView) ks = Some false) -> (forall j, (s <= j)%nat -> named (Ptr c (ASeen j)) ks = None) ->
    exists ks', run (wf_step l) [Reborrow Shared (Ptr c AView) (Ptr c (ASeen s)) (entry_at i); Use false (Ptr c (ASeen s)) (KeyAt i)] ks = Some ks' /\
      (ks' = ks \/ ks' = (Ptr c (ASeen s), false) :: ks)).
  { intros ks HV HF. at_entry i l; try (pose proof (HV (entry_whole n i l HI E)) as HV'); pose proof (HF s (Nat.le_refl s)) as HF'; sym; eexists; split; try reflexivity; auto. }
  destruct (f v).
  - intros H ks HV HF. injection H as <-. destruct (STEP ks HV HF) as [ks' [E X]]. exists ks'. split; [exact E|]. intros t Ht. destruct X as [->| ->]; [reflexivity|].
    cbn [named]. destruct (tag_eqb (Ptr c (ASeen s)) t) eqn:Et; [apply tag_eqb_spec in Et; subst t; destruct (Ht s eq_refl)|reflexivity].
  - intros H ks HV HF. match type of H with context [search_borrows_loop c fuel d f ?j (S s)] => destruct (search_borrows_loop c fuel d f j (S s)) as [b'| |] eqn:E; cbn in H; try discriminate end.
    injection H as <-. cbn [fst]. destruct (STEP ks HV HF) as [ks1 [E1 X]]. change (?a :: ?b :: ?r) with ([a; b] ++ r). rewrite run_app, E1.
    assert (P : forall t, (forall j, t <> Ptr c (ASeen j)) -> named t ks1 = named t ks).
    { intros t Ht. destruct X as [->| ->]; [reflexivity|]. cbn [named]. destruct (tag_eqb (Ptr c (ASeen s)) t) eqn:Et; [apply tag_eqb_spec in Et; subst t; destruct (Ht s eq_refl)|reflexivity]. }
    destruct (IH _ _ _ E ks1) as [ks' [E2 P2]].
    + intros W. rewrite P by discriminate. exact (HV W).
    + intros j Hj. destruct X as [->| ->]; [apply HF; lia|]. cbn. replace (Nat.eqb s j) with false by (symmetry; apply Nat.eqb_neq; lia). rewrite andb_false_r. apply HF. lia.
    + exists ks'. split; [exact E2|]. intros t Ht. rewrite (P2 t Ht). exact (P t Ht).
  - intros H ks HV HF. match type of H with context [search_borrows_loop c fuel d f ?j (S s)] => destruct (search_borrows_loop c fuel d f j (S s)) as [b'| |] eqn:E; cbn in H; try discriminate end.
    injection H as <-. cbn [fst]. destruct (STEP ks HV HF) as [ks1 [E1 X]]. change (?a :: ?b :: ?r) with ([a; b] ++ r). rewrite run_app, E1.
    assert (P : forall t, (forall j, t <> Ptr c (ASeen j)) -> named t ks1 = named t ks).
    { intros t Ht. destruct X as [->| ->]; [reflexivity|]. cbn [named]. destruct (tag_eqb (Ptr c (ASeen s)) t) eqn:Et; [apply tag_eqb_spec in Et; subst t; destruct (Ht s eq_refl)|reflexivity]. }
    destruct (IH _ _ _ E ks1) as [ks' [E2 P2]].
    + intros W. rewrite P by discriminate. exact (HV W).
    + intros j Hj. destruct X as [->| ->]; [apply HF; lia|]. cbn. replace (Nat.eqb s j) with false by (symmetry; apply Nat.eqb_neq; lia). rewrite andb_false_r. apply HF. lia.
    + exists ks'. split; [exact E2|]. intros t Ht. rewrite (P2 t Ht). exact (P t Ht).
Qed.

Definition seens (s : stack) : Prop := Forall (fun i => fst i = SharedRO /\ exists j, snd i = Ptr c (ASeen j)) s.
Lemma read_view ros r : seens ros -> sb_access false (Ptr c AView) (ros ++ (SharedRO, Ptr c AView) :: r) = Some (ros ++ (SharedRO, Ptr c AView) :: r).
Proof.
  intros H. unfold sb_access.
  assert (G : granting false (Ptr c AView) (ros ++ (SharedRO, Ptr c AView) :: r) = Some (ros, (SharedRO, Ptr c AView), r)).
  { induction H as [|[p t] ros [Hp [j Ht]] H IH]; cbn; [rewrite Nat.eqb_refl; reflexivity|]. cbn in Ht. subst t. cbn. rewrite andb_false_r. cbn. rewrite IH. reflexivity. }
  rewrite G. f_equal. f_equal. clear G. induction H as [|[p t] ros [Hp Ht] H IH]; cbn; [reflexivity|]. cbn in Hp. subst p. rewrite IH. reflexivity.
Qed.
Lemma write_under t ros r : seens ros -> sb_access true t (ros ++ (SharedRO, Ptr c AView) :: (Unique, t) :: r) = Some ((Unique, t) :: r).
Proof.
  intros H. unfold sb_access.
  assert (G : granting true t (ros ++ (SharedRO, Ptr c AView) :: (Unique, t) :: r) = Some (ros ++ [(SharedRO, Ptr c AView)], (Unique, t), r)).
  { induction H as [|[p u] ros [Hp Ht] H IH]; cbn [app granting grants negb]; [rewrite tag_eqb_refl, andb_false_r; reflexivity|]. cbn in Hp. subst p. cbn [grants negb]. rewrite andb_false_r, IH. reflexivity. }
  rewrite G. reflexivity.
Qed.
Lemma search_sb l fuel i s b : search_borrows_loop c fuel d f i s = Ok b -> forall st,
  (whole n l = true -> exists ros r, seens ros /\ st = ros ++ (SharedRO, Ptr c AView) :: r) ->
  exists st', run (sb_step l) (fst b) st = Some st' /\ (st' = st \/ whole n l = true) /\
    forall ros r, seens ros -> st = ros ++ (SharedRO, Ptr c AView) :: r -> exists ros', seens ros' /\ st' = ros' ++ (SharedRO, Ptr c AView) :: r.
Proof.
  revert i s b. induction fuel as [|fuel IH]; intros i s b; cbn; [discriminate|]. destruct (nth_error d i) as [v|] eqn:NI; [|intros H; injection H as <-; cbn; eauto 10].
  assert (HI : (i < n)%nat) by (rewrite HN; apply nth_error_Some; congruence).
  assert (STEP : forall st, (whole n l = true -> exists ros r, seens ros /\ st = ros ++ (SharedRO, Ptr c AView) :: r) ->
    exists st', run (sb_step l) [Reborrow Shared (Ptr c AView) (Ptr c (ASeen s)) (entry_at i); Use false (Ptr c (ASeen s)) (KeyAt i)] st = Some st' /\
      (st' = st \/ whole n l = true /\ st' = (SharedRO, Ptr c (ASeen s)) :: st)).
  { intros st HV. cbn [run sb_step]. destruct (entry_at i l) eqn:E.
    - pose proof (entry_whole n i l HI E) as W. destruct (HV W) as [ros [r [H1 ->]]]. rewrite (read_view _ _ H1). destruct (loc_eqb l (KeyAt i)).
      + eexists. split; [|right; split; [exact W|reflexivity]]. unfold sb_access. cbn. rewrite !Nat.eqb_refl. reflexivity.
      + eexists. split; [reflexivity|right; auto].
    - destruct (not_entry i l E) as [_ X]. unfold key_at in X. rewrite X. eauto. }
  assert (KEEP : forall st st1, (st1 = st \/ whole n l = true /\ st1 = (SharedRO, Ptr c (ASeen s)) :: st) -> forall ros r, seens ros -> st = ros ++ (SharedRO, Ptr c AView) :: r ->
    exists ros', seens ros' /\ st1 = ros' ++ (SharedRO, Ptr c AView) :: r).
  { intros st st1 [->|[_ ->]] ros r HS ->; [eauto|]. exists ((SharedRO, Ptr c (ASeen s)) :: ros). split; [|reflexivity]. constructor; [cbn; eauto|exact HS]. }
  assert (REC : forall j b', search_borrows_loop c fuel d f j (S s) = Ok b' -> forall st, (whole n l = true -> exists ros r, seens ros /\ st = ros ++ (SharedRO, Ptr c AView) :: r) ->
    exists st', run (sb_step l) ([Reborrow Shared (Ptr c AView) (Ptr c (ASeen s)) (entry_at i); Use false (Ptr c (ASeen s)) (KeyAt i)] ++ fst b') st = Some st' /\
      (st' = st \/ whole n l = true) /\
      forall ros r, seens ros -> st = ros ++ (SharedRO, Ptr c AView) :: r -> exists ros', seens ros' /\ st' = ros' ++ (SharedRO, Ptr c AView) :: r).
  { intros j b' E st HV. destruct (STEP st HV) as [st1 [E1 X]]. rewrite run_app, E1. destruct (IH _ _ _ E st1) as [st2 [E2 [X2 X3]]].
    - intros W. destruct (HV W) as [ros [r [HS HT]]]. destruct (KEEP _ _ X ros r HS HT) as [ros' [H1 H2]]. eauto.
    - exists st2. split; [exact E2|]. split.
      + destruct X2 as [->|W]; [|auto]. destruct X as [->|[W _]]; auto.
      + intros ros r HS HT. destruct (KEEP _ _ X ros r HS HT) as [ros' [H1 H2]]. exact (X3 _ _ H1 H2). }
  destruct (f v); intros H st HV.
  - injection H as <-. destruct (STEP st HV) as [st1 [E1 X]]. exists st1. split; [exact E1|]. split; [destruct X as [->|[W _]]; auto|]. exact (KEEP _ _ X).
  - match type of H with context [search_borrows_loop c fuel d f ?j (S s)] => destruct (search_borrows_loop c fuel d f j (S s)) as [b'| |] eqn:E; cbn in H; try discriminate end.
    injection H as <-. exact (REC _ _ E st HV).
  - match type of H with context [search_borrows_loop c fuel d f ?j (S s)] => destruct (search_borrows_loop c fuel d f j (S s)) as [b'| |] eqn:E; cbn in H; try discriminate end.
    injection H as <-. exact (REC _ _ E st HV).
Qed.
Lemma view_good fuel b : search_borrows_loop c fuel d f 0 0 = Ok b ->
  good inline n c (on_self inline c n ++ Reborrow Shared (self_ptr inline c) (Ptr c AView) (whole n) :: fst b, None).
Proof.
  intros HB. split; cbn [fst snd].
  - discriminate.
  - apply own_names_app; [apply on_self_names|]. apply (own_names_app c [_]); [own|exact (search_names _ _ _ _ HB)].
  - intros [H|H]; [congruence|]. apply takes_all_app, on_self_takes, H.
  - intros l ks HO HF. change (Reborrow ?k ?a ?b ?r :: ?x) with ([Reborrow k a b r] ++ x). rewrite app_assoc, run_app.
    assert (X : exists ks1, run (wf_step l) (on_self inline c n ++ [Reborrow Shared (self_ptr inline c) (Ptr c AView) (whole n)]) ks = Some ks1 /\ ext c ks ks1 /\
      (whole n l = true -> named (Ptr c AView) ks1 = Some false) /\ forall j, named (Ptr c (ASeen j)) ks1 = None).
    { unfold on_self, self_ptr. destruct inline; destruct (whole n l) eqn:W; sym; (eexists; split; [reflexivity|]); (split; [exts|]); (split; [intros; try discriminate; sym; reflexivity|intros; sym; auto]). }
    destruct X as [ks1 [-> [EX [X1 X2]]]]. destruct (search_wf l _ _ _ _ HB ks1 X1 (fun j _ => X2 j)) as [ks2 [-> P]].
    exists ks2. split; [reflexivity|]. split; [|discriminate]. intros t Ht. rewrite P; [exact (EX t Ht)|]. intros j ->. destruct (Ht _ eq_refl); discriminate.
  - intros l. change (Reborrow ?k ?a ?b ?r :: ?x) with ([Reborrow k a b r] ++ x). rewrite app_assoc, run_app.
    assert (X : exists st, run (sb_step l) (on_self inline c n ++ [Reborrow Shared (self_ptr inline c) (Ptr c AView) (whole n)]) [(Unique, Owner)] = Some st /\
      (whole n l = true -> exists ros r, seens ros /\ st = ros ++ (SharedRO, Ptr c AView) :: r)).
    { unfold on_self, self_ptr. destruct inline; destruct (whole n l) eqn:W; sym; (eexists; split; [reflexivity|]); intros; try discriminate;
        exists []; eexists; (split; [constructor|reflexivity]). }
    destruct X as [st [-> X]]. destruct (search_sb l _ _ _ _ HB st X) as [st' [-> _]]. eexists. split; [reflexivity|discriminate].
Qed.
Lemma found_good fuel b p : search_borrows_loop c fuel d f 0 0 = Ok b -> (p < n)%nat ->
  good inline n c ((on_self inline c n ++ Reborrow Shared (self_ptr inline c) (Ptr c AView) (whole n) :: fst b) ++ take_entry inline c n p, Some p).
Proof.
  intros HB HP. split; cbn [fst snd].
  - intros q H. injection H as <-. exact HP.
  - apply own_names_app; [|own]. apply own_names_app; [apply on_self_names|]. apply (own_names_app c [_]); [own|exact (search_names _ _ _ _ HB)].
  - intros _. destruct inline eqn:I.
    + apply takes_all_app, takes_all_app. exists [], ASelf, []. reflexivity.
    + apply takes_all_pre. exists [], ASlice. eexists. reflexivity.
  - intros l ks HO HF. change (Reborrow Shared ?a ?b ?r :: ?x) with ([Reborrow Shared a b r] ++ x). rewrite (app_assoc (on_self inline c n)), <- app_assoc, run_app.
    assert (X : exists ks1, run (wf_step l) (on_self inline c n ++ [Reborrow Shared (self_ptr inline c) (Ptr c AView) (whole n)]) ks = Some ks1 /\ ext c ks ks1 /\
      (whole n l = true -> named (Ptr c AView) ks1 = Some false /\ named (self_ptr inline c) ks1 = Some true) /\
      (forall j, named (Ptr c (ASeen j)) ks1 = None) /\ named (Ptr c ASlice) ks1 = None /\ named (Ptr c (AEntry p)) ks1 = None /\ named (Ptr c (AVal p)) ks1 = None).
    { unfold on_self, self_ptr. destruct inline; destruct (whole n l) eqn:W; sym; (eexists; split; [reflexivity|]); (split; [exts|]); (split; [intros; try discriminate; sym; auto|]); repeat split; intros; sym; auto. }
    destruct X as [ks1 [-> [EX [X1 [X2 [X3 [X4 X5]]]]]]]. rewrite run_app.
    destruct (search_wf l _ _ _ _ HB ks1 (fun W => proj1 (X1 W)) (fun j _ => X2 j)) as [ks2 [-> P]].
    rewrite <- (P (Ptr c ASlice)) in X3 by discriminate. rewrite <- (P (Ptr c (AEntry p))) in X4 by discriminate. rewrite <- (P (Ptr c (AVal p))) in X5 by discriminate.
    assert (X1' : whole n l = true -> named (self_ptr inline c) ks2 = Some true).
    { intros W. rewrite P; [exact (proj2 (X1 W))|]. unfold self_ptr. destruct inline; discriminate. }
    assert (EX2 : ext c ks ks2). { intros t Ht. rewrite P; [exact (EX t Ht)|]. intros j ->. destruct (Ht _ eq_refl); discriminate. }
    clear X1 X2 P EX HB HF HO. unfold take_entry.
    assert (KN : match self_ptr inline c with Owner => True | Ptr x _ => x = c end) by (unfold self_ptr; destruct inline; auto).
    assert (EX' : forall ks3, ext c ks2 ks3 -> ext c ks ks3) by (intros ks3 Z t Ht; rewrite (Z t Ht); exact (EX2 t Ht)).
    assert (KN' : kin (self_ptr inline c) (Ptr c ASlice) = true) by (unfold self_ptr; destruct inline; cbn; rewrite ?Nat.eqb_refl; reflexivity).
    set (sp := self_ptr inline c) in *. clearbody sp. clear KN EX2.
    destruct (whole n l) eqn:W.
    + specialize (X1' eq_refl). cbn [run wf_step]. rewrite W, X1', X3, KN'.
      at_entry p l; sym; (eexists; split; [reflexivity|]); (split; [apply EX'; exts|]); intros q Hq ->; injection Hq as <-; try discriminate;
        try (rewrite val_at_self in *; discriminate); cbn; rewrite ?Nat.eqb_refl; cbn; rewrite ?Nat.eqb_refl; reflexivity.
    + clear X1'. destruct (entry_at p l) eqn:E; [rewrite (entry_whole n p l HP E) in W; discriminate|]. destruct (not_entry p l E) as [V' K'].
      sym; (eexists; split; [reflexivity|]); (split; [apply EX'; exts|]); intros q Hq ->; injection Hq as <-; rewrite val_at_self in V'; discriminate.
  - intros l. change (Reborrow Shared ?a ?b ?r :: ?x) with ([Reborrow Shared a b r] ++ x). rewrite (app_assoc (on_self inline c n)), <- app_assoc, run_app.
    assert (X : exists st, run (sb_step l) (on_self inline c n ++ [Reborrow Shared (self_ptr inline c) (Ptr c AView) (whole n)]) [(Unique, Owner)] = Some st /\
      (whole n l = true -> exists r, st = [] ++ (SharedRO, Ptr c AView) :: (Unique, self_ptr inline c) :: r)).
    { unfold on_self, self_ptr. destruct inline; destruct (whole n l) eqn:W; sym; (eexists; split; [reflexivity|]); intros; try discriminate; eexists; reflexivity. }
    destruct X as [st [-> X]]. rewrite run_app. destruct (search_sb l _ _ _ _ HB st) as [st' [-> [S1 S2]]].
    { intros W. destruct (X W) as [r ->]. exists []. eexists. split; [constructor|reflexivity]. }
    destruct (whole n l) eqn:W.
    + destruct (X eq_refl) as [r ->]. destruct (S2 [] _ (Forall_nil _) eq_refl) as [ros [HS ->]]. unfold take_entry. cbn [run sb_step]. rewrite W, (write_under _ _ _ HS).
      at_entry p l; sym; (eexists; split; [reflexivity|]); intros q Hq ->; injection Hq as <-; try discriminate;
        try (rewrite val_at_self in *; discriminate); eexists; reflexivity.
    + destruct (entry_at p l) eqn:E; [rewrite (entry_whole n p l HP E) in W; discriminate|]. destruct (not_entry p l E) as [V' K']. unfold take_entry.
      sym; (eexists; split; [reflexivity|]); intros q Hq ->; injection Hq as <-; rewrite val_at_self in V'; discriminate.
Qed.
End Eytzinger.
End OneCall.

Lemma get_unchecked_lt {A} (l : list A) i x : get_unchecked l i = Ok x -> (i < length l)%nat.
Proof. unfold get_unchecked. destruct (nth_error l i) eqn:E; [|discriminate]. intros _. apply nth_error_Some. congruence. Qed.
Lemma scan_all_good {K V Q} i c (eqv : Q -> K -> bool) (m : scan_map K V) q b : scan_borrows i c eqv m q = Ok b -> good i (length (sm_entries m)) c b.
Proof. intros H. unfold scan_borrows in H. injection H as <-. apply scan_good. reflexivity. Qed.
Lemma search_lt {K V} c fuel (d : list (K * V)) f i s b p : search_borrows_loop c fuel d f i s = Ok b -> snd b = Some p -> (p < length d)%nat.
Proof.
  revert i s b. induction fuel as [|fuel IH]; intros i s b; cbn; [discriminate|]. destruct (nth_error d i) as [v|] eqn:NI; [|intros H; injection H as <-; discriminate].
  destruct (f v); [intros H X; injection H as <-; injection X as <-; apply nth_error_Some; congruence|..]; intros H X;
    match type of H with context [search_borrows_loop c fuel d f ?j (S s)] => destruct (search_borrows_loop c fuel d f j (S s)) as [b'| |] eqn:E; cbn in H; try discriminate end;
    injection H as <-; exact (IH _ _ _ E X).
Qed.
Lemma eytzinger_all_good {K V Q} i c (cmpQ : Q -> K -> comparison) (m : eytzinger_map K V) q b :
  eytzinger_borrows i c cmpQ m q = Ok b -> good i (length (em_entries m)) c b.
Proof.
  unfold eytzinger_borrows. destruct (search_borrows_loop _ _ _ _ _ _) as [r| |] eqn:E; cbn [bind]; try discriminate.
  destruct (snd r) as [p|] eqn:R.
  - destruct (get_unchecked (em_entries m) p) as [e| |] eqn:G; cbn [bind]; try discriminate. intros H. injection H as <-.
    exact (found_good i c _ _ _ eq_refl _ _ p E (get_unchecked_lt _ _ _ G)).
  - intros H. injection H as <-. exact (view_good i c _ _ _ eq_refl _ _ E).
Qed.
Lemma dense_all_good {K V Q} i c (idxQ : Q -> N) (m : dense_map K V) q b : dense_borrows i c idxQ m q = Ok b -> good i (length (dm_entries m)) c b.
Proof.
  unfold dense_borrows. cbv zeta. destruct (_ && _); [|intros H; injection H as <-; apply miss_good].
  destruct (get_unchecked _ _) as [e| |] eqn:G; cbn [bind]; try discriminate. intros H. injection H as <-. exact (take_good i c _ _ (get_unchecked_lt _ _ _ G)).
Qed.
Lemma sparse_all_good {K V Q} i c (idxQ : Q -> N) (m : sparse_map K V) q b : sparse_borrows i c idxQ m q = Ok b -> good i (length (sp_entries m)) c b.
Proof.
  unfold sparse_borrows. cbv zeta. destruct (_ && _); [|intros H; injection H as <-; apply miss_good].
  destruct (get_unchecked (sp_lookup m) _) as [x| |]; cbn [bind]; try discriminate. destruct (0 <? x); [|intros H; injection H as <-; apply miss_good].
  destruct (get_unchecked _ _) as [e| |] eqn:G; cbn [bind]; try discriminate. intros H. injection H as <-. exact (take_good i c _ _ (get_unchecked_lt _ _ _ G)).
Qed.
Lemma hash_all_good {K V Q} i c hQ (eqv : Q -> K -> bool) (m : hash_map K V) q b : hash_borrows i c hQ eqv m q = Ok b -> good i (length (ht_entries (hm_table m))) c b.
Proof.
  unfold hash_borrows. destruct (hQ q) as [h| |]; cbn [bind]; try discriminate. destruct (get_unchecked _ _) as [[mn mx]| |]; cbn [bind]; try discriminate.
  cbv zeta. destruct (slice_unchecked _ _ _) as [es| |] eqn:S; cbn [bind]; try discriminate. intros H. injection H as <-.
  unfold slice_unchecked in S. destruct (Nat.leb (N.to_nat mn) (N.to_nat mx) && Nat.leb (N.to_nat mx) (length (ht_entries (hm_table m)))) eqn:B; [|discriminate].
  injection S as <-. apply andb_prop in B. destruct B as [B1 B2]. apply Nat.leb_le in B1, B2. apply hash_good; [lia|].
  rewrite firstn_length, skipn_length. lia.
Qed.
Lemma nc_all_good {K V Q} i c hQ (eqv : Q -> K -> bool) (m : nc_map K V) q b : nc_borrows i c hQ eqv m q = Ok b -> good i (length (nc_entries (ncm_table m))) c b.
Proof.
  unfold nc_borrows. destruct (hQ q) as [h| |]; cbn [bind]; try discriminate. destruct (get_unchecked _ _) as [x| |]; cbn [bind]; try discriminate.
  cbv zeta. destruct (0 <? x); [|intros H; injection H as <-; apply miss_good].
  destruct (get_unchecked _ _) as [e| |] eqn:G; cbn [bind]; try discriminate. intros H. injection H as <-. exact (nc_good i c _ _ _ (get_unchecked_lt _ _ _ G)).
Qed.
Lemma recorded_good {M K V Q} (ops : map_ops M K V Q) m f : recorded ops m f -> forall inline c q b, f inline c q = Ok b ->
  good inline (length (mo_entries ops m)) c b.
Proof.
  intros R i c q b. destruct R.
  - exact (scan_all_good _ _ _ _ _ _).
  - exact (eytzinger_all_good _ _ _ _ _ _).
  - exact (dense_all_good _ _ _ _ _ _).
  - exact (sparse_all_good _ _ _ _ _ _).
  - exact (hash_all_good _ _ _ _ _ _ _).
  - exact (nc_all_good _ _ _ _ _ _ _).
  - destruct m; [exact (hash_all_good _ _ _ _ _ _ _)|exact (dense_all_good _ _ _ _ _ _)|exact (sparse_all_good _ _ _ _ _ _)].
  - destruct m; exact (hash_all_good _ _ _ _ _ _ _).
  - destruct m; [exact (scan_all_good _ _ _ _ _ _)|exact (eytzinger_all_good _ _ _ _ _ _)|exact (dense_all_good _ _ _ _ _ _)|exact (sparse_all_good _ _ _ _ _ _)|
      exact (hash_all_good _ _ _ _ _ _ _)|exact (nc_all_good _ _ _ _ _ _ _)].
Qed.

(** ** All calls *)
Section Calls.
Context {Q : Type} (inline : bool) (n : nat) (g : nat -> Q -> res borrows) (G : forall c q b, g c q = Ok b -> good inline n c b).

Lemma pointers_wf l keys c r : pointers g c keys = Ok r -> forall ks, named Owner ks = Some true -> (forall j w, (c <= j)%nat -> named (Ptr j w) ks = None) ->
  exists ks', run (wf_step l) (fst r) ks = Some ks' /\ (forall t, (forall j w, (c <= j)%nat -> t <> Ptr j w) -> named t ks' = named t ks) /\
    (forall j, (c <= j)%nat -> named (Ptr j ARef) ks' = None) /\
    forall i p, nth_error (snd r) i = Some (Some p) -> l = ValAt p -> named (Ptr (c + i) ARaw) ks' = Some true.
Proof.
  revert c r. induction keys as [|q keys IH]; intros c r; cbn [pointers].
  - intros H. injection H as <-. cbn. intros ks HO HF. exists ks. split; [reflexivity|]. split; [auto|]. split; [auto|]. intros [|i]; discriminate.
  - destruct (g c q) as [b| |] eqn:Eb; cbn [bind]; try discriminate. destruct (pointers g (S c) keys) as [rest| |] eqn:Er; cbn [bind]; try discriminate.
    intros H ks HO HF. injection H as <-. cbn [fst snd]. destruct (g_wf _ _ _ _ (G _ _ _ Eb) l ks HO (fun w => HF c w (Nat.le_refl c))) as [ks1 [E1 [X1 X2]]].
    rewrite run_app, E1, run_app.
    assert (Y : exists ks2, run (wf_step l) match snd b with Some p => [Reborrow Raw (Ptr c (AVal p)) (Ptr c ARaw) (val_at p)] | None => [] end ks1 = Some ks2 /\
      (forall t, t <> Ptr c ARaw -> named t ks2 = named t ks1) /\ forall p, snd b = Some p -> l = ValAt p -> named (Ptr c ARaw) ks2 = Some true).
    { destruct (snd b) as [p|]; cbn; [|exists ks1; split; [reflexivity|split; [auto|discriminate]]]. destruct (val_at p l) eqn:V.
      - unfold val_at in V. apply loc_eqb_spec in V. rewrite (X2 p eq_refl V).
        rewrite (X1 (Ptr c ARaw)), HF by (try lia; intros w Hw; injection Hw as <-; auto). rewrite Nat.eqb_refl.
        exists ((Ptr c ARaw, true) :: ks1). split; [reflexivity|]. split.
        + intros t Ht. cbn [named]. destruct (tag_eqb (Ptr c ARaw) t) eqn:E; [apply tag_eqb_spec in E; congruence|reflexivity].
        + intros _ _ _. cbn. rewrite Nat.eqb_refl. reflexivity.
      - exists ks1. split; [reflexivity|]. split; [auto|]. intros p' Hp ->. injection Hp as <-. rewrite val_at_self in V. discriminate. }
    destruct Y as [ks2 [-> [Y1 Y2]]].
    assert (Z : forall t, (forall w, t = Ptr c w -> w = ARef) -> named t ks2 = named t ks).
    { intros t Ht. rewrite Y1; [apply X1; intros w Hw; right; exact (Ht w Hw)|]. intros ->. specialize (Ht _ eq_refl). discriminate. }
    destruct (IH _ _ Er ks2) as [ks3 [-> [Z1 [Z2 Z3]]]].
    + rewrite Z; [exact HO|discriminate].
    + intros j w Hj. rewrite Z; [apply HF; lia|]. intros w' Hw. injection Hw as -> ->. lia.
    + exists ks3. split; [reflexivity|]. split; [|split].
      * intros t Ht. rewrite Z1 by (intros j w Hj; apply Ht; lia). apply Z. intros w ->. destruct (Ht c w (Nat.le_refl c) eq_refl).
      * intros j Hj. destruct (Nat.eq_dec j c) as [->|D].
        -- rewrite Z1 by (intros j w H' X; injection X as X _; lia). rewrite Z by (intros w X; injection X as <-; reflexivity). apply HF. lia.
        -- apply Z2. lia.
      * intros [|i] p Hi HL; cbn in Hi.
        -- injection Hi as Hi. rewrite Nat.add_0_r. rewrite Z1 by (intros j w Hj X; injection X as X _; lia). exact (Y2 p Hi HL).
        -- rewrite Nat.add_succ_r. exact (Z3 i p Hi HL).
Qed.
Lemma as_muts_wf l ps c : forall ks, (forall i p, nth_error ps i = Some (Some p) -> l = ValAt p -> named (Ptr (c + i) ARaw) ks = Some true) ->
  (forall j, (c <= j)%nat -> named (Ptr j ARef) ks = None) ->
  exists ks', run (wf_step l) (as_muts c ps) ks = Some ks' /\ (forall t, (forall j, (c <= j)%nat -> t <> Ptr j ARef) -> named t ks' = named t ks) /\
    forall i p, nth_error ps i = Some (Some p) -> l = ValAt p -> named (Ptr (c + i) ARef) ks' = Some true.
Proof.
  revert c. induction ps as [|o ps IH]; intros c ks HR HF; cbn [as_muts run].
  - exists ks. split; [reflexivity|]. split; [auto|]. intros [|i]; discriminate.
  - assert (Y : exists ks1, run (wf_step l) match o with Some p => [Reborrow Mutable (Ptr c ARaw) (Ptr c ARef) (val_at p)] | None => [] end ks = Some ks1 /\
      (forall t, t <> Ptr c ARef -> named t ks1 = named t ks) /\ forall p, o = Some p -> l = ValAt p -> named (Ptr c ARef) ks1 = Some true).
    { destruct o as [p|]; cbn; [|exists ks; split; [reflexivity|split; [auto|discriminate]]]. destruct (val_at p l) eqn:V.
      - unfold val_at in V. apply loc_eqb_spec in V. pose proof (HR 0%nat p eq_refl V) as R. rewrite Nat.add_0_r in R. rewrite R, HF, Nat.eqb_refl by lia.
        exists ((Ptr c ARef, true) :: ks). split; [reflexivity|]. split.
        + intros t Ht. cbn [named]. destruct (tag_eqb (Ptr c ARef) t) eqn:E; [apply tag_eqb_spec in E; congruence|reflexivity].
        + intros _ _ _. cbn. rewrite Nat.eqb_refl. reflexivity.
      - exists ks. split; [reflexivity|]. split; [auto|]. intros p' Hp ->. injection Hp as <-. rewrite val_at_self in V. discriminate. }
    destruct Y as [ks1 [E1 [Y1 Y2]]].
    destruct (IH (S c) ks1) as [ks2 [E2 [Z1 Z2]]].
    + intros i p Hi HL. rewrite Y1 by discriminate. rewrite Nat.add_succ_comm. exact (HR (S i) p Hi HL).
    + intros j Hj. rewrite Y1 by (intros X; injection X as ->; lia). apply HF. lia.
    + exists ks2. split; [|split].
      * destruct o as [p|]; cbn [run] in *; [|injection E1 as <-; exact E2]. destruct (wf_step l _ ks) as [k|]; [|discriminate]. injection E1 as <-. exact E2.
      * intros t Ht. rewrite Z1 by (intros j Hj; apply Ht; lia). apply Y1. apply Ht. lia.
      * intros [|i] p Hi HL; cbn in Hi.
        -- injection Hi as Hi. rewrite Nat.add_0_r. rewrite Z1 by (intros j Hj X; injection X as ->; lia). exact (Y2 p Hi HL).
        -- rewrite <- Nat.add_succ_comm. exact (Z2 i p Hi HL).
Qed.
Lemma unchecked_wf l keys ev ps : unchecked_borrows g keys = Ok (ev, ps) ->
  exists ks, run (wf_step l) ev [(Owner, true)] = Some ks /\ forall i p, nth_error ps i = Some (Some p) -> l = ValAt p -> named (Ptr i ARef) ks = Some true.
Proof.
  unfold unchecked_borrows. destruct (pointers g 0 keys) as [r| |] eqn:E; cbn [bind]; try discriminate. intros H. injection H as <- <-.
  destruct (pointers_wf l keys 0 r E [(Owner, true)]) as [ks [E1 [_ [F R]]]]; [reflexivity|reflexivity|]. rewrite run_app, E1.
  destruct (as_muts_wf l (snd r) 0 ks R F) as [ks' [-> [_ X]]]. exists ks'. split; [reflexivity|exact X].
Qed.
Lemma as_muts_in c ps i p : nth_error ps i = Some (Some p) -> exists pre post, as_muts c ps = pre ++ Reborrow Mutable (Ptr (c + i) ARaw) (Ptr (c + i) ARef) (val_at p) :: post /\
  forall t, In t (flat_map introduces pre) -> exists j, t = Ptr j ARef.
Proof.
  revert c i. induction ps as [|o ps IH]; intros c [|i]; cbn; try discriminate.
  - intros H. injection H as ->. exists []. eexists. rewrite Nat.add_0_r. split; [reflexivity|intros t []].
  - intros H. destruct (IH (S c) i H) as [pre [post [E X]]]. rewrite Nat.add_succ_r. destruct o as [p'|].
    + eexists (_ :: pre), post. rewrite E. split; [reflexivity|]. cbn. intros t [<-|Ht]; eauto.
    + exists pre, post. split; [exact E|exact X].
Qed.
Lemma tb_silent l e s : silent l e = true -> tb_step l e s = Some s.
Proof. destruct e; cbn; intros H; apply negb_true_iff in H; rewrite H; reflexivity. Qed.
Lemma uses_in ps how e : In e (uses ps how) -> exists i w p, nth_error ps i = Some (Some p) /\ e = Use w (Ptr i ARef) (ValAt p).
Proof.
  unfold uses. intros H. apply in_flat_map in H. destruct H as [[i w] [_ H]]. cbn in H. destruct (nth_error ps i) as [[p|]|] eqn:E; [|destruct H..].
  destruct H as [<-|[]]. eauto.
Qed.

Lemma tree_borrows keys ev ps : unchecked_borrows g keys = Ok (ev, ps) -> (forall how, tb_defined (ev ++ uses ps how)) <-> ~ one_place ps.
Proof.
  intros HE. split.
  - intros D [i [j [p [L [Hi Hj]]]]]. specialize (D [(i, true); (j, false)] (ValAt p) Reserved (or_introl eq_refl)).
    destruct (unchecked_wf (ValAt p) _ _ _ HE) as [ks [W R]]. destruct (wf_tb _ _ _ _ _ (agrees_root Reserved (or_introl eq_refl)) W) as [add [T [A N]]].
    rewrite run_app, T in D. apply D. unfold uses. cbn [flat_map fst snd]. rewrite Hi, Hj. cbn [app run tb_step]. rewrite loc_eqb_refl.
    assert (IN : In (Ptr j ARef, Ptr j ARaw, Some Reserved) (add ++ [(Owner, Owner, Some Reserved)])).
    { apply in_or_app. left. apply (N _ _ (val_at p)); [|apply val_at_self].
      unfold unchecked_borrows in HE. destruct (pointers g 0 keys) as [r| |]; cbn [bind] in HE; try discriminate. injection HE as <- <-.
      destruct (as_muts_in 0 _ _ _ Hj) as [pre [post [-> _]]]. apply in_or_app. right. apply in_or_app. right. left. reflexivity. }
    pose proof (other_call_stopped ks _ i j ARef _ A ltac:(lia) ltac:(rewrite (R i p Hi eq_refl); discriminate) IN) as X.
    destruct (tb_access true (Ptr i ARef) _); [rewrite X; reflexivity|reflexivity].
  - intros NO how l s HS. destruct (unchecked_wf l _ _ _ HE) as [ks [W R]]. destruct (wf_tb _ _ _ _ _ (agrees_root s HS) W) as [add [T [A _]]].
    rewrite run_app, T.
    assert (DEC : (exists i p, nth_error ps i = Some (Some p) /\ l = ValAt p) \/ ~ exists i p, nth_error ps i = Some (Some p) /\ l = ValAt p).
    { clear. induction ps as [|o ps IH]; [right; intros [[|i] [p [H _]]]; discriminate|].
      destruct IH as [[i [p H]]|IH]; [left; exists (S i), p; exact H|]. destruct o as [p|].
      - destruct (loc_eqb l (ValAt p)) eqn:E; [apply loc_eqb_spec in E; left; exists 0%nat, p; auto|]. right. intros [[|i] [p' [H HL]]]; cbn in H.
        + injection H as ->. subst l. rewrite loc_eqb_refl in E. discriminate.
        + apply IH. eauto.
      - right. intros [[|i] [p' [H HL]]]; cbn in H; [discriminate|]. apply IH. eauto. }
    destruct DEC as [[i [p [Hi ->]]]|ND].
    + apply (writable_run _ (Ptr i ARef)); [exact (agrees_writable _ _ _ A (R i p Hi eq_refl))|]. intros e He. destruct (uses_in _ _ _ He) as [j [w [q [Hj ->]]]].
      exists w, (ValAt q). destruct (Nat.eq_dec q p) as [->|D]; [|right; exists (Ptr j ARef); split; [reflexivity|congruence]].
      left. f_equal. f_equal. destruct (Nat.lt_total i j) as [L|[L|L]]; [|congruence|]; exfalso; apply NO; [exists i, j, p|exists j, i, p]; auto.
    + rewrite (run_silent _ l (tb_silent l)); [discriminate|]. apply forallb_forall. intros e He. destruct (uses_in _ _ _ He) as [j [w [q [Hj ->]]]].
      cbn. destruct (loc_eqb l (ValAt q)) eqn:E; [|reflexivity]. apply loc_eqb_spec in E. destruct ND. eauto.
Qed.

Lemma pointers_split keys c r k o : pointers g c keys = Ok r -> nth_error (snd r) k = Some o -> exists b pre post,
  good inline n (c + k) b /\ snd b = o /\ fst r = pre ++ fst b ++ post /\ ~ In Owner (flat_map introduces pre) /\
  (forall t, In t (flat_map introduces post) -> exists j w, (c + k <= j)%nat /\ t = Ptr j w) /\
  exists q, nth_error keys k = Some q /\ g (c + k)%nat q = Ok b.
Proof.
  revert c r k. induction keys as [|q keys IH]; intros c r k; cbn [pointers].
  - intros H. injection H as <-. destruct k; discriminate.
  - destruct (g c q) as [b| |] eqn:Eb; cbn [bind]; try discriminate. destruct (pointers g (S c) keys) as [rest| |] eqn:Er; cbn [bind]; try discriminate.
    intros H. injection H as <-. cbn [fst snd]. destruct k as [|k]; cbn [nth_error].
    + intros H. injection H as <-. exists b, []. eexists. rewrite Nat.add_0_r. split; [exact (G _ _ _ Eb)|]. split; [reflexivity|]. split; [reflexivity|]. split; [intros []|]. split; [|exists q; auto].
      intros t. rewrite flat_map_app. intros H. apply in_app_or in H. destruct H as [H|H].
      * destruct (snd b); [|destruct H]. destruct H as [<-|[]]. eauto.
      * assert (X : forall keys c r, pointers g c keys = Ok r -> forall t, In t (flat_map introduces (fst r)) -> exists j w, (c <= j)%nat /\ t = Ptr j w).
        { clear -G. induction keys as [|q keys IH]; intros c r; cbn [pointers]; [intros H; injection H as <-; intros t []|].
          destruct (g c q) as [b| |] eqn:Eb; cbn [bind]; try discriminate. destruct (pointers g (S c) keys) as [rest| |] eqn:Er; cbn [bind]; try discriminate.
          intros H. injection H as <-. cbn [fst]. intros t. rewrite !flat_map_app. intros H. apply in_app_or in H. destruct H as [H|H].
          - destruct (g_names _ _ _ _ (G _ _ _ Eb) t H) as [w [-> _]]. eauto.
          - apply in_app_or in H. destruct H as [H|H]; [destruct (snd b); [destruct H as [<-|[]]; eauto|destruct H]|].
            destruct (IH _ _ Er t H) as [j [w [L ->]]]. exists j, w. split; [lia|reflexivity]. }
        destruct (X _ _ _ Er t H) as [j [w [L ->]]]. exists j, w. split; [lia|reflexivity].
    + intros H. destruct (IH _ _ _ Er H) as [b' [pre [post [G' [O' [E' [N' [P' K']]]]]]]].
      exists b', (fst b ++ match snd b with Some p => [Reborrow Raw (Ptr c (AVal p)) (Ptr c ARaw) (val_at p)] | None => [] end ++ pre), post.
      rewrite Nat.add_succ_r. split; [exact G'|]. split; [exact O'|]. split; [rewrite E', <- !app_assoc; reflexivity|]. split; [|split; [exact P'|exact K']].
      rewrite !flat_map_app. intros X. apply in_app_or in X. destruct X as [X|X]; [destruct (g_names _ _ _ _ (G _ _ _ Eb) _ X) as [w [X' _]]; discriminate|].
      apply in_app_or in X. destruct X as [X|X]; [destruct (snd b); [destruct X as [X|[]]; discriminate|destruct X]|contradiction].
Qed.
Lemma pointers_nth keys c r k q b : pointers g c keys = Ok r -> nth_error keys k = Some q -> g (c + k)%nat q = Ok b -> nth_error (snd r) k = Some (snd b) /\ length (snd r) = length keys.
Proof.
  revert c r k. induction keys as [|q' keys IH]; intros c r k; cbn [pointers]; [destruct k; discriminate|].
  destruct (g c q') as [b'| |] eqn:Eb; cbn [bind]; try discriminate. destruct (pointers g (S c) keys) as [rest| |] eqn:Er; cbn [bind]; try discriminate.
  intros H H0 H1. injection H as <-. cbn [snd length]. assert (L : length (snd rest) = length keys).
  { clear -Er. revert Er. generalize (S c) rest. clear. induction keys as [|q keys IH]; intros c r; cbn [pointers]; [intros H; injection H as <-; reflexivity|].
    destruct (g c q) as [b| |]; cbn [bind]; try discriminate. destruct (pointers g (S c) keys) eqn:E; cbn [bind]; try discriminate. intros H. injection H as <-. cbn. f_equal. exact (IH _ _ E). }
  rewrite L. split; [|reflexivity]. destruct k as [|k]; cbn [nth_error] in *.
  - injection H0 as <-. rewrite Nat.add_0_r, Eb in H1. injection H1 as <-. reflexivity.
  - rewrite Nat.add_succ_r in H1. exact (proj1 (IH _ _ _ Er H0 H1)).
Qed.
(** A call that reborrows everything mutably ends the pointers before it. *)
Lemma taken_over keys ev ps i j p q b : unchecked_borrows g keys = Ok (ev, ps) -> (i < j)%nat -> nth_error ps i = Some (Some p) ->
  nth_error keys j = Some q -> g j q = Ok b -> takes_all n j (fst b) -> ~ sb_defined ev.
Proof.
  unfold unchecked_borrows. destruct (pointers g 0 keys) as [r| |] eqn:E; cbn [bind]; try discriminate. intros H L Hi Hq Hb HT. injection H as <- <-.
  destruct (pointers_nth _ _ _ _ _ _ E Hq Hb) as [Ho _]. destruct (pointers_split _ _ _ _ _ E Ho) as [b' [pre [post [Gb [Ob [EE [NP [PP [q' [Hq' Hb']]]]]]]]]]. cbn in Gb, PP, Hb'.
  rewrite Hq in Hq'. injection Hq' as <-. rewrite Hb in Hb'. injection Hb' as <-.
  destruct (pointers_split _ _ _ _ _ E Hi) as [bi [_ [_ [Gi [Oi _]]]]]. pose proof (g_range _ _ _ _ Gi p Oi) as RP.
  destruct HT as [p1 [w [p2 EB]]]. pose proof (g_names _ _ _ _ Gb) as NB. rewrite EB in *.
  destruct (as_muts_in 0 _ _ _ Hi) as [a1 [a2 [EA NA]]]. cbn in EA. intros D. specialize (D (ValAt p)). apply D. rewrite EE, EA.
  unfold own_names in NB. rewrite flat_map_app in NB. cbn [flat_map introduces app] in NB.
  replace ((pre ++ (p1 ++ Reborrow Mutable Owner (Ptr j w) (whole n) :: p2) ++ post) ++ a1 ++ Reborrow Mutable (Ptr i ARaw) (Ptr i ARef) (val_at p) :: a2)
    with ((pre ++ p1) ++ Reborrow Mutable Owner (Ptr j w) (whole n) :: (p2 ++ post ++ a1) ++ Reborrow Mutable (Ptr i ARaw) (Ptr i ARef) (val_at p) :: a2)
    by (repeat (progress (rewrite <- ?app_assoc; cbn [app])); reflexivity).
  apply ended.
  - unfold whole. apply Nat.ltb_lt. exact RP.
  - apply val_at_self.
  - rewrite flat_map_app. intros X. apply in_app_or in X. destruct X as [X|X]; [contradiction|]. destruct (NB Owner) as [w' [X' _]]; [apply in_or_app; left; exact X|discriminate].
  - discriminate.
  - intros X. injection X as X. lia.
  - rewrite !flat_map_app. intros X. apply in_app_or in X. destruct X as [X|X]; [|apply in_app_or in X; destruct X as [X|X]].
    + destruct (NB (Ptr i ARaw)) as [w' [X' _]]; [apply in_or_app; right; right; exact X|]. injection X' as X' _. lia.
    + destruct (PP _ X) as [k [w' [L' X']]]. injection X' as X' _. lia.
    + destruct (NA _ X) as [k X']. discriminate.
Qed.
Lemma stacked_borrows keys ev ps i j p : unchecked_borrows g keys = Ok (ev, ps) -> (i < j)%nat -> nth_error ps i = Some (Some p) ->
  ((exists q, nth_error ps j = Some (Some q)) \/ (inline = true /\ nth_error ps j <> None)) -> ~ sb_defined ev.
Proof.
  intros H L Hi Hj. pose proof H as H'. unfold unchecked_borrows in H'. destruct (pointers g 0 keys) as [r| |] eqn:E; cbn [bind] in H'; try discriminate. injection H' as _ <-.
  assert (HO : exists o, nth_error (snd r) j = Some o /\ (o <> None \/ inline = true)).
  { destruct Hj as [[q Hj]|[I Hj]]; [exists (Some q); split; [exact Hj|left; discriminate]|]. destruct (nth_error (snd r) j); [eauto|congruence]. }
  destruct HO as [o [Ho HT]]. destruct (pointers_split _ _ _ _ _ E Ho) as [b [_ [_ [Gb [Ob [_ [_ [_ [q [Hq Hb]]]]]]]]]].
  subst o. exact (taken_over _ _ _ _ _ _ _ _ H L Hi Hq Hb (g_whole _ _ _ _ Gb HT)).
Qed.
Lemma single_stacked q ev ps : unchecked_borrows g [q] = Ok (ev, ps) -> forall how, sb_defined (ev ++ uses ps how).
Proof.
  unfold unchecked_borrows. cbn [pointers]. destruct (g 0%nat q) as [b| |] eqn:Eb; cbn [bind]; try discriminate. intros H how l. injection H as <- <-. cbn [fst snd].
  rewrite app_nil_r, !run_app. destruct (g_sb _ _ _ _ (G _ _ _ Eb) l) as [s [-> X]].
  destruct (snd b) as [p|] eqn:Ob; cbn [as_muts run sb_step].
  - destruct (val_at p l) eqn:V.
    + unfold val_at in V. apply loc_eqb_spec in V. destruct (X p eq_refl V) as [s0 ->]. cbn [granting tag_eqb Nat.eqb what_eqb andb grants]. rewrite Nat.eqb_refl. cbn.
      rewrite ?Nat.eqb_refl. cbn.
      set (st := (Unique, Ptr 0 ARef) :: _). assert (HT : exists r, st = (Unique, Ptr 0 ARef) :: r) by (eexists; reflexivity). clearbody st. clear X.
      assert (U : forall es, (forall e, In e es -> exists w l', e = Use w (Ptr 0 ARef) l') -> run (sb_step l) es st <> None).
      { destruct HT as [r ->]. induction es as [|e es IH]; intros H; cbn [run]; [discriminate|]. destruct (H e (or_introl eq_refl)) as [w [l' ->]]. cbn [sb_step].
        destruct (loc_eqb l l'); [|apply IH; intros; apply H; right; assumption].
        replace (sb_access w (Ptr 0 ARef) ((Unique, Ptr 0 ARef) :: r)) with (Some ((Unique, Ptr 0%nat ARef) :: r)) by (destruct w; reflexivity).
        apply IH. intros; apply H; right; assumption. }
      apply U. intros e He. destruct (uses_in _ _ _ He) as [[|i] [w [p' [Hi ->]]]]; [eauto|destruct i; discriminate].
    + rewrite (run_silent _ l (sb_silent l)); [discriminate|]. apply forallb_forall. intros e He. destruct (uses_in _ _ _ He) as [[|i] [w [p' [Hi ->]]]]; [|destruct i; discriminate].
      injection Hi as <-. cbn. unfold val_at in V. rewrite V. reflexivity.
  - rewrite (run_silent _ l (sb_silent l)); [discriminate|]. apply forallb_forall. intros e He. destruct (uses_in _ _ _ He) as [[|i] [w [p' [Hi ->]]]]; [discriminate|destruct i; discriminate].
Qed.
(** [get_mut] alone. *)
Lemma get_mut_defined q ev o : g 0%nat q = Ok (ev, o) -> forall how : list bool,
  let p := ev ++ match o with Some p => map (fun w => Use w (Ptr 0 (AVal p)) (ValAt p)) how | None => [] end in sb_defined p /\ tb_defined p.
Proof.
  intros E how. pose proof (G _ _ _ E) as Gb. cbv zeta. split.
  - intros l. rewrite run_app. destruct (g_sb _ _ _ _ Gb l) as [s [E1 X]]. cbn [fst snd] in E1, X. rewrite E1. destruct o as [p|]; [|discriminate]. destruct (loc_eqb l (ValAt p)) eqn:V.
    + apply loc_eqb_spec in V. destruct (X p eq_refl V) as [r ->]. subst l. induction how as [|w how IH]; cbn [map run]; [discriminate|]. cbn [sb_step]. rewrite loc_eqb_refl.
      replace (sb_access w (Ptr 0 (AVal p)) ((Unique, Ptr 0 (AVal p)) :: r)) with (Some ((Unique, Ptr 0%nat (AVal p)) :: r)); [exact IH|].
      unfold sb_access. cbn. rewrite Nat.eqb_refl. destruct w; reflexivity.
    + rewrite (run_silent _ l (sb_silent l)); [discriminate|]. apply forallb_forall. intros e He. apply in_map_iff in He. destruct He as [w [<- _]]. cbn. rewrite V. reflexivity.
  - intros l s HS. destruct (g_wf _ _ _ _ Gb l [(Owner, true)] eq_refl (fun w => eq_refl)) as [ks [W [_ R]]].
    destruct (wf_tb _ _ _ _ _ (agrees_root s HS) W) as [add [T [A _]]]. cbn [fst snd] in *. rewrite run_app, T. destruct o as [p|]; [|discriminate].
    destruct (loc_eqb l (ValAt p)) eqn:V.
    + apply loc_eqb_spec in V. apply (writable_run _ (Ptr 0 (AVal p))); [exact (agrees_writable _ _ _ A (R p eq_refl V))|].
      intros e He. apply in_map_iff in He. destruct He as [w [<- _]]. eauto.
    + rewrite (run_silent _ l (tb_silent l)); [discriminate|]. apply forallb_forall. intros e He. apply in_map_iff in He. destruct He as [w [<- _]]. cbn. rewrite V. reflexivity.
Qed.
End Calls.

(** ** Every map has a record *)
From Verif Require Import SpecMade ProofsMade.
Lemma every_map_recorded {M K V Q} (ops : map_ops M K V Q) eqK eqv m input : made ops eqK eqv m input -> exists f, recorded ops m f.
Proof.
  intros MD. enough (X : forall m', exists f, recorded ops m' f) by exact (X m). induction MD; try (intros m'; eexists; constructor); assumption.
Qed.
Lemma disjoint_unchecked {Q} (g : nat -> Q -> res borrows) eqQ keys r : disjoint_borrows g eqQ keys = Ok r -> unchecked_borrows g keys = Ok r.
Proof. unfold disjoint_borrows. destruct (has_duplicates eqQ keys); [discriminate|auto]. Qed.
Lemma tree_borrows_lawful {M K V Q} (ops : map_ops M K V Q) eqK eqv m input f inline eqQ keys ev ps :
  made ops eqK eqv m input -> recorded ops m f -> (forall q q' k, eqv q k = true -> eqv q' k = true -> eqQ q q' = true) ->
  disjoint_borrows (f inline) eqQ keys = Ok (ev, ps) -> forall how, tb_defined (ev ++ uses ps how).
Proof.
  intros MD R HQ HE. apply (tree_borrows inline _ _ (fun c q b => recorded_good _ _ _ R inline c q b) keys); [exact (disjoint_unchecked _ _ _ _ HE)|].
  intros [i [j [p [L [Hi Hj]]]]]. pose proof (disjoint_forgets _ _ _ inline eqQ keys R) as F. rewrite HE in F. cbn in F.
  destruct (made_disjoint _ _ _ _ _ MD eqQ keys) as [DP DN].
  assert (ND : ~ exists i j x y, (i < j)%nat /\ nth_error keys i = Some x /\ nth_error keys j = Some y /\ eqQ x y = true) by (intros X; rewrite (DP X) in F; discriminate).
  destruct (DN ND) as [l [E [_ U]]]. rewrite E in F. injection F as <-. pose proof (U HQ i j p Hi Hj). lia.
Qed.
