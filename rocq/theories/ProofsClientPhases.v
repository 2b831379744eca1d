(** Proofs about what clients do with the references they get, one borrow of the map after the other. *)
From Verif Require Import ModelUtils ModelTables ModelMaps ModelEmit SpecMade SpecAliasing SpecPhases ModelBorrows ModelLookups ProofsBase ProofsAliasing
  ProofsBorrows ProofsPhases ProofsLookups.
From Verif Require Import Prelude.

(** ** Nothing is cast from the owner *)
Definition proper (e : event) : bool :=
  match e with
  | Reborrow k parent new _ => match new with Owner => false | _ => match k, parent with Raw, Owner => false | _, _ => true end end
  | Use _ _ _ => true
  end.
Lemma proper_from_owner p : forallb proper p = true -> from_owner p.
Proof.
  intros H e He. pose proof (proj1 (forallb_forall _ _) H e He) as X. destruct e as [k parent new range|]; [|exact I]. cbn in X. destruct new; [discriminate|].
  split; [discriminate|]. intros -> ->. discriminate.
Qed.
Ltac prop := repeat (rewrite ?forallb_app, ?andb_true_iff; cbn [forallb proper]); repeat split; auto.

Section Proper.
Variables (i : bool) (c : nat).
Lemma on_self_proper n : forallb proper (on_self i c n) = true.
Proof. unfold on_self. destruct i; reflexivity. Qed.
Lemma take_proper n p : forallb proper (take_entry i c n p) = true.
Proof. reflexivity. Qed.
Lemma scan_loop_proper {K V Q} (eqv : Q -> K -> bool) (es : list (K * V)) pos q r : forallb proper (fst (scan_borrows_loop c eqv es pos q r)) = true.
Proof. revert pos r. induction es as [|e es IH]; intros pos r; cbn [scan_borrows_loop fst]; [reflexivity|]. destruct (eqv q (fst e)); cbn; apply IH. Qed.
Lemma search_proper {K V} fuel (d : list (K * V)) f x s b : search_borrows_loop c fuel d f x s = Ok b -> forallb proper (fst b) = true.
Proof.
  revert x s b. induction fuel as [|fuel IH]; intros x s b; cbn; [discriminate|]. destruct (nth_error d x) as [v|]; [|intros H; injection H as <-; reflexivity].
  destruct (f v); [intros H; injection H as <-; reflexivity|..]; intros H;
    match type of H with context [search_borrows_loop c fuel d f ?j (S s)] => destruct (search_borrows_loop c fuel d f j (S s)) as [b'| |] eqn:E; cbn in H; try discriminate end;
    injection H as <-; cbn; exact (IH _ _ _ E).
Qed.
Lemma slot_proper {K V} eq pos (l : list (K * V)) : forallb proper (fst (slot_borrows c eq pos l)) = true.
Proof. revert pos. induction l as [|e l IH]; intros pos; cbn [slot_borrows]; [reflexivity|]. destruct (eq e); cbn; [reflexivity|apply IH]. Qed.
Lemma scan_proper {K V Q} (eqv : Q -> K -> bool) (m : scan_map K V) q b : scan_borrows i c eqv m q = Ok b -> forallb proper (fst b) = true.
Proof. intros H. unfold scan_borrows in H. injection H as <-. cbn [fst]. prop; [apply on_self_proper|apply scan_loop_proper]. Qed.
Lemma eytzinger_proper {K V Q} (cmpQ : Q -> K -> comparison) (m : eytzinger_map K V) q b : eytzinger_borrows i c cmpQ m q = Ok b -> forallb proper (fst b) = true.
Proof.
  unfold eytzinger_borrows. destruct (search_borrows_loop _ _ _ _ _ _) as [r| |] eqn:E; cbn [bind]; try discriminate. apply search_proper in E. pose proof (on_self_proper (length (em_entries m))).
  destruct (snd r); [destruct (get_unchecked _ _); cbn [bind]; try discriminate|]; intros X; injection X as <-; cbn [fst]; prop.
Qed.
Lemma dense_proper {K V Q} (idxQ : Q -> N) (m : dense_map K V) q b : dense_borrows i c idxQ m q = Ok b -> forallb proper (fst b) = true.
Proof.
  unfold dense_borrows. cbv zeta. pose proof (on_self_proper (length (dm_entries m))). destruct (_ && _); [destruct (get_unchecked _ _); cbn [bind]; try discriminate|];
    intros X; injection X as <-; cbn [fst]; prop.
Qed.
Lemma sparse_proper {K V Q} (idxQ : Q -> N) (m : sparse_map K V) q b : sparse_borrows i c idxQ m q = Ok b -> forallb proper (fst b) = true.
Proof.
  unfold sparse_borrows. cbv zeta. pose proof (on_self_proper (length (sp_entries m))). destruct (_ && _); [|intros X; injection X as <-; assumption].
  destruct (get_unchecked (sp_lookup m) _) as [x| |]; cbn [bind]; try discriminate. destruct (0 <? x); [|intros X; injection X as <-; assumption].
  destruct (get_unchecked _ _); cbn [bind]; try discriminate. intros X; injection X as <-; cbn [fst]; prop.
Qed.
Lemma hash_proper {K V Q} hQ (eqv : Q -> K -> bool) (m : hash_map K V) q b : hash_borrows i c hQ eqv m q = Ok b -> forallb proper (fst b) = true.
Proof.
  unfold hash_borrows. destruct (hQ q); cbn [bind]; try discriminate. destruct (get_unchecked _ _) as [[mn mx]| |]; cbn [bind]; try discriminate. cbv zeta.
  destruct (slice_unchecked _ _ _); cbn [bind]; try discriminate. intros X; injection X as <-; cbn [fst]; prop; [apply on_self_proper|apply slot_proper].
Qed.
Lemma nc_proper {K V Q} hQ (eqv : Q -> K -> bool) (m : nc_map K V) q b : nc_borrows i c hQ eqv m q = Ok b -> forallb proper (fst b) = true.
Proof.
  unfold nc_borrows. pose proof (on_self_proper (length (nc_entries (ncm_table m)))). destruct (hQ q); cbn [bind]; try discriminate. destruct (get_unchecked _ _) as [x| |]; cbn [bind]; try discriminate.
  cbv zeta. destruct (0 <? x); [|intros X; injection X as <-; assumption]. destruct (get_unchecked _ _) as [e| |]; cbn [bind]; try discriminate.
  destruct (eqv q (fst e)); intros X; injection X as <-; cbn [fst]; prop.
Qed.
End Proper.
Lemma recorded_proper {M K V Q} (ops : map_ops M K V Q) m f : recorded ops m f -> forall i c q b, f i c q = Ok b -> forallb proper (fst b) = true.
Proof.
  intros R i c q b. destruct R.
  - apply scan_proper.
  - apply eytzinger_proper.
  - apply dense_proper.
  - apply sparse_proper.
  - apply hash_proper.
  - apply nc_proper.
  - destruct m; [apply hash_proper|apply dense_proper|apply sparse_proper].
  - destruct m; apply hash_proper.
  - destruct m; [apply scan_proper|apply eytzinger_proper|apply dense_proper|apply sparse_proper|apply hash_proper|apply nc_proper].
Qed.
Section ProperLookups.
Variables (i : bool) (c : nat) (k : bool).
Lemma on_shared_self_proper n : forallb proper (on_shared_self i c n) = true.
Proof. unfold on_shared_self. destruct i; reflexivity. Qed.
Lemma refs_proper p : forallb proper (entry_refs c k p) = true.
Proof. unfold entry_refs. destruct k; reflexivity. Qed.
Lemma give_proper n p : forallb proper (give_entry i c k n p) = true.
Proof. unfold give_entry, shared_slice. cbn. apply refs_proper. Qed.
Lemma scan_lookup_loop_proper {K V Q} (eqv : Q -> K -> bool) (es : list (K * V)) pos q r : forallb proper (fst (scan_lookup_loop c k eqv es pos q r)) = true.
Proof.
  revert pos r. induction es as [|e es IH]; intros pos r; cbn [scan_lookup_loop fst]; [reflexivity|]. prop. destruct (eqv q (fst e)); [apply refs_proper|reflexivity].
Qed.
Lemma slot_lookup_proper {K V} eq pos (l : list (K * V)) : forallb proper (fst (slot_lookup c k eq pos l)) = true.
Proof. revert pos. induction l as [|e l IH]; intros pos; cbn [slot_lookup]; [reflexivity|]. destruct (eq e); cbn [fst]; prop. apply refs_proper. Qed.
Lemma scan_lookup_proper {K V Q} (eqv : Q -> K -> bool) (m : scan_map K V) q b : scan_lookup i c k eqv m q = Ok b -> forallb proper (fst b) = true.
Proof. intros H. unfold scan_lookup in H. injection H as <-. cbn [fst]. prop; [apply on_shared_self_proper|apply scan_lookup_loop_proper]. Qed.
Lemma eytzinger_lookup_proper {K V Q} (cmpQ : Q -> K -> comparison) (m : eytzinger_map K V) q b : eytzinger_lookup i c k cmpQ m q = Ok b -> forallb proper (fst b) = true.
Proof.
  unfold eytzinger_lookup. destruct (search_borrows_loop _ _ _ _ _ _) as [r| |] eqn:E; cbn [bind]; try discriminate. apply search_proper in E. pose proof (on_shared_self_proper (length (em_entries m))).
  destruct (snd r) as [p|]; [destruct (get_unchecked _ _); cbn [bind]; try discriminate|]; intros X; injection X as <-; cbn [fst]; prop. apply give_proper.
Qed.
Lemma dense_lookup_proper {K V Q} (idxQ : Q -> N) (m : dense_map K V) q b : dense_lookup i c k idxQ m q = Ok b -> forallb proper (fst b) = true.
Proof.
  unfold dense_lookup. cbv zeta. pose proof (on_shared_self_proper (length (dm_entries m))). destruct (_ && _); [destruct (get_unchecked _ _); cbn [bind]; try discriminate|];
    intros X; injection X as <-; cbn [fst]; prop. apply give_proper.
Qed.
Lemma sparse_lookup_proper {K V Q} (idxQ : Q -> N) (m : sparse_map K V) q b : sparse_lookup i c k idxQ m q = Ok b -> forallb proper (fst b) = true.
Proof.
  unfold sparse_lookup. cbv zeta. pose proof (on_shared_self_proper (length (sp_entries m))). destruct (_ && _); [|intros X; injection X as <-; assumption].
  destruct (get_unchecked (sp_lookup m) _) as [x| |]; cbn [bind]; try discriminate. destruct (0 <? x); [|intros X; injection X as <-; assumption].
  destruct (get_unchecked _ _); cbn [bind]; try discriminate. intros X; injection X as <-; cbn [fst]; prop. apply give_proper.
Qed.
Lemma hash_lookup_proper {K V Q} hQ (eqv : Q -> K -> bool) (m : hash_map K V) q b : hash_lookup i c k hQ eqv m q = Ok b -> forallb proper (fst b) = true.
Proof.
  unfold hash_lookup. destruct (hQ q); cbn [bind]; try discriminate. destruct (get_unchecked _ _) as [[mn mx]| |]; cbn [bind]; try discriminate. cbv zeta.
  destruct (slice_unchecked _ _ _); cbn [bind]; try discriminate. intros X; injection X as <-; cbn [fst]; prop; [apply on_shared_self_proper|apply slot_lookup_proper].
Qed.
Lemma nc_lookup_proper {K V Q} hQ (eqv : Q -> K -> bool) (m : nc_map K V) q b : nc_lookup i c k hQ eqv m q = Ok b -> forallb proper (fst b) = true.
Proof.
  unfold nc_lookup. pose proof (on_shared_self_proper (length (nc_entries (ncm_table m)))). destruct (hQ q); cbn [bind]; try discriminate.
  destruct (get_unchecked _ _) as [x| |]; cbn [bind]; try discriminate. cbv zeta. destruct (0 <? x); [|intros X; injection X as <-; assumption].
  destruct (get_unchecked _ _) as [e| |]; cbn [bind]; try discriminate. destruct (eqv q (fst e)); intros X; injection X as <-; cbn [fst]; prop. apply refs_proper.
Qed.
End ProperLookups.
Lemma looked_up_proper {M K V Q} (ops : map_ops M K V Q) m f : looked_up ops m f -> forall i c k q b, f i c k q = Ok b -> forallb proper (fst b) = true.
Proof.
  intros R i c k q b. destruct R.
  - apply scan_lookup_proper.
  - apply eytzinger_lookup_proper.
  - apply dense_lookup_proper.
  - apply sparse_lookup_proper.
  - apply hash_lookup_proper.
  - apply nc_lookup_proper.
  - destruct m; [apply hash_lookup_proper|apply dense_lookup_proper|apply sparse_lookup_proper].
  - destruct m; apply hash_lookup_proper.
  - destruct m; [apply scan_lookup_proper|apply eytzinger_lookup_proper|apply dense_lookup_proper|apply sparse_lookup_proper|apply hash_lookup_proper|apply nc_lookup_proper].
Qed.

(** ** Sharing *)
Section Sharing.
Context {Q : Type} (inline : bool) (n : nat) (lookup : nat -> bool -> Q -> res borrows) (L : forall c k q b, lookup c k q = Ok b -> fine_lookup c n k b).

Definition holds (l : loc) (walkers : list nat) (g : given) (ks : list tag) : Prop :=
  In Owner ks /\ (forall i, In i walkers -> whole n l = true -> In (Ptr i APtr) ks) /\
  forall key i pos, In (key, i, pos) g -> l = ref_loc key pos -> In (ref_tag key i pos) ks.
Lemma holds_more l w g a b : incl a b -> holds l w g a -> holds l w g b.
Proof. intros I [H1 [H2 H3]]. split; [exact (I _ H1)|]. split; [intros i Hi W; exact (I _ (H2 i Hi W))|intros key i pos Hg E; exact (I _ (H3 _ _ _ Hg E))]. Qed.
Lemma sharing_fine l looks call w g ev ks : sharing inline n lookup call w g looks = Ok ev -> holds l w g ks -> fine l ev ks (fun _ => True).
Proof.
  revert call w g ev ks. induction looks as [|a looks IH]; intros call w g ev ks; cbn [sharing].
  - intros H _. injection H as <-. apply fine_nil. exact I.
  - destruct a as [k q| |i pos|key i pos].
    + destruct (lookup call k q) as [b| |] eqn:E; cbn [bind]; try discriminate. cbv zeta. destruct (sharing _ _ _ _ _ _ _) as [rest| |] eqn:ER; cbn [bind]; try discriminate.
      intros H HH. injection H as <-. apply fine_app. destruct (L _ _ _ _ E) as [_ F]. pose proof HH as [HO _].
      eapply fine_weaken; [|eapply (fine_more l _ [Owner] ks); [|intros y [<-|[]]; exact HO|exact (F l)]; intros a b' I; apply gives_more; exact I].
      cbn. intros k1 I1 G. eapply IH; [exact ER|]. pose proof (holds_more _ _ _ _ _ I1 HH) as [H1 [H2 H3]]. split; [exact H1|]. split; [exact H2|].
      intros key i pos Hg. destruct (snd b) as [p|]; [|exact (H3 _ _ _ Hg)]. destruct (G p eq_refl) as [GV GK]. apply in_app_or in Hg. destruct Hg as [Hg|[Hg|Hg]]; [| |exact (H3 _ _ _ Hg)].
      * destruct k; [|destruct Hg]. destruct Hg as [Hg|[]]. injection Hg as <- <- <-. exact (GK eq_refl).
      * injection Hg as <- <- <-. exact GV.
    + destruct (sharing _ _ _ _ _ _ _) as [rest| |] eqn:ER; cbn [bind]; try discriminate. intros H HH. injection H as <-. unfold iter_borrows, shared_slice. rewrite <- app_assoc.
      apply self_fine; [apply HH|]. intros k1 I1 H1. cbn [app]. apply fine_borrow; [exact H1|]. intros k2 I2 H2. apply fine_borrow; [exact H2|]. intros k3 I3 H3.
      eapply IH; [exact ER|]. assert (I4 : incl ks k3) by (eapply incl_tran; [exact I1|]; eapply incl_tran; eassumption).
      pose proof (holds_more _ _ _ _ _ I4 HH) as [X1 [X2 X3]]. split; [exact X1|]. split; [|exact X3]. intros i [<-|Hi]; [exact H3|exact (X2 i Hi)].
    + destruct (existsb (Nat.eqb i) w && Nat.ltb pos n) eqn:B; [|apply IH]. apply andb_prop in B. destruct B as [B1 B2]. apply Nat.ltb_lt in B2.
      apply existsb_exists in B1. destruct B1 as [i' [B1 E]]. apply Nat.eqb_eq in E. subst i'.
      destruct (sharing _ _ _ _ _ _ _) as [rest| |] eqn:ER; cbn [bind]; try discriminate. intros H HH. injection H as <-.
      apply fine_borrow; [intros E; apply HH; [exact B1|exact (entry_whole _ _ _ B2 E)]|]. intros k1 I1 H1.
      change (fine l (entry_refs i true pos ++ rest) k1 (fun _ => True)). apply refs_fine; [exact H1|]. intros k2 I2 G. eapply IH; [exact ER|].
      assert (I4 : incl ks k2) by (eapply incl_tran; eassumption). pose proof (holds_more _ _ _ _ _ I4 HH) as [X1 [X2 X3]]. split; [exact X1|]. split; [exact X2|].
      destruct (G pos eq_refl) as [GV GK]. intros key i' pos' [Hg|[Hg|Hg]]; [injection Hg as <- <- <-; exact (GK eq_refl)|injection Hg as <- <- <-; exact GV|exact (X3 _ _ _ Hg)].
    + destruct (sharing _ _ _ _ _ _ _) as [rest| |] eqn:ER; cbn [bind]; try discriminate. intros H HH. injection H as <-. destruct (has_ref key i pos g) eqn:HR; cbn [app].
      * apply fine_use; [|eapply IH; eassumption]. apply HH. unfold has_ref in HR. apply existsb_exists in HR. destruct HR as [[[key' i'] pos'] [Hg E]]. cbn in E.
        apply andb_prop in E. destruct E as [E E3]. apply andb_prop in E. destruct E as [E1 E2]. apply Bool.eqb_prop in E1. apply Nat.eqb_eq in E2, E3. subst. exact Hg.
      * eapply IH; eassumption.
Qed.
Lemma sharing_defined looks ev : sharing inline n lookup 0 [] [] looks = Ok ev -> sb_defined ev /\ tb_defined ev.
Proof.
  intros H. apply fine_defined. intros l. apply (sharing_fine l looks 0 [] [] ev [Owner] H). split; [left; reflexivity|]. split; [intros i []|intros key i pos []].
Qed.
Variable P : forall c k q b, lookup c k q = Ok b -> forallb proper (fst b) = true.
Lemma sharing_proper looks call w g ev : sharing inline n lookup call w g looks = Ok ev -> forallb proper ev = true.
Proof.
  revert call w g ev. induction looks as [|a looks IH]; intros call w g ev; cbn [sharing]; [intros H; injection H as <-; reflexivity|]. destruct a as [k q| |i pos|key i pos].
  - destruct (lookup call k q) as [b| |] eqn:E; cbn [bind]; try discriminate. cbv zeta. destruct (sharing _ _ _ _ _ _ _) as [rest| |] eqn:ER; cbn [bind]; try discriminate.
    intros H. injection H as <-. apply IH in ER. apply P in E. prop.
  - destruct (sharing _ _ _ _ _ _ _) as [rest| |] eqn:ER; cbn [bind]; try discriminate. intros H. injection H as <-. apply IH in ER. unfold iter_borrows, shared_slice. prop. apply on_shared_self_proper.
  - destruct (_ && _); [|apply IH]. destruct (sharing _ _ _ _ _ _ _) as [rest| |] eqn:ER; cbn [bind]; try discriminate. intros H. injection H as <-. apply IH in ER. exact ER.
  - destruct (sharing _ _ _ _ _ _ _) as [rest| |] eqn:ER; cbn [bind]; try discriminate. intros H. injection H as <-. apply IH in ER. destruct (has_ref key i pos g); exact ER.
Qed.
End Sharing.

(** ** Iterating mutably *)
Section Visiting.
Variables (inline : bool) (n : nat).
Lemma visiting_proper l at_ : forallb proper (iter_mut_borrows inline 0 n ++ visiting n at_ l) = true.
Proof.
  unfold iter_mut_borrows. prop; [apply on_self_proper|]. revert at_. induction l as [|a l IH]; intros at_; cbn [visiting]; [reflexivity|].
  destruct a as [|pos|w pos]; [destruct (Nat.ltb at_ n)|destruct (Nat.ltb pos at_)..]; cbn; apply IH.
Qed.
(** What happens at one place: until the iterator comes by, nothing; from then on, uses of what it gave. *)
Definition own_uses (l : loc) (p : list event) : Prop :=
  forall e, In e p -> silent l e = true \/ (l = KeyAt (entry_of l) /\ e = Use false (Ptr 0 (AKey (entry_of l))) l) \/
    (l = ValAt (entry_of l) /\ exists w, e = Use w (Ptr 0 (AVal (entry_of l))) l).
Lemma step_silent l pos : entry_of l <> pos -> forallb (silent l) (iter_mut_step 0 pos) = true.
Proof.
  intros H. assert (E : entry_at pos l = false) by (unfold entry_at; apply Nat.eqb_neq; exact H). destruct (not_entry _ _ E) as [V K]. cbn. rewrite E, V, K. reflexivity.
Qed.
Lemma visiting_after l visits at_ : (entry_of l < at_)%nat -> own_uses l (visiting n at_ visits).
Proof.
  revert at_. induction visits as [|a visits IH]; intros at_ H e; cbn [visiting]; [intros []|]. destruct a as [|pos|w pos].
  - destruct (Nat.ltb at_ n); [|exact (IH at_ H e)]. intros He. apply in_app_or in He. destruct He as [He|He]; [|exact (IH (S at_) ltac:(lia) e He)].
    left. apply (proj1 (forallb_forall _ _) (step_silent l at_ ltac:(lia)) e He).
  - intros He. apply in_app_or in He. destruct He as [He|He]; [|exact (IH at_ H e He)]. destruct (Nat.ltb pos at_); [|destruct He]. destruct He as [<-|[]].
    destruct (loc_eqb l (KeyAt pos)) eqn:E; [|left; cbn [silent]; rewrite E; reflexivity]. apply loc_eqb_spec in E. subst l. right. left. split; reflexivity.
  - intros He. apply in_app_or in He. destruct He as [He|He]; [|exact (IH at_ H e He)]. destruct (Nat.ltb pos at_); [|destruct He]. destruct He as [<-|[]].
    destruct (loc_eqb l (ValAt pos)) eqn:E; [|left; cbn [silent]; rewrite E; reflexivity]. apply loc_eqb_spec in E. subst l. right. right. split; [reflexivity|]. exists w. reflexivity.
Qed.
Lemma visiting_at {S} (step : event -> S -> option S) l (ok : forall e s, silent l e = true -> step e s = Some s) visits at_ s : (at_ <= entry_of l)%nat ->
  run step (visiting n at_ visits) s = Some s \/
  exists rest, (entry_of l < n)%nat /\ own_uses l rest /\ run step (visiting n at_ visits) s = run step (iter_mut_step 0 (entry_of l) ++ rest) s.
Proof.
  revert at_. induction visits as [|a visits IH]; intros at_ H; cbn [visiting]; [left; reflexivity|]. destruct a as [|pos|w pos].
  - destruct (Nat.ltb at_ n) eqn:LN; [|exact (IH at_ H)]. destruct (Nat.eq_dec (entry_of l) at_) as [E|D].
    + right. exists (visiting n (Datatypes.S at_) visits). split; [rewrite E; apply Nat.ltb_lt; exact LN|]. split; [apply visiting_after; lia|]. rewrite E. reflexivity.
    + rewrite run_app, (run_silent step l ok _ _ (step_silent l at_ D)). apply IH. lia.
  - destruct (Nat.ltb pos at_) eqn:LP; cbn [app]; [|exact (IH at_ H)]. apply Nat.ltb_lt in LP. cbn [run]. rewrite ok; [exact (IH at_ H)|]. cbn [silent].
    destruct (loc_eqb l (KeyAt pos)) eqn:E; [|reflexivity]. apply loc_eqb_spec in E. subst l. cbn in H. lia.
  - destruct (Nat.ltb pos at_) eqn:LP; cbn [app]; [|exact (IH at_ H)]. apply Nat.ltb_lt in LP. cbn [run]. rewrite ok; [exact (IH at_ H)|]. cbn [silent].
    destruct (loc_eqb l (ValAt pos)) eqn:E; [|reflexivity]. apply loc_eqb_spec in E. subst l. cbn in H. lia.
Qed.
Lemma setup_sb l : exists s, run (sb_step l) (iter_mut_borrows inline 0 n) [(Unique, Owner)] = Some s /\ (whole n l = true -> exists r, s = (SharedRW, Ptr 0 APtr) :: r).
Proof.
  unfold iter_mut_borrows, on_self, self_ptr. generalize (whole n) as wh. intros wh. destruct inline; cbn; destruct (wh l); cbn; (eexists; split; [reflexivity|]); [eauto|discriminate|eauto|discriminate].
Qed.
Lemma setup_wf l : exists ks, run (wf_step l) (iter_mut_borrows inline 0 n) [(Owner, true)] = Some ks /\ (whole n l = true -> named (Ptr 0 APtr) ks = Some true) /\
  forall p, named (Ptr 0 (AEntry p)) ks = None /\ named (Ptr 0 (AKey p)) ks = None /\ named (Ptr 0 (AVal p)) ks = None.
Proof.
  unfold iter_mut_borrows, on_self, self_ptr. generalize (whole n) as wh. intros wh. destruct inline; cbn; destruct (wh l); cbn; (eexists; split; [reflexivity|split; [try discriminate; reflexivity|intros p; repeat split; reflexivity]]).
Qed.
Lemma top_uses l p t r : (forall e, In e p -> silent l e = true \/ exists w, e = Use w t l) -> run (sb_step l) p ((Unique, t) :: r) <> None.
Proof.
  induction p as [|e p IH]; intros H; cbn [run]; [discriminate|]. destruct (H e (or_introl eq_refl)) as [S|[w ->]].
  - rewrite sb_silent by exact S. apply IH. intros; apply H; right; assumption.
  - cbn [sb_step]. rewrite loc_eqb_refl. replace (sb_access w t ((Unique, t) :: r)) with (Some ((Unique, t) :: r)); [apply IH; intros; apply H; right; assumption|].
    unfold sb_access. cbn. rewrite tag_eqb_refl. destruct w; reflexivity.
Qed.
Lemma top_reads l p t r : (forall e, In e p -> silent l e = true \/ e = Use false t l) -> run (sb_step l) p ((SharedRO, t) :: r) <> None.
Proof.
  induction p as [|e p IH]; intros H; cbn [run]; [discriminate|]. destruct (H e (or_introl eq_refl)) as [S| ->].
  - rewrite sb_silent by exact S. apply IH. intros; apply H; right; assumption.
  - cbn [sb_step]. rewrite loc_eqb_refl. replace (sb_access false t ((SharedRO, t) :: r)) with (Some ((SharedRO, t) :: r)); [apply IH; intros; apply H; right; assumption|].
    unfold sb_access. cbn. rewrite tag_eqb_refl. reflexivity.
Qed.
Lemma visiting_sb visits : sb_defined (iter_mut_borrows inline 0 n ++ visiting n 0 visits).
Proof.
  intros l. rewrite run_app. destruct (setup_sb l) as [s [-> HS]]. destruct (visiting_at (sb_step l) l (sb_silent l) visits 0 s ltac:(lia)) as [-> |[rest [LN [OU ->]]]]; [discriminate|].
  destruct HS as [r ->]; [unfold whole; apply Nat.ltb_lt; exact LN|]. rewrite run_app.
  assert (EA : entry_at (entry_of l) l = true) by (unfold entry_at; apply Nat.eqb_refl).
  destruct (entry_cases _ _ EA) as [[LE [K V]]|[LE [K V]]].
  - cbn [iter_mut_step run sb_step]. rewrite EA, K, V. unfold sb_access. cbn. rewrite Nat.eqb_refl. cbn. apply top_reads. intros e He. destruct (OU e He) as [X|[[_ X]|[X _]]]; [left; exact X|right; exact X|congruence].
  - cbn [iter_mut_step run sb_step]. rewrite EA, K, V. unfold sb_access. cbn. rewrite Nat.eqb_refl. cbn. apply top_uses. intros e He. destruct (OU e He) as [X|[[X _]|[_ X]]]; [left; exact X|congruence|right; exact X].
Qed.
Lemma visiting_tb visits : tb_defined (iter_mut_borrows inline 0 n ++ visiting n 0 visits).
Proof.
  intros l s HS. rewrite run_app. destruct (setup_wf l) as [ks [W [HP HN]]]. destruct (wf_tb _ _ _ _ _ (agrees_root s HS) W) as [add [T [A _]]]. rewrite T.
  set (n0 := add ++ _) in *. clearbody n0. clear T.
  destruct (visiting_at (tb_step l) l (tb_silent l) visits 0 n0 ltac:(lia)) as [-> |[rest [LN [OU ->]]]]; [discriminate|].
  assert (WH : whole n l = true) by (unfold whole; apply Nat.ltb_lt; exact LN). specialize (HP WH). rewrite run_app.
  assert (EA : entry_at (entry_of l) l = true) by (unfold entry_at; apply Nat.eqb_refl). set (p := entry_of l) in *. destruct (HN p) as [N1 [N2 N3]].
  assert (X : exists ks', run (wf_step l) (iter_mut_step 0 p) ks = Some ks' /\ (l = KeyAt p -> named (Ptr 0 (AKey p)) ks' = Some false) /\ (l = ValAt p -> named (Ptr 0 (AVal p)) ks' = Some true)).
  { destruct (entry_cases _ _ EA) as [[LE [K V]]|[LE [K V]]]; cbn [iter_mut_step run wf_step]; rewrite EA, HP, N1; cbn [kin Nat.eqb]; rewrite K, V; cbn [named tag_eqb what_eqb Nat.eqb andb];
      rewrite ?Nat.eqb_refl, ?N2, ?N3; cbn [kin Nat.eqb]; (eexists; split; [reflexivity|]); split; intros E; try congruence; cbn; rewrite Nat.eqb_refl; reflexivity. }
  destruct X as [ks' [W' [HK HV]]]. destruct (wf_tb _ _ _ _ _ A W') as [add' [T' [A' _]]]. rewrite T'. set (n1 := add' ++ n0) in *. clearbody n1.
  destruct (entry_cases _ _ EA) as [[LE [K V]]|[LE [K V]]].
  - specialize (HK LE). assert (Y : forall q, (forall e, In e q -> silent l e = true \/ e = Use false (Ptr 0 (AKey p)) l) -> run (tb_step l) q n1 = Some n1).
    { induction q as [|e q IH]; intros H; cbn [run]; [reflexivity|]. destruct (H e (or_introl eq_refl)) as [S| ->].
      - rewrite tb_silent by exact S. apply IH. intros; apply H; right; assumption.
      - cbn [tb_step]. rewrite loc_eqb_refl, (tb_read _ _ _ _ A' HK). apply IH. intros; apply H; right; assumption. }
    rewrite Y; [discriminate|]. intros e He. destruct (OU e He) as [X|[[_ X]|[X _]]]; [left; exact X|right; exact X|fold p in X; congruence].
  - specialize (HV LE).
    assert (Y : forall q m, run (tb_step l) q m = run (tb_step l) (filter (fun e => negb (silent l e)) q) m).
    { induction q as [|e q IH]; intros m; cbn [filter run]; [reflexivity|]. destruct (silent l e) eqn:S; cbn [negb]; [rewrite tb_silent by exact S; apply IH|].
      cbn [run]. destruct (tb_step l e m); [apply IH|reflexivity]. }
    rewrite Y. apply (writable_run _ (Ptr 0 (AVal p))); [exact (agrees_writable _ _ _ A' HV)|]. intros e He. apply filter_In in He. destruct He as [He S].
    destruct (OU e He) as [X|[[X _]|[_ [w X]]]]; [rewrite X in S; discriminate|fold p in X; congruence|]. exists w, l. left. exact X.
Qed.
End Visiting.

(** ** Taking values *)
Lemma taking_proper (ev : list event) o how : forallb proper ev = true ->
  forallb proper (ev ++ match o with Some p => map (fun w => Use w (Ptr 0 (AVal p)) (ValAt p)) how | None => [] end) = true.
Proof. intros H. prop. destruct o; [|reflexivity]. induction how; [reflexivity|assumption]. Qed.
Section Many.
Context {Q : Type} (g : nat -> Q -> res borrows) (P : forall c q b, g c q = Ok b -> forallb proper (fst b) = true).
Lemma pointers_proper keys c r : pointers g c keys = Ok r -> forallb proper (fst r) = true.
Proof.
  revert c r. induction keys as [|q keys IH]; intros c r; cbn [pointers]; [intros H; injection H as <-; reflexivity|].
  destruct (g c q) as [b| |] eqn:E; cbn [bind]; try discriminate. destruct (pointers g (S c) keys) as [rest| |] eqn:ER; cbn [bind]; try discriminate.
  intros H. injection H as <-. cbn [fst]. apply P in E. apply IH in ER. prop. destruct (snd b); reflexivity.
Qed.
Lemma as_muts_proper ps c : forallb proper (as_muts c ps) = true.
Proof. revert c. induction ps as [|[p|] ps IH]; intros c; cbn; [reflexivity|apply IH..]. Qed.
Lemma many_proper eqQ keys r how : disjoint_borrows g eqQ keys = Ok r -> forallb proper (fst r ++ uses (snd r) how) = true.
Proof.
  intros H. apply disjoint_unchecked in H. unfold unchecked_borrows in H. destruct (pointers g 0 keys) as [p| |] eqn:E; cbn [bind] in H; try discriminate.
  injection H as <-. cbn [fst snd]. apply pointers_proper in E. prop; [apply as_muts_proper|]. unfold uses. induction how as [|[i w] how IH]; cbn [flat_map]; [reflexivity|].
  cbn [fst snd]. destruct (nth_error (snd p) i) as [[x|]|]; exact IH.
Qed.
End Many.

(** ** Everything *)
Lemma every_map_looked_up {M K V Q} (ops : map_ops M K V Q) eqK eqv m input : made ops eqK eqv m input -> exists f, looked_up ops m f.
Proof.
  intros MD. enough (X : forall m', exists f, looked_up ops m' f) by exact (X m). induction MD; try (intros m'; eexists; constructor); assumption.
Qed.
Section All.
Context {M K V Q : Type} (ops : map_ops M K V Q) (m : M) (f : bool -> nat -> Q -> res borrows) (h : bool -> nat -> bool -> Q -> res borrows).
Context (R : recorded ops m f) (L : looked_up ops m h) (inline : bool) (eqQ : Q -> Q -> bool).
Notation n := (length (mo_entries ops m)).
Notation events := (phase_events inline n (h inline) (f inline) eqQ).

Lemma phase_from_owner p ev : events p = Ok ev -> from_owner ev.
Proof.
  intros H. apply proper_from_owner. destruct p as [l|q how|l|keys how]; cbn [phase_events] in H.
  - exact (sharing_proper inline n (h inline) (fun c k q b => looked_up_proper ops m h L inline c k q b) _ _ _ _ _ H).
  - destruct (f inline 0%nat q) as [b| |] eqn:E; cbn [bind] in H; try discriminate. injection H as <-. apply taking_proper. exact (recorded_proper ops m f R _ _ _ _ E).
  - injection H as <-. apply visiting_proper.
  - destruct (disjoint_borrows (f inline) eqQ keys) as [r| |] eqn:E; cbn [bind] in H; try discriminate. injection H as <-.
    exact (many_proper (f inline) (fun c q b => recorded_proper ops m f R inline c q b) eqQ keys r how E).
Qed.
Lemma phase_sb p ev : (forall keys how, p = TakingMany keys how -> (length keys <= 1)%nat) -> events p = Ok ev -> sb_defined ev.
Proof.
  intros ONE H. destruct p as [l|q how|l|keys how]; cbn [phase_events] in H.
  - exact (proj1 (sharing_defined inline n (h inline) (fun c k q b => looked_up_fine ops m h L inline c k q b) _ _ H)).
  - destruct (f inline 0%nat q) as [[ev' o]| |] eqn:E; cbn [bind] in H; try discriminate. injection H as <-.
    exact (proj1 (get_mut_defined inline _ _ (fun c q b => recorded_good ops m f R inline c q b) q ev' o E how)).
  - injection H as <-. apply visiting_sb.
  - specialize (ONE _ _ eq_refl). destruct (disjoint_borrows (f inline) eqQ keys) as [[ev' ps]| |] eqn:E; cbn [bind] in H; try discriminate. injection H as <-. cbn [fst snd].
    apply disjoint_unchecked in E. destruct keys as [|q [|q' keys]]; [|exact (single_stacked inline _ _ (fun c q b => recorded_good ops m f R inline c q b) q ev' ps E how)|cbn in ONE; lia].
    cbn in E. injection E as <- <-. intros l. replace (uses [] how) with (@nil event); [discriminate|]. clear. induction how as [|[[|i] w] how IH]; [reflexivity|exact IH..].
Qed.
Lemma phase_tb eqK eqv input p ev : made ops eqK eqv m input -> (forall q q' k, eqv q k = true -> eqv q' k = true -> eqQ q q' = true) -> events p = Ok ev -> tb_defined ev.
Proof.
  intros MD HQ H. destruct p as [l|q how|l|keys how]; cbn [phase_events] in H.
  - exact (proj2 (sharing_defined inline n (h inline) (fun c k q b => looked_up_fine ops m h L inline c k q b) _ _ H)).
  - destruct (f inline 0%nat q) as [[ev' o]| |] eqn:E; cbn [bind] in H; try discriminate. injection H as <-.
    exact (proj2 (get_mut_defined inline _ _ (fun c q b => recorded_good ops m f R inline c q b) q ev' o E how)).
  - injection H as <-. apply visiting_tb.
  - destruct (disjoint_borrows (f inline) eqQ keys) as [[ev' ps]| |] eqn:E; cbn [bind] in H; try discriminate. injection H as <-. cbn [fst snd].
    exact (tree_borrows_lawful ops eqK eqv m input f inline eqQ keys ev' ps MD R HQ E how).
Qed.
Lemma mapM_in {A B} (g : A -> res B) l r y : mapM g l = Ok r -> In y r -> exists x, In x l /\ g x = Ok y.
Proof.
  revert r. induction l as [|x l IH]; intros r; cbn [mapM]; [intros H; injection H as <-; intros []|].
  destruct (g x) as [y'| |] eqn:E; cbn [bind]; try discriminate. destruct (mapM g l) as [r'| |]; cbn [bind]; try discriminate. intros H. injection H as <-.
  intros [<-|Hy]; [exists x; split; [left; reflexivity|exact E]|]. destruct (IH _ eq_refl Hy) as [x' [Hx E']]. exists x'. split; [right; exact Hx|exact E'].
Qed.
Lemma phases_sb ps evs : one_at_a_time ps -> mapM events ps = Ok evs -> sb_defined (in_turn 0 evs).
Proof.
  intros ONE H. apply sb_in_turn; intros ev He; destruct (mapM_in _ _ _ _ H He) as [p [Hp E]]; [exact (phase_from_owner p ev E)|].
  apply (phase_sb p ev); [|exact E]. intros keys how ->. exact (ONE keys how Hp).
Qed.
Lemma phases_tb eqK eqv input ps evs : made ops eqK eqv m input -> (forall q q' k, eqv q k = true -> eqv q' k = true -> eqQ q q' = true) ->
  mapM events ps = Ok evs -> tb_defined (in_turn 0 evs).
Proof.
  intros MD HQ H. apply tb_in_turn; intros ev He; destruct (mapM_in _ _ _ _ H He) as [p [Hp E]]; [exact (phase_from_owner p ev E)|exact (phase_tb _ _ _ p ev MD HQ E)].
Qed.
End All.

(** ** Writing values changes no record *)
Section Writing.
Context {K V : Type}.
Definition same_keys (es es' : list (K * V)) : Prop := map fst es' = map fst es.
Lemma same_length es es' : same_keys es es' -> length es' = length es.
Proof. intros H. rewrite <- (map_length fst es'), H, map_length. reflexivity. Qed.
Lemma same_nth es es' p : same_keys es es' -> option_map fst (nth_error es' p) = option_map fst (nth_error es p).
Proof. intros H. rewrite <- !nth_error_map, H. reflexivity. Qed.
Lemma same_get {B} es es' p (k k' : K * V -> res B) : same_keys es es' -> (forall e e', fst e' = fst e -> k' e' = k e) ->
  bind (get_unchecked es' p) k' = bind (get_unchecked es p) k.
Proof.
  intros H HK. pose proof (same_nth es es' p H) as X. unfold get_unchecked. destruct (nth_error es' p), (nth_error es p); cbn in *; try discriminate; [|reflexivity].
  injection X as X. apply HK. exact X.
Qed.
Variables (i : bool) (c : nat) (k : bool).
Lemma same_scan {Q} (eqv : Q -> K -> bool) es es' pos q r : same_keys es es' ->
  scan_borrows_loop c eqv es' pos q r = scan_borrows_loop c eqv es pos q r /\ scan_lookup_loop c k eqv es' pos q r = scan_lookup_loop c k eqv es pos q r.
Proof.
  intros H. revert es' H pos r. induction es as [|e es IH]; intros [|e' es'] H pos r; try discriminate; [split; reflexivity|]. injection H as H1 H2. cbn. rewrite H1.
  destruct (IH es' H2 (S pos) (if eqv q (fst e) then Some pos else r)) as [-> ->]. split; reflexivity.
Qed.
Lemma same_search fuel es es' (g : K -> comparison) x s : same_keys es es' ->
  search_borrows_loop c fuel es' (fun e => g (fst e)) x s = search_borrows_loop c fuel es (fun e => g (fst e)) x s.
Proof.
  intros H. revert x s. induction fuel as [|fuel IH]; intros x s; cbn; [reflexivity|]. pose proof (same_nth es es' x H) as X.
  destruct (nth_error es' x) as [v'|], (nth_error es x) as [v|]; cbn in X; try discriminate; [|reflexivity]. injection X as X. rewrite X. destruct (g (fst v)); rewrite ?IH; reflexivity.
Qed.
Lemma same_slot (g : K -> bool) es es' pos : same_keys es es' ->
  slot_borrows c (fun e => g (fst e)) pos es' = slot_borrows c (fun e => g (fst e)) pos es /\ slot_lookup c k (fun e => g (fst e)) pos es' = slot_lookup c k (fun e => g (fst e)) pos es.
Proof.
  intros H. revert es' H pos. induction es as [|e es IH]; intros [|e' es'] H pos; try discriminate; [split; reflexivity|]. injection H as H1 H2. cbn. rewrite H1.
  destruct (IH es' H2 (S pos)) as [-> ->]. split; reflexivity.
Qed.
Lemma same_slice {B} es es' lo hi (k1 k2 : list (K * V) -> res B) : same_keys es es' -> (forall l l', same_keys l l' -> k2 l' = k1 l) ->
  bind (slice_unchecked es' lo hi) k2 = bind (slice_unchecked es lo hi) k1.
Proof.
  intros H HK. unfold slice_unchecked. rewrite (same_length _ _ H). destruct (_ && _); [|reflexivity]. cbn. apply HK. unfold same_keys in *.
  rewrite <- !firstn_map, <- !skipn_map, H. reflexivity.
Qed.
Lemma same_hash {Q} hQ (eqv : Q -> K -> bool) (m : hash_map K V) es q : same_keys (ht_entries (hm_table m)) es ->
  hash_borrows i c hQ eqv (mo_with_entries (hash_ops hQ eqv) m es) q = hash_borrows i c hQ eqv m q /\
  hash_lookup i c k hQ eqv (mo_with_entries (hash_ops hQ eqv) m es) q = hash_lookup i c k hQ eqv m q.
Proof.
  intros H. unfold hash_borrows, hash_lookup. cbn [mo_with_entries hash_ops hm_table ht_slots ht_entries ht_mask]. rewrite (same_length _ _ H).
  destruct (hQ q); cbn [bind]; [|split; reflexivity..]. destruct (get_unchecked _ _) as [[mn mx]| |]; cbn [bind]; [|split; reflexivity..]. cbv zeta.
  split; (apply same_slice; [exact H|]); intros l l' HL; destruct (same_slot (eqv q) l l' (N.to_nat mn) HL) as [S1 S2]; rewrite ?S1, ?S2; reflexivity.
Qed.
Lemma same_dense {Q} (idxQ : Q -> N) (m : dense_map K V) es q : same_keys (dm_entries m) es ->
  dense_borrows i c idxQ (mo_with_entries (dense_ops idxQ) m es) q = dense_borrows i c idxQ m q /\
  dense_lookup i c k idxQ (mo_with_entries (dense_ops idxQ) m es) q = dense_lookup i c k idxQ m q.
Proof.
  intros H. unfold dense_borrows, dense_lookup. cbn [mo_with_entries dense_ops dm_min dm_max dm_entries]. rewrite (same_length _ _ H). cbv zeta.
  destruct (_ && _); [|split; reflexivity]. split; (apply same_get; [exact H|reflexivity]).
Qed.
Lemma same_sparse {Q} (idxQ : Q -> N) (m : sparse_map K V) es q : same_keys (sp_entries m) es ->
  sparse_borrows i c idxQ (mo_with_entries (sparse_ops idxQ) m es) q = sparse_borrows i c idxQ m q /\
  sparse_lookup i c k idxQ (mo_with_entries (sparse_ops idxQ) m es) q = sparse_lookup i c k idxQ m q.
Proof.
  intros H. unfold sparse_borrows, sparse_lookup. cbn [mo_with_entries sparse_ops sp_min sp_max sp_lookup sp_entries]. rewrite (same_length _ _ H). cbv zeta.
  destruct (_ && _); [|split; reflexivity]. destruct (get_unchecked (sp_lookup m) _) as [x| |]; cbn [bind]; [|split; reflexivity..]. destruct (0 <? x); [|split; reflexivity].
  split; (apply same_get; [exact H|reflexivity]).
Qed.
Lemma same_scan_map {Q} (eqv : Q -> K -> bool) (m : scan_map K V) es q : same_keys (sm_entries m) es ->
  scan_borrows i c eqv (mo_with_entries (scan_ops eqv) m es) q = scan_borrows i c eqv m q /\
  scan_lookup i c k eqv (mo_with_entries (scan_ops eqv) m es) q = scan_lookup i c k eqv m q.
Proof.
  intros H. unfold scan_borrows, scan_lookup. cbn [mo_with_entries scan_ops sm_entries]. rewrite (same_length _ _ H). destruct (same_scan eqv _ _ 0 q None H) as [-> ->]. split; reflexivity.
Qed.
Lemma same_eytzinger {Q} (cmpQ : Q -> K -> comparison) (m : eytzinger_map K V) es q : same_keys (em_entries m) es ->
  eytzinger_borrows i c cmpQ (mo_with_entries (eytzinger_ops cmpQ) m es) q = eytzinger_borrows i c cmpQ m q /\
  eytzinger_lookup i c k cmpQ (mo_with_entries (eytzinger_ops cmpQ) m es) q = eytzinger_lookup i c k cmpQ m q.
Proof.
  intros H. unfold eytzinger_borrows, eytzinger_lookup. cbn [mo_with_entries eytzinger_ops em_entries]. rewrite (same_length _ _ H).
  rewrite (same_search _ _ _ (fun x => CompOpp (cmpQ q x)) 0 0 H). destruct (search_borrows_loop _ _ _ _ _ _) as [r| |]; cbn [bind]; [|split; reflexivity..].
  destruct (snd r); [|split; reflexivity]. split; (apply same_get; [exact H|reflexivity]).
Qed.
Lemma same_nc {Q} hQ (eqv : Q -> K -> bool) (m : nc_map K V) es q : same_keys (nc_entries (ncm_table m)) es ->
  nc_borrows i c hQ eqv (mo_with_entries (nc_ops hQ eqv) m es) q = nc_borrows i c hQ eqv m q /\
  nc_lookup i c k hQ eqv (mo_with_entries (nc_ops hQ eqv) m es) q = nc_lookup i c k hQ eqv m q.
Proof.
  intros H. unfold nc_borrows, nc_lookup. cbn [mo_with_entries nc_ops ncm_table nc_slots nc_entries nc_mask]. rewrite (same_length _ _ H).
  destruct (hQ q); cbn [bind]; [|split; reflexivity..]. destruct (get_unchecked _ _) as [x| |]; cbn [bind]; [|split; reflexivity..]. cbv zeta. destruct (0 <? x); [|split; reflexivity].
  split; (apply same_get; [exact H|]); intros e e' ->; reflexivity.
Qed.
End Writing.
Lemma writing_recorded {M K V Q} (ops : map_ops M K V Q) m f : recorded ops m f -> forall es, map fst es = map fst (mo_entries ops m) ->
  exists f', recorded ops (mo_with_entries ops m es) f' /\ forall i c q, f' i c q = f i c q.
Proof.
  intros R es H. destruct R; (eexists; split; [constructor|]); intros i c q.
  - apply (same_scan_map i c true eqv m es q H).
  - apply (same_eytzinger i c true cmpQ m es q H).
  - apply (same_dense i c true idxQ m es q H).
  - apply (same_sparse i c true idxQ m es q H).
  - apply (same_hash i c true hQ eqv m es q H).
  - apply (same_nc i c true hQ eqv m es q H).
  - destruct m as [m|m|m].
    + apply (same_hash i c true _ eqv m es q H).
    + apply (same_dense i c true idxQ m es q H).
    + apply (same_sparse i c true idxQ m es q H).
  - destruct m as [bh lo hi m|bh lo hi m|bh m]; apply (same_hash i c true _ bytes_eqb m es q H).
  - destruct m as [m|m|m|m|h m|h m].
    + apply (same_scan_map i c true eqv m es q H).
    + apply (same_eytzinger i c true cmpQ m es q H).
    + apply (same_dense i c true idxQ m es q H).
    + apply (same_sparse i c true idxQ m es q H).
    + apply (same_hash i c true (hashQ h) eqv m es q H).
    + apply (same_nc i c true (hashQ h) eqv m es q H).
Qed.
Lemma writing_looked_up {M K V Q} (ops : map_ops M K V Q) m f : looked_up ops m f -> forall es, map fst es = map fst (mo_entries ops m) ->
  exists f', looked_up ops (mo_with_entries ops m es) f' /\ forall i c k q, f' i c k q = f i c k q.
Proof.
  intros R es H. destruct R; (eexists; split; [constructor|]); intros i c k q.
  - apply (same_scan_map i c k eqv m es q H).
  - apply (same_eytzinger i c k cmpQ m es q H).
  - apply (same_dense i c k idxQ m es q H).
  - apply (same_sparse i c k idxQ m es q H).
  - apply (same_hash i c k hQ eqv m es q H).
  - apply (same_nc i c k hQ eqv m es q H).
  - destruct m as [m|m|m].
    + apply (same_hash i c k _ eqv m es q H).
    + apply (same_dense i c k idxQ m es q H).
    + apply (same_sparse i c k idxQ m es q H).
  - destruct m as [bh lo hi m|bh lo hi m|bh m]; apply (same_hash i c k _ bytes_eqb m es q H).
  - destruct m as [m|m|m|m|h m|h m].
    + apply (same_scan_map i c k eqv m es q H).
    + apply (same_eytzinger i c k cmpQ m es q H).
    + apply (same_dense i c k idxQ m es q H).
    + apply (same_sparse i c k idxQ m es q H).
    + apply (same_hash i c k (hashQ h) eqv m es q H).
    + apply (same_nc i c k (hashQ h) eqv m es q H).
Qed.
