(** Proofs about the references that lookups and iterators make. *)
From Verif Require Import ModelUtils ModelTables ModelMaps ModelEmit SpecAliasing SpecPhases ModelBorrows ModelLookups ProofsBase ProofsAliasing ProofsBorrows ProofsPhases.
From Verif Require Import Prelude.

(** ** Forgetting the record *)
Definition entry_found {K V} (es : list (K * V)) (b : borrows) : option (K * V) := match snd b with Some p => nth_error es p | None => None end.

Lemma get_unchecked_nth {A} (l : list A) i x : get_unchecked l i = Ok x -> nth_error l i = Some x.
Proof. unfold get_unchecked. destruct (nth_error l i); [intros H; injection H as ->; reflexivity|discriminate]. Qed.
Lemma pair_eta {A B} (e : A * B) : (fst e, snd e) = e.
Proof. destruct e; reflexivity. Qed.
Section Forgets.
Variables (i : bool) (c : nat) (k : bool).
Lemma scan_found_at {K V Q} (eqv : Q -> K -> bool) (pre es : list (K * V)) q r :
  entry_found (pre ++ es) (scan_lookup_loop c k eqv es (length pre) q r) =
  scan_get_key_value_loop eqv es q (match r with Some p => nth_error (pre ++ es) p | None => None end).
Proof.
  revert pre r. induction es as [|e es IH]; intros pre r; cbn [scan_lookup_loop scan_get_key_value_loop]; [reflexivity|].
  unfold entry_found in *. cbn [snd]. specialize (IH (pre ++ [e]) (if eqv q (fst e) then Some (length pre) else r)).
  rewrite app_length, Nat.add_1_r, <- app_assoc in IH. cbn [app] in IH. rewrite IH. f_equal. destruct (eqv q (fst e)); [|reflexivity].
  rewrite nth_error_app2, Nat.sub_diag by lia. cbn. rewrite pair_eta. reflexivity.
Qed.
Lemma scan_value {K V Q} (eqv : Q -> K -> bool) (es : list (K * V)) q r : scan_get_loop eqv es q (option_map snd r) = option_map snd (scan_get_key_value_loop eqv es q r).
Proof. revert r. induction es as [|e es IH]; intros r; cbn; [reflexivity|]. rewrite <- IH. destruct (eqv q (fst e)); reflexivity. Qed.

Definition remembers {M K V Q} (ops : map_ops M K V Q) (m : M) (f : Q -> res borrows) : Prop := forall q,
  fmap (entry_found (mo_entries ops m)) (f q) = mo_get_key_value ops m q /\ fmap (fun b => option_map snd (entry_found (mo_entries ops m) b)) (f q) = mo_get ops m q.
Lemma scan_remembers {K V Q} (eqv : Q -> K -> bool) (m : scan_map K V) : remembers (scan_ops eqv) m (scan_lookup i c k eqv m).
Proof.
  intros q. pose proof (scan_found_at eqv [] (sm_entries m) q None) as E. cbn [length app] in E. cbn.
  unfold scan_get_key_value, scan_get. cbn [fmap bind]. unfold entry_found in *. cbn [snd] in *. rewrite E. split; [reflexivity|].
  f_equal. symmetry. exact (scan_value eqv (sm_entries m) q None).
Qed.
Lemma eytzinger_remembers {K V Q} (cmpQ : Q -> K -> comparison) (m : eytzinger_map K V) : remembers (eytzinger_ops cmpQ) m (eytzinger_lookup i c k cmpQ m).
Proof.
  intros q. cbn [mo_get_key_value mo_get mo_entries eytzinger_ops]. unfold eytzinger_lookup, eytzinger_get_key_value, eytzinger_get, eytzinger_search_by.
  rewrite <- (search_forgets c _ _ _ 0 0). destruct (search_borrows_loop _ _ _ _ _ _) as [[ev [p|]]| |]; cbn; [|split; reflexivity..].
  destruct (get_unchecked _ p) as [e| |] eqn:G; cbn; [|split; reflexivity..]. apply get_unchecked_nth in G. unfold entry_found. cbn. rewrite G, pair_eta. split; reflexivity.
Qed.
Lemma dense_remembers {K V Q} (idxQ : Q -> N) (m : dense_map K V) : remembers (dense_ops idxQ) m (dense_lookup i c k idxQ m).
Proof.
  intros q. cbn [mo_get_key_value mo_get mo_entries dense_ops]. unfold dense_lookup, dense_get_key_value, dense_get. cbv zeta. destruct (_ && _); [|split; reflexivity].
  destruct (get_unchecked _ _) as [e| |] eqn:G; cbn; [|split; reflexivity..]. apply get_unchecked_nth in G. unfold entry_found. cbn. rewrite G, pair_eta. split; reflexivity.
Qed.
Lemma sparse_remembers {K V Q} (idxQ : Q -> N) (m : sparse_map K V) : remembers (sparse_ops idxQ) m (sparse_lookup i c k idxQ m).
Proof.
  intros q. cbn [mo_get_key_value mo_get mo_entries sparse_ops]. unfold sparse_lookup, sparse_get_key_value, sparse_get. cbv zeta. destruct (_ && _); [|split; reflexivity].
  destruct (get_unchecked (sp_lookup m) _) as [x| |]; cbn [bind fmap]; [|split; reflexivity..]. destruct (0 <? x); [|split; reflexivity].
  destruct (get_unchecked _ _) as [e| |] eqn:G; cbn; [|split; reflexivity..]. apply get_unchecked_nth in G. unfold entry_found. cbn. rewrite G, pair_eta. split; reflexivity.
Qed.
Lemma slot_found {K V} eq pos (l : list (K * V)) :
  match snd (slot_lookup c k eq pos l) with Some p => (pos <= p)%nat /\ nth_error l (p - pos) = scan_slot eq l | None => scan_slot eq l = None end.
Proof.
  revert pos. induction l as [|e l IH]; intros pos; cbn [slot_lookup scan_slot]; [reflexivity|]. destruct (eq e); cbn [snd].
  - split; [lia|]. rewrite Nat.sub_diag. reflexivity.
  - specialize (IH (S pos)). destruct (snd (slot_lookup c k eq (S pos) l)) as [p|]; [|exact IH]. destruct IH as [L E]. split; [lia|].
    replace (p - pos)%nat with (S (p - S pos)) by lia. exact E.
Qed.
Lemma slice_nth {A} (l es : list A) mn mx p : slice_unchecked l mn mx = Ok es -> nth_error es p <> None -> nth_error l (mn + p) = nth_error es p.
Proof.
  unfold slice_unchecked. destruct (_ && _); [|discriminate]. intros H. injection H as <-. intros N. apply nth_error_Some in N. rewrite firstn_length in N.
  rewrite nth_error_firstn, nth_error_skipn. replace (Nat.ltb p (mx - mn)) with true by (symmetry; apply Nat.ltb_lt; lia). reflexivity.
Qed.
Lemma hash_remembers {K V Q} hQ (eqv : Q -> K -> bool) (m : hash_map K V) : remembers (hash_ops hQ eqv) m (hash_lookup i c k hQ eqv m).
Proof.
  intros q. cbn [mo_get_key_value mo_get mo_entries hash_ops]. unfold hash_lookup, hash_get_key_value, hash_get, ht_find.
  destruct (hQ q) as [h| |]; cbn [bind fmap]; [|split; reflexivity..]. destruct (get_unchecked _ _) as [[mn mx]| |]; cbn [bind fmap]; [|split; reflexivity..].
  cbv zeta. destruct (slice_unchecked _ _ _) as [es| |] eqn:S; cbn [bind fmap]; [|split; reflexivity..].
  enough (X : entry_found (ht_entries (hm_table m)) (on_shared_self i c (length (ht_entries (hm_table m))) ++ shared_slice i c (length (ht_entries (hm_table m))) ++
      [Reborrow Shared (Ptr c ASlice) (Ptr c ARange) (from_to (N.to_nat mn) (N.to_nat mx)); Reborrow Shared (Ptr c ARange) (Ptr c APtr) (from_to (N.to_nat mn) (N.to_nat mx))] ++
      fst (slot_lookup c k (fun entry => eqv q (fst entry)) (N.to_nat mn) es), snd (slot_lookup c k (fun entry => eqv q (fst entry)) (N.to_nat mn) es)) =
      scan_slot (fun entry => eqv q (fst entry)) es).
  { rewrite X. split; [|reflexivity]. destruct (scan_slot _ es) as [[? ?]|]; reflexivity. }
  unfold entry_found. cbn [snd]. pose proof (slot_found (fun entry => eqv q (fst entry)) (N.to_nat mn) es) as F.
  destruct (snd (slot_lookup _ _ _ _ es)) as [p|] eqn:EP; [|symmetry; exact F]. destruct F as [L E]. rewrite <- E.
  replace p with (N.to_nat mn + (p - N.to_nat mn))%nat at 1 by lia. apply (slice_nth _ _ _ _ _ S). rewrite E. clear -EP. revert EP. generalize (N.to_nat mn) as pos.
  induction es as [|e es IH]; intros pos; cbn; [discriminate|]. destruct (eqv q (fst e)); [discriminate|]. apply IH.
Qed.
Lemma nc_remembers {K V Q} hQ (eqv : Q -> K -> bool) (m : nc_map K V) : remembers (nc_ops hQ eqv) m (nc_lookup i c k hQ eqv m).
Proof.
  intros q. cbn [mo_get_key_value mo_get mo_entries nc_ops]. unfold nc_lookup, nc_get_key_value, nc_get, nc_find.
  destruct (hQ q) as [h| |]; cbn [bind fmap]; [|split; reflexivity..]. destruct (get_unchecked _ _) as [x| |]; cbn [bind fmap]; [|split; reflexivity..].
  destruct (0 <? x); [|split; reflexivity]. destruct (get_unchecked _ _) as [e| |] eqn:G; cbn [bind fmap]; [|split; reflexivity..]. apply get_unchecked_nth in G.
  unfold entry_found. cbn [snd]. destruct (eqv q (fst e)); [|split; reflexivity]. rewrite G. cbn. rewrite pair_eta. split; reflexivity.
Qed.
End Forgets.
Lemma looked_up_remembers {M K V Q} (ops : map_ops M K V Q) m f : looked_up ops m f -> forall i c k, remembers ops m (f i c k).
Proof.
  intros R i c k. destruct R.
  - apply scan_remembers.
  - apply eytzinger_remembers.
  - apply dense_remembers.
  - apply sparse_remembers.
  - apply hash_remembers.
  - apply nc_remembers.
  - destruct m as [m|m|m].
    + exact (hash_remembers i c k _ eqv m).
    + exact (dense_remembers i c k idxQ m).
    + exact (sparse_remembers i c k idxQ m).
  - destruct m as [bh lo hi m|bh lo hi m|bh m]; exact (hash_remembers i c k _ bytes_eqb m).
  - destruct m as [m|m|m|m|h m|h m].
    + exact (scan_remembers i c k eqv m).
    + exact (eytzinger_remembers i c k cmpQ m).
    + exact (dense_remembers i c k idxQ m).
    + exact (sparse_remembers i c k idxQ m).
    + exact (hash_remembers i c k (hashQ h) eqv m).
    + exact (nc_remembers i c k (hashQ h) eqv m).
Qed.

(** ** Only reading *)
Definition ro_step (l : loc) (e : event) (ks : list tag) : option (list tag) :=
  match e with
  | Reborrow k parent new range =>
      if range l then match k with Shared => if among parent ks && negb (tag_eqb new Owner) then Some (new :: ks) else None | _ => None end else Some ks
  | Use w t l' => if loc_eqb l l' then (if negb w && among t ks then Some ks else None) else Some ks
  end.
Definition fine (l : loc) (p : list event) (ks : list tag) (Post : list tag -> Prop) : Prop :=
  exists ks', run (ro_step l) p ks = Some ks' /\ incl ks ks' /\ Post ks'.
Section Fine.
Variable l : loc.
Lemma fine_nil ks (Post : list tag -> Prop) : Post ks -> fine l [] ks Post.
Proof. intros H. exists ks. split; [reflexivity|]. split; [apply incl_refl|exact H]. Qed.
Lemma fine_borrow parent c w range p ks Post : (range l = true -> In parent ks) ->
  (forall ks1, incl ks ks1 -> (range l = true -> In (Ptr c w) ks1) -> fine l p ks1 Post) -> fine l (Reborrow Shared parent (Ptr c w) range :: p) ks Post.
Proof.
  intros HP H. unfold fine. cbn [run ro_step]. destruct (range l) eqn:E.
  - apply among_in in HP; [|reflexivity]. rewrite HP. cbn. destruct (H (Ptr c w :: ks)) as [ks' [R [I X]]]; [apply incl_tl, incl_refl|left; reflexivity|].
    exists ks'. split; [exact R|]. split; [|exact X]. intros y Hy. apply I. right. exact Hy.
  - apply H; [apply incl_refl|discriminate].
Qed.
Lemma fine_use t l' p ks Post : (l = l' -> In t ks) -> fine l p ks Post -> fine l (Use false t l' :: p) ks Post.
Proof.
  intros HT H. unfold fine. cbn [run ro_step]. destruct (loc_eqb l l') eqn:E; [|exact H]. apply loc_eqb_spec in E. cbn [negb andb].
  replace (among t ks) with true by (symmetry; apply among_in; auto). exact H.
Qed.
Lemma fine_app p q ks Post : fine l p ks (fun ks1 => fine l q ks1 Post) -> fine l (p ++ q) ks Post.
Proof.
  intros [ks1 [R1 [I1 [ks2 [R2 [I2 X]]]]]]. exists ks2. rewrite run_app, R1. split; [exact R2|]. split; [|exact X]. eapply incl_tran; eassumption.
Qed.
Lemma fine_weaken p ks (Post Post' : list tag -> Prop) : (forall ks', incl ks ks' -> Post ks' -> Post' ks') -> fine l p ks Post -> fine l p ks Post'.
Proof. intros H [ks' [R [I X]]]. exists ks'. auto. Qed.
Lemma among_incl t ks ks' : incl ks ks' -> among t ks = true -> among t ks' = true.
Proof. intros I H. apply among_in. apply I. apply among_in. exact H. Qed.
(** More is known. *)
Lemma fine_more p ks ks2 (Post : list tag -> Prop) : (forall a b, incl a b -> Post a -> Post b) -> incl ks ks2 -> fine l p ks Post -> fine l p ks2 Post.
Proof.
  intros HM. revert ks ks2. induction p as [|e p IH]; intros ks ks2 I [ks' [R [I' X]]]; cbn [run] in R.
  - injection R as <-. apply fine_nil. exact (HM _ _ I X).
  - destruct (ro_step l e ks) as [k1|] eqn:E; [|discriminate].
    assert (Y : exists k2, ro_step l e ks2 = Some k2 /\ incl k1 k2 /\ incl ks2 k2).
    { destruct e as [[] parent new range|w t l']; cbn [ro_step] in *.
      - destruct (range l); [discriminate|]. injection E as <-. exists ks2. split; [reflexivity|]. split; [exact I|apply incl_refl].
      - destruct (range l).
        + destruct (among parent ks) eqn:A; [|discriminate]. rewrite (among_incl _ _ _ I A). cbn [andb] in *. destruct (negb _); [|discriminate]. injection E as <-.
          exists (new :: ks2). split; [reflexivity|]. split; [|apply incl_tl, incl_refl]. intros y [->|Hy]; [left; reflexivity|right; exact (I y Hy)].
        + injection E as <-. exists ks2. split; [reflexivity|]. split; [exact I|apply incl_refl].
      - destruct (range l); [discriminate|]. injection E as <-. exists ks2. split; [reflexivity|]. split; [exact I|apply incl_refl].
      - destruct (loc_eqb l l').
        + destruct w; [discriminate|]. cbn [negb andb] in *. destruct (among t ks) eqn:A; [|discriminate]. rewrite (among_incl _ _ _ I A). injection E as <-.
          exists ks2. split; [reflexivity|]. split; [exact I|apply incl_refl].
        + injection E as <-. exists ks2. split; [reflexivity|]. split; [exact I|apply incl_refl]. }
    destruct Y as [k2 [E2 [I2 I3]]]. destruct (IH k1 k2 I2) as [ks3 [R3 [I4 X3]]].
    { exists ks'. split; [exact R|]. split; [|exact X]. clear -R. revert k1 R. induction p as [|e p IH]; intros k1 R; cbn [run] in R; [injection R as <-; apply incl_refl|].
      destruct (ro_step l e k1) as [k3|] eqn:E; [|discriminate]. eapply incl_tran; [|exact (IH _ R)].
      destruct e as [[] parent new range|w t l']; cbn [ro_step] in E; [destruct (range l); [discriminate|]|destruct (range l); [destruct (_ && _); [|discriminate]|]|destruct (range l); [discriminate|]|
        destruct (loc_eqb l l'); [destruct (_ && _); [|discriminate]|]]; injection E as <-; try apply incl_refl. apply incl_tl, incl_refl. }
    exists ks3. cbn [run]. rewrite E2. split; [exact R3|]. split; [eapply incl_tran; eassumption|exact X3].
Qed.

End Fine.

(** Stacked Borrows and Tree Borrows accept it. *)
Lemma front_forall {A} (P : A -> Prop) a x b top r : a ++ x :: b = top ++ [r] -> Forall P top -> Forall P a.
Proof.
  revert top. induction a as [|y a IH]; intros top E H; [constructor|]. destruct top as [|z top]; cbn in E; [destruct a; discriminate|].
  injection E as <- E. inversion H; subst. constructor; [assumption|]. eapply IH; eassumption.
Qed.
Definition ro_stack (ks : list tag) (s : stack) : Prop := exists top, s = top ++ [(Unique, Owner)] /\ Forall (fun i => fst i = SharedRO) top /\
  forall t, In t ks -> t = Owner \/ In (SharedRO, t) top.
Lemma ro_access ks s t : ro_stack ks s -> In t ks -> sb_access false t s = Some s.
Proof.
  intros [top [-> [R K]]] HT. unfold sb_access.
  assert (G : exists a x b, granting false t (top ++ [(Unique, Owner)]) = Some (a, x, b)).
  { specialize (K t HT). clear R. induction top as [|[p u] top IH]; cbn [app granting].
    - destruct K as [->|[]]. cbn. eauto.
    - destruct (tag_eqb u t && grants false p) eqn:E; [eauto|]. destruct IH as [a [x [b ->]]]; [|eauto]. destruct K as [K|[K|K]]; auto. injection K as -> ->.
      rewrite tag_eqb_refl in E. discriminate. }
  destruct G as [a [x [b G]]]. rewrite G. destruct (granting_parts _ _ _ _ _ _ G) as [E _]. rewrite E. f_equal. f_equal.
  symmetry in E. pose proof (front_forall _ _ _ _ _ _ E R) as RA.
  rewrite <- (map_id a) at 2. apply map_ext_in. intros [p u] Hy. pose proof (proj1 (Forall_forall _ _) RA _ Hy) as X. cbn in X. subst p. reflexivity.
Qed.
Lemma ro_sb l p ks ks' s : run (ro_step l) p ks = Some ks' -> ro_stack ks s -> exists s', run (sb_step l) p s = Some s'.
Proof.
  revert ks s. induction p as [|e p IH]; intros ks s; cbn [run]; [eauto|]. destruct (ro_step l e ks) as [k1|] eqn:E; [|discriminate]. intros R RS.
  enough (X : exists s1, sb_step l e s = Some s1 /\ ro_stack k1 s1) by (destruct X as [s1 [-> RS1]]; exact (IH _ _ R RS1)).
  destruct e as [[] parent new range|w t l']; cbn [ro_step sb_step] in *.
  - destruct (range l); [discriminate|]. injection E as <-. eauto.
  - destruct (range l); [|injection E as <-; eauto]. destruct (among parent ks) eqn:A; [|discriminate]. cbn [andb] in E. destruct (negb _); [|discriminate]. injection E as <-.
    apply among_in in A. rewrite (ro_access _ _ _ RS A). eexists. split; [reflexivity|]. destruct RS as [top [-> [RO K]]]. exists ((SharedRO, new) :: top).
    split; [reflexivity|]. split; [constructor; [reflexivity|exact RO]|]. intros t [<-|Ht]; [right; left; reflexivity|]. destruct (K t Ht); [left; assumption|right; right; assumption].
  - destruct (range l); [discriminate|]. injection E as <-. eauto.
  - destruct (loc_eqb l l'); [|injection E as <-; eauto]. destruct w; [discriminate|]. cbn [negb andb] in E. destruct (among t ks) eqn:A; [|discriminate]. injection E as <-.
    apply among_in in A. rewrite (ro_access _ _ _ RS A). eauto.
Qed.
Definition live (n : tree) : Prop := Forall (fun x => snd x <> Some TbDisabled) n.
Lemma live_update through n : live n -> exists n', tb_update false through n = Some n' /\ live n'.
Proof.
  induction 1 as [|[[u q] p] n H L IH]; cbn [tb_update]; [exists []; split; [reflexivity|constructor]|]. destruct IH as [r [-> LR]]. cbn in H.
  destruct p as [p|]; [|eexists; split; [reflexivity|constructor; [discriminate|exact LR]]].
  destruct (among u through); destruct p; cbn; try congruence; (eexists; split; [reflexivity|constructor; [discriminate|exact LR]]).
Qed.
Lemma ro_tb l p ks ks' n : run (ro_step l) p ks = Some ks' -> live n -> (forall t, In t ks -> known t n = true) -> exists n', run (tb_step l) p n = Some n'.
Proof.
  revert ks n. induction p as [|e p IH]; intros ks n; cbn [run]; [eauto|]. destruct (ro_step l e ks) as [k1|] eqn:E; [|discriminate]. intros R L K.
  enough (X : exists n1, tb_step l e n = Some n1 /\ live n1 /\ forall t, In t k1 -> known t n1 = true) by (destruct X as [n1 [-> [L1 K1]]]; exact (IH _ _ R L1 K1)).
  assert (A : forall t, In t ks -> exists n1, tb_access false t n = Some n1 /\ live n1 /\ forall t, In t ks -> known t n1 = true).
  { intros t Ht. destruct (live_update (chain n t) n L) as [n1 [U L1]]. exists n1. unfold tb_access. rewrite (K t Ht). split; [exact U|]. split; [exact L1|].
    intros u Hu. rewrite (known_skeleton _ _ _ (update_skeleton _ _ _ _ U)). exact (K u Hu). }
  destruct e as [[] parent new range|w t l']; cbn [ro_step tb_step] in *.
  - destruct (range l); [discriminate|]. injection E as <-. eauto.
  - destruct (range l); [|injection E as <-; eauto]. destruct (among parent ks) eqn:B; [|discriminate]. cbn [andb] in E. destruct (negb _); [|discriminate]. injection E as <-.
    apply among_in in B. destruct (A _ B) as [n1 [-> [L1 K1]]]. eexists. split; [reflexivity|]. split; [constructor; [discriminate|exact L1]|].
    intros t [<-|Ht]; unfold known; cbn [existsb fst]; [rewrite tag_eqb_refl; reflexivity|]. rewrite (K1 t Ht : existsb _ _ = true). apply orb_true_r.
  - destruct (range l); [discriminate|]. injection E as <-. eauto.
  - destruct (loc_eqb l l'); [|injection E as <-; eauto]. destruct w; [discriminate|]. cbn [negb andb] in E. destruct (among t ks) eqn:B; [|discriminate]. injection E as <-.
    apply among_in in B. destruct (A _ B) as [n1 [-> [L1 K1]]]. eauto.
Qed.
Lemma fine_defined p : (forall l, fine l p [Owner] (fun _ => True)) -> sb_defined p /\ tb_defined p.
Proof.
  intros H. split.
  - intros l. destruct (H l) as [ks [R _]]. destruct (ro_sb l p [Owner] ks [(Unique, Owner)] R) as [s ->]; [|discriminate].
    exists []. split; [reflexivity|]. split; [constructor|]. intros t [<-|[]]. left. reflexivity.
  - intros l s HS. destruct (H l) as [ks [R _]]. destruct (ro_tb l p [Owner] ks [(Owner, Owner, Some s)] R) as [n ->]; [| |discriminate].
    + constructor; [|constructor]. destruct HS as [->| ->]; discriminate.
    + intros t [<-|[]]. reflexivity.
Qed.

(** ** One lookup *)
Section OneLookup.
Variables (i : bool) (c n : nat) (k : bool).
Definition gives (l : loc) (o : option nat) (ks : list tag) : Prop :=
  forall p, o = Some p -> (l = ValAt p -> In (Ptr c (AVal p)) ks) /\ (k = true -> l = KeyAt p -> In (Ptr c (AKey p)) ks).
Lemma gives_more l o a b : incl a b -> gives l o a -> gives l o b.
Proof. intros I H p E. destruct (H p E) as [H1 H2]. split; [intros L; exact (I _ (H1 L))|intros K L; exact (I _ (H2 K L))]. Qed.
Lemma val_entry_at l p : val_at p l = true -> entry_at p l = true.
Proof. exact (val_entry p l). Qed.
Ltac there := first [assumption | match goal with I : incl ?a ?b |- In _ ?b => apply I; there end].

Lemma refs_fine l p r ks Post : (entry_at p l = true -> In (Ptr c (AEntry p)) ks) ->
  (forall ks1, incl ks ks1 -> gives l (Some p) ks1 -> fine l r ks1 Post) -> fine l (entry_refs c k p ++ r) ks Post.
Proof.
  intros HE H. unfold entry_refs. rewrite <- app_assoc.
  assert (V : forall ks1, incl ks ks1 -> (k = true -> l = KeyAt p -> In (Ptr c (AKey p)) ks1) -> fine l ([Reborrow Shared (Ptr c (AEntry p)) (Ptr c (AVal p)) (val_at p)] ++ r) ks1 Post).
  { intros ks1 I HK. cbn [app]. apply fine_borrow; [intros X; apply I, HE, val_entry; exact X|]. intros ks2 I2 HV. apply H; [eapply incl_tran; eassumption|].
    intros q E. injection E as <-. split; [intros ->; apply HV; apply val_at_self|]. intros K L. apply I2. exact (HK K L). }
  destruct k; cbn [app].
  - apply fine_borrow; [intros X; apply HE, key_entry; exact X|]. intros ks1 I HK. apply V; [exact I|]. intros _ ->. apply HK. apply loc_eqb_refl.
  - apply V; [apply incl_refl|discriminate].
Qed.
Lemma self_fine l r ks Post : In Owner ks -> (forall ks1, incl ks ks1 -> (whole n l = true -> In (self_ptr i c) ks1) -> fine l r ks1 Post) ->
  fine l (on_shared_self i c n ++ r) ks Post.
Proof.
  intros HO H. unfold on_shared_self, self_ptr in *. destruct i; cbn [app].
  - apply fine_borrow; [auto|]. exact H.
  - apply H; [apply incl_refl|auto].
Qed.
Lemma give_fine l p ks (Post : list tag -> Prop) : (p < n)%nat -> (whole n l = true -> In (self_ptr i c) ks) -> (forall ks1, incl ks ks1 -> gives l (Some p) ks1 -> Post ks1) ->
  fine l (give_entry i c k n p) ks Post.
Proof.
  intros HP HS H. unfold give_entry, shared_slice. cbn [app]. apply fine_borrow; [exact HS|]. intros ks1 I1 H1. apply fine_borrow; [intros E; apply H1; exact (entry_whole _ _ _ HP E)|].
  intros ks2 I2 H2. rewrite <- (app_nil_r (entry_refs c k p)). apply refs_fine; [exact H2|]. intros ks3 I3 G. apply fine_nil. apply H; [|exact G].
  eapply incl_tran; [exact I1|]. eapply incl_tran; eassumption.
Qed.
Definition fine_lookup (b : borrows) : Prop :=
  (forall p, snd b = Some p -> (p < n)%nat) /\ forall l, fine l (fst b) [Owner] (gives l (snd b)).
Lemma none_fine : fine_lookup (on_shared_self i c n, None).
Proof.
  split; [discriminate|]. intros l. cbn [fst snd]. rewrite <- (app_nil_r (on_shared_self i c n)). apply self_fine; [left; reflexivity|]. intros ks _ _. apply fine_nil. intros p H. discriminate.
Qed.
Lemma some_fine p : (p < n)%nat -> fine_lookup (on_shared_self i c n ++ give_entry i c k n p, Some p).
Proof.
  intros HP. split; [intros q H; injection H as <-; exact HP|]. intros l. cbn [fst snd]. apply self_fine; [left; reflexivity|]. intros ks I H. apply give_fine; auto.
Qed.
Lemma scan_loop_fine {K V Q} (eqv : Q -> K -> bool) q l (es : list (K * V)) pos r ks :
  (forall p, (pos <= p < pos + length es)%nat -> entry_at p l = true -> In (Ptr c APtr) ks) -> gives l r ks ->
  fine l (fst (scan_lookup_loop c k eqv es pos q r)) ks (gives l (snd (scan_lookup_loop c k eqv es pos q r))).
Proof.
  revert pos r ks. induction es as [|e es IH]; intros pos r ks HP G; cbn [scan_lookup_loop fst snd]; [apply fine_nil; exact G|].
  cbn [app]. apply fine_borrow; [apply HP; cbn [length]; lia|]. intros k1 I1 H1. apply fine_borrow; [intros X; apply H1, key_entry; exact X|]. intros k2 I2 H2.
  apply fine_use; [intros ->; apply H2; apply loc_eqb_refl|].
  assert (J : forall k3, incl k2 k3 -> forall p, (S pos <= p < S pos + length es)%nat -> entry_at p l = true -> In (Ptr c APtr) k3).
  { intros k3 I3 p L E. apply I3, I2, I1. apply (HP p); [cbn [length]; lia|exact E]. }
  destruct (eqv q (fst e)).
  - apply refs_fine; [intros E; apply I2; exact (H1 E)|]. intros k3 I3 G3. apply IH; [apply J; exact I3|exact G3].
  - cbn [app]. apply IH; [apply J; apply incl_refl|]. eapply gives_more; [|exact G]. eapply incl_tran; eassumption.
Qed.
Lemma scan_fine {K V Q} (eqv : Q -> K -> bool) (m : scan_map K V) q b : n = length (sm_entries m) -> scan_lookup i c k eqv m q = Ok b -> fine_lookup b.
Proof.
  intros HN H. unfold scan_lookup in H. injection H as <-. rewrite <- HN. split; cbn [fst snd].
  - intros p. rewrite HN. clear HN. enough (X : forall (es : list (K * V)) pos r, (forall p, r = Some p -> (p < pos)%nat) -> snd (scan_lookup_loop c k eqv es pos q r) = Some p -> (p < pos + length es)%nat).
    { intros H. exact (X (sm_entries m) 0%nat None (fun p E => ltac:(discriminate)) H). }
    induction es as [|e es IH]; intros pos r HR; cbn [scan_lookup_loop snd length].
    + intros ->. rewrite Nat.add_0_r. auto.
    + intros H. apply IH in H; [lia|]. intros p' E. destruct (eqv q (fst e)); [injection E as <-; lia|]. specialize (HR _ E). lia.
  - intros l. apply self_fine; [left; reflexivity|]. intros k1 I1 H1. unfold shared_slice. cbn [app]. apply fine_borrow; [exact H1|]. intros k2 I2 H2.
    apply fine_borrow; [exact H2|]. intros k3 I3 H3. apply scan_loop_fine; [|intros p X; discriminate]. intros p L E. apply H3. rewrite <- HN in L. apply (entry_whole n p); [lia|exact E].
Qed.
Lemma search_fine {K V} fuel (d : list (K * V)) f x s b l ks : n = length d -> search_borrows_loop c fuel d f x s = Ok b -> (whole n l = true -> In (Ptr c AView) ks) ->
  fine l (fst b) ks (fun _ => True).
Proof.
  intros HN. revert x s b ks. induction fuel as [|fuel IH]; intros x s b ks; cbn [search_borrows_loop]; [discriminate|]. destruct (nth_error d x) as [v|] eqn:E.
  2: { intros H _. injection H as <-. apply fine_nil. exact I. }
  assert (LX : (x < n)%nat) by (rewrite HN; apply nth_error_Some; congruence).
  assert (X : forall r, (whole n l = true -> In (Ptr c AView) ks) -> (forall ks1, incl ks ks1 -> fine l r ks1 (fun _ => True)) ->
    fine l ([Reborrow Shared (Ptr c AView) (Ptr c (ASeen s)) (entry_at x); Use false (Ptr c (ASeen s)) (KeyAt x)] ++ r) ks (fun _ => True)).
  { intros r HV H. cbn [app]. apply fine_borrow; [intros Y; apply HV; exact (entry_whole _ _ _ LX Y)|]. intros k1 I1 H1. apply fine_use; [|apply H; exact I1].
    intros ->. apply H1. unfold entry_at. apply Nat.eqb_refl. }
  destruct (f v).
  - intros H HV. injection H as <-. apply (X []); [exact HV|]. intros. apply fine_nil. exact I.
  - cbv zeta. destruct (search_borrows_loop _ _ _ _ _ _) as [b'| |] eqn:EB; cbn [bind]; try discriminate. intros H HV. injection H as <-. cbn [fst]. apply X; [exact HV|].
    intros k1 I1. eapply IH; [exact EB|]. intros W. apply I1. exact (HV W).
  - cbv zeta. destruct (search_borrows_loop _ _ _ _ _ _) as [b'| |] eqn:EB; cbn [bind]; try discriminate. intros H HV. injection H as <-. cbn [fst]. apply X; [exact HV|].
    intros k1 I1. eapply IH; [exact EB|]. intros W. apply I1. exact (HV W).
Qed.
Lemma eytzinger_fine {K V Q} (cmpQ : Q -> K -> comparison) (m : eytzinger_map K V) q b : n = length (em_entries m) -> eytzinger_lookup i c k cmpQ m q = Ok b -> fine_lookup b.
Proof.
  intros HN. unfold eytzinger_lookup. rewrite <- HN. destruct (search_borrows_loop _ _ _ _ _ _) as [r| |] eqn:E; cbn [bind]; try discriminate. destruct (snd r) as [p|] eqn:R.
  - destruct (get_unchecked _ _) as [e| |] eqn:G; cbn [bind]; try discriminate. apply get_unchecked_lt in G. rewrite <- HN in G. intros H. injection H as <-.
    split; [intros p' X; injection X as <-; exact G|]. intros l. cbn [fst snd]. rewrite <- app_assoc. apply self_fine; [left; reflexivity|]. intros k1 I1 H1. cbn [app].
    apply fine_borrow; [exact H1|]. intros k2 I2 H2. apply fine_app. eapply fine_weaken; [|eapply search_fine; [exact HN|exact E|exact H2]].
    cbn. intros k3 I3 _. apply give_fine; [exact G|intros W; apply I3, I2; exact (H1 W)|]. intros k4 _ X. exact X.
  - intros H. injection H as <-. split; [discriminate|]. intros l. cbn [fst snd]. apply self_fine; [left; reflexivity|]. intros k1 I1 H1. apply fine_borrow; [exact H1|].
    intros k2 I2 H2. eapply fine_weaken; [|eapply search_fine; [exact HN|exact E|exact H2]]. cbn. intros k3 _ _ p X. discriminate.
Qed.
Lemma dense_fine {K V Q} (idxQ : Q -> N) (m : dense_map K V) q b : n = length (dm_entries m) -> dense_lookup i c k idxQ m q = Ok b -> fine_lookup b.
Proof.
  intros HN. unfold dense_lookup. cbv zeta. rewrite <- HN. destruct (_ && _); [|intros H; injection H as <-; apply none_fine].
  destruct (get_unchecked _ _) as [e| |] eqn:G; cbn [bind]; try discriminate. intros H. injection H as <-. apply some_fine. rewrite HN. exact (get_unchecked_lt _ _ _ G).
Qed.
Lemma sparse_fine {K V Q} (idxQ : Q -> N) (m : sparse_map K V) q b : n = length (sp_entries m) -> sparse_lookup i c k idxQ m q = Ok b -> fine_lookup b.
Proof.
  intros HN. unfold sparse_lookup. cbv zeta. rewrite <- HN. destruct (_ && _); [|intros H; injection H as <-; apply none_fine].
  destruct (get_unchecked (sp_lookup m) _) as [x| |]; cbn [bind]; try discriminate. destruct (0 <? x); [|intros H; injection H as <-; apply none_fine].
  destruct (get_unchecked _ _) as [e| |] eqn:G; cbn [bind]; try discriminate. intros H. injection H as <-. apply some_fine. rewrite HN. exact (get_unchecked_lt _ _ _ G).
Qed.
Lemma slot_fine {K V} eq l (es : list (K * V)) pos ks : (forall p, (pos <= p < pos + length es)%nat -> entry_at p l = true -> In (Ptr c APtr) ks) ->
  fine l (fst (slot_lookup c k eq pos es)) ks (gives l (snd (slot_lookup c k eq pos es))) /\ forall p, snd (slot_lookup c k eq pos es) = Some p -> (p < pos + length es)%nat.
Proof.
  revert pos ks. induction es as [|e es IH]; intros pos ks HP; cbn [slot_lookup].
  - split; [apply fine_nil; intros p H; discriminate|discriminate].
  - destruct (eq e); cbn [fst snd length].
    + split; [|intros p H; injection H as <-; lia]. cbn [app]. apply fine_borrow; [apply HP; cbn [length]; lia|]. intros k1 I1 H1.
      apply fine_use; [intros ->; apply H1; unfold entry_at; apply Nat.eqb_refl|]. apply fine_borrow; [intros E; apply I1; apply (HP pos); [cbn [length]; lia|exact E]|].
      intros k2 I2 H2. rewrite <- (app_nil_r (entry_refs c k pos)). apply refs_fine; [exact H2|]. intros k3 I3 G. apply fine_nil. exact G.
    + destruct (IH (S pos) ks) as [_ L]; [intros p LP E; apply (HP p); [cbn [length]; lia|exact E]|]. split; [|intros p H; specialize (L p H); lia].
      cbn [app]. apply fine_borrow; [apply HP; cbn [length]; lia|]. intros k1 I1 H1. apply fine_use; [intros ->; apply H1; unfold entry_at; apply Nat.eqb_refl|].
      apply IH. intros p LP E. apply I1. apply (HP p); [cbn [length]; lia|exact E].
Qed.
Lemma hash_fine {K V Q} hQ (eqv : Q -> K -> bool) (m : hash_map K V) q b : n = length (ht_entries (hm_table m)) -> hash_lookup i c k hQ eqv m q = Ok b -> fine_lookup b.
Proof.
  intros HN. unfold hash_lookup. destruct (hQ q) as [h| |]; cbn [bind]; try discriminate. destruct (get_unchecked _ _) as [[mn mx]| |]; cbn [bind]; try discriminate.
  cbv zeta. rewrite <- HN. destruct (slice_unchecked _ _ _) as [es| |] eqn:S; cbn [bind]; try discriminate. intros H. injection H as <-.
  unfold slice_unchecked in S. destruct (Nat.leb (N.to_nat mn) (N.to_nat mx) && Nat.leb (N.to_nat mx) (length (ht_entries (hm_table m)))) eqn:B; [|discriminate].
  apply andb_prop in B. destruct B as [B1 B2]. apply Nat.leb_le in B1, B2. injection S as S.
  assert (LE : length es = (N.to_nat mx - N.to_nat mn)%nat) by (rewrite <- S, firstn_length, skipn_length; lia). clear S. rewrite <- HN in B2.
  set (lo := N.to_nat mn) in *. set (hi := N.to_nat mx) in *. clearbody lo hi. split; cbn [fst snd].
  - intros p H. destruct (slot_fine (fun entry => eqv q (fst entry)) (KeyAt 0) es lo [Ptr c APtr]) as [_ L]; [intros; left; reflexivity|]. specialize (L p H). lia.
  - intros l. apply self_fine; [left; reflexivity|]. intros k1 I1 H1. unfold shared_slice. cbn [app]. apply fine_borrow; [exact H1|]. intros k2 I2 H2.
    apply fine_borrow. { intros F. apply H2. unfold from_to in F. unfold whole. apply andb_prop in F. destruct F as [_ F]. apply Nat.ltb_lt in F. apply Nat.ltb_lt. lia. }
    intros k3 I3 H3. apply fine_borrow; [exact H3|]. intros k4 I4 H4. apply slot_fine. intros p LP E. apply H4. unfold entry_at in E. apply Nat.eqb_eq in E. unfold from_to.
    rewrite E. apply andb_true_intro. split; [apply Nat.leb_le|apply Nat.ltb_lt]; lia.
Qed.
Lemma nc_fine {K V Q} hQ (eqv : Q -> K -> bool) (m : nc_map K V) q b : n = length (nc_entries (ncm_table m)) -> nc_lookup i c k hQ eqv m q = Ok b -> fine_lookup b.
Proof.
  intros HN. unfold nc_lookup. destruct (hQ q) as [h| |]; cbn [bind]; try discriminate. destruct (get_unchecked _ _) as [x| |]; cbn [bind]; try discriminate.
  cbv zeta. rewrite <- HN. destruct (0 <? x); [|intros H; injection H as <-; apply none_fine]. destruct (get_unchecked _ _) as [e| |] eqn:G; cbn [bind]; try discriminate.
  apply get_unchecked_lt in G. rewrite <- HN in G. intros H. injection H as <-. set (p := N.to_nat (x - 1)) in *. clearbody p. split; cbn [fst snd].
  - destruct (eqv q (fst e)); [intros p' H; injection H as <-; exact G|discriminate].
  - intros l. apply self_fine; [left; reflexivity|]. intros k1 I1 H1. unfold shared_slice. cbn [app]. apply fine_borrow; [exact H1|]. intros k2 I2 H2.
    apply fine_borrow; [intros E; apply H2; exact (entry_whole _ _ _ G E)|]. intros k3 I3 H3. apply fine_use; [intros ->; apply H3; unfold entry_at; apply Nat.eqb_refl|].
    destruct (eqv q (fst e)); [|apply fine_nil; intros p' H; discriminate]. rewrite <- (app_nil_r (entry_refs c k p)). apply refs_fine; [exact H3|].
    intros k4 I4 G4. apply fine_nil. exact G4.
Qed.
End OneLookup.
Lemma looked_up_fine {M K V Q} (ops : map_ops M K V Q) m f : looked_up ops m f -> forall i c k q b, f i c k q = Ok b -> fine_lookup c (length (mo_entries ops m)) k b.
Proof.
  intros R i c k q b. destruct R.
  - apply (scan_fine i c _ k eqv m q b eq_refl).
  - apply (eytzinger_fine i c _ k cmpQ m q b eq_refl).
  - apply (dense_fine i c _ k idxQ m q b eq_refl).
  - apply (sparse_fine i c _ k idxQ m q b eq_refl).
  - apply (hash_fine i c _ k hQ eqv m q b eq_refl).
  - apply (nc_fine i c _ k hQ eqv m q b eq_refl).
  - destruct m as [m|m|m].
    + exact (hash_fine i c _ k _ eqv m q b eq_refl).
    + exact (dense_fine i c _ k idxQ m q b eq_refl).
    + exact (sparse_fine i c _ k idxQ m q b eq_refl).
  - destruct m as [bh lo hi m|bh lo hi m|bh m]; exact (hash_fine i c _ k _ bytes_eqb m q b eq_refl).
  - destruct m as [m|m|m|m|h m|h m].
    + exact (scan_fine i c _ k eqv m q b eq_refl).
    + exact (eytzinger_fine i c _ k cmpQ m q b eq_refl).
    + exact (dense_fine i c _ k idxQ m q b eq_refl).
    + exact (sparse_fine i c _ k idxQ m q b eq_refl).
    + exact (hash_fine i c _ k (hashQ h) eqv m q b eq_refl).
    + exact (nc_fine i c _ k (hashQ h) eqv m q b eq_refl).
Qed.
