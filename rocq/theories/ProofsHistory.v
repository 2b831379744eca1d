(** Clients cannot tell a frozen map from the reference map. *)
From Coq Require Import Permutation ZArith ZifyNat ZifyN ZifyBool.
From Verif Require Import Prelude Spec ModelUtils ModelAnalyzers ModelTables ModelMaps ModelIter SpecMade SpecHistory ModelHistory
  ProofsBase ProofsDedup ProofsEytzinger ProofsTable ProofsMaps ProofsScalar ProofsSlices ProofsFz ProofsIter ProofsMade ProofsProps.

Lemma repeated_spec {Q} (eqQ : Q -> Q -> bool) qs : repeated eqQ qs = true <->
  exists i j x y, (i < j)%nat /\ nth_error qs i = Some x /\ nth_error qs j = Some y /\ eqQ x y = true.
Proof.
  induction qs as [|q r IH]; cbn [repeated].
  - split; [discriminate|]. intros (i & j & x & y & _ & H & _). destruct i; discriminate.
  - rewrite Bool.orb_true_iff, existsb_exists, IH. split.
    + intros [[y [Hy E]]|(i & j & x & y & H)].
      * apply In_nth_error in Hy. destruct Hy as [j Hj]. exists 0%nat, (S j), q, y. repeat split; auto. lia.
      * exists (S i), (S j), x, y. cbn. intuition lia.
    + intros (i & j & x & y & H1 & H2 & H3 & H4). destruct j as [|j]; [lia|]. cbn in H3. destruct i as [|i]; cbn in H2.
      * injection H2 as ->. left. exists y. split; [|auto]. eapply nth_error_In; eauto.
      * right. exists i, j, x, y. repeat split; auto. lia.
Qed.

Lemma has_duplicates_repeated {Q} (eqQ : Q -> Q -> bool) qs : has_duplicates eqQ qs = repeated eqQ qs.
Proof. apply Bool.eq_iff_eq_true. rewrite has_duplicates_spec, repeated_spec. reflexivity. Qed.

(** Positions handed out are pairwise different when the crate says so. *)
Lemma aliased_false ps : (forall i j p, nth_error ps i = Some (Some p) -> nth_error ps j = Some (Some p) -> i = j) -> aliased ps = false.
Proof.
  induction ps as [|o r IH]; intros H; [reflexivity|]. cbn [aliased].
  assert (IHr : aliased r = false).
  { apply IH. intros i j p Hi Hj. specialize (H (S i) (S j) p Hi Hj). lia. }
  destruct o as [p|]; [|auto]. rewrite IHr, Bool.orb_false_r. apply Bool.not_true_iff_false. rewrite existsb_exists.
  intros [o [Ho E]]. destruct o as [p'|]; [|discriminate]. apply Nat.eqb_eq in E. subst p'. apply In_nth_error in Ho. destruct Ho as [j Hj].
  specialize (H 0%nat (S j) p eq_refl Hj). lia.
Qed.

Lemma write_value_fst {K V} (es : list (K * V)) p v : map fst (write_value es p v) = map fst es.
Proof.
  unfold write_value. destruct (nth_error es p) as [e|] eqn:E; [|auto]. apply nth_error_ext. intros i.
  rewrite !nth_error_map, nth_error_list_set. destruct (Nat.eqb_spec p i) as [->|]; [|auto].
  destruct (Nat.ltb_spec i (length es)).
  - rewrite E. reflexivity.
  - apply nth_error_None in H. congruence.
Qed.

Lemma write_value_length {K V} (es : list (K * V)) p v : length (write_value es p v) = length es.
Proof. rewrite <- !(map_length fst). rewrite write_value_fst. reflexivity. Qed.

(** Updating positions [0 .. n) one after the other updates everything. *)
Lemma update_positions {K V} (f : K -> V -> V) (g : list (K * V) -> K -> nat -> list (K * V)) :
  (forall es k p, g es k p = match value_at es p with Some v => write_value es p (f k v) | None => es end) ->
  forall (suf pre : list (K * V)),
  fold_left (fun es r => g es (fst r) (snd r)) (combine (map fst suf) (seq (length pre) (length suf))) (pre ++ suf) =
  pre ++ map (fun e => (fst e, f (fst e) (snd e))) suf.
Proof.
  intros Hg. induction suf as [|[k v] suf IH]; intros pre; cbn [map combine length seq fold_left fst snd]; [reflexivity|].
  assert (E : g (pre ++ (k, v) :: suf) k (length pre) = (pre ++ [(k, f k v)]) ++ suf).
  { rewrite Hg. unfold value_at. rewrite nth_error_app2, Nat.sub_diag by lia. cbn [nth_error option_map snd].
    unfold write_value. rewrite nth_error_app2, Nat.sub_diag by lia. cbn [nth_error fst].
    apply nth_error_ext. intros i. rewrite nth_error_list_set.
    destruct (Nat.eqb_spec (length pre) i) as [<-|Hi].
    - rewrite app_length. cbn [length]. destruct (Nat.ltb_spec (length pre) (length pre + S (length suf))); [|lia].
      rewrite <- app_assoc, nth_error_app2, Nat.sub_diag by lia. reflexivity.
    - rewrite <- app_assoc. destruct (Nat.lt_ge_cases i (length pre)).
      + rewrite !nth_error_app1 by lia. reflexivity.
      + rewrite !nth_error_app2 by lia. destruct (i - length pre)%nat eqn:Ei; [lia|]. reflexivity. }
  rewrite E. specialize (IH (pre ++ [(k, f k v)])). rewrite app_length in IH. cbn [length] in IH. rewrite Nat.add_1_r in IH.
  rewrite IH, <- app_assoc. reflexivity.
Qed.

Lemma ref_replace_upd {K V Q} (eqv : Q -> K -> bool) (l : list (K * V)) q v : ref_replace eqv l q v = map (upd eqv q v) l.
Proof. apply map_ext. intros [k w]. unfold upd. cbn. destruct (eqv q k); reflexivity. Qed.

Lemma ref_replace_fst {K V Q} (eqv : Q -> K -> bool) (l : list (K * V)) q v : map fst (ref_replace eqv l q v) = map fst l.
Proof. unfold ref_replace. rewrite map_map. reflexivity. Qed.

Lemma find_last_match {A} (p : A -> bool) (same : A -> A -> bool) l : distinct same l ->
  (forall a b, p a = true -> p b = true -> same a b = true) -> find p l = last_match p l.
Proof.
  intros D H. induction l as [|x r IH]; cbn [find last_match distinct] in *; [reflexivity|]. destruct D as [D1 D2].
  destruct (p x) eqn:E.
  - destruct (last_match p r) as [y|] eqn:Ey; [|reflexivity]. apply last_match_Some in Ey. destruct Ey as [Hy Py].
    pose proof (D1 y Hy) as D. rewrite (H _ _ E Py) in D. discriminate.
  - rewrite (IH D2). destruct (last_match p r); reflexivity.
Qed.

Section Sim.
Context {M K V Q : Type} (ops : map_ops M K V Q) (eqK : K -> K -> bool) (eqv : Q -> K -> bool) (eqQ : Q -> Q -> bool).

Definition steady (m : M) : Prop := made ops eqK eqv m (mo_entries ops m).

Lemma made_steady m input : made ops eqK eqv m input -> steady m.
Proof.
  intros MD. unfold steady. destruct (made_facts _ _ _ _ _ MD) as (_ & _ & B).
  rewrite <- (ok_with_id _ _ _ (built_ok _ _ _ _ _ B)) at 1. apply made_values with (input := input); auto.
Qed.

Lemma steady_with m es : steady m -> map fst es = map fst (mo_entries ops m) ->
  mo_entries ops (mo_with_entries ops m es) = es /\ steady (mo_with_entries ops m es).
Proof.
  intros H E. destruct (made_facts _ _ _ _ _ H) as (_ & _ & B).
  assert (X : mo_entries ops (mo_with_entries ops m es) = es) by apply (ok_entries _ _ _ (built_ok _ _ _ _ _ B)).
  split; [exact X|]. unfold steady. rewrite X. apply made_values with (input := mo_entries ops m); auto.
Qed.

Lemma steady_find m q : steady m -> spec_entry eqv (mo_entries ops m) q = ref_find eqv (mo_entries ops m) q.
Proof.
  intros H. destruct (made_lawful _ _ _ _ _ H) as [LE LV]. symmetry. apply (find_last_match _ (same_key eqK)).
  - apply (made_distinct _ _ _ _ _ H).
  - intros a b Ha Hb. unfold same_key. rewrite <- (LV q _ _ Ha). auto.
Qed.

(** A position handed out by [get_mut]. *)
Lemma steady_get_mut m q : steady m -> exists o, mo_get_mut ops m q = Ok o /\
  match o with
  | Some p => exists e, nth_error (mo_entries ops m) p = Some e /\ eqv q (fst e) = true /\ ref_find eqv (mo_entries ops m) q = Some e
  | None => ref_find eqv (mo_entries ops m) q = None
  end.
Proof.
  intros H. destruct (made_get_mut _ _ _ _ _ H q) as [o [E1 [E2 E3]]]. rewrite (steady_find m q H) in E2, E3.
  exists o. split; [auto|]. destruct o as [p|]; cbn [opt_bind is_some] in *.
  - destruct (ref_find eqv (mo_entries ops m) q) as [e|] eqn:E; [|discriminate]. exists e. split; [auto|]. split; [|auto].
    unfold ref_find in E. apply find_some in E. apply E.
  - destruct (ref_find eqv (mo_entries ops m) q); [discriminate|reflexivity].
Qed.

Lemma absent_replace (l : list (K * V)) q v : ref_find eqv l q = None -> ref_replace eqv l q v = l.
Proof.
  intros E. unfold ref_replace. transitivity (map (fun e : K * V => e) l); [|apply map_id]. apply map_ext_in. intros [k w] He.
  pose proof (find_none _ _ E _ He) as X. cbn in *. rewrite X. reflexivity.
Qed.

(** Writing at a position found by a query is replacing the value of that query, also after other writes. *)
Lemma write_replace m (es : list (K * V)) p q v e : steady m -> map fst es = map fst (mo_entries ops m) ->
  nth_error (mo_entries ops m) p = Some e -> eqv q (fst e) = true -> write_value es p v = ref_replace eqv es q v.
Proof.
  intros H EF Hp He. destruct (made_lawful _ _ _ _ _ H) as [LE LV]. rewrite ref_replace_upd.
  assert (Hx : nth_error (map fst es) p = Some (fst e)) by (rewrite EF, nth_error_map, Hp; reflexivity).
  rewrite nth_error_map in Hx. destruct (nth_error es p) as [e'|] eqn:E; [|discriminate]. injection Hx as Hx.
  apply (write_value_upd eqK eqv LV es p q v e'); auto.
  - apply (distinct_same_keys eqK (mo_entries ops m)); auto. apply (made_distinct _ _ _ _ _ H).
  - rewrite Hx. exact He.
Qed.

Lemma many_writes m (H : steady m) : forall (ws : list (Q * V)) ps (es : list (K * V)), Forall2 (fun q o => mo_get_mut ops m q = Ok o) (map fst ws) ps ->
  map fst es = map fst (mo_entries ops m) ->
  fold_left (fun es w => match fst w with Some p => write_value es p (snd w) | None => es end) (combine ps (map snd ws)) es =
  fold_left (fun (l : list (K * V)) w => ref_replace eqv l (fst w) (snd w)) ws es /\
  map fst (fold_left (fun (l : list (K * V)) w => ref_replace eqv l (fst w) (snd w)) ws es) = map fst (mo_entries ops m).
Proof.
  induction ws as [|[q v] ws IH]; intros ps es HF EF; cbn [map fst] in HF; inversion HF as [|q0 o qs ps' E1 HF']; subst.
  - cbn. auto.
  - cbn [map combine fold_left fst snd].
    assert (ES : (match o with Some p => write_value es p v | None => es end) = ref_replace eqv es q v).
    { destruct (steady_get_mut m q H) as [o' [E2 X]]. rewrite E1 in E2. injection E2 as <-. destruct o as [p|].
      - destruct X as (e & X1 & X2 & _). apply (write_replace m es p q v e); auto.
      - symmetry. unfold ref_replace. transitivity (map (fun e : K * V => e) es); [|apply map_id]. apply map_ext_in. intros [k w] He. cbn.
        assert (Hk : In k (map fst (mo_entries ops m))) by (rewrite <- EF; apply in_map_iff; exists (k, w); auto).
        apply in_map_iff in Hk. destruct Hk as [e [<- He']]. unfold ref_find in X. rewrite (find_none _ _ X _ He'). reflexivity. }
    rewrite ES. apply IH; auto. rewrite ref_replace_fst. exact EF.
Qed.

Lemma value_at_found m p e : nth_error (mo_entries ops m) p = Some e -> value_at (mo_entries ops m) p = Some (snd e).
Proof. unfold value_at. intros ->. reflexivity. Qed.

Hypothesis CQ : forall q q' k, eqv q k = true -> eqv q' k = true -> eqQ q q' = true.

Lemma step_sim m c : steady m -> exists m', client_call ops eqQ m c = Ok (fst (ref_call eqv eqQ (mo_entries ops m) c), m') /\
  mo_entries ops m' = snd (ref_call eqv eqQ (mo_entries ops m) c) /\ steady m'.
Proof.
  intros H. set (l := mo_entries ops m).
  assert (Same : forall r a, client_body ops eqQ m c = r -> (r = Ok (a, m) \/ (r = Panic /\ a = AnsPanic)) -> ref_call eqv eqQ l c = (a, l) ->
    exists m', client_call ops eqQ m c = Ok (fst (ref_call eqv eqQ l c), m') /\
      mo_entries ops m' = snd (ref_call eqv eqQ l c) /\ steady m').
  { intros r a E1 E2 E3. exists m. unfold client_call. rewrite E1, E3. cbn [fst snd].
    destruct E2 as [->|[-> ->]]; auto. }
  destruct c as [q|q|q|q| | | | | |q v|ws|f|f].
  - eapply Same; [reflexivity| |reflexivity]. left. cbn [client_body]. rewrite (made_get _ _ _ _ _ H). unfold spec_get.
    rewrite (steady_find m q H). reflexivity.
  - eapply Same; [reflexivity| |reflexivity]. left. cbn [client_body]. rewrite (made_gkv _ _ _ _ _ H).
    rewrite (steady_find m q H). reflexivity.
  - eapply Same; [reflexivity| |reflexivity]. left. cbn [client_body]. rewrite (made_contains _ _ _ _ _ H).
    rewrite (steady_find m q H). reflexivity.
  - eapply Same; [reflexivity| |reflexivity]. cbn [client_body]. unfold map_index. rewrite (made_get _ _ _ _ _ H). unfold spec_get.
    rewrite (steady_find m q H). fold l. destruct (ref_find eqv l q); cbn; auto.
  - eapply Same; [reflexivity| |reflexivity]. left. reflexivity.
  - eapply Same; [reflexivity| |reflexivity]. left. cbn [client_body]. unfold map_is_empty, map_len. fold l. destruct l; reflexivity.
  - eapply Same; [reflexivity| |reflexivity]. left. cbn [client_body].
    rewrite (yields_drain _ _ _ (ex_yields _ _ map_iter_exact _)); [reflexivity|]. unfold map_len, iter_new. lia.
  - eapply Same; [reflexivity| |reflexivity]. left. cbn [client_body].
    rewrite (yields_drain _ _ _ (ex_yields _ _ map_keys_exact _)); [reflexivity|]. unfold map_len, iter_new. rewrite map_length. lia.
  - eapply Same; [reflexivity| |reflexivity]. left. cbn [client_body].
    rewrite (yields_drain _ _ _ (ex_yields _ _ map_values_exact _)); [reflexivity|]. unfold map_len, iter_new. rewrite map_length. lia.
  - unfold client_call. cbn [client_body ref_call fst snd]. unfold client_replace. destruct (steady_get_mut m q H) as [o [E X]].
    rewrite E. cbn [bind]. fold l. destruct o as [p|].
    + destruct X as (e & X1 & X2 & X3). unfold l at 1. rewrite (value_at_found m p e X1). fold l in X3. rewrite X3. cbn [option_map].
      rewrite (write_replace m l p q v e H eq_refl X1 X2).
      destruct (steady_with m (ref_replace eqv l q v) H (ref_replace_fst _ _ _ _)) as [E1 E2].
      eexists. split; [reflexivity|]. auto.
    + fold l in X. rewrite X. exists m. split; [reflexivity|]. rewrite (absent_replace l q v X). auto.
  - destruct (made_disjoint _ _ _ _ _ H eqQ (map fst ws)) as [D1 D2]. destruct (repeated eqQ (map fst ws)) eqn:ER.
    + eapply Same; [reflexivity| |cbn [ref_call]; rewrite ER; reflexivity]. right. cbn [client_body]. unfold client_replace_many.
      rewrite D1 by (apply repeated_spec; exact ER). auto.
    + destruct D2 as (ps & E & HF & HA). { intros X. apply repeated_spec in X. congruence. }
      specialize (HA CQ). unfold client_call. cbn [client_body ref_call]. rewrite ER. cbn [fst snd]. unfold client_replace_many.
      rewrite E. cbn [bind]. rewrite (aliased_false ps HA). fold l.
      destruct (many_writes m H ws ps l HF eq_refl) as [W1 W2]. cbv zeta. rewrite W1.
      destruct (steady_with m _ H W2) as [E1 E2].
      eexists. split; [|split; [exact E1|exact E2]]. do 3 f_equal.
      clear - HF H. revert ps HF. induction ws as [|[q v] ws IH]; intros ps HF; inversion HF as [|q0 o qs ps' F1 F2]; subst; [reflexivity|].
      cbn [map]. f_equal; [|apply IH; exact F2]. destruct (steady_get_mut m q H) as [o' [E X]]. rewrite F1 in E. injection E as <-.
      destruct o as [p|].
      * destruct X as (e & X1 & X2 & X3). unfold l. rewrite (value_at_found m p e X1). cbn [fst]. rewrite X3. reflexivity.
      * cbn [fst]. unfold l. rewrite X. reflexivity.
  - unfold client_call. cbn [client_body ref_call fst snd]. unfold client_update_all. cbv zeta. fold l.
    rewrite (yields_drain _ _ _ (proj1 (iter_mut_positions l))); [|rewrite combine_length, map_length, seq_length; lia]. cbn [bind].
    pose proof (update_positions f (fun es k p => match value_at es p with Some v => write_value es p (f k v) | None => es end)
      (fun _ _ _ => eq_refl) l []) as U. cbn [length app] in U. cbv beta in U. rewrite U.
    assert (EF : map fst (map (fun e : K * V => (fst e, f (fst e) (snd e))) l) = map fst (mo_entries ops m)) by (rewrite map_map; reflexivity).
    destruct (steady_with m _ H EF) as [E1 E2]. eexists. split; [reflexivity|]. auto.
  - unfold client_call. cbn [client_body ref_call fst snd]. unfold client_update_values. cbv zeta. fold l.
    rewrite (yields_drain _ _ _ (proj2 (iter_mut_positions l))); [|rewrite seq_length; lia]. cbn [bind].
    pose proof (update_positions (fun _ => f) (fun es k p => match value_at es p with Some v => write_value es p (f v) | None => es end)
      (fun _ _ _ => eq_refl) l []) as U. cbn [length app] in U. cbv beta in U.
    assert (FS : forall (ks : list K) ps es, length ks = length ps ->
      fold_left (fun (es : list (K * V)) (p : nat) => match value_at es p with Some v => write_value es p (f v) | None => es end) ps es =
      fold_left (fun (es : list (K * V)) (r : K * nat) => match value_at es (snd r) with Some v => write_value es (snd r) (f v) | None => es end) (combine ks ps) es).
    { induction ks as [|k ks IH]; intros [|p ps] es HL; cbn in *; try discriminate; auto. }
    rewrite (FS (map fst l)) by (rewrite map_length, seq_length; reflexivity). rewrite U.
    assert (EF : map fst (map (fun e : K * V => (fst e, f (snd e))) l) = map fst (mo_entries ops m)) by (rewrite map_map; reflexivity).
    destruct (steady_with m _ H EF) as [E1 E2]. eexists. split; [reflexivity|]. auto.
Qed.

Lemma play_sim client n : forall seen m, steady m ->
  exists m', play (client_call ops eqQ) client n seen m =
    fmap (fun r => (fst r, m')) (play (fun l c => Ok (ref_call eqv eqQ l c)) client n seen (mo_entries ops m)) /\
  (exists a, play (fun l c => Ok (ref_call eqv eqQ l c)) client n seen (mo_entries ops m) = Ok (a, mo_entries ops m')) /\ steady m'.
Proof.
  induction n as [|n IH]; intros seen m H; cbn [play].
  - exists m. cbn. eauto.
  - destruct (client seen) as [c|]; [|exists m; cbn; eauto].
    destruct (step_sim m c H) as (m1 & E1 & E2 & H1). rewrite E1. cbn [bind fst snd]. rewrite <- E2. apply IH. exact H1.
Qed.

Lemma ref_call_fst l c : map fst (snd (ref_call (V := V) eqv eqQ l c)) = map fst l.
Proof.
  destruct c; cbn [ref_call snd]; auto.
  - apply ref_replace_fst.
  - destruct (repeated eqQ (map fst ws)); [reflexivity|]. cbn [snd]. revert l. induction ws as [|w ws IH]; intros l; [reflexivity|]. cbn [fold_left].
    rewrite IH. apply ref_replace_fst.
  - rewrite map_map. reflexivity.
  - rewrite map_map. reflexivity.
Qed.

Lemma history m input : made ops eqK eqv m input -> exists l,
  (forall e, In e l <-> exists pre post, input = pre ++ e :: post /\ forall e', In e' post -> eqK (fst e) (fst e') = false) /\
  distinct eqK (map fst l) /\
  forall client n, exists answers l' m',
    play (fun l c => Ok (ref_call eqv eqQ l c)) client n [] l = Ok (answers, l') /\
    play (client_call ops eqQ) client n [] m = Ok (answers, m') /\ mo_entries ops m' = l'.
Proof.
  intros MD. exists (mo_entries ops m). destruct (made_iteration _ _ _ _ _ MD) as (I1 & I2 & _).
  split; [exact I1|]. split; [exact I2|].
  intros client n. destruct (play_sim client n [] m (made_steady m input MD)) as (m' & E1 & [a E2] & _).
  exists a, (mo_entries ops m'), m'. split; [exact E2|]. rewrite E1, E2. auto.
Qed.
End Sim.

(** * The order of the entries is all that can differ *)
Section Order.
Context {K V Q : Type} (eqK : K -> K -> bool) (eqv : Q -> K -> bool) (eqQ : Q -> Q -> bool).
Hypothesis LE : lawful_eq eqK.
Hypothesis LV : lawful_equivalent eqK eqv.

Lemma ref_find_perm (l1 l2 : list (K * V)) q : Permutation l1 l2 -> distinct (same_key eqK) l1 -> ref_find eqv l1 q = ref_find eqv l2 q.
Proof.
  intros HP D1.
  assert (D2 : distinct (same_key eqK) l2) by (eapply distinct_perm; [apply (eq_sym_law _ (lawful_same_key eqK LE))|exact HP|exact D1]).
  assert (HM : forall a b : K * V, eqv q (fst a) = true -> eqv q (fst b) = true -> same_key eqK a b = true).
  { intros a b Ha Hb. unfold same_key. rewrite <- (LV q _ _ Ha). auto. }
  unfold ref_find. rewrite (find_last_match _ (same_key eqK) l1 D1 HM), (find_last_match _ (same_key eqK) l2 D2 HM).
  symmetry. apply (last_match_perm (same_key eqK)); auto. apply (eq_sym_law _ (lawful_same_key eqK LE)).
Qed.

Lemma ref_call_perm (l1 l2 : list (K * V)) c : order_free c -> Permutation l1 l2 -> distinct (same_key eqK) l1 ->
  fst (ref_call eqv eqQ l1 c) = fst (ref_call eqv eqQ l2 c) /\
  Permutation (snd (ref_call eqv eqQ l1 c)) (snd (ref_call eqv eqQ l2 c)) /\ distinct (same_key eqK) (snd (ref_call eqv eqQ l1 c)).
Proof.
  intros HO HP HD. split; [|split].
  - destruct c; try destruct HO; cbn [ref_call fst]; rewrite ?(ref_find_perm l1 l2) by auto; try reflexivity.
    + f_equal. apply Permutation_length. exact HP.
    + f_equal. apply Permutation_length in HP. destruct l1, l2; cbn in *; congruence.
    + destruct (repeated eqQ (map fst ws)); [reflexivity|]. cbn [fst]. f_equal. apply map_ext. intros w.
      rewrite (ref_find_perm l1 l2) by auto. reflexivity.
  - destruct c; cbn [ref_call snd]; auto; try (apply Permutation_map; exact HP).
    destruct (repeated eqQ (map fst ws)); cbn [snd]; [exact HP|]. clear HO HD. revert l1 l2 HP. induction ws as [|w ws IH]; intros l1 l2 HP; [exact HP|].
    cbn [fold_left]. apply IH. apply Permutation_map. exact HP.
  - apply (distinct_same_keys eqK l1); [apply ref_call_fst|exact HD].
Qed.

Lemma play_perm client n : (forall seen c, client seen = Some c -> order_free c) -> forall seen (l1 l2 : list (K * V)),
  Permutation l1 l2 -> distinct (same_key eqK) l1 -> exists a r1 r2,
  play (fun l c => Ok (ref_call eqv eqQ l c)) client n seen l1 = Ok (a, r1) /\
  play (fun l c => Ok (ref_call eqv eqQ l c)) client n seen l2 = Ok (a, r2) /\ Permutation r1 r2.
Proof.
  intros HC. induction n as [|n IH]; intros seen l1 l2 HP HD; cbn [play].
  - exists seen, l1, l2. auto.
  - destruct (client seen) as [c|] eqn:E; [|exists seen, l1, l2; auto]. cbn [bind].
    destruct (ref_call_perm l1 l2 c (HC _ _ E) HP HD) as (E1 & E2 & E3). rewrite <- E1. apply IH; auto.
Qed.
End Order.

Lemma indistinguishable {M1 M2 K V Q} (ops1 : map_ops M1 K V Q) (ops2 : map_ops M2 K V Q) eqK eqv eqQ m1 m2 input :
  made ops1 eqK eqv m1 input -> made ops2 eqK eqv m2 input ->
  (forall q q' k, eqv q k = true -> eqv q' k = true -> eqQ q q' = true) ->
  forall client n, (forall seen c, client seen = Some c -> order_free c) -> exists answers m1' m2',
  play (client_call ops1 eqQ) client n [] m1 = Ok (answers, m1') /\ play (client_call ops2 eqQ) client n [] m2 = Ok (answers, m2') /\
  Permutation (mo_entries ops1 m1') (mo_entries ops2 m2').
Proof.
  intros H1 H2 CQ client n HC. destruct (made_lawful _ _ _ _ _ H1) as [LE LV].
  destruct (play_sim ops1 eqK eqv eqQ CQ client n [] m1 (made_steady ops1 eqK eqv m1 input H1)) as (m1' & E1 & [a1 F1] & _).
  destruct (play_sim ops2 eqK eqv eqQ CQ client n [] m2 (made_steady ops2 eqK eqv m2 input H2)) as (m2' & E2 & [a2 F2] & _).
  assert (HP : Permutation (mo_entries ops1 m1) (mo_entries ops2 m2)).
  { transitivity (survivors (same_key eqK) input); [symmetry; apply (made_entries _ _ _ _ _ H1)|apply (made_entries _ _ _ _ _ H2)]. }
  destruct (play_perm eqK eqv eqQ LE LV client n HC [] _ _ HP (made_distinct _ _ _ _ _ H1)) as (a & r1 & r2 & G1 & G2 & G3).
  rewrite F1 in G1. rewrite F2 in G2. injection G1 as -> <-. injection G2 as -> <-.
  exists a, m1', m2'. rewrite E1, F1, E2, F2. auto.
Qed.
