(** Memory safety without trait laws (see SpecSafe.v). *)
From Verif Require Import ModelUtils ModelAnalyzers ModelTables ModelMaps Spec SpecSafe ProofsBase ProofsTable ProofsScalar ModelCost ProofsCost.
From Coq Require Import Permutation.
From Verif Require Import Prelude.

Section Ops.
Context {K V Q : Type}.

Lemma scan_safe (eqv : Q -> K -> bool) (es : list (K * V)) q : answers_safely (scan_ops eqv) {| sm_entries := es |} q.
Proof.
  constructor; cbn.
  - eexists. split; [reflexivity|]. cut (forall acc v, scan_get_loop eqv es q acc = Some v -> In v (map snd es) \/ acc = Some v).
    { intros H v Hv. apply H in Hv. destruct Hv; [auto|discriminate]. }
    induction es as [|e r IH]; cbn; auto. intros acc v H. apply IH in H. destruct H as [H|H]; auto.
    destruct (eqv q (fst e)); auto. injection H as <-. auto.
  - eexists. split; [reflexivity|]. cbn.
    cut (forall acc pos p, scan_get_mut_loop eqv es pos q acc = Some p -> (p < pos + length es)%nat \/ acc = Some p).
    { intros H v Hv. apply H in Hv. destruct Hv; [auto|discriminate]. }
    induction es as [|e r IH]; cbn; auto. intros acc pos p H. apply IH in H. destruct H as [H|H]; [left; lia|].
    destruct (eqv q (fst e)); auto. injection H as <-. left. lia.
  - eexists. split; [reflexivity|]. cut (forall acc v, scan_get_key_value_loop eqv es q acc = Some v -> In v es \/ acc = Some v).
    { intros H v Hv. apply H in Hv. destruct Hv; [auto|discriminate]. }
    induction es as [|e r IH]; cbn; auto. intros acc v H. apply IH in H. destruct H as [H|H]; auto.
    destruct (eqv q (fst e)); auto. injection H as <-. destruct e. auto.
  - unfold scan_contains_key, scan_get. cbn. eauto.
Qed.

Lemma search_in_range {T} (data : list T) f : forall fuel i o, eytzinger_search_loop fuel data f i = Ok o ->
  match o with Some p => exists v, nth_error data p = Some v | None => True end.
Proof.
  induction fuel as [|fuel IH]; intros i o H; cbn [eytzinger_search_loop] in H; [discriminate|].
  destruct (nth_error data i) as [v|] eqn:E; [|injection H as <-; exact I].
  destruct (f v); [injection H as <-; eauto|exact (IH _ _ H)|exact (IH _ _ H)].
Qed.

Lemma eytzinger_safe (cmpQ : Q -> K -> comparison) (m : eytzinger_map K V) q : answers_safely (eytzinger_ops cmpQ) m q.
Proof.
  destruct (search_cost (em_entries m) (fun entry => CompOpp (cmpQ q (fst entry)))) as [o [log [_ [E _]]]].
  pose proof (search_in_range _ _ _ _ _ E) as R.
  assert (G : exists o, eytzinger_get cmpQ m q = Ok o /\ forall v, o = Some v -> In v (map snd (em_entries m))).
  { unfold eytzinger_get. rewrite E. cbn [bind]. destruct o as [p|].
    - destruct R as [v R]. unfold get_unchecked. rewrite R. cbn. eexists. split; [reflexivity|]. intros v' H. injection H as <-.
      apply in_map. eapply nth_error_In; eauto.
    - eexists. split; [reflexivity|]. discriminate. }
  constructor; cbn.
  - exact G.
  - unfold eytzinger_get_mut. rewrite E. cbn [bind]. destruct o as [p|].
    + destruct R as [v R]. unfold get_unchecked. rewrite R. cbn. eexists. split; [reflexivity|]. intros v' H. injection H as <-.
      apply nth_error_Some. congruence.
    + eexists. split; [reflexivity|]. discriminate.
  - unfold eytzinger_get_key_value. rewrite E. cbn [bind]. destruct o as [p|].
    + destruct R as [v R]. unfold get_unchecked. rewrite R. cbn. eexists. split; [reflexivity|]. intros v' H. injection H as <-.
      destruct v. eapply nth_error_In; eauto.
    + eexists. split; [reflexivity|]. discriminate.
  - unfold eytzinger_contains_key. destruct G as [o' [-> _]]. cbn. eauto.
Qed.

Definition dense_fits (m : dense_map K V) : Prop := dm_min m <= dm_max m -> dm_max m - dm_min m < N.of_nat (length (dm_entries m)).

Lemma dense_safe (idxQ : Q -> N) (m : dense_map K V) q : dense_fits m -> answers_safely (dense_ops idxQ) m q.
Proof.
  intros F.
  assert (A : forall i, dm_min m <= i /\ i <= dm_max m -> exists e, nth_error (dm_entries m) (N.to_nat (i - dm_min m)) = Some e).
  { intros i H. destruct (nth_error (dm_entries m) (N.to_nat (i - dm_min m))) eqn:E; eauto. apply nth_error_None in E.
    unfold dense_fits in F. lia. }
  specialize (A (idxQ q)).
  constructor; cbn; unfold dense_contains_key, dense_get, dense_get_mut, dense_get_key_value;
    destruct ((dm_min m <=? idxQ q) && (idxQ q <=? dm_max m)) eqn:C; try (eexists; split; [reflexivity|discriminate]);
    try (eexists; reflexivity); destruct A as [e A]; try lia; unfold get_unchecked; rewrite A; cbn;
    try (eexists; reflexivity); (eexists; split; [reflexivity|]; intros x H; injection H as <-).
  - apply in_map. eapply nth_error_In; eauto.
  - apply nth_error_Some. congruence.
  - destruct e. eapply nth_error_In; eauto.
Qed.

Definition sparse_fits (m : sparse_map K V) : Prop :=
  (sp_min m <= sp_max m -> sp_max m - sp_min m < N.of_nat (length (sp_lookup m))) /\
  forall i, In i (sp_lookup m) -> i <= N.of_nat (length (sp_entries m)).

Lemma sparse_safe (idxQ : Q -> N) (m : sparse_map K V) q : sparse_fits m -> answers_safely (sparse_ops idxQ) m q.
Proof.
  intros [F1 F2].
  assert (A : sp_min m <= idxQ q /\ idxQ q <= sp_max m -> exists i, nth_error (sp_lookup m) (N.to_nat (idxQ q - sp_min m)) = Some i /\
            (0 < i -> exists e, nth_error (sp_entries m) (N.to_nat (i - 1)) = Some e)).
  { intros H. destruct (nth_error (sp_lookup m) (N.to_nat (idxQ q - sp_min m))) as [i|] eqn:E.
    - exists i. split; auto. intros Hi. apply nth_error_In in E. apply F2 in E.
      destruct (nth_error (sp_entries m) (N.to_nat (i - 1))) eqn:E'; eauto. apply nth_error_None in E'. lia.
    - apply nth_error_None in E. lia. }
  constructor; cbn; unfold sparse_contains_key, sparse_get, sparse_get_mut, sparse_get_key_value;
    destruct ((sp_min m <=? idxQ q) && (idxQ q <=? sp_max m)) eqn:C; try (eexists; split; [reflexivity|discriminate]);
    try (eexists; reflexivity); destruct A as [i [A B]]; try lia; unfold get_unchecked; rewrite A; cbn [bind];
    destruct (N.ltb_spec 0 i) as [Hi|Hi]; try (eexists; split; [reflexivity|discriminate]);
    try (eexists; reflexivity); destruct (B Hi) as [e E]; rewrite E; cbn;
    try (eexists; reflexivity); (eexists; split; [reflexivity|]; intros x H; injection H as <-).
  - apply in_map. eapply nth_error_In; eauto.
  - apply nth_error_Some. congruence.
  - destruct e. eapply nth_error_In; eauto.
Qed.

Lemma hash_safe (hQ : Q -> N) (eqv : Q -> K -> bool) (m : hash_map K V) q : (exists codes, ht_inv codes (hm_table m)) ->
  answers_safely (hash_ops (fun q => Ok (hQ q)) eqv) m q.
Proof.
  intros [codes HI].
  destruct (ht_find_spec codes (hm_table m) (hQ q) (fun entry => eqv q (fst entry)) HI) as [o [E1 [E2 E3]]].
  constructor; cbn; unfold hash_contains_key, hash_get, hash_get_mut, hash_get_key_value; cbn [bind]; rewrite ?E1, ?E2; cbn;
    try (eexists; reflexivity); (eexists; split; [reflexivity|]; intros x H); destruct o as [p|]; try discriminate H; cbn in H.
  - destruct E3 as [e [E3 _]]. rewrite E3 in H. injection H as <-. apply in_map. eapply nth_error_In; eauto.
  - injection H as <-. destruct E3 as [e [E3 _]]. apply nth_error_Some. congruence.
  - destruct E3 as [e [E3 _]]. rewrite E3 in H. injection H as <-. destruct e. eapply nth_error_In; eauto.
Qed.
End Ops.

(** * Constructors *)
Lemma mapM_Ok_all {A B} (f : A -> res B) l bs : mapM f l = Ok bs -> forall x, In x l -> exists b, f x = Ok b.
Proof.
  revert bs. induction l as [|a r IH]; intros bs H x Hx; [destruct Hx|]. cbn [mapM] in H.
  destruct (f a) as [b| |] eqn:E; cbn [bind] in H; try discriminate.
  destruct (mapM f r) as [bs'| |] eqn:E'; cbn [bind] in H; try discriminate.
  destruct Hx as [<-|Hx]; eauto.
Qed.

Lemma ht_new_safe {T} (usort : list (N * T) -> list (N * T)) cm entries (hash : T -> res N) t : sorts_by_slot usort ->
  ht_new usort cm entries hash = Ok (ROk t) -> exists codes, ht_inv codes t.
Proof.
  intros HU H. destruct (N.ltb_spec (max_capacity cm) (N.of_nat (length entries))) as [C|C].
  { destruct (ht_new_too_many usort cm entries hash C) as [msg E]. congruence. }
  assert (A : forall e, In e entries -> exists h, hash e = Ok h).
  { pose proof H as H'. unfold ht_new in H'. destruct entries as [|e0 r0]; [intros e []|]. cbn [is_nil] in H'.
    destruct (N.ltb_spec (max_capacity cm) (N.of_nat (length (e0 :: r0)))); [lia|].
    destruct (mapM hash (e0 :: r0)) as [codes| |] eqn:E; cbn [bind] in H'; try discriminate.
    eapply mapM_Ok_all; eauto. }
  destruct (ht_new_spec usort cm entries hash (fun e => match hash e with Ok h => h | _ => 0 end) HU) as [t' [E1 [_ E2]]]; auto.
  - intros e He. destruct (A e He) as [h ->]. reflexivity.
  - rewrite H in E1. injection E1 as <-. eauto.
Qed.

Lemma hash_from_dedupped_safe {K V} (usort : list (N * (K * V)) -> list (N * (K * V))) cm hK entries m : sorts_by_slot usort ->
  hash_from_dedupped usort cm hK entries = Ok (ROk m) -> exists codes, ht_inv codes (hm_table m).
Proof.
  intros HU H. unfold hash_from_dedupped in H.
  destruct (ht_new usort cm entries (fun e => hK (fst e))) as [[t|msg]| |] eqn:E; cbn in H; try discriminate. injection H as <-.
  cbn. eapply ht_new_safe; eauto.
Qed.

Lemma usub_inv md a b d : usub md a b = Ok d -> a <= usize_max -> b <= usize_max -> b <= a -> d = a - b.
Proof. intros H Ha Hb Hab. rewrite usub_ok in H by auto. congruence. Qed.

Lemma uadd_inv md a d : uadd md a 1 = Ok d -> a <= usize_max -> d = a + 1 \/ d = 0.
Proof.
  intros H Ha. destruct (N.leb_spec (a + 1) usize_max) as [L|L]; [rewrite uadd_ok in H by auto; left; congruence|].
  replace a with usize_max in H by lia. right. destruct md; vm_compute in H; congruence.
Qed.

Lemma dense_from_sorted_fits {K V} (idx : K -> N) (es : list (K * V)) m : dense_from_sorted idx es = Ok m ->
  exists first last, nth_error es 0 = Some first /\ nth_error es (length es - 1) = Some last /\
    m = {| dm_min := idx (fst first); dm_max := idx (fst last); dm_entries := es |}.
Proof.
  unfold dense_from_sorted, index. intros H. destruct (nth_error es 0) as [f|] eqn:E0; cbn [bind] in H; [|discriminate].
  destruct (nth_error es (length es - 1)) as [l|] eqn:E1; cbn [bind] in H; [|discriminate]. injection H as <-. eauto.
Qed.

Lemma dense_new_fits {K V} md (idx : K -> N) (es : list (K * V)) m : (forall k, idx k <= usize_max) ->
  dense_new_sorted md idx es = Ok (ROk m) -> dense_fits m.
Proof.
  intros B H. unfold dense_new_sorted in H. destruct es as [|e0 r0] eqn:Ees; cbn [is_nil] in H.
  { injection H as <-. intros H. cbn in H. lia. }
  rewrite <- Ees in *. assert (L : (0 < length es)%nat) by (rewrite Ees; cbn; lia). clear Ees.
  unfold index in H. destruct (nth_error es 0) as [f|] eqn:E0; cbn [bind] in H; [|discriminate].
  destruct (nth_error es (length es - 1)) as [l|] eqn:E1; cbn [bind] in H; [|discriminate].
  destruct (usub md (idx (fst l)) (idx (fst f))) as [d| |] eqn:Ed; cbn [bind] in H; try discriminate.
  destruct (uadd md d 1) as [c| |] eqn:Ec; cbn [bind] in H; try discriminate.
  destruct (N.eqb_spec (N.of_nat (length es)) c) as [EC|EC]; [|discriminate].
  destruct (dense_from_sorted idx es) as [m'| |] eqn:Em; cbn in H; try discriminate. injection H as <-.
  apply dense_from_sorted_fits in Em. destruct Em as [f' [l' [F1 [F2 ->]]]].
  rewrite E0 in F1. injection F1 as <-. rewrite E1 in F2. injection F2 as <-.
  intros Hle. cbn in *. apply usub_inv in Ed; auto. pose proof (B (fst l)). pose proof (B (fst f)).
  apply uadd_inv in Ec; lia.
Qed.

Lemma store_inv {A} (l : list A) i x l' : store l i x = Ok l' -> length l' = length l /\ (i < length l)%nat /\ forall y, In y l' -> y = x \/ In y l.
Proof.
  unfold store. destruct (Nat.ltb_spec i (length l)); [|discriminate]. intros E. injection E as <-.
  split; [apply list_set_length|]. split; [auto|]. clear H. revert i. induction l as [|a r IH]; intros i y Hy; [destruct Hy|].
  destruct i; cbn in Hy; destruct Hy as [<-|Hy]; auto; [right; right; auto|right; left; auto|].
  apply IH in Hy. destruct Hy; auto. right; right; auto.
Qed.

Lemma sparse_fill_inv {K V} md (idx : K -> N) mn n : forall (es : list (K * V)) i lookup lookup',
  sparse_fill md idx mn i es lookup = Ok lookup' -> i + N.of_nat (length es) <= n -> (forall x, In x lookup -> x <= n) ->
  length lookup' = length lookup /\ (es <> [] -> lookup <> []) /\ forall x, In x lookup' -> x <= n.
Proof.
  induction es as [|e r IH]; intros i lookup lookup' H Hn Hb; cbn [sparse_fill] in H.
  - injection H as <-. repeat split; auto. 
  - destruct (usub md (idx (fst e)) mn) as [j| |]; cbn [bind] in H; try discriminate.
    destruct (store lookup (N.to_nat j) (i + 1)) as [l2| |] eqn:E; cbn [bind] in H; try discriminate.
    apply store_inv in E. destruct E as [E1 [E2 E3]]. cbn [length] in Hn. apply IH in H; [|lia|].
    + destruct H as [H1 [H2 H3]]. split; [lia|]. split; auto. intros _ ->. cbn in E2. lia.
    + intros x Hx. apply E3 in Hx. destruct Hx as [->|Hx]; [lia|auto].
Qed.

Lemma sparse_from_sorted_fits {K V} md (idx : K -> N) (es : list (K * V)) m : (forall k, idx k <= usize_max) ->
  sparse_from_sorted md idx es = Ok m -> sparse_fits m.
Proof.
  intros B H. unfold sparse_from_sorted, index in H.
  destruct (nth_error es 0) as [f|] eqn:E0; cbn [bind] in H; [|discriminate].
  destruct (nth_error es (length es - 1)) as [l|] eqn:E1; cbn [bind] in H; [|discriminate].
  destruct (usub md (idx (fst l)) (idx (fst f))) as [d| |] eqn:Ed; cbn [bind] in H; try discriminate.
  destruct (uadd md d 1) as [c| |] eqn:Ec; cbn [bind] in H; try discriminate.
  destruct (sparse_fill md idx (idx (fst f)) 0 es (repeat 0 (N.to_nat c))) as [lookup| |] eqn:EF; cbn [bind] in H; try discriminate.
  injection H as <-. apply (sparse_fill_inv md idx _ (N.of_nat (length es))) in EF; [|lia|intros x Hx; apply repeat_spec in Hx; lia].
  destruct EF as [F1 [F2 F3]]. rewrite repeat_length in F1. split; cbn; auto. intros Hle.
  apply usub_inv in Ed; auto. rewrite F1, N2Nat.id. pose proof (B (fst l)). pose proof (B (fst f)).
  apply uadd_inv in Ec; [|lia]. destruct Ec as [Ec|Ec]; [lia|].
  exfalso. subst c. apply F2; [intros ->; discriminate|reflexivity].
Qed.

(** * fz_scalar_map *)
Lemma scalar_min_max_bounds : forall keys mn mx c, let '(mn', mx', c') := scalar_min_max keys mn mx c in
  mn' <= mn /\ mx <= mx' /\ c' = c + N.of_nat (length keys) /\ (forall k, In k keys -> mn' <= k /\ k <= mx') /\
  (mx' = mx \/ In mx' keys).
Proof.
  induction keys as [|k r IH]; intros mn mx c; cbn [scalar_min_max].
  - cbn. split; [lia|]. split; [lia|]. split; [lia|]. split; [intros k []|auto].
  - specialize (IH (N.min mn k) (N.max mx k) (c + 1)). destruct (scalar_min_max r (N.min mn k) (N.max mx k) (c + 1)) as [[mn' mx'] c'].
    destruct IH as [A [B [C [D E]]]]. cbn [length]. split; [lia|]. split; [lia|]. split; [lia|]. split.
    + intros k' [<-|H]; [lia|apply D; auto].
    + destruct E as [->|E]; [|right; right; auto]. destruct (N.max_spec mx k) as [[_ ->]|[_ ->]]; [right; left; auto|left; auto].
Qed.

Lemma fz_scalar_safe {K V} usort md (idx : K -> N) (es : list (K * V)) m :
  sorts_by_slot usort -> (forall k, idx k <= usize_max) -> fz_scalar_new_sorted usort md idx es = Ok m ->
  match m with
  | FsHash m => exists codes, ht_inv codes (hm_table m)
  | FsDense m => dense_fits m
  | FsSparse m => sparse_fits m
  end.
Proof.
  intros HU B H. unfold fz_scalar_new_sorted in H.
  destruct (analyze_scalar_keys md (map (fun e => idx (fst e)) es)) as [a| |] eqn:EA; cbn [bind] in H; try discriminate.
  destruct a.
  - destruct (hash_from_dedupped usort Large (fun k => scalar_hash_one (idx k)) es) as [r| |] eqn:E; cbn [bind] in H; try discriminate.
    destruct r; cbn in H; try discriminate. injection H as <-. eapply hash_from_dedupped_safe; eauto.
  - destruct (dense_from_sorted idx es) as [m'| |] eqn:Em; cbn in H; try discriminate. injection H as <-.
    apply dense_from_sorted_fits in Em. destruct Em as [f [l [F1 [F2 ->]]]].
    unfold analyze_scalar_keys in EA.
    pose proof (scalar_min_max_bounds (map (fun e => idx (fst e)) es) usize_max 0 0) as S.
    destruct (scalar_min_max (map (fun e => idx (fst e)) es) usize_max 0 0) as [[mn mx] c].
    destruct S as [S1 [S2 [S3 [S4 S5]]]]. rewrite map_length in S3.
    destruct (N.eqb_spec c 0); [discriminate|].
    assert (I1 : In (idx (fst f)) (map (fun e => idx (fst e)) es)) by (apply (in_map (fun e => idx (fst e))); eapply nth_error_In; eauto).
    assert (I2 : In (idx (fst l)) (map (fun e => idx (fst e)) es)) by (apply (in_map (fun e => idx (fst e))); eapply nth_error_In; eauto).
    apply S4 in I1, I2.
    assert (mx <= usize_max).
    { destruct S5 as [->|S5]; [unfold usize_max; lia|]. apply in_map_iff in S5. destruct S5 as [e [<- _]]. auto. }
    destruct (usub md mx mn) as [d| |] eqn:Ed; cbn [bind] in EA; try discriminate. apply usub_inv in Ed; try lia.
    destruct (uadd md d 1) as [nc| |] eqn:Ec; cbn [bind] in EA; try discriminate. apply uadd_inv in Ec; [|lia].
    destruct (N.eqb_spec nc c) as [E|E].
    + intros Hle. cbn in *. lia.
    + destruct ((nc <=? 128) || (nc <? saturating_mul c 10)); discriminate.
  - destruct (sparse_from_sorted md idx es) as [m'| |] eqn:Em; cbn in H; try discriminate. injection H as <-.
    eapply sparse_from_sorted_fits; eauto.
Qed.

(** * All of them *)
Lemma table_inv_with_entries {T} codes (t : hash_table T) (es : list T) : length es = length (ht_entries t) -> ht_inv codes t ->
  ht_inv codes {| ht_slots := ht_slots t; ht_entries := es; ht_mask := ht_mask t |}.
Proof. intros H [A B]. split; [cbn; congruence|exact B]. Qed.

(** What is preserved by writes. *)
Lemma assembled_inv {M K V Q} (ops : map_ops M K V Q) m : assembled ops m ->
  (forall q, answers_safely ops m q) /\
  (forall es q, length es = length (mo_entries ops m) -> answers_safely ops (mo_with_entries ops m es) q) /\
  (forall es, mo_entries ops (mo_with_entries ops m es) = es) /\
  (forall es es', mo_with_entries ops (mo_with_entries ops m es) es' = mo_with_entries ops m es').
Proof.
  intros A.
  induction A as [K V Q eqv es|K V Q cmpQ es m E|K V Q md idx idxQ es m B E|K V Q md idx idxQ es m B E|K V Q usort cm hK hQ eqv es m US E
    |K V Q usort md idx idxQ eqv es m US B E|K V Q idxQ|K V Q idxQ|K V Q hQ eqv|M K V Q ops m es A [I1 [I2 [I3 I4]]] L].
  - split; [intros; apply scan_safe|]. split; [intros; apply scan_safe|]. auto.
  - split; [intros; apply eytzinger_safe|]. split; [intros; apply eytzinger_safe|]. auto.
  - pose proof (dense_new_fits _ _ _ _ B E) as F. split; [intros; apply dense_safe; auto|]. split; [|auto].
    intros es' q L. apply dense_safe. cbn in *. unfold dense_fits in *. cbn. rewrite L. auto.
  - pose proof (sparse_from_sorted_fits _ _ _ _ B E) as F. split; [intros; apply sparse_safe; auto|]. split; [|auto].
    intros es' q L. apply sparse_safe. cbn in *. unfold sparse_fits in *. cbn. rewrite L. auto.
  - pose proof (hash_from_dedupped_safe _ _ _ _ _ US E) as F. split; [intros; apply hash_safe; auto|]. split; [|auto].
    intros es' q L. apply hash_safe. cbn in *. destruct F as [codes F]. exists codes. apply table_inv_with_entries; auto.
  - pose proof (fz_scalar_safe _ _ _ _ _ US B E) as F. destruct m as [m|m|m].
    + split; [intros q; destruct (hash_safe idxQ eqv m q F); constructor; auto|]. split; [|auto].
      intros es' q L. cbn in *. destruct F as [codes F].
      assert (F' : exists codes, ht_inv codes (hm_table (mo_with_entries (hash_ops (fun q => Ok (idxQ q)) eqv) m es'))).
      { exists codes. apply table_inv_with_entries; auto. }
      destruct (hash_safe idxQ eqv _ q F'). constructor; auto.
    + split; [intros q; destruct (dense_safe idxQ m q F); constructor; auto|]. split; [|auto].
      intros es' q L. cbn in *.
      assert (F' : dense_fits (mo_with_entries (dense_ops idxQ) m es')) by (unfold dense_fits in *; cbn; rewrite L; auto).
      destruct (dense_safe idxQ _ q F'). constructor; auto.
    + split; [intros q; destruct (sparse_safe idxQ m q F); constructor; auto|]. split; [|auto].
      intros es' q L. cbn in *.
      assert (F' : sparse_fits (mo_with_entries (sparse_ops idxQ) m es')) by (unfold sparse_fits in *; cbn; rewrite L; auto).
      destruct (sparse_safe idxQ _ q F'). constructor; auto.
  - split; [|split; [|auto]].
    + intros q. apply dense_safe. intros H. cbn in H. lia.
    + intros es q _. apply dense_safe. intros H. cbn in H. lia.
  - split; [|split; [|auto]].
    + intros q. apply sparse_safe. split; cbn; [lia|intros i []].
    + intros es q _. apply sparse_safe. split; cbn; [lia|intros i []].
  - assert (F : ht_inv [] (hm_table (hash_map_default (K := K) (V := V)))).
    { split; [reflexivity|]. exists 0. split; [reflexivity|]. split; [reflexivity|]. intros s Hs.
      assert (s = 0) by (cbn in Hs; lia). subst. exists (0, 0). split; [reflexivity|]. split; [cbn; lia|].
      split; [cbn; lia|]. intros p c Hp. destruct p; discriminate. }
    split; [|split; [|auto]].
    + intros q. apply hash_safe. eauto.
    + intros es q L. apply hash_safe. exists []. apply (table_inv_with_entries []); auto.
  - split; [auto|]. split; [|split].
    + intros es' q H. rewrite I4. apply I2. rewrite I3 in H. congruence.
    + intros es'. rewrite I4. auto.
    + intros es' es''. rewrite !I4. auto.
Qed.

Theorem assembled_safe {M K V Q} (ops : map_ops M K V Q) m : assembled ops m -> forall q, answers_safely ops m q.
Proof. intros A. apply (assembled_inv ops m A). Qed.

Theorem constructors_assembled K V Q (eqK : K -> K -> bool) (eqv : Q -> K -> bool) (cmp : K -> K -> comparison)
    (cmpQ : Q -> K -> comparison) (hK : K -> N) (hQ : Q -> N) (idx : K -> N) (idxQ : Q -> N) usort md cm (input : list (K * V)) :
  sorts_by_slot usort -> (forall k, idx k <= usize_max) ->
  (forall m, fz_hash_map_with_hasher usort eqK hK input = Ok m -> assembled (hash_ops (fun q => Ok (hQ q)) eqv) m) /\
  (forall m, fz_ordered_map_new cmp input = Ok m -> assembled (eytzinger_ops cmpQ) m) /\
  (forall m, fz_scalar_map_new usort md idx cmp input = Ok m -> assembled (fz_scalar_ops idxQ eqv) m) /\
  assembled (scan_ops eqv) (scan_map_new eqK input) /\
  (forall m, eytzinger_map_new cmp input = Ok m -> assembled (eytzinger_ops cmpQ) m) /\
  (forall m, dense_map_new md idx cmp input = Ok (ROk m) -> assembled (dense_ops idxQ) m) /\
  (forall m, sparse_map_new md idx cmp input = Ok m -> assembled (sparse_ops idxQ) m) /\
  (forall m, hash_map_with_hasher usort cm eqK hK input = Ok (ROk m) -> assembled (hash_ops (fun q => Ok (hQ q)) eqv) m).
Proof.
  intros US B. repeat split.
  - intros m H. unfold fz_hash_map_with_hasher in H.
    destruct (hash_from_dedupped usort Large _ _) as [[t|msg]| |] eqn:E; cbn in H; try discriminate. injection H as <-.
    eapply asm_hash; eauto.
  - intros m H. eapply asm_ordered; eauto.
  - intros m H. eapply asm_fz_scalar; eauto.
  - apply asm_scan.
  - intros m H. eapply asm_ordered; eauto.
  - intros m H. eapply asm_dense; eauto.
  - intros m H. unfold sparse_map_new in H. destruct (is_nil _).
    + injection H as <-. apply asm_default_sparse.
    + eapply asm_sparse; eauto.
  - intros m H. eapply asm_hash; eauto.
Qed.
