(** The map theorems in the form in which they are stated in [PropertiesMaps.v]. *)
From Verif Require Import Prelude Spec ModelUtils ModelAnalyzers ModelTables ModelMaps ModelIter SpecSets SpecAnalysis SpecMade
  ProofsBase ProofsDedup ProofsEytzinger ProofsTable ProofsMaps ProofsScalar ProofsSlices ProofsFz ProofsIter ProofsMade Instances.
From Coq Require Import Permutation.
From Coq Require Import ZArith ZifyNat ZifyN ZifyBool.

Lemma survivors_length {A} (same : A -> A -> bool) l : (length (survivors same l) <= length l)%nat.
Proof. induction l as [|x l IH]; cbn [survivors]; [lia|]. destruct (existsb (same x) l); cbn [length]; lia. Qed.

Lemma key_count_le {K V} (eqK : K -> K -> bool) (input : list (K * V)) b :
  N.of_nat (length input) <= b -> N.of_nat (length (survivors (same_key eqK) input)) <= b.
Proof. pose proof (survivors_length (same_key eqK) input). lia. Qed.

(** [last_match] is what it says. *)
Lemma last_match_iff {A} (p : A -> bool) l x :
  last_match p l = Some x <-> exists pre post, l = pre ++ x :: post /\ p x = true /\ forall y, In y post -> p y = false.
Proof.
  induction l as [|a l IH]; cbn [last_match].
  - split; [discriminate|]. intros (pre & post & E & _). destruct pre; discriminate.
  - destruct (last_match p l) as [y|] eqn:E.
    + rewrite IH. split.
      * intros (pre & post & -> & H1 & H2). exists (a :: pre), post. auto.
      * intros (pre & post & E1 & H1 & H2). destruct pre as [|b pre]; inversion E1; subst.
        -- destruct IH as [IH _]. apply last_match_Some in E. destruct E as [E E']. rewrite (H2 _ E) in E'. discriminate.
        -- exists pre, post. auto.
    + rewrite last_match_None in E. split.
      * destruct (p a) eqn:Ea; [|discriminate]. intros [= ->]. exists [], l. auto.
      * intros (pre & post & E1 & H1 & H2). destruct pre as [|b pre]; inversion E1; subst.
        -- rewrite H1. reflexivity.
        -- rewrite E in H1; [discriminate|]. apply in_or_app. right. left. auto.
Qed.

Lemma survivors_iff {A} (same : A -> A -> bool) l x : (forall a, same a a = true) ->
  In x (survivors same l) <-> exists pre post, l = pre ++ x :: post /\ forall y, In y post -> same x y = false.
Proof.
  intros R. induction l as [|a l IH]; cbn [survivors].
  - split; [intros []|]. intros (pre & post & E & _). destruct pre; discriminate.
  - split.
    + intros H. destruct (existsb (same a) l) eqn:E.
      * apply IH in H. destruct H as (pre & post & -> & H). exists (a :: pre), post. auto.
      * destruct H as [<-|H].
        -- exists [], l. split; auto. apply existsb_false_forall. auto.
        -- apply IH in H. destruct H as (pre & post & -> & H). exists (a :: pre), post. auto.
    + intros (pre & post & E1 & H). destruct pre as [|b pre]; inversion E1; subst.
      * apply existsb_false_forall in H. rewrite H. left. auto.
      * assert (In x (survivors same (pre ++ x :: post))) by (apply IH; eauto). destruct (existsb _ _); [auto|right; auto].
Qed.

Section Construct.
Context {K V Q : Type}.

Lemma fz_hash_get usort eqK eqv hK hQ (input : list (K * V)) :
  sorts_by_slot usort -> lawful_eq eqK -> lawful_equivalent eqK eqv -> lawful_hash eqK hK -> lawful_query_hash (Q := Q) eqv hQ hK ->
  N.of_nat (length input) <= usize_max ->
  exists m, fz_hash_map_with_hasher usort eqK hK input = Ok m /\
    forall q, mo_get (hash_ops (fun q => Ok (hQ q)) eqv) m q = Ok (spec_get eqv input q).
Proof.
  intros US LE LV LH LQ HN. destruct (fz_hash_map_built usort US eqK eqv hK hQ input) as [m [E B]]; auto using key_count_le.
  exists m. split; auto. intros q. eapply made_get. eapply made_fz_hash; eauto.
Qed.

Lemma fz_ordered_get cmp cmpQ (input : list (K * V)) : lawful_ord cmp -> lawful_comparable (Q := Q) cmp cmpQ ->
  exists m, fz_ordered_map_new cmp input = Ok m /\ forall q, mo_get (eytzinger_ops cmpQ) m q = Ok (spec_get (cmp_eq cmpQ) input q).
Proof.
  intros LO LC. destruct (eytzinger_map_new_built cmp cmpQ LO LC input) as [m [E B]]. exists m. split; auto.
  intros q. eapply made_get. eapply made_fz_ordered; eauto.
Qed.

Lemma scalar_count (idx : K -> N) cmp (input : list (K * V)) : lawful_scalar idx cmp -> span_representable idx (map fst input) ->
  N.of_nat (length (survivors (same_key (idx_eq idx)) input)) <= usize_max.
Proof.
  intros LS SR. set (l := survivors _ input). destruct l as [|e0 l0] eqn:El; [cbn; unfold usize_max; lia|]. rewrite <- El.
  assert (HND : NoDup (map (fun e => idx (fst e)) l)).
  { pose proof (survivors_distinct (same_key (idx_eq idx)) input) as HD. fold l in HD. clear - HD.
    induction l as [|a l IH]; cbn; constructor.
    - cbn in HD. destruct HD as [H1 H2]. intros Hin. apply in_map_iff in Hin. destruct Hin as [b [E Hb]]. specialize (H1 b Hb).
      unfold same_key, idx_eq in H1. apply N.eqb_neq in H1. congruence.
    - apply IH. apply HD. }
  assert (Hin : forall e, In e l -> In e input) by (intros e He; eapply survivors_incl; eauto).
  (* least index *)
  assert (Hmin : exists mn, In mn (map (fun e => idx (fst e)) l) /\ forall x, In x (map (fun e => idx (fst e)) l) -> mn <= x).
  { assert (HNE : l <> []) by congruence. clear - HNE. induction l as [|a l IH]; [congruence|]. cbn.
    destruct l as [|b l']; [exists (idx (fst a)); cbn; split; [auto|intros x [<-|[]]; lia]|].
    destruct IH as [mn [H1 H2]]; [discriminate|]. destruct (N.le_gt_cases mn (idx (fst a))).
    - exists mn. split; [auto|]. intros x [<-|Hx]; [lia|auto].
    - exists (idx (fst a)). split; [auto|]. intros x [<-|Hx]; [lia|]. specialize (H2 x Hx). lia. }
  destruct Hmin as [mn [Hmn Hmin]].
  assert (HL : N.of_nat (length (map (fun e => idx (fst e)) l)) <= (mn + usize_max - 1) - mn + 1).
  { apply nodup_range_length; auto. intros x Hx. split; [auto|]. apply in_map_iff in Hx, Hmn.
    destruct Hx as [e [<- He]], Hmn as [e' [<- He']].
    assert (idx (fst e) < idx (fst e') + usize_max) by (apply SR; apply in_map; auto). lia. }
  rewrite map_length in HL. unfold usize_max in *. lia.
Qed.

Lemma fz_scalar_get usort md idx cmp idxQ eqv (input : list (K * V)) :
  sorts_by_slot usort -> lawful_scalar idx cmp -> lawful_query_scalar (Q := Q) idx idxQ eqv ->
  span_representable idx (map fst input) ->
  exists m, fz_scalar_map_new usort md idx cmp input = Ok m /\
    forall q, mo_get (fz_scalar_ops idxQ eqv) m q = Ok (spec_get eqv input q).
Proof.
  intros US LS LQ SR. pose proof (scalar_count idx cmp input LS SR) as HC.
  destruct (fz_scalar_map_built idx cmp idxQ eqv LS LQ usort US md input SR HC) as [m [E B]].
  exists m. split; auto. intros q. eapply made_get. eapply made_fz_scalar; eauto.
Qed.

Lemma dense_get_spec md idx cmp idxQ eqv (input : list (K * V)) :
  lawful_scalar idx cmp -> lawful_query_scalar (Q := Q) idx idxQ eqv -> span_representable idx (map fst input) ->
  (contiguous idx (map fst input) -> exists m, dense_map_new md idx cmp input = Ok (ROk m) /\
     forall q, mo_get (dense_ops idxQ) m q = Ok (spec_get eqv input q)) /\
  (~ contiguous idx (map fst input) -> exists msg, dense_map_new md idx cmp input = Ok (RErr msg)).
Proof.
  intros LS LQ SR. split.
  - intros HC. destruct (dense_map_new_built idx cmp idxQ eqv LS LQ md input SR HC) as [m [E B]].
    exists m. split; auto. intros q. eapply made_get. eapply made_dense; eauto.
  - intros HC. eapply dense_map_new_err; eauto.
Qed.

Lemma sparse_get_spec md idx cmp idxQ eqv (input : list (K * V)) :
  lawful_scalar idx cmp -> lawful_query_scalar (Q := Q) idx idxQ eqv -> span_representable idx (map fst input) ->
  exists m, sparse_map_new md idx cmp input = Ok m /\ forall q, mo_get (sparse_ops idxQ) m q = Ok (spec_get eqv input q).
Proof.
  intros LS LQ SR. destruct (sparse_map_new_built idx cmp idxQ eqv LS LQ md input SR) as [m [E B]].
  exists m. split; auto. intros q. eapply made_get. eapply made_sparse; eauto.
Qed.

Lemma max_capacity_limit cm : max_capacity cm = magnitude_limit cm.
Proof. destruct cm; reflexivity. Qed.

Lemma hash_magnitude usort cm eqK eqv hK hQ (input : list (K * V)) :
  sorts_by_slot usort -> lawful_eq eqK -> lawful_equivalent eqK eqv -> lawful_hash eqK hK -> lawful_query_hash (Q := Q) eqv hQ hK ->
  (N.of_nat (key_count eqK input) <= magnitude_limit cm -> exists m, hash_map_with_hasher usort cm eqK hK input = Ok (ROk m) /\
     forall q, mo_get (hash_ops (fun q => Ok (hQ q)) eqv) m q = Ok (spec_get eqv input q)) /\
  (magnitude_limit cm < N.of_nat (key_count eqK input) -> exists msg, hash_map_with_hasher usort cm eqK hK input = Ok (RErr msg)).
Proof.
  intros US LE LV LH LQ. rewrite <- max_capacity_limit. split; intros HC.
  - destruct (hash_map_with_hasher_built usort US cm eqK eqv hK hQ input) as [m [E B]]; auto.
    exists m. split; auto. intros q. eapply made_get. eapply made_hash; eauto.
  - eapply hash_map_with_hasher_err; eauto.
Qed.

Lemma scan_get_spec eqK eqv sz (input : list (K * V)) : lawful_eq eqK -> lawful_equivalent (Q := Q) eqK eqv ->
  (forall q, mo_get (scan_ops eqv) (scan_map_new eqK input) q = Ok (spec_get eqv input q) /\
             mo_get_key_value (scan_ops eqv) (scan_map_new eqK input) q = Ok (spec_entry eqv input q)) /\
  (sz = key_count eqK input -> exists m, inline_scan_map_new eqK sz input = Ok m /\
     forall q, mo_get (scan_ops eqv) m q = Ok (spec_get eqv input q) /\ mo_get_key_value (scan_ops eqv) m q = Ok (spec_entry eqv input q)) /\
  (sz <> key_count eqK input -> inline_scan_map_new eqK sz input = Panic).
Proof.
  intros LE LV. split; [|split].
  - intros q. split; [eapply made_get|eapply made_gkv]; eapply made_scan; eauto.
  - intros ->. destruct (inline_scan_map_new_built eqK eqv (key_count eqK input) input) as [m [E B]]; auto.
    exists m. split; auto. intros q. split; [eapply made_get|eapply made_gkv]; eapply made_inline_scan; eauto.
  - intros HN. unfold inline_scan_map_new, into_array. rewrite using_eq_survivors.
    destruct (Nat.eqb_spec (length (survivors (fun x y => eqK (fst x) (fst y)) input)) sz) as [E|E]; auto.
    exfalso. apply HN. rewrite <- E. reflexivity.
Qed.

Lemma inline_ordered_get cmp cmpQ sz (input : list (K * V)) : lawful_ord cmp -> lawful_comparable (Q := Q) cmp cmpQ ->
  (sz = key_count (cmp_eq cmp) input -> exists m, inline_eytzinger_map_new cmp sz input = Ok m /\
     forall q, mo_get (eytzinger_ops cmpQ) m q = Ok (spec_get (cmp_eq cmpQ) input q)) /\
  (sz <> key_count (cmp_eq cmp) input -> inline_eytzinger_map_new cmp sz input = Panic).
Proof.
  intros LO LC. split.
  - intros ->. destruct (inline_eytzinger_map_new_built cmp cmpQ LO LC (key_count (cmp_eq cmp) input) input) as [m [E B]]; auto.
    exists m. split; auto. intros q. eapply made_get. eapply made_inline_ordered; eauto.
  - intros HN. destruct (inline_eytzinger_map_new cmp sz input) as [m| |] eqn:E; auto; exfalso.
    + apply (inline_ordered_len cmp cmpQ LO LC) in E. auto.
    + unfold inline_eytzinger_map_new in E. destruct (layout_spec (sorted_and_dedupped input (fun x y => cmp (fst x) (fst y)))) as [out [E1 _]].
      rewrite E1 in E. cbn [bind] in E. unfold into_array in E. destruct (Nat.eqb _ _); discriminate.
Qed.
End Construct.

Lemma fz_string_get {V} usort bh (input : list (bytes * V)) :
  sorts_by_slot usort -> N.of_nat (length input) <= usize_max -> (forall e, In e input -> N.of_nat (length (fst e)) <= usize_max) ->
  exists m, fz_string_map_with_hasher usort bh input = Ok m /\
    forall q, mo_get fz_string_ops m q = Ok (spec_get bytes_eqb input q).
Proof.
  intros US HN HL. destruct (fz_string_map_built usort bh US input) as [m [E B]]; auto using key_count_le.
  exists m. split; auto. intros q. eapply made_get. eapply made_fz_string; eauto.
Qed.

(** * Every made map *)
Section AllMade.
Context {M K V Q : Type} (ops : map_ops M K V Q) (eqK : K -> K -> bool) (eqv : Q -> K -> bool) (m : M) (input : list (K * V)).
Hypothesis MD : made ops eqK eqv m input.

Lemma made_iteration :
  let es := mo_entries ops m in
  (forall e, In e es <-> exists pre post, input = pre ++ e :: post /\ forall e', In e' post -> eqK (fst e) (fst e') = false) /\
  distinct eqK (map fst es) /\
  yields (it_next map_iter) (iter_new es) es /\ yields (it_next map_into_iter) (iter_new es) es /\
  yields (it_next map_keys) (iter_new es) (map fst es) /\ yields (it_next map_into_keys) (iter_new es) (map fst es) /\
  yields (it_next map_values) (iter_new es) (map snd es) /\ yields (it_next map_into_values) (iter_new es) (map snd es).
Proof.
  cbv zeta. pose proof (made_entries _ _ _ _ _ MD) as HP. pose proof (made_distinct _ _ _ _ _ MD) as HD.
  destruct (made_lawful _ _ _ _ _ MD) as [LE LV]. split; [|split; [|repeat split]].
  - intros e. rewrite <- (survivors_iff (same_key eqK)); [|intros; apply (eq_refl_law _ LE)].
    split; intros H; [eapply Permutation_in in H; [exact H|symmetry; auto]|eapply Permutation_in; eauto].
  - rewrite distinct_map. exact HD.
  - apply (ex_yields _ _ map_iter_exact).
  - apply (ex_yields _ _ map_iter_exact).
  - apply (ex_yields _ _ map_keys_exact).
  - apply (ex_yields _ _ map_keys_exact).
  - apply (ex_yields _ _ map_values_exact).
  - apply (ex_yields _ _ map_values_exact).
Qed.

Lemma made_agree q :
  exists og, mo_get ops m q = Ok og /\ mo_contains_key ops m q = Ok (is_some og) /\
    match og with
    | None => mo_get_key_value ops m q = Ok None /\ mo_get_mut ops m q = Ok None /\ map_index ops m q = Panic
    | Some v => exists k p, mo_get_key_value ops m q = Ok (Some (k, v)) /\ eqv q k = true /\
        mo_get_mut ops m q = Ok (Some p) /\ nth_error (mo_entries ops m) p = Some (k, v) /\ map_index ops m q = Ok v
    end.
Proof.
  exists (spec_get eqv input q). rewrite (made_get _ _ _ _ _ MD), (made_contains _ _ _ _ _ MD), (made_gkv _ _ _ _ _ MD).
  unfold map_index. rewrite (made_get _ _ _ _ _ MD). cbn [bind].
  destruct (made_get_mut _ _ _ _ _ MD q) as [o [E1 [E2 E3]]].
  unfold spec_get. destruct (spec_entry eqv input q) as [[k v]|] eqn:E; cbn [option_map is_some snd].
  - split; [auto|]. split; [auto|]. destruct o as [p|]; [|discriminate]. exists k, p. cbn [opt_bind] in E2.
    split; [auto|]. split; [|auto]. apply last_match_Some in E. apply E.
  - split; [auto|]. split; [auto|]. destruct o as [p|]; [discriminate|]. auto.
Qed.

Lemma made_no_ub q ks eqQ : mo_get ops m q <> UB /\ mo_get_mut ops m q <> UB /\ mo_get_key_value ops m q <> UB /\
  mo_contains_key ops m q <> UB /\ map_index ops m q <> UB /\ get_disjoint_mut ops eqQ m ks <> UB /\ get_disjoint_unchecked_mut ops m ks <> UB.
Proof.
  destruct (made_agree q) as [og [E1 [E2 E3]]]. rewrite E1, E2.
  assert (HU : exists l, get_disjoint_unchecked_mut ops m ks = Ok l).
  { unfold get_disjoint_unchecked_mut. induction ks as [|k ks IH]; cbn [mapM]; [eauto|].
    destruct (made_get_mut _ _ _ _ _ MD k) as [o [E _]]. rewrite E. cbn [bind]. destruct IH as [l ->]. cbn [bind]. eauto. }
  assert (HD : get_disjoint_mut ops eqQ m ks <> UB).
  { unfold get_disjoint_mut. destruct (has_duplicates eqQ ks); [discriminate|]. destruct HU as [l ->]. discriminate. }
  destruct HU as [l ->]. destruct og as [v|].
  - destruct E3 as (k & p & -> & _ & -> & _ & ->). repeat split; try discriminate. auto.
  - destruct E3 as (-> & -> & ->). repeat split; try discriminate. auto.
Qed.

(** Writing through [get_mut]. *)
Lemma made_put_full q v : exists m', map_put ops m q v = Ok m' /\
  made ops eqK eqv m' (mo_entries ops m') /\
  map fst (mo_entries ops m') = map fst (mo_entries ops m) /\
  (forall i k w, nth_error (mo_entries ops m) i = Some (k, w) ->
     nth_error (mo_entries ops m') i = Some (k, if eqv q k then v else w)) /\
  (forall q', mo_get ops m' q' = Ok (match spec_entry eqv input q' with
                                    | Some (k, w) => Some (if eqv q k then v else w)
                                    | None => None end)) /\
  (spec_entry eqv input q = None -> mo_get_mut ops m q = Ok None /\ m' = m).
Proof.
  destruct (made_put _ _ _ _ _ MD q v) as [m' [E [EE B]]]. destruct (made_facts _ _ _ _ _ MD) as (LE & LV & BM).
  destruct (made_get_mut _ _ _ _ _ MD q) as [o [E1 [E2 E3]]].
  assert (HK : map fst (mo_entries ops m') = map fst (mo_entries ops m)).
  { rewrite EE, map_map. apply map_ext. intros e. apply upd_fst. }
  exists m'. split; [auto|]. split; [|split; [|split; [|split]]].
  - assert (HW : m' = mo_with_entries ops m (mo_entries ops m')).
    { unfold map_put in E. rewrite E1 in E. cbn [bind] in E. destruct o as [p|].
      - inversion E as [E']. rewrite (ok_entries _ _ _ (built_ok _ _ _ _ _ BM)). reflexivity.
      - inversion E; subst. symmetry. apply (ok_with_id _ _ _ (built_ok _ _ _ _ _ BM)). }
    rewrite HW at 1. apply made_values with (input := input); auto.
  - auto.
  - intros i k w Hi. rewrite EE, nth_error_map, Hi. cbn [option_map]. unfold upd. cbn [fst]. destruct (eqv q k); reflexivity.
  - intros q'. rewrite (built_get ops eqK eqv LE LV m' _ B). rewrite spec_get_upd. reflexivity.
  - intros HN. rewrite HN in E3. destruct o; [discriminate|]. split; [auto|]. unfold map_put in E. rewrite E1 in E. cbn in E. congruence.
Qed.

End AllMade.

(** A history of writes: every value is the last one written to a matching query, if any. *)
Lemma made_puts_full {M K V Q} (ops : map_ops M K V Q) eqK eqv ws : forall m input, made ops eqK eqv m input ->
  exists m', map_puts ops m ws = Ok m' /\ made ops eqK eqv m' (mo_entries ops m') /\
  map fst (mo_entries ops m') = map fst (mo_entries ops m) /\
  (forall i k w, nth_error (mo_entries ops m) i = Some (k, w) ->
     nth_error (mo_entries ops m') i = Some (k, match last_match (fun x : Q * V => eqv (fst x) k) ws with Some x => snd x | None => w end)) /\
  (forall q', mo_get ops m' q' = Ok (match spec_entry eqv input q' with
     | Some (k, w) => Some (match last_match (fun x : Q * V => eqv (fst x) k) ws with Some x => snd x | None => w end)
     | None => None end)).
Proof.
  induction ws as [|[q v] ws IH]; intros m input MD; cbn [map_puts].
  - exists m. split; [auto|].
    assert (HM : made ops eqK eqv m (mo_entries ops m)).
    { destruct (made_facts _ _ _ _ _ MD) as (_ & _ & B). rewrite <- (ok_with_id _ _ _ (built_ok _ _ _ _ _ B)) at 1.
      apply made_values with (input := input); auto. }
    split; [auto|]. split; [auto|]. split; [auto|].
    intros q'. rewrite (made_get _ _ _ _ _ MD). unfold spec_get. destruct (spec_entry eqv input q') as [[k w]|]; reflexivity.
  - destruct (made_put_full _ _ _ _ _ MD q v) as (m1 & E1 & MD1 & K1 & N1 & G1 & _). rewrite E1. cbn [bind].
    destruct (IH m1 _ MD1) as (m2 & E2 & MD2 & K2 & N2 & G2). exists m2. split; [auto|]. split; [auto|]. split; [congruence|].
    cbn [last_match fst snd]. split.
    + intros i k w Hi. specialize (N2 i k _ (N1 i k w Hi)). rewrite N2. destruct (last_match _ ws); [auto|]. destruct (eqv q k); auto.
    + intros q'. rewrite G2.
      assert (HE : spec_entry eqv (mo_entries ops m1) q' = match spec_entry eqv input q' with Some (k, w) => Some (k, if eqv q k then v else w) | None => None end).
      { destruct (made_lawful _ _ _ _ _ MD) as [LE LV].
        assert (HS : spec_entry eqv (mo_entries ops m) q' = spec_entry eqv input q').
        { apply (survivors_lookup eqK eqv LE LV). apply (made_entries _ _ _ _ _ MD). }
        rewrite <- HS. assert (HM : mo_entries ops m1 = map (fun e => (fst e, if eqv q (fst e) then v else snd e)) (mo_entries ops m)).
        { apply nth_error_ext. intros i. rewrite nth_error_map. destruct (nth_error (mo_entries ops m) i) as [[k w]|] eqn:Ei.
          - cbn. apply N1. auto.
          - cbn. apply nth_error_None. apply nth_error_None in Ei. apply (f_equal (@length K)) in K1. rewrite !map_length in K1. lia. }
        rewrite HM. unfold spec_entry. generalize (mo_entries ops m). intros l. induction l as [|[k w] l IHl]; cbn [last_match map fst snd]; [auto|].
        rewrite IHl. destruct (last_match _ l) as [[k' w']|]; [auto|]. destruct (eqv q' k); auto. }
      rewrite HE. destruct (spec_entry eqv input q') as [[k w]|]; [|auto]. destruct (last_match _ ws); [auto|]. destruct (eqv q k); auto.
Qed.

(** * Equality *)
Lemma map_eq_refl {M K V} (ops : map_ops M K V K) eqK eqV m input : made ops eqK eqK m input -> (forall v, eqV v v = true) ->
  map_eq ops eqV m (as_query ops m) = Ok true.
Proof.
  intros MD RV. destruct (map_eq_spec ops eqK eqV m input input (as_query ops m) MD (made_holds _ _ _ _ MD)) as [b [E H]].
  rewrite E. f_equal. apply H. intros k. destruct (spec_get eqK input k); cbn; auto.
Qed.

Lemma map_eq_sym {M1 M2 K V} (ops1 : map_ops M1 K V K) (ops2 : map_ops M2 K V K) eqK eqV m1 m2 in1 in2 :
  made ops1 eqK eqK m1 in1 -> made ops2 eqK eqK m2 in2 -> (forall v w, eqV v w = true -> eqV w v = true) ->
  map_eq ops1 eqV m1 (as_query ops2 m2) = map_eq ops2 eqV m2 (as_query ops1 m1).
Proof.
  intros MD1 MD2 SV.
  destruct (map_eq_spec ops1 eqK eqV m1 in1 in2 _ MD1 (made_holds _ _ _ _ MD2)) as [b [E H]].
  destruct (map_eq_spec ops2 eqK eqV m2 in2 in1 _ MD2 (made_holds _ _ _ _ MD1)) as [b' [E' H']].
  rewrite E, E'. f_equal.
  assert (HX : forall x y, opt_eq eqV x y -> opt_eq eqV y x) by (intros [v|] [w|]; cbn; auto).
  destruct b, b'; auto.
  - symmetry. apply H'. intros k. apply HX. apply H. auto.
  - apply H. intros k. apply HX. apply H'. auto.
Qed.

Lemma map_eq_trans {M1 M2 M3 K V} (ops1 : map_ops M1 K V K) (ops2 : map_ops M2 K V K) (ops3 : map_ops M3 K V K) eqK eqV m1 m2 m3 in1 in2 in3 :
  made ops1 eqK eqK m1 in1 -> made ops2 eqK eqK m2 in2 -> made ops3 eqK eqK m3 in3 ->
  (forall u v w, eqV u v = true -> eqV v w = true -> eqV u w = true) ->
  map_eq ops1 eqV m1 (as_query ops2 m2) = Ok true -> map_eq ops2 eqV m2 (as_query ops3 m3) = Ok true ->
  map_eq ops1 eqV m1 (as_query ops3 m3) = Ok true.
Proof.
  intros MD1 MD2 MD3 TV H12 H23.
  destruct (map_eq_spec ops1 eqK eqV m1 in1 in2 _ MD1 (made_holds _ _ _ _ MD2)) as [b [E H]].
  destruct (map_eq_spec ops2 eqK eqV m2 in2 in3 _ MD2 (made_holds _ _ _ _ MD3)) as [b' [E' H']].
  destruct (map_eq_spec ops1 eqK eqV m1 in1 in3 _ MD1 (made_holds _ _ _ _ MD3)) as [b'' [E'' H'']].
  rewrite E in H12. rewrite E' in H23. rewrite E''. f_equal. inversion H12. inversion H23. subst. apply H''. intros k.
  destruct H as [H _], H' as [H' _]. specialize (H eq_refl k). specialize (H' eq_refl k).
  destruct (spec_get eqK in1 k), (spec_get eqK in2 k), (spec_get eqK in3 k); cbn in *; try contradiction; eauto.
Qed.

(** * Order of construction *)
Lemma made_order {M1 M2 K V Q} (ops1 : map_ops M1 K V Q) (ops2 : map_ops M2 K V Q) eqK eqv m1 m2 in1 in2 :
  made ops1 eqK eqv m1 in1 -> made ops2 eqK eqv m2 in2 -> Permutation in1 in2 -> distinct eqK (map fst in1) ->
  (forall q, mo_get ops1 m1 q = mo_get ops2 m2 q /\ mo_get_key_value ops1 m1 q = mo_get_key_value ops2 m2 q /\
             mo_contains_key ops1 m1 q = mo_contains_key ops2 m2 q) /\
  map_len ops1 m1 = map_len ops2 m2 /\ Permutation (mo_entries ops1 m1) (mo_entries ops2 m2).
Proof.
  intros MD1 MD2 HP HD. destruct (made_lawful _ _ _ _ _ MD1) as [LE LV].
  assert (D1 : distinct (same_key eqK) in1) by (rewrite distinct_map in HD; exact HD).
  assert (D2 : distinct (same_key eqK) in2).
  { eapply distinct_perm; eauto. intros a b H. apply (eq_sym_law _ LE). exact H. }
  assert (S1 : survivors (same_key eqK) in1 = in1) by (apply survivors_distinct_id; auto).
  assert (S2 : survivors (same_key eqK) in2 = in2) by (apply survivors_distinct_id; auto).
  assert (HE : forall q, spec_entry eqv in1 q = spec_entry eqv in2 q).
  { intros q. apply (survivors_lookup eqK eqv LE LV). rewrite S2. symmetry. auto. }
  split; [|split].
  - intros q. rewrite (made_get _ _ _ _ _ MD1), (made_get _ _ _ _ _ MD2), (made_gkv _ _ _ _ _ MD1), (made_gkv _ _ _ _ _ MD2),
      (made_contains _ _ _ _ _ MD1), (made_contains _ _ _ _ _ MD2). unfold spec_get. rewrite HE. auto.
  - rewrite (made_len _ _ _ _ _ MD1), (made_len _ _ _ _ _ MD2). unfold key_count. rewrite S1, S2. apply Permutation_length. auto.
  - rewrite <- (made_entries _ _ _ _ _ MD1), <- (made_entries _ _ _ _ _ MD2), S1, S2. auto.
Qed.

Lemma made_order_eq {M1 M2 K V} (ops1 : map_ops M1 K V K) (ops2 : map_ops M2 K V K) eqK eqV m1 m2 in1 in2 :
  made ops1 eqK eqK m1 in1 -> made ops2 eqK eqK m2 in2 -> Permutation in1 in2 -> distinct eqK (map fst in1) -> (forall v, eqV v v = true) ->
  map_eq ops1 eqV m1 (as_query ops2 m2) = Ok true.
Proof.
  intros MD1 MD2 HP HD RV. destruct (made_order _ _ _ _ _ _ _ _ MD1 MD2 HP HD) as [HG _].
  destruct (map_eq_spec ops1 eqK eqV m1 in1 in2 _ MD1 (made_holds _ _ _ _ MD2)) as [b [E H]]. rewrite E. f_equal. apply H.
  intros k. destruct (HG k) as [HG1 _]. rewrite (made_get _ _ _ _ _ MD1), (made_get _ _ _ _ _ MD2) in HG1. inversion HG1 as [HG2]. rewrite HG2.
  destruct (spec_get eqK in2 k); cbn; auto.
Qed.

(** * Empty maps *)
Lemma made_empty {M K V Q} (ops : map_ops M K V Q) eqK eqv m : made ops eqK eqv m [] ->
  (forall q, mo_get ops m q = Ok None /\ mo_get_mut ops m q = Ok None /\ mo_get_key_value ops m q = Ok None /\ mo_contains_key ops m q = Ok false) /\
  mo_entries ops m = [] /\ map_len ops m = O /\ map_is_empty ops m = true.
Proof.
  intros MD. split; [|split; [|split]].
  - intros q. destruct (made_agree _ _ _ _ _ MD q) as [og [E1 [E2 E3]]]. pose proof (made_get _ _ _ _ _ MD q) as G. cbn in G.
    rewrite G in E1. inversion E1; subst og. destruct E3 as (-> & -> & _). rewrite G, E2. auto.
  - pose proof (made_entries _ _ _ _ _ MD) as HP. cbn in HP. apply Permutation_nil. auto.
  - apply (made_len _ _ _ _ _ MD).
  - apply (made_is_empty _ _ _ _ _ MD). auto.
Qed.

Lemma made_empty_eq {M1 M2 K V} (ops1 : map_ops M1 K V K) (ops2 : map_ops M2 K V K) eqK eqV m1 m2 :
  made ops1 eqK eqK m1 [] -> made ops2 eqK eqK m2 [] -> map_eq ops1 eqV m1 (as_query ops2 m2) = Ok true.
Proof.
  intros MD1 MD2. destruct (map_eq_spec ops1 eqK eqV m1 [] [] _ MD1 (made_holds _ _ _ _ MD2)) as [b [E H]]. rewrite E. f_equal. apply H.
  intros k. cbn. auto.
Qed.

Lemma key_count_card {K V} (eqK : K -> K -> bool) (input : list (K * V)) (l : list K) : lawful_eq eqK ->
  distinct eqK l -> (forall k, member eqK k l <-> member eqK k (map fst input)) -> key_count eqK input = length l.
Proof.
  intros LE HD HM. unfold key_count. set (s := survivors (same_key eqK) input).
  assert (DS : distinct eqK (map fst s)) by (rewrite distinct_map; apply (survivors_distinct (same_key eqK) input)).
  rewrite <- (map_length fst s). apply Nat.le_antisymm.
  - apply (distinct_incl_length eqK LE); auto. intros k Hk. apply HM. apply in_map_iff in Hk. destruct Hk as [e [<- He]].
    apply survivors_incl in He. exists (fst e). split; [apply in_map; auto|apply (eq_refl_law _ LE)].
  - apply (distinct_incl_length eqK LE); auto. intros k Hk.
    assert (Hm : member eqK k (map fst input)) by (apply HM; exists k; split; [auto|apply (eq_refl_law _ LE)]).
    destruct Hm as [k' [H1 H2]]. apply in_map_iff in H1. destruct H1 as [e [<- He]].
    destruct (survivors_cover (same_key eqK) input e) as [e' [H3 H4]]; [apply lawful_same_key; auto|auto|].
    exists (fst e'). split; [apply in_map; auto|]. eapply (eq_trans_law _ LE); eauto.
Qed.

Lemma iter_mut_positions {K V} (es : list (K * V)) :
  yields (it_next map_iter_mut) (iter_mut_new es) (combine (map fst es) (seq 0 (length es))) /\
  yields (it_next map_values_mut) (iter_mut_new es) (seq 0 (length es)).
Proof.
  split; [apply (ex_yields _ _ map_iter_mut_exact)|]. rewrite <- iter_mut_new_snd. apply (ex_yields _ _ map_values_mut_exact).
Qed.

Lemma construction_total :
  (forall K V usort eqK hK (input : list (K * V)), sorts_by_slot usort -> lawful_eq eqK -> lawful_hash eqK hK ->
     N.of_nat (key_count eqK input) <= usize_max -> exists m, fz_hash_map_with_hasher usort eqK hK input = Ok m) /\
  (forall K V cmp (input : list (K * V)), lawful_ord cmp -> exists m, fz_ordered_map_new cmp input = Ok m) /\
  (forall V usort bh (input : list (bytes * V)), sorts_by_slot usort -> N.of_nat (key_count bytes_eqb input) <= usize_max ->
     (forall e, In e input -> N.of_nat (length (fst e)) <= usize_max) -> exists m, fz_string_map_with_hasher usort bh input = Ok m) /\
  (forall K V usort md idx cmp (input : list (K * V)), sorts_by_slot usort -> lawful_scalar idx cmp ->
     span_representable idx (map fst input) -> exists m, fz_scalar_map_new usort md idx cmp input = Ok m).
Proof.
  split; [|split; [|split]].
  - intros K V usort eqK hK input US LE LH HC.
    destruct (fz_hash_map_built usort US eqK eqK hK hK input LE LH) as [m [E _]]; eauto.
  - intros K V cmp input LO. destruct (eytzinger_map_new_built cmp cmp LO (self_comparable _ LO) input) as [m [E _]]. eauto.
  - intros V usort bh input US HC HL. destruct (fz_string_map_built usort bh US input HC HL) as [m [E _]]. eauto.
  - intros K V usort md idx cmp input US LS SR. pose proof (scalar_count idx cmp input LS SR) as HC.
    assert (LQ : lawful_query_scalar idx idx (idx_eq idx)) by (split; [apply (idx_bound_law _ _ LS)|reflexivity]).
    destruct (fz_scalar_map_built idx cmp idx (idx_eq idx) LS LQ usort US md input SR HC) as [m [E _]]. eauto.
Qed.

Lemma defaults_made :
  (forall K V Q eqK eqv, lawful_eq eqK -> lawful_equivalent (Q := Q) eqK eqv -> made (scan_ops eqv) eqK eqv (scan_map_default (K := K) (V := V)) []) /\
  (forall K V Q cmp cmpQ, lawful_ord cmp -> lawful_comparable (Q := Q) cmp cmpQ ->
     made (eytzinger_ops cmpQ) (cmp_eq cmp) (cmp_eq cmpQ) (eytzinger_map_default (K := K) (V := V)) []) /\
  (forall K V Q idx cmp idxQ eqv, lawful_scalar idx cmp -> lawful_query_scalar (Q := Q) idx idxQ eqv ->
     made (dense_ops idxQ) (idx_eq idx) eqv (dense_map_default (K := K) (V := V)) [] /\
     made (sparse_ops idxQ) (idx_eq idx) eqv (sparse_map_default (K := K) (V := V)) [] /\
     made (fz_scalar_ops idxQ eqv) (idx_eq idx) eqv (fz_scalar_map_default (K := K) (V := V)) []) /\
  (forall K V Q eqK eqv hQ, lawful_eq eqK -> lawful_equivalent (Q := Q) eqK eqv ->
     made (hash_ops (fun q => Ok (hQ q)) eqv) eqK eqv (hash_map_default (K := K) (V := V)) []) /\
  (forall V bh, made fz_string_ops bytes_eqb bytes_eqb (fz_string_map_default (V := V) bh) []).
Proof.
  split; [|split; [|split; [|split]]]; intros.
  - apply made_default_scan; auto.
  - apply made_default_ordered; auto.
  - split; [|split]; [eapply made_default_dense|eapply made_default_sparse|eapply made_default_fz_scalar]; eauto.
  - apply made_default_hash; auto.
  - apply made_default_fz_string.
Qed.
