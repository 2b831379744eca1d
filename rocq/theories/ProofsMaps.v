(** Map types: invariants established by construction, kept by writes to values, used by lookup. *)
From Verif Require Import Prelude Spec ModelUtils ModelAnalyzers ModelTables ModelMaps
  ProofsBase ProofsDedup ProofsAnalyzer ProofsTable ProofsEytzinger.
From Coq Require Import Permutation Sorted.
From Coq Require Import ZArith ZifyNat ZifyN ZifyBool.

(** The four query functions agree on a position [o] of the entry array, which is the match if there is one. *)
Definition lookup_ok {M K V Q} (ops : map_ops M K V Q) (eqv : Q -> K -> bool) (m : M) (q : Q) : Prop :=
  exists o, mo_get_mut ops m q = Ok o /\
    mo_get ops m q = Ok (option_map snd (opt_bind o (nth_error (mo_entries ops m)))) /\
    mo_get_key_value ops m q = Ok (opt_bind o (nth_error (mo_entries ops m))) /\
    mo_contains_key ops m q = Ok (is_some o) /\
    match o with
    | Some p => exists e, nth_error (mo_entries ops m) p = Some e /\ eqv q (fst e) = true
    | None => forall e, In e (mo_entries ops m) -> eqv q (fst e) = false
    end.

(** Lookups are right, and stay right however the values are overwritten. *)
Record map_ok {M K V Q} (ops : map_ops M K V Q) (eqv : Q -> K -> bool) (m : M) : Prop := {
  ok_with_id : mo_with_entries ops m (mo_entries ops m) = m;
  ok_entries : forall es, mo_entries ops (mo_with_entries ops m es) = es;
  ok_with_with : forall es es', mo_with_entries ops (mo_with_entries ops m es) es' = mo_with_entries ops m es';
  ok_lookup : forall es, map fst es = map fst (mo_entries ops m) -> forall q, lookup_ok ops eqv (mo_with_entries ops m es) q }.

Lemma map_ok_lookup {M K V Q} (ops : map_ops M K V Q) eqv m q : map_ok ops eqv m -> lookup_ok ops eqv m q.
Proof. intros H. rewrite <- (ok_with_id _ _ _ H). apply (ok_lookup _ _ _ H). reflexivity. Qed.

Lemma map_ok_with {M K V Q} (ops : map_ops M K V Q) eqv m es :
  map_ok ops eqv m -> map fst es = map fst (mo_entries ops m) -> map_ok ops eqv (mo_with_entries ops m es).
Proof.
  intros H E. constructor.
  - rewrite (ok_with_with _ _ _ H), (ok_entries _ _ _ H). reflexivity.
  - intros es'. rewrite (ok_with_with _ _ _ H), (ok_entries _ _ _ H). reflexivity.
  - intros es' es''. rewrite !(ok_with_with _ _ _ H). reflexivity.
  - intros es' E' q. rewrite (ok_entries _ _ _ H) in E'. rewrite (ok_with_with _ _ _ H). apply (ok_lookup _ _ _ H).
    congruence.
Qed.

(** * Scan maps *)
Section Scan.
Context {K V Q : Type} (eqv : Q -> K -> bool).

Definition scan_pick (es : list (K * V)) (q : Q) : option nat := scan_get_mut_loop eqv es 0 q None.

Lemma scan_loops es : forall pos q (pre : list (K * V)) r,
  length pre = pos ->
  match r with Some p => exists e, nth_error (pre ++ es) p = Some e /\ eqv q (fst e) = true
             | None => forall e, In e pre -> eqv q (fst e) = false end ->
  let o := scan_get_mut_loop eqv es pos q r in
  scan_get_loop eqv es q (option_map snd (opt_bind r (nth_error (pre ++ es)))) = option_map snd (opt_bind o (nth_error (pre ++ es))) /\
  scan_get_key_value_loop eqv es q (opt_bind r (nth_error (pre ++ es))) = opt_bind o (nth_error (pre ++ es)) /\
  match o with Some p => exists e, nth_error (pre ++ es) p = Some e /\ eqv q (fst e) = true
             | None => forall e, In e (pre ++ es) -> eqv q (fst e) = false end.
Proof.
  induction es as [|e es IH]; intros pos q pre r Hpos Hr; cbn [scan_get_mut_loop scan_get_loop scan_get_key_value_loop].
  - cbn zeta. split; auto. split; auto. destruct r; auto. rewrite app_nil_r. auto.
  - replace (pre ++ e :: es) with ((pre ++ [e]) ++ es) in * by (rewrite <- app_assoc; reflexivity).
    assert (He : nth_error ((pre ++ [e]) ++ es) pos = Some e).
    { rewrite nth_error_app1 by (rewrite app_length; cbn; lia). rewrite nth_error_app2 by lia.
      replace (pos - length pre)%nat with 0%nat by lia. reflexivity. }
    destruct (eqv q (fst e)) eqn:E.
    + specialize (IH (S pos) q (pre ++ [e]) (Some pos)). cbn [opt_bind] in IH. rewrite He in IH. cbn [option_map] in IH.
      destruct e as [k v]. cbn [fst snd] in *. apply IH.
      * rewrite app_length; cbn; lia.
      * eauto.
    + apply IH.
      * rewrite app_length; cbn; lia.
      * destruct r; auto. intros e' He'. apply in_app_or in He'. destruct He' as [He'|[<-|[]]]; auto.
Qed.

Lemma scan_ok (m : scan_map K V) : map_ok (scan_ops eqv) eqv m.
Proof.
  constructor; auto.
  - destruct m; reflexivity.
  - intros es _ q. cbn.
    destruct (scan_loops es 0 q [] None eq_refl) as [H1 [H2 H3]]; [intros e []|]. cbn [app opt_bind option_map] in *.
    eexists. split; [reflexivity|]. cbn. unfold scan_get, scan_get_key_value, scan_contains_key, scan_get.
    cbn [sm_entries fmap]. rewrite H1, H2. split; auto. split; auto. split; auto.
    destruct (scan_get_mut_loop eqv es 0 q None); auto. destruct H3 as [e [H3 H4]]. cbn. rewrite H3. reflexivity.
Qed.
End Scan.

(** * Eytzinger maps *)
Section Eyt.
Context {K V Q : Type} (cmp : K -> K -> comparison) (cmpQ : Q -> K -> comparison).

(** the keys are the Eytzinger layout of a strictly sorted list *)
Definition eyt_inv (keys : list K) : Prop :=
  exists src, length keys = length src /\
    (forall p, (p < length src)%nat -> nth_error keys p = nth_error src (sg (length src) p)) /\
    StronglySorted (fun x y => cmp x y = Lt) src.

Lemma StronglySorted_nth {A} (R : A -> A -> Prop) l i j x y :
  StronglySorted R l -> (i < j)%nat -> nth_error l i = Some x -> nth_error l j = Some y -> R x y.
Proof.
  intros H. revert i j. induction H as [|a l HS IH HF]; intros i j Hij Hi Hj.
  - destruct i; discriminate.
  - destruct j as [|j]; [lia|]. destruct i as [|i].
    + cbn in Hi, Hj. inversion Hi; subst. rewrite Forall_forall in HF. apply HF. eapply nth_error_In; eauto.
    + cbn in Hi, Hj. apply (IH i j); auto. lia.
Qed.

Hypothesis LC : lawful_comparable cmp cmpQ.

Lemma cmp_consistent q src : StronglySorted (fun x y => cmp x y = Lt) src -> consistent (fun k => CompOpp (cmpQ q k)) src.
Proof.
  intros HS i j x y Hij Hi Hj. pose proof (StronglySorted_nth _ _ _ _ _ _ HS Hij Hi Hj) as Hxy. cbn beta in Hxy.
  destruct (cmpQ q x) eqn:E.
  - right. rewrite (cmpq_eq_law _ _ LC q x y E), Hxy. reflexivity.
  - right. rewrite (cmpq_lt_law _ _ LC q x y E Hxy). reflexivity.
  - left. reflexivity.
Qed.

Lemma eyt_ok (m : eytzinger_map K V) : eyt_inv (map fst (em_entries m)) ->
  map_ok (eytzinger_ops cmpQ) (fun q k => is_eq (cmpQ q k)) m.
Proof.
  intros [src [Hl [Hn HS]]]. constructor; auto.
  - destruct m; reflexivity.
  - intros es E q. cbn in E. unfold lookup_ok, eytzinger_ops. cbn [mo_get_mut mo_get mo_get_key_value mo_contains_key mo_entries mo_with_entries].
    unfold eytzinger_get_mut, eytzinger_get, eytzinger_get_key_value, eytzinger_contains_key, eytzinger_get. cbn [em_entries].
    assert (HSS : eytzinger_search_by es (fun entry => CompOpp (cmpQ q (fst entry))) =
                  eytzinger_search_by (map fst es) (fun k => CompOpp (cmpQ q k)))
      by (apply (eytzinger_search_by_map fst (fun k => CompOpp (cmpQ q k)))).
    rewrite HSS, E.
    destruct (search_spec src (map fst (em_entries m)) (fun k => CompOpp (cmpQ q k)) Hl Hn (cmp_consistent q src HS)) as [o [H1 H2]].
    rewrite H1. cbn [bind]. destruct o as [p|].
    + destruct H2 as [k [Hk1 Hk2]]. rewrite <- E in Hk1. rewrite nth_error_map in Hk1.
      destruct (nth_error es p) as [e|] eqn:Ep; [|discriminate]. cbn in Hk1. inversion Hk1; subst k.
      unfold get_unchecked. rewrite Ep. cbn. exists (Some p). cbn. rewrite Ep. cbn. destruct e as [k v]. cbn in *.
      repeat split; auto. exists (k, v). split; auto. cbn. destruct (cmpQ q k); auto; discriminate.
    + exists None. cbn. repeat split; auto. intros e He. specialize (H2 (fst e)). rewrite <- E in H2.
      specialize (H2 (in_map fst _ _ He)). destruct (cmpQ q (fst e)); auto. cbn in H2. congruence.
Qed.
End Eyt.

Lemma map_sorted {A B} (g : A -> B) (R : B -> B -> Prop) l :
  StronglySorted (fun x y => R (g x) (g y)) l -> StronglySorted R (map g l).
Proof.
  induction 1; cbn; constructor; auto. apply Forall_forall. intros y Hy. apply in_map_iff in Hy.
  destruct Hy as [z [<- Hz]]. rewrite Forall_forall in H0. auto.
Qed.

Lemma eyt_from_sorted {K V} (cmp : K -> K -> comparison) (es : list (K * V)) :
  StronglySorted (fun x y => cmp (fst x) (fst y) = Lt) es ->
  exists m, eytzinger_from_sorted es = Ok m /\ Permutation es (em_entries m) /\ eyt_inv cmp (map fst (em_entries m)).
Proof.
  intros HS. unfold eytzinger_from_sorted. destruct (layout_spec es) as [out [E [Hl Hn]]].
  pose proof (layout_perm es out E) as HP. rewrite E. cbn [bind]. eexists. split; [reflexivity|]. cbn [em_entries].
  split; auto. exists (map fst es). rewrite !map_length. split; auto. split.
  - intros p Hp. rewrite !nth_error_map. rewrite Hn by auto. reflexivity.
  - apply map_sorted. exact HS.
Qed.

(** * Dense maps *)
Section Dense.
Context {K V Q : Type} (idx : K -> N) (idxQ : Q -> N) (eqv : Q -> K -> bool).
Hypothesis LQ : lawful_query_scalar idx idxQ eqv.

Definition dense_inv (mn mx : N) (keys : list K) : Prop :=
  (forall p k, nth_error keys p = Some k -> idx k = mn + N.of_nat p) /\
  (keys = [] /\ mx < mn \/ mn + N.of_nat (length keys) = mx + 1 /\ mn <= mx).

Lemma dense_ok (m : dense_map K V) : dense_inv (dm_min m) (dm_max m) (map fst (dm_entries m)) ->
  map_ok (dense_ops idxQ) eqv m.
Proof.
  intros [H1 H2]. constructor; auto.
  - destruct m; reflexivity.
  - intros es E q. cbn in E. rewrite <- E in H1, H2. rewrite map_length in H2.
    assert (Hn : forall p e, nth_error es p = Some e -> idx (fst e) = dm_min m + N.of_nat p).
    { intros p e Hp. apply H1. rewrite nth_error_map, Hp. reflexivity. }
    unfold lookup_ok, dense_ops. cbn [mo_get_mut mo_get mo_get_key_value mo_contains_key mo_entries mo_with_entries].
    unfold dense_get_mut, dense_contains_key, dense_get, dense_get_key_value. cbn [dm_entries dm_min dm_max].
    destruct ((dm_min m <=? idxQ q) && (idxQ q <=? dm_max m)) eqn:R.
    + assert (Hp : (N.to_nat (idxQ q - dm_min m) < length es)%nat).
      { destruct H2 as [[Hnil Hlt]|H2]; lia. }
      destruct (nth_error es (N.to_nat (idxQ q - dm_min m))) as [e|] eqn:Ep;
        [|apply nth_error_None in Ep; lia].
      unfold get_unchecked. rewrite Ep. cbn. exists (Some (N.to_nat (idxQ q - dm_min m))). cbn. rewrite Ep.
      destruct e as [k v]. cbn. repeat split; auto. exists (k, v). split; auto. cbn.
      rewrite (idxq_eqv_law _ _ _ LQ). specialize (Hn _ _ Ep). cbn in Hn. lia.
    + exists None. cbn. repeat split; auto. intros e He. rewrite (idxq_eqv_law _ _ _ LQ).
      apply In_nth_error in He. destruct He as [p Hp]. specialize (Hn _ _ Hp).
      assert (p < length es)%nat by (apply nth_error_Some; congruence).
      destruct H2 as [[Hnil Hlt]|H2]; [|lia]. destruct es; [destruct p; discriminate|discriminate].
Qed.
End Dense.

(** * Sparse maps *)
Section Sparse.
Context {K V Q : Type} (idx : K -> N) (idxQ : Q -> N) (eqv : Q -> K -> bool).
Hypothesis LQ : lawful_query_scalar idx idxQ eqv.

Definition sparse_inv (mn mx : N) (lookup : list N) (keys : list K) : Prop :=
  (mx < mn /\ keys = [] \/ mn <= mx /\ N.of_nat (length lookup) = mx - mn + 1) /\
  (forall k, In k keys -> mn <= idx k <= mx) /\
  (forall s i, nth_error lookup s = Some i ->
     if i =? 0 then (forall k, In k keys -> idx k <> mn + N.of_nat s)
     else exists k, nth_error keys (N.to_nat (i - 1)) = Some k /\ idx k = mn + N.of_nat s).

Lemma sparse_ok (m : sparse_map K V) :
  sparse_inv (sp_min m) (sp_max m) (sp_lookup m) (map fst (sp_entries m)) ->
  map_ok (sparse_ops idxQ) eqv m.
Proof.
  intros [H1 [H2 H3]]. constructor; auto.
  - destruct m; reflexivity.
  - intros es E q. cbn in E. rewrite <- E in H1, H2, H3.
    unfold lookup_ok, sparse_ops. cbn [mo_get_mut mo_get mo_get_key_value mo_contains_key mo_entries mo_with_entries].
    unfold sparse_get_mut, sparse_contains_key, sparse_get, sparse_get_key_value. cbn [sp_entries sp_min sp_max sp_lookup].
    destruct ((sp_min m <=? idxQ q) && (idxQ q <=? sp_max m)) eqn:R.
    + assert (Hp : (N.to_nat (idxQ q - sp_min m) < length (sp_lookup m))%nat) by lia.
      destruct (nth_error (sp_lookup m) (N.to_nat (idxQ q - sp_min m))) as [i|] eqn:Ei;
        [|apply nth_error_None in Ei; lia].
      specialize (H3 _ _ Ei). unfold get_unchecked. rewrite Ei. cbn [bind].
      replace (sp_min m + N.of_nat (N.to_nat (idxQ q - sp_min m))) with (idxQ q) in H3 by lia.
      destruct (N.eqb_spec i 0) as [Hi|Hi].
      * rewrite Hi. cbn. exists None. cbn. repeat split; auto. intros e He. rewrite (idxq_eqv_law _ _ _ LQ).
        specialize (H3 (fst e) (in_map fst _ _ He)). lia.
      * destruct (N.ltb_spec 0 i); [|lia]. destruct H3 as [k [Hk1 Hk2]]. rewrite nth_error_map in Hk1.
        destruct (nth_error es (N.to_nat (i - 1))) as [e|] eqn:Ep; [|discriminate].
        cbn in Hk1. inversion Hk1; subst k. cbn [bind fmap].
        exists (Some (N.to_nat (i - 1))). cbn. rewrite Ep. destruct e as [k v]. cbn in *. repeat split; auto.
        exists (k, v). split; auto. cbn. rewrite (idxq_eqv_law _ _ _ LQ). lia.
    + exists None. cbn. repeat split; auto. intros e He. rewrite (idxq_eqv_law _ _ _ LQ).
      specialize (H2 (fst e) (in_map fst _ _ He)). lia.
Qed.
End Sparse.

(** * Hash maps *)
Section HashM.
Context {K V Q : Type} (hK : K -> N) (hQ : Q -> res N) (eqv : Q -> K -> bool).
(** hashing a query never fails, and agrees with the hash of every equivalent key *)
Hypothesis LH : forall q, exists h, hQ q = Ok h /\ forall k, eqv q k = true -> hK k = h.

Lemma hash_ok (m : hash_map K V) : ht_inv (map (fun e => hK (fst e)) (ht_entries (hm_table m))) (hm_table m) ->
  map_ok (hash_ops hQ eqv) eqv m.
Proof.
  intros Hinv. constructor; auto.
  - destruct m as [[s e k]]; reflexivity.
  - intros es E q. cbn in E.
    set (t := {| ht_slots := ht_slots (hm_table m); ht_entries := es; ht_mask := ht_mask (hm_table m) |}).
    assert (Hinv' : ht_inv (map (fun e => hK (fst e)) es) t).
    { assert (EC : map (fun e => hK (fst e)) es = map (fun e => hK (fst e)) (ht_entries (hm_table m))).
      { rewrite <- (map_map fst hK), E, map_map. reflexivity. }
      rewrite EC. destruct Hinv as [Hl Hrest]. split; [|exact Hrest].
      rewrite <- EC. unfold t. cbn [ht_entries]. apply map_length. }
    destruct (LH q) as [h [Hh1 Hh2]].
    destruct (ht_find_spec _ t h (fun entry => eqv q (fst entry)) Hinv') as [o [F1 [F2 F3]]].
    unfold lookup_ok, hash_ops. cbn [mo_get_mut mo_get mo_get_key_value mo_contains_key mo_entries mo_with_entries].
    unfold hash_get_mut, hash_contains_key, hash_get, hash_get_key_value. cbn [hm_table]. fold t.
    rewrite Hh1. cbn [bind]. rewrite F1, F2. cbn [fmap]. exists o. unfold t in *. cbn [ht_entries] in *.
    split; auto. split; auto. split; [|split].
    + destruct (opt_bind o (nth_error es)) as [[k v]|]; reflexivity.
    + destruct o as [p|]; cbn; auto. destruct F3 as [e [-> _]]. reflexivity.
    + destruct o as [p|]; auto. intros e He. destruct (eqv q (fst e)) eqn:Ee; auto. exfalso.
      apply In_nth_error in He. destruct He as [p Hp].
      rewrite (F3 p e Hp) in Ee; [discriminate|]. rewrite nth_error_map, Hp. cbn. f_equal. apply Hh2. auto.
Qed.
End HashM.

Lemma hash_from_dedupped_spec {K V} (usort : list (N * (K * V)) -> list (N * (K * V))) cm (hK : K -> res N) (h : K -> N) es :
  sorts_by_slot usort -> (forall e, In e es -> hK (fst e) = Ok (h (fst e))) ->
  N.of_nat (length es) <= max_capacity cm ->
  exists m, hash_from_dedupped usort cm hK es = Ok (ROk m) /\ Permutation es (ht_entries (hm_table m)) /\
    ht_inv (map (fun e => h (fst e)) (ht_entries (hm_table m))) (hm_table m).
Proof.
  intros HU Hh Hc. unfold hash_from_dedupped.
  destruct (ht_new_spec usort cm es (fun e => hK (fst e)) (fun e => h (fst e)) HU Hh Hc) as [t [E [P I]]].
  rewrite E. cbn [bind]. eexists. split; [reflexivity|]. cbn [hm_table]. auto.
Qed.
