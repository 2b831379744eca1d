(** Proofs about emitted collections. *)
From Verif Require Import Prelude Spec ModelUtils ModelAnalyzers ModelTables ModelMaps ModelEmit SpecEmit SpecAnalysis
  ProofsBase ProofsDedup ProofsAnalyzer ProofsTable ProofsEytzinger ProofsMaps ProofsScalar ProofsSlices ProofsFz.
From Coq Require Import Permutation Sorted.
From Coq Require Import ZArith ZifyNat ZifyN ZifyBool.

(** * Hash tables: empty slots are (0, 0) *)
Definition tight (s : N * N) : Prop := s = (0, 0) \/ fst s < snd s.

Lemma list_set_Forall {A} (P : A -> Prop) l i x : Forall P l -> P x -> Forall P (list_set l i x).
Proof. intros H Hx. revert i. induction H; intros [|i]; cbn [list_set]; auto. Qed.

Lemma pop_run_length {T} slot (items : list (N * T)) :
  let (run, rest) := pop_run slot items in (length run + length rest = length items)%nat.
Proof.
  induction items as [|[s e] r IH]; cbn [pop_run]; auto. destruct (s =? slot); [|reflexivity].
  destruct (pop_run slot r) as [run rest]. cbn [length]. lia.
Qed.

Lemma fill_slots_tight {T} cm : forall fuel (items : list (N * T)) i slots F slots' F',
  i + N.of_nat (length items) <= max_capacity cm -> Forall tight slots ->
  fill_slots cm fuel items i slots F = Ok (slots', F') -> Forall tight slots'.
Proof.
  induction fuel as [|fuel IH]; intros items i slots F slots' F' Hc Ht E; cbn [fill_slots] in E; [discriminate|].
  destruct items as [|[slot e] r]; [injection E as <- <-; auto|].
  pose proof (pop_run_length slot r) as HL. destruct (pop_run slot r) as [run rest]. cbn [length] in Hc.
  unfold store in E. destruct (Nat.ltb (N.to_nat slot) (length slots)); cbn [bind] in E; [|discriminate].
  eapply IH; [|clear IH|exact E].
  - lia.
  - apply list_set_Forall; auto. right. unfold try_from_or_zero. cbn [fst snd].
    pose proof (max_capacity_index cm). destruct (N.leb_spec i (index_max cm)); [|lia].
    destruct (N.leb_spec (i + N.of_nat (S (length run))) (index_max cm)); lia.
Qed.

Lemma mapM_length {A B} (f : A -> res B) l : forall l', mapM f l = Ok l' -> length l' = length l.
Proof.
  induction l as [|x r IH]; intros l' E; cbn [mapM] in E; [injection E as <-; auto|].
  destruct (f x); cbn [bind] in E; try discriminate. destruct (mapM f r); cbn [bind] in E; try discriminate.
  injection E as <-. cbn. f_equal. auto.
Qed.

Lemma ht_new_tight {T} (usort : list (N * T) -> list (N * T)) cm entries hash t :
  sorts_by_slot usort -> ht_new usort cm entries hash = Ok (ROk t) -> Forall tight (ht_slots t).
Proof.
  intros HU E. unfold ht_new in E. destruct (is_nil entries).
  - injection E as <-. cbn. constructor; [left; auto|constructor].
  - destruct (N.ltb_spec (max_capacity cm) (N.of_nat (length entries))) as [|Hc]; [discriminate|].
    destruct (mapM hash entries) as [codes| |]; cbn [bind] in E; try discriminate.
    destruct (analyze_hash_codes codes) as [[m c]| |]; cbn [bind fst] in E; try discriminate.
    destruct (prep_items hash m entries) as [items| |] eqn:EP; cbn [bind] in E; try discriminate.
    apply mapM_length in EP. rewrite rev_length in EP.
    destruct (fill_slots cm _ _ _ _ _) as [[slots es]| |] eqn:EF; cbn [bind] in E; try discriminate.
    destruct (sub_no_underflow _ _); cbn [bind] in E; try discriminate. injection E as <-. cbn [ht_slots].
    eapply fill_slots_tight; [| |exact EF].
    + rewrite rev_length. destruct (HU items) as [HP _]. rewrite <- (Permutation_length HP). lia.
    + apply Forall_forall. intros x Hx. apply repeat_spec in Hx. subst. left. auto.
Qed.

(** * Lookups in a table of entries whose hash codes are given position by position *)
Section Codes.
Context {K V Q : Type} (codes : list N) (hQ : Q -> res N) (eqv : Q -> K -> bool).

(** hashing a query gives the code of every entry the query matches *)
Definition codes_agree (keys : list K) : Prop :=
  forall q, exists h, hQ q = Ok h /\ forall p k, nth_error keys p = Some k -> eqv q k = true -> nth_error codes p = Some h.

Lemma hash_ok_codes (m : hash_map K V) : ht_inv codes (hm_table m) -> codes_agree (map fst (ht_entries (hm_table m))) ->
  map_ok (hash_ops hQ eqv) eqv m.
Proof.
  intros Hinv HA. constructor; auto.
  - destruct m as [[s e k]]; reflexivity.
  - intros es E q. cbn in E.
    set (t := {| ht_slots := ht_slots (hm_table m); ht_entries := es; ht_mask := ht_mask (hm_table m) |}).
    assert (Hinv' : ht_inv codes t).
    { destruct Hinv as [Hl Hrest]. split; [|exact Hrest]. cbn [t ht_entries]. rewrite Hl.
      rewrite <- (map_length fst), <- E, map_length. reflexivity. }
    rewrite <- E in HA. destruct (HA q) as [h [Hh1 Hh2]].
    destruct (ht_find_spec _ t h (fun entry => eqv q (fst entry)) Hinv') as [o [F1 [F2 F3]]].
    unfold lookup_ok, hash_ops. cbn [mo_get_mut mo_get mo_get_key_value mo_contains_key mo_entries mo_with_entries].
    unfold hash_get_mut, hash_contains_key, hash_get, hash_get_key_value. cbn [hm_table]. fold t.
    rewrite Hh1. cbn [bind]. rewrite F1, F2. cbn [fmap]. exists o. unfold t in *. cbn [ht_entries] in *.
    split; auto. split; auto. split; [|split].
    + destruct (opt_bind o (nth_error es)) as [[k v]|]; reflexivity.
    + destruct o as [p|]; cbn; auto. destruct F3 as [e [-> _]]. reflexivity.
    + destruct o as [p|]; auto. intros e He. destruct (eqv q (fst e)) eqn:Ee; auto. exfalso.
      apply In_nth_error in He. destruct He as [p Hp].
      rewrite (F3 p e Hp) in Ee; [discriminate|]. apply (Hh2 p (fst e)); auto. rewrite nth_error_map, Hp. reflexivity.
Qed.

(** every slot of the collision-free table points to the only entry with that slot *)
Definition nc_inv {T} (t : nc_table T) : Prop :=
  length codes = length (nc_entries t) /\
  exists k, length (nc_slots t) = N.to_nat (2 ^ k) /\ nc_mask t = 2 ^ k - 1 /\
  forall s, s < 2 ^ k -> exists i, nth_error (nc_slots t) (N.to_nat s) = Some i /\ i <= N.of_nat (length codes) /\
    forall p c, nth_error codes p = Some c -> c mod 2 ^ k = s -> i = N.of_nat p + 1.

Lemma nc_ok_codes (m : nc_map K V) : nc_inv (ncm_table m) -> codes_agree (map fst (nc_entries (ncm_table m))) ->
  map_ok (nc_ops hQ eqv) eqv m.
Proof.
  intros [Hl [k [Hs [Hm Hi]]]] HA. constructor; auto.
  - destruct m as [[s e kk]]; reflexivity.
  - intros es E q. cbn in E. rewrite <- E in HA. destruct (HA q) as [h [Hh1 Hh2]].
    assert (Hle : length es = length codes) by (rewrite Hl, <- (map_length fst es), E, map_length; reflexivity).
    unfold lookup_ok, nc_ops. cbn [mo_get_mut mo_get mo_get_key_value mo_contains_key mo_entries mo_with_entries].
    unfold nc_get_mut, nc_contains_key, nc_get, nc_get_key_value, nc_find, nc_find_mut. cbn [ncm_table nc_entries nc_slots nc_mask].
    rewrite Hh1. cbn [bind]. rewrite Hm, land_mask.
    destruct (Hi (h mod 2 ^ k)) as [i [I1 [I2 I3]]]; [apply N.mod_lt; apply pow2_nz|].
    unfold get_unchecked. rewrite I1. cbn [bind].
    destruct (N.ltb_spec 0 i) as [H0|H0].
    + assert (Hp : (N.to_nat (i - 1) < length es)%nat) by lia.
      destruct (nth_error es (N.to_nat (i - 1))) as [[k0 v0]|] eqn:Ep; [|apply nth_error_None in Ep; lia].
      cbn [bind]. destruct (eqv q (fst (k0, v0))) eqn:Ee.
      * exists (Some (N.to_nat (i - 1))). cbn. rewrite Ep. cbn [option_map fst snd]. split; auto. split; auto. split; auto. split; auto.
        exists (k0, v0). auto.
      * exists None. cbn. split; auto. split; auto. split; auto. split; auto.
        intros e He. destruct (eqv q (fst e)) eqn:Ee'; auto. exfalso.
        apply In_nth_error in He. destruct He as [p Hpe].
        assert (Hc : nth_error codes p = Some h) by (apply (Hh2 p (fst e)); auto; rewrite nth_error_map, Hpe; reflexivity).
        specialize (I3 p h Hc eq_refl). subst i. replace (N.to_nat (N.of_nat p + 1 - 1)) with p in Ep by lia.
        rewrite Hpe in Ep. injection Ep as ->. congruence.
    + exists None. cbn. split; auto. split; auto. split; auto. split; auto.
      intros e He. destruct (eqv q (fst e)) eqn:Ee'; auto. exfalso.
      apply In_nth_error in He. destruct He as [p Hpe].
      assert (Hc : nth_error codes p = Some h) by (apply (Hh2 p (fst e)); auto; rewrite nth_error_map, Hpe; reflexivity).
      specialize (I3 p h Hc eq_refl). lia.
Qed.
End Codes.

(** converting a collision-free table, as the generator does *)
Lemma nc_of_ht {T U} codes (t : hash_table T) (es : list U) : ht_inv codes t -> Forall tight (ht_slots t) ->
  ht_has_collisions t = false -> length es = length (ht_entries t) ->
  nc_inv codes (nc_new_raw (map (fun s => if slot_is_empty s then 0 else fst s + 1) (ht_slots t)) es).
Proof.
  intros [Hl [k [Hs [Hm Hi]]]] HT HC He. split; [cbn; congruence|]. exists k. cbn [nc_slots nc_mask nc_new_raw].
  rewrite map_length. split; [auto|]. split; [rewrite Hs, N2Nat.id; reflexivity|]. intros s Hs'.
  destruct (Hi s Hs') as [[a b] [A1 [A2 [A3 A4]]]]. cbn [fst snd] in *. rewrite nth_error_map, A1. cbn [option_map].
  eexists. split; [reflexivity|]. apply nth_error_In in A1.
  assert (HC' : b - a <= 1).
  { unfold ht_has_collisions in HC. rewrite existsb_false_forall in HC. specialize (HC _ A1). cbn in HC. lia. }
  rewrite Forall_forall in HT. specialize (HT _ A1). unfold slot_is_empty. cbn [fst snd].
  destruct (N.eqb_spec b 0) as [Hb|Hb].
  - split; [lia|]. intros p c Hp Hc. apply (A4 p c Hp) in Hc. lia.
  - assert (Hab : a < b) by (destruct HT as [E|E]; cbn in E; [injection E; lia|auto]). split; [lia|].
    intros p c Hp Hc. apply (A4 p c Hp) in Hc. lia.
Qed.

(** * From entries known at build time to the run-time map *)
Lemma survivors_map {A B} (f : A -> B) (s : B -> B -> bool) l :
  survivors s (map f l) = map f (survivors (fun a b => s (f a) (f b)) l).
Proof.
  induction l as [|x r IH]; cbn [map survivors]; auto.
  assert (E : existsb (s (f x)) (map f r) = existsb (fun b => s (f x) (f b)) r).
  { clear. induction r; cbn; auto. rewrite IHr. reflexivity. }
  rewrite E. destruct (existsb _ r); rewrite IH; reflexivity.
Qed.

(** rt_ops on each form behaves like the ops of the form *)
Section Forms.
Context {K V Q : Type} (eqK : K -> K -> bool) (eqv : Q -> K -> bool) (cmpQ : Q -> K -> comparison) (idxQ : Q -> N)
  (hashQ : hasher_code -> Q -> res N) (input : list (K * V)).
Notation B := (built (rt_ops eqv cmpQ idxQ hashQ) eqK eqv).
Local Ltac form := intros [[a b c d] e]; constructor; [constructor|]; auto; cbn in *; intros; try (f_equal; auto; fail); try (eapply d; eauto; fail).

Lemma rt_scan_built m : built (scan_ops eqv) eqK eqv m input -> B (RtScan m) input.
Proof. form. Qed.
Lemma rt_eytzinger_built m : built (eytzinger_ops cmpQ) eqK eqv m input -> B (RtEytzinger m) input.
Proof. form. Qed.
Lemma rt_dense_built m : built (dense_ops idxQ) eqK eqv m input -> B (RtDense m) input.
Proof. form. Qed.
Lemma rt_sparse_built m : built (sparse_ops idxQ) eqK eqv m input -> B (RtSparse m) input.
Proof. form. Qed.
Lemma rt_hash_built h m : built (hash_ops (hashQ h) eqv) eqK eqv m input -> B (RtHash h m) input.
Proof. form. Qed.
Lemma rt_nc_built h m : built (nc_ops (hashQ h) eqv) eqK eqv m input -> B (RtHashNc h m) input.
Proof. form. Qed.
End Forms.

Lemma magnitude_fits n : n <= usize_max -> n <= max_capacity (collection_magnitude n).
Proof.
  intros H. unfold collection_magnitude. destruct (N.leb_spec n (max_capacity Small)); auto.
  destruct (N.leb_spec n (max_capacity Medium)); auto.
Qed.

Lemma survivors_length_le {A} (same : A -> A -> bool) l : (length (survivors same l) <= length l)%nat.
Proof. induction l; cbn; auto. destruct (existsb (same a) l); cbn; lia. Qed.

Lemma of_nat_le_trans a b c : (a <= b)%nat -> N.of_nat b <= c -> N.of_nat a <= c.
Proof. lia. Qed.

Lemma forallb_intro {A} (f : A -> bool) l : (forall x, In x l -> f x = true) -> forallb f l = true.
Proof. intros H. apply forallb_forall. auto. Qed.

Section Emission.
Context {KB X W K V Q : Type} (evK : X -> K) (evV : W -> V) (eqR : K -> K -> bool) (cmpR : K -> K -> comparison)
  (eqK : K -> K -> bool) (eqv : Q -> K -> bool) (cmpQ : Q -> K -> comparison) (idxQ : Q -> N)
  (hashQ : hasher_code -> Q -> res N).

(** run-time value of an entry *)
Definition ev1 (e : entry KB X W) : K * V := (rt_key evK e, evV (snd (snd e))).

Lemma eval_render (es : list (entry KB X W)) : eval_entries evK evV (render es) = map ev1 es.
Proof. unfold eval_entries, render. rewrite map_map. reflexivity. Qed.

Lemma clean_eval unit_expr em (es : list (entry KB X W)) :
  map ev1 (clean_values unit_expr em es) = rt_input evK evV (evV unit_expr) (em_has_value_type em) es.
Proof.
  unfold clean_values, rt_input. destruct (em_has_value_type em); [reflexivity|]. rewrite map_map. reflexivity.
Qed.

Lemma clean_in unit_expr em (es : list (entry KB X W)) e : In e (clean_values unit_expr em es) ->
  exists e0, In e0 es /\ fst e0 = fst e /\ rt_key evK e0 = rt_key evK e.
Proof.
  unfold clean_values. destruct (em_has_value_type em); [eauto|]. rewrite in_map_iff.
  intros [e0 [<- H]]. exists e0. auto.
Qed.

Lemma clean_keys unit_expr em (es : list (entry KB X W)) : map fst (clean_values unit_expr em es) = map fst es.
Proof. unfold clean_values. destruct (em_has_value_type em); [reflexivity|]. rewrite map_map. reflexivity. Qed.

Lemma clean_length unit_expr em (es : list (entry KB X W)) : length (clean_values unit_expr em es) = length es.
Proof. rewrite <- (map_length fst), clean_keys, map_length. reflexivity. Qed.

Lemma transport (sameB : KB -> KB -> bool) (es es' : list (entry KB X W)) :
  (forall a b, In a es -> In b es -> eqK (rt_key evK a) (rt_key evK b) = sameB (fst a) (fst b)) ->
  Permutation (survivors (same_key sameB) es) es' ->
  Permutation (survivors (same_key eqK) (map ev1 es)) (map ev1 es').
Proof.
  intros H HP. rewrite (survivors_map ev1 (same_key eqK) es). apply Permutation_map.
  rewrite (survivors_ext (fun a b : entry KB X W => same_key eqK (ev1 a) (ev1 b)) (same_key sameB) es); [exact HP|].
  intros a b Ha Hb. apply H; auto.
Qed.

(** the emitted constructor call compiles and evaluates to a map holding [input] *)
Definition good (c : ctor X W) (input : list (K * V)) : Prop :=
  ctor_compiles c = true /\
  exists m, run_ctor evK evV eqR cmpR c = Ok m /\ built (rt_ops eqv cmpQ idxQ hashQ) eqK eqv m input.

Lemma gen_scan_good g es input : g_len g = length es -> Permutation (survivors (same_key eqK) input) (map ev1 es) ->
  good (o_ctor (gen_inline_scan g es)) input.
Proof.
  intros Hg HP. split; [cbn; unfold render; rewrite map_length, Hg; apply Nat.eqb_refl|].
  eexists. split; [reflexivity|]. apply rt_scan_built. constructor; [apply scan_ok|]. cbn. rewrite eval_render. auto.
Qed.

Lemma gen_hash_good (usort : list (N * entry KB X W) -> list (N * entry KB X W)) g hash_one (h : KB -> N) hc es input :
  sorts_by_slot usort -> (forall e, In e es -> hash_one (fst e) = Ok (h (fst e))) ->
  g_len g = length es -> N.of_nat (length es) <= usize_max ->
  (forall q, exists c, hashQ hc q = Ok c /\ forall e, In e es -> eqv q (rt_key evK e) = true -> h (fst e) = c) ->
  Permutation (survivors (same_key eqK) input) (map ev1 es) ->
  exists out, gen_inline_hash usort g hash_one hc es = Ok out /\ o_set out = g_set g /\ good (o_ctor out) input.
Proof.
  intros HU Hh Hg Hc HQ HP. unfold gen_inline_hash.
  destruct (ht_new_spec usort Large es (fun x : entry KB X W => hash_one (fst x)) (fun e : entry KB X W => h (fst e)) HU Hh Hc) as [t [E [P I]]].
  pose proof (ht_new_tight _ _ _ _ _ HU E) as HT. unfold e_key. rewrite E. cbn [bind unwrap].
  pose proof (Permutation_length P) as HL. set (codes := map (fun e : entry KB X W => h (fst e)) (ht_entries t)) in *.
  assert (HA : codes_agree codes (hashQ hc) eqv (map fst (map ev1 (ht_entries t)))).
  { intros q. destruct (HQ q) as [c [Q1 Q2]]. exists c. split; auto. intros p k Hp Hk.
    rewrite map_map, nth_error_map in Hp. destruct (nth_error (ht_entries t) p) as [e|] eqn:Ep; [|discriminate].
    cbn in Hp. injection Hp as <-. unfold codes. rewrite (map_nth_error _ p (ht_entries t) Ep). f_equal. apply Q2; auto.
    eapply Permutation_in; [symmetry; exact P|]. eapply nth_error_In; eauto. }
  assert (HP' : Permutation (survivors (same_key eqK) input) (map ev1 (ht_entries t)))
    by (eapply perm_trans; [exact HP|apply Permutation_map; auto]).
  assert (Hcm : N.of_nat (length es) <= max_capacity (collection_magnitude (N.of_nat (length (ht_entries t)))))
    by (rewrite <- HL; apply magnitude_fits; auto).
  assert (HLc : length codes = length es) by (unfold codes; rewrite map_length; auto).
  pose proof I as [_ [k [Hs [Hm Hi]]]].
  assert (Hsl : forall s, In s (ht_slots t) -> snd s <= N.of_nat (length es) /\ fst s <= snd s).
  { intros s Hs'. apply In_nth_error in Hs'. destruct Hs' as [p Hp].
    assert (p < length (ht_slots t))%nat by (apply nth_error_Some; congruence).
    destruct (Hi (N.of_nat p)) as [ab [A1 [A2 [A3 _]]]]; [lia|]. rewrite Nat2N.id in A1. rewrite Hp in A1.
    injection A1 as <-. split; [lia|exact A2]. }
  assert (Hk : 2 ^ k <> 0) by apply pow2_nz.
  eexists. split; [reflexivity|]. split; [reflexivity|]. cbn [o_ctor].
  assert (HR : length (render (ht_entries t)) = length es) by (unfold render; rewrite map_length; auto).
  assert (Hn0 : Nat.eqb (length (ht_slots t)) 0 = false) by (apply Nat.eqb_neq; lia).
  destruct (ht_has_collisions t) eqn:EC.
  - split.
    + cbn [ctor_compiles]. rewrite HR, Hg, !Nat.eqb_refl, Hn0. cbn [andb negb].
      apply forallb_intro. intros s Hs'. apply Hsl in Hs'. unfold fits. rewrite <- max_capacity_index. lia.
    + eexists. split; [reflexivity|]. rewrite eval_render. apply rt_hash_built. constructor.
      * apply (hash_ok_codes codes); [|exact HA]. split; [unfold codes; cbn; rewrite !map_length; auto|].
        exists k. cbn [iht_new_raw ht_slots ht_mask hm_table]. split; auto. split; [rewrite Hs, N2Nat.id; reflexivity|auto].
      * exact HP'.
  - split.
    + cbn [ctor_compiles]. rewrite map_length, HR, Hg, !Nat.eqb_refl, Hn0. cbn [andb negb].
      apply forallb_intro. intros x Hx. apply in_map_iff in Hx. destruct Hx as [s [<- Hs']].
      rewrite Forall_forall in HT. pose proof (HT _ Hs') as Ht. apply Hsl in Hs'. unfold fits, slot_is_empty. rewrite <- max_capacity_index.
      destruct (N.eqb_spec (snd s) 0); [lia|]. destruct Ht as [->|Ht]; cbn in *; lia.
    + eexists. split; [reflexivity|]. rewrite eval_render. apply rt_nc_built. constructor.
      * apply (nc_ok_codes codes); [|exact HA]. apply nc_of_ht; auto. rewrite map_length. reflexivity.
      * exact HP'.
Qed.

(** * The declaration around it *)
Lemma preflight_ok em len : options_consistent em -> preflight em len = ROk {| g_len := len; g_set := negb (em_has_value_type em) |}.
Proof.
  intros [H1 H2]. unfold preflight. destruct (em_is_static em), (em_is_mutable em), (em_alias_name em), (em_symbol_name em); cbn;
    try reflexivity; exfalso; intuition congruence.
Qed.

Lemma preflight_err em len : ~ options_consistent em -> preflight em len = RErr (complaint em).
Proof.
  intros H. unfold preflight, complaint. unfold options_consistent in H.
  destruct (em_is_static em), (em_is_mutable em), (em_alias_name em), (em_symbol_name em); cbn; try reflexivity;
    exfalso; apply H; intuition congruence.
Qed.

Lemma postflight_ok em : options_consistent em -> exists d, postflight em = Ok d /\ expected_decl em d.
Proof.
  intros [H1 H2]. unfold postflight, expected_decl.
  destruct (em_is_static em), (em_symbol_name em); [| |destruct (em_alias_name em)|]; eauto; cbn.
  - destruct (em_const_keys em && em_const_values em), (em_alias_name em); eauto.
  - exfalso. intuition congruence.
Qed.

Lemma finish_ok em len (gen : generator -> res (output X W)) out : options_consistent em ->
  gen {| g_len := len; g_set := negb (em_has_value_type em) |} = Ok out ->
  exists d, finish em len gen = Ok (ROk (d, out)) /\ expected_decl em d.
Proof.
  intros H E. unfold finish. rewrite preflight_ok by auto. rewrite E. cbn [bind].
  destruct (postflight_ok em H) as [d [D1 D2]]. rewrite D1. cbn [bind]. eauto.
Qed.

Lemma finish_err em len (gen : generator -> res (output X W)) : ~ options_consistent em ->
  finish em len gen = Ok (RErr (complaint em)).
Proof. intros H. unfold finish. rewrite (preflight_err em len H). reflexivity. Qed.

(** what all emission theorems conclude *)
Definition emitted (r : res (result (decl * output X W))) (em : emitter) (input : list (K * V)) : Prop :=
  exists d out, r = Ok (ROk (d, out)) /\ expected_decl em d /\ o_set out = negb (em_has_value_type em) /\ good (o_ctor out) input.

Lemma finish_emitted em len gen out input : options_consistent em ->
  gen {| g_len := len; g_set := negb (em_has_value_type em) |} = Ok out -> o_set out = negb (em_has_value_type em) ->
  good (o_ctor out) input -> emitted (finish em len gen) em input.
Proof. intros H E Hs G. destruct (finish_ok em len gen out H E) as [d [D1 D2]]. exists d, out. auto. Qed.

(** * emit_hash_collection *)
Lemma emit_hash_emitted usort unit_expr seed (hashB : N -> KB -> N) eqB em (entries : list (entry KB X W)) :
  sorts_by_slot usort -> lawful_eq eqB -> lawful_hash eqB (hashB seed) ->
  (forall a b, In a entries -> In b entries -> eqK (rt_key evK a) (rt_key evK b) = eqB (fst a) (fst b)) ->
  (forall q, exists c, hashQ (HcBridge seed) q = Ok c /\
     forall e, In e entries -> eqv q (rt_key evK e) = true -> hashB seed (fst e) = c) ->
  N.of_nat (length entries) <= usize_max -> options_consistent em ->
  emitted (emit_hash_collection usort unit_expr seed hashB eqB em entries) em
    (rt_input evK evV (evV unit_expr) (em_has_value_type em) entries).
Proof.
  intros HU LE LH HF HQ Hc HO. unfold emit_hash_collection. set (es0 := clean_values unit_expr em entries).
  rewrite (using_hash_survivors (fun x : entry KB X W => hashB seed (e_key x)) (fun x y => eqB (e_key x) (e_key y))).
  2: exact (lawful_same_key eqB LE). 2: intros x y; apply LH.
  change (fun x y : entry KB X W => eqB (e_key x) (e_key y)) with (@same_key KB (X * W) eqB).
  set (es := survivors (same_key eqB) es0).
  assert (HP : Permutation (survivors (same_key eqK) (rt_input evK evV (evV unit_expr) (em_has_value_type em) entries)) (map ev1 es)).
  { rewrite <- clean_eval. apply (transport eqB); [|apply Permutation_refl]. intros a b Ha Hb.
    apply clean_in in Ha, Hb. destruct Ha as [a0 [Ha [Ea1 Ea2]]], Hb as [b0 [Hb [Eb1 Eb2]]].
    rewrite <- Ea1, <- Ea2, <- Eb1, <- Eb2. auto. }
  assert (Hin : forall e, In e es -> exists e0, In e0 entries /\ fst e0 = fst e /\ rt_key evK e0 = rt_key evK e).
  { intros e He. apply survivors_incl in He. apply clean_in in He. auto. }
  assert (Hlen : N.of_nat (length es) <= usize_max).
  { pose proof (survivors_length_le (same_key eqB) es0) as H. unfold es0 in H.
    rewrite clean_length in H. exact (of_nat_le_trans _ _ _ H Hc). }
  destruct (Nat.ltb (length es) 4) eqn:E4.
  - eapply finish_emitted; auto. apply gen_scan_good; auto.
  - destruct (gen_hash_good usort {| g_len := length es; g_set := negb (em_has_value_type em) |}
        (fun k => Ok (hashB seed k)) (hashB seed) (HcBridge seed) es
        (rt_input evK evV (evV unit_expr) (em_has_value_type em) entries) HU) as [out [G1 [G2 G3]]]; auto.
    { intros q. destruct (HQ q) as [c [C1 C2]]. exists c. split; auto. intros e He Hq.
      destruct (Hin e He) as [e0 [H0 [H1 H2]]]. rewrite <- H1. apply C2; auto. rewrite H2. auto. }
    eapply finish_emitted; eauto.
Qed.

(** * emit_scalar_collection *)
Section Scalar.
Context (idxB : KB -> N) (idxK : K -> N).

Lemma dense_transport mn mx (es : list (entry KB X W)) : (forall e, In e es -> idxK (rt_key evK e) = idxB (fst e)) ->
  dense_inv idxB mn mx (map fst es) -> dense_inv idxK mn mx (map fst (map ev1 es)).
Proof.
  intros HF [H1 H2]. split.
  - intros p k Hp. rewrite map_map, nth_error_map in Hp. destruct (nth_error es p) as [e|] eqn:Ep; [|discriminate].
    cbn in Hp. injection Hp as <-. rewrite HF by (eapply nth_error_In; eauto). apply H1. apply (map_nth_error _ p es Ep).
  - rewrite !map_length in *. destruct H2 as [[H2 H3]|H2]; auto. left. split; auto.
    apply map_eq_nil in H2. subst. reflexivity.
Qed.

Lemma sparse_transport mn mx lookup (es : list (entry KB X W)) : (forall e, In e es -> idxK (rt_key evK e) = idxB (fst e)) ->
  sparse_inv idxB mn mx lookup (map fst es) -> sparse_inv idxK mn mx lookup (map fst (map ev1 es)).
Proof.
  intros HF [H1 [H2 H3]].
  assert (HI : forall k, In k (map fst (map ev1 es)) -> exists e, In e es /\ idxK k = idxB (fst e)).
  { intros k Hk. rewrite map_map in Hk. apply in_map_iff in Hk. destruct Hk as [e [<- He]]. exists e. split; auto. apply HF. auto. }
  split; [|split].
  - destruct H1 as [[H1 H4]|H1]; auto. left. split; auto. apply map_eq_nil in H4. subst. reflexivity.
  - intros k Hk. destruct (HI k Hk) as [e [He ->]]. apply H2. apply in_map. auto.
  - intros s i Hs. specialize (H3 s i Hs). destruct (i =? 0).
    + intros k Hk. destruct (HI k Hk) as [e [He ->]]. apply H3. apply in_map. auto.
    + destruct H3 as [k [Hk1 Hk2]]. rewrite nth_error_map in Hk1.
      destruct (nth_error es (N.to_nat (i - 1))) as [e|] eqn:Ee; [|discriminate]. cbn in Hk1. injection Hk1 as <-.
      exists (rt_key evK e). rewrite map_map. split; [apply (map_nth_error _ _ es Ee)|]. rewrite HF; auto.
      eapply nth_error_In; eauto.
Qed.

Lemma gen_lookup_fill md mn : forall (es : list (entry KB X W)) i lookup, i + N.of_nat (length es) <= usize_max ->
  gen_lookup md idxB mn i es lookup = sparse_fill md idxB mn i es lookup.
Proof.
  induction es as [|e r IH]; intros i lookup H; cbn [gen_lookup sparse_fill]; [reflexivity|]. cbn [length] in H.
  unfold e_key. destruct (usub md (idxB (fst e)) mn); cbn [bind]; auto. rewrite uadd_ok by lia. cbn [bind].
  destruct (store lookup _ _); cbn [bind]; auto. apply IH. lia.
Qed.

Hypothesis EK : forall a b, eqK a b = (idxK a =? idxK b).
Hypothesis LQ : lawful_query_scalar idxK idxQ eqv.

Lemma emit_scalar_emitted usort md unit_expr (cmpB : KB -> KB -> comparison) em (entries : list (entry KB X W)) :
  sorts_by_slot usort -> lawful_scalar idxB cmpB ->
  (forall e, In e entries -> idxK (rt_key evK e) = idxB (fst e)) ->
  (forall q, hashQ HcScalar q = Ok (idxQ q)) ->
  span_representable idxB (map fst entries) ->
  N.of_nat (length entries) <= usize_max -> options_consistent em ->
  emitted (emit_scalar_collection usort md unit_expr idxB cmpB em entries) em
    (rt_input evK evV (evV unit_expr) (em_has_value_type em) entries).
Proof.
  intros HU LS HF HQ Hspan Hc HO. unfold emit_scalar_collection. set (es0 := clean_values unit_expr em entries).
  change (fun x y : entry KB X W => cmpB (e_key x) (e_key y)) with (fun x y : KB * (X * W) => cmpB (fst x) (fst y)).
  set (es := sorted_and_dedupped es0 (fun x y : KB * (X * W) => cmpB (fst x) (fst y))).
  assert (HF0 : forall e, In e es0 -> idxK (rt_key evK e) = idxB (fst e)).
  { intros e He. apply clean_in in He. destruct He as [e0 [H0 [<- <-]]]. auto. }
  assert (HP : Permutation (survivors (same_key eqK) (rt_input evK evV (evV unit_expr) (em_has_value_type em) entries)) (map ev1 es)).
  { rewrite <- clean_eval. apply (transport (same_idx idxB)); [|apply (scalar_sorted_perm idxB cmpB LS)]. intros a b Ha Hb.
    rewrite EK, !HF0 by auto. reflexivity. }
  assert (HF1 : forall e, In e es -> idxK (rt_key evK e) = idxB (fst e)).
  { intros e He. apply HF0. apply (scalar_sorted_in idxB cmpB LS). auto. }
  assert (Hspan0 : span_representable idxB (map fst es0)) by (unfold es0; rewrite clean_keys; auto).
  assert (Hlen : N.of_nat (length es) <= usize_max).
  { pose proof (survivors_length_le (same_key (same_idx idxB)) es0) as H.
    rewrite (Permutation_length (scalar_sorted_perm idxB cmpB LS es0)) in H. fold es in H. unfold es0 in H.
    rewrite clean_length in H. exact (of_nat_le_trans _ _ _ H Hc). }
  pose proof (scalar_sorted_incr idxB cmpB LS es0) as HI. fold es in HI.
  assert (HG : forall g, g_len g = length es ->
    exists out, (if Nat.ltb (length es) 8 then Ok (gen_inline_scan g es)
      else gen_inline_hash usort g (fun k => scalar_hash_one (idxB k)) HcScalar es) = Ok out /\ o_set out = g_set g /\
        good (o_ctor out) (rt_input evK evV (evV unit_expr) (em_has_value_type em) entries)).
  { intros g Hg. destruct (Nat.ltb (length es) 8).
    - eexists. split; [reflexivity|]. split; [reflexivity|]. apply gen_scan_good; auto.
    - apply (gen_hash_good usort g _ idxB); auto. intros q. exists (idxQ q). split; auto.
      intros e He Hq. rewrite (idxq_eqv_law _ _ _ LQ) in Hq. apply N.eqb_eq in Hq. rewrite Hq. symmetry. auto. }
  destruct es as [|e0 r0] eqn:Ees.
  { cbn [map analyze_scalar_keys]. cbn. destruct (HG {| g_len := 0; g_set := negb (em_has_value_type em) |} eq_refl) as [out [G1 [G2 G3]]].
    eapply finish_emitted; eauto. }
  rewrite <- Ees in *. assert (Hne : es <> []) by congruence. clear Ees e0 r0.
  assert (Hin : forall x, In x (ixs idxB es) -> exists k, In k (map fst es0) /\ idxB k = x).
  { intros x Hx. unfold ixs in Hx. apply in_map_iff in Hx. destruct Hx as [e [<- He]]. exists (fst e). split; auto.
    apply in_map. apply (scalar_sorted_in idxB cmpB LS). auto. }
  destruct (analyze_scalar_spec md (ixs idxB es)) as [mn [mx [H1 [H2 [H3 EA]]]]].
  { unfold ixs. intros H. apply map_eq_nil in H. auto. }
  { apply (ixs_bound idxB cmpB LS). }
  { intros a b Ha Hb. apply Hin in Ha, Hb. destruct Ha as [ka [Ha <-]], Hb as [kb [Hb <-]]. apply Hspan0; auto. }
  change (map (fun x : entry KB X W => idxB (e_key x)) es) with (ixs idxB es). rewrite EA. cbn [bind]. clear EA.
  assert (HL : length (ixs idxB es) = length es) by (unfold ixs; apply map_length).
  destruct (first_last_exist es Hne) as [first [last [E1 E2]]].
  pose proof (incr_first_last idxB es first last HI E1 E2) as HB.
  assert (Hf : In (idxB (fst first)) (ixs idxB es)).
  { apply (in_map (fun e : KB * (X * W) => idxB (fst e))). eapply nth_error_In; eauto. }
  assert (Hl : In (idxB (fst last)) (ixs idxB es)).
  { apply (in_map (fun e : KB * (X * W) => idxB (fst e))). eapply nth_error_In; eauto. }
  pose proof (HB _ H1). pose proof (HB _ H2). pose proof (H3 _ Hf). pose proof (H3 _ Hl).
  assert (HR : length (render es) = length es) by (unfold render; apply map_length).
  destruct (N.eqb_spec (mx - mn + 1) (N.of_nat (length (ixs idxB es)))) as [ED|ED].
  - eapply finish_emitted; auto.
    + unfold gen_inline_dense_scalar_lookup, index. rewrite E1, E2. cbn [bind]. reflexivity.
    + reflexivity.
    + split; [cbn; rewrite HR; apply Nat.eqb_refl|]. eexists. split; [reflexivity|]. rewrite eval_render.
      apply rt_dense_built. constructor; [|cbn; exact HP]. apply (dense_ok idxK idxQ eqv LQ). cbn [dm_min dm_max dm_entries e_key].
      apply dense_transport; auto.
      destruct (dense_from_sorted_spec idxB es first last HI E1 E2 ltac:(lia)) as [m [Em [Hm HD]]].
      unfold dense_from_sorted, index in Em. rewrite E1, E2 in Em. cbn [bind] in Em. injection Em as <-. exact HD.
  - destruct ((mx - mn + 1 <=? 128) || _).
    + destruct (sparse_from_sorted_spec idxB md es first last HI E1 E2) as [m [Em [Hm HS]]].
      { apply (span_sorted idxB cmpB LS es0); auto. }
      unfold sparse_from_sorted, index in Em. rewrite E1, E2 in Em. cbn [bind] in Em.
      pose proof (span_sorted idxB cmpB LS es0 first last Hspan0 E1 E2) as Hs.
      rewrite usub_ok in Em by lia. cbn [bind] in Em. rewrite uadd_ok in Em by lia. cbn [bind] in Em.
      destruct (sparse_fill md idxB _ 0 es _) as [lookup| |] eqn:EL; cbn [bind] in Em; try discriminate. injection Em as <-.
      cbn [sp_entries sp_min sp_max sp_lookup] in HS.
      eapply finish_emitted; auto.
      * unfold gen_inline_sparse_scalar_lookup, index. rewrite E1, E2. cbn [bind]. unfold e_key.
        rewrite usub_ok by lia. cbn [bind]. rewrite uadd_ok by lia. cbn [bind].
        rewrite gen_lookup_fill by lia. rewrite EL. cbn [bind]. reflexivity.
      * reflexivity.
      * split.
        -- cbn [ctor_compiles o_ctor]. rewrite HR. cbn [g_len]. rewrite !Nat.eqb_refl. cbn [andb].
           apply forallb_intro. intros i Hi. apply In_nth_error in Hi. destruct Hi as [s Hs'].
           destruct HS as [_ [_ HS]]. specialize (HS s i Hs').
           assert (i <= N.of_nat (length es)).
           { destruct (N.eqb_spec i 0); [lia|]. destruct HS as [k [Hk _]].
             assert (N.to_nat (i - 1) < length (map fst es))%nat as Hlt by (apply nth_error_Some; congruence).
             rewrite map_length in Hlt. lia. }
           assert (N.of_nat (length es) <= idxB (fst last) - idxB (fst first) + 1).
           { pose proof (incr_nth _ HI 0 (length es - 1) (idxB (fst first)) (idxB (fst last)) ltac:(lia)) as AB.
             unfold ixs in AB. rewrite !nth_error_map, E1, E2 in AB. specialize (AB eq_refl eq_refl). lia. }
           unfold fits. rewrite <- max_capacity_index. pose proof (magnitude_fits (idxB (fst last) - idxB (fst first) + 1)). lia.
        -- eexists. split; [reflexivity|]. rewrite eval_render. apply rt_sparse_built. constructor; [|cbn; exact HP].
           apply (sparse_ok idxK idxQ eqv LQ). cbn [sp_min sp_max sp_entries sp_lookup]. apply sparse_transport; auto.
    + destruct (HG {| g_len := length es; g_set := negb (em_has_value_type em) |} eq_refl) as [out [G1 [G2 G3]]].
      eapply finish_emitted; eauto.
Qed.
End Scalar.

(** * emit_ordered_collection *)
Lemma StronglySorted_in {A} (R R' : A -> A -> Prop) l : (forall x y, In x l -> In y l -> R x y -> R' x y) ->
  StronglySorted R l -> StronglySorted R' l.
Proof.
  intros H HS. induction HS as [|a l HS IH HF]; constructor.
  - apply IH. intros x y Hx Hy. apply H; right; auto.
  - rewrite Forall_forall in *. intros y Hy. apply H; auto; [left; auto|right; auto].
Qed.

Lemma map_ok_ext {M} (ops : map_ops M K V Q) (eqv' : Q -> K -> bool) m : (forall q k, eqv' q k = eqv q k) ->
  map_ok ops eqv' m -> map_ok ops eqv m.
Proof.
  intros H [a b c d]. constructor; auto. intros es E q. destruct (d es E q) as [o [D1 [D2 [D3 [D4 D5]]]]].
  exists o. split; auto. split; auto. split; auto. split; auto. destruct o.
  - destruct D5 as [e D5]. exists e. rewrite <- H. auto.
  - intros e He. rewrite <- H. auto.
Qed.

Lemma emit_ordered_emitted unit_expr (cmpB : KB -> KB -> comparison) (cmpK : K -> K -> comparison) em (entries : list (entry KB X W)) :
  lawful_ord cmpB -> lawful_comparable cmpK cmpQ ->
  (forall a b, eqK a b = is_eq (cmpK a b)) -> (forall q k, eqv q k = is_eq (cmpQ q k)) ->
  (forall a b, In a entries -> In b entries -> cmpK (rt_key evK a) (rt_key evK b) = cmpB (fst a) (fst b)) ->
  options_consistent em ->
  emitted (emit_ordered_collection unit_expr cmpB em entries) em
    (rt_input evK evV (evV unit_expr) (em_has_value_type em) entries).
Proof.
  intros LO LC HE HV HF HO. unfold emit_ordered_collection. set (es0 := clean_values unit_expr em entries).
  change (fun x y : entry KB X W => cmpB (e_key x) (e_key y)) with (fun x y : KB * (X * W) => cmpB (fst x) (fst y)).
  set (es := sorted_and_dedupped es0 (fun x y : KB * (X * W) => cmpB (fst x) (fst y))).
  pose proof (ord_fst (V := X * W) cmpB LO) as LF.
  pose proof (sorted_and_dedupped_perm _ LF es0) as HP0. pose proof (sorted_and_dedupped_sorted _ LF es0) as HS. fold es in HP0, HS.
  assert (HF0 : forall a b, In a es0 -> In b es0 -> cmpK (rt_key evK a) (rt_key evK b) = cmpB (fst a) (fst b)).
  { intros a b Ha Hb. apply clean_in in Ha, Hb. destruct Ha as [a0 [Ha [Ea1 Ea2]]], Hb as [b0 [Hb [Eb1 Eb2]]].
    rewrite <- Ea1, <- Ea2, <- Eb1, <- Eb2. auto. }
  assert (HP : Permutation (survivors (same_key eqK) (rt_input evK evV (evV unit_expr) (em_has_value_type em) entries)) (map ev1 es)).
  { rewrite <- clean_eval. apply (transport (fun a b => is_eq (cmpB a b))); [|symmetry; exact HP0]. intros a b Ha Hb.
    rewrite HE, HF0 by auto. reflexivity. }
  assert (Hin : forall e, In e es -> In e es0).
  { intros e He. eapply Permutation_in in He; [|exact HP0]. eapply survivors_incl; eauto. }
  destruct (Nat.ltb (length es) 4) eqn:E4.
  - eapply finish_emitted; auto. apply gen_scan_good; auto.
  - destruct (layout_spec es) as [out [E [Hl Hn]]]. pose proof (layout_perm es out E) as HPo.
    eapply finish_emitted; auto.
    + unfold gen_inline_eytzinger_search. rewrite E. cbn [bind]. reflexivity.
    + reflexivity.
    + split; [cbn; unfold render; rewrite map_length, Hl; apply Nat.eqb_refl|]. eexists. split; [reflexivity|].
      rewrite eval_render. apply rt_eytzinger_built. constructor.
      * apply (map_ok_ext _ (fun q k => is_eq (cmpQ q k))); [auto|]. apply (eyt_ok cmpK cmpQ LC). cbn [em_entries inline_eytzinger_map_new_raw].
        exists (map fst (map ev1 es)). rewrite !map_length. split; [auto|]. split.
        -- intros p Hp. rewrite !nth_error_map. rewrite Hn by auto. reflexivity.
        -- rewrite map_map. apply map_sorted. cbn [fst ev1]. eapply StronglySorted_in; [|exact HS].
           cbn beta. intros x y Hx Hy Hxy. rewrite HF0; auto.
      * cbn. eapply perm_trans; [exact HP|]. apply Permutation_map. auto.
Qed.
End Emission.

(** * emit_string_collection *)
Lemma emit_string_emitted {X W V} (evK : X -> bytes) (evV : W -> V) eqR cmpR cmpQ idxQ
    usort unit_expr seed (fsB fsR : N -> build_hasher) em (entries : list (entry bytes X W)) :
  sorts_by_slot usort ->
  (forall s, bh_str (fsR seed) s = bh_str (fsB seed) s) -> (forall s, bh_bytes (fsR seed) s = bh_bytes (fsB seed) s) ->
  (forall e, In e entries -> rt_key evK e = fst e) ->
  (forall e, In e entries -> N.of_nat (length (fst e)) <= usize_max) ->
  N.of_nat (length entries) <= usize_max -> options_consistent em ->
  emitted evK evV eqR cmpR bytes_eqb bytes_eqb cmpQ idxQ (string_hasher fsR)
    (emit_string_collection usort unit_expr seed fsB em entries) em
    (rt_input evK evV (evV unit_expr) (em_has_value_type em) entries).
Proof.
  intros HU HS HB HF Hb Hc HO. unfold emit_string_collection. set (es0 := clean_values unit_expr em entries).
  change (fun x y : entry bytes X W => bytes_cmp (e_key x) (e_key y)) with (fun x y : bytes * (X * W) => bytes_cmp (fst x) (fst y)).
  set (es := using_cmp es0 (fun x y : bytes * (X * W) => bytes_cmp (fst x) (fst y))).
  assert (Hin0 : forall e, In e es0 -> rt_key evK e = fst e /\ N.of_nat (length (fst e)) <= usize_max).
  { intros e He. apply (clean_in evK) in He. destruct He as [e0 [H0 [E1 E2]]]. rewrite <- E2, <- E1. auto. }
  pose proof (string_sorted_perm es0) as HP0. fold es in HP0.
  assert (HP : Permutation (survivors (same_key bytes_eqb) (rt_input evK evV (evV unit_expr) (em_has_value_type em) entries))
                 (map (ev1 evK evV) es)).
  { rewrite <- clean_eval. apply (transport evK evV bytes_eqb bytes_eqb); [|exact HP0]. intros a b Ha Hb'.
    destruct (Hin0 a Ha) as [-> _], (Hin0 b Hb') as [-> _]. reflexivity. }
  assert (Hin : forall e, In e es -> rt_key evK e = fst e /\ N.of_nat (length (fst e)) <= usize_max).
  { intros e He. apply Hin0. eapply Permutation_in in He; [|symmetry; exact HP0]. eapply survivors_incl; eauto. }
  assert (Hlen : N.of_nat (length es) <= usize_max).
  { pose proof (survivors_length_le (same_key bytes_eqb) es0) as H. rewrite (Permutation_length HP0) in H. unfold es0 in H.
    rewrite clean_length in H. exact (of_nat_le_trans _ _ _ H Hc). }
  destruct (Nat.ltb (length es) 4) eqn:E4.
  - eapply finish_emitted; auto. apply gen_scan_good; auto.
  - assert (HG : forall g hash_one (h : bytes -> N) hc, (forall s, hash_one s = Ok (h s)) -> g_len g = length es ->
      (forall s, string_hasher fsR hc s = Ok (h s)) ->
      exists out, gen_inline_hash usort g hash_one hc es = Ok out /\ o_set out = g_set g /\
        good evK evV eqR cmpR bytes_eqb bytes_eqb cmpQ idxQ (string_hasher fsR) (o_ctor out)
          (rt_input evK evV (evV unit_expr) (em_has_value_type em) entries)).
    { intros g hash_one h hc H1 H2 H3. apply (gen_hash_good evK evV eqR cmpR bytes_eqb bytes_eqb cmpQ idxQ (string_hasher fsR) usort g _ h); auto.
      intros q. exists (h q). split; auto. intros e He Hq. apply bytes_eqb_eq in Hq. destruct (Hin e He) as [E _]. rewrite E in Hq.
      subst q. reflexivity. }
    destruct (analyze_slice_keys_spec N.eqb (bh_bytes (fsB seed)) N.eqb_refl (map e_key es)) as [a [EA HA]].
    { intros s Hs. apply in_map_iff in Hs. destruct Hs as [e [<- He]]. apply Hin. auto. }
    set (g := {| g_len := length es; g_set := negb (em_has_value_type em) |}).
    destruct a as [|lo hi|lo hi|]; cbn [analysis_ok] in HA.
    + destruct (HG g (bridge_hash_one (fsB seed)) (bh_str (fsB seed)) (HcBridge seed)) as [out [G1 [G2 G3]]]; auto.
      { intros s. cbn. unfold bridge_hash_one. rewrite HS. reflexivity. }
      eapply finish_emitted; [auto| | |exact G3]; [|exact G2]. rewrite EA. cbn [bind]. exact G1.
    + destruct HA as [HA _].
      destruct (HG g (left_range_hash_one (fsB seed) lo hi) _ (HcLeft lo hi seed) (fun s => left_range_total (fsB seed) lo hi s ltac:(lia)))
        as [out [G1 [G2 G3]]]; auto.
      { intros s. cbn [string_hasher]. rewrite <- HB. apply (left_range_total (fsR seed) lo hi s). lia. }
      eapply finish_emitted; [auto| | |exact G3]; [|exact G2]. rewrite EA. cbn [bind]. exact G1.
    + destruct HA as [HA _].
      destruct (HG g (right_range_hash_one (fsB seed) lo hi) _ (HcRight lo hi seed) (fun s => right_range_total (fsB seed) lo hi s ltac:(lia)))
        as [out [G1 [G2 G3]]]; auto.
      { intros s. cbn [string_hasher]. rewrite <- HB. apply (right_range_total (fsR seed) lo hi s). lia. }
      eapply finish_emitted; [auto| | |exact G3]; [|exact G2]. rewrite EA. cbn [bind]. exact G1.
    + destruct (HG g length_hash_one (fun s => N.of_nat (length s)) HcLength) as [out [G1 [G2 G3]]]; auto.
      eapply finish_emitted; [auto| | |exact G3]; [|exact G2]. rewrite EA. cbn [bind]. exact G1.
Qed.

(** * From a successful emission *)
Lemma options_dec em : options_consistent em \/ ~ options_consistent em.
Proof.
  unfold options_consistent. destruct (em_is_static em), (em_is_mutable em), (em_alias_name em), (em_symbol_name em);
    intuition congruence.
Qed.

Lemma finish_options {X W} em len (gen : generator -> res (output X W)) x : finish em len gen = Ok (ROk x) -> options_consistent em.
Proof.
  intros E. destruct (options_dec em) as [H|H]; auto. pose proof (finish_err em len gen H). congruence.
Qed.

Lemma emit_scalar_options {KB X W} usort md unit_expr idx cmpB em (es : list (entry KB X W)) x :
  emit_scalar_collection usort md unit_expr idx cmpB em es = Ok (ROk x) -> options_consistent em.
Proof.
  unfold emit_scalar_collection. destruct (analyze_scalar_keys _ _) as [a| |]; cbn [bind]; try discriminate.
  apply finish_options.
Qed.

Lemma emitted_run {X W K V Q} (evK : X -> K) (evV : W -> V) eqR cmpR eqK (eqv : Q -> K -> bool) cmpQ idxQ hashQ r em input d out m :
  emitted evK evV eqR cmpR eqK eqv cmpQ idxQ hashQ r em input -> r = Ok (ROk (d, out)) ->
  run_ctor evK evV eqR cmpR (o_ctor out) = Ok m -> built (rt_ops eqv cmpQ idxQ hashQ) eqK eqv m input.
Proof.
  intros [d' [out' [E [_ [_ [_ [m' [R B]]]]]]]] E' R'. rewrite E in E'. injection E' as <- <-. rewrite R in R'. injection R' as <-. exact B.
Qed.

Lemma lawful_equivalent_ext {K Q} eqK (eqv eqv' : Q -> K -> bool) : (forall q k, eqv' q k = eqv q k) ->
  lawful_equivalent eqK eqv -> lawful_equivalent eqK eqv'.
Proof. intros H L q k1 k2 E. rewrite !H in *. apply L. auto. Qed.
