(** Emitted hash tables run with another hash function (see SpecTarget.v). *)
From Coq Require Import Permutation ZArith ZifyNat ZifyN ZifyBool.
From Coq Require Import String.
From Verif Require Import ModelScalar ModelMacros SpecMacros ProofsMacros.
From Verif Require Import Spec ModelUtils ModelAnalyzers ModelTables ModelMaps ModelEmit SpecEmit SpecMade SpecTarget
  ProofsBase ProofsDedup ProofsAnalyzer ProofsTable ProofsEytzinger ProofsMaps ProofsScalar ProofsSlices ProofsFz ProofsEmit ProofsMade ProofsProps ProofsEmitProps SpecAnalysis.
From Verif Require Import Prelude.

(** Lookup sees exactly the entries of the selected slot. *)
Lemma ht_find_slot {T} codes (t : hash_table T) h eq : ht_inv codes t ->
  exists o, ht_find_mut t h eq = Ok o /\ ht_find t h eq = Ok (opt_bind o (nth_error (ht_entries t))) /\
    match o with
    | Some p => exists e c, nth_error (ht_entries t) p = Some e /\ eq e = true /\ nth_error codes p = Some c /\
        c mod N.of_nat (length (ht_slots t)) = h mod N.of_nat (length (ht_slots t))
    | None => forall p e c, nth_error (ht_entries t) p = Some e -> nth_error codes p = Some c ->
        c mod N.of_nat (length (ht_slots t)) = h mod N.of_nat (length (ht_slots t)) -> eq e = false
    end.
Proof.
  intros [Hl [k [Hs [Hm Hinv]]]]. unfold ht_find, ht_find_mut. rewrite Hm, land_mask, Hs, N2Nat.id.
  assert (Hlt : h mod 2 ^ k < 2 ^ k) by (apply N.mod_lt, pow2_nz).
  destruct (Hinv _ Hlt) as [[a b] [H1 [H2 [H3 H4]]]]. cbn [fst snd] in *.
  unfold get_unchecked. rewrite H1. cbn [bind]. unfold slice_unchecked. rewrite Hl in H3.
  destruct (Nat.leb_spec (N.to_nat a) (N.to_nat b)); [|lia].
  destruct (Nat.leb_spec (N.to_nat b) (length (ht_entries t))); [|lia]. cbn [andb bind].
  pose proof (scan_slot_both eq (firstn (N.to_nat b - N.to_nat a) (skipn (N.to_nat a) (ht_entries t))) (N.to_nat a)) as S.
  destruct (scan_slot_mut eq (N.to_nat a) (firstn (N.to_nat b - N.to_nat a) (skipn (N.to_nat a) (ht_entries t)))) as [p|].
  - destruct S as [i [e [-> [Hi [He Hf]]]]]. exists (Some (N.to_nat a + i)%nat). split; [reflexivity|].
    rewrite nth_error_firstn in Hi. destruct (Nat.ltb_spec i (N.to_nat b - N.to_nat a)); [|discriminate].
    rewrite nth_error_skipn in Hi. cbn [opt_bind]. rewrite Hi, Hf. split; [reflexivity|].
    assert (HC : (N.to_nat a + i < length codes)%nat) by (rewrite Hl; apply nth_error_Some; congruence).
    destruct (nth_error codes (N.to_nat a + i)) as [c|] eqn:Ec; [|apply nth_error_None in Ec; lia].
    exists e, c. repeat split; auto. apply (H4 _ c Ec). lia.
  - destruct S as [Hn Hall]. exists None. split; [reflexivity|]. rewrite Hn. split; [reflexivity|].
    intros p e c Hp Hc Ec. apply Hall. apply (H4 p c Hc) in Ec.
    apply (nth_error_In _ (p - N.to_nat a)). rewrite nth_error_firstn.
    destruct (Nat.ltb_spec (p - N.to_nat a) (N.to_nat b - N.to_nat a)); [|lia].
    rewrite nth_error_skipn. replace (N.to_nat a + (p - N.to_nat a))%nat with p by lia. exact Hp.
Qed.

Lemma nc_find_slot {T U} codes (t : hash_table T) (es : list U) h eq : ht_inv codes t -> Forall tight (ht_slots t) ->
  ht_has_collisions t = false -> length es = length (ht_entries t) ->
  let u := nc_new_raw (map (fun s => if slot_is_empty s then 0 else fst s + 1) (ht_slots t)) es in
  exists o, nc_find_mut u h eq = Ok o /\ nc_find u h eq = Ok (opt_bind o (nth_error es)) /\
    match o with
    | Some p => exists e c, nth_error es p = Some e /\ eq e = true /\ nth_error codes p = Some c /\
        c mod N.of_nat (length (ht_slots t)) = h mod N.of_nat (length (ht_slots t))
    | None => forall p e c, nth_error es p = Some e -> nth_error codes p = Some c ->
        c mod N.of_nat (length (ht_slots t)) = h mod N.of_nat (length (ht_slots t)) -> eq e = false
    end.
Proof.
  intros [Hl [k [Hs [Hm Hi]]]] HT HC He u. unfold u, nc_find, nc_find_mut. cbn [nc_slots nc_mask nc_entries nc_new_raw].
  rewrite map_length, Hs, N2Nat.id, land_mask.
  destruct (Hi (h mod 2 ^ k)) as [[a b] [A1 [A2 [A3 A4]]]]; [apply N.mod_lt; apply pow2_nz|]. cbn [fst snd] in *.
  unfold get_unchecked. rewrite nth_error_map, A1. cbn [option_map bind]. apply nth_error_In in A1.
  assert (HC' : b - a <= 1).
  { unfold ht_has_collisions in HC. rewrite existsb_false_forall in HC. specialize (HC _ A1). cbn in HC. lia. }
  rewrite Forall_forall in HT. specialize (HT _ A1). unfold slot_is_empty. cbn [fst snd].
  destruct (N.eqb_spec b 0) as [Hb|Hb].
  - exists None. cbn. split; [reflexivity|]. split; [reflexivity|]. intros p e c Hp Hc Ec. apply (A4 p c Hc) in Ec. lia.
  - assert (Hab : a < b) by (destruct HT as [E|E]; cbn in E; [injection E; lia|auto]).
    destruct (N.ltb_spec 0 (a + 1)); [|lia]. replace (N.to_nat (a + 1 - 1)) with (N.to_nat a) by lia.
    assert (Hp : (N.to_nat a < length es)%nat) by lia.
    destruct (nth_error es (N.to_nat a)) as [e0|] eqn:Ep; [|apply nth_error_None in Ep; lia].
    assert (Hpc : (N.to_nat a < length codes)%nat) by lia.
    destruct (nth_error codes (N.to_nat a)) as [c0|] eqn:Ec0; [|apply nth_error_None in Ec0; lia].
    cbn [bind]. destruct (eq e0) eqn:Ee.
    + exists (Some (N.to_nat a)). cbn [opt_bind]. rewrite Ep. split; [reflexivity|]. split; [reflexivity|].
      exists e0, c0. repeat split; auto. apply (A4 _ c0 Ec0). lia.
    + exists None. cbn. split; [reflexivity|]. split; [reflexivity|]. intros p e c Hpe Hc Ec. apply (A4 p c Hc) in Ec.
      assert (p = N.to_nat a) by lia. subst p. rewrite Ep in Hpe. injection Hpe as <-. exact Ee.
Qed.

(** The queries of a map that finds only the entries at the positions [at_]. *)
Definition looks_at {M K V Q} (ops : map_ops M K V Q) (eqv : Q -> K -> bool) (m : M) (q : Q) (at_ : nat -> Prop) : Prop :=
  exists o, mo_get_mut ops m q = Ok o /\
    mo_get_key_value ops m q = Ok (opt_bind o (nth_error (mo_entries ops m))) /\
    mo_get ops m q = Ok (option_map snd (opt_bind o (nth_error (mo_entries ops m)))) /\
    mo_contains_key ops m q = Ok (is_some o) /\
    match o with
    | Some p => exists e, nth_error (mo_entries ops m) p = Some e /\ eqv q (fst e) = true /\ at_ p
    | None => forall p e, nth_error (mo_entries ops m) p = Some e -> at_ p -> eqv q (fst e) = false
    end.

Lemma looks_answers {M K V Q} (ops : map_ops M K V Q) eqK (eqv : Q -> K -> bool) (ok : Q -> bool) (m : M) input (at_ : Q -> nat -> Prop) :
  lawful_eq eqK -> lawful_equivalent eqK eqv ->
  Permutation (survivors (same_key eqK) input) (mo_entries ops m) ->
  (forall q, looks_at ops eqv m q (at_ q)) ->
  (forall q p e, nth_error (mo_entries ops m) p = Some e -> eqv q (fst e) = true -> (at_ q p <-> ok q = true)) ->
  answers_where ops eqK eqv ok m input.
Proof.
  intros LE LV HP HL HA.
  assert (HD : distinct (same_key eqK) (mo_entries ops m)).
  { eapply distinct_perm; [apply (eq_sym_law _ (lawful_same_key eqK LE))|exact HP|apply survivors_distinct]. }
  assert (G : forall q, exists o, mo_get_mut ops m q = Ok o /\
    opt_bind o (nth_error (mo_entries ops m)) = (if ok q then spec_entry eqv input q else None) /\
    mo_get_key_value ops m q = Ok (if ok q then spec_entry eqv input q else None) /\
    mo_get ops m q = Ok (if ok q then spec_get eqv input q else None) /\
    mo_contains_key ops m q = Ok (if ok q then is_some (spec_entry eqv input q) else false)).
  { intros q. destruct (HL q) as [o [E1 [E2 [E3 [E4 E5]]]]]. exists o. split; [exact E1|].
    pose proof (survivors_lookup eqK eqv LE LV input (mo_entries ops m) q HP) as EL.
    assert (E : opt_bind o (nth_error (mo_entries ops m)) = (if ok q then spec_entry eqv input q else None) /\
                is_some o = (if ok q then is_some (spec_entry eqv input q) else false)).
    { rewrite <- EL. destruct o as [p|].
      - destruct E5 as [e [Hn [He Ha]]]. cbn [opt_bind]. rewrite Hn. apply (HA q p e Hn He) in Ha. rewrite Ha.
        rewrite (last_match_unique (same_key eqK) _ _ e); auto.
        + apply (eq_sym_law _ (lawful_same_key eqK LE)).
        + apply (match_same eqK eqv LV).
        + eapply nth_error_In; eauto.
      - cbn [opt_bind is_some]. destruct (ok q) eqn:Eo; [|auto].
        assert (E : last_match (fun e => eqv q (fst e)) (mo_entries ops m) = None).
        { apply last_match_None. intros e He. destruct (eqv q (fst e)) eqn:Ee; [|reflexivity]. apply In_nth_error in He. destruct He as [p Hp].
          rewrite <- Ee. apply (E5 p e Hp). apply (HA q p e Hp Ee). exact Eo. }
        rewrite E. auto. }
    destruct E as [Ea Eb]. rewrite Ea in E2, E3. rewrite Eb in E4. split; [exact Ea|]. split; [exact E2|]. split; [|exact E4].
    rewrite E3. destruct (ok q); reflexivity. }
  constructor.
  - intros q. destruct (G q) as [o H]. apply H.
  - intros q. destruct (G q) as [o H]. apply H.
  - intros q. destruct (G q) as [o H]. apply H.
  - intros q. destruct (G q) as [o [H1 [H2 _]]]. exists o. split; [exact H1|]. destruct o; exact H2.
  - intros e. pose proof (survivors_iff (same_key eqK) input e (fun a => eq_refl_law _ LE (fst a))) as HS. unfold same_key in HS at 2.
    rewrite <- HS. split; intros H; [eapply Permutation_in in H; [exact H|symmetry; auto]|eapply Permutation_in; eauto].
  - unfold map_len, key_count. symmetry. apply Permutation_length. exact HP.
Qed.

Lemma answers_where_all {M K V Q} (ops : map_ops M K V Q) eqK (eqv : Q -> K -> bool) m input :
  answers ops eqK eqv m input -> answers_where ops eqK eqv (fun _ => true) m input.
Proof. intros [a b c d e f]. constructor; auto. Qed.

Section Emission.
Context {KB X W K V Q : Type} (evK : X -> K) (evV : W -> V) (eqR : K -> K -> bool) (cmpR : K -> K -> comparison)
  (eqK : K -> K -> bool) (eqv : Q -> K -> bool) (cmpQ : Q -> K -> comparison) (idxQ : Q -> N)
  (hB : hasher_code -> KB -> res N) (hR : hasher_code -> Q -> res N).
Hypothesis LE : lawful_eq eqK.
Hypothesis LV : lawful_equivalent eqK eqv.
Notation ops := (rt_ops (V := V) eqv cmpQ idxQ hR).

Definition good_where (entries : list (entry KB X W)) (c : ctor X W) (input : list (K * V)) : Prop :=
  ctor_compiles c = true /\ exists m, run_ctor evK evV eqR cmpR c = Ok m /\
    answers_where ops eqK eqv (slot_found hB hR evK eqv entries c) m input.

Lemma gen_scan_where g (es entries : list (entry KB X W)) input : g_len g = length es -> Permutation (survivors (same_key eqK) input) (map (ev1 evK evV) es) ->
  good_where entries (o_ctor (gen_inline_scan g es)) input.
Proof.
  intros Hg HP. destruct (gen_scan_good evK evV eqR cmpR eqK eqv cmpQ idxQ hR g es input Hg HP) as [G1 [m [G2 G3]]].
  split; [exact G1|]. exists m. split; [exact G2|]. apply answers_where_all. apply built_answers; auto.
Qed.

Lemma gen_hash_where (usort : list (N * entry KB X W) -> list (N * entry KB X W)) g hash_one (h : KB -> N) hc (es entries : list (entry KB X W)) input :
  sorts_by_slot usort -> (forall e, In e es -> hash_one (fst e) = Ok (h (fst e))) ->
  g_len g = length es -> N.of_nat (length es) <= usize_max ->
  (forall q, exists c, hR hc q = Ok c) -> (forall e, In e entries -> hB hc (fst e) = Ok (h (fst e))) ->
  (* [entries] is what [es] is left of *)
  (forall e, In e es -> exists e0, In e0 entries /\ fst e0 = fst e /\ rt_key evK e0 = rt_key evK e) ->
  (forall q e e0, In e es -> In e0 entries -> eqv q (rt_key evK e) = true -> eqv q (rt_key evK e0) = true -> h (fst e0) = h (fst e)) ->
  Permutation (survivors (same_key eqK) input) (map (ev1 evK evV) es) ->
  exists out, gen_inline_hash usort g hash_one hc es = Ok out /\ o_set out = g_set g /\ good_where entries (o_ctor out) input.
Proof.
  intros HU Hh Hg Hc HQ HBt HF HS HP.
  (* that the printed constructor compiles does not depend on the target: take a target where no query matches *)
  destruct (gen_hash_good evK evV eqR cmpR eqK (fun (_ : unit) _ => false) (fun _ _ => Eq) (fun _ => 0) (fun _ _ => Ok 0) usort g hash_one h hc es input
    HU Hh Hg Hc) as [out [G1 [G2 [G3 _]]]]; [intros q; exists 0; split; [reflexivity|discriminate]|exact HP|].
  exists out. split; [exact G1|]. split; [exact G2|]. split; [exact G3|]. clear G2 G3.
  unfold gen_inline_hash in G1. unfold e_key in G1.
  destruct (ht_new_spec usort Large es (fun x : entry KB X W => hash_one (fst x)) (fun e : entry KB X W => h (fst e)) HU Hh Hc) as [t [E [P I]]].
  pose proof (ht_new_tight _ _ _ _ _ HU E) as HT. rewrite E in G1. cbn [bind unwrap] in G1. injection G1 as <-. cbn [o_ctor].
  set (codes := map (fun e : entry KB X W => h (fst e)) (ht_entries t)) in *.
  assert (HP' : Permutation (survivors (same_key eqK) input) (map (ev1 evK evV) (ht_entries t)))
    by (eapply perm_trans; [exact HP|apply Permutation_map; auto]).
  set (n := length (ht_slots t)).
  (* an entry is found if its code and that of the query agree modulo the number of slots *)
  set (at_ := fun (q : Q) (p : nat) => exists c cq, nth_error codes p = Some c /\ hR hc q = Ok cq /\ c mod N.of_nat n = cq mod N.of_nat n).
  assert (HO : forall q p e, nth_error (map (ev1 evK evV) (ht_entries t)) p = Some e -> eqv q (fst e) = true ->
    (at_ q p <-> forallb (fun e => implb (eqv q (rt_key evK e)) (same_slot n (hB hc (fst e)) (hR hc q))) entries = true)).
  { intros q p e Hp He. rewrite nth_error_map in Hp. destruct (nth_error (ht_entries t) p) as [e1|] eqn:Ep; [|discriminate].
    cbn in Hp. injection Hp as <-. cbn [ev1 fst] in He.
    assert (He1 : In e1 es) by (eapply Permutation_in; [symmetry; exact P|]; eapply nth_error_In; eauto).
    assert (Ec : nth_error codes p = Some (h (fst e1))) by (unfold codes; rewrite nth_error_map, Ep; reflexivity).
    destruct (HQ q) as [cq Ecq]. rewrite forallb_forall. split.
    - intros [c [cq' [C1 [C2 C3]]]] e0 He0. rewrite Ec in C1. injection C1 as <-. rewrite Ecq in C2. injection C2 as <-.
      destruct (eqv q (rt_key evK e0)) eqn:Eq; [|reflexivity]. cbn [implb]. rewrite (HBt e0 He0), Ecq. cbn [same_slot].
      rewrite (HS q e1 e0 He1 He0 He Eq). apply N.eqb_eq. exact C3.
    - intros H. destruct (HF e1 He1) as [e0 [H0 [H1 H2]]]. specialize (H e0 H0). rewrite H2, He in H. cbn [implb] in H.
      rewrite (HBt e0 H0), Ecq, H1 in H. cbn [same_slot] in H. apply N.eqb_eq in H. exists (h (fst e1)), cq. auto. }
  destruct (ht_has_collisions t) eqn:EC.
  - eexists. split; [reflexivity|]. rewrite eval_render. apply (looks_answers _ _ _ _ _ _ at_ LE LV); [exact HP'| |exact HO].
    intros q. destruct (HQ q) as [cq Ecq].
    set (u := iht_new_raw (ht_slots t) (map (ev1 evK evV) (ht_entries t))).
    assert (I' : ht_inv codes u).
    { destruct I as [Hl [k [Hs [Hm Hi]]]]. split; [unfold codes, u; cbn; rewrite !map_length; reflexivity|].
      exists k. cbn [u iht_new_raw ht_slots ht_mask]. split; [exact Hs|]. split; [rewrite Hs, N2Nat.id; reflexivity|exact Hi]. }
    destruct (ht_find_slot codes u cq (fun entry => eqv q (fst entry)) I') as [o [F1 [F2 F3]]].
    exists o. cbn [rt_ops mo_get_mut mo_get mo_get_key_value mo_contains_key mo_entries].
    unfold hash_get_mut, hash_contains_key, hash_get, hash_get_key_value. cbn [hm_table]. fold u. rewrite Ecq. cbn [bind]. rewrite F1, F2. cbn [fmap bind].
    split; [reflexivity|]. split; [|split; [|split]].
    + destruct (opt_bind o (nth_error (ht_entries u))) as [[k v]|]; reflexivity.
    + destruct (opt_bind o (nth_error (ht_entries u))) as [[k v]|]; reflexivity.
    + destruct o as [p|]; [|reflexivity]. destruct F3 as [e [c [N1 _]]]. cbn [opt_bind]. rewrite N1. reflexivity.
    + destruct o as [p|].
      * destruct F3 as [e [c [N1 [N2 [N3 N4]]]]]. exists e. split; [exact N1|]. split; [exact N2|]. exists c, cq. auto.
      * intros p e Hp [c [cq' [C1 [C2 C3]]]]. rewrite Ecq in C2. injection C2 as <-. exact (F3 p e c Hp C1 C3).
  - eexists. split; [reflexivity|]. rewrite eval_render.
    apply (looks_answers _ _ _ _ _ _ at_ LE LV); [exact HP'| |exact HO].
    intros q. destruct (HQ q) as [cq Ecq].
    assert (HL : length (map (ev1 evK evV) (ht_entries t)) = length (ht_entries t)) by apply map_length.
    destruct (nc_find_slot codes t (map (ev1 evK evV) (ht_entries t)) cq (fun entry => eqv q (fst entry)) I HT EC HL) as [o [F1 [F2 F3]]].
    set (u := nc_new_raw _ _) in *.
    exists o. cbn [rt_ops mo_get_mut mo_get mo_get_key_value mo_contains_key mo_entries].
    unfold nc_get_mut, nc_contains_key, nc_get, nc_get_key_value. cbn [ncm_table]. rewrite Ecq. cbn [bind]. rewrite F1, F2. cbn [fmap bind].
    change (nc_entries u) with (map (ev1 evK evV) (ht_entries t)).
    split; [reflexivity|]. split; [|split; [|split]].
    + destruct (opt_bind o _) as [[k v]|]; reflexivity.
    + destruct (opt_bind o _) as [[k v]|]; reflexivity.
    + destruct o as [p|]; [|reflexivity]. destruct F3 as [e [c [N1 _]]]. cbn [opt_bind]. rewrite N1. reflexivity.
    + destruct o as [p|].
      * destruct F3 as [e [c [N1 [N2 [N3 N4]]]]]. exists e. split; [exact N1|]. split; [exact N2|]. exists c, cq. auto.
      * intros p e Hp [c [cq' [C1 [C2 C3]]]]. rewrite Ecq in C2. injection C2 as <-. exact (F3 p e c Hp C1 C3).
Qed.

Lemma finish_where em len gen out entries input : options_consistent em ->
  gen {| g_len := len; g_set := negb (em_has_value_type em) |} = Ok out -> o_set out = negb (em_has_value_type em) ->
  good_where entries (o_ctor out) input ->
  emits_where (finish em len gen) em evK evV eqR cmpR ops eqK eqv (slot_found hB hR evK eqv entries) input.
Proof.
  intros H E Hs [G [m [R A]]]. destruct (finish_ok em len gen out H E) as [d [D1 D2]]. exists d, out, m. auto 10.
Qed.
End Emission.

Lemma emit_hash_where {KB X W K V Q} (evK : X -> K) (evV : W -> V) eqR cmpR eqK (eqv : Q -> K -> bool) cmpQ idxQ
    usort unit_expr seed (hashB : N -> KB -> N) (hashR : N -> Q -> N) eqB em (entries : list (entry KB X W)) :
  sorts_by_slot usort -> lawful_eq eqB -> lawful_hash eqB (hashB seed) -> lawful_eq eqK -> lawful_equivalent eqK eqv ->
  (forall a b, In a entries -> In b entries -> eqK (rt_key evK a) (rt_key evK b) = eqB (fst a) (fst b)) ->
  N.of_nat (length entries) <= usize_max -> options_consistent em ->
  emits_where (emit_hash_collection usort unit_expr seed hashB eqB em entries) em evK evV eqR cmpR (rt_ops eqv cmpQ idxQ (general_hasher hashR)) eqK eqv
    (slot_found (general_hasher hashB) (general_hasher hashR) evK eqv entries)
    (rt_input evK evV (evV unit_expr) (em_has_value_type em) entries).
Proof.
  intros HU LB LH LE LV HF Hc HO. unfold emit_hash_collection. set (es0 := clean_values unit_expr em entries).
  rewrite (using_hash_survivors (fun x : entry KB X W => hashB seed (e_key x)) (fun x y => eqB (e_key x) (e_key y))).
  2: exact (lawful_same_key eqB LB). 2: intros x y; apply LH.
  change (fun x y : entry KB X W => eqB (e_key x) (e_key y)) with (@same_key KB (X * W) eqB).
  set (es := survivors (same_key eqB) es0).
  assert (HP : Permutation (survivors (same_key eqK) (rt_input evK evV (evV unit_expr) (em_has_value_type em) entries)) (map (ev1 evK evV) es)).
  { rewrite <- clean_eval. apply (transport evK evV eqK eqB); [|apply Permutation_refl]. intros a b Ha Hb.
    apply (clean_in evK) in Ha, Hb. destruct Ha as [a0 [Ha [Ea1 Ea2]]], Hb as [b0 [Hb [Eb1 Eb2]]].
    rewrite <- Ea1, <- Ea2, <- Eb1, <- Eb2. auto. }
  assert (Hin : forall e, In e es -> exists e0, In e0 entries /\ fst e0 = fst e /\ rt_key evK e0 = rt_key evK e).
  { intros e He. apply survivors_incl in He. apply (clean_in evK) in He. auto. }
  assert (Hlen : N.of_nat (length es) <= usize_max).
  { pose proof (survivors_length_le (same_key eqB) es0) as H. unfold es0 in H.
    rewrite clean_length in H. exact (of_nat_le_trans _ _ _ H Hc). }
  destruct (Nat.ltb (length es) 4) eqn:E4.
  - eapply finish_where; auto. apply gen_scan_where; auto.
  - destruct (gen_hash_where evK evV eqR cmpR eqK eqv cmpQ idxQ (general_hasher hashB) (general_hasher hashR) LE LV usort
        {| g_len := length es; g_set := negb (em_has_value_type em) |}
        (fun k => Ok (hashB seed k)) (hashB seed) (HcBridge seed) es entries
        (rt_input evK evV (evV unit_expr) (em_has_value_type em) entries) HU) as [out [G1 [G2 G3]]]; auto.
    { intros q. exists (hashR seed q). reflexivity. }
    { intros q e e0 He He0 H1 H2. destruct (Hin e He) as [e1 [I1 [I2 I3]]]. rewrite <- I2. apply LH. rewrite <- (HF e0 e1 He0 I1), I3.
      rewrite <- (LV q _ _ H2). exact H1. }
    eapply finish_where; eauto.
Qed.

Lemma emit_string_entries {X W V} (evK : X -> bytes) (evV : W -> V) eqR cmpR cmpQ idxQ
    usort unit_expr seed (fsB fsR : N -> build_hasher) em (entries : list (entry bytes X W)) :
  sorts_by_slot usort ->
  (forall e, In e entries -> rt_key evK e = fst e) ->
  (forall e, In e entries -> N.of_nat (length (fst e)) <= usize_max) ->
  N.of_nat (length entries) <= usize_max -> options_consistent em ->
  emits_where (emit_string_collection usort unit_expr seed fsB em entries) em evK evV eqR cmpR (rt_ops bytes_eqb cmpQ idxQ (string_hasher fsR)) bytes_eqb bytes_eqb
    (slot_found (string_hasher fsB) (string_hasher fsR) evK bytes_eqb entries)
    (rt_input evK evV (evV unit_expr) (em_has_value_type em) entries).
Proof.
  intros HU HF Hb Hc HO. unfold emit_string_collection. set (es0 := clean_values unit_expr em entries).
  change (fun x y : entry bytes X W => bytes_cmp (e_key x) (e_key y)) with (fun x y : bytes * (X * W) => bytes_cmp (fst x) (fst y)).
  set (es := using_cmp es0 (fun x y : bytes * (X * W) => bytes_cmp (fst x) (fst y))).
  assert (Hin0 : forall e, In e es0 -> exists e0, In e0 entries /\ fst e0 = fst e /\ rt_key evK e0 = rt_key evK e).
  { intros e He. apply (clean_in evK) in He. exact He. }
  assert (Hrt0 : forall e, In e es0 -> rt_key evK e = fst e).
  { intros e He. destruct (Hin0 e He) as [e0 [H0 [E1 E2]]]. rewrite <- E2, <- E1. auto. }
  pose proof (string_sorted_perm es0) as HP0. fold es in HP0.
  assert (HP : Permutation (survivors (same_key bytes_eqb) (rt_input evK evV (evV unit_expr) (em_has_value_type em) entries))
                 (map (ev1 evK evV) es)).
  { rewrite <- clean_eval. apply (transport evK evV bytes_eqb bytes_eqb); [|exact HP0]. intros a b Ha Hb'.
    rewrite (Hrt0 a Ha), (Hrt0 b Hb'). reflexivity. }
  assert (Hes : forall e, In e es -> In e es0).
  { intros e He. eapply Permutation_in in He; [|symmetry; exact HP0]. eapply survivors_incl; eauto. }
  assert (Hlen : N.of_nat (length es) <= usize_max).
  { pose proof (survivors_length_le (same_key bytes_eqb) es0) as H. rewrite (Permutation_length HP0) in H. unfold es0 in H.
    rewrite clean_length in H. exact (of_nat_le_trans _ _ _ H Hc). }
  destruct (Nat.ltb (length es) 4) eqn:E4.
  - eapply finish_where; auto. apply gen_scan_where; auto; [apply bytes_eqb_lawful|apply bytes_eqb_equivalent].
  - assert (HG : forall g hash_one (h : bytes -> N) hc, (forall s, hash_one s = Ok (h s)) -> g_len g = length es ->
      (forall s, string_hasher fsB hc s = Ok (h s)) -> (forall s, exists c, string_hasher fsR hc s = Ok c) ->
      exists out, gen_inline_hash usort g hash_one hc es = Ok out /\ o_set out = g_set g /\
        good_where evK evV eqR cmpR bytes_eqb bytes_eqb cmpQ idxQ (string_hasher fsB) (string_hasher fsR) entries (o_ctor out)
          (rt_input evK evV (evV unit_expr) (em_has_value_type em) entries)).
    { intros g hash_one h hc H1 H2 H3 H4.
      apply (gen_hash_where evK evV eqR cmpR bytes_eqb bytes_eqb cmpQ idxQ (string_hasher fsB) (string_hasher fsR) bytes_eqb_lawful bytes_eqb_equivalent
        usort g hash_one h); auto.
      intros q e e0 He He0 Q1 Q2. apply bytes_eqb_eq in Q1, Q2. rewrite (Hrt0 e (Hes e He)) in Q1. rewrite (HF e0 He0) in Q2. congruence. }
    destruct (analyze_slice_keys_spec N.eqb (bh_bytes (fsB seed)) N.eqb_refl (map e_key es)) as [a [EA HA]].
    { intros s Hs. apply in_map_iff in Hs. destruct Hs as [e [<- He]]. destruct (Hin0 e (Hes e He)) as [e0 [H0 [E1 _]]]. unfold e_key. rewrite <- E1. auto. }
    set (g := {| g_len := length es; g_set := negb (em_has_value_type em) |}).
    destruct a as [|lo hi|lo hi|]; cbn [analysis_ok] in HA.
    + destruct (HG g (bridge_hash_one (fsB seed)) (bh_str (fsB seed)) (HcBridge seed)) as [out [G1 [G2 G3]]]; auto.
      { intros s. eexists. reflexivity. }
      eapply finish_where; [auto| | |exact G3]; [|exact G2]. rewrite EA. cbn [bind]. exact G1.
    + destruct HA as [HA _].
      destruct (HG g (left_range_hash_one (fsB seed) lo hi) _ (HcLeft lo hi seed) (fun s => left_range_total (fsB seed) lo hi s ltac:(lia)))
        as [out [G1 [G2 G3]]]; auto.
      { intros s. cbn [string_hasher]. apply (left_range_total (fsB seed) lo hi s). lia. }
      { intros s. cbn [string_hasher]. eexists. apply (left_range_total (fsR seed) lo hi s). lia. }
      eapply finish_where; [auto| | |exact G3]; [|exact G2]. rewrite EA. cbn [bind]. exact G1.
    + destruct HA as [HA _].
      destruct (HG g (right_range_hash_one (fsB seed) lo hi) _ (HcRight lo hi seed) (fun s => right_range_total (fsB seed) lo hi s ltac:(lia)))
        as [out [G1 [G2 G3]]]; auto.
      { intros s. cbn [string_hasher]. apply (right_range_total (fsB seed) lo hi s). lia. }
      { intros s. cbn [string_hasher]. eexists. apply (right_range_total (fsR seed) lo hi s). lia. }
      eapply finish_where; [auto| | |exact G3]; [|exact G2]. rewrite EA. cbn [bind]. exact G1.
    + destruct (HG g length_hash_one (fun s => N.of_nat (length s)) HcLength) as [out [G1 [G2 G3]]]; auto.
      { intros s. eexists. reflexivity. }
      eapply finish_where; [auto| | |exact G3]; [|exact G2]. rewrite EA. cbn [bind]. exact G1.
Qed.

(** [ok] matters only for queries that match something. *)
Lemma answers_where_ext {M K V Q} (ops : map_ops M K V Q) eqK (eqv : Q -> K -> bool) (ok ok' : Q -> bool) m input :
  (forall q e, In e input -> eqv q (fst e) = true -> ok q = ok' q) ->
  answers_where ops eqK eqv ok m input -> answers_where ops eqK eqv ok' m input.
Proof.
  intros H [a b c d e f].
  assert (G : forall q, (if ok q then spec_entry eqv input q else None) = if ok' q then spec_entry eqv input q else None).
  { intros q. destruct (spec_entry eqv input q) as [x|] eqn:E; [|destruct (ok q), (ok' q); reflexivity].
    unfold spec_entry in E. apply last_match_Some in E. destruct E as [E1 E2]. rewrite (H q x E1 E2). reflexivity. }
  assert (G' : forall q, (if ok q then spec_get eqv input q else None) = if ok' q then spec_get eqv input q else None).
  { intros q. specialize (G q). unfold spec_get. destruct (ok q), (ok' q), (spec_entry eqv input q); cbn in *; congruence. }
  assert (G2 : forall q, (if ok q then is_some (spec_entry eqv input q) else false) = if ok' q then is_some (spec_entry eqv input q) else false).
  { intros q. specialize (G q). destruct (ok q), (ok' q), (spec_entry eqv input q); cbn in *; congruence. }
  constructor; auto.
  - intros q. rewrite <- G'. apply a.
  - intros q. rewrite <- G. apply b.
  - intros q. rewrite <- G2. apply c.
  - intros q. rewrite <- G. apply d.
Qed.

Lemma answers_where_true {M K V Q} (ops : map_ops M K V Q) eqK (eqv : Q -> K -> bool) (ok : Q -> bool) m input :
  (forall q e, In e input -> eqv q (fst e) = true -> ok q = true) ->
  answers_where ops eqK eqv ok m input -> answers ops eqK eqv m input.
Proof. intros H A. apply (answers_where_ext _ _ _ ok (fun _ => true)) in A; auto. destruct A as [a b c d e f]. constructor; auto. Qed.

(** Every key is found exactly if every key selects its slot. *)
Lemma answers_where_iff {M K V Q} (ops : map_ops M K V Q) eqK (eqv : Q -> K -> bool) (ok : Q -> bool) m input :
  answers_where ops eqK eqv ok m input ->
  (answers ops eqK eqv m input <-> forall q e, In e input -> eqv q (fst e) = true -> ok q = true).
Proof.
  intros A. split; [|intros H; eapply answers_where_true; eauto].
  intros B q e He Hq. destruct (ok q) eqn:E; [reflexivity|]. exfalso.
  pose proof (where_get_key_value _ _ _ _ _ _ A q) as W. rewrite E, (answers_get_key_value _ _ _ _ _ B q) in W. injection W as W.
  unfold spec_entry in W. apply last_match_None with (x := e) in W; congruence.
Qed.

Lemma emit_string_where {X W V} (evK : X -> bytes) (evV : W -> V) eqR cmpR cmpQ idxQ
    usort unit_expr seed (fsB fsR : N -> build_hasher) em (entries : list (entry bytes X W)) :
  sorts_by_slot usort ->
  (forall e, In e entries -> rt_key evK e = fst e) ->
  (forall e, In e entries -> N.of_nat (length (fst e)) <= usize_max) ->
  N.of_nat (length entries) <= usize_max -> options_consistent em ->
  emits_where (emit_string_collection usort unit_expr seed fsB em entries) em evK evV eqR cmpR (rt_ops bytes_eqb cmpQ idxQ (string_hasher fsR))
    bytes_eqb bytes_eqb (string_slot_found fsB fsR) (rt_input evK evV (evV unit_expr) (em_has_value_type em) entries).
Proof.
  intros HU HF Hb Hc HO.
  destruct (emit_string_entries evK evV eqR cmpR cmpQ idxQ usort unit_expr seed fsB fsR em entries HU HF Hb Hc HO)
    as [d [out [m [E1 [E2 [E3 [E4 [E5 A]]]]]]]].
  exists d, out, m. repeat (split; [assumption|]). revert A. apply answers_where_ext.
  intros q e He Hq. unfold rt_input in He. apply in_map_iff in He. destruct He as [e0 [<- He0]]. cbn [fst] in Hq.
  assert (G : forall n h, forallb (fun e => implb (bytes_eqb q (rt_key evK e)) (same_slot n (string_hasher fsB h (fst e)) (string_hasher fsR h q))) entries =
    same_slot n (string_hasher fsB h q) (string_hasher fsR h q)).
  { intros n h. apply Bool.eq_iff_eq_true. rewrite forallb_forall. split.
    - intros H. specialize (H e0 He0). rewrite Hq in H. apply bytes_eqb_eq in Hq. rewrite (HF e0 He0) in Hq. rewrite <- Hq in H. exact H.
    - intros H e1 He1. destruct (bytes_eqb q (rt_key evK e1)) eqn:Q1; [|reflexivity]. apply bytes_eqb_eq in Q1. rewrite (HF e1 He1) in Q1.
      rewrite <- Q1. exact H. }
  destruct (o_ctor out); try reflexivity; apply G.
Qed.

(** * Macros over string literals *)
Lemma strings_where {X W} (usort : forall T : Type, list (N * T) -> list (N * T)) md (unit_expr : W) seed fixed_state hash_i32
    (HU : forall T, sorts_by_slot (usort T)) {V} is_map (input : macro_input (X := X) (W := W)) mk fsR (evK : expr X -> bytes) (evV : W -> V)
    eqR cmpR cmpQ idxQ :
  payload input <> [] -> mk <> MkScalar -> all_strings (payload input) -> not_static_mut input -> evaluates_strings evK ->
  (forall e, In e (payload input) -> N.of_nat (List.length (evK (me_key e))) <= usize_max) ->
  N.of_nat (List.length (payload input)) <= usize_max ->
  exists d out m, fz_macro usort md unit_expr seed fixed_state hash_i32 is_map input mk = Ok (ROk (d, out)) /\
    d = macro_decl input false /\ o_set out = negb is_map /\ ctor_compiles (o_ctor out) = true /\ run_ctor evK evV eqR cmpR (o_ctor out) = Ok m /\
    answers_where (rt_ops bytes_eqb cmpQ idxQ (string_hasher fsR)) bytes_eqb bytes_eqb (string_slot_found fixed_state fsR (o_ctor out)) m
      (macro_pairs evK evV (evV unit_expr) is_map (payload input)).
Proof.
  intros NE HM HS HO [EV1 EV2] Hl Hc. set (es := payload input) in *.
  assert (A : acceptable mk es).
  { apply (kinds_acceptable mk Undecided). intros e He. rewrite (proj2 (discover_str (me_key e)) (HS e He)). cbn. exact HM. }
  assert (E : assess_keys es mk = ROk AllLiteralStrings) by (apply selection; auto).
  rewrite fz_process. fold es. rewrite (process_nonempty usort md unit_expr seed fixed_state hash_i32 _ _ _ _ NE E). unfold handle_literal_string_keys.
  assert (EK : forall e s, literal_of (me_key e) = Some (LitStr s) -> evK (me_key (X := X) (W := W) e) = s).
  { intros e s L. destruct (key_form _ _ L) as [->| ->]; rewrite ?EV2; auto. }
  rewrite (mapR_map _ (fun e => (evK (me_key e), (me_key e, entry_value unit_expr e)))).
  2:{ intros e He. destruct (HS e He) as [s L]. unfold literal_string_entry. rewrite (key_lit_literal _ _ L), (EK e s L). reflexivity. }
  set (coll := map _ es).
  assert (EP : macro_pairs evK evV (evV unit_expr) is_map es =
    rt_input evK evV (evV unit_expr) (em_has_value_type (with_const (macro_emitter is_map input) true true)) coll).
  { rewrite macro_value_type. unfold macro_pairs, rt_input, coll. rewrite map_map. apply map_ext. intros e. unfold rt_key. cbn. f_equal. unfold entry_value.
    destruct (me_value e), is_map; reflexivity. }
  rewrite EP.
  destruct (emit_string_where evK evV eqR cmpR cmpQ idxQ (usort _) unit_expr seed fixed_state fsR
    (with_const (macro_emitter is_map input) true true) coll (HU _)) as [d [out [m [E1 [E2 [E3 [E4 [E5 E6]]]]]]]].
  - intros e He. apply in_map_iff in He. destruct He as [e' [<- He]]. reflexivity.
  - intros e He. apply in_map_iff in He. destruct He as [e' [<- He]]. cbn. auto.
  - unfold coll. rewrite map_length. exact Hc.
  - apply macro_options. exact HO.
  - exists d, out, m. split; [exact E1|]. split; [apply (macro_decls is_map) in E2; exact E2|].
    rewrite macro_value_type in E3. auto.
Qed.
