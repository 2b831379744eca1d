(** Proofs of the property statements about emitted collections. *)
From Coq Require Import String Ascii.
From Verif Require Import Spec ModelUtils ModelAnalyzers ModelTables ModelMaps ModelEmit SpecEmit SpecMade
  ProofsBase ProofsDedup ProofsTable ProofsEytzinger ProofsMaps ProofsScalar ProofsFz ProofsEmit ProofsMade ProofsProps.
From Verif Require Import Prelude.
From Coq Require Import Permutation.
From Coq Require Import ZArith ZifyNat ZifyN ZifyBool.

Lemma built_answers {M K V Q} (ops : map_ops M K V Q) eqK eqv m input : lawful_eq eqK -> lawful_equivalent eqK eqv ->
  built ops eqK eqv m input -> answers ops eqK eqv m input.
Proof.
  intros LE LV B. constructor.
  - intros q. apply (built_get ops eqK eqv LE LV m input B).
  - intros q. apply (built_gkv ops eqK eqv LE LV m input B).
  - intros q. apply (built_contains ops eqK eqv LE LV m input B).
  - intros q. destruct (built_queries ops eqK eqv LE LV m input B q) as [o H]. exists o. split; [tauto|].
    destruct H as [_ [H _]]. destruct o; exact H.
  - intros e. pose proof (built_entries _ _ _ _ _ B) as HP.
    pose proof (survivors_iff (same_key eqK) input e (fun a => eq_refl_law _ LE (fst a))) as HS. unfold same_key in HS at 2.
    rewrite <- HS. split; intros H; [eapply Permutation_in in H; [exact H|symmetry; auto]|eapply Permutation_in; eauto].
  - apply (built_len ops eqK eqv m input B).
Qed.

Lemma emitted_emits {X W K V Q} (evK : X -> K) (evV : W -> V) eqR cmpR eqK (eqv : Q -> K -> bool) cmpQ idxQ hashQ r em input :
  lawful_eq eqK -> lawful_equivalent eqK eqv ->
  emitted evK evV eqR cmpR eqK eqv cmpQ idxQ hashQ r em input ->
  emits r em evK evV eqR cmpR (rt_ops eqv cmpQ idxQ hashQ) eqK eqv input.
Proof.
  intros LE LV [d [out [E [D [S [G [m [R B]]]]]]]]. exists d, out, m. repeat (split; [assumption|]). apply built_answers; auto.
Qed.

(** * C34 *)
Lemma emit_scalar_emits {KB X W K V Q} usort md unit_expr idxB cmpB em (entries : list (entry KB X W))
    (evK : X -> K) (evV : W -> V) eqR cmpR idxK idxQ eqv cmpQ :
  sorts_by_slot usort -> lawful_scalar idxB cmpB -> lawful_query_scalar (Q := Q) idxK idxQ eqv ->
  (forall e, In e entries -> idxK (rt_key evK e) = idxB (fst e)) ->
  span_representable idxB (map fst entries) -> N.of_nat (List.length entries) <= usize_max -> options_consistent em ->
  emits (emit_scalar_collection usort md unit_expr idxB cmpB em entries) em evK evV eqR cmpR
    (rt_ops eqv cmpQ idxQ (scalar_hasher idxQ)) (idx_eq idxK) eqv
    (rt_input evK evV (evV unit_expr) (em_has_value_type em) entries).
Proof.
  intros. apply emitted_emits; [apply same_idx_eq|apply (same_idx_equivalent idxK idxQ eqv); auto|].
  eapply emit_scalar_emitted with (idxB := idxB) (idxK := idxK); eauto.
Qed.

(** * C35 *)
Lemma emit_string_emits {X W V} usort unit_expr seed (fsB fsR : N -> build_hasher) em (entries : list (entry bytes X W))
    (evK : X -> bytes) (evV : W -> V) eqR cmpR cmpQ idxQ :
  sorts_by_slot usort ->
  (forall s, bh_str (fsR seed) s = bh_str (fsB seed) s) -> (forall s, bh_bytes (fsR seed) s = bh_bytes (fsB seed) s) ->
  (forall e, In e entries -> rt_key evK e = fst e) ->
  (forall e, In e entries -> N.of_nat (List.length (fst e)) <= usize_max) ->
  N.of_nat (List.length entries) <= usize_max -> options_consistent em ->
  emits (emit_string_collection usort unit_expr seed fsB em entries) em evK evV eqR cmpR
    (rt_ops bytes_eqb cmpQ idxQ (string_hasher fsR)) bytes_eqb bytes_eqb
    (rt_input evK evV (evV unit_expr) (em_has_value_type em) entries).
Proof.
  intros. apply emitted_emits; [apply bytes_eqb_lawful|apply bytes_eqb_equivalent|]. apply emit_string_emitted; auto.
Qed.

(** * C36 *)
Lemma emit_hash_emits {KB X W K V Q} usort unit_expr seed hashB eqB em (entries : list (entry KB X W))
    (evK : X -> K) (evV : W -> V) eqR cmpR eqK eqv cmpQ idxQ hashR :
  sorts_by_slot usort -> lawful_eq eqB -> lawful_hash eqB (hashB seed) -> lawful_eq eqK -> lawful_equivalent (Q := Q) eqK eqv ->
  (forall a b, In a entries -> In b entries -> eqK (rt_key evK a) (rt_key evK b) = eqB (fst a) (fst b)) ->
  (forall q e, In e entries -> eqv q (rt_key evK e) = true -> hashR seed q = hashB seed (fst e)) ->
  N.of_nat (List.length entries) <= usize_max -> options_consistent em ->
  emits (emit_hash_collection usort unit_expr seed hashB eqB em entries) em evK evV eqR cmpR
    (rt_ops eqv cmpQ idxQ (general_hasher hashR)) eqK eqv
    (rt_input evK evV (evV unit_expr) (em_has_value_type em) entries).
Proof.
  intros HU LB LH LE LV HF HQ Hc HO. apply emitted_emits; auto. apply emit_hash_emitted; auto.
  intros q. exists (hashR seed q). split; [reflexivity|]. intros e He Hq. symmetry. apply HQ; auto.
Qed.

Lemma emit_ordered_emits {KB X W K V Q} unit_expr cmpB em (entries : list (entry KB X W))
    (evK : X -> K) (evV : W -> V) eqR cmpR cmpK cmpQ eqv idxQ hashQ :
  lawful_ord cmpB -> lawful_ord cmpK -> lawful_comparable (Q := Q) cmpK cmpQ -> (forall q k, eqv q k = cmp_eq cmpQ q k) ->
  (forall a b, In a entries -> In b entries -> cmpK (rt_key evK a) (rt_key evK b) = cmpB (fst a) (fst b)) ->
  options_consistent em ->
  emits (emit_ordered_collection unit_expr cmpB em entries) em evK evV eqR cmpR
    (rt_ops eqv cmpQ idxQ hashQ) (cmp_eq cmpK) eqv
    (rt_input evK evV (evV unit_expr) (em_has_value_type em) entries).
Proof.
  intros LB LK LC HV HF HO. apply emitted_emits.
  - apply lawful_eq_of_ord; auto.
  - apply (lawful_equivalent_ext _ (cmp_eq cmpQ)); auto. apply lawful_equivalent_of_comparable; auto.
  - eapply emit_ordered_emitted with (cmpK := cmpK); eauto.
Qed.

(** * C37 *)
Lemma compiles_fits {X W} (c : ctor X W) : ctor_compiles c = true -> forall i, In i (stored_indices c) -> i <= index_type_max c.
Proof.
  assert (HC : forall cm, index_max cm = match cm with Small => 2 ^ 8 - 1 | Medium => 2 ^ 16 - 1 | Large => 2 ^ 64 - 1 end)
    by (intros []; reflexivity).
  destruct c; cbn [ctor_compiles stored_indices index_type_max]; intros H i Hi; try contradiction;
    rewrite !andb_true_iff in H; destruct H as [_ H]; rewrite forallb_forall in H; rewrite <- HC.
  - apply H in Hi. unfold fits in Hi. lia.
  - apply in_flat_map in Hi. destruct Hi as [s [Hs Hi]]. apply H in Hs. unfold fits in Hs. destruct Hi as [<-|[<-|[]]]; lia.
  - apply H in Hi. unfold fits in Hi. lia.
Qed.

Lemma mapM_all_ok {A B} (f : A -> res B) : forall l l', mapM f l = Ok l' -> forall a, In a l -> exists b, f a = Ok b.
Proof.
  induction l as [|x r IH]; intros l' E a Ha; [destruct Ha|]. cbn [mapM] in E.
  destruct (f x) eqn:Ex; cbn [bind] in E; try discriminate. destruct (mapM f r) eqn:Er; cbn [bind] in E; try discriminate.
  destruct Ha as [<-|Ha]; eauto.
Qed.

Lemma gen_hash_compiles {KB X W} (usort : list (N * entry KB X W) -> list (N * entry KB X W)) g hash_one hc es out :
  sorts_by_slot usort -> g_len g = List.length es -> gen_inline_hash usort g hash_one hc es = Ok out ->
  ctor_compiles (o_ctor out) = true.
Proof.
  intros HU Hg E.
  assert (Hc : N.of_nat (List.length es) <= usize_max).
  { destruct (N.le_gt_cases (N.of_nat (List.length es)) usize_max) as [|Hc]; auto. exfalso.
    unfold gen_inline_hash in E. destruct (ht_new_too_many usort Large es (fun x : entry KB X W => hash_one (e_key x)) Hc) as [msg E'].
    rewrite E' in E. discriminate E. }
  set (h := fun k => match hash_one k with Ok c => c | _ => 0 end).
  assert (Hh : forall e, In e es -> hash_one (fst e) = Ok (h (fst e))).
  { intros e He. unfold gen_inline_hash, ht_new in E. destruct es as [|e0 r]; [destruct He|]. cbn [is_nil] in E.
    destruct (max_capacity Large <? _); [discriminate|].
    destruct (mapM (fun x : entry KB X W => hash_one (e_key x)) (e0 :: r)) as [codes| |] eqn:EM; try discriminate E.
    destruct (mapM_all_ok _ _ _ EM e He) as [c Ec]. unfold h. unfold e_key in Ec. rewrite Ec. reflexivity. }
  destruct (gen_hash_good (K := unit) (V := W) (Q := unit) (fun _ : X => tt) (fun w : W => w) (fun _ _ => true) (fun _ _ => Eq) (fun _ _ => false) (fun _ _ => false)
    (fun _ _ => Eq) (fun _ => 0) (fun _ _ => Ok 0) usort g hash_one h hc es (map (ev1 (fun _ : X => tt) (fun w : W => w)) es))
    as [out' [E' [_ [G _]]]]; auto.
  - intros q. exists 0. split; auto. discriminate.
  - rewrite survivors_distinct_id; auto. clear. induction es; cbn; auto.
  - congruence.
Qed.

Lemma gen_scan_compiles {KB X W} g (es : list (entry KB X W)) : g_len g = List.length es -> ctor_compiles (o_ctor (gen_inline_scan g es)) = true.
Proof. intros Hg. cbn. unfold render. rewrite map_length, Hg. apply Nat.eqb_refl. Qed.

Lemma finish_inv {X W} em len (gen : generator -> res (output X W)) d out : finish em len gen = Ok (ROk (d, out)) ->
  exists g, g_len g = len /\ gen g = Ok out.
Proof.
  unfold finish, preflight. intros E.
  repeat match type of E with context [if ?b then RErr _ else _] => destruct b; [discriminate E|] end.
  destruct (gen _) as [o| |] eqn:EG; cbn [bind] in E; try discriminate. destruct (postflight em); cbn [bind] in E; try discriminate.
  injection E as _ <-. eexists. split; [|exact EG]. reflexivity.
Qed.

Lemma emit_hash_compiles {KB X W} usort unit_expr seed hashB eqB em (entries : list (entry KB X W)) d out : sorts_by_slot usort ->
  emit_hash_collection usort unit_expr seed hashB eqB em entries = Ok (ROk (d, out)) -> ctor_compiles (o_ctor out) = true.
Proof.
  intros HU E. apply finish_inv in E. destruct E as [g [Hg E]]. destruct (Nat.ltb _ 4).
  - injection E as <-. apply gen_scan_compiles; auto.
  - eapply gen_hash_compiles; eauto.
Qed.

Lemma emit_string_compiles {X W} usort unit_expr seed fsB em (entries : list (entry bytes X W)) d out : sorts_by_slot usort ->
  emit_string_collection usort unit_expr seed fsB em entries = Ok (ROk (d, out)) -> ctor_compiles (o_ctor out) = true.
Proof.
  intros HU E. apply finish_inv in E. destruct E as [g [Hg E]]. destruct (Nat.ltb _ 4).
  - injection E as <-. apply gen_scan_compiles; auto.
  - cbv zeta in E. destruct (analyze_slice_keys N.eqb _ _) as [[]| |]; cbn [bind] in E; try discriminate; eapply gen_hash_compiles; eauto.
Qed.

Lemma emit_ordered_compiles {KB X W} unit_expr cmpB em (entries : list (entry KB X W)) d out :
  emit_ordered_collection unit_expr cmpB em entries = Ok (ROk (d, out)) -> ctor_compiles (o_ctor out) = true.
Proof.
  intros E. apply finish_inv in E. destruct E as [g [Hg E]]. destruct (Nat.ltb _ 4).
  - injection E as <-. apply gen_scan_compiles; auto.
  - unfold gen_inline_eytzinger_search in E. set (es := sorted_and_dedupped _ _) in *.
    destruct (layout_spec es) as [l [E' [Hl _]]]. rewrite E' in E. cbn [bind] in E. injection E as <-.
    cbn. unfold render. rewrite map_length, Hl, Hg. apply Nat.eqb_refl.
Qed.

Lemma gen_lookup_bound {KB X W} md (idx : KB -> N) mn B : forall (es : list (entry KB X W)) i lookup lookup',
  i + N.of_nat (List.length es) <= B -> Forall (fun x => x <= B) lookup ->
  gen_lookup md idx mn i es lookup = Ok lookup' -> Forall (fun x => x <= B) lookup'.
Proof.
  induction es as [|e r IH]; intros i lookup lookup' HB HF E; cbn [gen_lookup] in E; [injection E as <-; auto|].
  cbn [List.length] in HB. destruct (usub _ _ _) as [p| |]; cbn [bind] in E; try discriminate.
  destruct (uadd md i 1) as [v| |] eqn:EU; cbn [bind] in E; try discriminate.
  unfold store in E. destruct (Nat.ltb _ _); cbn [bind] in E; [|discriminate]. eapply IH; [|clear IH|exact E]; [lia|].
  apply list_set_Forall; auto. unfold uadd in EU. destruct (i + 1 <=? usize_max).
  - injection EU as <-. lia.
  - destruct md; [discriminate|]. injection EU as <-. pose proof (N.mod_le (i + 1) two64 ltac:(discriminate)). lia.
Qed.

Lemma emit_scalar_compiles {KB X W} usort md unit_expr idx cmpB em (entries : list (entry KB X W)) d out :
  sorts_by_slot usort -> lawful_scalar idx cmpB ->
  emit_scalar_collection usort md unit_expr idx cmpB em entries = Ok (ROk (d, out)) -> ctor_compiles (o_ctor out) = true.
Proof.
  intros HU LS E. unfold emit_scalar_collection in E.
  change (fun x y : entry KB X W => cmpB (e_key x) (e_key y)) with (fun x y : KB * (X * W) => cmpB (fst x) (fst y)) in E.
  pose proof (scalar_sorted_incr idx cmpB LS (clean_values unit_expr em entries)) as HI.
  set (es := sorted_and_dedupped _ _) in *.
  destruct (analyze_scalar_keys _ _) as [a| |]; cbn [bind] in E; try discriminate.
  apply finish_inv in E. destruct E as [g [Hg E]].
  assert (HR : List.length (render es) = List.length es) by (unfold render; apply map_length).
  destruct a.
  - destruct (Nat.ltb _ 8).
    + injection E as <-. apply gen_scan_compiles; auto.
    + eapply gen_hash_compiles; eauto.
  - unfold gen_inline_dense_scalar_lookup in E. destruct (index es 0); cbn [bind] in E; try discriminate.
    destruct (index es _); cbn [bind] in E; try discriminate. injection E as <-. cbn. rewrite HR, Hg. apply Nat.eqb_refl.
  - unfold gen_inline_sparse_scalar_lookup in E.
    unfold index in E. destruct (nth_error es 0) as [first|] eqn:E1; cbn [bind] in E; try discriminate.
    destruct (nth_error es (List.length es - 1)) as [last|] eqn:E2; cbn [bind] in E; try discriminate. unfold e_key in E.
    pose proof (incr_first_last idx es first last HI E1 E2) as HB.
    assert (Hf : In (idx (fst first)) (ixs idx es)).
    { apply (in_map (fun e : KB * (X * W) => idx (fst e))). eapply nth_error_In; eauto. }
    assert (Hle : idx (fst first) <= idx (fst last)) by (apply HB; auto).
    rewrite usub_ok in E by auto. cbn [bind] in E.
    assert (HN : N.of_nat (List.length es) <= idx (fst last) - idx (fst first) + 1).
    { pose proof (incr_nth _ HI 0 (List.length es - 1) (idx (fst first)) (idx (fst last)) ltac:(lia)) as AB.
      unfold ixs in AB. rewrite !nth_error_map, E1, E2 in AB. specialize (AB eq_refl eq_refl). lia. }
    pose proof (idx_bound_law _ _ LS (fst last)) as HL.
    destruct (uadd md (idx (fst last) - idx (fst first)) 1) as [count| |] eqn:EU; cbn [bind] in E; try discriminate.
    destruct (gen_lookup md idx (idx (fst first)) 0 es (repeat 0 (N.to_nat count))) as [lookup| |] eqn:EL; cbn [bind] in E; try discriminate.
    injection E as <-. cbn [ctor_compiles o_ctor]. rewrite HR, Hg, !Nat.eqb_refl. cbn [andb].
    assert (Hcount : count = idx (fst last) - idx (fst first) + 1 /\ count <= usize_max).
    { unfold uadd in EU. destruct (N.leb_spec (idx (fst last) - idx (fst first) + 1) usize_max); [injection EU as <-; auto|].
      exfalso. destruct md; [discriminate|]. injection EU as <-.
      assert (E3 : (idx (fst last) - idx (fst first) + 1) mod two64 = 0).
      { replace (idx (fst last) - idx (fst first) + 1) with two64 by (unfold usize_max, two64 in *; lia). reflexivity. }
      rewrite E3 in EL. destruct es as [|e0 r]; [discriminate|]. cbn [gen_lookup N.to_nat repeat] in EL.
      destruct (usub _ _ _); cbn [bind] in EL; discriminate. }
    destruct Hcount as [Hc1 Hc2].
    apply (gen_lookup_bound md idx (idx (fst first)) count) in EL; [|lia|].
    + apply forallb_intro. intros i Hi. rewrite Forall_forall in EL. apply EL in Hi. unfold fits. rewrite <- max_capacity_index.
      pose proof (magnitude_fits count Hc2). lia.
    + apply Forall_forall. intros x Hx. apply repeat_spec in Hx. lia.
Qed.

(** * C38 *)
Lemma run_scan_vec {X W K V Q} (evK : X -> K) (evV : W -> V) eqK cmpR (eqv : Q -> K -> bool) cmpQ idxQ hashQ len (es : list (X * W)) :
  lawful_eq eqK -> lawful_equivalent eqK eqv ->
  (key_count eqK (eval_entries evK evV es) = len -> exists m, run_ctor evK evV eqK cmpR (CScanVec len es) = Ok m /\
     answers (rt_ops eqv cmpQ idxQ hashQ) eqK eqv m (eval_entries evK evV es)) /\
  (key_count eqK (eval_entries evK evV es) <> len -> run_ctor evK evV eqK cmpR (CScanVec len es) = Panic).
Proof.
  intros LE LV. cbn [run_ctor]. set (input := eval_entries evK evV es).
  destruct (scan_get_spec (V := V) eqK eqv len input LE LV) as [_ [H1 H2]]. split.
  - intros E. destruct (H1 (eq_sym E)) as [m [Em _]]. rewrite Em. cbn [fmap]. eexists. split; [reflexivity|].
    apply built_answers; auto. apply rt_scan_built. apply (made_built _ _ _ _ _ (made_inline_scan K V Q eqK eqv len input m LE LV Em)).
  - intros E. rewrite H2 by auto. reflexivity.
Qed.

Lemma run_eytzinger_vec {X W K V Q} (evK : X -> K) (evV : W -> V) eqR cmpK (eqv : Q -> K -> bool) cmpQ idxQ hashQ len (es : list (X * W)) :
  lawful_ord cmpK -> lawful_comparable cmpK cmpQ -> (forall q k, eqv q k = cmp_eq cmpQ q k) ->
  (key_count (cmp_eq cmpK) (eval_entries evK evV es) = len -> exists m, run_ctor evK evV eqR cmpK (CEytzingerVec len es) = Ok m /\
     answers (rt_ops eqv cmpQ idxQ hashQ) (cmp_eq cmpK) eqv m (eval_entries evK evV es)) /\
  (key_count (cmp_eq cmpK) (eval_entries evK evV es) <> len -> run_ctor evK evV eqR cmpK (CEytzingerVec len es) = Panic).
Proof.
  intros LO LC HV. set (input := eval_entries evK evV es).
  destruct (inline_ordered_get (V := V) cmpK cmpQ len input LO LC) as [H1 H2]. split.
  - intros E. destruct (H1 (eq_sym E)) as [m [Em _]].
    assert (R : run_ctor evK evV eqR cmpK (CEytzingerVec len es) = Ok (RtEytzinger m)).
    { cbn [run_ctor]. fold input. rewrite Em. reflexivity. }
    exists (RtEytzinger m). split; [exact R|].
    pose proof (made_emitted_eytzinger_vec X W K V Q len es evK evV eqR cmpK eqv cmpQ idxQ hashQ _ LO LC HV R) as MD.
    destruct (made_lawful _ _ _ _ _ MD) as [LE LV]. apply built_answers; auto. apply (made_built _ _ _ _ _ MD).
  - intros E. cbn [run_ctor]. fold input. rewrite H2 by auto. reflexivity.
Qed.

Lemma distinct_count {K V} (eqK : K -> K -> bool) (input : list (K * V)) :
  distinct eqK (map fst input) <-> key_count eqK input = List.length input.
Proof.
  rewrite distinct_map. change (fun x y : K * V => eqK (fst x) (fst y)) with (@same_key K V eqK). unfold key_count.
  split.
  - intros H. rewrite survivors_distinct_id; auto.
  - induction input as [|x r IH]; intros E; [exact I|]. cbn [survivors List.length] in E. cbn [distinct].
    destruct (existsb (same_key eqK x) r) eqn:EX.
    + pose proof (survivors_length (same_key eqK) r). lia.
    + split; [apply existsb_false_forall; auto|]. apply IH. cbn [List.length] in E. lia.
Qed.

Lemma eval_length {X W K V} (evK : X -> K) (evV : W -> V) (es : list (X * W)) : List.length (eval_entries evK evV es) = List.length es.
Proof. apply map_length. Qed.

Lemma scan_vec_exact {X W KB K V Q} (evK : X -> K) (evV : W -> V) eqK cmpR (eqv : Q -> K -> bool) cmpQ idxQ hashQ (es : list (entry KB X W)) :
  lawful_eq eqK -> lawful_equivalent eqK eqv ->
  exact_or_panic (run_ctor evK evV eqK cmpR (CScanVec (List.length es) (map snd es))) (rt_ops eqv cmpQ idxQ hashQ) eqK eqv
    (eval_entries evK evV (map snd es)).
Proof.
  intros LE LV. destruct (run_scan_vec evK evV eqK cmpR eqv cmpQ idxQ hashQ (List.length es) (map snd es) LE LV) as [H1 H2].
  split; intros H; rewrite distinct_count, eval_length, map_length in H; auto.
Qed.

Lemma eytzinger_vec_exact {X W KB K V Q} (evK : X -> K) (evV : W -> V) eqR cmpK (eqv : Q -> K -> bool) cmpQ idxQ hashQ (es : list (entry KB X W)) :
  lawful_ord cmpK -> lawful_comparable cmpK cmpQ -> (forall q k, eqv q k = cmp_eq cmpQ q k) ->
  exact_or_panic (run_ctor evK evV eqR cmpK (CEytzingerVec (List.length es) (map snd es))) (rt_ops eqv cmpQ idxQ hashQ) (cmp_eq cmpK) eqv
    (eval_entries evK evV (map snd es)).
Proof.
  intros LO LC HV. destruct (run_eytzinger_vec evK evV eqR cmpK eqv cmpQ idxQ hashQ (List.length es) (map snd es) LO LC HV) as [H1 H2].
  split; intros H; rewrite distinct_count, eval_length, map_length in H; auto.
Qed.

Lemma made_answers {M K V Q} (ops : map_ops M K V Q) eqK eqv m input : made ops eqK eqv m input -> answers ops eqK eqv m input.
Proof.
  intros MD. destruct (made_lawful _ _ _ _ _ MD) as [LE LV]. apply built_answers; auto. apply (made_built _ _ _ _ _ MD).
Qed.

Section Exprs.
Context {X W KB K V Q : Type} (em : emitter) (entries : list (entry KB X W)) (evK : X -> K) (evV : W -> V).
Notation input := (eval_entries evK evV (map snd entries)).
Hypothesis HO : options_consistent em.
Context (eqv : Q -> K -> bool) (cmpQ : Q -> K -> comparison) (idxQ : Q -> N) (hashQ : hasher_code -> Q -> res N).
Notation ops := (rt_ops eqv cmpQ idxQ hashQ).

Lemma emit_hash_expr_spec usort eqK cmpR hK hQ :
  sorts_by_slot usort -> lawful_eq eqK -> lawful_equivalent eqK eqv -> lawful_hash eqK hK ->
  lawful_query_hash eqv hQ hK -> N.of_nat (List.length entries) <= usize_max ->
  exists d out, emit_hash_collection_expr em entries = Ok (ROk (d, out)) /\ expected_decl em d /\
    o_set out = negb (em_has_value_type em) /\
    if Nat.ltb (List.length entries) 4 then exact_or_panic (run_ctor evK evV eqK cmpR (o_ctor out)) ops eqK eqv input
    else exists m, run_fz_hash usort evK evV eqK hK (o_ctor out) = Ok m /\ answers (hash_ops (fun q => Ok (hQ q)) eqv) eqK eqv m input.
Proof.
  intros HU LE LV LH LQ Hc. unfold emit_hash_collection_expr. destruct (Nat.ltb (List.length entries) 4) eqn:E4.
  - destruct (finish_ok em (List.length entries) (fun g => Ok (gen_inline_scan_vec g entries)) _ HO eq_refl) as [d [D1 D2]].
    exists d. eexists. split; [exact D1|]. split; [auto|]. split; [reflexivity|]. apply scan_vec_exact; auto.
  - destruct (finish_ok em (List.length entries) (fun g => Ok (gen_fz_hash g entries)) _ HO eq_refl) as [d [D1 D2]].
    exists d. eexists. split; [exact D1|]. split; [auto|]. split; [reflexivity|].
    destruct (fz_hash_get (V := V) usort eqK eqv hK hQ input HU LE LV LH LQ) as [m [Em _]].
    { rewrite eval_length, map_length. auto. }
    exists m. split; [exact Em|]. apply made_answers. eapply made_fz_hash; eauto.
Qed.

Lemma emit_ordered_expr_spec eqK cmpK :
  lawful_ord cmpK -> lawful_comparable cmpK cmpQ -> (forall a b, eqK a b = cmp_eq cmpK a b) -> (forall q k, eqv q k = cmp_eq cmpQ q k) ->
  exists d out, emit_ordered_collection_expr em entries = Ok (ROk (d, out)) /\ expected_decl em d /\
    o_set out = negb (em_has_value_type em) /\
    exact_or_panic (run_ctor evK evV eqK cmpK (o_ctor out)) ops (cmp_eq cmpK) eqv input.
Proof.
  intros LO LC HE HV. unfold emit_ordered_collection_expr. destruct (Nat.ltb (List.length entries) 4) eqn:E4.
  - destruct (finish_ok em (List.length entries) (fun g => Ok (gen_inline_scan_vec g entries)) _ HO eq_refl) as [d [D1 D2]].
    exists d. eexists. split; [exact D1|]. split; [auto|]. split; [reflexivity|].
    assert (LE : lawful_eq eqK).
    { destruct (lawful_eq_of_ord cmpK LO) as [a b c]. split; intros *; rewrite !HE; unfold cmp_eq; eauto. }
    assert (LV : lawful_equivalent eqK eqv).
    { intros q k1 k2. rewrite !HV, HE. apply (lawful_equivalent_of_comparable cmpK cmpQ); auto. }
    destruct (scan_vec_exact evK evV eqK cmpK eqv cmpQ idxQ hashQ entries LE LV) as [S1 S2].
    assert (HD : distinct eqK (map fst input) <-> distinct (cmp_eq cmpK) (map fst input)).
    { generalize (map fst input). clear - HE. induction l as [|x r IH]; cbn [distinct]; [tauto|]. rewrite IH.
      split; intros [A B]; (split; [intros y Hy|auto]); specialize (A y Hy); rewrite HE in *; auto. }
    split; intros H; rewrite <- HD in H.
    + destruct (S1 H) as [m [R A]]. exists m. split; [exact R|]. destruct A as [a b c d' e f]. constructor; auto.
      * intros e0. rewrite e. split; intros [pre [post [P1 P2]]]; exists pre, post; (split; [auto|]); intros e' He';
          specialize (P2 e' He'); rewrite HE in *; auto.
      * rewrite f. unfold key_count. f_equal. apply survivors_ext. intros x y _ _. unfold same_key. apply HE.
    + apply S2; auto.
  - destruct (finish_ok em (List.length entries) (fun g => Ok (gen_inline_eytzinger_search_vec g entries)) _ HO eq_refl) as [d [D1 D2]].
    exists d. eexists. split; [exact D1|]. split; [auto|]. split; [reflexivity|]. apply eytzinger_vec_exact; auto.
Qed.

Lemma emit_scalar_expr_spec usort md idxK cmpK cmpR :
  sorts_by_slot usort -> lawful_scalar idxK cmpK -> lawful_query_scalar idxK idxQ eqv -> span_representable idxK (map fst input) ->
  exists d out, emit_scalar_collection_expr em entries = Ok (ROk (d, out)) /\ expected_decl em d /\
    o_set out = negb (em_has_value_type em) /\
    if Nat.ltb (List.length entries) 8 then exact_or_panic (run_ctor evK evV (idx_eq idxK) cmpR (o_ctor out)) ops (idx_eq idxK) eqv input
    else exists m, run_fz_scalar usort md evK evV idxK cmpK (o_ctor out) = Ok m /\ answers (fz_scalar_ops idxQ eqv) (idx_eq idxK) eqv m input.
Proof.
  intros HU LS LQ Hs. unfold emit_scalar_collection_expr. destruct (Nat.ltb (List.length entries) 8) eqn:E4.
  - destruct (finish_ok em (List.length entries) (fun g => Ok (gen_inline_scan_vec g entries)) _ HO eq_refl) as [d [D1 D2]].
    exists d. eexists. split; [exact D1|]. split; [auto|]. split; [reflexivity|]. apply scan_vec_exact; [apply same_idx_eq|].
    apply (same_idx_equivalent idxK idxQ eqv); auto.
  - destruct (finish_ok em (List.length entries) (fun g => Ok (gen_fz_scalar g entries)) _ HO eq_refl) as [d [D1 D2]].
    exists d. eexists. split; [exact D1|]. split; [auto|]. split; [reflexivity|].
    destruct (fz_scalar_get (V := V) usort md idxK cmpK idxQ eqv input HU LS LQ Hs) as [m [Em _]].
    exists m. split; [exact Em|]. apply made_answers. eapply made_fz_scalar; eauto.
Qed.
End Exprs.

Lemma emit_string_expr_spec {X W KB V} em (entries : list (entry KB X W)) usort bh (evK : X -> bytes) (evV : W -> V) cmpR cmpQ idxQ hashQ :
  options_consistent em -> sorts_by_slot usort ->
  let input := eval_entries evK evV (map snd entries) in
  (forall e, In e input -> N.of_nat (List.length (fst e)) <= usize_max) -> N.of_nat (List.length entries) <= usize_max ->
  exists d out, emit_string_collection_expr em entries = Ok (ROk (d, out)) /\ expected_decl em d /\
    o_set out = negb (em_has_value_type em) /\
    if Nat.ltb (List.length entries) 4 then
      exact_or_panic (run_ctor evK evV bytes_eqb cmpR (o_ctor out)) (rt_ops bytes_eqb cmpQ idxQ hashQ) bytes_eqb bytes_eqb input
    else exists m, run_fz_string usort bh evK evV (o_ctor out) = Ok m /\ answers fz_string_ops bytes_eqb bytes_eqb m input.
Proof.
  intros HO HU input Hl Hc. unfold emit_string_collection_expr. destruct (Nat.ltb (List.length entries) 4) eqn:E4.
  - destruct (finish_ok em (List.length entries) (fun g => Ok (gen_inline_scan_vec g entries)) _ HO eq_refl) as [d [D1 D2]].
    exists d. eexists. split; [exact D1|]. split; [auto|]. split; [reflexivity|]. apply scan_vec_exact; [apply bytes_eqb_lawful|].
    apply bytes_eqb_equivalent.
  - destruct (finish_ok em (List.length entries) (fun g => Ok (gen_fz_string g entries)) _ HO eq_refl) as [d [D1 D2]].
    exists d. eexists. split; [exact D1|]. split; [auto|]. split; [reflexivity|].
    assert (Hc' : N.of_nat (List.length input) <= usize_max) by (unfold input; rewrite eval_length, map_length; auto).
    destruct (fz_string_get (V := V) usort bh input HU Hc' Hl) as [m [Em _]].
    exists m. split; [exact Em|]. apply made_answers. eapply made_fz_string; eauto.
Qed.

(** * C41 *)
Lemma finish_decide {X W} em len (gen : generator -> res (output X W)) r : finish em len gen = Ok r -> options_decide em r.
Proof.
  intros E. split; intros H.
  - unfold finish in E. rewrite preflight_ok in E by auto. destruct (gen _); cbn [bind] in E; try discriminate.
    destruct (postflight_ok em H) as [d [D1 D2]]. rewrite D1 in E. cbn [bind] in E. injection E as <-. eauto.
  - rewrite (finish_err em len gen H) in E. injection E as <-. reflexivity.
Qed.

Lemma finish_reject {X W} em len (gen : generator -> res (output X W)) : ~ options_consistent em ->
  finish em len gen = Ok (RErr (complaint em)).
Proof. apply finish_err. Qed.

(** * C40 *)
Lemma digit_spec c : is_ascii_digit c = true <-> is_digit c.
Proof.
  unfold is_digit, is_ascii_digit. split.
  - destruct c as [[] [] [] [] [] [] [] []]; cbn; intros H; try discriminate H; tauto.
  - cbn. intros H. repeat (destruct H as [<-|H]; [reflexivity|]). destruct H.
Qed.

Lemma suffix_index_split : forall full i, exists digits suffix, full = digits ++ suffix /\ Forall is_digit digits /\
  match suffix with [] => suffix_index i full = None
  | c :: _ => ~ is_digit c /\ suffix_index i full = Some (i + List.length digits)%nat end.
Proof.
  induction full as [|c r IH]; intros i; cbn [suffix_index].
  - exists [], []. auto.
  - destruct (is_ascii_digit c) eqn:E; cbn [negb].
    + destruct (IH (S i)) as [ds [sf [E1 [E2 E3]]]]. exists (c :: ds), sf. split; [cbn; congruence|].
      split; [constructor; auto; apply digit_spec; auto|]. destruct sf; auto. destruct E3 as [E3 E4]. split; auto.
      rewrite E4. cbn. f_equal. lia.
    + exists [], (c :: r). split; auto. split; auto. split; [rewrite <- digit_spec, E; discriminate|]. cbn. f_equal. lia.
Qed.

Definition group_inv (i : nat) (out pre : list ascii) : Prop :=
  List.length out = (i + (i - 1) / 3)%nat /\ filter (fun c => negb (is_underscore c)) out = pre /\
  forall j c, nth_error out j = Some c -> (is_underscore c = true <-> Nat.modulo j 4 = 3%nat).

Lemma digit_not_underscore c : is_digit c -> is_underscore c = false.
Proof. intros H. cbn in H. repeat (destruct H as [<-|H]; [reflexivity|]). destruct H. Qed.

Lemma group_push out c : forall P : Prop,
  (forall j x, nth_error out j = Some x -> (is_underscore x = true <-> Nat.modulo j 4 = 3%nat)) ->
  (is_underscore c = true <-> Nat.modulo (List.length out) 4 = 3%nat) ->
  forall j x, nth_error (out ++ [c]) j = Some x -> (is_underscore x = true <-> Nat.modulo j 4 = 3%nat).
Proof.
  intros _ H1 H2 j x Hj. destruct (Nat.lt_ge_cases j (List.length out)) as [L|L].
  - rewrite nth_error_app1 in Hj by auto. auto.
  - rewrite nth_error_app2 in Hj by auto. destruct (j - List.length out)%nat as [|n] eqn:E; [|destruct n; discriminate].
    cbn in Hj. injection Hj as <-. replace j with (List.length out) by lia. auto.
Qed.

Lemma group_loop_inv : forall ds i out pre, Forall is_digit ds -> group_inv i out pre ->
  group_inv (i + List.length ds) (group_loop i ds out) (pre ++ ds).
Proof.
  induction ds as [|c r IH]; intros i out pre HF HI; cbn [group_loop List.length].
  - rewrite app_nil_r, Nat.add_0_r. auto.
  - inversion HF as [|? ? Hc Hr]; subst. pose proof (digit_not_underscore c Hc) as Hu.
    replace (i + S (List.length r))%nat with (S i + List.length r)%nat by lia.
    replace (pre ++ c :: r) with ((pre ++ [c]) ++ r) by (rewrite <- app_assoc; reflexivity).
    apply IH; auto. destruct HI as [H1 [H2 H3]].
    destruct (Nat.eqb_spec (Nat.modulo i 3) 0) as [E1|E1]; [destruct (Nat.eqb_spec i 0) as [E2|E2]|]; cbn [andb negb].
    + subst i. cbn in H1. split; [|split].
      * rewrite app_length, H1. reflexivity.
      * rewrite filter_app, H2. cbn. rewrite Hu. reflexivity.
      * apply (group_push _ _ True H3). rewrite Hu, H1. split; [discriminate|]. cbn. lia.
    + assert (HL : exists k, i = (3 * S k)%nat /\ List.length out = (4 * k + 3)%nat).
      { exists (i / 3 - 1)%nat. rewrite H1. pose proof (Nat.div_mod i 3 ltac:(lia)). split; [lia|].
        replace (i - 1)%nat with (3 * (i / 3 - 1) + 2)%nat by lia.
        rewrite Nat.mul_comm, Nat.div_add_l by lia. change (2 / 3)%nat with 0%nat. lia. }
      destruct HL as [k [Hk HL]]. split; [|split].
      * rewrite !app_length, HL. cbn [List.length]. replace (S i - 1)%nat with (S k * 3 + 0)%nat by lia.
        rewrite Nat.div_add_l by lia. change (0 / 3)%nat with 0%nat. lia.
      * rewrite !filter_app, H2. cbn. rewrite Hu. cbn. rewrite app_nil_r. reflexivity.
      * apply (group_push _ _ True).
        -- apply (group_push _ _ True H3). rewrite HL. replace (4 * k + 3)%nat with (3 + k * 4)%nat by lia. rewrite Nat.mod_add by lia.
           split; reflexivity.
        -- rewrite app_length, HL, Hu. cbn [List.length]. replace (4 * k + 3 + 1)%nat with (0 + S k * 4)%nat by lia.
           rewrite Nat.mod_add by lia. split; discriminate.
    + assert (HL : exists k q, i = (3 * k + S q)%nat /\ (q < 2)%nat /\ List.length out = (4 * k + S q)%nat).
      { pose proof (Nat.div_mod i 3 ltac:(lia)). pose proof (Nat.mod_upper_bound i 3 ltac:(lia)).
        exists (i / 3)%nat, (Nat.modulo i 3 - 1)%nat. rewrite H1. split; [lia|]. split; [lia|].
        replace (i - 1)%nat with (i / 3 * 3 + (Nat.modulo i 3 - 1))%nat by lia.
        rewrite Nat.div_add_l by lia. rewrite (Nat.div_small (Nat.modulo i 3 - 1)) by lia. lia. }
      destruct HL as [k [q [Hk [Hq HL]]]]. split; [|split].
      * rewrite app_length, HL. cbn [List.length]. replace (S i - 1)%nat with (k * 3 + S q)%nat by lia.
        rewrite Nat.div_add_l by lia. rewrite (Nat.div_small (S q)) by lia. lia.
      * rewrite filter_app, H2. cbn. rewrite Hu. reflexivity.
      * apply (group_push _ _ True H3). rewrite Hu, HL. replace (4 * k + S q)%nat with (S q + k * 4)%nat by lia.
        rewrite Nat.mod_add by lia. rewrite Nat.mod_small by lia. split; [discriminate|]. lia.
Qed.

Lemma filter_rev {A} (f : A -> bool) l : filter f (rev l) = rev (filter f l).
Proof.
  induction l as [|x r IH]; cbn; auto. rewrite filter_app, IH. cbn. destruct (f x); cbn; auto. apply app_nil_r.
Qed.

Lemma Forall_rev' {A} (P : A -> Prop) l : Forall P l -> Forall P (rev l).
Proof. intros H. apply Forall_forall. intros x Hx. apply in_rev in Hx. rewrite Forall_forall in H. auto. Qed.

Lemma inject_spec full : exists digits suffix grouped,
  full = digits ++ suffix /\ Forall is_digit digits /\ match suffix with c :: _ => ~ is_digit c | [] => True end /\
  inject_underscores full = grouped ++ suffix /\
  filter (fun c => negb (is_underscore c)) grouped = digits /\
  (forall j c, nth_error (rev grouped) j = Some c -> (c = "_"%char <-> Nat.modulo j 4 = 3%nat)) /\
  nth_error grouped 0 <> Some "_"%char.
Proof.
  destruct (suffix_index_split full 0) as [ds [sf [E1 [E2 E3]]]].
  set (g := rev (group_loop 0 (rev ds) [])).
  assert (HG : group_inv (List.length ds) (group_loop 0 (rev ds) []) (rev ds)).
  { pose proof (group_loop_inv (rev ds) 0 [] [] (Forall_rev' _ _ E2)) as H. rewrite rev_length in H. apply H.
    split; [reflexivity|]. split; [reflexivity|]. intros [|j] c; discriminate. }
  destruct HG as [G1 [G2 G3]].
  assert (HU : forall c, is_underscore c = true <-> c = "_"%char) by (intros c; unfold is_underscore; apply Ascii.eqb_eq).
  exists ds, sf, g. split; [auto|]. split; [auto|]. split; [destruct sf; tauto|]. split; [|split; [|split]].
  - unfold inject_underscores. destruct sf as [|c sf].
    + rewrite E3. rewrite app_nil_r in *. subst. reflexivity.
    + destruct E3 as [_ E3]. rewrite E3. cbn [Nat.add]. subst full. rewrite firstn_app, skipn_app, Nat.sub_diag.
      rewrite firstn_all, skipn_all. cbn [firstn skipn]. rewrite app_nil_r. reflexivity.
  - unfold g. rewrite filter_rev, G2, rev_involutive. reflexivity.
  - intros j c Hj. rewrite <- HU. apply G3. unfold g in Hj. rewrite rev_involutive in Hj. auto.
  - destruct ds as [|d ds']; [cbn; discriminate|].
    intros H. set (out := group_loop 0 (rev (d :: ds')) []) in *.
    assert (Hl : (0 < List.length out)%nat) by (rewrite G1; cbn [List.length]; lia).
    assert (Hn : nth_error out (List.length out - 1) = Some "_"%char).
    { unfold g in H. destruct (exists_last (l := out)) as [o' [x Eo]]; [intros E; rewrite E in Hl; cbn in Hl; lia|].
      rewrite Eo in *. rewrite rev_app_distr in H. cbn in H. injection H as ->. rewrite app_length. cbn [List.length].
      replace (List.length o' + 1 - 1)%nat with (List.length o') by lia. rewrite nth_error_app2 by lia. rewrite Nat.sub_diag. reflexivity. }
    apply G3 in Hn. destruct Hn as [Hn _]. specialize (Hn eq_refl). rewrite G1 in Hn.
    cbn [List.length] in Hn. set (n := List.length ds') in *. replace (S n - 1)%nat with n in Hn by lia.
    pose proof (Nat.div_mod n 3 ltac:(lia)) as HD. pose proof (Nat.mod_upper_bound n 3 ltac:(lia)).
    replace (S n + n / 3 - 1)%nat with (Nat.modulo n 3 + n / 3 * 4)%nat in Hn by lia.
    rewrite Nat.mod_add in Hn by lia. rewrite Nat.mod_small in Hn; lia.
Qed.

Lemma scalar_decide {KB X W} em usort md unit_expr idx cmpB (es : list (entry KB X W)) r :
  emit_scalar_collection usort md unit_expr idx cmpB em es = Ok r -> options_decide em r.
Proof.
  unfold emit_scalar_collection. destruct (analyze_scalar_keys _ _); cbn [bind]; try discriminate. apply finish_decide.
Qed.
