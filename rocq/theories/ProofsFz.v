(** What every constructor establishes, and what follows for queries, writes and equality. *)
From Verif Require Import Prelude Spec ModelUtils ModelAnalyzers ModelTables ModelMaps SpecAnalysis
  ProofsBase ProofsDedup ProofsAnalyzer ProofsTable ProofsEytzinger ProofsMaps ProofsScalar ProofsSlices.
From Coq Require Import Permutation Sorted.
From Coq Require Import ZArith ZifyNat ZifyN ZifyBool.

(** [m] holds exactly the surviving entries of [input] and answers queries from them. *)
Record built {M K V Q} (ops : map_ops M K V Q) (eqK : K -> K -> bool) (eqv : Q -> K -> bool) (m : M)
    (input : list (K * V)) : Prop := {
  built_ok : map_ok ops eqv m;
  built_entries : Permutation (survivors (same_key eqK) input) (mo_entries ops m) }.

Lemma lawful_same_key {K V} (eqK : K -> K -> bool) : lawful_eq eqK -> lawful_eq (@same_key K V eqK).
Proof.
  intros [a b c]. unfold same_key. constructor; intros; eauto.
Qed.

Lemma survivors_map_keys {K V W} (eqK : K -> K -> bool) (f : K * V -> K * W) l :
  (forall e, fst (f e) = fst e) -> survivors (same_key eqK) (map f l) = map f (survivors (same_key eqK) l).
Proof.
  intros H. induction l as [|x r IH]; cbn [survivors map]; auto.
  assert (E : existsb (same_key eqK (f x)) (map f r) = existsb (same_key eqK x) r).
  { rewrite IH || idtac. clear IH. induction r as [|y r' IHr]; cbn; auto. rewrite IHr. unfold same_key. rewrite !H. auto. }
  rewrite E. destruct (existsb _ r); rewrite IH; reflexivity.
Qed.

Section Consequences.
Context {M K V Q : Type} (ops : map_ops M K V Q) (eqK : K -> K -> bool) (eqv : Q -> K -> bool).
Hypothesis LE : lawful_eq eqK.
Hypothesis LV : lawful_equivalent eqK eqv.

Lemma match_same q (a b : K * V) : eqv q (fst a) = true -> eqv q (fst b) = true -> same_key eqK a b = true.
Proof. intros H1 H2. unfold same_key. rewrite <- (LV q _ _ H1). auto. Qed.

Lemma match_carry q (a b : K * V) : same_key eqK a b = true -> eqv q (fst a) = true -> eqv q (fst b) = true.
Proof. intros H1 H2. rewrite (LV q _ _ H2). auto. Qed.

Lemma survivors_lookup input (es : list (K * V)) q : Permutation (survivors (same_key eqK) input) es ->
  last_match (fun e => eqv q (fst e)) es = spec_entry eqv input q.
Proof.
  intros HP. unfold spec_entry. rewrite <- (last_match_survivors (same_key eqK) _ input).
  - apply (last_match_perm (same_key eqK)); auto.
    + apply (eq_sym_law _ (lawful_same_key eqK LE)).
    + apply survivors_distinct.
    + apply match_same.
  - apply match_carry.
Qed.

Context (m : M) (input : list (K * V)).
Hypothesis B : built ops eqK eqv m input.

Lemma built_distinct : distinct (same_key eqK) (mo_entries ops m).
Proof.
  eapply distinct_perm; [|apply (built_entries _ _ _ _ _ B)|apply survivors_distinct].
  apply (eq_sym_law _ (lawful_same_key eqK LE)).
Qed.

Lemma built_queries q :
  exists o, mo_get_mut ops m q = Ok o /\ opt_bind o (nth_error (mo_entries ops m)) = spec_entry eqv input q /\
    is_some o = is_some (spec_entry eqv input q) /\
    mo_get ops m q = Ok (spec_get eqv input q) /\
    mo_get_key_value ops m q = Ok (spec_entry eqv input q) /\
    mo_contains_key ops m q = Ok (is_some (spec_entry eqv input q)).
Proof.
  destruct (map_ok_lookup ops eqv m q (built_ok _ _ _ _ _ B)) as [o [E1 [E2 [E3 [E4 E5]]]]].
  assert (E : opt_bind o (nth_error (mo_entries ops m)) = spec_entry eqv input q /\ is_some o = is_some (spec_entry eqv input q)).
  { rewrite <- (survivors_lookup input _ q (built_entries _ _ _ _ _ B)). destruct o as [p|].
    - destruct E5 as [e [Hn He]]. cbn [opt_bind]. rewrite Hn.
      rewrite (last_match_unique (same_key eqK) _ _ e); auto.
      + apply (eq_sym_law _ (lawful_same_key eqK LE)).
      + apply built_distinct.
      + apply match_same.
      + eapply nth_error_In; eauto.
    - assert (E : last_match (fun e => eqv q (fst e)) (mo_entries ops m) = None) by (apply last_match_None; auto).
      rewrite E. auto. }
  destruct E as [Ea Eb]. exists o. rewrite Ea in E2, E3. rewrite Eb in E4. auto 10.
Qed.

Lemma built_get q : mo_get ops m q = Ok (spec_get eqv input q).
Proof. destruct (built_queries q) as [o H]. apply H. Qed.
Lemma built_gkv q : mo_get_key_value ops m q = Ok (spec_entry eqv input q).
Proof. destruct (built_queries q) as [o H]. apply H. Qed.
Lemma built_contains q : mo_contains_key ops m q = Ok (is_some (spec_entry eqv input q)).
Proof. destruct (built_queries q) as [o H]. apply H. Qed.
Lemma built_len : map_len ops m = length (survivors (same_key eqK) input).
Proof. unfold map_len. symmetry. apply Permutation_length. apply (built_entries _ _ _ _ _ B). Qed.
Lemma built_is_empty : map_is_empty ops m = is_nil input.
Proof.
  unfold map_is_empty. rewrite built_len. destruct input as [|x r]; [reflexivity|].
  destruct (survivors_cover (same_key eqK) (x :: r) x (lawful_same_key eqK LE) (or_introl eq_refl)) as [y [Hy _]].
  destruct (survivors (same_key eqK) (x :: r)); [destruct Hy|reflexivity].
Qed.

(** writes *)
Definition upd (q : Q) (v : V) (e : K * V) : K * V := if eqv q (fst e) then (fst e, v) else e.

Lemma upd_fst q v e : fst (upd q v e) = fst e.
Proof. unfold upd. destruct (eqv q (fst e)); reflexivity. Qed.

Lemma write_value_upd (es : list (K * V)) p q v e : distinct (same_key eqK) es -> nth_error es p = Some e ->
  eqv q (fst e) = true -> write_value es p v = map (upd q v) es.
Proof.
  intros HD Hp He. unfold write_value. rewrite Hp. apply nth_error_ext. intros i. rewrite nth_error_list_set, nth_error_map.
  assert (p < length es)%nat by (apply nth_error_Some; congruence).
  destruct (Nat.eqb_spec p i) as [->|Hi].
  - destruct (Nat.ltb_spec i (length es)); [|lia]. rewrite Hp. cbn. unfold upd. rewrite He. reflexivity.
  - destruct (nth_error es i) as [e'|] eqn:Ei; [|reflexivity]. cbn. unfold upd.
    destruct (eqv q (fst e')) eqn:Ee; [|reflexivity]. exfalso.
    pose proof (match_same q e e' He Ee) as S1. pose proof (match_same q e' e Ee He) as S2.
    destruct (Nat.lt_ge_cases p i).
    + rewrite (distinct_nth _ _ _ _ _ _ HD H0 Hp Ei) in S1. discriminate.
    + assert (i < p)%nat as H1 by lia. rewrite (distinct_nth _ _ _ _ _ _ HD H1 Ei Hp) in S2. discriminate.
Qed.

Lemma put_spec q v : exists m', map_put ops m q v = Ok m' /\ mo_entries ops m' = map (upd q v) (mo_entries ops m) /\
  built ops eqK eqv m' (map (upd q v) input).
Proof.
  assert (HK : forall l, map fst (map (upd q v) l) = map fst l)
    by (intros; rewrite map_map; apply map_ext; intros; apply upd_fst).
  assert (HB : built ops eqK eqv (mo_with_entries ops m (map (upd q v) (mo_entries ops m))) (map (upd q v) input)).
  { constructor.
    - apply map_ok_with; [apply (built_ok _ _ _ _ _ B)|apply HK].
    - rewrite (ok_entries _ _ _ (built_ok _ _ _ _ _ B)). rewrite survivors_map_keys by apply upd_fst.
      apply Permutation_map. apply (built_entries _ _ _ _ _ B). }
  destruct (built_queries q) as [o [E1 [E2 [E3 _]]]]. unfold map_put. rewrite E1. cbn [bind]. destruct o as [p|].
  - cbn [opt_bind] in E2. destruct (spec_entry eqv input q) as [e|] eqn:Es; [|discriminate].
    rewrite (write_value_upd _ _ q v e built_distinct E2); [|apply last_match_Some in Es; apply Es].
    eexists. split; [reflexivity|]. split; auto. apply (ok_entries _ _ _ (built_ok _ _ _ _ _ B)).
  - assert (E : map (upd q v) (mo_entries ops m) = mo_entries ops m).
    { destruct (map_ok_lookup ops eqv m q (built_ok _ _ _ _ _ B)) as [o [F1 [_ [_ [_ F5]]]]]. rewrite E1 in F1.
      injection F1 as <-. transitivity (map id (mo_entries ops m)); [|apply map_id]. apply map_ext_in. intros e He.
      unfold upd. rewrite F5 by auto. reflexivity. }
    exists m. split; auto. split; auto. rewrite E in HB. rewrite (ok_with_id _ _ _ (built_ok _ _ _ _ _ B)) in HB. auto.
Qed.
End Consequences.

Lemma puts_spec {M K V Q} (ops : map_ops M K V Q) eqK eqv (LE : lawful_eq eqK) (LV : lawful_equivalent eqK eqv) :
  forall ws m input, built ops eqK eqv m input ->
  exists m', map_puts ops m ws = Ok m' /\
    let f := fun l => fold_left (fun l w => map (upd eqv (fst w) (snd w)) l) ws l in
    mo_entries ops m' = f (mo_entries ops m) /\ built ops eqK eqv m' (f input).
Proof.
  induction ws as [|[q v] ws IH]; intros m input B; cbn [map_puts fold_left].
  - exists m. auto.
  - destruct (put_spec ops eqK eqv LE LV m input B q v) as [m1 [E1 [E2 B1]]]. rewrite E1. cbn [bind].
    destruct (IH m1 _ B1) as [m2 [F1 [F2 F3]]]. exists m2. cbn zeta in *. rewrite E2 in F2. auto.
Qed.

(** a query compares with [upd] like before *)
Lemma spec_get_upd {K V Q} (eqv : Q -> K -> bool) (input : list (K * V)) q v q' :
  spec_get eqv (map (upd eqv q v) input) q' =
  match spec_entry eqv input q' with
  | Some (k, w) => Some (if eqv q k then v else w)
  | None => None
  end.
Proof.
  unfold spec_get, spec_entry. induction input as [|x r IH]; cbn [map last_match]; auto.
  destruct (last_match (fun e => eqv q' (fst e)) r) as [[k w]|] eqn:E;
    destruct (last_match (fun e => eqv q' (fst e)) (map (upd eqv q v) r)) as [[k' w']|] eqn:E'; cbn in IH; try discriminate.
  - cbn. auto.
  - rewrite upd_fst. destruct x as [k w]. cbn [fst]. destruct (eqv q' k); [|reflexivity]. unfold upd. cbn.
    destruct (eqv q k); reflexivity.
Qed.

(** * get_disjoint_mut *)

Lemma has_duplicates_from_spec {T} (eq : T -> T -> bool) : forall rest seen,
  has_duplicates_from eq seen rest = true <->
  exists i j x y, (j < i)%nat /\ (length seen <= i)%nat /\ nth_error (seen ++ rest) i = Some x /\
    nth_error (seen ++ rest) j = Some y /\ eq y x = true.
Proof.
  induction rest as [|a r IH]; intros seen; cbn [has_duplicates_from].
  - split; [discriminate|]. rewrite app_nil_r. intros [i [j [x [y [_ [H [Hx _]]]]]]].
    assert (i < length seen)%nat by (apply nth_error_Some; congruence). lia.
  - assert (Ea : nth_error (seen ++ a :: r) (length seen) = Some a) by (rewrite nth_error_app2, Nat.sub_diag by lia; reflexivity).
    destruct (existsb (fun y => eq y a) seen) eqn:E.
    + split; auto. intros _. apply existsb_exists in E. destruct E as [y [Hy E]].
      apply In_nth_error in Hy. destruct Hy as [j Hj].
      assert (j < length seen)%nat by (apply nth_error_Some; congruence).
      exists (length seen), j, a, y. rewrite Ea, nth_error_app1 by lia. auto.
    + rewrite IH, <- app_assoc, app_length. cbn [app length]. rewrite existsb_false_forall in E. split.
      * intros [i [j [x [y [H1 [H2 H3]]]]]]. exists i, j, x, y. split; auto. split; [lia|auto].
      * intros [i [j [x [y [H1 [H2 [H3 [H4 H5]]]]]]]]. exists i, j, x, y. split; auto. split; auto.
        destruct (Nat.eq_dec i (length seen)) as [->|]; [|lia]. exfalso. rewrite Ea in H3. injection H3 as <-.
        rewrite nth_error_app1 in H4 by lia. rewrite E in H5; [discriminate|]. eapply nth_error_In; eauto.
Qed.

Lemma has_duplicates_spec {T} (eq : T -> T -> bool) l :
  has_duplicates eq l = true <->
  exists i j x y, (i < j)%nat /\ nth_error l i = Some x /\ nth_error l j = Some y /\ eq x y = true.
Proof.
  unfold has_duplicates. rewrite has_duplicates_from_spec. cbn [app length].
  split; [intros [i [j [x [y H]]]]|intros [j [i [y [x H]]]]]; [exists j, i, y, x|exists i, j, x, y]; intuition lia.
Qed.

(** * Constructors *)

Lemma lawful_eq_of_ord {K} (cmp : K -> K -> comparison) : lawful_ord cmp -> lawful_eq (fun x y => is_eq (cmp x y)).
Proof. intros L. exact (lawful_same cmp L). Qed.

Lemma lawful_equivalent_of_comparable {K Q} (cmp : K -> K -> comparison) (cmpQ : Q -> K -> comparison) :
  lawful_comparable cmp cmpQ -> lawful_equivalent (fun x y => is_eq (cmp x y)) (fun q k => is_eq (cmpQ q k)).
Proof.
  intros L q k1 k2 H. destruct (cmpQ q k1) eqn:E; try discriminate. rewrite (cmpq_eq_law _ _ L q k1 k2 E). reflexivity.
Qed.

Lemma ord_fst {K V} (cmp : K -> K -> comparison) : lawful_ord cmp -> lawful_ord (fun x y : K * V => cmp (fst x) (fst y)).
Proof. intros [a b c d]. constructor; intros; eauto. Qed.

Lemma scan_map_new_built {K V Q} (eqK : K -> K -> bool) (eqv : Q -> K -> bool) (input : list (K * V)) :
  built (scan_ops eqv) eqK eqv (scan_map_new eqK input) input.
Proof.
  constructor; [apply scan_ok|]. cbn. rewrite using_eq_survivors. apply Permutation_refl.
Qed.

Lemma inline_scan_map_new_built {K V Q} (eqK : K -> K -> bool) (eqv : Q -> K -> bool) sz (input : list (K * V)) :
  sz = length (survivors (same_key eqK) input) ->
  exists m, inline_scan_map_new eqK sz input = Ok m /\ built (scan_ops eqv) eqK eqv m input.
Proof.
  intros ->. unfold inline_scan_map_new, into_array. rewrite using_eq_survivors.
  change (fun x y : K * V => eqK (fst x) (fst y)) with (@same_key K V eqK). rewrite Nat.eqb_refl. cbn [bind].
  eexists. split; [reflexivity|]. constructor; [apply scan_ok|]. apply Permutation_refl.
Qed.

Section Ordered.
Context {K V Q : Type} (cmp : K -> K -> comparison) (cmpQ : Q -> K -> comparison).
Hypothesis LO : lawful_ord cmp.
Hypothesis LC : lawful_comparable cmp cmpQ.

Lemma eytzinger_map_new_built (input : list (K * V)) :
  exists m, eytzinger_map_new cmp input = Ok m /\
    built (eytzinger_ops cmpQ) (fun x y => is_eq (cmp x y)) (fun q k => is_eq (cmpQ q k)) m input.
Proof.
  unfold eytzinger_map_new. pose proof (ord_fst (V:=V) cmp LO) as LF.
  destruct (eyt_from_sorted cmp _ (sorted_and_dedupped_sorted _ LF input)) as [m [E [HP HI]]].
  exists m. split; auto. constructor; [apply (eyt_ok cmp cmpQ LC); auto|].
  eapply perm_trans; [|exact HP]. symmetry. apply (sorted_and_dedupped_perm _ LF).
Qed.

Lemma inline_eytzinger_map_new_built sz (input : list (K * V)) :
  sz = length (survivors (same_key (fun x y => is_eq (cmp x y))) input) ->
  exists m, inline_eytzinger_map_new cmp sz input = Ok m /\
    built (eytzinger_ops cmpQ) (fun x y => is_eq (cmp x y)) (fun q k => is_eq (cmpQ q k)) m input.
Proof.
  intros Hsz. destruct (eytzinger_map_new_built input) as [m [E B]]. exists m. split; auto.
  unfold eytzinger_map_new, eytzinger_from_sorted in E. unfold inline_eytzinger_map_new.
  destruct (eytzinger_layout _) as [es| |]; cbn [bind] in *; try discriminate. injection E as <-.
  unfold into_array. pose proof (Permutation_length (built_entries _ _ _ _ _ B)) as HL. cbn in HL.
  rewrite <- HL, <- Hsz, Nat.eqb_refl. reflexivity.
Qed.
End Ordered.

Section HashMaps.
Context {K V Q : Type} (usort : list (N * (K * V)) -> list (N * (K * V))).
Hypothesis US : sorts_by_slot usort.

Lemma hash_map_with_hasher_built cm (eqK : K -> K -> bool) (eqv : Q -> K -> bool) (hK : K -> N) (hQ : Q -> N) (input : list (K * V)) :
  lawful_eq eqK -> lawful_hash eqK hK -> lawful_query_hash eqv hQ hK ->
  N.of_nat (length (survivors (same_key eqK) input)) <= max_capacity cm ->
  exists m, hash_map_with_hasher usort cm eqK hK input = Ok (ROk m) /\
    built (hash_ops (fun q => Ok (hQ q)) eqv) eqK eqv m input.
Proof.
  intros LE LH LQ Hc. unfold hash_map_with_hasher.
  rewrite (using_hash_survivors (fun x : K * V => hK (fst x)) (fun x y => eqK (fst x) (fst y))).
  2: exact (lawful_same_key eqK LE). 2: intros x y; apply LH.
  change (fun x y : K * V => eqK (fst x) (fst y)) with (@same_key K V eqK).
  destruct (hash_from_dedupped_spec usort cm (fun k => Ok (hK k)) hK (survivors (same_key eqK) input) US) as [m [E [HP HI]]]; auto.
  exists m. split; auto. constructor; [|auto].
  apply (hash_ok hK); auto. intros q. exists (hQ q). split; auto. intros k Hk. symmetry. apply LQ. auto.
Qed.

Lemma hash_map_with_hasher_err cm (eqK : K -> K -> bool) (hK : K -> N) (input : list (K * V)) :
  lawful_eq eqK -> lawful_hash eqK hK ->
  max_capacity cm < N.of_nat (length (survivors (same_key eqK) input)) ->
  exists msg, hash_map_with_hasher usort cm eqK hK input = Ok (RErr msg).
Proof.
  intros LE LH Hc. unfold hash_map_with_hasher, hash_from_dedupped.
  rewrite (using_hash_survivors (fun x : K * V => hK (fst x)) (fun x y => eqK (fst x) (fst y))).
  2: exact (lawful_same_key eqK LE). 2: intros x y; apply LH.
  change (fun x y : K * V => eqK (fst x) (fst y)) with (@same_key K V eqK).
  destruct (ht_new_too_many usort cm (survivors (same_key eqK) input) (fun e => Ok (hK (fst e)))) as [msg E]; auto.
  exists msg. rewrite E. reflexivity.
Qed.

Lemma fz_hash_map_built (eqK : K -> K -> bool) (eqv : Q -> K -> bool) (hK : K -> N) (hQ : Q -> N) (input : list (K * V)) :
  lawful_eq eqK -> lawful_hash eqK hK -> lawful_query_hash eqv hQ hK ->
  N.of_nat (length (survivors (same_key eqK) input)) <= usize_max ->
  exists m, fz_hash_map_with_hasher usort eqK hK input = Ok m /\
    built (hash_ops (fun q => Ok (hQ q)) eqv) eqK eqv m input.
Proof.
  intros LE LH LQ Hc. destruct (hash_map_with_hasher_built Large eqK eqv hK hQ input LE LH LQ Hc) as [m [E B]].
  exists m. split; auto. unfold fz_hash_map_with_hasher. unfold hash_map_with_hasher in E. rewrite E. reflexivity.
Qed.
End HashMaps.

Section Scalars.
Context {K V Q : Type} (idx : K -> N) (cmp : K -> K -> comparison) (idxQ : Q -> N) (eqv : Q -> K -> bool).
Hypothesis LS : lawful_scalar idx cmp.
Hypothesis LQ : lawful_query_scalar idx idxQ eqv.

Definition same_idx (a b : K) : bool := idx a =? idx b.

Lemma same_idx_eq : lawful_eq same_idx.
Proof. unfold same_idx. constructor; intros; rewrite ?N.eqb_eq in *; congruence. Qed.

Lemma same_idx_equivalent : lawful_equivalent same_idx eqv.
Proof.
  intros q k1 k2 H. rewrite (idxq_eqv_law _ _ _ LQ) in *. rewrite N.eqb_eq in H. unfold same_idx. rewrite H. reflexivity.
Qed.

Lemma same_idx_cmp a b : is_eq (cmp a b) = same_idx a b.
Proof.
  rewrite (idx_cmp_law _ _ LS). unfold same_idx. destruct (N.compare_spec (idx a) (idx b)) as [E|E|E]; cbn; symmetry.
  - rewrite E. apply N.eqb_refl.
  - apply N.eqb_neq. lia.
  - apply N.eqb_neq. lia.
Qed.

Notation sorted input := (sorted_and_dedupped input (fun x y : K * V => cmp (fst x) (fst y))).

Lemma scalar_sorted_perm (input : list (K * V)) : Permutation (survivors (same_key same_idx) input) (sorted input).
Proof.
  pose proof (lawful_ord_fst (V:=V) idx cmp LS) as LF. symmetry.
  eapply perm_trans; [apply (sorted_and_dedupped_perm _ LF)|].
  rewrite (survivors_ext _ (same_key same_idx)); [apply Permutation_refl|]. intros x y _ _.
  unfold same_key. apply same_idx_cmp.
Qed.

Lemma scalar_sorted_incr (input : list (K * V)) : incr (ixs idx (sorted input)).
Proof. apply (sorted_incr idx cmp LS). apply sorted_and_dedupped_sorted. apply (lawful_ord_fst idx cmp LS). Qed.

Lemma scalar_sorted_in (input : list (K * V)) e : In e (sorted input) -> In e input.
Proof.
  intros H. eapply Permutation_in in H; [|symmetry; apply scalar_sorted_perm]. eapply survivors_incl; eauto.
Qed.

Lemma scalar_sorted_cover (input : list (K * V)) e : In e input -> exists e', In e' (sorted input) /\ idx (fst e) = idx (fst e').
Proof.
  intros H. destruct (survivors_cover (same_key same_idx) input e (lawful_same_key _ same_idx_eq) H) as [y [Hy E]].
  exists y. split; [eapply Permutation_in; [apply scalar_sorted_perm|]; auto|]. apply N.eqb_eq. exact E.
Qed.

Lemma scalar_sorted_nil (input : list (K * V)) : sorted input = [] <-> input = [].
Proof. apply sorted_and_dedupped_nil. apply (lawful_ord_fst idx cmp LS). Qed.

Lemma dense_default_built : built (dense_ops idxQ) same_idx eqv (dense_map_default (V:=V)) [].
Proof.
  constructor; [|apply Permutation_refl]. apply (dense_ok idx idxQ eqv LQ). split; [intros [|p] k H; discriminate|].
  left. split; auto. cbn. lia.
Qed.

Lemma sparse_default_built : built (sparse_ops idxQ) same_idx eqv (sparse_map_default (V:=V)) [].
Proof.
  constructor; [|apply Permutation_refl]. apply (sparse_ok idx idxQ eqv LQ). split; [|split].
  - left. cbn. split; [lia|auto].
  - intros k [].
  - intros [|s] i H; discriminate.
Qed.

Lemma span_sorted (input : list (K * V)) first last :
  span_representable idx (map fst input) ->
  nth_error (sorted input) 0 = Some first -> nth_error (sorted input) (length (sorted input) - 1) = Some last ->
  idx (fst last) < idx (fst first) + usize_max.
Proof.
  intros Hspan E1 E2. apply Hspan; apply in_map; apply scalar_sorted_in; eapply nth_error_In; eauto.
Qed.

Lemma dense_sorted_built (input : list (K * V)) first last :
  nth_error (sorted input) 0 = Some first -> nth_error (sorted input) (length (sorted input) - 1) = Some last ->
  idx (fst last) - idx (fst first) + 1 = N.of_nat (length (sorted input)) ->
  exists m, dense_from_sorted idx (sorted input) = Ok m /\ built (dense_ops idxQ) same_idx eqv m input.
Proof.
  intros E1 E2 E3. destruct (dense_from_sorted_spec idx (sorted input) first last) as [m [E [Hm HI]]]; auto.
  { apply scalar_sorted_incr. }
  exists m. split; auto. constructor.
  - apply (dense_ok idx idxQ eqv LQ). rewrite Hm. auto.
  - cbn. rewrite Hm. apply scalar_sorted_perm.
Qed.

Lemma sparse_sorted_built md (input : list (K * V)) : input <> [] -> span_representable idx (map fst input) ->
  exists m, sparse_from_sorted md idx (sorted input) = Ok m /\ built (sparse_ops idxQ) same_idx eqv m input.
Proof.
  intros Hne Hspan. destruct (first_last_exist (sorted input)) as [first [last [E1 E2]]].
  { rewrite scalar_sorted_nil. auto. }
  destruct (sparse_from_sorted_spec idx md (sorted input) first last) as [m [E [Hm HI]]]; auto.
  { apply scalar_sorted_incr. }
  { eapply span_sorted; eauto. }
  exists m. split; auto. constructor.
  - apply (sparse_ok idx idxQ eqv LQ). rewrite Hm. auto.
  - cbn. rewrite Hm. apply scalar_sorted_perm.
Qed.

Lemma sparse_map_new_built md (input : list (K * V)) : span_representable idx (map fst input) ->
  exists m, sparse_map_new md idx cmp input = Ok m /\ built (sparse_ops idxQ) same_idx eqv m input.
Proof.
  intros Hspan. unfold sparse_map_new. destruct (sorted input) eqn:E; cbn [is_nil].
  - rewrite scalar_sorted_nil in E. subst. eexists. split; [reflexivity|apply sparse_default_built].
  - rewrite <- E. apply sparse_sorted_built; auto. intros ->. discriminate.
Qed.

Lemma contiguous_sorted (input : list (K * V)) first last :
  nth_error (sorted input) 0 = Some first -> nth_error (sorted input) (length (sorted input) - 1) = Some last ->
  (idx (fst last) - idx (fst first) + 1 = N.of_nat (length (sorted input)) <-> contiguous idx (map fst input)).
Proof.
  intros E1 E2. pose proof (scalar_sorted_incr input) as HI.
  pose proof (incr_first_last idx (sorted input) first last HI E1 E2) as HB.
  assert (Hf : In (idx (fst first)) (ixs idx (sorted input))).
  { apply (in_map (fun e => idx (fst e))). eapply nth_error_In; eauto. }
  assert (Hl : In (idx (fst last)) (ixs idx (sorted input))).
  { apply (in_map (fun e => idx (fst e))). eapply nth_error_In; eauto. }
  pose proof (nodup_fills (ixs idx (sorted input)) (idx (fst first)) (idx (fst last)) (incr_NoDup _ HI) Hf HB) as NF.
  unfold ixs in NF at 1. rewrite map_length in NF. rewrite NF. clear NF.
  assert (HIN : forall x, In x (ixs idx (sorted input)) <-> exists k, In k (map fst input) /\ idx k = x).
  { intros x. unfold ixs. rewrite in_map_iff. split.
    - intros [e [<- He]]. exists (fst e). split; auto. apply in_map. apply scalar_sorted_in. auto.
    - intros [k [Hk <-]]. apply in_map_iff in Hk. destruct Hk as [e [<- He]].
      destruct (scalar_sorted_cover input e He) as [e' [He' E]]. exists e'. auto. }
  split.
  - intros H a b x Ha Hb Hx. apply HIN. apply H.
    assert (In (idx a) (ixs idx (sorted input))) as Ha' by (apply HIN; eauto).
    assert (In (idx b) (ixs idx (sorted input))) as Hb' by (apply HIN; eauto).
    apply HB in Ha', Hb'. lia.
  - intros H x Hx. apply HIN. apply HIN in Hf, Hl. destruct Hf as [a [Ha Ea]], Hl as [b [Hb Eb]].
    apply (H a b); auto. lia.
Qed.

Lemma dense_map_new_built md (input : list (K * V)) : span_representable idx (map fst input) -> contiguous idx (map fst input) ->
  exists m, dense_map_new md idx cmp input = Ok (ROk m) /\ built (dense_ops idxQ) same_idx eqv m input.
Proof.
  intros Hspan Hcont. unfold dense_map_new, dense_new_sorted. destruct (sorted input) as [|e0 r0] eqn:E; cbn [is_nil].
  - rewrite scalar_sorted_nil in E. subst. eexists. split; [reflexivity|apply dense_default_built].
  - rewrite <- E. assert (Hne : sorted input <> []) by congruence. clear E.
    destruct (first_last_exist (sorted input) Hne) as [first [last [E1 E2]]].
    unfold index. rewrite E1, E2. cbn [bind].
    pose proof (scalar_sorted_incr input) as HI.
    pose proof (span_sorted input first last Hspan E1 E2) as HS.
    assert (Hle : idx (fst first) <= idx (fst last)).
    { apply (incr_first_last idx (sorted input) first last HI E1 E2). apply (in_map (fun e => idx (fst e))). eapply nth_error_In; eauto. }
    rewrite usub_ok by lia. cbn [bind]. rewrite uadd_ok by lia. cbn [bind].
    pose proof (proj2 (contiguous_sorted input first last E1 E2) Hcont) as HC. rewrite HC, N.eqb_refl.
    destruct (dense_sorted_built input first last E1 E2 HC) as [m [Em B]]. exists m. rewrite Em. auto.
Qed.

Lemma dense_map_new_err md (input : list (K * V)) : span_representable idx (map fst input) -> ~ contiguous idx (map fst input) ->
  exists msg, dense_map_new md idx cmp input = Ok (RErr msg).
Proof.
  intros Hspan Hcont. unfold dense_map_new, dense_new_sorted. destruct (sorted input) as [|e0 r0] eqn:E; cbn [is_nil].
  - rewrite scalar_sorted_nil in E. subst. exfalso. apply Hcont. intros a b x [].
  - rewrite <- E. assert (Hne : sorted input <> []) by congruence. clear E.
    destruct (first_last_exist (sorted input) Hne) as [first [last [E1 E2]]].
    unfold index. rewrite E1, E2. cbn [bind].
    pose proof (scalar_sorted_incr input) as HI.
    pose proof (span_sorted input first last Hspan E1 E2) as HS.
    assert (Hle : idx (fst first) <= idx (fst last)).
    { apply (incr_first_last idx (sorted input) first last HI E1 E2). apply (in_map (fun e => idx (fst e))). eapply nth_error_In; eauto. }
    rewrite usub_ok by lia. cbn [bind]. rewrite uadd_ok by lia. cbn [bind].
    destruct (N.eqb_spec (N.of_nat (length (sorted input))) (idx (fst last) - idx (fst first) + 1)) as [EC|EC].
    + exfalso. apply Hcont. apply (contiguous_sorted input first last E1 E2). auto.
    + eexists. reflexivity.
Qed.

Context (usort : list (N * (K * V)) -> list (N * (K * V))).
Hypothesis US : sorts_by_slot usort.

Lemma scalar_hash_built (input : list (K * V)) : N.of_nat (length (sorted input)) <= usize_max ->
  exists m, hash_from_dedupped usort Large (fun k => scalar_hash_one (idx k)) (sorted input) = Ok (ROk m) /\
    built (hash_ops (fun q => scalar_hash_one (idxQ q)) eqv) same_idx eqv m input.
Proof.
  intros Hc.
  destruct (hash_from_dedupped_spec usort Large (fun k => scalar_hash_one (idx k)) idx (sorted input) US) as [m [E [HP HI]]]; auto.
  exists m. split; auto. constructor.
  - apply (hash_ok idx); auto. intros q. exists (idxQ q). split; auto. intros k Hk. rewrite (idxq_eqv_law _ _ _ LQ) in Hk.
    apply N.eqb_eq in Hk. auto.
  - cbn. eapply perm_trans; [apply scalar_sorted_perm|auto].
Qed.

Lemma fs_hash_built m (input : list (K * V)) :
  built (hash_ops (fun q => scalar_hash_one (idxQ q)) eqv) same_idx eqv m input ->
  built (fz_scalar_ops idxQ eqv) same_idx eqv (FsHash m) input.
Proof.
  intros [[a b c d] e]. constructor; [constructor|]; auto; cbn in *; intros; try (f_equal; auto; fail); try apply (d _ H).
Qed.
Lemma fs_dense_built m (input : list (K * V)) :
  built (dense_ops idxQ) same_idx eqv m input -> built (fz_scalar_ops idxQ eqv) same_idx eqv (FsDense m) input.
Proof.
  intros [[a b c d] e]. constructor; [constructor|]; auto; cbn in *; intros; try (f_equal; auto; fail); try apply (d _ H).
Qed.
Lemma fs_sparse_built m (input : list (K * V)) :
  built (sparse_ops idxQ) same_idx eqv m input -> built (fz_scalar_ops idxQ eqv) same_idx eqv (FsSparse m) input.
Proof.
  intros [[a b c d] e]. constructor; [constructor|]; auto; cbn in *; intros; try (f_equal; auto; fail); try apply (d _ H).
Qed.

Lemma fz_scalar_map_built md (input : list (K * V)) : span_representable idx (map fst input) ->
  N.of_nat (length (survivors (same_key same_idx) input)) <= usize_max ->
  exists m, fz_scalar_map_new usort md idx cmp input = Ok m /\ built (fz_scalar_ops idxQ eqv) same_idx eqv m input.
Proof.
  intros Hspan Hc. rewrite (Permutation_length (scalar_sorted_perm input)) in Hc. unfold fz_scalar_map_new, fz_scalar_new_sorted.
  destruct (sorted input) as [|e0 r0] eqn:E.
  - rewrite scalar_sorted_nil in E. subst. cbn. eexists. split; [reflexivity|].
    destruct (scalar_hash_built []) as [m [Em B]]; [cbn; lia|]. cbn in Em. injection Em as <-. apply fs_hash_built. exact B.
  - rewrite <- E in *. assert (Hne : sorted input <> []) by congruence. clear E e0 r0.
    assert (Hin : forall x, In x (ixs idx (sorted input)) -> exists k, In k (map fst input) /\ idx k = x).
    { intros x Hx. unfold ixs in Hx. apply in_map_iff in Hx. destruct Hx as [e [<- He]]. exists (fst e). split; auto.
      apply in_map. apply scalar_sorted_in. auto. }
    destruct (analyze_scalar_spec md (ixs idx (sorted input))) as [mn [mx [H1 [H2 [H3 EA]]]]].
    { unfold ixs. intros H. apply map_eq_nil in H. auto. }
    { apply (ixs_bound idx cmp LS). }
    { intros a b Ha Hb. apply Hin in Ha, Hb. destruct Ha as [ka [Ha <-]], Hb as [kb [Hb <-]]. apply Hspan; auto. }
    change (map (fun e : K * V => idx (fst e)) (sorted input)) with (ixs idx (sorted input)). rewrite EA. cbn [bind]. clear EA.
    assert (HL : length (ixs idx (sorted input)) = length (sorted input)) by (unfold ixs; apply map_length).
    destruct (N.eqb_spec (mx - mn + 1) (N.of_nat (length (ixs idx (sorted input))))) as [ED|ED].
    + destruct (first_last_exist (sorted input) Hne) as [first [last [E1 E2]]].
      pose proof (incr_first_last idx (sorted input) first last (scalar_sorted_incr input) E1 E2) as HB.
      assert (Hf : In (idx (fst first)) (ixs idx (sorted input))).
      { apply (in_map (fun e => idx (fst e))). eapply nth_error_In; eauto. }
      assert (Hl : In (idx (fst last)) (ixs idx (sorted input))).
      { apply (in_map (fun e => idx (fst e))). eapply nth_error_In; eauto. }
      pose proof (HB _ H1). pose proof (HB _ H2). pose proof (H3 _ Hf). pose proof (H3 _ Hl).
      destruct (dense_sorted_built input first last E1 E2) as [m [Em B]]; [lia|].
      rewrite Em. cbn. eexists. split; [reflexivity|]. apply fs_dense_built. auto.
    + destruct ((mx - mn + 1 <=? 128) || _).
      * destruct (sparse_sorted_built md input) as [m [Em B]]; auto.
        { intros ->. apply Hne. apply scalar_sorted_nil. auto. }
        rewrite Em. cbn. eexists. split; [reflexivity|]. apply fs_sparse_built. auto.
      * destruct (scalar_hash_built input Hc) as [m [Em B]]. rewrite Em. cbn. eexists. split; [reflexivity|].
        apply fs_hash_built. auto.
Qed.
End Scalars.

(** * Strings *)

Lemma bytes_eqb_eq a b : bytes_eqb a b = true <-> a = b.
Proof.
  revert b. induction a as [|x a IH]; intros [|y b]; cbn; try (split; congruence).
  rewrite Bool.andb_true_iff, N.eqb_eq, IH. split; [intros [-> ->]; auto|intros H; injection H; auto].
Qed.

Lemma bytes_eqb_lawful : lawful_eq bytes_eqb.
Proof. constructor; intros; rewrite ?bytes_eqb_eq in *; congruence. Qed.

Lemma bytes_eqb_equivalent : lawful_equivalent bytes_eqb bytes_eqb.
Proof. intros q k1 k2 H. apply bytes_eqb_eq in H. subst. reflexivity. Qed.

Lemma bytes_cmp_eq a b : bytes_cmp a b = Eq <-> a = b.
Proof.
  revert b. induction a as [|x a IH]; intros [|y b]; cbn; try (split; congruence).
  destruct (N.compare_spec x y) as [E|E|E].
  - rewrite IH. subst. split; [congruence|]. intros H. injection H. auto.
  - split; [discriminate|]. intros H. injection H. intros. lia.
  - split; [discriminate|]. intros H. injection H. intros. lia.
Qed.

Lemma bytes_cmp_lawful : lawful_ord bytes_cmp.
Proof.
  constructor.
  - intros x. apply bytes_cmp_eq. auto.
  - induction x as [|a x IH]; intros [|b y]; cbn; auto. rewrite (N.compare_antisym a b).
    destruct (a ?= b); cbn; auto.
  - intros x y z H. apply bytes_cmp_eq in H. subst. auto.
  - induction x as [|a x IH]; intros [|b y] [|c z]; cbn; try discriminate; auto.
    destruct (N.compare_spec a b) as [E|E|E]; destruct (N.compare_spec b c) as [F|F|F]; try discriminate; intros H1 H2.
    + subst. rewrite N.compare_refl. eauto.
    + subst. rewrite (proj2 (N.compare_lt_iff _ _) F). auto.
    + subst. rewrite (proj2 (N.compare_lt_iff _ _) E). auto.
    + assert (a < c) as G by lia. rewrite (proj2 (N.compare_lt_iff _ _) G). auto.
Qed.

Lemma is_eq_bytes a b : is_eq (bytes_cmp a b) = bytes_eqb a b.
Proof.
  destruct (bytes_eqb a b) eqn:E.
  - apply bytes_eqb_eq in E. apply bytes_cmp_eq in E. rewrite E. auto.
  - destruct (bytes_cmp a b) eqn:F; auto. apply bytes_cmp_eq in F. apply bytes_eqb_eq in F. congruence.
Qed.

(** range hashers never fail on a range with lo <= hi *)
Lemma left_range_total bh lo hi s : lo <= hi ->
  left_range_hash_one bh lo hi s = Ok (if N.of_nat (length s) <? hi then 0 else bh_bytes bh (left_part lo hi s)).
Proof.
  intros H. unfold left_range_hash_one. destruct (N.ltb_spec (N.of_nat (length s)) hi); auto.
  unfold slice, left_part. destruct (Nat.leb_spec (N.to_nat lo) (N.to_nat hi)); [|lia].
  destruct (Nat.leb_spec (N.to_nat hi) (length s)); [|lia]. cbn [andb bind]. do 3 f_equal. lia.
Qed.

Lemma right_range_total bh lo hi s : lo <= hi ->
  right_range_hash_one bh lo hi s = Ok (if N.of_nat (length s) <? hi then 0 else bh_bytes bh (right_part lo hi s)).
Proof.
  intros H. unfold right_range_hash_one. destruct (N.ltb_spec (N.of_nat (length s)) hi); auto.
  unfold sub_no_underflow. destruct (N.leb_spec hi (N.of_nat (length s))); [|lia].
  destruct (N.leb_spec lo (N.of_nat (length s))); [|lia]. cbn [bind]. unfold slice, right_part.
  match goal with |- context [(Nat.leb ?a ?b && Nat.leb ?b ?c)] =>
      destruct (Nat.leb_spec a b); [|lia]; destruct (Nat.leb_spec b c); [|lia] end.
  cbn [andb bind]. do 3 f_equal; [lia|]. f_equal. lia.
Qed.

Section Strings.
Context {V : Type} (usort : list (N * (bytes * V)) -> list (N * (bytes * V))) (bh : build_hasher).
Hypothesis US : sorts_by_slot usort.
Notation sorted input := (using_cmp input (fun x y : bytes * V => bytes_cmp (fst x) (fst y))).

Lemma string_sorted_perm (input : list (bytes * V)) : Permutation (survivors (same_key bytes_eqb) input) (sorted input).
Proof.
  symmetry. eapply perm_trans; [apply (sorted_and_dedupped_perm _ (ord_fst (V:=V) bytes_cmp bytes_cmp_lawful))|].
  rewrite (survivors_ext _ (same_key bytes_eqb)); [apply Permutation_refl|]. intros x y _ _. unfold same_key. apply is_eq_bytes.
Qed.

Lemma string_hash_built (hK : bytes -> res N) (h : bytes -> N) (input : list (bytes * V)) :
  (forall s, hK s = Ok (h s)) -> N.of_nat (length (sorted input)) <= usize_max ->
  exists m, hash_from_dedupped usort Large hK (sorted input) = Ok (ROk m) /\ built (hash_ops hK bytes_eqb) bytes_eqb bytes_eqb m input.
Proof.
  intros Hh Hc. destruct (hash_from_dedupped_spec usort Large hK h (sorted input) US) as [m [E [HP HI]]]; auto.
  exists m. split; auto. constructor.
  - apply (hash_ok h); auto. intros q. exists (h q). split; auto. intros k Hk. apply bytes_eqb_eq in Hk. congruence.
  - cbn. eapply perm_trans; [apply string_sorted_perm|auto].
Qed.

Lemma sm_built (m : fz_string_map V) (input : list (bytes * V)) :
  built (sm_ops m) bytes_eqb bytes_eqb (sm_inner m) input ->
  built fz_string_ops bytes_eqb bytes_eqb m input.
Proof.
  intros [[a b c d] e]. constructor; auto.
  destruct m; (constructor; [exact (f_equal _ a)|exact b|intros es es'; exact (f_equal _ (c es es'))|exact d]).
Qed.

Lemma fz_string_map_built (input : list (bytes * V)) :
  N.of_nat (length (survivors (same_key bytes_eqb) input)) <= usize_max ->
  (forall e, In e input -> N.of_nat (length (fst e)) <= usize_max) ->
  exists m, fz_string_map_with_hasher usort bh input = Ok m /\ built fz_string_ops bytes_eqb bytes_eqb m input.
Proof.
  intros Hc Hl. rewrite (Permutation_length (string_sorted_perm input)) in Hc. unfold fz_string_map_with_hasher.
  destruct (analyze_slice_keys_spec N.eqb (bh_bytes bh) N.eqb_refl (map fst (sorted input))) as [a [EA HA]].
  { intros s Hs. apply in_map_iff in Hs. destruct Hs as [e [<- He]]. apply Hl.
    eapply Permutation_in in He; [|symmetry; apply string_sorted_perm]. eapply survivors_incl; eauto. }
  rewrite EA. cbn [bind]. destruct a as [|lo hi|lo hi|]; cbn [analysis_ok] in HA.
  - destruct (string_hash_built (bridge_hash_one bh) _ input (fun s => eq_refl) Hc) as [m [E B]].
    rewrite E. cbn. eexists. split; [reflexivity|]. apply sm_built. exact B.
  - destruct HA as [HA _].
    destruct (string_hash_built (left_range_hash_one bh lo hi) _ input (fun s => left_range_total bh lo hi s ltac:(lia)) Hc) as [m [E B]].
    rewrite E. cbn. eexists. split; [reflexivity|]. apply sm_built. exact B.
  - destruct HA as [HA _].
    destruct (string_hash_built (right_range_hash_one bh lo hi) _ input (fun s => right_range_total bh lo hi s ltac:(lia)) Hc) as [m [E B]].
    rewrite E. cbn. eexists. split; [reflexivity|]. apply sm_built. exact B.
  - destruct (string_hash_built (bridge_hash_one bh) _ input (fun s => eq_refl) Hc) as [m [E B]].
    rewrite E. cbn. eexists. split; [reflexivity|]. apply sm_built. exact B.
Qed.

Lemma fz_string_default_built : built fz_string_ops bytes_eqb bytes_eqb (fz_string_map_default (V:=V) bh) [].
Proof.
  apply sm_built. cbn. destruct (string_hash_built (bridge_hash_one bh) _ [] (fun s => eq_refl)) as [m [E B]]; [cbn; lia|].
  cbn in E. injection E as <-. exact B.
Qed.
End Strings.
