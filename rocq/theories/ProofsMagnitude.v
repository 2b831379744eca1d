(** Hash maps over any implementation of [CollectionMagnitude] (see ModelMagnitude.v, SpecMagnitude.v). *)
From Coq Require Import String Permutation.
From Verif Require Import ModelUtils ModelAnalyzers ModelTables ModelMaps ModelMagnitude Spec SpecMade SpecSafe SpecMagnitude.
From Verif Require Import ProofsBase ProofsAnalyzer ProofsDedup ProofsTable ProofsFz ProofsMade ProofsEmitProps ProofsSafe.
From Verif Require Import Prelude.

Section Retag.
Variable cm : magnitude_impl.
Hypothesis HC : mg_max_capacity cm <= usize_max.

(** A slot of the table over [usize], as it looks over [cm]; empty slots are never written. *)
Definition retag (ab : N * N) : mg_elem cm * mg_elem cm :=
  if snd ab =? 0 then (mg_zero cm, mg_zero cm) else (try_from_or cm (fst ab), try_from_or cm (snd ab)).
Definition retag_table {T} (t : hash_table T) : cm_table cm T :=
  {| ct_slots := map retag (ht_slots t); ct_entries := ht_entries t; ct_mask := ht_mask t |}.

Lemma into_try_from v : mg_into cm (try_from_or cm v) = read_back cm v.
Proof. unfold try_from_or, read_back. destruct (mg_try_from cm v); reflexivity. Qed.

Lemma map_list_set {A B} (f : A -> B) l : forall i x, map f (list_set l i x) = list_set (map f l) i (f x).
Proof. induction l as [|a l IH]; intros [|i] x; cbn; auto. rewrite IH. reflexivity. Qed.

Lemma try_from_large v : v <= usize_max -> try_from_or_zero Large v = v.
Proof. intros H. unfold try_from_or_zero. apply N.leb_le in H. cbn [index_max]. rewrite H. reflexivity. Qed.

Lemma fill_retag {T} : forall fuel (items : list (N * T)) idx slots F slots1 F1,
  idx + N.of_nat (List.length items) <= usize_max ->
  fill_slots Large fuel items idx slots F = Ok (slots1, F1) ->
  ct_fill_slots cm fuel items idx (map retag slots) F = Ok (map retag slots1, F1).
Proof.
  induction fuel as [|fuel IH]; intros items idx slots F slots1 F1 Hl H; [discriminate H|].
  cbn [fill_slots ct_fill_slots] in *. destruct items as [|[slot e] r]; [congruence|].
  pose proof (pop_run_spec slot r) as P. destruct (pop_run slot r) as [run rest]. destruct P as [P _].
  assert (Hlr : List.length r = (List.length run + List.length rest)%nat) by (rewrite P, app_length, map_length; reflexivity).
  cbn [List.length] in Hl. unfold store in *. rewrite map_length.
  destruct (Nat.ltb (N.to_nat slot) (List.length slots)); cbn [bind] in *; [|discriminate H].
  rewrite !try_from_large in H by lia.
  apply IH in H; [|lia]. rewrite map_list_set in H. unfold retag at 2 in H. cbn [fst snd] in H.
  destruct (N.eqb_spec (idx + N.of_nat (S (List.length run))) 0); [lia|]. exact H.
Qed.

Lemma ct_new_retag {T} usort (entries : list T) hash t : sorts_by_slot usort ->
  N.of_nat (List.length entries) <= mg_max_capacity cm ->
  ht_new usort Large entries hash = Ok (ROk t) -> ct_new cm usort entries hash = Ok (ROk (retag_table t)).
Proof.
  intros HU Hl H. unfold ht_new, ct_new in *. destruct (is_nil entries).
  { injection H as <-. unfold ct_default, retag_table, ht_default. cbn. reflexivity. }
  cbn [max_capacity index_max] in H.
  destruct (N.ltb_spec (mg_max_capacity cm) (N.of_nat (List.length entries))); [lia|].
  destruct (N.ltb_spec usize_max (N.of_nat (List.length entries))); [lia|].
  destruct (mapM hash entries) as [codes| |]; cbn [bind] in *; try discriminate H.
  destruct (analyze_hash_codes codes) as [[m c]| |]; cbn [bind fst] in *; try discriminate H.
  destruct (prep_items hash m entries) as [items| |] eqn:E; cbn [bind] in *; try discriminate H.
  assert (Hi : List.length (usort items) = List.length entries).
  { destruct (HU items) as [P _]. rewrite <- (Permutation_length P). unfold prep_items in E.
    transitivity (List.length (rev entries)); [|apply rev_length].
    clear - E. revert items E. induction (rev entries) as [|a l IH]; cbn [mapM]; intros items E; [injection E as <-; reflexivity|].
    destruct (_ : res (N * T)) as [b| |] in E; cbn [bind] in E; try discriminate E.
    destruct (mapM _ l) as [bs| |]; cbn [bind] in E; try discriminate E. injection E as <-. cbn. f_equal. apply IH. reflexivity. }
  destruct (fill_slots Large _ _ _ _ _) as [[slots F]| |] eqn:EF; cbn [bind] in H; try discriminate H.
  apply fill_retag in EF; [|rewrite rev_length; lia].
  assert (R : map retag (repeat (0, 0) (N.to_nat m)) = repeat (mg_zero cm, mg_zero cm) (N.to_nat m)).
  { generalize (N.to_nat m). intros n. induction n as [|n IH]; cbn; [reflexivity|]. f_equal; exact IH. }
  rewrite R in EF. rewrite EF. cbn [bind]. rewrite map_length.
  destruct (sub_no_underflow _ 1); cbn [bind] in *; try discriminate H. injection H as <-. reflexivity.
Qed.

Lemma ct_new_ok {T} usort (entries : list T) (h : T -> N) : sorts_by_slot usort ->
  N.of_nat (List.length entries) <= mg_max_capacity cm ->
  exists t, ht_new usort Large entries (fun e => Ok (h e)) = Ok (ROk t) /\ Permutation entries (ht_entries t) /\
    ht_inv (map h (ht_entries t)) t /\ ct_new cm usort entries (fun e => Ok (h e)) = Ok (ROk (retag_table t)).
Proof.
  intros HU Hl. destruct (ht_new_spec usort Large entries (fun e => Ok (h e)) h HU) as [t [E [P I]]]; auto.
  { cbn [max_capacity index_max]. lia. }
  exists t. repeat split; auto; try apply I. apply ct_new_retag; auto.
Qed.

Lemma ct_new_err {T} usort (entries : list T) hash : mg_max_capacity cm < N.of_nat (List.length entries) ->
  ct_new cm usort entries hash = Ok (RErr "too many entries for the selected collection magnitude").
Proof.
  intros H. unfold ct_new. destruct entries as [|e r]; [cbn in H; lia|]. cbn [is_nil].
  destruct (N.ltb_spec (mg_max_capacity cm) (N.of_nat (List.length (e :: r)))); [reflexivity|lia].
Qed.

(** * Safety *)
Lemma in_order_le (KR : keeps_in_range cm) a b : a <= b -> b <= mg_max_capacity cm -> read_back cm a <= read_back cm b.
Proof.
  intros H. revert b H. apply (N.le_ind (fun b => b <= mg_max_capacity cm -> read_back cm a <= read_back cm b)).
  - intros x y ->. reflexivity.
  - lia.
  - intros m Hm IH Hc. pose proof (kr_in_order cm KR m). rewrite <- N.add_1_r in *. lia.
Qed.

Lemma ct_find_safe (KR : keeps_in_range cm) {T} codes (t : hash_table T) h eq : ht_inv codes t ->
  N.of_nat (List.length (ht_entries t)) <= mg_max_capacity cm ->
  exists o, ct_find_mut cm (retag_table t) h eq = Ok o /\
    ct_find cm (retag_table t) h eq = Ok (opt_bind o (nth_error (ht_entries t))) /\
    match o with Some p => exists e, nth_error (ht_entries t) p = Some e | None => True end.
Proof.
  intros [Hl [k [Hs [Hm Hinv]]]] Hc. unfold ct_find, ct_find_mut, retag_table. cbn [ct_slots ct_entries ct_mask].
  rewrite Hm, land_mask.
  assert (Hlt : h mod 2 ^ k < 2 ^ k) by (apply N.mod_lt, pow2_nz).
  destruct (Hinv _ Hlt) as [[a b] [H1 [H2 [H3 _]]]]. cbn [fst snd] in *. rewrite Hl in H3.
  unfold get_unchecked. rewrite nth_error_map, H1. cbn [option_map bind].
  assert (R : exists x y, retag (a, b) = (x, y) /\ mg_into cm x <= mg_into cm y /\ mg_into cm y <= N.of_nat (List.length (ht_entries t))).
  { unfold retag. cbn [fst snd]. destruct (N.eqb_spec b 0) as [->|Hb]; do 2 eexists; (split; [reflexivity|]).
    - rewrite (kr_zero cm KR). lia.
    - rewrite !into_try_from. pose proof (kr_not_more cm KR b). pose proof (in_order_le KR a b). lia. }
  destruct R as [x [y [-> [R1 R2]]]]. cbn [fst snd]. unfold slice_unchecked.
  set (i := N.to_nat (mg_into cm x)) in *. set (j := N.to_nat (mg_into cm y)) in *.
  destruct (Nat.leb_spec i j); [|lia]. destruct (Nat.leb_spec j (List.length (ht_entries t))); [|lia]. cbn [andb bind].
  pose proof (scan_slot_both eq (firstn (j - i) (skipn i (ht_entries t))) i) as S.
  destruct (scan_slot_mut eq i (firstn (j - i) (skipn i (ht_entries t)))) as [p|].
  - destruct S as [n [e [-> [Hi [He Hf]]]]]. exists (Some (i + n)%nat). split; [reflexivity|].
    rewrite nth_error_firstn in Hi. destruct (Nat.ltb n _); [|discriminate].
    rewrite nth_error_skipn in Hi. cbn [opt_bind]. rewrite Hi, Hf. split; eauto.
  - destruct S as [Hn _]. exists None. rewrite Hn. auto.
Qed.

Lemma retag_safe (KR : keeps_in_range cm) {K V Q} codes (t : hash_table (K * V)) (hQ : Q -> N) eqv q : ht_inv codes t ->
  N.of_nat (List.length (ht_entries t)) <= mg_max_capacity cm ->
  answers_safely (ct_ops cm (fun q => Ok (hQ q)) eqv) (retag_table t) q.
Proof.
  intros HI Hc.
  destruct (ct_find_safe KR codes t (hQ q) (fun entry => eqv q (fst entry)) HI Hc) as [o [E1 [E2 E3]]].
  constructor; cbn [ct_ops mo_get mo_get_mut mo_get_key_value mo_contains_key mo_entries];
    unfold ct_contains_key, ct_get, ct_get_mut, ct_get_key_value; cbn [bind]; rewrite ?E1, ?E2; cbn [fmap];
    try (eexists; reflexivity); (eexists; split; [reflexivity|]; intros x H); destruct o as [p|]; try discriminate H;
    cbn [opt_bind] in H; destruct E3 as [e E3]; rewrite ?E3 in H; injection H as <-; cbn [retag_table ct_entries].
  - apply in_map. eapply nth_error_In; eauto.
  - apply nth_error_Some. congruence.
  - destruct e. eapply nth_error_In; eauto.
Qed.

Lemma cm_safe (KR : keeps_in_range cm) K V Q usort (eqK : K -> K -> bool) hK hQ (eqv : Q -> K -> bool) (input : list (K * V)) :
  sorts_by_slot usort -> exists r, ct_with_hasher cm usort eqK hK input = Ok r /\
    forall m, r = ROk m -> forall q, answers_safely (ct_ops cm (fun q => Ok (hQ q)) eqv) m q.
Proof.
  intros HU. unfold ct_with_hasher. set (es := using_hash _ _ _).
  destruct (N.le_gt_cases (N.of_nat (List.length es)) (mg_max_capacity cm)) as [H|H].
  - destruct (ct_new_ok usort es (fun e => hK (fst e)) HU H) as [t [_ [P [I E]]]]. rewrite E. eexists. split; [reflexivity|].
    intros m Em q. injection Em as <-. eapply retag_safe; eauto. rewrite <- (Permutation_length P). exact H.
  - rewrite ct_new_err by exact H. eexists. split; [reflexivity|]. discriminate.
Qed.

Lemma cm_default_safe (KZ : mg_into cm (mg_zero cm) = 0) K V Q hQ (eqv : Q -> K -> bool) q :
  answers_safely (V := V) (ct_ops cm (fun q => Ok (hQ q)) eqv) (ct_default cm) q.
Proof.
  constructor; cbn; unfold ct_contains_key, ct_get, ct_get_mut, ct_get_key_value, ct_find, ct_find_mut; cbn;
    replace (N.land (hQ q) 0) with 0 by (symmetry; apply N.land_0_r); cbn; rewrite KZ; cbn; try (eexists; reflexivity);
    (eexists; split; [reflexivity|discriminate]).
Qed.

(** * Exact answers *)
Lemma ct_find_exact (KI : keeps_indices cm) {T} codes (t : hash_table T) h eq : ht_inv codes t ->
  N.of_nat (List.length (ht_entries t)) <= mg_max_capacity cm ->
  ct_find_mut cm (retag_table t) h eq = ht_find_mut t h eq /\ ct_find cm (retag_table t) h eq = ht_find t h eq.
Proof.
  intros [Hl [k [Hs [Hm Hinv]]]] Hc. unfold ct_find, ct_find_mut, ht_find, ht_find_mut, retag_table. cbn [ct_slots ct_entries ct_mask].
  rewrite Hm, land_mask.
  assert (Hlt : h mod 2 ^ k < 2 ^ k) by (apply N.mod_lt, pow2_nz).
  destruct (Hinv _ Hlt) as [[a b] [H1 [H2 [H3 _]]]]. cbn [fst snd] in *. rewrite Hl in H3.
  unfold get_unchecked. rewrite nth_error_map, H1. cbn [option_map bind].
  assert (R : mg_into cm (fst (retag (a, b))) = a /\ mg_into cm (snd (retag (a, b))) = b).
  { unfold retag. cbn [fst snd]. destruct (N.eqb_spec b 0) as [->|Hb]; cbn [fst snd].
    - rewrite (ki_zero cm KI). lia.
    - rewrite !into_try_from, !(ki_exact cm KI) by lia. auto. }
  destruct R as [-> ->]. auto.
Qed.

Lemma cm_exact (KI : keeps_indices cm) K V Q usort eqK eqv hK hQ (input : list (K * V)) :
  sorts_by_slot usort -> lawful_eq eqK -> lawful_equivalent eqK eqv -> lawful_hash eqK hK -> lawful_query_hash (Q := Q) eqv hQ hK ->
  N.of_nat (key_count eqK input) <= mg_max_capacity cm ->
  exists m, ct_with_hasher cm usort eqK hK input = Ok (ROk m) /\ answers (ct_ops cm (fun q => Ok (hQ q)) eqv) eqK eqv m input.
Proof.
  intros HU LE LV LH LQ Hc.
  destruct (hash_map_with_hasher_built usort HU Large eqK eqv hK hQ input LE LH LQ) as [m [E B]].
  { cbn [max_capacity index_max]. unfold key_count in Hc. lia. }
  pose proof (built_answers _ _ _ _ _ LE LV B) as [A1 A2 A3 A4 A5 A6].
  unfold hash_map_with_hasher, hash_from_dedupped in E. unfold ct_with_hasher.
  set (es := using_hash _ _ _) in *.
  assert (Hes : N.of_nat (List.length es) <= mg_max_capacity cm).
  { unfold es. rewrite (using_hash_survivors (fun x : K * V => hK (fst x)) (fun x y => eqK (fst x) (fst y))).
    - exact Hc.
    - exact (lawful_same_key eqK LE).
    - intros x y; apply LH. }
  destruct (ct_new_ok usort es (fun e => hK (fst e)) HU Hes) as [t [E1 [P [I E2]]]].
  rewrite E1 in E. cbn [bind] in E. injection E as <-. rewrite E2. eexists. split; [reflexivity|].
  assert (Hc' : N.of_nat (List.length (ht_entries t)) <= mg_max_capacity cm) by (rewrite <- (Permutation_length P); exact Hes).
  assert (F : forall h eq, ct_find_mut cm (retag_table t) h eq = ht_find_mut t h eq /\ ct_find cm (retag_table t) h eq = ht_find t h eq)
    by (intros h eq; apply (ct_find_exact KI _ t h eq I Hc')).
  unfold hash_ops, hash_get, hash_get_key_value, hash_contains_key, hash_get, hash_get_mut in A1, A2, A3, A4.
  cbn [mo_get mo_get_key_value mo_contains_key mo_get_mut mo_entries hm_table bind] in A1, A2, A3, A4, A5.
  constructor; cbn [ct_ops mo_get mo_get_mut mo_get_key_value mo_contains_key mo_entries retag_table ct_entries];
    unfold ct_contains_key, ct_get, ct_get_mut, ct_get_key_value; cbn [bind]; try (intros q).
  - rewrite (proj2 (F _ _)). apply A1.
  - rewrite (proj2 (F _ _)). apply A2.
  - rewrite (proj2 (F _ _)). apply A3.
  - rewrite (proj1 (F _ _)). apply A4.
  - apply A5.
  - exact A6.
Qed.

Lemma cm_too_many K V usort eqK hK (input : list (K * V)) : lawful_eq eqK -> lawful_hash eqK hK ->
  mg_max_capacity cm < N.of_nat (key_count eqK input) ->
  ct_with_hasher cm usort eqK hK input = Ok (RErr "too many entries for the selected collection magnitude").
Proof.
  intros LE LH H. unfold ct_with_hasher. apply ct_new_err.
  rewrite (using_hash_survivors (fun x : K * V => hK (fst x)) (fun x y => eqK (fst x) (fst y))).
  - exact H.
  - exact (lawful_same_key eqK LE).
  - intros x y; apply LH.
Qed.

(** * The conditions are necessary *)

(** The keys 0..v; all but the last share a hash code. *)
Definition two_codes (v k : N) : N := if k =? v then 0 else 1.
Definition up_to (v : nat) : list (N * unit) := map (fun i => (N.of_nat i, tt)) (seq 0 (S v)).

Lemma up_to_in v e : In e (up_to v) <-> fst e <= N.of_nat v.
Proof.
  unfold up_to. rewrite in_map_iff. split.
  - intros [i [<- Hi]]. apply in_seq in Hi. cbn. lia.
  - intros H. destruct e as [k []]. exists (N.to_nat k). cbn [fst] in H. split; [f_equal; lia|apply in_seq; lia].
Qed.

Lemma up_to_nodup v : NoDup (up_to v).
Proof. apply FinFun.Injective_map_NoDup; [intros x y H; injection H; lia|apply seq_NoDup]. Qed.

Lemma up_to_distinct v : distinct (fun x y : N * unit => fst x =? fst y) (up_to v).
Proof.
  pose proof (up_to_nodup v) as H. induction H as [|x l Hx H IH]; cbn [distinct]; auto. split; auto.
  intros y Hy. destruct x as [a []], y as [b []]. cbn [fst]. destruct (N.eqb_spec a b) as [->|]; [contradiction|reflexivity].
Qed.

Lemma up_to_dedup v h : using_hash (up_to v) (fun x => h (fst x)) (fun x y => fst x =? fst y) = up_to v.
Proof.
  rewrite using_hash_survivors; [apply survivors_distinct_id, up_to_distinct| |].
  - constructor; intros *; lia.
  - intros x y H. apply N.eqb_eq in H. congruence.
Qed.

Lemma pop_run_all {T} s (F : list T) s' e : s' <> s -> pop_run s (map (fun x => (s, x)) F ++ [(s', e)]) = (F, [(s', e)]).
Proof.
  intros H. induction F as [|f F IH]; cbn [map app pop_run].
  - destruct (N.eqb_spec s' s); [contradiction|reflexivity].
  - rewrite N.eqb_refl, IH. reflexivity.
Qed.

Lemma nth_error_rev_desc {T} (l : list (N * T)) :
  (forall i j x y, (i <= j)%nat -> nth_error l i = Some x -> nth_error l j = Some y -> fst x <= fst y) ->
  forall l1 x l2, rev l = l1 ++ x :: l2 -> forall y, In y l2 -> fst y <= fst x.
Proof.
  intros H l1 x l2 E y Hy. apply (f_equal (@rev _)) in E. rewrite rev_involutive, rev_app_distr in E. cbn [rev] in E.
  rewrite <- app_assoc in E. apply in_rev, In_nth_error in Hy. destruct Hy as [i Hi].
  assert (Hl : (i < List.length (rev l2))%nat) by (apply nth_error_Some; congruence).
  apply (H i (List.length (rev l2)) y x); [lia| |]; rewrite E.
  - rewrite nth_error_app1 by lia. exact Hi.
  - rewrite nth_error_app2 by lia. rewrite Nat.sub_diag. reflexivity.
Qed.

Lemma witness_map usort v : sorts_by_slot usort -> N.of_nat v + 1 <= mg_max_capacity cm ->
  exists m F, ct_with_hasher cm usort N.eqb (two_codes (N.of_nat v)) (up_to v) = Ok (ROk m) /\
    ct_entries m = F ++ [(N.of_nat v, tt)] /\ List.length F = v /\ (forall e, In e F -> fst e <> N.of_nat v) /\
    nth_error (ct_slots m) 0 = Some (try_from_or cm (N.of_nat v), try_from_or cm (N.of_nat v + 1)).
Proof.
  intros HU Hv. unfold ct_with_hasher. rewrite up_to_dedup.
  set (h := fun e : N * unit => two_codes (N.of_nat v) (fst e)).
  change (fun e : N * unit => Ok (two_codes (N.of_nat v) (fst e))) with (fun e => Ok (h e)).
  assert (Hlen : List.length (up_to v) = S v) by (unfold up_to; rewrite map_length, seq_length; reflexivity).
  unfold ct_new. assert (Hnil : is_nil (up_to v) = false) by reflexivity. rewrite Hnil, Hlen.
  destruct (N.ltb_spec (mg_max_capacity cm) (N.of_nat (S v))); [lia|].
  rewrite (mapM_Ok_map (fun e => Ok (h e)) h) by reflexivity. cbn [bind].
  destruct (analyze_hash_codes_spec (map h (up_to v))) as [m [coll [A1 [[k Hk] [A2 _]]]]]; [discriminate|].
  rewrite A1. cbn [bind fst]. rewrite map_length, Hlen, analysis_min_size_eq in A2.
  assert (Hm0 : m <> 0) by (subst m; apply pow2_nz).
  assert (Hm2 : (1 <= v)%nat -> 2 <= m).
  { intros H1. assert (2 <= N.of_nat (S v) - initial_acceptable (N.of_nat (S v))).
    { unfold initial_acceptable. destruct (N.ltb_spec (N.of_nat (S v)) 128); [lia|].
      pose proof (N.mul_div_le (N.of_nat (S v)) 100). lia. }
    unfold next_power_of_two in A2. apply (N.log2_up_le_mono 2) in H0. change (N.log2_up 2) with 1 in H0.
    apply (N.pow_le_mono_r 2) in H0; [|lia]. change (2 ^ 1) with 2 in H0. eapply N.le_trans; [exact H0|exact A2]. }
  clear A1 A2 coll Hk k.
  assert (Hmod : forall e, In e (up_to v) -> h e mod m = h e).
  { intros [k []] He. apply up_to_in in He. cbn [fst] in He. apply N.mod_small. unfold h, two_codes. cbn [fst].
    destruct (N.eqb_spec k (N.of_nat v)); lia. }
  unfold prep_items. rewrite (mapM_Ok_map _ (fun e => (h e, e)) (rev (up_to v))).
  2:{ intros e He. apply in_rev in He. cbn [bind]. destruct (N.eqb_spec m 0); [contradiction|]. rewrite Hmod by exact He. reflexivity. }
  cbn [bind]. set (items := map (fun e => (h e, e)) (rev (up_to v))).
  destruct (HU items) as [HP HS].
  set (x0 := (0, (N.of_nat v, tt)) : N * (N * unit)).
  assert (Hin : forall x, In x (rev (usort items)) <-> fst x = h (snd x) /\ fst (snd x) <= N.of_nat v).
  { intros x. rewrite <- in_rev. transitivity (In x items).
    - split; apply Permutation_in; [apply Permutation_sym|]; exact HP.
    - unfold items. rewrite in_map_iff. split.
      + intros [e [<- He]]. apply in_rev, up_to_in in He. auto.
      + intros [H1 H2]. exists (snd x). split; [destruct x; cbn in *; congruence|]. apply in_rev. rewrite rev_involutive. apply up_to_in. exact H2. }
  assert (Hnd : NoDup (rev (usort items))).
  { apply NoDup_rev. apply (Permutation_NoDup HP). unfold items. apply FinFun.Injective_map_NoDup; [intros a b E; congruence|].
    apply NoDup_rev, up_to_nodup. }
  assert (Hh0 : forall x, In x (rev (usort items)) -> fst x = 0 -> x = x0).
  { intros [s [k []]] Hx Hs. apply Hin in Hx. cbn in Hx, Hs. subst s. unfold h, two_codes in Hx. cbn [fst] in Hx.
    destruct Hx as [Hx _]. destruct (N.eqb_spec k (N.of_nat v)) as [E|E]; [unfold x0; rewrite E; reflexivity|discriminate Hx]. }
  assert (HL : exists F, rev (usort items) = map (fun e => (1, e)) F ++ [x0]).
  { assert (H0 : In x0 (rev (usort items))).
    { apply Hin. cbn. unfold h, two_codes. cbn [fst]. rewrite N.eqb_refl. lia. }
    apply in_split in H0. destruct H0 as [l1 [l2 E]].
    assert (l2 = []).
    { destruct l2 as [|y l2]; [reflexivity|]. exfalso.
      pose proof (nth_error_rev_desc _ HS _ _ _ E y (or_introl eq_refl)) as Hy. cbn in Hy.
      assert (y = x0). { apply Hh0; [rewrite E; apply in_or_app; right; right; left; reflexivity|lia]. }
      subst y. rewrite E in Hnd. apply NoDup_remove_2 in Hnd. apply Hnd. apply in_or_app. right. left. reflexivity. }
    subst l2. exists (map snd l1). rewrite E. f_equal. rewrite map_map. rewrite <- (map_id l1) at 1. apply map_ext_in.
    intros x Hx. assert (Hx' : In x (rev (usort items))) by (rewrite E; apply in_or_app; auto).
    destruct (N.eq_dec (fst x) 0) as [Hz|Hz].
    - exfalso. rewrite (Hh0 x Hx' Hz) in Hx. rewrite E in Hnd. apply NoDup_remove_2 in Hnd. apply Hnd. rewrite app_nil_r. exact Hx.
    - apply Hin in Hx'. destruct x as [s e]. cbn [fst snd] in *. destruct Hx' as [Hx' _]. f_equal. unfold h, two_codes in Hx'.
      destruct (fst e =? N.of_nat v); lia. }
  destruct HL as [F HL].
  assert (HN : forall e, In e F -> fst e <> N.of_nat v).
  { intros e He Hk. assert (Hx : In (1, e) (rev (usort items))).
    { rewrite HL. apply in_or_app. left. apply (in_map (fun e => (1, e))). exact He. }
    apply Hin in Hx. cbn [fst snd] in Hx. unfold h, two_codes in Hx. rewrite Hk, N.eqb_refl in Hx. lia. }
  rewrite HL.
  assert (HF : List.length F = v).
  { pose proof (f_equal (@List.length _) HL) as E. rewrite rev_length, app_length, map_length in E. cbn [List.length] in E.
    rewrite <- (Permutation_length HP) in E. unfold items in E. rewrite map_length, rev_length, Hlen in E. lia. }
  set (Z := repeat (mg_zero cm, mg_zero cm) (N.to_nat m)).
  assert (HZ : List.length Z = N.to_nat m) by apply repeat_length.
  assert (HI : List.length (usort items) = S v).
  { rewrite <- (Permutation_length HP). unfold items. rewrite map_length, rev_length. exact Hlen. }
  rewrite HI.
  assert (FS : exists slots, ct_fill_slots cm (S (S v)) (map (fun e => (1, e)) F ++ [x0]) 0 Z [] = Ok (slots, F ++ [(N.of_nat v, tt)]) /\
            List.length slots = N.to_nat m /\ nth_error slots 0 = Some (try_from_or cm (N.of_nat v), try_from_or cm (N.of_nat v + 1))).
  { destruct F as [|f F].
    - cbn in HF. subst v. cbn [map app ct_fill_slots x0]. cbn [pop_run List.length]. unfold store. rewrite HZ.
      destruct (Nat.ltb_spec (N.to_nat 0) (N.to_nat m)); [|lia]. cbn [bind].
      eexists. split; [reflexivity|]. rewrite list_set_length. split; [exact HZ|]. rewrite nth_error_list_set. cbn [N.to_nat Nat.eqb].
      rewrite HZ. destruct (Nat.ltb_spec 0 (N.to_nat m)); [reflexivity|lia].
    - cbn [List.length] in HF. destruct v as [|v]; [lia|]. assert (H2 : 2 <= m) by (apply Hm2; lia).
      cbn [map app]. cbn [ct_fill_slots]. unfold x0. rewrite pop_run_all by lia. unfold store at 1. rewrite HZ.
      destruct (Nat.ltb_spec (N.to_nat 1) (N.to_nat m)); [|lia]. cbn [bind]. cbn [pop_run List.length]. unfold store. rewrite list_set_length, HZ.
      destruct (Nat.ltb_spec (N.to_nat 0) (N.to_nat m)); [|lia]. cbn [bind].
      destruct v as [|v']; cbn [ct_fill_slots].
      + eexists. split; [reflexivity|]. rewrite !list_set_length. split; [exact HZ|]. rewrite nth_error_list_set. cbn [N.to_nat Nat.eqb].
        rewrite list_set_length, HZ. destruct (Nat.ltb_spec 0 (N.to_nat m)); [|lia].
        replace (List.length F) with 0%nat by lia. reflexivity.
      + eexists. split; [reflexivity|]. rewrite !list_set_length. split; [exact HZ|]. rewrite nth_error_list_set. cbn [N.to_nat Nat.eqb].
        rewrite list_set_length, HZ. destruct (Nat.ltb_spec 0 (N.to_nat m)); [|lia].
        replace (List.length F) with (S v') by lia. do 3 f_equal; lia. }
  destruct FS as [slots [-> [S1 S2]]]. cbn [bind]. rewrite S1. unfold sub_no_underflow. rewrite N2Nat.id.
  destruct (N.leb_spec 1 m); [|lia]. cbn [bind]. eexists. exists F. split; [reflexivity|]. cbn [ct_entries ct_slots]. auto.
Qed.

Lemma witness_find usort v : sorts_by_slot usort -> N.of_nat v + 1 <= mg_max_capacity cm ->
  exists m F, ct_with_hasher cm usort N.eqb (two_codes (N.of_nat v)) (up_to v) = Ok (ROk m) /\ List.length F = v /\
    (forall e, In e F -> fst e <> N.of_nat v) /\
    ct_get cm (fun q => Ok (two_codes (N.of_nat v) q)) N.eqb m (N.of_nat v) =
    fmap (option_map snd) (es <- slice_unchecked (F ++ [(N.of_nat v, tt)]) (N.to_nat (read_back cm (N.of_nat v)))
                                   (N.to_nat (read_back cm (N.of_nat v + 1))) ;; Ok (scan_slot (fun e => N.of_nat v =? fst e) es)).
Proof.
  intros HU Hv. destruct (witness_map usort v HU Hv) as [m [F [E [E1 [E2 [E4 E3]]]]]]. exists m, F. split; [exact E|]. split; [exact E2|]. split; [exact E4|].
  unfold ct_get, ct_find. cbn [bind]. unfold two_codes at 1. rewrite N.eqb_refl, N.land_0_l. cbn [N.to_nat].
  unfold get_unchecked. rewrite E3. cbn [bind fst snd]. rewrite !into_try_from, E1. reflexivity.
Qed.

Lemma witness_default q h : ct_get cm h N.eqb (ct_default cm (T := N * unit)) q <> UB -> h q = Ok 0 -> mg_into cm (mg_zero cm) = 0.
Proof.
  intros H E. unfold ct_get in H. rewrite E in H. cbn in H. unfold slice_unchecked in H.
  destruct (Nat.leb_spec (N.to_nat (mg_into cm (mg_zero cm))) (List.length (@nil (N * unit)))) as [H1|H1]; [cbn in H1; lia|].
  rewrite andb_false_r in H. cbn in H. contradiction.
Qed.

Lemma cm_safe_only_if usort : sorts_by_slot usort ->
  (forall (h : N -> N) input m q, (forall k, h k < 2) -> ct_with_hasher cm usort N.eqb h input = Ok (ROk m) ->
     ct_get cm (fun q => Ok (h q)) N.eqb m q <> (UB : res (option unit))) ->
  keeps_in_range cm.
Proof.
  intros HU H.
  assert (G : forall v, v + 1 <= mg_max_capacity cm -> read_back cm v <= read_back cm (v + 1) /\ read_back cm (v + 1) <= v + 1).
  { intros v Hv. destruct (witness_find usort (N.to_nat v) HU) as [m [F [E [EF [EN EG]]]]]; [lia|]. rewrite N2Nat.id in *.
    assert (B : forall k, two_codes v k < 2) by (intros k; unfold two_codes; destruct (k =? v); lia).
    pose proof (H _ _ _ v B E) as U. rewrite EG in U. unfold slice_unchecked in U. rewrite app_length, EF in U. cbn [List.length] in U.
    destruct (Nat.leb_spec (N.to_nat (read_back cm v)) (N.to_nat (read_back cm (v + 1)))); cbn [andb] in U; [|contradiction].
    destruct (Nat.leb_spec (N.to_nat (read_back cm (v + 1))) (N.to_nat v + 1)); [|contradiction]. lia. }
  constructor.
  - apply (witness_default 0 (fun _ => Ok 0)); [|reflexivity]. apply (H (fun _ => 0) []); [lia|reflexivity].
  - intros v H1 H2. destruct (G (v - 1)) as [_ G2]; [lia|]. replace (v - 1 + 1) with v in G2 by lia. exact G2.
  - intros v Hv. apply G. exact Hv.
Qed.

Lemma cm_exact_only_if usort : sorts_by_slot usort ->
  (forall (h : N -> N) input m q, (forall k, h k < 2) -> ct_with_hasher cm usort N.eqb h input = Ok (ROk m) ->
     ct_get cm (fun q => Ok (h q)) N.eqb m q = Ok (spec_get N.eqb input q : option unit)) ->
  keeps_indices cm.
Proof.
  intros HU H.
  assert (KR : keeps_in_range cm).
  { apply (cm_safe_only_if usort HU). intros h input m q B E. rewrite (H h input m q B E). discriminate. }
  assert (G : forall v, v + 1 <= mg_max_capacity cm -> read_back cm v <= v /\ v < read_back cm (v + 1)).
  { intros v Hv. destruct (witness_find usort (N.to_nat v) HU) as [m [F [E [EF [EN EG]]]]]; [lia|]. rewrite N2Nat.id in *.
    assert (B : forall k, two_codes v k < 2) by (intros k; unfold two_codes; destruct (k =? v); lia).
    pose proof (H _ _ _ v B E) as U. rewrite EG in U.
    assert (SG : spec_get N.eqb (up_to (N.to_nat v)) v = Some tt).
    { unfold spec_get, spec_entry.
      destruct (last_match (fun e => v =? fst e) (up_to (N.to_nat v))) as [[k []]|] eqn:L; [reflexivity|]. exfalso.
      assert (I : In (v, tt) (up_to (N.to_nat v))) by (apply up_to_in; cbn; lia).
      revert L I. generalize (up_to (N.to_nat v)). intros l. induction l as [|a l IH]; intros L [].
      - subst a. cbn in L. rewrite N.eqb_refl in L. destruct (last_match _ l); discriminate L.
      - cbn in L. destruct (last_match _ l) eqn:E'; [discriminate L|]. auto. }
    rewrite SG in U. unfold slice_unchecked in U.
    set (a := N.to_nat (read_back cm v)) in *. set (b := N.to_nat (read_back cm (v + 1))) in *.
    destruct (Nat.leb a b && Nat.leb b _) eqn:C; cbn [bind fmap] in U; [|discriminate U].
    rewrite app_length, EF in C. cbn [List.length] in C.
    assert (X : forall l, scan_slot (fun e : N * unit => v =? fst e) l <> None -> exists e, In e l /\ fst e = v).
    { induction l as [|e l IH]; cbn [scan_slot]; [congruence|]. destruct (N.eqb_spec v (fst e)) as [->|].
      - intros _. exists e. split; [left; reflexivity|reflexivity].
      - intros Hs. destruct (IH Hs) as [e' [? ?]]. exists e'. split; [right; assumption|assumption]. }
    destruct (X (firstn (b - a) (skipn a (F ++ [(v, tt)])))) as [e [He Hk]]; [intros C'; rewrite C' in U; discriminate U|].
    apply In_nth_error in He. destruct He as [i Hi]. rewrite nth_error_firstn in Hi.
    destruct (Nat.ltb_spec i (b - a)); [|discriminate]. rewrite nth_error_skipn in Hi.
    assert (P : (a + i)%nat = N.to_nat v).
    { destruct (Nat.lt_ge_cases (a + i) (N.to_nat v)) as [Hlt|Hge]; [|lia]. exfalso.
      rewrite nth_error_app1 in Hi by lia. apply nth_error_In in Hi. exact (EN e Hi Hk). }
    lia. }
  constructor; [apply (kr_zero cm KR)|]. intros v H1 H2.
  destruct (N.eq_dec v 0) as [->|Hv].
  - destruct (G 0); lia.
  - destruct (G (v - 1)) as [_ G2]; [lia|]. replace (v - 1 + 1) with v in G2 by lia. pose proof (kr_not_more cm KR v). lia.
Qed.
End Retag.

(** * The implementations of the crate *)
Lemma builtin_try cm v : try_from_or (builtin cm) v = try_from_or_zero cm v.
Proof. unfold try_from_or, try_from_or_zero. cbn. destruct (v <=? index_max cm); reflexivity. Qed.

Lemma builtin_fill {T} cm : forall fuel (items : list (N * T)) idx slots F,
  ct_fill_slots (builtin cm) fuel items idx slots F = fill_slots cm fuel items idx slots F.
Proof.
  induction fuel as [|fuel IH]; intros items idx slots F; [reflexivity|]. cbn [ct_fill_slots fill_slots].
  destruct items as [|[s e] r]; [reflexivity|]. destruct (pop_run s r) as [run rest]. rewrite !builtin_try.
  match goal with |- bind ?a _ = bind ?b _ => change b with a; destruct a end; cbn [bind]; auto.
Qed.

Lemma builtin_new {K V} cm usort (entries : list (K * V)) hash :
  ht_new usort cm entries hash =
  fmap (fun r => match r with ROk m => ROk (hm_table (plain m)) | RErr s => RErr s end) (ct_new (builtin cm) usort entries hash).
Proof.
  unfold ht_new, ct_new. destruct (is_nil entries); [reflexivity|]. change (mg_max_capacity (builtin cm)) with (max_capacity cm).
  destruct (max_capacity cm <? N.of_nat (List.length entries)); [reflexivity|].
  destruct (mapM hash entries) as [codes| |]; cbn [bind fmap]; auto.
  destruct (analyze_hash_codes codes) as [a| |]; cbn [bind fmap]; auto.
  destruct (prep_items hash (fst a) entries) as [items| |]; cbn [bind fmap]; auto.
  rewrite builtin_fill. change (mg_zero (builtin cm)) with 0.
  change (list (mg_elem (builtin cm) * mg_elem (builtin cm))) with (list (N * N)).
  destruct (fill_slots cm _ _ _ _ _) as [[slots F]| |]; cbn [bind fmap]; auto.
  change (mg_elem (builtin cm) * mg_elem (builtin cm))%type with (N * N)%type.
  destruct (sub_no_underflow _ 1); reflexivity.
Qed.

Lemma builtin_same cm K V Q usort (eqK : K -> K -> bool) hK (hQ : Q -> res N) (eqv : Q -> K -> bool) (input : list (K * V)) :
  keeps_indices (builtin cm) /\
  hash_map_with_hasher usort cm eqK hK input =
    fmap (fun r => match r with ROk m => ROk (plain m) | RErr s => RErr s end) (ct_with_hasher (builtin cm) usort eqK hK input) /\
  plain (ct_default (builtin cm)) = hash_map_default (K := K) (V := V) /\
  forall (m : cm_table (builtin cm) (K * V)) q,
    mo_entries (hash_ops hQ eqv) (plain m) = mo_entries (ct_ops (builtin cm) hQ eqv) m /\
    mo_get (hash_ops hQ eqv) (plain m) q = mo_get (ct_ops (builtin cm) hQ eqv) m q /\
    mo_get_mut (hash_ops hQ eqv) (plain m) q = mo_get_mut (ct_ops (builtin cm) hQ eqv) m q /\
    mo_get_key_value (hash_ops hQ eqv) (plain m) q = mo_get_key_value (ct_ops (builtin cm) hQ eqv) m q /\
    mo_contains_key (hash_ops hQ eqv) (plain m) q = mo_contains_key (ct_ops (builtin cm) hQ eqv) m q.
Proof.
  split; [|split; [|split]].
  - constructor; [reflexivity|]. intros v _ Hv. unfold read_back. cbn [builtin mg_try_from mg_into mg_zero mg_max_capacity] in *.
    rewrite max_capacity_index in Hv. apply N.leb_le in Hv. rewrite Hv. reflexivity.
  - unfold hash_map_with_hasher, hash_from_dedupped, ct_with_hasher. rewrite builtin_new.
    destruct (ct_new (builtin cm) usort _ _) as [[m|s]| |]; reflexivity.
  - reflexivity.
  - intros m q.
    assert (F : forall h eq, ht_find (hm_table (plain m)) h eq = ct_find (builtin cm) m h eq /\
                             ht_find_mut (hm_table (plain m)) h eq = ct_find_mut (builtin cm) m h eq).
    { intros h eq. unfold ht_find, ct_find, ht_find_mut, ct_find_mut. cbn [plain hm_table ht_slots ht_entries ht_mask].
      destruct m as [slots es mask]. cbn [ct_slots ct_entries ct_mask]. cbn [builtin mg_elem] in slots.
      change (@get_unchecked (mg_elem (builtin cm) * mg_elem (builtin cm))) with (@get_unchecked (N * N)).
      destruct (get_unchecked slots (N.to_nat (N.land h mask))) as [[a b]| |]; split; reflexivity. }
    split; [reflexivity|].
    cbn [hash_ops ct_ops mo_get mo_get_mut mo_get_key_value mo_contains_key].
    unfold hash_contains_key, hash_get, hash_get_mut, hash_get_key_value, ct_contains_key, ct_get, ct_get_mut, ct_get_key_value.
    destruct (hQ q) as [h| |]; cbn [bind]; auto.
    rewrite !(proj1 (F h _)), !(proj2 (F h _)). auto.
Qed.

Lemma off_by_one_ub bits : 0 < bits -> bits < 64 -> forall usort, sorts_by_slot usort ->
  exists (h : N -> N) (input : list (N * unit)) m q,
    ct_with_hasher (off_by_one bits) usort N.eqb h input = Ok (ROk m) /\ N.of_nat (List.length input) = 2 ^ bits /\
    mo_get (ct_ops (off_by_one bits) (fun q => Ok (h q)) N.eqb) m q = UB.
Proof.
  intros B1 B3 usort HU.
  assert (B4 : mg_max_capacity (off_by_one bits) <= usize_max).
  { cbn [off_by_one mg_max_capacity]. apply (N.le_trans _ (2 ^ 63)); [apply N.pow_le_mono_r; lia|apply N.leb_le; vm_compute; reflexivity]. }
  assert (B2 : 2 <= 2 ^ bits) by (apply (N.pow_le_mono_r 2 1); lia).
  assert (E : exists v, (1 <= v)%nat /\ N.of_nat v + 1 = 2 ^ bits) by (exists (N.to_nat (2 ^ bits - 1)); lia).
  destruct E as [v [H1 H2]].
  destruct (witness_find (off_by_one bits) B4 usort v HU) as [m [F [E [EF [_ EG]]]]]; [cbn [off_by_one mg_max_capacity]; lia|].
  exists (two_codes (N.of_nat v)), (up_to v), m, (N.of_nat v). split; [exact E|]. split.
  - unfold up_to. rewrite map_length, seq_length. lia.
  - cbn [ct_ops mo_get]. rewrite EG. unfold read_back. cbn [off_by_one mg_try_from mg_into mg_zero].
    destruct (N.ltb_spec (N.of_nat v) (2 ^ bits)); [|lia]. destruct (N.ltb_spec (N.of_nat v + 1) (2 ^ bits)); [lia|].
    unfold slice_unchecked. rewrite Nat2N.id. cbn [N.to_nat]. destruct (Nat.leb_spec v 0); [lia|]. reflexivity.
Qed.
