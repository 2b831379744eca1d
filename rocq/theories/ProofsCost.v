(** Cost of lookups. *)
From Verif Require Import Spec SpecAnalysis ModelUtils ModelAnalyzers ModelTables ModelMaps ModelCost
  ProofsBase ProofsAnalyzer ProofsTable ProofsEytzinger.
From Verif Require Import Prelude.
From Coq Require Import Permutation.
From Coq Require Import ZArith ZifyNat ZifyN ZifyBool.

(** * Forgetting the log *)
Lemma search_log_erase {T} (data : list T) f : forall fuel i,
  fmap fst (eytzinger_search_log fuel data f i) = eytzinger_search_loop fuel data f i.
Proof.
  induction fuel as [|fuel IH]; intros i; cbn [eytzinger_search_log eytzinger_search_loop]; auto.
  destruct (nth_error data i) as [v|]; auto.
  destruct (f v); auto; rewrite <- IH; destruct (eytzinger_search_log _ _ _ _); reflexivity.
Qed.

Lemma search_by_log_erase {T} (data : list T) f : fmap fst (eytzinger_search_by_log data f) = eytzinger_search_by data f.
Proof. apply search_log_erase. Qed.

Lemma scan_slot_log_erase {T} (eq : T -> bool) l : fst (scan_slot_log eq l) = scan_slot eq l.
Proof. induction l as [|e r IH]; cbn; auto. destruct (eq e); auto. destruct (scan_slot_log eq r). exact IH. Qed.

Lemma ht_find_log_erase {T} (t : hash_table T) h eq : fmap fst (ht_find_log t h eq) = ht_find t h eq.
Proof.
  unfold ht_find_log, ht_find. destruct (get_unchecked _ _) as [[a b]| |]; cbn [bind fmap]; auto.
  destruct (slice_unchecked _ _ _); cbn [bind fmap]; auto. f_equal. apply scan_slot_log_erase.
Qed.

Lemma nc_find_log_erase {T} (t : nc_table T) h eq : fmap fst (nc_find_log t h eq) = nc_find t h eq.
Proof.
  unfold nc_find_log, nc_find. destruct (get_unchecked _ _) as [i| |]; cbn [bind fmap]; auto.
  destruct (0 <? i); auto. destruct (get_unchecked _ _); cbn [bind fmap]; auto.
Qed.

(** * Eytzinger search *)
Lemma search_log_bound {T} (data : list T) f : forall fuel i r, eytzinger_search_log fuel data f i = Ok r ->
  ((length (snd r) <= Nat.log2 (length data) + 1 - Nat.log2 (S i)) \/ (length data <= i /\ snd r = []))%nat.
Proof.
  induction fuel as [|fuel IH]; intros i r H; cbn [eytzinger_search_log] in H; [discriminate|].
  destruct (nth_error data i) as [v|] eqn:E.
  - assert (Hi : (i < length data)%nat) by (apply nth_error_Some; congruence).
    assert (HL : (Nat.log2 (S i) <= Nat.log2 (length data))%nat) by (apply Nat.log2_le_mono; lia).
    left.
    assert (STEP : forall j, (j <= 1)%nat ->
      (r0 <- eytzinger_search_log fuel data f (2 * i + 1 + j) ;; Ok (fst r0, v :: snd r0)) = Ok r ->
      (length (snd r) <= Nat.log2 (length data) + 1 - Nat.log2 (S i))%nat).
    { intros j Hj H'. destruct (eytzinger_search_log fuel data f (2 * i + 1 + j)) as [r0| |] eqn:E0; cbn [bind] in H'; try discriminate.
      inversion H'; subst r. cbn [snd length]. apply IH in E0.
      assert (HD : (S (Nat.log2 (S i)) <= Nat.log2 (S (2 * i + 1 + j)))%nat).
      { rewrite <- Nat.log2_double by lia. apply Nat.log2_le_mono. lia. }
      destruct E0 as [E0|[_ ->]]; cbn [length]; lia. }
    destruct (f v).
    + inversion H; subst. cbn [snd length]. lia.
    + apply (STEP (N.to_nat (N.land (N.shiftr (ordering_as_usize Lt) 1) 1))); [vm_compute; lia|exact H].
    + apply (STEP (N.to_nat (N.land (N.shiftr (ordering_as_usize Gt) 1) 1))); [vm_compute; lia|exact H].
  - inversion H; subst. right. split; [apply nth_error_None; auto|auto].
Qed.

Lemma search_loop_total {T} (data : list T) f : forall fuel i, (length data < fuel + i)%nat -> (0 < fuel)%nat ->
  exists r, eytzinger_search_log fuel data f i = Ok r.
Proof.
  induction fuel as [|fuel IH]; intros i H H0; [lia|]. cbn [eytzinger_search_log].
  destruct (nth_error data i) as [v|] eqn:E; [|eauto].
  assert (Hi : (i < length data)%nat) by (apply nth_error_Some; congruence).
  destruct (f v); [eauto| |].
  - destruct (IH (2 * i + 1 + N.to_nat (N.land (N.shiftr (ordering_as_usize Lt) 1) 1))%nat) as [r E0]; [lia|lia|].
    cbn zeta. rewrite E0. cbn [bind]. eauto.
  - destruct (IH (2 * i + 1 + N.to_nat (N.land (N.shiftr (ordering_as_usize Gt) 1) 1))%nat) as [r E0]; [lia|lia|].
    cbn zeta. rewrite E0. cbn [bind]. eauto.
Qed.

(** Any array, any comparison (lawful or not): the search ends after at most [log2 n + 1] comparisons. *)
Theorem search_cost {T} (data : list T) f : exists o log, eytzinger_search_by_log data f = Ok (o, log) /\
  eytzinger_search_by data f = Ok o /\ (length log <= Nat.log2 (length data) + 1)%nat /\ (data = [] -> log = []).
Proof.
  destruct (search_loop_total data f (S (length data)) 0) as [[o log] E]; [lia|lia|]. exists o, log. split; [exact E|].
  split; [rewrite <- search_by_log_erase; unfold eytzinger_search_by_log; rewrite E; reflexivity|].
  pose proof (search_log_bound data f _ _ _ E) as H. cbn [snd] in H. split.
  - destruct H as [H|[_ ->]]; [|cbn; lia]. change (Nat.log2 1) with 0%nat in H. lia.
  - intros ->. cbn in E. inversion E. reflexivity.
Qed.

(** * Hash tables *)
Lemma scan_slot_log_prefix {T} (eq : T -> bool) l : exists rest, l = snd (scan_slot_log eq l) ++ rest.
Proof.
  induction l as [|e r [rest IH]]; cbn; [exists []; auto|]. destruct (eq e); [exists r; auto|].
  destruct (scan_slot_log eq r) as [o log]. cbn [snd] in *. exists rest. cbn [app]. congruence.
Qed.

Lemma filter_range {T} (f : T -> bool) l a b : (a <= b)%nat -> (b <= length l)%nat ->
  (forall p e, nth_error l p = Some e -> ((a <= p < b)%nat <-> f e = true)) -> filter f l = firstn (b - a) (skipn a l).
Proof.
  intros H1 H2 H.
  assert (NONE : forall l', (forall e, In e l' -> f e = false) -> filter f l' = []).
  { induction l' as [|x r IH]; intros H'; cbn; auto. rewrite H' by (left; auto). apply IH. intros. apply H'. right; auto. }
  assert (ALL : forall l', (forall e, In e l' -> f e = true) -> filter f l' = l').
  { induction l' as [|x r IH]; intros H'; cbn; auto. rewrite H' by (left; auto). f_equal. apply IH. intros. apply H'. right; auto. }
  rewrite <- (firstn_skipn a l) at 1. rewrite <- (firstn_skipn (b - a) (skipn a l)) at 1. rewrite !filter_app.
  rewrite (NONE (firstn a l)), (NONE (skipn (b - a) (skipn a l))), (ALL (firstn (b - a) (skipn a l))).
  - rewrite app_nil_r. reflexivity.
  - intros e He. apply In_nth_error in He. destruct He as [p Hp]. rewrite nth_error_firstn in Hp.
    destruct (Nat.ltb_spec p (b - a)); [|discriminate]. rewrite nth_error_skipn in Hp. apply (H _ _ Hp). lia.
  - intros e He. apply In_nth_error in He. destruct He as [p Hp]. rewrite !nth_error_skipn in Hp.
    destruct (f e) eqn:E; auto. apply (H _ _ Hp) in E. lia.
  - intros e He. apply In_nth_error in He. destruct He as [p Hp]. rewrite nth_error_firstn in Hp.
    destruct (Nat.ltb_spec p a); [|discriminate]. destruct (f e) eqn:E; auto. apply (H _ _ Hp) in E. lia.
Qed.

Lemma ht_log_spec {T} (h : T -> N) (t : hash_table T) hq eq : ht_inv (map h (ht_entries t)) t ->
  exists o log rest, ht_find_log t hq eq = Ok (o, log) /\ ht_find t hq eq = Ok o /\
    filter (fun e => h e mod N.of_nat (length (ht_slots t)) =? hq mod N.of_nat (length (ht_slots t))) (ht_entries t) = log ++ rest /\
    (o = None -> rest = []) /\
    (ht_has_collisions t = false -> (length (log ++ rest) <= 1)%nat).
Proof.
  intros [Hl [k [Hs [Hm Hinv]]]]. rewrite <- ht_find_log_erase. unfold ht_find_log. rewrite Hm, land_mask, Hs, N2Nat.id.
  assert (Hlt : hq mod 2 ^ k < 2 ^ k) by (apply N.mod_lt, pow2_nz).
  destruct (Hinv _ Hlt) as [[a b] [H1 [H2 [H3 H4]]]]. cbn [fst snd] in *. unfold get_unchecked. rewrite H1. cbn [bind].
  rewrite map_length in H3. unfold slice_unchecked.
  destruct (Nat.leb_spec (N.to_nat a) (N.to_nat b)); [|lia]. destruct (Nat.leb_spec (N.to_nat b) (length (ht_entries t))); [|lia]. cbn [andb bind].
  set (es := firstn (N.to_nat b - N.to_nat a) (skipn (N.to_nat a) (ht_entries t))).
  destruct (scan_slot_log_prefix eq es) as [rest HR]. destruct (scan_slot_log eq es) as [o log] eqn:ES. cbn [snd] in HR.
  exists o, log, rest. split; [reflexivity|]. split; [reflexivity|]. split; [|split].
  - rewrite <- HR. unfold es. apply filter_range; auto. intros p e Hp. rewrite N.eqb_eq.
    rewrite <- (H4 p (h e)) by (rewrite nth_error_map, Hp; reflexivity). lia.
  - intros ->. assert (HX : forall l r, scan_slot_log eq l = (None, r) -> r = l).
    { clear. induction l as [|e l IH]; cbn; intros r H; [inversion H; auto|]. destruct (eq e); [discriminate|].
      destruct (scan_slot_log eq l) as [o' log']. inversion H; subst. f_equal. apply IH. reflexivity. }
    apply HX in ES. subst log. rewrite <- (app_nil_r es) in HR at 1. apply app_inv_head in HR. auto.
  - intros HC. rewrite <- HR. unfold es. rewrite firstn_length. unfold ht_has_collisions in HC. rewrite existsb_false_forall in HC.
    specialize (HC (a, b) (nth_error_In _ _ H1)). cbn [fst snd] in HC. apply N.ltb_ge in HC. lia.
Qed.

Lemma max_capacity_bound cm : max_capacity cm = magnitude_limit cm.
Proof. destruct cm; reflexivity. Qed.
Theorem ht_cost {T} usort cm (entries : list T) (h : T -> N) : sorts_by_slot usort -> N.of_nat (length entries) <= magnitude_limit cm ->
  exists t, ht_new usort cm entries (fun e => Ok (h e)) = Ok (ROk t) /\ Permutation entries (ht_entries t) /\
  forall hq eq, exists o log rest, ht_find_log t hq eq = Ok (o, log) /\ ht_find t hq eq = Ok o /\
    filter (fun e => h e mod N.of_nat (length (ht_slots t)) =? hq mod N.of_nat (length (ht_slots t))) (ht_entries t) = log ++ rest /\
    (o = None -> rest = []) /\ (ht_has_collisions t = false -> (length (log ++ rest) <= 1)%nat).
Proof.
  intros HU HC. rewrite <- max_capacity_bound in HC. destruct (ht_new_spec usort cm entries (fun e => Ok (h e)) h HU (fun e _ => eq_refl) HC) as [t [E [P I]]].
  exists t. split; [auto|]. split; [auto|]. intros hq eq. apply ht_log_spec; auto.
Qed.

(** [has_collisions] is right. *)
Lemma collisions_exactly {T} usort cm (entries : list T) (h : T -> N) t : sorts_by_slot usort -> N.of_nat (length entries) <= magnitude_limit cm ->
  ht_new usort cm entries (fun e => Ok (h e)) = Ok (ROk t) ->
  (ht_has_collisions t = true <-> exists i j a b, (i < j)%nat /\ nth_error (ht_entries t) i = Some a /\ nth_error (ht_entries t) j = Some b /\
     h a mod N.of_nat (length (ht_slots t)) = h b mod N.of_nat (length (ht_slots t))).
Proof.
  intros HU HC E. rewrite <- max_capacity_bound in HC. destruct (ht_new_spec usort cm entries (fun e => Ok (h e)) h HU (fun e _ => eq_refl) HC) as [t' [E' [P I]]].
  rewrite E in E'. injection E' as <-. destruct I as [Hl [k [Hs [Hm Hinv]]]]. unfold ht_has_collisions. rewrite existsb_exists. rewrite Hs, N2Nat.id. split.
  - intros [slot [HI L]]. apply In_nth_error in HI. destruct HI as [s Hslot].
    assert (Hlt : N.of_nat s < 2 ^ k) by (assert (s < length (ht_slots t))%nat by (apply nth_error_Some; congruence); lia).
    destruct (Hinv _ Hlt) as [[a b] [H1 [H2 [H3 H4]]]]. rewrite Nat2N.id, Hslot in H1. injection H1 as ->. cbn [fst snd] in *.
    rewrite map_length in H3. apply N.ltb_lt in L.
    destruct (nth_error (ht_entries t) (N.to_nat a)) as [x|] eqn:Ex; [|apply nth_error_None in Ex; lia].
    destruct (nth_error (ht_entries t) (S (N.to_nat a))) as [y|] eqn:Ey; [|apply nth_error_None in Ey; lia].
    exists (N.to_nat a), (S (N.to_nat a)), x, y. split; [lia|]. split; [auto|]. split; [auto|].
    transitivity (N.of_nat s); [|symmetry]; [apply (H4 (N.to_nat a) (h x))|apply (H4 (S (N.to_nat a)) (h y))];
      try (rewrite nth_error_map; rewrite ?Ex, ?Ey; reflexivity); lia.
  - intros (i & j & x & y & Hij & Hx & Hy & EM).
    assert (Hlt : h x mod 2 ^ k < 2 ^ k) by (apply N.mod_lt, pow2_nz).
    destruct (Hinv _ Hlt) as [[a b] [H1 [H2 [H3 H4]]]]. cbn [fst snd] in *. exists (a, b). split; [eapply nth_error_In; eauto|]. cbn [fst snd].
    assert (Px := proj2 (H4 i (h x) ltac:(rewrite nth_error_map, Hx; reflexivity)) eq_refl).
    assert (Py := proj2 (H4 j (h y) ltac:(rewrite nth_error_map, Hy; reflexivity)) (eq_sym EM)). apply N.ltb_lt. lia.
Qed.

Lemma collisions_nodup {T} usort cm (entries : list T) (h : T -> N) t : sorts_by_slot usort -> N.of_nat (length entries) <= magnitude_limit cm ->
  ht_new usort cm entries (fun e => Ok (h e)) = Ok (ROk t) ->
  (ht_has_collisions t = false <-> NoDup (map (fun e => h e mod N.of_nat (length (ht_slots t))) entries)).
Proof.
  intros HU HC E. assert (HX := collisions_exactly usort cm entries h t HU HC E).
  rewrite <- max_capacity_bound in HC. destruct (ht_new_spec usort cm entries (fun e => Ok (h e)) h HU (fun e _ => eq_refl) HC) as [t' [E' [P _]]].
  rewrite E in E'. injection E' as <-. set (f := fun e => h e mod N.of_nat (length (ht_slots t))) in *.
  assert (HN : NoDup (map f (ht_entries t)) <-> NoDup (map f entries)).
  { split; apply Permutation_NoDup; apply Permutation_map; [symmetry|]; exact P. }
  rewrite <- HN. split.
  - intros HF. apply NoDup_nth_error. intros i j Hi EQ. rewrite map_length in Hi.
    destruct (Nat.lt_trichotomy i j) as [L|[L|L]]; auto; exfalso.
    + destruct (nth_error (ht_entries t) i) as [a|] eqn:Ea; [|apply nth_error_None in Ea; lia].
      rewrite !nth_error_map, Ea in EQ. destruct (nth_error (ht_entries t) j) as [b|] eqn:Eb; [|discriminate EQ]. cbn in EQ. injection EQ as EQ.
      assert (X := proj2 HX (ex_intro _ i (ex_intro _ j (ex_intro _ a (ex_intro _ b (conj L (conj Ea (conj Eb EQ)))))))). congruence.
    + destruct (nth_error (ht_entries t) i) as [a|] eqn:Ea; [|apply nth_error_None in Ea; lia].
      rewrite !nth_error_map, Ea in EQ. destruct (nth_error (ht_entries t) j) as [b|] eqn:Eb; [|discriminate EQ]. cbn in EQ. injection EQ as EQ. symmetry in EQ.
      assert (X := proj2 HX (ex_intro _ j (ex_intro _ i (ex_intro _ b (ex_intro _ a (conj L (conj Eb (conj Ea EQ)))))))). congruence.
  - intros HD. destruct (ht_has_collisions t) eqn:EC; auto. exfalso. destruct (proj1 HX eq_refl) as (i & j & a & b & L & Ea & Eb & EQ).
    assert (i = j); [|lia]. apply (proj1 (NoDup_nth_error _) HD); [rewrite map_length; apply nth_error_Some; congruence|].
    rewrite !nth_error_map, Ea, Eb. cbn. f_equal. exact EQ.
Qed.

(** Any table of the no-collision form, well formed or not. *)
Theorem nc_cost {T} (t : nc_table T) hq eq r : nc_find_log t hq eq = Ok r -> nc_find t hq eq = Ok (fst r) /\ (length (snd r) <= 1)%nat.
Proof.
  intros H. split; [rewrite <- nc_find_log_erase, H; reflexivity|]. unfold nc_find_log in H.
  destruct (get_unchecked _ _) as [i| |]; cbn [bind] in H; try discriminate. destruct (0 <? i).
  - destruct (get_unchecked _ _); cbn [bind] in H; try discriminate. inversion H. auto.
  - inversion H. cbn. auto.
Qed.
