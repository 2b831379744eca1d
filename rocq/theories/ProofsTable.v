(** Hash tables (hash_tables/): construction establishes, and lookup uses, the slot invariant. *)
From Verif Require Import Prelude Spec ModelUtils ModelAnalyzers ModelTables ProofsBase ProofsAnalyzer.
From Coq Require Import Permutation.

Definition slot_range_ok (codes : list N) (m s : N) (ab : N * N) : Prop :=
  fst ab <= snd ab /\ snd ab <= N.of_nat (length codes) /\
  forall p c, nth_error codes p = Some c -> ((fst ab <= N.of_nat p /\ N.of_nat p < snd ab) <-> c mod m = s).

(** [codes]: the hash codes of the entries, in entry order. *)
Definition ht_inv {T} (codes : list N) (t : hash_table T) : Prop :=
  length codes = length (ht_entries t) /\
  exists k, length (ht_slots t) = N.to_nat (2 ^ k) /\ ht_mask t = 2 ^ k - 1 /\
  forall s, s < 2 ^ k -> exists ab, nth_error (ht_slots t) (N.to_nat s) = Some ab /\ slot_range_ok codes (2 ^ k) s ab.

(** * Lookup *)
Lemma max_capacity_index cm : max_capacity cm = index_max cm.
Proof. destruct cm; reflexivity. Qed.

Lemma scan_slot_both {T} (eq : T -> bool) l : forall pos,
  match scan_slot_mut eq pos l with
  | Some p => exists i e, p = (pos + i)%nat /\ nth_error l i = Some e /\ eq e = true /\ scan_slot eq l = Some e
  | None => scan_slot eq l = None /\ forall e, In e l -> eq e = false
  end.
Proof.
  induction l as [|e r IH]; intros pos; cbn [scan_slot scan_slot_mut].
  - split; auto. intros e [].
  - destruct (eq e) eqn:E.
    + exists 0%nat, e. rewrite Nat.add_0_r. auto.
    + specialize (IH (S pos)). destruct (scan_slot_mut eq (S pos) r).
      * destruct IH as [i [e' [H1 [H2 [H3 H4]]]]]. exists (S i), e'. repeat split; auto. lia.
      * destruct IH as [H1 H2]. split; auto. intros e' [<-|H]; auto.
Qed.

Definition opt_bind {A B} (o : option A) (f : A -> option B) : option B := match o with Some a => f a | None => None end.

Lemma land_mask h k : N.land h (2 ^ k - 1) = h mod 2 ^ k.
Proof. rewrite <- N.land_ones. f_equal. rewrite N.ones_equiv. lia. Qed.

Lemma ht_find_spec {T} codes (t : hash_table T) h eq :
  ht_inv codes t ->
  exists o, ht_find_mut t h eq = Ok o /\ ht_find t h eq = Ok (opt_bind o (nth_error (ht_entries t))) /\
    match o with
    | Some p => exists e, nth_error (ht_entries t) p = Some e /\ eq e = true
    | None => forall p e, nth_error (ht_entries t) p = Some e -> nth_error codes p = Some h -> eq e = false
    end.
Proof.
  intros [Hl [k [Hs [Hm Hinv]]]]. unfold ht_find, ht_find_mut. rewrite Hm, land_mask.
  assert (Hlt : h mod 2 ^ k < 2 ^ k) by (apply N.mod_lt, pow2_nz).
  destruct (Hinv _ Hlt) as [[a b] [H1 [H2 [H3 H4]]]]. cbn [fst snd] in *.
  unfold get_unchecked. rewrite H1. cbn [bind]. unfold slice_unchecked.
  rewrite Hl in H3.
  destruct (Nat.leb_spec (N.to_nat a) (N.to_nat b)); [|lia].
  destruct (Nat.leb_spec (N.to_nat b) (length (ht_entries t))); [|lia]. cbn [andb bind].
  pose proof (scan_slot_both eq (firstn (N.to_nat b - N.to_nat a) (skipn (N.to_nat a) (ht_entries t))) (N.to_nat a)) as S.
  destruct (scan_slot_mut eq (N.to_nat a) (firstn (N.to_nat b - N.to_nat a) (skipn (N.to_nat a) (ht_entries t)))) as [p|].
  - destruct S as [i [e [-> [Hi [He Hf]]]]]. exists (Some (N.to_nat a + i)%nat). split; [reflexivity|].
    rewrite nth_error_firstn in Hi. destruct (Nat.ltb i _); [|discriminate].
    rewrite nth_error_skipn in Hi. cbn [opt_bind]. rewrite Hi, Hf. split; auto. eauto.
  - destruct S as [Hn Hall]. exists None. split; [reflexivity|]. rewrite Hn. split; [reflexivity|].
    intros p e Hp Hc. apply Hall. apply (H4 p h) in Hc. destruct Hc as [_ Hc].
    destruct (Hc eq_refl) as [Hc1 Hc2].
    apply (nth_error_In _ (p - N.to_nat a)). rewrite nth_error_firstn.
    destruct (Nat.ltb_spec (p - N.to_nat a) (N.to_nat b - N.to_nat a)); [|lia].
    rewrite nth_error_skipn. replace (N.to_nat a + (p - N.to_nat a))%nat with p by lia. exact Hp.
Qed.

(** * Construction *)
Lemma pop_run_spec {T} slot (items : list (N * T)) :
  let (run, rest) := pop_run slot items in
  items = map (fun e => (slot, e)) run ++ rest /\
  match rest with (s, _) :: _ => s <> slot | [] => True end.
Proof.
  induction items as [|[s e] r IH]; cbn [pop_run]; auto.
  destruct (N.eqb_spec s slot) as [->|Hne].
  - destruct (pop_run slot r) as [run rest]. destruct IH as [H1 H2]. split; auto. cbn [map app]. congruence.
  - cbn [map app]. auto.
Qed.

(** the state while filling: [codes] are the (slot) codes of the entries placed so far *)
Definition fill_inv (m : N) (slots : list (N * N)) (codes : list N) : Prop :=
  length slots = N.to_nat m /\
  forall s, s < m -> exists ab, nth_error slots (N.to_nat s) = Some ab /\
    fst ab <= snd ab /\ snd ab <= N.of_nat (length codes) /\
    forall p c, nth_error codes p = Some c -> ((fst ab <= N.of_nat p /\ N.of_nat p < snd ab) <-> c = s).

Definition descending {T} (items : list (N * T)) : Prop :=
  forall i j x y, (i <= j)%nat -> nth_error items i = Some x -> nth_error items j = Some y -> fst y <= fst x.

Lemma descending_tail {T} (l1 l2 : list (N * T)) : descending (l1 ++ l2) -> descending l2.
Proof.
  intros H i j x y Hij Hi Hj. apply (H (length l1 + i)%nat (length l1 + j)%nat); [lia| |].
  - rewrite nth_error_app2 by lia. replace (length l1 + i - length l1)%nat with i by lia. exact Hi.
  - rewrite nth_error_app2 by lia. replace (length l1 + j - length l1)%nat with j by lia. exact Hj.
Qed.

Lemma fill_slots_spec {T} cm m : forall fuel (items : list (N * T)) idx slots codes F,
  (length items < fuel)%nat ->
  idx = N.of_nat (length F) -> length codes = length F ->
  idx + N.of_nat (length items) <= max_capacity cm ->
  (forall x, In x items -> fst x < m) ->
  descending items ->
  (forall c x, In c codes -> In x items -> fst x < c) ->
  fill_inv m slots codes ->
  exists slots', fill_slots cm fuel items idx slots F = Ok (slots', F ++ map snd items) /\
    fill_inv m slots' (codes ++ map fst items).
Proof.
  induction fuel as [|fuel IH]; intros items idx slots codes F Hfuel Hidx Hlen Hcap Hm Hdesc Hlt Hinv; [lia|].
  cbn [fill_slots]. destruct items as [|[slot e] r].
  - exists slots. cbn [map]. rewrite !app_nil_r. auto.
  - pose proof (pop_run_spec slot r) as PR. destruct (pop_run slot r) as [run rest]. destruct PR as [Hr Hrest].
    assert (Hlr : length r = (length run + length rest)%nat) by (rewrite Hr, app_length, map_length; reflexivity).
    cbn [length] in Hfuel, Hcap.
    assert (Hslot : slot < m) by (apply (Hm (slot, e)); left; auto).
    destruct Hinv as [Hsl Hinv].
    unfold store. destruct (Nat.ltb_spec (N.to_nat slot) (length slots)); [|lia]. cbn [bind].
    unfold try_from_or_zero.
    pose proof (max_capacity_index cm). destruct (N.leb_spec idx (index_max cm)); [|lia].
    destruct (N.leb_spec (idx + N.of_nat (S (length run))) (index_max cm)); [|lia].
    (* the rest has strictly smaller slots *)
    assert (Hrest_lt : forall x, In x rest -> fst x < slot).
    { intros x Hx. destruct rest as [|[s0 e0] rest']; [destruct Hx|].
      assert (D : descending ((slot, e) :: map (fun e => (slot, e)) run ++ (s0, e0) :: rest')) by (rewrite <- Hr; exact Hdesc).
      assert (Hs0 : s0 <= slot).
      { apply (D 0%nat (S (length run)) (slot, e) (s0, e0)); [lia|reflexivity|].
        cbn [nth_error]. rewrite nth_error_app2; rewrite map_length; [|lia]. rewrite Nat.sub_diag. reflexivity. }
      assert (fst x <= s0).
      { apply (descending_tail ((slot, e) :: map (fun e => (slot, e)) run)) in D.
        apply In_nth_error in Hx. destruct Hx as [j Hj]. apply (D 0%nat j (s0, e0) x); [lia|reflexivity|exact Hj]. }
      lia. }
    assert (Hcs : forall c, In c codes -> slot < c) by (intros c Hc; apply (Hlt c (slot, e)); [auto|left; auto]).
    destruct (IH rest (idx + N.of_nat (S (length run)))
                (list_set slots (N.to_nat slot) (idx, idx + N.of_nat (S (length run))))
                (codes ++ repeat slot (S (length run))) (F ++ e :: run)) as [slots' [E1 E2]].
    + lia.
    + rewrite app_length. cbn [length]. lia.
    + rewrite !app_length, repeat_length. cbn [length]. lia.
    + lia.
    + intros x Hx. apply Hm. right. rewrite Hr. apply in_or_app; auto.
    + apply (descending_tail ((slot, e) :: map (fun e => (slot, e)) run)). cbn [app]. rewrite <- Hr. exact Hdesc.
    + intros c x Hc Hx. apply in_app_or in Hc. destruct Hc as [Hc|Hc].
      * apply Hlt; auto. right. rewrite Hr. apply in_or_app; auto.
      * apply repeat_spec in Hc. subst. auto.
    + split; [rewrite list_set_length; exact Hsl|].
      intros s Hs. rewrite nth_error_list_set.
      destruct (Nat.eqb_spec (N.to_nat slot) (N.to_nat s)) as [Es|Ns].
      * assert (s = slot) by lia. subst s.
        destruct (Nat.ltb_spec (N.to_nat slot) (length slots)); [|lia].
        eexists. split; [reflexivity|]. cbn [fst snd]. rewrite app_length, repeat_length.
        split; [lia|]. split; [lia|]. intros p c Hp.
        destruct (Nat.lt_ge_cases p (length codes)) as [Hp2|Hp2].
        -- rewrite nth_error_app1 in Hp by lia. apply nth_error_In in Hp. specialize (Hcs c Hp). split; [lia|intros ->; lia].
        -- assert (Hp3 : (p < length (codes ++ repeat slot (S (length run))))%nat) by (apply nth_error_Some; congruence).
           rewrite app_length, repeat_length in Hp3.
           rewrite nth_error_app2 in Hp by lia. apply nth_error_In, repeat_spec in Hp. split; [auto|]. lia.
      * destruct (Hinv s Hs) as [[a b] [Ha [Hb [Hc Hd]]]]. exists (a, b). cbn [fst snd] in *. split; auto. split; auto.
        rewrite app_length, repeat_length. split; [lia|]. intros p c Hp.
        destruct (Nat.lt_ge_cases p (length codes)) as [Hp2|Hp2].
        -- rewrite nth_error_app1 in Hp by lia. apply Hd. exact Hp.
        -- rewrite nth_error_app2 in Hp by lia. apply nth_error_In, repeat_spec in Hp. subst c. split; [lia|intros ->; lia].
    + exists slots'. split.
      * rewrite E1. rewrite <- app_assoc. do 3 f_equal. cbn [map app snd]. f_equal.
        rewrite Hr, map_app, map_map. cbn [snd]. rewrite map_id. reflexivity.
      * rewrite <- app_assoc in E2. cbn [map fst].
        replace (slot :: map fst r) with (repeat slot (S (length run)) ++ map fst rest); [exact E2|].
        rewrite Hr, map_app, map_map. cbn [fst repeat app]. f_equal. f_equal.
        clear. induction run; cbn; congruence.
Qed.

Lemma mapM_ext {A B} (f g : A -> res B) l : (forall x, In x l -> f x = g x) -> mapM f l = mapM g l.
Proof.
  induction l as [|x r IH]; intros H; cbn [mapM]; auto.
  rewrite H by (left; auto). rewrite IH by (intros; apply H; right; auto). reflexivity.
Qed.

Theorem ht_new_spec {T} (usort : list (N * T) -> list (N * T)) cm entries (hash : T -> res N) (h : T -> N) :
  sorts_by_slot usort ->
  (forall e, In e entries -> hash e = Ok (h e)) ->
  N.of_nat (length entries) <= max_capacity cm ->
  exists t, ht_new usort cm entries hash = Ok (ROk t) /\
    Permutation entries (ht_entries t) /\ ht_inv (map h (ht_entries t)) t.
Proof.
  intros HU Hh Hcap. unfold ht_new. destruct entries as [|e0 es0] eqn:Ees.
  - cbn [is_nil]. exists ht_default. split; [reflexivity|]. split; [apply perm_nil|].
    split; [reflexivity|]. exists 0. split; [reflexivity|]. split; [reflexivity|]. intros s Hs.
    assert (s = 0) by (cbn in Hs; lia). subst. exists (0, 0). split; [reflexivity|]. split; [cbn; lia|].
    split; [cbn; lia|]. intros p c Hp. destruct p; discriminate.
  - rewrite <- Ees in *. assert (Hnil : is_nil entries = false) by (subst; reflexivity). rewrite Hnil.
    destruct (N.ltb_spec (max_capacity cm) (N.of_nat (length entries))); [lia|].
    rewrite (mapM_Ok_map hash h entries Hh). cbn [bind].
    destruct (analyze_hash_codes_spec (map h entries)) as [m [coll [A1 [[k Hk] [A2 [A3 A4]]]]]].
    { subst. discriminate. }
    rewrite A1. cbn [bind fst].
    assert (Hm : m <> 0) by (subst m; apply pow2_nz).
    unfold prep_items. rewrite (mapM_Ok_map _ (fun e => (h e mod m, e)) (rev entries)).
    2:{ intros e He. apply in_rev in He. rewrite Hh by assumption. cbn [bind].
        destruct (N.eqb_spec m 0); [lia|reflexivity]. }
    cbn [bind]. set (items := map (fun e => (h e mod m, e)) (rev entries)).
    destruct (HU items) as [HP HS].
    assert (Hin : forall x, In x (usort items) -> fst x = h (snd x) mod m).
    { intros x Hx. apply (Permutation_in _ (Permutation_sym HP)) in Hx. unfold items in Hx. apply in_map_iff in Hx.
      destruct Hx as [e [<- _]]. reflexivity. }
    assert (Hlen : length (usort items) = length entries).
    { rewrite <- (Permutation_length HP). unfold items. rewrite map_length, rev_length. reflexivity. }
    destruct (fill_slots_spec cm m (S (length (usort items))) (rev (usort items)) 0 (repeat (0, 0) (N.to_nat m)) [] [])
      as [slots [F1 F2]].
    + rewrite rev_length. lia.
    + reflexivity.
    + reflexivity.
    + rewrite rev_length. lia.
    + intros x Hx. apply in_rev in Hx. rewrite (Hin x Hx). apply N.mod_lt. exact Hm.
    + intros i j x y Hij Hi Hj.
      assert (Hil : (i < length (rev (usort items)))%nat) by (apply nth_error_Some; congruence).
      assert (Hjl : (j < length (rev (usort items)))%nat) by (apply nth_error_Some; congruence).
      rewrite rev_length in Hil, Hjl.
      assert (R : forall i z, (i < length (usort items))%nat -> nth_error (rev (usort items)) i = Some z ->
                  nth_error (usort items) (length (usort items) - S i) = Some z).
      { intros i' z Hi' Hz. rewrite (nth_error_nth' _ z) in Hz by (rewrite rev_length; auto).
        rewrite rev_nth in Hz by auto. rewrite <- Hz. apply nth_error_nth'. lia. }
      apply (HS (length (usort items) - S j)%nat (length (usort items) - S i)%nat); auto. lia.
    + intros c x [].
    + split; [apply repeat_length|]. intros s Hs. exists (0, 0). split.
      * rewrite (nth_error_nth' _ (0,0)) by (rewrite repeat_length; lia). f_equal. apply nth_repeat.
      * cbn. split; [lia|]. split; [lia|]. intros p c Hp. destruct p; discriminate.
    + rewrite F1. cbn [bind app]. destruct F2 as [F2 F3].
      assert (Hmask : sub_no_underflow (N.of_nat (length slots)) 1 = Ok (2 ^ k - 1)).
      { unfold sub_no_underflow. rewrite F2, N2Nat.id. destruct (N.leb_spec 1 m); [|lia]. rewrite Hk. reflexivity. }
      rewrite Hmask. cbn [bind]. eexists. split; [reflexivity|]. cbn [ht_entries].
      assert (HPE : Permutation entries (map snd (rev (usort items)))).
      { rewrite map_rev. eapply perm_trans; [|apply Permutation_rev].
        eapply perm_trans; [|apply Permutation_map, HP]. unfold items. rewrite map_map. cbn [snd]. rewrite map_id.
        apply Permutation_rev. }
      split; [exact HPE|]. split; [apply map_length|]. exists k. cbn [ht_slots ht_mask ht_entries].
      split; [rewrite F2, Hk; reflexivity|]. split; [reflexivity|]. rewrite <- Hk. intros s Hs.
      destruct (F3 s Hs) as [ab [G1 [G2 [G3 G4]]]]. exists ab. split; auto. split; auto.
      cbn [app] in G3, G4. rewrite !map_length. rewrite map_length in G3. split; [exact G3|].
      intros p c Hp. rewrite map_map in Hp. rewrite nth_error_map in Hp.
      destruct (nth_error (rev (usort items)) p) as [x|] eqn:Ex; [|discriminate]. cbn in Hp. inversion Hp; subst c.
      rewrite <- (Hin x) by (apply in_rev; eapply nth_error_In; eauto). apply G4.
      rewrite nth_error_map, Ex. reflexivity.
Qed.

Lemma ht_new_too_many {T} (usort : list (N * T) -> list (N * T)) cm entries (hash : T -> res N) :
  max_capacity cm < N.of_nat (length entries) -> exists msg, ht_new usort cm entries hash = Ok (RErr msg).
Proof.
  intros H. unfold ht_new. destruct entries as [|e r]; [cbn in H; lia|]. cbn [is_nil].
  destruct (N.ltb_spec (max_capacity cm) (N.of_nat (length (e :: r)))); [|lia]. eauto.
Qed.
