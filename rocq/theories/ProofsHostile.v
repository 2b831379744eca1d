(** Proofs for ModelHostile.v. *)
From Verif Require Import ModelUtils ModelAnalyzers ModelTables ModelMaps ModelHostile Spec SpecHostile.
From Verif Require Import ProofsBase ProofsAnalyzer ProofsTable ProofsEytzinger ProofsSafe.
From Coq Require Import Permutation.
From Verif Require Import Prelude.

(** [q]: the answers do not panic; then neither does [x]. *)
Definition runs (q : bool) {A} (x : hostile A) (P : A -> Prop) : Prop :=
  forall adv n, (q = true -> forall i, a_panics (adv i) = false) ->
    match x adv n with Ok (a, _) => P a | Panic => q = false | UB => False end.

Lemma runs_ret q {A} (a : A) (P : A -> Prop) : P a -> runs q (ret a) P.
Proof. intros H adv n _. exact H. Qed.

Lemma runs_then q {A B} (x : hostile A) (k : A -> hostile B) P R :
  runs q x P -> (forall a, P a -> runs q (k a) R) -> runs q (andthen x k) R.
Proof.
  intros H1 H2 adv n Q. unfold andthen. specialize (H1 adv n Q). destruct (x adv n) as [[a n']| |]; auto. apply H2; auto.
Qed.

Lemma runs_lift q {A} (r : res A) (P : A -> Prop) :
  match r with Ok a => P a | Panic => q = false | UB => False end -> runs q (lift r) P.
Proof. intros H adv n _. unfold lift. destruct r; auto. Qed.

Lemma runs_weaken q {A} (x : hostile A) (P R : A -> Prop) : runs q x P -> (forall a, P a -> R a) -> runs q x R.
Proof. intros H I adv n Q. specialize (H adv n Q). destruct (x adv n) as [[a n']| |]; auto. Qed.

Lemma runs_ask q (P : answer -> Prop) : (forall a, P a) -> runs q ask P.
Proof.
  intros H adv n Q. unfold ask. destruct (a_panics (adv n)) eqn:E; auto. destruct q; auto. rewrite (Q eq_refl n) in E. discriminate.
Qed.

Lemma runs_bool q (P : bool -> Prop) : (forall b, P b) -> runs q ask_bool P.
Proof. intros H. eapply runs_then; [apply (runs_ask q (fun _ => True)); auto|]. intros a _. apply runs_ret. auto. Qed.

Lemma runs_order q (P : comparison -> Prop) : (forall b, P b) -> runs q ask_order P.
Proof. intros H. eapply runs_then; [apply (runs_ask q (fun _ => True)); auto|]. intros a _. apply runs_ret. auto. Qed.

Lemma runs_number q (P : N -> Prop) : (forall b, b < two64 -> P b) -> runs q ask_number P.
Proof.
  intros H. eapply runs_then; [apply (runs_ask q (fun _ => True)); auto|]. intros a _. apply runs_ret. apply H. apply N.mod_lt.
  discriminate.
Qed.

(** * Deduplication *)
Lemma retain_incl {T} dupes : forall (l : list T) i, incl (retain_from i dupes l) l.
Proof.
  induction l as [|x r IH]; intros i y H; cbn [retain_from] in H; [destruct H|].
  destruct (negb (existsb (Nat.eqb i) dupes)).
  - destruct H as [<-|H]; [left; auto|right; eapply IH; eauto].
  - right. eapply IH; eauto.
Qed.

Lemma retain_some {T} (dupes : list nat) (l : list T) :
  incl (if negb (is_nil dupes) then retain_from 0 dupes l else l) l.
Proof. destruct (negb (is_nil dupes)); [apply retain_incl|apply incl_refl]. Qed.

Lemma retain_length {T} dupes : forall (l : list T) i, (length (retain_from i dupes l) <= length l)%nat.
Proof.
  induction l as [|x r IH]; intros i; cbn [retain_from length]; [lia|].
  specialize (IH (S i)). destruct (negb (existsb (Nat.eqb i) dupes)); cbn [length]; lia.
Qed.

Lemma retain_some_length {T} (dupes : list nat) (l : list T) :
  (length (if negb (is_nil dupes) then retain_from 0 dupes l else l) <= length l)%nat.
Proof. destruct (negb (is_nil dupes)); [apply retain_length|lia]. Qed.

(** What deduplication leaves: elements of the input, not more of them. *)
Definition part_of {T} (l es : list T) : Prop := incl es l /\ (length es <= length l)%nat.

Lemma part_of_refl {T} (l : list T) : part_of l l.
Proof. split; [apply incl_refl|lia]. Qed.

Lemma retain_part {T} (dupes : list nat) (l : list T) : part_of l (if negb (is_nil dupes) then retain_from 0 dupes l else l).
Proof. split; [apply retain_some|apply retain_some_length]. Qed.

Lemma using_eq_runs q {T} (l : list T) : runs q (h_using_eq l) (part_of l).
Proof.
  unfold h_using_eq. destruct (Nat.leb 2 (length l)); [|apply runs_ret, part_of_refl].
  eapply runs_then; [|intros dupes _; apply runs_ret, retain_part].
  assert (I : forall (r : list T), runs q (h_using_eq_inner r) (fun _ => True)).
  { induction r as [|y r IH]; cbn [h_using_eq_inner]; [apply runs_ret; exact I|].
    eapply runs_then; [apply (runs_bool q (fun _ => True)); auto|]. intros b _. destruct b; [apply runs_ret; exact I|exact IH]. }
  assert (D : forall (r : list T) i d, runs q (h_using_eq_dupes i r d) (fun _ => True)).
  { induction r as [|y r IH]; intros i d; cbn [h_using_eq_dupes]; [apply runs_ret; auto|].
    eapply runs_then; [apply I|]. intros b _. apply IH. }
  apply (D l 0%nat []).
Qed.

Lemma using_hash_runs q {T} (l : list T) : runs q (h_using_hash l) (part_of l).
Proof.
  unfold h_using_hash. destruct (Nat.leb 2 (length l)); [|apply runs_ret, part_of_refl].
  eapply runs_then; [|intros dupes _; apply runs_ret, retain_part].
  assert (D : forall (r : list T) i keep d, runs q (h_using_hash_dupes i r keep d) (fun _ => True)).
  { induction r as [|y r IH]; intros i keep d; cbn [h_using_hash_dupes]; [apply runs_ret; auto|].
    eapply runs_then; [apply (runs_number q (fun _ => True)); auto|]. intros _h _.
    eapply runs_then; [apply (runs_ask q (fun _ => True)); auto|]. intros a _. cbv zeta.
    destruct (if a_bool a then nth_error keep (N.to_nat (a_number a mod N.of_nat (length keep))) else None); apply IH. }
  apply (D l 0%nat [] []).
Qed.

Lemma remove_nth_perm {A} (l : list A) : forall i x, nth_error l i = Some x -> Permutation l (x :: remove_nth i l).
Proof.
  induction l as [|a r IH]; intros i x H; destruct i; cbn in H; try discriminate.
  - injection H as <-. unfold remove_nth. cbn. apply Permutation_refl.
  - apply IH in H. unfold remove_nth in *. cbn [firstn skipn app]. eapply perm_trans; [apply perm_skip; exact H|]. apply perm_swap.
Qed.

Lemma sort_runs q {T} : forall todo (l : list T), runs q (h_sort todo l) (Permutation l).
Proof.
  induction todo as [|todo IH]; intros l; cbn [h_sort]; [apply runs_ret, Permutation_refl|].
  eapply runs_then; [apply (runs_ask q (fun _ => True)); auto|]. intros a _. cbv zeta.
  destruct (nth_error l _) as [x|] eqn:E; [|apply runs_ret, Permutation_refl].
  eapply runs_then; [apply IH|]. intros r P. apply runs_ret. eapply perm_trans; [apply remove_nth_perm; eauto|].
  apply perm_skip. exact P.
Qed.

Lemma sorted_runs q {T} (l : list T) : runs q (h_sorted_and_dedupped l) (part_of l).
Proof.
  unfold h_sorted_and_dedupped. eapply runs_then; [apply sort_runs|]. intros es P.
  assert (W : forall x, part_of es x -> part_of l x).
  { intros x [A B]. split; [|rewrite (Permutation_length P); auto]. intros y Hy. apply A in Hy. eapply Permutation_in; [|exact Hy].
    apply Permutation_sym; auto. }
  destruct (Nat.leb 2 (length es)); [|apply runs_ret, W, part_of_refl].
  eapply runs_then; [|intros dupes _; apply runs_ret, W, retain_part].
  assert (D : forall (r : list T) i d, runs q (h_adjacent_dupes i r d) (fun _ => True)).
  { induction r as [|y r IH]; intros i d; cbn [h_adjacent_dupes]; [apply runs_ret; auto|].
    destruct r as [|z r]; [apply runs_ret; auto|].
    eapply runs_then; [apply (runs_order q (fun _ => True)); auto|]. intros b _. apply IH. }
  apply (D es 0%nat []).
Qed.

(** * Hash tables *)
Lemma codes_runs q {T} : forall (l : list T), runs q (h_codes l) (fun cs => length cs = length l).
Proof.
  induction l as [|x r IH]; cbn [h_codes]; [apply runs_ret; auto|].
  eapply runs_then; [apply (runs_number q (fun _ => True)); auto|]. intros h _.
  eapply runs_then; [apply IH|]. intros hs E. apply runs_ret. cbn. congruence.
Qed.

Lemma prep_runs q {T} m : m <> 0 -> forall (l : list T),
  runs q (h_prep_items m l) (fun items => map snd items = l /\ forall x, In x items -> fst x < m).
Proof.
  intros Hm. induction l as [|x r IH]; cbn [h_prep_items]; [apply runs_ret; cbn; split; [auto|intros _ []]|].
  eapply runs_then; [apply (runs_number q (fun _ => True)); auto|]. intros h _.
  eapply (runs_then q _ _ (fun s => s < m)).
  { apply runs_lift. destruct (N.eqb_spec m 0); [lia|]. apply N.mod_lt; auto. }
  intros s Hs. eapply runs_then; [apply IH|]. intros items [E B]. apply runs_ret. cbn. split; [congruence|].
  intros y [<-|Hy]; auto.
Qed.

Definition table_sound {T} (t : hash_table T) : Prop := exists codes, ht_inv codes t.

Lemma ht_new_runs q {T} usort cm (l : list T) : sorts_by_slot usort ->
  runs q (h_ht_new usort cm l) (fun r => match r with ROk t => table_sound t /\ Permutation l (ht_entries t)
    | RErr _ => max_capacity cm < N.of_nat (length l) end).
Proof.
  intros HU. unfold h_ht_new. destruct l as [|e0 l0] eqn:El.
  { cbn [is_nil]. apply runs_ret. split; [|apply perm_nil]. exists []. split; [reflexivity|]. exists 0. split; [reflexivity|].
    split; [reflexivity|]. intros s Hs. assert (s = 0) by (cbn in Hs; lia). subst. exists (0, 0). split; [reflexivity|].
    split; [cbn; lia|]. split; [cbn; lia|]. intros p c Hp. destruct p; discriminate. }
  rewrite <- El in *. assert (Hnil : is_nil l = false) by (subst; reflexivity). rewrite Hnil.
  destruct (N.ltb_spec (max_capacity cm) (N.of_nat (length l))) as [C|C]; [apply runs_ret; auto|].
  eapply runs_then; [apply codes_runs|]. intros codes Hc.
  destruct (analyze_hash_codes_spec codes) as [m [coll [A1 [[k Hk] _]]]].
  { intros ->. subst l. cbn in Hc. discriminate. }
  rewrite A1. eapply (runs_then q _ _ (fun a => a = (m, coll))); [apply runs_lift; auto|]. intros a ->. cbv zeta. cbn [fst].
  assert (Hm : m <> 0) by (subst m; apply pow2_nz).
  eapply runs_then; [apply (prep_runs q m Hm)|]. intros items [Hs Hb].
  destruct (HU items) as [HP HS].
  assert (Hin : forall x, In x (usort items) -> fst x < m).
  { intros x Hx. apply Hb. eapply Permutation_in; [apply Permutation_sym; eauto|auto]. }
  assert (Hlen : length (usort items) = length l).
  { rewrite <- (Permutation_length HP). rewrite <- (rev_length l), <- Hs, map_length. reflexivity. }
  destruct (fill_slots_spec cm m (S (length (usort items))) (rev (usort items)) 0 (repeat (0, 0) (N.to_nat m)) [] [])
    as [slots [F1 F2]].
  - rewrite rev_length. lia.
  - reflexivity.
  - reflexivity.
  - rewrite rev_length. lia.
  - intros x Hx. apply in_rev in Hx. auto.
  - intros i j x y Hij Hi Hj.
    assert (Hil : (i < length (rev (usort items)))%nat) by (apply nth_error_Some; congruence).
    assert (Hjl : (j < length (rev (usort items)))%nat) by (apply nth_error_Some; congruence).
    rewrite rev_length in Hil, Hjl.
    assert (R : forall i z, (i < length (usort items))%nat -> nth_error (rev (usort items)) i = Some z ->
                nth_error (usort items) (length (usort items) - S i) = Some z).
    { intros i' z Hi' Hz. rewrite (nth_error_nth' _ z) in Hz by (rewrite rev_length; auto).
      rewrite rev_nth in Hz by auto. rewrite <- Hz. apply nth_error_nth'. lia. }
    apply (HS (length (usort items) - S j)%nat (length (usort items) - S i)%nat); auto. lia.
  - intros c x [].
  - split; [apply repeat_length|]. intros s Hs'. exists (0, 0). split.
    + rewrite (nth_error_nth' _ (0,0)) by (rewrite repeat_length; lia). f_equal. apply nth_repeat.
    + cbn. split; [lia|]. split; [lia|]. intros p c Hp. destruct p; discriminate.
  - rewrite F1. eapply (runs_then q _ _ (fun a => a = (slots, [] ++ map snd (rev (usort items))))); [apply runs_lift; auto|].
    intros r ->. cbn [app]. destruct F2 as [F2 F3].
    assert (Hmask : sub_no_underflow (N.of_nat (length slots)) 1 = Ok (2 ^ k - 1)).
    { unfold sub_no_underflow. rewrite F2, N2Nat.id. destruct (N.leb_spec 1 m); [|lia]. rewrite Hk. reflexivity. }
    rewrite Hmask. eapply (runs_then q _ _ (fun a => a = 2 ^ k - 1)); [apply runs_lift; auto|]. intros mask ->.
    apply runs_ret. cbn [ht_entries]. split.
    + exists (map fst (rev (usort items))). split; [cbn [ht_entries]; rewrite !map_length; reflexivity|]. exists k.
      cbn [ht_slots ht_mask]. split; [rewrite F2, Hk; reflexivity|]. split; [reflexivity|]. rewrite <- Hk. intros s Hs'.
      destruct (F3 s Hs') as [ab [G1 [G2 [G3 G4]]]]. exists ab. split; auto. split; auto.
      cbn [app] in G3, G4. split; [exact G3|]. intros p c Hp. rewrite (G4 p c Hp).
      assert (c < m).
      { apply nth_error_In in Hp. apply in_map_iff in Hp. destruct Hp as [x [<- Hx]]. apply Hin. apply in_rev. auto. }
      rewrite N.mod_small by auto. tauto.
    + rewrite map_rev. eapply perm_trans; [|apply Permutation_rev]. eapply perm_trans; [|apply Permutation_map, HP].
      rewrite Hs. apply Permutation_rev.
Qed.

(** * Queries *)
Lemma scan_get_runs q {K V} (P : option V -> Prop) : forall (es : list (K * V)) o, P o -> (forall e, In e es -> P (Some (snd e))) ->
  runs q (h_scan_get es o) P.
Proof.
  induction es as [|e r IH]; intros o Ho He; cbn [h_scan_get]; [apply runs_ret; auto|].
  eapply runs_then; [apply (runs_bool q (fun _ => True)); auto|]. intros b _. apply IH; [|intros e' H'; apply He; right; auto].
  destruct b; auto. apply He. left; auto.
Qed.

Lemma scan_get_key_value_runs q {K V} (P : option (K * V) -> Prop) : forall (es : list (K * V)) o, P o ->
  (forall e, In e es -> P (Some (fst e, snd e))) -> runs q (h_scan_get_key_value es o) P.
Proof.
  induction es as [|e r IH]; intros o Ho He; cbn [h_scan_get_key_value]; [apply runs_ret; auto|].
  eapply runs_then; [apply (runs_bool q (fun _ => True)); auto|]. intros b _. apply IH; [|intros e' H'; apply He; right; auto].
  destruct b; auto. apply He. left; auto.
Qed.

Lemma scan_get_mut_runs q {K V} (P : option nat -> Prop) : forall (es : list (K * V)) pos o, P o ->
  (forall p, (pos <= p < pos + length es)%nat -> P (Some p)) -> runs q (h_scan_get_mut es pos o) P.
Proof.
  induction es as [|e r IH]; intros pos o Ho He; cbn [h_scan_get_mut]; [apply runs_ret; auto|]. cbn [length] in He.
  eapply runs_then; [apply (runs_bool q (fun _ => True)); auto|]. intros b _. apply IH; [|intros p Hp; apply He; lia].
  destruct b; auto. apply He. lia.
Qed.

Lemma search_loop_runs q {T} (data : list T) : forall fuel i, (length data < fuel + i)%nat -> (0 < fuel)%nat ->
  runs q (h_search_loop fuel data i) (fun o => match o with Some p => (p < length data)%nat | None => True end).
Proof.
  induction fuel as [|fuel IH]; intros i H H0; [lia|]. cbn [h_search_loop].
  destruct (nth_error data i) as [v|] eqn:E; [|apply runs_ret; exact I].
  assert (Hi : (i < length data)%nat) by (apply nth_error_Some; congruence).
  eapply runs_then; [apply (runs_order q (fun _ => True)); auto|]. intros c _. cbv zeta.
  destruct c; [apply runs_ret; auto| |]; apply IH; lia.
Qed.

Lemma search_runs q {T} (data : list T) :
  runs q (h_search data) (fun o => match o with Some p => (p < length data)%nat | None => True end).
Proof. apply search_loop_runs; lia. Qed.

Lemma scan_slot_runs q {T} : forall (l : list T), runs q (h_scan_slot l) (fun o => match o with Some e => In e l | None => True end).
Proof.
  induction l as [|e r IH]; cbn [h_scan_slot]; [apply runs_ret; exact I|].
  eapply runs_then; [apply (runs_bool q (fun _ => True)); auto|]. intros b _. destruct b; [apply runs_ret; left; auto|].
  eapply runs_weaken; [apply IH|]. intros [x|]; auto. intros; right; auto.
Qed.

Lemma scan_slot_mut_runs q {T} : forall (l : list T) pos,
  runs q (h_scan_slot_mut pos l) (fun o => match o with Some p => (pos <= p < pos + length l)%nat | None => True end).
Proof.
  induction l as [|e r IH]; intros pos; cbn [h_scan_slot_mut length]; [apply runs_ret; exact I|].
  eapply runs_then; [apply (runs_bool q (fun _ => True)); auto|]. intros b _. destruct b; [apply runs_ret; lia|].
  eapply runs_weaken; [apply IH|]. intros [x|]; auto. lia.
Qed.

Lemma runs_get q {A} (l : list A) i x : nth_error l i = Some x -> runs q (lift (get_unchecked l i)) (fun y => y = x).
Proof. intros H. apply runs_lift. unfold get_unchecked. rewrite H. auto. Qed.

Lemma runs_get_in q {A} (l : list A) i : (i < length l)%nat ->
  runs q (lift (get_unchecked l i)) (fun y => nth_error l i = Some y).
Proof.
  intros H. apply runs_lift. unfold get_unchecked. destruct (nth_error l i) eqn:E; auto. apply nth_error_None in E. lia.
Qed.

Lemma runs_slice q {A} (l : list A) lo hi : (lo <= hi)%nat -> (hi <= length l)%nat ->
  runs q (lift (slice_unchecked l lo hi)) (fun s => length s = (hi - lo)%nat /\ incl s l).
Proof.
  intros H1 H2. apply runs_lift. unfold slice_unchecked.
  destruct (Nat.leb_spec lo hi); [|lia]. destruct (Nat.leb_spec hi (length l)); [|lia]. cbn [andb].
  split; [rewrite firstn_length, skipn_length; lia|].
  intros x Hx. rewrite <- (firstn_skipn lo l). apply in_or_app. right. rewrite <- (firstn_skipn (hi - lo) (skipn lo l)).
  apply in_or_app. left. exact Hx.
Qed.

Definition ht_sound {T} (t : hash_table T) : Prop := forall h, h < two64 ->
  exists lo hi, nth_error (ht_slots t) (N.to_nat (N.land h (ht_mask t))) = Some (lo, hi) /\
    lo <= hi <= N.of_nat (length (ht_entries t)).

Definition nc_sound {T} (t : nc_table T) : Prop := forall h, h < two64 ->
  exists j, nth_error (nc_slots t) (N.to_nat (N.land h (nc_mask t))) = Some j /\ j <= N.of_nat (length (nc_entries t)).

Lemma table_sound_ht {T} (t : hash_table T) : table_sound t -> ht_sound t.
Proof.
  intros [codes [Hl [k [Hs [Hm Hinv]]]]] h _. rewrite Hm, land_mask.
  assert (Hlt : h mod 2 ^ k < 2 ^ k) by (apply N.mod_lt, pow2_nz).
  destruct (Hinv _ Hlt) as [[a b] [H1 [H2 [H3 H4]]]]. cbn [fst snd] in *. exists a, b. split; auto. rewrite <- Hl. lia.
Qed.

Lemma ht_find_runs q {T} (t : hash_table T) h : ht_sound t -> h < two64 ->
  runs q (h_ht_find t h) (fun o => match o with Some e => In e (ht_entries t) | None => True end).
Proof.
  intros HS Hh. destruct (HS h Hh) as [lo [hi [E B]]]. unfold h_ht_find.
  eapply runs_then; [apply runs_get, E|]. intros s ->.
  eapply runs_then; [apply runs_slice; lia|]. intros s [_ I]. eapply runs_weaken; [apply scan_slot_runs|].
  intros [e|]; auto.
Qed.

Lemma ht_find_mut_runs q {T} (t : hash_table T) h : ht_sound t -> h < two64 ->
  runs q (h_ht_find_mut t h) (fun o => match o with Some p => (p < length (ht_entries t))%nat | None => True end).
Proof.
  intros HS Hh. destruct (HS h Hh) as [lo [hi [E B]]]. unfold h_ht_find_mut.
  eapply runs_then; [apply runs_get, E|]. intros s ->.
  eapply runs_then; [apply runs_slice; lia|]. intros s [L _]. eapply runs_weaken; [apply scan_slot_mut_runs|].
  intros [e|]; auto. lia.
Qed.

Lemma nc_find_runs q {T} (t : nc_table T) h : nc_sound t -> h < two64 ->
  runs q (h_nc_find t h) (fun o => match o with Some e => In e (nc_entries t) | None => True end).
Proof.
  intros HS Hh. destruct (HS h Hh) as [j [E B]]. unfold h_nc_find.
  eapply runs_then; [apply runs_get, E|]. intros s ->. destruct (N.ltb_spec 0 j); [|apply runs_ret; exact I].
  eapply runs_then; [apply runs_get_in; lia|]. intros e He.
  eapply runs_then; [apply (runs_bool q (fun _ => True)); auto|]. intros b _. apply runs_ret.
  destruct b; [exact (nth_error_In _ _ He)|exact I].
Qed.

Lemma nc_find_mut_runs q {T} (t : nc_table T) h : nc_sound t -> h < two64 ->
  runs q (h_nc_find_mut t h) (fun o => match o with Some p => (p < length (nc_entries t))%nat | None => True end).
Proof.
  intros HS Hh. destruct (HS h Hh) as [j [E B]]. unfold h_nc_find_mut.
  eapply runs_then; [apply runs_get, E|]. intros s ->. destruct (N.ltb_spec 0 j); [|apply runs_ret; exact I].
  eapply runs_then; [apply runs_get_in; lia|]. intros e He.
  eapply runs_then; [apply (runs_bool q (fun _ => True)); auto|]. intros b _. apply runs_ret.
  destruct b; [lia|exact I].
Qed.

Ltac in_range := match goal with |- context[(?a <=? ?i) && (?i <=? ?b)] =>
  destruct (N.leb_spec a i); cbn [andb]; [destruct (N.leb_spec i b); cbn [andb]|] end.

(** A sound map answers. *)
Lemma get_runs q {K V} (m : any_map K V) : sound m ->
  runs q (h_get m) (fun o => match o with Some v => In v (map snd (any_entries m)) | None => True end).
Proof.
  intros HS. destruct m as [m|m|m|m|m|m]; cbn [sound] in HS; cbn [h_get any_entries].
  - apply scan_get_runs; [exact I|]. intros e He. apply in_map; auto.
  - eapply runs_then; [apply search_runs|]. intros [p|] Hp; [|apply runs_ret; exact I].
    eapply runs_then; [apply runs_get_in, Hp|]. intros e He. apply runs_ret. exact (in_map _ _ _ (nth_error_In _ _ He)).
  - eapply runs_then; [apply (runs_number q (fun i => i < two64)); auto|]. intros i Hi. apply runs_lift. unfold dense_get.
    in_range; auto. specialize (HS ltac:(lia)). unfold get_unchecked.
    destruct (nth_error _ _) as [e|] eqn:E; cbn [bind]; [apply in_map; eapply nth_error_In; eauto|].
    apply nth_error_None in E. lia.
  - eapply runs_then; [apply (runs_number q (fun i => i < two64)); auto|]. intros i Hi. apply runs_lift. unfold sparse_get.
    in_range; auto. destruct (HS i ltac:(lia)) as [j [E B]]. unfold get_unchecked. rewrite E. cbn [bind].
    destruct (N.ltb_spec 0 j); auto.
    destruct (nth_error (sp_entries m) _) as [e|] eqn:E'; cbn [bind]; [apply in_map; eapply nth_error_In; eauto|].
    apply nth_error_None in E'. lia.
  - eapply runs_then; [apply (runs_number q (fun i => i < two64)); auto|]. intros i Hi.
    eapply runs_then; [apply ht_find_runs; auto|]. intros [e|] He; apply runs_ret; cbn; auto. apply in_map; auto.
  - eapply runs_then; [apply (runs_number q (fun i => i < two64)); auto|]. intros i Hi.
    eapply runs_then; [apply nc_find_runs; auto|]. intros [e|] He; apply runs_ret; cbn; auto. apply in_map; auto.
Qed.

Lemma get_key_value_runs q {K V} (m : any_map K V) : sound m ->
  runs q (h_get_key_value m) (fun o => match o with Some e => In e (any_entries m) | None => True end).
Proof.
  intros HS. destruct m as [m|m|m|m|m|m]; cbn [sound] in HS; cbn [h_get_key_value any_entries].
  - apply scan_get_key_value_runs; [exact I|]. intros [k v] He. auto.
  - eapply runs_then; [apply search_runs|]. intros [p|] Hp; [|apply runs_ret; exact I].
    eapply runs_then; [apply runs_get_in, Hp|]. intros [k v] He. apply runs_ret. exact (nth_error_In _ _ He).
  - eapply runs_then; [apply (runs_number q (fun i => i < two64)); auto|]. intros i Hi. apply runs_lift. unfold dense_get_key_value.
    in_range; auto. specialize (HS ltac:(lia)). unfold get_unchecked.
    destruct (nth_error _ _) as [[k v]|] eqn:E; cbn [bind]; [cbn; eapply nth_error_In; eauto|].
    apply nth_error_None in E. lia.
  - eapply runs_then; [apply (runs_number q (fun i => i < two64)); auto|]. intros i Hi. apply runs_lift. unfold sparse_get_key_value.
    in_range; auto. destruct (HS i ltac:(lia)) as [j [E B]]. unfold get_unchecked. rewrite E. cbn [bind].
    destruct (N.ltb_spec 0 j); auto.
    destruct (nth_error (sp_entries m) _) as [[k v]|] eqn:E'; cbn [bind]; [cbn; eapply nth_error_In; eauto|].
    apply nth_error_None in E'. lia.
  - eapply runs_then; [apply (runs_number q (fun i => i < two64)); auto|]. intros i Hi.
    eapply runs_then; [apply ht_find_runs; auto|]. intros [[k v]|] He; apply runs_ret; cbn; auto.
  - eapply runs_then; [apply (runs_number q (fun i => i < two64)); auto|]. intros i Hi.
    eapply runs_then; [apply nc_find_runs; auto|]. intros [[k v]|] He; apply runs_ret; cbn; auto.
Qed.

Lemma get_mut_runs q {K V} (m : any_map K V) : sound m ->
  runs q (h_get_mut m) (fun o => match o with Some p => (p < length (any_entries m))%nat | None => True end).
Proof.
  intros HS. destruct m as [m|m|m|m|m|m]; cbn [sound] in HS; cbn [h_get_mut any_entries].
  - apply scan_get_mut_runs; [exact I|]. intros p Hp. lia.
  - eapply runs_then; [apply search_runs|]. intros [p|] Hp; [|apply runs_ret; exact I].
    eapply runs_then; [apply runs_get_in, Hp|]. intros e He. apply runs_ret. auto.
  - eapply runs_then; [apply (runs_number q (fun i => i < two64)); auto|]. intros i Hi. apply runs_lift. unfold dense_get_mut.
    in_range; auto. specialize (HS ltac:(lia)). unfold get_unchecked.
    destruct (nth_error _ _) as [e|] eqn:E; cbn [bind]; [apply nth_error_Some; congruence|].
    apply nth_error_None in E. lia.
  - eapply runs_then; [apply (runs_number q (fun i => i < two64)); auto|]. intros i Hi. apply runs_lift. unfold sparse_get_mut.
    in_range; auto. destruct (HS i ltac:(lia)) as [j [E B]]. unfold get_unchecked. rewrite E. cbn [bind].
    destruct (N.ltb_spec 0 j); auto.
    destruct (nth_error (sp_entries m) _) as [e|] eqn:E'; cbn [bind]; [apply nth_error_Some; congruence|].
    apply nth_error_None in E'. lia.
  - eapply runs_then; [apply (runs_number q (fun i => i < two64)); auto|]. intros i Hi. apply ht_find_mut_runs; auto.
  - eapply runs_then; [apply (runs_number q (fun i => i < two64)); auto|]. intros i Hi. apply nc_find_mut_runs; auto.
Qed.

(** * Sessions *)
Lemma any_with_entries_entries {K V} (m : any_map K V) es : any_entries (any_with_entries m es) = es.
Proof. destruct m; reflexivity. Qed.

Lemma sound_with_entries {K V} (m : any_map K V) es : length es = length (any_entries m) -> sound m -> sound (any_with_entries m es).
Proof.
  intros L. destruct m; cbn [any_entries] in L; cbn -[N.of_nat]; try rewrite L; auto.
Qed.

(** Where the entries of a map in use come from. *)
Definition known {K V} (keys : list K) (values : list V) (m : any_map K V) : Prop :=
  forall e, In e (any_entries m) -> In (fst e) keys /\ In (snd e) values.

Lemma known_more {K V} (keys : list K) (vs vs' : list V) m : incl vs vs' -> known keys vs m -> known keys vs' m.
Proof. intros I H e He. destruct (H e He). split; auto. Qed.

Lemma in_list_set {A} (l : list A) : forall i x y, In y (list_set l i x) -> y = x \/ In y l.
Proof.
  induction l as [|a r IH]; intros i x y H; destruct i; cbn in H; auto.
  - destruct H as [<-|H]; auto. right; right; auto.
  - destruct H as [<-|H]; [right; left; auto|]. apply IH in H. destruct H; auto. right; right; auto.
Qed.

(** The same keys in the same places. *)
Definition same_keys {K V} (m m' : any_map K V) : Prop := map fst (any_entries m') = map fst (any_entries m).

Lemma request_runs q {K V} (rq : request V) (m : any_map K V) keys values :
  sound m -> known keys values m ->
  (forall v, In v (put_values [rq]) -> In v values) ->
  runs q (h_request rq m) (fun x => from_known keys values (Some (fst x)) /\ sound (snd x) /\ known keys values (snd x) /\
    same_keys m (snd x)).
Proof.
  intros HS HK HP. destruct rq as [|v| |]; cbn [h_request].
  - eapply runs_then; [apply get_runs; auto|]. intros o Ho. apply runs_ret. cbn. repeat split; auto; try (apply HK; auto).
    destruct o; auto. apply in_map_iff in Ho. destruct Ho as [e [<- He]]. apply HK; auto.
  - eapply runs_then; [apply get_mut_runs; auto|]. intros [p|] Hp; [|apply runs_ret; cbn; repeat split; auto; apply HK; auto].
    eapply runs_then; [apply runs_get_in, Hp|]. intros e He. cbn beta in He. apply runs_ret. cbn [fst snd from_known]. split; auto.
    split; [apply sound_with_entries; [apply list_set_length|auto]|]. split.
    + intros e' H'. rewrite any_with_entries_entries in H'. apply in_list_set in H'. destruct H' as [->|H']; [|apply HK; auto].
      cbn. split; [exact (proj1 (HK _ (nth_error_In _ _ He)))|]. apply HP. left; auto.
    + unfold same_keys. rewrite any_with_entries_entries, map_list_set. cbn [fst]. apply list_set_same.
      rewrite nth_error_map, He. reflexivity.
  - eapply runs_then; [apply get_key_value_runs; auto|]. intros o Ho. apply runs_ret. cbn. repeat split; auto; try (apply HK; auto).
    destruct o as [[k v]|]; auto. apply HK in Ho. auto.
  - unfold h_contains_key. eapply runs_then; [eapply runs_then; [apply get_runs; auto|intros o _; apply (runs_ret q _ (fun _ => True)); auto]|].
    intros b _. apply runs_ret. cbn. repeat split; auto; apply HK; auto.
Qed.

Lemma session_runs q {K V} keys : forall (rqs : list (request V)) (m : any_map K V) values,
  sound m -> known keys values m -> (forall v, In v (put_values rqs) -> In v values) ->
  runs q (h_session rqs m) (fun x => Forall (from_known keys values) (fst x) /\ sound (snd x) /\ known keys values (snd x) /\
    same_keys m (snd x) /\ length (fst x) = length rqs /\ (q = true -> ~ In None (fst x))).
Proof.
  induction rqs as [|rq r IH]; intros m values HS HK HP.
  - apply runs_ret. cbn. repeat split; auto; apply HK; auto.
  - assert (HP1 : forall v, In v (put_values [rq]) -> In v values).
    { intros v Hv. apply HP. unfold put_values in *. cbn [flat_map] in *. rewrite app_nil_r in Hv. apply in_or_app. auto. }
    assert (HP2 : forall v, In v (put_values r) -> In v values).
    { intros v Hv. apply HP. unfold put_values in *. cbn [flat_map]. apply in_or_app. auto. }
    intros adv n Q. cbn [h_session]. pose proof (request_runs q rq m keys values HS HK HP1 adv n Q) as H.
    destruct (h_request rq m adv n) as [[[rp m'] n']| |]; [|subst q|destruct H].
    + cbn [fst snd] in H. destruct H as [F [S' [K' SK]]].
      pose proof (IH m' values S' K' HP2 adv n' Q) as H. unfold andthen, ret.
      destruct (h_session r m' adv n') as [[[rps m''] n'']| |]; auto. cbn [fst snd] in *.
      destruct H as [A [B [C [D [E G]]]]]. split; [constructor; auto|]. split; auto. split; auto.
      split; [unfold same_keys in *; congruence|]. split; [cbn; congruence|]. intros Hq [X|X]; [discriminate|]. exact (G Hq X).
    + pose proof (IH m values HS HK HP2 adv (S n) Q) as H. unfold andthen, ret.
      destruct (h_session r m adv (S n)) as [[[rps m''] n'']| |]; auto. cbn [fst snd] in *.
      destruct H as [A [B [C [D [E G]]]]]. split; [constructor; cbn; auto|]. split; auto. split; auto. split; auto.
      split; [cbn; congruence|]. discriminate.
Qed.

(** * Constructors *)
Lemma layout_runs q {T} (l : list T) : runs q (lift (eytzinger_layout l)) (Permutation l).
Proof.
  apply runs_lift. destruct (layout_spec l) as [out [E _]]. pose proof (layout_perm l out E) as P. rewrite E. auto.
Qed.

Lemma part_of_perm {T} (l es es' : list T) : part_of l es -> Permutation es es' -> part_of l es'.
Proof.
  intros [A B] P. split; [|rewrite <- (Permutation_length P); auto]. intros x Hx. apply A. eapply Permutation_in; [|exact Hx].
  apply Permutation_sym; auto.
Qed.

Lemma index_runs {A} (l : list A) i : runs false (lift (index l i)) (fun x => nth_error l i = Some x).
Proof. apply runs_lift. unfold index. destruct (nth_error l i); auto. Qed.

Lemma usub_runs md a b : a < two64 -> b < two64 -> runs false (lift (usub md a b)) (fun d => d < two64 /\ (b <= a -> d = a - b)).
Proof.
  intros Ha Hb. apply runs_lift. unfold usub. destruct (N.leb_spec b a); [split; [lia|auto]|]. destruct md; auto.
  split; [lia|]. lia.
Qed.

Lemma uadd_runs md a : a < two64 -> runs false (lift (uadd md a 1)) (fun d => d < two64 /\ (a + 1 < two64 -> d = a + 1) /\ (d = a + 1 \/ d = 0)).
Proof.
  intros Ha. apply runs_lift. unfold uadd. change usize_max with (two64 - 1). destruct (N.leb_spec (a + 1) (two64 - 1)).
  - split; [lia|]. split; auto.
  - destruct md; auto. assert (a + 1 = two64) by lia. rewrite H0. split; [reflexivity|]. split; [lia|right; reflexivity].
Qed.

Lemma store_runs {A} (l : list A) i x : runs false (lift (store l i x))
  (fun l' => length l' = length l /\ (i < length l)%nat /\ forall y, In y l' -> y = x \/ In y l).
Proof. apply runs_lift. destruct (store l i x) eqn:E; auto; [apply store_inv in E; auto|unfold store in E; destruct (Nat.ltb _ _); discriminate]. Qed.

Lemma sparse_fill_runs {K V} md mn n : mn < two64 -> forall (es : list (K * V)) i lookup,
  i + N.of_nat (length es) <= n -> (forall x, In x lookup -> x <= n) ->
  runs false (h_sparse_fill md mn i es lookup)
    (fun l' => length l' = length lookup /\ (es <> [] -> lookup <> []) /\ forall x, In x l' -> x <= n).
Proof.
  intros Hmn. induction es as [|e r IH]; intros i lookup Hn Hb; cbn [h_sparse_fill length] in *.
  - apply runs_ret. repeat split; auto.
  - eapply runs_then; [apply (runs_number false (fun i => i < two64)); auto|]. intros k Hk.
    eapply runs_then; [apply usub_runs; auto|]. intros j Hj.
    eapply runs_then; [apply store_runs|]. intros l2 [A [B C]].
    eapply runs_weaken; [apply (IH (i + 1) l2); [lia|]|].
    + intros x Hx. apply C in Hx. destruct Hx as [->|Hx]; auto. lia.
    + cbn beta. intros l3 [D [E F]]. split; [congruence|]. split; auto. intros _ ->. cbn in B. lia.
Qed.

Definition dense_sound {K V} (m : dense_map K V) : Prop := sound (AnyDense m).
Definition sparse_sound {K V} (m : sparse_map K V) : Prop := sound (AnySparse m).

Lemma sparse_from_sorted_runs {K V} md (es : list (K * V)) :
  runs false (h_sparse_from_sorted md es) (fun m => sparse_sound m /\ sp_entries m = es /\ sp_max m < two64).
Proof.
  unfold h_sparse_from_sorted. eapply runs_then; [apply index_runs|]. intros e0 H0.
  eapply runs_then; [apply (runs_number false (fun i => i < two64)); auto|]. intros mn Hmn.
  eapply runs_then; [apply index_runs|]. intros e1 H1.
  eapply runs_then; [apply (runs_number false (fun i => i < two64)); auto|]. intros mx Hmx.
  eapply runs_then; [apply usub_runs; auto|]. intros d [Hd Hd'].
  eapply runs_then; [apply uadd_runs; auto|]. intros c [Hc [Hc' Hc'']].
  eapply runs_then; [apply (sparse_fill_runs md mn (N.of_nat (length es)) Hmn); [lia|]|].
  { intros x Hx. apply repeat_spec in Hx. lia. }
  intros l [L [Ne B]]. rewrite repeat_length in L. apply runs_ret. cbn [sp_entries sp_max]. split; [|auto].
  intros i Hi. cbn [sp_min sp_max sp_lookup sp_entries] in *. specialize (Hd' ltac:(lia)).
  destruct Hc'' as [Ec|Ec]; rewrite Ec in *.
  - destruct (nth_error l (N.to_nat (i - mn))) as [j|] eqn:E; [|apply nth_error_None in E; lia].
    exists j. split; auto. apply B. eapply nth_error_In; eauto.
  - exfalso. apply Ne; [|reflexivity]. intros ->. discriminate.
Qed.

Lemma dense_from_sorted_runs {K V} (es : list (K * V)) : runs false (h_dense_from_sorted es) (fun m => dm_entries m = es /\ dm_max m < two64).
Proof.
  unfold h_dense_from_sorted. eapply runs_then; [apply index_runs|]. intros e0 H0.
  eapply runs_then; [apply (runs_number false (fun i => i < two64)); auto|]. intros mn Hmn.
  eapply runs_then; [apply index_runs|]. intros e1 H1.
  eapply runs_then; [apply (runs_number false (fun i => i < two64)); auto|]. intros mx Hmx. apply runs_ret. auto.
Qed.

Lemma dense_new_sorted_runs {K V} md (es : list (K * V)) : runs false (h_dense_new_sorted md es)
  (fun r => match r with ROk m => dm_entries m = es /\ dm_max m < two64 | RErr _ => True end).
Proof.
  unfold h_dense_new_sorted. destruct es as [|e es'] eqn:Ees; [cbn [is_nil]; apply runs_ret; split; reflexivity|].
  rewrite <- Ees. assert (Z : is_nil es = false) by (subst; auto). rewrite Z.
  eapply runs_then; [apply index_runs|]. intros e0 H0.
  eapply runs_then; [apply (runs_number false (fun i => i < two64)); auto|]. intros mn Hmn.
  eapply runs_then; [apply index_runs|]. intros e1 H1.
  eapply runs_then; [apply (runs_number false (fun i => i < two64)); auto|]. intros mx Hmx.
  eapply runs_then; [apply usub_runs; auto|]. intros d [Hd Hd'].
  eapply runs_then; [apply uadd_runs; auto|]. intros c _.
  destruct (_ =? c); [|apply runs_ret; exact I]. eapply runs_then; [apply dense_from_sorted_runs|]. intros m H. apply runs_ret; auto.
Qed.

Lemma min_max_runs {T} q : forall (l : list T) mn mx c, mn < two64 -> mx < two64 ->
  runs q (h_scalar_min_max l mn mx c) (fun x => fst (fst x) < two64 /\ snd (fst x) < two64).
Proof.
  induction l as [|x r IH]; intros mn mx c H1 H2; cbn [h_scalar_min_max]; [apply runs_ret; auto|].
  eapply runs_then; [apply (runs_number q (fun i => i < two64)); auto|]. intros i Hi.
  eapply runs_then; [apply (runs_number q (fun i => i < two64)); auto|]. intros j Hj. cbn beta in *. apply IH; lia.
Qed.

Lemma analyze_runs {T} md (l : list T) : runs false (h_analyze_scalar_keys md l) (fun _ => True).
Proof.
  unfold h_analyze_scalar_keys. eapply runs_then; [apply (min_max_runs false); reflexivity|]. intros [[mn mx] c] [H1 H2]. cbn [fst snd] in *.
  destruct (c =? 0); [apply runs_ret; auto|].
  eapply runs_then; [apply usub_runs; auto|]. intros d [Hd _]. eapply runs_then; [apply uadd_runs; auto|]. intros n _.
  destruct (n =? c); [apply runs_ret; auto|]. destruct (_ || _); apply runs_ret; auto.
Qed.

Lemma hash_runs q {K V} usort cm (es : list (K * V)) : sorts_by_slot usort ->
  runs q (h_hash_from_dedupped usort cm es) (fun r => match r with ROk m => sound (AnyHash m) /\ Permutation es (ht_entries (hm_table m))
    | RErr _ => max_capacity cm < N.of_nat (length es) end).
Proof.
  intros HU. unfold h_hash_from_dedupped. eapply runs_then; [apply ht_new_runs; auto|]. intros [t|s] H; apply runs_ret; auto.
  destruct H as [A B]. split; auto. exact (table_sound_ht t A).
Qed.

Lemma make_runs q {K V} usort md mk (l : list (K * V)) : sorts_by_slot usort -> N.of_nat (length l) <= usize_max ->
  (q = true -> calm mk = true) ->
  runs q (h_make usort md mk l) (fun r => match r with ROk m => part_of l (any_entries m) /\ bounded m /\ (asks_again mk = false -> sound m)
    | RErr _ => True end).
Proof.
  intros HU HL HQ. destruct mk as [|sz| |sz| | |cm| | | |]; cbn [calm h_make] in *.
  - eapply runs_then; [apply using_eq_runs|]. intros es P. apply runs_ret. split; auto. split; cbn; auto.
  - destruct q; [discriminate (HQ eq_refl)|]. eapply runs_then; [apply using_eq_runs|]. intros es P.
    eapply (runs_then false _ _ (fun x => x = es)).
    { apply runs_lift. unfold into_array. destruct (Nat.eqb _ _); auto. }
    intros x ->. apply runs_ret. split; auto. split; cbn; auto.
  - eapply runs_then; [apply sorted_runs|]. intros es P. unfold eytzinger_from_sorted.
    eapply (runs_then q _ _ (fun m => Permutation es (em_entries m))).
    { apply runs_lift. pose proof (layout_runs false es (fun _ => Build_answer false false Eq 0) 0%nat) as H. unfold lift in H.
      destruct (layout_spec es) as [out [E _]]. rewrite E in *. cbn [bind em_entries]. apply H. discriminate. }
    intros m Pm. apply runs_ret. split; [eapply part_of_perm; eauto|]. split; cbn; auto.
  - destruct q; [discriminate (HQ eq_refl)|]. eapply runs_then; [apply sorted_runs|]. intros es P.
    eapply runs_then; [apply layout_runs|]. intros es' P'.
    eapply (runs_then false _ _ (fun x => x = es')).
    { apply runs_lift. unfold into_array. destruct (Nat.eqb _ _); auto. }
    intros x ->. apply runs_ret. split; [eapply part_of_perm; eauto|]. split; cbn; auto.
  - destruct q; [discriminate (HQ eq_refl)|]. unfold h_sparse_map_new.
    eapply (runs_then false _ _ (fun m => sparse_sound m /\ part_of l (sp_entries m) /\ sp_max m < two64)).
    + eapply runs_then; [apply sorted_runs|]. intros es P. destruct es as [|e r] eqn:Ees; cbn [is_nil].
      * apply runs_ret. split; [intros i; cbn; lia|]. split; auto. reflexivity.
      * eapply runs_weaken; [apply sparse_from_sorted_runs|]. intros m [A [B C]]. rewrite B. auto.
    + intros m [A [B C]]. apply runs_ret. split; auto.
  - destruct q; [discriminate (HQ eq_refl)|]. unfold h_dense_map_new.
    eapply (runs_then false _ _ (fun r => match r with ROk m => part_of l (dm_entries m) /\ dm_max m < two64 | RErr _ => True end)).
    + eapply runs_then; [apply sorted_runs|]. intros es P. eapply runs_weaken; [apply dense_new_sorted_runs|].
      intros [m|]; auto. intros [A B]. rewrite A. auto.
    + intros [m|s] H; apply runs_ret; auto. destruct H. split; auto. split; auto. discriminate.
  - eapply runs_then; [apply using_hash_runs|]. intros es P. eapply runs_then; [apply hash_runs; auto|].
    intros [m|s] H; apply runs_ret; auto. destruct H as [A B]. split; [eapply part_of_perm; eauto|]. split; cbn; auto.
  - eapply runs_then; [apply using_hash_runs|]. intros es P. eapply runs_then; [apply hash_runs; auto|].
    intros r H. eapply (runs_then q _ _ (fun m => r = ROk m)).
    { apply runs_lift. destruct r; cbn [unwrap]; auto. exfalso. destruct P as [_ P]. change (max_capacity Large) with usize_max in H. lia. }
    intros m ->. destruct H as [A B]. apply runs_ret. split; [eapply part_of_perm; eauto|]. split; cbn; auto.
  - eapply runs_then; [apply sorted_runs|]. intros es P. unfold eytzinger_from_sorted.
    eapply (runs_then q _ _ (fun m => Permutation es (em_entries m))).
    { apply runs_lift. pose proof (layout_runs false es (fun _ => Build_answer false false Eq 0) 0%nat) as H. unfold lift in H.
      destruct (layout_spec es) as [out [E _]]. rewrite E in *. cbn [bind em_entries]. apply H. discriminate. }
    intros m Pm. apply runs_ret. split; [eapply part_of_perm; eauto|]. split; cbn; auto.
  - destruct q; [discriminate (HQ eq_refl)|]. eapply runs_then; [apply sorted_runs|]. intros es P.
    eapply runs_then; [apply analyze_runs|]. intros a _. destruct a.
    + eapply runs_then; [apply hash_runs; auto|]. intros r H. eapply (runs_then false _ _ (fun m => r = ROk m)).
      { apply runs_lift. destruct r; cbn [unwrap]; auto. }
      intros m ->. destruct H as [A B]. apply runs_ret. split; [eapply part_of_perm; eauto|]. split; cbn; auto.
    + eapply runs_then; [apply dense_from_sorted_runs|]. intros m [A B]. apply runs_ret. cbn [any_entries bounded]. rewrite A.
      split; auto. split; auto. discriminate.
    + eapply runs_then; [apply sparse_from_sorted_runs|]. intros m [A [B C]]. apply runs_ret. cbn [any_entries bounded]. rewrite B.
      split; auto.
  - eapply runs_then; [apply sorted_runs|]. intros es P.
    eapply runs_then; [apply (runs_ask q (fun _ => True)); auto|]. intros _a _.
    eapply runs_then; [apply hash_runs; auto|].
    intros r H. eapply (runs_then q _ _ (fun m => r = ROk m)).
    { apply runs_lift. destruct r; cbn [unwrap]; auto. exfalso. destruct P as [_ P]. change (max_capacity Large) with usize_max in H. lia. }
    intros m ->. destruct H as [A B]. apply runs_ret. split; [eapply part_of_perm; eauto|]. split; cbn; auto.
Qed.

(** * Exactness *)
Definition always (i : N) : nat -> answer := fun _ => {| a_panics := false; a_bool := false; a_order := Lt; a_number := i |}.

Lemma always_number i n : i < two64 -> ask_number (always i) n = Ok (i, S n).
Proof. intros H. unfold ask_number, andthen, ask, ret, always. cbn [a_panics a_number]. rewrite N.mod_small by auto. reflexivity. Qed.

Lemma then_ub {A B} (x : hostile A) (k : A -> hostile B) adv n : x adv n = UB -> andthen x k adv n = UB.
Proof. intros H. unfold andthen. rewrite H. reflexivity. Qed.

Lemma then_ok {A B} (x : hostile A) (k : A -> hostile B) adv n a n' : x adv n = Ok (a, n') -> andthen x k adv n = k a adv n'.
Proof. intros H. unfold andthen. rewrite H. reflexivity. Qed.

Lemma get_none_ub {A} (l : list A) i adv n : nth_error l i = None -> lift (get_unchecked l i) adv n = UB.
Proof. intros H. unfold lift, get_unchecked. rewrite H. reflexivity. Qed.

Lemma get_some_ok {A} (l : list A) i x adv n : nth_error l i = Some x -> lift (get_unchecked l i) adv n = Ok (x, n).
Proof. intros H. unfold lift, get_unchecked. rewrite H. reflexivity. Qed.

Lemma slice_ub {A} (l : list A) lo hi adv n : ~ (lo <= hi <= length l)%nat -> lift (slice_unchecked l lo hi) adv n = UB.
Proof.
  intros H. unfold lift, slice_unchecked. destruct (Nat.leb_spec lo hi); cbn [andb]; auto.
  destruct (Nat.leb_spec hi (length l)); auto. lia.
Qed.

(** What runs first in each request. *)
Definition probe {K V} (rq : request V) (m : any_map K V) (adv : nat -> answer) (n : nat) : Prop :=
  match rq with
  | RqGet | RqContains => h_get m adv n = UB
  | RqPut _ => h_get_mut m adv n = UB
  | RqGetKeyValue => h_get_key_value m adv n = UB
  end.

Lemma probe_ub {K V} (rq : request V) (m : any_map K V) adv n : probe rq m adv n -> h_request rq m adv n = UB.
Proof.
  destruct rq; cbn [probe h_request]; intros H; try (apply then_ub; exact H). unfold h_contains_key. apply then_ub, then_ub, H.
Qed.

Lemma dense_probe {K V} (rq : request V) (m : dense_map K V) i : i < two64 -> dm_min m <= i <= dm_max m ->
  N.of_nat (length (dm_entries m)) <= i - dm_min m -> probe rq (AnyDense m) (always i) 0.
Proof.
  intros Hi Hr Hl.
  assert (E : nth_error (dm_entries m) (N.to_nat (i - dm_min m)) = None) by (apply nth_error_None; lia).
  destruct rq; cbn [probe h_get h_get_mut h_get_key_value]; rewrite (then_ok _ _ _ _ _ _ (always_number i 0 Hi));
    unfold lift, dense_get, dense_get_mut, dense_get_key_value; in_range; try lia; unfold get_unchecked; rewrite E; reflexivity.
Qed.

Lemma sparse_probe1 {K V} (rq : request V) (m : sparse_map K V) i : i < two64 -> sp_min m <= i <= sp_max m ->
  nth_error (sp_lookup m) (N.to_nat (i - sp_min m)) = None -> probe rq (AnySparse m) (always i) 0.
Proof.
  intros Hi Hr E.
  destruct rq; cbn [probe h_get h_get_mut h_get_key_value]; rewrite (then_ok _ _ _ _ _ _ (always_number i 0 Hi));
    unfold lift, sparse_get, sparse_get_mut, sparse_get_key_value; in_range; try lia; unfold get_unchecked; rewrite E; reflexivity.
Qed.

Lemma sparse_probe2 {K V} (rq : request V) (m : sparse_map K V) i j : i < two64 -> sp_min m <= i <= sp_max m ->
  nth_error (sp_lookup m) (N.to_nat (i - sp_min m)) = Some j -> N.of_nat (length (sp_entries m)) < j ->
  probe rq (AnySparse m) (always i) 0.
Proof.
  intros Hi Hr E Hj.
  assert (E' : nth_error (sp_entries m) (N.to_nat (j - 1)) = None) by (apply nth_error_None; lia).
  destruct rq; cbn [probe h_get h_get_mut h_get_key_value]; rewrite (then_ok _ _ _ _ _ _ (always_number i 0 Hi));
    unfold lift, sparse_get, sparse_get_mut, sparse_get_key_value; in_range; try lia; unfold get_unchecked; rewrite E; cbn [bind];
    (destruct (N.ltb_spec 0 j); [|lia]); rewrite E'; reflexivity.
Qed.

Lemma hash_probe {K V} (rq : request V) (m : hash_map K V) h : h < two64 ->
  (match nth_error (ht_slots (hm_table m)) (N.to_nat (N.land h (ht_mask (hm_table m)))) with
   | Some (lo, hi) => ~ (lo <= hi <= N.of_nat (length (ht_entries (hm_table m))))
   | None => True
   end) -> probe rq (AnyHash m) (always h) 0.
Proof.
  intros Hh H.
  destruct rq; cbn [probe h_get h_get_mut h_get_key_value]; rewrite (then_ok _ _ _ _ _ _ (always_number h 0 Hh)); [apply then_ub|idtac|apply then_ub|apply then_ub];
    unfold h_ht_find, h_ht_find_mut;
    (destruct (nth_error (ht_slots (hm_table m)) _) as [[lo hi]|] eqn:E;
      [rewrite (then_ok _ _ _ _ _ _ (get_some_ok _ _ _ _ _ E)); apply then_ub, slice_ub; lia
      |apply then_ub, get_none_ub; auto]).
Qed.

Lemma nc_probe {K V} (rq : request V) (m : nc_map K V) h : h < two64 ->
  (match nth_error (nc_slots (ncm_table m)) (N.to_nat (N.land h (nc_mask (ncm_table m)))) with
   | Some j => N.of_nat (length (nc_entries (ncm_table m))) < j
   | None => True
   end) -> probe rq (AnyNoCollisions m) (always h) 0.
Proof.
  intros Hh H.
  destruct rq; cbn [probe h_get h_get_mut h_get_key_value]; rewrite (then_ok _ _ _ _ _ _ (always_number h 0 Hh)); [apply then_ub|idtac|apply then_ub|apply then_ub];
    unfold h_nc_find, h_nc_find_mut;
    (destruct (nth_error (nc_slots (ncm_table m)) _) as [j|] eqn:E;
      [rewrite (then_ok _ _ _ _ _ _ (get_some_ok _ _ _ _ _ E)); (destruct (N.ltb_spec 0 j); [|lia]);
       apply then_ub, get_none_ub, nth_error_None; lia
      |apply then_ub, get_none_ub; auto]).
Qed.

Lemma request_safe {K V} (rq : request V) (m : any_map K V) : sound m -> forall adv n, h_request rq m adv n <> UB.
Proof.
  intros HS adv n E.
  pose proof (request_runs false rq m (map fst (any_entries m)) (map snd (any_entries m) ++ put_values [rq]) HS) as H.
  unfold runs in H. specialize (fun a b => H a b adv n). rewrite E in H. apply H; [| |discriminate].
  - intros e He. split; [apply in_map; auto|apply in_or_app; left; apply in_map; auto].
  - intros v Hv. apply in_or_app. auto.
Qed.

Lemma request_exact {K V} (rq : request V) (m : any_map K V) : bounded m ->
  (forall adv n, h_request rq m adv n <> UB) -> sound m.
Proof.
  intros HB HN.
  assert (HP : forall i, ~ probe rq m (always i) 0) by (intros i H; eapply HN, probe_ub; eauto). clear HN.
  destruct m as [m|m|m|m|m|m]; cbn [sound bounded] in *; auto.
  - intros Hr. destruct (N.ltb_spec (dm_max m - dm_min m) (N.of_nat (length (dm_entries m)))); auto. exfalso.
    apply (HP (dm_max m)). apply dense_probe; auto. lia.
  - intros i Hi. destruct (nth_error (sp_lookup m) (N.to_nat (i - sp_min m))) as [j|] eqn:E.
    + exists j. split; auto. destruct (N.leb_spec j (N.of_nat (length (sp_entries m)))); auto. exfalso.
      apply (HP i). eapply sparse_probe2; eauto. lia.
    + exfalso. apply (HP i). apply sparse_probe1; auto. lia.
  - intros h Hh. pose proof (fun A => HP h (hash_probe rq m h Hh A)) as H.
    destruct (nth_error _ _) as [[lo hi]|]; [|destruct (H I)]. exists lo, hi. split; auto.
    destruct (N.leb_spec lo hi); [|exfalso; apply H; lia].
    destruct (N.leb_spec hi (N.of_nat (length (ht_entries (hm_table m))))); [lia|exfalso; apply H; lia].
  - intros h Hh. pose proof (fun A => HP h (nc_probe rq m h Hh A)) as H.
    destruct (nth_error _ _) as [j|]; [|destruct (H I)]. exists j. split; auto.
    destruct (N.leb_spec j (N.of_nat (length (nc_entries (ncm_table m))))); [lia|exfalso; apply H; lia].
Qed.

(** * The theorems *)
Lemma session_no_panic {K V} : forall (rqs : list (request V)) (m : any_map K V) adv n, h_session rqs m adv n <> Panic.
Proof.
  induction rqs as [|rq r IH]; intros m adv n; cbn [h_session]; [discriminate|].
  destruct (h_request rq m adv n) as [[[rp m'] n']| |]; [| |discriminate]; unfold andthen, ret.
  - specialize (IH m' adv n'). destruct (h_session r m' adv n') as [[x y]| |]; auto; discriminate.
  - specialize (IH m adv (S n)). destruct (h_session r m adv (S n)) as [[x y]| |]; auto; discriminate.
Qed.

Lemma session_full {K V} (m : any_map K V) rqs adv n : sound m ->
  exists rps m' n', h_session rqs m adv n = Ok ((rps, m'), n') /\ length rps = length rqs /\
    Forall (from_known (map fst (any_entries m)) (map snd (any_entries m) ++ put_values rqs)) rps /\
    sound m' /\ map fst (any_entries m') = map fst (any_entries m) /\
    (forall v, In v (map snd (any_entries m')) -> In v (map snd (any_entries m) ++ put_values rqs)) /\
    ((forall i, a_panics (adv i) = false) -> ~ In None rps).
Proof.
  intros HS.
  assert (HR : forall q, runs q (h_session rqs m) (fun x => Forall (from_known (map fst (any_entries m)) (map snd (any_entries m) ++ put_values rqs)) (fst x)
     /\ sound (snd x) /\ known (map fst (any_entries m)) (map snd (any_entries m) ++ put_values rqs) (snd x) /\
    same_keys m (snd x) /\ length (fst x) = length rqs /\ (q = true -> ~ In None (fst x)))).
  { intros q. apply session_runs; auto.
    - intros e He. split; [apply in_map; auto|apply in_or_app; left; apply in_map; auto].
    - intros v Hv. apply in_or_app. auto. }
  pose proof (HR false adv n) as H. pose proof (session_no_panic rqs m adv n) as NP.
  destruct (h_session rqs m adv n) as [[[rps m'] n']| |] eqn:E; [|congruence|destruct (H ltac:(discriminate))].
  exists rps, m', n'. split; auto. cbn [fst snd] in H. destruct (H ltac:(discriminate)) as [A [B [C [D [F _]]]]].
  split; auto. split; auto. split; auto. split; auto. split.
  - intros v Hv. apply in_map_iff in Hv. destruct Hv as [e [<- He]]. apply C; auto.
  - intros Q. pose proof (HR true adv n (fun _ => Q)) as H'. rewrite E in H'. apply H'. reflexivity.
Qed.

Lemma make_full {K V} usort md mk (l : list (K * V)) adv n : sorts_by_slot usort -> N.of_nat (length l) <= usize_max ->
  h_make usort md mk l adv n <> UB /\
  (forall m n', h_make usort md mk l adv n = Ok (ROk m, n') ->
    incl (any_entries m) l /\ (length (any_entries m) <= length l)%nat /\ bounded m /\ (asks_again mk = false -> sound m)) /\
  (calm mk = true -> (forall i, a_panics (adv i) = false) -> h_make usort md mk l adv n <> Panic).
Proof.
  intros HU HL. pose proof (make_runs false usort md mk l HU HL ltac:(discriminate) adv n ltac:(discriminate)) as H.
  split; [intros E; rewrite E in H; exact H|]. split.
  - intros m n' E. rewrite E in H. destruct H as [[A B] [C D]]. auto.
  - intros HC Q E. pose proof (make_runs true usort md mk l HU HL (fun _ => HC) adv n (fun _ => Q)) as H'. rewrite E in H'. discriminate.
Qed.

Lemma program_full {K V} usort md mk (l : list (K * V)) rqs adv n : sorts_by_slot usort -> N.of_nat (length l) <= usize_max ->
  asks_again mk = false ->
  match h_program usort md mk l rqs adv n with
  | Ok (ROk (rps, m), _) => length rps = length rqs /\ Forall (from_known (map fst l) (map snd l ++ put_values rqs)) rps
  | UB => False
  | _ => True
  end.
Proof.
  intros HU HL HA. destruct (make_full usort md mk l adv n HU HL) as [A [B _]]. unfold h_program, andthen at 1.
  destruct (h_make usort md mk l adv n) as [[[m|s] n']| |]; auto; [|exact I].
  destruct (B m n' eq_refl) as [C [_ [_ D]]]. specialize (D HA).
  destruct (session_full m rqs adv n' D) as [rps [m' [n'' [E [F [G _]]]]]]. unfold andthen. rewrite E. cbn [ret].
  split; auto. eapply Forall_impl; [|exact G]. intros rp H. 
  assert (IK : incl (map fst (any_entries m)) (map fst l)) by (apply incl_map; auto).
  assert (IV : incl (map snd (any_entries m) ++ put_values rqs) (map snd l ++ put_values rqs)).
  { apply incl_app; [apply incl_appl, incl_map; auto|apply incl_appr, incl_refl]. }
  destruct rp as [[[v|]| |[[k v]|]|]|]; cbn in *; auto. destruct H. split; auto.
Qed.

(** * When asking again does no harm *)
Lemma ask_number_inv adv n i n' : ask_number adv n = Ok (i, n') -> i = a_number (adv n) mod two64 /\ n' = S n.
Proof.
  unfold ask_number, andthen, ask, ret. destruct (a_panics (adv n)); [discriminate|]. intros E. injection E as <- <-. auto.
Qed.

Lemma then_inv {A B} (x : hostile A) (k : A -> hostile B) adv n b n2 : andthen x k adv n = Ok (b, n2) ->
  exists a n1, x adv n = Ok (a, n1) /\ k a adv n1 = Ok (b, n2).
Proof. unfold andthen. destruct (x adv n) as [[a n1]| |]; [|discriminate|discriminate]. intros H. eauto. Qed.

Lemma lift_inv {A} (r : res A) adv n a n' : lift r adv n = Ok (a, n') -> r = Ok a /\ n' = n.
Proof. unfold lift. destruct r; try discriminate. intros E. injection E as <- <-. auto. Qed.

Lemma ret_inv {A} (a : A) adv n b n' : ret a adv n = Ok (b, n') -> b = a /\ n' = n.
Proof. unfold ret. intros E. injection E as <- <-. auto. Qed.

Ltac step H := let a := fresh "a" in let n := fresh "n" in let E := fresh "E" in
  apply then_inv in H; destruct H as [a [n [E H]]];
  first [apply ask_number_inv in E; destruct E as [? ?]; subst | apply lift_inv in E; destruct E as [? ?]; subst | idtac].

Lemma mod_two64 x : x mod two64 < two64.
Proof. apply N.mod_lt. discriminate. Qed.

Lemma sub_add_inv md a b d c k : usub md a b = Ok d -> uadd md d 1 = Ok c -> a < two64 -> b < two64 -> 0 < k -> k = c ->
  b <= a -> a - b < k.
Proof.
  intros H1 H2 Ha Hb Hk -> Hle. apply usub_inv in H1; [|change usize_max with (two64 - 1); lia|change usize_max with (two64 - 1); lia|auto]. subst d.
  apply uadd_inv in H2; [|change usize_max with (two64 - 1); lia]. lia.
Qed.

Lemma dense_from_sorted_inv {K V} (es : list (K * V)) adv n m n' : h_dense_from_sorted es adv n = Ok (m, n') ->
  es <> [] /\ dm_min m = a_number (adv n) mod two64 /\ dm_max m = a_number (adv (S n)) mod two64 /\ dm_entries m = es /\ n' = S (S n).
Proof.
  unfold h_dense_from_sorted. intros H. step H. step H. step H. step H. apply ret_inv in H. destruct H as [-> ->].
  cbn. split; auto. intros ->. discriminate.
Qed.

Lemma dense_steady {K V} md (es : list (K * V)) adv n m n' : h_dense_new_sorted md es adv n = Ok (ROk m, n') ->
  a_number (adv (n + 2)%nat) mod two64 = a_number (adv n) mod two64 ->
  a_number (adv (n + 3)%nat) mod two64 = a_number (adv (n + 1)%nat) mod two64 -> sound (AnyDense m).
Proof.
  intros H E1 E2. unfold h_dense_new_sorted in H. destruct (is_nil es) eqn:Z.
  { apply ret_inv in H. destruct H as [H _]. injection H as ->. cbn. lia. }
  step H. step H. step H. step H. step H. step H.
  match type of H with (if ?x =? ?y then _ else _) _ _ = _ => destruct (N.eqb_spec x y) as [L|L] end;
    [|apply ret_inv in H; destruct H; discriminate].
  apply then_inv in H. destruct H as [m' [n1 [H' H]]]. apply ret_inv in H. destruct H as [H _]. injection H as ->.
  apply dense_from_sorted_inv in H'. destruct H' as [Hne [A [B [C D]]]]. cbn [sound]. rewrite A, B, C.
  replace (n + 2)%nat with (S (S n)) in E1 by lia. replace (n + 3)%nat with (S (S (S n))) in E2 by lia.
  replace (n + 1)%nat with (S n) in E2 by lia. rewrite E1, E2.
  eapply sub_add_inv; eauto using mod_two64. destruct es; [congruence|cbn; lia].
Qed.

Lemma min_max_inv {T} adv : forall (l : list T) mn mx c n mn' mx' c' n',
  h_scalar_min_max l mn mx c adv n = Ok ((mn', mx', c'), n') ->
  n' = (n + 2 * length l)%nat /\ c' = c + N.of_nat (length l) /\ mn' <= mn /\ mx <= mx' /\
  forall i, (i < length l)%nat -> mn' <= a_number (adv (n + 2 * i)%nat) mod two64 /\ a_number (adv (n + 2 * i + 1)%nat) mod two64 <= mx'.
Proof.
  induction l as [|x r IH]; intros mn mx c n mn' mx' c' n' H; cbn [h_scalar_min_max] in H.
  - apply ret_inv in H. destruct H as [H ->]. injection H as -> -> ->. cbn. repeat split; try lia.
  - step H. step H. apply IH in H. destruct H as [-> [-> [A [B C]]]]. cbn [length].
    split; [lia|]. split; [lia|]. split; [lia|]. split; [lia|]. intros [|i] Hi.
    + replace (n + 2 * 0)%nat with n by lia. replace (n + 1)%nat with (S n) by lia. lia.
    + specialize (C i ltac:(lia)). replace (n + 2 * S i)%nat with (S (S n) + 2 * i)%nat by lia. exact C.
Qed.

Lemma min_max_small {T} (l : list T) mn mx c adv n mn' mx' c' n' : mn < two64 -> mx < two64 ->
  h_scalar_min_max l mn mx c adv n = Ok ((mn', mx', c'), n') -> mn' < two64 /\ mx' < two64.
Proof.
  intros H1 H2 E. pose proof (min_max_runs false l mn mx c H1 H2 adv n ltac:(discriminate)) as R. rewrite E in R. exact R.
Qed.

Lemma within mn mx f l x y : mn <= x -> x <= f -> l <= y -> y <= mx -> l - f <= mx - mn.
Proof. lia. Qed.

Lemma within_le mn mx f l x y : mn <= x -> x <= f -> f <= l -> l <= y -> y <= mx -> mn <= mx.
Proof. lia. Qed.

Lemma fz_scalar_steady {K V} md (es : list (K * V)) adv n n' m n'' : h_analyze_scalar_keys md es adv n = Ok (DenseRange, n') ->
  h_dense_from_sorted es adv n' = Ok (m, n'') ->
  (exists i, (i < length es)%nat /\ a_number (adv (n + 2 * i)%nat) mod two64 <= dm_min m) ->
  (exists i, (i < length es)%nat /\ dm_max m <= a_number (adv (n + 2 * i + 1)%nat) mod two64) ->
  sound (AnyDense m).
Proof.
  intros H HD [i [Hi Ei]] [j [Hj Ej]]. apply dense_from_sorted_inv in HD. destruct HD as [Hne [A [B [C _]]]].
  unfold h_analyze_scalar_keys in H. apply then_inv in H. destruct H as [[[mn mx] c] [n1 [E H]]].
  assert (R : mn < two64 /\ mx < two64) by (eapply min_max_small; [| |exact E]; reflexivity).
  apply min_max_inv in E. destruct E as [_ [-> [_ [_ E]]]].
  match type of H with (if ?x =? ?y then _ else _) _ _ = _ => destruct (N.eqb_spec x y) end; [apply ret_inv in H; destruct H; discriminate|].
  step H. step H.
  match type of H with (if ?x =? ?y then _ else _) _ _ = _ => destruct (N.eqb_spec x y) as [L|L] end;
    [|destruct (_ || _); apply ret_inv in H; destruct H; discriminate].
  cbn [sound]. intros Hr. destruct (E i Hi) as [E1 _]. destruct (E j Hj) as [_ E2].
  destruct R as [R1 R2]. eapply N.le_lt_trans; [exact (within _ _ _ _ _ _ E1 Ei Ej E2)|].
  rewrite N.add_0_l in L. symmetry in L.
  assert (Hp : 0 < N.of_nat (length (dm_entries m))) by (clear - Hi; lia).
  assert (Hle : mn <= mx) by (exact (within_le _ _ _ _ _ _ E1 Ei Hr Ej E2)).
  exact (sub_add_inv md mx mn _ _ _ ltac:(eassumption) ltac:(eassumption) R2 R1 Hp L Hle).
Qed.

(** * Hand-made inline collections *)
Lemma land_idem h m : N.land (N.land h m) m = N.land h m.
Proof. rewrite <- N.land_assoc, N.land_diag. reflexivity. Qed.

Lemma land_le h m : N.land h m <= m.
Proof.
  apply N.ldiff_le. apply N.bits_inj. intros k. rewrite N.ldiff_spec, N.land_spec, N.bits_0.
  destruct (N.testbit m k), (N.testbit h k); reflexivity.
Qed.

Lemma raw_reach {A} (slots : list A) (P : A -> Prop) : slots <> [] -> N.of_nat (length slots) <= two64 ->
  (forall h, h < two64 -> exists x, nth_error slots (N.to_nat (N.land h (N.of_nat (length slots) - 1))) = Some x /\ P x) <->
  (forall p x, nth_error slots p = Some x -> N.land (N.of_nat p) (N.of_nat (length slots) - 1) = N.of_nat p -> P x).
Proof.
  intros Hne HL. assert (0 < N.of_nat (length slots)) by (destruct slots; [congruence|cbn; lia]). split.
  - intros H0 p x Hp E. assert (p < length slots)%nat by (apply nth_error_Some; congruence).
    destruct (H0 (N.of_nat p)) as [y [Hy Py]]; [lia|]. rewrite E, Nat2N.id, Hp in Hy. injection Hy as <-. auto.
  - intros H0 h Hh. pose proof (land_le h (N.of_nat (length slots) - 1)) as L.
    destruct (nth_error slots (N.to_nat (N.land h (N.of_nat (length slots) - 1)))) as [x|] eqn:E; [|apply nth_error_None in E; lia].
    exists x. split; auto. apply (H0 _ _ E). rewrite N2Nat.id. apply land_idem.
Qed.

Lemma request_sound {K V} (rq : request V) (m : any_map K V) : bounded m -> (sound m <-> forall adv n, h_request rq m adv n <> UB).
Proof. intros HB. split; [apply request_safe|apply request_exact; auto]. Qed.

Lemma raw_hash {K V} (rq : request V) slots (es : list (K * V)) : slots <> [] -> N.of_nat (length slots) <= two64 ->
  (forall adv n, h_request rq (AnyHash {| hm_table := iht_new_raw slots es |}) adv n <> UB) <->
  (forall p lo hi, nth_error slots p = Some (lo, hi) -> N.land (N.of_nat p) (N.of_nat (length slots) - 1) = N.of_nat p ->
    lo <= hi <= N.of_nat (length es)).
Proof.
  intros Hne HL. rewrite <- request_sound by exact I. cbn [sound hm_table iht_new_raw ht_slots ht_entries ht_mask].
  pose proof (raw_reach slots (fun x => fst x <= snd x <= N.of_nat (length es)) Hne HL) as R. split.
  - intros H p lo hi Hp E. apply (proj1 R) with (p := p) (x := (lo, hi)); auto. intros h Hh. destruct (H h Hh) as [a [b [A B]]].
    exists (a, b). auto.
  - intros H h Hh. destruct (proj2 R) with (h := h) as [[a b] [A B]]; auto.
    + intros p [lo hi] Hp E. apply (H p lo hi); auto.
    + exists a, b. auto.
Qed.

Lemma raw_nc {K V} (rq : request V) slots (es : list (K * V)) : slots <> [] -> N.of_nat (length slots) <= two64 ->
  (forall adv n, h_request rq (AnyNoCollisions {| ncm_table := nc_new_raw slots es |}) adv n <> UB) <->
  (forall p j, nth_error slots p = Some j -> N.land (N.of_nat p) (N.of_nat (length slots) - 1) = N.of_nat p -> j <= N.of_nat (length es)).
Proof.
  intros Hne HL. rewrite <- request_sound by exact I. cbn [sound ncm_table nc_new_raw nc_slots nc_entries nc_mask].
  apply (raw_reach slots (fun j => j <= N.of_nat (length es)) Hne HL).
Qed.

Lemma raw_dense {K V} (rq : request V) (es : list (K * V)) mn mx : mx < two64 ->
  (forall adv n, h_request rq (AnyDense {| dm_min := mn; dm_max := mx; dm_entries := es |}) adv n <> UB) <->
  (mx < mn \/ mx - mn < N.of_nat (length es)).
Proof.
  intros H. rewrite <- request_sound by exact H. cbn [sound dm_min dm_max dm_entries]. split.
  - intros A. destruct (N.ltb_spec mx mn); auto.
  - intros [A|A]; lia.
Qed.

Lemma raw_sparse {K V} (rq : request V) (es : list (K * V)) lookup mn mx : mx < two64 ->
  (forall adv n, h_request rq (AnySparse {| sp_min := mn; sp_max := mx; sp_lookup := lookup; sp_entries := es |}) adv n <> UB) <->
  (mx < mn \/ (mx - mn < N.of_nat (length lookup) /\
     forall p j, nth_error lookup p = Some j -> N.of_nat p <= mx - mn -> j <= N.of_nat (length es))).
Proof.
  intros H. rewrite <- request_sound by exact H. cbn [sound sp_min sp_max sp_lookup sp_entries]. split.
  - intros A. destruct (N.ltb_spec mx mn); [auto|right]. split.
    + destruct (A mx) as [j [E _]]; [lia|]. assert (N.to_nat (mx - mn) < length lookup)%nat by (apply nth_error_Some; congruence). lia.
    + intros p j E Hp. destruct (A (mn + N.of_nat p)) as [j' [E' B]]; [lia|].
      replace (N.to_nat (mn + N.of_nat p - mn)) with p in E' by lia. rewrite E in E'. injection E' as <-. auto.
  - intros [A|[A B]] i Hi; [lia|]. destruct (nth_error lookup (N.to_nat (i - mn))) as [j|] eqn:E; [|apply nth_error_None in E; lia].
    exists j. split; auto. eapply B; eauto. lia.
Qed.

Lemma power_reaches k p : p < 2 ^ k -> N.land p (2 ^ k - 1) = p.
Proof. intros H. rewrite land_mask. apply N.mod_small. auto. Qed.
