(** Proofs about the number of trait calls. *)
From Verif Require Import ModelUtils ModelAnalyzers ModelTables ModelMaps ModelHostile ModelDisjoint Spec SpecHostile SpecCalls.
From Verif Require Import ProofsBase ProofsAnalyzer ProofsTable ProofsEytzinger ProofsSafe ProofsHostile.
From Verif Require Import Prelude.
From Coq Require Import ZArith ZifyNat ZifyN ZifyBool.

(** Like [calls], with what is known of the result. *)
Definition cost {A} (lo hi : nat) (x : hostile A) (P : A -> Prop) : Prop :=
  forall adv n, match x adv n with
  | Ok (a, n') => (n + lo <= n' <= n + hi)%nat /\ P a
  | Panic => exists i, (i < hi)%nat /\ a_panics (adv (n + i)%nat) = true
  | UB => False
  end.
Lemma cost_ret {A} (a : A) (P : A -> Prop) : P a -> cost 0 0 (ret a) P.
Proof. intros H adv n. cbn. split; [lia|exact H]. Qed.
Lemma cost_then {A B} lo hi lo' hi' (x : hostile A) (k : A -> hostile B) (P : A -> Prop) (R : B -> Prop) :
  cost lo hi x P -> (forall a, P a -> cost lo' hi' (k a) R) -> cost (lo + lo') (hi + hi') (andthen x k) R.
Proof.
  intros H1 H2 adv n. unfold andthen. specialize (H1 adv n). destruct (x adv n) as [[a n']| |].
  - destruct H1 as [H1 Pa]. specialize (H2 a Pa adv n'). destruct (k a adv n') as [[b n2]| |].
    + destruct H2 as [H2 Rb]. split; [lia|exact Rb].
    + destruct H2 as [i [Hi E]]. exists (n' - n + i)%nat. split; [lia|]. rewrite <- E. do 2 f_equal. lia.
    + exact H2.
  - destruct H1 as [i [Hi E]]. exists i. split; [lia|exact E].
  - exact H1.
Qed.
Lemma cost_widen {A} lo hi lo' hi' (x : hostile A) (P R : A -> Prop) : cost lo hi x P -> (lo' <= lo)%nat -> (hi <= hi')%nat -> (forall a, P a -> R a) -> cost lo' hi' x R.
Proof.
  intros H L1 L2 I adv n. specialize (H adv n). destruct (x adv n) as [[a n']| |]; [|destruct H as [i [Hi E]]; exists i; split; [lia|exact E]|exact H].
  destruct H as [H Pa]. split; [lia|auto].
Qed.
Lemma cost_ok {A} (r : res A) (P : A -> Prop) : match r with Ok a => P a | _ => False end -> cost 0 0 (lift r) P.
Proof. intros H adv n. unfold lift. destruct r; [split; [lia|exact H]|contradiction..]. Qed.
Lemma cost_ask (P : answer -> Prop) : (forall a, P a) -> cost 1 1 ask P.
Proof.
  intros H adv n. unfold ask. destruct (a_panics (adv n)) eqn:E; [exists 0%nat; split; [lia|]; rewrite Nat.add_0_r; exact E|]. split; [lia|apply H].
Qed.
Lemma cost_bool : cost 1 1 ask_bool (fun _ => True).
Proof. change 1%nat with (1 + 0)%nat. eapply cost_then; [apply (cost_ask (fun _ => True)); auto|]. intros a _. apply cost_ret. exact I. Qed.
Lemma cost_order : cost 1 1 ask_order (fun _ => True).
Proof. change 1%nat with (1 + 0)%nat. eapply cost_then; [apply (cost_ask (fun _ => True)); auto|]. intros a _. apply cost_ret. exact I. Qed.
Lemma cost_number : cost 1 1 ask_number (fun i => i < two64).
Proof.
  change 1%nat with (1 + 0)%nat. eapply cost_then; [apply (cost_ask (fun _ => True)); auto|]. intros a _. apply cost_ret. apply N.mod_lt. discriminate.
Qed.
Lemma cost_first {A B} lo hi (x : hostile A) (k : A -> hostile B) (P : A -> Prop) (R : B -> Prop) :
  cost 0 0 x P -> (forall a, P a -> cost lo hi (k a) R) -> cost lo hi (andthen x k) R.
Proof. exact (cost_then 0 0 lo hi x k P R). Qed.
Lemma cost_last {A B} lo hi (x : hostile A) (k : A -> hostile B) (P : A -> Prop) (R : B -> Prop) :
  cost lo hi x P -> (forall a, P a -> cost 0 0 (k a) R) -> cost lo hi (andthen x k) R.
Proof. intros H1 H2. pose proof (cost_then lo hi 0 0 x k P R H1 H2) as H. rewrite !Nat.add_0_r in H. exact H. Qed.
Ltac step x := eapply cost_widen; [eapply x|..]; try lia; auto.

Lemma cost_bool0 : cost 0 1 ask_bool (fun _ => True).
Proof. step cost_bool. Qed.

(** ** Loops *)
Lemma scan_get_cost {K V} : forall (es : list (K * V)) o, cost (length es) (length es) (h_scan_get es o) (fun _ => True).
Proof.
  induction es as [|e r IH]; intros o; cbn [h_scan_get length]; [apply cost_ret; exact I|].
  change (S (length r)) with (1 + length r)%nat. eapply cost_then; [exact cost_bool|]. intros b _. apply IH.
Qed.
Lemma scan_get_mut_cost {K V} : forall (es : list (K * V)) pos o, match o with Some p => (p < pos)%nat | None => True end ->
  cost (length es) (length es) (h_scan_get_mut es pos o) (fun o => match o with Some p => (p < pos + length es)%nat | None => True end).
Proof.
  induction es as [|e r IH]; intros pos o H; cbn [h_scan_get_mut length].
  - apply cost_ret. destruct o; [lia|exact I].
  - change (S (length r)) with (1 + length r)%nat. eapply cost_then; [exact cost_bool|]. intros b _.
    step (IH (S pos) (if b then Some pos else o)).
    + destruct b; [lia|]. destruct o; [lia|exact I].
    + intros [p|]; [lia|auto].
Qed.
Lemma scan_get_key_value_cost {K V} : forall (es : list (K * V)) o, cost (length es) (length es) (h_scan_get_key_value es o) (fun _ => True).
Proof.
  induction es as [|e r IH]; intros o; cbn [h_scan_get_key_value length]; [apply cost_ret; exact I|].
  change (S (length r)) with (1 + length r)%nat. eapply cost_then; [exact cost_bool|]. intros b _. apply IH.
Qed.
Lemma scan_slot_cost {T} : forall (l : list T), cost (Nat.min 1 (length l)) (length l) (h_scan_slot l) (fun _ => True).
Proof.
  induction l as [|e r IH]; cbn [h_scan_slot length]; [apply cost_ret; exact I|].
  change (Nat.min 1 (S (length r))) with (1 + 0)%nat. change (S (length r)) with (1 + length r)%nat. eapply cost_then; [exact cost_bool|].
  intros [] _; [step (cost_ret (Some e) (fun _ => True))|step IH].
Qed.
Lemma scan_slot_mut_cost {T} : forall (l : list T) pos,
  cost (Nat.min 1 (length l)) (length l) (h_scan_slot_mut pos l) (fun o => match o with Some p => (pos <= p < pos + length l)%nat | None => True end).
Proof.
  induction l as [|e r IH]; intros pos; cbn [h_scan_slot_mut length]; [apply cost_ret; exact I|].
  change (Nat.min 1 (S (length r))) with (1 + 0)%nat. change (S (length r)) with (1 + length r)%nat. eapply cost_then; [exact cost_bool|]. intros [] _.
  - eapply cost_widen; [apply (cost_ret (Some pos) (fun o => o = Some pos)); reflexivity|lia|lia|]. intros a ->. lia.
  - step (IH (S pos)). intros [p|]; [lia|auto].
Qed.
Definition depth (len i : nat) : nat := if Nat.ltb i len then S (Nat.log2 (len) - Nat.log2 (S i)) else 0.
Lemma search_loop_cost {T} (data : list T) : forall fuel i, (length data < fuel + i)%nat -> (0 < fuel)%nat ->
  cost (if Nat.ltb i (length data) then 1 else 0) (depth (length data) i) (h_search_loop fuel data i)
    (fun o => match o with Some p => (p < length data)%nat | None => True end).
Proof.
  induction fuel as [|fuel IH]; intros i H H0; [lia|]. cbn [h_search_loop]. unfold depth.
  destruct (nth_error data i) as [v|] eqn:E.
  - assert (Hi : (i < length data)%nat) by (apply nth_error_Some; congruence).
    destruct (Nat.ltb_spec i (length data)); [|lia]. change 1%nat with (1 + 0)%nat at 1. change (S (Nat.log2 (length data) - Nat.log2 (S i))) with (1 + (Nat.log2 (length data) - Nat.log2 (S i)))%nat.
    eapply cost_then; [exact cost_order|]. intros c _.
    assert (STEP : forall o, (o <= 1)%nat -> cost 0 (Nat.log2 (length data) - Nat.log2 (S i)) (h_search_loop fuel data (2 * i + 1 + o)%nat)
      (fun o => match o with Some p => (p < length data)%nat | None => True end)).
    { intros o Ho. step (IH (2 * i + 1 + o)%nat).
      unfold depth. destruct (Nat.ltb_spec (2 * i + 1 + o) (length data)); [|lia].
        assert (L1 : (S (Nat.log2 (S i)) <= Nat.log2 (S (2 * i + 1 + o)))%nat).
        { rewrite <- Nat.log2_double by lia. apply Nat.log2_le_mono. lia. }
        assert (L2 : (Nat.log2 (S (2 * i + 1 + o)) <= Nat.log2 (length data))%nat) by (apply Nat.log2_le_mono; lia). lia. }
    destruct c.
    + step (cost_ret (Some i) (fun o => match o with Some p => (p < length data)%nat | None => True end)).
    + apply (STEP (N.to_nat (N.land (N.shiftr (ordering_as_usize Lt) 1) 1))). vm_compute. lia.
    + apply (STEP (N.to_nat (N.land (N.shiftr (ordering_as_usize Gt) 1) 1))). vm_compute. lia.
  - apply nth_error_None in E. destruct (Nat.ltb_spec i (length data)); [lia|]. apply cost_ret. exact I.
Qed.
Lemma search_cost {T} (data : list T) :
  cost (if is_nil data then 0 else 1) (if is_nil data then 0 else S (Nat.log2 (length data))) (h_search data) (fun o => match o with Some p => (p < length data)%nat | None => True end).
Proof.
  unfold h_search. step (search_loop_cost data (S (length data)) 0); try lia.
  - destruct data; cbn; lia.
  - unfold depth. destruct data as [|x r]; [cbn; lia|]. cbn [is_nil]. change (Nat.log2 1) with 0%nat. rewrite Nat.sub_0_r. cbn. lia.
Qed.

(** ** Slots *)
Lemma combine_seq {A} (l : list A) : forall s p x, In (p, x) (combine (seq s (length l)) l) <-> (s <= p)%nat /\ nth_error l (p - s) = Some x.
Proof.
  induction l as [|a r IH]; intros s p x; cbn [length seq combine In].
  - split; [contradiction|]. intros [_ H]. destruct (p - s)%nat; discriminate.
  - rewrite IH. split.
    + intros [H|[H1 H2]]; [injection H as <- <-; rewrite Nat.sub_diag; split; [lia|reflexivity]|]. split; [lia|].
      replace (p - s)%nat with (S (p - S s)) by lia. exact H2.
    + intros [H1 H2]. destruct (Nat.eq_dec p s) as [->|D]; [left; rewrite Nat.sub_diag in H2; injection H2 as ->; reflexivity|]. right. split; [lia|].
      replace (p - s)%nat with (S (p - S s)) in H2 by lia. exact H2.
Qed.
Lemma reached_iff {A} mask (slots : list A) x : In x (reached mask slots) <->
  exists p, nth_error slots p = Some x /\ N.land (N.of_nat p) mask = N.of_nat p.
Proof.
  unfold reached. rewrite in_map_iff. split.
  - intros [[p y] [<- H]]. apply filter_In in H. destruct H as [H1 H2]. apply combine_seq in H1. destruct H1 as [_ H1]. rewrite Nat.sub_0_r in H1.
    exists p. split; [exact H1|]. apply N.eqb_eq. exact H2.
  - intros [p [H1 H2]]. exists (p, x). split; [reflexivity|]. apply filter_In. split; [|apply N.eqb_eq; exact H2]. apply combine_seq. rewrite Nat.sub_0_r. split; [lia|exact H1].
Qed.
Lemma land_twice h mask : N.land (N.land h mask) mask = N.land h mask.
Proof. rewrite <- N.land_assoc, N.land_diag. reflexivity. Qed.
Lemma code_reaches {A} mask (slots : list A) h x : nth_error slots (N.to_nat (N.land h mask)) = Some x -> In x (reached mask slots).
Proof. intros H. apply reached_iff. exists (N.to_nat (N.land h mask)). split; [exact H|]. rewrite N2Nat.id. apply land_twice. Qed.
Lemma list_max_cons y r : list_max (y :: r) = Nat.max y (list_max r).
Proof. reflexivity. Qed.
Lemma list_max_in l x : In x l -> (x <= list_max l)%nat.
Proof. induction l as [|y r IH]; [contradiction|]. rewrite list_max_cons. intros [->|H]; [lia|]. specialize (IH H). lia. Qed.
Lemma list_max_attained l : l <> [] -> In (list_max l) l.
Proof.
  induction l as [|y r IH]; [congruence|]. intros _. rewrite list_max_cons. destruct r as [|z r]; [left; cbn; lia|].
  assert (H : In (list_max (z :: r)) (z :: r)) by (apply IH; discriminate).
  destruct (Nat.max_spec y (list_max (z :: r))) as [[_ ->]|[_ ->]]; [right; exact H|left; reflexivity].
Qed.

Section Tables.
Context {K V : Type}.
Definition slot_most (t : hash_table (K * V)) : nat := list_max (map (fun s => N.to_nat (snd s) - N.to_nat (fst s))%nat (reached (ht_mask t) (ht_slots t))).
Definition slot_few (t : hash_table (K * V)) : nat := if existsb (fun s => N.eqb (fst s) (snd s)) (reached (ht_mask t) (ht_slots t)) then 0 else 1.
Lemma slot_few_le (t : hash_table (K * V)) h lo hi : nth_error (ht_slots t) (N.to_nat (N.land h (ht_mask t))) = Some (lo, hi) -> lo <= hi ->
  (slot_few t <= Nat.min 1 (N.to_nat hi - N.to_nat lo))%nat.
Proof.
  intros E L. unfold slot_few. destruct (existsb _ _) eqn:X; [lia|]. destruct (N.eq_dec lo hi) as [->|D]; [|lia]. exfalso.
  assert (C : existsb (fun s => N.eqb (fst s) (snd s)) (reached (ht_mask t) (ht_slots t)) = true); [|congruence]. apply existsb_exists. exists (hi, hi).
  split; [exact (code_reaches _ _ _ _ E)|apply N.eqb_refl].
Qed.
Lemma slot_cost {A} (t : hash_table (K * V)) h (k : N -> list (K * V) -> hostile A) (P : A -> Prop) : sound (AnyHash {| hm_table := t |}) -> h < two64 ->
  (forall mn l, (N.to_nat mn + length l <= length (ht_entries t))%nat -> cost (Nat.min 1 (length l)) (length l) (k mn l) P) ->
  cost (slot_few t) (slot_most t) (slot <~ lift (get_unchecked (ht_slots t) (N.to_nat (N.land h (ht_mask t)))) ;; let (mn, mx) := (slot : N * N) in
    entries <~ lift (slice_unchecked (ht_entries t) (N.to_nat mn) (N.to_nat mx)) ;; k mn entries) P.
Proof.
  intros S Hh Hk. cbn [sound hm_table] in S. destruct (S h Hh) as [lo [hi [E L]]].
  eapply cost_first; [apply (cost_ok _ (fun s => s = (lo, hi))); unfold get_unchecked; rewrite E; reflexivity|]. intros s ->.
  eapply cost_first; [apply (cost_ok _ (fun l => length l = N.to_nat hi - N.to_nat lo)%nat)|].
  - unfold slice_unchecked. destruct (Nat.leb_spec (N.to_nat lo) (N.to_nat hi)); [|lia]. destruct (Nat.leb_spec (N.to_nat hi) (length (ht_entries t))); [|lia].
    cbn. rewrite firstn_length, skipn_length. lia.
  - intros l Hl. cbn beta in Hl. assert (HL : (N.to_nat lo + length l <= length (ht_entries t))%nat) by lia. eapply cost_widen; [exact (Hk lo l HL)| |rewrite Hl|auto]; [rewrite Hl; apply (slot_few_le t h); [exact E|lia]|]. apply list_max_in. apply in_map_iff. exists (lo, hi). split; [reflexivity|]. exact (code_reaches _ _ _ _ E).
Qed.
Lemma ht_find_cost (t : hash_table (K * V)) h : sound (AnyHash {| hm_table := t |}) -> h < two64 -> cost (slot_few t) (slot_most t) (h_ht_find t h) (fun _ => True).
Proof. intros S Hh. apply (slot_cost t h (fun _ l => h_scan_slot l) _ S Hh). intros mn l _. apply scan_slot_cost. Qed.
Lemma ht_find_mut_cost (t : hash_table (K * V)) h : sound (AnyHash {| hm_table := t |}) -> h < two64 ->
  cost (slot_few t) (slot_most t) (h_ht_find_mut t h) (fun o => match o with Some p => (p < length (ht_entries t))%nat | None => True end).
Proof.
  intros S Hh. apply (slot_cost t h (fun mn l => h_scan_slot_mut (N.to_nat mn) l) _ S Hh). intros mn l L. step (scan_slot_mut_cost l (N.to_nat mn)).
  intros [p|]; [lia|auto].
Qed.
Definition nc_most (t : nc_table (K * V)) : nat := if existsb (N.ltb 0) (reached (nc_mask t) (nc_slots t)) then 1 else 0.
Lemma nc_some_most (t : nc_table (K * V)) h j : nth_error (nc_slots t) (N.to_nat (N.land h (nc_mask t))) = Some j -> 0 < j -> nc_most t = 1%nat.
Proof.
  intros E H. unfold nc_most. destruct (existsb _ _) eqn:X; [reflexivity|]. exfalso.
  assert (C : existsb (N.ltb 0) (reached (nc_mask t) (nc_slots t)) = true); [|congruence]. apply existsb_exists. exists j. split; [exact (code_reaches _ _ _ _ E)|].
  apply N.ltb_lt. exact H.
Qed.
Definition nc_few (t : nc_table (K * V)) : nat := if existsb (N.eqb 0) (reached (nc_mask t) (nc_slots t)) then 0 else 1.
Lemma nc_none_few (t : nc_table (K * V)) h : nth_error (nc_slots t) (N.to_nat (N.land h (nc_mask t))) = Some 0 -> nc_few t = 0%nat.
Proof.
  intros E. unfold nc_few. destruct (existsb _ _) eqn:X; [reflexivity|]. exfalso.
  assert (C : existsb (N.eqb 0) (reached (nc_mask t) (nc_slots t)) = true); [|congruence]. apply existsb_exists. exists 0. split; [exact (code_reaches _ _ _ _ E)|reflexivity].
Qed.
Lemma nc_few_le (t : nc_table (K * V)) : (nc_few t <= 1)%nat.
Proof. unfold nc_few. destruct (existsb _ _); lia. Qed.
Lemma nc_cost {A} (t : nc_table (K * V)) h (k : N -> (K * V) -> bool -> A) (none : A) (P : A -> Prop) : sound (AnyNoCollisions {| ncm_table := t |}) -> h < two64 ->
  P none -> (forall i e b, 0 < i <= N.of_nat (length (nc_entries t)) -> P (k i e b)) ->
  cost (nc_few t) (nc_most t) (i <~ lift (get_unchecked (nc_slots t) (N.to_nat (N.land h (nc_mask t)))) ;;
    if 0 <? i then e <~ lift (get_unchecked (nc_entries t) (N.to_nat (i - 1))) ;; b <~ ask_bool ;; ret (k i e b) else ret none) P.
Proof.
  intros S Hh PN PK. cbn [sound ncm_table] in S. destruct (S h Hh) as [j [E L]].
  eapply cost_first; [apply (cost_ok _ (fun i => i = j)); unfold get_unchecked; rewrite E; reflexivity|]. intros i ->.
  destruct (N.ltb_spec 0 j) as [H|H]; [|assert (j = 0) as -> by lia; rewrite (nc_none_few t h E); step (cost_ret none P PN)]. rewrite (nc_some_most t h j E H).
  eapply cost_first; [apply (cost_ok _ (fun _ => True))|].
  - unfold get_unchecked. destruct (nth_error (nc_entries t) _) eqn:X; [exact I|]. apply nth_error_None in X. lia.
  - intros e _. pose proof (nc_few_le t). apply (cost_last _ _ _ _ (fun _ => True)); [step cost_bool|]. intros b _. apply cost_ret. apply PK. lia.
Qed.
End Tables.

(** ** Requests *)
Section Requests.
Context {K V : Type}.
Lemma number_cost {A} lo hi (k : N -> hostile A) (P : A -> Prop) : (forall i, i < two64 -> cost lo hi (k i) P) -> cost (S lo) (S hi) (i <~ ask_number ;; k i) P.
Proof. intros H. apply (cost_then 1 1 lo hi _ _ (fun i => i < two64)); [exact cost_number|exact H]. Qed.
Lemma scalar_cost {A} (f : N -> res A) (P : A -> Prop) : (forall i, i < two64 -> match f i with Ok a => P a | _ => False end) ->
  cost 1 1 (i <~ ask_number ;; lift (f i)) P.
Proof. intros H. apply number_cost. intros i Hi. apply cost_ok. exact (H i Hi). Qed.

Lemma ordered_cost {A} (m : eytzinger_map K V) (f : nat -> K * V -> A) (none : A) (P : A -> Prop) : P none ->
  (forall i e, (i < length (em_entries m))%nat -> P (f i e)) ->
  cost (fewest_calls (AnyOrdered m)) (most_calls (AnyOrdered m))
    (o <~ h_search (em_entries m) ;; match o with Some i => e <~ lift (get_unchecked (em_entries m) i) ;; ret (f i e) | None => ret none end) P.
Proof.
  intros PN PF. eapply cost_last; [apply search_cost|]. intros [i|] Hi; [|apply cost_ret; exact PN].
  eapply cost_first; [apply (cost_ok _ (fun _ => True))|].
  - unfold get_unchecked. destruct (nth_error _ _) eqn:X; [exact I|]. apply nth_error_None in X. lia.
  - intros e _. apply cost_ret. apply PF. exact Hi.
Qed.

Lemma get_cost (m : any_map K V) : sound m -> cost (fewest_calls m) (most_calls m) (h_get m) (fun _ => True).
Proof.
  intros S. destruct m as [m|m|m|m|m|m]; cbn [h_get].
  - apply scan_get_cost.
  - apply (ordered_cost m (fun _ e => Some (snd e))); auto.
  - apply scalar_cost. intros i Hi. pose proof (get_runs true (AnyDense m) S (numbers [i]) 0%nat (fun _ _ => eq_refl)) as R.
    cbn [h_get] in R. unfold andthen, ask_number, ask, lift in R. cbn in R. rewrite N.mod_small in R by exact Hi.
    destruct (dense_get _ m i); [exact I|discriminate|exact R].
  - apply scalar_cost. intros i Hi. pose proof (get_runs true (AnySparse m) S (numbers [i]) 0%nat (fun _ _ => eq_refl)) as R.
    cbn [h_get] in R. unfold andthen, ask_number, ask, lift in R. cbn in R. rewrite N.mod_small in R by exact Hi.
    destruct (sparse_get _ m i); [exact I|discriminate|exact R].
  - cbn [fewest_calls most_calls].
    replace (if existsb _ _ then 1 else 2)%nat with (Datatypes.S (slot_few (hm_table m))) by (unfold slot_few; destruct (existsb _ _); reflexivity).
    apply number_cost. intros h Hh. eapply cost_last; [apply ht_find_cost; [destruct m; exact S|exact Hh]|]. intros o _. apply cost_ret. exact I.
  - cbn [fewest_calls most_calls].
    replace (if existsb _ _ then 2 else 1)%nat with (Datatypes.S (nc_most (ncm_table m))) by (unfold nc_most; destruct (existsb _ _); reflexivity).
    replace (if existsb _ _ then 1 else 2)%nat with (Datatypes.S (nc_few (ncm_table m))) by (unfold nc_few; destruct (existsb _ _); reflexivity).
    apply number_cost. intros h Hh. eapply cost_last; [|intros o _; apply cost_ret; exact I].
    apply (nc_cost (ncm_table m) h (fun _ e (b : bool) => if b then Some e else None) None (fun _ => True)); auto; destruct m; exact S.
Qed.
Lemma get_key_value_cost (m : any_map K V) : sound m -> cost (fewest_calls m) (most_calls m) (h_get_key_value m) (fun _ => True).
Proof.
  intros S. destruct m as [m|m|m|m|m|m]; cbn [h_get_key_value].
  - apply scan_get_key_value_cost.
  - apply (ordered_cost m (fun _ e => Some (fst e, snd e))); auto.
  - apply scalar_cost. intros i Hi. pose proof (get_key_value_runs true (AnyDense m) S (numbers [i]) 0%nat (fun _ _ => eq_refl)) as R.
    cbn [h_get_key_value] in R. unfold andthen, ask_number, ask, lift in R. cbn in R. rewrite N.mod_small in R by exact Hi.
    destruct (dense_get_key_value _ m i); [exact I|discriminate|exact R].
  - apply scalar_cost. intros i Hi. pose proof (get_key_value_runs true (AnySparse m) S (numbers [i]) 0%nat (fun _ _ => eq_refl)) as R.
    cbn [h_get_key_value] in R. unfold andthen, ask_number, ask, lift in R. cbn in R. rewrite N.mod_small in R by exact Hi.
    destruct (sparse_get_key_value _ m i); [exact I|discriminate|exact R].
  - cbn [fewest_calls most_calls].
    replace (if existsb _ _ then 1 else 2)%nat with (Datatypes.S (slot_few (hm_table m))) by (unfold slot_few; destruct (existsb _ _); reflexivity).
    apply number_cost. intros h Hh. eapply cost_last; [apply ht_find_cost; [destruct m; exact S|exact Hh]|]. intros o _. apply cost_ret. exact I.
  - cbn [fewest_calls most_calls].
    replace (if existsb _ _ then 2 else 1)%nat with (Datatypes.S (nc_most (ncm_table m))) by (unfold nc_most; destruct (existsb _ _); reflexivity).
    replace (if existsb _ _ then 1 else 2)%nat with (Datatypes.S (nc_few (ncm_table m))) by (unfold nc_few; destruct (existsb _ _); reflexivity).
    apply number_cost. intros h Hh. eapply cost_last; [|intros o _; apply cost_ret; exact I].
    apply (nc_cost (ncm_table m) h (fun _ e (b : bool) => if b then Some e else None) None (fun _ => True)); auto; destruct m; exact S.
Qed.
Lemma get_mut_cost (m : any_map K V) : sound m ->
  cost (fewest_calls m) (most_calls m) (h_get_mut m) (fun o => match o with Some p => (p < length (any_entries m))%nat | None => True end).
Proof.
  intros S. destruct m as [m|m|m|m|m|m]; cbn [h_get_mut].
  - step (scan_get_mut_cost (sm_entries m) 0 None).
  - apply (ordered_cost m (fun i _ => Some i)); auto.
  - apply scalar_cost. intros i Hi. pose proof (get_mut_runs true (AnyDense m) S (numbers [i]) 0%nat (fun _ _ => eq_refl)) as R.
    cbn [h_get_mut] in R. unfold andthen, ask_number, ask, lift in R. cbn in R. rewrite N.mod_small in R by exact Hi.
    destruct (dense_get_mut _ m i); [exact R|discriminate|exact R].
  - apply scalar_cost. intros i Hi. pose proof (get_mut_runs true (AnySparse m) S (numbers [i]) 0%nat (fun _ _ => eq_refl)) as R.
    cbn [h_get_mut] in R. unfold andthen, ask_number, ask, lift in R. cbn in R. rewrite N.mod_small in R by exact Hi.
    destruct (sparse_get_mut _ m i); [exact R|discriminate|exact R].
  - cbn [fewest_calls most_calls].
    replace (if existsb _ _ then 1 else 2)%nat with (Datatypes.S (slot_few (hm_table m))) by (unfold slot_few; destruct (existsb _ _); reflexivity).
    apply number_cost. intros h Hh. apply ht_find_mut_cost; [destruct m; exact S|exact Hh].
  - cbn [fewest_calls most_calls].
    replace (if existsb _ _ then 2 else 1)%nat with (Datatypes.S (nc_most (ncm_table m))) by (unfold nc_most; destruct (existsb _ _); reflexivity).
    replace (if existsb _ _ then 1 else 2)%nat with (Datatypes.S (nc_few (ncm_table m))) by (unfold nc_few; destruct (existsb _ _); reflexivity).
    apply number_cost. intros h Hh.
    apply (nc_cost (ncm_table m) h (fun i _ (b : bool) => if b then Some (N.to_nat (i - 1)) else None) None); [destruct m; exact S|exact Hh|exact I|].
    intros i e [] L; [cbn [any_entries] in *; lia|exact I].
Qed.
Lemma request_cost (rq : request V) (m : any_map K V) : sound m -> cost (fewest_calls m) (most_calls m) (h_request rq m) (fun _ => True).
Proof.
  intros S. destruct rq; cbn [h_request].
  - eapply cost_last; [apply get_cost; exact S|]. intros o _. apply cost_ret. exact I.
  - eapply cost_last; [apply get_mut_cost; exact S|]. intros [p|] Hp; [|apply cost_ret; exact I].
    eapply cost_first; [apply (cost_ok _ (fun _ => True))|intros e _; apply cost_ret; exact I].
    unfold get_unchecked. destruct (nth_error _ _) eqn:X; [exact I|]. apply nth_error_None in X. lia.
  - eapply cost_last; [apply get_key_value_cost; exact S|]. intros o _. apply cost_ret. exact I.
  - apply (cost_last _ _ _ _ (fun _ => True)); [|intros b _; apply cost_ret; exact I]. unfold h_contains_key. eapply cost_last; [apply get_cost; exact S|]. intros o _. apply cost_ret. exact I.
Qed.
Lemma request_calls (rq : request V) (m : any_map K V) adv n : sound m -> calls (fewest_calls m) (most_calls m) (h_request rq m) adv n.
Proof.
  intros S. pose proof (request_cost rq m S adv n) as C. unfold calls. destruct (h_request rq m adv n) as [[a n']| |]; [exact (proj1 C)|exact C..].
Qed.
End Requests.

(** ** The worst case *)
Definition steady (p : N) : nat -> answer := fun _ => {| a_panics := false; a_bool := false; a_order := Gt; a_number := p |}.
Lemma steady_bool p n : ask_bool (steady p) n = Ok (false, S n).
Proof. reflexivity. Qed.
Lemma steady_number p n : p < two64 -> ask_number (steady p) n = Ok (p, S n).
Proof. intros H. unfold ask_number, andthen, ask, steady, ret. cbn. rewrite N.mod_small by exact H. reflexivity. Qed.
Lemma steady_scan_slot {T} p (l : list T) : forall n, h_scan_slot l (steady p) n = Ok (None, (n + length l)%nat).
Proof.
  induction l as [|e r IH]; intros n; cbn [h_scan_slot length]; [rewrite Nat.add_0_r; reflexivity|]. unfold andthen. rewrite steady_bool, IH. do 2 f_equal. lia.
Qed.
Lemma steady_scan_slot_mut {T} p (l : list T) : forall pos n, h_scan_slot_mut pos l (steady p) n = Ok (None, (n + length l)%nat).
Proof.
  induction l as [|e r IH]; intros pos n; cbn [h_scan_slot_mut length]; [rewrite Nat.add_0_r; reflexivity|]. unfold andthen. rewrite steady_bool, IH. do 2 f_equal. lia.
Qed.
Lemma steady_search_loop {T} p (data : list T) : forall fuel i k n, (length data < fuel + i)%nat -> (0 < fuel)%nat -> S i = (2 ^ k)%nat ->
  h_search_loop fuel data i (steady p) n = Ok (None, (n + (if Nat.ltb i (length data) then S (Nat.log2 (length data)) - k else 0))%nat).
Proof.
  induction fuel as [|fuel IH]; intros i k n H H0 E; [lia|]. cbn [h_search_loop]. destruct (nth_error data i) as [v|] eqn:N.
  - assert (Hi : (i < length data)%nat) by (apply nth_error_Some; congruence). destruct (Nat.ltb_spec i (length data)); [|lia].
    unfold andthen. change (ask_order (steady p) n) with (Ok (Gt, S n)). cbv iota beta. change (N.to_nat (N.land (N.shiftr (ordering_as_usize Gt) 1) 1)) with 0%nat.
    assert (E' : S (2 * i + 1 + 0) = (2 ^ S k)%nat) by (rewrite Nat.pow_succ_r'; lia).
    assert (F1 : (length data < fuel + (2 * i + 1 + 0))%nat) by lia. assert (F2 : (0 < fuel)%nat) by lia.
    rewrite (IH (2 * i + 1 + 0)%nat (S k) (S n) F1 F2 E'). do 2 f_equal.
    assert (L : (k <= Nat.log2 (length data))%nat) by (apply Nat.log2_le_pow2; lia).
    destruct (Nat.ltb_spec (2 * i + 1 + 0) (length data)); [lia|].
    assert (U : (Nat.log2 (length data) < S k)%nat) by (apply Nat.log2_lt_pow2; lia). lia.
  - apply nth_error_None in N. destruct (Nat.ltb_spec i (length data)); [lia|]. rewrite Nat.add_0_r. reflexivity.
Qed.
Lemma steady_search {T} p (data : list T) n : h_search data (steady p) n = Ok (None, (n + (if is_nil data then 0 else S (Nat.log2 (length data))))%nat).
Proof.
  unfold h_search. rewrite (steady_search_loop p data (S (length data)) 0 0) by (cbn; lia). do 2 f_equal. destruct data; cbn [length is_nil]; [reflexivity|].
  destruct (Nat.ltb_spec 0 (S (length data))); lia.
Qed.
Lemma steady_cost {A} p k (x : hostile A) P n : cost k k x P -> exists a, x (steady p) n = Ok (a, (n + k)%nat).
Proof.
  intros C. specialize (C (steady p) n). destruct (x (steady p) n) as [[a n']| |]; [|destruct C as [i [_ C]]; discriminate|contradiction].
  exists a. do 2 f_equal. lia.
Qed.

Section Worst.
Context {K V : Type}.
Lemma worst_slot (t : hash_table (K * V)) : sound (AnyHash {| hm_table := t |}) -> N.of_nat (length (ht_slots t)) <= two64 ->
  exists p lo hi, p < two64 /\ nth_error (ht_slots t) (N.to_nat (N.land p (ht_mask t))) = Some (lo, hi) /\
    lo <= hi <= N.of_nat (length (ht_entries t)) /\ slot_most t = (N.to_nat hi - N.to_nat lo)%nat.
Proof.
  intros S F. cbn [sound hm_table] in S. destruct (S 0) as [lo0 [hi0 [E0 _]]]; [reflexivity|].
  assert (IN : In (slot_most t) (map (fun s => N.to_nat (snd s) - N.to_nat (fst s))%nat (reached (ht_mask t) (ht_slots t)))).
  { apply list_max_attained. apply code_reaches in E0. destruct (reached (ht_mask t) (ht_slots t)); [contradiction|discriminate]. }
  apply in_map_iff in IN. destruct IN as [[lo hi] [E I]]. apply reached_iff in I. destruct I as [p [I1 I2]].
  assert (HP : N.of_nat p < two64) by (assert ((p < length (ht_slots t))%nat) by (apply nth_error_Some; congruence); lia).
  exists (N.of_nat p), lo, hi. rewrite I2, Nat2N.id. split; [exact HP|]. split; [exact I1|]. split; [|symmetry; exact E].
  destruct (S (N.of_nat p) HP) as [lo' [hi' [E' L]]]. rewrite I2, Nat2N.id, I1 in E'. injection E' as -> ->. exact L.
Qed.
Lemma steady_slot {A} (t : hash_table (K * V)) p lo hi n (k : N -> list (K * V) -> hostile A) :
  nth_error (ht_slots t) (N.to_nat (N.land p (ht_mask t))) = Some (lo, hi) -> lo <= hi <= N.of_nat (length (ht_entries t)) ->
  (slot <~ lift (get_unchecked (ht_slots t) (N.to_nat (N.land p (ht_mask t)))) ;; let (mn, mx) := (slot : N * N) in
    entries <~ lift (slice_unchecked (ht_entries t) (N.to_nat mn) (N.to_nat mx)) ;; k mn entries) (steady p) n =
  k lo (firstn (N.to_nat hi - N.to_nat lo) (skipn (N.to_nat lo) (ht_entries t))) (steady p) n.
Proof.
  intros E L. unfold andthen, lift, get_unchecked. rewrite E. unfold slice_unchecked.
  destruct (Nat.leb_spec (N.to_nat lo) (N.to_nat hi)); [|lia]. destruct (Nat.leb_spec (N.to_nat hi) (length (ht_entries t))); [|lia]. reflexivity.
Qed.

(** [get], [get_mut] and [get_key_value] at their worst. *)
Definition worst (p : N) (m : any_map K V) : Prop := forall n,
  (exists o, h_get m (steady p) n = Ok (o, (n + most_calls m)%nat)) /\
  (exists o, h_get_mut m (steady p) n = Ok (o, (n + most_calls m)%nat) /\ match o with Some i => (i < length (any_entries m))%nat | None => True end) /\
  (exists o, h_get_key_value m (steady p) n = Ok (o, (n + most_calls m)%nat)).
Lemma worst_exact p (m : any_map K V) : sound m -> fewest_calls m = most_calls m -> worst p m.
Proof.
  intros S E n. pose proof (get_cost m S) as C1. pose proof (get_mut_cost m S) as C2. pose proof (get_key_value_cost m S) as C3. rewrite E in C1, C2, C3.
  split; [exact (steady_cost p _ _ _ n C1)|]. split; [|exact (steady_cost p _ _ _ n C3)].
  destruct (steady_cost p _ _ _ n C2) as [o Eo]. exists o. split; [exact Eo|]. specialize (C2 (steady p) n). rewrite Eo in C2. exact (proj2 C2).
Qed.
Lemma worst_exists (m : any_map K V) : sound m -> slots_fit m -> exists p, worst p m.
Proof.
  intros S F. destruct m as [m|m|m|m|m|m].
  - exists 0. apply worst_exact; [exact S|reflexivity].
  - exists 0. intros n. cbn [h_get h_get_mut h_get_key_value most_calls]. unfold andthen. rewrite steady_search. unfold ret. split; [eauto|]. split; [exists None; auto|eauto].
  - exists 0. apply worst_exact; [exact S|reflexivity].
  - exists 0. apply worst_exact; [exact S|reflexivity].
  - assert (S' : sound (AnyHash {| hm_table := hm_table m |})) by (destruct m; exact S).
    destruct (worst_slot (hm_table m) S' F) as [p [lo [hi [HP [E [L W]]]]]]. exists p. intros n. cbn [most_calls]. fold (slot_most (hm_table m)). rewrite W.
    assert (LN : length (firstn (N.to_nat hi - N.to_nat lo) (skipn (N.to_nat lo) (ht_entries (hm_table m)))) = (N.to_nat hi - N.to_nat lo)%nat)
      by (rewrite firstn_length, skipn_length; lia).
    assert (F1 : forall n, h_ht_find (hm_table m) p (steady p) n = Ok (None, (n + (N.to_nat hi - N.to_nat lo))%nat)).
    { intros n'. unfold h_ht_find. rewrite (steady_slot _ _ _ _ _ (fun _ l => h_scan_slot l) E L), steady_scan_slot, LN. reflexivity. }
    assert (F2 : forall n, h_ht_find_mut (hm_table m) p (steady p) n = Ok (None, (n + (N.to_nat hi - N.to_nat lo))%nat)).
    { intros n'. unfold h_ht_find_mut. rewrite (steady_slot _ _ _ _ _ (fun mn l => h_scan_slot_mut (N.to_nat mn) l) E L), steady_scan_slot_mut, LN. reflexivity. }
    assert (A : (n + Datatypes.S (N.to_nat hi - N.to_nat lo) = Datatypes.S n + (N.to_nat hi - N.to_nat lo))%nat) by lia.
    cbn [h_get h_get_mut h_get_key_value]. unfold andthen. rewrite (steady_number p n HP), F1, F2, A. unfold ret. split; [eauto|]. split; [exists None; auto|eauto].
  - assert (S' : sound (AnyNoCollisions {| ncm_table := ncm_table m |})) by (destruct m; exact S).
    destruct (existsb (N.ltb 0) (reached (nc_mask (ncm_table m)) (nc_slots (ncm_table m)))) eqn:X.
    + apply existsb_exists in X. destruct X as [j [I J]]. apply N.ltb_lt in J. apply reached_iff in I. destruct I as [p [I1 I2]].
      assert (HP : N.of_nat p < two64) by (cbn [slots_fit] in F; assert ((p < length (nc_slots (ncm_table m)))%nat) by (apply nth_error_Some; congruence); lia).
      exists (N.of_nat p). intros n. cbn [most_calls].
      assert (M : existsb (N.ltb 0) (reached (nc_mask (ncm_table m)) (nc_slots (ncm_table m))) = true).
      { apply existsb_exists. exists j. split; [apply reached_iff; exists p; auto|apply N.ltb_lt; exact J]. }
      rewrite M. cbn [sound] in S. destruct (S (N.of_nat p) HP) as [j' [E' L]]. rewrite I2, Nat2N.id, I1 in E'. injection E' as <-.
      destruct (nth_error (nc_entries (ncm_table m)) (N.to_nat (j - 1))) as [e|] eqn:EE; [|apply nth_error_None in EE; lia].
      assert (F1 : forall n, h_nc_find (ncm_table m) (N.of_nat p) (steady (N.of_nat p)) n = Ok (None, Datatypes.S n)).
      { intros n'. unfold h_nc_find, andthen, lift, get_unchecked. rewrite I2, Nat2N.id, I1. destruct (N.ltb_spec 0 j); [|lia]. rewrite EE, steady_bool. reflexivity. }
      assert (F2 : forall n, h_nc_find_mut (ncm_table m) (N.of_nat p) (steady (N.of_nat p)) n = Ok (None, Datatypes.S n)).
      { intros n'. unfold h_nc_find_mut, andthen, lift, get_unchecked. rewrite I2, Nat2N.id, I1. destruct (N.ltb_spec 0 j); [|lia]. rewrite EE, steady_bool. reflexivity. }
      assert (A : (n + 2 = Datatypes.S (Datatypes.S n))%nat) by lia.
      cbn [h_get h_get_mut h_get_key_value]. unfold andthen. rewrite (steady_number _ n HP), F1, F2, A. unfold ret. split; [eauto|]. split; [exists None; auto|eauto].
    + exists 0. apply worst_exact; [exact S|]. cbn [fewest_calls most_calls]. rewrite X.
      replace (existsb (N.eqb 0) (reached (nc_mask (ncm_table m)) (nc_slots (ncm_table m)))) with true; [reflexivity|].
      cbn [sound] in S. destruct (S 0) as [j [E L]]; [reflexivity|]. destruct (N.eq_dec j 0) as [->|D].
      * symmetry. apply existsb_exists. exists 0. split; [exact (code_reaches _ _ _ _ E)|reflexivity].
      * exfalso. enough (existsb (N.ltb 0) (reached (nc_mask (ncm_table m)) (nc_slots (ncm_table m))) = true) by congruence.
        apply existsb_exists. exists j. split; [exact (code_reaches _ _ _ _ E)|]. apply N.ltb_lt. lia.
Qed.
Lemma worst_request (m : any_map K V) : sound m -> slots_fit m ->
  exists adv, (forall i, a_panics (adv i) = false) /\ forall rq n, exists x, h_request rq m adv n = Ok (x, (n + most_calls m)%nat).
Proof.
  intros S F. destruct (worst_exists m S F) as [p W]. exists (steady p). split; [reflexivity|]. intros rq n. destruct (W n) as [[o1 E1] [[o2 [E2 L2]] [o3 E3]]].
  destruct rq; cbn [h_request]; unfold andthen.
  - rewrite E1. unfold ret. eauto.
  - rewrite E2. destruct o2 as [i|]; [|unfold ret; eauto]. unfold lift, get_unchecked.
    destruct (nth_error (any_entries m) i) eqn:X; [unfold ret; eauto|]. apply nth_error_None in X. lia.
  - rewrite E3. unfold ret. eauto.
  - unfold h_contains_key, andthen. rewrite E1. unfold ret. eauto.
Qed.

(** The best case: the first comparison says "equal". *)
Definition agree (p : N) : nat -> answer := fun _ => {| a_panics := false; a_bool := true; a_order := Eq; a_number := p |}.
Lemma agree_number p n : p < two64 -> ask_number (agree p) n = Ok (p, S n).
Proof. intros H. unfold ask_number, andthen, ask, agree, ret. cbn. rewrite N.mod_small by exact H. reflexivity. Qed.
Definition best (p : N) (m : any_map K V) : Prop := forall n,
  (exists o, h_get m (agree p) n = Ok (o, (n + fewest_calls m)%nat)) /\
  (exists o, h_get_mut m (agree p) n = Ok (o, (n + fewest_calls m)%nat) /\ match o with Some i => (i < length (any_entries m))%nat | None => True end) /\
  (exists o, h_get_key_value m (agree p) n = Ok (o, (n + fewest_calls m)%nat)).
Lemma agree_cost {A} p k (x : hostile A) P n : cost k k x P -> exists a, x (agree p) n = Ok (a, (n + k)%nat).
Proof.
  intros C. specialize (C (agree p) n). destruct (x (agree p) n) as [[a n']| |]; [|destruct C as [i [_ C]]; discriminate|contradiction].
  exists a. do 2 f_equal. lia.
Qed.
Lemma best_exact p (m : any_map K V) : sound m -> fewest_calls m = most_calls m -> best p m.
Proof.
  intros S E n. pose proof (get_cost m S) as C1. pose proof (get_mut_cost m S) as C2. pose proof (get_key_value_cost m S) as C3. rewrite <- E in C1, C2, C3.
  split; [exact (agree_cost p _ _ _ n C1)|]. split; [|exact (agree_cost p _ _ _ n C3)].
  destruct (agree_cost p _ _ _ n C2) as [o Eo]. exists o. split; [exact Eo|]. specialize (C2 (agree p) n). rewrite Eo in C2. exact (proj2 C2).
Qed.
Lemma agree_slot {A} (t : hash_table (K * V)) p lo hi n (k : N -> list (K * V) -> hostile A) :
  nth_error (ht_slots t) (N.to_nat (N.land p (ht_mask t))) = Some (lo, hi) -> lo <= hi <= N.of_nat (length (ht_entries t)) ->
  (slot <~ lift (get_unchecked (ht_slots t) (N.to_nat (N.land p (ht_mask t)))) ;; let (mn, mx) := (slot : N * N) in
    entries <~ lift (slice_unchecked (ht_entries t) (N.to_nat mn) (N.to_nat mx)) ;; k mn entries) (agree p) n =
  k lo (firstn (N.to_nat hi - N.to_nat lo) (skipn (N.to_nat lo) (ht_entries t))) (agree p) n.
Proof.
  intros E L. unfold andthen, lift, get_unchecked. rewrite E. unfold slice_unchecked.
  destruct (Nat.leb_spec (N.to_nat lo) (N.to_nat hi)); [|lia]. destruct (Nat.leb_spec (N.to_nat hi) (length (ht_entries t))); [|lia]. reflexivity.
Qed.
Lemma agree_scan_slot {T} p (l : list T) n : exists o, h_scan_slot l (agree p) n = Ok (o, (n + Nat.min 1 (length l))%nat).
Proof. destruct l as [|e r]; cbn [h_scan_slot length]; [exists None; cbn; rewrite Nat.add_0_r; reflexivity|]. exists (Some e). change (Nat.min 1 (Datatypes.S (length r))) with 1%nat. rewrite Nat.add_1_r. reflexivity. Qed.
Lemma agree_scan_slot_mut {T} p (l : list T) pos n : exists o, h_scan_slot_mut pos l (agree p) n = Ok (o, (n + Nat.min 1 (length l))%nat).
Proof. destruct l as [|e r]; cbn [h_scan_slot_mut length]; [exists None; cbn; rewrite Nat.add_0_r; reflexivity|]. exists (Some pos). change (Nat.min 1 (Datatypes.S (length r))) with 1%nat. rewrite Nat.add_1_r. reflexivity. Qed.
Lemma best_slot (t : hash_table (K * V)) : sound (AnyHash {| hm_table := t |}) -> N.of_nat (length (ht_slots t)) <= two64 ->
  exists p lo hi, p < two64 /\ nth_error (ht_slots t) (N.to_nat (N.land p (ht_mask t))) = Some (lo, hi) /\
    lo <= hi <= N.of_nat (length (ht_entries t)) /\ slot_few t = Nat.min 1 (N.to_nat hi - N.to_nat lo).
Proof.
  intros S F. cbn [sound hm_table] in S. destruct (existsb (fun s => N.eqb (fst s) (snd s)) (reached (ht_mask t) (ht_slots t))) eqn:X.
  - pose proof X as Y. apply existsb_exists in X. destruct X as [[lo hi] [I J]]. apply N.eqb_eq in J. cbn in J. subst hi. apply reached_iff in I. destruct I as [p [I1 I2]].
    assert (HP : N.of_nat p < two64) by (assert ((p < length (ht_slots t))%nat) by (apply nth_error_Some; congruence); lia).
    exists (N.of_nat p), lo, lo. rewrite I2, Nat2N.id. split; [exact HP|]. split; [exact I1|].
    destruct (S (N.of_nat p) HP) as [lo' [hi' [E' L]]]. rewrite I2, Nat2N.id, I1 in E'. injection E' as <- <-. split; [exact L|]. unfold slot_few. rewrite Y. lia.
  - destruct (S 0) as [lo [hi [E L]]]; [reflexivity|]. exists 0, lo, hi. split; [reflexivity|]. split; [exact E|]. split; [exact L|].
    pose proof (slot_few_le t 0 lo hi E (proj1 L)) as W. unfold slot_few in W |- *. rewrite X in W |- *. lia.
Qed.
Lemma best_exists (m : any_map K V) : sound m -> slots_fit m -> exists p, best p m.
Proof.
  intros S F. destruct m as [m|m|m|m|m|m].
  - exists 0. apply best_exact; [exact S|reflexivity].
  - exists 0. intros n. cbn [h_get h_get_mut h_get_key_value fewest_calls any_entries]. unfold andthen, h_search. cbn [h_search_loop].
    destruct (em_entries m) as [|e r]; cbn [nth_error is_nil length].
    + unfold ret. rewrite Nat.add_0_r. split; [eauto|]. split; [exists None; auto|eauto].
    + unfold andthen. change (ask_order (agree 0) n) with (Ok (Eq, Datatypes.S n)). cbn. rewrite Nat.add_1_r. split; [eexists; reflexivity|]. split; [|eexists; reflexivity].
      exists (Some 0%nat). split; [reflexivity|]. lia.
  - exists 0. apply best_exact; [exact S|reflexivity].
  - exists 0. apply best_exact; [exact S|reflexivity].
  - assert (S' : sound (AnyHash {| hm_table := hm_table m |})) by (destruct m; exact S).
    destruct (best_slot (hm_table m) S' F) as [p [lo [hi [HP [E [L W]]]]]]. exists p. intros n. cbn [fewest_calls].
    replace (if existsb _ _ then 1 else 2)%nat with (Datatypes.S (slot_few (hm_table m))) by (unfold slot_few; destruct (existsb _ _); reflexivity). rewrite W.
    assert (LN : length (firstn (N.to_nat hi - N.to_nat lo) (skipn (N.to_nat lo) (ht_entries (hm_table m)))) = (N.to_nat hi - N.to_nat lo)%nat)
      by (rewrite firstn_length, skipn_length; lia).
    assert (F1 : exists o, h_ht_find (hm_table m) p (agree p) (Datatypes.S n) = Ok (o, (Datatypes.S n + Nat.min 1 (N.to_nat hi - N.to_nat lo))%nat)).
    { unfold h_ht_find. rewrite (agree_slot _ _ _ _ _ (fun _ l => h_scan_slot l) E L). destruct (agree_scan_slot p (firstn (N.to_nat hi - N.to_nat lo) (skipn (N.to_nat lo) (ht_entries (hm_table m)))) (Datatypes.S n)) as [o Eo].
      exists o. rewrite Eo, LN. reflexivity. }
    assert (F2 : exists o, h_ht_find_mut (hm_table m) p (agree p) (Datatypes.S n) = Ok (o, (Datatypes.S n + Nat.min 1 (N.to_nat hi - N.to_nat lo))%nat)).
    { unfold h_ht_find_mut. rewrite (agree_slot _ _ _ _ _ (fun mn l => h_scan_slot_mut (N.to_nat mn) l) E L).
      destruct (agree_scan_slot_mut p (firstn (N.to_nat hi - N.to_nat lo) (skipn (N.to_nat lo) (ht_entries (hm_table m)))) (N.to_nat lo) (Datatypes.S n)) as [o Eo].
      exists o. rewrite Eo, LN. reflexivity. }
    destruct F1 as [o1 F1], F2 as [o2 F2].
    assert (A : (n + Datatypes.S (Nat.min 1 (N.to_nat hi - N.to_nat lo)) = Datatypes.S n + Nat.min 1 (N.to_nat hi - N.to_nat lo))%nat) by lia.
    pose proof (ht_find_mut_cost (hm_table m) p S' HP (agree p) (Datatypes.S n)) as B. rewrite F2 in B.
    cbn [h_get h_get_mut h_get_key_value any_entries]. unfold andthen. rewrite (agree_number p n HP), F1, F2, A. unfold ret. split; [eauto|]. split; [|eauto].
    exists o2. split; [reflexivity|exact (proj2 B)].
  - assert (S' : sound (AnyNoCollisions {| ncm_table := ncm_table m |})) by (destruct m; exact S).
    destruct (existsb (N.eqb 0) (reached (nc_mask (ncm_table m)) (nc_slots (ncm_table m)))) eqn:X.
    + pose proof X as Y. apply existsb_exists in X. destruct X as [j [I J]]. apply N.eqb_eq in J. subst j. apply reached_iff in I. destruct I as [p [I1 I2]].
      assert (HP : N.of_nat p < two64) by (cbn [slots_fit] in F; assert ((p < length (nc_slots (ncm_table m)))%nat) by (apply nth_error_Some; congruence); lia).
      exists (N.of_nat p). intros n. cbn [fewest_calls]. rewrite Y.
      cbn [h_get h_get_mut h_get_key_value]. unfold andthen. rewrite (agree_number _ n HP). unfold h_nc_find, h_nc_find_mut, andthen, lift, get_unchecked.
      rewrite I2, Nat2N.id, I1. cbn. rewrite Nat.add_1_r. split; [eexists; reflexivity|]. split; [exists None; split; [reflexivity|exact I]|eexists; reflexivity].
    + exists 0. apply best_exact; [exact S|]. cbn [fewest_calls most_calls]. rewrite X.
      replace (existsb (N.ltb 0) (reached (nc_mask (ncm_table m)) (nc_slots (ncm_table m)))) with true; [reflexivity|].
      cbn [sound] in S. destruct (S 0) as [j [E L]]; [reflexivity|]. destruct (N.eq_dec j 0) as [->|D].
      * exfalso. enough (existsb (N.eqb 0) (reached (nc_mask (ncm_table m)) (nc_slots (ncm_table m))) = true) by congruence.
        apply existsb_exists. exists 0. split; [exact (code_reaches _ _ _ _ E)|reflexivity].
      * symmetry. apply existsb_exists. exists j. split; [exact (code_reaches _ _ _ _ E)|]. apply N.ltb_lt. lia.
Qed.
Lemma best_request (m : any_map K V) : sound m -> slots_fit m ->
  exists adv, (forall i, a_panics (adv i) = false) /\ forall rq n, exists x, h_request rq m adv n = Ok (x, (n + fewest_calls m)%nat).
Proof.
  intros S F. destruct (best_exists m S F) as [p W]. exists (agree p). split; [reflexivity|]. intros rq n. destruct (W n) as [[o1 E1] [[o2 [E2 L2]] [o3 E3]]].
  destruct rq; cbn [h_request]; unfold andthen.
  - rewrite E1. unfold ret. eauto.
  - rewrite E2. destruct o2 as [i|]; [|unfold ret; eauto]. unfold lift, get_unchecked.
    destruct (nth_error (any_entries m) i) eqn:X; [unfold ret; eauto|]. apply nth_error_None in X. lia.
  - rewrite E3. unfold ret. eauto.
  - unfold h_contains_key, andthen. rewrite E1. unfold ret. eauto.
Qed.
Lemma most_calls_entries (m : any_map K V) : sound m -> slots_fit m -> (most_calls m <= S (length (any_entries m)))%nat.
Proof.
  intros S F. destruct m as [m|m|m|m|m|m]; cbn [most_calls any_entries].
  - lia.
  - destruct (em_entries m) as [|x r]; cbn [is_nil]; [lia|]. assert ((Nat.log2 (length (x :: r)) < length (x :: r))%nat) by (apply Nat.log2_lt_lin; cbn; lia). lia.
  - lia.
  - lia.
  - assert (S' : sound (AnyHash {| hm_table := hm_table m |})) by (destruct m; exact S).
    destruct (worst_slot (hm_table m) S' F) as [p [lo [hi [HP [E [L W]]]]]]. fold (slot_most (hm_table m)). rewrite W. lia.
  - destruct (existsb (N.ltb 0) _) eqn:X; [|lia]. apply existsb_exists in X. destruct X as [j [I J]]. apply N.ltb_lt in J. apply reached_iff in I. destruct I as [p [I1 I2]].
    cbn [slots_fit] in F. assert (HP : N.of_nat p < two64) by (assert ((p < length (nc_slots (ncm_table m)))%nat) by (apply nth_error_Some; congruence); lia).
    cbn [sound] in S. destruct (S (N.of_nat p) HP) as [j' [E' L]]. rewrite I2, Nat2N.id, I1 in E'. injection E' as <-. lia.
Qed.
End Worst.

(** ** [get_disjoint_mut] *)
Fixpoint pairs_from (seen left : nat) : nat := match left with O => 0 | S l => seen + pairs_from (S seen) l end.
Lemma pairs_from_twice left : forall seen, (2 * pairs_from seen left = left * (2 * seen + left - 1))%nat.
Proof. induction left as [|l IH]; intros seen; [reflexivity|]. cbn [pairs_from]. specialize (IH (S seen)). nia. Qed.
Lemma pairs_from_pairs k : pairs_from 0 k = pairs k.
Proof.
  unfold pairs. pose proof (pairs_from_twice k 0) as H. apply Nat.div_unique with (r := 0%nat); [lia|]. rewrite Nat.add_0_r, H. reflexivity.
Qed.
Lemma any_equal_calls seen adv : forall n, match h_any_equal seen adv n with
  | Ok (false, n') => n' = (n + seen)%nat
  | Ok (true, _) => exists i, (i < seen)%nat /\ a_bool (adv (n + i)%nat) = true
  | Panic => exists i, (i < seen)%nat /\ a_panics (adv (n + i)%nat) = true
  | UB => False
  end.
Proof.
  induction seen as [|seen IH]; intros n; cbn [h_any_equal]; [cbn; lia|]. unfold andthen, ask_bool, ask, ret. unfold andthen.
  destruct (a_panics (adv n)) eqn:P; [exists 0%nat; rewrite Nat.add_0_r; split; [lia|exact P]|].
  destruct (a_bool (adv n)) eqn:B; [exists 0%nat; rewrite Nat.add_0_r; split; [lia|exact B]|].
  specialize (IH (S n)). destruct (h_any_equal seen adv (S n)) as [[[] n']| |].
  - destruct IH as [i [Hi E]]. exists (S i). split; [lia|]. rewrite <- E. do 2 f_equal. lia.
  - lia.
  - destruct IH as [i [Hi E]]. exists (S i). split; [lia|]. rewrite <- E. do 2 f_equal. lia.
  - exact IH.
Qed.
Lemma has_duplicates_calls left adv : forall seen n, match h_has_duplicates seen left adv n with
  | Ok (false, n') => n' = (n + pairs_from seen left)%nat
  | Ok (true, _) => exists i, (i < pairs_from seen left)%nat /\ a_bool (adv (n + i)%nat) = true
  | Panic => exists i, (i < pairs_from seen left)%nat /\ a_panics (adv (n + i)%nat) = true
  | UB => False
  end.
Proof.
  induction left as [|l IH]; intros seen n; cbn [h_has_duplicates pairs_from]; [cbn; lia|]. unfold andthen.
  pose proof (any_equal_calls seen adv n) as A. destruct (h_any_equal seen adv n) as [[[] n']| |].
  - destruct A as [i [Hi E]]. exists i. split; [lia|exact E].
  - subst n'. specialize (IH (S seen) (n + seen)%nat). destruct (h_has_duplicates (S seen) l adv (n + seen)%nat) as [[[] n']| |].
    + destruct IH as [i [Hi E]]. exists (seen + i)%nat. split; [lia|]. rewrite <- E. do 2 f_equal. lia.
    + lia.
    + destruct IH as [i [Hi E]]. exists (seen + i)%nat. split; [lia|]. rewrite <- E. do 2 f_equal. lia.
    + exact IH.
  - destruct A as [i [Hi E]]. exists i. split; [lia|exact E].
  - exact A.
Qed.
Lemma unchecked_cost {K V} (m : any_map K V) k : sound m -> cost (k * fewest_calls m) (k * most_calls m) (h_disjoint_unchecked m k) (fun _ => True).
Proof.
  intros S. induction k as [|k IH]; cbn [h_disjoint_unchecked Nat.mul]; [apply cost_ret; exact I|].
  eapply cost_then; [apply get_mut_cost; exact S|]. intros o _. eapply cost_last; [exact IH|]. intros r _. apply cost_ret. exact I.
Qed.
Lemma disjoint_calls {K V} (m : any_map K V) k adv n : sound m ->
  match h_disjoint m k adv n with
  | Ok (_, n') => (n + pairs k + k * fewest_calls m <= n' <= n + pairs k + k * most_calls m)%nat
  | Panic => exists i, (i < pairs k + k * most_calls m)%nat /\ (a_panics (adv (n + i)%nat) = true \/ (i < pairs k)%nat /\ a_bool (adv (n + i)%nat) = true)
  | UB => False
  end.
Proof.
  intros S. unfold h_disjoint, andthen. pose proof (has_duplicates_calls k adv 0 n) as D. rewrite pairs_from_pairs in D.
  destruct (h_has_duplicates 0 k adv n) as [[[] n']| |].
  - destruct D as [i [Hi E]]. unfold lift. exists i. split; [lia|]. right. auto.
  - subst n'. pose proof (unchecked_cost m k S adv (n + pairs k)%nat) as C. destruct (h_disjoint_unchecked m k adv (n + pairs k)%nat) as [[a n']| |].
    + lia.
    + destruct C as [i [Hi E]]. exists (pairs k + i)%nat. split; [lia|]. left. rewrite <- E. do 2 f_equal. lia.
    + exact C.
  - destruct D as [i [Hi E]]. exists i. split; [lia|]. left. exact E.
  - exact D.
Qed.
Lemma steady_disjoint {K V} (m : any_map K V) k : sound m -> slots_fit m ->
  exists adv, (forall i, a_panics (adv i) = false) /\ forall n, exists x, h_disjoint m k adv n = Ok (x, (n + pairs k + k * most_calls m)%nat).
Proof.
  intros S F. destruct (worst_exists m S F) as [p W]. exists (steady p). split; [reflexivity|]. intros n. unfold h_disjoint, andthen.
  pose proof (has_duplicates_calls k (steady p) 0 n) as D. rewrite pairs_from_pairs in D. destruct (h_has_duplicates 0 k (steady p) n) as [[[] n']| |].
  - destruct D as [i [_ D]]. discriminate.
  - subst n'. generalize (n + pairs k)%nat. clear n. induction k as [|k IH]; intros n; cbn [h_disjoint_unchecked Nat.mul].
    + rewrite Nat.add_0_r. unfold ret. eauto.
    + destruct (W n) as [_ [[o [E _]] _]]. unfold andthen. rewrite E. destruct (IH (n + most_calls m)%nat) as [x Ex]. rewrite Ex. unfold ret. eexists. do 2 f_equal. lia.
  - destruct D as [i [_ D]]. discriminate.
  - contradiction.
Qed.

(** ** [DeduppedVec::using_eq] *)
Lemma using_eq_inner_cost {T} (l : list T) : cost (Nat.min 1 (length l)) (length l) (h_using_eq_inner l) (fun _ => True).
Proof.
  induction l as [|e r IH]; cbn [h_using_eq_inner length]; [apply cost_ret; exact I|].
  change (Nat.min 1 (S (length r))) with (1 + 0)%nat. change (S (length r)) with (1 + length r)%nat. eapply cost_then; [exact cost_bool|].
  intros [] _; [step (cost_ret true (fun _ => True))|]. step IH.
Qed.
Fixpoint rests {T} (l : list T) : nat := match l with [] => 0 | _ :: r => length r + rests r end.
Lemma rests_pairs {T} (l : list T) : rests l = pairs (length l).
Proof.
  unfold pairs. apply Nat.div_unique with (r := 0%nat); [lia|]. induction l as [|e r IH]; [reflexivity|]. cbn [rests length].
  replace (S (length r) - 1)%nat with (length r) by lia. nia.
Qed.
Lemma using_eq_dupes_cost {T} : forall (l : list T) i dupes, cost (length l - 1) (rests l) (h_using_eq_dupes i l dupes) (fun _ => True).
Proof.
  induction l as [|e r IH]; intros i dupes; cbn [h_using_eq_dupes length rests]; [apply cost_ret; exact I|].
  replace (S (length r) - 1)%nat with (Nat.min 1 (length r) + (length r - 1))%nat by lia.
  eapply cost_then; [apply using_eq_inner_cost|]. intros b _. apply IH.
Qed.
Lemma using_eq_cost {T} (l : list T) : cost (length l - 1) (pairs (length l)) (h_using_eq l) (fun _ => True).
Proof.
  unfold h_using_eq. destruct (Nat.leb_spec 2 (length l)).
  - rewrite <- rests_pairs. eapply cost_last; [apply using_eq_dupes_cost|]. intros d _. apply cost_ret. exact I.
  - assert (P : pairs (length l) = 0%nat) by (destruct (length l) as [|[|]]; [reflexivity|reflexivity|lia]). rewrite P.
    step (cost_ret l (fun _ => True)).
Qed.
Lemma make_scan_calls {K V} usort md (l : list (K * V)) adv n : calls (length l - 1) (pairs (length l)) (h_make usort md MakeScan l) adv n.
Proof.
  assert (C : cost (length l - 1) (pairs (length l)) (h_make usort md MakeScan l) (fun _ => True)).
  { cbn [h_make]. eapply cost_last; [apply using_eq_cost|]. intros es _. apply cost_ret. exact I. }
  specialize (C adv n). unfold calls. destruct (h_make usort md MakeScan l adv n) as [[a n']| |]; [exact (proj1 C)|exact C..].
Qed.
Lemma steady_inner {T} p (l : list T) : forall n, h_using_eq_inner l (steady p) n = Ok (false, (n + length l)%nat).
Proof.
  induction l as [|e r IH]; intros n; cbn [h_using_eq_inner length]; [rewrite Nat.add_0_r; reflexivity|]. unfold andthen. rewrite steady_bool, IH. do 2 f_equal. lia.
Qed.
Lemma steady_dupes {T} p (l : list T) : forall i d n, h_using_eq_dupes i l d (steady p) n = Ok (d, (n + rests l)%nat).
Proof.
  induction l as [|e r IH]; intros i d n; cbn [h_using_eq_dupes rests]; [rewrite Nat.add_0_r; reflexivity|]. unfold andthen. rewrite steady_inner, IH. do 2 f_equal. lia.
Qed.
Lemma steady_make_scan {K V} usort md (l : list (K * V)) :
  exists adv, (forall i, a_panics (adv i) = false) /\ forall n, exists x, h_make usort md MakeScan l adv n = Ok (x, (n + pairs (length l))%nat).
Proof.
  exists (steady 0). split; [reflexivity|]. intros n. cbn [h_make]. unfold h_using_eq. destruct (Nat.leb_spec 2 (length l)).
  - unfold andthen. rewrite steady_dupes, rests_pairs. unfold ret. eauto.
  - assert (P : pairs (length l) = 0%nat) by (destruct (length l) as [|[|]]; [reflexivity|reflexivity|lia]). rewrite P, Nat.add_0_r. unfold andthen, ret. eauto.
Qed.
Lemma agree_inner {T} (l : list T) n : exists b, h_using_eq_inner l (agree 0) n = Ok (b, (n + Nat.min 1 (length l))%nat).
Proof.
  destruct l as [|e r]; cbn [h_using_eq_inner length]; [exists false; cbn; rewrite Nat.add_0_r; reflexivity|].
  exists true. change (Nat.min 1 (S (length r))) with 1%nat. rewrite Nat.add_1_r. reflexivity.
Qed.
Lemma agree_dupes {T} (l : list T) : forall i d n, exists d', h_using_eq_dupes i l d (agree 0) n = Ok (d', (n + (length l - 1))%nat).
Proof.
  induction l as [|e r IH]; intros i d n; cbn [h_using_eq_dupes length]; [rewrite Nat.add_0_r; unfold ret; eauto|]. unfold andthen.
  destruct (agree_inner r n) as [b E]. rewrite E. destruct (IH (S i) (if b then i :: d else d) (n + Nat.min 1 (length r))%nat) as [d' E']. rewrite E'.
  exists d'. do 2 f_equal. lia.
Qed.
Lemma agree_make_scan {K V} usort md (l : list (K * V)) :
  exists adv, (forall i, a_panics (adv i) = false) /\ forall n, exists x, h_make usort md MakeScan l adv n = Ok (x, (n + (length l - 1))%nat).
Proof.
  exists (agree 0). split; [reflexivity|]. intros n. cbn [h_make]. unfold h_using_eq. destruct (Nat.leb_spec 2 (length l)).
  - unfold andthen. destruct (agree_dupes l 0 [] n) as [d E]. rewrite E. unfold ret. eauto.
  - replace (length l - 1)%nat with 0%nat by lia. rewrite Nat.add_0_r. unfold andthen, ret. eauto.
Qed.
