(** The set theorems in the form in which they are stated in [PropertiesSets.v]. *)
From Verif Require Import Prelude Spec ModelUtils ModelAnalyzers ModelTables ModelMaps ModelIter SpecSets SpecMade
  ProofsBase ProofsFz ProofsIter ProofsMade ProofsProps Instances.
From Coq Require Import Permutation.
From Coq Require Import ZArith ZifyNat ZifyN ZifyBool.

Lemma unit_fst {T} (values : list T) : map fst (unit_entries values) = values.
Proof. unfold unit_entries. rewrite map_map. cbn. apply map_id. Qed.

Lemma unit_spec_entry {T Q} (eqv : Q -> T -> bool) (values : list T) q :
  option_map fst (spec_entry eqv (unit_entries values) q) = last_match (eqv q) values.
Proof.
  unfold spec_entry, unit_entries. induction values as [|x l IH]; cbn [map last_match]; [auto|]. rewrite <- IH.
  destruct (last_match _ _) as [[]|]; cbn [option_map fst]; auto. destruct (eqv q x); auto.
Qed.

Lemma set_queries {M T Q} (ops : map_ops M T unit Q) eqT eqv m values : made ops eqT eqv m (unit_entries values) -> forall q,
  set_get ops m q = Ok (last_match (eqv q) values) /\
  exists b, set_contains ops m q = Ok b /\ set_contains_via_get ops m q = Ok b /\ (b = true <-> exists x, In x values /\ eqv q x = true).
Proof.
  intros MD q. unfold set_contains_via_get, set_contains, set_get. rewrite (made_gkv _ _ _ _ _ MD), (made_contains _ _ _ _ _ MD). cbn [fmap].
  rewrite unit_spec_entry. split; [auto|].
  exists (is_some (last_match (eqv q) values)). rewrite <- unit_spec_entry. split; [destruct (spec_entry _ _ _); auto|].
  split; [auto|]. rewrite unit_spec_entry. split.
  - destruct (last_match (eqv q) values) as [x|] eqn:E; [|discriminate]. intros _. exists x. apply last_match_Some in E. auto.
  - intros [x [H1 H2]]. destruct (last_match (eqv q) values) eqn:E; [auto|]. rewrite last_match_None in E. rewrite E in H2; [discriminate|auto].
Qed.

Lemma sets_constructed :
  (forall T Q usort eqT eqv hT hQ (values : list T), sorts_by_slot usort -> lawful_eq eqT -> lawful_equivalent (Q := Q) eqT eqv ->
     lawful_hash eqT hT -> lawful_query_hash eqv hQ hT -> N.of_nat (length values) <= usize_max ->
     exists m, fz_hash_map_with_hasher usort eqT hT (unit_entries values) = Ok m /\
       made (hash_ops (fun q => Ok (hQ q)) eqv) eqT eqv m (unit_entries values)) /\
  (forall T Q cmp cmpQ (values : list T), lawful_ord cmp -> lawful_comparable (Q := Q) cmp cmpQ ->
     exists m, fz_ordered_map_new cmp (unit_entries values) = Ok m /\
       made (eytzinger_ops cmpQ) (cmp_eq cmp) (cmp_eq cmpQ) m (unit_entries values)) /\
  (forall T Q usort md idx cmp idxQ eqv (values : list T), sorts_by_slot usort -> lawful_scalar idx cmp ->
     lawful_query_scalar (Q := Q) idx idxQ eqv -> span_representable idx values ->
     exists m, fz_scalar_map_new usort md idx cmp (unit_entries values) = Ok m /\
       made (fz_scalar_ops idxQ eqv) (idx_eq idx) eqv m (unit_entries values)) /\
  (forall usort bh (values : list bytes), sorts_by_slot usort -> N.of_nat (length values) <= usize_max ->
     (forall s, In s values -> N.of_nat (length s) <= usize_max) ->
     exists m, fz_string_map_with_hasher usort bh (unit_entries values) = Ok m /\
       made fz_string_ops bytes_eqb bytes_eqb m (unit_entries values)).
Proof.
  destruct construction_total as (C1 & C2 & C3 & C4). split; [|split; [|split]]; intros.
  - destruct (C1 T unit usort eqT hT (unit_entries values)) as [m E]; auto.
    { unfold key_count. apply key_count_le. unfold unit_entries. rewrite map_length. auto. }
    exists m. split; auto. eapply made_fz_hash; eauto.
  - destruct (C2 T unit cmp (unit_entries values)) as [m E]; auto. exists m. split; auto. eapply made_fz_ordered; eauto.
  - destruct (C4 T unit usort md idx cmp (unit_entries values)) as [m E]; auto; [rewrite unit_fst; auto|].
    exists m. split; auto. eapply made_fz_scalar; eauto. rewrite unit_fst; auto.
  - assert (HL : forall e, In e (unit_entries values) -> N.of_nat (length (fst e)) <= usize_max).
    { intros e He. apply H1. rewrite <- (unit_fst values). apply in_map. auto. }
    destruct (C3 unit usort bh (unit_entries values)) as [m E]; auto.
    { unfold key_count. apply key_count_le. unfold unit_entries. rewrite map_length. auto. }
    exists m. split; auto. eapply made_fz_string; eauto.
Qed.

Lemma frozen_set_lawful {M T} (ops : map_ops M T unit T) eqT m values : made ops eqT eqT m (unit_entries values) ->
  lawful_set eqT (as_set ops m) /\ forall x, elem eqT x (as_set ops m) <-> member eqT x values.
Proof. intros MD. pose proof (made_set ops eqT m _ MD) as H. rewrite unit_fst in H. exact H. Qed.

Section Pairs.
Context {T : Type} (eqT : T -> T -> bool) (s1 s2 : set_val T).
Hypothesis LE : lawful_eq eqT.
Hypothesis L1 : lawful_set eqT s1.
Hypothesis L2 : lawful_set eqT s2.

Lemma hints :
  (forall st l, reaches difference_next (difference_new s1 s2) st -> yields difference_next st l -> brackets (difference_size_hint st) (length l)) /\
  (forall st l, reaches intersection_next (intersection_new s1 s2) st -> yields intersection_next st l -> brackets (intersection_size_hint st) (length l)) /\
  (forall st l, reaches symmetric_difference_next (symmetric_difference_new s1 s2) st -> yields symmetric_difference_next st l ->
     brackets (symmetric_difference_size_hint st) (length l)) /\
  (forall l, yields union_next (union_new s1 s2) l -> brackets (union_size_hint (union_new s1 s2)) (length l)) /\
  (forall st l, reaches union_next (union_new s1 s2) st -> yields union_next st l ->
     match snd (union_size_hint st) with Some u => N.of_nat (length l) <= u | None => True end).
Proof.
  split; [|split; [|split; [|split]]].
  - intros st l HR HY. pose proof (difference_sound eqT s2 L2) as HS.
    assert (HI : df_inv s2 st) by (eapply (sound_reaches _ _ _ HS); eauto; reflexivity).
    rewrite (yields_fun _ _ _ _ HY (sound_yields _ _ _ HS st HI)). apply difference_hint; auto.
  - intros st l HR HY. pose proof (intersection_sound eqT s1 s2 L1 L2) as HS.
    assert (HI : in_inv s1 s2 st) by (eapply (sound_reaches _ _ _ HS); eauto; apply (in_inv_new eqT s1 s2 L1 L2)).
    rewrite (yields_fun _ _ _ _ HY (sound_yields _ _ _ HS st HI)). apply intersection_hint; auto.
  - intros st l HR HY. pose proof (symmetric_difference_sound eqT s1 s2 L1 L2) as HS.
    assert (HI : sd_inv s1 s2 st) by (eapply (sound_reaches _ _ _ HS); eauto; split; reflexivity).
    rewrite (yields_fun _ _ _ _ HY (sound_yields _ _ _ HS st HI)). apply symmetric_difference_hint; auto.
  - intros l HY. destruct (union_result eqT LE s1 s2 L1 L2) as [HU _]. rewrite (yields_fun _ _ _ _ HY HU). apply union_hint_new; auto.
  - intros st l HR HY. pose proof (union_sound eqT s1 s2 L1 L2) as HS.
    assert (HI : un_inv s1 s2 st) by (eapply (sound_reaches _ _ _ HS); eauto; split; reflexivity).
    rewrite (yields_fun _ _ _ _ HY (sound_yields _ _ _ HS st HI)). apply union_hint_upper; auto.
Qed.

Lemma union_yields : exists l, yields union_next (union_new s1 s2) l /\ distinct eqT l /\ forall x, member eqT x l <-> elem eqT x s1 \/ elem eqT x s2.
Proof. eexists. apply union_result; auto. Qed.
Lemma intersection_yields : exists l, yields intersection_next (intersection_new s1 s2) l /\ distinct eqT l /\
  forall x, member eqT x l <-> elem eqT x s1 /\ elem eqT x s2.
Proof. eexists. apply intersection_result; auto. Qed.
Lemma difference_yields : exists l, yields difference_next (difference_new s1 s2) l /\ distinct eqT l /\
  forall x, member eqT x l <-> elem eqT x s1 /\ ~ elem eqT x s2.
Proof. eexists. apply difference_result; auto. Qed.
Lemma symmetric_difference_yields : exists l, yields symmetric_difference_next (symmetric_difference_new s1 s2) l /\ distinct eqT l /\
  forall x, member eqT x l <-> (elem eqT x s1 /\ ~ elem eqT x s2) \/ (elem eqT x s2 /\ ~ elem eqT x s1).
Proof. eexists. apply symmetric_difference_result; auto. Qed.

(** Every bound is attained. *)
Lemma equal_length l l' : distinct eqT l -> distinct eqT l' -> (forall x, member eqT x l <-> member eqT x l') -> length l = length l'.
Proof.
  intros D D' H. apply Nat.le_antisymm; apply (distinct_incl_length eqT LE); auto; intros x Hx; apply H, (member_In eqT LE); auto.
Qed.
Lemma no_members (l : list T) : (forall x, ~ member eqT x l) -> length l = O.
Proof. destruct l as [|x l]; [reflexivity|]. intros H. elim (H x). apply (member_In eqT LE). left. reflexivity. Qed.
Lemma attained :
  let disjoint := forall x, ~ (elem eqT x s1 /\ elem eqT x s2) in
  let within := forall x, elem eqT x s1 -> elem eqT x s2 in
  let around := forall x, elem eqT x s2 -> elem eqT x s1 in
  (forall l, yields difference_next (difference_new s1 s2) l ->
     (within -> fst (difference_size_hint (difference_new s1 s2)) = N.of_nat (length l)) /\
     (disjoint -> snd (difference_size_hint (difference_new s1 s2)) = Some (N.of_nat (length l)))) /\
  (forall l, yields intersection_next (intersection_new s1 s2) l ->
     (disjoint -> fst (intersection_size_hint (intersection_new s1 s2)) = N.of_nat (length l)) /\
     (within \/ around -> snd (intersection_size_hint (intersection_new s1 s2)) = Some (N.of_nat (length l)))) /\
  (forall l, yields symmetric_difference_next (symmetric_difference_new s1 s2) l ->
     (within /\ around -> fst (symmetric_difference_size_hint (symmetric_difference_new s1 s2)) = N.of_nat (length l)) /\
     (disjoint -> N.of_nat (length l) <= usize_max ->
      snd (symmetric_difference_size_hint (symmetric_difference_new s1 s2)) = Some (N.of_nat (length l)))) /\
  (forall l, yields union_next (union_new s1 s2) l ->
     (within \/ around -> fst (union_size_hint (union_new s1 s2)) = N.of_nat (length l)) /\
     (disjoint -> N.of_nat (length l) <= usize_max -> snd (union_size_hint (union_new s1 s2)) = Some (N.of_nat (length l)))).
Proof.
  cbv zeta. pose proof (set_distinct_law _ _ L1) as D1. pose proof (set_distinct_law _ _ L2) as D2. pose proof (set_len_law _ _ L1) as N1.
  pose proof (set_len_law _ _ L2) as N2.
  assert (D12 : (forall x, ~ (elem eqT x s1 /\ elem eqT x s2)) -> distinct eqT (sv_items s1 ++ sv_items s2)).
  { intros HD. apply distinct_app. split; [exact D1|]. split; [exact D2|]. intros x y Hx Hy. destruct (eqT x y) eqn:E; [|reflexivity].
    exfalso. apply (HD x). split; [apply (member_In eqT LE); exact Hx|]. exists y. auto. }
  assert (W : (forall x, elem eqT x s1 -> elem eqT x s2) -> (length (sv_items s1) <= length (sv_items s2))%nat).
  { intros H. apply (distinct_incl_length eqT LE); auto. intros x Hx. apply H, (member_In eqT LE). exact Hx. }
  assert (W' : (forall x, elem eqT x s2 -> elem eqT x s1) -> (length (sv_items s2) <= length (sv_items s1))%nat).
  { intros H. apply (distinct_incl_length eqT LE); auto. intros x Hx. apply H, (member_In eqT LE). exact Hx. }
  split; [|split; [|split]].
  - intros l Y. destruct difference_yields as [l' [Y' [D M]]]. rewrite (yields_fun _ _ _ _ Y Y'). split.
    + intros H. rewrite no_members; [reflexivity|]. intros x Hx. apply M in Hx. destruct Hx as [Hx Hn]. exact (Hn (H x Hx)).
    + intros H. cbn. do 2 f_equal. apply equal_length; auto. intros x. rewrite M. specialize (H x). unfold elem in *. tauto.
  - intros l Y. destruct intersection_yields as [l' [Y' [D M]]]. rewrite (yields_fun _ _ _ _ Y Y'). split.
    + intros H. rewrite no_members; [reflexivity|]. intros x Hx. apply M in Hx. exact (H x Hx).
    + intros H. cbn [snd intersection_size_hint intersection_new in_s1 in_s2]. f_equal. rewrite N1, N2. destruct H as [H|H].
      * specialize (W H). rewrite <- (equal_length (sv_items s1) l' D1 D); [lia|]. intros x. rewrite M. specialize (H x). unfold elem in *. tauto.
      * specialize (W' H). rewrite <- (equal_length (sv_items s2) l' D2 D); [lia|]. intros x. rewrite M. specialize (H x). unfold elem in *. tauto.
  - intros l Y. destruct symmetric_difference_yields as [l' [Y' [D M]]]. rewrite (yields_fun _ _ _ _ Y Y'). split.
    + intros [H H']. rewrite no_members; [reflexivity|]. intros x Hx. apply M in Hx. specialize (H x). specialize (H' x). tauto.
    + intros H HU. assert (EL : length l' = length (sv_items s1 ++ sv_items s2)).
      { apply equal_length; auto. intros x. rewrite M, (member_app eqT). specialize (H x). unfold elem in *. tauto. }
      rewrite app_length in EL. cbn. unfold checked_add. destruct (N.leb_spec (N.of_nat (length (sv_items s1)) + N.of_nat (length (sv_items s2))) usize_max); [f_equal|]; lia.
  - intros l Y. destruct union_yields as [l' [Y' [D M]]]. rewrite (yields_fun _ _ _ _ Y Y'). split.
    + intros H. cbn. destruct H as [H|H].
      * specialize (W H). rewrite <- (equal_length (sv_items s2) l' D2 D); [lia|]. intros x. rewrite M. specialize (H x). unfold elem in *. tauto.
      * specialize (W' H). rewrite <- (equal_length (sv_items s1) l' D1 D); [lia|]. intros x. rewrite M. specialize (H x). unfold elem in *. tauto.
    + intros H HU. assert (EL : length l' = length (sv_items s1 ++ sv_items s2)).
      { apply equal_length; auto. intros x. rewrite M, (member_app eqT). unfold elem. tauto. }
      rewrite app_length in EL. cbn. unfold checked_add. destruct (N.leb_spec (N.of_nat (length (sv_items s1)) + N.of_nat (length (sv_items s2))) usize_max); [f_equal|]; lia.
Qed.

Lemma union_intersection_card l l' : yields union_next (union_new s1 s2) l -> yields intersection_next (intersection_new s1 s2) l' ->
  (length l + length l' = sv_len s1 + sv_len s2)%nat.
Proof.
  intros HU HI. destruct (union_result eqT LE s1 s2 L1 L2) as [HU' _]. destruct (intersection_result eqT LE s1 s2 L1 L2) as [HI' _].
  rewrite (yields_fun _ _ _ _ HU HU'), (yields_fun _ _ _ _ HI HI'). apply (union_card eqT LE s1 s2 L1 L2).
Qed.
End Pairs.

Lemma union_comm {T} (eqT : T -> T -> bool) s1 s2 l l' : lawful_eq eqT -> lawful_set eqT s1 -> lawful_set eqT s2 ->
  yields union_next (union_new s1 s2) l -> yields union_next (union_new s2 s1) l' -> same_elements eqT l l' /\ length l = length l'.
Proof.
  intros LE L1 L2 H H'. destruct (union_yields eqT s1 s2 LE L1 L2) as [a [A [DA MA]]]. destruct (union_yields eqT s2 s1 LE L2 L1) as [b [B [DB MB]]].
  rewrite (yields_fun _ _ _ _ H A), (yields_fun _ _ _ _ H' B).
  assert (HS : same_elements eqT a b) by (intros x; rewrite MA, MB; tauto). split; auto.
  apply Nat.le_antisymm; apply (distinct_incl_length eqT LE); auto; intros x Hx; apply HS, (member_In eqT LE); auto.
Qed.

Lemma intersection_comm {T} (eqT : T -> T -> bool) s1 s2 l l' : lawful_eq eqT -> lawful_set eqT s1 -> lawful_set eqT s2 ->
  yields intersection_next (intersection_new s1 s2) l -> yields intersection_next (intersection_new s2 s1) l' -> same_elements eqT l l' /\ length l = length l'.
Proof.
  intros LE L1 L2 H H'. destruct (intersection_yields eqT s1 s2 LE L1 L2) as [a [A [DA MA]]]. destruct (intersection_yields eqT s2 s1 LE L2 L1) as [b [B [DB MB]]].
  rewrite (yields_fun _ _ _ _ H A), (yields_fun _ _ _ _ H' B).
  assert (HS : same_elements eqT a b) by (intros x; rewrite MA, MB; tauto). split; auto.
  apply Nat.le_antisymm; apply (distinct_incl_length eqT LE); auto; intros x Hx; apply HS, (member_In eqT LE); auto.
Qed.

Lemma algebra {T} (eqT : T -> T -> bool) s1 s2 : lawful_eq eqT -> lawful_set eqT s1 -> lawful_set eqT s2 ->
  exists u i d x e, set_bitor eqT s1 s2 = Ok u /\ set_bitand eqT s1 s2 = Ok i /\ set_sub eqT s1 s2 = Ok d /\ set_bitxor eqT s1 s2 = Ok x /\
    set_sub eqT u i = Ok e /\
    is_disjoint d s2 = Ok true /\ is_subset s1 u = Ok true /\ is_subset s2 u = Ok true /\ is_subset i s1 = Ok true /\ is_subset i s2 = Ok true /\
    set_eq x e = Ok true /\ (sv_len u + sv_len i = sv_len s1 + sv_len s2)%nat.
Proof.
  intros LE L1 L2.
  assert (TR : forall (c : res bool) (P : Prop), (exists b, c = Ok b /\ (b = true <-> P)) -> P -> c = Ok true).
  { intros c P [b [-> Hb]] HP. f_equal. apply Hb. auto. }
  destruct (bitor_spec eqT LE s1 s2 L1 L2) as [u [Eu [Lu Mu]]]. destruct (bitand_spec eqT LE s1 s2 L1 L2) as [i [Ei [Li Mi]]].
  destruct (sub_spec eqT LE s1 s2 L1 L2) as [d [Ed [Ld Md]]]. destruct (bitxor_spec eqT LE s1 s2 L1 L2) as [x [Ex [Lx Mx]]].
  destruct (sub_spec eqT LE u i Lu Li) as [e [Ee [Le Me]]].
  exists u, i, d, x, e. do 5 (split; [auto|]).
  split; [eapply TR; [apply is_disjoint_spec; eauto|]; intros y; rewrite Md; tauto|].
  split; [eapply TR; [apply is_subset_spec; eauto|]; intros y; rewrite Mu; tauto|].
  split; [eapply TR; [apply is_subset_spec; eauto|]; intros y; rewrite Mu; tauto|].
  split; [eapply TR; [apply is_subset_spec; eauto|]; intros y; rewrite Mi; tauto|].
  split; [eapply TR; [apply is_subset_spec; eauto|]; intros y; rewrite Mi; tauto|].
  split.
  - eapply TR; [apply set_eq_spec; eauto|]. intros y. rewrite Mx, Me, Mu, Mi. tauto.
  - rewrite (set_len_law _ _ Lu), (set_len_law _ _ Li).
    destruct (union_yields eqT s1 s2 LE L1 L2) as [lu [Yu [Du Hu]]]. destruct (intersection_yields eqT s1 s2 LE L1 L2) as [li [Yi [Di Hi]]].
    rewrite <- (union_intersection_card eqT s1 s2 LE L1 L2 lu li Yu Yi). 
    assert (CARD : forall a b, distinct eqT a -> distinct eqT b -> (forall z, member eqT z a <-> member eqT z b) -> length a = length b).
    { intros a b Da Db H. apply Nat.le_antisymm; apply (distinct_incl_length eqT LE); auto; intros z Hz; apply H, (member_In eqT LE); auto. }
    f_equal; apply CARD; auto.
    + apply (set_distinct_law _ _ Lu).
    + intros z. rewrite Hu. exact (Mu z).
    + apply (set_distinct_law _ _ Li).
    + intros z. rewrite Hi. exact (Mi z).
Qed.

Lemma subset_antisym {T} (eqT : T -> T -> bool) s1 s2 : lawful_eq eqT -> lawful_set eqT s1 -> lawful_set eqT s2 ->
  (is_subset s1 s2 = Ok true /\ is_subset s2 s1 = Ok true <-> set_eq s1 s2 = Ok true) /\ is_superset s1 s2 = is_subset s2 s1.
Proof.
  intros LE L1 L2. destruct (is_subset_spec eqT LE s1 s2 L1 L2) as [a [-> Ha]]. destruct (is_subset_spec eqT LE s2 s1 L2 L1) as [b [-> Hb]].
  destruct (set_eq_spec eqT LE s1 s2 L1 L2) as [c [-> Hc]]. destruct (is_superset_spec eqT LE s1 s2 L1 L2) as [d [-> Hd]]. split.
  - split.
    + intros [A B]. inversion A; inversion B; subst. f_equal. apply Hc. intros x. split; [apply Ha|apply Hb]; auto.
    + intros C. inversion C; subst. assert (HX := proj1 Hc eq_refl). split; f_equal; [apply Ha|apply Hb]; intros x Hx; apply HX; auto.
  - f_equal. destruct d, b; auto; [symmetry; apply Hb, Hd; auto|apply Hd, Hb; auto].
Qed.

Lemma exact_all {St A} (it : iter_ops St A) out : exact_iter it out -> forall st, exact_contract it st (out st).
Proof.
  intros [E1 E2 E3 E4 E5 E6] st. split; auto.
  intros st1 st2 st3 _ H1 H2. eapply E2; eauto.
Qed.
