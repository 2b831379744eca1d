(** Building collections from iterators. *)
From Verif Require Import ModelUtils ModelAnalyzers ModelTables ModelMaps ModelSerde ModelCollect Spec SpecMade SpecCollect ProofsMade ProofsSerde.
From Verif Require Import Prelude.

Section Source.
Context {A S : Type}.
Variable src : source A S.
Notation len v := (N.of_nat (List.length v)).

Lemma reaches_app s l1 s1 l2 s2 : reaches src s l1 s1 -> reaches src s1 l2 s2 -> reaches src s (l1 ++ l2) s2.
Proof. intros H1 H2. induction H1 as [|s x s1 l s' E H IH]; [exact H2|]. cbn. econstructor; eauto. Qed.
Lemma reaches_inv s x l s' : reaches src s (x :: l) s' -> exists s1, src_next src s = Yield x s1 /\ reaches src s1 l s'.
Proof. intros H. inversion H; subst. eauto. Qed.

(** What an iterator does is determined. *)
Lemma reaches_fork s l s1 : reaches src s l s1 -> forall l' s2, reaches src s l' s2 ->
  (exists r, l' = l ++ r /\ reaches src s1 r s2) \/ (exists r, l = l' ++ r /\ reaches src s2 r s1).
Proof.
  intros H. induction H as [s|s x s1 l s' E H IH]; intros l' s2 H2.
  - left. exists l'. auto.
  - inversion H2 as [|? y s3 l2 ? E2 H3]; subst; [right; exists (x :: l); split; [reflexivity|econstructor; eauto]|].
    rewrite E in E2. injection E2 as <- <-. destruct (IH _ _ H3) as [[r [-> R]]|[r [-> R]]]; [left|right]; exists r; auto.
Qed.
Lemma breaks_not_yields s l : breaks src s l -> forall l', ~ yields src s l'.
Proof.
  intros [s1 [R P]] l' [s2 [s3 [R' D]]]. destruct (reaches_fork _ _ _ R _ _ R') as [[r [_ H]]|[r [_ H]]];
    inversion H as [|? ? ? ? ? E]; subst; try congruence; rewrite E in *; congruence.
Qed.
Lemma yields_det s l l' : yields src s l -> yields src s l' -> l = l'.
Proof.
  intros [s1 [s1' [R D]]] [s2 [s2' [R' D']]]. destruct (reaches_fork _ _ _ R _ _ R') as [[r [-> H]]|[r [-> H]]];
    inversion H as [|? ? ? ? ? E]; subst; rewrite ?app_nil_r; try reflexivity; congruence.
Qed.
Lemma yields_cons s x s1 l : src_next src s = Yield x s1 -> yields src s1 l -> yields src s (x :: l).
Proof. intros E [s2 [s3 [R D]]]. exists s2, s3. split; [econstructor; eauto|exact D]. Qed.
Lemma yields_done s s1 : src_next src s = Done s1 -> yields src s [].
Proof. intros E. exists s, s1. split; [constructor|exact E]. Qed.
Lemma honest_step s x s1 : src_next src s = Yield x s1 -> honest src s -> honest src s1.
Proof. intros E H l1 s' l2 R Y. apply (H (x :: l1) s' l2); [econstructor; eauto|exact Y]. Qed.

Definition room (size cap n : N) : Prop := n <= capacity size cap /\ capacity size cap <= usize_max.

Lemma min_cap_pos size : 1 <= min_cap size /\ min_cap size <= 8.
Proof. unfold min_cap. destruct (size =? 1); [lia|]. destruct (size <=? 1024); lia. Qed.
Lemma fits_cap size cap : size <> 0 -> size * cap <= isize_max -> cap <= usize_max.
Proof. intros H0 H. assert (cap <= size * cap) by nia. unfold isize_max, usize_max in *. lia. Qed.
Lemma with_capacity_ok size n : with_capacity size n = Ok tt -> size * n <= isize_max.
Proof. unfold with_capacity. destruct (N.leb_spec (size * n) isize_max); [auto|discriminate]. Qed.
Lemma with_capacity_cases size n : with_capacity size n = Ok tt \/ with_capacity size n = Panic.
Proof. unfold with_capacity. destruct (size * n <=? isize_max); auto. Qed.
Lemma saturating_succ_pos n : 1 <= saturating_succ n.
Proof. unfold saturating_succ, usize_max. lia. Qed.

Lemma reserve_room size cap n add cap' : 1 <= add -> reserve size cap n add = Ok cap' -> room size cap' (n + 1).
Proof.
  intros HA. unfold reserve, room, capacity. destruct (N.ltb_spec usize_max (n + add)) as [|HU]; [discriminate|].
  destruct (N.eqb_spec size 0) as [->|H0]; [intros _; lia|]. cbv zeta.
  set (c := N.max (min_cap size) _). destruct (with_capacity size c) as [[]| |] eqn:EW; cbn [bind]; try discriminate. intros [= <-].
  apply with_capacity_ok in EW. apply (fits_cap _ _ H0) in EW. split; [|exact EW]. subst c. lia.
Qed.
Lemma reserve_not_ub size cap n add : reserve size cap n add <> UB.
Proof.
  unfold reserve. destruct (usize_max <? n + add); [discriminate|]. destruct (size =? 0); [discriminate|]. cbv zeta.
  destruct (with_capacity_cases size (N.max (min_cap size) (N.max (2 * cap) (n + add)))) as [->| ->]; discriminate.
Qed.

Lemma room_push size cap v (x : A) : room size cap (len v) -> len v <> capacity size cap -> room size cap (len (v ++ [x])).
Proof. unfold room. rewrite app_length. cbn. lia. Qed.
Lemma push_len (v : list A) x : len (v ++ [x]) = len v + 1.
Proof. rewrite app_length. cbn. lia. Qed.

(** What one turn of the loop may do. *)
Lemma extend_step size cap s v : room size cap (len v) ->
  (src_next src s = Panics /\ forall fuel, extend (Datatypes.S fuel) size cap src s v = Some Panic) \/
  (exists s', src_next src s = Done s' /\ forall fuel, extend (Datatypes.S fuel) size cap src s v = Some (Ok v)) \/
  (exists x s', src_next src s = Yield x s' /\ forall fuel, extend (Datatypes.S fuel) size cap src s v = Some Panic) \/
  (exists x s' cap', src_next src s = Yield x s' /\ room size cap' (len (v ++ [x])) /\
     forall fuel, extend (Datatypes.S fuel) size cap src s v = extend fuel size cap' src s' (v ++ [x])).
Proof.
  intros HR. cbn [extend]. destruct (src_next src s) as [x s'|s'|] eqn:E; [|right; left; eauto|left; auto].
  destruct (N.eqb_spec (len v) (capacity size cap)) as [EC|NC]; [|right; right; right; exists x, s', cap; split; [auto|split; [apply room_push; auto|auto]]].
  destruct (src_hint src s') as [lower|]; [|right; right; left; eauto].
  destruct (reserve size cap (len v) (saturating_succ lower)) as [cap'| |] eqn:ER; [|right; right; left; eauto|right; right; left; eauto].
  right; right; right. exists x, s', cap'. split; [auto|]. split; [|auto]. rewrite push_len.
  exact (reserve_room _ _ _ _ _ (saturating_succ_pos lower) ER).
Qed.

Lemma extend_ok fuel size : forall cap s v w, room size cap (len v) -> extend fuel size cap src s v = Some (Ok w) ->
  exists l, w = v ++ l /\ yields src s l /\ len w <= usize_max.
Proof.
  induction fuel as [|fuel IH]; intros cap s v w HR H; [discriminate|].
  destruct (extend_step size cap s v HR) as [[_ E]|[[s' [D E]]|[[x [s' [_ E]]]|[x [s' [cap' [D [HR' E]]]]]]]]; rewrite E in H; try discriminate.
  - injection H as <-. exists []. rewrite app_nil_r. split; [reflexivity|]. split; [eapply yields_done; eauto|]. unfold room in HR. lia.
  - destruct (IH _ _ _ _ HR' H) as [l [-> [Y HL]]]. exists (x :: l). split; [rewrite <- app_assoc; reflexivity|].
    split; [eapply yields_cons; eauto|exact HL].
Qed.
Lemma extend_not_ub fuel size : forall cap s v, extend fuel size cap src s v <> Some UB.
Proof.
  induction fuel as [|fuel IH]; intros cap s v; cbn [extend]; [discriminate|]. destruct (src_next src s) as [x s'|s'|]; try discriminate.
  destruct (len v =? capacity size cap); [|apply IH]. destruct (src_hint src s') as [lower|]; [|discriminate].
  destruct (reserve size cap (len v) (saturating_succ lower)); [apply IH|discriminate|discriminate].
Qed.
Lemma extend_more more size : forall fuel cap s v x, extend fuel size cap src s v = Some x -> extend (fuel + more) size cap src s v = Some x.
Proof.
  induction fuel as [|fuel IH]; intros cap s v x; [discriminate|]. cbn [extend Nat.add]. destruct (src_next src s) as [y s'|s'|]; auto.
  destruct (len v =? capacity size cap); [|apply IH]. destruct (src_hint src s') as [lower|]; [|auto].
  destruct (reserve size cap (len v) (saturating_succ lower)); auto.
Qed.
Lemma extend_ends size (n : nat) : forall cap s v, room size cap (len v) -> usize_max < len v + N.of_nat n ->
  exists fuel, extend fuel size cap src s v <> None.
Proof.
  induction n as [|n IH]; intros cap s v HR HN; [unfold room in HR; lia|].
  destruct (extend_step size cap s v HR) as [[_ E]|[[s' [D E]]|[[x [s' [_ E]]]|[x [s' [cap' [D [HR' E]]]]]]]];
    try (exists 1%nat; rewrite E; discriminate).
  destruct (IH cap' s' (v ++ [x]) HR') as [fuel HF]; [rewrite push_len; lia|]. exists (Datatypes.S fuel). rewrite E. exact HF.
Qed.

Lemma extend_honest size l : forall cap s v, room size cap (len v) -> (size <> 0 -> cap <= N.max 8 (2 * (len v + len l))) -> yields src s l -> honest src s ->
  size * N.max 8 (2 * (len v + len l)) <= isize_max -> len v + len l <= usize_max ->
  extend (Datatypes.S (List.length l)) size cap src s v = Some (Ok (v ++ l)).
Proof.
  induction l as [|x l IH]; intros cap s v HR HC Y HH HS HU.
  - destruct Y as [s1 [s2 [R D]]]. inversion R; subst. cbn [extend]. rewrite D, app_nil_r. reflexivity.
  - destruct Y as [s1 [s2 [R D]]]. apply reaches_inv in R. destruct R as [s' [E R]].
    assert (Y' : yields src s' l) by (exists s1, s2; auto).
    assert (HH' := honest_step _ _ _ E HH).
    assert (EL : len v + len (x :: l) = len (v ++ [x]) + len l) by (rewrite push_len; cbn [List.length]; lia).
    rewrite EL in *. replace (v ++ x :: l) with ((v ++ [x]) ++ l) by (rewrite <- app_assoc; reflexivity).
    cbn [List.length]. set (f := Datatypes.S (List.length l)) in *. cbn [extend]. rewrite E.
    destruct (N.eqb_spec (len v) (capacity size cap)) as [EC|NC]; [|apply IH; auto; apply room_push; auto].
    destruct (HH' [] s' l (reaches_here _ _) Y') as [lower [EH HL]]. rewrite EH.
    assert (HA : saturating_succ lower = lower + 1) by (unfold saturating_succ; rewrite push_len in HU; lia).
    rewrite push_len in HS, HU, HC. assert (HX : exists cap', reserve size cap (len v) (saturating_succ lower) = Ok cap' /\
      (size <> 0 -> cap' <= N.max 8 (2 * (len v + 1 + len l)))).
    { rewrite HA. unfold reserve. destruct (N.ltb_spec usize_max (len v + (lower + 1))) as [|_]; [lia|].
      destruct (N.eqb_spec size 0) as [->|H0]; [eexists; split; [reflexivity|congruence]|]. cbv zeta.
      set (c := N.max (min_cap size) _).
      assert (HB : c <= N.max 8 (2 * (len v + 1 + len l))).
      { unfold capacity in EC. apply N.eqb_neq in H0. rewrite H0 in EC. pose proof (min_cap_pos size). subst c. lia. }
      unfold with_capacity. destruct (N.leb_spec (size * c) isize_max) as [_|HG]; [eexists; split; [reflexivity|auto]|].
      exfalso. pose proof (N.mul_le_mono_l _ _ size HB). lia. }
    destruct HX as [cap' [ER HC']]. rewrite ER. apply IH; auto; rewrite ?push_len; auto.
    rewrite <- push_len with (x := x). rewrite push_len. exact (reserve_room _ _ _ _ _ (saturating_succ_pos lower) ER).
Qed.

Lemma first_room size lower : with_capacity size (N.max (min_cap size) (saturating_succ lower)) = Ok tt ->
  room size (N.max (min_cap size) (saturating_succ lower)) 1.
Proof.
  intros H. apply with_capacity_ok in H. unfold room, capacity. pose proof (min_cap_pos size) as HMC. destruct (N.eqb_spec size 0) as [->|H0].
  - unfold usize_max. lia.
  - split; [lia|]. exact (fits_cap _ _ H0 H).
Qed.

Section Make.
Context {M : Type}.
Variable make : list A -> res M.
Variable good : M -> list A -> Prop.

Lemma from_iter_collects size s :
  (forall l, yields src s l -> N.of_nat (List.length l) <= usize_max -> exists m, make l = Ok m /\ good m l) ->
  collects src size s (fun fuel => from_iter make fuel size src s) good.
Proof.
  intros HM.
  assert (V : forall fuel v, vec_from_iter fuel size src s = Some (Ok v) -> yields src s v /\ len v <= usize_max).
  { intros fuel v. unfold vec_from_iter. destruct (src_next src s) as [x s'|s'|] eqn:E; [|intros [= <-]; split; [eapply yields_done; eauto|cbn; unfold usize_max; lia]|discriminate].
    destruct (src_hint src s') as [lower|]; [|discriminate]. cbv zeta. set (cap := N.max _ _).
    destruct (with_capacity size cap) as [[]| |] eqn:EW; try discriminate. intros H.
    destruct (extend_ok fuel size cap s' [x] v (first_room _ _ EW) H) as [l [-> [Y HL]]]. split; [|exact HL]. cbn. eapply yields_cons; eauto. }
  assert (U : forall fuel, vec_from_iter fuel size src s <> Some UB).
  { intros fuel. unfold vec_from_iter. destruct (src_next src s) as [x s'|s'|] eqn:E; try discriminate.
    destruct (src_hint src s') as [lower|]; [|discriminate]. cbv zeta. set (cap := N.max _ _).
    destruct (with_capacity size cap) as [[]| |]; try discriminate. apply extend_not_ub. }
  assert (F : forall fuel more x, vec_from_iter fuel size src s = Some x -> vec_from_iter (fuel + more) size src s = Some x).
  { intros fuel more x. unfold vec_from_iter. destruct (src_next src s) as [y s'|s'|]; auto.
    destruct (src_hint src s') as [lower|]; auto. cbv zeta. destruct (with_capacity _ _); auto. apply extend_more. }
  assert (T : exists fuel, vec_from_iter fuel size src s <> None).
  { unfold vec_from_iter. destruct (src_next src s) as [y s'|s'|]; try (exists O; discriminate).
    destruct (src_hint src s') as [lower|]; [|exists O; discriminate]. cbv zeta. set (cap := N.max _ _).
    destruct (with_capacity size cap) as [[]| |] eqn:EW; try (exists O; discriminate).
    apply (extend_ends size (N.to_nat (usize_max + 1)) cap s' [y] (first_room _ _ EW)). cbn [List.length]. lia. }
  assert (E : forall fuel x, from_iter make fuel size src s = Some x ->
    vec_from_iter fuel size src s = Some Panic /\ x = Panic \/
    exists v m, vec_from_iter fuel size src s = Some (Ok v) /\ make v = Ok m /\ x = Ok m /\ yields src s v /\ good m v).
  { intros fuel x. unfold from_iter. destruct (vec_from_iter fuel size src s) as [[v| |]|] eqn:EV; try discriminate.
    - intros [= <-]. right. destruct (V _ _ EV) as [Y HL]. destruct (HM v Y HL) as [m [Em G]]. exists v, m. cbn [bind]. auto.
    - intros [= <-]. left. auto.
    - elim (U _ EV). }
  assert (P : (forall l, ~ yields src s l) -> exists fuel, from_iter make fuel size src s = Some Panic).
  { intros HN. destruct T as [fuel HT]. exists fuel. unfold from_iter. destruct (vec_from_iter fuel size src s) as [[v| |]|] eqn:EV; try reflexivity.
    - elim (HN v). apply (V _ _ EV).
    - elim (U _ EV).
    - congruence. }
  split; [|split; [|split; [|split; [|split; [|split]]]]].
  - intros fuel m H. destruct (E _ _ H) as [[_ X]|[v [m' [_ [_ [X [Y G]]]]]]]; [discriminate|]. injection X as ->. eauto.
  - intros l Y HH HS HU. destruct (HM l Y HU) as [m [Em G]].
    enough (X : exists fuel, vec_from_iter fuel size src s = Some (Ok l)).
    { destruct X as [fuel X]. exists fuel, m. unfold from_iter. rewrite X. cbn [bind]. rewrite Em. auto. }
    unfold vec_from_iter. destruct Y as [s1 [s2 [R D]]]. destruct l as [|x l].
    + inversion R; subst. rewrite D. exists O. reflexivity.
    + apply reaches_inv in R. destruct R as [s' [E1 R]]. rewrite E1. assert (Y' : yields src s' l) by (exists s1, s2; auto).
      assert (HH' := honest_step _ _ _ E1 HH). destruct (HH' [] s' l (reaches_here _ _) Y') as [lower [EH HL]]. rewrite EH. cbv zeta.
      cbn [List.length] in HS, HU. set (cap := N.max (min_cap size) (saturating_succ lower)).
      assert (HB : cap <= N.max 8 (2 * (1 + len l))).
      { pose proof (min_cap_pos size). subst cap. unfold saturating_succ. lia. }
      replace (N.of_nat (Datatypes.S (List.length l))) with (1 + len l) in HS, HU by lia.
      assert (EW : with_capacity size cap = Ok tt).
      { unfold with_capacity. destruct (N.leb_spec (size * cap) isize_max) as [_|HG]; [reflexivity|].
        exfalso. pose proof (N.mul_le_mono_l _ _ size HB). lia. }
      rewrite EW. exists (Datatypes.S (List.length l)). apply (extend_honest size l cap s' [x]); auto. exact (first_room _ _ EW).
  - intros l HB. apply P. exact (breaks_not_yields _ _ HB).
  - exact P.
  - destruct T as [fuel HT]. exists fuel. unfold from_iter. destruct (vec_from_iter fuel size src s); [discriminate|congruence].
  - intros fuel H. destruct (E _ _ H) as [[_ X]|[v [m' [_ [_ [X _]]]]]]; discriminate.
  - intros fuel more x. unfold from_iter. destruct (vec_from_iter fuel size src s) as [y|] eqn:EV; [|discriminate]. rewrite (F _ more _ EV). auto.
Qed.
End Make.
End Source.

(** * [map] *)
Section Mapped.
Context {A B S : Type}.
Variable f : A -> B.
Variable src : source A S.

Lemma mapped_reaches s l s' : reaches src s l s' -> reaches (mapped f src) s (map f l) s'.
Proof. intros H. induction H as [|s x s1 l s' E H IH]; cbn; [constructor|]. econstructor; [cbn; rewrite E; reflexivity|exact IH]. Qed.
Lemma mapped_reached s l s' : reaches (mapped f src) s l s' -> exists k, l = map f k /\ reaches src s k s'.
Proof.
  intros H. induction H as [s|s y s1 l s' E H [k [-> IH]]]; [exists []; split; [reflexivity|constructor]|].
  cbn in E. destruct (src_next src s) as [x s2|s2|] eqn:EN; try discriminate. injection E as <- <-. exists (x :: k).
  split; [reflexivity|econstructor; eauto].
Qed.
Lemma mapped_yields s l : yields src s l -> yields (mapped f src) s (map f l).
Proof. intros [s1 [s2 [R D]]]. exists s1, s2. split; [apply mapped_reaches; auto|]. cbn. rewrite D. reflexivity. Qed.
Lemma mapped_yielded s l : yields (mapped f src) s l -> exists k, l = map f k /\ yields src s k.
Proof.
  intros [s1 [s2 [R D]]]. destruct (mapped_reached _ _ _ R) as [k [-> R']]. exists k. split; [reflexivity|]. cbn in D.
  destruct (src_next src s1) as [x s3|s3|] eqn:EN; try discriminate. exists s1, s3. auto.
Qed.
Lemma mapped_collects {M} size s (r : nat -> option (res M)) good :
  collects (mapped f src) size s r good -> collects src size s r (fun m l => good m (map f l)).
Proof.
  intros [C1 [C2 [C3 [C4 C5]]]]. split; [|split; [|split; [|split; [|exact C5]]]].
  - intros fuel m H. destruct (C1 _ _ H) as [l [Y G]]. destruct (mapped_yielded _ _ Y) as [k [-> Y']]. eauto.
  - intros l Y HH HS HU. apply C2; [apply mapped_yields; auto| |rewrite map_length; auto|rewrite map_length; auto].
    intros l1 s' l2 R Y2. destruct (mapped_reached _ _ _ R) as [k1 [-> R']]. destruct (mapped_yielded _ _ Y2) as [k2 [-> Y2']].
    rewrite map_length. exact (HH _ _ _ R' Y2').
  - intros l [s' [R P]]. apply (C3 (map f l)). exists s'. split; [apply mapped_reaches; auto|]. cbn. rewrite P. reflexivity.
  - intros HN. apply C4. intros l Y. destruct (mapped_yielded _ _ Y) as [k [_ Y']]. exact (HN k Y').
Qed.
End Mapped.

(** * The collections *)
Section Types.
Context {K V Q S : Type}.
Lemma hash_from_iter usort eqK eqv hK hQ size (src : source (K * V) S) s :
  sorts_by_slot usort -> lawful_eq eqK -> lawful_equivalent eqK eqv -> lawful_hash eqK hK -> lawful_query_hash (Q := Q) eqv hQ hK ->
  collects src size s (fun fuel => fz_hash_map_from_iter usort eqK hK fuel size src s) (made (hash_ops (fun q => Ok (hQ q)) eqv) eqK eqv).
Proof. intros US LE LV LH LQ. apply from_iter_collects. intros l _ HN. apply build_hash; auto. Qed.
Lemma ordered_from_iter cmp cmpQ size (src : source (K * V) S) s : lawful_ord cmp -> lawful_comparable (Q := Q) cmp cmpQ ->
  collects src size s (fun fuel => fz_ordered_map_from_iter cmp fuel size src s) (made (eytzinger_ops cmpQ) (cmp_eq cmp) (cmp_eq cmpQ)).
Proof. intros LO LC. apply from_iter_collects. intros l _ HN. apply build_ordered; auto. Qed.
Lemma scalar_from_iter usort md idx cmp idxQ eqv size (src : source (K * V) S) s :
  sorts_by_slot usort -> lawful_scalar idx cmp -> lawful_query_scalar (Q := Q) idx idxQ eqv ->
  (forall l, yields src s l -> span_representable idx (map fst l)) ->
  collects src size s (fun fuel => fz_scalar_map_from_iter usort md idx cmp fuel size src s) (made (fz_scalar_ops idxQ eqv) (idx_eq idx) eqv).
Proof. intros US LS LQ SR. apply from_iter_collects. intros l Y HN. eapply build_scalar; eauto. Qed.
End Types.
Lemma string_from_iter {V S} usort bh size (src : source (bytes * V) S) s : sorts_by_slot usort ->
  (forall l, yields src s l -> forall e, In e l -> N.of_nat (List.length (fst e)) <= usize_max) ->
  collects src size s (fun fuel => fz_string_map_from_iter usort bh fuel size src s) (made fz_string_ops bytes_eqb bytes_eqb).
Proof. intros US HL. apply from_iter_collects. intros l Y HN. eapply build_string; eauto. Qed.

Lemma units_fst {T} (l : list T) : map fst (map with_unit l) = l.
Proof. rewrite map_map. apply map_id. Qed.
Section SetTypes.
Context {T Q S : Type}.
Lemma hash_set_from_iter usort eqT eqv hT hQ size (src : source T S) s :
  sorts_by_slot usort -> lawful_eq eqT -> lawful_equivalent eqT eqv -> lawful_hash eqT hT -> lawful_query_hash (Q := Q) eqv hQ hT ->
  collects src size s (fun fuel => fz_hash_set_from_iter usort eqT hT fuel size src s)
    (fun m l => made (hash_ops (fun q => Ok (hQ q)) eqv) eqT eqv m (unit_entries l)).
Proof. intros US LE LV LH LQ. apply (mapped_collects with_unit). apply hash_from_iter; auto. Qed.
Lemma ordered_set_from_iter cmp cmpQ size (src : source T S) s : lawful_ord cmp -> lawful_comparable (Q := Q) cmp cmpQ ->
  collects src size s (fun fuel => fz_ordered_set_from_iter cmp fuel size src s)
    (fun m l => made (eytzinger_ops cmpQ) (cmp_eq cmp) (cmp_eq cmpQ) m (unit_entries l)).
Proof. intros LO LC. apply (mapped_collects with_unit). apply ordered_from_iter; auto. Qed.
Lemma scalar_set_from_iter usort md idx cmp idxQ eqv size (src : source T S) s :
  sorts_by_slot usort -> lawful_scalar idx cmp -> lawful_query_scalar (Q := Q) idx idxQ eqv ->
  (forall l, yields src s l -> span_representable idx l) ->
  collects src size s (fun fuel => fz_scalar_set_from_iter usort md idx cmp fuel size src s)
    (fun m l => made (fz_scalar_ops idxQ eqv) (idx_eq idx) eqv m (unit_entries l)).
Proof.
  intros US LS LQ SR. apply (mapped_collects with_unit). apply scalar_from_iter; auto. intros l Y.
  destruct (mapped_yielded _ _ _ _ Y) as [k [-> Y']]. rewrite units_fst. auto.
Qed.
Lemma string_set_from_iter usort bh size (src : source bytes S) s : sorts_by_slot usort ->
  (forall l, yields src s l -> forall x, In x l -> N.of_nat (List.length x) <= usize_max) ->
  collects src size s (fun fuel => fz_string_set_from_iter usort bh fuel size src s)
    (fun m l => made fz_string_ops bytes_eqb bytes_eqb m (unit_entries l)).
Proof.
  intros US HL. apply (mapped_collects with_unit). apply string_from_iter; auto. intros l Y.
  destruct (mapped_yielded _ _ _ _ Y) as [k [-> Y']]. intros e He. apply in_map_iff in He. destruct He as [x [<- Hx]]. exact (HL k Y' x Hx).
Qed.

(** Arrays. *)
Lemma from_known_ok {M} (make : list (T * unit) -> res M) size (a : list T) : size * N.of_nat (List.length a) <= isize_max ->
  from_known make size with_unit a = make (unit_entries a).
Proof. intros HS. unfold from_known, with_capacity. apply N.leb_le in HS. rewrite HS. reflexivity. Qed.
End SetTypes.
