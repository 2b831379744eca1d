(** Eytzinger layout and search (utils/eytzinger.rs). *)
From Verif Require Import Prelude Spec ModelUtils ProofsBase ProofsAnalyzer.
From Coq Require Import Permutation ZArith.
From Coq Require Import ZifyNat ZifyN ZifyBool.

(** * The rank of a node of the implicit tree *)
Definition yc (L j : N) : N := 2 ^ (L - N.log2 j) * (2 * (j - 2 ^ N.log2 j) + 1).
Definition fr (m y : N) : N := y - (y / 2 - m).
Definition sigma (n i : N) : N :=
  let L := N.log2 (n + 1) in fr (n + 1 - 2 ^ L) (yc L (i + 1)) - 1.

Lemma log2_spec' j : 0 < j -> 2 ^ N.log2 j <= j < 2 * 2 ^ N.log2 j.
Proof. intros H. pose proof (N.log2_spec j H) as [H1 H2]. rewrite N.pow_succ_r in H2 by lia. lia. Qed.

Lemma pow_split a b : b <= a -> 2 ^ a = 2 ^ (a - b) * 2 ^ b.
Proof. intros H. rewrite <- N.pow_add_r. f_equal. lia. Qed.

Lemma pow_pos a : 0 < 2 ^ a.
Proof. pose proof (pow2_nz a). lia. Qed.

Lemma half_bounds y : 2 * (y / 2) <= y < 2 * (y / 2) + 2.
Proof. pose proof (N.div_mod y 2). pose proof (N.mod_lt y 2). lia. Qed.

Lemma even_odd_pow a x : 0 < a -> (2 ^ a * x) mod 2 = 0.
Proof.
  intros H. replace a with (N.succ (a - 1)) by lia. rewrite N.pow_succ_r by lia.
  rewrite <- N.mul_assoc, N.mul_comm. apply N.mod_mul. lia.
Qed.

(** Facts about a present node: [1 <= j <= n]. *)
Section Node.
Variables (n L m : N).
Hypothesis HL : L = N.log2 (n + 1).
Hypothesis Hm : m = n + 1 - 2 ^ L.

Lemma L_bounds : 2 ^ L <= n + 1 < 2 * 2 ^ L.
Proof using n HL. clear dependent m. rewrite HL. apply log2_spec'. lia. Qed.

Lemma depth_le j : 0 < j -> j <= n -> N.log2 j <= L.
Proof using n HL. clear dependent m. intros H1 H2. rewrite HL. apply N.log2_le_mono. lia. Qed.

(** a node is even (interior level) or odd, on the last level, with [y/2 < m] *)
Lemma yc_shape j : 0 < j -> j <= n ->
  0 < yc L j /\ yc L j < 2 * 2 ^ L /\ (yc L j mod 2 = 0 \/ (yc L j mod 2 = 1 /\ yc L j / 2 < m)).
Proof using n HL Hm.
  intros H1 H2. pose proof (depth_le j H1 H2) as Hd. pose proof L_bounds as HLb.
  unfold yc. set (d := N.log2 j) in *. pose proof (log2_spec' j H1) as Hj. fold d in Hj.
  pose proof (pow_pos (L - d)) as Hp. pose proof (pow_split L d Hd) as Hs.
  split; [nia|]. split; [nia|].
  destruct (N.eq_dec d L) as [->|Hne].
  - right. rewrite N.sub_diag, N.pow_0_r, N.mul_1_l.
    pose proof (half_bounds (2 * (j - 2 ^ L) + 1)).
    pose proof (N.div_mod (2 * (j - 2 ^ L) + 1) 2). lia.
  - left. apply even_odd_pow. lia.
Qed.

Lemma fr_range j : 0 < j -> j <= n -> 0 < fr m (yc L j) /\ fr m (yc L j) <= n.
Proof using n HL Hm.
  intros H1 H2. destruct (yc_shape j H1 H2) as [A [B C]]. unfold fr.
  pose proof L_bounds. pose proof (half_bounds (yc L j)). pose proof (N.div_mod (yc L j) 2).
  generalize dependent (yc L j). intros y. lia.
Qed.

Lemma fr_mono y y' : y <= y' -> fr m y <= fr m y'.
Proof using Type. clear HL Hm. intros H. unfold fr. pose proof (half_bounds y). pose proof (half_bounds y'). lia. Qed.

Lemma fr_strict j j' : 0 < j -> j <= n -> 0 < j' -> j' <= n -> yc L j < yc L j' -> fr m (yc L j) < fr m (yc L j').
Proof using n HL Hm.
  intros H1 H2 H3 H4 H. destruct (yc_shape j H1 H2) as [A [B C]]. destruct (yc_shape j' H3 H4) as [A' [B' C']].
  unfold fr. pose proof (half_bounds (yc L j)). pose proof (half_bounds (yc L j')).
  pose proof (N.div_mod (yc L j) 2). pose proof (N.div_mod (yc L j') 2).
  generalize dependent (yc L j). generalize dependent (yc L j'). intros. lia.
Qed.

Lemma odd_part a b x y : 2 ^ a * (2 * x + 1) = 2 ^ b * (2 * y + 1) -> a = b /\ x = y.
Proof using Type. clear HL Hm.
  assert (G : forall a b x y, a <= b -> 2 ^ a * (2 * x + 1) = 2 ^ b * (2 * y + 1) -> a = b /\ x = y).
  { clear. intros a b x y Hab H. rewrite (pow_split b a Hab) in H.
    assert (E : 2 * x + 1 = 2 ^ (b - a) * (2 * y + 1)).
    { apply (N.mul_cancel_l _ _ (2 ^ a)); [apply pow2_nz|]. rewrite H. lia. }
    destruct (N.eq_dec (b - a) 0) as [Hz|Hz].
    - rewrite Hz in E. change (2 ^ 0) with 1 in E. lia.
    - exfalso. pose proof (even_odd_pow (b - a) (2 * y + 1)). rewrite <- E in H0.
      rewrite N.add_comm, N.mul_comm, N.mod_add in H0 by lia. cbn in H0. lia. }
  intros H. destruct (N.le_gt_cases a b) as [Hab|Hab].
  - apply G; auto.
  - symmetry in H. apply G in H; [|lia]. destruct H; split; auto.
Qed.

Lemma yc_inj j j' : 0 < j -> j <= n -> 0 < j' -> j' <= n -> yc L j = yc L j' -> j = j'.
Proof using n HL. clear dependent m.
  intros H1 H2 H3 H4 H. pose proof (depth_le j H1 H2). pose proof (depth_le j' H3 H4).
  unfold yc in H. apply odd_part in H. destruct H as [E1 E2].
  assert (E : N.log2 j = N.log2 j') by lia. pose proof (log2_spec' j H1). pose proof (log2_spec' j' H3). rewrite E in *. lia.
Qed.
End Node.

Lemma sigma_range n i : i < n -> sigma n i < n.
Proof.
  intros H. unfold sigma. destruct (fr_range n _ _ eq_refl eq_refl (i + 1)); lia.
Qed.

Lemma sigma_inj n i i' : i < n -> i' < n -> sigma n i = sigma n i' -> i = i'.
Proof.
  intros H H' E. unfold sigma in E.
  pose proof (fr_range n _ _ eq_refl eq_refl (i + 1)). pose proof (fr_range n _ _ eq_refl eq_refl (i' + 1)).
  pose proof (fr_strict n _ _ eq_refl eq_refl (i + 1) (i' + 1)).
  pose proof (fr_strict n _ _ eq_refl eq_refl (i' + 1) (i + 1)).
  pose proof (yc_inj n _ eq_refl (i + 1) (i' + 1)). lia.
Qed.

(** the code computes [sigma] *)
Lemma trailing_zeros_pow2 k : trailing_zeros (2 ^ k) = k.
Proof.
  induction k using N.peano_ind; [reflexivity|].
  rewrite N.pow_succ_r by lia. pose proof (pow2_nz k). unfold trailing_zeros in *. destruct (2 ^ k) as [|p] eqn:E; [lia|].
  cbn [N.mul Pos.mul trailing_zeros_pos]. rewrite IHk. reflexivity.
Qed.

Lemma log2_up_succ j : 0 < j -> N.log2_up (j + 1) = N.log2 j + 1.
Proof. intros H. rewrite N.add_1_r, N.log2_up_eqn by lia. rewrite N.pred_succ. lia. Qed.

Lemma get_eytzinger_index_sigma n i : i < n -> get_eytzinger_index i n = Ok (sigma n i).
Proof.
  intros H. unfold get_eytzinger_index, next_power_of_two.
  replace (i + 2) with (i + 1 + 1) by lia. replace (n + 2) with (n + 1 + 1) by lia.
  rewrite !log2_up_succ by lia. rewrite trailing_zeros_pow2.
  set (d := N.log2 (i + 1)). set (L := N.log2 (n + 1)).
  unfold sub_no_underflow at 1. destruct (N.leb_spec 1 (d + 1)); [|lia]. cbn [bind].
  replace (d + 1 - 1) with d by lia. rewrite N.shiftl_1_l.
  unfold sub_no_underflow at 1. pose proof (log2_spec' (i + 1)) as Hj. fold d in Hj.
  destruct (N.leb_spec (2 ^ d) (i + 1)); [|lia]. cbn [bind].
  assert (HP : 2 ^ (L + 1) / 2 = 2 ^ L).
  { rewrite N.pow_add_r, N.pow_1_r. apply N.div_mul. lia. }
  rewrite HP. assert (Hd : d <= L) by (apply N.log2_le_mono; lia).
  rewrite !N.shiftr_div_pow2. rewrite N.pow_1_r. rewrite (pow_split L d Hd) at 1 2.
  rewrite !N.div_mul by apply pow2_nz.
  unfold sigma. fold L.
  replace (2 ^ (L - d) * ((i + 1 - 2 ^ d) * 2 + 1)) with (yc L (i + 1)) by (unfold yc; fold d; lia).
  pose proof (fr_range n L _ eq_refl eq_refl (i + 1)) as HR. unfold fr in *.
  pose proof (L_bounds n L eq_refl) as HB.
  replace (yc L (i + 1) / 2 + 2 ^ L - (n + 1)) with (yc L (i + 1) / 2 - (n + 1 - 2 ^ L)) by lia.
  unfold sub_no_underflow. pose proof (half_bounds (yc L (i + 1))).
  destruct (N.leb_spec (yc L (i + 1) / 2 - (n + 1 - 2 ^ L)) (yc L (i + 1))); [|lia]. cbn [bind].
  destruct (N.leb_spec 1 (yc L (i + 1) - (yc L (i + 1) / 2 - (n + 1 - 2 ^ L)))); [reflexivity|lia].
Qed.

Definition sg (n i : nat) : nat := N.to_nat (sigma (N.of_nat n) (N.of_nat i)).

Lemma sg_range n i : (i < n)%nat -> (sg n i < n)%nat.
Proof. intros H. unfold sg. pose proof (sigma_range (N.of_nat n) (N.of_nat i)). lia. Qed.

Lemma sg_inj n i i' : (i < n)%nat -> (i' < n)%nat -> sg n i = sg n i' -> i = i'.
Proof. intros H H' E. unfold sg in E. pose proof (sigma_inj (N.of_nat n) (N.of_nat i) (N.of_nat i')). lia. Qed.

(** * The in-place permutation *)
Section Layout.
Context {T : Type}.
Variable src : list T.
Let n := length src.

(** position of an original index: total order of a finite bijection *)
Definition lay_inv (i : nat) (arr : list T) (map : nat_map) (cur : nat -> nat) : Prop :=
  length arr = n /\
  (forall p, (p < n)%nat -> (cur p < n)%nat) /\
  (forall p p', (p < n)%nat -> (p' < n)%nat -> cur p = cur p' -> p = p') /\
  (forall p, (p < n)%nat -> nth_error arr p = nth_error src (cur p)) /\
  (forall p, (p < i)%nat -> cur p = sg n p) /\
  (forall p, (i <= p)%nat -> (p < n)%nat ->
     (cur p = p /\ map p = None) \/
     ((cur p < i)%nat /\ map p = Some (cur p) /\ map (cur p) = Some p)).

(** an injection of [0,n) into itself is onto *)
Lemma inj_surj (cur : nat -> nat) k :
  (forall p, (p < n)%nat -> (cur p < n)%nat) ->
  (forall p p', (p < n)%nat -> (p' < n)%nat -> cur p = cur p' -> p = p') ->
  (k < n)%nat -> exists p, (p < n)%nat /\ cur p = k.
Proof.
  intros HR HI Hk.
  assert (ND : NoDup (List.map cur (seq 0 n))).
  { apply NoDup_nth_error. intros a b Ha Hab. rewrite map_length, seq_length in Ha.
    rewrite !nth_error_map in Hab.
    assert (Hb : (b < n)%nat).
    { destruct (Nat.lt_ge_cases b n); auto. exfalso.
      assert (E : nth_error (seq 0 n) b = None) by (apply nth_error_None; rewrite seq_length; auto).
      rewrite E in Hab. rewrite (nth_error_nth' _ 0%nat) in Hab by (rewrite seq_length; auto). discriminate. }
    rewrite !(nth_error_nth' (seq 0 n) 0%nat) in Hab by (rewrite seq_length; auto).
    rewrite !seq_nth in Hab by auto. cbn in Hab. inversion Hab. auto. }
  assert (I : incl (seq 0 n) (List.map cur (seq 0 n))).
  { apply NoDup_length_incl; auto.
    - rewrite map_length. lia.
    - intros x Hx. apply in_map_iff in Hx. destruct Hx as [p [<- Hp]]. apply in_seq in Hp. apply in_seq. specialize (HR p). lia. }
  specialize (I k). assert (In k (seq 0 n)) by (apply in_seq; lia). apply I in H. apply in_map_iff in H.
  destruct H as [p [H1 H2]]. exists p. apply in_seq in H2. split; [lia|auto].
Qed.

Lemma swap_ok (arr : list T) i j a b :
  nth_error arr i = Some a -> nth_error arr j = Some b ->
  exists arr', swap arr i j = Ok arr' /\ length arr' = length arr /\
    forall p, nth_error arr' p = if Nat.eqb p j then Some a else if Nat.eqb p i then Some b else nth_error arr p.
Proof.
  intros Ha Hb. unfold swap, index. rewrite Ha, Hb. cbn [bind]. eexists. split; [reflexivity|].
  split; [rewrite !list_set_length; reflexivity|]. intros p. rewrite !nth_error_list_set, !list_set_length.
  assert (i < length arr)%nat by (apply nth_error_Some; congruence).
  assert (j < length arr)%nat by (apply nth_error_Some; congruence).
  rewrite (Nat.eqb_sym j p), (Nat.eqb_sym i p).
  destruct (Nat.eqb_spec p j); [destruct (Nat.ltb_spec j (length arr)); [reflexivity|lia]|].
  destruct (Nat.eqb_spec p i); [destruct (Nat.ltb_spec i (length arr)); [reflexivity|lia]|]. reflexivity.
Qed.

Lemma step_inv i arr map cur : (i < n)%nat -> lay_inv i arr map cur ->
  exists arr' map' cur', eytzinger_step n i (arr, map) = Ok (arr', map') /\ lay_inv (S i) arr' map' cur'.
Proof.
  intros Hi [I0 [I1 [I2 [I3 [I4 I5]]]]].
  destruct (inj_surj cur (sg n i) I1 I2 (sg_range n i Hi)) as [p [Hp Ep]].
  assert (Hpi : (i <= p)%nat).
  { destruct (Nat.lt_ge_cases p i) as [H|H]; auto. exfalso. rewrite (I4 p H) in Ep. apply sg_inj in Ep; lia. }
  (* the model finds p *)
  unfold eytzinger_step. rewrite get_eytzinger_index_sigma by lia. cbn [bind]. fold (sg n i).
  set (map1 := if Nat.ltb (sg n i) i then nm_remove (sg n i) map else map).
  assert (Htm : (if Nat.ltb (sg n i) i then
           match map (sg n i) with Some t' => Ok (t', nm_remove (sg n i) map) | None => Panic end
         else Ok (sg n i, map)) = Ok (p, map1)).
  { unfold map1. destruct (I5 p Hpi Hp) as [[E1 E2]|[E1 [E2 E3]]].
    - destruct (Nat.ltb_spec (sg n i) i); [lia|]. do 2 f_equal. lia.
    - rewrite Ep in *. destruct (Nat.ltb_spec (sg n i) i); [|lia]. rewrite E3. reflexivity. }
  rewrite Htm. cbn [bind].
  assert (Ha : exists a, nth_error arr i = Some a) by (destruct (index_Ok arr i) as [a [? _]]; [lia|eauto]).
  assert (Hb : exists b, nth_error arr p = Some b) by (destruct (index_Ok arr p) as [b [? _]]; [lia|eauto]).
  destruct Ha as [a Ha]. destruct Hb as [b Hb].
  destruct (swap_ok arr i p a b Ha Hb) as [arr' [S1 [S2 S3]]]. rewrite S1. cbn [bind].
  (* the original index of the element that was at i *)
  set (o := cur i).
  set (map2 := match map1 i with Some _ => nm_remove i map1 | None => map1 end).
  assert (Ho : (match map1 i with Some x => (x, nm_remove i map1) | None => (i, map1) end) = (o, map2)).
  { assert (E : map1 i = map i).
    { unfold map1. destruct (Nat.ltb_spec (sg n i) i); auto. unfold nm_remove. destruct (Nat.eqb_spec i (sg n i)); [lia|auto]. }
    unfold map2, o. rewrite E. destruct (I5 i (Nat.le_refl i) Hi) as [[E1 E2]|[E1 [E2 E3]]]; rewrite E2; [rewrite E1|]; reflexivity. }
  assert (Hoi : (o <= i)%nat) by (unfold o; destruct (I5 i (Nat.le_refl i) Hi) as [[E1 E2]|[E1 [E2 E3]]]; lia).
  rewrite Ho.
  set (map3 := if negb (Nat.eqb p o) then nm_insert o p (nm_insert p o map2) else map2).
  set (cur' := fun q => if Nat.eqb q i then sg n i else if Nat.eqb q p then o else cur q).
  exists arr', map3, cur'. split; [reflexivity|].
  split; [congruence|]. split; [|split; [|split; [|split]]].
  - intros q Hq. unfold cur', o. destruct (Nat.eqb_spec q i); [apply sg_range; auto|]. destruct (Nat.eqb_spec q p); auto.
  - assert (G : forall q, (q < n)%nat -> cur' q = cur (if Nat.eqb q i then p else if Nat.eqb q p then i else q)).
    { intros q Hq. unfold cur', o. destruct (Nat.eqb_spec q i); [auto|]. destruct (Nat.eqb_spec q p); auto. }
    intros q q' Hq Hq' E. rewrite !G in E by auto.
    apply I2 in E.
    + destruct (Nat.eqb_spec q i), (Nat.eqb_spec q' i), (Nat.eqb_spec q p), (Nat.eqb_spec q' p); lia.
    + destruct (Nat.eqb_spec q i), (Nat.eqb_spec q p); auto.
    + destruct (Nat.eqb_spec q' i), (Nat.eqb_spec q' p); auto.
  - intros q Hq. rewrite S3. unfold cur'.
    destruct (Nat.eqb_spec q i) as [->|Hqi].
    + destruct (Nat.eqb_spec i p) as [->|Hip].
      * rewrite <- Ep, <- I3 by auto. congruence.
      * rewrite <- Hb, <- Ep, <- I3 by auto. reflexivity.
    + destruct (Nat.eqb_spec q p) as [->|Hqp].
      * unfold o. rewrite <- I3 by auto. congruence.
      * apply I3; auto.
  - intros q Hq. unfold cur'. destruct (Nat.eqb_spec q i) as [->|Hqi]; auto.
    destruct (Nat.eqb_spec q p); [lia|]. apply I4. lia.
  - intros q Hq1 Hq2. unfold cur'. destruct (Nat.eqb_spec q i); [lia|].
    destruct (Nat.eqb_spec q p) as [->|Hqp].
    + right. split; [lia|]. unfold map3. destruct (Nat.eqb_spec p o); [lia|]. cbn [negb]. unfold nm_insert.
      rewrite !Nat.eqb_refl. destruct (Nat.eqb_spec p o); [lia|]. auto.
    + assert (Hne1 : cur q <> sg n i) by (rewrite <- Ep; intros E; apply I2 in E; auto).
      assert (Hne2 : cur q <> o) by (unfold o; intros E; apply I2 in E; auto).
      assert (K : forall k, k <> sg n i -> k <> i -> k <> o -> k <> p -> map3 k = map k).
      { intros k K1 K2 K3 K4.
        assert (M2 : map2 k = map k).
        { assert (M1 : map1 k = map k).
          { unfold map1. destruct (Nat.ltb (sg n i) i); auto. unfold nm_remove. destruct (Nat.eqb_spec k (sg n i)); [congruence|auto]. }
          unfold map2. destruct (map1 i); auto. unfold nm_remove. destruct (Nat.eqb_spec k i); [congruence|auto]. }
        unfold map3. destruct (Nat.eqb p o); cbn [negb]; auto. unfold nm_insert.
        destruct (Nat.eqb_spec k o); [congruence|]. destruct (Nat.eqb_spec k p); [congruence|auto]. }
      destruct (I5 q) as [[E1 E2]|[E1 [E2 E3]]]; [lia|auto| |].
      * left. split; auto. rewrite K; auto; lia.
      * right. split; [lia|].
        assert (q <> sg n i).
        { destruct (I5 p Hpi Hp) as [[F1 F2]|[F1 [F2 F3]]]; [congruence|lia]. }
        rewrite !K; auto; lia.
Qed.

Lemma loop_inv : forall todo i arr map cur, (i + todo = n)%nat -> lay_inv i arr map cur ->
  exists arr' map' cur', eytzinger_loop n todo i (arr, map) = Ok (arr', map') /\ lay_inv n arr' map' cur'.
Proof.
  induction todo as [|todo IH]; intros i arr map cur H Inv; cbn [eytzinger_loop].
  - assert (i = n) by lia. subst i. eauto.
  - destruct (step_inv i arr map cur ltac:(lia) Inv) as [arr' [map' [cur' [E Inv']]]]. rewrite E. cbn [bind].
    apply (IH (S i) arr' map' cur'); auto. lia.
Qed.

Theorem layout_spec : exists out, eytzinger_layout src = Ok out /\ length out = length src /\
  forall p, (p < length src)%nat -> nth_error out p = nth_error src (sg (length src) p).
Proof.
  unfold eytzinger_layout. fold n.
  destruct (loop_inv n 0 src nm_empty (fun p => p)) as [arr [map [cur [E Inv]]]].
  - lia.
  - split; [reflexivity|]. repeat split; auto; try lia.
  - rewrite E. cbn [bind fst]. exists arr. split; [reflexivity|].
    destruct Inv as [I0 [I1 [I2 [I3 [I4 I5]]]]]. split; [exact I0|]. intros p Hp. rewrite I3 by auto. rewrite I4 by auto. reflexivity.
Qed.

Theorem layout_perm out : eytzinger_layout src = Ok out -> Permutation src out.
Proof.
  intros H. destruct layout_spec as [out' [E [Hl Hn]]]. rewrite E in H. inversion H; subst out'.
  apply Permutation_nth_error. split; [auto|].
  exists (fun p => if Nat.ltb p (length src) then sg (length src) p else p). split.
  - intros a b. destruct (Nat.ltb_spec a (length src)), (Nat.ltb_spec b (length src)); auto.
    + apply sg_inj; auto.
    + pose proof (sg_range (length src) a). lia.
    + pose proof (sg_range (length src) b). lia.
  - intros p. destruct (Nat.ltb_spec p (length src)).
    + apply Hn. auto.
    + rewrite (proj2 (nth_error_None out p)) by lia. symmetry. apply nth_error_None. lia.
Qed.
End Layout.

(** * Search *)
Section Search.
Context {T : Type}.
Variable src out : list T.
Variable f : T -> comparison.
Let n := length src.
Hypothesis Hlen : length out = length src.
Hypothesis Hnth : forall p, (p < length src)%nat -> nth_error out p = nth_error src (sg (length src) p).
Hypothesis Hf : consistent f src.

Let L := N.log2 (N.of_nat n + 1).
Let m := N.of_nat n + 1 - 2 ^ L.
Let Y p := yc L (N.of_nat p + 1).

Lemma out_len : length out = n.
Proof using Hlen. exact Hlen. Qed.

Lemma out_nth p : (p < n)%nat -> nth_error out p = nth_error src (sg n p).
Proof using Hnth. apply Hnth. Qed.

Lemma rank_order p q : (p < n)%nat -> (q < n)%nat -> (sg n p < sg n q)%nat -> Y p < Y q.
Proof.
  intros Hp Hq H. unfold sg, sigma in H. fold L in H. fold m in H. fold (Y p) in H. fold (Y q) in H.
  destruct (N.lt_ge_cases (Y p) (Y q)) as [G|G]; auto. exfalso.
  pose proof (fr_mono m _ _ G). pose proof (fr_range (N.of_nat n) L m eq_refl eq_refl (N.of_nat p + 1)).
  fold (Y p) in H1. lia.
Qed.

Definition insub (i p : nat) : Prop :=
  let j := N.of_nat i + 1 in
  let d := N.log2 j in
  d <= L + 1 /\ 2 ^ (L + 1 - d) * (j - 2 ^ d) < Y p /\ Y p < 2 ^ (L + 1 - d) * (j - 2 ^ d + 1).

Definition search_inv (i : nat) : Prop :=
  forall p x, nth_error out p = Some x -> f x = Eq -> insub i p.

Lemma search_inv_init : search_inv 0.
Proof.
  intros p x Hp _. assert (Hpn : (p < n)%nat) by (rewrite <- out_len; apply nth_error_Some; congruence).
  unfold insub. change (N.of_nat 0 + 1) with 1. change (N.log2 1) with 0.
  destruct (yc_shape (N.of_nat n) L m eq_refl eq_refl (N.of_nat p + 1)) as [A [B _]]; [lia|lia|].
  unfold Y. rewrite N.sub_0_r, N.pow_0_r, N.sub_diag, N.mul_0_r, N.add_0_l, N.mul_1_r.
  rewrite N.add_1_r, N.pow_succ_r by lia. lia.
Qed.

Lemma child_step i b p : (i < n)%nat -> (b = 0 \/ b = 1)%nat -> insub i p ->
  (if Nat.eqb b 1 then Y i < Y p else Y p < Y i) -> insub (2 * i + 1 + b) p.
Proof.
  intros Hi Hb [H1 [H2 H3]] Hlt. unfold insub in *.
  set (j := N.of_nat i + 1) in *. set (d := N.log2 j) in *.
  assert (Hd : d <= L) by (unfold d, j, L; apply N.log2_le_mono; lia).
  pose proof (log2_spec' j ltac:(unfold j; lia)) as Hj. fold d in Hj.
  assert (EW : 2 ^ (L + 1 - d) = 2 * 2 ^ (L - d)).
  { replace (L + 1 - d) with (N.succ (L - d)) by lia. rewrite N.pow_succ_r by lia. reflexivity. }
  assert (EY : Y i = 2 ^ (L - d) * (2 * (j - 2 ^ d) + 1)) by reflexivity.
  assert (Ej : N.of_nat (2 * i + 1 + b) + 1 = 2 * j + N.of_nat b) by (unfold j; lia).
  rewrite Ej.
  assert (Ed : N.log2 (2 * j + N.of_nat b) = d + 1).
  { unfold d. destruct Hb as [->| ->].
    - change (N.of_nat 0) with 0. rewrite N.add_0_r, N.log2_double by (unfold j; lia). lia.
    - change (N.of_nat 1) with 1. rewrite N.log2_succ_double by (unfold j; lia). lia. }
  rewrite Ed. replace (L + 1 - (d + 1)) with (L - d) by lia.
  assert (E2 : 2 ^ (d + 1) = 2 * 2 ^ d) by (rewrite N.add_1_r, N.pow_succ_r by lia; reflexivity).
  rewrite E2. rewrite EW in *. split; [lia|].
  assert (Hp : 0 < 2 ^ (L - d)) by apply pow_pos.
  destruct Hb as [->| ->]; cbn [Nat.eqb] in Hlt; rewrite EY in Hlt.
  - change (N.of_nat 0) with 0. rewrite N.add_0_r.
    replace (2 * j - 2 * 2 ^ d) with (2 * (j - 2 ^ d)) by lia. nia.
  - change (N.of_nat 1) with 1.
    replace (2 * j + 1 - 2 * 2 ^ d) with (2 * (j - 2 ^ d) + 1) by lia. nia.
Qed.

Lemma outside_empty i p : (n <= i)%nat -> (p < n)%nat -> ~ insub i p.
Proof.
  intros Hi Hp [H1 [H2 H3]].
  set (j := N.of_nat i + 1) in *. set (d := N.log2 j) in *.
  assert (Hd : L <= d) by (unfold d, j, L; apply N.log2_le_mono; lia).
  pose proof (log2_spec' j ltac:(unfold j; lia)) as Hj. fold d in Hj.
  destruct (N.eq_dec d (L + 1)) as [E|E].
  - rewrite E in *. rewrite N.sub_diag, N.pow_0_r in *. lia.
  - assert (d = L) by lia. rewrite H in *. replace (L + 1 - L) with 1 in * by lia. rewrite N.pow_1_r in *.
    destruct (yc_shape (N.of_nat n) L m eq_refl eq_refl (N.of_nat p + 1)) as [A [B C]]; [lia|lia|].
    fold (Y p) in *. pose proof (half_bounds (Y p)). pose proof (N.div_mod (Y p) 2). unfold m, j in *. lia.
Qed.

Lemma search_step i v : nth_error out i = Some v -> f v <> Eq -> search_inv i ->
  search_inv (2 * i + 1 + (match f v with Lt => 1 | _ => 0 end)).
Proof.
  intros Hv Hne Inv p x Hp Hx. specialize (Inv p x Hp Hx).
  assert (Hi : (i < n)%nat) by (rewrite <- out_len; apply nth_error_Some; congruence).
  assert (Hpn : (p < n)%nat) by (rewrite <- out_len; apply nth_error_Some; congruence).
  assert (Hne2 : sg n i <> sg n p).
  { intros E. apply sg_inj in E; auto. subst. congruence. }
  rewrite out_nth in Hv, Hp by auto.
  destruct (f v) eqn:E; [congruence| |].
  - apply child_step; auto. cbn [Nat.eqb]. apply rank_order; auto.
    destruct (Nat.lt_trichotomy (sg n i) (sg n p)) as [G|[G|G]]; auto; [congruence|].
    destruct (Hf _ _ _ _ G Hp Hv); congruence.
  - apply child_step; auto. cbn [Nat.eqb]. apply rank_order; auto.
    destruct (Nat.lt_trichotomy (sg n i) (sg n p)) as [G|[G|G]]; auto; [|congruence].
    destruct (Hf _ _ _ _ G Hv Hp); congruence.
Qed.

Lemma search_loop_spec : forall fuel i, (1 <= fuel)%nat -> (n + 1 <= fuel + i)%nat -> search_inv i ->
  exists o, eytzinger_search_loop fuel out f i = Ok o /\
    match o with
    | Some p => exists x, nth_error out p = Some x /\ f x = Eq
    | None => forall x, In x out -> f x <> Eq
    end.
Proof.
  induction fuel as [|fuel IH]; intros i Hf1 Hfuel Inv; [lia|].
  cbn [eytzinger_search_loop]. destruct (nth_error out i) as [v|] eqn:Ev.
  - assert (Hi : (i < n)%nat) by (rewrite <- out_len; apply nth_error_Some; congruence).
    destruct (f v) eqn:Efv.
    + exists (Some i). split; [reflexivity|]. eauto.
    + pose proof (search_step i v Ev ltac:(congruence) Inv) as S1. rewrite Efv in S1.
      change (N.to_nat (N.land (N.shiftr (ordering_as_usize Lt) 1) 1)) with 1%nat.
      apply IH; auto; lia.
    + pose proof (search_step i v Ev ltac:(congruence) Inv) as S1. rewrite Efv in S1.
      change (N.to_nat (N.land (N.shiftr (ordering_as_usize Gt) 1) 1)) with 0%nat.
      apply IH; auto; lia.
  - exists None. split; [reflexivity|]. intros x Hx Efx. apply In_nth_error in Hx. destruct Hx as [p Hp].
    apply nth_error_None in Ev. rewrite out_len in Ev.
    apply (outside_empty i p); auto.
    + rewrite <- out_len. apply nth_error_Some. congruence.
    + apply (Inv p x); auto.
Qed.

Theorem search_spec : exists o, eytzinger_search_by out f = Ok o /\
    match o with
    | Some p => exists x, nth_error out p = Some x /\ f x = Eq
    | None => forall x, In x out -> f x <> Eq
    end.
Proof.
  unfold eytzinger_search_by. apply search_loop_spec; [lia| |apply search_inv_init]. rewrite out_len. lia.
Qed.
End Search.

(** the search only looks at [f] of the elements *)
Lemma eytzinger_search_loop_map {A B} (g : A -> B) (f : B -> comparison) data : forall fuel i,
  eytzinger_search_loop fuel data (fun x => f (g x)) i = eytzinger_search_loop fuel (map g data) f i.
Proof.
  induction fuel as [|fuel IH]; intros i; cbn [eytzinger_search_loop]; auto.
  rewrite nth_error_map. destruct (nth_error data i); cbn [option_map]; auto.
  destruct (f (g a)); auto.
Qed.

Lemma eytzinger_search_by_map {A B} (g : A -> B) (f : B -> comparison) data :
  eytzinger_search_by data (fun x => f (g x)) = eytzinger_search_by (map g data) f.
Proof. unfold eytzinger_search_by. rewrite map_length. apply eytzinger_search_loop_map. Qed.
