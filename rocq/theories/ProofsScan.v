(** Comparisons made while removing repeated keys (C91). *)
From Coq Require Import Permutation ZArith ZifyNat ZifyBool Psatz.
From Verif Require Import Prelude Spec ModelUtils ModelScan SpecScan SpecMade ProofsBase ProofsDedup.
Local Open Scope nat_scope.

Lemma scan_contains_in x v : fst (scan_contains x v) = existsb (Nat.eqb x) v.
Proof.
  induction v as [|y r IH]; cbn [scan_contains existsb]; [reflexivity|]. rewrite (Nat.eqb_sym x y). destruct (Nat.eqb y x); [reflexivity|].
  destruct (scan_contains x r). exact IH.
Qed.
Lemma scan_contains_miss x v : ~ In x v -> snd (scan_contains x v) = length v.
Proof.
  induction v as [|y r IH]; cbn [scan_contains In length]; intros H; [reflexivity|]. destruct (Nat.eqb_spec y x) as [->|_]; [exfalso; auto|].
  destruct (scan_contains x r). cbn [snd] in *. rewrite IH; auto.
Qed.
Lemma scan_contains_cons x y v : snd (scan_contains x (y :: v)) = S (if Nat.eqb y x then 0 else snd (scan_contains x v)).
Proof. cbn [scan_contains]. destruct (Nat.eqb y x); [reflexivity|]. destruct (scan_contains x v). reflexivity. Qed.

Lemma scan_retain_kept {T} dupes : forall (l : list T) i, fst (scan_retain i dupes l) = retain_from i dupes l.
Proof.
  induction l as [|x r IH]; intros i; cbn [scan_retain retain_from]; [reflexivity|]. pose proof (scan_contains_in i dupes) as C.
  destruct (scan_contains i dupes) as [b n]. specialize (IH (S i)). destruct (scan_retain (S i) dupes r) as [kept n']. cbn [fst] in *.
  subst. destruct (existsb _ _); reflexivity.
Qed.

(** Over all indices, one more noted index costs one more comparison per entry, but spares the entry of that index the rest. *)
Lemma scan_retain_nil {T} : forall (l : list T) i, snd (scan_retain i [] l) = 0.
Proof. induction l as [|x r IH]; intros i; cbn; [reflexivity|]. specialize (IH (S i)). destruct (scan_retain (S i) [] r). exact IH. Qed.
Lemma scan_retain_cons {T} y v : ~ In y v -> forall (l : list T) i,
  snd (scan_retain i (y :: v) l) + (if (i <=? y) && (y <? i + length l) then length v else 0) = length l + snd (scan_retain i v l).
Proof.
  intros Hy. induction l as [|x r IH]; intros i; cbn [scan_retain length].
  { cbn [snd]. destruct ((i <=? y) && (y <? i + 0)) eqn:E; [lia|reflexivity]. }
  pose proof (scan_contains_cons i y v) as C. pose proof (scan_contains_miss y v Hy) as M.
  destruct (scan_contains i (y :: v)) as [b1 n1], (scan_contains i v) as [b2 n2] eqn:E2. specialize (IH (S i)).
  destruct (scan_retain (S i) (y :: v) r) as [k1 m1], (scan_retain (S i) v r) as [k2 m2]. cbn [snd] in *.
  destruct (Nat.eqb_spec y i) as [->|N].
  - rewrite E2 in M. cbn [snd] in M. replace ((S i <=? i) && (i <? S i + length r)) with false in IH by lia.
    replace ((i <=? i) && (i <? i + S (length r))) with true by lia. lia.
  - replace ((i <=? y) && (y <? i + S (length r))) with ((S i <=? y) && (y <? S i + length r)) by lia. lia.
Qed.
Lemma scan_retain_count {T} (l : list T) : forall v, NoDup v -> (forall y, In y v -> y < length l) ->
  2 * snd (scan_retain 0 v l) + length v * (length v - 1) = 2 * (length l * length v).
Proof.
  induction v as [|y v IH]; intros HN HB.
  - rewrite scan_retain_nil. cbn. lia.
  - inversion HN as [|? ? N1 N2]; subst. pose proof (scan_retain_cons y v N1 l 0) as C.
    assert (y < length l) by (apply HB; left; reflexivity). replace ((0 <=? y) && (y <? 0 + length l)) with true in C by lia.
    specialize (IH N2 (fun z Hz => HB z (or_intror Hz))). cbn [length]. destruct (length v) as [|k]; cbn [Nat.sub] in *; nia.
Qed.

Lemma retain_length {T} (l : list T) : forall v i, NoDup v -> (forall y, In y v -> i <= y < i + length l) ->
  length (retain_from i v l) + length v = length l.
Proof.
  induction l as [|x r IH]; intros v i HN HB; cbn [retain_from length] in *.
  - destruct v as [|y v]; [reflexivity|]. specialize (HB y (or_introl eq_refl)). lia.
  - destruct (existsb (Nat.eqb i) v) eqn:E; cbn [negb length].
    + apply existsb_exists in E. destruct E as [z [Hz Ez]]. apply Nat.eqb_eq in Ez. subst z.
      apply in_split in Hz. destruct Hz as (a & b & ->). apply NoDup_remove in HN. destruct HN as [HN Hi].
      assert (R : retain_from (S i) (a ++ i :: b) r = retain_from (S i) (a ++ b) r).
      { assert (X : forall (s : list T) j, i < j -> retain_from j (a ++ i :: b) s = retain_from j (a ++ b) s).
        { induction s as [|z s IHs]; intros j Hj; cbn [retain_from]; [reflexivity|]. rewrite !existsb_app. cbn [existsb].
          replace (j =? i) with false by lia. cbn [orb]. rewrite IHs by lia. reflexivity. }
        apply X. lia. }
      rewrite R. specialize (IH (a ++ b) (S i) HN). rewrite app_length in *. cbn [length]. rewrite <- IH; [lia|].
      intros y Hy. assert (y <> i) by (intros ->; auto). specialize (HB y). rewrite in_app_iff in Hy, HB. cbn [In] in HB.
      assert (i <= y < i + S (length r)) by (apply HB; tauto). lia.
    + rewrite <- (IH v (S i) HN); [lia|]. intros y Hy. specialize (HB y Hy). assert (y <> i); [|lia]. intros ->.
      pose proof (proj1 (existsb_false_forall _ _) E i Hy) as X. cbn in X. rewrite Nat.eqb_refl in X. discriminate.
Qed.

Lemma keep_found {T} hash (f : T -> bool) : forall keep i keep', keep_find_remove hash f keep = Some (i, keep') ->
  Permutation (map (fun e => snd (fst e)) keep) (i :: map (fun e => snd (fst e)) keep').
Proof.
  induction keep as [|[[h j] y] r IH]; intros i keep' E; cbn [keep_find_remove] in E; [discriminate|].
  destruct ((h =? hash)%N && f y)%bool; [injection E as <- <-; reflexivity|].
  destruct (keep_find_remove hash f r) as [[j' r']|]; [|discriminate]. injection E as <- <-. cbn [map fst snd].
  specialize (IH _ _ eq_refl). eapply perm_trans; [apply perm_skip, IH|apply perm_swap].
Qed.
Lemma dupes_nodup {T} (hasher : T -> N) eq : forall l index keep dupes,
  NoDup (dupes ++ map (fun e => snd (fst e)) keep) -> (forall y, In y (dupes ++ map (fun e => snd (fst e)) keep) -> y < index) ->
  NoDup (using_hash_dupes hasher eq index l keep dupes) /\
  forall y, In y (using_hash_dupes hasher eq index l keep dupes) -> y < index + length l.
Proof.
  induction l as [|v r IH]; intros index keep dupes HN HB; cbn [using_hash_dupes length].
  { split; [|intros y Hy; rewrite Nat.add_0_r; apply HB, in_or_app; auto].
    revert HN. clear. induction dupes as [|y d IHd]; cbn; intros HN; inversion HN; subst; constructor; auto. intros X. apply H1, in_or_app. auto. }
  destruct (keep_find_remove (hasher v) (eq v) keep) as [[old keep']|] eqn:E.
  - apply keep_found in E. assert (P : Permutation (dupes ++ map (fun e => snd (fst e)) keep) ((old :: dupes) ++ map (fun e => snd (fst e)) keep')).
    { cbn [app]. etransitivity; [apply Permutation_app_head, E|]. symmetry. apply Permutation_middle. }
    destruct (IH (S index) ((hasher v, index, v) :: keep') (old :: dupes)) as [A B].
    + cbn [map fst snd]. eapply Permutation_NoDup; [apply Permutation_middle|]. constructor; [|eapply Permutation_NoDup; eauto].
      intros X. eapply Permutation_in in X; [|symmetry; exact P]. apply HB in X. lia.
    + intros y Hy. cbn [map fst snd] in Hy. eapply Permutation_in in Hy; [|symmetry; apply Permutation_middle]. destruct Hy as [<-|Hy]; [lia|].
      eapply Permutation_in in Hy; [|symmetry; exact P]. apply HB in Hy. lia.
    + split; [exact A|]. intros y Hy. apply B in Hy. lia.
  - destruct (IH (S index) ((hasher v, index, v) :: keep) dupes) as [A B].
    + cbn [map fst snd]. eapply Permutation_NoDup; [apply Permutation_middle|]. constructor; [|exact HN]. intros X. apply HB in X. lia.
    + intros y Hy. cbn [map fst snd] in Hy. eapply Permutation_in in Hy; [|symmetry; apply Permutation_middle]. destruct Hy as [<-|Hy]; [lia|].
      apply HB in Hy. lia.
    + split; [exact A|]. intros y Hy. apply B in Hy. lia.
Qed.

Lemma existsb_rev {A} (f : A -> bool) l : existsb f (rev l) = existsb f l.
Proof. induction l as [|x r IH]; [reflexivity|]. cbn [rev existsb]. rewrite existsb_app, IH. cbn. rewrite orb_false_r. apply orb_comm. Qed.
Lemma retain_rev {T} d : forall (l : list T) i, retain_from i (rev d) l = retain_from i d l.
Proof. induction l as [|x r IH]; intros i; cbn [retain_from]; [reflexivity|]. rewrite existsb_rev, IH. reflexivity. Qed.

Lemma counted_same {T} (l : list T) hasher eq : fst (using_hash_counted l hasher eq) = using_hash l hasher eq.
Proof.
  unfold using_hash_counted, using_hash. destruct (Nat.leb 2 (length l)); [|reflexivity].
  set (d := using_hash_dupes hasher eq 0 l [] []). destruct d as [|y d'] eqn:E; [reflexivity|].
  assert (is_nil (rev (y :: d')) = false) as -> by (cbn; destruct (rev d'); reflexivity). cbn [negb is_nil].
  rewrite scan_retain_kept. apply retain_rev.
Qed.

Lemma counted {T} (l : list T) hasher eq :
  length (using_hash l hasher eq) <= length l /\
  2 * snd (using_hash_counted l hasher eq) = twice_scans (length l) (length l - length (using_hash l hasher eq)).
Proof.
  rewrite <- counted_same. unfold using_hash_counted, twice_scans. destruct (Nat.leb 2 (length l)); [|cbn [fst snd]; split; [lia|]; rewrite Nat.sub_diag; lia].
  destruct (dupes_nodup hasher eq l 0 [] []) as [A B]; [constructor|intros y []|].
  set (d := using_hash_dupes hasher eq 0 l [] []) in *. destruct d as [|y0 d0] eqn:E.
  { cbn [rev is_nil negb fst snd]. split; [lia|]. rewrite Nat.sub_diag. lia. }
  rewrite <- E in *. assert (is_nil (rev d) = false) as ->.
  { rewrite E. cbn. destruct (rev d0); reflexivity. }
  cbn [negb]. clear E y0 d0. rewrite scan_retain_kept.
  assert (A' : NoDup (rev d)) by (apply NoDup_rev, A).
  assert (B' : forall y, In y (rev d) -> y < length l) by (intros y Hy; apply in_rev in Hy; apply B in Hy; exact Hy).
  pose proof (retain_length l (rev d) 0 A' ltac:(intros y Hy; specialize (B' y Hy); lia)) as L.
  pose proof (scan_retain_count l (rev d) A' B') as C. split; [lia|].
  replace (length l - length (retain_from 0 (rev d) l)) with (length (rev d)) by lia.
  set (k := length (rev d)) in *. set (n := length l) in *. assert (K : k <= n) by lia.
  destruct k as [|k]; cbn [Nat.sub] in *; [lia|]. nia.
Qed.

(** The last entry is never dropped. *)
Lemma dupes_before {T} (hasher : T -> N) eq : forall l index keep dupes,
  (forall y, In y (map (fun e => snd (fst e)) keep) -> y < index) -> (forall y, In y dupes -> y + 1 < index) ->
  forall y, In y (using_hash_dupes hasher eq index l keep dupes) -> y + 1 < index + length l.
Proof.
  induction l as [|v r IH]; intros index keep dupes HK HD y Hy; cbn [using_hash_dupes length] in *; [rewrite Nat.add_0_r; auto|].
  replace (index + S (length r)) with (S index + length r) by lia. destruct (keep_find_remove (hasher v) (eq v) keep) as [[old keep']|] eqn:E.
  - apply keep_found in E. refine (IH (S index) _ _ _ _ y Hy).
    + intros z Hz. cbn [map fst snd] in Hz. destruct Hz as [<-|Hz]; [lia|].
      assert (z < index); [|lia]. apply HK. eapply Permutation_in; [symmetry; exact E|]. right. exact Hz.
    + intros z [<-|Hz]; [|apply HD in Hz; lia].
      assert (old < index); [|lia]. apply HK. eapply Permutation_in; [symmetry; exact E|]. left. reflexivity.
  - refine (IH (S index) _ _ _ _ y Hy).
    + intros z Hz. cbn [map fst snd] in Hz. destruct Hz as [<-|Hz]; [lia|]. apply HK in Hz. lia.
    + intros z Hz. apply HD in Hz. lia.
Qed.

Lemma one_kept {T} (l : list T) hasher eq : l <> [] -> 1 <= length (using_hash l hasher eq).
Proof.
  intros Hne. assert (HL : 1 <= length l) by (destruct l; [congruence|cbn; lia]).
  unfold using_hash. destruct (Nat.leb_spec 2 (length l)); [|exact HL].
  destruct (dupes_nodup hasher eq l 0 [] []) as [A B]; [constructor|intros y []|].
  pose proof (dupes_before hasher eq l 0 [] []) as D. specialize (D ltac:(intros y []) ltac:(intros y [])).
  destruct (is_nil _); cbn [negb]; [exact HL|].
  pose proof (retain_length l _ 0 A ltac:(intros y Hy; specialize (B y Hy); lia)) as L.
  assert (I : incl (using_hash_dupes hasher eq 0 l [] []) (seq 0 (length l - 1))) by (intros y Hy; apply in_seq; specialize (D y Hy); lia).
  pose proof (NoDup_incl_length A I) as Y. rewrite seq_length in Y. lia.
Qed.

Lemma scans_bound n d : d <= n - 1 -> twice_scans n d <= (n - 1) * (n + 2).
Proof.
  intros H. unfold twice_scans. destruct n as [|n]; [assert (d = 0) by lia; subst; cbn; lia|].
  replace (S n - 1) with n in * by lia. assert (E : exists j, n = d + j) by (exists (n - d); lia). destruct E as [j ->].
  replace (S (d + j) - d) with (S j) by lia.
  assert (E : (d + j) * (S (d + j) + 2) = 2 * (S j * d) + d * (d + 1) + (j * j + 3 * j)) by ring. lia.
Qed.

Lemma counted_most {T} (l : list T) hasher eq : 2 * snd (using_hash_counted l hasher eq) <= (length l - 1) * (length l + 2).
Proof.
  rewrite (proj2 (counted l hasher eq)). apply scans_bound. destruct l as [|x r]; [cbn; lia|].
  pose proof (one_kept (x :: r) hasher eq ltac:(congruence)). lia.
Qed.

(** All keys the same. *)
Lemma survivors_constant {T} (l : list T) same : l <> [] -> (forall x y, In x l -> In y l -> same x y = true) -> length (survivors same l) = 1.
Proof.
  induction l as [|x r IH]; intros Hne H; [congruence|]. cbn [survivors]. destruct r as [|y r']; [reflexivity|].
  assert (E : existsb (same x) (y :: r') = true) by (cbn [existsb]; rewrite (H x y); cbn; auto).
  assert (R : length (survivors same (y :: r')) = 1) by (apply IH; [congruence|]; intros a b Ha Hb; apply H; right; assumption).
  revert E R. generalize (y :: r'). intros s E R. rewrite E. exact R.
Qed.
