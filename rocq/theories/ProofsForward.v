(** Handing calls on (ModelForward.v). *)
From Coq Require Import Permutation.
From Verif Require Import ModelUtils ModelMaps ModelForward Spec SpecMade SpecForward ProofsMade.
From Verif Require Import Prelude.
Import ListNotations.

Lemma map_function_cases (P : origin -> meth -> Prop) :
  (forall f, In f [m_len; m_is_empty; m_get; m_get_mut; m_contains_key; m_get_key_value; m_get_disjoint_mut; m_get_disjoint_unchecked_mut;
      m_iter; m_iter_mut; m_keys; m_into_keys; m_values; m_values_mut; m_into_values; m_into_iter] -> P Inherent f) ->
  (forall t, In t [Len; MapQuery; MapExtras; MapIteration; IntoIterator; IntoIteratorRef; IntoIteratorMut; Index] ->
     forall f, In f (of_trait t) -> P (Of t) f) ->
  forall o f, map_function o f -> P o f.
Proof.
  intros H1 H2 o f HF. destruct HF as [f t Ht Hf|f t Ht Hf]; auto. apply H1.
  cbn in Ht. repeat (destruct Ht as [<-|Ht]; [cbn in Hf |- *; tauto|]). destruct Ht.
Qed.

Lemma set_function_cases (P : origin -> meth -> Prop) :
  (forall f, In f [m_len; m_is_empty; m_contains; m_get; m_iter; m_into_iter] -> P Inherent f) ->
  (forall t, In t [Len; SetQuery; SetExtras; SetIteration; IntoIterator; IntoIteratorRef] ->
     forall f, In f (of_trait t) -> P (Of t) f) ->
  forall o f, set_function o f -> P o f.
Proof.
  intros H1 H2 o f HF. destruct HF as [f t Ht Hf|f t Ht Hf]; auto. apply H1.
  cbn in Ht. repeat (destruct Ht as [<-|Ht]; [cbn in Hf |- *; tauto|]). destruct Ht.
Qed.

Section Own.
Context {K V : Type}.
Variable own : meth -> answer K V.

(** Where the calls on a map end up. *)
Definition map_route (o : origin) (f : meth) : answer K V :=
  match o, f with
  | Of IntoIteratorRef, m_into_iter => own m_iter
  | Of IntoIteratorMut, m_into_iter => own m_iter_mut
  | _, m_is_empty => adapted IsZero (own m_len)
  | _, m_contains_key => adapted IsSome (own m_get)
  | _, m_index => adapted Expect (own m_get)
  | _, f => own f
  end.

Ltac each H := repeat (destruct H as [<-|H]; [|]); try (destruct H; fail).

Lemma map_call v : crate_map v -> forall o f, map_function o f -> forall more, call true own (5 + more) v o f = Some (map_route o f).
Proof.
  intros HV o f HF more. revert o f HF.
  destruct HV as [k HK|k v HV]; [destruct HK|destruct HV];
    (apply map_function_cases;
     [intros f Hf; cbn in Hf; each Hf; reflexivity
     |intros t Ht f Hf; cbn in Ht; each Ht; cbn in Hf; each Hf; reflexivity]).
Qed.

(** Where the calls on a set end up; [contains] asks [get_key_value] or [get] of the map. *)
Definition set_route (inline : bool) (f : meth) : answer K V :=
  match f with
  | m_is_empty => adapted IsZero (own m_len)
  | m_get => adapted Fst (own m_get_key_value)
  | m_contains => if inline then adapted IsSome (adapted Fst (own m_get_key_value)) else adapted IsSome (own m_get)
  | m_iter => adapted KeysOf (own m_iter)
  | m_into_iter => adapted KeysOf (own m_into_iter)
  | f => own f
  end.
Definition set_end (o : origin) (f : meth) : meth := match o, f with Of IntoIteratorRef, m_into_iter => m_iter | _, f => f end.

Lemma set_call v : crate_set v -> exists inline, forall o f, set_function o f -> forall more,
  call true own (7 + more) v o f = Some (set_route inline (set_end o f)).
Proof.
  intros HV. destruct HV as [s k Hs|s k v Hs HV].
  - exists true. intros o f HF more. revert o f HF. cbn in Hs.
    repeat (destruct Hs as [E|Hs]; [injection E as <- <-;
      apply set_function_cases;
       [intros f Hf; cbn in Hf; each Hf; reflexivity
       |intros t Ht f Hf; cbn in Ht; each Ht; cbn in Hf; each Hf; reflexivity]|]). destruct Hs.
  - exists false. intros o f HF more. revert o f HF. cbn in Hs.
    repeat (destruct Hs as [E|Hs]; [injection E as <- <-; inversion HV; subst;
      (apply set_function_cases;
       [intros f Hf; cbn in Hf; each Hf; reflexivity
       |intros t Ht f Hf; cbn in Ht; each Ht; cbn in Hf; each Hf; reflexivity])|]). destruct Hs.
Qed.
End Own.

Section Made.
Context {M K V Q : Type}.
Variables (ops : map_ops M K V Q) (eqK : K -> K -> bool) (eqv : Q -> K -> bool) (eqQ : Q -> Q -> bool) (m : M) (input : list (K * V)).
Hypothesis MD : made ops eqK eqv m input.

Lemma made_points q : exists p, mo_get_mut ops m q = Ok p /\ points ops m eqv input q p.
Proof.
  destruct (made_get_mut ops eqK eqv m input MD q) as [o [E1 [E2 E3]]]. exists o. split; auto. destruct o as [p|]; cbn in *.
  - destruct (nth_error (mo_entries ops m) p) as [e|] eqn:En; [exists e; auto|]. rewrite <- E2 in E3. discriminate.
  - congruence.
Qed.

Lemma made_all_points qs : exists ps, get_disjoint_unchecked_mut ops m qs = Ok ps /\ Forall2 (points ops m eqv input) qs ps.
Proof.
  unfold get_disjoint_unchecked_mut. induction qs as [|q r [ps [E F]]]; [exists []; auto|].
  destruct (made_points q) as [p [E1 HP]]. exists (p :: ps). cbn [mapM]. rewrite E1. cbn [bind]. rewrite E. cbn [bind]. auto.
Qed.

Lemma made_present q : is_some (spec_entry eqv input q) = true <-> spec_entry eqv input q <> None.
Proof. destruct (spec_entry eqv input q); cbn; split; congruence. Qed.

Lemma made_found q : is_some (spec_get eqv input q) = is_some (spec_entry eqv input q).
Proof. unfold spec_get. destruct (spec_entry eqv input q); reflexivity. Qed.

Lemma made_empty : (Nat.eqb (map_len ops m) 0) = true <-> input = [].
Proof. apply (made_is_empty ops eqK eqv m input MD). Qed.

Lemma made_map v o f q qs : crate_map v -> map_function o f ->
  exists x, answers_with (fun fuel => call true (own_code ops eqQ m q qs) fuel v o f) x /\ map_answer ops m eqK eqv eqQ input q qs f x.
Proof.
  intros HV HF. exists (map_route (own_code ops eqQ m q qs) o f). split; [exists 5%nat; intros more; apply map_call; auto|].
  assert (PE := made_entries ops eqK eqv m input MD).
  revert o f HF. apply map_function_cases.
  - intros f Hf. cbn in Hf. repeat (destruct Hf as [<-|Hf]; [cbn; try (rewrite made_len with (1 := MD); reflexivity)|]); [..|destruct Hf];
      try (eexists; split; [reflexivity|]; auto using Permutation_map; fail).
    + eexists. split; [reflexivity|]. apply made_empty.
    + rewrite (made_get ops eqK eqv m input MD). reflexivity.
    + destruct (made_points q) as [p [E HP]]. exists p. rewrite E. auto.
    + rewrite (made_get ops eqK eqv m input MD). cbn. eexists. split; [reflexivity|]. rewrite made_found. apply made_present.
    + rewrite (made_gkv ops eqK eqv m input MD). reflexivity.
    + destruct (made_disjoint ops eqK eqv m input MD eqQ qs) as [D1 D2]. split; intros HR.
      * rewrite D1; auto.
      * destruct (made_all_points qs) as [ps [E F]]. exists ps. split; auto. destruct (D2 HR) as [l [El [HL _]]]. rewrite El.
        unfold get_disjoint_unchecked_mut in E. apply mapM_Forall2 in HL. congruence.
    + destruct (made_all_points qs) as [ps [E F]]. exists ps. rewrite E. auto.
  - intros t Ht f Hf. cbn in Ht. repeat (destruct Ht as [<-|Ht]; [cbn in Hf; repeat (destruct Hf as [<-|Hf];
      [cbn; try (rewrite made_len with (1 := MD); reflexivity)|]); [..|destruct Hf]|]); [..|destruct Ht];
      try (eexists; split; [reflexivity|]; auto using Permutation_map; fail).
    + eexists. split; [reflexivity|]. apply made_empty.
    + rewrite (made_get ops eqK eqv m input MD). reflexivity.
    + destruct (made_points q) as [p [E HP]]. exists p. rewrite E. auto.
    + rewrite (made_get ops eqK eqv m input MD). cbn. eexists. split; [reflexivity|]. rewrite made_found. apply made_present.
    + rewrite (made_gkv ops eqK eqv m input MD). reflexivity.
    + destruct (made_disjoint ops eqK eqv m input MD eqQ qs) as [D1 D2]. split; intros HR.
      * rewrite D1; auto.
      * destruct (made_all_points qs) as [ps [E F]]. exists ps. split; auto. destruct (D2 HR) as [l [El [HL _]]]. rewrite El.
        unfold get_disjoint_unchecked_mut in E. apply mapM_Forall2 in HL. congruence.
    + destruct (made_all_points qs) as [ps [E F]]. exists ps. rewrite E. auto.
    + rewrite (made_get ops eqK eqv m input MD). cbn [bind]. split; [intros v' ->|intros ->]; reflexivity.
Qed.

Lemma made_set v o f q qs : crate_set v -> set_function o f ->
  exists x, answers_with (fun fuel => call true (own_code ops eqQ m q qs) fuel v o f) x /\ set_answer eqK eqv input q f x.
Proof.
  intros HV HF. destruct (set_call (own_code ops eqQ m q qs) v HV) as [inline HC].
  exists (set_route (own_code ops eqQ m q qs) inline (set_end o f)). split; [exists 7%nat; intros more; apply HC; auto|].
  assert (PE := made_entries ops eqK eqv m input MD).
  assert (A : forall f', In f' [m_len; m_is_empty; m_contains; m_get; m_iter; m_into_iter] ->
            set_answer eqK eqv input q f' (set_route (own_code ops eqQ m q qs) inline f')).
  { intros f' Hf. cbn in Hf. repeat (destruct Hf as [<-|Hf]; [cbn; try (rewrite made_len with (1 := MD); reflexivity)|]); [..|destruct Hf];
      try (eexists; split; [reflexivity|]; auto using Permutation_map; fail).
    + eexists. split; [reflexivity|]. apply made_empty.
    + destruct inline; [rewrite (made_gkv ops eqK eqv m input MD)|rewrite (made_get ops eqK eqv m input MD)]; cbn;
        (eexists; split; [reflexivity|]); rewrite <- made_present.
      * destruct (spec_entry eqv input q); cbn; tauto.
      * rewrite made_found. tauto.
    + rewrite (made_gkv ops eqK eqv m input MD). cbn. split; [intros e ->|intros ->]; reflexivity. }
  revert o f HF. apply set_function_cases.
  - intros f Hf. apply A; auto.
  - intros t Ht f Hf. destruct t; cbn in Ht, Hf; try (exfalso; repeat (destruct Ht as [Ht|Ht]; [discriminate Ht|]); exact Ht);
      repeat (destruct Hf as [<-|Hf]; [apply A; cbn; tauto|]); try (destruct Hf; fail).
    destruct Hf as [<-|[]]. exact (A m_iter ltac:(cbn; tauto)).
Qed.
End Made.

Lemma foreign_map_call {K V} (own : meth -> answer K V) k t f : foreign_map k -> In t [Len; MapQuery; MapExtras; MapIteration] -> In f (of_trait t) ->
  exists x, answers_with (fun fuel => call true own fuel (Leaf k) (Of t) f) x /\ foreign_answer k own f x.
Proof.
  intros HK Ht Hf. cbn in Ht. repeat (destruct Ht as [<-|Ht]; [cbn in Hf; repeat (destruct Hf as [<-|Hf]; [
    destruct HK; (eexists; split; [exists 5%nat; intros more; reflexivity|]); cbn; auto;
    intros n ->; cbn; (eexists; split; [reflexivity|]); apply Nat.eqb_eq|]); [..|destruct Hf]|]); [..|destruct Ht].
Qed.

Lemma foreign_set_call {K V} (own : meth -> answer K V) k t f : foreign_set k -> In t [Len; SetQuery; SetExtras; SetIteration] -> In f (of_trait t) ->
  exists x, answers_with (fun fuel => call true own fuel (Leaf k) (Of t) f) x /\ foreign_answer k own f x.
Proof.
  intros HK Ht Hf. cbn in Ht. repeat (destruct Ht as [<-|Ht]; [cbn in Hf; repeat (destruct Hf as [<-|Hf]; [
    destruct HK; (eexists; split; [exists 5%nat; intros more; reflexivity|]); cbn; auto;
    intros n ->; cbn; (eexists; split; [reflexivity|]); apply Nat.eqb_eq|]); [..|destruct Hf]|]); [..|destruct Ht].
Qed.

Lemma old_std_loops {K V} (own : meth -> answer K V) f : In f [m_get_disjoint_mut; m_get_disjoint_unchecked_mut] ->
  forall fuel, call false own fuel (Leaf StdHashMap) (Of MapExtras) f = None.
Proof.
  intros Hf fuel. cbn in Hf. destruct Hf as [<-|[<-|[]]]; (induction fuel as [|fuel IH]; [reflexivity|]); cbn; cbn in IH; rewrite IH; reflexivity.
Qed.

Lemma old_std_others {K V} (own : meth -> answer K V) k t f : foreign_map k -> In t [Len; MapQuery; MapExtras; MapIteration] -> In f (of_trait t) ->
  (k = StdHashMap -> ~ In f [m_get_disjoint_mut; m_get_disjoint_unchecked_mut]) ->
  exists x, answers_with (fun fuel => call false own fuel (Leaf k) (Of t) f) x /\ foreign_answer k own f x.
Proof.
  intros HK Ht Hf N. cbn in Ht. repeat (destruct Ht as [<-|Ht]; [cbn in Hf; repeat (destruct Hf as [<-|Hf]; [
    destruct HK; try (exfalso; apply (N eq_refl); cbn; tauto); (eexists; split; [exists 5%nat; intros more; reflexivity|]); cbn; auto;
    intros n ->; cbn; (eexists; split; [reflexivity|]); apply Nat.eqb_eq|]); [..|destruct Hf]|]); [..|destruct Ht].
Qed.

Lemma answers_with_unique {X} (f : nat -> option X) x y : answers_with f x -> answers_with f y -> x = y.
Proof. intros [a Ha] [b Hb]. specialize (Ha b). specialize (Hb a). rewrite (Nat.add_comm b a) in Hb. congruence. Qed.

Lemma map_trait_inherent {K V} (own : meth -> answer K V) v t f : crate_map v ->
  In t [Len; MapQuery; MapExtras; MapIteration; IntoIterator] -> In f (of_trait t) ->
  exists x, answers_with (fun fuel => call true own fuel v Inherent f) x /\ answers_with (fun fuel => call true own fuel v (Of t) f) x.
Proof.
  intros HV Ht Hf. exists (map_route own Inherent f). split; exists 5%nat; intros more.
  - apply map_call; auto. econstructor; eauto.
  - rewrite (map_call own v HV (Of t) f); [|constructor; auto; cbn in *; tauto].
    cbn in Ht. repeat (destruct Ht as [<-|Ht]; [reflexivity|]). destruct Ht.
Qed.

Lemma set_trait_inherent {K V} (own : meth -> answer K V) v t f : crate_set v ->
  In t [Len; SetQuery; SetExtras; SetIteration; IntoIterator] -> In f (of_trait t) ->
  exists x, answers_with (fun fuel => call true own fuel v Inherent f) x /\ answers_with (fun fuel => call true own fuel v (Of t) f) x.
Proof.
  intros HV Ht Hf. destruct (set_call own v HV) as [inline HC]. exists (set_route own inline f). split; exists 7%nat; intros more.
  - rewrite HC; [reflexivity|]. econstructor; eauto.
  - rewrite HC; [|constructor; auto; cbn in *; tauto].
    cbn in Ht. repeat (destruct Ht as [<-|Ht]; [reflexivity|]). destruct Ht.
Qed.

Lemma map_refs {K V} (own : meth -> answer K V) v : crate_map v ->
  (exists x, answers_with (fun fuel => call true own fuel v Inherent m_iter) x /\ answers_with (fun fuel => call true own fuel v (Of IntoIteratorRef) m_into_iter) x) /\
  (exists x, answers_with (fun fuel => call true own fuel v Inherent m_iter_mut) x /\ answers_with (fun fuel => call true own fuel v (Of IntoIteratorMut) m_into_iter) x).
Proof.
  intros HV. split; [exists (own m_iter)|exists (own m_iter_mut)]; (split; exists 5%nat; intros more; rewrite (map_call own v HV); try reflexivity).
  - apply map_inherent with MapIteration; cbn; tauto.
  - apply map_trait; cbn; tauto.
  - apply map_inherent with MapIteration; cbn; tauto.
  - apply map_trait; cbn; tauto.
Qed.

Lemma set_refs {K V} (own : meth -> answer K V) v : crate_set v ->
  exists x, answers_with (fun fuel => call true own fuel v Inherent m_iter) x /\ answers_with (fun fuel => call true own fuel v (Of IntoIteratorRef) m_into_iter) x.
Proof.
  intros HV. destruct (set_call own v HV) as [inline HC]. exists (adapted KeysOf (own m_iter)).
  split; exists 7%nat; intros more; rewrite HC; try reflexivity.
  - apply set_inherent with SetIteration; cbn; tauto.
  - apply set_trait; cbn; tauto.
Qed.
