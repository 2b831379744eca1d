(** Generic facts about the two aliasing models of [SpecAliasing.v]. *)
From Verif Require Import SpecAliasing.
From Verif Require Import Prelude.

Lemma what_eqb_spec a b : what_eqb a b = true <-> a = b.
Proof.
  destruct a, b; cbn; split; intros H; try discriminate; try reflexivity;
    try (apply Nat.eqb_eq in H; subst; reflexivity); injection H as ->; apply Nat.eqb_refl.
Qed.
Lemma tag_eqb_spec a b : tag_eqb a b = true <-> a = b.
Proof.
  destruct a as [|i v], b as [|j w]; cbn; split; intros H; try discriminate; try reflexivity.
  - apply andb_prop in H. destruct H as [H1 H2]. apply Nat.eqb_eq in H1. apply what_eqb_spec in H2. subst. reflexivity.
  - injection H as -> ->. rewrite Nat.eqb_refl. cbn. apply what_eqb_spec. reflexivity.
Qed.
Lemma tag_eqb_refl a : tag_eqb a a = true.
Proof. apply tag_eqb_spec. reflexivity. Qed.
Lemma tag_eqb_neq a b : tag_eqb a b = false <-> a <> b.
Proof. rewrite <- tag_eqb_spec. destruct (tag_eqb a b); split; congruence. Qed.
Lemma tag_eqb_sym a b : tag_eqb a b = tag_eqb b a.
Proof. destruct (tag_eqb a b) eqn:E; symmetry; [apply tag_eqb_spec in E; subst; apply tag_eqb_refl|apply tag_eqb_neq in E; apply tag_eqb_neq; congruence]. Qed.
Lemma loc_eqb_spec a b : loc_eqb a b = true <-> a = b.
Proof. destruct a, b; cbn; split; intros H; try discriminate; try (apply Nat.eqb_eq in H; congruence); injection H as ->; apply Nat.eqb_refl. Qed.
Lemma loc_eqb_refl a : loc_eqb a a = true.
Proof. apply loc_eqb_spec. reflexivity. Qed.

Lemma among_in t l : among t l = true <-> In t l.
Proof.
  unfold among. rewrite existsb_exists. split.
  - intros [u [H E]]. apply tag_eqb_spec in E. subst. exact H.
  - intros H. exists t. split; [exact H|apply tag_eqb_refl].
Qed.
Lemma run_app {S} (step : event -> S -> option S) p q s :
  run step (p ++ q) s = match run step p s with Some s => run step q s | None => None end.
Proof. revert s. induction p as [|e p IH]; intros s; cbn [app run]; [reflexivity|]. destruct (step e s); [apply IH|reflexivity]. Qed.

(** ** A discipline that Tree Borrows accepts *)

(** The pointers made so far, and whether each may be written through. *)
Definition names := list (tag * bool).
Fixpoint named (t : tag) (ks : names) : option bool :=
  match ks with [] => None | (u, b) :: r => if tag_eqb u t then Some b else named t r end.
Definition kin (parent new : tag) : bool :=
  match parent, new with Owner, Ptr _ _ => true | Ptr i _, Ptr j _ => Nat.eqb i j | _, Owner => false end.
Definition wf_step (l : loc) (e : event) (ks : names) : option names :=
  match e with
  | Reborrow k parent new range =>
      if range l then
        match named parent ks, named new ks with
        | Some b, None =>
            if kin parent new then
              match k with
              | Mutable | Raw => if b then Some ((new, true) :: ks) else None
              | Shared => Some ((new, false) :: ks)
              end
            else None
        | _, _ => None
        end
      else Some ks
  | Use write t l' => if loc_eqb l l' then (if write then None else match named t ks with Some _ => Some ks | None => None end) else Some ks
  end.

Definition perm_of (k : bool) (p : option tb_perm) : Prop :=
  if k then p = None \/ p = Some Reserved else p = Some Frozen.
Inductive agrees : names -> tree -> Prop :=
| agrees_root s : s = Reserved \/ s = Active -> agrees [(Owner, true)] [(Owner, Owner, Some s)]
| agrees_node t parent b b0 p ks n : agrees ks n -> named parent ks = Some b0 -> named t ks = None -> kin parent t = true -> (b = true -> b0 = true) ->
    perm_of b p -> agrees ((t, b) :: ks) ((t, parent, p) :: n).

Lemma agrees_known ks n t : agrees ks n -> known t n = match named t ks with Some _ => true | None => false end.
Proof.
  induction 1 as [s H|u parent b b0 p ks n A IH F1 F2 K B P]; unfold known in *; cbn [existsb named fst].
  - destruct (tag_eqb Owner t); reflexivity.
  - destruct (tag_eqb u t); [reflexivity|]. cbn. exact IH.
Qed.
Lemma chain_names n t u : In u (chain n t) -> known u n = true.
Proof.
  unfold known. revert t. induction n as [|[[v parent] p] n IH]; intros t; cbn [chain existsb fst]; [intros []|].
  destruct (tag_eqb v t); [intros [->|H]|intros H].
  - rewrite tag_eqb_refl. reflexivity.
  - rewrite (IH _ H). apply orb_true_r.
  - rewrite (IH _ H). apply orb_true_r.
Qed.
Lemma chain_owner ks n t b : agrees ks n -> named t ks = Some b -> In Owner (chain n t).
Proof.
  intros A. revert t b. induction A as [s H|u parent b1 b0 p ks n A IH F1 F2 K B P]; intros t b; cbn [named chain].
  - destruct (tag_eqb Owner t); [intros _; left; reflexivity|discriminate].
  - destruct (tag_eqb u t); intros F; [right; exact (IH _ _ F1)|exact (IH _ _ F)].
Qed.
Lemma read_keeps ks n through : agrees ks n -> In Owner through -> tb_update false through n = Some n.
Proof.
  intros A HO. induction A as [s H|u parent b b0 p ks n A IH F1 F2 K B P]; cbn [tb_update].
  - replace (among Owner through) with true by (symmetry; apply among_in; exact HO). destruct H as [->| ->]; reflexivity.
  - rewrite IH. destruct b; cbn in P; [destruct P as [->| ->]| subst p]; [reflexivity|destruct (among u through); reflexivity..].
Qed.
Lemma tb_read ks n t b : agrees ks n -> named t ks = Some b -> tb_access false t n = Some n.
Proof.
  intros A F. unfold tb_access. rewrite (agrees_known _ _ t A), F. apply (read_keeps ks); [exact A|exact (chain_owner _ _ _ _ A F)].
Qed.
Lemma wf_tb_step l e ks ks' n : agrees ks n -> wf_step l e ks = Some ks' ->
  exists add, tb_step l e n = Some (add ++ n) /\ agrees ks' (add ++ n) /\
    match e with Reborrow Mutable parent new range => range l = true -> add = [(new, parent, Some Reserved)] | _ => True end.
Proof.
  intros A W. destruct e as [k parent new range|write t l']; cbn [wf_step tb_step] in *.
  - destruct (range l).
    + destruct (named parent ks) as [b|] eqn:F1; [|discriminate]. destruct (named new ks) eqn:F2; [discriminate|].
      destruct (kin parent new) eqn:K; [|discriminate]. destruct k.
      * destruct b; [|discriminate]. injection W as <-. rewrite (tb_read _ _ _ _ A F1). exists [(new, parent, Some Reserved)].
        split; [reflexivity|]. split; [|reflexivity]. cbn [app]. eapply agrees_node; eauto. right. reflexivity.
      * injection W as <-. rewrite (tb_read _ _ _ _ A F1). exists [(new, parent, Some Frozen)].
        split; [reflexivity|]. split; [|exact I]. cbn [app]. eapply agrees_node; eauto; [discriminate|reflexivity].
      * destruct b; [|discriminate]. injection W as <-. rewrite (agrees_known _ _ parent A), F1. exists [(new, parent, None)].
        split; [reflexivity|]. split; [|exact I]. cbn [app]. eapply agrees_node; eauto. left. reflexivity.
    + injection W as <-. exists []. split; [reflexivity|]. split; [exact A|]. destruct k; [discriminate|exact I..].
  - destruct (loc_eqb l l').
    + destruct write; [discriminate|]. destruct (named t ks) eqn:F; [|discriminate]. injection W as <-. exists []. cbn [app].
      rewrite (tb_read _ _ _ _ A F). auto.
    + injection W as <-. exists []. cbn [app]. auto.
Qed.
Lemma wf_tb l p ks ks' n : agrees ks n -> run (wf_step l) p ks = Some ks' ->
  exists add, run (tb_step l) p n = Some (add ++ n) /\ agrees ks' (add ++ n) /\
    forall parent new range, In (Reborrow Mutable parent new range) p -> range l = true -> In (new, parent, Some Reserved) add.
Proof.
  revert ks n. induction p as [|e p IH]; intros ks n A W; cbn [run] in *.
  - injection W as <-. exists []. cbn. auto.
  - destruct (wf_step l e ks) as [ks1|] eqn:E; [|discriminate]. destruct (wf_tb_step l e ks ks1 n A E) as [add [S [A1 R]]]. rewrite S.
    destruct (IH ks1 (add ++ n) A1 W) as [more [S2 [A2 R2]]]. exists (more ++ add). rewrite <- app_assoc. split; [exact S2|]. split; [exact A2|].
    intros parent new range [->|HI] HR; apply in_or_app; [right; rewrite (R HR); left; reflexivity|left; exact (R2 _ _ _ HI HR)].
Qed.

(** ** What can be done with the result *)
Definition fresh_perm (p : option tb_perm) : Prop := p = None \/ p = Some Reserved \/ p = Some Active.
Definition writable (t : tag) (n : tree) : Prop :=
  known t n = true /\ forall u parent p, In (u, parent, p) n -> In u (chain n t) -> fresh_perm p.
Lemma named_in ks n u parent p : agrees ks n -> In (u, parent, p) n -> named u ks <> None.
Proof.
  intros A HI. pose proof (agrees_known _ _ u A) as K. destruct (named u ks); [discriminate|]. exfalso.
  enough (known u n = true) by congruence. apply existsb_exists. eexists. split; [exact HI|apply tag_eqb_refl].
Qed.
Lemma agrees_writable ks n t : agrees ks n -> named t ks = Some true -> writable t n.
Proof.
  intros A F. split; [rewrite (agrees_known _ _ t A), F; reflexivity|].
  revert t F. induction A as [s H|v parent b b0 q ks n A IH F1 F2 K B P]; intros t F u par p HI HC.
  - destruct HI as [HI|[]]. injection HI as <- <- <-. destruct H as [->| ->]; unfold fresh_perm; auto.
  - cbn [named chain] in F, HC. destruct (tag_eqb v t) eqn:E.
    + injection F as ->. specialize (B eq_refl). subst b0. cbn in P. destruct HI as [HI|HI].
      * injection HI as <- <- <-. unfold fresh_perm. destruct P; auto.
      * destruct HC as [->|HC]; [exfalso; exact (named_in _ _ _ _ _ A HI F2)|]. exact (IH _ F1 _ _ _ HI HC).
    + destruct HI as [HI|HI]; [|exact (IH _ F _ _ _ HI HC)]. injection HI as <- <- <-. exfalso.
      apply chain_names in HC. rewrite (agrees_known _ _ v A), F2 in HC. discriminate.
Qed.
Lemma update_skeleton w through n n' : tb_update w through n = Some n' -> map fst n' = map fst n.
Proof.
  revert n'. induction n as [|[[u parent] p] n IH]; intros n' H; cbn [tb_update] in H; [injection H as <-; reflexivity|].
  destruct (tb_update w through n) as [r|]; [|discriminate]. destruct p as [p|].
  - destruct (among u through); [destruct (tb_local w p) as [p'|]; [|discriminate]|]; injection H as <-; cbn; rewrite (IH r eq_refl); reflexivity.
  - injection H as <-. cbn. rewrite (IH r eq_refl). reflexivity.
Qed.
Lemma chain_skeleton n n' t : map fst n' = map fst n -> chain n' t = chain n t.
Proof.
  revert n' t. induction n as [|[[u parent] p] n IH]; intros [|[[u' parent'] p'] n'] t H; try discriminate; [reflexivity|].
  cbn in H. injection H as -> -> H. cbn [chain]. rewrite !(IH _ _ H). reflexivity.
Qed.
Lemma known_skeleton n n' t : map fst n' = map fst n -> known t n' = known t n.
Proof.
  revert n'. induction n as [|[[u parent] p] n IH]; intros [|[[u' parent'] p'] n'] H; try discriminate; [reflexivity|].
  cbn in H. injection H as -> -> H. unfold known in *. cbn [existsb fst]. rewrite (IH _ H). reflexivity.
Qed.
Lemma update_fresh w through n : (forall u parent p, In (u, parent, p) n -> In u through -> fresh_perm p) ->
  exists n', tb_update w through n = Some n' /\ forall u parent p, In (u, parent, p) n' -> In u through -> fresh_perm p.
Proof.
  induction n as [|[[u parent] p] n IH]; intros H; cbn [tb_update]; [exists []; split; [reflexivity|intros ? ? ? []]|].
  destruct IH as [r [-> R]]; [intros ? ? ? HI; apply (H _ parent0); right; exact HI|]. destruct p as [p|].
  - destruct (among u through) eqn:A.
    + destruct (H u parent (Some p)) as [E|[E|E]]; [left; reflexivity|apply among_in; exact A|discriminate|..]; injection E as ->; destruct w; cbn;
        eexists; (split; [reflexivity|]); intros v par q [HI|HI] HT; try exact (R _ _ _ HI HT); injection HI as <- <- <-; unfold fresh_perm; auto.
    + eexists. split; [reflexivity|]. intros v par q [HI|HI] HT; [|exact (R _ _ _ HI HT)]. injection HI as <- <- <-.
      apply among_in in HT. congruence.
  - eexists. split; [reflexivity|]. intros v par q [HI|HI] HT; [|exact (R _ _ _ HI HT)]. injection HI as <- <- <-. left. reflexivity.
Qed.
Lemma writable_access w t n : writable t n -> exists n', tb_access w t n = Some n' /\ writable t n'.
Proof.
  intros [K F]. unfold tb_access. rewrite K. destruct (update_fresh w (chain n t) n F) as [n' [E F']]. exists n'. split; [exact E|].
  pose proof (update_skeleton _ _ _ _ E) as S. split; [rewrite (known_skeleton _ _ _ S); exact K|].
  rewrite (chain_skeleton _ _ _ S). exact F'.
Qed.
Lemma writable_run l t p n : writable t n -> (forall e, In e p -> exists w l', e = Use w t l' \/ (exists t', e = Use w t' l' /\ l' <> l)) ->
  run (tb_step l) p n <> None.
Proof.
  revert n. induction p as [|e p IH]; intros n W H; cbn [run]; [discriminate|].
  assert (H' : forall e, In e p -> exists w l', e = Use w t l' \/ (exists t', e = Use w t' l' /\ l' <> l)) by (intros; apply H; right; assumption).
  destruct (H e (or_introl eq_refl)) as [w [l' [->|[t' [-> D]]]]]; cbn [tb_step].
  - destruct (loc_eqb l l').
    + destruct (writable_access w t n W) as [n' [-> W']]. exact (IH _ W' H').
    + exact (IH _ W H').
  - replace (loc_eqb l l') with false by (symmetry; destruct (loc_eqb l l') eqn:E; [apply loc_eqb_spec in E; congruence|reflexivity]). exact (IH _ W H').
Qed.

(** A write disables the pointers of all other calls. *)
Lemma chain_kin ks n i w u : agrees ks n -> In u (chain n (Ptr i w)) -> u = Owner \/ exists v, u = Ptr i v.
Proof.
  intros A. revert i w. induction A as [s H|v parent b b0 p ks n A IH F1 F2 K B P]; intros i w; cbn [chain].
  - cbn. intros [].
  - destruct (tag_eqb v (Ptr i w)) eqn:E; [|apply IH]. apply tag_eqb_spec in E. subst v. intros [<-|HC]; [right; eauto|].
    destruct parent as [|j x]; cbn in K.
    + left. clear IH P F1 F2. induction A as [s H|v parent b1 b2 q ks n A IH F1 F2 K2 B2 P2]; cbn [chain] in HC.
      * destruct HC as [<-|[]]. reflexivity.
      * destruct (tag_eqb v Owner) eqn:E; [|exact (IH HC)]. apply tag_eqb_spec in E. subst v. destruct parent; discriminate.
    + apply Nat.eqb_eq in K. subst j. exact (IH _ _ HC).
Qed.
Lemma update_disables through n n' t parent p : tb_update true through n = Some n' -> In (t, parent, Some p) n -> ~ In t through ->
  In (t, parent, Some TbDisabled) n'.
Proof.
  revert n'. induction n as [|[[u par] q] n IH]; intros n' H HI HN; cbn [tb_update] in H; [destruct HI|].
  destruct (tb_update true through n) as [r|]; [|discriminate].
  destruct HI as [HI|HI].
  - injection HI as -> -> ->. destruct (among t through) eqn:A; [apply among_in in A; contradiction|]. injection H as <-. left. reflexivity.
  - specialize (IH r eq_refl HI HN). destruct q as [q|]; [destruct (among u through); [destruct (tb_local true q); [|discriminate]|]|];
      injection H as <-; right; exact IH.
Qed.
Lemma disabled_stops through n t parent w : In (t, parent, Some TbDisabled) n -> In t through -> tb_update w through n = None.
Proof.
  induction n as [|[[u par] q] n IH]; intros HI HT; cbn [tb_update]; [destruct HI|]. destruct HI as [HI|HI].
  - injection HI as -> -> ->. destruct (tb_update w through n); [|reflexivity]. apply among_in in HT. rewrite HT. destruct w; reflexivity.
  - rewrite (IH HI HT). reflexivity.
Qed.
Lemma chain_self n t : known t n = true -> In t (chain n t).
Proof.
  unfold known. induction n as [|[[u par] q] n IH]; cbn [existsb chain fst]; [discriminate|]. destruct (tag_eqb u t) eqn:E.
  - apply tag_eqb_spec in E. subst u. intros _. left. reflexivity.
  - exact IH.
Qed.
Lemma other_call_stopped ks n i j w par : agrees ks n -> i <> j -> named (Ptr i w) ks <> None -> In (Ptr j w, par, Some Reserved) n ->
  match tb_access true (Ptr i w) n with Some n' => tb_access false (Ptr j w) n' = None | None => True end.
Proof.
  intros A D F HI. unfold tb_access at 1. rewrite (agrees_known _ _ _ A). destruct (named (Ptr i w) ks) eqn:E; [|congruence].
  destruct (tb_update true (chain n (Ptr i w)) n) as [n'|] eqn:U; [|exact I]. unfold tb_access.
  assert (K : known (Ptr j w) n = true) by (apply existsb_exists; eexists; split; [exact HI|apply tag_eqb_refl]).
  pose proof (update_skeleton _ _ _ _ U) as S. rewrite (known_skeleton _ _ _ S), K.
  eapply disabled_stops.
  - eapply update_disables; [exact U|exact HI|]. intros HC. destruct (chain_kin _ _ _ _ _ A HC) as [X|[v X]]; congruence.
  - rewrite (chain_skeleton _ _ _ S). apply chain_self. exact K.
Qed.

(** ** Stacked Borrows: a mutable reborrow of the whole from the owner ends all other borrows *)
Definition based (s : stack) : Prop := exists r, s = r ++ [(Unique, Owner)] /\ ~ In Owner (map snd r).
Definition tags (s : stack) : list tag := map snd s.

Lemma granting_split w t s a g b : granting w t s = Some (a, g, b) -> s = a ++ g :: b /\ snd g = t /\ grants w (fst g) = true.
Proof.
  revert a g b. induction s as [|[p u] s IH]; intros a g b; cbn [granting]; [discriminate|].
  destruct (tag_eqb u t && grants w p) eqn:E.
  - intros H. injection H as <- <- <-. apply andb_prop in E. destruct E as [E1 E2]. apply tag_eqb_spec in E1. auto.
  - destruct (granting w t s) as [[[a' g'] b']|]; [|discriminate]. intros H. injection H as <- <- <-.
    destruct (IH _ _ _ eq_refl) as [-> [H1 H2]]. auto.
Qed.
Lemma granting_tag w t s : ~ In t (tags s) -> granting w t s = None.
Proof.
  intros H. destruct (granting w t s) as [[[a g] b]|] eqn:E; [|reflexivity]. destruct (granting_split _ _ _ _ _ _ E) as [-> [<- _]].
  exfalso. apply H. unfold tags. rewrite map_app. apply in_or_app. right. left. reflexivity.
Qed.
Lemma rw_block_suffix s : exists a, s = a ++ rw_block s.
Proof.
  induction s as [|[p u] s [a IH]]; [exists []; reflexivity|]. cbn [rw_block]. destruct (forallb _ _); [exists []; reflexivity|].
  exists ((p, u) :: a). cbn. f_equal. exact IH.
Qed.
Lemma compatible_suffix p s : exists a, s = a ++ compatible p s.
Proof. unfold compatible. destruct (is_rw p); [apply rw_block_suffix|exists s; rewrite app_nil_r; reflexivity]. Qed.
Lemma access_tags w t s s' : sb_access w t s = Some s' -> incl (tags s') (tags s).
Proof.
  unfold sb_access. destruct (granting w t s) as [[[a g] b]|] eqn:E; [|discriminate]. destruct (granting_split _ _ _ _ _ _ E) as [-> _].
  intros H. injection H as <-. unfold tags. rewrite !map_app. intros x Hx. apply in_app_or in Hx. apply in_or_app.
  destruct Hx as [Hx|Hx]; [left|right; exact Hx]. destruct w.
  - destruct (compatible_suffix (fst g) a) as [a' E']. rewrite E', map_app. apply in_or_app. right. exact Hx.
  - rewrite map_map in Hx. apply in_map_iff in Hx. destruct Hx as [[p u] [<- Hx]]. apply in_map_iff. exists (p, u). split; [|exact Hx].
    destruct p; reflexivity.
Qed.
Definition introduces (e : event) : list tag := match e with Reborrow _ _ new _ => [new] | Use _ _ _ => [] end.
Lemma step_tags l e s s' : sb_step l e s = Some s' -> incl (tags s') (introduces e ++ tags s).
Proof.
  destruct e as [k parent new range|w t l']; cbn [sb_step introduces].
  - destruct (range l); [|intros H; injection H as <-; intros x Hx; right; exact Hx]. destruct k.
    + destruct (sb_access true parent s) as [s1|] eqn:E; [|discriminate]. intros H. injection H as <-. apply access_tags in E.
      intros x [<-|Hx]; [left; reflexivity|right; exact (E x Hx)].
    + destruct (sb_access false parent s) as [s1|] eqn:E; [|discriminate]. intros H. injection H as <-. apply access_tags in E.
      intros x [<-|Hx]; [left; reflexivity|right; exact (E x Hx)].
    + destruct (granting true parent s) as [[[a g] b]|] eqn:E; [|discriminate]. intros H. injection H as <-.
      destruct (granting_split _ _ _ _ _ _ E) as [-> _]. unfold tags. rewrite !map_app. cbn [map snd]. rewrite !map_app.
      intros x Hx. apply in_app_or in Hx. destruct Hx as [Hx|[<-|Hx]]; [|left; reflexivity|].
      * cbn [app]. right. apply in_or_app. left. rewrite <- (firstn_skipn (length a - length (compatible (fst g) a)) a). rewrite map_app. apply in_or_app. left. exact Hx.
      * cbn [app]. right. apply in_app_or in Hx. apply in_or_app. destruct Hx as [Hx|Hx]; [left|right; exact Hx].
        destruct (compatible_suffix (fst g) a) as [a' E']. rewrite E', map_app. apply in_or_app. right. exact Hx.
  - destruct (loc_eqb l l'); [apply access_tags|intros H; injection H as <-; intros x Hx; exact Hx].
Qed.
Lemma run_tags l p s s' : run (sb_step l) p s = Some s' -> incl (tags s') (flat_map introduces p ++ tags s).
Proof.
  revert s. induction p as [|e p IH]; intros s H; cbn [run flat_map] in *; [injection H as <-; intros x Hx; exact Hx|].
  destruct (sb_step l e s) as [s1|] eqn:E; [|discriminate]. specialize (IH _ H). apply step_tags in E. intros x Hx. specialize (IH x Hx).
  rewrite <- app_assoc. apply in_app_or in IH. destruct IH as [IH|IH]; [apply in_or_app; right; apply in_or_app; left; exact IH|].
  specialize (E x IH). apply in_app_or in E. apply in_or_app. destruct E; [left|right; apply in_or_app; right]; assumption.
Qed.

Lemma split_based (a b r : stack) g : a ++ g :: b = r ++ [(Unique, Owner)] ->
  (b = [] /\ g = (Unique, Owner) /\ a = r) \/ exists b', b = b' ++ [(Unique, Owner)] /\ r = a ++ g :: b'.
Proof.
  destruct (exists_last (l := g :: b)) as [b' [x E]]; [discriminate|]. rewrite E, app_assoc. intros H. apply app_inj_tail in H. destruct H as [H ->].
  destruct b' as [|g' b']; cbn in E; injection E as -> ->.
  - left. rewrite app_nil_r in H. auto.
  - right. exists b'. auto.
Qed.
Lemma based_access w t s s' : based s -> sb_access w t s = Some s' -> based s'.
Proof.
  intros [r [-> N]]. unfold sb_access. destruct (granting w t (r ++ [(Unique, Owner)])) as [[[a g] b]|] eqn:E; [|discriminate].
  destruct (granting_split _ _ _ _ _ _ E) as [S _]. intros H. injection H as <-.
  set (keep := if w then compatible (fst g) a else map (fun i => match fst i with Unique => (SbDisabled, snd i) | _ => i end) a).
  assert (KT : incl (map snd keep) (map snd a)).
  { unfold keep. destruct w.
    - destruct (compatible_suffix (fst g) a) as [a' E']. rewrite E' at 2. rewrite map_app. apply incl_appr, incl_refl.
    - rewrite map_map. intros x Hx. apply in_map_iff in Hx. destruct Hx as [[p u] [<- Hx]]. apply in_map_iff. exists (p, u). split; [|exact Hx].
      destruct p; reflexivity. }
  symmetry in S. destruct (split_based _ _ _ _ S) as [[-> [-> ->]]|[b' [-> ->]]].
  - exists keep. split; [reflexivity|]. intros X. exact (N (KT _ X)).
  - exists (keep ++ g :: b'). split; [rewrite <- app_assoc; reflexivity|]. intros X. apply N. rewrite map_app in *. apply in_app_or in X.
    apply in_or_app. destruct X as [X|X]; [left; exact (KT _ X)|right; exact X].
Qed.
Lemma firstn_above (a a' keep : stack) : a = a' ++ keep -> firstn (length a - length keep) a = a'.
Proof.
  intros ->. rewrite app_length, firstn_app. replace (length a' + length keep - length keep)%nat with (length a') by lia.
  rewrite firstn_all, Nat.sub_diag. cbn. apply app_nil_r.
Qed.
Lemma based_step l e s s' : ~ In Owner (introduces e) -> based s -> sb_step l e s = Some s' -> based s'.
Proof.
  intros NI B. destruct e as [k parent new range|w t l']; cbn [sb_step introduces] in *.
  - destruct (range l); [|intros H; injection H as <-; exact B].
    assert (PUSH : forall p s1, based s1 -> based ((p, new) :: s1)).
    { intros p s1 [r [-> N]]. exists ((p, new) :: r). split; [reflexivity|]. intros [X|X]; [apply NI; left; exact X|exact (N X)]. }
    destruct k.
    + destruct (sb_access true parent s) as [s1|] eqn:E; [|discriminate]. intros H. injection H as <-. apply PUSH. exact (based_access _ _ _ _ B E).
    + destruct (sb_access false parent s) as [s1|] eqn:E; [|discriminate]. intros H. injection H as <-. apply PUSH. exact (based_access _ _ _ _ B E).
    + destruct B as [r [-> N]]. destruct (granting true parent (r ++ [(Unique, Owner)])) as [[[a g] b]|] eqn:E; [|discriminate].
      destruct (granting_split _ _ _ _ _ _ E) as [S _]. intros H. injection H as <-. symmetry in S.
      destruct (compatible_suffix (fst g) a) as [a' E']. set (keep := compatible (fst g) a) in *.
      clearbody keep. rewrite (firstn_above _ _ _ E').
      destruct (split_based _ _ _ _ S) as [[-> [-> ->]]|[b' [-> ->]]].
      * exists (a' ++ (SharedRW, new) :: keep). split; [rewrite <- app_assoc; reflexivity|]. rewrite map_app. intros X.
        apply in_app_or in X. destruct X as [X|[X|X]]; [|apply NI; left; exact X|]; apply N; rewrite E', map_app; apply in_or_app; auto.
      * exists (a' ++ (SharedRW, new) :: keep ++ g :: b'). split; [rewrite <- !app_assoc; cbn; rewrite <- app_assoc; reflexivity|].
        rewrite !map_app. cbn [map snd]. rewrite map_app. intros X. apply N. rewrite E' , !map_app. cbn [map snd].
        apply in_app_or in X. destruct X as [X|[X|X]]; [|exfalso; apply NI; left; exact X|].
        -- apply in_or_app. left. apply in_or_app. left. exact X.
        -- apply in_app_or in X. apply in_or_app. destruct X as [X|X]; [left; apply in_or_app; right; exact X|right; exact X].
  - destruct (loc_eqb l l'); [apply based_access; exact B|intros H; injection H as <-; exact B].
Qed.
Lemma based_run l p s s' : ~ In Owner (flat_map introduces p) -> based s -> run (sb_step l) p s = Some s' -> based s'.
Proof.
  revert s. induction p as [|e p IH]; intros s N B H; cbn [run flat_map] in *; [injection H as <-; exact B|].
  destruct (sb_step l e s) as [s1|] eqn:E; [|discriminate]. eapply IH; [|eapply based_step; [|exact B|exact E]|exact H]; intros X; apply N, in_or_app; auto.
Qed.
Lemma owner_takes_all l new range s s' : range l = true -> based s -> sb_step l (Reborrow Mutable Owner new range) s = Some s' ->
  s' = [(Unique, new); (Unique, Owner)].
Proof.
  intros R [r [-> N]]. cbn [sb_step]. rewrite R. unfold sb_access. destruct (granting true Owner (r ++ [(Unique, Owner)])) as [[[a g] b]|] eqn:E; [|discriminate].
  destruct (granting_split _ _ _ _ _ _ E) as [S [T _]]. symmetry in S. destruct (split_based _ _ _ _ S) as [[-> [-> ->]]|[b' [-> ->]]].
  - cbn. intros H. injection H as <-. reflexivity.
  - exfalso. apply N. rewrite map_app. apply in_or_app. right. left. exact T.
Qed.
(** So a pointer made before can no longer be used. *)
Lemma ended l pre new range post k t new' range' rest : range l = true -> range' l = true ->
  ~ In Owner (flat_map introduces pre) -> t <> Owner -> t <> new -> ~ In t (flat_map introduces post) ->
  run (sb_step l) (pre ++ Reborrow Mutable Owner new range :: post ++ Reborrow k t new' range' :: rest) [(Unique, Owner)] = None.
Proof.
  intros R R' N1 D1 D2 N2. rewrite run_app. destruct (run (sb_step l) pre [(Unique, Owner)]) as [s|] eqn:E; [|reflexivity]. cbn [run].
  assert (B : based s) by (eapply based_run; [exact N1| |exact E]; exists []; split; [reflexivity|intros []]).
  destruct (sb_step l (Reborrow Mutable Owner new range) s) as [s1|] eqn:E1; [|reflexivity]. apply owner_takes_all in E1; [|exact R|exact B]. subst s1.
  rewrite run_app. destruct (run (sb_step l) post [(Unique, new); (Unique, Owner)]) as [s2|] eqn:E2; [|reflexivity]. cbn [run].
  apply run_tags in E2. assert (X : ~ In t (tags s2)).
  { intros X. apply E2 in X. apply in_app_or in X. destruct X as [X|[X|[X|[]]]]; [contradiction|cbn in X; congruence..]. }
  cbn [sb_step]. rewrite R'. unfold sb_access. destruct k; rewrite ?(granting_tag _ _ _ X); reflexivity.
Qed.
