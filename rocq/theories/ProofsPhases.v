(** Programs that are defined on their own are defined one after the other, under both aliasing models. *)
From Coq Require Import Cantor.
From Verif Require Import SpecAliasing SpecPhases ProofsAliasing.
From Verif Require Import Prelude.

(** ** Renaming *)
Section Renaming.
Variable g : tag -> tag.
Variable inj : forall a b, tag_eqb (g a) (g b) = tag_eqb a b.

Definition re_item (i : sb_perm * tag) : sb_perm * tag := (fst i, g (snd i)).
Lemma re_granting w t s : granting w (g t) (map re_item s) =
  match granting w t s with Some (above, x, below) => Some (map re_item above, re_item x, map re_item below) | None => None end.
Proof.
  induction s as [|[p u] s IH]; cbn; [reflexivity|]. rewrite inj. destruct (tag_eqb u t && grants w p); [reflexivity|].
  rewrite IH. destruct (granting w t s) as [[[a x] b]|]; reflexivity.
Qed.
Lemma re_all_rw s : forallb (fun i => is_rw (fst i)) (map re_item s) = forallb (fun i => is_rw (fst i)) s.
Proof. induction s as [|i s IH]; cbn; [reflexivity|]. rewrite IH. reflexivity. Qed.
Lemma re_compatible p s : compatible p (map re_item s) = map re_item (compatible p s).
Proof.
  unfold compatible. destruct (is_rw p); [|reflexivity]. induction s as [|i s IH]; cbn [map]; [reflexivity|].
  assert (U : forall x r, rw_block (x :: r) = if forallb (fun i => is_rw (fst i)) (x :: r) then x :: r else rw_block r) by (intros [] r; reflexivity).
  rewrite !U. pose proof (re_all_rw (i :: s)) as E. cbn [map] in E. rewrite E. destruct (forallb _ (i :: s)); [reflexivity|exact IH].
Qed.
Lemma re_access w t s : sb_access w (g t) (map re_item s) = option_map (map re_item) (sb_access w t s).
Proof.
  unfold sb_access. rewrite re_granting. destruct (granting w t s) as [[[a x] b]|]; [|reflexivity]. cbn [option_map]. f_equal. rewrite map_app. cbn [map]. f_equal.
  destruct w; [cbn [re_item fst]; apply re_compatible|]. rewrite !map_map. apply map_ext. intros [[] u]; reflexivity.
Qed.
Lemma re_sb_step l e s : sb_step l (rename g e) (map re_item s) = option_map (map re_item) (sb_step l e s).
Proof.
  destruct e as [k parent new range|w t l']; cbn [rename sb_step].
  - destruct (range l); [|reflexivity]. destruct k.
    + rewrite re_access. destruct (sb_access true parent s); reflexivity.
    + rewrite re_access. destruct (sb_access false parent s); reflexivity.
    + rewrite re_granting. destruct (granting true parent s) as [[[a x] b]|]; [|reflexivity]. cbn [option_map re_item fst]. rewrite re_compatible, !map_length.
      f_equal. rewrite map_app, firstn_map. cbn [map]. rewrite map_app. reflexivity.
  - destruct (loc_eqb l l'); [apply re_access|reflexivity].
Qed.
Lemma re_sb_run l p s : run (sb_step l) (map (rename g) p) (map re_item s) = option_map (map re_item) (run (sb_step l) p s).
Proof. revert s. induction p as [|e p IH]; intros s; cbn [map run]; [reflexivity|]. rewrite re_sb_step. destruct (sb_step l e s); [apply IH|reflexivity]. Qed.

Definition re_node (x : tag * tag * option tb_perm) : tag * tag * option tb_perm := (g (fst (fst x)), g (snd (fst x)), snd x).
Lemma re_chain n t : chain (map re_node n) (g t) = map g (chain n t).
Proof. revert t. induction n as [|[[u q] p] n IH]; intros t; cbn; [reflexivity|]. rewrite inj. destruct (tag_eqb u t); cbn; rewrite IH; reflexivity. Qed.
Lemma re_known n t : known (g t) (map re_node n) = known t n.
Proof. unfold known. induction n as [|[[u q] p] n IH]; cbn; [reflexivity|]. rewrite inj, IH. reflexivity. Qed.
Lemma re_among t l : among (g t) (map g l) = among t l.
Proof. unfold among. induction l as [|u l IH]; cbn; [reflexivity|]. rewrite inj, IH. reflexivity. Qed.
Lemma re_update w through n : tb_update w (map g through) (map re_node n) = option_map (map re_node) (tb_update w through n).
Proof.
  induction n as [|[[u q] p] n IH]; cbn; [reflexivity|]. rewrite IH, re_among. destruct (tb_update w through n) as [r|]; [|reflexivity]. cbn.
  destruct p as [p|]; [|reflexivity]. destruct (among u through); [|reflexivity]. destruct (tb_local w p); reflexivity.
Qed.
Lemma re_tb_access w t n : tb_access w (g t) (map re_node n) = option_map (map re_node) (tb_access w t n).
Proof. unfold tb_access. rewrite re_known, re_chain. destruct (known t n); [apply re_update|reflexivity]. Qed.
Lemma re_tb_step l e n : tb_step l (rename g e) (map re_node n) = option_map (map re_node) (tb_step l e n).
Proof.
  destruct e as [k parent new range|w t l']; cbn [rename tb_step].
  - destruct (range l); [|reflexivity]. destruct k; [rewrite re_tb_access; destruct (tb_access false parent n); reflexivity..|].
    rewrite re_known. destruct (known parent n); reflexivity.
  - destruct (loc_eqb l l'); [apply re_tb_access|reflexivity].
Qed.
Lemma re_tb_run l p n : run (tb_step l) (map (rename g) p) (map re_node n) = option_map (map re_node) (run (tb_step l) p n).
Proof. revert n. induction p as [|e p IH]; intros n; cbn [map run]; [reflexivity|]. rewrite re_tb_step. destruct (tb_step l e n); [apply IH|reflexivity]. Qed.
End Renaming.

Lemma apart_inj k a b : tag_eqb (apart k a) (apart k b) = tag_eqb a b.
Proof.
  destruct a as [|i v], b as [|j w]; try reflexivity. cbn [apart tag_eqb]. f_equal. destruct (Nat.eqb i j) eqn:E.
  - apply Nat.eqb_eq in E. subst j. apply Nat.eqb_refl.
  - apply Nat.eqb_neq in E. apply Nat.eqb_neq. intros H. apply E. apply Cantor.to_nat_inj in H. congruence.
Qed.

(** Which program a name is of. *)
Definition turn_of (t : tag) : option nat := match t with Owner => None | Ptr c _ => Some (fst (Cantor.of_nat c)) end.
Lemma turn_apart k t : apart k t = Owner \/ turn_of (apart k t) = Some k.
Proof. destruct t as [|i w]; [left; reflexivity|]. right. cbn [apart turn_of]. rewrite Cantor.cancel_of_to. reflexivity. Qed.
Definition past (k : nat) (t : tag) : Prop := exists j, turn_of t = Some j /\ (j < k)%nat.
Definition now (k : nat) (t : tag) : Prop := turn_of t = Some k.
Lemma past_owner k t : past k t -> t <> Owner.
Proof. intros [j [H _]] ->. discriminate. Qed.
Lemma now_owner k t : now k t -> t <> Owner.
Proof. intros H ->. discriminate. Qed.
Lemma apart_owner k t : apart k t = Owner -> t = Owner.
Proof. destruct t; [reflexivity|discriminate]. Qed.
Lemma apart_now k t : t <> Owner -> now k (apart k t).
Proof. intros H. destruct (turn_apart k t) as [E|E]; [apply apart_owner in E; contradiction|exact E]. Qed.

(** ** Stacked Borrows *)
Notation root := (Unique, Owner).
Definition tags (P : tag -> Prop) (s : stack) : Prop := Forall (fun i => P (snd i)) s.

Lemma granting_top w t (top r : stack) : match granting w t top with
  | Some (a, x, b) => granting w t (top ++ r) = Some (a, x, b ++ r)
  | None => granting w t (top ++ r) = match granting w t r with Some (a, x, b) => Some (top ++ a, x, b) | None => None end
  end.
Proof.
  induction top as [|[p u] top IH]; cbn [granting app].
  - destruct (granting w t r) as [[[a x] b]|]; reflexivity.
  - destruct (tag_eqb u t && grants w p); [reflexivity|]. destruct (granting w t top) as [[[a x] b]|]; rewrite IH; [reflexivity|].
    destruct (granting w t r) as [[[a x] b]|]; reflexivity.
Qed.
Lemma granting_parts w t s a x b : granting w t s = Some (a, x, b) -> s = a ++ x :: b /\ snd x = t.
Proof.
  revert a x b. induction s as [|[p u] s IH]; intros a x b; cbn [granting]; [discriminate|]. destruct (tag_eqb u t && grants w p) eqn:E.
  - intros H. injection H as <- <- <-. apply andb_prop in E. destruct E as [E _]. apply tag_eqb_spec in E. split; [reflexivity|exact E].
  - destruct (granting w t s) as [[[a' x'] b']|]; [|discriminate]. intros H. injection H as <- <- <-. destruct (IH _ _ _ eq_refl) as [-> E']. auto.
Qed.
Lemma granting_none w (s : stack) t : tags (fun u => u <> t) s -> granting w t s = None.
Proof.
  induction 1 as [|[p u] s H _ IH]; cbn [granting]; [reflexivity|]. cbn in H. apply tag_eqb_neq in H. rewrite H. cbn. rewrite IH. reflexivity.
Qed.

Definition foreign (t : tag) : Prop := t <> Owner.
Lemma compatible_incl p s x : In x (compatible p s) -> In x s.
Proof.
  unfold compatible. destruct (is_rw p); [|intros []]. induction s as [|[q u] s IH]; cbn [rw_block]; [intros []|]. destruct (forallb _ _); [auto|]. intros H. right. auto.
Qed.
Definition weaken (i : sb_perm * tag) : sb_perm * tag := match fst i with Unique => (SbDisabled, snd i) | _ => i end.
Lemma tags_weaken P s : tags P s -> tags P (map weaken s).
Proof. intros H. apply Forall_map. eapply Forall_impl; [|exact H]. intros [[] u] X; exact X. Qed.
Lemma tags_incl P (s s' : stack) : incl s' s -> tags P s -> tags P s'.
Proof. intros I H. apply Forall_forall. intros x Hx. exact (proj1 (Forall_forall _ _) H x (I x Hx)). Qed.

(** The same stack, but for items [J] of others above the owner. *)
Section Apart.
Variables (T J : tag -> Prop) (JO : forall t, J t -> foreign t).
Definition apart_from (clean dirty : stack) : Prop :=
  exists top junk, clean = top ++ [root] /\ dirty = top ++ junk ++ [root] /\ tags T top /\ tags J junk.
Lemma apart_access w t clean dirty clean' : apart_from clean dirty -> sb_access w t clean = Some clean' ->
  exists dirty', sb_access w t dirty = Some dirty' /\ apart_from clean' dirty'.
Proof.
  intros [top [junk [-> [-> [HT HJ]]]]]. unfold sb_access.
  pose proof (granting_top w t top [root]) as A. pose proof (granting_top w t top (junk ++ [root])) as B.
  destruct (granting w t top) as [[[a x] b]|] eqn:E.
  - rewrite A, B. intros H. injection H as <-. eexists. split; [reflexivity|]. destruct (granting_parts _ _ _ _ _ _ E) as [-> _].
    apply Forall_app in HT. destruct HT as [HA HB]. eexists ((if w then compatible (fst x) a else map weaken a) ++ x :: b), junk.
    split; [rewrite <- app_assoc; reflexivity|]. split; [rewrite <- app_assoc; reflexivity|]. split; [|exact HJ].
    apply Forall_app. split; [|exact HB]. destruct w; [|apply tags_weaken; exact HA]. eapply tags_incl; [|exact HA]. intros y. apply compatible_incl.
  - rewrite A, B. destruct t as [|c v].
    + cbn [granting tag_eqb grants andb]. pose proof (granting_top w Owner junk [root]) as C.
      rewrite (granting_none w junk Owner) in C by (eapply Forall_impl; [|exact HJ]; intros y; apply JO). rewrite C.
      cbn [granting tag_eqb grants andb]. intros H. injection H as <-. eexists. split; [reflexivity|]. rewrite !app_nil_r. destruct w; cbn [compatible is_rw fst].
      * exists [], []. split; [reflexivity|]. split; [reflexivity|]. split; constructor.
      * exists (map weaken top), (map weaken junk). split; [reflexivity|]. split; [rewrite map_app, <- app_assoc; reflexivity|]. split; apply tags_weaken; assumption.
    + cbn [granting tag_eqb andb]. discriminate.
Qed.
Lemma firstn_incl {A} i (l : list A) : incl (firstn i l) l.
Proof. intros x H. rewrite <- (firstn_skipn i l). apply in_or_app. left. exact H. Qed.
Lemma apart_step l e clean dirty clean' :
  match e with Reborrow r parent new _ => T new /\ (r = Raw -> parent <> Owner) | _ => True end ->
  apart_from clean dirty -> sb_step l e clean = Some clean' -> exists dirty', sb_step l e dirty = Some dirty' /\ apart_from clean' dirty'.
Proof.
  destruct e as [r parent new range|w t l']; cbn [sb_step].
  - intros [HN HR] AF. destruct (range l); [|intros H; injection H as <-; eauto].
    assert (Y : forall p c d, apart_from c d -> apart_from ((p, new) :: c) ((p, new) :: d)).
    { intros p c d [top [junk [-> [-> [HT HJ]]]]]. exists ((p, new) :: top), junk. repeat split; [|exact HJ]. constructor; assumption. }
    destruct r.
    + destruct (sb_access true parent clean) as [c|] eqn:E; [|discriminate]. intros H. injection H as <-. destruct (apart_access _ _ _ _ _ AF E) as [d [-> AF']]. eauto.
    + destruct (sb_access false parent clean) as [c|] eqn:E; [|discriminate]. intros H. injection H as <-. destruct (apart_access _ _ _ _ _ AF E) as [d [-> AF']]. eauto.
    + destruct AF as [top [junk [-> [-> [HT HJ]]]]]. specialize (HR eq_refl).
      pose proof (granting_top true parent top [root]) as A. pose proof (granting_top true parent top (junk ++ [root])) as B.
      destruct (granting true parent top) as [[[a x] b]|] eqn:E.
      * rewrite A, B. cbv zeta. intros H. injection H as <-. eexists. split; [reflexivity|]. destruct (granting_parts _ _ _ _ _ _ E) as [-> _].
        apply Forall_app in HT. destruct HT as [HA HB]. eexists (firstn _ a ++ (SharedRW, new) :: compatible (fst x) a ++ x :: b), junk.
        split; [rewrite <- !app_assoc; cbn [app]; rewrite <- !app_assoc; reflexivity|].
        split; [rewrite <- !app_assoc; cbn [app]; rewrite <- !app_assoc; reflexivity|]. split; [|exact HJ].
        apply Forall_app. split; [eapply tags_incl; [apply firstn_incl|exact HA]|]. constructor; [exact HN|]. apply Forall_app.
        split; [eapply tags_incl; [intros y; apply compatible_incl|exact HA]|exact HB].
      * rewrite A. destruct parent; [congruence|]. cbn [granting tag_eqb andb]. discriminate.
  - intros _ AF. destruct (loc_eqb l l'); [apply apart_access; exact AF|]. intros H. injection H as <-. eauto.
Qed.
Definition in_reach (p : list event) : Prop :=
  forall e, In e p -> match e with Reborrow k parent new _ => T new /\ (k = Raw -> parent <> Owner) | Use _ _ _ => True end.
Lemma apart_run l p clean dirty clean' : in_reach p -> apart_from clean dirty -> run (sb_step l) p clean = Some clean' ->
  exists dirty', run (sb_step l) p dirty = Some dirty' /\ apart_from clean' dirty'.
Proof.
  revert clean dirty. induction p as [|e p IH]; intros clean dirty HP AF; cbn [run]; [intros H; injection H as <-; eauto|].
  destruct (sb_step l e clean) as [c|] eqn:E; [|discriminate]. intros D.
  destruct (apart_step l e clean dirty c) as [d [-> AF']]; [exact (HP e (or_introl eq_refl))|exact AF|exact E|].
  apply (IH c d); [intros e' He'; exact (HP e' (or_intror He'))|exact AF'|exact D].
Qed.
(** Nothing that was undefined becomes defined. *)
Definition not_theirs (t : tag) : Prop := ~ J t.
Lemma stuck_granting w t clean dirty : not_theirs t -> apart_from clean dirty -> granting w t clean = None -> granting w t dirty = None.
Proof.
  intros HT [top [junk [-> [-> [_ HJ]]]]]. pose proof (granting_top w t top [root]) as A. pose proof (granting_top w t top (junk ++ [root])) as B.
  destruct (granting w t top) as [[[a x] b]|] eqn:E; rewrite A; [discriminate|]. rewrite B. destruct t as [|c v]; [cbn [granting tag_eqb grants andb]; discriminate|]. intros _.
  pose proof (granting_top w (Ptr c v) junk [root]) as C. rewrite (granting_none w junk (Ptr c v)) in C.
  - rewrite C. reflexivity.
  - eapply Forall_impl; [|exact HJ]. intros y HY EY. cbn beta in *. rewrite EY in HY. exact (HT HY).
Qed.
Lemma stuck_step l e clean dirty : match e with Reborrow _ parent _ _ => not_theirs parent | Use _ t _ => not_theirs t end ->
  apart_from clean dirty -> sb_step l e clean = None -> sb_step l e dirty = None.
Proof.
  intros HT AF.
  assert (X : forall w t, not_theirs t -> sb_access w t clean = None -> sb_access w t dirty = None).
  { intros w t HN. unfold sb_access. pose proof (stuck_granting w t clean dirty HN AF) as G. destruct (granting w t clean) as [[[a x] b]|]; [discriminate|]. rewrite G; reflexivity. }
  destruct e as [r parent new range|w t l']; cbn [sb_step].
  - destruct (range l); [|discriminate]. destruct r.
    + specialize (X true parent HT). destruct (sb_access true parent clean); [discriminate|]. rewrite X; reflexivity.
    + specialize (X false parent HT). destruct (sb_access false parent clean); [discriminate|]. rewrite X; reflexivity.
    + pose proof (stuck_granting true parent clean dirty HT AF) as G. destruct (granting true parent clean) as [[[a x] b]|]; [discriminate|]. rewrite G; reflexivity.
  - destruct (loc_eqb l l'); [exact (X w t HT)|discriminate].
Qed.
Lemma stuck_run l p clean dirty : in_reach p -> (forall e, In e p -> match e with Reborrow _ parent _ _ => not_theirs parent | Use _ t _ => not_theirs t end) ->
  apart_from clean dirty -> run (sb_step l) p clean = None -> run (sb_step l) p dirty = None.
Proof.
  revert clean dirty. induction p as [|e p IH]; intros clean dirty HP HT AF; cbn [run]; [discriminate|].
  destruct (sb_step l e clean) as [c|] eqn:E.
  - destruct (apart_step l e clean dirty c) as [d [-> AF']]; [exact (HP e (or_introl eq_refl))|exact AF|exact E|].
    apply IH; [intros e' He'; exact (HP e' (or_intror He'))|intros e' He'; exact (HT e' (or_intror He'))|exact AF'].
  - intros _. rewrite (stuck_step l e clean dirty (HT e (or_introl eq_refl)) AF E). reflexivity.
Qed.
End Apart.
Lemma renamed_reach k p : from_owner p -> in_reach (now k) (map (rename (apart k)) p).
Proof.
  intros H e He. apply in_map_iff in He. destruct He as [e' [<- He]]. specialize (H e' He). destruct e' as [r parent new range|]; [|exact I].
  cbn [rename]. destruct H as [H1 H2]. split; [exact (apart_now k new H1)|]. intros R O. apply apart_owner in O. exact (H2 R O).
Qed.
Lemma not_past k t : not_theirs (past k) (apart k t).
Proof. intros [j [H L]]. destruct (turn_apart k t) as [E|E]; rewrite E in H; [discriminate|]. injection H as ->. lia. Qed.
Lemma sb_in_turn_from ps : (forall p, In p ps -> from_owner p) -> forall l k junk, tags (past k) junk ->
  run (sb_step l) (in_turn k ps) (junk ++ [root]) <> None <-> forall p, In p ps -> run (sb_step l) p [root] <> None.
Proof.
  intros F l. induction ps as [|p ps IH]; intros k junk HJ; cbn [in_turn run]; [split; [intros _ p []|discriminate]|]. rewrite run_app.
  specialize (IH (fun p' Hp' => F p' (or_intror Hp'))). pose proof (renamed_reach k p (F p (or_introl eq_refl))) as RE.
  assert (AF : apart_from (now k) (past k) [root] (junk ++ [root])). { exists [], junk. repeat split; [constructor|exact HJ]. }
  pose proof (re_sb_run (apart k) (apart_inj k) l p [root]) as RR. change (map (re_item (apart k)) [root]) with [root] in RR.
  destruct (run (sb_step l) p [root]) as [c|] eqn:E; cbn [option_map] in RR.
  - destruct (apart_run (now k) (past k) (past_owner k) l _ _ _ _ RE AF RR) as [d [-> [top [junk' [_ [-> [HT HJ']]]]]]]. rewrite app_assoc.
    rewrite (IH (S k) (top ++ junk')).
    + split; [|intros H p' Hp'; exact (H p' (or_intror Hp'))]. intros H p' [<-|Hp']; [congruence|exact (H p' Hp')].
    + apply Forall_app. split; (eapply Forall_impl; [|eassumption]); intros [q t]; cbn; [|intros [j [X L]]; exists j; split; [exact X|lia]].
      intros X. exists k. split; [exact X|lia].
  - rewrite (stuck_run (now k) (past k) (past_owner k) l _ [root] (junk ++ [root]) RE); [| |exact AF|exact RR].
    + split; [congruence|]. intros H. exfalso. exact (H p (or_introl eq_refl) E).
    + intros e He. apply in_map_iff in He. destruct He as [[r parent new range|w t l'] [<- _]]; cbn [rename]; apply not_past.
Qed.
Lemma sb_in_turn ps : (forall p, In p ps -> from_owner p) -> sb_defined (in_turn 0 ps) <-> forall p, In p ps -> sb_defined p.
Proof.
  intros F. split.
  - intros H p Hp l. exact (proj1 (sb_in_turn_from ps F l 0 [] (Forall_nil _)) (H l) p Hp).
  - intros H l. apply (sb_in_turn_from ps F l 0 [] (Forall_nil _)). intros p Hp. exact (H p Hp l).
Qed.

(** ** Tree Borrows *)
Definition keeps (k : nat) (t : tag) : bool := match turn_of t with None => true | Some j => Nat.eqb j k end.
Definition mine (k : nat) (n : tree) : tree := filter (fun x => keeps k (fst (fst x))) n.
(** What is derived from a pointer of one program is of that program. *)
Definition closed_tree (k : nat) (n : tree) : Prop := Forall (fun x => keeps k (fst (fst x)) = true -> keeps k (snd (fst x)) = true) n.

Lemma mine_chain k n t : closed_tree k n -> keeps k t = true -> chain (mine k n) t = chain n t /\ Forall (fun u => keeps k u = true) (chain n t).
Proof.
  intros C. revert t. induction C as [|[[u q] p] n H C IH]; intros t HT; cbn [mine filter chain fst]; [auto|]. cbn in H. destruct (tag_eqb u t) eqn:E.
  - apply tag_eqb_spec in E. subst u. rewrite HT. cbn [chain]. rewrite tag_eqb_refl. destruct (IH q (H HT)) as [E1 E2]. split; [f_equal; exact E1|]. constructor; assumption.
  - destruct (keeps k u); cbn [chain]; rewrite ?E; apply IH; exact HT.
Qed.
Lemma mine_known k n t : keeps k t = true -> known t (mine k n) = known t n.
Proof.
  intros HT. unfold known, mine. induction n as [|[[u q] p] n IH]; cbn; [reflexivity|]. destruct (keeps k u) eqn:E; cbn; rewrite IH; [reflexivity|].
  destruct (tag_eqb u t) eqn:E'; [apply tag_eqb_spec in E'; congruence|reflexivity].
Qed.
Lemma mine_update k w through n : Forall (fun u => keeps k u = true) through -> tb_update w through (mine k n) = option_map (mine k) (tb_update w through n).
Proof.
  intros H. unfold mine. induction n as [|[[u q] p] n IH]; cbn [filter tb_update fst]; [reflexivity|]. destruct (keeps k u) eqn:E; cbn [tb_update].
  - rewrite IH. destruct (tb_update w through n) as [r|]; [|reflexivity]. cbn [option_map]. destruct p as [p|]; [|cbn; rewrite E; reflexivity].
    destruct (among u through); [destruct (tb_local w p); [|reflexivity]|]; cbn; rewrite E; reflexivity.
  - rewrite IH. destruct (tb_update w through n) as [r|]; [|reflexivity]. cbn [option_map]. destruct p as [p|]; [|cbn; rewrite E; reflexivity].
    destruct (among u through) eqn:A; [|cbn; rewrite E; reflexivity]. apply among_in in A. pose proof (proj1 (Forall_forall _ _) H u A). congruence.
Qed.
Lemma update_skeleton w through n n' : tb_update w through n = Some n' -> map fst n' = map fst n.
Proof.
  revert n'. induction n as [|[[u q] p] n IH]; intros n'; cbn [tb_update]; [intros H; injection H as <-; reflexivity|].
  destruct (tb_update w through n) as [r|]; [|discriminate]. destruct p as [p|].
  - destruct (among u through); [destruct (tb_local w p); [|discriminate]|]; intros H; injection H as <-; cbn; f_equal; apply IH; reflexivity.
  - intros H. injection H as <-. cbn. f_equal. apply IH. reflexivity.
Qed.
Lemma access_skeleton w t n n' : tb_access w t n = Some n' -> map fst n' = map fst n.
Proof. unfold tb_access. destruct (known t n); [apply update_skeleton|discriminate]. Qed.
Lemma mine_access k w t n : closed_tree k n -> keeps k t = true -> tb_access w t (mine k n) = option_map (mine k) (tb_access w t n).
Proof.
  intros C HT. unfold tb_access. rewrite mine_known by exact HT. destruct (known t n); [|reflexivity]. destruct (mine_chain k n t C HT) as [-> F]. apply mine_update. exact F.
Qed.
Definition of_turn (k : nat) (e : event) : Prop :=
  match e with Reborrow _ parent new _ => keeps k parent = true /\ now k new | Use _ t _ => keeps k t = true end.
Lemma now_keeps k t : now k t -> keeps k t = true.
Proof. unfold now, keeps. intros ->. apply Nat.eqb_refl. Qed.
Lemma mine_step k l e n : closed_tree k n -> of_turn k e -> tb_step l e (mine k n) = option_map (mine k) (tb_step l e n).
Proof.
  intros C. destruct e as [r parent new range|w t l']; cbn [of_turn tb_step].
  - intros [HP HN]. apply now_keeps in HN. destruct (range l); [|reflexivity]. destruct r.
    + rewrite (mine_access k) by assumption. destruct (tb_access false parent n); [|reflexivity]. cbn. rewrite HN. reflexivity.
    + rewrite (mine_access k) by assumption. destruct (tb_access false parent n); [|reflexivity]. cbn. rewrite HN. reflexivity.
    + rewrite mine_known by exact HP. destruct (known parent n); [|reflexivity]. cbn. rewrite HN. reflexivity.
  - intros HT. destruct (loc_eqb l l'); [apply mine_access; assumption|reflexivity].
Qed.
(** The owner comes last, and everything is derived from it. *)
Definition rooted (n : tree) : Prop := exists nodes s, n = nodes ++ [(Owner, Owner, Some s)] /\ (s = Reserved \/ s = Active) /\
  Forall (fun x => fst (fst x) <> Owner) nodes /\ forall pre u q p post, nodes = pre ++ (u, q, p) :: post -> known q (post ++ [(Owner, Owner, Some s)]) = true.
Lemma known_skeleton t n n' : map fst n = map fst n' -> known t n = known t n'.
Proof.
  unfold known. revert n'. induction n as [|x n IH]; intros [|y n'] H; try discriminate; [reflexivity|]. cbn [map] in H. injection H as H1 H2. cbn [existsb]. rewrite H1, (IH _ H2). reflexivity.
Qed.
Lemma rooted_chain n t : rooted n -> known t n = true -> In Owner (chain n t).
Proof.
  intros [nodes [s [-> [_ [NO K]]]]]. revert t. induction nodes as [|[[u q] p] nodes IH]; intros t; cbn [app known existsb chain fst].
  - rewrite orb_false_r. intros ->. left. reflexivity.
  - assert (K' : forall pre u q p post, nodes = pre ++ (u, q, p) :: post -> known q (post ++ [(Owner, Owner, Some s)]) = true).
    { intros pre u' q' p' post ->. exact (K ((u, q, p) :: pre) u' q' p' post eq_refl). }
    inversion NO as [|? ? N1 N2]; subst. destruct (tag_eqb u t); cbn [orb]; intros H.
    + right. apply IH; [exact N2|exact K'|]. exact (K [] u q p nodes eq_refl).
    + apply IH; [exact N2|exact K'|exact H].
Qed.
Lemma update_last w through nodes s r : In Owner through -> s = Reserved \/ s = Active -> tb_update w through (nodes ++ [(Owner, Owner, Some s)]) = Some r ->
  exists nodes' s', r = nodes' ++ [(Owner, Owner, Some s')] /\ (s' = Reserved \/ s' = Active) /\ map fst nodes' = map fst nodes.
Proof.
  intros HO HS. revert r. induction nodes as [|[[u q] p] nodes IH]; intros r; cbn [app tb_update].
  - replace (among Owner through) with true by (symmetry; apply among_in; exact HO). destruct w, HS as [->| ->]; cbn; intros H; injection H as <-;
      exists []; eexists; (split; [reflexivity|split; [auto|reflexivity]]).
  - destruct (tb_update w through (nodes ++ _)) as [r'|]; [|discriminate]. destruct (IH _ eq_refl) as [nodes' [s' [-> [S' M']]]]. intros H.
    assert (X : exists p', r = (u, q, p') :: nodes' ++ [(Owner, Owner, Some s')]).
    { destruct p as [p|]; [|injection H as <-; eauto]. destruct (among u through); [destruct (tb_local w p); [|discriminate]|]; injection H as <-; eauto. }
    destruct X as [p' ->]. exists ((u, q, p') :: nodes'), s'. split; [reflexivity|]. split; [exact S'|]. cbn. f_equal. exact M'.
Qed.
Lemma map_cut {A B} (f : A -> B) l l' pre x post : map f l = map f l' -> l = pre ++ x :: post -> exists pre' x' post', l' = pre' ++ x' :: post' /\ f x = f x' /\ map f post = map f post'.
Proof.
  revert l' pre. induction l as [|a l IH]; intros [|b l'] pre H E; try discriminate; [destruct pre; discriminate|]. cbn in H. injection H as H1 H2. destruct pre as [|c pre]; cbn in E; injection E as E1 E2.
  - subst. exists [], b, l'. auto.
  - subst c. destruct (IH l' pre H2 E2) as [pre' [x' [post' [-> [X1 X2]]]]]. exists (b :: pre'), x', post'. auto.
Qed.
Lemma rooted_access w t n n' : rooted n -> tb_access w t n = Some n' -> rooted n'.
Proof.
  intros R. pose proof (rooted_chain n t R) as HC. unfold tb_access. destruct (known t n) eqn:KT; [|discriminate]. specialize (HC eq_refl).
  destruct R as [nodes [s [-> [HS [NO K]]]]]. intros H. destruct (update_last _ _ _ _ _ HC HS H) as [nodes' [s' [-> [S' M]]]].
  exists nodes', s'. split; [reflexivity|]. split; [exact S'|]. split.
  - apply Forall_forall. intros x Hx. apply (in_map fst) in Hx. rewrite M in Hx. apply in_map_iff in Hx. destruct Hx as [y [<- Hy]]. exact (proj1 (Forall_forall _ _) NO y Hy).
  - intros pre u q p post E. destruct (map_cut fst _ _ _ _ _ M E) as [pre' [[[u' q'] p'] [post' [E' [X1 X2]]]]]. cbn in X1. injection X1 as <- <-.
    rewrite <- (K _ _ _ _ _ E'). apply known_skeleton. rewrite !map_app, X2. reflexivity.
Qed.
Lemma rooted_add n t q p : rooted n -> known q n = true -> t <> Owner -> rooted ((t, q, p) :: n).
Proof.
  intros [nodes [s [-> [HS [NO K]]]]] KQ HT. exists ((t, q, p) :: nodes), s. split; [reflexivity|]. split; [exact HS|]. split; [constructor; assumption|].
  intros pre u q' p' post E. destruct pre as [|x pre]; cbn in E; inversion E; subst; [exact KQ|exact (K _ _ _ _ _ eq_refl)].
Qed.
Lemma rooted_step l e n n' : (match e with Reborrow _ _ new _ => new <> Owner | _ => True end) -> rooted n -> tb_step l e n = Some n' -> rooted n'.
Proof.
  destruct e as [r parent new range|w t l']; cbn [tb_step]; intros HN R.
  - destruct (range l); [|intros H; injection H as <-; exact R]. destruct r.
    + destruct (tb_access false parent n) as [m|] eqn:E; [|discriminate]. intros H. injection H as <-. apply rooted_add; [exact (rooted_access _ _ _ _ R E)| |exact HN].
      rewrite (known_skeleton _ _ _ (access_skeleton _ _ _ _ E)). unfold tb_access in E. destruct (known parent n); [reflexivity|discriminate].
    + destruct (tb_access false parent n) as [m|] eqn:E; [|discriminate]. intros H. injection H as <-. apply rooted_add; [exact (rooted_access _ _ _ _ R E)| |exact HN].
      rewrite (known_skeleton _ _ _ (access_skeleton _ _ _ _ E)). unfold tb_access in E. destruct (known parent n); [reflexivity|discriminate].
    + destruct (known parent n) eqn:E; [|discriminate]. intros H. injection H as <-. apply rooted_add; assumption.
  - destruct (loc_eqb l l'); [apply rooted_access; exact R|intros H; injection H as <-; exact R].
Qed.

(** Between two programs, everything but the owner is of earlier ones. *)
Definition upto (k : nat) (n : tree) : Prop := Forall (fun x => fst (fst x) = Owner \/ exists j, turn_of (fst (fst x)) = Some j /\ (j <= k)%nat) n.
Lemma skeleton_forall (P : tag * tag -> Prop) (n n' : tree) : map fst n' = map fst n -> Forall (fun x => P (fst x)) n -> Forall (fun x => P (fst x)) n'.
Proof. intros E H. apply Forall_map. rewrite E. apply Forall_map. exact H. Qed.
Lemma tb_step_kept k l e n n' : of_turn k e -> closed_tree k n -> upto k n -> tb_step l e n = Some n' -> closed_tree k n' /\ upto k n'.
Proof.
  intros HE C U H.
  assert (S : forall m, map fst m = map fst n -> closed_tree k m /\ upto k m).
  { intros m E. split; [exact (skeleton_forall (fun x => keeps k (fst x) = true -> keeps k (snd x) = true) _ _ E C)|].
    exact (skeleton_forall (fun x => fst x = Owner \/ exists j, turn_of (fst x) = Some j /\ (j <= k)%nat) _ _ E U). }
  assert (A : forall m q t p, map fst m = map fst n -> keeps k q = true -> now k t -> closed_tree k ((t, q, p) :: m) /\ upto k ((t, q, p) :: m)).
  { intros m q t p E HQ HT. destruct (S m E) as [S1 S2]. split; constructor; [intros _; exact HQ|exact S1| |exact S2]. right. exists k. split; [exact HT|lia]. }
  destruct e as [r parent new range|w t l']; cbn [tb_step of_turn] in *.
  - destruct HE as [HP HN]. destruct (range l); [|injection H as <-; auto]. destruct r.
    + destruct (tb_access false parent n) as [m|] eqn:E; [|discriminate]. injection H as <-. apply A; [exact (access_skeleton _ _ _ _ E)|assumption..].
    + destruct (tb_access false parent n) as [m|] eqn:E; [|discriminate]. injection H as <-. apply A; [exact (access_skeleton _ _ _ _ E)|assumption..].
    + destruct (known parent n); [|discriminate]. injection H as <-. apply A; auto.
  - destruct (loc_eqb l l'); [apply S; exact (access_skeleton _ _ _ _ H)|injection H as <-; auto].
Qed.
Lemma tb_run_kept k l p n : (forall e, In e p -> of_turn k e) -> closed_tree k n -> upto k n -> rooted n -> run (tb_step l) p (mine k n) <> None ->
  exists n', run (tb_step l) p n = Some n' /\ upto k n' /\ rooted n'.
Proof.
  revert n. induction p as [|e p IH]; intros n HP C U R; cbn [run]; [eauto|]. pose proof (HP e (or_introl eq_refl)) as HE. rewrite (mine_step k l e n C HE).
  destruct (tb_step l e n) as [n1|] eqn:E; [|cbn; congruence]. cbn [option_map]. intros D. destruct (tb_step_kept k l e n n1 HE C U E) as [C1 U1].
  apply (IH n1); [intros e' He'; exact (HP e' (or_intror He'))|exact C1|exact U1| |exact D].
  eapply rooted_step; [|exact R|exact E]. destruct e; [|exact I]. destruct HE as [_ HN]. exact (now_owner _ _ HN).
Qed.
Lemma upto_next k n : upto k n -> rooted n -> exists s, mine (S k) n = [(Owner, Owner, Some s)] /\ (s = Reserved \/ s = Active).
Proof.
  intros U [nodes [s [-> [HS [NO _]]]]]. exists s. split; [|exact HS]. unfold upto in U. apply Forall_app in U. destruct U as [U _]. unfold mine. rewrite filter_app.
  replace (filter _ nodes) with (@nil (tag * tag * option tb_perm)); [reflexivity|]. induction nodes as [|[[u q] p] nodes IH]; [reflexivity|].
  inversion U as [|? ? U1 U2]; subst. inversion NO as [|? ? N1 N2]; subst. cbn [filter fst] in *. destruct U1 as [U1|[j [U1 L]]]; [contradiction|].
  unfold keeps at 1. rewrite U1. replace (Nat.eqb j (S k)) with false by (symmetry; apply Nat.eqb_neq; lia). exact (IH U2 N2).
Qed.
(** Whether the owner has been written through makes no difference. *)
Lemma chain_skeleton n n' t : map fst n = map fst n' -> chain n t = chain n' t.
Proof.
  revert n' t. induction n as [|[[u q] p] n IH]; intros [|[[u' q'] p'] n'] t H; try discriminate; [reflexivity|]. cbn in H. injection H as <- <- H. cbn [chain].
  destruct (tag_eqb u t); rewrite (IH n' _ H); reflexivity.
Qed.
Definition alike (n n' : tree) : Prop := exists nodes s s', n = nodes ++ [(Owner, Owner, Some s)] /\ n' = nodes ++ [(Owner, Owner, Some s')] /\
  (s = Reserved \/ s = Active) /\ (s' = Reserved \/ s' = Active).
Definition alike_opt (a b : option tree) : Prop := match a, b with Some n, Some n' => alike n n' | None, None => True | _, _ => False end.
Lemma alike_skeleton n n' : alike n n' -> map fst n = map fst n'.
Proof. intros [nodes [s [s' [-> [-> _]]]]]. rewrite !map_app. reflexivity. Qed.
Lemma alike_add x n n' : alike n n' -> alike (x :: n) (x :: n').
Proof. intros [nodes [s [s' [-> [-> H]]]]]. exists (x :: nodes), s, s'. auto. Qed.
Lemma alike_update w through n n' : In Owner through -> alike n n' -> alike_opt (tb_update w through n) (tb_update w through n').
Proof.
  intros HO [nodes [s [s' [-> [-> [HS HS']]]]]]. induction nodes as [|[[u q] p] nodes IH]; cbn [app tb_update].
  - replace (among Owner through) with true by (symmetry; apply among_in; exact HO).
    destruct w, HS as [->| ->], HS' as [->| ->]; cbn; exists []; eexists; eexists; (split; [reflexivity|split; [reflexivity|auto]]).
  - destruct (tb_update w through (nodes ++ [(Owner, Owner, Some s)])) as [r|], (tb_update w through (nodes ++ [(Owner, Owner, Some s')])) as [r'|]; cbn [alike_opt] in IH; try contradiction; [|exact I].
    destruct p as [p|]; [|apply alike_add; exact IH]. destruct (among u through); [destruct (tb_local w p); [apply alike_add; exact IH|exact I]|apply alike_add; exact IH].
Qed.
Lemma alike_access w t n n' : rooted n -> alike n n' -> alike_opt (tb_access w t n) (tb_access w t n').
Proof.
  intros R A. pose proof (alike_skeleton _ _ A) as S. unfold tb_access. rewrite <- (known_skeleton t _ _ S), <- (chain_skeleton _ _ t S). destruct (known t n) eqn:K; [|exact I].
  apply alike_update; [exact (rooted_chain n t R K)|exact A].
Qed.
Lemma alike_step l e n n' : rooted n -> alike n n' -> alike_opt (tb_step l e n) (tb_step l e n').
Proof.
  intros R A. destruct e as [r parent new range|w t l']; cbn [tb_step].
  - destruct (range l); [|exact A]. destruct r.
    + pose proof (alike_access false parent n n' R A) as X. destruct (tb_access false parent n), (tb_access false parent n'); cbn [alike_opt] in *; try contradiction; [apply alike_add; exact X|exact I].
    + pose proof (alike_access false parent n n' R A) as X. destruct (tb_access false parent n), (tb_access false parent n'); cbn [alike_opt] in *; try contradiction; [apply alike_add; exact X|exact I].
    + rewrite <- (known_skeleton parent _ _ (alike_skeleton _ _ A)). destruct (known parent n); [apply alike_add; exact A|exact I].
  - destruct (loc_eqb l l'); [apply alike_access; assumption|exact A].
Qed.
Lemma alike_run l p n n' : from_owner p -> rooted n -> alike n n' -> alike_opt (run (tb_step l) p n) (run (tb_step l) p n').
Proof.
  revert n n'. induction p as [|e p IH]; intros n n' F R A; cbn [run]; [exact A|]. pose proof (alike_step l e n n' R A) as X.
  destruct (tb_step l e n) as [m|] eqn:E, (tb_step l e n') as [m'|]; cbn [alike_opt] in X; try contradiction; [|exact I].
  apply IH; [intros e' He'; exact (F e' (or_intror He'))| |exact X]. eapply rooted_step; [|exact R|exact E]. pose proof (F e (or_introl eq_refl)) as Y. destruct e; [exact (proj1 Y)|exact I].
Qed.
Lemma rooted_root s : s = Reserved \/ s = Active -> rooted [(Owner, Owner, Some s)].
Proof. intros HS. exists [], s. split; [reflexivity|]. split; [exact HS|]. split; [constructor|]. intros [|? pre]; discriminate. Qed.
Lemma any_owner l p s s' : from_owner p -> s = Reserved \/ s = Active -> s' = Reserved \/ s' = Active ->
  run (tb_step l) p [(Owner, Owner, Some s)] <> None -> run (tb_step l) p [(Owner, Owner, Some s')] <> None.
Proof.
  intros F HS HS' H. assert (A : alike [(Owner, Owner, Some s)] [(Owner, Owner, Some s')]) by (exists [], s, s'; auto).
  pose proof (alike_run l p _ _ F (rooted_root s HS) A) as X. destruct (run (tb_step l) p [(Owner, Owner, Some s)]); [|congruence]. destruct (run (tb_step l) p [(Owner, Owner, Some s')]); [discriminate|destruct X].
Qed.

Lemma tb_run_mine k l p n : (forall e, In e p -> of_turn k e) -> closed_tree k n -> upto k n -> run (tb_step l) p (mine k n) = option_map (mine k) (run (tb_step l) p n).
Proof.
  revert n. induction p as [|e p IH]; intros n HP C U; cbn [run]; [reflexivity|]. pose proof (HP e (or_introl eq_refl)) as HE. rewrite (mine_step k l e n C HE).
  destruct (tb_step l e n) as [n1|] eqn:E; [|reflexivity]. cbn [option_map]. destruct (tb_step_kept k l e n n1 HE C U E) as [C1 U1].
  apply IH; [intros e' He'; exact (HP e' (or_intror He'))|exact C1|exact U1].
Qed.
Lemma renamed_turn k p : from_owner p -> forall e, In e (map (rename (apart k)) p) -> of_turn k e.
Proof.
  intros F e He. apply in_map_iff in He. destruct He as [e0 [<- He]].
  assert (KA : forall t, keeps k (apart k t) = true).
  { intros t. destruct (turn_apart k t) as [E|E]; unfold keeps; rewrite E; [reflexivity|apply Nat.eqb_refl]. }
  pose proof (F e0 He) as Y. destruct e0 as [r parent new range|w t l']; cbn [rename of_turn]; [|apply KA]. destruct Y as [Y _]. split; [apply KA|exact (apart_now _ _ Y)].
Qed.
Lemma tb_in_turn_from ps : (forall p, In p ps -> from_owner p) -> forall l k n s', rooted n -> upto k n -> closed_tree k n ->
  mine k n = [(Owner, Owner, Some s')] -> s' = Reserved \/ s' = Active ->
  run (tb_step l) (in_turn k ps) n <> None <-> forall p, In p ps -> forall s, s = Reserved \/ s = Active -> run (tb_step l) p [(Owner, Owner, Some s)] <> None.
Proof.
  intros F l. induction ps as [|p ps IH]; intros k n s' R U C M HS'; cbn [in_turn run]; [split; [intros _ p []|discriminate]|]. rewrite run_app.
  specialize (IH (fun p' Hp' => F p' (or_intror Hp'))). pose proof (F p (or_introl eq_refl)) as FP. pose proof (renamed_turn k p FP) as RT.
  pose proof (tb_run_mine k l _ n RT C U) as RM. rewrite M in RM. change [(Owner, Owner, Some s')] with (map (re_node (apart k)) [(Owner, Owner, Some s')]) in RM.
  rewrite (re_tb_run (apart k) (apart_inj k)) in RM.
  destruct (run (tb_step l) (map (rename (apart k)) p) n) as [n'|] eqn:E.
  - destruct (tb_run_kept k l (map (rename (apart k)) p) n RT C U R) as [n'' [E' [U' R']]].
    { rewrite (tb_run_mine k l _ n RT C U), E. discriminate. }
    rewrite E in E'. injection E' as <-. destruct (upto_next k n' U' R') as [s2 [M2 HS2]].
    rewrite (IH (S k) n' s2 R').
    + split; [|intros H p' Hp'; exact (H p' (or_intror Hp'))]. intros H p' [<-|Hp'] s HS; [|exact (H p' Hp' s HS)]. apply (any_owner l p s' s FP HS' HS).
      destruct (run (tb_step l) p [(Owner, Owner, Some s')]); [discriminate|discriminate RM].
    + eapply Forall_impl; [|exact U']. intros x [O|[j [T L]]]; [left; exact O|right]. exists j. split; [exact T|lia].
    + destruct R' as [nodes [s3 [-> [_ [NO _]]]]]. apply Forall_app. split; [|constructor; [intros _; reflexivity|constructor]].
      unfold upto in U'. apply Forall_app in U'. destruct U' as [U' _]. clear -U' NO. induction nodes as [|[[u q] p] nodes IH]; constructor.
      * cbn. inversion U' as [|? ? U1 _]; subst. inversion NO as [|? ? N1 _]; subst. cbn in *. destruct U1 as [U1|[j [U1 L]]]; [contradiction|].
        unfold keeps at 1. rewrite U1. replace (Nat.eqb j (S k)) with false by (symmetry; apply Nat.eqb_neq; lia). discriminate.
      * inversion U'; inversion NO; subst. apply IH; assumption.
    + exact M2.
    + exact HS2.
  - split; [congruence|]. intros H. exfalso. apply (H p (or_introl eq_refl) s' HS'). destruct (run (tb_step l) p [(Owner, Owner, Some s')]); [discriminate RM|reflexivity].
Qed.
Lemma tb_in_turn ps : (forall p, In p ps -> from_owner p) -> tb_defined (in_turn 0 ps) <-> forall p, In p ps -> tb_defined p.
Proof.
  intros F.
  assert (X : forall l s, s = Reserved \/ s = Active -> run (tb_step l) (in_turn 0 ps) [(Owner, Owner, Some s)] <> None <->
    forall p, In p ps -> forall s, s = Reserved \/ s = Active -> run (tb_step l) p [(Owner, Owner, Some s)] <> None).
  { intros l s HS. apply (tb_in_turn_from ps F l 0 _ s (rooted_root s HS)); [constructor; [left; reflexivity|constructor]|constructor; [intros _; reflexivity|constructor]|reflexivity|exact HS]. }
  split.
  - intros H p Hp l s HS. exact (proj1 (X l s HS) (H l s HS) p Hp s HS).
  - intros H l s HS. apply (X l s HS). intros p Hp s' HS'. exact (H p Hp l s' HS').
Qed.
