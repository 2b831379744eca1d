(** Iterators, set operations, set operators. *)
From Verif Require Import Prelude Spec ModelUtils ModelAnalyzers ModelTables ModelMaps ModelIter SpecSets
  ProofsBase ProofsFz ProofsTable.
From Coq Require Import Permutation.
From Coq Require Import ZArith ZifyNat ZifyN ZifyBool.

Local Arguments Nat.ltb : simpl never.
Local Arguments Nat.leb : simpl never.

(** * Generic *)

Section Sound.
Context {St A : Type} (next : St -> res (option A * St)) (Inv : St -> Prop) (out : St -> list A).

Definition iter_sound : Prop := forall st, Inv st -> exists o st', next st = Ok (o, st') /\ Inv st' /\
  out st = match o with Some x => x :: out st' | None => [] end /\ (o = None -> out st' = []).

Hypothesis HS : iter_sound.

Lemma sound_yields : forall st, Inv st -> yields next st (out st).
Proof.
  intros st HI. remember (out st) as l eqn:E. revert st HI E. induction l as [|x l IH]; intros st HI E.
  - destruct (HS st HI) as [o [st' [E1 [I' [E2 E3]]]]]. destruct o as [x|]; [congruence|].
    eapply yields_nil. eauto.
  - destruct (HS st HI) as [o [st' [E1 [I' [E2 E3]]]]]. destruct o as [y|]; [|congruence].
    rewrite <- E in E2. injection E2 as -> ->. eapply yields_cons; eauto.
Qed.

Lemma sound_reaches st st' : Inv st -> reaches next st st' -> Inv st'.
Proof.
  intros HI H. induction H; auto. destruct (HS _ IHreaches) as [o' [st' [E1 [I' _]]]]. congruence.
Qed.

(** fused: once [None], always [None] *)
Lemma sound_fused st st1 st2 : Inv st -> next st = Ok (None, st1) -> reaches next st1 st2 -> exists st3, next st2 = Ok (None, st3).
Proof.
  intros HI E H. destruct (HS st HI) as [o [st' [E1 [I' [E2 E3]]]]]. rewrite E in E1. injection E1 as <- <-.
  specialize (E3 eq_refl). assert (G : Inv st2 /\ out st2 = []).
  { induction H; auto. destruct IHreaches as [G1 G2]; auto.
    destruct (HS _ G1) as [o' [st' [F1 [F2 [F3 F4]]]]]. rewrite G2 in F3. destruct o'; [discriminate|].
    rewrite H0 in F1. injection F1 as -> <-. auto. }
  destruct G as [G1 G2]. destruct (HS _ G1) as [o' [st' [F1 [F2 [F3 F4]]]]]. rewrite G2 in F3. destruct o'; [discriminate|eauto].
Qed.
End Sound.

Lemma yields_fun {St A} (next : St -> res (option A * St)) st l l' : yields next st l -> yields next st l' -> l = l'.
Proof.
  intros H. revert l'. induction H; intros l' H'; inversion H'; subst; try congruence.
  rewrite H in H1. injection H1 as <- <-. f_equal. auto.
Qed.

Lemma yields_drain {St A} (next : St -> res (option A * St)) st l : yields next st l ->
  forall fuel, (length l < fuel)%nat -> drain next fuel st = Ok l.
Proof.
  induction 1; intros [|fuel] Hf; cbn [drain length] in *; try lia; rewrite H; cbn; auto.
  rewrite IHyields by lia. reflexivity.
Qed.

(** * Map iterators *)

Lemma slice_sound {A} : iter_sound (it_next (@slice_iter A)) (fun _ => True) (fun l => l).
Proof.
  intros [|x r] _; cbn; [exists None, []|exists (Some x), r]; auto 10. repeat split; auto. discriminate.
Qed.

Lemma mapped_sound {St A B} (inner : iter_ops St A) (f : A -> B) out :
  iter_sound (it_next inner) (fun _ => True) out -> iter_sound (it_next (mapped_iter inner f)) (fun _ => True) (fun st => map f (out st)).
Proof.
  intros H st _. destruct (H st I) as [o [st' [E1 [_ [E2 E3]]]]]. cbn. rewrite E1. cbn.
  exists (option_map f o), st'. split; auto. split; auto. rewrite E2. split.
  - destruct o; reflexivity.
  - intros E. destruct o; [discriminate|]. rewrite E3; auto.
Qed.

(** everything an exact-size iterator promises *)
Record exact_iter {St A} (it : iter_ops St A) (out : St -> list A) : Prop := {
  ex_yields : forall st, yields (it_next it) st (out st);
  ex_fused : forall st st1 st2, it_next it st = Ok (None, st1) -> reaches (it_next it) st1 st2 -> exists st3, it_next it st2 = Ok (None, st3);
  ex_hint : forall st, it_size_hint it st = (N.of_nat (length (out st)), Some (N.of_nat (length (out st))));
  ex_len : forall st, it_len it st = length (out st);
  ex_count : forall st, it_count it st = length (out st);
  ex_fold : forall B st (init : B) g, it_fold it st init g = fold_left g (out st) init }.

Lemma slice_exact {A} : exact_iter (@slice_iter A) (fun l => l).
Proof.
  constructor; auto.
  - intros st. apply (sound_yields _ _ _ slice_sound). auto.
  - intros st st1 st2. apply (sound_fused _ _ _ slice_sound). auto.
Qed.

Lemma fold_left_map {A B C} (f : A -> B) (g : C -> B -> C) l : forall init,
  fold_left g (map f l) init = fold_left (fun acc x => g acc (f x)) l init.
Proof. induction l; cbn; auto. Qed.

Lemma mapped_exact {St A B} (inner : iter_ops St A) (f : A -> B) out :
  iter_sound (it_next inner) (fun _ => True) out -> exact_iter inner out ->
  exact_iter (mapped_iter inner f) (fun st => map f (out st)).
Proof.
  intros HS HE. pose proof (mapped_sound inner f out HS) as HM. constructor; cbn [mapped_iter it_size_hint it_len it_count it_fold].
  - intros st. apply (sound_yields _ _ _ HM). auto.
  - intros st st1 st2. apply (sound_fused _ _ _ HM). auto.
  - intros. rewrite map_length. apply (ex_hint _ _ HE).
  - intros. rewrite map_length. apply (ex_len _ _ HE).
  - intros. rewrite map_length. apply (ex_count _ _ HE).
  - intros. rewrite fold_left_map. apply (ex_fold _ _ HE).
Qed.

Lemma exact_ext {St A} (it : iter_ops St A) out out' : (forall st, out st = out' st) -> exact_iter it out -> exact_iter it out'.
Proof. intros H [a b c d e f]. constructor; intros; rewrite <- ?H; eauto. Qed.

Lemma map_eta {K V} (l : list (K * V)) : map (fun entry => (fst entry, snd entry)) l = l.
Proof. induction l as [|[k v] l IH]; cbn; congruence. Qed.

Lemma sound_ext {St A} (next : St -> res (option A * St)) I out out' : (forall st, out st = out' st) ->
  iter_sound next I out -> iter_sound next I out'.
Proof. intros H HS st HI. destruct (HS st HI) as [o [st' G]]. exists o, st'. rewrite <- !H. auto. Qed.

Lemma map_iter_sound {K V} : iter_sound (it_next (@map_iter K V)) (fun _ => True) (fun l => l).
Proof. eapply sound_ext; [|apply (mapped_sound _ _ _ slice_sound)]. apply map_eta. Qed.

Lemma map_iter_exact {K V} : exact_iter (@map_iter K V) (fun l => l).
Proof. eapply exact_ext; [|apply (mapped_exact _ _ _ slice_sound slice_exact)]. apply map_eta. Qed.

Lemma map_keys_exact {K V} : exact_iter (@map_keys K V) (map fst).
Proof. apply (mapped_exact _ fst _ map_iter_sound map_iter_exact). Qed.
Lemma map_values_exact {K V} : exact_iter (@map_values K V) (map snd).
Proof. apply (mapped_exact _ snd _ map_iter_sound map_iter_exact). Qed.
Lemma map_iter_mut_exact {K} : exact_iter (@map_iter_mut K) (fun l => l).
Proof. exact map_iter_exact. Qed.
Lemma map_values_mut_exact {K} : exact_iter (@map_values_mut K) (map snd).
Proof. exact map_values_exact. Qed.
Lemma set_iter_exact {T} : exact_iter (@set_iter T) (map fst).
Proof. exact map_keys_exact. Qed.

Lemma iter_mut_new_snd {K V} (es : list (K * V)) : map snd (iter_mut_new es) = seq 0 (length es).
Proof.
  unfold iter_mut_new. assert (G : forall (l : list K) (s : list nat), length l = length s -> map snd (combine l s) = s).
  { induction l; intros [|b s] H; cbn in *; try discriminate; auto. f_equal. auto. }
  apply G. rewrite map_length, seq_length. reflexivity.
Qed.

Lemma iter_mut_new_fst {K V} (es : list (K * V)) : map fst (iter_mut_new es) = map fst es.
Proof.
  unfold iter_mut_new. assert (G : forall (l : list K) (s : list nat), length l = length s -> map fst (combine l s) = l).
  { induction l; intros [|b s] H; cbn in *; try discriminate; auto. f_equal. auto. }
  apply G. rewrite map_length, seq_length. reflexivity.
Qed.

(** * Sets *)

Section Sets.
Context {T : Type} (eqT : T -> T -> bool).
Hypothesis LE : lawful_eq eqT.

Lemma member_cons x y l : member eqT x (y :: l) <-> eqT x y = true \/ member eqT x l.
Proof.
  unfold member. split.
  - intros [z [[->|H] E]]; [left|right]; eauto.
  - intros [E|[z [H E]]]; [exists y|exists z]; split; auto; [left|right]; auto.
Qed.

Lemma member_app x l l' : member eqT x (l ++ l') <-> member eqT x l \/ member eqT x l'.
Proof.
  unfold member. split.
  - intros [z [H E]]. apply in_app_or in H. destruct H; [left|right]; eauto.
  - intros [[z [H E]]|[z [H E]]]; exists z; split; auto; apply in_or_app; auto.
Qed.

Lemma member_existsb x l : member eqT x l <-> existsb (eqT x) l = true.
Proof. rewrite existsb_exists. reflexivity. Qed.

Lemma member_In x l : In x l -> member eqT x l.
Proof. intros H. exists x. split; auto. apply (eq_refl_law _ LE). Qed.

Lemma eq_cong x y : eqT x y = true -> forall z, eqT x z = eqT y z.
Proof.
  intros H z. destruct (eqT x z) eqn:E1, (eqT y z) eqn:E2; auto.
  - rewrite <- E2. symmetry. apply (eq_trans_law _ LE _ x); auto. apply (eq_sym_law _ LE). auto.
  - rewrite <- E1. apply (eq_trans_law _ LE _ y); auto.
Qed.

Lemma member_cong x y l : eqT x y = true -> (member eqT x l <-> member eqT y l).
Proof. intros H. unfold member. split; intros [z [Hz E]]; exists z; split; auto; [rewrite <- (eq_cong x y H)|rewrite (eq_cong x y H)]; auto. Qed.

Definition mem (l : list T) (x : T) : bool := existsb (eqT x) l.

Lemma mem_iff l x : mem l x = true <-> member eqT x l.
Proof. symmetry. apply member_existsb. Qed.

Lemma mem_cong l x y : eqT x y = true -> mem l x = mem l y.
Proof. intros H. apply Bool.eq_iff_eq_true. rewrite !mem_iff. apply member_cong. auto. Qed.

Lemma member_filter (p : T -> bool) x l : (forall a b, eqT a b = true -> p a = p b) ->
  (member eqT x (filter p l) <-> member eqT x l /\ p x = true).
Proof.
  intros H. unfold member. split.
  - intros [z [Hz E]]. apply filter_In in Hz. destruct Hz as [Hz Hp]. split; [eauto|]. rewrite (H x z E). auto.
  - intros [[z [Hz E]] Hp]. exists z. split; auto. apply filter_In. split; auto. rewrite <- (H x z E). auto.
Qed.

Lemma distinct_filter (p : T -> bool) l : distinct eqT l -> distinct eqT (filter p l).
Proof.
  induction l as [|x r IH]; cbn [filter distinct]; auto. intros [H1 H2]. destruct (p x); [|auto]. cbn [distinct]. split; auto.
  intros y Hy. apply filter_In in Hy. apply H1. apply Hy.
Qed.

(** pigeonhole *)
Lemma distinct_incl_length : forall l l', distinct eqT l -> (forall x, In x l -> member eqT x l') -> (length l <= length l')%nat.
Proof.
  induction l as [|x r IH]; intros l' HD HI; cbn [length]; [lia|].
  destruct HD as [H1 H2]. destruct (HI x (or_introl eq_refl)) as [y [Hy E]].
  apply in_split in Hy. destruct Hy as [p [q ->]].
  assert (length r <= length (p ++ q))%nat.
  { apply IH; auto. intros z Hz. destruct (HI z (or_intror Hz)) as [w [Hw Ew]]. exists w. split; auto.
    apply in_app_or in Hw. apply in_or_app. destruct Hw as [Hw|[<-|Hw]]; auto. exfalso.
    assert (eqT x z = true); [|rewrite H1 in *; auto; discriminate].
    apply (eq_trans_law _ LE _ y); auto. apply (eq_sym_law _ LE). auto. }
  rewrite app_length in *. cbn [length]. lia.
Qed.

Lemma distinct_incl_back l l' : distinct eqT l -> (length l' <= length l)%nat ->
  (forall x, In x l -> member eqT x l') -> forall y, In y l' -> member eqT y l.
Proof.
  intros HD HL HI y Hy. destruct (mem l y) eqn:E; [apply mem_iff; auto|]. exfalso.
  apply in_split in Hy. destruct Hy as [p [q ->]].
  assert (length l <= length (p ++ q))%nat.
  { apply distinct_incl_length; auto. intros x Hx. destruct (HI x Hx) as [w [Hw Ew]]. exists w. split; auto.
    apply in_app_or in Hw. apply in_or_app. destruct Hw as [Hw|[<-|Hw]]; auto. exfalso.
    unfold mem in E. rewrite existsb_false_forall in E. 
    specialize (E x Hx). apply (eq_sym_law _ LE) in Ew. congruence. }
  rewrite app_length in *. cbn [length] in *. lia.
Qed.

(** iteration *)
Lemma next_where_spec (p : T -> res bool) (f : T -> bool) l : (forall x, p x = Ok (f x)) ->
  exists o r, next_where p l = Ok (o, r) /\ incl r l /\ (length r <= length l)%nat /\
    filter f l = match o with Some x => x :: filter f r | None => [] end /\ (o = None -> r = []).
Proof.
  intros Hp. induction l as [|x r IH]; cbn [next_where filter].
  - exists None, []. repeat split; auto. apply incl_refl.
  - rewrite Hp. cbn [bind]. destruct (f x).
    + exists (Some x), r. split; [auto|]. split; [apply incl_tl, incl_refl|]. split; [cbn; lia|]. split; [auto|discriminate].
    + destruct IH as [o [r' [E [H1 [H2 [H3 H4]]]]]]. exists o, r'. split; [auto|]. split; [apply incl_tl; auto|]. split; [cbn; lia|]. auto.
Qed.

Lemma contains_mem s x : lawful_set eqT s -> sv_contains s x = Ok (mem (sv_items s) x).
Proof.
  intros L. destruct (set_contains_law _ _ L x) as [b [E H]]. rewrite E. f_equal.
  apply Bool.eq_iff_eq_true. rewrite mem_iff. auto.
Qed.

Definition notin (s : set_val T) (x : T) : bool := negb (mem (sv_items s) x).

Lemma notin_iff s x : notin s x = true <-> ~ elem eqT x s.
Proof. unfold notin, elem. rewrite <- mem_iff. destruct (mem (sv_items s) x); cbn; split; congruence. Qed.

Lemma notin_cong s x y : eqT x y = true -> notin s x = notin s y.
Proof. intros H. unfold notin. rewrite (mem_cong _ x y H). auto. Qed.

Lemma not_contains s : lawful_set eqT s -> forall x, fmap negb (sv_contains s x) = Ok (notin s x).
Proof. intros L x. rewrite (contains_mem s x L). reflexivity. Qed.

Section Pair.
Variables s1 s2 : set_val T.
Hypothesis L1 : lawful_set eqT s1.
Hypothesis L2 : lawful_set eqT s2.

(** ** difference *)
Definition df_inv (d : difference_st T) : Prop := df_s2 d = s2.
Definition df_out (d : difference_st T) : list T := filter (notin s2) (df_rest1 d).

Lemma difference_sound : iter_sound difference_next df_inv df_out.
Proof.
  intros d Hd. unfold difference_next. rewrite Hd.
  destruct (next_where_spec _ _ (df_rest1 d) (not_contains s2 L2)) as [o [r [E [H1 [H2 [H3 H4]]]]]].
  rewrite E. cbn. exists o, {| df_rest1 := r; df_s2 := s2 |}. split; auto. split; [reflexivity|].
  unfold df_out. cbn [df_rest1]. split; auto. intros Ho. rewrite (H4 Ho). reflexivity.
Qed.

Lemma difference_result : let l := filter (notin s2) (sv_items s1) in
  yields difference_next (difference_new s1 s2) l /\ distinct eqT l /\ forall x, member eqT x l <-> elem eqT x s1 /\ ~ elem eqT x s2.
Proof.
  split; [|split].
  - apply (sound_yields _ _ _ difference_sound (difference_new s1 s2)). reflexivity.
  - apply distinct_filter. apply (set_distinct_law _ _ L1).
  - intros x. rewrite member_filter by apply notin_cong. rewrite notin_iff. reflexivity.
Qed.

Lemma filter_length_le (p : T -> bool) (l : list T) : (length (filter p l) <= length l)%nat.
Proof. induction l; cbn; [lia|]. destruct (p a); cbn; lia. Qed.

Lemma difference_hint d : df_inv d -> brackets (difference_size_hint d) (length (df_out d)).
Proof.
  intros _. unfold brackets, difference_size_hint, df_out. cbn. pose proof (filter_length_le (notin s2) (df_rest1 d)). lia.
Qed.

(** ** intersection *)
Definition in_inv (i : intersection_st T) : Prop :=
  in_s1 i = s1 /\ in_s2 i = s2 /\ (length (in_rest1 i) <= sv_len s1)%nat /\ (length (in_rest2 i) <= sv_len s2)%nat.
Definition in_out (i : intersection_st T) : list T :=
  if Nat.ltb (sv_len s1) (sv_len s2) then filter (mem (sv_items s2)) (in_rest1 i) else filter (mem (sv_items s1)) (in_rest2 i).

Lemma intersection_sound : iter_sound intersection_next in_inv in_out.
Proof.
  intros i [H1 [H2 [H3 H4]]]. unfold intersection_next, in_out. rewrite H1, H2. destruct (Nat.ltb (sv_len s1) (sv_len s2)).
  - destruct (next_where_spec _ _ (in_rest1 i) (fun x => contains_mem s2 x L2)) as [o [r [E [G1 [G2 [G3 G4]]]]]].
    rewrite E. cbn. eexists _, _. split; [reflexivity|]. split; [|split]; cbn.
    + repeat split; cbn; auto. lia.
    + auto.
    + intros Ho. rewrite (G4 Ho). reflexivity.
  - destruct (next_where_spec _ _ (in_rest2 i) (fun x => contains_mem s1 x L1)) as [o [r [E [G1 [G2 [G3 G4]]]]]].
    rewrite E. cbn. eexists _, _. split; [reflexivity|]. split; [|split]; cbn.
    + repeat split; cbn; auto. lia.
    + auto.
    + intros Ho. rewrite (G4 Ho). reflexivity.
Qed.

Lemma in_inv_new : in_inv (intersection_new s1 s2).
Proof. repeat split; cbn; rewrite ?(set_len_law _ _ L1), ?(set_len_law _ _ L2); auto. Qed.

Lemma intersection_result : let l := in_out (intersection_new s1 s2) in
  yields intersection_next (intersection_new s1 s2) l /\ distinct eqT l /\ forall x, member eqT x l <-> elem eqT x s1 /\ elem eqT x s2.
Proof.
  split; [|split].
  - apply (sound_yields _ _ _ intersection_sound). apply in_inv_new.
  - unfold in_out. destruct (Nat.ltb _ _); apply distinct_filter; [apply (set_distinct_law _ _ L1)|apply (set_distinct_law _ _ L2)].
  - intros x. unfold in_out, elem. destruct (Nat.ltb _ _); cbn; rewrite member_filter by apply mem_cong; rewrite mem_iff; tauto.
Qed.

Lemma intersection_hint i : in_inv i -> brackets (intersection_size_hint i) (length (in_out i)).
Proof.
  intros [H1 [H2 [H3 H4]]]. unfold brackets, intersection_size_hint, in_out. cbn. rewrite H1, H2. split; [lia|].
  destruct (Nat.ltb_spec (sv_len s1) (sv_len s2)).
  - pose proof (filter_length_le (mem (sv_items s2)) (in_rest1 i)). lia.
  - pose proof (filter_length_le (mem (sv_items s1)) (in_rest2 i)). lia.
Qed.

(** ** union *)
Definition un_inv (u : union_st T) : Prop := un_s1 u = s1 /\ un_s2 u = s2.
Definition un_out (u : union_st T) : list T :=
  if Nat.ltb (sv_len s2) (sv_len s1) then un_rest1 u ++ filter (notin s1) (un_rest2 u)
  else un_rest2 u ++ filter (notin s2) (un_rest1 u).

Lemma union_sound : iter_sound union_next un_inv un_out.
Proof.
  intros u [H1 H2]. unfold union_next, un_out. rewrite H1, H2. destruct (Nat.ltb (sv_len s2) (sv_len s1)).
  - destruct (un_rest1 u) as [|x r] eqn:Er.
    + destruct (next_where_spec _ _ (un_rest2 u) (not_contains s1 L1)) as [o [r [E [G1 [G2 [G3 G4]]]]]].
      rewrite E. cbn. eexists _, _. split; [reflexivity|]. split; [split; auto|]. cbn. rewrite Er. cbn. split; auto.
      intros Ho. rewrite (G4 Ho). reflexivity.
    + eexists _, _. split; [reflexivity|]. split; [split; auto|]. cbn. split; auto. discriminate.
  - destruct (un_rest2 u) as [|x r] eqn:Er.
    + destruct (next_where_spec _ _ (un_rest1 u) (not_contains s2 L2)) as [o [r [E [G1 [G2 [G3 G4]]]]]].
      rewrite E. cbn. eexists _, _. split; [reflexivity|]. split; [split; auto|]. cbn. rewrite Er. cbn. split; auto.
      intros Ho. rewrite (G4 Ho). reflexivity.
    + eexists _, _. split; [reflexivity|]. split; [split; auto|]. cbn. split; auto. discriminate.
Qed.

Lemma distinct_app_notin s s' : lawful_set eqT s -> lawful_set eqT s' -> distinct eqT (sv_items s ++ filter (notin s) (sv_items s')).
Proof.
  intros L L'. apply distinct_app. split; [apply (set_distinct_law _ _ L)|]. split.
  - apply distinct_filter. apply (set_distinct_law _ _ L').
  - intros x y Hx Hy. apply filter_In in Hy. destruct Hy as [_ Hy]. apply notin_iff in Hy.
    destruct (eqT x y) eqn:E; auto. exfalso. apply Hy. exists x. split; auto. apply (eq_sym_law _ LE). auto.
Qed.

Lemma union_result : let l := un_out (union_new s1 s2) in
  yields union_next (union_new s1 s2) l /\ distinct eqT l /\ forall x, member eqT x l <-> elem eqT x s1 \/ elem eqT x s2.
Proof.
  split; [|split].
  - apply (sound_yields _ _ _ union_sound). split; reflexivity.
  - unfold un_out. destruct (Nat.ltb _ _); apply distinct_app_notin; auto.
  - intros x. unfold un_out, elem. destruct (Nat.ltb _ _); cbn; rewrite member_app, member_filter by apply notin_cong;
      rewrite notin_iff; unfold elem.
    + destruct (mem (sv_items s1) x) eqn:E; [apply mem_iff in E; tauto|]. rewrite <- mem_iff in *. rewrite <- (mem_iff (sv_items s2)).
      rewrite E. intuition congruence.
    + destruct (mem (sv_items s2) x) eqn:E; [apply mem_iff in E; tauto|]. rewrite <- mem_iff in *. rewrite <- (mem_iff (sv_items s1)).
      rewrite E. intuition congruence.
Qed.

Lemma union_hint_new : brackets (union_size_hint (union_new s1 s2)) (length (un_out (union_new s1 s2))).
Proof.
  unfold brackets, union_size_hint, un_out, checked_add. cbn.
  assert (forall s s', lawful_set eqT s -> lawful_set eqT s' -> sv_len s <= sv_len s' ->
    True)%nat by auto.
  rewrite (set_len_law _ _ L1), (set_len_law _ _ L2).
  destruct (Nat.ltb_spec (length (sv_items s2)) (length (sv_items s1))); rewrite app_length.
  - pose proof (filter_length_le (notin s1) (sv_items s2)). split; [lia|]. destruct (N.leb_spec (N.of_nat (length (sv_items s1)) + N.of_nat (length (sv_items s2))) usize_max); [lia|auto].
  - pose proof (filter_length_le (notin s2) (sv_items s1)). split; [lia|]. destruct (N.leb_spec (N.of_nat (length (sv_items s1)) + N.of_nat (length (sv_items s2))) usize_max); [lia|auto].
Qed.

Lemma union_hint_upper u : un_inv u -> match snd (union_size_hint u) with Some n => N.of_nat (length (un_out u)) <= n | None => True end.
Proof.
  intros _. unfold union_size_hint, un_out, checked_add. cbn.
  destruct (N.leb_spec (N.of_nat (length (un_rest1 u)) + N.of_nat (length (un_rest2 u))) usize_max); auto.
  destruct (Nat.ltb _ _); rewrite app_length.
  - pose proof (filter_length_le (notin s1) (un_rest2 u)). lia.
  - pose proof (filter_length_le (notin s2) (un_rest1 u)). lia.
Qed.
End Pair.

(** ** symmetric difference *)
Section Sym.
Variables s1 s2 : set_val T.
Hypothesis L1 : lawful_set eqT s1.
Hypothesis L2 : lawful_set eqT s2.

Definition sd_inv (c : symmetric_difference_st T) : Prop :=
  match sd_a c with Some a => df_inv s2 a | None => True end /\ df_inv s1 (sd_b c).
Definition sd_out (c : symmetric_difference_st T) : list T :=
  match sd_a c with Some a => df_out s2 a | None => [] end ++ df_out s1 (sd_b c).

Lemma symmetric_difference_sound : iter_sound symmetric_difference_next sd_inv sd_out.
Proof.
  intros c [Ha Hb]. unfold symmetric_difference_next, sd_out.
  assert (HB : exists o st', fmap (fun p : option T * difference_st T => (fst p, {| sd_a := None; sd_b := snd p |})) (difference_next (sd_b c)) = Ok (o, st') /\
     sd_inv st' /\ df_out s1 (sd_b c) = match o with Some x => x :: sd_out st' | None => [] end /\ (o = None -> sd_out st' = [])).
  { destruct (difference_sound s1 L1 (sd_b c) Hb) as [o [d' [E [I' [E2 E3]]]]]. rewrite E. cbn.
    eexists _, _. split; [reflexivity|]. split; [split; cbn; auto|]. unfold sd_out. cbn. auto. }
  destruct (sd_a c) as [a|] eqn:Ea.
  - destruct (difference_sound s2 L2 a Ha) as [o [d' [E [I' [E2 E3]]]]]. rewrite E. cbn [bind fst snd]. destruct o as [x|].
    + eexists _, _. split; [reflexivity|]. split; [split; cbn; auto|]. cbn. rewrite E2. split; [reflexivity|discriminate].
    + rewrite E2. cbn [app]. exact HB.
  - exact HB.
Qed.

Lemma symmetric_difference_result : let l := sd_out (symmetric_difference_new s1 s2) in
  yields symmetric_difference_next (symmetric_difference_new s1 s2) l /\ distinct eqT l /\
  forall x, member eqT x l <-> (elem eqT x s1 /\ ~ elem eqT x s2) \/ (elem eqT x s2 /\ ~ elem eqT x s1).
Proof.
  split; [|split].
  - apply (sound_yields _ _ _ symmetric_difference_sound). split; reflexivity.
  - unfold sd_out. cbn. unfold df_out. cbn. apply distinct_app. split; [|split].
    + apply distinct_filter. apply (set_distinct_law _ _ L1).
    + apply distinct_filter. apply (set_distinct_law _ _ L2).
    + intros x y Hx Hy. apply filter_In in Hx, Hy. destruct (eqT x y) eqn:E; auto. exfalso.
      destruct Hy as [_ Hy]. apply notin_iff in Hy. apply Hy. exists x. split; [apply Hx|]. apply (eq_sym_law _ LE). auto.
  - intros x. unfold sd_out. cbn. unfold df_out. cbn. rewrite member_app, !member_filter by apply notin_cong. rewrite !notin_iff. reflexivity.
Qed.

Lemma symmetric_difference_hint c : sd_inv c -> brackets (symmetric_difference_size_hint c) (length (sd_out c)).
Proof.
  intros [Ha Hb]. unfold symmetric_difference_size_hint, sd_out. destruct (sd_a c) as [a|].
  - pose proof (difference_hint s2 a Ha) as [_ H1]. pose proof (difference_hint s1 _ Hb) as [_ H2].
    unfold brackets. cbn in *. rewrite app_length. split; [unfold saturating_add; lia|]. unfold checked_add.
    destruct (N.leb_spec (N.of_nat (length (df_rest1 a)) + N.of_nat (length (df_rest1 (sd_b c)))) usize_max); [lia|auto].
  - cbn [app]. apply difference_hint. auto.
Qed.
End Sym.

(** ** tests *)
Lemma all_items_spec (p : T -> res bool) (f : T -> bool) l : (forall x, p x = Ok (f x)) ->
  exists b, all_items p l = Ok b /\ (b = true <-> forall x, In x l -> f x = true).
Proof.
  intros Hp. induction l as [|x r IH]; cbn [all_items].
  - exists true. split; [auto|]. split; [intros _ y []|auto].
  - rewrite Hp. cbn [bind]. destruct (f x) eqn:E.
    + destruct IH as [b [E1 H]]. exists b. split; auto. rewrite H. split; intros G y; [intros [<-|Hy]; auto|intros Hy; apply G; right; auto].
    + exists false. split; auto. split; [discriminate|]. intros G. rewrite G in E by (left; auto). discriminate.
Qed.

Lemma forall_elem (s : set_val T) (P : T -> Prop) : (forall a b, eqT a b = true -> P b -> P a) ->
  ((forall x, In x (sv_items s) -> P x) <-> forall x, elem eqT x s -> P x).
Proof.
  intros HP. split; intros H x Hx.
  - destruct Hx as [y [Hy E]]. eapply HP; eauto.
  - apply H. apply member_In. auto.
Qed.

Lemma elem_cong s a b : eqT a b = true -> elem eqT b s -> elem eqT a s.
Proof. intros H. apply (member_cong a b); auto. Qed.

Lemma is_disjoint_spec s1 s2 : lawful_set eqT s1 -> lawful_set eqT s2 ->
  exists b, is_disjoint s1 s2 = Ok b /\ (b = true <-> forall x, ~ (elem eqT x s1 /\ elem eqT x s2)).
Proof.
  intros L1 L2. unfold is_disjoint. destruct (Nat.leb _ _).
  - destruct (all_items_spec _ _ (sv_items s1) (not_contains s2 L2)) as [b [E H]]. exists b. split; auto. rewrite H.
    split.
    + intros G x [Hx1 Hx2]. destruct Hx1 as [y [Hy Ey]]. apply G in Hy. apply notin_iff in Hy. apply Hy.
      apply (elem_cong s2 y x); auto. apply (eq_sym_law _ LE). auto.
    + intros G x Hx. apply notin_iff. intros Hx2. apply (G x). split; auto. apply member_In. auto.
  - destruct (all_items_spec _ _ (sv_items s2) (not_contains s1 L1)) as [b [E H]]. exists b. split; auto. rewrite H.
    split.
    + intros G x [Hx2 Hx1]. destruct Hx1 as [y [Hy Ey]]. apply G in Hy. apply notin_iff in Hy. apply Hy.
      apply (elem_cong s1 y x); auto. apply (eq_sym_law _ LE). auto.
    + intros G x Hx. apply notin_iff. intros Hx2. apply (G x). split; auto. apply member_In. auto.
Qed.

Lemma all_contains_spec s1 s2 : lawful_set eqT s2 ->
  exists b, all_items (sv_contains s2) (sv_items s1) = Ok b /\ (b = true <-> forall x, elem eqT x s1 -> elem eqT x s2).
Proof.
  intros L2. destruct (all_items_spec _ _ (sv_items s1) (fun x => contains_mem s2 x L2)) as [b [E H]]. exists b. split; auto.
  rewrite H. rewrite <- (forall_elem s1 (fun x => elem eqT x s2)) by apply elem_cong.
  split; intros G x Hx; [apply mem_iff|apply mem_iff]; apply G; auto.
Qed.

Lemma subset_len s1 s2 : lawful_set eqT s1 -> lawful_set eqT s2 -> (forall x, elem eqT x s1 -> elem eqT x s2) -> (sv_len s1 <= sv_len s2)%nat.
Proof.
  intros L1 L2 H. rewrite (set_len_law _ _ L1), (set_len_law _ _ L2). apply distinct_incl_length; [apply (set_distinct_law _ _ L1)|].
  intros x Hx. apply H. apply member_In. auto.
Qed.

Lemma is_subset_spec s1 s2 : lawful_set eqT s1 -> lawful_set eqT s2 ->
  exists b, is_subset s1 s2 = Ok b /\ (b = true <-> forall x, elem eqT x s1 -> elem eqT x s2).
Proof.
  intros L1 L2. unfold is_subset. destruct (Nat.leb_spec (sv_len s1) (sv_len s2)) as [H|H].
  - apply all_contains_spec. auto.
  - exists false. split; auto. split; [discriminate|]. intros G. pose proof (subset_len s1 s2 L1 L2 G). lia.
Qed.

Lemma is_superset_spec s1 s2 : lawful_set eqT s1 -> lawful_set eqT s2 ->
  exists b, is_superset s1 s2 = Ok b /\ (b = true <-> forall x, elem eqT x s2 -> elem eqT x s1).
Proof. intros L1 L2. exact (is_subset_spec s2 s1 L2 L1). Qed.

Lemma set_eq_spec s1 s2 : lawful_set eqT s1 -> lawful_set eqT s2 ->
  exists b, set_eq s1 s2 = Ok b /\ (b = true <-> forall x, elem eqT x s1 <-> elem eqT x s2).
Proof.
  intros L1 L2. unfold set_eq. destruct (Nat.eqb_spec (sv_len s1) (sv_len s2)) as [H|H]; cbn [negb].
  - destruct (all_contains_spec s1 s2 L2) as [b [E G]]. exists b. split; auto. rewrite G. split.
    + intros G' x. split; auto. intros [y [Hy Ey]]. apply (elem_cong s1 x y Ey).
      eapply distinct_incl_back; [apply (set_distinct_law _ _ L1)| |intros z Hz; apply G'; apply member_In; auto|exact Hy].
      rewrite <- (set_len_law _ _ L1), <- (set_len_law _ _ L2). lia.
    + intros G' x. apply G'.
  - exists false. split; auto. split; [discriminate|]. intros G.
    pose proof (subset_len s1 s2 L1 L2 (fun x => proj1 (G x))). pose proof (subset_len s2 s1 L2 L1 (fun x => proj2 (G x))). lia.
Qed.

(** ** operators *)
Lemma hb_set_lawful l : distinct eqT l -> lawful_set eqT (hb_set eqT l).
Proof.
  intros H. constructor; cbn; auto. intros x. exists (existsb (eqT x) l). split; auto. symmetry. apply member_existsb.
Qed.

Lemma hb_from_iter_gen l : forall acc, distinct eqT acc ->
  distinct eqT (fold_left (hb_insert eqT) l acc) /\ forall x, member eqT x (fold_left (hb_insert eqT) l acc) <-> member eqT x acc \/ member eqT x l.
Proof.
  induction l as [|a r IH]; intros acc HD; cbn [fold_left].
  - split; auto. intros x. split; auto. intros [H|[y [[] _]]]; auto.
  - assert (HD' : distinct eqT (hb_insert eqT acc a) /\ forall x, member eqT x (hb_insert eqT acc a) <-> member eqT x acc \/ eqT x a = true).
    { unfold hb_insert. destruct (existsb (eqT a) acc) eqn:E.
      - split; auto. intros x. split; auto. intros [H|H]; auto. apply (member_cong x a); auto. apply member_existsb. auto.
      - split.
        + apply distinct_app. split; auto. split; [cbn; split; [intros y []|exact I]|]. intros x y Hx [<-|[]].
          rewrite existsb_false_forall in E. destruct (eqT x a) eqn:F; auto. apply (eq_sym_law _ LE) in F. rewrite E in F; auto.
        + intros x. rewrite member_app, member_cons. unfold member at 3. firstorder. }
    destruct HD' as [HD' HM]. destruct (IH _ HD') as [G1 G2]. split; auto. intros x. rewrite G2, HM, member_cons. tauto.
Qed.

Lemma op_result {St} (next : St -> res (option T * St)) st l fuel (P : T -> Prop) :
  yields next st l -> (length l < fuel)%nat -> (forall x, member eqT x l <-> P x) ->
  exists s, (x <- drain next fuel st ;; Ok (hb_set eqT (hb_from_iter eqT x))) = Ok s /\ lawful_set eqT s /\ forall x, elem eqT x s <-> P x.
Proof.
  intros H Hf HP. rewrite (yields_drain _ _ _ H fuel Hf). cbn. eexists. split; [reflexivity|].
  destruct (hb_from_iter_gen l [] I) as [H1 H2]. split; [apply hb_set_lawful; auto|]. intros x. unfold elem. cbn.
  fold (hb_from_iter eqT l). unfold hb_from_iter. rewrite H2. rewrite <- HP. split; auto. intros [[y [[] _]]|H3]; auto.
Qed.

Section Ops.
Variables s1 s2 : set_val T.
Hypothesis L1 : lawful_set eqT s1.
Hypothesis L2 : lawful_set eqT s2.

Lemma bitor_spec : exists s, set_bitor eqT s1 s2 = Ok s /\ lawful_set eqT s /\ forall x, elem eqT x s <-> elem eqT x s1 \/ elem eqT x s2.
Proof.
  destruct (union_result s1 s2 L1 L2) as [H1 [H2 H3]]. eapply op_result; eauto. unfold op_fuel, un_out. cbn.
  destruct (Nat.ltb _ _); rewrite app_length.
  - pose proof (filter_length_le (notin s1) (sv_items s2)). lia.
  - pose proof (filter_length_le (notin s2) (sv_items s1)). lia.
Qed.

Lemma bitand_spec : exists s, set_bitand eqT s1 s2 = Ok s /\ lawful_set eqT s /\ forall x, elem eqT x s <-> elem eqT x s1 /\ elem eqT x s2.
Proof.
  destruct (intersection_result s1 s2 L1 L2) as [H1 [H2 H3]]. eapply op_result; eauto. unfold op_fuel, in_out. cbn.
  pose proof (filter_length_le (mem (sv_items s1)) (sv_items s2)). pose proof (filter_length_le (mem (sv_items s2)) (sv_items s1)).
  destruct (Nat.ltb _ _); lia.
Qed.

Lemma bitxor_spec : exists s, set_bitxor eqT s1 s2 = Ok s /\ lawful_set eqT s /\
  forall x, elem eqT x s <-> (elem eqT x s1 /\ ~ elem eqT x s2) \/ (elem eqT x s2 /\ ~ elem eqT x s1).
Proof.
  destruct (symmetric_difference_result s1 s2 L1 L2) as [H1 [H2 H3]]. eapply op_result; eauto. unfold op_fuel, sd_out. cbn.
  unfold df_out. cbn. rewrite app_length.
  pose proof (filter_length_le (notin s1) (sv_items s2)). pose proof (filter_length_le (notin s2) (sv_items s1)). lia.
Qed.

Lemma sub_spec : exists s, set_sub eqT s1 s2 = Ok s /\ lawful_set eqT s /\ forall x, elem eqT x s <-> elem eqT x s1 /\ ~ elem eqT x s2.
Proof.
  destruct (difference_result s1 s2 L1 L2) as [H1 [H2 H3]]. eapply op_result; eauto. unfold op_fuel.
  pose proof (filter_length_le (notin s2) (sv_items s1)). lia.
Qed.

Lemma filter_split (p : T -> bool) l : (length (filter p l) + length (filter (fun x => negb (p x)) l) = length l)%nat.
Proof. induction l; cbn; auto. destruct (p a); cbn; lia. Qed.

Lemma inter_sym : length (filter (mem (sv_items s1)) (sv_items s2)) = length (filter (mem (sv_items s2)) (sv_items s1)).
Proof.
  apply Nat.le_antisymm; apply distinct_incl_length.
  - apply distinct_filter. apply (set_distinct_law _ _ L2).
  - intros x Hx. apply filter_In in Hx. destruct Hx as [H1 H2]. apply member_filter; [apply mem_cong|]. rewrite mem_iff in *.
    split; auto. apply member_In. auto.
  - apply distinct_filter. apply (set_distinct_law _ _ L1).
  - intros x Hx. apply filter_In in Hx. destruct Hx as [H1 H2]. apply member_filter; [apply mem_cong|]. rewrite mem_iff in *.
    split; auto. apply member_In. auto.
Qed.

Lemma union_card : (length (un_out s1 s2 (union_new s1 s2)) + length (in_out s1 s2 (intersection_new s1 s2)) = sv_len s1 + sv_len s2)%nat.
Proof.
  unfold un_out, in_out. cbn. rewrite (set_len_law _ _ L1), (set_len_law _ _ L2). pose proof inter_sym as HS.
  pose proof (filter_split (mem (sv_items s1)) (sv_items s2)) as F1. fold (notin s1) in F1.
  pose proof (filter_split (mem (sv_items s2)) (sv_items s1)) as F2. fold (notin s2) in F2.
  destruct (Nat.ltb _ _), (Nat.ltb _ _); rewrite app_length; unfold notin in *; lia.
Qed.
End Ops.

(** ** frozen sets are sets *)
Lemma lawful_self_equivalent : lawful_equivalent eqT eqT.
Proof. intros q k1 k2 H. rewrite (eq_cong q k1 H). reflexivity. Qed.

Lemma built_set_lawful {M} (ops : map_ops M T unit T) m input : built ops eqT eqT m input ->
  lawful_set eqT (as_set ops m) /\ forall x, elem eqT x (as_set ops m) <-> member eqT x (map fst input).
Proof.
  intros B.
  assert (HE : forall x, member eqT x (set_values ops m) <-> member eqT x (map fst input)).
  { intros x. unfold set_values. split.
    - intros [y [Hy E]]. apply in_map_iff in Hy. destruct Hy as [e [<- He]].
      eapply Permutation_in in He; [|symmetry; apply (built_entries _ _ _ _ _ B)]. exists (fst e). split; auto.
      apply in_map. eapply survivors_incl; eauto.
    - intros [y [Hy E]]. apply in_map_iff in Hy. destruct Hy as [e [<- He]].
      destruct (survivors_cover (same_key eqT) input e (lawful_same_key eqT LE) He) as [e' [He' E']].
      exists (fst e'). split; [|apply (eq_trans_law _ LE _ (fst e)); auto].
      apply in_map. eapply Permutation_in; [apply (built_entries _ _ _ _ _ B)|auto]. }
  split; [|exact HE]. constructor; cbn.
  - unfold set_values. apply distinct_map. apply (built_distinct ops eqT eqT LE m input B).
  - unfold set_len, map_len, set_values. rewrite map_length. reflexivity.
  - intros x. unfold set_contains. rewrite (built_contains ops eqT eqT LE lawful_self_equivalent m input B x).
    eexists. split; [reflexivity|]. rewrite HE. unfold spec_entry.
    destruct (last_match (fun e => eqT x (fst e)) input) as [e|] eqn:E; cbn.
    + apply last_match_Some in E. destruct E as [H1 H2]. split; auto. intros _. exists (fst e). split; auto. apply in_map. auto.
    + rewrite last_match_None in E. split; [discriminate|]. intros [y [Hy Ey]]. apply in_map_iff in Hy. destruct Hy as [e [<- He]].
      rewrite E in Ey by auto. discriminate.
Qed.
End Sets.
