(** Proofs about set iterators and clients of sets (C71, C72). *)
From Coq Require Import Permutation.
From Verif Require Import ModelUtils ModelAnalyzers ModelTables ModelMaps ModelIter Spec SpecMade SpecSets SpecSetHistory ModelSetHistory
  ProofsBase ProofsIter ProofsSetProps.
From Verif Require Import Prelude.

(** * Fused, whatever the sets do *)
Section Fused.
Context {T : Type}.

(** States from which nothing comes. *)
Lemma done_stays {St} (next : St -> res (option T * St)) (D : St -> Prop) :
  (forall st, D st -> exists st', next st = Ok (None, st') /\ D st') ->
  forall st st', D st -> reaches next st st' -> exists st2, next st' = Ok (None, st2).
Proof.
  intros H st st' HD R. assert (D st') as H'.
  { induction R as [|st1 o st2 R IH E]; [exact HD|]. destruct (H _ IH) as (st3 & E3 & D3). rewrite E in E3. injection E3 as _ <-. exact D3. }
  destruct (H _ H') as (st2 & E & _). exists st2. exact E.
Qed.

Lemma next_where_none (p : T -> res bool) l rest : next_where p l = Ok (None, rest) -> rest = [].
Proof.
  induction l as [|x r IH]; cbn; [intros [= <-]; reflexivity|].
  destruct (p x) as [[|]| |]; cbn; try discriminate. exact IH.
Qed.

Ltac inv_fmap E r :=
  match type of E with fmap _ ?x = _ =>
    let H := fresh in destruct x as [[? r]| |] eqn:H; cbn in E; [|discriminate E|discriminate E]; injection E as -> <-; rename H into E end.

Lemma fused_difference (d st1 st2 : difference_st T) : difference_next d = Ok (None, st1) -> reaches difference_next st1 st2 ->
  exists st3, difference_next st2 = Ok (None, st3).
Proof.
  intros E. apply (done_stays _ (fun d => df_rest1 d = [])).
  - intros [r s] H. cbn in H. subst r. eexists. split; reflexivity.
  - unfold difference_next in E. inv_fmap E r. cbn. eapply next_where_none, E.
Qed.

Lemma fused_intersection (d st1 st2 : intersection_st T) : intersection_next d = Ok (None, st1) -> reaches intersection_next st1 st2 ->
  exists st3, intersection_next st2 = Ok (None, st3).
Proof.
  intros E. apply (done_stays _ (fun i => if Nat.ltb (sv_len (in_s1 i)) (sv_len (in_s2 i)) then in_rest1 i = [] else in_rest2 i = [])).
  - intros [s1 r1 s2 r2] H. unfold intersection_next. cbn [in_s1 in_s2 in_rest1 in_rest2] in *.
    destruct (Nat.ltb (sv_len s1) (sv_len s2)) eqn:C; subst; eexists; (split; [reflexivity|]); cbn [in_s1 in_s2 in_rest1 in_rest2]; rewrite C; reflexivity.
  - unfold intersection_next in E. destruct (Nat.ltb _ _) eqn:C; inv_fmap E r; cbn [in_s1 in_s2 in_rest1 in_rest2]; rewrite C; eapply next_where_none, E.
Qed.

Lemma fused_union (d st1 st2 : union_st T) : union_next d = Ok (None, st1) -> reaches union_next st1 st2 ->
  exists st3, union_next st2 = Ok (None, st3).
Proof.
  intros E. apply (done_stays _ (fun u => un_rest1 u = [] /\ un_rest2 u = [])).
  - intros [s1 r1 s2 r2] [H1 H2]. cbn in H1, H2. subst. unfold union_next. cbn [un_s1 un_s2 un_rest1 un_rest2]. destruct (Nat.ltb _ _); eexists; (split; [reflexivity|split; reflexivity]).
  - unfold union_next in E. destruct d as [s1 r1 s2 r2]. cbn [un_s1 un_s2 un_rest1 un_rest2] in E. destruct (Nat.ltb _ _) eqn:C.
    + destruct r1; [|discriminate]. inv_fmap E r. cbn. split; [reflexivity|eapply next_where_none, E].
    + destruct r2; [|discriminate]. inv_fmap E r. cbn. split; [eapply next_where_none, E|reflexivity].
Qed.

Lemma fused_symmetric_difference (d st1 st2 : symmetric_difference_st T) : symmetric_difference_next d = Ok (None, st1) ->
  reaches symmetric_difference_next st1 st2 -> exists st3, symmetric_difference_next st2 = Ok (None, st3).
Proof.
  intros E. apply (done_stays _ (fun c => sd_a c = None /\ df_rest1 (sd_b c) = [])).
  - intros [a [r s]] [H1 H2]. cbn in H1, H2. subst. eexists. split; [reflexivity|split; reflexivity].
  - assert (forall x : difference_st T, fmap (fun p => (fst p, {| sd_a := None; sd_b := snd p |})) (difference_next x) = Ok (None, st1) ->
      sd_a st1 = None /\ df_rest1 (sd_b st1) = []) as F.
    { intros x H. inv_fmap H r. split; [reflexivity|].
      unfold difference_next in H. inv_fmap H r'. cbn. eapply next_where_none, H. }
    unfold symmetric_difference_next in E. destruct d as [[a|] b]; cbn in E; [|exact (F _ E)].
    destruct (difference_next a) as [[[x|] a']| |]; cbn in E; try discriminate. exact (F _ E).
Qed.
End Fused.
Ltac inv_fmap E r :=
  match type of E with fmap _ ?x = _ =>
    let H := fresh in destruct x as [[? r]| |] eqn:H; cbn in E; [|discriminate E|discriminate E]; injection E as -> <-; rename H into E end.

(** * Counting *)
Section Count.
Context {T : Type}.

Lemma count_yields {St} (next : St -> res (option T * St)) st l : yields next st l ->
  forall fuel, (length l < fuel)%nat -> count_next next fuel st = Ok (length l).
Proof.
  induction 1 as [st st' E|st x st' l E Y IH]; intros [|fuel] F; cbn in F |- *; try lia; rewrite E; cbn; [reflexivity|].
  rewrite IH by lia. reflexivity.
Qed.

Lemma next_where_shorter (p : T -> res bool) l x rest : next_where p l = Ok (Some x, rest) -> (length rest < length l)%nat.
Proof.
  induction l as [|y r IH]; cbn; [discriminate|]. destruct (p y) as [[|]| |]; cbn; try discriminate.
  - intros [= _ <-]. lia.
  - intros H. apply IH in H. lia.
Qed.

(** An iterator whose measure goes down yields at most as many items. *)
Lemma yields_measure {St} (next : St -> res (option T * St)) (mu : St -> nat) :
  (forall st x st', next st = Ok (Some x, st') -> (mu st' < mu st)%nat) -> forall st l, yields next st l -> (length l <= mu st)%nat.
Proof. intros H st l Y. induction Y as [|st x st' l E Y IH]; cbn; [lia|]. apply H in E. lia. Qed.

Lemma difference_counts (d : difference_st T) l : yields difference_next d l -> difference_count d = Ok (length l).
Proof.
  intros Y. apply count_yields; [exact Y|]. apply (yields_measure _ (fun d => length (df_rest1 d))) in Y; [lia|].
  intros st x st' E. unfold difference_next in E. inv_fmap E r. cbn. eapply next_where_shorter, E.
Qed.

Lemma intersection_counts (d : intersection_st T) l : yields intersection_next d l -> intersection_count d = Ok (length l).
Proof.
  intros Y. apply count_yields; [exact Y|]. apply (yields_measure _ (fun d => length (in_rest1 d) + length (in_rest2 d))%nat) in Y; [lia|].
  intros st x st' E. unfold intersection_next in E. destruct (Nat.ltb _ _); inv_fmap E r; cbn in *;
    apply next_where_shorter in E; lia.
Qed.

Lemma union_counts (d : union_st T) l : yields union_next d l -> union_count d = Ok (length l).
Proof.
  intros Y. apply count_yields; [exact Y|]. apply (yields_measure _ (fun d => length (un_rest1 d) + length (un_rest2 d))%nat) in Y; [lia|].
  intros [s1 r1 s2 r2] x st' E. unfold union_next in E. cbn [un_s1 un_s2 un_rest1 un_rest2] in *. destruct (Nat.ltb _ _).
  - destruct r1 as [|y r1].
    + inv_fmap E r. cbn in *. apply next_where_shorter in E. lia.
    + injection E as _ <-. cbn. lia.
  - destruct r2 as [|y r2].
    + inv_fmap E r. cbn in *. apply next_where_shorter in E. lia.
    + injection E as _ <-. cbn. lia.
Qed.

(** What a chain yields is what its first part yields, then what its second does. *)
Lemma symmetric_difference_split (c : symmetric_difference_st T) l : yields symmetric_difference_next c l ->
  exists l1 l2, l = l1 ++ l2 /\ match sd_a c with Some a => yields difference_next a l1 | None => l1 = [] end /\ yields difference_next (sd_b c) l2.
Proof.
  assert (forall (b : difference_st T) a' b' o, fmap (fun p => (fst p, {| sd_a := None; sd_b := snd p |})) (difference_next b) =
    Ok (o, {| sd_a := a'; sd_b := b' |}) -> difference_next b = Ok (o, b') /\ a' = None) as F.
  { intros b a' b' o H. destruct (difference_next b) as [[o' r]| |]; cbn in H; [|discriminate H|discriminate H]. injection H as -> <- <-. auto. }
  induction 1 as [[a b] [a' b'] E|[a b] x [a' b'] l E Y IH]; unfold symmetric_difference_next in E; cbn in E |- *.
  - exists [], []. split; [reflexivity|]. destruct a as [a|].
    + destruct (difference_next a) as [[[x|] a2]| |] eqn:Ea; cbn in E; try discriminate. apply F in E as [E ->].
      split; [eapply yields_nil, Ea|eapply yields_nil, E].
    + apply F in E as [E ->]. split; [reflexivity|eapply yields_nil, E].
  - destruct IH as (l1 & l2 & -> & H1 & H2). cbn in H1, H2. destruct a as [a|].
    + destruct (difference_next a) as [[[y|] a2]| |] eqn:Ea; cbn in E; try discriminate.
      * injection E as -> <- <-. exists (x :: l1), l2. split; [reflexivity|]. split; [eapply yields_cons; [exact Ea|exact H1]|exact H2].
      * apply F in E as [E ->]. subst l1. exists [], (x :: l2). split; [reflexivity|]. split; [eapply yields_nil, Ea|eapply yields_cons; [exact E|exact H2]].
    + apply F in E as [E ->]. subst l1. exists [], (x :: l2). split; [reflexivity|]. split; [reflexivity|eapply yields_cons; [exact E|exact H2]].
Qed.

Lemma symmetric_difference_counts (c : symmetric_difference_st T) l : yields symmetric_difference_next c l ->
  symmetric_difference_count c = Ok (length l).
Proof.
  intros Y. destruct (symmetric_difference_split _ _ Y) as (l1 & l2 & -> & H1 & H2). unfold symmetric_difference_count.
  rewrite (difference_counts _ _ H2), app_length. destruct (sd_a c) as [a|]; [rewrite (difference_counts _ _ H1)|subst l1]; reflexivity.
Qed.
End Count.

(** * Clients *)
Section History.
Context {T : Type} (eqT : T -> T -> bool) (shuffle : list T -> list T).
Hypothesis LE : lawful_eq eqT.
Hypothesis PS : forall l, Permutation l (shuffle l).

(** A set and the list of elements that stands for it. *)
Definition stands (s : set_val T) (l : list T) : Prop :=
  lawful_set eqT s /\ distinct eqT l /\ forall x, elem eqT x s <-> member eqT x l.

Lemma same_length l l' : distinct eqT l -> distinct eqT l' -> (forall x, member eqT x l <-> member eqT x l') -> length l = length l'.
Proof.
  intros D D' H. apply Nat.le_antisymm; apply (distinct_incl_length eqT LE); try assumption; intros x Hx;
    [apply H|apply H]; apply (member_In eqT LE); exact Hx.
Qed.

Lemma stands_len s l : stands s l -> sv_len s = length l.
Proof. intros (L & D & H). rewrite (set_len_law _ _ L). apply same_length; [apply L|exact D|exact H]. Qed.

Lemma eq_swap x y : eqT x y = eqT y x.
Proof. apply Bool.eq_iff_eq_true. split; apply (eq_sym_law _ LE). Qed.
Lemma has_iff l x : has eqT l x = true <-> member eqT x l.
Proof. unfold has. symmetry. apply (member_existsb eqT). Qed.
Lemma lacks_iff l x : lacks eqT l x = true <-> ~ member eqT x l.
Proof. unfold lacks. rewrite Bool.negb_true_iff, <- Bool.not_true_iff_false, has_iff. reflexivity. Qed.
Lemma has_cong l x y : eqT x y = true -> has eqT l x = has eqT l y.
Proof. intros E. apply Bool.eq_iff_eq_true. rewrite !has_iff. apply (member_cong eqT LE); exact E. Qed.
Lemma lacks_cong l x y : eqT x y = true -> lacks eqT l x = lacks eqT l y.
Proof. intros E. unfold lacks. rewrite (has_cong l x y E). reflexivity. Qed.

Lemma bool_ext b b' : (b = true <-> b' = true) -> b = b'.
Proof. apply Bool.eq_iff_eq_true. Qed.

(** A quantifier over the listed elements ranges over the whole set. *)
Lemma forallb_members (p : T -> bool) l : (forall x y, eqT x y = true -> p x = p y) ->
  forallb p l = true <-> forall x, member eqT x l -> p x = true.
Proof.
  intros C. rewrite forallb_forall. split.
  - intros H x (y & Hy & E). rewrite (C x y E). apply H, Hy.
  - intros H x Hx. apply H, (member_In eqT LE), Hx.
Qed.

Lemma without_repeats_spec l : distinct eqT (without_repeats eqT l) /\ forall x, member eqT x (without_repeats eqT l) <-> member eqT x l.
Proof.
  induction l as [|x r [D H]]; cbn [without_repeats].
  - split; [exact I|reflexivity].
  - assert (forall a b, eqT a b = true -> negb (eqT x a) = negb (eqT x b)) as C.
    { intros a b E. f_equal. rewrite (eq_swap x a), (eq_swap x b). apply (eq_cong eqT LE). exact E. }
    split.
    + cbn. split; [|apply (distinct_filter eqT); exact D].
      intros y Hy. apply filter_In in Hy as [_ Hy]. apply Bool.negb_true_iff in Hy. exact Hy.
    + intros y. rewrite !(member_cons eqT), (member_filter eqT _ _ _ C), H. destruct (eqT x y) eqn:E.
      * rewrite (eq_swap y x), E. tauto.
      * rewrite (eq_swap y x), E. cbn. tauto.
Qed.

Lemma ref_op_spec o a b : distinct eqT a -> distinct eqT b ->
  distinct eqT (ref_op eqT o a b) /\
  forall x, member eqT x (ref_op eqT o a b) <->
    match o with
    | OpUnion => member eqT x a \/ member eqT x b
    | OpIntersection => member eqT x a /\ member eqT x b
    | OpDifference => member eqT x a /\ ~ member eqT x b
    | OpSymmetricDifference => (member eqT x a /\ ~ member eqT x b) \/ (member eqT x b /\ ~ member eqT x a)
    end.
Proof.
  intros Da Db.
  assert (forall l1 l2, distinct eqT l1 -> distinct eqT l2 -> (forall x y, In x l1 -> In y l2 -> eqT x y = false) -> distinct eqT (l1 ++ l2)) as App.
  { induction l1 as [|x r IH]; cbn; intros l2 D1 D2 H; [exact D2|]. destruct D1 as [D0 D1]. split.
    - intros y Hy. apply in_app_iff in Hy as [Hy|Hy]; [apply D0, Hy|apply H; auto].
    - apply IH; auto. }
  assert (forall l l' x y, In x l -> In y (filter (lacks eqT l) l') -> eqT x y = false) as Apart.
  { intros l l' x y Hx Hy. apply filter_In in Hy as [_ Hy]. apply lacks_iff in Hy. destruct (eqT x y) eqn:E; [|reflexivity].
    exfalso. apply Hy. exists x. split; [exact Hx|]. rewrite eq_swap. exact E. }
  destruct o; cbn [ref_op].
  - split.
    + apply App; [exact Da|apply (distinct_filter eqT); exact Db|apply Apart].
    + intros x. rewrite (member_app eqT), (member_filter eqT _ _ _ (lacks_cong a)), lacks_iff. pose proof (has_iff a x).
      destruct (has eqT a x); intuition congruence.
  - split; [apply (distinct_filter eqT); exact Da|]. intros x. rewrite (member_filter eqT _ _ _ (has_cong b)), has_iff. tauto.
  - split; [apply (distinct_filter eqT); exact Da|]. intros x. rewrite (member_filter eqT _ _ _ (lacks_cong b)), lacks_iff. tauto.
  - split.
    + apply App; [apply (distinct_filter eqT); exact Da|apply (distinct_filter eqT); exact Db|].
      intros x y Hx Hy. apply filter_In in Hx as [Hx _]. eapply Apart; [exact Hx|exact Hy].
    + intros x. rewrite (member_app eqT), !(member_filter eqT) by (apply lacks_cong). rewrite !lacks_iff. tauto.
Qed.

Lemma member_permutation l l' x : Permutation l l' -> member eqT x l -> member eqT x l'.
Proof. intros P (y & Hy & E). exists y. split; [eapply Permutation_in; eassumption|exact E]. Qed.

Lemma distinct_permutation l l' : Permutation l l' -> distinct eqT l -> distinct eqT l'.
Proof.
  induction 1 as [|x l l' P IH|x y l|l1 l2 l3 P1 IH1 P2 IH2]; cbn; auto.
  - intros [H D]. split; [|apply IH, D]. intros y Hy. apply H. eapply Permutation_in; [apply Permutation_sym, P|exact Hy].
  - intros [H [H' D]]. split; [|split].
    + intros z [<-|Hz]; [|apply H', Hz]. rewrite eq_swap. apply H. left. reflexivity.
    + intros z Hz. apply H. right. exact Hz.
    + exact D.
Qed.

Lemma shuffled_lawful l : distinct eqT l -> lawful_set eqT (hb_set eqT (shuffle l)) /\ forall x, elem eqT x (hb_set eqT (shuffle l)) <-> member eqT x l.
Proof.
  intros D. split.
  - apply (hb_set_lawful eqT). eapply distinct_permutation; [apply PS|exact D].
  - intros x. unfold elem. cbn. split; apply member_permutation; [apply Permutation_sym|]; apply PS.
Qed.

Lemma hb_from_iter_spec l : distinct eqT (hb_from_iter eqT l) /\ forall x, member eqT x (hb_from_iter eqT l) <-> member eqT x l.
Proof.
  destruct (hb_from_iter_gen eqT LE l [] I) as [D H]. split; [exact D|]. intros x. unfold hb_from_iter. rewrite H. unfold member at 1. cbn. split.
  - intros [(y & [] & _)|Hx]. exact Hx.
  - auto.
Qed.

Lemma client_set_stands s values : client_set eqT shuffle s values -> stands s (without_repeats eqT values).
Proof.
  intros H. destruct (without_repeats_spec values) as [D M]. destruct H as [M0 ops m values Hm|values].
  - destruct (frozen_set_lawful ops eqT m values Hm) as [L E]. split; [exact L|]. split; [exact D|]. intros x. rewrite E, M. reflexivity.
  - destruct (hb_from_iter_spec values) as [D' M']. destruct (shuffled_lawful _ D') as [L E].
    split; [exact L|]. split; [exact D|]. intros x. rewrite E, M', M. reflexivity.
Qed.

Lemma client_op_stands o s1 s2 l1 l2 : stands s1 l1 -> stands s2 l2 ->
  exists s, client_op eqT shuffle o s1 s2 = Ok s /\ stands s (ref_op eqT o l1 l2).
Proof.
  intros (L1 & D1 & H1) (L2 & D2 & H2). destruct (ref_op_spec o l1 l2 D1 D2) as [D M].
  assert (exists s0, match o with OpUnion => set_bitor eqT s1 s2 | OpIntersection => set_bitand eqT s1 s2 | OpDifference => set_sub eqT s1 s2
      | OpSymmetricDifference => set_bitxor eqT s1 s2 end = Ok s0 /\ lawful_set eqT s0 /\ forall x, elem eqT x s0 <-> member eqT x (ref_op eqT o l1 l2))
    as (s0 & E & L & Hs).
  { destruct o.
    - destruct (bitor_spec eqT LE s1 s2 L1 L2) as (s & E & L & H). exists s. split; [exact E|]. split; [exact L|]. intros x. rewrite H, M, H1, H2. reflexivity.
    - destruct (bitand_spec eqT LE s1 s2 L1 L2) as (s & E & L & H). exists s. split; [exact E|]. split; [exact L|]. intros x. rewrite H, M, H1, H2. reflexivity.
    - destruct (sub_spec eqT LE s1 s2 L1 L2) as (s & E & L & H). exists s. split; [exact E|]. split; [exact L|]. intros x. rewrite H, M, H1, H2. reflexivity.
    - destruct (bitxor_spec eqT LE s1 s2 L1 L2) as (s & E & L & H). exists s. split; [exact E|]. split; [exact L|]. intros x. rewrite H, M, H1, H2. reflexivity. }
  exists (hb_shuffled eqT shuffle s0). unfold client_op. rewrite E. split; [reflexivity|].
  destruct (shuffled_lawful (sv_items s0) (set_distinct_law _ _ L)) as [L' E']. split; [exact L'|]. split; [exact D|].
  intros x. unfold hb_shuffled. rewrite E'. exact (Hs x).
Qed.

Lemma client_count_stands o s1 s2 l1 l2 : stands s1 l1 -> stands s2 l2 -> client_count o s1 s2 = Ok (length (ref_op eqT o l1 l2)).
Proof.
  intros (L1 & D1 & H1) (L2 & D2 & H2). destruct (ref_op_spec o l1 l2 D1 D2) as [D M]. destruct o; cbn [client_count].
  - destruct (union_yields eqT s1 s2 LE L1 L2) as (l & Y & Dl & H). rewrite (union_counts _ _ Y). f_equal.
    apply same_length; [exact Dl|exact D|]. intros x. rewrite H, M, H1, H2. reflexivity.
  - destruct (intersection_yields eqT s1 s2 LE L1 L2) as (l & Y & Dl & H). rewrite (intersection_counts _ _ Y). f_equal.
    apply same_length; [exact Dl|exact D|]. intros x. rewrite H, M, H1, H2. reflexivity.
  - destruct (difference_yields eqT s1 s2 LE L1 L2) as (l & Y & Dl & H). rewrite (difference_counts _ _ Y). f_equal.
    apply same_length; [exact Dl|exact D|]. intros x. rewrite H, M, H1, H2. reflexivity.
  - destruct (symmetric_difference_yields eqT s1 s2 LE L1 L2) as (l & Y & Dl & H). rewrite (symmetric_difference_counts _ _ Y). f_equal.
    apply same_length; [exact Dl|exact D|]. intros x. rewrite H, M, H1, H2. reflexivity.
Qed.

Lemma fold_count (p : T -> bool) l : forall n, fold_left (fun n x => if p x then S n else n) l n = (n + length (filter p l))%nat.
Proof. induction l as [|x r IH]; intros n; cbn; [lia|]. rewrite IH. destruct (p x); cbn; lia. Qed.

Lemma forall2_nth {A B} (R : A -> B -> Prop) l l' : Forall2 R l l' -> forall i,
  match nth_error l i, nth_error l' i with Some a, Some b => R a b | None, None => True | _, _ => False end.
Proof. induction 1 as [|a b l l' H F IH]; intros [|i]; cbn; auto. apply IH. Qed.

Lemma about_stands {A} (env : list (set_val T)) refs i (f : set_val T -> res A) (g : list T -> A) none :
  Forall2 stands env refs -> (forall s l, stands s l -> f s = Ok (g l)) ->
  about env i f (Ok none) = Ok (about refs i g none).
Proof.
  intros F H. unfold about. pose proof (forall2_nth _ _ _ F i) as N. destruct (nth_error env i), (nth_error refs i); try contradiction; auto.
Qed.

Lemma about2_stands {A} (env : list (set_val T)) refs i j (f : set_val T -> set_val T -> res A) (g : list T -> list T -> A) none :
  Forall2 stands env refs -> (forall s l s' l', stands s l -> stands s' l' -> f s s' = Ok (g l l')) ->
  about2 env i j f (Ok none) = Ok (about2 refs i j g none).
Proof.
  intros F H. unfold about2. apply (about_stands env refs i); [exact F|]. intros s l Hs. apply (about_stands env refs j); [exact F|]. auto.
Qed.

Lemma step_stands env refs c : Forall2 stands env refs -> respectful eqT c ->
  exists env', set_client_call eqT shuffle env c = Ok (fst (ref_set_call eqT refs c), env') /\ Forall2 stands env' (snd (ref_set_call eqT refs c)).
Proof.
  intros F C. destruct c as [i x|i|i|i p|i j|i j|i j|i j|o i j|o i j]; cbn [set_client_call ref_set_call fst snd];
    try (exists env; split; [|exact F]).
  - erewrite (about_stands env refs i _ _ _ F); [reflexivity|]. intros s l (L & D & H). destruct (set_contains_law _ _ L x) as (b & -> & Hb).
    cbn. do 2 f_equal. apply bool_ext. rewrite has_iff, <- H. exact Hb.
  - erewrite (about_stands env refs i _ _ _ F); [reflexivity|]. intros s l S. rewrite (stands_len _ _ S). reflexivity.
  - erewrite (about_stands env refs i _ _ _ F); [reflexivity|]. intros s l S. rewrite (stands_len _ _ S). reflexivity.
  - erewrite (about_stands env refs i _ _ _ F); [reflexivity|]. intros s l (L & D & H). cbn [slice_iter it_fold]. rewrite fold_count. cbn [Nat.add].
    do 2 f_equal. cbn in C. apply same_length; [apply (distinct_filter eqT), (set_distinct_law _ _ L)|apply (distinct_filter eqT), D|].
    intros x. rewrite !(member_filter eqT _ _ _ C). unfold elem in H. rewrite H. reflexivity.
  - erewrite (about2_stands env refs i j _ _ _ F); [reflexivity|]. intros s l s' l' (L & D & H) (L' & D' & H').
    destruct (set_eq_spec eqT LE s s' L L') as (b & -> & Hb). cbn. do 2 f_equal. apply bool_ext.
    rewrite Hb, Bool.andb_true_iff, !forallb_members by apply has_cong. setoid_rewrite has_iff. setoid_rewrite H. setoid_rewrite H'. firstorder.
  - erewrite (about2_stands env refs i j _ _ _ F); [reflexivity|]. intros s l s' l' (L & D & H) (L' & D' & H').
    destruct (is_subset_spec eqT LE s s' L L') as (b & -> & Hb). cbn. do 2 f_equal. apply bool_ext.
    rewrite Hb, forallb_members by apply has_cong. setoid_rewrite has_iff. setoid_rewrite H. setoid_rewrite H'. reflexivity.
  - erewrite (about2_stands env refs i j _ _ _ F); [reflexivity|]. intros s l s' l' (L & D & H) (L' & D' & H').
    destruct (is_superset_spec eqT LE s s' L L') as (b & -> & Hb). cbn. do 2 f_equal. apply bool_ext.
    rewrite Hb, forallb_members by apply has_cong. setoid_rewrite has_iff. setoid_rewrite H. setoid_rewrite H'. reflexivity.
  - erewrite (about2_stands env refs i j _ _ _ F); [reflexivity|]. intros s l s' l' (L & D & H) (L' & D' & H').
    destruct (is_disjoint_spec eqT LE s s' L L') as (b & -> & Hb). cbn. do 2 f_equal. apply bool_ext.
    rewrite Hb, forallb_members by apply lacks_cong. setoid_rewrite lacks_iff. setoid_rewrite H. setoid_rewrite H'. firstorder.
  - erewrite (about2_stands env refs i j _ _ _ F); [reflexivity|]. intros s l s' l' S S'. rewrite (client_count_stands o _ _ _ _ S S'). reflexivity.
  - unfold about2, about. pose proof (forall2_nth _ _ _ F i) as Ni. pose proof (forall2_nth _ _ _ F j) as Nj.
    destruct (nth_error env i) as [s|], (nth_error refs i) as [l|]; try contradiction; [|exists env; split; [reflexivity|exact F]].
    destruct (nth_error env j) as [s'|], (nth_error refs j) as [l'|]; try contradiction; [|exists env; split; [reflexivity|exact F]].
    destruct (client_op_stands o _ _ _ _ Ni Nj) as (s0 & -> & S0). exists (env ++ [s0]). split; [reflexivity|].
    cbn. apply Forall2_app; [exact F|]. constructor; [exact S0|constructor].
Qed.

Lemma converse_stands client : (forall seen c, client seen = Some c -> respectful eqT c) -> forall n seen env refs, Forall2 stands env refs ->
  exists answers refs' env', converse (fun r c => Ok (ref_set_call eqT r c)) client n seen refs = Ok (answers, refs') /\
    converse (set_client_call eqT shuffle) client n seen env = Ok (answers, env') /\ Forall2 stands env' refs'.
Proof.
  intros C. induction n as [|n IH]; intros seen env refs F; cbn [converse].
  - exists seen, refs, env. auto.
  - destruct (client seen) as [c|] eqn:E; [|exists seen, refs, env; auto]. destruct (step_stands env refs c F (C _ _ E)) as (env' & -> & F').
    cbn [bind]. apply IH. exact F'.
Qed.

Lemma set_history sets inputs : Forall2 (client_set eqT shuffle) sets inputs -> forall client n,
  (forall seen c, client seen = Some c -> respectful eqT c) ->
  exists answers refs' sets',
    converse (fun r c => Ok (ref_set_call eqT r c)) client n [] (map (without_repeats eqT) inputs) = Ok (answers, refs') /\
    converse (set_client_call eqT shuffle) client n [] sets = Ok (answers, sets') /\
    Forall2 (fun s l => lawful_set eqT s /\ forall x, elem eqT x s <-> member eqT x l) sets' refs'.
Proof.
  intros F client n C. destruct (converse_stands client C n [] sets (map (without_repeats eqT) inputs)) as (answers & refs' & sets' & E1 & E2 & F').
  { induction F as [|s l ss ls H F IH]; cbn; constructor; [apply client_set_stands, H|exact IH]. }
  exists answers, refs', sets'. split; [exact E1|]. split; [exact E2|].
  clear -F'. induction F' as [|s l ss ls (L & D & H) F IH]; constructor; auto.
Qed.
End History.
