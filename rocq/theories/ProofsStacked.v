(** Proofs of exactly when [get_disjoint_mut] is defined under Stacked Borrows. *)
From Verif Require Import ModelUtils ModelTables ModelMaps ModelEmit SpecMade SpecAliasing SpecPhases ModelBorrows ModelLookups ProofsAliasing ProofsBorrows ProofsPhases
  ProofsClientPhases.
From Verif Require Import Prelude.

#[local] Arguments val_at : simpl never.

(** ** A call either reborrows everything mutably or only reads *)
Definition reads_only (e : event) : bool := match e with Reborrow Shared _ _ _ | Use false _ _ => true | _ => false end.
Definition reading (b : borrows) : Prop := forallb reads_only (fst b) = true /\ snd b = None.
Definition overwriting (n c : nat) (b : borrows) : Prop := takes_all n c (fst b).
Ltac ro := repeat (rewrite ?forallb_app, ?andb_true_iff; cbn [forallb reads_only]); repeat split; auto.

Section Kinds.
Variables (i : bool) (c : nat).
Lemma search_reads {K V} fuel (d : list (K * V)) f x s b : search_borrows_loop c fuel d f x s = Ok b -> forallb reads_only (fst b) = true.
Proof.
  revert x s b. induction fuel as [|fuel IH]; intros x s b; cbn; [discriminate|]. destruct (nth_error d x) as [v|]; [|intros H; injection H as <-; reflexivity].
  destruct (f v); [intros H; injection H as <-; reflexivity|..]; intros H;
    match type of H with context [search_borrows_loop c fuel d f ?j (S s)] => destruct (search_borrows_loop c fuel d f j (S s)) as [b'| |] eqn:E; cbn in H; try discriminate end;
    injection H as <-; cbn; exact (IH _ _ _ E).
Qed.
Lemma miss_reads : i = false -> forall n, reading (on_self i c n, None).
Proof. intros -> n. split; reflexivity. Qed.
Lemma scan_overwrites {K V Q} (eqv : Q -> K -> bool) (m : scan_map K V) q b : scan_borrows i c eqv m q = Ok b -> overwriting (length (sm_entries m)) c b.
Proof. intros H. unfold scan_borrows in H. injection H as <-. apply slice_takes. Qed.
Lemma hash_overwrites {K V Q} hQ (eqv : Q -> K -> bool) (m : hash_map K V) q b : hash_borrows i c hQ eqv m q = Ok b -> overwriting (length (ht_entries (hm_table m))) c b.
Proof.
  unfold hash_borrows. destruct (hQ q); cbn [bind]; try discriminate. destruct (get_unchecked _ _) as [[mn mx]| |]; cbn [bind]; try discriminate. cbv zeta.
  destruct (slice_unchecked _ _ _); cbn [bind]; try discriminate. intros H. injection H as <-. apply slice_takes.
Qed.
Lemma eytzinger_reads {K V Q} (cmpQ : Q -> K -> comparison) (m : eytzinger_map K V) q b : i = false -> eytzinger_borrows i c cmpQ m q = Ok b -> snd b = None -> reading b.
Proof.
  intros ->. unfold eytzinger_borrows. destruct (search_borrows_loop _ _ _ _ _ _) as [r| |] eqn:E; cbn [bind]; try discriminate. apply search_reads in E.
  destruct (snd r); [destruct (get_unchecked _ _); cbn [bind]; try discriminate|]; intros X; injection X as <-; cbn [snd]; [discriminate|]. intros _. split; [|reflexivity]. exact E.
Qed.
Lemma dense_reads {K V Q} (idxQ : Q -> N) (m : dense_map K V) q b : i = false -> dense_borrows i c idxQ m q = Ok b -> snd b = None -> reading b.
Proof.
  intros ->. unfold dense_borrows. cbv zeta. destruct (_ && _); [destruct (get_unchecked _ _); cbn [bind]; try discriminate|]; intros X; injection X as <-; cbn [snd];
    [discriminate|]. intros _. split; reflexivity.
Qed.
Lemma sparse_reads {K V Q} (idxQ : Q -> N) (m : sparse_map K V) q b : i = false -> sparse_borrows i c idxQ m q = Ok b -> snd b = None -> reading b.
Proof.
  intros ->. unfold sparse_borrows. cbv zeta. destruct (_ && _); [|intros X; injection X as <-; split; reflexivity].
  destruct (get_unchecked (sp_lookup m) _) as [x| |]; cbn [bind]; try discriminate. destruct (0 <? x); [|intros X; injection X as <-; split; reflexivity].
  destruct (get_unchecked _ _); cbn [bind]; try discriminate. intros X; injection X as <-; discriminate.
Qed.
Lemma nc_either {K V Q} hQ (eqv : Q -> K -> bool) (m : nc_map K V) q b : i = false -> nc_borrows i c hQ eqv m q = Ok b ->
  overwriting (length (nc_entries (ncm_table m))) c b \/ reading b.
Proof.
  intros I. unfold nc_borrows. destruct (hQ q); cbn [bind]; try discriminate. destruct (get_unchecked _ _) as [x| |]; cbn [bind]; try discriminate.
  cbv zeta. destruct (0 <? x); [|intros X; injection X as <-; right; subst i; split; reflexivity]. destruct (get_unchecked _ _) as [e| |]; cbn [bind]; try discriminate.
  intros X; injection X as <-. left. apply slice_takes.
Qed.
End Kinds.
Lemma recorded_either {M K V Q} (ops : map_ops M K V Q) m f : recorded ops m f -> forall i c q b, f i c q = Ok b ->
  overwriting (length (mo_entries ops m)) c b \/ reading b.
Proof.
  intros R i c q b H. pose proof (recorded_good ops m f R i c q b H) as GB. destruct i; [left; exact (g_whole _ _ _ _ GB (or_intror eq_refl))|].
  destruct (snd b) as [p|] eqn:S; [left; apply (g_whole _ _ _ _ GB); left; congruence|]. clear GB. revert H S.
  destruct R; [..|destruct m|destruct m|destruct m];
    first [intros H _; left; exact (scan_overwrites _ _ _ _ _ _ H)|intros H _; left; exact (hash_overwrites _ _ _ _ _ _ _ H)
          |intros H _; exact (nc_either _ _ _ _ _ _ _ eq_refl H)
          |intros H S; right; exact (eytzinger_reads _ _ _ _ _ _ eq_refl H S)|intros H S; right; exact (dense_reads _ _ _ _ _ _ eq_refl H S)
          |intros H S; right; exact (sparse_reads _ _ _ _ _ _ eq_refl H S)].
Qed.

(** ** Reads leave raw pointers alone *)
Lemma weaken_keeps t s : In (SharedRW, t) s -> In (SharedRW, t) (map weaken s).
Proof. intros H. apply in_map_iff. exists (SharedRW, t). auto. Qed.
Lemma read_keeps t u s s' : sb_access false u s = Some s' -> In (SharedRW, t) s -> In (SharedRW, t) s'.
Proof.
  unfold sb_access. destruct (granting false u s) as [[[a x] b]|] eqn:E; [|discriminate]. intros H. injection H as <-. destruct (granting_parts _ _ _ _ _ _ E) as [-> _].
  intros H. apply in_app_or in H. apply in_or_app. destruct H as [H|H]; [left; apply weaken_keeps; exact H|right; exact H].
Qed.
Lemma reads_keep l t p s s' : forallb reads_only p = true -> run (sb_step l) p s = Some s' -> In (SharedRW, t) s -> In (SharedRW, t) s'.
Proof.
  revert s. induction p as [|e p IH]; intros s HP; cbn [run]; [intros H; injection H as <-; auto|]. cbn [forallb] in HP. apply andb_prop in HP. destruct HP as [HE HP].
  destruct (sb_step l e s) as [s1|] eqn:E; [|discriminate]. intros R H. apply (IH s1 HP R). clear R IH.
  destruct e as [[] parent new range|[] u l']; try discriminate; cbn [sb_step] in E.
  - destruct (range l); [|injection E as <-; exact H]. destruct (sb_access false parent s) as [s2|] eqn:A; [|discriminate]. injection E as <-. right. exact (read_keeps _ _ _ _ A H).
  - destruct (loc_eqb l l'); [exact (read_keeps _ _ _ _ E H)|injection E as <-; exact H].
Qed.
Lemma granting_in t s : In (SharedRW, t) s -> exists r, granting true t s = Some r.
Proof.
  induction s as [|[p u] s IH]; cbn [granting]; intros H; [destruct H|]. destruct (tag_eqb u t && grants true p) eqn:E; [eauto|].
  destruct H as [H|H]; [|destruct (IH H) as [[[a x] b] ->]; eauto]. injection H as -> ->. replace (tag_eqb t t) with true in E by (symmetry; apply tag_eqb_spec; reflexivity). discriminate.
Qed.
Lemma unique_uses l t es r : (forall e, In e es -> exists w l', e = Use w t l') -> run (sb_step l) es ((Unique, t) :: r) <> None.
Proof.
  induction es as [|e es IH]; intros H; cbn [run]; [discriminate|]. destruct (H e (or_introl eq_refl)) as [w [l' ->]]. cbn [sb_step].
  destruct (loc_eqb l l'); [|apply IH; intros; apply H; right; assumption].
  replace (sb_access w t ((Unique, t) :: r)) with (Some ((Unique, t) :: r)); [apply IH; intros; apply H; right; assumption|].
  unfold sb_access. cbn [granting]. replace (tag_eqb t t) with true by (symmetry; apply tag_eqb_spec; reflexivity). destruct w; reflexivity.
Qed.
Lemma only_one ps c : ~ two_found ps ->
  (as_muts c ps = [] /\ forall j p, nth_error ps j <> Some (Some p)) \/
  exists i p, nth_error ps i = Some (Some p) /\ as_muts c ps = [Reborrow Mutable (Ptr (c + i) ARaw) (Ptr (c + i) ARef) (val_at p)] /\
    forall j p', nth_error ps j = Some (Some p') -> j = i.
Proof.
  revert c. induction ps as [|o ps IH]; intros c H; [left; split; [reflexivity|intros [|j] p; discriminate]|].
  assert (H' : ~ two_found ps). { intros [i [j [p [q [L [Hi Hj]]]]]]. apply H. exists (S i), (S j), p, q. split; [lia|]. split; assumption. }
  destruct (IH (S c) H') as [[E N]|[i [p [Hi [E U]]]]].
  - destruct o as [p|].
    + right. exists 0%nat, p. rewrite Nat.add_0_r. split; [reflexivity|]. split; [cbn [as_muts]; rewrite E; reflexivity|].
      intros [|j] p' Hj; [reflexivity|]. destruct (N j p' Hj).
    + left. split; [exact E|]. intros [|j] p; [discriminate|apply N].
  - destruct o as [p0|]; [destruct H; exists 0%nat, (S i), p0, p; split; [lia|]; split; [reflexivity|exact Hi]|].
    right. exists (S i), p. split; [exact Hi|]. rewrite Nat.add_succ_r. split; [exact E|]. intros [|j] p' Hj; [discriminate|]. f_equal. exact (U j p' Hj).
Qed.

(** ** All calls *)
Section Exact.
Context {Q : Type} (inline : bool) (n : nat) (g : nat -> Q -> res borrows) (G : forall c q b, g c q = Ok b -> good inline n c b).
Context (P : forall c q b, g c q = Ok b -> forallb proper (fst b) = true) (D : forall c q b, g c q = Ok b -> overwriting n c b \/ reading b).

Lemma over_iff c q b p : g c q = Ok b -> (p < n)%nat -> takes_over (ValAt p) (fst b) <-> overwriting n c b.
Proof.
  intros E L. split.
  - intros [new [range [HI _]]]. destruct (D _ _ _ E) as [O|[R _]]; [exact O|]. pose proof (proj1 (forallb_forall _ _) R _ HI). discriminate.
  - intros [pre [w [post EE]]]. exists (Ptr c w), (whole n). rewrite EE. split; [apply in_or_app; right; left; reflexivity|]. apply Nat.ltb_lt. exact L.
Qed.
(** No key that is found is followed by a call that overwrites, in calls from [c] on. *)
Definition undisturbed (c : nat) (keys : list Q) (ps : list (option nat)) : Prop :=
  forall i j p q b, (i < j)%nat -> nth_error ps i = Some (Some p) -> nth_error keys j = Some q -> g (c + j)%nat q = Ok b -> ~ overwriting n (c + j) b.

Lemma rest_reads keys c r : pointers g c keys = Ok r -> (forall j q b, nth_error keys j = Some q -> g (c + j)%nat q = Ok b -> ~ overwriting n (c + j) b) ->
  forallb reads_only (fst r) = true.
Proof.
  revert c r. induction keys as [|q keys IH]; intros c r; cbn [pointers]; [intros H; injection H as <-; reflexivity|].
  destruct (g c q) as [b| |] eqn:Eb; cbn [bind]; try discriminate. destruct (pointers g (S c) keys) as [rest| |] eqn:Er; cbn [bind]; try discriminate.
  intros H N. injection H as <-. cbn [fst]. destruct (D _ _ _ Eb) as [O|[R RN]].
  - destruct (N 0%nat q b eq_refl); rewrite Nat.add_0_r; assumption.
  - rewrite RN. ro. apply (IH _ _ Er). intros j q' b' Hq Hb. specialize (N (S j) q' b' Hq). rewrite Nat.add_succ_r in N. exact (N Hb).
Qed.
Lemma one_call l c q b junk : g c q = Ok b -> tags foreign junk -> exists junk',
  run (sb_step l) (fst b ++ match snd b with Some p => [Reborrow Raw (Ptr c (AVal p)) (Ptr c ARaw) (val_at p)] | None => [] end) (junk ++ [root]) = Some (junk' ++ [root]) /\
  tags foreign junk' /\ forall p, snd b = Some p -> l = ValAt p -> In (SharedRW, Ptr c ARaw) junk'.
Proof.
  intros E HJ. set (es := fst b ++ _). destruct (g_sb _ _ _ _ (G _ _ _ E) l) as [s [R X]].
  assert (F : from_owner es). { apply proper_from_owner. unfold es. prop; [exact (P _ _ _ E)|]. destruct (snd b); reflexivity. }
  assert (C : exists s', run (sb_step l) es [root] = Some s' /\ forall p, snd b = Some p -> l = ValAt p -> In (SharedRW, Ptr c ARaw) s').
  { unfold es. rewrite run_app, R. destruct (snd b) as [p|]; [|exists s; split; [reflexivity|discriminate]]. cbn [run sb_step]. destruct (val_at p l) eqn:V.
    - unfold val_at in V. apply loc_eqb_spec in V. destruct (X p eq_refl V) as [s0 ->]. cbn [granting]. replace (tag_eqb (Ptr c (AVal p)) (Ptr c (AVal p))) with true by (symmetry; apply tag_eqb_spec; reflexivity).
      cbn [grants andb compatible is_rw fst length Nat.sub firstn app]. eexists. split; [reflexivity|]. intros _ _ _. left. reflexivity.
    - exists s. split; [reflexivity|]. intros p' H ->. injection H as <-. rewrite val_at_self in V. discriminate. }
  destruct C as [s' [R' X']]. destruct (apart_run foreign foreign (fun t H => H) l es [root] (junk ++ [root]) s' F) as [d [Rd [top [junk' [-> [-> [HT HJ']]]]]]].
  - exists [], junk. repeat split; [constructor|exact HJ].
  - exact R'.
  - exists (top ++ junk'). rewrite <- app_assoc. split; [exact Rd|]. split; [apply Forall_app; split; assumption|].
    intros p Hp Hl. specialize (X' p Hp Hl). apply in_app_or in X'. apply in_or_app. destruct X' as [X'|[X'|[]]]; [left; exact X'|discriminate].
Qed.
Lemma pointers_run l keys c r junk : pointers g c keys = Ok r -> undisturbed c keys (snd r) -> tags foreign junk -> exists junk',
  run (sb_step l) (fst r) (junk ++ [root]) = Some (junk' ++ [root]) /\ tags foreign junk' /\
  forall i p, nth_error (snd r) i = Some (Some p) -> l = ValAt p -> In (SharedRW, Ptr (c + i) ARaw) junk'.
Proof.
  revert c r junk. induction keys as [|q keys IH]; intros c r junk; cbn [pointers].
  - intros H _ HJ. injection H as <-. exists junk. split; [reflexivity|]. split; [exact HJ|]. intros [|i] p; discriminate.
  - destruct (g c q) as [b| |] eqn:Eb; cbn [bind]; try discriminate. destruct (pointers g (S c) keys) as [rest| |] eqn:Er; cbn [bind]; try discriminate.
    intros H U HJ. injection H as <-. cbn [fst snd] in *. destruct (one_call l c q b junk Eb HJ) as [j1 [R1 [T1 M1]]].
    assert (U' : undisturbed (S c) keys (snd rest)).
    { intros i j p q' b' L Hi Hq Hb. specialize (U (S i) (S j) p q' b' ltac:(lia) Hi Hq). rewrite Nat.add_succ_r in U. exact (U Hb). }
    destruct (IH _ _ j1 Er U' T1) as [j2 [R2 [T2 M2]]]. exists j2. rewrite app_assoc, run_app, R1. split; [exact R2|]. split; [exact T2|].
    intros [|i] p Hi Hl.
    + injection Hi as Hi. rewrite Nat.add_0_r.
      assert (RO : forallb reads_only (fst rest) = true).
      { apply (rest_reads _ _ _ Er). intros j q' b' Hq Hb. specialize (U 0%nat (S j) p q' b' ltac:(lia)). cbn [nth_error] in U. rewrite Hi, Nat.add_succ_r in U. exact (U eq_refl Hq Hb). }
      pose proof (reads_keep l (Ptr c ARaw) (fst rest) _ _ RO R2) as K. assert (K' : In (SharedRW, Ptr c ARaw) (j2 ++ [root])).
      { apply K. apply in_or_app. left. exact (M1 p Hi Hl). }
      apply in_app_or in K'. destruct K' as [K'|[K'|[]]]; [exact K'|discriminate].
    + rewrite Nat.add_succ_r. exact (M2 i p Hi Hl).
Qed.
Lemma undisturbed_one keys c r : pointers g c keys = Ok r -> undisturbed c keys (snd r) -> ~ two_found (snd r).
Proof.
  intros E U [i [j [p [p' [L [Hi Hj]]]]]]. destruct (pointers_split inline n g G _ _ _ _ _ E Hj) as [b [_ [_ [Gb [Ob [_ [_ [_ [q [Hq Hb]]]]]]]]]].
  apply (U i j p q b L Hi Hq Hb). apply (g_whole _ _ _ _ Gb). left. congruence.
Qed.
Lemma stacked_exact keys ev ps how : unchecked_borrows g keys = Ok (ev, ps) -> sb_defined (ev ++ uses ps how) <-> undisturbed 0 keys ps.
Proof.
  intros E. split.
  - intros H i j p q b L Hi Hq Hb O. apply (taken_over inline n g G _ _ _ _ _ _ _ _ E L Hi Hq Hb O). intros l. specialize (H l). rewrite run_app in H. destruct (run (sb_step l) ev _); [discriminate|exact H].
  - unfold unchecked_borrows in E. destruct (pointers g 0 keys) as [r| |] eqn:Er; cbn [bind] in E; try discriminate. injection E as <- <-.
    intros U l. destruct (pointers_run l keys 0 r [] Er U (Forall_nil _)) as [s [R [_ M]]]. cbn [app Nat.add] in R, M. rewrite run_app, run_app, R.
    destruct (only_one (snd r) 0 (undisturbed_one _ _ _ Er U)) as [[-> N]|[i [p [Hi [-> O]]]]].
    + cbn [run]. rewrite (run_silent _ l (sb_silent l)); [discriminate|]. apply forallb_forall. intros e He. destruct (uses_in _ _ _ He) as [i [w [p [Hi _]]]]. destruct (N i p Hi).
    + cbn [run sb_step Nat.add]. destruct (val_at p l) eqn:V.
      * unfold val_at in V. apply loc_eqb_spec in V. unfold sb_access. specialize (M i p Hi V).
        destruct (granting_in (Ptr i ARaw) (s ++ [root])) as [[[a x] b'] ->]; [apply in_or_app; left; exact M|].
        apply unique_uses. intros e He. destruct (uses_in _ _ _ He) as [i' [w [p' [Hi' ->]]]]. rewrite (O i' p' Hi'). eauto.
      * rewrite (run_silent _ l (sb_silent l)); [discriminate|]. apply forallb_forall. intros e He. destruct (uses_in _ _ _ He) as [i' [w [p' [Hi' ->]]]].
        pose proof (O i' p' Hi'). subst i'. rewrite Hi in Hi'. injection Hi' as <-. cbn. unfold val_at in V. rewrite V. reflexivity.
Qed.
Lemma range keys ev ps i p : unchecked_borrows g keys = Ok (ev, ps) -> nth_error ps i = Some (Some p) -> (p < n)%nat.
Proof.
  unfold unchecked_borrows. destruct (pointers g 0 keys) as [r| |] eqn:Er; cbn [bind]; try discriminate. intros E Hi. injection E as <- <-.
  destruct (pointers_split inline n g G _ _ _ _ _ Er Hi) as [b [_ [_ [Gb [Ob _]]]]]. exact (g_range _ _ _ _ Gb p Ob).
Qed.
Lemma results keys ev ps j o : unchecked_borrows g keys = Ok (ev, ps) -> nth_error ps j = Some o -> exists q b, nth_error keys j = Some q /\ g j q = Ok b /\ snd b = o.
Proof.
  unfold unchecked_borrows. destruct (pointers g 0 keys) as [r| |] eqn:Er; cbn [bind]; try discriminate. intros E Hi. injection E as <- <-.
  destruct (pointers_split inline n g G _ _ _ _ _ Er Hi) as [b [_ [_ [_ [Ob [_ [_ [_ [q [Hq Hb]]]]]]]]]]. exists q, b. auto.
Qed.
Lemma result_of keys ev ps j q b : unchecked_borrows g keys = Ok (ev, ps) -> nth_error keys j = Some q -> g j q = Ok b -> nth_error ps j = Some (snd b).
Proof.
  unfold unchecked_borrows. destruct (pointers g 0 keys) as [r| |] eqn:Er; cbn [bind]; try discriminate. intros E Hq Hb. injection E as <- <-.
  exact (proj1 (pointers_nth g _ _ _ _ _ _ Er Hq Hb)).
Qed.
(** Calls that always overwrite, and calls that do only when they find the key. *)
Lemma always_last keys ev ps how : (forall c q b, g c q = Ok b -> overwriting n c b) -> unchecked_borrows g keys = Ok (ev, ps) ->
  sb_defined (ev ++ uses ps how) <-> found_last ps.
Proof.
  intros A E. rewrite (stacked_exact _ _ _ how E). split.
  - intros U i p Hi. assert (L : (i < length ps)%nat) by (apply nth_error_Some; congruence). destruct (Nat.eq_dec (S i) (length ps)) as [X|X]; [exact X|].
    destruct (nth_error ps (S i)) as [o|] eqn:Ho; [|apply nth_error_None in Ho; lia]. destruct (results _ _ _ _ _ E Ho) as [q [b [Hq [Hb _]]]].
    destruct (U i (S i) p q b ltac:(lia) Hi Hq Hb (A _ _ _ Hb)).
  - intros F i j p q b L Hi Hq Hb _. specialize (F i p Hi). pose proof (result_of _ _ _ _ _ _ E Hq Hb) as R. assert (j < length ps)%nat by (apply nth_error_Some; congruence). lia.
Qed.
Lemma hits_only keys ev ps how : (forall c q b, g c q = Ok b -> snd b = None -> ~ overwriting n c b) -> unchecked_borrows g keys = Ok (ev, ps) ->
  sb_defined (ev ++ uses ps how) <-> ~ two_found ps.
Proof.
  intros A E. rewrite (stacked_exact _ _ _ how E). split.
  - intros U [i [j [p [p' [L [Hi Hj]]]]]]. destruct (results _ _ _ _ _ E Hj) as [q [b [Hq [Hb Ob]]]]. apply (U i j p q b L Hi Hq Hb). apply (g_whole _ _ _ _ (G _ _ _ Hb)). left. congruence.
  - intros N i j p q b L Hi Hq Hb O. destruct (snd b) as [p'|] eqn:S; [|exact (A _ _ _ Hb S O)]. apply N. exists i, j, p, p'. split; [exact L|]. split; [exact Hi|].
    rewrite <- S. exact (result_of _ _ _ _ _ _ E Hq Hb).
Qed.
Lemma reading_not c b : reading b -> ~ overwriting n c b.
Proof. intros [R _] [pre [w [post E]]]. rewrite E, forallb_app in R. cbn in R. rewrite andb_comm in R. discriminate. Qed.
End Exact.

(** ** All maps *)
Section Maps.
Context {M K V Q : Type} (ops : map_ops M K V Q) (m : M) (f : bool -> nat -> Q -> res borrows) (R : recorded ops m f).
Lemma stacked_recorded inline eqQ keys ev ps how : disjoint_borrows (f inline) eqQ keys = Ok (ev, ps) ->
  sb_defined (ev ++ uses ps how) <->
  forall i j p q b, (i < j)%nat -> nth_error ps i = Some (Some p) -> nth_error keys j = Some q -> f inline j q = Ok b -> ~ takes_over (ValAt p) (fst b).
Proof.
  intros E. apply disjoint_unchecked in E.
  pose proof (fun c q b => recorded_good ops m f R inline c q b) as G. pose proof (fun c q b => recorded_proper ops m f R inline c q b) as P.
  pose proof (fun c q b => recorded_either ops m f R inline c q b) as D.
  rewrite (stacked_exact inline _ _ G P D _ _ _ how E). unfold undisturbed. cbn [Nat.add]. split.
  - intros U i j p q b L Hi Hq Hb O. apply (U i j p q b L Hi Hq Hb). exact (proj1 (over_iff _ _ D _ _ _ p Hb (range inline _ _ G _ _ _ _ _ E Hi)) O).
  - intros U i j p q b L Hi Hq Hb O. apply (U i j p q b L Hi Hq Hb). exact (proj2 (over_iff _ _ D _ _ _ p Hb (range inline _ _ G _ _ _ _ _ E Hi)) O).
Qed.
Lemma inline_last eqQ keys ev ps how : disjoint_borrows (f true) eqQ keys = Ok (ev, ps) -> sb_defined (ev ++ uses ps how) <-> found_last ps.
Proof.
  intros E. apply disjoint_unchecked in E.
  apply (always_last true (length (mo_entries ops m)) (f true) (fun c q b => recorded_good ops m f R true c q b) (fun c q b => recorded_proper ops m f R true c q b)
    (fun c q b => recorded_either ops m f R true c q b) keys ev ps how); [|exact E].
  intros c q b H. exact (g_whole _ _ _ _ (recorded_good ops m f R true c q b H) (or_intror eq_refl)).
Qed.
Lemma boxed_last inline eqQ keys ev ps how : (forall i c q b, f i c q = Ok b -> overwriting (length (mo_entries ops m)) c b) ->
  disjoint_borrows (f inline) eqQ keys = Ok (ev, ps) -> sb_defined (ev ++ uses ps how) <-> found_last ps.
Proof.
  intros A E. apply disjoint_unchecked in E.
  apply (always_last inline (length (mo_entries ops m)) (f inline) (fun c q b => recorded_good ops m f R inline c q b) (fun c q b => recorded_proper ops m f R inline c q b)
    (fun c q b => recorded_either ops m f R inline c q b) keys ev ps how); [|exact E]. exact (A inline).
Qed.
Lemma boxed_hits eqQ keys ev ps how : (forall c q b, f false c q = Ok b -> snd b = None -> reading b) ->
  disjoint_borrows (f false) eqQ keys = Ok (ev, ps) -> sb_defined (ev ++ uses ps how) <-> ~ two_found ps.
Proof.
  intros A E. apply disjoint_unchecked in E.
  apply (hits_only false (length (mo_entries ops m)) (f false) (fun c q b => recorded_good ops m f R false c q b) (fun c q b => recorded_proper ops m f R false c q b)
    (fun c q b => recorded_either ops m f R false c q b) keys ev ps how); [|exact E]. intros c q b H S. apply reading_not. exact (A c q b H S).
Qed.
(** A whole history. *)
Lemma mapM_out {A B} (g : A -> res B) l r x : mapM g l = Ok r -> In x l -> exists y, g x = Ok y /\ In y r.
Proof.
  revert r. induction l as [|x' l IH]; intros r; cbn [mapM]; [intros _ []|].
  destruct (g x') as [y'| |] eqn:E; cbn [bind]; try discriminate. destruct (mapM g l) as [r'| |]; cbn [bind]; try discriminate. intros H. injection H as <-.
  intros [<-|Hx]; [exists y'; split; [exact E|left; reflexivity]|]. destruct (IH _ eq_refl Hx) as [y [E' Hy]]. exists y. split; [exact E'|right; exact Hy].
Qed.
Lemma history_stacked h (L : looked_up ops m h) inline eqQ ps evs :
  mapM (phase_events inline (length (mo_entries ops m)) (h inline) (f inline) eqQ) ps = Ok evs ->
  sb_defined (in_turn 0 evs) <->
  forall keys how ev rs, In (TakingMany keys how) ps -> disjoint_borrows (f inline) eqQ keys = Ok (ev, rs) ->
  forall i j p q b, (i < j)%nat -> nth_error rs i = Some (Some p) -> nth_error keys j = Some q -> f inline j q = Ok b -> ~ takes_over (ValAt p) (fst b).
Proof.
  intros H. rewrite sb_in_turn by (intros ev He; destruct (mapM_in _ _ _ _ H He) as [p [Hp E]]; exact (phase_from_owner ops m f h R L inline eqQ p ev E)). split.
  - intros A keys how ev rs Hp E. apply (stacked_recorded inline eqQ keys ev rs how E). destruct (mapM_out _ _ _ _ H Hp) as [y [E' Hy]]. cbn [phase_events] in E'. rewrite E in E'.
    cbn [bind fst snd] in E'. injection E' as <-. exact (A _ Hy).
  - intros A ev He. destruct (mapM_in _ _ _ _ H He) as [p [Hp E]]. destruct p as [l|q how|l|keys how].
    1-3: apply (phase_sb ops m f h R L inline eqQ _ ev) in E; [exact E|discriminate].
    cbn [phase_events] in E. destruct (disjoint_borrows (f inline) eqQ keys) as [[ev' rs]| |] eqn:ED; cbn [bind fst snd] in E; try discriminate. injection E as <-.
    apply (stacked_recorded inline eqQ keys ev' rs how ED). exact (A keys how ev' rs Hp ED).
Qed.
End Maps.
