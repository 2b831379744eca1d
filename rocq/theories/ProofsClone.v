(** Proofs about clones. *)
From Coq Require Import Permutation.
From Verif Require Import ModelUtils ModelAnalyzers ModelTables ModelMaps ModelIter ModelHostile SpecMagnitude ModelMagnitude ModelClone.
From Verif Require Import Spec SpecMade SpecSafe SpecHostile SpecClone ProofsMade ProofsMagnitude.
From Verif Require Import Prelude.

(** * Entries *)

Section Entries.
Context {K V : Type}.
Variable cK : nat -> K -> res K.
Variable cV : nat -> V -> res V.

Inductive zipped : nat -> list (K * V) -> list (K * V) -> Prop :=
| z_nil n : zipped n [] []
| z_cons n e e' r r' : cK n (fst e) = Ok (fst e') -> cV n (snd e) = Ok (snd e') -> zipped (S n) r r' -> zipped n (e :: r) (e' :: r').

Lemma clone_zipped es : forall n es', clone_entries cK cV n es = Ok es' -> zipped n es es'.
Proof.
  induction es as [|e r IH]; intros n es' H; cbn in H.
  - injection H as <-. constructor.
  - destruct (cK n (fst e)) as [k| |] eqn:EK; try discriminate. cbn in H.
    destruct (cV n (snd e)) as [v| |] eqn:EV; try discriminate. cbn in H.
    destruct (clone_entries cK cV (S n) r) as [r'| |] eqn:ER; try discriminate. cbn in H. injection H as <-.
    constructor; [exact EK|exact EV|]. apply IH. exact ER.
Qed.

Lemma zipped_clone n es es' : zipped n es es' -> clone_entries cK cV n es = Ok es'.
Proof.
  induction 1 as [|n e e' r r' EK EV Z IH]; [reflexivity|]. cbn. rewrite EK. cbn. rewrite EV. cbn. rewrite IH. cbn.
  destruct e'. reflexivity.
Qed.

Lemma zipped_length n es es' : zipped n es es' -> length es' = length es.
Proof. induction 1; cbn; congruence. Qed.

Lemma zipped_nth n es es' : zipped n es es' -> forall p,
  match nth_error es p with
  | Some e => exists e', nth_error es' p = Some e' /\ cK (n + p) (fst e) = Ok (fst e') /\ cV (n + p) (snd e) = Ok (snd e')
  | None => nth_error es' p = None
  end.
Proof.
  induction 1 as [n|n e e' r r' EK EV Z IH]; intros p.
  - destruct p; reflexivity.
  - destruct p as [|p]; cbn [nth_error].
    + exists e'. replace (n + 0)%nat with n by lia. auto.
    + specialize (IH p). replace (n + S p)%nat with (S n + p)%nat by lia. exact IH.
Qed.

Lemma zipped_skipn n es es' : zipped n es es' -> forall d, zipped (n + d) (skipn d es) (skipn d es').
Proof.
  induction 1 as [n|n e e' r r' EK EV Z IH]; intros d.
  - rewrite !skipn_nil. constructor.
  - destruct d as [|d]; cbn [skipn].
    + replace (n + 0)%nat with n by lia. constructor; assumption.
    + replace (n + S d)%nat with (S n + d)%nat by lia. apply IH.
Qed.

Lemma zipped_firstn n es es' : zipped n es es' -> forall d, zipped n (firstn d es) (firstn d es').
Proof.
  induction 1 as [n|n e e' r r' EK EV Z IH]; intros d.
  - rewrite !firstn_nil. constructor.
  - destruct d as [|d]; cbn [firstn]; constructor; auto.
Qed.

Lemma zipped_copied es es' : zipped 0 es es' -> copied cK cV es es'.
Proof.
  intros Z. split; [exact (zipped_length _ _ _ Z)|]. intros p e E. pose proof (zipped_nth _ _ _ Z p) as H. rewrite E in H.
  destruct H as [e' (E' & HK & HV)]. exists e'. repeat split; assumption.
Qed.

Lemma clone_ends es : forall n, (forall p k, cK p k <> UB) -> (forall p v, cV p v <> UB) ->
  match clone_entries cK cV n es with
  | Ok es' => length es' = length es
  | Panic => exists p e, nth_error es p = Some e /\
    (cK (n + p) (fst e) = Panic \/ (exists k, cK (n + p) (fst e) = Ok k) /\ cV (n + p) (snd e) = Panic) /\
    forall p' e', (p' < p)%nat -> nth_error es p' = Some e' -> (exists k, cK (n + p') (fst e') = Ok k) /\ exists v, cV (n + p') (snd e') = Ok v
  | UB => False
  end.
Proof.
  induction es as [|e r IH]; intros n HK HV; [reflexivity|]. cbn [clone_entries].
  destruct (cK n (fst e)) as [k| |] eqn:EK; cbn [bind].
  - destruct (cV n (snd e)) as [v| |] eqn:EV; cbn [bind].
    + specialize (IH (S n) HK HV). destruct (clone_entries cK cV (S n) r) as [r'| |]; cbn [bind].
      * cbn. congruence.
      * destruct IH as (p & x & E & HP & HB). exists (S p), x. replace (n + S p)%nat with (S n + p)%nat by lia.
        split; [exact E|]. split; [exact HP|]. intros p' x' L E'. destruct p' as [|p']; cbn in E'.
        { injection E' as <-. replace (n + 0)%nat with n by lia. eauto. }
        replace (n + S p')%nat with (S n + p')%nat by lia. apply HB; [lia|exact E'].
      * exact IH.
    + exists 0%nat, e. replace (n + 0)%nat with n by lia. split; [reflexivity|]. split; [eauto|]. intros p' e' L. lia.
    + exact (HV _ _ EV).
  - exists 0%nat, e. replace (n + 0)%nat with n by lia. split; [reflexivity|]. split; [eauto|]. intros p' e' L. lia.
  - exact (HK _ _ EK).
Qed.

Lemma panics_not_ok es es' : clone_panics cK cV es -> clone_entries cK cV 0 es = Ok es' -> False.
Proof.
  intros (p & e & E & HP & _) H. apply clone_zipped in H. pose proof (zipped_nth _ _ _ H p) as N. rewrite E in N.
  destruct N as (e' & _ & EK & EV). cbn in EK, EV. destruct HP as [HP|[_ HP]]; congruence.
Qed.

(** * Lookups *)

Lemma get_unchecked_same es es' p : zipped 0 es es' ->
  match get_unchecked es p, get_unchecked es' p with
  | Ok e, Ok e' => counterpart cK cV es es' p e e'
  | UB, UB => True
  | _, _ => False
  end.
Proof.
  intros Z. pose proof (zipped_nth _ _ _ Z p) as H. unfold get_unchecked. destruct (nth_error es p) as [e|] eqn:E.
  - destruct H as (e' & E' & EK & EV). rewrite E'. repeat split; assumption.
  - rewrite H. exact I.
Qed.

Section Match.
Context {Q : Type}.
Variable q : Q.

Section Eq.
Variable eqv : Q -> K -> bool.
Hypothesis HE : forall n k k', cK n k = Ok k' -> eqv q k' = eqv q k.

Lemma scan_slot_same f f' n l l' : (forall e, f e = eqv q (fst e)) -> (forall e, f' e = eqv q (fst e)) -> zipped n l l' ->
  scan_slot_mut f' n l' = scan_slot_mut f n l /\
  match scan_slot f l, scan_slot f' l' with
  | Some e, Some e' => exists p, nth_error l p = Some e /\ nth_error l' p = Some e' /\ cK (n + p) (fst e) = Ok (fst e') /\ cV (n + p) (snd e) = Ok (snd e')
  | None, None => True
  | _, _ => False
  end.
Proof.
  intros F F'. induction 1 as [n|n e e' r r' EK EV Z IH]; [split; [reflexivity|exact I]|].
  cbn [scan_slot scan_slot_mut]. rewrite F, F', (HE _ _ _ EK). destruct (eqv q (fst e)).
  - split; [reflexivity|]. exists 0%nat. replace (n + 0)%nat with n by lia. repeat split; assumption.
  - destruct IH as [IH1 IH2]. split; [exact IH1|]. destruct (scan_slot f r) as [x|], (scan_slot f' r') as [x'|]; try exact IH2.
    destruct IH2 as (p & H1 & H2 & H3 & H4). exists (S p). replace (n + S p)%nat with (S n + p)%nat by lia. repeat split; assumption.
Qed.

Lemma scan_loop_same n es es' : zipped n es es' -> forall (o : option (K * V)) o' op,
  (match o, o', op with
   | Some e, Some e', Some p => cK p (fst e) = Ok (fst e') /\ cV p (snd e) = Ok (snd e')
   | None, None, None => True
   | _, _, _ => False
   end) ->
  scan_get_mut_loop eqv es' n q op = scan_get_mut_loop eqv es n q op /\
  (op = scan_get_mut_loop eqv es n q op /\
   scan_get_loop eqv es q (option_map snd o) = option_map snd o /\ scan_get_loop eqv es' q (option_map snd o') = option_map snd o' /\
   scan_get_key_value_loop eqv es q o = o /\ scan_get_key_value_loop eqv es' q o' = o' \/
   exists p e e', nth_error es p = Some e /\ nth_error es' p = Some e' /\ cK (n + p) (fst e) = Ok (fst e') /\ cV (n + p) (snd e) = Ok (snd e') /\
     scan_get_loop eqv es q (option_map snd o) = Some (snd e) /\ scan_get_loop eqv es' q (option_map snd o') = Some (snd e') /\
     scan_get_key_value_loop eqv es q o = Some e /\ scan_get_key_value_loop eqv es' q o' = Some e').
Proof.
  induction 1 as [n|n e e' r r' EK EV Z IH]; intros o o' op HO.
  - split; [reflexivity|]. left. repeat split; reflexivity.
  - cbn [scan_get_mut_loop scan_get_loop scan_get_key_value_loop]. rewrite (HE _ _ _ EK). destruct (eqv q (fst e)).
    + destruct (IH (Some e) (Some e') (Some n) (conj EK EV)) as [H1 H2]. split; [exact H1|]. right.
      replace (Some (fst e, snd e)) with (Some e) by (destruct e; reflexivity).
      replace (Some (fst e', snd e')) with (Some e') by (destruct e'; reflexivity).
      destruct H2 as [(H2 & H3 & H4 & H5 & H6)|(p & x & x' & A & B & C & D & H3 & H4 & H5 & H6)].
      * exists 0%nat, e, e'. replace (n + 0)%nat with n by lia. repeat split; assumption.
      * exists (S p), x, x'. replace (n + S p)%nat with (S n + p)%nat by lia. repeat split; assumption.
    + destruct (IH o o' op HO) as [H1 H2]. split; [exact H1|].
      destruct H2 as [H2|(p & x & x' & A & B & C & D & H3)]; [left; exact H2|right].
      exists (S p), x, x'. replace (n + S p)%nat with (S n + p)%nat by lia. repeat split; try assumption; apply H3.
Qed.
End Eq.

Lemma search_same (f : K -> comparison) es es' : (forall n k k', cK n k = Ok k' -> f k' = f k) -> zipped 0 es es' ->
  eytzinger_search_by es' (fun e => f (fst e)) = eytzinger_search_by es (fun e => f (fst e)).
Proof.
  intros HF Z. unfold eytzinger_search_by. rewrite (zipped_length _ _ _ Z). generalize (S (length es)). intros fuel. generalize 0%nat at 1 2.
  induction fuel as [|fuel IH]; intros i; [reflexivity|]. cbn [eytzinger_search_loop]. pose proof (zipped_nth _ _ _ Z i) as H.
  destruct (nth_error es i) as [e|].
  - destruct H as (e' & E' & EK & _). rewrite E', (HF _ _ _ EK). destruct (f (fst e)); [reflexivity| |]; apply IH.
  - rewrite H. reflexivity.
Qed.
End Match.

Lemma slice_same es es' lo hi : zipped 0 es es' ->
  match slice_unchecked es lo hi, slice_unchecked es' lo hi with
  | Ok l, Ok l' => zipped lo l l' /\ (forall p e, nth_error l p = Some e -> nth_error es (lo + p) = Some e) /\
      forall p e, nth_error l' p = Some e -> nth_error es' (lo + p) = Some e
  | UB, UB => True
  | _, _ => False
  end.
Proof.
  intros Z. unfold slice_unchecked. rewrite (zipped_length _ _ _ Z).
  destruct (Nat.leb_spec lo hi); [|exact I]. destruct (Nat.leb_spec hi (length es)); [|exact I]. cbn [andb].
  split; [apply zipped_firstn; exact (zipped_skipn _ _ _ Z lo)|].
  assert (G : forall (l : list (K * V)) d p e, nth_error (firstn d (skipn lo l)) p = Some e -> nth_error l (lo + p) = Some e).
  { intros l d p e E. assert (p < d)%nat.
    { apply Nat.nle_gt. intros L. assert (X : (length (firstn d (skipn lo l)) <= p)%nat) by (rewrite firstn_length; lia).
      apply nth_error_None in X. congruence. }
    revert l E. assert (F : forall d (l : list (K * V)) p, (p < d)%nat -> nth_error (firstn d l) p = nth_error l p).
    { induction d0 as [|d0 IHd]; intros l p0 Hp; [lia|]. destruct l as [|x l]; [destruct p0; reflexivity|].
      destruct p0 as [|p0]; [reflexivity|]. cbn. apply IHd. lia. }
    intros l. rewrite F by assumption. clear. revert l. induction lo as [|lo IH]; intros l E; [exact E|].
    destruct l as [|x l]; [destruct p; discriminate E|]. cbn. apply IH. exact E. }
  split; intros p e; apply G.
Qed.
End Entries.

(** * Each kind of map *)

Record alike {M K V Q} cK cV (ops : map_ops M K V Q) m (ops' : map_ops M K V Q) m' : Prop := {
  al_entries : copied cK cV (mo_entries ops m) (mo_entries ops' m');
  al_get : forall q, same_find cK cV snd (mo_entries ops m) (mo_entries ops' m') (mo_get ops m q) (mo_get ops' m' q);
  al_get_key_value : forall q,
    same_find cK cV (fun e => e) (mo_entries ops m) (mo_entries ops' m') (mo_get_key_value ops m q) (mo_get_key_value ops' m' q);
  al_get_mut : forall q, mo_get_mut ops' m' q = mo_get_mut ops m q;
  al_contains : forall q, mo_contains_key ops' m' q = mo_contains_key ops m q }.

Lemma same_is_some {K V A} cK cV (part : K * V -> A) es es' r r' :
  same_find cK cV part es es' r r' -> fmap is_some r' = fmap is_some r.
Proof. destruct r as [[x|]| |], r' as [[x'|]| |]; cbn; intros H; try contradiction; reflexivity. Qed.

Lemma pair_eta {A B} (e : A * B) : (fst e, snd e) = e.
Proof. destruct e; reflexivity. Qed.

Lemma scan_alike {K V Q} cK cV (eqv : Q -> K -> bool) (m m' : scan_map K V) :
  (forall q n k k', cK n k = Ok k' -> eqv q k' = eqv q k) -> scan_clone cK cV m = Ok m' -> alike cK cV (scan_ops eqv) m (scan_ops eqv) m'.
Proof.
  intros HE H. unfold scan_clone in H. destruct (clone_entries cK cV 0 (sm_entries m)) as [es| |] eqn:E; try discriminate.
  cbn in H. injection H as <-. apply clone_zipped in E.
  assert (G : forall q, same_find cK cV snd (sm_entries m) es (scan_get eqv m q) (scan_get eqv {| sm_entries := es |} q) /\
    same_find cK cV (fun e => e) (sm_entries m) es (scan_get_key_value eqv m q) (scan_get_key_value eqv {| sm_entries := es |} q) /\
    scan_get_mut eqv {| sm_entries := es |} q = scan_get_mut eqv m q).
  { intros q. unfold scan_get, scan_get_mut, scan_get_key_value. cbn [sm_entries].
    destruct (scan_loop_same cK cV q eqv (HE q) _ _ _ E None None None I) as [H1 H2]. cbn [option_map] in H2.
    rewrite H1. destruct H2 as [(_ & A & B & C & D)|(p & e & e' & A & B & C & D & F1 & F2 & F3 & F4)].
    - rewrite A, B, C, D. cbn. auto.
    - rewrite F1, F2, F3, F4. cbn. repeat split; exists p, e, e'; repeat split; assumption. }
  constructor; cbn [scan_ops mo_entries mo_get mo_get_mut mo_get_key_value mo_contains_key sm_entries].
  - exact (zipped_copied _ _ _ _ E).
  - intros q. apply G.
  - intros q. apply G.
  - intros q. apply G.
  - intros q. unfold scan_contains_key. eapply same_is_some. apply G.
Qed.

Lemma ordered_alike {K V Q} cK cV (cmpQ : Q -> K -> comparison) (m m' : eytzinger_map K V) :
  (forall q n k k', cK n k = Ok k' -> cmpQ q k' = cmpQ q k) -> eytzinger_clone cK cV m = Ok m' ->
  alike cK cV (eytzinger_ops cmpQ) m (eytzinger_ops cmpQ) m'.
Proof.
  intros HE H. unfold eytzinger_clone in H. destruct (clone_entries cK cV 0 (em_entries m)) as [es| |] eqn:E; try discriminate.
  cbn in H. injection H as <-. apply clone_zipped in E.
  assert (G : forall q, same_find cK cV snd (em_entries m) es (eytzinger_get cmpQ m q) (eytzinger_get cmpQ {| em_entries := es |} q) /\
    same_find cK cV (fun e => e) (em_entries m) es (eytzinger_get_key_value cmpQ m q) (eytzinger_get_key_value cmpQ {| em_entries := es |} q) /\
    eytzinger_get_mut cmpQ {| em_entries := es |} q = eytzinger_get_mut cmpQ m q).
  { intros q. unfold eytzinger_get, eytzinger_get_mut, eytzinger_get_key_value. cbn [em_entries].
    rewrite (search_same cK cV (fun k => CompOpp (cmpQ q k)) _ _ (fun n k k' Hk => f_equal CompOpp (HE q n k k' Hk)) E).
    destruct (eytzinger_search_by (em_entries m) (fun e => CompOpp (cmpQ q (fst e)))) as [[i|]| |]; cbn [bind same_find]; auto.
    pose proof (get_unchecked_same cK cV _ _ i E) as H.
    destruct (get_unchecked (em_entries m) i) as [e| |], (get_unchecked es i) as [e'| |]; try contradiction; cbn [bind same_find]; auto.
    rewrite !pair_eta. repeat split; exists i, e, e'; auto. }
  constructor; cbn [eytzinger_ops mo_entries mo_get mo_get_mut mo_get_key_value mo_contains_key em_entries].
  - exact (zipped_copied _ _ _ _ E).
  - intros q. apply G.
  - intros q. apply G.
  - intros q. apply G.
  - intros q. unfold eytzinger_contains_key. eapply same_is_some. apply G.
Qed.

Lemma dense_alike {K V Q} cK cV (idxQ : Q -> N) (m m' : dense_map K V) :
  dense_clone cK cV m = Ok m' -> alike cK cV (dense_ops idxQ) m (dense_ops idxQ) m'.
Proof.
  intros H. unfold dense_clone in H. destruct (clone_entries cK cV 0 (dm_entries m)) as [es| |] eqn:E; try discriminate.
  cbn in H. injection H as <-. apply clone_zipped in E. set (m' := {| dm_min := dm_min m; dm_max := dm_max m; dm_entries := es |}).
  assert (G : forall q, same_find cK cV snd (dm_entries m) es (dense_get idxQ m q) (dense_get idxQ m' q) /\
    same_find cK cV (fun e => e) (dm_entries m) es (dense_get_key_value idxQ m q) (dense_get_key_value idxQ m' q) /\
    dense_get_mut idxQ m' q = dense_get_mut idxQ m q).
  { intros q. unfold dense_get, dense_get_mut, dense_get_key_value, m'. cbn [dm_entries dm_min dm_max].
    destruct ((dm_min m <=? idxQ q) && (idxQ q <=? dm_max m))%bool; cbn [same_find]; auto.
    pose proof (get_unchecked_same cK cV _ _ (N.to_nat (idxQ q - dm_min m)) E) as H.
    destruct (get_unchecked (dm_entries m) _) as [e| |], (get_unchecked es _) as [e'| |]; try contradiction; cbn [bind same_find]; auto.
    rewrite !pair_eta. repeat split; exists (N.to_nat (idxQ q - dm_min m)), e, e'; auto. }
  constructor; cbn [dense_ops mo_entries mo_get mo_get_mut mo_get_key_value mo_contains_key dm_entries].
  - exact (zipped_copied _ _ _ _ E).
  - intros q. apply G.
  - intros q. apply G.
  - intros q. apply G.
  - intros q. unfold dense_contains_key. eapply same_is_some. apply G.
Qed.

Lemma sparse_alike {K V Q} cK cV (idxQ : Q -> N) (m m' : sparse_map K V) :
  sparse_clone cK cV m = Ok m' -> alike cK cV (sparse_ops idxQ) m (sparse_ops idxQ) m'.
Proof.
  intros H. unfold sparse_clone in H. destruct (clone_entries cK cV 0 (sp_entries m)) as [es| |] eqn:E; try discriminate.
  cbn in H. injection H as <-. apply clone_zipped in E.
  set (m' := {| sp_min := sp_min m; sp_max := sp_max m; sp_lookup := sp_lookup m; sp_entries := es |}).
  assert (G : forall q, same_find cK cV snd (sp_entries m) es (sparse_get idxQ m q) (sparse_get idxQ m' q) /\
    same_find cK cV (fun e => e) (sp_entries m) es (sparse_get_key_value idxQ m q) (sparse_get_key_value idxQ m' q) /\
    sparse_get_mut idxQ m' q = sparse_get_mut idxQ m q).
  { intros q. unfold sparse_get, sparse_get_mut, sparse_get_key_value, m'. cbn [sp_entries sp_lookup sp_min sp_max].
    destruct ((sp_min m <=? idxQ q) && (idxQ q <=? sp_max m))%bool; cbn [same_find]; auto.
    destruct (get_unchecked (sp_lookup m) _) as [i| |]; cbn [bind same_find]; auto.
    destruct (0 <? i); cbn [same_find]; auto.
    pose proof (get_unchecked_same cK cV _ _ (N.to_nat (i - 1)) E) as H.
    destruct (get_unchecked (sp_entries m) _) as [e| |], (get_unchecked es _) as [e'| |]; try contradiction; cbn [bind same_find]; auto.
    rewrite !pair_eta. repeat split; exists (N.to_nat (i - 1)), e, e'; auto. }
  constructor; cbn [sparse_ops mo_entries mo_get mo_get_mut mo_get_key_value mo_contains_key sp_entries].
  - exact (zipped_copied _ _ _ _ E).
  - intros q. apply G.
  - intros q. apply G.
  - intros q. apply G.
  - intros q. unfold sparse_contains_key. eapply same_is_some. apply G.
Qed.

Lemma slot_alike {K V Q} cK cV (eqv : Q -> K -> bool) q (es es' : list (K * V)) lo hi :
  (forall n k k', cK n k = Ok k' -> eqv q k' = eqv q k) -> zipped cK cV 0 es es' ->
  let find es := bind (slice_unchecked es lo hi) (fun l => Ok (scan_slot (fun e => eqv q (fst e)) l)) in
  same_find cK cV snd es es' (fmap (option_map snd) (find es)) (fmap (option_map snd) (find es')) /\
  same_find cK cV (fun e => e) es es' (fmap (option_map (fun e => (fst e, snd e))) (find es)) (fmap (option_map (fun e => (fst e, snd e))) (find es')) /\
  bind (slice_unchecked es' lo hi) (fun l => Ok (scan_slot_mut (fun e => eqv q (fst e)) lo l)) =
  bind (slice_unchecked es lo hi) (fun l => Ok (scan_slot_mut (fun e => eqv q (fst e)) lo l)).
Proof.
  intros HE Z. cbv beta zeta. pose proof (slice_same cK cV _ _ lo hi Z) as H.
  destruct (slice_unchecked es lo hi) as [l| |], (slice_unchecked es' lo hi) as [l'| |]; try contradiction; cbn [bind fmap same_find]; auto.
  destruct H as (ZL & HL & HL').
  destruct (scan_slot_same cK cV q eqv HE (fun e => eqv q (fst e)) (fun e => eqv q (fst e)) lo l l' (fun _ => eq_refl) (fun _ => eq_refl) ZL) as [H1 H2].
  rewrite H1. destruct (scan_slot _ l) as [e|], (scan_slot _ l') as [e'|]; try contradiction; cbn [option_map same_find]; auto.
  destruct H2 as (p & A & B & C & D). rewrite !pair_eta.
  repeat split; exists (lo + p)%nat, e, e'; repeat split; auto.
Qed.

Lemma hash_alike {K V Q} cK cV (hQ hQ' : Q -> res N) (eqv : Q -> K -> bool) (m m' : hash_map K V) :
  (forall q n k k', cK n k = Ok k' -> eqv q k' = eqv q k) -> (forall q, hQ' q = hQ q) ->
  hash_clone cK cV m = Ok m' -> alike cK cV (hash_ops hQ eqv) m (hash_ops hQ' eqv) m'.
Proof.
  intros HE HH H. destruct m as [[slots es mask]]. unfold hash_clone, ht_clone in H. cbn [hm_table ht_entries ht_slots ht_mask] in H.
  destruct (clone_entries cK cV 0 es) as [es'| |] eqn:E; try discriminate.
  cbn in H. injection H as <-. apply clone_zipped in E.
  set (m := {| hm_table := {| ht_slots := slots; ht_entries := es; ht_mask := mask |} |}).
  set (m' := {| hm_table := {| ht_slots := slots; ht_entries := es'; ht_mask := mask |} |}).
  assert (G : forall q, same_find cK cV snd es es' (hash_get hQ eqv m q) (hash_get hQ' eqv m' q) /\
    same_find cK cV (fun e => e) es es' (hash_get_key_value hQ eqv m q) (hash_get_key_value hQ' eqv m' q) /\
    hash_get_mut hQ' eqv m' q = hash_get_mut hQ eqv m q).
  { intros q. unfold hash_get, hash_get_mut, hash_get_key_value, ht_find, ht_find_mut, m, m'. cbn [hm_table ht_entries ht_slots ht_mask].
    rewrite HH. destruct (hQ q) as [h| |]; cbn [bind same_find]; auto.
    destruct (get_unchecked slots _) as [[lo hi]| |]; cbn [bind fmap same_find]; auto.
    exact (slot_alike cK cV eqv q es es' (N.to_nat lo) (N.to_nat hi) (HE q) E). }
  constructor; cbn [hash_ops mo_entries mo_get mo_get_mut mo_get_key_value mo_contains_key].
  - exact (zipped_copied _ _ _ _ E).
  - intros q. apply G.
  - intros q. apply G.
  - intros q. apply G.
  - intros q. unfold hash_contains_key. eapply same_is_some. apply G.
Qed.

Lemma no_collisions_alike {K V Q} cK cV (hQ hQ' : Q -> res N) (eqv : Q -> K -> bool) (m m' : nc_map K V) :
  (forall q n k k', cK n k = Ok k' -> eqv q k' = eqv q k) -> (forall q, hQ' q = hQ q) ->
  nc_clone cK cV m = Ok m' -> alike cK cV (nc_ops hQ eqv) m (nc_ops hQ' eqv) m'.
Proof.
  intros HE HH H. destruct m as [[es slots mask]]. unfold nc_clone in H. cbn [ncm_table nc_entries nc_slots nc_mask] in H.
  destruct (clone_entries cK cV 0 es) as [es'| |] eqn:E; try discriminate.
  cbn in H. injection H as <-. apply clone_zipped in E.
  set (m := {| ncm_table := {| nc_entries := es; nc_slots := slots; nc_mask := mask |} |}).
  set (m' := {| ncm_table := {| nc_entries := es'; nc_slots := slots; nc_mask := mask |} |}).
  assert (G : forall q, same_find cK cV snd es es' (nc_get hQ eqv m q) (nc_get hQ' eqv m' q) /\
    same_find cK cV (fun e => e) es es' (nc_get_key_value hQ eqv m q) (nc_get_key_value hQ' eqv m' q) /\
    nc_get_mut hQ' eqv m' q = nc_get_mut hQ eqv m q).
  { intros q. unfold nc_get, nc_get_mut, nc_get_key_value, nc_find, nc_find_mut, m, m'. cbn [ncm_table nc_entries nc_slots nc_mask].
    rewrite HH. destruct (hQ q) as [h| |]; cbn [bind same_find]; auto.
    destruct (get_unchecked slots _) as [i| |]; cbn [bind fmap same_find]; auto.
    destruct (0 <? i); cbn [bind fmap option_map same_find]; auto.
    pose proof (get_unchecked_same cK cV _ _ (N.to_nat (i - 1)) E) as H.
    destruct (get_unchecked es _) as [e| |], (get_unchecked es' _) as [e'| |]; try contradiction; cbn [bind fmap same_find]; auto.
    destruct H as (A & B & C & D). rewrite (HE q _ _ _ C). destruct (eqv q (fst e)); cbn [option_map same_find]; auto.
    rewrite !pair_eta. repeat split; exists (N.to_nat (i - 1)), e, e'; repeat split; auto. }
  constructor; cbn [nc_ops mo_entries mo_get mo_get_mut mo_get_key_value mo_contains_key].
  - exact (zipped_copied _ _ _ _ E).
  - intros q. apply G.
  - intros q. apply G.
  - intros q. apply G.
  - intros q. unfold nc_contains_key. eapply same_is_some. apply G.
Qed.

Lemma fz_scalar_alike {K V Q} cK cV (idxQ : Q -> N) (eqv : Q -> K -> bool) (m m' : fz_scalar_map K V) :
  (forall q n k k', cK n k = Ok k' -> eqv q k' = eqv q k) ->
  fz_scalar_clone cK cV m = Ok m' -> alike cK cV (fz_scalar_ops idxQ eqv) m (fz_scalar_ops idxQ eqv) m'.
Proof.
  intros HE H. destruct m as [m|m|m]; cbn [fz_scalar_clone] in H.
  - destruct (hash_clone cK cV m) as [c| |] eqn:E; try discriminate. cbn in H. injection H as <-.
    destruct (hash_alike cK cV (fun q => scalar_hash_one (idxQ q)) (fun q => scalar_hash_one (idxQ q)) eqv m c HE (fun _ => eq_refl) E).
    constructor; assumption.
  - destruct (dense_clone cK cV m) as [c| |] eqn:E; try discriminate. cbn in H. injection H as <-.
    destruct (dense_alike cK cV idxQ m c E). constructor; assumption.
  - destruct (sparse_clone cK cV m) as [c| |] eqn:E; try discriminate. cbn in H. injection H as <-.
    destruct (sparse_alike cK cV idxQ m c E). constructor; assumption.
Qed.

Lemma string_alike {V} cB (cV : nat -> V -> res V) (m m' : fz_string_map V) :
  (forall bh s, bh_str (cB bh) s = bh_str bh s /\ bh_bytes (cB bh) s = bh_bytes bh s) ->
  string_clone cB cV m = Ok m' -> alike (fun _ k => Ok k) cV fz_string_ops m fz_string_ops m'.
Proof.
  intros HB H. assert (HE : forall (q : bytes) (n : nat) k k', Ok k = Ok k' -> bytes_eqb q k' = bytes_eqb q k) by congruence.
  destruct m as [bh lo hi h|bh lo hi h|bh h]; cbn [string_clone] in H;
    destruct (hash_clone (fun _ k => Ok k) cV h) as [c| |] eqn:E; try discriminate; cbn in H; injection H as <-.
  - assert (HH : forall q, left_range_hash_one (cB bh) lo hi q = left_range_hash_one bh lo hi q).
    { intros q. unfold left_range_hash_one. destruct (_ <? hi); [reflexivity|]. destruct (slice q _ _) as [b| |]; [|reflexivity..].
      cbn. rewrite (proj2 (HB bh b)). reflexivity. }
    destruct (hash_alike _ cV _ _ bytes_eqb h c HE HH E). constructor; assumption.
  - assert (HH : forall q, right_range_hash_one (cB bh) lo hi q = right_range_hash_one bh lo hi q).
    { intros q. unfold right_range_hash_one. destruct (_ <? hi); [reflexivity|]. destruct (sub_no_underflow _ hi) as [a| |]; [|reflexivity..].
      cbn [bind]. destruct (sub_no_underflow _ lo) as [z| |]; [|reflexivity..]. cbn [bind]. destruct (slice q _ _) as [b| |]; [|reflexivity..].
      cbn. rewrite (proj2 (HB bh b)). reflexivity. }
    destruct (hash_alike _ cV _ _ bytes_eqb h c HE HH E). constructor; assumption.
  - assert (HH : forall q, bridge_hash_one (cB bh) q = bridge_hash_one bh q).
    { intros q. unfold bridge_hash_one. rewrite (proj1 (HB bh q)). reflexivity. }
    destruct (hash_alike _ cV _ _ bytes_eqb h c HE HH E). constructor; assumption.
Qed.

Lemma cloned_alike {M K V Q} cK cV (ops : map_ops M K V Q) m ops' m' : cloned cK cV ops m ops' m' -> alike cK cV ops m ops' m'.
Proof.
  intros H. destruct H.
  - apply scan_alike; assumption.
  - apply ordered_alike; assumption.
  - apply dense_alike; assumption.
  - apply sparse_alike; assumption.
  - apply hash_alike; assumption.
  - apply no_collisions_alike; assumption.
  - apply fz_scalar_alike; assumption.
  - eapply string_alike; eassumption.
Qed.

(** * Clones of maps that answer *)

Lemma last_match_map {A} (f : A -> A) (p : A -> bool) l : (forall x, p (f x) = p x) ->
  last_match p (map f l) = option_map f (last_match p l).
Proof.
  intros H. induction l as [|x r IH]; [reflexivity|]. cbn [map last_match]. rewrite IH, H.
  destruct (last_match p r); [reflexivity|]. destruct (p x); reflexivity.
Qed.

Lemma survivors_length_map {A} (f : A -> A) (eqA : A -> A -> bool) l : (forall x y, eqA (f x) (f y) = eqA x y) ->
  length (survivors eqA (map f l)) = length (survivors eqA l).
Proof.
  intros H. induction l as [|x r IH]; [reflexivity|]. cbn [map survivors].
  replace (existsb (eqA (f x)) (map f r)) with (existsb (eqA x) r).
  - destruct (existsb (eqA x) r); cbn [length]; congruence.
  - clear IH. induction r as [|y r IH]; [reflexivity|]. cbn. rewrite H, IH. reflexivity.
Qed.

Lemma nth_ext_error {A} (l : list A) : forall l', (forall p, nth_error l p = nth_error l' p) -> l = l'.
Proof.
  induction l as [|x r IH]; intros l' H.
  - destruct l' as [|y l']; [reflexivity|]. discriminate (H 0%nat).
  - destruct l' as [|y l']; [discriminate (H 0%nat)|]. f_equal; [injection (H 0%nat); auto|]. apply IH. intros p. exact (H (S p)).
Qed.

Section Pure.
Context {M K V Q : Type}.
Variable cK : K -> K.
Variable cV : V -> V.
Variable ops ops' : map_ops M K V Q.
Variable m m' : M.
Variable eqK : K -> K -> bool.
Variable eqv : Q -> K -> bool.
Let pK := fun (_ : nat) k => Ok (cK k).
Let pV := fun (_ : nat) v => Ok (cV v).
Let c := fun e : K * V => (cK (fst e), cV (snd e)).

Lemma copied_map es es' : copied pK pV es es' -> es' = map c es.
Proof.
  intros [HL H]. apply nth_ext_error. intros p. rewrite nth_error_map. destruct (nth_error es p) as [e|] eqn:E.
  - destruct (H p e E) as (e' & _ & E' & EK & EV). unfold pK, pV in *. cbn. rewrite E'. unfold c. destruct e'; cbn in *. congruence.
  - cbn. apply nth_error_None in E. apply nth_error_None. lia.
Qed.

Lemma same_find_map {A} (part : K * V -> A) (pc : A -> A) es es' r r' : (forall e, part (c e) = pc (part e)) ->
  same_find pK pV part es es' r r' -> r' = fmap (option_map pc) r.
Proof.
  intros HP. destruct r as [[x|]| |], r' as [[x'|]| |]; cbn; try contradiction; try reflexivity.
  intros (p & e & e' & (_ & _ & EK & EV) & E1 & E2). subst. rewrite <- HP. unfold c, pK, pV in *. destruct e'; cbn in *. congruence.
Qed.

Lemma clone_answers input : (forall k, eqK (cK k) k = true) -> lawful_eq eqK -> (forall q k, eqv q (cK k) = eqv q k) ->
  alike pK pV ops m ops' m' -> answers ops eqK eqv m input -> answers ops' eqK eqv m' (map c input).
Proof.
  intros CK LE CV [AE AG AK AM AC] [GG GK GC GM GE GL].
  assert (EE : mo_entries ops' m' = map c (mo_entries ops m)) by (apply copied_map; exact AE).
  assert (CQ : forall a b, eqK (cK a) (cK b) = eqK a b).
  { intros a b. apply eq_true_iff_eq. split; intros H.
    - apply (eq_trans_law _ LE _ (cK a)); [apply (eq_sym_law _ LE); apply CK|]. apply (eq_trans_law _ LE _ (cK b)); [exact H|apply CK].
    - apply (eq_trans_law _ LE _ a); [apply CK|]. apply (eq_trans_law _ LE _ b); [exact H|]. apply (eq_sym_law _ LE); apply CK. }
  assert (SE : forall q, spec_entry eqv (map c input) q = option_map c (spec_entry eqv input q)).
  { intros q. unfold spec_entry. apply last_match_map. intros e. cbn. apply CV. }
  constructor.
  - intros q. rewrite (same_find_map snd cV _ _ _ _ (fun _ => eq_refl) (AG q)), GG. unfold spec_get. rewrite SE.
    destruct (spec_entry eqv input q); reflexivity.
  - intros q. rewrite (same_find_map (fun e => e) c _ _ _ _ (fun _ => eq_refl) (AK q)), GK, SE. reflexivity.
  - intros q. rewrite AC, GC, SE. destruct (spec_entry eqv input q); reflexivity.
  - intros q. destruct (GM q) as (o & E & H). exists o. split; [rewrite AM; exact E|]. rewrite SE, <- H, EE. destruct o as [p|]; [|reflexivity].
    rewrite nth_error_map. reflexivity.
  - intros e. rewrite EE, in_map_iff. split.
    + intros (x & <- & Hx). apply GE in Hx. destruct Hx as (pre & post & -> & H). exists (map c pre), (map c post).
      split; [rewrite map_app; reflexivity|]. intros e' He'. apply in_map_iff in He'. destruct He' as (y & <- & Hy).
      cbn. rewrite CQ. apply H. exact Hy.
    + intros (pre & post & E & H). apply map_eq_app in E. destruct E as (p1 & p2 & -> & <- & E). apply map_eq_cons in E.
      destruct E as (x & p3 & -> & <- & <-). exists x. split; [reflexivity|]. apply GE. exists p1, p3. split; [reflexivity|].
      intros y Hy. rewrite <- CQ. apply (H (c y)). apply in_map. exact Hy.
  - unfold map_len in *. rewrite EE, map_length, GL. unfold key_count. symmetry. apply survivors_length_map. intros x y. cbn. apply CQ.
Qed.
End Pure.

(** A clone equals the original. *)
Section Equal.
Context {M K V : Type}.
Variable cK : nat -> K -> res K.
Variable cV : nat -> V -> res V.
Variable ops ops' : map_ops M K V K.
Variable m m' : M.
Variable eqK : K -> K -> bool.
Variable eqV : V -> V -> bool.
Variable input : list (K * V).
Hypothesis MD : made ops eqK eqK m input.
Hypothesis AL : alike cK cV ops m ops' m'.

Lemma eq_all_true (es : list (K * V)) (other : map_query K V) : (forall k v, In (k, v) es -> exists v', mq_get other k = Ok (Some v') /\ eqV v v' = true) ->
  eq_all eqV es other = Ok true.
Proof.
  induction es as [|[k v] r IH]; intros H; [reflexivity|]. cbn [eq_all]. destruct (H k v (or_introl eq_refl)) as (v' & -> & E). cbn. rewrite E.
  apply IH. intros k' v0 Hi. apply H. right. exact Hi.
Qed.

Lemma entry_found k v : In (k, v) (mo_entries ops m) -> spec_get eqK input k = Some v.
Proof.
  intros H. apply (entries_get ops eqK m input MD). exists k. split; [exact H|]. apply (made_lawful _ _ _ _ _ MD).
Qed.

Lemma same_len : map_len ops' m' = map_len ops m.
Proof. unfold map_len. apply (al_entries _ _ _ _ _ _ AL). Qed.

Lemma original_equal : (forall n v v', cV n v = Ok v' -> eqV v v' = true) -> map_eq ops eqV m (as_query ops' m') = Ok true.
Proof.
  intros HV. unfold map_eq. cbn [as_query mq_len]. rewrite same_len, Nat.eqb_refl. cbn [negb]. apply eq_all_true.
  intros k v Hi. cbn [as_query mq_get]. pose proof (al_get _ _ _ _ _ _ AL k) as H.
  rewrite (made_get _ _ _ _ _ MD k), (entry_found k v Hi) in H. cbn in H. destruct (mo_get ops' m' k) as [[v'|]| |]; try contradiction.
  destruct H as (p & e & e' & (_ & _ & _ & EV) & -> & ->). exists (snd e'). split; [reflexivity|]. apply (HV p). exact EV.
Qed.

Lemma clone_equal : (forall n v v', cV n v = Ok v' -> eqV v' v = true) -> (forall n k k', cK n k = Ok k' -> eqK k k' = true) ->
  map_eq ops' eqV m' (as_query ops m) = Ok true.
Proof.
  intros HV HK. unfold map_eq. cbn [as_query mq_len]. rewrite same_len, Nat.eqb_refl. cbn [negb]. apply eq_all_true.
  intros k' v' Hi. cbn [as_query mq_get]. apply In_nth_error in Hi. destruct Hi as [p E']. destruct (al_entries _ _ _ _ _ _ AL) as [HL HC].
  destruct (nth_error (mo_entries ops m) p) as [[k v]|] eqn:E.
  2:{ apply nth_error_None in E. assert (X : nth_error (mo_entries ops' m') p = None) by (apply nth_error_None; lia). congruence. }
  destruct (HC p _ E) as (x & _ & E2 & EK & EV). rewrite E2 in E'. injection E' as ->. cbn in EK, EV.
  exists v. split; [|exact (HV _ _ _ EV)]. rewrite (made_get _ _ _ _ _ MD). f_equal. apply (entries_get ops eqK m input MD). exists k.
  split; [apply nth_error_In in E; exact E|]. apply (eq_sym_law _ (proj1 (made_lawful _ _ _ _ _ MD))). exact (HK _ _ _ EK).
Qed.
End Equal.

(** * Safety *)

Lemma any_clone_spec {K V} cK cV (m : any_map K V) :
  any_clone cK cV m = fmap (any_with_entries m) (clone_entries cK cV 0 (any_entries m)).
Proof.
  destruct m as [m|m|m|m|m|m]; cbn [any_clone any_entries any_with_entries];
    unfold scan_clone, eytzinger_clone, dense_clone, sparse_clone, hash_clone, ht_clone, nc_clone;
    match goal with |- context[clone_entries cK cV 0 ?es] => destruct (clone_entries cK cV 0 es); reflexivity end.
Qed.

Lemma any_entries_with {K V} (m : any_map K V) es : any_entries (any_with_entries m es) = es.
Proof. destruct m; reflexivity. Qed.

Lemma sound_with {K V} (m : any_map K V) es : length es = length (any_entries m) -> (sound (any_with_entries m es) <-> sound m).
Proof.
  intros E. destruct m as [m|m|m|m|m|m]; cbn in *; [tauto|tauto|..]; rewrite E; reflexivity.
Qed.

Lemma bounded_with {K V} (m : any_map K V) es : bounded (any_with_entries m es) <-> bounded m.
Proof. destruct m; cbn; tauto. Qed.

Lemma any_clone_ends {K V} cK cV (m : any_map K V) : (forall p k, cK p k <> UB) -> (forall p v, cV p v <> UB) ->
  (any_clone cK cV m = Panic <-> clone_panics cK cV (any_entries m)) /\
  match any_clone cK cV m with
  | Ok m' => copied cK cV (any_entries m) (any_entries m') /\ (sound m' <-> sound m) /\ (bounded m' <-> bounded m)
  | Panic => True
  | UB => False
  end.
Proof.
  intros HK HV. rewrite any_clone_spec. pose proof (clone_ends cK cV (any_entries m) 0 HK HV) as H.
  destruct (clone_entries cK cV 0 (any_entries m)) as [es| |] eqn:E; cbn [fmap].
  - split.
    + split; [discriminate|]. intros P. exfalso. exact (panics_not_ok _ _ _ _ P E).
    + rewrite any_entries_with. split; [|split; [apply sound_with; exact H|apply bounded_with]].
      apply zipped_copied. apply clone_zipped. exact E.
  - split; [|exact I]. split; [|reflexivity]. intros _. exact H.
  - contradiction.
Qed.

(** * Magnitudes *)

Lemma magnitude_alike {cm K V Q} cK cV ce (hQ hQ' : Q -> res N) (eqv : Q -> K -> bool) (m m' : cm_table cm (K * V)) :
  (forall x, mg_into cm (ce x) = mg_into cm x) ->
  (forall q n k k', cK n k = Ok k' -> eqv q k' = eqv q k) -> (forall q, hQ' q = hQ q) ->
  ct_clone cK cV ce m = Ok m' -> alike cK cV (ct_ops cm hQ eqv) m (ct_ops cm hQ' eqv) m'.
Proof.
  intros HC HE HH H. destruct m as [slots es mask]. unfold ct_clone in H. cbn [ct_entries ct_slots ct_mask] in H.
  destruct (clone_entries cK cV 0 es) as [es'| |] eqn:E; try discriminate.
  cbn [bind] in H. injection H as <-. apply clone_zipped in E.
  set (slots' := map (fun slot => (ce (fst slot), ce (snd slot))) slots).
  set (m := {| ct_slots := slots; ct_entries := es; ct_mask := mask |}).
  set (m' := {| ct_slots := slots'; ct_entries := es'; ct_mask := mask |}).
  assert (G : forall q, same_find cK cV snd es es' (ct_get cm hQ eqv m q) (ct_get cm hQ' eqv m' q) /\
    same_find cK cV (fun e => e) es es' (ct_get_key_value cm hQ eqv m q) (ct_get_key_value cm hQ' eqv m' q) /\
    ct_get_mut cm hQ' eqv m' q = ct_get_mut cm hQ eqv m q).
  { intros q. unfold ct_get, ct_get_mut, ct_get_key_value, ct_find, ct_find_mut, m, m'. cbn [ct_entries ct_slots ct_mask].
    rewrite HH. destruct (hQ q) as [h| |]; cbn [bind same_find]; auto. unfold get_unchecked, slots'. rewrite nth_error_map.
    destruct (nth_error slots _) as [[lo hi]|]; cbn [option_map bind fmap same_find fst snd]; auto. rewrite !HC.
    exact (slot_alike cK cV eqv q es es' (N.to_nat (mg_into cm lo)) (N.to_nat (mg_into cm hi)) (HE q) E). }
  constructor; cbn [ct_ops mo_entries mo_get mo_get_mut mo_get_key_value mo_contains_key].
  - exact (zipped_copied _ _ _ _ E).
  - intros q. apply G.
  - intros q. apply G.
  - intros q. apply G.
  - intros q. unfold ct_contains_key. eapply same_is_some. apply G.
Qed.

Lemma magnitude_clone_ub cm usort : mg_max_capacity cm <= usize_max -> keeps_indices cm -> 2 <= mg_max_capacity cm -> sorts_by_slot usort ->
  exists ce m m', ct_with_hasher cm usort N.eqb (fun k => k) [(0, tt)] = Ok (ROk m) /\
    ct_clone (fun _ k => Ok k) (fun _ v => Ok v) ce m = Ok m' /\
    mo_get (ct_ops cm (fun k => Ok k) N.eqb) m 0 = Ok (Some tt) /\
    mo_get (ct_ops cm (fun k => Ok k) N.eqb) m' 0 = UB.
Proof.
  intros HC KI H2 HU.
  assert (T : exists e2, mg_into cm e2 = 2).
  { pose proof (ki_exact _ KI 2 ltac:(lia) ltac:(lia)) as R. unfold read_back in R. destruct (mg_try_from cm 2) as [e2|]; [eauto|].
    rewrite (ki_zero _ KI) in R. discriminate R. }
  destruct T as [e2 E2].
  assert (LE : lawful_eq N.eqb).
  { constructor; intros; rewrite ?N.eqb_eq in *; congruence. }
  destruct (cm_exact cm HC KI N unit N usort N.eqb N.eqb (fun k => k) (fun k => k) [(0, tt)] HU LE) as (m & E & A).
  - intros q k1 k2 H. apply N.eqb_eq in H. subst. reflexivity.
  - intros x y H. apply N.eqb_eq in H. exact H.
  - intros q k H. apply N.eqb_eq in H. exact H.
  - cbn. lia.
  - pose proof (answers_get _ _ _ _ _ A 0) as G. pose proof (answers_len _ _ _ _ _ A) as L.
    assert (IDC : forall l n, clone_entries (V := unit) (fun _ (k : N) => Ok k) (fun _ v => Ok v) n l = Ok l).
    { induction l as [|[k v] r IH]; intros n; [reflexivity|]. cbn. rewrite IH. reflexivity. }
    exists (fun _ => e2), m. eexists. split; [exact E|]. split; [unfold ct_clone; rewrite IDC; reflexivity|]. split; [exact G|].
    destruct m as [slots es mask]. cbn [ct_ops mo_get] in G |- *. unfold ct_get, ct_find in G |- *. cbn [bind ct_slots ct_mask ct_entries] in G |- *.
    unfold get_unchecked in G |- *. rewrite nth_error_map. destruct (nth_error slots _) as [s|]; [|discriminate G].
    cbn [option_map bind fst snd]. rewrite E2. unfold map_len in L. cbn [ct_ops mo_entries ct_entries] in L.
    unfold slice_unchecked. rewrite L. reflexivity.
Qed.

(** * Iterators *)

Lemma union_clone_id {T} (u : union_st T) : union_clone u = u.
Proof. destruct u; reflexivity. Qed.
Lemma difference_clone_id {T} (u : difference_st T) : difference_clone u = u.
Proof. destruct u; reflexivity. Qed.
Lemma intersection_clone_id {T} (u : intersection_st T) : intersection_clone u = u.
Proof. destruct u; reflexivity. Qed.
Lemma symmetric_difference_clone_id {T} (u : symmetric_difference_st T) : symmetric_difference_clone u = u.
Proof. destruct u as [a b]. unfold symmetric_difference_clone. cbn. rewrite difference_clone_id. destruct a; [cbn; rewrite difference_clone_id|]; reflexivity. Qed.
