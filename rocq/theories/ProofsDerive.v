(** Proofs about the derive macro's tokens (C90). *)
From Coq Require Import String ZArith Lia.
From Verif Require Import ModelTables ModelScalar ModelTypes ModelTokens ModelDerive SpecTypes SpecTokens SpecDerive Spec SpecOrder ModelMaps ModelUtils ProofsScalarIndex ProofsTokens ProofsProps ProofsOrder.
From Verif Require Import Prelude.

Lemma arms_read {U} name arms : forall fuel, (length arms <= fuel)%nat ->
  read_arms fuel (d_arms (U := U) name arms) = Some (map (fun a => ((name, fst a), snd a)) arms).
Proof.
  induction arms as [|[v n] r IH]; intros fuel L; [destruct fuel; reflexivity|].
  destruct fuel as [|fuel]; [cbn in L; lia|]. cbn [length] in L. destruct r as [|a r].
  - cbn [d_arms d_arm read_arms any_ident eat_punct fst snd map String.eqb Ascii.eqb Bool.eqb]. unfold usize_suffixed.
    rewrite (read_plain n "usize" usize_suffix). reflexivity.
  - specialize (IH fuel ltac:(lia)).
    change (d_arms name ((v, n) :: a :: r)) with (d_arm (U := U) name (v, n) ++ DPunct "," :: d_arms name (a :: r)).
    cbn [d_arm read_arms any_ident eat_punct fst snd app String.eqb Ascii.eqb Bool.eqb]. unfold usize_suffixed.
    rewrite (read_plain n "usize" usize_suffix). cbn [String.eqb Ascii.eqb Bool.eqb orb eat_punct]. rewrite IH. reflexivity.
Qed.

Lemma arms_length {U} name arms : (length arms <= length (d_arms (U := U) name arms))%nat.
Proof.
  induction arms as [|a r IH]; [cbn; lia|]. destruct r as [|b r]; [cbn; lia|].
  change (d_arms name (a :: b :: r)) with (d_arm (U := U) name a ++ DPunct "," :: d_arms name (b :: r)).
  rewrite app_length. cbn [length d_arm] in *. lia.
Qed.

Lemma impl_read {U} (input : derive_input U) arms : read_impl (d_impl input arms) =
  Some {| si_enum := di_ident input; si_impl_generics := di_impl_generics input; si_ty_generics := di_ty_generics input; si_where := di_where input;
          si_arms := map (fun a => ((di_ident input, fst a), snd a)) arms |}.
Proof.
  assert (HA := arms_read (U := U) (di_ident input) arms _ (arms_length (U := U) (di_ident input) arms)).
  unfold d_impl, read_impl. destruct (di_impl_generics input), (di_ty_generics input), (di_where input);
    cbn -[read_arms d_arms length]; rewrite HA; reflexivity.
Qed.

Lemma run_match_arms name arms v : run_match (map (fun a => ((name, fst a), snd a)) arms) name v = run_arms arms v.
Proof. induction arms as [|[x n] r IH]; [reflexivity|]. cbn [map run_match run_arms fst snd]. rewrite String.eqb_refl, IH. reflexivity. Qed.

Lemma arms_names vs : forall acc, map fst (derive_arms vs acc) = map fst acc ++ map v_ident vs.
Proof.
  induction vs as [|v r IH]; intros acc; cbn [derive_arms map]; [symmetry; apply app_nil_r|]. rewrite IH, map_app, <- app_assoc. reflexivity.
Qed.
Lemma derive_arms_of d arms : derive_scalar d = ROk arms -> exists vs, d = DataEnum vs /\ map fst arms = map v_ident vs.
Proof.
  intros H. destruct (proj1 (derive_accepts d) (ex_intro _ arms H)) as [vs [-> _]]. exists vs. split; [reflexivity|].
  unfold derive_scalar in H. destruct vs as [|v0 r]; [discriminate|]. destruct (derive_check (v0 :: r)); [|discriminate]. injection H as <-.
  exact (arms_names (v0 :: r) []).
Qed.

Theorem derived_reads {U} (input : derive_input U) ts : derive_scalar_macro input = ROk ts ->
  exists vs im, di_data input = DataEnum vs /\ read_impl ts = Some im /\
    si_enum im = di_ident input /\ si_impl_generics im = di_impl_generics input /\ si_ty_generics im = di_ty_generics input /\ si_where im = di_where input /\
    map fst (si_arms im) = map (fun v => (di_ident input, v_ident v)) vs /\
    (NoDup (map v_ident vs) -> forall i v, nth_error vs i = Some v -> run_match (si_arms im) (si_enum im) (v_ident v) = Some (N.of_nat i)).
Proof.
  unfold derive_scalar_macro. destruct (derive_scalar (di_data input)) as [arms|m] eqn:E; [|discriminate]. intros H. injection H as <-.
  destruct (derive_arms_of _ _ E) as [vs [D F]]. exists vs. eexists. split; [exact D|]. split; [apply impl_read|]. cbn.
  repeat (split; [reflexivity|]). split.
  - rewrite map_map. cbn. transitivity (map (fun x => (di_ident input, x)) (map fst arms)); [rewrite map_map; reflexivity|]. rewrite F, map_map. reflexivity.
  - intros ND i v Hi. rewrite run_match_arms. rewrite D in E. eapply derive_numbers; eauto.
Qed.

Theorem derived_lawful {U} (input : derive_input U) ts vs im : derive_scalar_macro input = ROk ts -> di_data input = DataEnum vs -> read_impl ts = Some im ->
  NoDup (map v_ident vs) -> N.of_nat (length vs) <= usize_max ->
  lawful_scalar (derived_index (vs := vs) im) declaration_order /\ forall k, derived_index (vs := vs) im k = N.of_nat (proj1_sig k).
Proof.
  intros E D R ND L. destruct (derived_reads input ts E) as (vs' & im' & D' & R' & _ & _ & _ & _ & _ & HN).
  rewrite D in D'. injection D' as <-. rewrite R in R'. injection R' as <-.
  assert (HI : forall k, derived_index (vs := vs) im k = N.of_nat (proj1_sig k)).
  { intros [i Hi]. unfold derived_index, variant_name. cbn [proj1_sig].
    destruct (nth_error vs i) as [v|] eqn:Ev; [|apply nth_error_None in Ev; lia].
    rewrite (nth_error_nth (map v_ident vs) i (x := v_ident v)); [|rewrite nth_error_map, Ev; reflexivity]. rewrite (HN ND i v Ev). reflexivity. }
  split; [|exact HI]. constructor.
  - intros [i Hi]. rewrite HI. cbn [proj1_sig]. lia.
  - intros a b. rewrite !HI. unfold declaration_order. apply Nat2N.inj_compare.
Qed.

Lemma check_errors vs msg : derive_check vs = RErr msg <-> unfit (DataEnum vs) msg /\ vs <> [].
Proof.
  split.
  - intros H. split; [|destruct vs; discriminate]. revert H. induction vs as [|v r IH]; cbn [derive_check]; [discriminate|].
    destruct (v_fields v) eqn:F.
    + destruct (v_discriminant v) eqn:D.
      * intros H. injection H as <-. apply (unfit_discriminant []); [intros b []|assumption|assumption].
      * intros H. specialize (IH H). assert (P : forall before, (forall b, In b before -> v_fields b = FieldsUnit /\ v_discriminant b = false) ->
          forall b, In b (v :: before) -> v_fields b = FieldsUnit /\ v_discriminant b = false) by (intros before HB b [<-|Hb]; auto).
        inversion IH as [| | E|before w after HB HF E|before w after HB HF HD E]; subst.
        -- cbn in H. discriminate.
        -- apply (unfit_fields (v :: before)); [exact (P before HB)|assumption].
        -- apply (unfit_discriminant (v :: before)); [exact (P before HB)|assumption|assumption].
    + intros H. injection H as <-. apply (unfit_fields []); [intros b []|rewrite F; discriminate].
    + intros H. injection H as <-. apply (unfit_fields []); [intros b []|rewrite F; discriminate].
  - intros [H N]. inversion H as [| | E|before w after HB HF E|before w after HB HF HD E]; subst; [destruct (N eq_refl)| |].
    + clear H N. induction before as [|b r IH]; cbn [app derive_check].
      * destruct (v_fields w); [destruct (HF eq_refl)|reflexivity|reflexivity].
      * destruct (HB b (or_introl eq_refl)) as [-> ->]. apply IH. intros c Hc. apply HB. right. exact Hc.
    + clear H N. induction before as [|b r IH]; cbn [app derive_check].
      * rewrite HF, HD. reflexivity.
      * destruct (HB b (or_introl eq_refl)) as [-> ->]. apply IH. intros c Hc. apply HB. right. exact Hc.
Qed.

Theorem derived_errors {U} (input : derive_input U) msg : derive_scalar_macro input = RErr msg <-> unfit (di_data input) msg.
Proof.
  unfold derive_scalar_macro. destruct (di_data input) as [| |vs]; cbn [derive_scalar].
  - split; [intros H; injection H as <-; constructor|intros H; inversion H; reflexivity].
  - split; [intros H; injection H as <-; constructor|intros H; inversion H; reflexivity].
  - destruct vs as [|v r].
    + split; [intros H; injection H as <-; constructor|]. intros H. inversion H as [| | |before w after HB HF E|before w after HB HF HD E]; subst; [reflexivity| |];
        destruct before; discriminate.
    + assert (NN : v :: r <> []) by discriminate. destruct (derive_check (v :: r)) as [u|m] eqn:E.
      * split; [discriminate|]. intros H. assert (X := proj2 (check_errors (v :: r) msg) (conj H NN)). rewrite E in X. discriminate X.
      * split; [intros H; injection H as <-; apply check_errors; exact E|]. intros H.
        assert (X := proj2 (check_errors (v :: r) msg) (conj H NN)). rewrite E in X. injection X as ->. reflexivity.
Qed.

(** * Maps keyed by the enum *)
Lemma lawful_scalar_ord {K} (idx : K -> N) cmp : lawful_scalar idx cmp -> lawful_ord cmp.
Proof.
  intros LS. pose proof (idx_cmp_law _ _ LS) as C. constructor; intros; rewrite ?C in *.
  - apply N.compare_refl.
  - apply N.compare_antisym.
  - apply N.compare_eq_iff in H. rewrite H. reflexivity.
  - apply (proj2 (N.compare_lt_iff _ _)). apply N.lt_trans with (idx y); apply (proj1 (N.compare_lt_iff _ _)); assumption.
Qed.

Theorem derived_map {U V} (input : derive_input U) ts vs im usort md (entries : list (enum_value vs * V)) :
  derive_scalar_macro input = ROk ts -> di_data input = DataEnum vs -> read_impl ts = Some im ->
  NoDup (map v_ident vs) -> N.of_nat (length vs) <= usize_max -> sorts_by_slot usort ->
  let same (q k : enum_value vs) := String.eqb (variant_name q) (variant_name k) in
  exists m, fz_scalar_map_new usort md (derived_index im) declaration_order entries = Ok m /\
    (forall q, mo_get (fz_scalar_ops (derived_index im) same) m q = Ok (spec_get same entries q)) /\
    (entries <> [] -> (forall k, In k (map fst entries)) -> exists d, m = FsDense d).
Proof.
  intros E D R ND L US same. destruct (derived_lawful input ts vs im E D R ND L) as [LS HI].
  assert (NM : forall a b : enum_value vs, same a b = (derived_index im a =? derived_index im b)).
  { intros [i Hi] [j Hj]. unfold same, variant_name. rewrite !HI. cbn [proj1_sig].
    destruct (N.eqb_spec (N.of_nat i) (N.of_nat j)) as [X|X].
    - assert (i = j) by lia. subst j. apply String.eqb_refl.
    - apply String.eqb_neq. intros Y. apply X. f_equal. apply (proj1 (NoDup_nth (map v_ident vs) ""%string) ND); rewrite ?map_length; assumption. }
  assert (LQ : lawful_query_scalar (derived_index (vs := vs) im) (derived_index im) same).
  { constructor; [apply (idx_bound_law _ _ LS)|exact NM]. }
  assert (SR : span_representable (derived_index (vs := vs) im) (map fst entries)).
  { intros a b _ _. rewrite !HI. destruct a as [i Hi], b as [j Hj]. cbn [proj1_sig]. lia. }
  destruct (fz_scalar_get (V := V) usort md _ _ _ _ entries US LS LQ SR) as [m [Em G]]. exists m. split; [exact Em|]. split; [exact G|].
  intros NE ALL.
  assert (OO : own_order (derived_index (vs := vs) im) declaration_order).
  { constructor; [apply (idx_bound_law _ _ LS)|apply (lawful_scalar_ord _ _ LS)|].
    intros a b. rewrite (idx_cmp_law _ _ LS). apply N.compare_eq_iff. }
  assert (CT : contiguous (derived_index (vs := vs) im) (map fst entries)).
  { intros a [j Hj] x _ _ [_ HX]. rewrite HI in HX. cbn [proj1_sig] in HX. assert (HL : (N.to_nat x < length vs)%nat) by lia.
    exists (exist _ (N.to_nat x) HL). split; [apply ALL|]. rewrite HI. cbn [proj1_sig]. lia. }
  destruct (fz_range (V := V) (derived_index im) declaration_order (derived_index im) same OO LQ usort US md entries SR CT) as (m' & Em' & _ & [X|(d & X & _)]).
  - congruence.
  - rewrite Em in Em'. injection Em' as <-. eauto.
Qed.
