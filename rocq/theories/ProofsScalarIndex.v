(** Scalar indices (traits/scalar.rs) and the derive macro. *)
From Coq Require Import String ZArith.
From Verif Require Import ModelTables ModelScalar Spec.
From Verif Require Import Prelude.

Lemma lxor_small (n x : N) : x < 2 ^ n -> N.lxor x (2 ^ n) = x + 2 ^ n.
Proof.
  intros H. symmetry. apply N.add_nocarry_lxor. apply N.bits_inj. intros i. rewrite N.land_spec, N.pow2_bits_eqb, N.bits_0.
  destruct (N.eqb_spec n i) as [->|]; [|apply andb_false_r]. rewrite andb_true_r.
  destruct (N.eq_dec x 0) as [->|Hx]; [apply N.bits_0|]. apply N.bits_above_log2. apply N.log2_lt_pow2; lia.
Qed.

Lemma lxor_large (n x : N) : 2 ^ n <= x < 2 ^ (n + 1) -> N.lxor x (2 ^ n) = x - 2 ^ n.
Proof.
  intros [H1 H2]. rewrite N.add_1_r, N.pow_succ_r' in H2.
  assert (E : x = N.lxor (x - 2 ^ n) (2 ^ n)) by (rewrite lxor_small; lia).
  rewrite E at 1. rewrite N.lxor_assoc, N.lxor_nilpotent, N.lxor_0_r. reflexivity.
Qed.

(** The index as a plain integer: the value itself, shifted to start at 0 for signed types. *)
Lemma scalar_index_value p t v i : in_type p t v = true -> scalar_index p t v = Some i ->
  Z.of_N i = (if it_signed t then v + 2 ^ (Z.of_N (width_bits p (it_width t)) - 1) else v)%Z.
Proof.
  destruct t as [s nz w]. unfold in_type, scalar_index. cbn [it_signed it_nonzero it_width]. intros H E.
  apply andb_prop in H. destruct H as [H _].
  assert (HW : width_bits p w <= pointer_bits p).
  { destruct s.
    - destruct p, w; cbn in *; try discriminate; lia.
    - destruct p, w; cbn in *; try discriminate; lia. }
  assert (HP : (2 ^ Z.of_N (width_bits p w) <= 2 ^ Z.of_N (pointer_bits p))%Z) by (apply Z.pow_le_mono_r; lia).
  destruct s.
  - assert (HM : signed_mask p w = Some (2 ^ (width_bits p w - 1))) by (destruct p, w; try discriminate E; reflexivity).
    rewrite HM in E. injection E as <-. unfold signed_index. apply andb_prop in H. destruct H as [H1 H2].
    apply Z.leb_le in H1. apply Z.ltb_lt in H2.
    set (b := width_bits p w) in *. assert (Hb : 1 <= b) by (unfold b; destruct p, w; cbn; lia).
    assert (E2 : (2 ^ Z.of_N b = 2 * 2 ^ (Z.of_N b - 1))%Z).
    { rewrite <- Z.pow_succ_r by lia. f_equal. lia. }
    assert (E3 : (Z.of_N (2 ^ (b - 1)) = 2 ^ (Z.of_N b - 1))%Z) by (rewrite N2Z.inj_pow, N2Z.inj_sub by lia; reflexivity).
    assert (E4 : 2 ^ (b - 1 + 1) = 2 * 2 ^ (b - 1)) by (rewrite N.add_1_r, N.pow_succ_r'; reflexivity).
    unfold as_unsigned.
    assert (X : N.lxor (Z.to_N (v mod 2 ^ Z.of_N b)) (2 ^ (b - 1)) = Z.to_N (v + 2 ^ (Z.of_N b - 1))).
    { destruct (Z.ltb_spec v 0).
      - replace (v mod 2 ^ Z.of_N b)%Z with (v + 2 ^ Z.of_N b)%Z.
        2:{ symmetry. rewrite <- (Z.mod_add v 1) by lia. rewrite Z.mod_small by lia. lia. }
        rewrite lxor_large; lia.
      - rewrite Z.mod_small by lia. rewrite lxor_small; lia. }
    rewrite X. rewrite !Z2N.id by (try apply Z.mod_pos_bound; lia). rewrite Z.mod_small by lia. reflexivity.
  - destruct (unsigned_implemented p w); [|discriminate]. injection E as <-. unfold unsigned_index, as_unsigned.
    apply andb_prop in H. destruct H as [H1 H2]. apply Z.leb_le in H1. apply Z.ltb_lt in H2.
    rewrite Z.mod_small by lia. rewrite Z2N.id by lia. reflexivity.
Qed.

Theorem scalar_index_order p t v w i j : in_type p t v = true -> in_type p t w = true ->
  scalar_index p t v = Some i -> scalar_index p t w = Some j ->
  (i = j <-> v = w) /\ (i < j <-> (v < w)%Z) /\ i < 2 ^ pointer_bits p.
Proof.
  intros Hv Hw Ei Ej. pose proof (scalar_index_value p t v i Hv Ei) as Vi. pose proof (scalar_index_value p t w j Hw Ej) as Vj.
  split; [|split].
  - destruct (it_signed t); split; intros; lia.
  - destruct (it_signed t); split; intros; lia.
  - unfold scalar_index in Ei.
    assert (forall x, as_unsigned (pointer_bits p) x < 2 ^ pointer_bits p).
    { intros x. unfold as_unsigned. assert (0 <= x mod 2 ^ Z.of_N (pointer_bits p) < 2 ^ Z.of_N (pointer_bits p))%Z
        by (apply Z.mod_pos_bound; destruct p; reflexivity).
      assert (Z.of_N (2 ^ pointer_bits p) = 2 ^ Z.of_N (pointer_bits p))%Z by (rewrite N2Z.inj_pow; reflexivity). lia. }
    destruct (it_signed t); [destruct (signed_mask p (it_width t)); [|discriminate]|destruct (unsigned_implemented p (it_width t)); [|discriminate]];
      injection Ei as <-; apply H.
Qed.

(** Which types implement [Scalar]. *)
Theorem scalar_index_defined p t v : (exists i, scalar_index p t v = Some i) <-> width_bits p (it_width t) <= pointer_bits p.
Proof.
  destruct t as [s nz w]. unfold scalar_index. cbn [it_signed it_width].
  destruct s, p, w; cbn; split; intros H; try (eexists; reflexivity); try lia; destruct H; discriminate.
Qed.

Theorem builtin_lawful_scalar t : lawful_scalar (index_of Ptr64 t) (fun a b => Z.compare (proj1_sig a) (proj1_sig b)).
Proof.
  assert (D : forall v, exists i, scalar_index Ptr64 t v = Some i).
  { intros v. apply scalar_index_defined. destruct t as [? ? []]; cbn; lia. }
  constructor.
  - intros [v Hv]. unfold index_of. cbn. destruct (D v) as [i E]. rewrite E.
    destruct (scalar_index_order Ptr64 t v v i i Hv Hv E E) as [_ [_ H]]. unfold usize_max. cbn in H. lia.
  - intros [v Hv] [w Hw]. unfold index_of. cbn. destruct (D v) as [i Ei], (D w) as [j Ej]. rewrite Ei, Ej.
    destruct (scalar_index_order Ptr64 t v w i j Hv Hw Ei Ej) as [H1 [H2 _]].
    destruct (scalar_index_order Ptr64 t w v j i Hw Hv Ej Ei) as [_ [H3 _]].
    destruct (Z.compare_spec v w), (N.compare_spec i j); auto; lia.
Qed.

(** * Derive *)
Definition plain (v : variant) : Prop := v_fields v = FieldsUnit /\ v_discriminant v = false.

Lemma derive_check_spec vs : (exists u, derive_check vs = ROk u) <-> forall v, In v vs -> plain v.
Proof.
  induction vs as [|v r IH]; cbn [derive_check].
  - split; [intros _ v []|eauto].
  - unfold plain in *. destruct (v_fields v) eqn:F.
    + destruct (v_discriminant v) eqn:D.
      * split; [intros [u H]; discriminate|]. intros H. destruct (H v) as [_ X]; [left; auto|congruence].
      * rewrite IH. split; intros H; [intros v' [<-|Hv]; auto|intros v' Hv; apply H; right; auto].
    + split; [intros [u H]; discriminate|]. intros H. destruct (H v) as [X _]; [left; auto|congruence].
    + split; [intros [u H]; discriminate|]. intros H. destruct (H v) as [X _]; [left; auto|congruence].
Qed.

Lemma derive_arms_spec vs : forall acc, derive_arms vs acc =
  acc ++ combine (map v_ident vs) (map N.of_nat (seq (List.length acc) (List.length vs))).
Proof.
  induction vs as [|v r IH]; intros acc; cbn [derive_arms map List.length seq combine]; [symmetry; apply app_nil_r|].
  rewrite IH, app_length, <- app_assoc. cbn [List.length app]. rewrite Nat.add_1_r. reflexivity.
Qed.

Lemma run_arms_nth : forall idents start i name, NoDup idents -> nth_error idents i = Some name ->
  run_arms (combine idents (map N.of_nat (seq start (List.length idents)))) name = Some (N.of_nat (start + i)).
Proof.
  induction idents as [|x r IH]; intros start i name ND H; [destruct i; discriminate|].
  cbn [List.length seq map combine run_arms]. inversion ND as [|? ? Hx ND']; subst. destruct i as [|i]; cbn in H.
  - injection H as ->. rewrite String.eqb_refl. f_equal. f_equal. lia.
  - destruct (String.eqb_spec x name) as [->|Hne].
    + exfalso. apply Hx. eapply nth_error_In; eauto.
    + rewrite (IH (S start) i name ND' H). f_equal. f_equal. lia.
Qed.

Theorem derive_accepts d : (exists arms, derive_scalar d = ROk arms) <->
  exists vs, d = DataEnum vs /\ vs <> [] /\ forall v, In v vs -> plain v.
Proof.
  unfold derive_scalar. split.
  - intros [arms H]. destruct d as [| |vs]; try discriminate. exists vs. split; auto. destruct vs as [|v r]; [discriminate|].
    split; [discriminate|]. apply derive_check_spec. destruct (derive_check (v :: r)); [eauto|discriminate].
  - intros [vs [-> [Hne H]]]. apply derive_check_spec in H. destruct H as [u H]. destruct vs; [congruence|]. rewrite H. eauto.
Qed.

Theorem derive_numbers vs arms i v : derive_scalar (DataEnum vs) = ROk arms -> NoDup (map v_ident vs) -> nth_error vs i = Some v ->
  run_arms arms (v_ident v) = Some (N.of_nat i).
Proof.
  intros H ND Hi. assert (E : arms = derive_arms vs []).
  { unfold derive_scalar in H. destruct vs as [|v0 r]; [discriminate|]. destruct (derive_check (v0 :: r)); [|discriminate].
    injection H as <-. reflexivity. }
  subst arms. clear H.
  rewrite derive_arms_spec. change (List.length (@nil (string * N))) with O. cbn [app].
  rewrite <- (map_length v_ident vs). apply (run_arms_nth (map v_ident vs) 0 i); auto.
  rewrite nth_error_map, Hi. reflexivity.
Qed.
