(** Proofs about the types of emitted code. *)
From Coq Require Import String Permutation.
From Verif Require Import ModelUtils ModelTables ModelMaps ModelEmit ModelMacros ModelTypes SpecTypes.
From Verif Require Import Prelude.

Ltac find_in := unfold params_of, crate_aliases, unit_structs, int_types; repeat first [left; reflexivity | right].

Section Code.
Context {U X W : Type}.
Variable as_ref_str : ty -> Prop.
Variable means : U -> ty -> Prop.
Variable key_has : X -> ty -> Prop.
Variable value_has : W -> ty -> Prop.
Variable const_key : X -> Prop.
Variable const_value : W -> Prop.
Variable complete : U -> Prop.
Variables (KT : pty U) (VT : option (pty U)).
Notation denotes := (denotes means).
Notation has_type := (has_type as_ref_str means key_has value_has const_key const_value).
Notation accepted := (accepted as_ref_str means key_has value_has const_key const_value complete).
Notation spelled_out := (spelled_out complete).
Notation VT' := (g_value_type VT).
Notation map_type := (map_type KT VT).
Notation map_ctor := (map_ctor KT VT).
Notation set_type := (set_type KT).

(** * The types meant *)
Definition t_len (n : nat) : ty := TNum (N.of_nat n).
Definition t_mag (cm : magnitude) : ty := match cm with Small => TName "u8" [] | Medium => TName "u16" [] | Large => TUsize end.
Definition t_hasher (h : hasher_code) : ty :=
  match h with
  | HcBridge _ => TName (fc "hashers::BridgeHasher") [TFixedState]
  | HcScalar => TName (fc "hashers::ScalarHasher") []
  | HcLeft lo hi _ => TName (fc "hashers::InlineLeftRangeHasher") [TNum lo; TNum hi; TFixedState]
  | HcRight lo hi _ => TName (fc "hashers::InlineRightRangeHasher") [TNum lo; TNum hi; TFixedState]
  | HcLength => TName (fc "hashers::LengthHasher") []
  end.
Definition map_ty (k v : ty) (c : ctor X W) : ty :=
  match c with
  | CScan len _ | CScanVec len _ => TName (fc "inline_maps::InlineScanMap") [k; v; t_len len]
  | CEytzinger len _ | CEytzingerVec len _ => TName (fc "inline_maps::InlineEytzingerSearchMap") [k; v; t_len len]
  | CDense len _ _ _ => TName (fc "inline_maps::InlineDenseScalarLookupMap") [k; v; t_len len]
  | CSparse len ns cm _ _ _ _ => TName (fc "inline_maps::InlineSparseScalarLookupMap") [k; v; t_len len; t_len ns; t_mag cm]
  | CHash len ns cm _ _ h => TName (fc "inline_maps::InlineHashMap") [k; v; t_len len; t_len ns; t_mag cm; t_hasher h]
  | CHashNc len ns cm _ _ h => TName (fc "inline_maps::InlineHashMapNoCollisions") [k; v; t_len len; t_len ns; t_mag cm; t_hasher h]
  | CFzHash _ => TName (fc "FzHashMap") [k; v; TDefaultBuildHasher]
  | CFzScalar _ => TName (fc "FzScalarMap") [k; v]
  | CFzString _ => TName (fc "FzStringMap") [k; v; TDefaultBuildHasher]
  end.
Definition set_ty (k : ty) (c : ctor X W) : ty :=
  match c with
  | CScan len _ | CScanVec len _ => TName (fc "inline_sets::InlineScanSet") [k; t_len len]
  | CEytzinger len _ | CEytzingerVec len _ => TName (fc "inline_sets::InlineEytzingerSearchSet") [k; t_len len]
  | CDense len _ _ _ => TName (fc "inline_sets::InlineDenseScalarLookupSet") [k; t_len len]
  | CSparse len ns cm _ _ _ _ => TName (fc "inline_sets::InlineSparseScalarLookupSet") [k; t_len len; t_len ns; t_mag cm]
  | CHash len ns cm _ _ h => TName (fc "inline_sets::InlineHashSet") [k; t_len len; t_len ns; t_mag cm; t_hasher h]
  | CHashNc len ns cm _ _ h => TName (fc "inline_sets::InlineHashSetNoCollisions") [k; t_len len; t_len ns; t_mag cm; t_hasher h]
  | CFzHash _ => TName (fc "FzHashSet") [k; TDefaultBuildHasher]
  | CFzScalar _ => TName (fc "FzScalarSet") [k]
  | CFzString _ => TName (fc "FzStringSet") [k; TDefaultBuildHasher]
  end.
Definition coll_ty (k v : ty) (out : output X W) : ty := if o_set out then set_ty k (o_ctor out) else map_ty k v (o_ctor out).

(** * Parts of a constructor call *)
Definition ctor_entries (c : ctor X W) : list (X * W) :=
  match c with
  | CScan _ es | CScanVec _ es | CEytzinger _ es | CEytzingerVec _ es | CDense _ es _ _ | CSparse _ _ _ es _ _ _
  | CHash _ _ _ _ es _ | CHashNc _ _ _ _ es _ | CFzHash es | CFzScalar es | CFzString es => es
  end.
Definition seed_ok (h : hasher_code) : Prop :=
  match h with HcBridge s | HcLeft _ _ s | HcRight _ _ s => s <= 2 ^ 64 - 1 | _ => True end.
Definition literals_ok (c : ctor X W) : Prop :=
  match c with
  | CDense _ _ mn mx | CSparse _ _ _ _ _ mn mx => mn <= 2 ^ 64 - 1 /\ mx <= 2 ^ 64 - 1
  | CHash _ _ _ _ _ h | CHashNc _ _ _ _ _ h => seed_ok h
  | _ => True
  end.
Definition const_ctor (c : ctor X W) : bool :=
  match c with CScanVec _ _ | CEytzingerVec _ _ | CFzHash _ | CFzScalar _ | CFzString _ => false | _ => true end.
(** [k] the key type of the collection, [k'] the type of the key expressions *)
Definition key_types (c : ctor X W) (k k' : ty) : Prop :=
  match c with CFzString _ => k = TBoxStr /\ as_ref_str k' | _ => k' = k end.
Definition entry_ok (ctx : bool) (k v : ty) (e : X * W) : Prop :=
  key_has (fst e) k /\ value_has (snd e) v /\ (ctx = true -> const_key (fst e) /\ const_value (snd e)).

Lemma entries_typed env ctx k v es : Forall (entry_ok ctx k v) es ->
  Forall (fun e => has_type env ctx e (TPair k v)) (map p_entry es).
Proof.
  intros H. rewrite Forall_forall in H |- *. intros e He. apply in_map_iff in He. destruct He as [e' [<- He]].
  destruct (H _ He) as [H1 [H2 H3]]. apply T_pair; [apply T_key; auto; intros C; apply H3; auto|apply T_val; auto; intros C; apply H3; auto].
Qed.

Lemma entries_typed_inv env ctx k v es : Forall (fun e => has_type env ctx e (TPair k v)) (map p_entry es) ->
  Forall (entry_ok ctx k v) es.
Proof.
  intros H. rewrite Forall_forall in H |- *. intros e He. specialize (H _ (in_map _ _ _ He)). unfold p_entry in H.
  inversion H; subst. match goal with A : has_type _ _ (XKey _) _ |- _ => inversion A; subst end.
  match goal with A : has_type _ _ (XVal _) _ |- _ => inversion A; subst end. split; auto.
Qed.

Lemma array_of env ctx es t n : Forall (fun e => has_type env ctx e t) es -> List.length es = n -> has_type env ctx (XArray es) (TArray t (N.of_nat n)).
Proof. intros H <-. apply T_array; auto. Qed.

Lemma fit_mag cm v : fits cm v = true -> int_literal v "" (t_mag cm).
Proof.
  unfold fits, int_literal. intros H. apply N.leb_le in H. destruct cm.
  - exists "u8"%string, (2 ^ 8 - 1). split; [find_in|]. split; [reflexivity|]. split; [exact H|auto].
  - exists "u16"%string, (2 ^ 16 - 1). split; [find_in|]. split; [reflexivity|]. split; [exact H|auto].
  - exists "usize"%string, (2 ^ 64 - 1). split; [find_in|]. split; [reflexivity|]. split; [exact H|auto].
Qed.
Lemma usize_lit env ctx v : v <= 2 ^ 64 - 1 -> has_type env ctx (XInt v "usize") TUsize.
Proof. intros H. apply T_int. exists "usize"%string, (2 ^ 64 - 1). split; [find_in|]. auto. Qed.
Lemma u64_lit env ctx v : v <= 2 ^ 64 - 1 -> has_type env ctx (XInt v "u64") (TName "u64" []).
Proof. intros H. apply T_int. exists "u64"%string, (2 ^ 64 - 1). split; [find_in|]. auto. Qed.

Lemma mag_denotes env cm : denotes env (p_magnitude cm) (t_mag cm).
Proof. destruct cm; apply D_alias; apply in_or_app; right; find_in. Qed.
Lemma fixed_denotes env : denotes env fixed_state_type TFixedState.
Proof. apply (D_path means env _ [] [] []); [constructor|]. eexists. split; [find_in|]. reflexivity. Qed.

Ltac args := repeat first [apply Forall2_nil | apply Forall2_cons]; auto using mag_denotes, fixed_denotes, D_num, D_unit, D_pair.
Ltac type_pos := eexists; split; [find_in|]; reflexivity.
Ltac expr_pos om := eexists; exists om; split; [find_in|]; split; [reflexivity|]; split; [reflexivity|];
  cbn [List.length skipn]; first [left; reflexivity | right; repeat constructor; discriminate].

Lemma hasher_denotes env h : denotes env (hasher_type h) (t_hasher h).
Proof.
  destruct h; unfold hasher_type, t_hasher.
  - apply (D_path means env _ _ [TFixedState]); [args|type_pos].
  - apply (D_path means env _ [] [] []); [constructor|type_pos].
  - apply (D_path means env _ _ [TNum range_start; TNum range_end; TFixedState]); [args|type_pos].
  - apply (D_path means env _ _ [TNum range_start; TNum range_end; TFixedState]); [args|type_pos].
  - apply (D_path means env _ [] [] []); [constructor|type_pos].
Qed.

Ltac one := apply Forall2_cons; [|apply Forall2_nil].
Ltac two := apply Forall2_cons; [|apply Forall2_cons; [|apply Forall2_nil]].

Lemma seed_typed env ctx s : s <= 2 ^ 64 - 1 -> has_type env ctx (with_seed s) TFixedState.
Proof.
  intros H. eapply (T_call as_ref_str means) with (given := []) (all := []).
  - constructor.
  - expr_pos (@nil ty).
  - apply A_with_seed.
  - auto.
  - one. apply u64_lit. exact H.
Qed.

Lemma hasher_typed env ctx h : seed_ok h -> has_type env ctx (hasher_ctor h) (t_hasher h).
Proof.
  destruct h; cbn [seed_ok hasher_ctor t_hasher hasher_type]; intros H.
  - eapply (T_call as_ref_str means) with (given := []) (all := [TFixedState]); [constructor|expr_pos [TFixedState]|apply A_bridge|auto|].
    one. apply seed_typed. exact H.
  - apply T_struct. find_in.
  - eapply (T_call as_ref_str means) with (given := [TNum range_start; TNum range_end; TFixedState]) (all := [TNum range_start; TNum range_end; TFixedState]);
      [args|expr_pos (@nil ty)|apply A_left|auto|]. one. apply seed_typed. exact H.
  - eapply (T_call as_ref_str means) with (given := [TNum range_start; TNum range_end; TFixedState]) (all := [TNum range_start; TNum range_end; TFixedState]);
      [args|expr_pos (@nil ty)|apply A_right|auto|]. one. apply seed_typed. exact H.
  - apply T_struct. find_in.
Qed.

Lemma slots_typed env ctx cm slots : forallb (fun s => fits cm (fst s) && fits cm (snd s)) slots = true ->
  Forall (fun e => has_type env ctx e (TName (fc "hash_tables::HashTableSlot") [t_mag cm])) (map p_slot slots).
Proof.
  intros H. rewrite forallb_forall in H. apply Forall_forall. intros e He. apply in_map_iff in He. destruct He as [s [<- Hs]].
  apply H, andb_prop in Hs. destruct Hs as [H1 H2].
  eapply (T_call as_ref_str means) with (given := []) (all := [t_mag cm]); [constructor|expr_pos [t_mag cm]|apply A_slot|auto|].
  two; apply T_int, fit_mag; auto.
Qed.
Lemma indices_typed env ctx cm l : forallb (fits cm) l = true -> Forall (fun e => has_type env ctx e (t_mag cm)) (map (fun i => XInt i "") l).
Proof.
  intros H. rewrite forallb_forall in H. apply Forall_forall. intros e He. apply in_map_iff in He. destruct He as [i [<- Hi]].
  apply T_int. apply fit_mag; auto.
Qed.

(** * Emitted code type checks *)
Section Forward.
Variable env : list (string * ty).
Variables k v : ty.
Hypothesis HK : denotes env KT k.
Hypothesis HV : denotes env VT' v.

Lemma len_denotes n : denotes env (p_len n) (t_len n).
Proof. apply D_num. Qed.
Hint Resolve HK HV len_denotes mag_denotes hasher_denotes fixed_denotes D_num D_unit D_pair : ty.
Ltac args' := repeat first [apply Forall2_nil | apply Forall2_cons]; eauto with ty.

Lemma map_type_denotes c : denotes env (map_type c) (map_ty k v c).
Proof.
  destruct c; unfold ModelTypes.map_type, map_ty; cbn [app]; (eapply D_path; [args'|type_pos]).
Qed.
Lemma set_type_denotes c : denotes env (set_type c) (set_ty k c).
Proof. destruct c; unfold ModelTypes.set_type, set_ty; (eapply D_path; [args'|type_pos]). Qed.

Lemma map_ctor_typed ctx c k' : ctor_compiles c = true -> literals_ok c -> key_types c k k' ->
  Forall (entry_ok ctx k' v) (ctor_entries c) -> (ctx = true -> const_ctor c = true) -> has_type env ctx (map_ctor c) (map_ty k v c).
Proof.
  intros HC HL HT HE HX. apply (entries_typed env) in HE.
  destruct c; cbn [ctor_compiles literals_ok key_types ctor_entries const_ctor] in *; unfold ModelTypes.map_ctor, ModelTypes.map_type, map_ty; cbn [app];
    rewrite ?andb_true_iff in HC; try subst k'.
  - (* scan *) apply Nat.eqb_eq in HC. eapply T_call with (all := [k; v; t_len len]); [args'|expr_pos (@nil ty)|apply A_scan_raw|auto|].
    one. apply array_of; auto. rewrite map_length; auto.
  - (* scan, vec *) destruct ctx; [discriminate (HX eq_refl)|].
    eapply T_call with (all := [k; v; t_len len]); [args'|expr_pos (@nil ty)|apply A_scan_new|auto|]. one. apply T_vec; auto.
  - (* eytzinger *) apply Nat.eqb_eq in HC. eapply T_call with (all := [k; v; t_len len]); [args'|expr_pos (@nil ty)|apply A_eytzinger_raw|auto|].
    one. apply array_of; auto. rewrite map_length; auto.
  - destruct ctx; [discriminate (HX eq_refl)|].
    eapply T_call with (all := [k; v; t_len len]); [args'|expr_pos (@nil ty)|apply A_eytzinger_new|auto|]. one. apply T_vec; auto.
  - (* dense *) apply Nat.eqb_eq in HC. destruct HL as [HL1 HL2].
    eapply T_call with (all := [k; v; t_len len]); [args'|expr_pos (@nil ty)|apply A_dense|auto|].
    repeat apply Forall2_cons; [|apply usize_lit; auto|apply usize_lit; auto|constructor]. apply array_of; auto. rewrite map_length; auto.
  - (* sparse *) destruct HC as [[HC1 HC2] HC3]. apply Nat.eqb_eq in HC1, HC2. destruct HL as [HL1 HL2].
    eapply T_call with (all := [k; v; t_len len; t_len num_slots; t_mag cm]); [args'|expr_pos (@nil ty)|apply A_sparse|auto|].
    repeat apply Forall2_cons; [| |apply usize_lit; auto|apply usize_lit; auto|constructor].
    + apply array_of; auto. rewrite map_length; auto.
    + apply array_of; [apply indices_typed; auto|]. rewrite map_length; auto.
  - (* hash *) destruct HC as [[[HC1 HC2] _] HC3]. apply Nat.eqb_eq in HC1, HC2.
    eapply T_call with (all := [k; v; t_len len; t_len num_slots; t_mag cm; t_hasher h]); [args'|expr_pos (@nil ty)|apply A_hash|auto|].
    repeat apply Forall2_cons; [|apply hasher_typed; auto|constructor].
    eapply T_call with (all := [TPair k v; t_len len; t_len num_slots; t_mag cm]); [args'|expr_pos (@nil ty)|apply A_table|auto|].
    repeat apply Forall2_cons; [| |constructor].
    + apply array_of; [apply slots_typed; auto|]. rewrite map_length; auto.
    + apply array_of; auto. rewrite map_length; auto.
  - (* hash, no collisions *) destruct HC as [[[HC1 HC2] _] HC3]. apply Nat.eqb_eq in HC1, HC2.
    eapply T_call with (all := [k; v; t_len len; t_len num_slots; t_mag cm; t_hasher h]); [args'|expr_pos (@nil ty)|apply A_hash_nc|auto|].
    repeat apply Forall2_cons; [|apply hasher_typed; auto|constructor].
    eapply T_call with (all := [TPair k v; t_len len; t_len num_slots; t_mag cm]); [args'|expr_pos (@nil ty)|apply A_table_nc|auto|].
    repeat apply Forall2_cons; [| |constructor].
    + apply array_of; [apply indices_typed; auto|]. rewrite map_length; auto.
    + apply array_of; auto. rewrite map_length; auto.
  - destruct ctx; [discriminate (HX eq_refl)|].
    eapply T_call with (given := [k; v]) (all := [k; v; TDefaultBuildHasher]); [args'|expr_pos [TDefaultBuildHasher]|apply A_fz_hash|auto|].
    one. apply T_vec; auto.
  - destruct ctx; [discriminate (HX eq_refl)|].
    eapply T_call with (all := [k; v]); [args'|expr_pos (@nil ty)|apply A_fz_scalar|auto|]. one. apply T_vec; auto.
  - destruct ctx; [discriminate (HX eq_refl)|]. destruct HT as [HT1 HT2].
    eapply T_call with (given := [k; v]) (all := [k; v; TDefaultBuildHasher]); [args'|expr_pos [TDefaultBuildHasher]|rewrite HT1; apply (A_fz_string as_ref_str k'); auto|auto|].
    one. apply T_vec; auto.
Qed.

Lemma set_ctor_typed ctx c k' : v = TUnit -> key_types c k k' -> (ctx = true -> const_ctor c = true) -> has_type env ctx (map_ctor c) (map_ty k v c) ->
  has_type env ctx (XCall (set_type c) (set_fn c) [map_ctor c]) (set_ty k c).
Proof.
  intros -> HT HX H. destruct c; cbn [const_ctor key_types] in *; unfold ModelTypes.set_type, set_ty, set_fn;
    try (destruct ctx; [discriminate (HX eq_refl)|]).
  - eapply T_call; [args'|expr_pos (@nil ty)|apply A_scan_set|auto|]. one; exact H.
  - eapply T_call; [args'|expr_pos (@nil ty)|apply A_scan_set|auto|]. one; exact H.
  - eapply T_call; [args'|expr_pos (@nil ty)|apply A_eytzinger_set|auto|]. one; exact H.
  - eapply T_call; [args'|expr_pos (@nil ty)|apply A_eytzinger_set|auto|]. one; exact H.
  - eapply T_call; [args'|expr_pos (@nil ty)|apply A_dense_set|auto|]. one; exact H.
  - eapply T_call; [args'|expr_pos (@nil ty)|apply A_sparse_set|auto|]. one; exact H.
  - eapply T_call; [args'|expr_pos (@nil ty)|apply A_hash_set|auto|]. one; exact H.
  - eapply T_call; [args'|expr_pos (@nil ty)|apply A_hash_set_nc|auto|]. one; exact H.
  - eapply T_call with (given := [k]); [args'|expr_pos [TDefaultBuildHasher]|apply A_fz_hash_set|auto|]. one; exact H.
  - eapply T_call; [args'|expr_pos (@nil ty)|apply A_fz_scalar_set|auto|]. one; exact H.
  - destruct HT as [-> _]. eapply T_call with (given := [TBoxStr]); [args'|expr_pos [TDefaultBuildHasher]|apply A_fz_string_set|auto|]. one; exact H.
Qed.
End Forward.

Lemma ctor_typed env ctx out k v k' : denotes env KT k -> denotes env VT' v -> (o_set out = true -> v = TUnit) ->
  ctor_compiles (o_ctor out) = true -> literals_ok (o_ctor out) -> key_types (o_ctor out) k k' ->
  Forall (entry_ok ctx k' v) (ctor_entries (o_ctor out)) -> (ctx = true -> const_ctor (o_ctor out) = true) ->
  has_type env ctx (ctor_expr KT VT out) (coll_ty k v out).
Proof.
  intros HK HV HS HC HL HT HE HX. pose proof (map_ctor_typed env k v HK HV ctx _ k' HC HL HT HE HX) as H.
  unfold ctor_expr, coll_ty. destruct (o_set out); [|exact H]. apply (set_ctor_typed env k v HK HV ctx _ k'); auto.
Qed.
Lemma sig_denotes env out k v : denotes env KT k -> denotes env VT' v -> denotes env (type_sig KT VT out) (coll_ty k v out).
Proof. intros HK HV. unfold type_sig, coll_ty. destruct (o_set out); [apply set_type_denotes|apply map_type_denotes]; auto. Qed.

Lemma sig_spelled_out (out : output X W) : spelled_out KT -> spelled_out VT' -> spelled_out (type_sig KT VT out).
Proof.
  intros HK HV. unfold type_sig. destruct (o_set out), (o_ctor out); cbn; try (destruct cm); try (destruct h); cbn; tauto.
Qed.
Lemma spelled_out_sig (out : output X W) : spelled_out (type_sig KT VT out) -> spelled_out KT /\ (o_set out = false -> spelled_out VT').
Proof.
  unfold type_sig. destruct (o_set out), (o_ctor out); cbn; intuition discriminate.
Qed.

(** * What type checks *)
Lemma denotes_mono env env' : (forall x, In x env -> In x env') -> forall p t, denotes env p t -> denotes env' p t.
Proof.
  intros HI. fix IH 3. intros p t H. destruct H.
  - apply D_infer.
  - apply D_user; auto.
  - apply D_alias. apply in_app_or in H. apply in_or_app. destruct H; auto.
  - eapply D_path; [|exact H0]. clear H0. induction H; constructor; auto.
  - apply D_num.
  - apply D_pair; auto.
  - apply D_unit.
Qed.

Lemma forall2_length {A B} (R : A -> B -> Prop) l l' : Forall2 R l l' -> List.length l = List.length l'.
Proof. induction 1; cbn; auto. Qed.

Lemma prefix_inv {A B} (R : A -> B -> Prop) ps given om all : Forall2 R ps given -> all = given ++ om ->
  Forall2 R ps (firstn (List.length ps) all).
Proof.
  intros H ->. rewrite (forall2_length _ _ _ H), firstn_app, Nat.sub_diag, firstn_all. cbn. rewrite app_nil_r. exact H.
Qed.

Ltac inv2 H := inversion H; subst; clear H.
(** take apart a call *)
Ltac inv_call H :=
  inversion H; subst; clear H;
  match goal with
  | A : assoc_fn _ _ _ _ _ _, B : in_expr_position _ _ _, C : Forall2 (SpecTypes.denotes _ _) _ _ |- _ =>
      let pm := fresh in let om := fresh in let E := fresh in
      destruct B as [pm [om [_ [E _]]]]; apply (prefix_inv _ _ _ _ _ C) in E; clear C; inversion A; subst; clear A;
      cbn [List.length firstn] in E
  end;
  repeat match goal with D : Forall2 _ (_ :: _) _ |- _ => inversion D; subst; clear D | D : Forall2 _ [] _ |- _ => inversion D; subst; clear D end.

Lemma map_ctor_inv env ctx c T : has_type env ctx (map_ctor c) T ->
  exists k v k', denotes env KT k /\ denotes env VT' v /\ key_types c k k' /\ Forall (entry_ok ctx k' v) (ctor_entries c) /\
    (ctx = true -> const_ctor c = true) /\ exists name rest, T = TName name (k :: v :: rest).
Proof.
  intros H. destruct c; unfold ModelTypes.map_ctor, ModelTypes.map_type in H; cbn [app] in H; inv_call H; cbn [key_types ctor_entries const_ctor].
  all: try (match goal with A : has_type _ _ (XArray (map p_entry _)) _ |- _ => inversion A; subst; clear A end).
  all: try (match goal with A : has_type _ _ (XVec (map p_entry _)) _ |- _ => inversion A; subst; clear A end).
  all: try (match goal with A : Forall _ (map p_entry _) |- _ => apply entries_typed_inv in A end).
  1-6: exists K, V, K; repeat (split; [auto; fail|]); eauto.
  - match goal with A : has_type _ _ (XCall _ _ [_; XArray (map p_entry _)]) _ |- _ => inv_call A end.
    match goal with A : has_type _ _ (XArray (map p_entry _)) _ |- _ => inversion A; subst; clear A end.
    match goal with A : Forall _ (map p_entry _) |- _ => apply entries_typed_inv in A end.
    exists K, V, K. repeat (split; [auto; fail|]). eauto.
  - match goal with A : has_type _ _ (XCall _ _ [_; XArray (map p_entry _)]) _ |- _ => inv_call A end.
    match goal with A : has_type _ _ (XArray (map p_entry _)) _ |- _ => inversion A; subst; clear A end.
    match goal with A : Forall _ (map p_entry _) |- _ => apply entries_typed_inv in A end.
    exists K, V, K. repeat (split; [auto; fail|]). eauto.
  - exists K, V, K. repeat (split; [auto; fail|]). eauto.
  - exists K, V, K. repeat (split; [auto; fail|]). eauto.
  - exists TBoxStr, V, S. repeat (split; [auto; fail|]). eauto.
Qed.

Lemma ctor_inv env ctx out T : has_type env ctx (ctor_expr KT VT out) T ->
  exists k v k', denotes env KT k /\ denotes env VT' v /\ key_types (o_ctor out) k k' /\
    Forall (entry_ok ctx k' v) (ctor_entries (o_ctor out)) /\ (ctx = true -> const_ctor (o_ctor out) = true).
Proof.
  intros H. unfold ctor_expr in H. destruct (o_set out).
  - assert (HM : exists T', has_type env ctx (map_ctor (o_ctor out)) T').
    { inversion H; subst. match goal with A : Forall2 _ [_] _ |- _ => inversion A; subst end. eauto. }
    destruct HM as [T' HM]. apply map_ctor_inv in HM. destruct HM as [k [v [k' [H1 [H2 [H3 [H4 [H5 _]]]]]]]].
    exists k, v, k'. auto.
  - apply map_ctor_inv in H. destruct H as [k [v [k' [H1 [H2 [H3 [H4 [H5 _]]]]]]]]. exists k, v, k'. auto.
Qed.

(** * Declarations *)
(** the initializer is evaluated at compile time *)
Definition decl_ctx (d : decl) : bool := match d with DeclStatic _ _ _ false => true | _ => false end.
(** the type is written in an item *)
Definition decl_item (d : decl) : bool := match d with DeclStatic _ _ _ _ | DeclLet (Some _) _ _ => true | _ => false end.

Lemma lazy_typed env e t : has_type env false e t ->
  has_type env true (XCall (PPath "std::sync::LazyLock" []) "new" [XClosure e]) (TName "std::sync::LazyLock" [t; TFn t]).
Proof.
  intros H. eapply (T_call as_ref_str means) with (given := []) (all := [t; TFn t]); [constructor|expr_pos [t; TFn t]|apply A_lazy|auto|].
  one. apply T_closure. exact H.
Qed.
Lemma lazy_denotes env p t : denotes env p t -> denotes env (PPath "std::sync::LazyLock" [p]) (TName "std::sync::LazyLock" [t; TFn t]).
Proof. intros H. eapply D_path; [one; exact H|type_pos]. Qed.

Lemma decl_accepted d out k v k' :
  (forall env, denotes env KT k) -> (forall env, denotes env VT' v) -> (o_set out = true -> v = TUnit) ->
  ctor_compiles (o_ctor out) = true -> literals_ok (o_ctor out) -> key_types (o_ctor out) k k' ->
  Forall (entry_ok (decl_ctx d) k' v) (ctor_entries (o_ctor out)) -> (decl_ctx d = true -> const_ctor (o_ctor out) = true) ->
  (decl_item d = true -> spelled_out KT /\ spelled_out VT') ->
  accepted [] (print_decl KT VT d out).
Proof.
  intros HK HV HS HC HL HT HE HX HI.
  assert (HE' : forall env, has_type env (decl_ctx d) (ctor_expr KT VT out) (coll_ty k v out))
    by (intros env; apply (ctor_typed env _ out k v k'); auto).
  assert (HD : forall env, denotes env (type_sig KT VT out) (coll_ty k v out)) by (intros env; apply sig_denotes; auto).
  assert (HP : decl_item d = true -> spelled_out (type_sig KT VT out)) by (intros H; apply sig_spelled_out; apply HI; auto).
  assert (HA : forall alias, denotes [(alias, coll_ty k v out)] (PPath alias []) (coll_ty k v out)) by (intros alias; apply D_alias; left; reflexivity).
  destruct d as [vis [alias|] sym [|]|[alias|] mt sym|]; cbn [decl_ctx decl_item print_decl] in *.
  - eapply I_type; [auto|auto|]. eapply I_static; [cbn; auto|apply lazy_denotes, HA|apply lazy_typed, HE'|apply I_nil].
  - eapply I_type; [auto|auto|]. eapply I_static; [cbn; auto|apply HA|apply HE'|apply I_nil].
  - eapply I_static; [cbn; auto|apply lazy_denotes, HD|apply lazy_typed, HE'|apply I_nil].
  - eapply I_static; [auto|apply HD|apply HE'|apply I_nil].
  - eapply I_type; [auto|auto|]. eapply I_let; [apply HA|apply HE'|apply I_nil].
  - eapply I_let; [apply HD|apply HE'|apply I_nil].
  - eapply I_expr; [apply HE'|apply I_nil].
Qed.

Lemma decl_inv d out : accepted [] (print_decl KT VT d out) ->
  exists env k v k', denotes env KT k /\ denotes env VT' v /\ key_types (o_ctor out) k k' /\
    Forall (entry_ok (decl_ctx d) k' v) (ctor_entries (o_ctor out)) /\ (decl_ctx d = true -> const_ctor (o_ctor out) = true).
Proof.
  intros H.
  assert (HE : exists env T, has_type env (decl_ctx d) (ctor_expr KT VT out) T).
  { destruct d as [vis [alias|] sym [|]|[alias|] mt sym|]; cbn [decl_ctx print_decl] in *;
      repeat match goal with
        | A : SpecTypes.accepted _ _ _ _ _ _ _ _ (_ :: _) |- _ => inversion A; subst; clear A
        | A : has_type _ _ (XCall _ "new" [XClosure _]) _ |- _ => inversion A; subst; clear A
        | A : Forall2 _ [XClosure _] _ |- _ => inversion A; subst; clear A
        | A : has_type _ _ (XClosure _) _ |- _ => inversion A; subst; clear A
        end; eauto. }
  destruct HE as [env [T HE]]. exists env. apply (ctor_inv _ _ _ _ HE).
Qed.
End Code.
