(** Proofs about the evaluation of emitted code. *)
From Coq Require Import String.
From Verif Require Import ModelUtils ModelTables ModelMaps ModelEmit ModelTypes ModelTokens ModelRun Spec SpecEmit SpecMade SpecMacros SpecTokens SpecRun ModelMacros ProofsTokens.
From Verif Require Import Prelude.

Section Run.
Context {U X W K V : Type}.
Variable evK : X -> K.
Variable evV : W -> V.
Variable eqK : K -> K -> bool.
Variable cmpK : K -> K -> comparison.
Variable kt : pty U.
Variable vt : option (pty U).
Notation ev := (@eval U X W K V evK evV eqK cmpK).
Notation entries_of es := (map (fun e => VPair (VKey (evK (fst e))) (VVal (evV (snd e)))) es).

Lemma in_order_ok {A} (f : A -> pexpr U X W) (g : A -> value K V) l :
  (forall a, ev (f a) = Some (Ok (g a))) -> in_order (map ev (map f l)) = Some (Ok (map g l)).
Proof. intros H. induction l as [|a l IH]; [reflexivity|]. cbn [map in_order]. rewrite H, IH. reflexivity. Qed.
Lemma all_some_map {A B C} (f : B -> option C) (g : A -> B) (h : A -> C) l : (forall a, f (g a) = Some (h a)) ->
  all_some (map f (map g l)) = Some (map h l).
Proof. intros H. induction l as [|a l IH]; [reflexivity|]. cbn [map all_some]. rewrite H, IH. reflexivity. Qed.

Lemma eval_array es : ev (XArray (map p_entry es)) = Some (Ok (VArray (entries_of es))).
Proof. cbn [eval]. rewrite (in_order_ok p_entry (fun e => VPair (VKey (evK (fst e))) (VVal (evV (snd e))))); reflexivity. Qed.
Lemma eval_vec es : ev (XVec (map p_entry es)) = Some (Ok (VVec (entries_of es))).
Proof. cbn [eval]. rewrite (in_order_ok p_entry (fun e => VPair (VKey (evK (fst e))) (VVal (evV (snd e))))); reflexivity. Qed.
Lemma eval_ints l : ev (XArray (map (fun i => XInt i "") l)) = Some (Ok (VArray (map VInt l))).
Proof. cbn [eval]. rewrite (in_order_ok _ VInt); reflexivity. Qed.
Ltac find_function :=
  match goal with |- context [@lookup ?A ?n ?l] =>
    let x := eval lazy [lookup functions String.eqb Ascii.eqb Bool.eqb fc append] in (@lookup A n l) in
    replace (@lookup A n l) with x by reflexivity end; cbv beta iota.
Lemma eval_slot s : ev (p_slot s) = Some (Ok (VSlot (fst s) (snd s))).
Proof. unfold p_slot. cbn [eval]. find_function. reflexivity. Qed.
Lemma eval_slots l : ev (XArray (map p_slot l)) = Some (Ok (VArray (map (fun s => VSlot (fst s) (snd s)) l))).
Proof. cbn [eval]. rewrite (in_order_ok _ (fun s => VSlot (fst s) (snd s))); [reflexivity|]. exact eval_slot. Qed.

Lemma of_nat_eqb n m : (N.of_nat n =? N.of_nat m) = Nat.eqb n m.
Proof. destruct (Nat.eqb_spec n m), (N.eqb_spec (N.of_nat n) (N.of_nat m)); lia. Qed.
Lemma as_entries_ok len es : as_entries (N.of_nat len) (VArray (entries_of es)) =
  if Nat.eqb (List.length es) len then Some (eval_entries evK evV es) else None.
Proof.
  cbn [as_entries]. rewrite map_length, of_nat_eqb. destruct (Nat.eqb _ _); [|reflexivity].
  apply (all_some_map as_entry). reflexivity.
Qed.
Lemma as_vec_ok es : as_vec (VVec (entries_of es)) = Some (eval_entries evK evV es).
Proof. apply (all_some_map as_entry). reflexivity. Qed.
Lemma as_indices_ok cm n l : as_indices (K := K) (V := V) cm (N.of_nat n) (VArray (map VInt l)) =
  if Nat.eqb (List.length l) n && forallb (fits cm) l then Some l else None.
Proof.
  cbn [as_indices]. rewrite map_length, of_nat_eqb. destruct (Nat.eqb _ _); [|reflexivity].
  rewrite (all_some_map as_int VInt (fun n => n)) by reflexivity. rewrite map_id. reflexivity.
Qed.
Lemma as_slots_ok cm n l : as_slots (K := K) (V := V) cm (N.of_nat n) (VArray (map (fun s => VSlot (fst s) (snd s)) l)) =
  if Nat.eqb (List.length l) n && forallb (fun s => fits cm (fst s) && fits cm (snd s)) l then Some l else None.
Proof.
  cbn [as_slots]. rewrite map_length, of_nat_eqb. destruct (Nat.eqb _ _); [|reflexivity].
  rewrite (all_some_map as_slot _ (fun n => n)) by (intros []; reflexivity). rewrite map_id. reflexivity.
Qed.
Lemma as_magnitude_ok cm : as_magnitude (U := U) (p_magnitude cm) = Some cm.
Proof. destruct cm; reflexivity. Qed.

Lemma eval_with_seed seed : ev (with_seed seed) = Some (Ok (VState seed)).
Proof. unfold with_seed, fixed_state_type. cbn [eval]. find_function. reflexivity. Qed.
Lemma eval_hasher h : ev (hasher_ctor h) = Some (Ok (VHasher h)).
Proof.
  destruct h; unfold hasher_ctor, hasher_type.
  - cbn [eval map]. rewrite eval_with_seed. find_function. reflexivity.
  - reflexivity.
  - cbn [eval map]. rewrite eval_with_seed. find_function. reflexivity.
  - cbn [eval map]. rewrite eval_with_seed. find_function. reflexivity.
  - reflexivity.
Qed.

Definition is_fz (c : ctor X W) : bool := match c with CFzHash _ | CFzScalar _ | CFzString _ => true | _ => false end.

Lemma ev_call name generics f args : ev (XCall (PPath name generics) f args) =
  match lookup (name ++ "::" ++ f)%string (functions eqK cmpK) with
  | Some body => apply (body generics) (in_order (map ev args))
  | None => None
  end.
Proof. reflexivity. Qed.

Lemma eval_map c : is_fz c = false ->
  ev (map_ctor kt vt c) = if ctor_compiles c then Some (fmap VMap (run_ctor evK evV eqK cmpK c)) else None.
Proof.
  intros HF. destruct c; try discriminate HF; unfold map_ctor, map_type; cbn [app]; rewrite ev_call; find_function; cbn [map];
  unfold p_len; cbn [ctor_compiles run_ctor fmap bind].
  - rewrite eval_array. cbn [in_order bind apply]. rewrite as_entries_ok. destruct (Nat.eqb _ _); reflexivity.
  - rewrite eval_vec. cbn [in_order bind apply]. rewrite as_vec_ok, Nnat.Nat2N.id.
    destruct (inline_scan_map_new eqK len (eval_entries evK evV entries)); reflexivity.
  - rewrite eval_array. cbn [in_order bind apply]. rewrite as_entries_ok. destruct (Nat.eqb _ _); reflexivity.
  - rewrite eval_vec. cbn [in_order bind apply]. rewrite as_vec_ok, Nnat.Nat2N.id.
    destruct (inline_eytzinger_map_new cmpK len (eval_entries evK evV entries)); reflexivity.
  - rewrite eval_array. cbn [eval ok in_order bind apply]. rewrite as_entries_ok. destruct (Nat.eqb _ _); reflexivity.
  - rewrite eval_array, eval_ints. cbn [eval ok in_order bind apply]. rewrite as_magnitude_ok, as_entries_ok, as_indices_ok.
    destruct (Nat.eqb (List.length entries) len); [|reflexivity]. cbn [andb].
    destruct (Nat.eqb (List.length lookup) num_slots && forallb (fits cm) lookup); reflexivity.
  - rewrite ev_call. find_function. cbn [map]. rewrite eval_slots, eval_array, eval_hasher. cbn [in_order bind apply].
    rewrite as_magnitude_ok, as_slots_ok, as_entries_ok. change 0 with (N.of_nat 0) at 1. rewrite of_nat_eqb.
    destruct (Nat.eqb_spec (List.length slots) num_slots) as [EL|]; [|cbn [andb]; rewrite Bool.andb_false_r; reflexivity].
    destruct (forallb _ slots); [|cbn [andb]; rewrite !Bool.andb_false_r; reflexivity].
    destruct (Nat.eqb_spec (List.length entries) len) as [EN|]; [|reflexivity].
    destruct (Nat.eqb num_slots 0); [reflexivity|]. cbn [andb negb ok in_order bind apply ht_entries].
    unfold eval_entries. rewrite map_length, !of_nat_eqb, EN, !Nat.eqb_refl. cbn [andb]. unfold iht_new_raw. rewrite EL. reflexivity.
  - rewrite ev_call. find_function. cbn [map]. rewrite eval_ints, eval_array, eval_hasher. cbn [in_order bind apply].
    rewrite as_magnitude_ok, as_indices_ok, as_entries_ok. change 0 with (N.of_nat 0) at 1. rewrite of_nat_eqb.
    destruct (Nat.eqb_spec (List.length slots) num_slots) as [EL|]; [|cbn [andb]; rewrite Bool.andb_false_r; reflexivity].
    destruct (forallb _ slots); [|cbn [andb]; rewrite !Bool.andb_false_r; reflexivity].
    destruct (Nat.eqb_spec (List.length entries) len) as [EN|]; [|reflexivity].
    destruct (Nat.eqb num_slots 0); [reflexivity|]. cbn [andb negb ok in_order bind apply nc_entries].
    unfold eval_entries. rewrite map_length, !of_nat_eqb, EN, !Nat.eqb_refl. cbn [andb]. unfold nc_new_raw. rewrite EL. reflexivity.
Qed.

Definition wrapped (out : output X W) (v : value K V) : value K V := if o_set out then VSet v else v.

Lemma eval_out out : is_fz (o_ctor out) = false ->
  ev (ctor_expr kt vt out) =
  if ctor_compiles (o_ctor out) then Some (fmap (fun m => wrapped out (VMap m)) (run_ctor evK evV eqK cmpK (o_ctor out))) else None.
Proof.
  intros HF. unfold ctor_expr, wrapped. destruct (o_set out); [|apply eval_map, HF].
  pose proof (eval_map (o_ctor out) HF) as E. destruct (o_ctor out); try discriminate HF; unfold set_type, set_fn; rewrite ev_call; find_function;
  cbn [map]; rewrite E; (destruct (ctor_compiles _); [|reflexivity]); destruct (run_ctor _ _ _ _ _); reflexivity.
Qed.

Definition fz_name (c : ctor X W) : string :=
  match c with CFzHash _ => "FzHashMap" | CFzScalar _ => "FzScalarMap" | CFzString _ => "FzStringMap" | _ => "" end.
Definition fz_entries (c : ctor X W) : list (X * W) :=
  match c with CFzHash es | CFzScalar es | CFzString es => es | _ => [] end.
Lemma eval_fz out : is_fz (o_ctor out) = true ->
  ev (ctor_expr kt vt out) = Some (Ok (wrapped out (VFz (fz_name (o_ctor out)) (eval_entries evK evV (fz_entries (o_ctor out)))))).
Proof.
  intros HF.
  assert (E : ev (map_ctor kt vt (o_ctor out)) = Some (Ok (VFz (fz_name (o_ctor out)) (eval_entries evK evV (fz_entries (o_ctor out)))))).
  { destruct (o_ctor out); try discriminate HF; unfold map_ctor, map_type; rewrite ev_call; find_function; cbn [map]; rewrite eval_vec;
    cbn [in_order bind apply]; unfold fz_new; rewrite as_vec_ok; reflexivity. }
  unfold ctor_expr, wrapped. destruct (o_set out); [|exact E].
  destruct (o_ctor out); try discriminate HF; unfold set_type, set_fn; rewrite ev_call; find_function; cbn [map]; rewrite E; reflexivity.
Qed.

Lemma value_printed d out : value_of evK evV eqK cmpK (symbol_of d) (print_decl kt vt d out) = ev (ctor_expr kt vt out).
Proof.
  assert (L : forall e, ev (XCall (PPath "std::sync::LazyLock" []) "new" [XClosure e]) = ev e).
  { intros e. rewrite ev_call. find_function. cbn [map in_order]. change (ev (XClosure e)) with (ev e).
    destruct (ev e) as [[v| |]|]; reflexivity. }
  unfold value_of. destruct d as [vis [a|] s [|]|[a|] mut s|]; cbn [print_decl symbol_of defined_as]; rewrite ?String.eqb_refl; rewrite ?L; reflexivity.
Qed.
End Run.

Lemma read_items_fuel_unique {U X W} (ts : list (qtok U X W)) a b : reads_as ts a -> reads_as ts b -> a = b.
Proof. intros [n H] [m H']. specialize (H (n + m)%nat ltac:(lia)). specialize (H' (n + m)%nat ltac:(lia)). congruence. Qed.

Lemma postflight_ok {U X W} key_type value_type is_ident d (out : output X W) : usable is_ident (names_of d) ->
  exists ts, q_postflight (U := U) key_type value_type is_ident d out = Ok ts.
Proof.
  intros HU. pose proof (postflight_panics key_type value_type is_ident d out) as HP.
  destruct (q_postflight key_type value_type is_ident d out) as [ts| |] eqn:E; [eauto| |].
  - exfalso. destruct HP as [HP _]. destruct (HP eq_refl) as [s [HI HF]]. change (decl_names d) with (names_of d) in HI.
    destruct (HU s HI). congruence.
  - exfalso. unfold q_postflight, format_ident in E. destruct d as [vis [a|] s [|]|[a|] mut s|]; cbn in E;
    repeat match type of E with context [if ?b then _ else _] => destruct b; cbn in E end; discriminate.
Qed.

Lemma printed_value {U X W K V} (evK : X -> K) (evV : W -> V) eqR cmpR key_type value_type is_ident d (out : output X W) (ts : list (qtok U X W)) :
  usable is_ident (names_of d) -> q_postflight key_type value_type is_ident d out = Ok ts ->
  exists items, reads_as ts items /\ (forall kt vt, kt = written key_type -> vt = option_map written value_type ->
    value_of evK evV eqR cmpR (symbol_of d) items = eval evK evV eqR cmpR (ctor_expr kt vt out)).
Proof.
  intros HU E. exists (print_decl (written key_type) (option_map written value_type) d out). split.
  - apply (postflight_reads key_type value_type is_ident d out ts); [|exact E]. apply Forall_forall. intros s HI. apply HU, HI.
  - intros kt vt -> ->. apply value_printed.
Qed.

Lemma run_prints {U X W K V Q} (evK : X -> K) (evV : W -> V) eqR cmpR (ops : map_ops (rt_map K V) K V Q) eqK eqv input
    is_ident (key_type : option U) value_type r d (out : output X W) m :
  r = Ok (ROk (d, out)) -> usable is_ident (names_of d) -> ctor_compiles (o_ctor out) = true -> run_ctor evK evV eqR cmpR (o_ctor out) = Ok m ->
  answers ops eqK eqv m input ->
  prints r is_ident key_type value_type (symbol_of d) (negb (o_set out)) evK evV eqR cmpR ops eqK eqv input.
Proof.
  intros HR HU HC HM HA. destruct (postflight_ok key_type value_type is_ident d out HU) as [ts HT].
  destruct (printed_value evK evV eqR cmpR key_type value_type is_ident d out ts HU HT) as [items [HI HV]].
  exists d, out, ts, items, m. split; [exact HR|]. split; [exact HT|]. split; [exact HI|]. split; [|exact HA].
  rewrite (HV _ _ eq_refl eq_refl). rewrite eval_out, HC, HM; [unfold wrapped; destruct (o_set out); reflexivity|].
  destruct (o_ctor out); try reflexivity; discriminate.
Qed.

Lemma emits_prints {U X W K V Q} r em (evK : X -> K) (evV : W -> V) eqR cmpR (ops : map_ops (rt_map K V) K V Q) eqK eqv input :
  emits r em evK evV eqR cmpR ops eqK eqv input -> forall is_ident (key_type : option U) value_type, usable is_ident (option_names em) ->
  prints r is_ident key_type value_type (em_symbol_name em) (em_has_value_type em) evK evV eqR cmpR ops eqK eqv input.
Proof.
  intros [d [out [m [HR [HD [HS [HC [HM HA]]]]]]]] is_ident kt vt HU. pose proof (run_prints evK evV eqR cmpR ops eqK eqv input is_ident kt vt r d out m HR) as P.
  rewrite HS, Bool.negb_involutive in P. unfold expected_decl in HD. unfold usable, option_names in HU.
  destruct (em_symbol_name em) as [s|].
  - destruct (em_is_static em); subst d; (apply P; auto); exact HU.
  - subst d. apply P; auto. intros s [].
Qed.

Lemma macro_prints {U X W X' K V Q} r (input : macro_input (X := X) (W := W)) is_map lazy (evK : X' -> K) (evV : W -> V) eqR cmpR
    (ops : map_ops (rt_map K V) K V Q) eqK eqv pairs :
  macro_emits r input is_map lazy evK evV eqR cmpR ops eqK eqv pairs ->
  forall is_ident (key_type : option U) value_type, usable is_ident (input_names input) ->
  prints r is_ident key_type value_type (input_symbol input) is_map evK evV eqR cmpR ops eqK eqv pairs.
Proof.
  intros [d [out [m [HR [HD [HS [HC [HM HA]]]]]]]] is_ident kt vt HU. pose proof (run_prints evK evV eqR cmpR ops eqK eqv pairs is_ident kt vt r d out m HR) as P.
  rewrite HS, Bool.negb_involutive in P. subst d. unfold macro_decl in *. destruct input as [es|symbol alias es vis st mu].
  - apply P; auto.
  - destruct st; (apply P; auto).
Qed.
