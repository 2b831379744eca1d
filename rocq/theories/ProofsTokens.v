(** Proofs about printed tokens: [SpecTokens.v] reads what [ModelTokens.v] prints as what [ModelTypes.v] says. *)
From Coq Require Import String Ascii DecimalString DecimalN.
From Verif Require Import ModelUtils ModelTables ModelMaps ModelEmit ModelTypes ModelTokens SpecTypes SpecEmit SpecTokens ProofsEmitProps.
From Verif Require Import Prelude.

(** * Literals *)
Lemma read_digits_acc u : forall acc s,
  read_digits (N.pos acc) (NilEmpty.string_of_uint u ++ s) = read_digits (N.pos (Pos.of_uint_acc u acc)) s.
Proof.
  induction u; intros acc s; [reflexivity|..]; cbn [NilEmpty.string_of_uint append read_digits Pos.of_uint_acc];
  match goal with |- context [digit_value ?c] => let d := eval vm_compute in (digit_value c) in change (digit_value c) with d end;
  cbv beta iota; rewrite <- IHu; f_equal; lia.
Qed.
Lemma read_digits_uint u : forall s, read_digits 0 (NilEmpty.string_of_uint u ++ s) = read_digits (N.of_uint u) s.
Proof.
  unfold N.of_uint. induction u; intros s; [reflexivity|..]; cbn [NilEmpty.string_of_uint append read_digits Pos.of_uint];
  match goal with |- context [digit_value ?c] => let d := eval vm_compute in (digit_value c) in change (digit_value c) with d end;
  cbv beta iota; match goal with |- read_digits ?x _ = _ => let y := eval vm_compute in x in change x with y end; [exact (IHu s)|..]; apply read_digits_acc.
Qed.
Lemma read_digits_decimal n s : read_digits 0 (decimal n ++ s) = read_digits n s.
Proof. unfold decimal. rewrite read_digits_uint, Unsigned.of_to. reflexivity. Qed.

Lemma digit_value_iff c : is_digit c <-> exists d, digit_value c = Some d.
Proof.
  unfold is_digit. split.
  - cbn. intros H. repeat (destruct H as [<-|H]; [eexists; reflexivity|]). destruct H.
  - intros [d H]. destruct c as [[] [] [] [] [] [] [] []]; vm_compute in H; try discriminate; cbn; tauto.
Qed.

Lemma read_digits_skip : forall g acc s, Forall (fun c => is_digit c \/ c = "_"%char) g ->
  read_digits acc (string_of_list_ascii g ++ s) =
  read_digits acc (string_of_list_ascii (filter (fun c => negb (is_underscore c)) g) ++ s).
Proof.
  induction g as [|c g IH]; intros acc s H; [reflexivity|]. apply Forall_cons_iff in H. destruct H as [Hc H].
  destruct Hc as [Hc| ->].
  - pose proof Hc as Hc'. apply digit_value_iff in Hc. destruct Hc as [d Hd].
    assert (E : is_underscore c = false).
    { unfold is_underscore. destruct (Ascii.eqb_spec c "_"); [subst; discriminate|reflexivity]. }
    cbn. rewrite E. cbn. rewrite Hd. apply IH, H.
  - cbn. apply IH, H.
Qed.

Lemma soa_app a b : string_of_list_ascii (a ++ b) = (string_of_list_ascii a ++ string_of_list_ascii b)%string.
Proof. induction a as [|c a IH]; cbn; [|rewrite IH]; reflexivity. Qed.

Lemma read_digits_underscored s : read_digits 0 (underscored s) = read_digits 0 s.
Proof.
  unfold underscored. destruct (inject_spec (list_ascii_of_string s)) as [ds [sf [g [E1 [E2 [_ [E4 [E5 _]]]]]]]].
  rewrite E4, soa_app, read_digits_skip, E5.
  - rewrite <- soa_app, <- E1, string_of_list_ascii_of_string. reflexivity.
  - apply Forall_forall. intros c Hc. destruct (is_underscore c) eqn:Eu.
    + right. apply Ascii.eqb_eq, Eu.
    + left. rewrite Forall_forall in E2. apply E2. rewrite <- E5. apply filter_In. rewrite Eu. auto.
Qed.

Definition starts_digit (s : string) : Prop := match s with EmptyString => False | String c _ => is_digit c end.
Lemma starts_decimal n s : starts_digit (decimal n ++ s).
Proof.
  unfold decimal. assert (H : N.to_uint n <> Decimal.Nil).
  { destruct n as [|p]; [discriminate|]. cbn. pose proof (DecimalPos.Unsigned.to_uint_nonnil p). exact H. }
  destruct (N.to_uint n); [congruence|..]; cbn; tauto.
Qed.
Lemma starts_underscored s : starts_digit s -> starts_digit (underscored s).
Proof.
  unfold underscored. destruct (inject_spec (list_ascii_of_string s)) as [ds [sf [g [E1 [E2 [E3 [E4 [E5 [E6 E7]]]]]]]]].
  rewrite E4. intros H. destruct s as [|c s]; [destruct H|]. change (is_digit c) in H. cbn in E1.
  destruct ds as [|c' ds].
  - cbn in E1. destruct sf as [|c' sf]; [discriminate|]. injection E1 as <- _. destruct (E3 H).
  - destruct g as [|a g]; [discriminate|]. cbn. cbn in E5, E7. destruct (is_underscore a) eqn:Eu.
    + exfalso. apply E7. f_equal. apply Ascii.eqb_eq, Eu.
    + cbn in E5. injection E5 as -> _. apply Forall_cons_iff in E2. exact (proj1 E2).
Qed.

Definition int_suffix (s : string) : Prop := s = ""%string \/ In s (map fst int_types).
Lemma read_literal_intro s v suffix : starts_digit s -> read_digits 0 s = (v, suffix) -> int_suffix suffix -> read_literal s = Some (v, suffix).
Proof.
  intros H1 H2 H3. unfold read_literal. destruct s as [|c s]; [destruct H1|]. cbn in H1. apply digit_value_iff in H1. destruct H1 as [d ->].
  rewrite H2. replace (String.eqb suffix "" || existsb (String.eqb suffix) (map fst int_types)) with true; [reflexivity|]. symmetry.
  apply Bool.orb_true_iff. destruct H3 as [->|H3]; [left; reflexivity|right]. apply existsb_exists. exists suffix. split; [exact H3|apply String.eqb_refl].
Qed.
Lemma read_digits_stop v s : int_suffix s -> read_digits v s = (v, s).
Proof.
  intros [->|H]; [reflexivity|]. cbn in H. repeat (destruct H as [<-|H]; [reflexivity|]). destruct H.
Qed.
Lemma string_app_nil s : (s ++ "")%string = s.
Proof. induction s as [|c s IH]; cbn; [|rewrite IH]; reflexivity. Qed.

Lemma read_plain n suffix : int_suffix suffix -> read_literal (decimal n ++ suffix) = Some (n, suffix).
Proof. intros H. apply read_literal_intro; [apply starts_decimal|rewrite read_digits_decimal; apply read_digits_stop, H|exact H]. Qed.
Lemma read_under n suffix : int_suffix suffix -> read_literal (underscored (decimal n ++ suffix)) = Some (n, suffix).
Proof.
  intros H. apply read_literal_intro; [apply starts_underscored, starts_decimal| |exact H].
  rewrite read_digits_underscored, read_digits_decimal. apply read_digits_stop, H.
Qed.
Lemma read_plain0 n : read_literal (decimal n) = Some (n, ""%string).
Proof. rewrite <- (string_app_nil (decimal n)). apply read_plain. left. reflexivity. Qed.
Lemma read_under0 n : read_literal (underscored (decimal n)) = Some (n, ""%string).
Proof. rewrite <- (string_app_nil (decimal n)). apply read_under. left. reflexivity. Qed.

(** * Names *)
Section Readers.
Context {U X W : Type}.
Notation tokens := (list (qtok U X W)).

Definition stops (rest : tokens) : Prop := match rest with QPunct Colon2 :: QIdent _ :: _ => False | _ => True end.
Definition no_keyword (names : list string) : Prop := Forall (fun s => is_keyword s = false) names.
Definition q_segments (names : list string) : tokens := flat_map (fun s => [QPunct Colon2; QIdent s]) names.

Lemma read_segments_spec names : forall rest, no_keyword names -> stops rest -> read_segments (q_segments names ++ rest) = (names, rest).
Proof.
  induction names as [|s names IH]; intros rest H HS.
  - destruct rest as [|[] rest]; try reflexivity. destruct p; try reflexivity. destruct rest as [|[] rest]; try reflexivity. destruct HS.
  - apply Forall_cons_iff in H. destruct H as [H1 H2]. cbn [q_segments flat_map app read_segments]. rewrite H1.
    change (flat_map _ names) with (q_segments names). rewrite IH by assumption. reflexivity.
Qed.
Lemma read_name_crate names rest : no_keyword names -> stops rest ->
  read_name (q_crate names ++ rest) = Some ("" :: "frozen_collections" :: names, rest)%string.
Proof.
  intros H HS. unfold q_crate. change (flat_map _ _) with (q_segments ("frozen_collections"%string :: names)).
  unfold read_name. cbn [q_segments flat_map app]. change (flat_map _ names) with (q_segments names).
  change (QPunct Colon2 :: QIdent "frozen_collections" :: q_segments names ++ rest)
    with (q_segments ("frozen_collections"%string :: names) ++ rest).
  rewrite read_segments_spec; [reflexivity| |exact HS]. constructor; [reflexivity|exact H].
Qed.

(** * Types *)
Definition follow (rest : tokens) : Prop :=
  match rest with [] => True | QPunct (Comma | Gt | Equals | Semi) :: _ => True | _ => False end.
Definition ends (rest : tokens) : Prop := match rest with [] => True | QPunct Gt :: _ => True | _ => False end.
Lemma follow_stops rest : follow rest -> stops rest.
Proof. destruct rest as [|[] rest]; cbn; auto. destruct p; tauto. Qed.

Definition reads_type (ts : tokens) (t : pty U) : Prop :=
  exists n, forall fuel rest, (n <= fuel)%nat -> follow rest -> read_type fuel (ts ++ rest) = Some (t, rest).
Definition reads_types (ts : tokens) (l : list (pty U)) : Prop :=
  exists n, forall fuel rest, (n <= fuel)%nat -> ends rest -> read_types fuel (ts ++ rest) = Some (l, rest).

Lemma reads_type_head ts t : reads_type ts t -> match ts with [] => False | QPunct Gt :: _ => False | _ => True end.
Proof.
  intros [n H]. specialize (H (S n) []). rewrite app_nil_r in H. specialize (H ltac:(lia) I).
  destruct ts as [|[] ts]; try exact I; [discriminate|]. destruct p; try exact I. discriminate.
Qed.

Lemma reads_types_nil : reads_types [] [].
Proof. exists 1%nat. intros [|fuel] rest H E; [lia|]. cbn. destruct rest as [|[] rest]; try destruct p; try destruct E; reflexivity. Qed.

Lemma read_types_step fuel (ts : tokens) : match ts with [] => False | QPunct Gt :: _ => False | _ => True end ->
  read_types (S fuel) ts =
  match read_type fuel ts with
  | None => None
  | Some (t, QPunct Comma :: r) => match read_types fuel r with Some (args, rest) => Some (t :: args, rest) | None => None end
  | Some (t, r) => Some ([t], r)
  end.
Proof. intros H. destruct ts as [|[] ts]; try destruct H; try reflexivity. destruct p; try reflexivity. destruct H. Qed.

Lemma head_app (ts rest : tokens) : match ts with [] => False | QPunct Gt :: _ => False | _ => True end ->
  match ts ++ rest with [] => False | QPunct Gt :: _ => False | _ => True end.
Proof. destruct ts as [|a ts]; [intros []|exact (fun H => H)]. Qed.

Lemma reads_types_one ts t : reads_type ts t -> reads_types ts [t].
Proof.
  intros H. pose proof (reads_type_head _ _ H) as HH. destruct H as [n H]. exists (S n). intros [|fuel] rest L E; [lia|].
  rewrite read_types_step by (apply head_app, HH). rewrite H; [|lia|destruct rest as [|[] rest]; try destruct p; try destruct E; exact I].
  destruct rest as [|[] rest]; try destruct p; try destruct E; reflexivity.
Qed.
Lemma reads_types_cons ts t ts' l : reads_type ts t -> reads_types ts' l -> reads_types (ts ++ QPunct Comma :: ts') (t :: l).
Proof.
  intros H [m H']. pose proof (reads_type_head _ _ H) as HH. destruct H as [n H]. exists (S (n + m)). intros [|fuel] rest L E; [lia|].
  rewrite read_types_step by (apply head_app, head_app, HH). rewrite <- app_assoc. rewrite H; [|lia|exact I]. cbn [app].
  rewrite H'; [reflexivity|lia|exact E].
Qed.
Lemma reads_types_list : forall tss ts, Forall2 reads_type tss ts -> reads_types (q_list tss) ts.
Proof.
  induction 1 as [|a t tss ts H HF IH]; [exact reads_types_nil|]. destruct tss as [|b tss].
  - inversion HF; subst. apply reads_types_one, H.
  - cbn [q_list]. apply reads_types_cons; assumption.
Qed.

Lemma reads_infer : reads_type [QUnderscore] PInfer.
Proof. exists 1%nat. intros [|fuel] rest H _; [lia|reflexivity]. Qed.
Lemma reads_user u : reads_type [QType u] (PUser u).
Proof. exists 1%nat. intros [|fuel] rest H _; [lia|reflexivity]. Qed.
Lemma reads_num s n : read_literal s = Some (n, ""%string) -> reads_type [QLit s] (PNum n).
Proof. intros E. exists 1%nat. intros [|fuel] rest H _; [lia|]. cbn [app read_type]; fold (@read_types U X W). rewrite E. reflexivity. Qed.
Lemma reads_unit : reads_type [QGroup Paren []] PUnit.
Proof. exists 2%nat. intros [|[|fuel]] rest H _; [lia|lia|reflexivity]. Qed.
Lemma reads_pair ts a b : reads_types ts [a; b] -> reads_type [QGroup Paren ts] (PPair a b).
Proof.
  intros [n H]. exists (S n). intros [|fuel] rest L _; [lia|]. cbn [app read_type]; fold (@read_types U X W).
  specialize (H fuel [] ltac:(lia) I). rewrite app_nil_r in H. rewrite H. reflexivity.
Qed.

(** The name at the start of a path. *)
Definition is_name (ts : tokens) (names : list string) : Prop :=
  (exists p r, ts = p :: r /\ match p with QIdent _ => match r with QPunct Bang :: _ => False | _ => True end | QPunct Colon2 => True | _ => False end) /\
  forall rest, stops rest -> read_name (ts ++ rest) = Some (names, rest).

Lemma is_name_crate names : no_keyword names -> is_name (q_crate names) ("" :: "frozen_collections" :: names)%string.
Proof.
  intros H. split.
  - exists (QPunct Colon2). eexists. split; [reflexivity|exact I].
  - intros rest HS. apply read_name_crate; assumption.
Qed.
Lemma is_name_ident s : is_keyword s = false -> is_name [QIdent s] [s].
Proof.
  intros H. split; [exists (QIdent s), []; split; [reflexivity|exact I]|]. intros rest HS. cbn [app read_name]. rewrite H.
  pose proof (read_segments_spec [] rest ltac:(constructor) HS) as E. cbn [q_segments flat_map app] in E. rewrite E. reflexivity.
Qed.
Lemma is_name_lazy_lock : is_name q_lazy_lock ["std"; "sync"; "LazyLock"]%string.
Proof.
  split; [exists (QIdent "std"%string); eexists; split; [reflexivity|exact I]|]. intros rest HS.
  unfold q_lazy_lock, read_name. cbn [app].
  change (QPunct Colon2 :: QIdent "sync" :: QPunct Colon2 :: QIdent "LazyLock" :: rest) with (q_segments ["sync"; "LazyLock"]%string ++ rest).
  rewrite read_segments_spec; [reflexivity|repeat constructor|exact HS].
Qed.

Lemma read_type_name (ts : tokens) names fuel rest : is_name ts names -> stops rest ->
  read_type (S fuel) (ts ++ rest) =
  let generics r := match read_types fuel r with Some (args, QPunct Gt :: r) => Some (PPath (path_name names) args, r) | _ => None end in
  match rest with
  | QPunct Lt :: r => generics r
  | QPunct Colon2 :: QPunct Lt :: r => generics r
  | _ => Some (PPath (path_name names) [], rest)
  end.
Proof.
  intros [[p [r [-> HP]]] H] HS. specialize (H rest HS). cbn [app] in *.
  destruct p; try destruct HP; cbn [read_type]; fold (@read_types U X W); rewrite H; reflexivity.
Qed.

Lemma reads_path ts names : is_name ts names -> reads_type ts (PPath (path_name names) []).
Proof.
  intros H. exists 1%nat. intros [|fuel] rest L F; [lia|]. rewrite (read_type_name _ names) by (auto; apply follow_stops, F).
  destruct rest as [|[] rest]; try destruct F; try reflexivity. destruct p; try destruct F; reflexivity.
Qed.
Lemma reads_generic ts names g args : is_name ts names -> reads_types g args -> reads_type (ts ++ [QPunct Lt] ++ g ++ [QPunct Gt]) (PPath (path_name names) args).
Proof.
  intros H [n HG]. exists (S n). intros [|fuel] rest L F; [lia|]. rewrite <- !app_assoc. rewrite (read_type_name _ names) by (auto; exact I).
  cbn [app]. rewrite HG; [reflexivity|lia|exact I].
Qed.
Lemma reads_sig ts names g args : is_name ts names -> reads_types g args -> reads_type (q_sig ts g) (PPath (path_name names) args).
Proof.
  intros H [n HG]. exists (S n). intros [|fuel] rest L F; [lia|]. unfold q_sig. rewrite <- !app_assoc.
  rewrite (read_type_name _ names) by (auto; exact I). cbn [app]. rewrite HG; [reflexivity|lia|exact I].
Qed.

(** * Expressions *)
Definition reads_expr (ts : tokens) (e : pexpr U X W) : Prop :=
  exists n, forall fuel rest, (n <= fuel)%nat -> follow rest -> read_expr fuel (ts ++ rest) = Some (e, rest).
Definition reads_exprs (ts : tokens) (l : list (pexpr U X W)) : Prop :=
  exists n, forall fuel, (n <= fuel)%nat -> read_exprs fuel ts = Some l.

Lemma reads_expr_head ts e : reads_expr ts e -> ts <> [].
Proof. intros [n H] ->. specialize (H (S n) [] ltac:(lia) I). discriminate. Qed.
Lemma read_exprs_step fuel (ts : tokens) : ts <> [] ->
  read_exprs (S fuel) ts =
  match read_expr fuel ts with
  | Some (e, []) => Some [e]
  | Some (e, QPunct Comma :: r) => match read_exprs fuel r with Some es => Some (e :: es) | None => None end
  | _ => None
  end.
Proof. destruct ts; [congruence|reflexivity]. Qed.
Lemma reads_exprs_nil : reads_exprs [] [].
Proof. exists 1%nat. intros [|fuel] H; [lia|reflexivity]. Qed.
Lemma reads_exprs_one ts e : reads_expr ts e -> reads_exprs ts [e].
Proof.
  intros H. pose proof (reads_expr_head _ _ H) as HH. destruct H as [n H]. exists (S n). intros [|fuel] L; [lia|].
  rewrite read_exprs_step by exact HH. specialize (H fuel [] ltac:(lia) I). rewrite app_nil_r in H. rewrite H. reflexivity.
Qed.
Lemma reads_exprs_cons ts e ts' l : reads_expr ts e -> reads_exprs ts' l -> reads_exprs (ts ++ QPunct Comma :: ts') (e :: l).
Proof.
  intros H [m H']. pose proof (reads_expr_head _ _ H) as HH. destruct H as [n H]. exists (S (n + m)). intros [|fuel] L; [lia|].
  rewrite read_exprs_step by (destruct ts; [congruence|discriminate]). rewrite H; [|lia|exact I]. rewrite H'; [reflexivity|lia].
Qed.
Lemma reads_exprs_list : forall tss es, Forall2 reads_expr tss es -> reads_exprs (q_list tss) es.
Proof.
  induction 1 as [|a t tss ts H HF IH]; [exact reads_exprs_nil|]. destruct tss as [|b tss].
  - inversion HF; subst. apply reads_exprs_one, H.
  - cbn [q_list]. apply reads_exprs_cons; assumption.
Qed.
Lemma reads_exprs_each : forall tss es, Forall2 reads_expr tss es -> reads_exprs (each_comma tss) es.
Proof.
  induction 1 as [|a t tss ts H HF IH]; [exact reads_exprs_nil|]. unfold each_comma in *. cbn [flat_map]. rewrite <- app_assoc.
  apply (reads_exprs_cons a t _ _ H IH).
Qed.

Lemma reads_key x : reads_expr [QKey x] (XKey x).
Proof. exists 1%nat. intros [|fuel] rest H _; [lia|reflexivity]. Qed.
Lemma reads_val w : reads_expr [QVal w] (XVal w).
Proof. exists 1%nat. intros [|fuel] rest H _; [lia|reflexivity]. Qed.
Lemma reads_int s v suffix : read_literal s = Some (v, suffix) -> reads_expr [QLit s] (XInt v suffix).
Proof. intros E. exists 1%nat. intros [|fuel] rest H _; [lia|]. cbn [app read_expr]; fold (@read_exprs U X W). rewrite E. reflexivity. Qed.
Lemma reads_tuple ts a b : reads_exprs ts [a; b] -> reads_expr [QGroup Paren ts] (XPair a b).
Proof. intros [n H]. exists (S n). intros [|fuel] rest L _; [lia|]. cbn [app read_expr]; fold (@read_exprs U X W). rewrite H by lia. reflexivity. Qed.
Lemma reads_array ts es : reads_exprs ts es -> reads_expr [QGroup Bracket ts] (XArray es).
Proof. intros [n H]. exists (S n). intros [|fuel] rest L _; [lia|]. cbn [app read_expr]; fold (@read_exprs U X W). rewrite H by lia. reflexivity. Qed.
Lemma reads_vec ts es : reads_exprs ts es -> reads_expr (q_vec ts) (XVec es).
Proof.
  intros [n H]. exists (S n). intros [|fuel] rest L _; [lia|]. unfold q_vec. cbn [app read_expr]; fold (@read_exprs U X W).
  change (String.eqb "vec" "vec") with true. cbn iota. rewrite H by lia. reflexivity.
Qed.
Lemma reads_closure ts e : reads_expr ts e -> reads_expr [QPunct OrOr; QGroup Brace ts] (XClosure e).
Proof.
  intros [n H]. exists (S n). intros [|fuel] rest L _; [lia|]. cbn [app read_expr]; fold (@read_exprs U X W).
  specialize (H fuel [] ltac:(lia) I). rewrite app_nil_r in H. rewrite H. reflexivity.
Qed.

Lemma read_expr_name (ts : tokens) names fuel rest : is_name ts names -> stops rest -> match rest with QPunct Bang :: _ => False | _ => True end ->
  read_expr (S fuel) (ts ++ rest) =
  match rest with
  | QPunct Colon2 :: QPunct Lt :: r =>
      match read_types fuel r with
      | Some (generics, QPunct Gt :: QPunct Colon2 :: QIdent f :: QGroup Paren g :: r) =>
          if is_keyword f then None else
          match read_exprs fuel g with Some args => Some (XCall (PPath (path_name names) generics) f args, r) | None => None end
      | _ => None
      end
  | QGroup Paren g :: r =>
      match read_exprs fuel g with
      | Some args => Some (XCall (PPath (path_name (removelast names)) []) (last names ""%string) args, r)
      | None => None
      end
  | QGroup Brace [] :: r => Some (XStruct (path_name names), r)
  | _ => Some (XStruct (path_name names), rest)
  end.
Proof.
  intros [[p [r [-> HP]]] H] HS HB. specialize (H rest HS). cbn [app] in *.
  destruct p; try destruct HP; cbn [read_expr]; fold (@read_exprs U X W).
  - destruct r as [|q r].
    + cbn [app] in *. destruct rest as [|q rest]; [rewrite H; reflexivity|].
      destruct q; try (rewrite H; reflexivity). destruct p; try (rewrite H; reflexivity). destruct HB.
    + cbn [app] in *. destruct q; try (rewrite H; reflexivity). destruct p; try (rewrite H; reflexivity). destruct HP.
  - destruct p; try destruct HP. rewrite H. reflexivity.
Qed.

Lemma reads_struct ts names : is_name ts names -> reads_expr ts (XStruct (path_name names)).
Proof.
  intros H. exists 1%nat. intros [|fuel] rest L F; [lia|].
  rewrite (read_expr_name _ names) by (auto; try apply follow_stops, F; destruct rest as [|[] rest]; try exact I; destruct p; try exact I; destruct F).
  destruct rest as [|[] rest]; try destruct F; try reflexivity. destruct p; try destruct F; reflexivity.
Qed.
Lemma reads_struct_braces ts names : is_name ts names -> reads_expr (ts ++ [QGroup Brace []]) (XStruct (path_name names)).
Proof.
  intros H. exists 1%nat. intros [|fuel] rest L F; [lia|]. rewrite <- app_assoc. rewrite (read_expr_name _ names) by (auto; exact I). reflexivity.
Qed.
Lemma reads_call_sig ts names g generics f args args' : is_name ts names -> reads_types g generics -> is_keyword f = false ->
  reads_exprs args args' -> reads_expr (q_call (q_sig ts g) f args) (XCall (PPath (path_name names) generics) f args').
Proof.
  intros H [n HG] HK [m HA]. exists (S (n + m)). intros [|fuel] rest L F; [lia|]. unfold q_call, q_sig. rewrite <- !app_assoc.
  rewrite (read_expr_name _ names) by (auto; exact I). cbn [app]. rewrite HG; [|lia|exact I]. rewrite HK, HA by lia. reflexivity.
Qed.
Lemma reads_call_path ts names args args' : is_name ts names -> reads_exprs args args' ->
  reads_expr (ts ++ [QGroup Paren args]) (XCall (PPath (path_name (removelast names)) []) (last names ""%string) args').
Proof.
  intros H [m HA]. exists (S m). intros [|fuel] rest L F; [lia|]. rewrite <- app_assoc.
  rewrite (read_expr_name _ names) by (auto; exact I). cbn [app]. rewrite HA by lia. reflexivity.
Qed.
End Readers.

(** * What the generator prints *)
Definition as_type {U} (t : option U) : pty U := match t with None => PInfer | Some u => PUser u end.

Section Printed.
Context {U X W : Type}.
Notation tokens := (list (qtok U X W)).
Variable key_type : option U.
Variable value_type : option (option U).
Notation kt := (as_type key_type).
Notation vt := (option_map as_type value_type).

Lemma crate_sig names nm (g : tokens) args : no_keyword names -> path_name ("" :: "frozen_collections" :: names)%string = nm ->
  reads_types g args -> reads_type (q_sig (q_crate names) g) (PPath nm args).
Proof. intros H <- HG. apply reads_sig; [apply is_name_crate, H|exact HG]. Qed.
Lemma crate_path names nm : no_keyword names -> path_name ("" :: "frozen_collections" :: names)%string = nm ->
  reads_type (X := X) (W := W) (U := U) (q_crate names) (PPath nm []).
Proof. intros H <-. apply reads_path, is_name_crate, H. Qed.
Lemma crate_generic names nm (g : tokens) args : no_keyword names -> path_name ("" :: "frozen_collections" :: names)%string = nm ->
  reads_types g args -> reads_type (q_crate names ++ [QPunct Lt] ++ g ++ [QPunct Gt]) (PPath nm args).
Proof. intros H <- HG. apply reads_generic; [apply is_name_crate, H|exact HG]. Qed.
Lemma crate_call_sig names nm (g : tokens) generics f args args' : no_keyword names -> path_name ("" :: "frozen_collections" :: names)%string = nm ->
  reads_types g generics -> is_keyword f = false -> reads_exprs args args' ->
  reads_expr (q_call (q_sig (q_crate names) g) f args) (XCall (PPath nm generics) f args').
Proof. intros H <- HG HF HA. apply reads_call_sig; auto. apply is_name_crate, H. Qed.
Lemma q_crate_snoc names f : q_crate (names ++ [f]) = q_crate names ++ [QPunct Colon2; QIdent f] :> tokens.
Proof. unfold q_crate. rewrite app_comm_cons, flat_map_app. reflexivity. Qed.
Lemma crate_call names nm f (args : tokens) args' : no_keyword names -> path_name ("" :: "frozen_collections" :: names)%string = nm ->
  is_keyword f = false -> reads_exprs args args' -> reads_expr (q_call (q_crate names) f args) (XCall (PPath nm []) f args').
Proof.
  intros H <- HF HA. unfold q_call. change [QPunct Colon2; QIdent f; QGroup Paren args] with ([QPunct Colon2; QIdent f] ++ [QGroup Paren args]).
  rewrite app_assoc, <- q_crate_snoc.
  assert (HN : no_keyword (names ++ [f])) by (apply Forall_app; split; [exact H|repeat constructor; exact HF]).
  pose proof (reads_call_path _ _ _ _ (is_name_crate (U := U) (X := X) (W := W) _ HN) HA) as R.
  rewrite (app_comm_cons names [f] "frozen_collections"%string), (app_comm_cons _ [f] ""%string) in R.
  rewrite removelast_last, last_last in R. exact R.
Qed.

Ltac names := repeat constructor.

Lemma p_key_type : reads_type (q_key_type key_type : tokens) kt.
Proof. destruct key_type as [u|]; [apply reads_user|apply reads_infer]. Qed.
Lemma p_value_type : reads_type (q_value_type value_type : tokens) (g_value_type vt).
Proof. destruct value_type as [[u|]|]; [apply reads_user|apply reads_infer|apply reads_unit]. Qed.
Lemma p_len_ok n : reads_type (q_len n : tokens) (p_len n).
Proof. apply reads_num, read_under0. Qed.
Lemma p_num_slots n : reads_type ([usize_unsuffixed (N.of_nat n)] : tokens) (p_len n).
Proof. apply reads_num, read_plain0. Qed.
Lemma p_bound n : reads_type (q_bound n : tokens) (PNum n).
Proof. apply reads_num, read_under0. Qed.
Lemma p_magnitude_ok cm : reads_type (q_magnitude cm : tokens) (p_magnitude cm).
Proof. destruct cm; (apply crate_path; [names|reflexivity]). Qed.
Lemma p_fixed_state : reads_type (q_fixed_state : tokens) fixed_state_type.
Proof. apply crate_path; [names|reflexivity]. Qed.

Ltac types := repeat first [apply Forall2_nil | apply Forall2_cons | apply p_key_type | apply p_value_type | apply p_len_ok | apply p_num_slots
  | apply p_bound | apply p_magnitude_ok | apply p_fixed_state].

Lemma p_hasher_type h : reads_type (q_hasher_type h : tokens) (hasher_type h).
Proof.
  destruct h; cbn [q_hasher_type hasher_type].
  - apply crate_generic; [names|reflexivity|]. apply reads_types_one, p_fixed_state.
  - apply crate_path; [names|reflexivity].
  - apply crate_sig; [names|reflexivity|]. apply reads_types_list. types.
  - apply crate_sig; [names|reflexivity|]. apply reads_types_list. types.
  - apply crate_path; [names|reflexivity].
Qed.
Ltac types' := types; try apply p_hasher_type.

Lemma p_map_sig c : reads_type (q_map_sig key_type value_type c : tokens) (map_type kt vt c).
Proof.
  destruct c; cbn [q_map_sig map_type app]; (apply crate_sig; [names|reflexivity|]; apply reads_types_list; repeat first [apply p_hasher_type | progress types]).
Qed.
Lemma p_set_sig c : reads_type (q_set_sig key_type c : tokens) (set_type kt c).
Proof.
  destruct c; cbn [q_set_sig set_type app]; (apply crate_sig; [names|reflexivity|]);
  try (apply reads_types_list; repeat first [apply p_hasher_type | progress types]); apply reads_types_one, p_key_type.
Qed.

Lemma p_entry_ok e : reads_expr (q_entry e : tokens) (p_entry e).
Proof.
  apply reads_tuple. change [QKey (fst e); QPunct Comma; QVal (snd e)] with (q_list [[QKey (fst e)]; [QVal (snd e)]] : tokens).
  apply reads_exprs_list. repeat constructor; [apply reads_key|apply reads_val].
Qed.
Lemma Forall2_map {A B C} (R : B -> C -> Prop) (f : A -> B) (g : A -> C) l : (forall a, R (f a) (g a)) -> Forall2 R (map f l) (map g l).
Proof. intros H. induction l; constructor; auto. Qed.
Lemma p_entries es : reads_exprs (q_entries es : tokens) (map p_entry es).
Proof. apply reads_exprs_each, Forall2_map, p_entry_ok. Qed.
Lemma p_index i : reads_expr ([usize_unsuffixed i] : tokens) (XInt i "").
Proof. apply reads_int, read_plain0. Qed.
Lemma p_indices l : reads_exprs (each_comma (map (fun i => [usize_unsuffixed i]) l) : tokens) (map (fun i => XInt i "") l).
Proof. apply reads_exprs_each, Forall2_map, p_index. Qed.
Lemma p_slot_ok s : reads_expr (q_slot s : tokens) (p_slot s).
Proof.
  unfold q_slot. change (q_crate ["hash_tables"; "HashTableSlot"; "new"]%string ++ [QGroup Paren [usize_unsuffixed (fst s); QPunct Comma; usize_unsuffixed (snd s)]] : tokens)
    with (q_call (q_crate ["hash_tables"; "HashTableSlot"]%string) "new" (q_list [[usize_unsuffixed (fst s)]; [usize_unsuffixed (snd s)]]) : tokens).
  apply crate_call; [names|reflexivity|reflexivity|]. apply reads_exprs_list. repeat constructor; apply p_index.
Qed.
Lemma p_slots l : reads_exprs (each_comma (map q_slot l) : tokens) (map p_slot l).
Proof. apply reads_exprs_each, Forall2_map, p_slot_ok. Qed.
Lemma usize_suffix : int_suffix "usize".
Proof. right. cbn. tauto. Qed.
Lemma p_usize n : reads_expr ([QLit (usize_suffixed n)] : tokens) (XInt n "usize").
Proof. apply reads_int, read_plain, usize_suffix. Qed.
Lemma p_usize_under n : reads_expr ([QLit (underscored (usize_suffixed n))] : tokens) (XInt n "usize").
Proof. apply reads_int, read_under, usize_suffix. Qed.

Lemma p_with_seed seed : reads_expr (q_with_seed seed : tokens) (with_seed seed).
Proof.
  apply crate_call; [names|reflexivity|reflexivity|]. apply reads_exprs_one. apply reads_int, read_under. right. cbn. tauto.
Qed.
Lemma p_hasher_ctor h : reads_expr (q_hasher_ctor h : tokens) (hasher_ctor h).
Proof.
  destruct h; cbn [q_hasher_ctor hasher_ctor hasher_type].
  - apply crate_call; [names|reflexivity|reflexivity|]. apply reads_exprs_one, p_with_seed.
  - apply (reads_struct_braces _ _ (is_name_crate ["hashers"; "ScalarHasher"]%string ltac:(names))).
  - apply crate_call_sig; [names|reflexivity|apply reads_types_list; types|reflexivity|]. apply reads_exprs_one, p_with_seed.
  - apply crate_call_sig; [names|reflexivity|apply reads_types_list; types|reflexivity|]. apply reads_exprs_one, p_with_seed.
  - apply (reads_struct _ _ (is_name_crate ["hashers"; "LengthHasher"]%string ltac:(names))).
Qed.

Lemma p_pair : reads_type ([QGroup Paren (q_list [q_key_type key_type; q_value_type value_type])] : tokens) (PPair kt (g_value_type vt)).
Proof. apply reads_pair, reads_types_list. types. Qed.

(** A call with the type printed by [type_sig]. *)
Lemma p_map_call c f (args : tokens) args' : is_keyword f = false -> reads_exprs args args' ->
  reads_expr (q_call (q_map_sig key_type value_type c) f args) (XCall (map_type kt vt c) f args').
Proof.
  intros HF HA. destruct c; cbn [q_map_sig map_type app];
  (apply crate_call_sig; [names|reflexivity|apply reads_types_list; repeat first [apply p_hasher_type | progress types]|exact HF|exact HA]).
Qed.
Lemma p_set_call c f (args : tokens) args' : is_keyword f = false -> reads_exprs args args' ->
  reads_expr (q_call (q_set_sig key_type c) f args) (XCall (set_type kt c) f args').
Proof.
  intros HF HA. destruct c; cbn [q_set_sig set_type app];
  (apply crate_call_sig; [names|reflexivity| |exact HF|exact HA]);
  try (apply reads_types_list; repeat first [apply p_hasher_type | progress types]); apply reads_types_one, p_key_type.
Qed.

Lemma p_map_ctor c : reads_expr (q_map_ctor key_type value_type c : tokens) (map_ctor kt vt c).
Proof.
  destruct c; cbn [q_map_ctor map_ctor]; (apply p_map_call; [reflexivity|]).
  - apply reads_exprs_one, reads_array, p_entries.
  - apply reads_exprs_one, reads_vec, p_entries.
  - apply reads_exprs_one, reads_array, p_entries.
  - apply reads_exprs_one, reads_vec, p_entries.
  - apply reads_exprs_list. repeat constructor; [apply reads_array, p_entries|apply p_usize_under|apply p_usize_under].
  - apply reads_exprs_list. repeat constructor; [apply reads_array, p_entries|apply reads_array, p_indices|apply p_usize|apply p_usize].
  - apply reads_exprs_list. constructor; [|repeat constructor; apply p_hasher_ctor].
    apply crate_call_sig; [names|reflexivity| |reflexivity|].
    + apply reads_types_list. constructor; [apply p_pair|]. types.
    + apply reads_exprs_each. constructor; [apply reads_array, p_slots|]. constructor; [apply reads_array, p_entries|constructor].
  - apply reads_exprs_list. constructor; [|repeat constructor; apply p_hasher_ctor].
    apply crate_call_sig; [names|reflexivity| |reflexivity|].
    + apply reads_types_list. constructor; [apply p_pair|]. types.
    + apply reads_exprs_each. constructor; [apply reads_array, p_indices|]. constructor; [apply reads_array, p_entries|constructor].
  - apply reads_exprs_one, reads_vec, p_entries.
  - apply reads_exprs_one, reads_vec, p_entries.
  - apply reads_exprs_one, reads_vec, p_entries.
Qed.

Lemma p_type_sig out : reads_type (q_type_sig key_type value_type out : tokens) (type_sig kt vt out).
Proof. unfold q_type_sig, type_sig. destruct (o_set out); [apply p_set_sig|apply p_map_sig]. Qed.
Lemma p_ctor out : reads_expr (q_ctor key_type value_type out : tokens) (ctor_expr kt vt out).
Proof.
  unfold q_ctor, ctor_expr. destruct (o_set out); [|apply p_map_ctor]. fold (set_fn (o_ctor out)).
  apply p_set_call; [destruct (o_ctor out); reflexivity|]. apply reads_exprs_one, p_map_ctor.
Qed.

(** * Items *)
Definition reads_item (ts : tokens) (i : item U X W) : Prop :=
  ts <> [] /\ exists n, forall fuel rest, (n <= fuel)%nat -> read_item fuel (ts ++ rest) = Some (i, rest).
Lemma reads_as_nil : reads_as ([] : tokens) [].
Proof. exists 1%nat. intros [|fuel] H; [lia|reflexivity]. Qed.
Lemma reads_as_cons ts i ts' is : reads_item ts i -> reads_as ts' is -> reads_as (ts ++ ts') (i :: is).
Proof.
  intros [HN [n H]] [m H']. exists (S (n + m)). intros [|fuel] L; [lia|]. cbn [read_items].
  destruct ts as [|t ts]; [congruence|]. cbn [app] in *. rewrite H by lia. rewrite H' by lia. reflexivity.
Qed.
Lemma reads_as_one ts i : reads_item ts i -> reads_as ts [i].
Proof. intros H. rewrite <- (app_nil_r ts). apply reads_as_cons; [exact H|exact reads_as_nil]. Qed.

Lemma item_type vis alias (sig : tokens) t : is_keyword alias = false -> reads_type sig t ->
  reads_item (q_alias vis (QIdent alias) sig) (ItType vis alias t).
Proof.
  intros HK [n H]. split.
  { unfold q_alias, q_visibility. destruct (String.eqb vis ""); discriminate. }
  exists n. intros fuel rest L. unfold q_alias, q_visibility. destruct (String.eqb_spec vis "") as [->|HV]; rewrite <- !app_assoc; cbn [app].
  - unfold read_item. change (String.eqb "type" "type") with true. cbn iota. unfold read_type_item. rewrite HK.
    rewrite H; [reflexivity|exact L|exact I].
  - unfold read_item. change (String.eqb "type" "type") with true. cbn iota. unfold read_type_item. rewrite HK.
    rewrite H; [reflexivity|exact L|exact I].
Qed.
Lemma binding name (sig ctor : tokens) t e : is_keyword name = false -> reads_type sig t -> reads_expr ctor e ->
  exists n, forall fuel rest, (n <= fuel)%nat ->
    read_binding fuel (QIdent name :: QPunct Colon :: sig ++ QPunct Equals :: ctor ++ QPunct Semi :: rest) = Some (name, t, e, rest).
Proof.
  intros HK [n H] [m H']. exists (n + m)%nat. intros fuel rest L. unfold read_binding. rewrite HK.
  rewrite H; [|lia|exact I]. rewrite H'; [reflexivity|lia|exact I].
Qed.
Lemma item_static vis name (sig ctor : tokens) t e : is_keyword name = false -> reads_type sig t -> reads_expr ctor e ->
  reads_item (q_visibility vis ++ [QIdent "static"%string; QIdent name; QPunct Colon] ++ sig ++ [QPunct Equals] ++ ctor ++ [QPunct Semi])
    (ItStatic vis name t e).
Proof.
  intros HK H H'. destruct (binding name sig ctor t e HK H H') as [n B]. split.
  { unfold q_visibility. destruct (String.eqb vis ""); discriminate. }
  exists n. intros fuel rest L. unfold q_visibility. destruct (String.eqb_spec vis "") as [->|HV]; rewrite <- !app_assoc; cbn [app];
  unfold read_item; change (String.eqb "static" "type") with false; change (String.eqb "static" "static") with true; cbn iota.
  - rewrite B by exact L. reflexivity.
  - rewrite B by exact L. reflexivity.
Qed.
Lemma item_let (mutable : bool) name (sig ctor : tokens) t e : is_keyword name = false -> reads_type sig t -> reads_expr ctor e ->
  reads_item ([QIdent "let"%string] ++ (if mutable then [QIdent "mut"%string] else []) ++ [QIdent name; QPunct Colon] ++ sig ++ [QPunct Equals] ++ ctor ++ [QPunct Semi])
    (ItLet mutable name t e).
Proof.
  intros HK H H'. destruct (binding name sig ctor t e HK H H') as [n B]. split; [discriminate|].
  exists n. intros fuel rest L. destruct mutable; cbn [app]; unfold read_item; change (String.eqb "let" "type") with false;
  change (String.eqb "let" "static") with false; change (String.eqb "let" "let") with true; cbn iota.
  - change (String.eqb "mut" "mut") with true. cbn iota. repeat (rewrite <- app_assoc; cbn [app]). rewrite B by exact L. reflexivity.
  - replace (String.eqb name "mut") with false.
    + repeat (rewrite <- app_assoc; cbn [app]). rewrite B by exact L. reflexivity.
    + symmetry. apply String.eqb_neq. intros ->. discriminate.
Qed.

Lemma ctor_head out : exists r, q_ctor key_type value_type out = QPunct Colon2 :: r :> tokens.
Proof.
  unfold q_ctor. destruct (o_set out).
  - destruct (o_ctor out); eexists; reflexivity.
  - destruct (o_ctor out); eexists; reflexivity.
Qed.

(** The names an item declares. *)
Definition decl_names (d : decl) : list string :=
  match d with
  | DeclStatic _ alias symbol _ | DeclLet alias _ symbol => symbol :: match alias with Some a => [a] | None => [] end
  | DeclExpr => []
  end.

Lemma lazy_type (sig : tokens) t : reads_type sig t -> reads_type (q_lazy_lock ++ [QPunct Lt] ++ sig ++ [QPunct Gt]) (PPath "std::sync::LazyLock" [t]).
Proof. intros H. apply (reads_generic _ _ _ _ is_name_lazy_lock). apply reads_types_one, H. Qed.
Lemma is_name_lazy_new : is_name (q_lazy_lock ++ [QPunct Colon2; QIdent "new"%string] : tokens) ["std"; "sync"; "LazyLock"; "new"]%string.
Proof.
  split; [exists (QIdent "std"%string); eexists; split; [reflexivity|exact I]|]. intros rest HS.
  unfold q_lazy_lock, read_name. cbn [app].
  change (QPunct Colon2 :: QIdent "sync" :: QPunct Colon2 :: QIdent "LazyLock" :: QPunct Colon2 :: QIdent "new" :: rest)
    with (q_segments ["sync"; "LazyLock"; "new"]%string ++ rest : tokens).
  rewrite read_segments_spec; [reflexivity|repeat constructor|exact HS].
Qed.
Lemma lazy_expr (ctor : tokens) e : reads_expr ctor e ->
  reads_expr (q_lazy_lock ++ [QPunct Colon2; QIdent "new"; QGroup Paren [QPunct OrOr; QGroup Brace ctor]])
    (XCall (PPath "std::sync::LazyLock" []) "new" [XClosure e]).
Proof. intros H. apply (reads_call_path _ _ _ _ is_name_lazy_new). apply reads_exprs_one, reads_closure, H. Qed.

Lemma ident_path s : is_keyword s = false -> reads_type ([QIdent s] : tokens) (PPath s []).
Proof. intros H. apply (reads_path _ _ (is_name_ident s H)). Qed.

Lemma postflight_reads is_ident d (out : output X W) ts : Forall (fun s => is_keyword s = false) (decl_names d) ->
  q_postflight key_type value_type is_ident d out = Ok ts -> reads_as ts (print_decl kt vt d out).
Proof.
  intros HN. unfold q_postflight, format_ident. pose proof (p_type_sig out) as HT. pose proof (p_ctor out) as HC.
  destruct d as [vis alias symbol lazy|alias mutable symbol|].
  - cbn [decl_names] in HN. apply Forall_cons_iff in HN. destruct HN as [HS HA].
    destruct lazy, alias as [alias|]; destruct (is_ident symbol); try discriminate; cbn [bind].
    + destruct (is_ident alias); [|discriminate]. cbn [bind]. intros E. injection E as <-.
      apply Forall_cons_iff in HA. destruct HA as [HA _]. cbn [print_decl].
      apply reads_as_cons; [apply item_type; assumption|]. apply reads_as_one.
      pose proof (item_static vis symbol _ _ _ _ HS (lazy_type _ _ (ident_path alias HA)) (lazy_expr _ _ HC)) as R.
      rewrite <- !app_assoc in R. cbn [app] in R |- *. exact R.
    + intros E. injection E as <-. cbn [print_decl]. apply reads_as_one.
      pose proof (item_static vis symbol _ _ _ _ HS (lazy_type _ _ HT) (lazy_expr _ _ HC)) as R.
      rewrite <- !app_assoc in R. cbn [app] in R |- *. exact R.
    + destruct (is_ident alias); [|discriminate]. cbn [bind]. intros E. injection E as <-.
      apply Forall_cons_iff in HA. destruct HA as [HA _]. cbn [print_decl].
      apply reads_as_cons; [apply item_type; assumption|]. apply reads_as_one.
      exact (item_static vis symbol _ _ _ _ HS (ident_path alias HA) HC).
    + intros E. injection E as <-. cbn [print_decl]. apply reads_as_one. exact (item_static vis symbol _ _ _ _ HS HT HC).
  - cbn [decl_names] in HN. apply Forall_cons_iff in HN. destruct HN as [HS HA].
    destruct alias as [alias|]; destruct (is_ident symbol); try discriminate; cbn [bind].
    + destruct (is_ident alias); [|discriminate]. cbn [bind]. intros E. injection E as <-.
      apply Forall_cons_iff in HA. destruct HA as [HA _]. cbn [print_decl].
      refine (reads_as_cons (q_alias "" (QIdent alias) _) _ _ _ (item_type "" alias _ _ HA HT) _). apply reads_as_one.
      exact (item_let mutable symbol _ _ _ _ HS (ident_path alias HA) HC).
    + intros E. injection E as <-. cbn [print_decl]. apply reads_as_one. exact (item_let mutable symbol _ _ _ _ HS HT HC).
  - intros E. injection E as <-. cbn [print_decl]. destruct HC as [n HC]. exists (S (S n)). intros [|[|fuel]] L; [lia|lia|].
    destruct (ctor_head out) as [r Er]. specialize (HC (S fuel) [] ltac:(lia) I). rewrite app_nil_r in HC. rewrite Er in HC |- *.
    cbn [read_items]. unfold read_item. rewrite HC. reflexivity.
Qed.

Lemma postflight_panics is_ident d (out : output X W) : q_postflight key_type value_type is_ident d out = Panic <-> exists s, In s (decl_names d) /\ is_ident s = false.
Proof.
  assert (A : forall (s : string) (l : list string), is_ident s = true ->
    (exists x, In x (s :: l) /\ is_ident x = false) <-> exists x, In x l /\ is_ident x = false).
  { intros s l H. split.
    - intros [x [[<-|HI] Hx]]; [congruence|]. eauto.
    - intros [x [HI Hx]]. exists x. split; [right; exact HI|exact Hx]. }
  assert (B : forall (s : string) (l : list string), is_ident s = false -> exists x, In x (s :: l) /\ is_ident x = false).
  { intros s l H. exists s. split; [left; reflexivity|exact H]. }
  assert (C : ~ exists x : string, In x [] /\ is_ident x = false) by (intros [x [[] _]]).
  unfold q_postflight, format_ident.
  destruct d as [vis alias symbol lazy|alias mutable symbol|]; cbn [decl_names].
  - destruct (is_ident symbol) eqn:ES.
    + rewrite (A symbol) by exact ES. destruct alias as [alias|].
      * destruct (is_ident alias) eqn:EA; destruct lazy; cbn [bind]; try rewrite (A alias) by exact EA; split; intros H; try discriminate H;
        try reflexivity; try destruct (C H); apply B, EA.
      * destruct lazy; cbn [bind]; (split; [discriminate|intros H; destruct (C H)]).
    + destruct lazy; cbn [bind]; (split; [intros _; apply B, ES|reflexivity]).
  - destruct (is_ident symbol) eqn:ES; cbn [bind].
    + rewrite (A symbol) by exact ES. destruct alias as [alias|].
      * destruct (is_ident alias) eqn:EA; cbn [bind]; try rewrite (A alias) by exact EA; split; intros H; try discriminate H;
        try reflexivity; try destruct (C H); apply B, EA.
      * split; [discriminate|intros H; destruct (C H)].
    + split; [intros _; apply B, ES|reflexivity].
  - split; [discriminate|intros H; destruct (C H)].
Qed.
End Printed.
