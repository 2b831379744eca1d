(** Property theorems about cross compilation (C59). Statements only; proofs are in [ProofsCross.v]. *)
From Coq Require Import String ZArith.
From Verif Require Import ModelUtils ModelAnalyzers ModelTables ModelMaps ModelScalar ModelEmit ModelMacros
  Spec SpecEmit SpecMade SpecMacros SpecCross ProofsBase ProofsCross Instances PropertiesEmit PropertiesMacros.
From Verif Require Import Prelude.

(** ** C59 *)
(** Integer macros expanded on a 64-bit build machine answer exactly on a 32-bit target, provided the printed literals are in range there. *)
Theorem C59_exact_on_target : forall X W (usort : forall T, list (N * T) -> list (N * T)) md (unit_expr : W) seed fixed_state hash_i32,
  (forall T, sorts_by_slot (usort T)) ->
  forall V Q is_map input mk t (evK : expr X -> value_of Ptr32 (int_type_of t)) (evV : W -> V) eqR cmpR idxQ
    (eqv : Q -> value_of Ptr32 (int_type_of t) -> bool) cmpQ,
  has_scalar Ptr32 t -> payload input <> [] -> mk <> MkString -> all_integers t (payload input) -> values_fit_on Ptr32 t (payload input) ->
  not_static_mut input -> evaluates_integers_on Ptr32 t evK -> target_query Ptr32 t idxQ eqv ->
  N.of_nat (List.length (payload input)) <= usize_max ->
  exists d out, fz_macro usort md unit_expr seed fixed_state hash_i32 is_map input mk = Ok (ROk (d, out)) /\
    d = macro_decl input false /\ o_set out = negb is_map /\ ctor_compiles (o_ctor out) = true /\
    (fits_target Ptr32 (o_ctor out) -> exists m, run_ctor evK evV eqR cmpR (o_ctor out) = Ok m /\
       answers (rt_ops eqv cmpQ idxQ (scalar_hasher idxQ)) (idx_eq (index_of Ptr32 (int_type_of t))) eqv m
         (macro_pairs evK evV (evV unit_expr) is_map (payload input))).
Proof.
  intros X W usort md u seed fs h HU V Q is_map input mk t evK evV eqR cmpR idxQ eqv cmpQ HS NE HM HI HF HO EV LQ Hc.
  destruct (cross_macro usort md u seed fs h HU t HS evK EV input is_map mk evV eqR cmpR idxQ eqv cmpQ NE HM HI HF HO LQ Hc)
    as [d [out [E1 [E2 [E3 [E4 [E5 _]]]]]]].
  exists d, out. auto.
Qed.
Print Assumptions C59_exact_on_target.

(** They are not in range for tables of [isize] keys (dense or sparse): these cannot be used on a 32-bit target. *)
Theorem C59_isize_tables_out_of_range : forall X W (usort : forall T, list (N * T) -> list (N * T)) md (unit_expr : W) seed fixed_state hash_i32,
  (forall T, sorts_by_slot (usort T)) ->
  forall is_map (input : macro_input (X := X)) mk, payload input <> [] -> mk <> MkString ->
  all_integers ISize (payload input) -> values_fit_on Ptr32 ISize (payload input) -> not_static_mut input ->
  N.of_nat (List.length (payload input)) <= usize_max ->
  forall d out, fz_macro usort md unit_expr seed fixed_state hash_i32 is_map input mk = Ok (ROk (d, out)) ->
  match o_ctor out with CDense _ _ _ _ | CSparse _ _ _ _ _ _ _ => ~ fits_target Ptr32 (o_ctor out) | _ => True end.
Proof.
  intros X W usort md u seed fs h HU is_map input mk NE HM HI HF HO Hc d out E.
  destruct (cross_macro usort md u seed fs h HU ISize I (eval_on Ptr32 ISize) (eval_on_ok Ptr32 ISize) input is_map mk (fun w => w) (fun _ _ => true) (fun _ _ => Eq)
    (fun q => index_of Ptr32 (int_type_of ISize) q) (fun q k => index_of Ptr32 (int_type_of ISize) q =? index_of Ptr32 (int_type_of ISize) k)
    (fun _ _ => Eq) NE HM HI HF HO) as [d' [out' [E1 [_ [_ [_ [_ E2]]]]]]].
  - split; [intros q; apply (index_32 ISize q I)|reflexivity].
  - exact Hc.
  - rewrite E in E1. injection E1 as <- <-. apply E2. reflexivity.
Qed.
Print Assumptions C59_isize_tables_out_of_range.

(** The condition is needed: with the bounds cut off at the width of the target, a table of [isize] keys loses its keys. *)
Notation ex_index t := (index_of Ptr32 (int_type_of t)).
Definition ex_on32 (t : scalar_type) (change : ctor (expr N) N -> ctor (expr N) N) (r : res (result (decl * output (expr N) N))) (queries : list N) :=
  match r with
  | Ok (ROk (_, out)) =>
      match run_ctor (V := N) (eval_on Ptr32 t) ex_id (idx_eq (ex_index t)) (fun _ _ => Eq) (change (o_ctor out)) with
      | Ok m => Some (map (fun q => mo_get (rt_ops (idx_eq (ex_index t)) (fun _ _ => Eq) (ex_index t) (scalar_hasher (ex_index t))) m
                          (eval_on (X := N) Ptr32 t (ELit (LitInt q "")))) queries)
      | _ => None
      end
  | _ => None
  end.
Definition ex_keys (keys : list N) (suffix : string) : macro_input := ShortForm (map (fun k => ex_int k suffix) keys).
Lemma ex_keys_integers t keys suffix : keys <> [] -> In (suffix, t) suffix_table -> all_integers t (payload (ex_keys keys suffix)).
Proof.
  intros NE HT. split.
  - intros e He. apply in_map_iff in He. destruct He as [k [<- _]]. exists k, suffix. auto.
  - intros _. destruct keys as [|k keys]; [congruence|]. exists (ex_int k suffix), k, suffix. cbn. auto.
Qed.
Lemma ex_keys_fit t keys suffix : forallb (fun k => in_type Ptr32 (int_type_of t) (Z.of_N k)) keys = true ->
  values_fit_on Ptr32 t (payload (ex_keys keys suffix)).
Proof.
  intros H e v s He L. apply in_map_iff in He. destruct He as [k [<- Hk]]. cbn in L. injection L as <- <-.
  rewrite forallb_forall in H. auto.
Qed.

Theorem C59_cut_off_refuted : exists (input : macro_input (X := N) (W := N)) key,
  In key (payload input) /\ all_integers ISize (payload input) /\ values_fit_on Ptr32 ISize (payload input) /\ not_static_mut input /\
  exists d out m, ex_fz true input MkScalar = Ok (ROk (d, out)) /\
    run_ctor (eval_on Ptr32 ISize) ex_id (idx_eq (ex_index ISize)) (fun _ _ => Eq) (cut_off Ptr32 (o_ctor out)) = Ok m /\
    mo_get (rt_ops (idx_eq (ex_index ISize)) (fun _ _ => Eq) (ex_index ISize) (scalar_hasher (ex_index ISize))) m (eval_on Ptr32 ISize (me_key key)) = Ok None.
Proof.
  exists (ex_keys [5; 6; 7; 8] "isize"), (ex_int 6 "isize").
  split; [cbn; auto|]. split; [apply ex_keys_integers; [discriminate|cbn; auto 20]|]. split; [apply ex_keys_fit; reflexivity|]. split; [exact I|].
  eexists. eexists. eexists. split; [vm_compute; reflexivity|]. split; [reflexivity|]. vm_compute. reflexivity.
Qed.
Print Assumptions C59_cut_off_refuted.

Example C59_example :
  (* a table of [u16] keys, [isize] keys scanned and hashed, on the target *)
  ex_on32 U16 (fun c => c) (ex_fz true (ex_keys [300; 301; 302; 303] "u16") MkScalar) [299; 301; 304] = Some [Ok None; Ok (Some 3010); Ok None] /\
  ex_on32 ISize (fun c => c) (ex_fz true (ex_keys [5; 1000; 2000000000] "isize") MkScalar) [1000; 1001] = Some [Ok (Some 10000); Ok None] /\
  ex_on32 ISize (fun c => c) (ex_fz true (ex_keys [5; 1000; 20000; 777; 31; 65536; 4096; 123456; 999] "isize") MkScalar) [31; 65536; 65537] =
    Some [Ok (Some 310); Ok (Some 655360); Ok None] /\
  (* a table of [isize] keys, with bounds as printed and cut off *)
  ex_on32 ISize (fun c => c) (ex_fz true (ex_keys [5; 6; 7; 8] "isize") MkScalar) [6] = Some [Ok None] /\
  ex_on32 ISize (cut_off Ptr32) (ex_fz true (ex_keys [5; 6; 7; 8] "isize") MkScalar) [6] = Some [Ok None] /\
  has_scalar Ptr32 ISize /\ all_integers U16 (payload (ex_keys [300; 301; 302; 303] "u16")) /\
  values_fit_on Ptr32 U16 (payload (ex_keys [300; 301; 302; 303] "u16")) /\
  evaluates_integers_on (X := N) Ptr32 U16 (eval_on Ptr32 U16) /\ target_query Ptr32 U16 (ex_index U16) (idx_eq (ex_index U16)) /\
  match ex_fz true (ex_keys [300; 301; 302; 303] "u16") MkScalar with Ok (ROk (_, out)) => fits_target Ptr32 (o_ctor out) | _ => False end /\
  match ex_fz true (ex_keys [5; 1000; 20000; 777; 31; 65536; 4096; 123456; 999] "isize") MkScalar with
  | Ok (ROk (_, out)) => fits_target Ptr32 (o_ctor out) | _ => False end.
Proof.
  split; [vm_compute; reflexivity|]. split; [vm_compute; reflexivity|]. split; [vm_compute; reflexivity|].
  split; [vm_compute; reflexivity|]. split; [vm_compute; reflexivity|]. split; [exact I|].
  split; [apply ex_keys_integers; [discriminate|cbn; auto 20]|]. split; [apply ex_keys_fit; reflexivity|].
  split; [apply eval_on_ok|]. split; [split; [intros q; apply index_32; exact I|reflexivity]|].
  split.
  - assert (E : exists d out, ex_fz true (ex_keys [300; 301; 302; 303] "u16") MkScalar = Ok (ROk (d, out)) /\
      usize_literals (o_ctor out) = [300; 303] /\ array_lengths (o_ctor out) = [4]).
    { eexists. eexists. split; [vm_compute; reflexivity|]. split; reflexivity. }
    destruct E as [d [out [-> [E1 E2]]]]. split; rewrite ?E1, ?E2; intros n Hn; cbn in Hn |- *; intuition (subst; reflexivity).
  - assert (E : exists d out, ex_fz true (ex_keys [5; 1000; 20000; 777; 31; 65536; 4096; 123456; 999] "isize") MkScalar = Ok (ROk (d, out)) /\
      usize_literals (o_ctor out) = [] /\ forallb (fun n => n <? 100) (array_lengths (o_ctor out)) = true).
    { eexists. eexists. split; [vm_compute; reflexivity|]. split; reflexivity. }
    destruct E as [d [out [-> [E1 E2]]]]. split; rewrite ?E1; intros n Hn; [destruct Hn|].
    rewrite forallb_forall in E2. specialize (E2 n Hn). cbn. lia.
Qed.
