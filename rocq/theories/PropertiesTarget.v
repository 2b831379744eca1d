(** Property C64: emitted hash tables on targets that hash differently. Statements only; proofs are in [ProofsTarget.v]. *)
From Coq Require Import String ZArith.
From Verif Require Import ModelUtils ModelAnalyzers ModelTables ModelMaps ModelScalar ModelEmit ModelMacros
  Spec SpecEmit SpecMade SpecMacros SpecTarget ProofsBase ProofsSlices ProofsFz ProofsTarget Instances PropertiesEmit PropertiesMacros.
From Verif Require Import Prelude.

(** ** C64 *)

(** Strings. A collection emitted on a machine hashing with [fsB] and run on one hashing with [fsR], whatever the two: it enumerates the pairs
    supplied, never panics, never finds a wrong entry, and misses exactly the keys whose hash codes differ modulo the number of slots. *)
Theorem C64_string_target : forall X W V (evK : X -> bytes) (evV : W -> V) eqR cmpR cmpQ idxQ usort unit_expr seed fsB fsR em (entries : list (entry bytes X W)),
  sorts_by_slot usort -> (forall e, In e entries -> rt_key evK e = fst e) ->
  (forall e, In e entries -> N.of_nat (List.length (fst e)) <= usize_max) -> N.of_nat (List.length entries) <= usize_max -> options_consistent em ->
  emits_where (emit_string_collection usort unit_expr seed fsB em entries) em evK evV eqR cmpR (rt_ops bytes_eqb cmpQ idxQ (string_hasher fsR))
    bytes_eqb bytes_eqb (string_slot_found fsB fsR) (rt_input evK evV (evV unit_expr) (em_has_value_type em) entries).
Proof. exact @emit_string_where. Qed.
Print Assumptions C64_string_target.

(** Other hashed keys: the key is hashed on the build machine, the query on the target. *)
Theorem C64_hash_target : forall KB X W K V Q (evK : X -> K) (evV : W -> V) eqR cmpR eqK (eqv : Q -> K -> bool) cmpQ idxQ usort unit_expr seed
    (hashB : N -> KB -> N) (hashR : N -> Q -> N) eqB em (entries : list (entry KB X W)),
  sorts_by_slot usort -> lawful_eq eqB -> lawful_hash eqB (hashB seed) -> lawful_eq eqK -> lawful_equivalent eqK eqv ->
  (forall a b, In a entries -> In b entries -> eqK (rt_key evK a) (rt_key evK b) = eqB (fst a) (fst b)) ->
  N.of_nat (List.length entries) <= usize_max -> options_consistent em ->
  emits_where (emit_hash_collection usort unit_expr seed hashB eqB em entries) em evK evV eqR cmpR (rt_ops eqv cmpQ idxQ (general_hasher hashR)) eqK eqv
    (slot_found (general_hasher hashB) (general_hasher hashR) evK eqv entries) (rt_input evK evV (evV unit_expr) (em_has_value_type em) entries).
Proof. exact @emit_hash_where. Qed.
Print Assumptions C64_hash_target.

(** So the collection is exact precisely if every key selects the same slot on both machines. *)
Theorem C64_exact_iff : forall X W V (evK : X -> bytes) (evV : W -> V) eqR cmpR cmpQ idxQ usort unit_expr seed fsB fsR em (entries : list (entry bytes X W)) d out m,
  sorts_by_slot usort -> (forall e, In e entries -> rt_key evK e = fst e) ->
  (forall e, In e entries -> N.of_nat (List.length (fst e)) <= usize_max) -> N.of_nat (List.length entries) <= usize_max -> options_consistent em ->
  emit_string_collection usort unit_expr seed fsB em entries = Ok (ROk (d, out)) -> run_ctor evK evV eqR cmpR (o_ctor out) = Ok m ->
  (answers (rt_ops bytes_eqb cmpQ idxQ (string_hasher fsR)) bytes_eqb bytes_eqb m (rt_input evK evV (evV unit_expr) (em_has_value_type em) entries) <->
   forall e, In e entries -> string_slot_found fsB fsR (o_ctor out) (fst e) = true).
Proof.
  intros X W V evK evV eqR cmpR cmpQ idxQ usort u seed fsB fsR em entries d out m HU HF Hb Hc HO E R.
  destruct (emit_string_where evK evV eqR cmpR cmpQ idxQ usort u seed fsB fsR em entries HU HF Hb Hc HO) as [d' [out' [m' [E1 [_ [_ [_ [E5 A]]]]]]]].
  rewrite E in E1. injection E1 as <- <-. rewrite R in E5. injection E5 as <-. rewrite (answers_where_iff _ _ _ _ _ _ A). unfold rt_input. split.
  - intros H e He. apply (H (fst e) (rt_key evK e, if em_has_value_type em then evV (snd (snd e)) else evV u)).
    + apply in_map_iff. exists e. auto.
    + cbn [fst]. rewrite (HF e He). apply bytes_eqb_eq. reflexivity.
  - intros H q e He Hq. apply in_map_iff in He. destruct He as [e0 [<- He0]]. cbn [fst] in Hq. apply bytes_eqb_eq in Hq. rewrite (HF e0 He0) in Hq.
    rewrite Hq. auto.
Qed.
Print Assumptions C64_exact_iff.

(** Which holds on every target for collections without a hasher or hashed by length. *)
Theorem C64_no_hash_exact : forall X W V (evK : X -> bytes) (evV : W -> V) eqR cmpR cmpQ idxQ usort unit_expr seed fsB fsR em (entries : list (entry bytes X W)) d out m,
  sorts_by_slot usort -> (forall e, In e entries -> rt_key evK e = fst e) ->
  (forall e, In e entries -> N.of_nat (List.length (fst e)) <= usize_max) -> N.of_nat (List.length entries) <= usize_max -> options_consistent em ->
  emit_string_collection usort unit_expr seed fsB em entries = Ok (ROk (d, out)) -> run_ctor evK evV eqR cmpR (o_ctor out) = Ok m ->
  hasher_of (o_ctor out) = None \/ hasher_of (o_ctor out) = Some HcLength ->
  answers (rt_ops bytes_eqb cmpQ idxQ (string_hasher fsR)) bytes_eqb bytes_eqb m (rt_input evK evV (evV unit_expr) (em_has_value_type em) entries).
Proof.
  intros X W V evK evV eqR cmpR cmpQ idxQ usort u seed fsB fsR em entries d out m HU HF Hb Hc HO E R HH.
  apply (C64_exact_iff X W V evK evV eqR cmpR cmpQ idxQ usort u seed fsB fsR em entries d out m HU HF Hb Hc HO E R).
  intros e _. destruct (o_ctor out); try reflexivity; destruct HH as [HH|HH]; try discriminate; injection HH as ->; cbn; apply N.eqb_refl.
Qed.
Print Assumptions C64_no_hash_exact.

(** Macro calls over string literals, end to end. *)
Theorem C64_string_macro_target : forall X W (usort : forall T, list (N * T) -> list (N * T)) md (unit_expr : W) seed fixed_state hash_i32,
  (forall T, sorts_by_slot (usort T)) ->
  forall V is_map (input : macro_input (X := X) (W := W)) mk fsR (evK : expr X -> bytes) (evV : W -> V) eqR cmpR cmpQ idxQ,
  payload input <> [] -> mk <> MkScalar -> all_strings (payload input) -> not_static_mut input -> evaluates_strings evK ->
  (forall e, In e (payload input) -> N.of_nat (List.length (evK (me_key e))) <= usize_max) ->
  N.of_nat (List.length (payload input)) <= usize_max ->
  exists d out m, fz_macro usort md unit_expr seed fixed_state hash_i32 is_map input mk = Ok (ROk (d, out)) /\
    d = macro_decl input false /\ o_set out = negb is_map /\ ctor_compiles (o_ctor out) = true /\ run_ctor evK evV eqR cmpR (o_ctor out) = Ok m /\
    answers_where (rt_ops bytes_eqb cmpQ idxQ (string_hasher fsR)) bytes_eqb bytes_eqb (string_slot_found fixed_state fsR (o_ctor out)) m
      (macro_pairs evK evV (evV unit_expr) is_map (payload input)).
Proof. intros X W usort md u seed fs h HU V. intros. apply strings_where; assumption. Qed.
Print Assumptions C64_string_macro_target.

(** A target hashing strings that begin with 99 or more differently. *)
Definition other_bh (seed : N) : build_hasher := {|
  bh_str := fun s => bh_str (ex_bh seed) s + (if 99 <=? hd 0 s then 1 else 0); bh_bytes := fun s => bh_bytes (ex_bh seed) s + (if 99 <=? hd 0 s then 1 else 0) |}.
Definition ex_words : list bytes := [[97; 1]; [98; 1]; [99; 1]; [100; 1]; [97; 2]].
Definition ex_lengths : list bytes := [[97]; [98; 1]; [99; 1; 1]; [100; 1; 1; 1]].
Definition ex_call (words : list bytes) : macro_input (X := N) (W := N) := ex_long (map ex_str words).
Definition ex_run_on (fs : N -> build_hasher) (words queries : list bytes) :=
  match ex_fz true (ex_call words) MkString with
  | Ok (ROk (d, out)) =>
      match run_ctor (V := N) ex_eval_bytes ex_id bytes_eqb bytes_cmp (o_ctor out) with
      | Ok m => Some (hasher_of (o_ctor out), map (mo_get (rt_ops bytes_eqb bytes_cmp (fun _ => 0) (string_hasher fs)) m) queries,
                      map (string_slot_found ex_bh fs (o_ctor out)) queries)
      | _ => None
      end
  | _ => None
  end.

(** Refuted: a macro over string literals, expanded on one machine and run on another, finds every string written in it. *)
Theorem C64_strings_lost_refuted : exists (words : list bytes) (fsB fsR : N -> build_hasher) d out m w,
  In w words /\ fz_macro ex_usort Debug 0 5 fsB (fun _ _ => 0) true (ex_call words) MkString = Ok (ROk (d, out)) /\
  run_ctor (V := N) ex_eval_bytes ex_id bytes_eqb bytes_cmp (o_ctor out) = Ok m /\
  mo_get (rt_ops bytes_eqb bytes_cmp (fun _ => 0) (string_hasher fsB)) m w = Ok (Some 1) /\
  mo_get (rt_ops bytes_eqb bytes_cmp (fun _ => 0) (string_hasher fsR)) m w = Ok None.
Proof.
  exists ex_words, ex_bh, other_bh. do 3 eexists. exists [99; 1]. split; [cbn; auto|]. split; [vm_compute; reflexivity|]. split; [vm_compute; reflexivity|].
  split; vm_compute; reflexivity.
Qed.
Print Assumptions C64_strings_lost_refuted.

(** On the build machine all five are found; on the target those that begin with 97 or 98. Strings hashed by length are found on both. *)
Example C64_example :
  ex_run_on ex_bh ex_words (ex_words ++ [[98; 2]]) = Some (Some (HcBridge 5), repeat (Ok (Some 1)) 5 ++ [Ok None], repeat true 6) /\
  ex_run_on other_bh ex_words (ex_words ++ [[98; 2]]) = Some (Some (HcBridge 5),
    [Ok (Some 1); Ok (Some 1); Ok None; Ok None; Ok (Some 1); Ok None], [true; true; false; false; true; true]) /\
  ex_run_on other_bh ex_lengths (ex_lengths ++ [[98; 2]]) = Some (Some HcLength, repeat (Ok (Some 1)) 4 ++ [Ok None], repeat true 5) /\
  payload (ex_call ex_words) <> [] /\ all_strings (payload (ex_call ex_words)) /\ not_static_mut (ex_call ex_words) /\ evaluates_strings ex_eval_bytes.
Proof.
  split; [vm_compute; reflexivity|]. split; [vm_compute; reflexivity|]. split; [vm_compute; reflexivity|]. split; [discriminate|]. split; [|split].
  - intros e [<-|[<-|[<-|[<-|[<-|[]]]]]]; eexists; reflexivity.
  - cbn. intros [_ H]. discriminate H.
  - apply ex_evaluates.
Qed.

(** The same for keys hashed whole, here numbers: 7 hashes differently on the target. *)
Definition hash_there (s x : N) : N := if x =? 7 then s + x + 1 else s + x.
Definition ex_hash_on (hashR : N -> N -> N) (queries : list N) :=
  let entries := map (fun k => (k, (k, k * 10))) [4; 5; 6; 7; 8; 9; 4] in
  match emit_hash_collection slot_sort 0 5 (fun s x => s + x) N.eqb ex_static entries with
  | Ok (ROk (_, out)) =>
      match run_ctor (K := N) (V := N) (fun k => k) (fun v => v) N.eqb N.compare (o_ctor out) with
      | Ok m => Some (map (mo_get (rt_ops N.eqb N.compare (fun x => x) (general_hasher hashR)) m) queries,
                      map (slot_found (general_hasher (fun s x => s + x)) (general_hasher hashR) (fun k => k) N.eqb entries (o_ctor out)) queries)
      | _ => None
      end
  | _ => None
  end.
Example C64_hash_example :
  ex_hash_on (fun s x => s + x) [4; 7; 8; 10] = Some ([Ok (Some 40); Ok (Some 70); Ok (Some 80); Ok None], [true; true; true; true]) /\
  ex_hash_on hash_there [4; 7; 8; 10] = Some ([Ok (Some 40); Ok None; Ok (Some 80); Ok None], [true; false; true; true]).
Proof. split; vm_compute; reflexivity. Qed.
