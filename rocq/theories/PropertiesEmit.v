(** Property theorems about emitted collections (C34-C38, C40, C41). Statements only; proofs are in [ProofsEmit*.v]. *)
From Coq Require Import String Ascii.
From Verif Require Import ModelUtils ModelAnalyzers ModelTables ModelMaps ModelEmit Spec SpecEmit SpecMade
  ProofsBase ProofsEmit ProofsEmitProps ProofsForm Instances.
From Verif Require Import Prelude.

(** The examples use numbers (or byte strings) as build-time keys, as key expressions and as values. *)
Definition ex_static : emitter := {|
  em_has_value_type := true; em_symbol_name := Some "MAP"%string; em_alias_name := Some "Map"%string; em_const_keys := true; em_const_values := true;
  em_visibility := "pub"; em_is_mutable := false; em_is_static := true; em_inferred_key_type := false |}.
Definition ex_set : emitter := {|
  em_has_value_type := false; em_symbol_name := None; em_alias_name := None; em_const_keys := true; em_const_values := true;
  em_visibility := ""; em_is_mutable := false; em_is_static := false; em_inferred_key_type := true |}.
Definition ex_entries (keys : list N) : list (entry N N N) := map (fun k => (k, (k, k * 10))) keys ++ [(2, (2, 7))].
Definition ex_id (x : N) : N := x.

(** ** C34 *)
Theorem C34_scalar_collection : forall KB X W K V Q usort md unit_expr idxB cmpB em (entries : list (entry KB X W))
    (evK : X -> K) (evV : W -> V) eqR cmpR idxK idxQ eqv cmpQ,
  sorts_by_slot usort -> lawful_scalar idxB cmpB -> lawful_query_scalar (Q := Q) idxK idxQ eqv ->
  (forall e, In e entries -> idxK (rt_key evK e) = idxB (fst e)) ->
  span_representable idxB (map fst entries) -> N.of_nat (List.length entries) <= usize_max -> options_consistent em ->
  emits (emit_scalar_collection usort md unit_expr idxB cmpB em entries) em evK evV eqR cmpR
    (rt_ops eqv cmpQ idxQ (scalar_hasher idxQ)) (idx_eq idxK) eqv
    (rt_input evK evV (evV unit_expr) (em_has_value_type em) entries).
Proof. exact @emit_scalar_emits. Qed.
Print Assumptions C34_scalar_collection.

(** the four forms, with a repeated key *)
Definition ex_scalar (keys : list N) (queries : list N) :=
  match emit_scalar_collection slot_sort Debug 0 ex_id N.compare ex_static (ex_entries keys) with
  | Ok (ROk (_, out)) =>
      match run_ctor (K := N) (V := N) ex_id ex_id N.eqb N.compare (o_ctor out) with
      | Ok m => Some (match m with RtScan _ => 0 | RtEytzinger _ => 1 | RtDense _ => 2 | RtSparse _ => 3 | RtHash _ _ => 4 | RtHashNc _ _ => 5 end,
                      map (mo_get (rt_ops N.eqb N.compare ex_id (scalar_hasher ex_id)) m) queries)
      | _ => None
      end
  | _ => None
  end.
Example C34_example :
  ex_scalar [3; 2; 4; 5] [1; 2; 5; 6] = Some (2, [Ok None; Ok (Some 7); Ok (Some 50); Ok None]) /\
  ex_scalar [3; 2; 7; 20] [1; 2; 4; 20; 21] = Some (3, [Ok None; Ok (Some 7); Ok None; Ok (Some 200); Ok None]) /\
  ex_scalar [3; 2; 7; 2000] [1; 2; 4; 2000] = Some (0, [Ok None; Ok (Some 7); Ok None; Ok (Some 20000)]) /\
  ex_scalar [3; 2; 7; 2000; 13; 5; 6; 20; 999] [1; 2; 4; 999] = Some (5, [Ok None; Ok (Some 7); Ok None; Ok (Some 9990)]) /\
  lawful_scalar byte_val byte_cmp /\ lawful_query_scalar byte_val byte_val byte_eq.
Proof. split; [|split; [|split; [|split; [|split]]]]; try (vm_compute; reflexivity); [exact byte_scalar|exact byte_query_scalar]. Qed.

Example C34_applies : forall ks : list byte, N.of_nat (List.length ks) <= usize_max ->
  emits (emit_scalar_collection slot_sort Debug tt byte_val byte_cmp ex_set (map (fun k => (k, (k, tt))) ks)) ex_set
    (fun k => k) (fun u => u) byte_eq byte_cmp (rt_ops byte_eq byte_cmp byte_val (scalar_hasher byte_val)) (idx_eq byte_val) byte_eq
    (map (fun k => (k, tt)) ks).
Proof.
  intros ks Hk.
  assert (E : map (fun k : byte => (k, tt)) ks =
    rt_input (fun k => k) (fun u => u) tt (em_has_value_type ex_set) (map (fun k => (k, (k, tt))) ks)).
  { unfold rt_input. rewrite map_map. reflexivity. }
  rewrite E. apply (C34_scalar_collection byte byte unit byte unit byte slot_sort Debug tt byte_val byte_cmp ex_set
    (map (fun k => (k, (k, tt))) ks) (fun k => k) (fun u => u) byte_eq byte_cmp byte_val byte_val byte_eq byte_cmp).
  - exact slot_sort_sorts.
  - exact byte_scalar.
  - exact byte_query_scalar.
  - intros e He. apply in_map_iff in He. destruct He as [k [<- _]]. reflexivity.
  - intros [a Ha] [b Hb] _ _. cbn. apply N.ltb_lt in Ha, Hb. unfold usize_max. lia.
  - rewrite map_length. exact Hk.
  - split; cbn; [intros [H _]; discriminate|]. intros [H|[H|H]]; [discriminate..|congruence].
Qed.

(** ** C35 *)
Theorem C35_string_collection : forall X W V usort unit_expr seed (fsB fsR : N -> build_hasher) em (entries : list (entry bytes X W))
    (evK : X -> bytes) (evV : W -> V) eqR cmpR cmpQ idxQ,
  sorts_by_slot usort ->
  (forall s, bh_str (fsR seed) s = bh_str (fsB seed) s) -> (forall s, bh_bytes (fsR seed) s = bh_bytes (fsB seed) s) ->
  (forall e, In e entries -> rt_key evK e = fst e) ->
  (forall e, In e entries -> N.of_nat (List.length (fst e)) <= usize_max) ->
  N.of_nat (List.length entries) <= usize_max -> options_consistent em ->
  emits (emit_string_collection usort unit_expr seed fsB em entries) em evK evV eqR cmpR
    (rt_ops bytes_eqb cmpQ idxQ (string_hasher fsR)) bytes_eqb bytes_eqb
    (rt_input evK evV (evV unit_expr) (em_has_value_type em) entries).
Proof. exact @emit_string_emits. Qed.
Print Assumptions C35_string_collection.

Definition ex_bh (seed : N) : build_hasher := {|
  bh_str := fun s => fold_left (fun h c => h * 31 + c) s seed; bh_bytes := fun s => fold_left (fun h c => h * 37 + c) s seed |}.
Definition ex_string (keys queries : list bytes) :=
  match emit_string_collection slot_sort 0 5 ex_bh ex_static
          (map (fun k => (k, (k, N.of_nat (List.length k)))) keys ++ [(hd [] keys, (hd [] keys, 100))]) with
  | Ok (ROk (_, out)) =>
      match run_ctor (K := bytes) (V := N) (fun k => k) (fun v => v) bytes_eqb bytes_cmp (o_ctor out) with
      | Ok m => Some (match m with RtHash h _ | RtHashNc h _ => Some h | _ => None end,
                      map (mo_get (rt_ops bytes_eqb bytes_cmp (fun _ => 0) (string_hasher ex_bh)) m) queries)
      | _ => None
      end
  | _ => None
  end.
(** scan, left range, right range and full hashing; queries shorter than the range are no problem *)
Example C35_example :
  ex_string [[1]; [2; 2]] [[]; [1]; [2; 2]] = Some (None, [Ok None; Ok (Some 100); Ok (Some 2)]) /\
  ex_string [[9; 1; 5]; [9; 2; 5]; [9; 3; 5]; [9; 4; 5]] [[]; [9; 1; 5]; [9; 2]; [9; 3; 5]] =
    Some (Some (HcLeft 1 2 5), [Ok None; Ok (Some 100); Ok None; Ok (Some 3)]) /\
  ex_string [[9; 9; 1]; [9; 2]; [9; 9; 3]; [9; 9; 4]] [[]; [9; 9; 1]; [9; 2]; [9; 9; 9; 3]] =
    Some (Some (HcRight 0 1 5), [Ok None; Ok (Some 100); Ok (Some 2); Ok None]) /\
  ex_string [[]; [2]; [3; 3; 3]; [4; 4; 4; 4]] [[]; [2]; [3; 3; 3]; [5; 5]] =
    Some (Some HcLength, [Ok (Some 100); Ok (Some 1); Ok (Some 3); Ok None]) /\
  ex_string [[]; [2]; [3]; [4]; [5]] [[]; [2]; [3]; [6]] =
    Some (Some (HcBridge 5), [Ok (Some 100); Ok (Some 1); Ok (Some 1); Ok None]).
Proof. repeat split; vm_compute; reflexivity. Qed.

(** ** C36 *)
Theorem C36_hash_collection : forall KB X W K V Q usort unit_expr seed hashB eqB em (entries : list (entry KB X W))
    (evK : X -> K) (evV : W -> V) eqR cmpR eqK eqv cmpQ idxQ hashR,
  sorts_by_slot usort -> lawful_eq eqB -> lawful_hash eqB (hashB seed) -> lawful_eq eqK -> lawful_equivalent (Q := Q) eqK eqv ->
  (forall a b, In a entries -> In b entries -> eqK (rt_key evK a) (rt_key evK b) = eqB (fst a) (fst b)) ->
  (forall q e, In e entries -> eqv q (rt_key evK e) = true -> hashR seed q = hashB seed (fst e)) ->
  N.of_nat (List.length entries) <= usize_max -> options_consistent em ->
  emits (emit_hash_collection usort unit_expr seed hashB eqB em entries) em evK evV eqR cmpR
    (rt_ops eqv cmpQ idxQ (general_hasher hashR)) eqK eqv
    (rt_input evK evV (evV unit_expr) (em_has_value_type em) entries).
Proof. exact @emit_hash_emits. Qed.
Print Assumptions C36_hash_collection.

Theorem C36_ordered_collection : forall KB X W K V Q unit_expr cmpB em (entries : list (entry KB X W))
    (evK : X -> K) (evV : W -> V) eqR cmpR cmpK cmpQ eqv idxQ hashQ,
  lawful_ord cmpB -> lawful_ord cmpK -> lawful_comparable (Q := Q) cmpK cmpQ -> (forall q k, eqv q k = cmp_eq cmpQ q k) ->
  (forall a b, In a entries -> In b entries -> cmpK (rt_key evK a) (rt_key evK b) = cmpB (fst a) (fst b)) ->
  options_consistent em ->
  emits (emit_ordered_collection unit_expr cmpB em entries) em evK evV eqR cmpR
    (rt_ops eqv cmpQ idxQ hashQ) (cmp_eq cmpK) eqv
    (rt_input evK evV (evV unit_expr) (em_has_value_type em) entries).
Proof. exact @emit_ordered_emits. Qed.
Print Assumptions C36_ordered_collection.

Definition ex_hash (h : N -> N -> N) (keys queries : list N) :=
  match emit_hash_collection slot_sort_rev 0 3 h N.eqb ex_static (ex_entries keys) with
  | Ok (ROk (_, out)) =>
      match run_ctor (K := N) (V := N) ex_id ex_id N.eqb N.compare (o_ctor out) with
      | Ok m => Some (match m with RtScan _ => 0 | RtHash _ _ => 4 | RtHashNc _ _ => 5 | _ => 6 end,
                      map (mo_get (rt_ops N.eqb N.compare ex_id (general_hasher h)) m) queries)
      | _ => None
      end
  | _ => None
  end.
(** no collisions, then a constant hash *)
Example C36_example :
  ex_hash (fun s k => s + k) [1; 2; 50; 6] [2; 6; 7] = Some (5, [Ok (Some 7); Ok (Some 60); Ok None]) /\
  ex_hash (fun s k => s) [1; 2; 50; 6] [2; 6; 7] = Some (4, [Ok (Some 7); Ok (Some 60); Ok None]) /\
  ex_hash (fun s k => s) [1; 2; 50] [2; 50; 7] = Some (0, [Ok (Some 7); Ok (Some 500); Ok None]) /\
  (exists d out m, emit_ordered_collection 0 N.compare ex_static (ex_entries [4; 2; 9; 1; 30; 5]) = Ok (ROk (d, out)) /\
    run_ctor (K := N) (V := N) ex_id ex_id N.eqb N.compare (o_ctor out) = Ok (RtEytzinger m) /\
    map (mo_get (eytzinger_ops N.compare) m) [0; 1; 2; 3; 30; 31] = [Ok None; Ok (Some 10); Ok (Some 7); Ok None; Ok (Some 300); Ok None]).
Proof.
  split; [vm_compute; reflexivity|]. split; [vm_compute; reflexivity|]. split; [vm_compute; reflexivity|].
  eexists; eexists; eexists. repeat split; vm_compute; reflexivity.
Qed.

(** ** C37 *)
(** [ctor_compiles]: in particular, no literal in the emitted table is too large for its type. *)
Theorem C37_compiles_means_fits : forall X W (c : ctor X W), ctor_compiles c = true ->
  forall i, In i (stored_indices c) -> i <= index_type_max c.
Proof. exact @compiles_fits. Qed.
Print Assumptions C37_compiles_means_fits.

(** Whatever the build-time hash and equality do: *)
Theorem C37_hash_compiles : forall KB X W usort unit_expr seed hashB eqB em (entries : list (entry KB X W)) d out, sorts_by_slot usort ->
  emit_hash_collection usort unit_expr seed hashB eqB em entries = Ok (ROk (d, out)) -> ctor_compiles (o_ctor out) = true.
Proof. exact @emit_hash_compiles. Qed.
Print Assumptions C37_hash_compiles.
Theorem C37_string_compiles : forall X W usort unit_expr seed fsB em (entries : list (entry bytes X W)) d out, sorts_by_slot usort ->
  emit_string_collection usort unit_expr seed fsB em entries = Ok (ROk (d, out)) -> ctor_compiles (o_ctor out) = true.
Proof. exact @emit_string_compiles. Qed.
Print Assumptions C37_string_compiles.
Theorem C37_ordered_compiles : forall KB X W unit_expr cmpB em (entries : list (entry KB X W)) d out,
  emit_ordered_collection unit_expr cmpB em entries = Ok (ROk (d, out)) -> ctor_compiles (o_ctor out) = true.
Proof. exact @emit_ordered_compiles. Qed.
Print Assumptions C37_ordered_compiles.
Theorem C37_scalar_compiles : forall KB X W usort md unit_expr idx cmpB em (entries : list (entry KB X W)) d out,
  sorts_by_slot usort -> lawful_scalar idx cmpB ->
  emit_scalar_collection usort md unit_expr idx cmpB em entries = Ok (ROk (d, out)) -> ctor_compiles (o_ctor out) = true.
Proof. exact @emit_scalar_compiles. Qed.
Print Assumptions C37_scalar_compiles.

(** 255 entries get 8-bit indices, of which the largest is 255; 256 entries get 16-bit ones. *)
Definition ex_many (n : nat) : option (magnitude * N) :=
  match emit_hash_collection slot_sort 0 3 (fun s k => s + k) N.eqb ex_static (map (fun i => let k := N.of_nat i in (k, (k, k))) (seq 0 n)) with
  | Ok (ROk (_, out)) => match o_ctor out with
                         | CHashNc _ _ cm slots _ _ => Some (cm, fold_left N.max slots 0)
                         | _ => None
                         end
  | _ => None
  end.
Example C37_example : ex_many 255 = Some (Small, 255) /\ ex_many 256 = Some (Medium, 256).
Proof. split; vm_compute; reflexivity. Qed.

(** The macros emit the table without chains exactly if no two entries share a slot of the table emitted. *)
Theorem C37_emitted_form : forall KB X W (usort : list (N * entry KB X W) -> list (N * entry KB X W)) g (h : KB -> N) hc entries out,
  sorts_by_slot usort -> N.of_nat (List.length entries) <= usize_max ->
  gen_inline_hash usort g (fun k => Ok (h k)) hc entries = Ok out ->
  (exists len n cm slots rendered, o_ctor out = CHash len n cm slots rendered hc /\ ~ NoDup (map (fun e => h (fst e) mod N.of_nat n) entries)) \/
  (exists len n cm slots rendered, o_ctor out = CHashNc len n cm slots rendered hc /\ NoDup (map (fun e => h (fst e) mod N.of_nat n) entries)).
Proof. exact @emitted_form. Qed.
Print Assumptions C37_emitted_form.
Example C37_form_example :
  let form (f : N -> N) := match gen_inline_hash slot_sort {| g_len := 4; g_set := false |} (fun k => Ok (f k)) HcLength
      (map (fun k => (k, (k, k * 10))) [1; 2; 3; 17]) with
    | Ok out => match o_ctor out with CHash _ n _ _ _ _ => Some (true, n) | CHashNc _ n _ _ _ _ => Some (false, n) | _ => None end
    | _ => None end in
  form (fun k => k) = Some (false, 32%nat) /\ form (fun k => k mod 4) = Some (true, 4%nat).
Proof. split; vm_compute; reflexivity. Qed.

(** ** C38 *)
(** The claim "run-time keys that turn out equal keep the last value" is false. *)
Theorem C38_runtime_duplicates_refuted : exists (entries : list (entry unit N N)) d out,
  emit_hash_collection_expr ex_set entries = Ok (ROk (d, out)) /\ ctor_compiles (o_ctor out) = true /\
  lawful_eq N.eqb /\ run_ctor (K := N) (V := N) (fun x => x mod 2) ex_id N.eqb N.compare (o_ctor out) = Panic.
Proof.
  exists [(tt, (1, 10)); (tt, (3, 30))]. eexists. eexists. split; [reflexivity|]. split; [reflexivity|].
  split; [exact N_eqb_lawful|]. vm_compute. reflexivity.
Qed.
Print Assumptions C38_runtime_duplicates_refuted.

(** Exactly what holds instead, for each kind of macro. From 4 (8 for scalars) keys on, the hashed kinds keep the last value; the
    ordered kind, and all kinds with few keys, panic exactly when two keys turn out equal. *)
Theorem C38_hash_runtime_keys : forall X W KB K V Q em (entries : list (entry KB X W)) (evK : X -> K) (evV : W -> V),
  options_consistent em ->
  forall (eqv : Q -> K -> bool) cmpQ idxQ hashQ usort eqK cmpR hK hQ,
  sorts_by_slot usort -> lawful_eq eqK -> lawful_equivalent eqK eqv -> lawful_hash eqK hK ->
  lawful_query_hash eqv hQ hK -> N.of_nat (List.length entries) <= usize_max ->
  let input := eval_entries evK evV (map snd entries) in
  exists d out, emit_hash_collection_expr em entries = Ok (ROk (d, out)) /\ expected_decl em d /\
    o_set out = negb (em_has_value_type em) /\
    if Nat.ltb (List.length entries) 4
    then exact_or_panic (run_ctor evK evV eqK cmpR (o_ctor out)) (rt_ops eqv cmpQ idxQ hashQ) eqK eqv input
    else exists m, run_fz_hash usort evK evV eqK hK (o_ctor out) = Ok m /\ answers (hash_ops (fun q => Ok (hQ q)) eqv) eqK eqv m input.
Proof. exact @emit_hash_expr_spec. Qed.
Print Assumptions C38_hash_runtime_keys.

Theorem C38_ordered_runtime_keys : forall X W KB K V Q em (entries : list (entry KB X W)) (evK : X -> K) (evV : W -> V),
  options_consistent em ->
  forall (eqv : Q -> K -> bool) cmpQ idxQ hashQ eqK cmpK,
  lawful_ord cmpK -> lawful_comparable cmpK cmpQ -> (forall a b, eqK a b = cmp_eq cmpK a b) -> (forall q k, eqv q k = cmp_eq cmpQ q k) ->
  exists d out, emit_ordered_collection_expr em entries = Ok (ROk (d, out)) /\ expected_decl em d /\
    o_set out = negb (em_has_value_type em) /\
    exact_or_panic (run_ctor evK evV eqK cmpK (o_ctor out)) (rt_ops eqv cmpQ idxQ hashQ) (cmp_eq cmpK) eqv
      (eval_entries evK evV (map snd entries)).
Proof. exact @emit_ordered_expr_spec. Qed.
Print Assumptions C38_ordered_runtime_keys.

Theorem C38_scalar_runtime_keys : forall X W KB K V Q em (entries : list (entry KB X W)) (evK : X -> K) (evV : W -> V),
  options_consistent em ->
  forall (eqv : Q -> K -> bool) cmpQ idxQ hashQ usort md idxK cmpK cmpR,
  let input := eval_entries evK evV (map snd entries) in
  sorts_by_slot usort -> lawful_scalar idxK cmpK -> lawful_query_scalar idxK idxQ eqv -> span_representable idxK (map fst input) ->
  exists d out, emit_scalar_collection_expr em entries = Ok (ROk (d, out)) /\ expected_decl em d /\
    o_set out = negb (em_has_value_type em) /\
    if Nat.ltb (List.length entries) 8
    then exact_or_panic (run_ctor evK evV (idx_eq idxK) cmpR (o_ctor out)) (rt_ops eqv cmpQ idxQ hashQ) (idx_eq idxK) eqv input
    else exists m, run_fz_scalar usort md evK evV idxK cmpK (o_ctor out) = Ok m /\ answers (fz_scalar_ops idxQ eqv) (idx_eq idxK) eqv m input.
Proof. exact @emit_scalar_expr_spec. Qed.
Print Assumptions C38_scalar_runtime_keys.

Theorem C38_string_runtime_keys : forall X W KB V em (entries : list (entry KB X W)) usort bh (evK : X -> bytes) (evV : W -> V)
    cmpR cmpQ idxQ hashQ,
  options_consistent em -> sorts_by_slot usort ->
  let input := eval_entries evK evV (map snd entries) in
  (forall e, In e input -> N.of_nat (List.length (fst e)) <= usize_max) -> N.of_nat (List.length entries) <= usize_max ->
  exists d out, emit_string_collection_expr em entries = Ok (ROk (d, out)) /\ expected_decl em d /\
    o_set out = negb (em_has_value_type em) /\
    if Nat.ltb (List.length entries) 4
    then exact_or_panic (run_ctor evK evV bytes_eqb cmpR (o_ctor out)) (rt_ops bytes_eqb cmpQ idxQ hashQ) bytes_eqb bytes_eqb input
    else exists m, run_fz_string usort bh evK evV (o_ctor out) = Ok m /\ answers fz_string_ops bytes_eqb bytes_eqb m input.
Proof. exact @emit_string_expr_spec. Qed.
Print Assumptions C38_string_runtime_keys.

(** four keys, two of them equal: the hashed kind keeps the last, the ordered kind panics *)
Example C38_example :
  let es := [(tt, (1, 10)); (tt, (2, 20)); (tt, (11, 30)); (tt, (4, 40))] in
  let ev := fun x => x mod 10 in
  (exists d out m, emit_hash_collection_expr ex_static es = Ok (ROk (d, out)) /\
    run_fz_hash (K := N) (V := N) slot_sort ev ex_id N.eqb ex_id (o_ctor out) = Ok m /\
    mo_get (hash_ops (fun q => Ok (ex_id q)) N.eqb) m 1 = Ok (Some 30)) /\
  (exists d out, emit_ordered_collection_expr ex_static es = Ok (ROk (d, out)) /\
    run_ctor (K := N) (V := N) ev ex_id N.eqb N.compare (o_ctor out) = Panic) /\
  (exists d out m, emit_ordered_collection_expr ex_static es = Ok (ROk (d, out)) /\
    run_ctor (K := N) (V := N) ex_id ex_id N.eqb N.compare (o_ctor out) = Ok (RtEytzinger m) /\
    mo_get (eytzinger_ops N.compare) m 11 = Ok (Some 30)).
Proof.
  cbv zeta. split; [|split].
  - eexists; eexists; eexists. repeat split; vm_compute; reflexivity.
  - eexists; eexists. repeat split; vm_compute; reflexivity.
  - eexists; eexists; eexists. repeat split; vm_compute; reflexivity.
Qed.

(** ** C40 *)
Theorem C40_digit_grouping : forall full, exists digits suffix grouped,
  full = digits ++ suffix /\ Forall is_digit digits /\ match suffix with c :: _ => ~ is_digit c | [] => True end /\
  inject_underscores full = grouped ++ suffix /\
  filter (fun c => negb (is_underscore c)) grouped = digits /\
  (forall j c, nth_error (rev grouped) j = Some c -> (c = "_"%char <-> Nat.modulo j 4 = 3%nat)) /\
  nth_error grouped 0 <> Some "_"%char.
Proof. exact inject_spec. Qed.
Print Assumptions C40_digit_grouping.
Example C40_example :
  map (fun s => string_of_list_ascii (inject_underscores (list_ascii_of_string s))) ["1234567u32"; "123456"; "12"; ""; "u8"; "0i8"]%string =
  ["1_234_567u32"; "123_456"; "12"; ""; "u8"; "0i8"]%string.
Proof. vm_compute. reflexivity. Qed.

(** ** C41 *)
Theorem C41_options_rejected : forall em, ~ options_consistent em ->
  (forall KB X W usort unit_expr seed hashB eqB (es : list (entry KB X W)),
     emit_hash_collection usort unit_expr seed hashB eqB em es = Ok (RErr (complaint em))) /\
  (forall KB X W unit_expr cmpB (es : list (entry KB X W)), emit_ordered_collection unit_expr cmpB em es = Ok (RErr (complaint em))) /\
  (forall X W usort unit_expr seed fsB (es : list (entry bytes X W)),
     emit_string_collection usort unit_expr seed fsB em es = Ok (RErr (complaint em))) /\
  (forall KB X W (es : list (entry KB X W)),
     emit_hash_collection_expr em es = Ok (RErr (complaint em)) /\ emit_ordered_collection_expr em es = Ok (RErr (complaint em)) /\
     emit_scalar_collection_expr em es = Ok (RErr (complaint em)) /\ emit_string_collection_expr em es = Ok (RErr (complaint em))).
Proof.
  intros em H. split; [|split; [|split]]; intros; [exact (finish_reject em _ _ H)..|].
  split; [|split; [|split]]; exact (finish_reject em _ _ H).
Qed.
Print Assumptions C41_options_rejected.

(** Whenever an emit function returns, the options alone decide between error and success and fix the declaration. *)
Theorem C41_options_decide : forall em,
  (forall KB X W usort unit_expr seed hashB eqB (es : list (entry KB X W)) r,
     emit_hash_collection usort unit_expr seed hashB eqB em es = Ok r -> options_decide em r) /\
  (forall KB X W unit_expr cmpB (es : list (entry KB X W)) r, emit_ordered_collection unit_expr cmpB em es = Ok r -> options_decide em r) /\
  (forall X W usort unit_expr seed fsB (es : list (entry bytes X W)) r,
     emit_string_collection usort unit_expr seed fsB em es = Ok r -> options_decide em r) /\
  (forall KB X W usort md unit_expr idx cmpB (es : list (entry KB X W)) r,
     emit_scalar_collection usort md unit_expr idx cmpB em es = Ok r -> options_decide em r) /\
  (forall KB X W (es : list (entry KB X W)) r,
     emit_hash_collection_expr em es = Ok r \/ emit_ordered_collection_expr em es = Ok r \/ emit_scalar_collection_expr em es = Ok r \/
     emit_string_collection_expr em es = Ok r -> options_decide em r).
Proof.
  intros em. split; [|split; [|split; [|split]]]; intros.
  - exact (finish_decide em _ _ _ H).
  - exact (finish_decide em _ _ _ H).
  - exact (finish_decide em _ _ _ H).
  - exact (scalar_decide em _ _ _ _ _ _ _ H).
  - destruct H as [H|[H|[H|H]]]; exact (finish_decide em _ _ _ H).
Qed.
Print Assumptions C41_options_decide.

Definition ex_emitter (symbol alias : bool) (const mut static : bool) : emitter := {|
  em_has_value_type := true; em_symbol_name := if symbol then Some "M"%string else None;
  em_alias_name := if alias then Some "A"%string else None; em_const_keys := true; em_const_values := const;
  em_visibility := "pub"; em_is_mutable := mut; em_is_static := static; em_inferred_key_type := false |}.
Definition ex_decl (em : emitter) : option decl :=
  match emit_hash_collection slot_sort 0 3 (fun s k => s + k) N.eqb em (ex_entries [1]) with Ok (ROk (d, _)) => Some d | _ => None end.
Example C41_example :
  ex_decl (ex_emitter true true true false true) = Some (DeclStatic "pub" (Some "A"%string) "M" false) /\
  ex_decl (ex_emitter true false false false true) = Some (DeclStatic "pub" None "M" true) /\
  ex_decl (ex_emitter true false true true false) = Some (DeclLet None true "M") /\
  ex_decl (ex_emitter false false true false false) = Some DeclExpr /\
  ex_decl (ex_emitter true true true true true) = None /\ ex_decl (ex_emitter false false true false true) = None /\
  ex_decl (ex_emitter false true true false false) = None /\ ex_decl (ex_emitter false false true true false) = None /\
  map complaint [ex_emitter true true true true true; ex_emitter false false true false true; ex_emitter false true true false false;
                 ex_emitter false false true true false] =
  ["mutable is not allowed for static collections"; "symbol_name is required for static collections";
   "alias_name cannot be used without symbol_name"; "symbol_name is required for mutable collections"]%string.
Proof. repeat split; vm_compute; reflexivity. Qed.
