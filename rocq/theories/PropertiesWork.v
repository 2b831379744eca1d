(** Property C65: the work of the analyzers and the size of the tables. Statements only; proofs are in [ProofsWork.v]. *)
From Coq Require Import String ZArith.
From Verif Require Import ModelUtils ModelAnalyzers ModelTables ModelMaps ModelScalar ModelEmit ModelMacros ModelWork
  Spec SpecAnalysis SpecEmit SpecMade SpecMacros SpecWork ProofsBase ProofsSlices ProofsFz ProofsWork ProofsWorkLog Instances PropertiesEmit PropertiesMacros.
From Verif Require Import Prelude.

(** ** C65 *)

(** Choosing a hashing strategy for slices. The analysis terminates without panicking, compares each element of the keys at most twice, hashes
    only stretches of at most 16 elements, and hashes at most 32 of them (272 elements) for each element of the keys. Nothing depends on the
    longest key alone, and keys of one length cost half. *)
Theorem C65_slice_work : forall T (eqT : T -> T -> bool) (hash_one : list T -> N), (forall x, eqT x x = true) -> forall keys,
  (forall s, In s keys -> N.of_nat (List.length s) <= usize_max) ->
  exists a log, analyze_slice_keys_log eqT hash_one keys = Ok (a, log) /\ analyze_slice_keys eqT hash_one keys = Ok a /\
    (comparisons log <= 2 * total_size keys)%nat /\ (hash_calls log <= 32 * total_size keys)%nat /\
    (elements_hashed log <= 272 * total_size keys)%nat /\ (forall s, In (Hashed s) log -> (List.length s <= 16)%nat) /\
    ((forall s s', In s keys -> In s' keys -> List.length s = List.length s') ->
     (hash_calls log <= 16 * total_size keys)%nat /\ (elements_hashed log <= 136 * total_size keys)%nat).
Proof. exact @slice_work_bound. Qed.
Print Assumptions C65_slice_work.

(** Choosing the size of a hash table: at most five sizes are tried, each looks at each code at most once, none exceeds twenty slots per code. *)
Theorem C65_hash_work : forall codes, exists r log, analyze_hash_codes_log codes = Ok (r, log) /\ analyze_hash_codes codes = Ok r /\
  (List.length (sizes_tried log) <= most_sizes (List.length codes))%nat /\
  (List.length (codes_looked_at log) <= List.length (sizes_tried log) * List.length codes)%nat /\
  forall n, In n (sizes_tried log) -> n <= N.max 1 (20 * N.of_nat (List.length codes)).
Proof. exact hash_work_bound. Qed.
Print Assumptions C65_hash_work.

(** The record for slices leaves nothing out: whatever equality and hashing do where the record does not say they were asked, the outcome is
    the same. *)
Theorem C65_slice_record : forall T (eqT eqT' : T -> T -> bool) (hash_one hash_one' : list T -> N) keys a log,
  analyze_slice_keys_log eqT hash_one keys = Ok (a, log) -> same_where_asked log eqT eqT' hash_one hash_one' ->
  analyze_slice_keys_log eqT' hash_one' keys = Ok (a, log) /\ analyze_slice_keys eqT' hash_one' keys = Ok a.
Proof.
  intros T eqT eqT' hash_one hash_one' keys a log H S. pose proof (slice_record eqT eqT' hash_one hash_one' keys a log H S) as R.
  split; [exact R|]. exact (plain_of_log _ _ _ _ (analyze_slice_keys_erase eqT' hash_one' keys) R).
Qed.
Print Assumptions C65_slice_record.

(** The record for hash codes exactly. The first size looks at every code. Each further size is twice the one before, and looks at codes until
    as many collisions have been seen as the first size has. *)
Theorem C65_hash_record : forall codes r log, codes <> [] -> analyze_hash_codes_log codes = Ok (r, log) -> exists j tries,
  let m := 2 ^ j in
  log = block m codes ++ flat_map (fun m' => block m' (until codes (collisions codes m) m')) tries /\
  (forall i m', nth_error tries i = Some m' -> m' = m * 2 ^ N.of_nat (S i)) /\ In (fst r) (m :: tries).
Proof. exact hash_record. Qed.
Print Assumptions C65_hash_record.

(** The arrays that maps keep beside their entries are no longer than 20 times the number of entries (or a constant). *)
Theorem C65_hash_map_space : forall K V Q usort cm eqK hK hQ (eqv : Q -> K -> bool) (input : list (K * V)) m, sorts_by_slot usort ->
  hash_map_with_hasher usort cm eqK hK input = Ok (ROk m) \/ fz_hash_map_with_hasher usort eqK hK input = Ok m ->
  (hash_side m <= Nat.max 1 (20 * List.length (mo_entries (hash_ops hQ eqv) m)))%nat.
Proof. intros K V Q usort cm eqK hK hQ eqv input m HU [H|H]; [eapply hash_map_space|eapply fz_hash_map_space]; eauto. Qed.
Print Assumptions C65_hash_map_space.

Theorem C65_string_map_space : forall V usort bh (input : list (bytes * V)) m, sorts_by_slot usort -> fz_string_map_with_hasher usort bh input = Ok m ->
  (string_side m <= Nat.max 1 (20 * List.length (mo_entries fz_string_ops m)))%nat.
Proof. exact @fz_string_map_space. Qed.
Print Assumptions C65_string_map_space.

Theorem C65_scalar_map_space : forall K V Q usort md idx cmp idxQ eqv (input : list (K * V)) m, sorts_by_slot usort -> lawful_scalar idx cmp ->
  fz_scalar_map_new usort md idx cmp input = Ok m ->
  (scalar_side m <= Nat.max 128 (20 * List.length (mo_entries (fz_scalar_ops (Q := Q) idxQ eqv) m)))%nat.
Proof. exact @fz_scalar_map_space. Qed.
Print Assumptions C65_scalar_map_space.

(** The same for emitted code. *)
Theorem C65_emitted_space : forall KB X W (unit_expr : W) em d (out : output X W),
  (forall usort seed hash (eqB : KB -> KB -> bool) es, sorts_by_slot usort -> emit_hash_collection usort unit_expr seed hash eqB em es = Ok (ROk (d, out)) ->
    (ctor_side (o_ctor out) <= 20 * List.length (ctor_entries (o_ctor out)))%nat) /\
  (forall usort seed fs es, sorts_by_slot usort -> emit_string_collection usort unit_expr seed fs em es = Ok (ROk (d, out)) ->
    (ctor_side (o_ctor out) <= 20 * List.length (ctor_entries (o_ctor out)))%nat) /\
  (forall (cmpB : KB -> KB -> comparison) es, emit_ordered_collection unit_expr cmpB em es = Ok (ROk (d, out)) -> ctor_side (o_ctor out) = 0%nat) /\
  (forall usort md idx (cmpB : KB -> KB -> comparison) es, sorts_by_slot usort -> lawful_scalar idx cmpB ->
    emit_scalar_collection usort md unit_expr idx cmpB em es = Ok (ROk (d, out)) ->
    (ctor_side (o_ctor out) <= Nat.max 128 (20 * List.length (ctor_entries (o_ctor out))))%nat).
Proof.
  intros KB X W u em d out. repeat split; intros;
    [eapply emit_hash_space|eapply emit_string_space|eapply emit_ordered_space|eapply emit_scalar_space]; eauto.
Qed.
Print Assumptions C65_emitted_space.

Definition ex_counts {A} (r : res (A * list (slice_work N))) : option (nat * nat * nat) :=
  match r with Ok (_, log) => Some (comparisons log, hash_calls log, elements_hashed log) | _ => None end.
Definition ex_sizes (codes : list N) : option (list N * nat) :=
  match analyze_hash_codes_log codes with Ok (_, log) => Some (sizes_tried log, List.length (codes_looked_at log)) | _ => None end.

Definition ex_scalar_side (keys : list N) : option nat :=
  match fz_scalar_map_new slot_sort Debug (fun k : N => k) N.compare (map (fun k => (k, tt)) keys) with Ok m => Some (scalar_side m) | _ => None end.

(** The bounds on the table sizes and on the constant are reached. *)
Example C65_example :
  ex_sizes (repeat 3 7) = Some ([8; 16; 32; 64; 128], 35%nat) /\ ex_sizes [0; 1; 2; 3] = Some ([4], 4%nat) /\
  ex_sizes [5; 13; 21] = Some ([4; 8; 16; 32], 12%nat) /\
  ex_counts (analyze_slice_keys_log N.eqb (fun l => fold_left (fun a x => a * 31 + x) l 7)
    [[97; 98; 99; 1]; [97; 98; 99; 2]; [97; 98; 99; 3]; [97; 98; 99; 4]; [97; 98; 99; 5]; [97; 98; 99; 6]; [97; 98; 99; 7]]) = Some (28, 7, 7)%nat /\
  ex_counts (analyze_slice_keys_log N.eqb (fun _ => 0)
    [[97; 98; 99; 1]; [97; 98; 99; 2]; [97; 98; 99; 3; 8]; [97; 98; 99; 4; 8]; [97; 98; 99; 5]; [97; 98; 99; 6; 9]; [97; 98; 99; 7; 9]; [97; 98; 9; 6];
     [7; 9; 9; 7]]) = Some (32, 40, 80)%nat /\
  ex_scalar_side [5; 132] = Some 128%nat /\ ex_scalar_side [5; 133] = Some 2%nat /\ ex_scalar_side [7; 6; 5] = Some 0%nat.
Proof. vm_compute. repeat split; reflexivity. Qed.

(** Equality and hashing that are wrong where they are never asked, and a record of sizes cut short. *)
Definition ex_record_keys : list (list N) := [[97; 1; 5]; [97; 2; 6]; [97; 3; 5]; [97; 4; 6]; [97; 7; 5]; [97; 8; 6]; [97; 9; 5]].
Definition ex_odd (a b : N) : bool := (a =? b) || ((a =? 1) && (b =? 9)).
Example C65_record_example : exists a log, analyze_slice_keys_log N.eqb (hd 0) ex_record_keys = Ok (a, log) /\
  same_where_asked log N.eqb ex_odd (hd 0) (fun s => if Nat.eqb (List.length s) 3 then 0 else hd 0 s) /\ (0 < comparisons log)%nat /\ (0 < hash_calls log)%nat /\
  a = LeftHandSubslice 1 2.
Proof.
  eexists. eexists. split; [vm_compute; reflexivity|]. split; [|split; [cbn; lia|split; [cbn; lia|reflexivity]]].
  split; intros; cbn [In] in H; repeat (destruct H as [H|H]; [first [discriminate H|injection H as <- <-; reflexivity|injection H as <-; reflexivity]|]); destruct H.
Qed.
Example C65_hash_record_example : option_map snd (match analyze_hash_codes_log [3; 3; 3; 1; 2] with Ok x => Some x | _ => None end) =
  Some (block 8 [3; 3; 3; 1; 2] ++ block 16 [3; 3; 3] ++ block 32 [3; 3; 3] ++ block 64 [3; 3; 3]) /\
  option_map snd (match analyze_hash_codes_log [3; 11; 1; 19] with Ok x => Some x | _ => None end) =
  Some (block 4 [3; 11; 1; 19] ++ block 8 [3; 11; 1; 19] ++ block 16 [3; 11; 1; 19] ++ block 32 [3; 11; 1; 19]).
Proof. vm_compute. auto. Qed.
