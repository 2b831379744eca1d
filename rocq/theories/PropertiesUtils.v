(** Property theorems about the internal algorithms: hash table sizing, key analyses, Eytzinger layout, deduplication, hashers and lookup
    cost (C28-C32, C44, C47). Statements only; proofs are in [Proofs*.v]. *)
From Verif Require Import Spec ModelUtils ModelAnalyzers ModelTables ModelMaps ModelCost SpecAnalysis
  ProofsBase ProofsDedup ProofsAnalyzer ProofsSlices ProofsSlicesExact ProofsCost ProofsUtilProps Instances.
From Verif Require Import Prelude.
From Coq Require Import Permutation Sorted.

(** ** C28 *)
Theorem C28_sizing : forall codes,
  (codes = [] -> analyze_hash_codes codes = Ok (0, 0)) /\
  (codes <> [] -> let len := N.of_nat (length codes) in
   exists slots coll, analyze_hash_codes codes = Ok (slots, coll) /\
     (exists k, slots = 2 ^ k) /\ len - tolerated len 0 <= slots < 2 * (growth len * len) /\ coll = collisions codes slots /\
     chosen codes len (N.log2_up (len - tolerated len 0)) (N.log2_up (growth len * len)) slots coll).
Proof. exact sizing. Qed.
Print Assumptions C28_sizing.

(** perfect table found at the second size; no acceptable table at any size (five codes, two of them equal) *)
Example C28_example : analyze_hash_codes [0; 4; 9; 14] = Ok (8, 0) /\ analyze_hash_codes [7; 7; 1; 2; 3] = Ok (8, 1) /\
  collisions [7; 7; 1; 2; 3] 8 = 1 /\ collisions [0; 4; 9; 14] 4 = 1.
Proof. repeat split; vm_compute; reflexivity. Qed.
(** 200 codes: 10 collisions are tolerated at the first size *)
Example C28_tolerance : tolerated 200 0 = 10 /\ tolerated 200 1 = 0 /\ tolerated 100000 0 = 5000 /\ tolerated 100000 1 = 1000 /\ growth 200 = 7 /\
  analyze_hash_codes (map N.of_nat (seq 0 190 ++ seq 0 10)) = Ok (256, 10).
Proof. repeat split; vm_compute; reflexivity. Qed.

(** ** C29 *)
Theorem C29_slice_analysis_usable : forall T (eqT : T -> T -> bool) (hash_one : list T -> N), (forall x, eqT x x = true) -> forall keys,
  (forall s, In s keys -> N.of_nat (length s) <= usize_max) ->
  exists a, analyze_slice_keys eqT hash_one keys = Ok a /\ analysis_ok hash_one keys a.
Proof. exact @analyze_slice_keys_spec. Qed.
Print Assumptions C29_slice_analysis_usable.

(** Exactly which range is selected: the first good enough one, in the documented order. *)
Theorem C29_slice_analysis_exact : forall T (eqT : T -> T -> bool) (hash_one : list T -> N), lawful_eq eqT -> forall keys,
  (forall s, In s keys -> N.of_nat (length s) <= usize_max) ->
  (spread_lengths keys -> analyze_slice_keys eqT hash_one keys = Ok SliceLength) /\
  (~ spread_lengths keys -> exists mn mx pl sl,
    least_length keys mn /\ greatest_length keys mx /\ longest_agreement eqT true keys pl /\ longest_agreement eqT false keys sl /\
    analyze_slice_keys eqT hash_one keys = Ok (verdict mx (find (tolerable hash_one keys) (candidates mn mx pl sl)))).
Proof. exact @analyze_slice_keys_exact. Qed.
Print Assumptions C29_slice_analysis_exact.

Definition ex_hash (s : list N) : N := fold_left (fun a x => a * 31 + x) s 17.
Example C29_example :
  analyze_slice_keys N.eqb ex_hash [[5;1;9]; [5;2;9]; [5;3;9;9]] = Ok (LeftHandSubslice 1 2) /\
  analyze_slice_keys N.eqb ex_hash [[5;5;1]; [5;5;2]; [5;5;5;3]] = Ok (LeftHandSubslice 2 3) /\
  analyze_slice_keys N.eqb ex_hash [[1;1;2]; [1;1;3]; [1;1;1;4]] = Ok (LeftHandSubslice 2 3) /\
  analyze_slice_keys N.eqb ex_hash [[1;1;2]; [1;1;1;3]; [1;1;1;4]; [1;1;5]] = Ok (RightHandSubslice 0 1) /\
  analyze_slice_keys N.eqb ex_hash [[1]; [2]; [3]] = Ok SliceGeneral /\
  analyze_slice_keys N.eqb ex_hash [[1]; [2;2]; [3;3;3]] = Ok SliceLength /\
  candidates 2 3 0 1 = [(true, 0, 1); (true, 1, 2); (false, 1, 2); (true, 0, 2)].
Proof. repeat split; vm_compute; reflexivity. Qed.

(** ** C30 *)
Theorem C30_scalar_classification : forall md l, l <> [] -> NoDup l -> (forall x, In x l -> x <= usize_max) ->
  (forall a b, In a l -> In b l -> a < b + usize_max) -> 10 * N.of_nat (length l) <= usize_max ->
  exists n, spans l n /\
    (contiguous (fun x => x) l -> analyze_scalar_keys md l = Ok DenseRange) /\
    (~ contiguous (fun x => x) l ->
      analyze_scalar_keys md l = Ok (if (n <=? 128) || (n <? 10 * N.of_nat (length l)) then SparseRange else ScalarGeneral)).
Proof. exact scalar_class. Qed.
Print Assumptions C30_scalar_classification.
Theorem C30_scalar_classification_empty : forall md, analyze_scalar_keys md [] = Ok ScalarGeneral.
Proof. exact scalar_class_empty. Qed.
Print Assumptions C30_scalar_classification_empty.
Example C30_example : analyze_scalar_keys Debug [6; 4; 5] = Ok DenseRange /\ analyze_scalar_keys Debug [6; 4; 133] = Ok ScalarGeneral /\
  analyze_scalar_keys Release [6; 4; 131] = Ok SparseRange /\ analyze_scalar_keys Debug [6; 4; 132] = Ok ScalarGeneral.
Proof. repeat split; vm_compute; reflexivity. Qed.

(** ** C31 *)
Theorem C31_eytzinger : forall T (src : list T), exists out, eytzinger_layout src = Ok out /\ Permutation src out /\
  forall f, consistent f src -> exists o, eytzinger_search_by out f = Ok o /\
    match o with
    | Some p => exists x, nth_error out p = Some x /\ f x = Eq
    | None => forall x, In x src -> f x <> Eq
    end.
Proof. exact @layout_search. Qed.
Print Assumptions C31_eytzinger.
Example C31_example : eytzinger_layout [1; 2; 3; 4; 5; 6] = Ok [4; 2; 6; 1; 3; 5] /\
  map (fun k => eytzinger_search_by [4; 2; 6; 1; 3; 5] (fun x => N.compare x k)) [0; 1; 4; 5; 6; 7] =
    [Ok None; Ok (Some 3%nat); Ok (Some 0%nat); Ok (Some 5%nat); Ok (Some 2%nat); Ok None].
Proof. split; vm_compute; reflexivity. Qed.
Example C31_consistent : consistent (fun x => N.compare x 4) [1; 2; 3; 4; 5; 6].
Proof.
  intros i j x y Hij Hi Hj.
  do 6 (destruct i as [|i]; [cbn in Hi; inversion Hi; subst; clear Hi;
    do 6 (destruct j as [|j]; [try lia; cbn in Hj; inversion Hj; subst; vm_compute; auto|]); cbn in Hj; destruct j; discriminate|]).
  cbn in Hi. destruct i; discriminate.
Qed.

(** ** C32 *)
Theorem C32_using_eq : forall T (eq : T -> T -> bool) (l : list T), using_eq l eq = survivors eq l.
Proof. exact @dedup_eq. Qed.
Print Assumptions C32_using_eq.
Theorem C32_using_hash : forall T (hasher : T -> N) (eq : T -> T -> bool), lawful_eq eq -> lawful_hash eq hasher -> forall l,
  using_hash l hasher eq = survivors eq l.
Proof. exact @using_hash_survivors. Qed.
Print Assumptions C32_using_hash.
Theorem C32_using_cmp : forall T (cmp : T -> T -> comparison) (l : list T), lawful_ord cmp ->
  Permutation (using_cmp l cmp) (survivors (fun x y => is_eq (cmp x y)) l) /\ StronglySorted (fun x y => cmp x y = Lt) (using_cmp l cmp).
Proof. exact @dedup_cmp. Qed.
Print Assumptions C32_using_cmp.
(** What [survivors] means: pairwise different, one for each supplied element, each the last of its kind. *)
Theorem C32_survivors : forall T (same : T -> T -> bool) l, lawful_eq same ->
  distinct same (survivors same l) /\ (forall x, In x l -> exists y, In y (survivors same l) /\ same x y = true) /\
  (forall x, In x (survivors same l) -> exists pre post, l = pre ++ x :: post /\ forall y, In y post -> same x y = false).
Proof. exact @survivors_char. Qed.
Print Assumptions C32_survivors.
(** The duplicate test in front of [get_disjoint_mut]. *)
Theorem C32_has_duplicates : forall T (eq : T -> T -> bool) (l : list T), has_duplicates eq l = false <-> distinct eq l.
Proof. exact @has_duplicates_spec. Qed.
Print Assumptions C32_has_duplicates.
Example C32_example :
  let same := fun x y : N * N => fst x =? fst y in
  let l := [(5, 1); (3, 2); (5, 3); (4, 4); (3, 5)] in
  using_eq l same = [(5, 3); (4, 4); (3, 5)] /\ using_hash l (fun x => fst x mod 2) same = [(5, 3); (4, 4); (3, 5)] /\
  using_cmp l (fun x y => N.compare (fst x) (fst y)) = [(3, 5); (4, 4); (5, 3)] /\ has_duplicates N.eqb [1; 2; 1] = true.
Proof. repeat split; vm_compute; reflexivity. Qed.

(** ** C44 *)
Theorem C44_left_range_hasher : forall bh lo hi s, lo <= hi ->
  left_range_hash_one bh lo hi s = Ok (if N.of_nat (length s) <? hi then 0 else bh_bytes bh (left_part lo hi s)) /\
  inline_left_range_hash_one lo hi bh s = left_range_hash_one bh lo hi s.
Proof. exact left_hash. Qed.
Print Assumptions C44_left_range_hasher.
Theorem C44_right_range_hasher : forall bh lo hi s, lo <= hi ->
  right_range_hash_one bh lo hi s = Ok (if N.of_nat (length s) <? hi then 0 else bh_bytes bh (right_part lo hi s)) /\
  inline_right_range_hash_one lo hi bh s = right_range_hash_one bh lo hi s.
Proof. exact right_hash. Qed.
Print Assumptions C44_right_range_hasher.
(** The range counted from the right is the mirror image of the one counted from the left. *)
Theorem C44_right_is_mirrored_left : forall T lo hi (s : list T), lo <= hi -> hi <= N.of_nat (length s) ->
  right_part lo hi s = rev (left_part lo hi (rev s)).
Proof. exact @right_part_rev. Qed.
Print Assumptions C44_right_is_mirrored_left.
(** The condition [lo <= hi] cannot be dropped (the constructors accept any range). *)
Theorem C44_backwards_range_panics : forall bh lo hi s, hi < lo -> hi <= N.of_nat (length s) ->
  left_range_hash_one bh lo hi s = Panic /\ right_range_hash_one bh lo hi s = Panic.
Proof. exact backwards_range_panics. Qed.
Print Assumptions C44_backwards_range_panics.
Example C44_example :
  let bh := {| bh_str := fun _ => 0; bh_bytes := ex_hash |} in
  left_range_hash_one bh 1 3 [10; 20; 30; 40] = Ok (ex_hash [20; 30]) /\ right_range_hash_one bh 0 3 [10; 20; 30; 40] = Ok (ex_hash [20; 30; 40]) /\
  right_range_hash_one bh 1 2 [10; 20; 30; 40] = Ok (ex_hash [30]) /\ left_range_hash_one bh 1 3 [10; 20] = Ok 0.
Proof. repeat split; vm_compute; reflexivity. Qed.

(** ** C47 *)
Theorem C47_ordered_lookup_cost : forall T (data : list T) f, exists o log, eytzinger_search_by_log data f = Ok (o, log) /\
  eytzinger_search_by data f = Ok o /\ (length log <= Nat.log2 (length data) + 1)%nat /\ (data = [] -> log = []).
Proof. exact @search_cost. Qed.
Print Assumptions C47_ordered_lookup_cost.
Theorem C47_hash_lookup_cost : forall T usort cm (entries : list T) (h : T -> N), sorts_by_slot usort -> N.of_nat (length entries) <= magnitude_limit cm ->
  exists t, ht_new usort cm entries (fun e => Ok (h e)) = Ok (ROk t) /\ Permutation entries (ht_entries t) /\
  forall hq eq, exists o log rest, ht_find_log t hq eq = Ok (o, log) /\ ht_find t hq eq = Ok o /\
    filter (fun e => h e mod N.of_nat (length (ht_slots t)) =? hq mod N.of_nat (length (ht_slots t))) (ht_entries t) = log ++ rest /\
    (o = None -> rest = []) /\ (ht_has_collisions t = false -> (length (log ++ rest) <= 1)%nat).
Proof. exact @ht_cost. Qed.
Print Assumptions C47_hash_lookup_cost.
(** The test by which the macros choose the table without chains is exact: some two entries share a slot. *)
Theorem C47_collisions_exactly : forall T usort cm (entries : list T) (h : T -> N) t, sorts_by_slot usort -> N.of_nat (length entries) <= magnitude_limit cm ->
  ht_new usort cm entries (fun e => Ok (h e)) = Ok (ROk t) ->
  (ht_has_collisions t = true <-> exists i j a b, (i < j)%nat /\ nth_error (ht_entries t) i = Some a /\ nth_error (ht_entries t) j = Some b /\
     h a mod N.of_nat (length (ht_slots t)) = h b mod N.of_nat (length (ht_slots t))).
Proof. exact @collisions_exactly. Qed.
Print Assumptions C47_collisions_exactly.
Theorem C47_no_collision_lookup_cost : forall T (t : nc_table T) hq eq r, nc_find_log t hq eq = Ok r ->
  nc_find t hq eq = Ok (fst r) /\ (length (snd r) <= 1)%nat.
Proof. exact @nc_cost. Qed.
Print Assumptions C47_no_collision_lookup_cost.
Example C47_example :
  eytzinger_search_by_log [4; 2; 6; 1; 3; 5] (fun x => N.compare x 3) = Ok (Some 4%nat, [4; 2; 3]) /\
  eytzinger_search_by_log [4; 2; 6; 1; 3; 5] (fun x => N.compare x 9) = Ok (None, [4; 6]) /\
  (exists t, ht_new slot_sort Small [1; 2; 3; 17] (fun e => Ok (e mod 4)) = Ok (ROk t) /\
     ht_find_log t 1 (N.eqb 17) = Ok (Some 17, [1; 17]) /\ ht_find_log t 1 (N.eqb 5) = Ok (None, [1; 17]) /\ ht_find_log t 3 (N.eqb 3) = Ok (Some 3, [3]) /\
     ht_has_collisions t = true) /\
  (exists t, ht_new slot_sort Small [1; 2; 3; 17] (fun e => Ok e) = Ok (ROk t) /\ ht_has_collisions t = false).
Proof. split; [vm_compute; reflexivity|]. split; [vm_compute; reflexivity|].
  split; [eexists; split; [vm_compute; reflexivity|]; repeat split; vm_compute; reflexivity|]. eexists. split; vm_compute; reflexivity. Qed.
