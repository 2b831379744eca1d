(** Property theorems about maps (C01-C16, C25-C27, C45, C46, C48). Statements only; proofs are in [Proofs*.v].
    Each theorem is followed by the axioms it depends on and by a concrete case. *)
From Verif Require Import Prelude Spec ModelUtils ModelAnalyzers ModelTables ModelMaps ModelIter SpecSets SpecAnalysis SpecMade
  ProofsBase ProofsFz ProofsIter ProofsMade ProofsProps ProofsLimits Instances.
From Coq Require Import Permutation.

(** What [spec_entry] means: the last supplied entry whose key matches, if any. *)
Theorem spec_entry_is_last : forall K V Q (eqv : Q -> K -> bool) (input : list (K * V)) q,
  (forall e, spec_entry eqv input q = Some e <->
     exists pre post, input = pre ++ e :: post /\ eqv q (fst e) = true /\ forall e', In e' post -> eqv q (fst e') = false) /\
  (spec_entry eqv input q = None <-> forall e, In e input -> eqv q (fst e) = false).
Proof. intros. split; [intros e; exact (last_match_iff _ input e)|exact (last_match_None _ input)]. Qed.
Print Assumptions spec_entry_is_last.

Definition ex_input : list (N * N) := [(1, 10); (2, 20); (1, 11); (300, 30); (2, 21); (5, 50)].
Example spec_entry_example : spec_entry N.eqb ex_input 2 = Some (2, 21) /\ spec_entry N.eqb ex_input 3 = None.
Proof. split; reflexivity. Qed.

(** ** C01 *)
Theorem C01_fz_hash_map_get : forall K V Q usort eqK eqv hK hQ (input : list (K * V)),
  sorts_by_slot usort -> lawful_eq eqK -> lawful_equivalent eqK eqv -> lawful_hash eqK hK -> lawful_query_hash (Q := Q) eqv hQ hK ->
  N.of_nat (length input) <= usize_max ->
  exists m, fz_hash_map_with_hasher usort eqK hK input = Ok m /\
    forall q, mo_get (hash_ops (fun q => Ok (hQ q)) eqv) m q = Ok (spec_get eqv input q).
Proof. exact @fz_hash_get. Qed.
Print Assumptions C01_fz_hash_map_get.

(** every key collides with every other one (constant hash), and a hash that does not *)
Example C01_example :
  (exists m, fz_hash_map_with_hasher slot_sort_rev N.eqb (fun _ => 7) ex_input = Ok m /\
    map (mo_get (hash_ops (fun _ => Ok 7) N.eqb) m) [1; 2; 3; 5; 300] = [Ok (Some 11); Ok (Some 21); Ok None; Ok (Some 50); Ok (Some 30)]) /\
  (exists m, fz_hash_map_with_hasher slot_sort N.eqb (fun k => k * k) ex_input = Ok m /\
    map (mo_get (hash_ops (fun k => Ok (k * k)) N.eqb) m) [1; 2; 3; 5; 300] = [Ok (Some 11); Ok (Some 21); Ok None; Ok (Some 50); Ok (Some 30)]).
Proof. split; eexists; (split; [vm_compute; reflexivity|vm_compute; reflexivity]). Qed.
Example C01_applies : exists m, fz_hash_map_with_hasher slot_sort N.eqb (fun k => k mod 3) ex_input = Ok m /\
    forall q, mo_get (hash_ops (fun q => Ok (q mod 3)) N.eqb) m q = Ok (spec_get N.eqb ex_input q).
Proof.
  exact (C01_fz_hash_map_get N N N slot_sort N.eqb N.eqb (fun k => k mod 3) (fun k => k mod 3) ex_input slot_sort_sorts N_eqb_lawful
    N_eqb_equivalent (N_hash_lawful _) (N_query_hash_lawful _) ltac:(vm_compute; discriminate)).
Qed.

(** ** C02 *)
Theorem C02_fz_ordered_map_get : forall K V Q cmp cmpQ (input : list (K * V)),
  lawful_ord cmp -> lawful_comparable (Q := Q) cmp cmpQ ->
  exists m, fz_ordered_map_new cmp input = Ok m /\ forall q, mo_get (eytzinger_ops cmpQ) m q = Ok (spec_get (cmp_eq cmpQ) input q).
Proof. exact @fz_ordered_get. Qed.
Print Assumptions C02_fz_ordered_map_get.

Example C02_example : exists m, fz_ordered_map_new N.compare ex_input = Ok m /\
  map (mo_get (eytzinger_ops N.compare) m) [0; 1; 2; 3; 5; 300; 301] =
  [Ok None; Ok (Some 11); Ok (Some 21); Ok None; Ok (Some 50); Ok (Some 30); Ok None].
Proof. eexists. split; vm_compute; reflexivity. Qed.
Example C02_applies : lawful_ord N.compare /\ lawful_comparable N.compare N.compare.
Proof. exact (conj N_compare_lawful N_comparable). Qed.

(** The ordered map of [inline_maps] accepts exactly the declared number of distinct keys. *)
Theorem C02_inline_ordered_map_get : forall K V Q cmp cmpQ sz (input : list (K * V)),
  lawful_ord cmp -> lawful_comparable (Q := Q) cmp cmpQ ->
  (sz = key_count (cmp_eq cmp) input -> exists m, inline_eytzinger_map_new cmp sz input = Ok m /\
     forall q, mo_get (eytzinger_ops cmpQ) m q = Ok (spec_get (cmp_eq cmpQ) input q)) /\
  (sz <> key_count (cmp_eq cmp) input -> inline_eytzinger_map_new cmp sz input = Panic).
Proof. exact @inline_ordered_get. Qed.
Print Assumptions C02_inline_ordered_map_get.

Example C02_inline_example : key_count (cmp_eq N.compare) ex_input = 4%nat /\ inline_eytzinger_map_new N.compare 6 ex_input = Panic /\
  exists m, inline_eytzinger_map_new N.compare 4 ex_input = Ok m /\ mo_get (eytzinger_ops N.compare) m 2 = Ok (Some 21).
Proof. split; [reflexivity|]. split; [vm_compute; reflexivity|]. eexists. split; vm_compute; reflexivity. Qed.

(** ** C03 *)
Theorem C03_fz_scalar_map_get : forall K V Q usort md idx cmp idxQ eqv (input : list (K * V)),
  sorts_by_slot usort -> lawful_scalar idx cmp -> lawful_query_scalar (Q := Q) idx idxQ eqv ->
  span_representable idx (map fst input) ->
  exists m, fz_scalar_map_new usort md idx cmp input = Ok m /\
    forall q, mo_get (fz_scalar_ops idxQ eqv) m q = Ok (spec_get eqv input q).
Proof. exact @fz_scalar_get. Qed.
Print Assumptions C03_fz_scalar_map_get.

(** dense, sparse and hashed *)
Example C03_example :
  (exists m, fz_scalar_map_new slot_sort Debug (fun k => k) N.compare [(6, 60); (5, 50); (4, 40); (6, 61)] = Ok (FsDense m) /\
    map (mo_get (fz_scalar_ops (fun k => k) N.eqb) (FsDense m)) [3; 4; 5; 6; 7] = [Ok None; Ok (Some 40); Ok (Some 50); Ok (Some 61); Ok None]) /\
  (exists m, fz_scalar_map_new slot_sort Release (fun k => k) N.compare [(6, 60); (100, 50); (4, 40); (6, 61)] = Ok (FsSparse m) /\
    map (mo_get (fz_scalar_ops (fun k => k) N.eqb) (FsSparse m)) [3; 4; 5; 6; 7; 100; 101] =
      [Ok None; Ok (Some 40); Ok None; Ok (Some 61); Ok None; Ok (Some 50); Ok None]) /\
  (exists m, fz_scalar_map_new slot_sort Debug (fun k => k) N.compare [(6, 60); (100000, 50); (4, 40); (6, 61)] = Ok (FsHash m) /\
    map (mo_get (fz_scalar_ops (fun k => k) N.eqb) (FsHash m)) [3; 4; 6; 100000] = [Ok None; Ok (Some 40); Ok (Some 61); Ok (Some 50)]).
Proof. split; [|split]; eexists; (split; vm_compute; reflexivity). Qed.
Example C03_applies : lawful_scalar byte_val byte_cmp /\ lawful_query_scalar byte_val byte_val byte_eq /\
  span_representable byte_val (map fst [(mk_byte 7, 1); (mk_byte 200, 2)]).
Proof.
  split; [exact byte_scalar|]. split; [exact byte_query_scalar|]. intros a b _ _.
  pose proof (idx_bound_law _ _ byte_scalar) as H. destruct a as [a Ha]. cbn. apply N.ltb_lt in Ha. unfold usize_max. lia.
Qed.

(** ** C04 *)
Theorem C04_fz_string_map_get : forall V usort bh (input : list (bytes * V)),
  sorts_by_slot usort -> N.of_nat (length input) <= usize_max -> (forall e, In e input -> N.of_nat (length (fst e)) <= usize_max) ->
  exists m, fz_string_map_with_hasher usort bh input = Ok m /\
    forall q, mo_get fz_string_ops m q = Ok (spec_get bytes_eqb input q).
Proof. exact @fz_string_get. Qed.
Print Assumptions C04_fz_string_map_get.

Definition ex_hasher : build_hasher := {| bh_str := fun b => fold_left (fun a x => a * 31 + x) b 17; bh_bytes := fun b => fold_left (fun a x => a * 257 + x) b 3 |}.
Definition str (l : list N) : bytes := l.
(** the substring chosen for hashing is on the left, on the right, or absent *)
Example C04_example :
  (exists m, fz_string_map_with_hasher slot_sort ex_hasher [([1;2;3], 1); ([1;4;3], 2); ([1;2;3], 3); ([9;5;3], 4)] = Ok (SmLeft ex_hasher 1 2 m) /\
    map (mo_get fz_string_ops (SmLeft ex_hasher 1 2 m)) [[1;2;3]; [1;4;3]; [9;5;3]; [9;4;3]; []; [1]; [1;2;3;4]] =
    [Ok (Some 3); Ok (Some 2); Ok (Some 4); Ok None; Ok None; Ok None; Ok None]) /\
  (exists m, fz_string_map_with_hasher slot_sort ex_hasher [([1;1;2], 1); ([1;1;1;3], 2); ([1;1;1;4], 3); ([1;1;2], 5); ([1;1;5], 6)] = Ok (SmRight ex_hasher 0 1 m) /\
    map (mo_get fz_string_ops (SmRight ex_hasher 0 1 m)) [[1;1;2]; [1;1;1;3]; [1;1;1;4]; []; [4]] =
    [Ok (Some 5); Ok (Some 2); Ok (Some 3); Ok None; Ok None]) /\
  (exists m, fz_string_map_with_hasher slot_sort ex_hasher [([1], 1); ([2], 2); ([], 3)] = Ok (SmHash ex_hasher m) /\
    map (mo_get fz_string_ops (SmHash ex_hasher m)) [[1]; []; [2]; [3]] = [Ok (Some 1); Ok (Some 3); Ok (Some 2); Ok None]).
Proof. split; [|split]; eexists; (split; vm_compute; reflexivity). Qed.

(** ** C05 *)
Theorem C05_scan_map_get : forall K V Q eqK eqv sz (input : list (K * V)), lawful_eq eqK -> lawful_equivalent (Q := Q) eqK eqv ->
  (forall q, mo_get (scan_ops eqv) (scan_map_new eqK input) q = Ok (spec_get eqv input q) /\
             mo_get_key_value (scan_ops eqv) (scan_map_new eqK input) q = Ok (spec_entry eqv input q)) /\
  (sz = key_count eqK input -> exists m, inline_scan_map_new eqK sz input = Ok m /\
     forall q, mo_get (scan_ops eqv) m q = Ok (spec_get eqv input q) /\ mo_get_key_value (scan_ops eqv) m q = Ok (spec_entry eqv input q)) /\
  (sz <> key_count eqK input -> inline_scan_map_new eqK sz input = Panic).
Proof. exact @scan_get_spec. Qed.
Print Assumptions C05_scan_map_get.

(** keys equal up to parity *)
Definition parity_eq (a b : N) : bool := N.even a && N.even b || negb (N.even a) && negb (N.even b).
Lemma parity_lawful : lawful_eq parity_eq.
Proof.
  split; unfold parity_eq; intros; repeat match goal with |- context [N.even ?x] => destruct (N.even x) | H : context [N.even ?x] |- _ => destruct (N.even x) end; cbn in *; auto.
Qed.
Example C05_example : mo_get (scan_ops parity_eq) (scan_map_new parity_eq ex_input) 7 = Ok (Some 50) /\
  mo_get_key_value (scan_ops parity_eq) (scan_map_new parity_eq ex_input) 4 = Ok (Some (2, 21)) /\
  lawful_equivalent parity_eq parity_eq.
Proof. split; [|split]; try (vm_compute; reflexivity). apply self_equivalent, parity_lawful. Qed.

(** ** C06 *)
Theorem C06_dense_map : forall K V Q md idx cmp idxQ eqv (input : list (K * V)),
  lawful_scalar idx cmp -> lawful_query_scalar (Q := Q) idx idxQ eqv -> span_representable idx (map fst input) ->
  (contiguous idx (map fst input) -> exists m, dense_map_new md idx cmp input = Ok (ROk m) /\
     forall q, mo_get (dense_ops idxQ) m q = Ok (spec_get eqv input q)) /\
  (~ contiguous idx (map fst input) -> exists msg, dense_map_new md idx cmp input = Ok (RErr msg)).
Proof. exact @dense_get_spec. Qed.
Print Assumptions C06_dense_map.

Example C06_example :
  (exists m, dense_map_new Debug (fun k => k) N.compare [(3, 1); (4, 2); (3, 9); (5, 7)] = Ok (ROk m) /\
     map (mo_get (dense_ops (fun k => k)) m) [2; 3; 4; 5; 6] = [Ok None; Ok (Some 9); Ok (Some 2); Ok (Some 7); Ok None]) /\
  (exists msg, dense_map_new Debug (fun k => k) N.compare [(3, 1); (5, 7)] = Ok (RErr msg)).
Proof. split; eexists; [split|]; vm_compute; reflexivity. Qed.

(** ** C07 *)
Theorem C07_sparse_map_get : forall K V Q md idx cmp idxQ eqv (input : list (K * V)),
  lawful_scalar idx cmp -> lawful_query_scalar (Q := Q) idx idxQ eqv -> span_representable idx (map fst input) ->
  exists m, sparse_map_new md idx cmp input = Ok m /\ forall q, mo_get (sparse_ops idxQ) m q = Ok (spec_get eqv input q).
Proof. exact @sparse_get_spec. Qed.
Print Assumptions C07_sparse_map_get.

Example C07_example : exists m, sparse_map_new Release (fun k => k) N.compare [(9, 1); (4, 2); (9, 3); (6, 7)] = Ok m /\
  map (mo_get (sparse_ops (fun k => k)) m) [3; 4; 5; 6; 7; 8; 9; 10] =
  [Ok None; Ok (Some 2); Ok None; Ok (Some 7); Ok None; Ok None; Ok (Some 3); Ok None].
Proof. eexists. split; vm_compute; reflexivity. Qed.

(** ** C08 *)
Theorem C08_hash_map_magnitude : forall K V Q usort cm eqK eqv hK hQ (input : list (K * V)),
  sorts_by_slot usort -> lawful_eq eqK -> lawful_equivalent eqK eqv -> lawful_hash eqK hK -> lawful_query_hash (Q := Q) eqv hQ hK ->
  (N.of_nat (key_count eqK input) <= magnitude_limit cm -> exists m, hash_map_with_hasher usort cm eqK hK input = Ok (ROk m) /\
     forall q, mo_get (hash_ops (fun q => Ok (hQ q)) eqv) m q = Ok (spec_get eqv input q)) /\
  (magnitude_limit cm < N.of_nat (key_count eqK input) -> exists msg, hash_map_with_hasher usort cm eqK hK input = Ok (RErr msg)).
Proof. exact @hash_magnitude. Qed.
Print Assumptions C08_hash_map_magnitude.

(** 255 distinct keys in 300 entries fit the small magnitude, 256 do not; the bounds themselves *)
Definition ex_many (n : nat) : list (N * N) := map (fun i => (N.of_nat (Nat.modulo i n), N.of_nat i)) (seq 0 300).
Example C08_example : magnitude_limit Small = 255 /\
  key_count N.eqb (ex_many 255) = 255%nat /\ key_count N.eqb (ex_many 256) = 256%nat /\
  (exists m, hash_map_with_hasher slot_sort Small N.eqb (fun k => k) (ex_many 255) = Ok (ROk m) /\
     map (mo_get (hash_ops (fun k => Ok k) N.eqb) m) [0; 44; 45; 254; 255] = [Ok (Some 255); Ok (Some 299); Ok (Some 45); Ok (Some 254); Ok None]) /\
  (exists msg, hash_map_with_hasher slot_sort Small N.eqb (fun k => k) (ex_many 256) = Ok (RErr msg)).
Proof. repeat (split; [vm_compute; reflexivity|]). split; eexists; [split|]; vm_compute; reflexivity. Qed.

(** ** C10 *)
Theorem C10_iteration : forall M K V Q (ops : map_ops M K V Q) eqK eqv m input, made ops eqK eqv m input ->
  let es := mo_entries ops m in
  (forall e, In e es <-> exists pre post, input = pre ++ e :: post /\ forall e', In e' post -> eqK (fst e) (fst e') = false) /\
  distinct eqK (map fst es) /\
  yields (it_next map_iter) (iter_new es) es /\ yields (it_next map_into_iter) (iter_new es) es /\
  yields (it_next map_keys) (iter_new es) (map fst es) /\ yields (it_next map_into_keys) (iter_new es) (map fst es) /\
  yields (it_next map_values) (iter_new es) (map snd es) /\ yields (it_next map_into_values) (iter_new es) (map snd es).
Proof. exact @made_iteration. Qed.
Print Assumptions C10_iteration.

(** [made] is inhabited by the maps of the examples above; this one is used below. *)
Definition ex_map : hash_map N N :=
  match fz_hash_map_with_hasher slot_sort N.eqb (fun k => k mod 3) ex_input with Ok m => m | _ => hash_map_default end.
Definition ex_ops : map_ops (hash_map N N) N N N := hash_ops (fun k => Ok (k mod 3)) N.eqb.
Lemma ex_made : made ex_ops N.eqb N.eqb ex_map ex_input.
Proof.
  unfold ex_ops. change (fun k : N => Ok (k mod 3)) with (fun q : N => Ok ((fun k => k mod 3) q)).
  eapply made_fz_hash with (usort := slot_sort) (hK := fun k => k mod 3).
  - exact slot_sort_sorts.
  - exact N_eqb_lawful.
  - exact N_eqb_equivalent.
  - exact (N_hash_lawful _).
  - exact (N_query_hash_lawful _).
  - vm_compute. reflexivity.
Qed.
Example C10_example : Permutation (mo_entries ex_ops ex_map) [(1, 11); (300, 30); (2, 21); (5, 50)] /\ length ex_input = 6%nat.
Proof.
  split; [|reflexivity]. pose proof (made_entries _ _ _ _ _ ex_made) as H. symmetry. exact H.
Qed.

(** ** C11 *)
Theorem C11_len : forall M K V Q (ops : map_ops M K V Q) eqK eqv m input, made ops eqK eqv m input ->
  map_len ops m = key_count eqK input /\
  (exists l, yields (it_next map_iter) (iter_new (mo_entries ops m)) l /\ map_len ops m = length l) /\
  (map_is_empty ops m = true <-> input = []).
Proof.
  intros M K V Q ops eqK eqv m input MD. split; [exact (made_len _ _ _ _ _ MD)|]. split; [|exact (made_is_empty _ _ _ _ _ MD)].
  exists (mo_entries ops m). split; [exact (ex_yields _ _ map_iter_exact _)|reflexivity].
Qed.
Print Assumptions C11_len.

(** [key_count] is the size of any list of pairwise different keys with the same members as the supplied keys. *)
Theorem C11_key_count_is_cardinality : forall K V (eqK : K -> K -> bool) (input : list (K * V)) (l : list K), lawful_eq eqK ->
  distinct eqK l -> (forall k, member eqK k l <-> member eqK k (map fst input)) -> key_count eqK input = length l.
Proof. exact @key_count_card. Qed.
Print Assumptions C11_key_count_is_cardinality.
Example C11_example : map_len ex_ops ex_map = 4%nat /\ map_is_empty ex_ops ex_map = false.
Proof. split; vm_compute; reflexivity. Qed.

(** ** C12 *)
Theorem C12_write_one : forall M K V Q (ops : map_ops M K V Q) eqK eqv m input, made ops eqK eqv m input -> forall q v,
  exists m', map_put ops m q v = Ok m' /\
  made ops eqK eqv m' (mo_entries ops m') /\
  map fst (mo_entries ops m') = map fst (mo_entries ops m) /\
  (forall i k w, nth_error (mo_entries ops m) i = Some (k, w) ->
     nth_error (mo_entries ops m') i = Some (k, if eqv q k then v else w)) /\
  (forall q', mo_get ops m' q' = Ok (match spec_entry eqv input q' with
                                    | Some (k, w) => Some (if eqv q k then v else w)
                                    | None => None end)) /\
  (spec_entry eqv input q = None -> mo_get_mut ops m q = Ok None /\ m' = m).
Proof. exact @made_put_full. Qed.
Print Assumptions C12_write_one.

Theorem C12_write_many : forall M K V Q (ops : map_ops M K V Q) eqK eqv ws m input, made ops eqK eqv m input ->
  exists m', map_puts ops m ws = Ok m' /\ made ops eqK eqv m' (mo_entries ops m') /\
  map fst (mo_entries ops m') = map fst (mo_entries ops m) /\
  (forall i k w, nth_error (mo_entries ops m) i = Some (k, w) ->
     nth_error (mo_entries ops m') i = Some (k, match last_match (fun x : Q * V => eqv (fst x) k) ws with Some x => snd x | None => w end)) /\
  (forall q', mo_get ops m' q' = Ok (match spec_entry eqv input q' with
     | Some (k, w) => Some (match last_match (fun x : Q * V => eqv (fst x) k) ws with Some x => snd x | None => w end)
     | None => None end)).
Proof. exact @made_puts_full. Qed.
Print Assumptions C12_write_many.

(** [iter_mut] and [values_mut] hand out the positions of the entry array, each once and in order. *)
Theorem C12_iter_mut : forall K V (es : list (K * V)),
  yields (it_next map_iter_mut) (iter_mut_new es) (combine (map fst es) (seq 0 (length es))) /\
  yields (it_next map_values_mut) (iter_mut_new es) (seq 0 (length es)).
Proof. exact @iter_mut_positions. Qed.
Print Assumptions C12_iter_mut.

Example C12_example : exists m', map_puts ex_ops ex_map [(2, 7); (9, 1); (300, 8); (2, 6)] = Ok m' /\
  map (mo_get ex_ops m') [1; 2; 5; 9; 300] = [Ok (Some 11); Ok (Some 6); Ok (Some 50); Ok None; Ok (Some 8)].
Proof. eexists. split; vm_compute; reflexivity. Qed.

(** ** C13 *)
Theorem C13_queries_agree : forall M K V Q (ops : map_ops M K V Q) eqK eqv m input, made ops eqK eqv m input -> forall q,
  exists og, mo_get ops m q = Ok og /\ mo_contains_key ops m q = Ok (is_some og) /\
    match og with
    | None => mo_get_key_value ops m q = Ok None /\ mo_get_mut ops m q = Ok None /\ map_index ops m q = Panic
    | Some v => exists k p, mo_get_key_value ops m q = Ok (Some (k, v)) /\ eqv q k = true /\
        mo_get_mut ops m q = Ok (Some p) /\ nth_error (mo_entries ops m) p = Some (k, v) /\ map_index ops m q = Ok v
    end.
Proof. exact @made_agree. Qed.
Print Assumptions C13_queries_agree.
Example C13_example : map_index ex_ops ex_map 2 = Ok 21 /\ map_index ex_ops ex_map 9 = Panic /\
  mo_get_key_value ex_ops ex_map 300 = Ok (Some (300, 30)) /\ mo_contains_key ex_ops ex_map 300 = Ok true.
Proof. repeat split; vm_compute; reflexivity. Qed.

(** ** C14 *)
Theorem C14_disjoint : forall M K V Q (ops : map_ops M K V Q) eqK eqv m input, made ops eqK eqv m input -> forall eqQ keys,
  ((exists i j x y, (i < j)%nat /\ nth_error keys i = Some x /\ nth_error keys j = Some y /\ eqQ x y = true) ->
     get_disjoint_mut ops eqQ m keys = Panic) /\
  ((~ exists i j x y, (i < j)%nat /\ nth_error keys i = Some x /\ nth_error keys j = Some y /\ eqQ x y = true) ->
   exists l, get_disjoint_mut ops eqQ m keys = Ok l /\ Forall2 (fun q o => mo_get_mut ops m q = Ok o) keys l /\
     ((forall q q' k, eqv q k = true -> eqv q' k = true -> eqQ q q' = true) ->
      forall i j p, nth_error l i = Some (Some p) -> nth_error l j = Some (Some p) -> i = j)).
Proof. exact @made_disjoint. Qed.
Print Assumptions C14_disjoint.
Example C14_example : get_disjoint_mut ex_ops N.eqb ex_map [2; 1; 2] = Panic /\
  (exists p1 p2, get_disjoint_mut ex_ops N.eqb ex_map [2; 9; 300] = Ok [Some p1; None; Some p2] /\ p1 <> p2) /\
  (forall q q' k : N, N.eqb q k = true -> N.eqb q' k = true -> N.eqb q q' = true).
Proof.
  split; [vm_compute; reflexivity|]. split.
  - eexists _, _. split; [vm_compute; reflexivity|discriminate].
  - intros q q' k H1 H2. apply N.eqb_eq in H1, H2. subst. apply N.eqb_refl.
Qed.

(** ** C15 (refuted): a query type whose [Eq] is finer than its equivalence to keys gets two references to one value. *)
Definition fat_eqv (q : N * N) (k : N) : bool := fst q =? k.
Definition fat_eq (a b : N * N) : bool := (fst a =? fst b) && (snd a =? snd b).
Theorem C15_disjoint_any_query_refuted :
  exists (ops : map_ops (scan_map N N) N N (N * N)) m input keys (eqQ : N * N -> N * N -> bool) p,
    made ops N.eqb fat_eqv m input /\ lawful_eq eqQ /\ get_disjoint_mut ops eqQ m keys = Ok [Some p; Some p].
Proof.
  exists (scan_ops fat_eqv), (scan_map_new N.eqb [(1, 10)]), [(1, 10)], [(1, 0); (1, 1)], fat_eq, O.
  split; [|split].
  - apply made_scan; [exact N_eqb_lawful|]. intros q k1 k2 H. unfold fat_eqv in *. apply N.eqb_eq in H. rewrite H. reflexivity.
  - split; unfold fat_eq.
    + intros. rewrite !N.eqb_refl. reflexivity.
    + intros x y H. apply andb_prop in H. destruct H as [H1 H2]. rewrite N.eqb_sym, H1, N.eqb_sym, H2. reflexivity.
    + intros x y z H1 H2. apply andb_prop in H1, H2. destruct H1 as [A B], H2 as [C D]. apply N.eqb_eq in A, B, C, D.
      rewrite A, B, C, D, !N.eqb_refl. reflexivity.
  - reflexivity.
Qed.
Print Assumptions C15_disjoint_any_query_refuted.

(** Exactly when: two answers are one reference if and only if one supplied key is equivalent to both queries; so on a given map the
    method is safe if and only if the queries' [Eq] identifies all the queries that are equivalent to one of its keys. *)
Theorem C15_disjoint_aliases_exactly : forall M K V Q (ops : map_ops M K V Q) eqK eqv m input, made ops eqK eqv m input ->
  forall eqQ keys l, get_disjoint_mut ops eqQ m keys = Ok l -> forall i j x y,
  nth_error keys i = Some x -> nth_error keys j = Some y ->
  ((exists p, nth_error l i = Some (Some p) /\ nth_error l j = Some (Some p)) <->
   exists e, In e input /\ eqv x (fst e) = true /\ eqv y (fst e) = true).
Proof. exact @aliases. Qed.
Print Assumptions C15_disjoint_aliases_exactly.
Theorem C15_disjoint_safe_exactly : forall M K V Q (ops : map_ops M K V Q) eqK eqv m input, made ops eqK eqv m input -> forall eqQ,
  (forall keys l i j p, get_disjoint_mut ops eqQ m keys = Ok l -> nth_error l i = Some (Some p) -> nth_error l j = Some (Some p) -> i = j) <->
  (forall q q' e, In e input -> eqv q (fst e) = true -> eqv q' (fst e) = true -> eqQ q q' = true).
Proof. exact @safe_exactly. Qed.
Print Assumptions C15_disjoint_safe_exactly.
Example C15_exactly_example :
  made (scan_ops fat_eqv) N.eqb fat_eqv (scan_map_new N.eqb [(1, 10); (2, 20)]) [(1, 10); (2, 20)] /\
  get_disjoint_mut (scan_ops fat_eqv) fat_eq (scan_map_new N.eqb [(1, 10); (2, 20)]) [(1, 0); (2, 0); (1, 1); (3, 0); (3, 1)] =
    Ok [Some 0%nat; Some 1%nat; Some 0%nat; None; None].
Proof.
  split; [|vm_compute; reflexivity]. apply made_scan; [exact N_eqb_lawful|].
  intros q k1 k2 H. unfold fat_eqv in *. apply N.eqb_eq in H. rewrite H. reflexivity.
Qed.

(** ** C16 *)
Theorem C16_map_eq_extensional : forall M K V (ops : map_ops M K V K) eqK eqV m input input' other,
  made ops eqK eqK m input -> holds eqK other input' ->
  exists b, map_eq ops eqV m other = Ok b /\ (b = true <-> forall k, opt_eq eqV (spec_get eqK input k) (spec_get eqK input' k)).
Proof. exact @map_eq_spec. Qed.
Print Assumptions C16_map_eq_extensional.

Theorem C16_made_maps_hold_their_input : forall M K V (ops : map_ops M K V K) eqK m input,
  made ops eqK eqK m input -> holds eqK (as_query ops m) input.
Proof. exact @made_holds. Qed.
Print Assumptions C16_made_maps_hold_their_input.

Theorem C16_map_eq_refl : forall M K V (ops : map_ops M K V K) eqK eqV m input,
  made ops eqK eqK m input -> (forall v, eqV v v = true) -> map_eq ops eqV m (as_query ops m) = Ok true.
Proof. exact @map_eq_refl. Qed.
Print Assumptions C16_map_eq_refl.

Theorem C16_map_eq_sym : forall M1 M2 K V (ops1 : map_ops M1 K V K) (ops2 : map_ops M2 K V K) eqK eqV m1 m2 in1 in2,
  made ops1 eqK eqK m1 in1 -> made ops2 eqK eqK m2 in2 -> (forall v w, eqV v w = true -> eqV w v = true) ->
  map_eq ops1 eqV m1 (as_query ops2 m2) = map_eq ops2 eqV m2 (as_query ops1 m1).
Proof. exact @map_eq_sym. Qed.
Print Assumptions C16_map_eq_sym.

Theorem C16_map_eq_trans : forall M1 M2 M3 K V (ops1 : map_ops M1 K V K) (ops2 : map_ops M2 K V K) (ops3 : map_ops M3 K V K)
    eqK eqV m1 m2 m3 in1 in2 in3,
  made ops1 eqK eqK m1 in1 -> made ops2 eqK eqK m2 in2 -> made ops3 eqK eqK m3 in3 ->
  (forall u v w, eqV u v = true -> eqV v w = true -> eqV u w = true) ->
  map_eq ops1 eqV m1 (as_query ops2 m2) = Ok true -> map_eq ops2 eqV m2 (as_query ops3 m3) = Ok true ->
  map_eq ops1 eqV m1 (as_query ops3 m3) = Ok true.
Proof. exact @map_eq_trans. Qed.
Print Assumptions C16_map_eq_trans.

Example C16_example :
  map_eq ex_ops N.eqb ex_map (as_query (scan_ops N.eqb) (scan_map_new N.eqb [(5, 50); (2, 21); (300, 30); (1, 11)])) = Ok true /\
  map_eq ex_ops N.eqb ex_map (as_query (scan_ops N.eqb) (scan_map_new N.eqb [(5, 50); (2, 20); (300, 30); (1, 11)])) = Ok false /\
  map_eq ex_ops N.eqb ex_map (as_query (scan_ops N.eqb) (scan_map_new N.eqb [(5, 50); (2, 21); (300, 30); (1, 11); (7, 7)])) = Ok false.
Proof. repeat split; vm_compute; reflexivity. Qed.

(** ** C25 *)
Theorem C25_no_unchecked_access_out_of_range : forall M K V Q (ops : map_ops M K V Q) eqK eqv m input, made ops eqK eqv m input -> forall q ks eqQ,
  mo_get ops m q <> UB /\ mo_get_mut ops m q <> UB /\ mo_get_key_value ops m q <> UB /\ mo_contains_key ops m q <> UB /\
  map_index ops m q <> UB /\ get_disjoint_mut ops eqQ m ks <> UB /\ get_disjoint_unchecked_mut ops m ks <> UB.
Proof. exact @made_no_ub. Qed.
Print Assumptions C25_no_unchecked_access_out_of_range.

(** The outcome [UB] is real: the same lookup on a table that no constructor builds. *)
Example C25_example : mo_get (dense_ops (fun k : N => k)) {| dm_min := 1; dm_max := 5; dm_entries := [(1, 1)] |} 4 = UB.
Proof. reflexivity. Qed.

(** ** C26 *)
Theorem C26_construction_total :
  (forall K V usort eqK hK (input : list (K * V)), sorts_by_slot usort -> lawful_eq eqK -> lawful_hash eqK hK ->
     N.of_nat (key_count eqK input) <= usize_max -> exists m, fz_hash_map_with_hasher usort eqK hK input = Ok m) /\
  (forall K V cmp (input : list (K * V)), lawful_ord cmp -> exists m, fz_ordered_map_new cmp input = Ok m) /\
  (forall V usort bh (input : list (bytes * V)), sorts_by_slot usort -> N.of_nat (key_count bytes_eqb input) <= usize_max ->
     (forall e, In e input -> N.of_nat (length (fst e)) <= usize_max) -> exists m, fz_string_map_with_hasher usort bh input = Ok m) /\
  (forall K V usort md idx cmp (input : list (K * V)), sorts_by_slot usort -> lawful_scalar idx cmp ->
     span_representable idx (map fst input) -> exists m, fz_scalar_map_new usort md idx cmp input = Ok m).
Proof. exact construction_total. Qed.
Print Assumptions C26_construction_total.

Example C26_example : forall md, exists m, fz_scalar_map_new slot_sort md (fun k => k) N.compare [(1, 10); (usize_max, 20)] = Ok m.
Proof. intros []; eexists; vm_compute; reflexivity. Qed.

(** ** C27 (refuted): keys 0 and [usize::MAX] make [FzScalarMap::new] panic in both build modes. *)
Theorem C27_scalar_construction_total_refuted :
  exists (input : list (N * N)), (forall e, In e input -> fst e <= usize_max) /\
    forall md, fz_scalar_map_new slot_sort md (fun k => k) N.compare input = Panic.
Proof.
  exists [(0, 10); (usize_max, 20)]. split.
  - intros e [<-|[<-|[]]]; cbn; unfold usize_max; lia.
  - intros []; vm_compute; reflexivity.
Qed.
Print Assumptions C27_scalar_construction_total_refuted.

(** ** C45 *)
Theorem C45_construction_order : forall M1 M2 K V Q (ops1 : map_ops M1 K V Q) (ops2 : map_ops M2 K V Q) eqK eqv m1 m2 in1 in2,
  made ops1 eqK eqv m1 in1 -> made ops2 eqK eqv m2 in2 -> Permutation in1 in2 -> distinct eqK (map fst in1) ->
  (forall q, mo_get ops1 m1 q = mo_get ops2 m2 q /\ mo_get_key_value ops1 m1 q = mo_get_key_value ops2 m2 q /\
             mo_contains_key ops1 m1 q = mo_contains_key ops2 m2 q) /\
  map_len ops1 m1 = map_len ops2 m2 /\ Permutation (mo_entries ops1 m1) (mo_entries ops2 m2).
Proof. exact @made_order. Qed.
Print Assumptions C45_construction_order.

Theorem C45_construction_order_eq : forall M1 M2 K V (ops1 : map_ops M1 K V K) (ops2 : map_ops M2 K V K) eqK eqV m1 m2 in1 in2,
  made ops1 eqK eqK m1 in1 -> made ops2 eqK eqK m2 in2 -> Permutation in1 in2 -> distinct eqK (map fst in1) -> (forall v, eqV v v = true) ->
  map_eq ops1 eqV m1 (as_query ops2 m2) = Ok true.
Proof. exact @made_order_eq. Qed.
Print Assumptions C45_construction_order_eq.

Example C45_example :
  let in1 := [(1, 11); (300, 30); (2, 21); (5, 50)] in let in2 := [(5, 50); (2, 21); (300, 30); (1, 11)] in
  Permutation in1 in2 /\ distinct N.eqb (map fst in1) /\
  exists m1 m2, fz_hash_map_with_hasher slot_sort N.eqb (fun k => k mod 3) in1 = Ok m1 /\
    fz_hash_map_with_hasher slot_sort N.eqb (fun k => k mod 5) in2 = Ok m2 /\
    mo_entries (hash_ops (fun k => Ok (k mod 3)) N.eqb) m1 <> mo_entries (hash_ops (fun k => Ok (k mod 5)) N.eqb) m2 /\
    map_eq (hash_ops (fun k => Ok (k mod 3)) N.eqb) N.eqb m1 (as_query (hash_ops (fun k => Ok (k mod 5)) N.eqb) m2) = Ok true.
Proof.
  cbv zeta. split; [exact (Permutation_rev [(1, 11); (300, 30); (2, 21); (5, 50)])|]. split.
  - cbn [distinct map fst In]. repeat split; intros y Hy; repeat destruct Hy as [<-|Hy]; try reflexivity; destruct Hy.
  - eexists _, _. split; [vm_compute; reflexivity|]. split; [vm_compute; reflexivity|]. split; [vm_compute; discriminate|vm_compute; reflexivity].
Qed.

(** ** C46: [made] lists every [Default]; they all are made from no entries. *)
Theorem C46_default_empty : forall M K V Q (ops : map_ops M K V Q) eqK eqv m, made ops eqK eqv m [] ->
  (forall q, mo_get ops m q = Ok None /\ mo_get_mut ops m q = Ok None /\ mo_get_key_value ops m q = Ok None /\ mo_contains_key ops m q = Ok false) /\
  mo_entries ops m = [] /\ map_len ops m = O /\ map_is_empty ops m = true.
Proof. exact @made_empty. Qed.
Print Assumptions C46_default_empty.

Theorem C46_default_equals_empty : forall M1 M2 K V (ops1 : map_ops M1 K V K) (ops2 : map_ops M2 K V K) eqK eqV m1 m2,
  made ops1 eqK eqK m1 [] -> made ops2 eqK eqK m2 [] -> map_eq ops1 eqV m1 (as_query ops2 m2) = Ok true.
Proof. exact @made_empty_eq. Qed.
Print Assumptions C46_default_equals_empty.

Theorem C46_defaults_are_made :
  (forall K V Q eqK eqv, lawful_eq eqK -> lawful_equivalent (Q := Q) eqK eqv -> made (scan_ops eqv) eqK eqv (scan_map_default (K := K) (V := V)) []) /\
  (forall K V Q cmp cmpQ, lawful_ord cmp -> lawful_comparable (Q := Q) cmp cmpQ ->
     made (eytzinger_ops cmpQ) (cmp_eq cmp) (cmp_eq cmpQ) (eytzinger_map_default (K := K) (V := V)) []) /\
  (forall K V Q idx cmp idxQ eqv, lawful_scalar idx cmp -> lawful_query_scalar (Q := Q) idx idxQ eqv ->
     made (dense_ops idxQ) (idx_eq idx) eqv (dense_map_default (K := K) (V := V)) [] /\
     made (sparse_ops idxQ) (idx_eq idx) eqv (sparse_map_default (K := K) (V := V)) [] /\
     made (fz_scalar_ops idxQ eqv) (idx_eq idx) eqv (fz_scalar_map_default (K := K) (V := V)) []) /\
  (forall K V Q eqK eqv hQ, lawful_eq eqK -> lawful_equivalent (Q := Q) eqK eqv ->
     made (hash_ops (fun q => Ok (hQ q)) eqv) eqK eqv (hash_map_default (K := K) (V := V)) []) /\
  (forall V bh, made fz_string_ops bytes_eqb bytes_eqb (fz_string_map_default (V := V) bh) []).
Proof. exact defaults_made. Qed.
Print Assumptions C46_defaults_are_made.

Example C46_example : mo_get (dense_ops (fun k : N => k)) (dense_map_default (K := N) (V := N)) 0 = Ok None /\
  mo_get (fz_scalar_ops (fun k : N => k) N.eqb) (fz_scalar_map_default (K := N) (V := N)) 1 = Ok None /\
  mo_get fz_string_ops (fz_string_map_default (V := N) ex_hasher) [1; 2] = Ok None.
Proof. repeat split; vm_compute; reflexivity. Qed.

(** ** C48 (refuted): a [Scalar] type with a lawful [Ord] that is not the order of the indices loses entries. *)
Definition swap01 (k : N) : N := if k =? 0 then 1 else if k =? 1 then 0 else k.
Definition swap_cmp (a b : N) : comparison := N.compare (swap01 a) (swap01 b).
Theorem C48_any_ord_refuted :
  exists (idx : N -> N) (cmp : N -> N -> comparison) (input : list (N * N)) m q,
    lawful_ord cmp /\ (forall a b, cmp a b = Eq <-> idx a = idx b) /\ span_representable idx (map fst input) /\
    fz_scalar_map_new slot_sort Debug idx cmp input = Ok m /\
    mo_get (fz_scalar_ops idx N.eqb) m q <> Ok (spec_get N.eqb input q).
Proof.
  exists (fun k => k), swap_cmp, [(0, 10); (1, 11); (2, 12)]. eexists _, 2.
  split; [|split; [|split; [|split]]].
  - destruct N_compare_lawful as [R O E L]. unfold swap_cmp. split; intros; eauto.
  - intros a b. unfold swap_cmp. rewrite N.compare_eq_iff. unfold swap01. split; [|intros ->; reflexivity].
    destruct (N.eqb_spec a 0), (N.eqb_spec b 0), (N.eqb_spec a 1), (N.eqb_spec b 1); lia.
  - intros a b Ha _. cbn in Ha. unfold usize_max. lia.
  - vm_compute. reflexivity.
  - vm_compute. discriminate.
Qed.
Print Assumptions C48_any_ord_refuted.
