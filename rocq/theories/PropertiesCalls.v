(** Property theorems about the number of trait method calls (C84), whatever the methods answer. Statements only; proofs are in [ProofsCalls.v] and [ProofsBuildCalls.v]. Each
    theorem is followed by the axioms it depends on and by a concrete case. *)
From Verif Require Import Prelude Spec ModelUtils ModelAnalyzers ModelTables ModelMaps ModelHostile ModelDisjoint SpecHostile SpecCalls ProofsCalls ProofsBuildCalls Instances.

(** ** C84 *)

(** Every request makes a number of calls between two bounds, which depend on the map alone. It comes to an end even if the methods contradict
    themselves, and a panic is that of one of these calls. *)
Theorem C84_bounds : forall K V (rq : request V) (m : any_map K V) adv n, sound m ->
  match h_request rq m adv n with
  | Ok (_, n') => (n + fewest_calls m <= n' <= n + most_calls m)%nat
  | Panic => exists i, (i < most_calls m)%nat /\ a_panics (adv (n + i)%nat) = true
  | UB => False
  end.
Proof. exact @request_calls. Qed.
Print Assumptions C84_bounds.

(** The upper bound is reached: some answers, without panics, make every kind of request take that many calls. *)
Theorem C84_attained : forall K V (m : any_map K V), sound m -> slots_fit m ->
  exists adv, (forall i, a_panics (adv i) = false) /\
    forall rq n, exists x, h_request rq m adv n = Ok (x, (n + most_calls m)%nat).
Proof. exact @worst_request. Qed.
Print Assumptions C84_attained.

(** So is the lower bound. *)
Theorem C84_fewest_attained : forall K V (m : any_map K V), sound m -> slots_fit m ->
  exists adv, (forall i, a_panics (adv i) = false) /\
    forall rq n, exists x, h_request rq m adv n = Ok (x, (n + fewest_calls m)%nat).
Proof. exact @best_request. Qed.
Print Assumptions C84_fewest_attained.

(** No map needs more than one call per entry and one more. *)
Theorem C84_entries : forall K V (m : any_map K V), sound m -> slots_fit m -> (most_calls m <= S (length (any_entries m)))%nat.
Proof. exact @most_calls_entries. Qed.
Print Assumptions C84_entries.

(** [get_disjoint_mut] compares all pairs of keys first, then looks up every key. It panics if a method does, or if one of the comparisons of
    keys answers "equal". *)
Theorem C84_disjoint : forall K V (m : any_map K V) k adv n, sound m ->
  match h_disjoint m k adv n with
  | Ok (_, n') => (n + pairs k + k * fewest_calls m <= n' <= n + pairs k + k * most_calls m)%nat
  | Panic => exists i, (i < pairs k + k * most_calls m)%nat /\
      (a_panics (adv (n + i)%nat) = true \/ (i < pairs k)%nat /\ a_bool (adv (n + i)%nat) = true)
  | UB => False
  end.
Proof. exact @disjoint_calls. Qed.
Print Assumptions C84_disjoint.
Theorem C84_disjoint_attained : forall K V (m : any_map K V) k, sound m -> slots_fit m ->
  exists adv, (forall i, a_panics (adv i) = false) /\
    forall n, exists x, h_disjoint m k adv n = Ok (x, (n + pairs k + k * most_calls m)%nat).
Proof. exact @steady_disjoint. Qed.
Print Assumptions C84_disjoint_attained.

(** Making a scan map takes at most one comparison per pair of entries, and at least one per entry but the last. *)
Theorem C84_scan_new : forall K V usort md (entries : list (K * V)) adv n,
  match h_make usort md MakeScan entries adv n with
  | Ok (_, n') => (n + (length entries - 1) <= n' <= n + pairs (length entries))%nat
  | Panic => exists i, (i < pairs (length entries))%nat /\ a_panics (adv (n + i)%nat) = true
  | UB => False
  end.
Proof. exact @make_scan_calls. Qed.
Print Assumptions C84_scan_new.
Theorem C84_scan_new_attained : forall K V usort md (entries : list (K * V)),
  exists adv, (forall i, a_panics (adv i) = false) /\
    forall n, exists x, h_make usort md MakeScan entries adv n = Ok (x, (n + pairs (length entries))%nat).
Proof. exact @steady_make_scan. Qed.
Print Assumptions C84_scan_new_attained.
Theorem C84_scan_new_fewest_attained : forall K V usort md (entries : list (K * V)),
  exists adv, (forall i, a_panics (adv i) = false) /\
    forall n, exists x, h_make usort md MakeScan entries adv n = Ok (x, (n + (length entries - 1))%nat).
Proof. exact @agree_make_scan. Qed.
Print Assumptions C84_scan_new_fewest_attained.

(** Building a hash table hashes every entry exactly twice, whatever the codes are, and none if there are no entries or too many; a panic is that of one
    of these calls. *)
Theorem C84_hash_table : forall K V usort cm (entries : list (K * V)) adv n, sorts_by_slot usort ->
  let k := if is_nil entries || (max_capacity cm <? N.of_nat (length entries)) then 0%nat else (2 * length entries)%nat in
  match h_hash_from_dedupped usort cm entries adv n with
  | Ok (_, n') => n' = (n + k)%nat
  | Panic => exists i, (i < k)%nat /\ a_panics (adv (n + i)%nat) = true
  | UB => False
  end.
Proof. exact @hash_built. Qed.
Print Assumptions C84_hash_table.

(** What the constructors call once [es] is left after the removal of duplicates, which has taken the calls up to [n1]: a fixed number for each kind of
    map that comes out. *)
Theorem C84_made : forall K V usort md (entries es : list (K * V)) adv n n1 r n', sorts_by_slot usort ->
  (h_using_hash entries adv n = Ok (es, n1) -> h_make usort md MakeFzHash entries adv n = Ok (r, n') -> n' = (n1 + 2 * length es)%nat) /\
  (h_sorted_and_dedupped entries adv n = Ok (es, n1) ->
    (h_make usort md MakeSparse entries adv n = Ok (r, n') -> n' = (n1 + if is_nil es then 0 else length es + 2)%nat) /\
    (h_make usort md MakeDense entries adv n = Ok (r, n') -> n' = (n1 + if is_nil es then 0 else match r with ROk _ => 4 | RErr _ => 2 end)%nat) /\
    (h_make usort md MakeFzScalar entries adv n = Ok (r, n') ->
      match r with
      | ROk (AnyDense _) => n' = (n1 + 2 * length es + 2)%nat
      | ROk (AnySparse _) => n' = (n1 + 3 * length es + 2)%nat
      | ROk (AnyHash _) => n' = (n1 + 4 * length es)%nat
      | _ => False
      end)).
Proof. exact @made_calls. Qed.
Print Assumptions C84_made.

(** A hash map with all five entries in one slot of two, the other one empty; a no-collisions map without an empty slot; an ordered map. *)
Definition five : list (N * N) := [(1, 10); (2, 20); (3, 30); (4, 40); (5, 50)].
Definition crowded : any_map N N := AnyHash {| hm_table := {| ht_mask := 1; ht_slots := [(0, 0); (0, 5)]; ht_entries := five |} |}.
Definition full_table : any_map N N := AnyNoCollisions {| ncm_table := {| nc_mask := 1; nc_slots := [2; 1]; nc_entries := [(1, 10); (2, 20)] |} |}.
Definition five_sorted : any_map N N := AnyOrdered {| em_entries := [(4, 40); (2, 20); (5, 50); (1, 10); (3, 30)] |}.
Lemma low_bit h : N.land h 1 = 0 \/ N.land h 1 = 1.
Proof. pose proof (N.land_ones h 1) as E. change (N.ones 1) with 1 in E. change (2 ^ 1) with 2 in E. rewrite E. pose proof (N.mod_upper_bound h 2 ltac:(discriminate)). lia. Qed.
Example C84_ex_sound : (sound crowded /\ slots_fit crowded) /\ (sound full_table /\ slots_fit full_table) /\ (sound five_sorted /\ slots_fit five_sorted).
Proof.
  split; [split; [intros h _|discriminate]|split; [split; [intros h _|discriminate]|split; exact I]];
    cbn [hm_table ncm_table ht_slots ht_mask ht_entries nc_slots nc_mask nc_entries].
  - destruct (low_bit h) as [-> | ->]; [exists 0, 0|exists 0, 5]; (split; [reflexivity|cbn; lia]).
  - destruct (low_bit h) as [-> | ->]; [exists 2|exists 1]; (split; [reflexivity|cbn; lia]).
Qed.
Example C84_ex_counts : (fewest_calls crowded, most_calls crowded) = (1, 6)%nat /\ (fewest_calls full_table, most_calls full_table) = (2, 2)%nat /\
  (fewest_calls five_sorted, most_calls five_sorted) = (1, 3)%nat /\
  (fewest_calls (AnyScan {| sm_entries := five |}), most_calls (AnyScan {| sm_entries := five |})) = (5, 5)%nat.
Proof. repeat split; vm_compute; reflexivity. Qed.
Definition answers (number : N) (bools : list bool) : nat -> answer :=
  fun i => {| a_panics := false; a_bool := nth i bools true; a_order := Gt; a_number := number |}.
Example C84_ex_hash : exists x y z,
  h_request RqGet crowded (answers 3 []) 0%nat = Ok (x, 2%nat) /\ h_request (RqPut 99) crowded (answers 3 [true; false; false; false; false; false]) 0%nat = Ok (y, 6%nat) /\
  h_request RqContains crowded (answers 4 []) 0%nat = Ok (z, 1%nat).
Proof. vm_compute. do 3 eexists. repeat split. Qed.
Example C84_ex_ordered : exists x, h_request RqGetKeyValue five_sorted (answers 0 []) 7%nat = Ok (x, 10%nat).
Proof. vm_compute. eexists. reflexivity. Qed.
Example C84_ex_disjoint : (exists x, h_disjoint five_sorted 3 (answers 0 [false; false; false]) 0%nat = Ok (x, 12%nat)) /\ h_disjoint five_sorted 3 (answers 0 [false; false]) 0%nat = Panic /\
  pairs 3 = 3%nat.
Proof. split; [vm_compute; eexists; reflexivity|]. split; vm_compute; reflexivity. Qed.
Example C84_ex_scan_new : (exists x, h_make slot_sort Debug MakeScan five (answers 0 []) 0%nat = Ok (x, 4%nat)) /\
  (exists x, h_make slot_sort Debug MakeScan five (answers 0 (repeat false 10)) 0%nat = Ok (x, 10%nat)).
Proof. split; vm_compute; eexists; reflexivity. Qed.
(** Five scalar keys, in order, with the indices that make them dense (twice 3..7, then 3 and 7), far apart, or within a table. *)
Definition listed (l : list N) : nat -> answer := fun i => {| a_panics := false; a_bool := false; a_order := Lt; a_number := nth i l 0 |}.
Definition kind_at (r : res (result (any_map N N) * nat)) : option (nat * nat) :=
  match r with
  | Ok (ROk (AnyDense _), n) => Some (1, n)%nat | Ok (ROk (AnySparse _), n) => Some (2, n)%nat | Ok (ROk (AnyHash _), n) => Some (3, n)%nat
  | _ => None
  end.
Definition spent {A} (r : res (A * nat)) : option nat := match r with Ok (_, n) => Some n | _ => None end.
Example C84_ex_made : h_sorted_and_dedupped five (listed []) 0%nat = Ok (five, 9%nat) /\
  let from l := kind_at (h_make slot_sort Debug MakeFzScalar five (listed (repeat 0 9 ++ l)) 0%nat) in
  from [3; 3; 4; 4; 5; 5; 6; 6; 7; 7; 3; 7] = Some (1, 9 + 12)%nat /\
  from [3; 3; 4; 4; 5; 5; 6; 6; 9; 9; 3; 9; 3; 4; 5; 6; 9] = Some (2, 9 + 17)%nat /\
  from [3; 3; 4; 4; 5; 5; 6; 6; 900; 900; 3; 4; 5; 6; 900; 3; 4; 5; 6; 900] = Some (3, 9 + 20)%nat /\
  spent (h_hash_from_dedupped slot_sort Small five (listed [8; 1; 8; 8; 2]) 7%nat) = Some 17%nat.
Proof. vm_compute. repeat split. Qed.
