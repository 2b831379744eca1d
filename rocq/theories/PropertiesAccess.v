(** Deserialization from accesses that may do anything: theorems about the definitions of ModelAccess.v in the terms of SpecAccess.v. *)
From Coq Require Import String.
From Verif Require Import ModelUtils ModelAnalyzers ModelTables ModelMaps ModelSerde ModelCollect ModelAccess Spec SpecMade SpecSerde SpecAccess Instances
  ProofsAccess.
From Verif Require Import Prelude.

(** ** C86: maps *)
Theorem C86_hash_map : forall K V Q S usort eqK eqv hK hQ size (rd : reader (K * V) S) s,
  sorts_by_slot usort -> lawful_eq eqK -> lawful_equivalent eqK eqv -> lawful_hash eqK hK -> lawful_query_hash (Q := Q) eqv hQ hK ->
  deserializes rd (fun x => x) (fun _ => False) size s (fun fuel => fz_hash_map_read usort eqK hK fuel size rd s)
    (fun m l => made (hash_ops (fun q => Ok (hQ q)) eqv) eqK eqv m l).
Proof. exact @hash_read. Qed.
Print Assumptions C86_hash_map.
Theorem C86_ordered_map : forall K V Q S cmp cmpQ size (rd : reader (K * V) S) s, lawful_ord cmp -> lawful_comparable (Q := Q) cmp cmpQ ->
  deserializes rd (fun x => x) (fun _ => False) size s (fun fuel => fz_ordered_map_read cmp fuel size rd s)
    (fun m l => made (eytzinger_ops cmpQ) (cmp_eq cmp) (cmp_eq cmpQ) m l).
Proof. exact @ordered_read. Qed.
Print Assumptions C86_ordered_map.
Theorem C86_scalar_map : forall K V Q S usort md idx cmp idxQ eqv size (rd : reader (K * V) S) s,
  sorts_by_slot usort -> lawful_scalar idx cmp -> lawful_query_scalar (Q := Q) idx idxQ eqv ->
  (forall hint s0 l s', rd_hint rd s = Some (hint, s0) -> ends rd (fun x => x) s0 l s' -> span_representable idx (map fst l)) ->
  deserializes rd (fun x => x) (fun _ => False) size s (fun fuel => fz_scalar_map_read usort md idx cmp fuel size rd s)
    (fun m l => made (fz_scalar_ops idxQ eqv) (idx_eq idx) eqv m l).
Proof. exact @scalar_read. Qed.
Print Assumptions C86_scalar_map.
Theorem C86_string_map : forall V S usort bh size (rd : reader (str_datum * V) S) s, sorts_by_slot usort ->
  (forall hint s0 l s', rd_hint rd s = Some (hint, s0) -> ends rd (fun e => (Lent (fst e), snd e)) s0 l s' ->
   forall e, In e l -> N.of_nat (List.length (fst e)) <= usize_max) ->
  deserializes rd (fun e => (Lent (fst e), snd e)) transient_entry size s (fun fuel => fz_string_map_read usort bh fuel size rd s)
    (fun m l => made fz_string_ops bytes_eqb bytes_eqb m l).
Proof. exact @string_read. Qed.
Print Assumptions C86_string_map.

(** ** C86: sets *)
Theorem C86_hash_set : forall T Q S usort eqT eqv hT hQ size (rd : reader T S) s,
  sorts_by_slot usort -> lawful_eq eqT -> lawful_equivalent eqT eqv -> lawful_hash eqT hT -> lawful_query_hash (Q := Q) eqv hQ hT ->
  deserializes rd (fun x => x) (fun _ => False) size s (fun fuel => fz_hash_set_read usort eqT hT fuel size rd s)
    (fun m l => made (hash_ops (fun q => Ok (hQ q)) eqv) eqT eqv m (map (fun x => (x, tt)) l)).
Proof. exact @hash_set_read. Qed.
Print Assumptions C86_hash_set.
Theorem C86_ordered_set : forall T Q S cmp cmpQ size (rd : reader T S) s, lawful_ord cmp -> lawful_comparable (Q := Q) cmp cmpQ ->
  deserializes rd (fun x => x) (fun _ => False) size s (fun fuel => fz_ordered_set_read cmp fuel size rd s)
    (fun m l => made (eytzinger_ops cmpQ) (cmp_eq cmp) (cmp_eq cmpQ) m (map (fun x => (x, tt)) l)).
Proof. exact @ordered_set_read. Qed.
Print Assumptions C86_ordered_set.
Theorem C86_scalar_set : forall T Q S usort md idx cmp idxQ eqv size (rd : reader T S) s,
  sorts_by_slot usort -> lawful_scalar idx cmp -> lawful_query_scalar (Q := Q) idx idxQ eqv ->
  (forall hint s0 l s', rd_hint rd s = Some (hint, s0) -> ends rd (fun x => x) s0 l s' -> span_representable idx l) ->
  deserializes rd (fun x => x) (fun _ => False) size s (fun fuel => fz_scalar_set_read usort md idx cmp fuel size rd s)
    (fun m l => made (fz_scalar_ops idxQ eqv) (idx_eq idx) eqv m (map (fun x => (x, tt)) l)).
Proof. exact @scalar_set_read. Qed.
Print Assumptions C86_scalar_set.
Theorem C86_string_set : forall S usort bh size (rd : reader str_datum S) s, sorts_by_slot usort ->
  (forall hint s0 l s', rd_hint rd s = Some (hint, s0) -> ends rd Lent s0 l s' -> forall x, In x l -> N.of_nat (List.length x) <= usize_max) ->
  deserializes rd Lent transient size s (fun fuel => fz_string_set_read usort bh fuel size rd s)
    (fun m l => made fz_string_ops bytes_eqb bytes_eqb m (map (fun x => (x, tt)) l)).
Proof. exact @string_set_read. Qed.
Print Assumptions C86_string_set.

(** ** C86: on accesses that read off a list this is what C56 is about *)
Theorem C86_lists : forall E M (build : list E -> res M) size (a : access E),
  size * N.max 8 (2 * N.of_nat (List.length (ac_items a))) <= isize_max -> N.of_nat (List.length (ac_items a)) <= usize_max ->
  exists fuel, option_map (fun r => bind r (fun x => Ok (fst x))) (read build fuel size (listed (ac_hint a)) (ac_items a)) = Some (visit size a build).
Proof. exact @read_listed. Qed.
Print Assumptions C86_lists.

(** ** Examples *)
(** An access that counts its calls, and goes on after the end: the hint is call 0 and lies, calls 1 and 2 give an entry each, call 3 ends, later
    ones fail. *)
Definition ex_access : reader (N * N) N :=
  {| rd_hint := fun n => Some (Some 1, n + 1);
     rd_next := fun n => if n <? 3 then Gives (n, 10 * n) (n + 1) else if n =? 3 then Ends (n + 1) else Fails "later"%string (n + 1) |}.
Example C86_example :
  ends ex_access (fun x => x) 1 [(1, 10); (2, 20)] 4 /\ fit 16 (Some 1) [(1, 10); (2, 20)] /\
  (exists m, fz_ordered_map_read N.compare 3 16 ex_access 0 = Some (Ok (ROk m, 4)) /\ mo_get (eytzinger_ops N.compare) m 2 = Ok (Some 20) /\
     mo_entries (eytzinger_ops (Q := N) N.compare) m = [(2, 20); (1, 10)]) /\
  fz_ordered_map_read N.compare 2 16 ex_access 0 = None /\
  fz_ordered_map_read N.compare 1 16 ex_access 4 = Some (Ok (RErr "later"%string, 6)).
Proof.
  split; [|split; [|split; [|split]]].
  - exists 3. split; [|vm_compute; reflexivity]. repeat (econstructor; [vm_compute; reflexivity|]). constructor.
  - split; [vm_compute; discriminate|]. left. vm_compute. discriminate.
  - eexists. split; [vm_compute; reflexivity|]. split; vm_compute; reflexivity.
  - vm_compute. reflexivity.
  - vm_compute. reflexivity.
Qed.
(** An access without end, of items without size even, ends in a panic; so does one that panics, and a hint that panics or lies too much. *)
Definition ex_endless : reader unit N := {| rd_hint := fun n => Some (None, n); rd_next := fun n => Gives tt (n + 1) |}.
Definition ex_crashing : reader N N :=
  {| rd_hint := fun n => if n =? 7 then None else Some (Some (if n =? 8 then usize_max else 0), n);
     rd_next := fun n => if n =? 2 then Crashes else Gives n (n + 1) |}.
Example C86_example_panics :
  (exists fuel, fz_ordered_set_read (fun _ _ : unit => Eq) fuel 0 ex_endless 0 = Some Panic) /\
  fz_ordered_set_read N.compare 5 8 ex_crashing 0 = Some Panic /\
  fz_ordered_set_read N.compare 0 8 ex_crashing 7 = Some Panic /\ fz_ordered_set_read N.compare 0 8 ex_crashing 8 = Some Panic.
Proof.
  split; [|split; [vm_compute; reflexivity|split; vm_compute; reflexivity]].
  destruct (C86_ordered_set unit unit N (fun _ _ => Eq) (fun _ _ => Eq) 0 ex_endless 0) as [_ [_ [_ [_ [_ [_ [_ H]]]]]]].
  - repeat split; auto; discriminate.
  - repeat split; auto; discriminate.
  - destruct (H None 0 eq_refl) as [_ [_ [_ [_ HE]]]]; [discriminate|]. apply HE.
    + intros l s' [s1 [_ D]]. discriminate.
    + intros l msg s' [s1 [_ D]]. discriminate.
    + intros l s' [s1 [x [_ [_ []]]]].
Qed.
(** A string set takes strings it can borrow and fails at the first it cannot. *)
Example C86_example_strings :
  let rd := {| rd_hint := fun n : N => Some (Some 9, n); rd_next := fun n => if n =? 0 then Gives (Lent [97]) 1 else if n =? 1 then Gives (Transient [98]) 2 else Ends 3 |} in
  refuses rd Lent transient 0 [[97]] 2 /\
  (exists msg, fz_string_set_read slot_sort {| bh_str := fun b => fold_left (fun a x => a * 31 + x) b 17; bh_bytes := fun b => fold_left (fun a x => a * 257 + x) b 3 |} 4 16 rd 0 = Some (Ok (RErr msg, 2))).
Proof.
  split.
  - exists 1, (Transient [98]). split; [|split; [reflexivity|exact I]]. econstructor; [reflexivity|constructor].
  - eexists. vm_compute. reflexivity.
Qed.
