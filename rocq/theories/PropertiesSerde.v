(** Serialization and deserialization: theorems about the definitions of ModelSerde.v in the terms of SpecSerde.v. *)
From Coq Require Import String Permutation.
From Verif Require Import ModelUtils ModelTables ModelMaps ModelIter ModelSerde Spec SpecSets SpecMade SpecSerde Instances ProofsMade ProofsSerde.
From Verif Require Import Prelude.

(** ** C42: whatever map type was serialized, and whichever frozen type it is deserialized to *)
Theorem C42_hash_map : forall M K V Q St Out (ops : map_ops M K V Q) eqK eqv m input, made ops eqK eqv m input ->
  forall (ser : serializer (K * V) St Out) de out size, faithful ser de whole -> map_serialize ops ser m = ROk out ->
  size * N.of_nat (map_len ops m) <= isize_max ->
  forall usort hK hQ, sorts_by_slot usort -> lawful_hash eqK hK -> lawful_query_hash eqv hQ hK -> N.of_nat (map_len ops m) <= usize_max ->
  exists m', fz_hash_map_visit usort eqK hK size (de out) = Ok (ROk m') /\ same_answers ops m (hash_ops (fun q => Ok (hQ q)) eqv) m' /\
    made (hash_ops (fun q => Ok (hQ q)) eqv) eqK eqv m' (mo_entries ops m).
Proof. exact @hash_trip. Qed.
Print Assumptions C42_hash_map.

Theorem C42_ordered_map : forall M K V Q St Out (ops : map_ops M K V Q) eqK eqv m input, made ops eqK eqv m input ->
  forall (ser : serializer (K * V) St Out) de out size, faithful ser de whole -> map_serialize ops ser m = ROk out ->
  size * N.of_nat (map_len ops m) <= isize_max ->
  forall cmp cmpQ, lawful_ord cmp -> lawful_comparable cmp cmpQ ->
  (forall a b, cmp_eq cmp a b = eqK a b) -> (forall q k, cmp_eq cmpQ q k = eqv q k) ->
  exists m', fz_ordered_map_visit cmp size (de out) = Ok (ROk m') /\ same_answers ops m (eytzinger_ops cmpQ) m' /\
    made (eytzinger_ops cmpQ) (cmp_eq cmp) (cmp_eq cmpQ) m' (mo_entries ops m).
Proof. exact @ordered_trip. Qed.
Print Assumptions C42_ordered_map.

Theorem C42_scalar_map : forall M K V Q St Out (ops : map_ops M K V Q) eqK eqv m input, made ops eqK eqv m input ->
  forall (ser : serializer (K * V) St Out) de out size, faithful ser de whole -> map_serialize ops ser m = ROk out ->
  size * N.of_nat (map_len ops m) <= isize_max ->
  forall usort md idx cmp idxQ, sorts_by_slot usort -> lawful_scalar idx cmp -> lawful_query_scalar idx idxQ eqv ->
  (forall a b, idx_eq idx a b = eqK a b) -> span_representable idx (map fst (mo_entries ops m)) ->
  exists m', fz_scalar_map_visit usort md idx cmp size (de out) = Ok (ROk m') /\ same_answers ops m (fz_scalar_ops idxQ eqv) m' /\
    made (fz_scalar_ops idxQ eqv) (idx_eq idx) eqv m' (mo_entries ops m).
Proof. exact @scalar_trip. Qed.
Print Assumptions C42_scalar_map.

(** Keys must be borrowed from the input; see C43 for formats that cannot lend. *)
Theorem C42_string_map : forall M V St Out (ops : map_ops M bytes V bytes) eqK m input
    (ser : serializer (bytes * V) St Out) de out size usort bh,
  made ops eqK eqK m input -> (forall a b, eqK a b = bytes_eqb a b) -> faithful ser de lent_key -> map_serialize ops ser m = ROk out ->
  size * N.of_nat (map_len ops m) <= isize_max -> sorts_by_slot usort -> N.of_nat (map_len ops m) <= usize_max ->
  (forall e, In e (mo_entries ops m) -> N.of_nat (List.length (fst e)) <= usize_max) ->
  exists m', fz_string_map_visit usort bh size (de out) = Ok (ROk m') /\ same_answers ops m fz_string_ops m' /\
    made fz_string_ops bytes_eqb bytes_eqb m' (mo_entries ops m).
Proof. exact @string_trip. Qed.
Print Assumptions C42_string_map.

(** The original and a map made from its entries, as the one read back is, compare equal both ways. *)
Theorem C42_map_equal : forall M M' K V (ops : map_ops M K V K) (ops' : map_ops M' K V K) eqK eqK' eqV m m' input,
  made ops eqK eqK m input -> made ops' eqK' eqK' m' (mo_entries ops m) -> (forall a b, eqK' a b = eqK a b) -> (forall v, eqV v v = true) ->
  map_eq ops' eqV m' (as_query ops m) = Ok true /\ map_eq ops eqV m (as_query ops' m') = Ok true.
Proof. exact @rebuilt_equal. Qed.
Print Assumptions C42_map_equal.

Theorem C42_hash_set : forall M T Q St Out (ops : map_ops M T unit Q) eqT eqv m input, made ops eqT eqv m input ->
  forall (ser : serializer T St Out) de out size, faithful ser de whole -> set_serialize ops ser m = ROk out ->
  size * N.of_nat (set_len ops m) <= isize_max ->
  forall usort hT hQ, sorts_by_slot usort -> lawful_hash eqT hT -> lawful_query_hash eqv hQ hT -> N.of_nat (set_len ops m) <= usize_max ->
  exists m', fz_hash_set_visit usort eqT hT size (de out) = Ok (ROk m') /\ same_answers ops m (hash_ops (fun q => Ok (hQ q)) eqv) m' /\
    made (hash_ops (fun q => Ok (hQ q)) eqv) eqT eqv m' (mo_entries ops m).
Proof. exact @hash_set_trip. Qed.
Print Assumptions C42_hash_set.

Theorem C42_ordered_set : forall M T Q St Out (ops : map_ops M T unit Q) eqT eqv m input, made ops eqT eqv m input ->
  forall (ser : serializer T St Out) de out size, faithful ser de whole -> set_serialize ops ser m = ROk out ->
  size * N.of_nat (set_len ops m) <= isize_max ->
  forall cmp cmpQ, lawful_ord cmp -> lawful_comparable cmp cmpQ ->
  (forall a b, cmp_eq cmp a b = eqT a b) -> (forall q k, cmp_eq cmpQ q k = eqv q k) ->
  exists m', fz_ordered_set_visit cmp size (de out) = Ok (ROk m') /\ same_answers ops m (eytzinger_ops cmpQ) m' /\
    made (eytzinger_ops cmpQ) (cmp_eq cmp) (cmp_eq cmpQ) m' (mo_entries ops m).
Proof. exact @ordered_set_trip. Qed.
Print Assumptions C42_ordered_set.

Theorem C42_scalar_set : forall M T Q St Out (ops : map_ops M T unit Q) eqT eqv m input, made ops eqT eqv m input ->
  forall (ser : serializer T St Out) de out size, faithful ser de whole -> set_serialize ops ser m = ROk out ->
  size * N.of_nat (set_len ops m) <= isize_max ->
  forall usort md idx cmp idxQ, sorts_by_slot usort -> lawful_scalar idx cmp -> lawful_query_scalar idx idxQ eqv ->
  (forall a b, idx_eq idx a b = eqT a b) -> span_representable idx (set_values ops m) ->
  exists m', fz_scalar_set_visit usort md idx cmp size (de out) = Ok (ROk m') /\ same_answers ops m (fz_scalar_ops idxQ eqv) m' /\
    made (fz_scalar_ops idxQ eqv) (idx_eq idx) eqv m' (mo_entries ops m).
Proof. exact @scalar_set_trip. Qed.
Print Assumptions C42_scalar_set.

Theorem C42_string_set : forall M St Out (ops : map_ops M bytes unit bytes) eqT m input (ser : serializer bytes St Out) de out size usort bh,
  made ops eqT eqT m input -> (forall a b, eqT a b = bytes_eqb a b) -> faithful ser de Lent -> set_serialize ops ser m = ROk out ->
  size * N.of_nat (set_len ops m) <= isize_max -> sorts_by_slot usort -> N.of_nat (set_len ops m) <= usize_max ->
  (forall s, In s (set_values ops m) -> N.of_nat (List.length s) <= usize_max) ->
  exists m', fz_string_set_visit usort bh size (de out) = Ok (ROk m') /\ same_answers ops m fz_string_ops m' /\
    made fz_string_ops bytes_eqb bytes_eqb m' (mo_entries ops m).
Proof. exact @string_set_trip. Qed.
Print Assumptions C42_string_set.

Theorem C42_set_equal : forall M M' T (ops : map_ops M T unit T) (ops' : map_ops M' T unit T) eqT eqT' m m' input,
  made ops eqT eqT m input -> made ops' eqT' eqT' m' (mo_entries ops m) -> (forall a b, eqT' a b = eqT a b) ->
  set_eq (as_set ops' m') (as_set ops m) = Ok true /\ set_eq (as_set ops m) (as_set ops' m') = Ok true.
Proof. exact @set_rebuilt_equal. Qed.
Print Assumptions C42_set_equal.

(** A faithful format exists, and serializing with it always succeeds. *)
Theorem C42_format_exists : forall E E' (view : E -> E'), faithful (list_ser E) (list_de view) view /\
  forall items, exists out, serialize (list_ser E) (Some (N.of_nat (List.length items))) items = ROk out.
Proof. intros E E' view. split; [exact (list_faithful view)|]. intros items. eexists. exact (list_serialize items). Qed.
Print Assumptions C42_format_exists.

(** What the serializer is told, whatever serializer it is: the number of distinct keys, then each of them once with its last value; and if
    it refuses, its first error is the result. *)
Theorem C42_map_writes : forall M K V Q St Out (ops : map_ops M K V Q) eqK eqv m input (ser : serializer (K * V) St Out), made ops eqK eqv m input ->
  exists items,
    (forall e, In e items <-> exists pre post, input = pre ++ e :: post /\ forall e', In e' post -> eqK (fst e) (fst e') = false) /\
    distinct eqK (map fst items) /\ writes ser (N.of_nat (List.length items)) items (map_serialize ops ser m).
Proof. exact @map_writes. Qed.
Print Assumptions C42_map_writes.

Theorem C42_set_writes : forall M T Q St Out (ops : map_ops M T unit Q) eqT eqv m values (ser : serializer T St Out),
  made ops eqT eqv m (unit_entries values) ->
  exists items,
    (forall x, In x items <-> exists pre post, values = pre ++ x :: post /\ forall x', In x' post -> eqT x x' = false) /\
    distinct eqT items /\ writes ser (N.of_nat (List.length items)) items (set_serialize ops ser m).
Proof. exact @set_writes. Qed.
Print Assumptions C42_set_writes.

(** A serializer that refuses the key 9 is not offered what comes after it. *)
Definition ex_refuses : serializer (N * N) N N :=
  {| se_begin := fun _ => ROk 0; se_item := fun n e => if fst e =? 9 then RErr "nine" else ROk (n + 1); se_end := fun n => ROk n |}.
Example C42_writes_example : exists m, fz_ordered_map_new N.compare [(5, 50); (3, 30); (5, 51); (9, 90)] = Ok m /\
  map_serialize (eytzinger_ops (Q := N) N.compare) ex_refuses m = RErr "nine".
Proof. eexists. split; [vm_compute; reflexivity|]. vm_compute. reflexivity. Qed.

(** An ordered map with a repeated key, written and read back as a hash map: the announced length is the number of distinct keys. *)
Definition ex_ops : map_ops (eytzinger_map N N) N N N := eytzinger_ops N.compare.
Definition ex_hops : map_ops (hash_map N N) N N N := hash_ops (fun q => Ok (q mod 5)) N.eqb.
Example C42_example : exists m out m', fz_ordered_map_new N.compare [(5, 50); (3, 30); (5, 51); (9, 90)] = Ok m /\
  map_serialize ex_ops (list_ser (N * N)) m = ROk out /\ fst out = 3 /\
  fz_hash_map_visit slot_sort N.eqb (fun k => k mod 5) 16 (list_de whole out) = Ok (ROk m') /\
  map (mo_get ex_hops m') [5; 3; 9; 4] = [Ok (Some 51); Ok (Some 30); Ok (Some 90); Ok None] /\
  map_eq ex_hops N.eqb m' (as_query ex_ops m) = Ok true.
Proof. do 3 eexists. repeat (split; [vm_compute; reflexivity|]). vm_compute. reflexivity. Qed.

(** ** C43 *)
Theorem C43_string_map_needs_lending : forall M V St Out (ops : map_ops M bytes V bytes) m (ser : serializer (bytes * V) St Out) de out size usort bh,
  map_is_empty ops m = false -> faithful ser de transient_key -> map_serialize ops ser m = ROk out ->
  size * N.of_nat (map_len ops m) <= isize_max -> exists msg, fz_string_map_visit usort bh size (de out) = Ok (RErr msg).
Proof. exact @transient_map_fails. Qed.
Print Assumptions C43_string_map_needs_lending.

Theorem C43_string_set_needs_lending : forall M St Out (ops : map_ops M bytes unit bytes) m (ser : serializer bytes St Out) de out size usort bh,
  map_is_empty ops m = false -> faithful ser de Transient -> set_serialize ops ser m = ROk out ->
  size * N.of_nat (set_len ops m) <= isize_max -> exists msg, fz_string_set_visit usort bh size (de out) = Ok (RErr msg).
Proof. exact @transient_set_fails. Qed.
Print Assumptions C43_string_set_needs_lending.

Definition ex_bh : build_hasher := {| bh_str := fun b => fold_left (fun a x => a * 31 + x) b 17; bh_bytes := fun b => fold_left (fun a x => a * 257 + x) b 3 |}.
(** The claim that a string map survives every faithful format is false. *)
Theorem C43_string_round_trip_refuted : exists (m : fz_string_map N) out msg,
  fz_string_map_with_hasher slot_sort ex_bh [([104; 105], 7)] = Ok m /\
  faithful (list_ser (bytes * N)) (list_de transient_key) transient_key /\
  map_serialize fz_string_ops (list_ser (bytes * N)) m = ROk out /\
  fz_string_map_visit slot_sort ex_bh 24 (list_de transient_key out) = Ok (RErr msg).
Proof.
  destruct (build_string slot_sort ex_bh [([104; 105], 7)] slot_sort_sorts) as [m [B MD]].
  { cbn. unfold usize_max. lia. }
  { intros e [<-|[]]. cbn. unfold usize_max. lia. }
  assert (L : map_len fz_string_ops m = 1%nat) by (rewrite (made_len _ _ _ _ _ MD); reflexivity).
  pose proof (list_serialize (mo_entries fz_string_ops m)) as S.
  destruct (transient_map_fails fz_string_ops m (list_ser (bytes * N)) (list_de transient_key) _ 24 slot_sort ex_bh
    ltac:(unfold map_is_empty; rewrite L; reflexivity) (list_faithful transient_key) S) as [msg F].
  { rewrite L. unfold isize_max. lia. }
  exists m. eexists. exists msg. split; [exact B|]. split; [exact (list_faithful transient_key)|]. split; [exact S|exact F].
Qed.
Print Assumptions C43_string_round_trip_refuted.

(** The same map does survive when the format lends. *)
Definition ex_trip (input : list (bytes * N)) (queries : list bytes) : res (list (option N)) :=
  m <- fz_string_map_with_hasher slot_sort ex_bh input ;;
  match map_serialize fz_string_ops (list_ser (bytes * N)) m with
  | RErr _ => Panic
  | ROk out => r <- fz_string_map_visit slot_sort ex_bh 24 (list_de lent_key out) ;;
      match r with RErr _ => Panic | ROk m' => mapM (mo_get fz_string_ops m') queries end
  end.
Example C43_example : ex_trip [([104; 105], 7); ([104; 106], 8)] [[104; 105]; [104; 106]; [104]] = Ok [Some 7; Some 8; None].
Proof. vm_compute. reflexivity. Qed.

(** ** C56: any input, faithful or not *)
Theorem C56_hash_map : forall K V Q usort eqK eqv hK hQ size (a : access (K * V)),
  sorts_by_slot usort -> lawful_eq eqK -> lawful_equivalent eqK eqv -> lawful_hash eqK hK -> lawful_query_hash (Q := Q) eqv hQ hK ->
  N.of_nat (List.length (ac_items a)) <= usize_max ->
  visits size a (fz_hash_map_visit usort eqK hK size a) (made (hash_ops (fun q => Ok (hQ q)) eqv) eqK eqv).
Proof. exact @hash_visits. Qed.
Print Assumptions C56_hash_map.

Theorem C56_ordered_map : forall K V Q cmp cmpQ size (a : access (K * V)), lawful_ord cmp -> lawful_comparable (Q := Q) cmp cmpQ ->
  visits size a (fz_ordered_map_visit cmp size a) (made (eytzinger_ops cmpQ) (cmp_eq cmp) (cmp_eq cmpQ)).
Proof. exact @ordered_visits. Qed.
Print Assumptions C56_ordered_map.

Theorem C56_scalar_map : forall K V Q usort md idx cmp idxQ eqv size (a : access (K * V)),
  sorts_by_slot usort -> lawful_scalar idx cmp -> lawful_query_scalar (Q := Q) idx idxQ eqv ->
  (forall l, ac_items a = map (fun x => ROk x) l -> span_representable idx (map fst l)) ->
  visits size a (fz_scalar_map_visit usort md idx cmp size a) (made (fz_scalar_ops idxQ eqv) (idx_eq idx) eqv).
Proof. exact @scalar_visits. Qed.
Print Assumptions C56_scalar_map.

Theorem C56_string_map : forall V usort bh size (a : access (str_datum * V)),
  sorts_by_slot usort -> N.of_nat (List.length (ac_items a)) <= usize_max ->
  (forall s v, In (ROk (Lent s, v)) (ac_items a) -> N.of_nat (List.length s) <= usize_max) ->
  (forall n, ac_hint a = Some n -> isize_max < size * n -> fz_string_map_visit usort bh size a = Panic) /\
  ((forall n, ac_hint a = Some n -> size * n <= isize_max) ->
   ((exists x, In x (ac_items a) /\ bad_str x) -> exists msg, fz_string_map_visit usort bh size a = Ok (RErr msg)) /\
   (forall pre msg post, ac_items a = map (fun e => ROk (lent_key e)) pre ++ RErr msg :: post -> fz_string_map_visit usort bh size a = Ok (RErr msg)) /\
   (forall l, ac_items a = map (fun e => ROk (lent_key e)) l ->
      exists m, fz_string_map_visit usort bh size a = Ok (ROk m) /\ made fz_string_ops bytes_eqb bytes_eqb m l)).
Proof. exact @string_visits. Qed.
Print Assumptions C56_string_map.

Theorem C56_hash_set : forall T Q usort eqT eqv hT hQ size (a : access T),
  sorts_by_slot usort -> lawful_eq eqT -> lawful_equivalent eqT eqv -> lawful_hash eqT hT -> lawful_query_hash (Q := Q) eqv hQ hT ->
  N.of_nat (List.length (ac_items a)) <= usize_max ->
  visits size a (fz_hash_set_visit usort eqT hT size a) (fun m l => made (hash_ops (fun q => Ok (hQ q)) eqv) eqT eqv m (unit_entries l)).
Proof. exact @hash_set_visits. Qed.
Print Assumptions C56_hash_set.

Theorem C56_ordered_set : forall T Q cmp cmpQ size (a : access T), lawful_ord cmp -> lawful_comparable (Q := Q) cmp cmpQ ->
  visits size a (fz_ordered_set_visit cmp size a) (fun m l => made (eytzinger_ops cmpQ) (cmp_eq cmp) (cmp_eq cmpQ) m (unit_entries l)).
Proof. exact @ordered_set_visits. Qed.
Print Assumptions C56_ordered_set.

Theorem C56_scalar_set : forall T Q usort md idx cmp idxQ eqv size (a : access T),
  sorts_by_slot usort -> lawful_scalar idx cmp -> lawful_query_scalar (Q := Q) idx idxQ eqv ->
  (forall l, ac_items a = map (fun x => ROk x) l -> span_representable idx l) ->
  visits size a (fz_scalar_set_visit usort md idx cmp size a) (fun m l => made (fz_scalar_ops idxQ eqv) (idx_eq idx) eqv m (unit_entries l)).
Proof. exact @scalar_set_visits. Qed.
Print Assumptions C56_scalar_set.

Theorem C56_string_set : forall usort bh size (a : access str_datum),
  sorts_by_slot usort -> N.of_nat (List.length (ac_items a)) <= usize_max ->
  (forall s, In (ROk (Lent s)) (ac_items a) -> N.of_nat (List.length s) <= usize_max) ->
  (forall n, ac_hint a = Some n -> isize_max < size * n -> fz_string_set_visit usort bh size a = Panic) /\
  ((forall n, ac_hint a = Some n -> size * n <= isize_max) ->
   ((exists x, In x (ac_items a) /\ bad_elem x) -> exists msg, fz_string_set_visit usort bh size a = Ok (RErr msg)) /\
   (forall pre msg post, ac_items a = map (fun s => ROk (Lent s)) pre ++ RErr msg :: post -> fz_string_set_visit usort bh size a = Ok (RErr msg)) /\
   (forall l, ac_items a = map (fun s => ROk (Lent s)) l ->
      exists m, fz_string_set_visit usort bh size a = Ok (ROk m) /\ made fz_string_ops bytes_eqb bytes_eqb m (unit_entries l))).
Proof. exact @string_set_visits. Qed.
Print Assumptions C56_string_set.

(** The claim that deserialization never panics is false: the size hint of the input is trusted. *)
Theorem C56_deserialization_never_panics_refuted : exists (a : access (N * N)) size, ac_items a = [ROk (1, 2)] /\ size = 16 /\
  fz_ordered_map_visit N.compare size a = Panic /\ fz_hash_map_visit slot_sort N.eqb (fun k => k) size a = Panic.
Proof.
  exists {| ac_hint := Some usize_max; ac_items := [ROk (1, 2)] |}, 16. repeat (split; [vm_compute; reflexivity|]). vm_compute. reflexivity.
Qed.
Print Assumptions C56_deserialization_never_panics_refuted.

(** Repeated keys: the last one wins; an error in the middle of the input is reported; a key after the error is not looked at. *)
Example C56_example :
  (exists m, fz_hash_map_visit slot_sort N.eqb (fun k => k mod 5) 16 {| ac_hint := Some 1; ac_items := [ROk (4, 1); ROk (9, 2); ROk (4, 3)] |} = Ok (ROk m) /\
    map (mo_get ex_hops m) [4; 9; 14] = [Ok (Some 3); Ok (Some 2); Ok None]) /\
  fz_hash_map_visit slot_sort N.eqb (fun k => k mod 5) 16 {| ac_hint := None; ac_items := [ROk (4, 1); RErr "eof"; RErr "later"] |} = Ok (RErr "eof") /\
  first_error [ROk (4, 1); RErr "eof"%string; RErr "later"%string] "eof".
Proof.
  split; [|split].
  - eexists. split; [vm_compute; reflexivity|]. vm_compute. reflexivity.
  - vm_compute. reflexivity.
  - exists [(4, 1)], [RErr "later"%string]. reflexivity.
Qed.
