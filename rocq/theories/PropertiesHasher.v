(** C81: hash maps whose keys have a lawful [Eq] while the hash builder keeps state and panics. Statements only; proofs are in
    [ProofsHasher.v]. *)
From Verif Require Import ModelUtils ModelAnalyzers ModelTables ModelMaps ModelHostile ModelHasher.
From Verif Require Import Spec SpecHostile SpecHasher ProofsBase ProofsFz ProofsHostile ProofsCovers ProofsHasher Instances.
From Coq Require Import Permutation.
From Verif Require Import Prelude.

(** Maps of strings, from construction to the last call, for every hash builder: the last value of each key is stored, and no other
    entry; nothing but the hash builder's panics stops the construction; then the map is, to safe code, a map that may not find a key.
    In particular [get_disjoint_mut] never hands out two references to one value. *)
Theorem C81_string_map : forall V usort (input : list (bytes * V)) adv n, sorts_by_slot usort -> N.of_nat (length input) <= usize_max ->
  match s_fz_string usort input adv n with
  | Ok (m, n') =>
      Permutation (survivors (same_key bytes_eqb) input) (ht_entries (hm_table m)) /\
      forall cs, exists bs m' n'', s_calls bytes_eqb bytes_eqb cs m adv n' = Ok ((bs, m'), n'') /\
        may_all bytes_eqb bytes_eqb (ht_entries (hm_table m)) cs bs (ht_entries (hm_table m'))
  | Panic => ~ forall i, a_panics (adv i) = false
  | UB => False
  end.
Proof. exact @string_map_calls. Qed.
Print Assumptions C81_string_map.

(** The same sessions on every hash map with distinct keys whose fields fit together. *)
Theorem C81_calls : forall K V Q (eqK : K -> K -> bool) (eqv : Q -> K -> bool) eqQ, lawful_equivalent eqK eqv ->
  (forall q q' k, eqv q k = true -> eqv q' k = true -> eqQ q q' = true) ->
  forall (m : hash_map K V) cs adv n, sound (AnyHash m) -> distinct (same_key eqK) (ht_entries (hm_table m)) ->
  exists bs m' n', s_calls eqv eqQ cs m adv n = Ok ((bs, m'), n') /\
    may_all eqv eqQ (ht_entries (hm_table m)) cs bs (ht_entries (hm_table m')).
Proof.
  intros K V Q eqK eqv eqQ HV HQ m cs adv n S D.
  destruct (calls_may eqv eqQ HQ eqK HV cs m adv n (conj S D)) as [bs [m' [n' [E [M _]]]]]. exists bs, m', n'. split; assumption.
Qed.
Print Assumptions C81_calls.

(** With a hash builder that does not panic, a call panics exactly if it is [get_disjoint_mut] with two equal keys. *)
Theorem C81_panics : forall K V Q (eqK : K -> K -> bool) (eqv : Q -> K -> bool) eqQ, lawful_equivalent eqK eqv ->
  (forall q q' k, eqv q k = true -> eqv q' k = true -> eqQ q q' = true) ->
  forall (m : hash_map K V) c adv n, sound (AnyHash m) -> distinct (same_key eqK) (ht_entries (hm_table m)) ->
  (forall i, a_panics (adv i) = false) ->
  (s_call eqv eqQ c m adv n = Panic <-> exists kvs, c = CPutAll kvs /\ ~ no_two_equal eqQ (map fst kvs)).
Proof. intros K V Q eqK eqv eqQ HV HQ m c adv n S D QA. exact (call_panics eqv eqQ HQ eqK HV c m adv n (conj S D) QA). Qed.
Print Assumptions C81_panics.

(** [HashMap] and [FzHashMap] use the hash builder to find duplicates. What is left holds the last value of every key, perhaps earlier
    ones too, and nothing else. *)
Theorem C81_hash_map : forall K V usort cm (eqK : K -> K -> bool) (input : list (K * V)) adv n, sorts_by_slot usort -> lawful_eq eqK ->
  match s_hash_map usort cm eqK input adv n with
  | Ok (ROk m, _) => sound (AnyHash m) /\ part_of input (ht_entries (hm_table m)) /\
      incl (survivors (same_key eqK) input) (ht_entries (hm_table m))
  | Ok (RErr _, _) => max_capacity cm < N.of_nat (length input)
  | Panic => ~ forall i, a_panics (adv i) = false
  | UB => False
  end.
Proof. exact @hash_map_made. Qed.
Print Assumptions C81_hash_map.
Theorem C81_fz_hash_map : forall K V usort (eqK : K -> K -> bool) (input : list (K * V)) adv n, sorts_by_slot usort -> lawful_eq eqK ->
  N.of_nat (length input) <= usize_max ->
  match s_fz_hash usort eqK input adv n with
  | Ok (m, _) => sound (AnyHash m) /\ part_of input (ht_entries (hm_table m)) /\
      incl (survivors (same_key eqK) input) (ht_entries (hm_table m))
  | Panic => ~ forall i, a_panics (adv i) = false
  | UB => False
  end.
Proof. exact @fz_hash_map_made. Qed.
Print Assumptions C81_fz_hash_map.

(** Even with equal keys left over the calls are safe: no access outside of the map, no two references to one value; what comes back is
    a stored value of a key equal to the one asked for; the keys stay. Only the equality of the queries has to fit that of the keys. *)
Theorem C81_leftovers : forall K V Q (eqv : Q -> K -> bool) eqQ, (forall q q' k, eqv q k = true -> eqv q' k = true -> eqQ q q' = true) ->
  forall (m : hash_map K V), sound (AnyHash m) ->
  (forall c adv n, match s_call eqv eqQ c m adv n with
     | Ok ((b, m'), _) => reply_stored eqv eqQ (ht_entries (hm_table m)) c b /\
         map fst (ht_entries (hm_table m')) = map fst (ht_entries (hm_table m)) /\ sound (AnyHash m')
     | Panic => True
     | UB => False
     end) /\
  (forall cs adv n, exists bs m' n', s_calls eqv eqQ cs m adv n = Ok ((bs, m'), n') /\ length bs = length cs /\
     map fst (ht_entries (hm_table m')) = map fst (ht_entries (hm_table m)) /\ sound (AnyHash m')).
Proof.
  intros K V Q eqv eqQ HQ m S. split.
  - intros c adv n. pose proof (call_safe eqv eqQ HQ c m S adv n ltac:(discriminate)) as C.
    destruct (s_call eqv eqQ c m adv n) as [[[b m'] n']| |]; [exact C|exact I|exact C].
  - intros cs adv n. exact (calls_safe eqv eqQ HQ cs m adv n S).
Qed.
Print Assumptions C81_leftovers.

(** But it need not be the last value: a hash builder whose codes change, and that never panics, leaves two entries for a key, and the
    lookup finds the older one. (With lawful traits that cannot be: C01.) *)
Theorem C81_last_value_refuted : exists (adv : nat -> answer) (m : hash_map N N) n, (forall i, a_panics (adv i) = false) /\
  s_fz_hash slot_sort N.eqb [(7, 70); (7, 71)] adv 0%nat = Ok (m, n) /\
  ht_entries (hm_table m) = [(7, 70); (7, 71)] /\
  fmap fst (s_get N.eqb m 7 adv n) = Ok (Some 70).
Proof.
  exists (fun i => {| a_panics := false; a_bool := false; a_order := Lt; a_number := match i with 5%nat | 7%nat | 8%nat => 1 | _ => 0 end |}).
  eexists. eexists. split; [reflexivity|]. split; [vm_compute; reflexivity|]. split; vm_compute; reflexivity.
Qed.
Print Assumptions C81_last_value_refuted.

(** Hash builders that are functions are among the streams: whatever the constructors and the lookups of the plain model do, these do
    for some stream without panics. *)
Theorem C81_covers : forall K V Q usort cm (eqK : K -> K -> bool) (hK : K -> N) (hQ : Q -> res N) (eqv : Q -> K -> bool) eqQ,
  (forall k, hK k < two64) ->
  (forall input : list (K * V), exists adv, (forall i, a_panics (adv i) = false) /\
     fmap fst (s_hash_map usort cm eqK input adv 0%nat) = hash_map_with_hasher usort cm eqK hK input) /\
  (forall input : list (K * V), exists adv, (forall i, a_panics (adv i) = false) /\
     fmap fst (s_fz_hash usort eqK input adv 0%nat) = fz_hash_map_with_hasher usort eqK hK input) /\
  (forall (m : hash_map K V) q h, hQ q = Ok h -> h < two64 ->
     (exists adv, (forall i, a_panics (adv i) = false) /\ fmap fst (s_get eqv m q adv 0%nat) = hash_get hQ eqv m q) /\
     (exists adv, (forall i, a_panics (adv i) = false) /\ fmap fst (s_get_mut eqv m q adv 0%nat) = hash_get_mut hQ eqv m q) /\
     (exists adv, (forall i, a_panics (adv i) = false) /\ fmap fst (s_get_key_value eqv m q adv 0%nat) = hash_get_key_value hQ eqv m q)) /\
  (forall (m : hash_map K V) qs, (forall q, In q qs -> exists h, hQ q = Ok h /\ h < two64) ->
     exists adv, (forall i, a_panics (adv i) = false) /\
     fmap fst (s_disjoint eqv eqQ m qs adv 0%nat) = get_disjoint_mut (hash_ops hQ eqv) eqQ m qs).
Proof.
  intros K V Q usort cm eqK hK hQ eqv eqQ H. split; [|split; [|split]].
  - intros input. apply can_adv, can_s_hash_map, H.
  - intros input. apply can_adv, can_s_fz_hash, H.
  - intros m q h E L. destruct (can_s_lookups hQ eqv m q h E L) as [A [B C]]. auto using can_adv.
  - intros m qs HQ. apply can_adv, can_s_disjoint, HQ.
Qed.
Print Assumptions C81_covers.
Theorem C81_string_covers : forall V usort bh (input : list (bytes * V)),
  (forall s, bh_str bh s < two64 /\ bh_bytes bh s < two64) -> (forall e, In e input -> N.of_nat (length (fst e)) <= usize_max) ->
  exists adv, (forall i, a_panics (adv i) = false) /\
    fmap fst (s_fz_string usort input adv 0%nat) = fmap sm_inner (fz_string_map_with_hasher usort bh input).
Proof. intros V usort bh input HB HL. apply can_adv, can_s_fz_string; assumption. Qed.
Print Assumptions C81_string_covers.

(** A hash builder that counts, and panics now and then. *)
Definition counting (i : nat) : answer :=
  {| a_panics := Nat.eqb i 9; a_bool := Nat.even i; a_order := Lt; a_number := N.of_nat i / 14 |}.
Definition abc : list (bytes * N) := [([97], 1); ([98], 2); ([97], 3); ([99], 4)].
Definition some_calls : list (call N bytes) :=
  [CGet [97]; CPut [97] 30; CEntry [97]; CPutAll [([98], 20); ([99], 40)]; CPutAll [([98], 21); ([98], 22)]; CGet [98]; CGet [100]].
Example C81_string_example :
  match s_fz_string slot_sort abc counting 0%nat with
  | Ok (m, n') => Permutation (survivors (same_key bytes_eqb) abc) (ht_entries (hm_table m)) /\ (3 <= length (ht_entries (hm_table m)))%nat
  | _ => False
  end.
Proof.
  pose proof (C81_string_map N slot_sort abc counting 0%nat slot_sort_sorts ltac:(vm_compute; discriminate)) as H.
  destruct (s_fz_string slot_sort abc counting 0%nat) as [[m n']| |] eqn:E; [|vm_compute in E; discriminate|exact H].
  destruct H as [P _]. split; [exact P|]. rewrite <- (Permutation_length P). vm_compute. repeat constructor.
Qed.
Example C81_session_example :
  match s_fz_string slot_sort abc counting 0%nat with
  | Ok (m, n') => fmap (fun x => fst (fst x)) (s_calls bytes_eqb bytes_eqb some_calls m counting n')
  | _ => UB
  end = Ok [Some (BValue (Some 3)); Some (BOld (Some 3)); None; Some (BOlds [Some 2; Some 4]); None; Some (BValue (Some 20)); Some (BValue None)].
Proof. vm_compute. reflexivity. Qed.
