(** Property theorems about trait implementations that change their answers from call to call and panic (C74), and about collections
    assembled by hand from parts (C75). Statements only; proofs are in [ProofsHostile.v]. Each theorem is followed by the axioms it depends
    on and by a concrete case. *)
From Verif Require Import Prelude Spec ModelUtils ModelAnalyzers ModelTables ModelMaps ModelHostile SpecHostile ProofsHostile Instances.

(** ** C74 *)

(** A request to a map is free of undefined behaviour, whatever the key's traits answer, exactly if the map's fields fit together. This goes for
    each kind of map and each kind of request. *)
Theorem C74_exact : forall K V (rq : request V) (m : any_map K V), bounded m ->
  (sound m <-> forall adv n, h_request rq m adv n <> UB).
Proof. exact @request_sound. Qed.
Print Assumptions C74_exact.

(** The public constructors never misbehave themselves, and what comes out of those that do not ask again is sound, and made of the input. The
    ones listed as calm panic only if a trait method does. *)
Theorem C74_make : forall K V usort md mk (entries : list (K * V)) adv n, sorts_by_slot usort ->
  N.of_nat (length entries) <= usize_max ->
  h_make usort md mk entries adv n <> UB /\
  (forall m n', h_make usort md mk entries adv n = Ok (ROk m, n') ->
    incl (any_entries m) entries /\ (length (any_entries m) <= length entries)%nat /\ bounded m /\ (asks_again mk = false -> sound m)) /\
  (calm mk = true -> (forall i, a_panics (adv i) = false) -> h_make usort md mk entries adv n <> Panic).
Proof. exact @make_full. Qed.
Print Assumptions C74_make.

(** Any number of requests to a sound map, panics caught in between: each gets a reply, made of the keys of the map and of values that
    were in it or that the client put there; the map stays sound, with the same keys in the same places; and a request panics only if a
    trait method does. *)
Theorem C74_session : forall K V (m : any_map K V) rqs adv n, sound m ->
  exists rps m' n', h_session rqs m adv n = Ok ((rps, m'), n') /\ length rps = length rqs /\
    Forall (from_known (map fst (any_entries m)) (map snd (any_entries m) ++ put_values rqs)) rps /\
    sound m' /\ map fst (any_entries m') = map fst (any_entries m) /\
    (forall v, In v (map snd (any_entries m')) -> In v (map snd (any_entries m) ++ put_values rqs)) /\
    ((forall i, a_panics (adv i) = false) -> ~ In None rps).
Proof. exact @session_full. Qed.
Print Assumptions C74_session.

(** Both together. *)
Theorem C74_program : forall K V usort md mk (entries : list (K * V)) rqs adv n, sorts_by_slot usort ->
  N.of_nat (length entries) <= usize_max -> asks_again mk = false ->
  match h_program usort md mk entries rqs adv n with
  | Ok (ROk (rps, m), _) => length rps = length rqs /\ Forall (from_known (map fst entries) (map snd entries ++ put_values rqs)) rps
  | UB => False
  | _ => True
  end.
Proof. exact @program_full. Qed.
Print Assumptions C74_program.

(** The other two constructors check the answers of [index] and then ask again. In safe code, with nothing but a [Scalar] implementation that
    counts, they lead to a read outside of the array. *)
Theorem C74_dense_refuted : exists adv, (forall i, a_panics (adv i) = false) /\
  forall md, h_program slot_sort md MakeDense [(10, 20)] [RqGet] adv 0%nat = UB.
Proof. exists (numbers [0; 7; 7; 7; 9; 9]). split; [reflexivity|]. intros []; vm_compute; reflexivity. Qed.
Print Assumptions C74_dense_refuted.
Theorem C74_fz_scalar_refuted : exists adv, (forall i, a_panics (adv i) = false) /\
  forall md, h_program slot_sort md MakeFzScalar [(10, 20)] [RqGet] adv 0%nat = UB.
Proof. exists (numbers [0; 7; 7; 7; 9; 9]). split; [reflexivity|]. intros []; vm_compute; reflexivity. Qed.
Print Assumptions C74_fz_scalar_refuted.
(** Writing is no better. *)
Theorem C74_put_refuted : exists adv, (forall i, a_panics (adv i) = false) /\
  forall md mk, asks_again mk = true -> h_program slot_sort md mk [(10, 20)] [RqPut 5] adv 0%nat = UB.
Proof.
  exists (numbers [0; 7; 7; 7; 9; 9]). split; [reflexivity|]. intros [] mk H; destruct mk; try discriminate; vm_compute; reflexivity.
Qed.
Print Assumptions C74_put_refuted.

(** They are sound if the second answers are the first ones again... *)
Theorem C74_dense_steady : forall K V md (entries : list (K * V)) adv n m n', h_dense_new_sorted md entries adv n = Ok (ROk m, n') ->
  a_number (adv (n + 2)%nat) mod two64 = a_number (adv n) mod two64 ->
  a_number (adv (n + 3)%nat) mod two64 = a_number (adv (n + 1)%nat) mod two64 -> sound (AnyDense m).
Proof. exact @dense_steady. Qed.
Print Assumptions C74_dense_steady.
(** ... or, for [FzScalarMap], if they are within the range that the analysis saw. *)
Theorem C74_fz_scalar_steady : forall K V md (entries : list (K * V)) adv n n' m n'',
  h_analyze_scalar_keys md entries adv n = Ok (DenseRange, n') -> h_dense_from_sorted entries adv n' = Ok (m, n'') ->
  (exists i, (i < length entries)%nat /\ a_number (adv (n + 2 * i)%nat) mod two64 <= dm_min m) ->
  (exists i, (i < length entries)%nat /\ dm_max m <= a_number (adv (n + 2 * i + 1)%nat) mod two64) ->
  sound (AnyDense m).
Proof. exact @fz_scalar_steady. Qed.
Print Assumptions C74_fz_scalar_steady.

(** Answers all over the place, with a panic now and then (not while the map is being made). *)
Definition wild (n : nat) : answer :=
  let x := N.of_nat n * 2654435761 + 12345 in
  {| a_panics := Nat.leb 27 n && N.eqb (x mod 5) 3; a_bool := N.eqb (x mod 3) 1; a_order := match x mod 3 with 0 => Lt | 1 => Eq | _ => Gt end;
     a_number := x mod 1009 |}.
Definition some_entries : list (N * N) := [(1, 10); (2, 20); (3, 30); (4, 40); (5, 50)].
Definition some_requests : list (request N) := [RqGet; RqPut 99; RqGetKeyValue; RqContains; RqPut 98; RqGet; RqGetKeyValue; RqGet].

Example C74_ex_hash : exists rps m n', h_program slot_sort Debug MakeFzHash some_entries some_requests wild 7%nat = Ok (ROk (rps, m), n') /\
  length rps = 8%nat /\ In None rps.
Proof. vm_compute. do 3 eexists. split; [reflexivity|]. split; [reflexivity|]. tauto. Qed.
Example C74_ex_ordered : exists rps m n', h_program slot_sort Debug MakeFzOrdered some_entries some_requests wild 7%nat = Ok (ROk (rps, m), n') /\
  length rps = 8%nat.
Proof. vm_compute. do 3 eexists. split; reflexivity. Qed.
Example C74_ex_sparse : exists m n', h_make slot_sort Debug MakeSparse some_entries (numbers [0; 0; 0; 0; 0; 0; 0; 0; 0; 40; 49; 42; 42; 49; 40; 45]) 0%nat = Ok (ROk (AnySparse m), n')
  /\ sp_lookup m = [4; 0; 2; 0; 0; 5; 0; 0; 0; 3].
Proof. vm_compute. do 2 eexists. split; reflexivity. Qed.
Example C74_ex_steady : exists m n', h_dense_new_sorted Debug some_entries (numbers [3; 7; 3; 7]) 0%nat = Ok (ROk m, n') /\ sound (AnyDense m).
Proof. do 2 eexists. split; [vm_compute; reflexivity|]. vm_compute. intros _. reflexivity. Qed.

(** ** C75 *)

(** [InlineHashMap] from a hand-made table: the slots that a hash code can reach (all of them if there is a power of two of them) must hold
    ranges of entries. *)
Theorem C75_hash_exact : forall K V (rq : request V) slots (entries : list (K * V)), slots <> [] -> N.of_nat (length slots) <= two64 ->
  (forall adv n, h_request rq (AnyHash {| hm_table := iht_new_raw slots entries |}) adv n <> UB) <->
  (forall p lo hi, nth_error slots p = Some (lo, hi) -> N.land (N.of_nat p) (N.of_nat (length slots) - 1) = N.of_nat p ->
    lo <= hi <= N.of_nat (length entries)).
Proof. exact @raw_hash. Qed.
Print Assumptions C75_hash_exact.
Theorem C75_no_collisions_exact : forall K V (rq : request V) slots (entries : list (K * V)), slots <> [] -> N.of_nat (length slots) <= two64 ->
  (forall adv n, h_request rq (AnyNoCollisions {| ncm_table := nc_new_raw slots entries |}) adv n <> UB) <->
  (forall p j, nth_error slots p = Some j -> N.land (N.of_nat p) (N.of_nat (length slots) - 1) = N.of_nat p ->
    j <= N.of_nat (length entries)).
Proof. exact @raw_nc. Qed.
Print Assumptions C75_no_collisions_exact.
Theorem C75_power_reaches_all : forall k p, p < 2 ^ k -> N.land p (2 ^ k - 1) = p.
Proof. exact power_reaches. Qed.
Print Assumptions C75_power_reaches_all.
(** The scalar maps: the range, if it is one, must be covered. *)
Theorem C75_dense_exact : forall K V (rq : request V) (entries : list (K * V)) mn mx, mx < two64 ->
  (forall adv n, h_request rq (AnyDense {| dm_min := mn; dm_max := mx; dm_entries := entries |}) adv n <> UB) <->
  (mx < mn \/ mx - mn < N.of_nat (length entries)).
Proof. exact @raw_dense. Qed.
Print Assumptions C75_dense_exact.
Theorem C75_sparse_exact : forall K V (rq : request V) (entries : list (K * V)) lookup mn mx, mx < two64 ->
  (forall adv n, h_request rq (AnySparse {| sp_min := mn; sp_max := mx; sp_lookup := lookup; sp_entries := entries |}) adv n <> UB) <->
  (mx < mn \/ (mx - mn < N.of_nat (length lookup) /\
     forall p j, nth_error lookup p = Some j -> N.of_nat p <= mx - mn -> j <= N.of_nat (length entries))).
Proof. exact @raw_sparse. Qed.
Print Assumptions C75_sparse_exact.
(** Scans and searches take any entries in any order. *)
Theorem C75_any_entries : forall K V (rq : request V) (entries : list (K * V)) adv n,
  h_request rq (AnyScan (inline_scan_map_new_raw entries)) adv n <> UB /\
  h_request rq (AnyOrdered (inline_eytzinger_map_new_raw entries)) adv n <> UB.
Proof. intros K V rq entries adv n. split; apply request_safe; exact I. Qed.
Print Assumptions C75_any_entries.
(** The constructors are not [unsafe] and check nothing: a lawful key, and a read outside of the array. *)
Theorem C75_raw_refuted :
  mo_get (dense_ops (fun k : N => k)) {| dm_min := 0; dm_max := 5; dm_entries := [(0, 7)] |} 5 = UB /\
  mo_get (sparse_ops (fun k : N => k)) {| sp_min := 0; sp_max := 0; sp_lookup := [2]; sp_entries := [(0, 7)] |} 0 = UB /\
  ht_find (iht_new_raw [(0, 9)] [(0, 7)]) 3 (fun e => fst e =? 3) = UB /\
  nc_find (nc_new_raw [5] [(0, 7)]) 3 (fun e => fst e =? 3) = UB.
Proof. repeat split. Qed.
Print Assumptions C75_raw_refuted.

(** Three slots, of which no hash code leads to the second: it may hold anything. *)
Example C75_ex : forall rq adv n, h_request rq (AnyHash {| hm_table := iht_new_raw [(0, 1); (9, 8); (1, 1)] [(1, 10)] |}) adv n <> UB.
Proof.
  intros rq. apply C75_hash_exact; [discriminate|vm_compute; discriminate|]. intros [|[|[|p]]] lo hi E L; vm_compute in L; try discriminate.
  - injection E as <- <-. vm_compute. split; discriminate.
  - injection E as <- <-. vm_compute. split; discriminate.
  - destruct p; discriminate E.
Qed.
Example C75_ex_sparse : forall rq adv n,
  h_request rq (AnySparse {| sp_min := 3; sp_max := 4; sp_lookup := [1; 0; 77]; sp_entries := [(3, 30)] |}) adv n <> UB.
Proof.
  intros rq. apply C75_sparse_exact; [reflexivity|]. right. split; [reflexivity|]. intros [|[|[|p]]] j E L; vm_compute in L.
  - injection E as <-. vm_compute. discriminate.
  - injection E as <-. vm_compute. discriminate.
  - destruct (L eq_refl).
  - destruct p; discriminate E.
Qed.
