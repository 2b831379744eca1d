(** C76: the hostile model of ModelHostile.v includes the plain model of ModelMaps.v. *)
From Verif Require Import ModelUtils ModelAnalyzers ModelTables ModelMaps ModelHostile Spec SpecHostile SpecCovers ProofsCovers Instances.
From Coq Require Import String.
From Verif Require Import Prelude.

(** Trait implementations that are functions, lawful or not, are among the streams: whatever a program over the plain model does (its replies,
    the map it is left with, an error, a panic or undefined behaviour), the same program of ModelHostile.v does for some stream of
    answers without panics. So what C74 says of all streams it says of the plain model. *)
Theorem C76_program : forall K V Q (t : traits K Q) usort md mk (entries : list (K * V)) rqs, sixty_four_bits t -> mk <> MakeFzString ->
  exists adv, (forall i, a_panics (adv i) = false) /\
    fmap fst (h_program usort md mk entries (map snd rqs) adv 0%nat) = plain_program t usort md mk entries rqs.
Proof. exact @program_covered. Qed.
Print Assumptions C76_program.

(** The same for string keys, where the choice of the hasher belongs to the constructor. *)
Theorem C76_string_program : forall V usort md bh (entries : list (bytes * V)) rqs,
  (forall s, bh_str bh s < two64 /\ bh_bytes bh s < two64) -> (forall e, In e entries -> N.of_nat (length (fst e)) <= usize_max) ->
  exists adv, (forall i, a_panics (adv i) = false) /\
    fmap fst (h_program usort md MakeFzString entries (map snd rqs) adv 0%nat) = plain_string_program usort bh entries rqs.
Proof. exact @string_program_covered. Qed.
Print Assumptions C76_string_program.

(** And for sessions on any map at all, also one put together by [new_raw]. *)
Theorem C76_session : forall K V Q (t : traits K Q) (rqs : list (Q * request V)), sixty_four_bits t ->
  (forall m : scan_map K V, exists adv, (forall i, a_panics (adv i) = false) /\ fmap fst (h_session (map snd rqs) (AnyScan m) adv 0%nat) =
     fmap (fun x => (fst x, AnyScan (snd x))) (plain_session (scan_ops (t_eqv t)) rqs m)) /\
  (forall m : eytzinger_map K V, exists adv, (forall i, a_panics (adv i) = false) /\ fmap fst (h_session (map snd rqs) (AnyOrdered m) adv 0%nat) =
     fmap (fun x => (fst x, AnyOrdered (snd x))) (plain_session (eytzinger_ops (t_cmpQ t)) rqs m)) /\
  (forall m : dense_map K V, exists adv, (forall i, a_panics (adv i) = false) /\ fmap fst (h_session (map snd rqs) (AnyDense m) adv 0%nat) =
     fmap (fun x => (fst x, AnyDense (snd x))) (plain_session (dense_ops (t_idxQ t)) rqs m)) /\
  (forall m : sparse_map K V, exists adv, (forall i, a_panics (adv i) = false) /\ fmap fst (h_session (map snd rqs) (AnySparse m) adv 0%nat) =
     fmap (fun x => (fst x, AnySparse (snd x))) (plain_session (sparse_ops (t_idxQ t)) rqs m)) /\
  (forall m : hash_map K V, exists adv, (forall i, a_panics (adv i) = false) /\ fmap fst (h_session (map snd rqs) (AnyHash m) adv 0%nat) =
     fmap (fun x => (fst x, AnyHash (snd x))) (plain_session (hash_ops (fun q => Ok (t_hashQ t q)) (t_eqv t)) rqs m)) /\
  (forall m : nc_map K V, exists adv, (forall i, a_panics (adv i) = false) /\ fmap fst (h_session (map snd rqs) (AnyNoCollisions m) adv 0%nat) =
     fmap (fun x => (fst x, AnyNoCollisions (snd x))) (plain_session (nc_ops (fun q => Ok (t_hashQ t q)) (t_eqv t)) rqs m)).
Proof.
  intros K V Q t rqs [B1 [B2 [B3 B4]]].
  assert (H : forall q, exists h, Ok (t_hashQ t q) = Ok h /\ h < two64) by (intros q; exists (t_hashQ t q); auto).
  repeat split; intros m; apply session_covered;
    auto using (@emulates_scan K V Q), (@emulates_ordered K V Q), (@emulates_dense K V Q), (@emulates_sparse K V Q), (@emulates_hash K V Q), (@emulates_nc K V Q).
Qed.
Print Assumptions C76_session.

(** Numbers under an order and an equality that are no order and no equality. *)
Definition lawless : traits N N := {|
  t_eq := fun a b => a =? b + 1; t_cmp := fun a b => if a =? b then Gt else if N.even a then Eq else N.compare a b;
  t_hash := fun k => (k * k) mod 256; t_idx := fun k => k mod 16;
  t_eqv := fun q k => q <=? k; t_cmpQ := fun q k => N.compare (q mod 4) (k mod 4);
  t_hashQ := fun q => q mod 256; t_idxQ := fun q => (q + 1) mod 16 |}.
Example C76_lawless_example : sixty_four_bits lawless.
Proof.
  assert (H : forall x m, m <> 0 -> m < two64 -> x mod m < two64) by (intros x m H0 H1; pose proof (N.mod_lt x m H0); lia).
  repeat split; intros k; apply H; (discriminate || reflexivity).
Qed.
Definition some_requests : list (N * request N) := [(3, RqGet); (4, RqPut 99); (4, RqGet); (2, RqGetKeyValue); (5, RqContains)].
Example C76_plain_example :
  map (fun mk => fmap (fun r => match r with ROk x => Some (fst x) | RErr _ => None end)
      (plain_program lawless slot_sort Debug mk [(3, 30); (4, 40); (3, 31); (6, 60)] some_requests))
    [MakeScan; MakeEytzinger; MakeSparse; MakeDense; MakeFzHash; MakeFzScalar] =
  let V x := Some (RpValue x) in let P x := Some (RpPut x) in let E x := Some (RpEntry x) in let B x := Some (RpBool x) in
  [Ok (Some [V (Some 60); P true; V (Some 99); E (Some (6, 99)); B true]);
   Ok (Some [V (Some 31); P false; V None; E None; B false]);
   Ok (Some [V None; P false; V None; E (Some (3, 31)); B true]);
   Ok None;
   Ok (Some [V None; P true; V (Some 99); E None; B false]);
   Ok (Some [V None; P false; V None; E (Some (3, 31)); B true])].
Proof. vm_compute. reflexivity. Qed.
(** A string map finds its keys. *)
Example C76_string_example :
  fmap (fun r => match r with ROk x => Some (fst x) | RErr _ => None end)
    (plain_string_program slot_sort {| bh_str := fun s => fold_right N.add 0 s mod 256; bh_bytes := fun s => fold_right N.add 0 s mod 256 |}
      [([65; 66], 1); ([67], 2); ([65; 66], 3)] [([65; 66], RqGet); ([67], RqPut 9); ([67], RqGet); ([68], RqContains)]) =
  Ok (Some [Some (RpValue (Some 3)); Some (RpPut true); Some (RpValue (Some 9)); Some (RpBool false)]).
Proof. vm_compute. reflexivity. Qed.
