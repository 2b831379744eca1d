(** How many calls of trait methods a query makes, in the best and in the worst case, said of the fields of the map alone. *)
From Verif Require Import ModelUtils ModelAnalyzers ModelTables ModelMaps ModelHostile.
From Verif Require Import Prelude.

(** The slots that hash codes lead to: those at the bit patterns within the mask. *)
Definition reached {A} (mask : N) (slots : list A) : list A :=
  map snd (filter (fun x => N.land (N.of_nat (fst x)) mask =? N.of_nat (fst x)) (combine (seq 0 (length slots)) slots)).

Definition most_calls {K V} (m : any_map K V) : nat :=
  match m with
  | AnyScan m => length (sm_entries m)
  | AnyOrdered m => if is_nil (em_entries m) then 0 else S (Nat.log2 (length (em_entries m)))
  | AnyDense _ | AnySparse _ => 1
  | AnyHash m => S (list_max (map (fun s => N.to_nat (snd s) - N.to_nat (fst s)) (reached (ht_mask (hm_table m)) (ht_slots (hm_table m)))))
  | AnyNoCollisions m => if existsb (N.ltb 0) (reached (nc_mask (ncm_table m)) (nc_slots (ncm_table m))) then 2 else 1
  end%nat.

Definition fewest_calls {K V} (m : any_map K V) : nat :=
  match m with
  | AnyScan m => length (sm_entries m)
  | AnyOrdered m => if is_nil (em_entries m) then 0 else 1
  | AnyDense _ | AnySparse _ => 1
  | AnyHash m => if existsb (fun s => N.eqb (fst s) (snd s)) (reached (ht_mask (hm_table m)) (ht_slots (hm_table m))) then 1 else 2
  | AnyNoCollisions m => if existsb (N.eqb 0) (reached (nc_mask (ncm_table m)) (nc_slots (ncm_table m))) then 1 else 2
  end%nat.

(** No array has more than 2^64 elements. *)
Definition slots_fit {K V} (m : any_map K V) : Prop :=
  match m with
  | AnyHash m => N.of_nat (length (ht_slots (hm_table m))) <= two64
  | AnyNoCollisions m => N.of_nat (length (nc_slots (ncm_table m))) <= two64
  | _ => True
  end.

(** [x] makes at least [lo] and at most [hi] calls; a panic is one of these calls'. *)
Definition calls {A} (lo hi : nat) (x : hostile A) (adv : nat -> answer) (n : nat) : Prop :=
  match x adv n with
  | Ok (_, n') => (n + lo <= n' <= n + hi)%nat
  | Panic => exists i, (i < hi)%nat /\ a_panics (adv (n + i)%nat) = true
  | UB => False
  end.

(** Pairs of [k] things. *)
Definition pairs (k : nat) : nat := (k * (k - 1) / 2)%nat.
