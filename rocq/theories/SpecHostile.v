(** When a map keeps its unchecked accesses inside its arrays, said of its fields alone. *)
From Verif Require Import ModelUtils ModelAnalyzers ModelTables ModelMaps ModelHostile.
From Verif Require Import Prelude.

(** Every index or hash code leads to a place inside the arrays. *)
Definition sound {K V} (m : any_map K V) : Prop :=
  match m with
  | AnyScan _ | AnyOrdered _ => True
  | AnyDense m => dm_min m <= dm_max m -> dm_max m - dm_min m < N.of_nat (length (dm_entries m))
  | AnySparse m => forall i, sp_min m <= i <= sp_max m ->
      exists j, nth_error (sp_lookup m) (N.to_nat (i - sp_min m)) = Some j /\ j <= N.of_nat (length (sp_entries m))
  | AnyHash m => forall h, h < two64 ->
      exists lo hi, nth_error (ht_slots (hm_table m)) (N.to_nat (N.land h (ht_mask (hm_table m)))) = Some (lo, hi) /\
        lo <= hi <= N.of_nat (length (ht_entries (hm_table m)))
  | AnyNoCollisions m => forall h, h < two64 ->
      exists j, nth_error (nc_slots (ncm_table m)) (N.to_nat (N.land h (nc_mask (ncm_table m)))) = Some j /\
        j <= N.of_nat (length (nc_entries (ncm_table m)))
  end.

(** The bounds of a scalar map are [usize]s. *)
Definition bounded {K V} (m : any_map K V) : Prop :=
  match m with AnyDense m => dm_max m < two64 | AnySparse m => sp_max m < two64 | _ => True end.

(** The values a client puts into a map. *)
Definition put_values {V} (rqs : list (request V)) : list V :=
  flat_map (fun rq => match rq with RqPut v => [v] | _ => [] end) rqs.

(** Nothing is made up: keys come from [keys], values from [values]. *)
Definition from_known {K V} (keys : list K) (values : list V) (rp : option (reply K V)) : Prop :=
  match rp with
  | Some (RpValue (Some v)) => In v values
  | Some (RpEntry (Some (k, v))) => In k keys /\ In v values
  | _ => True
  end.

(** The constructors that call [index] again after having relied on its answers. *)
Definition asks_again (mk : maker) : bool := match mk with MakeDense | MakeFzScalar => true | _ => false end.

(** The constructors that, on their own, do not panic. (The inline ones panic when the size is wrong; the scalar ones do
    arithmetic on the answers.) *)
Definition calm (mk : maker) : bool :=
  match mk with MakeScan | MakeEytzinger | MakeHash _ | MakeFzHash | MakeFzOrdered => true | _ => false end.

(** A stream that answers the given numbers (and otherwise "no", "less", 0, without panicking). *)
Definition numbers (l : list N) : nat -> answer :=
  fun n => {| a_panics := false; a_bool := false; a_order := Lt; a_number := nth n l 0 |}.
