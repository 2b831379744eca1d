(** What [get_disjoint_mut] must and must not return. *)
From Verif Require Import ModelTables ModelMaps ModelHostile Spec.
From Verif Require Import Prelude.

(** Two of the references returned are to the same value. *)
Definition aliasing (ps : list (option nat)) : Prop :=
  exists i j p, (i < j)%nat /\ nth_error ps i = Some (Some p) /\ nth_error ps j = Some (Some p).

(** Two of the keys are equal. *)
Definition repeats {Q} (eqQ : Q -> Q -> bool) (keys : list Q) : Prop :=
  exists i j x y, (i < j)%nat /\ nth_error keys i = Some x /\ nth_error keys j = Some y /\ eqQ x y = true.

(** The answers a lookup can give at all, read off the fields of the map. *)
Definition possible {K V} (m : any_map K V) (o : option nat) : Prop :=
  match m, o with
  | AnyScan _, Some p | AnyOrdered _, Some p => (p < List.length (any_entries m))%nat
  | AnyDense m, Some p => dm_min m + N.of_nat p <= dm_max m /\ dm_min m + N.of_nat p < two64
  | AnyDense m, None => dm_min m <> 0 \/ dm_max m < usize_max
  | AnySparse m, Some p => exists i, sp_min m <= i <= sp_max m /\ i < two64 /\
      nth_error (sp_lookup m) (N.to_nat (i - sp_min m)) = Some (N.of_nat (S p))
  | AnySparse m, None => sp_min m <> 0 \/ sp_max m < usize_max \/
      exists i, sp_min m <= i <= sp_max m /\ i < two64 /\ nth_error (sp_lookup m) (N.to_nat (i - sp_min m)) = Some 0
  | AnyHash m, Some p => exists h lo hi, h < two64 /\
      nth_error (ht_slots (hm_table m)) (N.to_nat (N.land h (ht_mask (hm_table m)))) = Some (lo, hi) /\ lo <= N.of_nat p < hi
  | AnyNoCollisions m, Some p => exists h, h < two64 /\
      nth_error (nc_slots (ncm_table m)) (N.to_nat (N.land h (nc_mask (ncm_table m)))) = Some (N.of_nat (S p))
  | _, None => True
  end.
