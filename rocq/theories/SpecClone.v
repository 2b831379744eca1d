(** What a clone of a collection has to be. *)
From Verif Require Import ModelUtils ModelAnalyzers ModelTables ModelMaps ModelHostile ModelClone.
From Verif Require Import Prelude.

Section Spec.
Context {K V : Type}.
Variable cK : nat -> K -> res K.
Variable cV : nat -> V -> res V.

(** The entry [e'] of the clone is the clone of the entry [e], and both are at [p]. *)
Definition counterpart (es es' : list (K * V)) (p : nat) (e e' : K * V) : Prop :=
  nth_error es p = Some e /\ nth_error es' p = Some e' /\ cK p (fst e) = Ok (fst e') /\ cV p (snd e) = Ok (snd e').

(** The clone has the clones of the entries, each where it was, and no more. *)
Definition copied (es es' : list (K * V)) : Prop :=
  length es' = length es /\ forall p e, nth_error es p = Some e -> exists e', counterpart es es' p e e'.

(** Two lookups that end the same way, with parts of counterparts if they find something. *)
Definition same_find {A} (part : K * V -> A) (es es' : list (K * V)) (r r' : res (option A)) : Prop :=
  match r, r' with
  | Ok (Some x), Ok (Some x') => exists p e e', counterpart es es' p e e' /\ x = part e /\ x' = part e'
  | Ok None, Ok None | Panic, Panic | UB, UB => True
  | _, _ => False
  end.

(** Some call of the user's [clone] panics, and none before it (in the order entry by entry, key before value). *)
Definition clone_panics (es : list (K * V)) : Prop :=
  exists p e, nth_error es p = Some e /\
    (cK p (fst e) = Panic \/ (exists k, cK p (fst e) = Ok k) /\ cV p (snd e) = Panic) /\
    forall p' e', (p' < p)%nat -> nth_error es p' = Some e' -> (exists k, cK p' (fst e') = Ok k) /\ exists v, cV p' (snd e') = Ok v.
End Spec.

(** [cloned cK cV ops m ops' m']: [m'] is the clone of [m]. If [m] is used through [ops] then [m'] is used through [ops'], where the hasher, if
    there is one, is a clone that hashes alike. Where lookups compare keys, queries do not tell a key from its clone. *)
Inductive cloned : forall {M K V Q : Type}, (nat -> K -> res K) -> (nat -> V -> res V) -> map_ops M K V Q -> M -> map_ops M K V Q -> M -> Prop :=
| cloned_scan K V Q cK cV (eqv : Q -> K -> bool) (m m' : scan_map K V) :
    (forall q n k k', cK n k = Ok k' -> eqv q k' = eqv q k) ->
    scan_clone cK cV m = Ok m' -> cloned cK cV (scan_ops eqv) m (scan_ops eqv) m'
| cloned_ordered K V Q cK cV (cmpQ : Q -> K -> comparison) (m m' : eytzinger_map K V) :
    (forall q n k k', cK n k = Ok k' -> cmpQ q k' = cmpQ q k) ->
    eytzinger_clone cK cV m = Ok m' -> cloned cK cV (eytzinger_ops cmpQ) m (eytzinger_ops cmpQ) m'
| cloned_dense K V Q cK cV (idxQ : Q -> N) (m m' : dense_map K V) :
    dense_clone cK cV m = Ok m' -> cloned cK cV (dense_ops idxQ) m (dense_ops idxQ) m'
| cloned_sparse K V Q cK cV (idxQ : Q -> N) (m m' : sparse_map K V) :
    sparse_clone cK cV m = Ok m' -> cloned cK cV (sparse_ops idxQ) m (sparse_ops idxQ) m'
| cloned_hash K V Q cK cV (hQ hQ' : Q -> res N) (eqv : Q -> K -> bool) (m m' : hash_map K V) :
    (forall q n k k', cK n k = Ok k' -> eqv q k' = eqv q k) -> (forall q, hQ' q = hQ q) ->
    hash_clone cK cV m = Ok m' -> cloned cK cV (hash_ops hQ eqv) m (hash_ops hQ' eqv) m'
| cloned_no_collisions K V Q cK cV (hQ hQ' : Q -> res N) (eqv : Q -> K -> bool) (m m' : nc_map K V) :
    (forall q n k k', cK n k = Ok k' -> eqv q k' = eqv q k) -> (forall q, hQ' q = hQ q) ->
    nc_clone cK cV m = Ok m' -> cloned cK cV (nc_ops hQ eqv) m (nc_ops hQ' eqv) m'
| cloned_fz_scalar K V Q cK cV (idxQ : Q -> N) (eqv : Q -> K -> bool) (m m' : fz_scalar_map K V) :
    (forall q n k k', cK n k = Ok k' -> eqv q k' = eqv q k) ->
    fz_scalar_clone cK cV m = Ok m' -> cloned cK cV (fz_scalar_ops idxQ eqv) m (fz_scalar_ops idxQ eqv) m'
| cloned_fz_string V cB (cV : nat -> V -> res V) (m m' : fz_string_map V) :
    (forall bh s, bh_str (cB bh) s = bh_str bh s /\ bh_bytes (cB bh) s = bh_bytes bh s) ->
    string_clone cB cV m = Ok m' -> cloned (fun _ k => Ok k) cV fz_string_ops m fz_string_ops m'.
