(** Programs over the plain model (ModelMaps.v), for comparison with those of ModelHostile.v. *)
From Verif Require Import ModelUtils ModelAnalyzers ModelTables ModelMaps ModelHostile.
From Coq Require Import String.
From Verif Require Import Prelude.

(** Trait implementations that are functions; no laws. *)
Record traits (K Q : Type) := {
  t_eq : K -> K -> bool;            (** [Eq for K] *)
  t_cmp : K -> K -> comparison;     (** [Ord for K] *)
  t_hash : K -> N;                  (** [hash_one] at [K] *)
  t_idx : K -> N;                   (** [Scalar::index for K] *)
  t_eqv : Q -> K -> bool;           (** [Equivalent<K> for Q] *)
  t_cmpQ : Q -> K -> comparison;    (** [Comparable<K> for Q] *)
  t_hashQ : Q -> N;                 (** [hash_one] at [Q] *)
  t_idxQ : Q -> N }.                (** [Scalar::index for Q] *)
Arguments t_eq {K Q}.
Arguments t_cmp {K Q}.
Arguments t_hash {K Q}.
Arguments t_idx {K Q}.
Arguments t_eqv {K Q}.
Arguments t_cmpQ {K Q}.
Arguments t_hashQ {K Q}.
Arguments t_idxQ {K Q}.

(** Indices and hash codes are 64-bit numbers. *)
Definition sixty_four_bits {K Q} (t : traits K Q) : Prop :=
  (forall k, t_hash t k < two64) /\ (forall k, t_idx t k < two64) /\ (forall q, t_hashQ t q < two64) /\ (forall q, t_idxQ t q < two64).

(** One request about the key [q], by the functions of the map type. *)
Definition plain_request {M K V Q} (ops : map_ops M K V Q) (q : Q) (rq : request V) (m : M) : res (reply K V * M) :=
  match rq with
  | RqGet => o <- mo_get ops m q ;; Ok (RpValue o, m)
  | RqPut v => o <- mo_get_mut ops m q ;; m' <- map_put ops m q v ;; Ok (RpPut (is_some o), m')
  | RqGetKeyValue => o <- mo_get_key_value ops m q ;; Ok (RpEntry o, m)
  | RqContains => b <- mo_contains_key ops m q ;; Ok (RpBool b, m)
  end.

Fixpoint plain_session {M K V Q} (ops : map_ops M K V Q) (rqs : list (Q * request V)) (m : M) : res (list (option (reply K V)) * M) :=
  match rqs with
  | [] => Ok ([], m)
  | (q, rq) :: r =>
      x <- plain_request ops q rq m ;; y <- plain_session ops r (snd x) ;; Ok (Some (fst x) :: fst y, snd y)
  end.

(** Use what a constructor made; [any] only tags the map with its type. *)
Definition plain_use {M K V Q} (ops : map_ops M K V Q) (any : M -> any_map K V) (rqs : list (Q * request V)) (made : res (result M))
    : res (result (list (option (reply K V)) * any_map K V)) :=
  r <- made ;;
  match r with
  | ROk m => x <- plain_session ops rqs m ;; Ok (ROk (fst x, any (snd x)))
  | RErr s => Ok (RErr s)
  end.

Definition scalar_any {K V} (m : fz_scalar_map K V) : any_map K V :=
  match m with FsHash m => AnyHash m | FsDense m => AnyDense m | FsSparse m => AnySparse m end.
Definition string_any {V} (m : fz_string_map V) : any_map bytes V := AnyHash (sm_inner m).

(** Each constructor of ModelMaps.v with the functions of its type. ([MakeFzString] has keys of its own, see below.) *)
Definition plain_program {K V Q} (t : traits K Q) (usort : list (N * (K * V)) -> list (N * (K * V))) (md : mode) (mk : maker)
    (entries : list (K * V)) (rqs : list (Q * request V)) : res (result (list (option (reply K V)) * any_map K V)) :=
  let hash := hash_ops (fun q => Ok (t_hashQ t q)) (t_eqv t) in
  match mk with
  | MakeScan => plain_use (scan_ops (t_eqv t)) AnyScan rqs (Ok (ROk (scan_map_new (t_eq t) entries)))
  | MakeInlineScan sz => plain_use (scan_ops (t_eqv t)) AnyScan rqs (fmap ROk (inline_scan_map_new (t_eq t) sz entries))
  | MakeEytzinger => plain_use (eytzinger_ops (t_cmpQ t)) AnyOrdered rqs (fmap ROk (eytzinger_map_new (t_cmp t) entries))
  | MakeInlineEytzinger sz =>
      plain_use (eytzinger_ops (t_cmpQ t)) AnyOrdered rqs (fmap ROk (inline_eytzinger_map_new (t_cmp t) sz entries))
  | MakeSparse => plain_use (sparse_ops (t_idxQ t)) AnySparse rqs (fmap ROk (sparse_map_new md (t_idx t) (t_cmp t) entries))
  | MakeDense => plain_use (dense_ops (t_idxQ t)) AnyDense rqs (dense_map_new md (t_idx t) (t_cmp t) entries)
  | MakeHash cm => plain_use hash AnyHash rqs (hash_map_with_hasher usort cm (t_eq t) (t_hash t) entries)
  | MakeFzHash => plain_use hash AnyHash rqs (fmap ROk (fz_hash_map_with_hasher usort (t_eq t) (t_hash t) entries))
  | MakeFzOrdered => plain_use (eytzinger_ops (t_cmpQ t)) AnyOrdered rqs (fmap ROk (fz_ordered_map_new (t_cmp t) entries))
  | MakeFzScalar =>
      plain_use (fz_scalar_ops (t_idxQ t) (t_eqv t)) scalar_any rqs
        (fmap ROk (fz_scalar_map_new usort md (t_idx t) (t_cmp t) entries))
  | MakeFzString => Panic
  end.

Definition plain_string_program {V} (usort : list (N * (bytes * V)) -> list (N * (bytes * V))) (bh : build_hasher)
    (entries : list (bytes * V)) (rqs : list (bytes * request V)) : res (result (list (option (reply bytes V)) * any_map bytes V)) :=
  plain_use fz_string_ops string_any rqs (fmap ROk (fz_string_map_with_hasher usort bh entries)).
