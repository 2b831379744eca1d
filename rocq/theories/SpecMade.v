(** [made ops eqK eqv m input]: the map [m], seen through the operations [ops] with keys compared by [eqK] and queries
    matched by [eqv], was obtained in safe code from the entries [input], under the laws the traits ask for.
    One constructor per public constructor of the crate. *)
From Verif Require Import ModelUtils ModelAnalyzers ModelTables ModelMaps ModelWidth ModelEmit Spec SpecEmit.
From Verif Require Import Prelude.

(** Matching by scalar index. *)
Definition idx_eq {K} (idx : K -> N) (a b : K) : bool := idx a =? idx b.
(** Matching by three-way comparison. *)
Definition cmp_eq {K Q} (cmp : Q -> K -> comparison) (q : Q) (k : K) : bool := is_eq (cmp q k).

(** Number of distinct keys. *)
Definition key_count {K V} (eqK : K -> K -> bool) (input : list (K * V)) : nat := length (survivors (same_key eqK) input).

Inductive made : forall {M K V Q : Type}, map_ops M K V Q -> (K -> K -> bool) -> (Q -> K -> bool) -> M -> list (K * V) -> Prop :=
(** fz_maps *)
| made_fz_hash K V Q usort eqK eqv hK hQ (input : list (K * V)) m :
    sorts_by_slot usort -> lawful_eq eqK -> lawful_equivalent eqK eqv -> lawful_hash eqK hK -> lawful_query_hash (Q := Q) eqv hQ hK ->
    fz_hash_map_with_hasher usort eqK hK input = Ok m -> made (hash_ops (fun q => Ok (hQ q)) eqv) eqK eqv m input
| made_fz_ordered K V Q cmp cmpQ (input : list (K * V)) m :
    lawful_ord cmp -> lawful_comparable (Q := Q) cmp cmpQ ->
    fz_ordered_map_new cmp input = Ok m -> made (eytzinger_ops cmpQ) (cmp_eq cmp) (cmp_eq cmpQ) m input
| made_fz_scalar K V Q usort md idx cmp idxQ eqv (input : list (K * V)) m :
    sorts_by_slot usort -> lawful_scalar idx cmp -> lawful_query_scalar (Q := Q) idx idxQ eqv ->
    span_representable idx (map fst input) ->
    fz_scalar_map_new usort md idx cmp input = Ok m -> made (fz_scalar_ops idxQ eqv) (idx_eq idx) eqv m input
| made_fz_string V usort bh (input : list (bytes * V)) m :
    sorts_by_slot usort -> (forall e, In e input -> N.of_nat (length (fst e)) <= usize_max) ->
    fz_string_map_with_hasher usort bh input = Ok m -> made fz_string_ops bytes_eqb bytes_eqb m input
(** maps *)
| made_scan K V Q eqK eqv (input : list (K * V)) :
    lawful_eq eqK -> lawful_equivalent (Q := Q) eqK eqv -> made (scan_ops eqv) eqK eqv (scan_map_new eqK input) input
| made_ordered K V Q cmp cmpQ (input : list (K * V)) m :
    lawful_ord cmp -> lawful_comparable (Q := Q) cmp cmpQ ->
    eytzinger_map_new cmp input = Ok m -> made (eytzinger_ops cmpQ) (cmp_eq cmp) (cmp_eq cmpQ) m input
| made_dense K V Q md idx cmp idxQ eqv (input : list (K * V)) m :
    lawful_scalar idx cmp -> lawful_query_scalar (Q := Q) idx idxQ eqv -> span_representable idx (map fst input) ->
    dense_map_new md idx cmp input = Ok (ROk m) -> made (dense_ops idxQ) (idx_eq idx) eqv m input
| made_sparse K V Q md idx cmp idxQ eqv (input : list (K * V)) m :
    lawful_scalar idx cmp -> lawful_query_scalar (Q := Q) idx idxQ eqv -> span_representable idx (map fst input) ->
    sparse_map_new md idx cmp input = Ok m -> made (sparse_ops idxQ) (idx_eq idx) eqv m input
| made_hash K V Q usort cm eqK eqv hK hQ (input : list (K * V)) m :
    sorts_by_slot usort -> lawful_eq eqK -> lawful_equivalent eqK eqv -> lawful_hash eqK hK -> lawful_query_hash (Q := Q) eqv hQ hK ->
    hash_map_with_hasher usort cm eqK hK input = Ok (ROk m) -> made (hash_ops (fun q => Ok (hQ q)) eqv) eqK eqv m input
(** The same on targets where [usize::MAX] is some smaller [umax]. *)
| made_fz_scalar_on K V Q umax usort md idx cmp idxQ eqv (input : list (K * V)) m :
    umax <= usize_max -> sorts_by_slot usort -> lawful_scalar idx cmp -> lawful_query_scalar (Q := Q) idx idxQ eqv ->
    (forall k, In k (map fst input) -> idx k <= umax) ->
    fz_scalar_map_new_on umax usort md idx cmp input = Ok m -> made (fz_scalar_ops idxQ eqv) (idx_eq idx) eqv m input
| made_fz_string_on V umax usort bh (input : list (bytes * V)) m :
    umax <= usize_max -> sorts_by_slot usort -> (forall e, In e input -> N.of_nat (length (fst e)) <= umax) ->
    fz_string_map_with_hasher_on umax usort bh input = Ok m -> made fz_string_ops bytes_eqb bytes_eqb m input
| made_dense_on K V Q umax md idx cmp idxQ eqv (input : list (K * V)) m :
    umax <= usize_max -> lawful_scalar idx cmp -> lawful_query_scalar (Q := Q) idx idxQ eqv ->
    (forall k, In k (map fst input) -> idx k <= umax) ->
    dense_map_new_on umax md idx cmp input = Ok (ROk m) -> made (dense_ops idxQ) (idx_eq idx) eqv m input
| made_sparse_on K V Q umax md idx cmp idxQ eqv (input : list (K * V)) m :
    umax <= usize_max -> lawful_scalar idx cmp -> lawful_query_scalar (Q := Q) idx idxQ eqv ->
    (forall k, In k (map fst input) -> idx k <= umax) ->
    sparse_map_new_on umax md idx cmp input = Ok m -> made (sparse_ops idxQ) (idx_eq idx) eqv m input
(** inline_maps *)
| made_inline_scan K V Q eqK eqv sz (input : list (K * V)) m :
    lawful_eq eqK -> lawful_equivalent (Q := Q) eqK eqv -> inline_scan_map_new eqK sz input = Ok m -> made (scan_ops eqv) eqK eqv m input
| made_inline_ordered K V Q cmp cmpQ sz (input : list (K * V)) m :
    lawful_ord cmp -> lawful_comparable (Q := Q) cmp cmpQ ->
    inline_eytzinger_map_new cmp sz input = Ok m -> made (eytzinger_ops cmpQ) (cmp_eq cmp) (cmp_eq cmpQ) m input
(** [Default] *)
| made_default_scan K V Q eqK eqv :
    lawful_eq eqK -> lawful_equivalent (Q := Q) eqK eqv -> made (scan_ops eqv) eqK eqv (scan_map_default (K := K) (V := V)) []
| made_default_ordered K V Q cmp cmpQ :
    lawful_ord cmp -> lawful_comparable (Q := Q) cmp cmpQ ->
    made (eytzinger_ops cmpQ) (cmp_eq cmp) (cmp_eq cmpQ) (eytzinger_map_default (K := K) (V := V)) []
| made_default_dense K V Q idx cmp idxQ eqv :
    lawful_scalar idx cmp -> lawful_query_scalar (Q := Q) idx idxQ eqv ->
    made (dense_ops idxQ) (idx_eq idx) eqv (dense_map_default (K := K) (V := V)) []
| made_default_sparse K V Q idx cmp idxQ eqv :
    lawful_scalar idx cmp -> lawful_query_scalar (Q := Q) idx idxQ eqv ->
    made (sparse_ops idxQ) (idx_eq idx) eqv (sparse_map_default (K := K) (V := V)) []
| made_default_hash K V Q eqK eqv hQ :
    lawful_eq eqK -> lawful_equivalent (Q := Q) eqK eqv ->
    made (hash_ops (fun q => Ok (hQ q)) eqv) eqK eqv (hash_map_default (K := K) (V := V)) []
| made_default_fz_scalar K V Q idx cmp idxQ eqv :
    lawful_scalar idx cmp -> lawful_query_scalar (Q := Q) idx idxQ eqv ->
    made (fz_scalar_ops idxQ eqv) (idx_eq idx) eqv (fz_scalar_map_default (K := K) (V := V)) []
| made_default_fz_string V bh :
    made fz_string_ops bytes_eqb bytes_eqb (fz_string_map_default (V := V) bh) []
(** Any history of writes through [get_mut], [iter_mut], [values_mut], [get_disjoint_mut], [IndexMut]: the values change,
    the keys do not. From then on the map must behave as if built from its new entries. *)
| made_values M K V Q (ops : map_ops M K V Q) eqK eqv m input es :
    made ops eqK eqv m input -> map fst es = map fst (mo_entries ops m) -> made ops eqK eqv (mo_with_entries ops m es) es
(** Collections emitted from keys known at build time, then compiled and evaluated. [fst e] is the key of the entry [e] at build
    time, [rt_key evK e] the value of its key expression at run time. *)
| made_emitted_scalar KB X W K V Q usort md unit_expr idxB cmpB em (entries : list (entry KB X W)) d out
    (evK : X -> K) (evV : W -> V) eqR cmpR idxK idxQ eqv cmpQ m :
    sorts_by_slot usort -> lawful_scalar idxB cmpB -> lawful_query_scalar (Q := Q) idxK idxQ eqv ->
    (forall e, In e entries -> idxK (rt_key evK e) = idxB (fst e)) ->
    span_representable idxB (map fst entries) -> N.of_nat (length entries) <= usize_max ->
    emit_scalar_collection usort md unit_expr idxB cmpB em entries = Ok (ROk (d, out)) ->
    run_ctor evK evV eqR cmpR (o_ctor out) = Ok m ->
    made (rt_ops eqv cmpQ idxQ (scalar_hasher idxQ)) (idx_eq idxK) eqv m
      (rt_input evK evV (evV unit_expr) (em_has_value_type em) entries)
| made_emitted_string X W V usort unit_expr seed fsB fsR em (entries : list (entry bytes X W)) d out
    (evK : X -> bytes) (evV : W -> V) eqR cmpR idxQ cmpQ m :
    sorts_by_slot usort ->
    (forall s, bh_str (fsR seed) s = bh_str (fsB seed) s) -> (forall s, bh_bytes (fsR seed) s = bh_bytes (fsB seed) s) ->
    (forall e, In e entries -> rt_key evK e = fst e) ->
    (forall e, In e entries -> N.of_nat (length (fst e)) <= usize_max) -> N.of_nat (length entries) <= usize_max ->
    emit_string_collection usort unit_expr seed fsB em entries = Ok (ROk (d, out)) ->
    run_ctor evK evV eqR cmpR (o_ctor out) = Ok m ->
    made (rt_ops bytes_eqb cmpQ idxQ (string_hasher fsR)) bytes_eqb bytes_eqb m
      (rt_input evK evV (evV unit_expr) (em_has_value_type em) entries)
| made_emitted_hash KB X W K V Q usort unit_expr seed hashB eqB em (entries : list (entry KB X W)) d out
    (evK : X -> K) (evV : W -> V) eqR cmpR eqK eqv cmpQ idxQ hashR m :
    sorts_by_slot usort -> lawful_eq eqB -> lawful_hash eqB (hashB seed) -> lawful_eq eqK -> lawful_equivalent (Q := Q) eqK eqv ->
    (forall a b, In a entries -> In b entries -> eqK (rt_key evK a) (rt_key evK b) = eqB (fst a) (fst b)) ->
    (forall q e, In e entries -> eqv q (rt_key evK e) = true -> hashR seed q = hashB seed (fst e)) ->
    N.of_nat (length entries) <= usize_max ->
    emit_hash_collection usort unit_expr seed hashB eqB em entries = Ok (ROk (d, out)) ->
    run_ctor evK evV eqR cmpR (o_ctor out) = Ok m ->
    made (rt_ops eqv cmpQ idxQ (general_hasher hashR)) eqK eqv m
      (rt_input evK evV (evV unit_expr) (em_has_value_type em) entries)
| made_emitted_ordered KB X W K V Q unit_expr cmpB em (entries : list (entry KB X W)) d out
    (evK : X -> K) (evV : W -> V) eqR cmpR cmpK cmpQ eqv idxQ hashQ m :
    lawful_ord cmpB -> lawful_ord cmpK -> lawful_comparable (Q := Q) cmpK cmpQ -> (forall q k, eqv q k = cmp_eq cmpQ q k) ->
    (forall a b, In a entries -> In b entries -> cmpK (rt_key evK a) (rt_key evK b) = cmpB (fst a) (fst b)) ->
    emit_ordered_collection unit_expr cmpB em entries = Ok (ROk (d, out)) ->
    run_ctor evK evV eqR cmpR (o_ctor out) = Ok m ->
    made (rt_ops eqv cmpQ idxQ hashQ) (cmp_eq cmpK) eqv m
      (rt_input evK evV (evV unit_expr) (em_has_value_type em) entries)
(** Collections emitted from keys known at run time only. *)
| made_emitted_scan_vec X W K V Q len (es : list (X * W)) (evK : X -> K) (evV : W -> V) eqK cmpR eqv cmpQ idxQ hashQ m :
    lawful_eq eqK -> lawful_equivalent (Q := Q) eqK eqv ->
    run_ctor evK evV eqK cmpR (CScanVec len es) = Ok m ->
    made (rt_ops eqv cmpQ idxQ hashQ) eqK eqv m (eval_entries evK evV es)
| made_emitted_eytzinger_vec X W K V Q len (es : list (X * W)) (evK : X -> K) (evV : W -> V) eqR cmpK eqv cmpQ idxQ hashQ m :
    lawful_ord cmpK -> lawful_comparable (Q := Q) cmpK cmpQ -> (forall q k, eqv q k = cmp_eq cmpQ q k) ->
    run_ctor evK evV eqR cmpK (CEytzingerVec len es) = Ok m ->
    made (rt_ops eqv cmpQ idxQ hashQ) (cmp_eq cmpK) eqv m (eval_entries evK evV es).

(** Option values related by a relation on values: both absent, or both present and related. *)
Definition opt_eq {V} (eqV : V -> V -> bool) (a b : option V) : Prop :=
  match a, b with
  | Some x, Some y => eqV x y = true
  | None, None => True
  | _, _ => False
  end.

(** Any other map (of this crate or not) holding [input]. *)
Definition holds {K V} (eqK : K -> K -> bool) (other : map_query K V) (input : list (K * V)) : Prop :=
  mq_len other = key_count eqK input /\ forall k, mq_get other k = Ok (spec_get eqK input k).

(** The map [m] answers every query like a map holding exactly [input], the last one supplied winning, and enumerates exactly that. *)
Record answers {M K V Q} (ops : map_ops M K V Q) (eqK : K -> K -> bool) (eqv : Q -> K -> bool) (m : M) (input : list (K * V)) : Prop := {
  answers_get : forall q, mo_get ops m q = Ok (spec_get eqv input q);
  answers_get_key_value : forall q, mo_get_key_value ops m q = Ok (spec_entry eqv input q);
  answers_contains_key : forall q, mo_contains_key ops m q = Ok (is_some (spec_entry eqv input q));
  answers_get_mut : forall q, exists o, mo_get_mut ops m q = Ok o /\
    match o with Some p => nth_error (mo_entries ops m) p | None => None end = spec_entry eqv input q;
  answers_entries : forall e, In e (mo_entries ops m) <->
    exists pre post, input = pre ++ e :: post /\ forall e', In e' post -> eqK (fst e) (fst e') = false;
  answers_len : map_len ops m = key_count eqK input }.

(** Emission succeeds with the declaration the options ask for; the emitted code compiles; run, it gives a map (wrapped as a set if
    there is no value type) that answers like one holding [input]. *)
Definition emits {X W K V Q} (r : res (result (decl * output X W))) (em : emitter) (evK : X -> K) (evV : W -> V)
    (eqR : K -> K -> bool) (cmpR : K -> K -> comparison) (ops : map_ops (rt_map K V) K V Q) (eqK : K -> K -> bool)
    (eqv : Q -> K -> bool) (input : list (K * V)) : Prop :=
  exists d out m, r = Ok (ROk (d, out)) /\ expected_decl em d /\ o_set out = negb (em_has_value_type em) /\
    ctor_compiles (o_ctor out) = true /\ run_ctor evK evV eqR cmpR (o_ctor out) = Ok m /\ answers ops eqK eqv m input.

(** A result is an error, and which one, exactly when the options are contradictory, and otherwise has the declaration asked for. *)
Definition options_decide {A} (em : emitter) (r : result (decl * A)) : Prop :=
  (options_consistent em -> exists d out, r = ROk (d, out) /\ expected_decl em d) /\
  (~ options_consistent em -> r = RErr (complaint em)).

(** Running gives a map holding exactly [input] if its keys are pairwise different, and panics otherwise. *)
Definition exact_or_panic {M K V Q} (run : res M) (ops : map_ops M K V Q) (eqK : K -> K -> bool) (eqv : Q -> K -> bool)
    (input : list (K * V)) : Prop :=
  (distinct eqK (map fst input) -> exists m, run = Ok m /\ answers ops eqK eqv m input) /\
  (~ distinct eqK (map fst input) -> run = Panic).
