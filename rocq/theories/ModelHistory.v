(** Clients of the maps: each call of [SpecHistory.v], made with the methods of the maps. *)
From Verif Require Import ModelUtils ModelAnalyzers ModelTables ModelMaps ModelIter SpecHistory.
From Verif Require Import Prelude.

Section Client.
Context {M K V Q : Type} (ops : map_ops M K V Q) (eqQ : Q -> Q -> bool).

(** The value at a position of the entry array. *)
Definition value_at (es : list (K * V)) (p : nat) : option V := option_map snd (nth_error es p).

(** [if let Some(r) = m.get_mut(q) { Some(mem::replace(r, v)) } else { None }]. *)
Definition client_replace (m : M) (q : Q) (v : V) : res (answer K V * M) :=
  o <- mo_get_mut ops m q ;;
  match o with
  | Some p => Ok (AnsMaybe (value_at (mo_entries ops m) p), mo_with_entries ops m (write_value (mo_entries ops m) p v))
  | None => Ok (AnsMaybe None, m)
  end.

(** Two of the references returned by [get_disjoint_mut] point to the same value. *)
Fixpoint aliased (ps : list (option nat)) : bool :=
  match ps with
  | [] => false
  | Some p :: r => existsb (fun o => match o with Some p' => Nat.eqb p p' | None => false end) r || aliased r
  | None :: r => aliased r
  end.

(** [m.get_disjoint_mut(keys)], then [mem::replace] through each reference. Holding two references to one value is undefined behaviour. *)
Definition client_replace_many (m : M) (ws : list (Q * V)) : res (answer K V * M) :=
  ps <- get_disjoint_mut ops eqQ m (map fst ws) ;;
  if aliased ps then UB
  else
    let es := mo_entries ops m in
    let old := map (fun o => match o with Some p => value_at es p | None => None end) ps in
    let es' := fold_left (fun es w => match fst w with Some p => write_value es p (snd w) | None => es end) (combine ps (map snd ws)) es in
    Ok (AnsMany old, mo_with_entries ops m es').

(** [for (k, v) in m.iter_mut() { *v = f(k, v) }]. *)
Definition client_update_all (m : M) (f : K -> V -> V) : res (answer K V * M) :=
  let es := mo_entries ops m in
  refs <- drain (it_next map_iter_mut) (S (length es)) (iter_mut_new es) ;;
  let es' := fold_left (fun es r => match value_at es (snd r) with
                                    | Some v => write_value es (snd r) (f (fst r) v)
                                    | None => es
                                    end) refs es in
  Ok (AnsDone, mo_with_entries ops m es').

(** [for v in m.values_mut() { *v = f(v) }]. *)
Definition client_update_values (m : M) (f : V -> V) : res (answer K V * M) :=
  let es := mo_entries ops m in
  refs <- drain (it_next map_values_mut) (S (length es)) (iter_mut_new es) ;;
  let es' := fold_left (fun es p => match value_at es p with Some v => write_value es p (f v) | None => es end) refs es in
  Ok (AnsDone, mo_with_entries ops m es').

Definition client_body (m : M) (c : call K V Q) : res (answer K V * M) :=
  match c with
  | CallGet q => o <- mo_get ops m q ;; Ok (AnsMaybe o, m)
  | CallGetKeyValue q => o <- mo_get_key_value ops m q ;; Ok (AnsEntry o, m)
  | CallContainsKey q => b <- mo_contains_key ops m q ;; Ok (AnsBool b, m)
  | CallIndex q => v <- map_index ops m q ;; Ok (AnsValue v, m)
  | CallLen => Ok (AnsCount (map_len ops m), m)
  | CallIsEmpty => Ok (AnsBool (map_is_empty ops m), m)
  | CallIter => l <- drain (it_next map_iter) (S (map_len ops m)) (iter_new (mo_entries ops m)) ;; Ok (AnsEntries l, m)
  | CallKeys => l <- drain (it_next map_keys) (S (map_len ops m)) (iter_new (mo_entries ops m)) ;; Ok (AnsKeys l, m)
  | CallValues => l <- drain (it_next map_values) (S (map_len ops m)) (iter_new (mo_entries ops m)) ;; Ok (AnsValues l, m)
  | CallReplace q v => client_replace m q v
  | CallReplaceMany ws => client_replace_many m ws
  | CallUpdateAll f => client_update_all m f
  | CallUpdateValues f => client_update_values m f
  end.

(** A panic is caught ([catch_unwind]) and the map used again; no call above panics after its first write. *)
Definition client_call (m : M) (c : call K V Q) : res (answer K V * M) :=
  match client_body m c with
  | Panic => Ok (AnsPanic, m)
  | r => r
  end.
End Client.
