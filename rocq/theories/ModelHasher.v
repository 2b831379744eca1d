(** Hash maps whose keys have a lawful [Eq], such as strings and integers, while the hash builder, or [Hash], is the caller's and keeps
    state and panics. As in ModelHostile.v the codes come from a stream; equality is a function. *)
From Verif Require Import ModelUtils ModelAnalyzers ModelTables ModelMaps ModelHostile.
From Verif Require Import Prelude.

(** dedup.rs L51-61. hashbrown asks about those of the stored indices that it likes, and yields one that is equal, or none; which, one
    answer decides. *)
Fixpoint s_using_hash_dupes {T} (eq : T -> T -> bool) (index : nat) (l : list T) (keep : list (nat * T)) (dupes : list nat) : hostile (list nat) :=
  match l with
  | [] => ret dupes
  | value :: r =>
      _h <~ ask_number ;;
      a <~ ask ;;
      let at_ := N.to_nat (a_number a mod N.of_nat (List.length keep)) in
      match (if a_bool a then nth_error keep at_ else None) with
      | Some (old, other) =>
          if eq value other then s_using_hash_dupes eq (S index) r ((index, value) :: remove_nth at_ keep) (old :: dupes)
          else s_using_hash_dupes eq (S index) r ((index, value) :: keep) dupes
      | None => s_using_hash_dupes eq (S index) r ((index, value) :: keep) dupes
      end
  end.

(** dedup.rs L47-76: [DeduppedVec::using_hash]. *)
Definition s_using_hash {T} (eq : T -> T -> bool) (entries : list T) : hostile (list T) :=
  if Nat.leb 2 (List.length entries) then
    dupes <~ s_using_hash_dupes eq 0 entries [] [] ;;
    ret (if negb (is_nil dupes) then retain_from 0 dupes entries else entries)
  else ret entries.

(** maps/hash_map.rs L47-54: [HashMap::with_hasher]. *)
Definition s_hash_map {K V} (usort : list (N * (K * V)) -> list (N * (K * V))) (cm : magnitude) (eqK : K -> K -> bool) (entries : list (K * V))
    : hostile (result (hash_map K V)) :=
  es <~ s_using_hash (fun x y => eqK (fst x) (fst y)) entries ;; h_hash_from_dedupped usort cm es.

(** fz_maps/fz_hash_map.rs L66-75: [FzHashMap::with_hasher]. *)
Definition s_fz_hash {K V} (usort : list (N * (K * V)) -> list (N * (K * V))) (eqK : K -> K -> bool) (entries : list (K * V))
    : hostile (hash_map K V) :=
  r <~ s_hash_map usort Large eqK entries ;; h_unwrap r.

(** fz_maps/fz_string_map.rs L62-94: [FzStringMap::with_hasher]. [as_ref] is called once for every entry, so what the keys are does not
    change any more. The analysis asks the hash builder as well; which hasher it chooses shows in nothing but the codes. *)
Definition s_fz_string {V} (usort : list (N * (bytes * V)) -> list (N * (bytes * V))) (entries : list (bytes * V)) : hostile (hash_map bytes V) :=
  let entries := using_cmp entries (fun x y => bytes_cmp (fst x) (fst y)) in
  _a <~ ask ;;
  r <~ h_hash_from_dedupped usort Large entries ;; h_unwrap r.

Section Queries.
Context {K V Q : Type}.
Variable eqv : Q -> K -> bool.
Variable eqQ : Q -> Q -> bool.

(** maps/decl_macros.rs L284-292, L296-304, L308-316. (FzStringMap calls [as_ref] once and passes the string on.) *)
Definition s_get (m : hash_map K V) (q : Q) : hostile (option V) :=
  h <~ ask_number ;; lift (fmap (option_map snd) (ht_find (hm_table m) h (fun entry => eqv q (fst entry)))).
Definition s_get_mut (m : hash_map K V) (q : Q) : hostile (option nat) :=
  h <~ ask_number ;; lift (ht_find_mut (hm_table m) h (fun entry => eqv q (fst entry))).
Definition s_get_key_value (m : hash_map K V) (q : Q) : hostile (option (K * V)) :=
  h <~ ask_number ;; lift (fmap (option_map (fun e => (fst e, snd e))) (ht_find (hm_table m) h (fun entry => eqv q (fst entry)))).

(** maps/decl_macros.rs L265-277 and L255-263; fz_string_map.rs L156-167 (all [as_ref] calls come first). *)
Fixpoint s_disjoint_unchecked (m : hash_map K V) (keys : list Q) : hostile (list (option nat)) :=
  match keys with
  | [] => ret []
  | q :: r => o <~ s_get_mut m q ;; os <~ s_disjoint_unchecked m r ;; ret (o :: os)
  end.
Definition s_disjoint (m : hash_map K V) (keys : list Q) : hostile (list (option nat)) :=
  if has_duplicates eqQ keys then lift Panic else s_disjoint_unchecked m keys.

(** What a client does, one call or a few. Through a reference it reads the old value and puts a new one. *)
Inductive call :=
| CGet (q : Q)
| CEntry (q : Q)
| CPut (q : Q) (v : V)
| CPutAll (kvs : list (Q * V)).
Inductive back :=
| BValue (o : option V)
| BEntry (o : option (K * V))
| BOld (o : option V)
| BOlds (os : list (option V)).

Definition with_hash_entries (m : hash_map K V) (es : list (K * V)) : hash_map K V :=
  {| hm_table := {| ht_slots := ht_slots (hm_table m); ht_entries := es; ht_mask := ht_mask (hm_table m) |} |}.

(** Writes [v] where the reference points. *)
Definition put_at (es : list (K * V)) (o : option nat) (v : V) : list (K * V) :=
  match o with
  | Some p => match nth_error es p with Some e => list_set es p (fst e, v) | None => es end
  | None => es
  end.
Definition value_at (es : list (K * V)) (o : option nat) : option V :=
  match o with Some p => option_map snd (nth_error es p) | None => None end.
Fixpoint put_all (es : list (K * V)) (os : list (option nat)) (vs : list V) : list (K * V) :=
  match os, vs with
  | o :: os', v :: vs' => put_all (put_at es o v) os' vs'
  | _, _ => es
  end.
(** Two references to one value: the client, in safe code, has undefined behaviour. *)
Fixpoint twice (os : list (option nat)) : bool :=
  match os with
  | [] => false
  | None :: r => twice r
  | Some p :: r => existsb (fun o => match o with Some p' => Nat.eqb p p' | None => false end) r || twice r
  end.

Definition s_call (c : call) (m : hash_map K V) : hostile (back * hash_map K V) :=
  match c with
  | CGet q => o <~ s_get m q ;; ret (BValue o, m)
  | CEntry q => o <~ s_get_key_value m q ;; ret (BEntry o, m)
  | CPut q v =>
      o <~ s_get_mut m q ;;
      ret (BOld (value_at (ht_entries (hm_table m)) o), with_hash_entries m (put_at (ht_entries (hm_table m)) o v))
  | CPutAll kvs =>
      os <~ s_disjoint m (map fst kvs) ;;
      if twice os then lift UB else
      ret (BOlds (map (value_at (ht_entries (hm_table m))) os), with_hash_entries m (put_all (ht_entries (hm_table m)) os (map snd kvs)))
  end.

(** The client catches panics and goes on; the stream goes on wherever it is. *)
Fixpoint s_calls (cs : list call) (m : hash_map K V) : hostile (list (option back) * hash_map K V) :=
  match cs with
  | [] => ret ([], m)
  | c :: r =>
      fun adv n =>
        match s_call c m adv n with
        | Ok ((b, m'), n') => (x <~ s_calls r m' ;; ret (Some b :: fst x, snd x)) adv n'
        | Panic => (x <~ s_calls r m ;; ret (None :: fst x, snd x)) adv (S n)
        | UB => UB
        end
  end.
End Queries.
Arguments call : clear implicits.
Arguments back : clear implicits.
Arguments CGet {V Q}.
Arguments CEntry {V Q}.
Arguments CPut {V Q}.
Arguments CPutAll {V Q}.
Arguments BValue {K V}.
Arguments BEntry {K V}.
Arguments BOld {K V}.
Arguments BOlds {K V}.
