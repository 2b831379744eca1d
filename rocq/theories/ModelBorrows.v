(** The references that [get_mut] and [get_disjoint_mut] make on their way, for every kind of map: the functions of [ModelMaps.v] once more,
    this time recording each reborrow of the entries ([ProofsBorrows.v] proves that forgetting the record gives back the plain functions).

    A map holds its entries inline, so that reborrowing [self] reborrows them, or in a [Box<[(K, V)]>], which is dereferenced anew each time
    ([inline = false]). Passing a reference on to another function, which reborrows it once more, is not recorded; nor are the borrows of the
    lookup tables, which are only read. A comparison reads the key. *)
From Verif Require Import ModelUtils ModelTables ModelMaps ModelEmit SpecAliasing.
From Verif Require Import Prelude.

Definition borrows := (list event * option nat)%type.
Definition whole (n : nat) (l : loc) : bool := Nat.ltb (entry_of l) n.
Definition from_to (lo hi : nat) (l : loc) : bool := Nat.leb lo (entry_of l) && Nat.ltb (entry_of l) hi.
Definition entry_at (j : nat) (l : loc) : bool := Nat.eqb (entry_of l) j.
Definition key_at (j : nat) (l : loc) : bool := loc_eqb l (KeyAt j).
Definition val_at (j : nat) (l : loc) : bool := loc_eqb l (ValAt j).

Section Call.
Variable inline : bool.
Variable call : nat.
Notation T w := (Ptr call w).

(** [self] of [get_mut], and the pointer through which [self.entries] is reached. *)
Definition on_self (n : nat) : list event := if inline then [Reborrow Mutable Owner (T ASelf) (whole n)] else [].
Definition self_ptr : tag := if inline then T ASelf else Owner.

(** [let entry = self.entries.get_unchecked_mut(p); &mut entry.1] *)
Definition take_entry (n p : nat) : list event :=
  [Reborrow Mutable self_ptr (T ASlice) (whole n); Reborrow Mutable (T ASlice) (T (AEntry p)) (entry_at p);
   Reborrow Mutable (T (AEntry p)) (T (AVal p)) (val_at p)].

Section Scan.
Context {K V Q : Type} (eqv : Q -> K -> bool).
(** maps/decl_macros.rs L517-524: [for entry in &mut self.entries]; the iterator holds a raw pointer. *)
Fixpoint scan_borrows_loop (es : list (K * V)) (pos : nat) (key : Q) (result : option nat) : borrows :=
  match es with
  | [] => ([], result)
  | e :: r =>
      let found := eqv key (fst e) in
      let b := scan_borrows_loop r (S pos) key (if found then Some pos else result) in
      ([Reborrow Mutable (T APtr) (T (AEntry pos)) (entry_at pos); Reborrow Shared (T (AEntry pos)) (T (AKey pos)) (key_at pos);
        Use false (T (AKey pos)) (KeyAt pos)] ++
       (if found then [Reborrow Mutable (T (AEntry pos)) (T (AVal pos)) (val_at pos)] else []) ++ fst b, snd b)
  end.
Definition scan_borrows (m : scan_map K V) (key : Q) : res borrows :=
  let n := length (sm_entries m) in
  let b := scan_borrows_loop (sm_entries m) 0 key None in
  Ok (on_self n ++ [Reborrow Mutable self_ptr (T ASlice) (whole n); Reborrow Raw (T ASlice) (T APtr) (whole n)] ++ fst b, snd b).
End Scan.

Section Eytzinger.
Context {K V Q : Type} (cmpQ : Q -> K -> comparison).
(** eytzinger.rs L46-64: [f(v)] on the elements visited; [step] counts them. *)
Fixpoint search_borrows_loop (fuel : nat) (data : list (K * V)) (f : K * V -> comparison) (i step : nat) : res borrows :=
  match fuel with
  | O => Panic
  | S fuel' =>
      match nth_error data i with
      | Some v =>
          let seen := [Reborrow Shared (T AView) (T (ASeen step)) (entry_at i); Use false (T (ASeen step)) (KeyAt i)] in
          match f v with
          | Eq => Ok (seen, Some i)
          | order =>
              let o := ordering_as_usize order in
              let o := N.land (N.shiftr o 1) 1 in
              b <- search_borrows_loop fuel' data f (2 * i + 1 + N.to_nat o)%nat (S step) ;; Ok (seen ++ fst b, snd b)
          end
      | None => Ok ([], None)
      end
  end.
(** maps/decl_macros.rs L176-187: [eytzinger_search_by(&self.entries, ...)], then [get_unchecked_mut]. *)
Definition eytzinger_borrows (m : eytzinger_map K V) (key : Q) : res borrows :=
  let n := length (em_entries m) in
  b <- search_borrows_loop (S n) (em_entries m) (fun entry => CompOpp (cmpQ key (fst entry))) 0 0 ;;
  let before := on_self n ++ Reborrow Shared self_ptr (T AView) (whole n) :: fst b in
  match snd b with
  | Some i => _e <- get_unchecked (em_entries m) i ;; Ok (before ++ take_entry n i, Some i)
  | None => Ok (before, None)
  end.
End Eytzinger.

Section Scalars.
Context {K V Q : Type} (idxQ : Q -> N).
(** maps/decl_macros.rs L117-127. *)
Definition dense_borrows (m : dense_map K V) (key : Q) : res borrows :=
  let n := length (dm_entries m) in
  let index := idxQ key in
  if (dm_min m <=? index) && (index <=? dm_max m) then
    let p := N.to_nat (index - dm_min m) in
    _e <- get_unchecked (dm_entries m) p ;; Ok (on_self n ++ take_entry n p, Some p)
  else Ok (on_self n, None).
(** maps/decl_macros.rs L613-631. *)
Definition sparse_borrows (m : sparse_map K V) (key : Q) : res borrows :=
  let n := length (sp_entries m) in
  let index := idxQ key in
  if (sp_min m <=? index) && (index <=? sp_max m) then
    i <- get_unchecked (sp_lookup m) (N.to_nat (index - sp_min m)) ;;
    if 0 <? i then
      let p := N.to_nat (i - 1) in
      _e <- get_unchecked (sp_entries m) p ;; Ok (on_self n ++ take_entry n p, Some p)
    else Ok (on_self n, None)
  else Ok (on_self n, None).
End Scalars.

Section Hash.
Context {K V Q : Type} (hQ : Q -> res N) (eqv : Q -> K -> bool).
(** hash_tables/decl_macros.rs L46-56: [eq(&*ptr)], and [&mut *ptr] of the entry found; then the value, maps/decl_macros.rs L303. *)
Fixpoint slot_borrows (eq : K * V -> bool) (pos : nat) (l : list (K * V)) : borrows :=
  match l with
  | [] => ([], None)
  | e :: r =>
      let seen := [Reborrow Shared (T APtr) (T (ASeen pos)) (entry_at pos); Use false (T (ASeen pos)) (KeyAt pos)] in
      if eq e then
        (seen ++ [Reborrow Mutable (T APtr) (T (AEntry pos)) (entry_at pos); Reborrow Mutable (T (AEntry pos)) (T (AVal pos)) (val_at pos)],
         Some pos)
      else let b := slot_borrows eq (S pos) r in (seen ++ fst b, snd b)
  end.
(** hash_tables/decl_macros.rs L33-59: [self.entries.get_unchecked_mut(min..max)] and [as_mut_ptr]. *)
Definition hash_borrows (m : hash_map K V) (key : Q) : res borrows :=
  h <- hQ key ;;
  let t := hm_table m in
  let n := length (ht_entries t) in
  slot <- get_unchecked (ht_slots t) (N.to_nat (N.land h (ht_mask t))) ;;
  let (mn, mx) := (slot : N * N) in
  let mn := N.to_nat mn in
  let mx := N.to_nat mx in
  entries <- slice_unchecked (ht_entries t) mn mx ;;
  let b := slot_borrows (fun entry => eqv key (fst entry)) mn entries in
  Ok (on_self n ++ [Reborrow Mutable self_ptr (T ASlice) (whole n); Reborrow Mutable (T ASlice) (T ARange) (from_to mn mx);
                    Reborrow Raw (T ARange) (T APtr) (from_to mn mx)] ++ fst b, snd b).
(** inline_hash_table_no_collisions.rs L61-78: [get_unchecked_mut], then [eq(entry)]. *)
Definition nc_borrows (m : nc_map K V) (key : Q) : res borrows :=
  h <- hQ key ;;
  let t := ncm_table m in
  let n := length (nc_entries t) in
  i <- get_unchecked (nc_slots t) (N.to_nat (N.land h (nc_mask t))) ;;
  if 0 <? i then
    let p := N.to_nat (i - 1) in
    e <- get_unchecked (nc_entries t) p ;;
    let found := eqv key (fst e) in
    Ok (on_self n ++ [Reborrow Mutable self_ptr (T ASlice) (whole n); Reborrow Mutable (T ASlice) (T (AEntry p)) (entry_at p);
                      Reborrow Shared (T (AEntry p)) (T (ASeen p)) (entry_at p); Use false (T (ASeen p)) (KeyAt p)] ++
        (if found then [Reborrow Mutable (T (AEntry p)) (T (AVal p)) (val_at p)] else []), if found then Some p else None)
  else Ok (on_self n, None).
End Hash.
End Call.

(** ** [get_disjoint_mut], over any of the above *)
Section Disjoint.
Context {Q : Type} (get_mut : nat -> Q -> res borrows) (eqQ : Q -> Q -> bool).

(** maps/decl_macros.rs L266-271: [self.get_mut(keys[i]).map(|value| NonNull::new(value as *mut V).unwrap())] for each key. *)
Fixpoint pointers (call : nat) (keys : list Q) : res (list event * list (option nat)) :=
  match keys with
  | [] => Ok ([], [])
  | q :: r =>
      b <- get_mut call q ;;
      rest <- pointers (S call) r ;;
      Ok (fst b ++ (match snd b with Some p => [Reborrow Raw (Ptr call (AVal p)) (Ptr call ARaw) (val_at p)] | None => [] end) ++ fst rest,
          snd b :: snd rest)
  end.
(** maps/decl_macros.rs L273-276: [ptr.as_mut()] on each pointer. *)
Fixpoint as_muts (call : nat) (ps : list (option nat)) : list event :=
  match ps with
  | [] => []
  | Some p :: r => Reborrow Mutable (Ptr call ARaw) (Ptr call ARef) (val_at p) :: as_muts (S call) r
  | None :: r => as_muts (S call) r
  end.
(** maps/decl_macros.rs L265-277: [get_disjoint_unchecked_mut]. *)
Definition unchecked_borrows (keys : list Q) : res (list event * list (option nat)) :=
  r <- pointers 0 keys ;; Ok (fst r ++ as_muts 0 (snd r), snd r).
(** maps/decl_macros.rs L255-263: [get_disjoint_mut]. *)
Definition disjoint_borrows (keys : list Q) : res (list event * list (option nat)) :=
  if has_duplicates eqQ keys then Panic else unchecked_borrows keys.
End Disjoint.

(** ** The facades and the maps that macros construct pass the call on *)

(** fz_maps/fz_scalar_map.rs L82-91. *)
Definition fz_scalar_borrows {K V Q} (inline : bool) (call : nat) (idxQ : Q -> N) (eqv : Q -> K -> bool) (m : fz_scalar_map K V) (key : Q)
    : res borrows :=
  match m with
  | FsHash m => hash_borrows inline call (fun q => scalar_hash_one (idxQ q)) eqv m key
  | FsDense m => dense_borrows inline call idxQ m key
  | FsSparse m => sparse_borrows inline call idxQ m key
  end.
(** fz_maps/fz_string_map.rs L112-122. *)
Definition fz_string_borrows {V} (inline : bool) (call : nat) (m : fz_string_map V) (key : bytes) : res borrows :=
  match m with
  | SmLeft bh lo hi m => hash_borrows inline call (left_range_hash_one bh lo hi) bytes_eqb m key
  | SmRight bh lo hi m => hash_borrows inline call (right_range_hash_one bh lo hi) bytes_eqb m key
  | SmHash bh m => hash_borrows inline call (bridge_hash_one bh) bytes_eqb m key
  end.
(** The maps of [ModelEmit.v]. *)
Definition rt_borrows {K V Q} (inline : bool) (call : nat) (eqv : Q -> K -> bool) (cmpQ : Q -> K -> comparison) (idxQ : Q -> N)
    (hashQ : hasher_code -> Q -> res N) (m : rt_map K V) (key : Q) : res borrows :=
  match m with
  | RtScan m => scan_borrows inline call eqv m key
  | RtEytzinger m => eytzinger_borrows inline call cmpQ m key
  | RtDense m => dense_borrows inline call idxQ m key
  | RtSparse m => sparse_borrows inline call idxQ m key
  | RtHash h m => hash_borrows inline call (hashQ h) eqv m key
  | RtHashNc h m => nc_borrows inline call (hashQ h) eqv m key
  end.

(** [recorded ops m f]: [f inline call] is [get_mut] of [m], as its [call]-th call, with the record. *)
Inductive recorded : forall {M K V Q : Type}, map_ops M K V Q -> M -> (bool -> nat -> Q -> res borrows) -> Prop :=
| rec_scan K V Q (eqv : Q -> K -> bool) (m : scan_map K V) : recorded (scan_ops eqv) m (fun inline call => scan_borrows inline call eqv m)
| rec_eytzinger K V Q (cmpQ : Q -> K -> comparison) (m : eytzinger_map K V) :
    recorded (eytzinger_ops cmpQ) m (fun inline call => eytzinger_borrows inline call cmpQ m)
| rec_dense K V Q (idxQ : Q -> N) (m : dense_map K V) : recorded (dense_ops idxQ) m (fun inline call => dense_borrows inline call idxQ m)
| rec_sparse K V Q (idxQ : Q -> N) (m : sparse_map K V) : recorded (sparse_ops idxQ) m (fun inline call => sparse_borrows inline call idxQ m)
| rec_hash K V Q hQ (eqv : Q -> K -> bool) (m : hash_map K V) :
    recorded (hash_ops hQ eqv) m (fun inline call => hash_borrows inline call hQ eqv m)
| rec_nc K V Q hQ (eqv : Q -> K -> bool) (m : nc_map K V) : recorded (nc_ops hQ eqv) m (fun inline call => nc_borrows inline call hQ eqv m)
| rec_fz_scalar K V Q (idxQ : Q -> N) (eqv : Q -> K -> bool) (m : fz_scalar_map K V) :
    recorded (fz_scalar_ops idxQ eqv) m (fun inline call => fz_scalar_borrows inline call idxQ eqv m)
| rec_fz_string V (m : fz_string_map V) : recorded fz_string_ops m (fun inline call => fz_string_borrows inline call m)
| rec_emitted K V Q (eqv : Q -> K -> bool) cmpQ idxQ hashQ (m : rt_map K V) :
    recorded (rt_ops eqv cmpQ idxQ hashQ) m (fun inline call => rt_borrows inline call eqv cmpQ idxQ hashQ m).
