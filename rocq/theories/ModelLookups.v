(** The references that [get], [get_key_value] and the iterators make on their way, recorded as in [ModelBorrows.v]
    ([ProofsLookups.v] proves that forgetting the record gives back the functions of [ModelMaps.v]).

    A [*const] pointer made from a shared reference is recorded as a shared reborrow. That is what it is under Stacked Borrows; under Tree
    Borrows it has no permission of its own, which forbids no more. [with_key] tells [get_key_value] from [get]. *)
From Verif Require Import ModelUtils ModelTables ModelMaps ModelEmit SpecAliasing SpecPhases ModelBorrows.
From Verif Require Import Prelude.

Section Call.
Variable inline : bool.
Variable call : nat.
Variable with_key : bool.
Notation T w := (Ptr call w).

(** [&self], and the pointer through which [self.entries] is reached. *)
Definition on_shared_self (n : nat) : list event := if inline then [Reborrow Shared Owner (T ASelf) (whole n)] else [].
Definition shared_slice (n : nat) : list event := [Reborrow Shared (self_ptr inline call) (T ASlice) (whole n)].
(** [(&entry.0, &entry.1)], or [&entry.1] alone. *)
Definition entry_refs (p : nat) : list event :=
  (if with_key then [Reborrow Shared (T (AEntry p)) (T (AKey p)) (key_at p)] else []) ++ [Reborrow Shared (T (AEntry p)) (T (AVal p)) (val_at p)].
(** [let entry = self.entries.get_unchecked(p); &entry.1] *)
Definition give_entry (n p : nat) : list event :=
  shared_slice n ++ [Reborrow Shared (T ASlice) (T (AEntry p)) (entry_at p)] ++ entry_refs p.

Section Scan.
Context {K V Q : Type} (eqv : Q -> K -> bool).
(** maps/decl_macros.rs L497-509, L529-541: [for entry in &self.entries]; the iterator holds a raw pointer. *)
Fixpoint scan_lookup_loop (es : list (K * V)) (pos : nat) (key : Q) (result : option nat) : borrows :=
  match es with
  | [] => ([], result)
  | e :: r =>
      let found := eqv key (fst e) in
      let b := scan_lookup_loop r (S pos) key (if found then Some pos else result) in
      ([Reborrow Shared (T APtr) (T (AEntry pos)) (entry_at pos); Reborrow Shared (T (AEntry pos)) (T (ASeen pos)) (key_at pos);
        Use false (T (ASeen pos)) (KeyAt pos)] ++
       (if found then entry_refs pos else []) ++ fst b, snd b)
  end.
Definition scan_lookup (m : scan_map K V) (key : Q) : res borrows :=
  let n := length (sm_entries m) in
  let b := scan_lookup_loop (sm_entries m) 0 key None in
  Ok (on_shared_self n ++ shared_slice n ++ [Reborrow Shared (T ASlice) (T APtr) (whole n)] ++ fst b, snd b).
End Scan.

Section Eytzinger.
Context {K V Q : Type} (cmpQ : Q -> K -> comparison).
(** maps/decl_macros.rs L161-172, L191-202; the search is that of [get_mut]. *)
Definition eytzinger_lookup (m : eytzinger_map K V) (key : Q) : res borrows :=
  let n := length (em_entries m) in
  b <- search_borrows_loop call (S n) (em_entries m) (fun entry => CompOpp (cmpQ key (fst entry))) 0 0 ;;
  let before := on_shared_self n ++ Reborrow Shared (self_ptr inline call) (T AView) (whole n) :: fst b in
  match snd b with
  | Some i => _e <- get_unchecked (em_entries m) i ;; Ok (before ++ give_entry n i, Some i)
  | None => Ok (before, None)
  end.
End Eytzinger.

Section Scalars.
Context {K V Q : Type} (idxQ : Q -> N).
(** maps/decl_macros.rs L103-113, L131-141. *)
Definition dense_lookup (m : dense_map K V) (key : Q) : res borrows :=
  let n := length (dm_entries m) in
  let index := idxQ key in
  if (dm_min m <=? index) && (index <=? dm_max m) then
    let p := N.to_nat (index - dm_min m) in
    _e <- get_unchecked (dm_entries m) p ;; Ok (on_shared_self n ++ give_entry n p, Some p)
  else Ok (on_shared_self n, None).
(** maps/decl_macros.rs L591-609, L635-653. *)
Definition sparse_lookup (m : sparse_map K V) (key : Q) : res borrows :=
  let n := length (sp_entries m) in
  let index := idxQ key in
  if (sp_min m <=? index) && (index <=? sp_max m) then
    i <- get_unchecked (sp_lookup m) (N.to_nat (index - sp_min m)) ;;
    if 0 <? i then
      let p := N.to_nat (i - 1) in
      _e <- get_unchecked (sp_entries m) p ;; Ok (on_shared_self n ++ give_entry n p, Some p)
    else Ok (on_shared_self n, None)
  else Ok (on_shared_self n, None).
End Scalars.

Section Hash.
Context {K V Q : Type} (hQ : Q -> res N) (eqv : Q -> K -> bool).
(** hash_tables/decl_macros.rs L16-27: [eq(&*ptr)], and [&*ptr] of the entry found. *)
Fixpoint slot_lookup (eq : K * V -> bool) (pos : nat) (l : list (K * V)) : borrows :=
  match l with
  | [] => ([], None)
  | e :: r =>
      let seen := [Reborrow Shared (T APtr) (T (ASeen pos)) (entry_at pos); Use false (T (ASeen pos)) (KeyAt pos)] in
      if eq e then (seen ++ [Reborrow Shared (T APtr) (T (AEntry pos)) (entry_at pos)] ++ entry_refs pos, Some pos)
      else let b := slot_lookup eq (S pos) r in (seen ++ fst b, snd b)
  end.
(** hash_tables/decl_macros.rs L4-30: [self.entries.get_unchecked(min..max)] and [as_ptr]. *)
Definition hash_lookup (m : hash_map K V) (key : Q) : res borrows :=
  h <- hQ key ;;
  let t := hm_table m in
  let n := length (ht_entries t) in
  slot <- get_unchecked (ht_slots t) (N.to_nat (N.land h (ht_mask t))) ;;
  let (mn, mx) := (slot : N * N) in
  let mn := N.to_nat mn in
  let mx := N.to_nat mx in
  entries <- slice_unchecked (ht_entries t) mn mx ;;
  let b := slot_lookup (fun entry => eqv key (fst entry)) mn entries in
  Ok (on_shared_self n ++ shared_slice n ++
      [Reborrow Shared (T ASlice) (T ARange) (from_to mn mx); Reborrow Shared (T ARange) (T APtr) (from_to mn mx)] ++ fst b, snd b).
(** inline_hash_table_no_collisions.rs L41-58. *)
Definition nc_lookup (m : nc_map K V) (key : Q) : res borrows :=
  h <- hQ key ;;
  let t := ncm_table m in
  let n := length (nc_entries t) in
  i <- get_unchecked (nc_slots t) (N.to_nat (N.land h (nc_mask t))) ;;
  if 0 <? i then
    let p := N.to_nat (i - 1) in
    e <- get_unchecked (nc_entries t) p ;;
    let found := eqv key (fst e) in
    Ok (on_shared_self n ++ shared_slice n ++ [Reborrow Shared (T ASlice) (T (AEntry p)) (entry_at p); Use false (T (AEntry p)) (KeyAt p)] ++
        (if found then entry_refs p else []), if found then Some p else None)
  else Ok (on_shared_self n, None).
End Hash.

(** ** Iterators *)

(** maps/decl_macros.rs L5-7 and maps/iterators.rs L13-15: [Iter::new(&self.entries)]; a slice iterator holds a raw pointer. *)
Definition iter_borrows (n : nat) : list event := on_shared_self n ++ shared_slice n ++ [Reborrow Shared (T ASlice) (T APtr) (whole n)].
(** maps/decl_macros.rs L11-13 and maps/iterators.rs L69-71: [IterMut::new(self.entries.as_mut())]. *)
Definition iter_mut_borrows (n : nat) : list event :=
  on_self inline call n ++ [Reborrow Mutable (self_ptr inline call) (T ASlice) (whole n); Reborrow Raw (T ASlice) (T APtr) (whole n)].
End Call.

(** maps/iterators.rs L21-23: [self.inner.next().map(|entry| (&entry.0, &entry.1))], at [pos]. *)
Definition iter_step (call pos : nat) : list event :=
  Reborrow Shared (Ptr call APtr) (Ptr call (AEntry pos)) (entry_at pos) :: entry_refs call true pos.
(** maps/iterators.rs L77-79: [self.inner.next().map(|entry| (&entry.0, &mut entry.1))], at [pos]. *)
Definition iter_mut_step (call pos : nat) : list event :=
  [Reborrow Mutable (Ptr call APtr) (Ptr call (AEntry pos)) (entry_at pos);
   Reborrow Shared (Ptr call (AEntry pos)) (Ptr call (AKey pos)) (key_at pos);
   Reborrow Mutable (Ptr call (AEntry pos)) (Ptr call (AVal pos)) (val_at pos)].

(** ** The facades and the maps that macros construct pass the call on *)

(** fz_maps/fz_scalar_map.rs L69-78, L95-104. *)
Definition fz_scalar_lookup {K V Q} (inline : bool) (call : nat) (with_key : bool) (idxQ : Q -> N) (eqv : Q -> K -> bool) (m : fz_scalar_map K V) (key : Q)
    : res borrows :=
  match m with
  | FsHash m => hash_lookup inline call with_key (fun q => scalar_hash_one (idxQ q)) eqv m key
  | FsDense m => dense_lookup inline call with_key idxQ m key
  | FsSparse m => sparse_lookup inline call with_key idxQ m key
  end.
(** fz_maps/fz_string_map.rs L98-108, L127-137. *)
Definition fz_string_lookup {V} (inline : bool) (call : nat) (with_key : bool) (m : fz_string_map V) (key : bytes) : res borrows :=
  match m with
  | SmLeft bh lo hi m => hash_lookup inline call with_key (left_range_hash_one bh lo hi) bytes_eqb m key
  | SmRight bh lo hi m => hash_lookup inline call with_key (right_range_hash_one bh lo hi) bytes_eqb m key
  | SmHash bh m => hash_lookup inline call with_key (bridge_hash_one bh) bytes_eqb m key
  end.
(** The maps of [ModelEmit.v]. *)
Definition rt_lookup {K V Q} (inline : bool) (call : nat) (with_key : bool) (eqv : Q -> K -> bool) (cmpQ : Q -> K -> comparison) (idxQ : Q -> N)
    (hashQ : hasher_code -> Q -> res N) (m : rt_map K V) (key : Q) : res borrows :=
  match m with
  | RtScan m => scan_lookup inline call with_key eqv m key
  | RtEytzinger m => eytzinger_lookup inline call with_key cmpQ m key
  | RtDense m => dense_lookup inline call with_key idxQ m key
  | RtSparse m => sparse_lookup inline call with_key idxQ m key
  | RtHash h m => hash_lookup inline call with_key (hashQ h) eqv m key
  | RtHashNc h m => nc_lookup inline call with_key (hashQ h) eqv m key
  end.

(** [looked_up ops m f]: [f inline call with_key] is [get_key_value] or [get] of [m], as its [call]-th call, with the record. *)
Inductive looked_up : forall {M K V Q : Type}, map_ops M K V Q -> M -> (bool -> nat -> bool -> Q -> res borrows) -> Prop :=
| look_scan K V Q (eqv : Q -> K -> bool) (m : scan_map K V) : looked_up (scan_ops eqv) m (fun inline call key => scan_lookup inline call key eqv m)
| look_eytzinger K V Q (cmpQ : Q -> K -> comparison) (m : eytzinger_map K V) :
    looked_up (eytzinger_ops cmpQ) m (fun inline call key => eytzinger_lookup inline call key cmpQ m)
| look_dense K V Q (idxQ : Q -> N) (m : dense_map K V) : looked_up (dense_ops idxQ) m (fun inline call key => dense_lookup inline call key idxQ m)
| look_sparse K V Q (idxQ : Q -> N) (m : sparse_map K V) : looked_up (sparse_ops idxQ) m (fun inline call key => sparse_lookup inline call key idxQ m)
| look_hash K V Q hQ (eqv : Q -> K -> bool) (m : hash_map K V) :
    looked_up (hash_ops hQ eqv) m (fun inline call key => hash_lookup inline call key hQ eqv m)
| look_nc K V Q hQ (eqv : Q -> K -> bool) (m : nc_map K V) : looked_up (nc_ops hQ eqv) m (fun inline call key => nc_lookup inline call key hQ eqv m)
| look_fz_scalar K V Q (idxQ : Q -> N) (eqv : Q -> K -> bool) (m : fz_scalar_map K V) :
    looked_up (fz_scalar_ops idxQ eqv) m (fun inline call key => fz_scalar_lookup inline call key idxQ eqv m)
| look_fz_string V (m : fz_string_map V) : looked_up fz_string_ops m (fun inline call key => fz_string_lookup inline call key m)
| look_emitted K V Q (eqv : Q -> K -> bool) cmpQ idxQ hashQ (m : rt_map K V) :
    looked_up (rt_ops eqv cmpQ idxQ hashQ) m (fun inline call key => rt_lookup inline call key eqv cmpQ idxQ hashQ m).

(** ** What a client does, over any of these *)
Section Client.
Context {Q : Type} (inline : bool) (n : nat) (lookup : nat -> bool -> Q -> res borrows) (get_mut : nat -> Q -> res borrows) (eqQ : Q -> Q -> bool).

(** References and iterators it was given: those to keys ([true]) and values, by call and position. *)
Definition given := list (bool * nat * nat).
Definition has_ref (key : bool) (i pos : nat) (g : given) : bool :=
  existsb (fun x => Bool.eqb (fst (fst x)) key && Nat.eqb (snd (fst x)) i && Nat.eqb (snd x) pos) g.
Definition ref_tag (key : bool) (i pos : nat) : tag := Ptr i (if key then AKey pos else AVal pos).
Definition ref_loc (key : bool) (pos : nat) : loc := if key then KeyAt pos else ValAt pos.
Fixpoint sharing (call : nat) (walkers : list nat) (g : given) (l : list (look Q)) : res (list event) :=
  match l with
  | [] => Ok []
  | Look with_key q :: r =>
      b <- lookup call with_key q ;;
      let g := match snd b with Some p => (if with_key then [(true, call, p)] else []) ++ (false, call, p) :: g | None => g end in
      rest <- sharing (S call) walkers g r ;; Ok (fst b ++ rest)
  | Walk :: r => rest <- sharing (S call) (call :: walkers) g r ;; Ok (iter_borrows inline call n ++ rest)
  | Step i pos :: r =>
      if existsb (Nat.eqb i) walkers && Nat.ltb pos n then
        rest <- sharing call walkers ((true, i, pos) :: (false, i, pos) :: g) r ;; Ok (iter_step i pos ++ rest)
      else sharing call walkers g r
  | Read key i pos :: r =>
      rest <- sharing call walkers g r ;;
      Ok ((if has_ref key i pos g then [Use false (ref_tag key i pos) (ref_loc key pos)] else []) ++ rest)
  end.
(** [at_] is how far it is. *)
Fixpoint visiting (at_ : nat) (l : list visit) : list event :=
  match l with
  | [] => []
  | Advance :: r => if Nat.ltb at_ n then iter_mut_step 0 at_ ++ visiting (S at_) r else visiting at_ r
  | ReadKey pos :: r => (if Nat.ltb pos at_ then [Use false (Ptr 0 (AKey pos)) (KeyAt pos)] else []) ++ visiting at_ r
  | UseVal write pos :: r => (if Nat.ltb pos at_ then [Use write (Ptr 0 (AVal pos)) (ValAt pos)] else []) ++ visiting at_ r
  end.
Definition phase_events (p : phase Q) : res (list event) :=
  match p with
  | Sharing l => sharing 0 [] [] l
  | Taking q how =>
      b <- get_mut 0%nat q ;;
      Ok (fst b ++ match snd b with Some p => map (fun w => Use w (Ptr 0 (AVal p)) (ValAt p)) how | None => [] end)
  | Visiting l => Ok (iter_mut_borrows inline 0 n ++ visiting 0 l)
  | TakingMany keys how => r <- disjoint_borrows get_mut eqQ keys ;; Ok (fst r ++ uses (snd r) how)
  end.
End Client.
