(** Rust's two proposed aliasing models, Stacked Borrows (Jung et al., POPL 2020, in the form Miri implements) and Tree Borrows (Villani
    et al., PLDI 2025), as far as reborrowing of one array of entries goes. Nothing here mentions the implementation.

    Both decide for each memory location on its own whether a sequence of reborrows, reads and writes is allowed; anything else is undefined
    behaviour. Left out: protectors (they only ever forbid more, and only accesses through other pointers while a function runs that was
    passed the protected reference; there are none here), two-phase borrows, interior mutability, deallocation. *)
From Verif Require Import Prelude.

(** The array holds keys and values. *)
Inductive loc := KeyAt (i : nat) | ValAt (i : nat).
Definition entry_of (l : loc) : nat := match l with KeyAt i | ValAt i => i end.

(** The pointers of a program, each under a name of its own: [Owner] is the one everything is derived from, the others come about in the
    [call]-th call of a function. *)
Inductive what := ASelf | AView | ASlice | ARange | APtr | AEntry (j : nat) | ASeen (j : nat) | AKey (j : nat) | AVal (j : nat) | ARaw | ARef.
Inductive tag := Owner | Ptr (call : nat) (w : what).

(** [&mut *p], [&*p] and [p as *mut _]. *)
Inductive refkind := Mutable | Shared | Raw.
Inductive event :=
| Reborrow (k : refkind) (parent new : tag) (range : loc -> bool)
| Use (write : bool) (t : tag) (l : loc).

Definition what_eqb (a b : what) : bool :=
  match a, b with
  | ASelf, ASelf | AView, AView | ASlice, ASlice | ARange, ARange | APtr, APtr | ARaw, ARaw | ARef, ARef => true
  | AEntry i, AEntry j | ASeen i, ASeen j | AKey i, AKey j | AVal i, AVal j => Nat.eqb i j
  | _, _ => false
  end.
Definition tag_eqb (a b : tag) : bool :=
  match a, b with Owner, Owner => true | Ptr i v, Ptr j w => Nat.eqb i j && what_eqb v w | _, _ => false end.
Definition loc_eqb (a b : loc) : bool :=
  match a, b with KeyAt i, KeyAt j | ValAt i, ValAt j => Nat.eqb i j | _, _ => false end.

(** Run a program at one location. *)
Fixpoint run {S} (step : event -> S -> option S) (p : list event) (s : S) : option S :=
  match p with [] => Some s | e :: r => match step e s with Some s => run step r s | None => None end end.

(** ** Stacked Borrows *)

Inductive sb_perm := Unique | SharedRW | SharedRO | SbDisabled.
(** The top of the stack comes first. *)
Definition stack := list (sb_perm * tag).

Definition grants (write : bool) (p : sb_perm) : bool :=
  match p with Unique | SharedRW => true | SharedRO => negb write | SbDisabled => false end.
(** The topmost item that allows the access, with what is above and what is below it. *)
Fixpoint granting (write : bool) (t : tag) (s : stack) : option (stack * (sb_perm * tag) * stack) :=
  match s with
  | [] => None
  | (p, u) :: r =>
      if tag_eqb u t && grants write p then Some ([], (p, u), r)
      else match granting write t r with Some (above, g, below) => Some ((p, u) :: above, g, below) | None => None end
  end.
Definition is_rw (p : sb_perm) : bool := match p with SharedRW => true | _ => false end.
(** Of the items above a [SharedRW] item, those directly above it that are [SharedRW] too. *)
Fixpoint rw_block (above : stack) : stack :=
  match above with [] => [] | (p, u) :: r => if forallb (fun i => is_rw (fst i)) ((p, u) :: r) then (p, u) :: r else rw_block r end.
Definition compatible (g : sb_perm) (above : stack) : stack := if is_rw g then rw_block above else [].
(** A read disables the [Unique] items above the granting one; a write removes all that is not compatible. *)
Definition sb_access (write : bool) (t : tag) (s : stack) : option stack :=
  match granting write t s with
  | None => None
  | Some (above, g, below) =>
      Some ((if write then compatible (fst g) above
             else map (fun i => match fst i with Unique => (SbDisabled, snd i) | _ => i end) above) ++ g :: below)
  end.
Definition sb_step (l : loc) (e : event) (s : stack) : option stack :=
  match e with
  | Reborrow k parent new range =>
      if range l then
        match k with
        | Mutable => match sb_access true parent s with Some s => Some ((Unique, new) :: s) | None => None end
        | Shared => match sb_access false parent s with Some s => Some ((SharedRO, new) :: s) | None => None end
        | Raw =>
            (* no access; the new item goes above those compatible with the granting one *)
            match granting true parent s with
            | None => None
            | Some (above, g, below) =>
                let keep := compatible (fst g) above in
                Some (firstn (length above - length keep) above ++ (SharedRW, new) :: keep ++ g :: below)
            end
        end
      else Some s
  | Use write t l' => if loc_eqb l l' then sb_access write t s else Some s
  end.
Definition sb_defined (p : list event) : Prop := forall l, run (sb_step l) p [(Unique, Owner)] <> None.

(** ** Tree Borrows *)

Inductive tb_perm := Reserved | Active | Frozen | TbDisabled.
(** The nodes of the tree with their parents, children first. A raw pointer has the tag of the reference it was cast from, and so no
    permission of its own. *)
Definition tree := list (tag * tag * option tb_perm).

(** A pointer and those it is derived from. *)
Fixpoint chain (n : tree) (t : tag) : list tag :=
  match n with [] => [] | (u, parent, _) :: r => if tag_eqb u t then u :: chain r parent else chain r t end.
Definition among (t : tag) (l : list tag) : bool := existsb (tag_eqb t) l.
(** What an access does to the pointers it goes through ([None]: it is not allowed), and to all others. *)
Definition tb_local (write : bool) (p : tb_perm) : option tb_perm :=
  match write, p with
  | false, TbDisabled => None
  | false, p => Some p
  | true, (Reserved | Active) => Some Active
  | true, (Frozen | TbDisabled) => None
  end.
Definition tb_foreign (write : bool) (p : tb_perm) : tb_perm :=
  match write, p with true, _ => TbDisabled | false, Active => Frozen | false, p => p end.
Fixpoint tb_update (write : bool) (through : list tag) (n : tree) : option tree :=
  match n with
  | [] => Some []
  | (u, parent, p) :: r =>
      match tb_update write through r, p with
      | None, _ => None
      | Some r, None => Some ((u, parent, None) :: r)
      | Some r, Some p =>
          if among u through then match tb_local write p with Some p => Some ((u, parent, Some p) :: r) | None => None end
          else Some ((u, parent, Some (tb_foreign write p)) :: r)
      end
  end.
Definition known (t : tag) (n : tree) : bool := existsb (fun x => tag_eqb (fst (fst x)) t) n.
Definition tb_access (write : bool) (t : tag) (n : tree) : option tree :=
  if known t n then tb_update write (chain n t) n else None.
Definition tb_step (l : loc) (e : event) (n : tree) : option tree :=
  match e with
  | Reborrow k parent new range =>
      if range l then
        match k with
        | Mutable => match tb_access false parent n with Some n => Some ((new, parent, Some Reserved) :: n) | None => None end
        | Shared => match tb_access false parent n with Some n => Some ((new, parent, Some Frozen) :: n) | None => None end
        | Raw => if known parent n then Some ((new, parent, None) :: n) else None
        end
      else Some n
  | Use write t l' => if loc_eqb l l' then tb_access write t n else Some n
  end.
(** The owner may or may not have been written through before. *)
Definition tb_defined (p : list event) : Prop :=
  forall l s, s = Reserved \/ s = Active -> run (tb_step l) p [(Owner, Owner, Some s)] <> None.

(** What a client does with references it got, given where each of them points: reads and writes in any order. *)
Definition uses (ps : list (option nat)) (how : list (nat * bool)) : list event :=
  flat_map (fun u => match nth_error ps (fst u) with Some (Some p) => [Use (snd u) (Ptr (fst u) ARef) (ValAt p)] | _ => [] end) how.
Definition two_found (ps : list (option nat)) : Prop :=
  exists i j p q, (i < j)%nat /\ nth_error ps i = Some (Some p) /\ nth_error ps j = Some (Some q).
Definition one_place (ps : list (option nat)) : Prop :=
  exists i j p, (i < j)%nat /\ nth_error ps i = Some (Some p) /\ nth_error ps j = Some (Some p).
(** Nothing comes after the one that is found. *)
Definition found_last (ps : list (option nat)) : Prop := forall i p, nth_error ps i = Some (Some p) -> S i = length ps.
(** The owner is reborrowed mutably, at least as far as [l]. *)
Definition takes_over (l : loc) (p : list event) : Prop := exists new range, In (Reborrow Mutable Owner new range) p /\ range l = true.
