(** C80: [get_disjoint_mut] with traits at their worst, and for [BTreeMap]. Statements only; proofs are in [ProofsDisjoint.v]. *)
From Verif Require Import ModelUtils ModelAnalyzers ModelTables ModelMaps ModelHostile ModelDisjoint.
From Verif Require Import Spec SpecHostile SpecDisjoint ProofsHostile ProofsDisjoint Instances.
From Verif Require Import Prelude.

(** Without any law: no access outside of the map; one answer per key; every reference into the map. *)
Theorem C80_in_bounds : forall K V (m : any_map K V) n adv i, sound m ->
  match h_disjoint m n adv i with
  | Ok (ps, _) => length ps = n /\ Forall (fun o => forall p, o = Some p -> (p < length (any_entries m))%nat) ps
  | Panic => True
  | UB => False
  end.
Proof. exact @disjoint_safe. Qed.
Print Assumptions C80_in_bounds.

(** If no trait method panics, the panic is the one for duplicates: one of the first [n * (n - 1) / 2] answers, the comparisons of every
    pair of keys, was "equal". *)
Theorem C80_panics : forall K V (m : any_map K V) n adv i, sound m -> (forall j, a_panics (adv j) = false) ->
  (h_disjoint m n adv i = Panic <-> exists j, (2 * j + n < n * n)%nat /\ a_bool (adv (i + j)%nat) = true).
Proof. exact @disjoint_panics. Qed.
Print Assumptions C80_panics.

(** Exactly these lists of references come out of maps whose fields fit together: any answers a lookup can give, for each key anew. *)
Theorem C80_results : forall K V (m : any_map K V) n ps, sound m ->
  ((exists adv, (forall j, a_panics (adv j) = false) /\ fmap fst (h_disjoint m n adv 0%nat) = Ok ps) <->
   length ps = n /\ Forall (possible m) ps).
Proof. exact @disjoint_results. Qed.
Print Assumptions C80_results.

(** So the check for duplicates does not keep the references apart: in every map in which anything can be found, two or more keys can
    all lead to it, and safe code holds mutable references to one value. *)
Theorem C80_aliasing_refuted : forall K V (m : any_map K V) p n, sound m -> possible m (Some p) -> (2 <= n)%nat ->
  exists adv ps, (forall j, a_panics (adv j) = false) /\ fmap fst (h_disjoint m n adv 0%nat) = Ok ps /\ aliasing ps.
Proof.
  intros K V m p n HS HP L. destruct (proj2 (disjoint_results m n (repeat (Some p) n) HS)) as [adv [Q E]].
  - split; [apply repeat_length|]. apply Forall_forall. intros o Ho. apply repeat_spec in Ho. subst o. exact HP.
  - exists adv, (repeat (Some p) n). split; [exact Q|]. split; [exact E|]. apply repeat_aliasing, L.
Qed.
Print Assumptions C80_aliasing_refuted.

(** [BTreeMap]: the panic is for keys equal by [Eq]; otherwise every key gets the entry it compares equal to. Two references are to one
    value exactly if two of the keys compare equal to one stored key. *)
Theorem C80_btree : forall K V Q (cmp : K -> K -> comparison) (cmpQ : Q -> K -> comparison), lawful_ord cmp -> lawful_comparable cmp cmpQ ->
  forall (input : list (K * V)) eqQ keys,
  let es := bt_from_iter cmp input in
  (repeats eqQ keys -> bt_disjoint cmpQ eqQ es keys = Panic) /\
  (~ repeats eqQ keys ->
   exists ps, bt_disjoint cmpQ eqQ es keys = Ok ps /\
     Forall2 (fun q o => forall p, o = Some p <-> exists e, nth_error es p = Some e /\ cmpQ q (fst e) = Eq) keys ps /\
     (aliasing ps <-> exists i j x y e, (i < j)%nat /\ nth_error keys i = Some x /\ nth_error keys j = Some y /\ In e es /\
        cmpQ x (fst e) = Eq /\ cmpQ y (fst e) = Eq)).
Proof. exact @bt_disjoint_spec. Qed.
Print Assumptions C80_btree.

(** So there is none if [Eq] of the queries says what [Ord] says. *)
Theorem C80_btree_disjoint : forall K V Q (cmp : K -> K -> comparison) (cmpQ : Q -> K -> comparison), lawful_ord cmp -> lawful_comparable cmp cmpQ ->
  forall (input : list (K * V)) eqQ keys ps, (forall x y k, cmpQ x k = Eq -> cmpQ y k = Eq -> eqQ x y = true) ->
  bt_disjoint cmpQ eqQ (bt_from_iter cmp input) keys = Ok ps -> ~ aliasing ps.
Proof.
  intros K V Q cmp cmpQ HO HQ input eqQ keys ps A E. destruct (bt_disjoint_spec cmp cmpQ HO HQ input eqQ keys) as [H1 H2].
  assert (R : ~ repeats eqQ keys) by (intros R; apply H1 in R; congruence).
  destruct (H2 R) as [ps' [E' [_ G]]]. assert (ps' = ps) as -> by congruence. rewrite G.
  intros [i [j [x [y [e [L [X [Y [_ [CX CY]]]]]]]]]]. apply R. exists i, j, x, y. repeat split; auto. eapply A; eauto.
Qed.
Print Assumptions C80_btree_disjoint.

(** And if it tells more keys apart, there is: here [Ord] is a lawful order that ignores the lowest digit, and [Eq] does not ignore it. No method keeps
    state or panics. *)
Definition tens (a b : N) : comparison := (a / 10) ?= (b / 10).
Theorem C80_btree_refuted : lawful_ord tens /\ lawful_comparable tens tens /\ lawful_eq N.eqb /\
  exists ps, bt_disjoint tens N.eqb (bt_from_iter tens [(10, 7); (25, 8)]) [20; 21] = Ok ps /\ aliasing ps.
Proof.
  assert (O : lawful_ord tens).
  { split; unfold tens.
    - intros x. apply N.compare_refl.
    - intros x y. apply N.compare_antisym.
    - intros x y z H. apply N.compare_eq in H. rewrite H. reflexivity.
    - intros x y z H1 H2. apply N.compare_lt_iff in H1, H2. apply N.compare_lt_iff. eapply N.lt_trans; eauto. }
  split; [exact O|]. split; [apply self_comparable, O|]. split; [exact N_eqb_lawful|].
  exists [Some 1%nat; Some 1%nat]. split; [vm_compute; reflexivity|]. exists 0%nat, 1%nat, 1%nat. repeat split. lia.
Qed.
Print Assumptions C80_btree_refuted.

(** A lawful map and keys, two of them found. *)
Example C80_btree_ex : lawful_ord N.compare /\ lawful_comparable N.compare N.compare /\
  bt_disjoint N.compare N.eqb (bt_from_iter N.compare [(5, 50); (2, 20); (5, 51); (9, 90)]) [9; 5; 4] = Ok [Some 2%nat; Some 1%nat; None] /\
  bt_from_iter N.compare [(5, 50); (2, 20); (5, 51); (9, 90)] = [(2, 20); (5, 51); (9, 90)] /\
  bt_disjoint N.compare N.eqb (bt_from_iter N.compare [(5, 50); (2, 20)]) [9; 5; 9] = Panic.
Proof.
  split; [exact N_compare_lawful|]. split; [apply self_comparable, N_compare_lawful|]. vm_compute. auto.
Qed.

(** Maps of every kind made under lawful answers or made up, and what two lookups can lead to. *)
Definition m_hash : any_map N N := AnyHash {| hm_table := iht_new_raw [(0, 2); (2, 2); (2, 3); (3, 3)] [(4, 40); (8, 80); (6, 60)] |}.
Definition m_sparse : any_map N N := AnySparse {| sp_min := 3; sp_max := 5; sp_lookup := [1; 0; 2]; sp_entries := [(3, 30); (5, 50)] |}.
Definition m_dense : any_map N N := AnyDense {| dm_min := 3; dm_max := 4; dm_entries := [(3, 30); (4, 40)] |}.
Definition m_ordered : any_map N N := AnyOrdered {| em_entries := [(3, 30); (2, 20); (4, 40)] |}.
Example C80_sound_example : sound m_hash /\ sound m_sparse /\ sound m_dense /\ sound m_ordered.
Proof.
  split; [|split; [|split]]; cbn [sound m_hash m_sparse m_dense m_ordered].
  - intros h Hh. cbn [hm_table iht_new_raw ht_slots ht_mask ht_entries]. change (N.of_nat (length _) - 1) with 3.
    assert (L : N.land h 3 < 4) by (change 3 with (N.ones 2); rewrite N.land_ones; apply N.mod_lt; discriminate).
    assert (N.land h 3 = 0 \/ N.land h 3 = 1 \/ N.land h 3 = 2 \/ N.land h 3 = 3) as [E|[E|[E|E]]] by lia; rewrite E; eexists _, _;
      (split; [reflexivity|]); cbn; lia.
  - intros i Hi. cbn [sp_min sp_max sp_lookup sp_entries] in *. assert (i = 3 \/ i = 4 \/ i = 5) as [E|[E|E]] by lia; subst i; eexists;
      (split; [reflexivity|]); cbn; lia.
  - cbn. intros. lia.
  - exact I.
Qed.
Example C80_possible_example : possible m_hash (Some 1%nat) /\ possible m_hash None /\ possible m_sparse (Some 1%nat) /\
  possible m_sparse None /\ possible m_dense (Some 1%nat) /\ ~ possible m_dense (Some 2%nat) /\ possible m_ordered (Some 2%nat).
Proof.
  repeat split; cbn [possible m_hash m_sparse m_dense m_ordered]; try exact I.
  - exists 8, 0, 2. repeat split; reflexivity || (cbn; lia).
  - exists 5. cbn. repeat split; lia || reflexivity.
  - left. discriminate.
  - cbn. lia.
  - intros [H _]. cbn in H. lia.
  - cbn. lia.
Qed.

(** Three keys: three comparisons ("different"), then two lookups that end at the same entry and one that misses. *)
Definition said (l : list (bool * N)) (n : nat) : answer :=
  {| a_panics := false; a_bool := fst (nth n l (false, 0)); a_order := Gt; a_number := snd (nth n l (false, 0)) |}.
Example C80_example :
  h_disjoint m_hash 3 (said [(false, 0); (false, 0); (false, 0); (false, 4); (true, 0); (false, 0); (true, 0); (false, 1)]) 0%nat =
    Ok ([Some 0; Some 0; None]%nat, 8%nat) /\
  h_disjoint m_hash 3 (said [(false, 0); (false, 0); (true, 0)]) 0%nat = Panic /\
  h_disjoint m_sparse 2 (said [(false, 0); (false, 5); (false, 5)]) 0%nat = Ok ([Some 1; Some 1]%nat, 3%nat) /\
  h_disjoint m_dense 2 (said [(false, 0); (false, 4); (false, 9)]) 0%nat = Ok ([Some 1%nat; None], 3%nat).
Proof. vm_compute. auto. Qed.
