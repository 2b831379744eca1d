(** Property theorems about references and Rust's aliasing models (C68). Statements only; proofs are in [ProofsBorrows.v] and
    [ProofsAliasing.v]. Each theorem is followed by the axioms it depends on and by a concrete case. *)
From Verif Require Import Prelude Spec ModelUtils ModelTables ModelMaps ModelEmit SpecMade SpecAliasing ModelBorrows ProofsMade ProofsAliasing ProofsBorrows
  ProofsStacked Instances PropertiesMaps.

(** ** C68 *)

(** The functions that keep a record are those of the other theorems, and there is one for every map. *)
Theorem C68_record : forall M K V Q (ops : map_ops M K V Q) m f, recorded ops m f -> forall inline call q eqQ keys,
  fmap snd (f inline call q) = mo_get_mut ops m q /\
  fmap snd (disjoint_borrows (f inline) eqQ keys) = get_disjoint_mut ops eqQ m keys.
Proof. intros M K V Q ops m f R inline call q eqQ keys. exact (conj (recorded_forgets ops m f R inline call q) (disjoint_forgets ops m f inline eqQ keys R)). Qed.
Print Assumptions C68_record.
Theorem C68_every_map : forall M K V Q (ops : map_ops M K V Q) eqK eqv m input, made ops eqK eqv m input -> exists f, recorded ops m f.
Proof. exact @every_map_recorded. Qed.
Print Assumptions C68_every_map.

(** [get_mut], followed by any reads ([false]) and writes ([true]) through the reference it returns, is defined under both models. *)
Theorem C68_get_mut : forall M K V Q (ops : map_ops M K V Q) m f, recorded ops m f -> forall inline q ev o, f inline 0%nat q = Ok (ev, o) ->
  forall how : list bool,
  let p := ev ++ match o with Some p => map (fun w => Use w (Ptr 0 (AVal p)) (ValAt p)) how | None => [] end in
  sb_defined p /\ tb_defined p.
Proof. intros M K V Q ops m f R inline. exact (get_mut_defined inline _ _ (fun c q b => recorded_good ops m f R inline c q b)). Qed.
Print Assumptions C68_get_mut.

(** [get_disjoint_mut] and any use of the references it returns is defined under Tree Borrows exactly if no two of them point to the same
    value; and for lawful query types, none do. *)
Theorem C68_tree_borrows : forall M K V Q (ops : map_ops M K V Q) m f, recorded ops m f -> forall inline eqQ keys ev ps,
  disjoint_borrows (f inline) eqQ keys = Ok (ev, ps) ->
  (forall how, tb_defined (ev ++ uses ps how)) <-> ~ one_place ps.
Proof.
  intros M K V Q ops m f R inline eqQ keys ev ps H.
  exact (tree_borrows inline _ _ (fun c q b => recorded_good ops m f R inline c q b) keys ev ps (disjoint_unchecked _ _ _ _ H)).
Qed.
Print Assumptions C68_tree_borrows.
Theorem C68_tree_borrows_lawful : forall M K V Q (ops : map_ops M K V Q) eqK eqv m input f inline eqQ keys ev ps,
  made ops eqK eqv m input -> recorded ops m f -> (forall q q' k, eqv q k = true -> eqv q' k = true -> eqQ q q' = true) ->
  disjoint_borrows (f inline) eqQ keys = Ok (ev, ps) -> forall how, tb_defined (ev ++ uses ps how).
Proof. exact @tree_borrows_lawful. Qed.
Print Assumptions C68_tree_borrows_lawful.

(** Under Stacked Borrows one key is fine. *)
Theorem C68_one_key : forall M K V Q (ops : map_ops M K V Q) m f, recorded ops m f -> forall inline eqQ q ev ps,
  disjoint_borrows (f inline) eqQ [q] = Ok (ev, ps) -> forall how, sb_defined (ev ++ uses ps how).
Proof.
  intros M K V Q ops m f R inline eqQ q ev ps H.
  exact (single_stacked inline _ _ (fun c q b => recorded_good ops m f R inline c q b) q ev ps (disjoint_unchecked _ _ _ _ H)).
Qed.
Print Assumptions C68_one_key.
(** Two keys that are found never are, even if the references are not used afterwards; nor, with inline storage, is a key that is found and
    followed by any other key. *)
Theorem C68_two_keys : forall M K V Q (ops : map_ops M K V Q) m f, recorded ops m f -> forall inline eqQ keys ev ps,
  disjoint_borrows (f inline) eqQ keys = Ok (ev, ps) ->
  (two_found ps -> ~ sb_defined ev) /\
  (inline = true -> (exists i p, nth_error ps i = Some (Some p) /\ (S i < length ps)%nat) -> ~ sb_defined ev).
Proof.
  intros M K V Q ops m f R inline eqQ keys ev ps H. pose proof (stacked_borrows inline _ _ (fun c q b => recorded_good ops m f R inline c q b) keys ev ps) as X.
  split.
  - intros [i [j [p [q [L [Hi Hj]]]]]]. exact (X i j p (disjoint_unchecked _ _ _ _ H) L Hi (or_introl (ex_intro _ q Hj))).
  - intros I [i [p [Hi L]]]. exact (X i (S i) p (disjoint_unchecked _ _ _ _ H) (Nat.lt_succ_diag_r i) Hi (or_intror (conj I (proj2 (nth_error_Some ps (S i)) L)))).
Qed.
Print Assumptions C68_two_keys.

(** Exactly when it is: no key that is found may be followed by one whose lookup reborrows its value mutably, through the owner; whatever is
    done with the references. *)
Theorem C68_stacked_borrows : forall M K V Q (ops : map_ops M K V Q) m f, recorded ops m f -> forall inline eqQ keys ev ps how,
  disjoint_borrows (f inline) eqQ keys = Ok (ev, ps) ->
  sb_defined (ev ++ uses ps how) <->
  forall i j p q b, (i < j)%nat -> nth_error ps i = Some (Some p) -> nth_error keys j = Some q -> f inline j q = Ok b -> ~ takes_over (ValAt p) (fst b).
Proof. intros M K V Q ops m f R inline eqQ keys ev ps how. exact (stacked_recorded ops m f R inline eqQ keys ev ps how). Qed.
Print Assumptions C68_stacked_borrows.
(** With inline storage every lookup does, and so only the last key may be found. *)
Theorem C68_stacked_inline : forall M K V Q (ops : map_ops M K V Q) m f, recorded ops m f -> forall eqQ keys ev ps how,
  disjoint_borrows (f true) eqQ keys = Ok (ev, ps) -> sb_defined (ev ++ uses ps how) <-> found_last ps.
Proof. intros M K V Q ops m f R eqQ keys ev ps how. exact (inline_last ops m f R eqQ keys ev ps how). Qed.
Print Assumptions C68_stacked_inline.
(** Boxed, this is so for maps that are scanned or hashed; for the other ones, only lookups that find their key do, and so at most one key may
    be found. *)
Theorem C68_stacked_scan : forall K V Q (eqv : Q -> K -> bool) (m : scan_map K V) eqQ keys ev ps how,
  disjoint_borrows (fun call => scan_borrows false call eqv m) eqQ keys = Ok (ev, ps) -> sb_defined (ev ++ uses ps how) <-> found_last ps.
Proof. intros K V Q eqv m eqQ keys ev ps how. exact (boxed_last _ m _ (rec_scan K V Q eqv m) false eqQ keys ev ps how (fun i c q b => scan_overwrites i c eqv m q b)). Qed.
Print Assumptions C68_stacked_scan.
Theorem C68_stacked_hash : forall K V Q hQ (eqv : Q -> K -> bool) (m : hash_map K V) eqQ keys ev ps how,
  disjoint_borrows (fun call => hash_borrows false call hQ eqv m) eqQ keys = Ok (ev, ps) -> sb_defined (ev ++ uses ps how) <-> found_last ps.
Proof. intros K V Q hQ eqv m eqQ keys ev ps how. exact (boxed_last _ m _ (rec_hash K V Q hQ eqv m) false eqQ keys ev ps how (fun i c q b => hash_overwrites i c hQ eqv m q b)). Qed.
Print Assumptions C68_stacked_hash.
Theorem C68_stacked_ordered : forall K V Q (cmpQ : Q -> K -> comparison) (m : eytzinger_map K V) eqQ keys ev ps how,
  disjoint_borrows (fun call => eytzinger_borrows false call cmpQ m) eqQ keys = Ok (ev, ps) -> sb_defined (ev ++ uses ps how) <-> ~ two_found ps.
Proof. intros K V Q cmpQ m eqQ keys ev ps how. exact (boxed_hits _ m _ (rec_eytzinger K V Q cmpQ m) eqQ keys ev ps how (fun c q b => eytzinger_reads false c cmpQ m q b eq_refl)). Qed.
Print Assumptions C68_stacked_ordered.
Theorem C68_stacked_dense : forall K V Q (idxQ : Q -> N) (m : dense_map K V) eqQ keys ev ps how,
  disjoint_borrows (fun call => dense_borrows false call idxQ m) eqQ keys = Ok (ev, ps) -> sb_defined (ev ++ uses ps how) <-> ~ two_found ps.
Proof. intros K V Q idxQ m eqQ keys ev ps how. exact (boxed_hits _ m _ (rec_dense K V Q idxQ m) eqQ keys ev ps how (fun c q b => dense_reads false c idxQ m q b eq_refl)). Qed.
Print Assumptions C68_stacked_dense.
Theorem C68_stacked_sparse : forall K V Q (idxQ : Q -> N) (m : sparse_map K V) eqQ keys ev ps how,
  disjoint_borrows (fun call => sparse_borrows false call idxQ m) eqQ keys = Ok (ev, ps) -> sb_defined (ev ++ uses ps how) <-> ~ two_found ps.
Proof. intros K V Q idxQ m eqQ keys ev ps how. exact (boxed_hits _ m _ (rec_sparse K V Q idxQ m) eqQ keys ev ps how (fun c q b => sparse_reads false c idxQ m q b eq_refl)). Qed.
Print Assumptions C68_stacked_sparse.

(** So there are maps and distinct keys, all lawful, for which [get_disjoint_mut] is undefined behaviour under Stacked Borrows. *)
Definition two_entries : list (N * N) := [(1, 10); (2, 20)].
Theorem C68_stacked_borrows_refuted :
  exists f ev ps, made (scan_ops N.eqb) N.eqb N.eqb (scan_map_new N.eqb two_entries) two_entries /\
    recorded (scan_ops N.eqb) (scan_map_new N.eqb two_entries) f /\
    disjoint_borrows (f false) N.eqb [1; 2] = Ok (ev, ps) /\ ~ one_place ps /\ ~ sb_defined ev.
Proof.
  eexists _, _, _. split; [exact (made_scan N N N N.eqb N.eqb two_entries N_eqb_lawful N_eqb_equivalent)|].
  split; [apply rec_scan|]. split; [reflexivity|]. split.
  - intros [[|[|i]] [[|[|j]] [p [L [Hi Hj]]]]]; cbn in *; try lia; try congruence; destruct j; discriminate.
  - eapply (proj1 (C68_two_keys _ _ _ _ _ _ _ (rec_scan _ _ _ N.eqb (scan_map_new N.eqb two_entries)) false N.eqb [1; 2] _ _ eq_refl)).
    exists 0%nat, 1%nat, 0%nat, 1%nat. split; [lia|]. split; reflexivity.
Qed.
Print Assumptions C68_stacked_borrows_refuted.

(** The models at work. An ordered map, boxed: two keys that are found, then both values written. Tree Borrows accepts it at every location,
    Stacked Borrows stops at the first value. One key found and one not: both accept it. *)
Definition ex_ordered : eytzinger_map N N := {| em_entries := [(2, 20); (1, 10); (3, 30)] |}.
Definition all_locs : list loc := [KeyAt 0; ValAt 0; KeyAt 1; ValAt 1; KeyAt 2; ValAt 2].
Definition sb_ok (p : list event) : list bool := map (fun l => match run (sb_step l) p [(Unique, Owner)] with Some _ => true | None => false end) all_locs.
Definition tb_ok (p : list event) : list bool := map (fun l => match run (tb_step l) p [(Owner, Owner, Some Reserved)] with Some _ => true | None => false end) all_locs.
Definition ex_run (inline : bool) (keys : list N) (how : list (nat * bool)) : option (list bool * list bool) :=
  match disjoint_borrows (fun call => eytzinger_borrows inline call N.compare ex_ordered) N.eqb keys with
  | Ok (ev, ps) => Some (sb_ok (ev ++ uses ps how), tb_ok (ev ++ uses ps how))
  | _ => None
  end.
Example C68_example :
  ex_run false [3; 1] [(0%nat, true); (1%nat, true); (0%nat, false)] = Some ([true; true; true; true; true; false], [true; true; true; true; true; true]) /\
  ex_run false [3; 4] [(0%nat, true); (0%nat, false)] = Some ([true; true; true; true; true; true], [true; true; true; true; true; true]) /\
  ex_run true [3; 4] [] = Some ([true; true; true; true; true; false], [true; true; true; true; true; true]).
Proof. split; [|split]; vm_compute; reflexivity. Qed.
(** A scanned map, boxed: a key that is found, after one that is not and before one that is not. *)
Example C68_scan_example :
  let go keys := match disjoint_borrows (fun call => scan_borrows false call N.eqb (scan_map_new N.eqb two_entries)) N.eqb keys with
    | Ok (ev, ps) => (ps, sb_ok (ev ++ uses ps [(0%nat, true); (1%nat, true)])) | _ => ([], []) end in
  go [7; 2] = ([None; Some 1%nat], [true; true; true; true; true; true]) /\ go [2; 7] = ([Some 1%nat; None], [true; true; true; false; true; true]).
Proof. split; vm_compute; reflexivity. Qed.
(** The queries of C15 get two references to one value, and writing through the first ends the second. *)
Example C68_query_example :
  match disjoint_borrows (fun call => scan_borrows false call fat_eqv (scan_map_new N.eqb [(1, 10)])) fat_eq [(1, 0); (1, 1)] with
  | Ok (ev, ps) => (ps, tb_ok ev, tb_ok (ev ++ uses ps [(0%nat, true); (1%nat, false)]))
  | _ => ([], [], [])
  end = ([Some 0%nat; Some 0%nat], [true; true; true; true; true; true], [true; false; true; true; true; true]).
Proof. vm_compute. reflexivity. Qed.
(** A hand-written program both models reject: a value written through a reference that was superseded. *)
Example aliasing_example :
  let two := [Reborrow Mutable Owner (Ptr 0 ASelf) (whole 1); Reborrow Mutable Owner (Ptr 1 ASelf) (whole 1); Use true (Ptr 1 ASelf) (ValAt 0); Use false (Ptr 0 ASelf) (ValAt 0)] in
  ~ sb_defined two /\ ~ tb_defined two.
Proof. split; intros H; [apply (H (ValAt 0)); reflexivity|apply (H (ValAt 0) Reserved (or_introl eq_refl)); reflexivity]. Qed.
