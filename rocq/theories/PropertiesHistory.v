(** Property theorems about histories of calls (C62). Statements only; proofs are in [ProofsHistory.v]. *)
From Coq Require Import Permutation.
From Verif Require Import Prelude Spec ModelUtils ModelAnalyzers ModelTables ModelMaps ModelIter SpecMade SpecHistory ModelHistory
  ProofsHistory Instances PropertiesMaps.

(** ** C62 *)
(** There is a list [l] of the last entries supplied for each key such that every client, however it picks its next call from the answers
    seen so far, gets from the frozen map exactly the answers it would get from the reference map [l], for as long as it goes on. *)
Theorem C62_history : forall M K V Q (ops : map_ops M K V Q) eqK eqv eqQ,
  (forall q q' k, eqv q k = true -> eqv q' k = true -> eqQ q q' = true) ->
  forall m input, made ops eqK eqv m input -> exists l,
  (forall e, In e l <-> exists pre post, input = pre ++ e :: post /\ forall e', In e' post -> eqK (fst e) (fst e') = false) /\
  distinct eqK (map fst l) /\
  forall client n, exists answers l' m',
    play (fun l c => Ok (ref_call eqv eqQ l c)) client n [] l = Ok (answers, l') /\
    play (client_call ops eqQ) client n [] m = Ok (answers, m') /\ mo_entries ops m' = l'.
Proof. exact @history. Qed.
Print Assumptions C62_history.

(** Two maps made from the same entries, of whatever kinds, answer every client that does not look at the order of iteration in the same way. *)
Theorem C62_kinds : forall M1 M2 K V Q (ops1 : map_ops M1 K V Q) (ops2 : map_ops M2 K V Q) eqK eqv eqQ m1 m2 input,
  made ops1 eqK eqv m1 input -> made ops2 eqK eqv m2 input ->
  (forall q q' k, eqv q k = true -> eqv q' k = true -> eqQ q q' = true) ->
  forall client n, (forall seen c, client seen = Some c -> order_free c) -> exists answers m1' m2',
  play (client_call ops1 eqQ) client n [] m1 = Ok (answers, m1') /\ play (client_call ops2 eqQ) client n [] m2 = Ok (answers, m2') /\
  Permutation (mo_entries ops1 m1') (mo_entries ops2 m2').
Proof. exact @indistinguishable. Qed.
Print Assumptions C62_kinds.

(** A client whose calls depend on the answers: it replaces two values at once, stores the sum of what they were, updates everything, and asks for an absent key. *)
Definition ex_client (seen : list (answer N N)) : option (call N N N) :=
  match seen with
  | [] => Some (CallReplaceMany [(1, 7); (9, 8); (2, 6)])
  | [AnsMany [Some a; None; Some b]] => Some (CallReplace 5 (a + b))
  | [_; _] => Some (CallUpdateAll (fun k v => k + 2 * v))
  | [_; _; _] => Some (CallIndex 9)
  | AnsPanic :: _ => Some (CallReplaceMany [(1, 0); (1, 0)])
  | _ => None
  end.
(** The same, and then it stops after reading a value. *)
Definition ex_reader (seen : list (answer N N)) : option (call N N N) :=
  match seen with
  | AnsPanic :: AnsPanic :: _ => Some (CallGet 5)
  | _ => ex_client seen
  end.

Lemma ex_compatible : forall q q' k : N, N.eqb q k = true -> N.eqb q' k = true -> N.eqb q q' = true.
Proof. intros q q' k H1 H2. apply N.eqb_eq in H1, H2. subst. apply N.eqb_refl. Qed.

Example C62_example : exists m', play (client_call ex_ops N.eqb) ex_reader 20 [] ex_map =
    Ok ([AnsMaybe (Some 69); AnsPanic; AnsPanic; AnsDone; AnsMaybe (Some 50); AnsMany [Some 11; None; Some 21]], m') /\
  map (mo_get ex_ops m') [1; 2; 5; 9; 300] = [Ok (Some 15); Ok (Some 14); Ok (Some 69); Ok None; Ok (Some 360)] /\
  made ex_ops N.eqb N.eqb ex_map ex_input.
Proof. eexists. split; [vm_compute; reflexivity|]. split; [vm_compute; reflexivity|exact ex_made]. Qed.

Example C62_kinds_example : exists m1' m2',
  play (client_call ex_ops N.eqb) ex_reader 20 [] ex_map =
    Ok ([AnsMaybe (Some 69); AnsPanic; AnsPanic; AnsDone; AnsMaybe (Some 50); AnsMany [Some 11; None; Some 21]], m1') /\
  play (client_call (scan_ops N.eqb) N.eqb) ex_reader 20 [] (scan_map_new N.eqb ex_input) =
    Ok ([AnsMaybe (Some 69); AnsPanic; AnsPanic; AnsDone; AnsMaybe (Some 50); AnsMany [Some 11; None; Some 21]], m2') /\
  made (scan_ops N.eqb) N.eqb N.eqb (scan_map_new N.eqb ex_input) ex_input /\
  (forall seen c, ex_reader seen = Some c -> order_free c).
Proof.
  eexists _, _. split; [vm_compute; reflexivity|]. split; [vm_compute; reflexivity|].
  split; [exact (made_scan _ _ _ _ _ _ N_eqb_lawful N_eqb_equivalent)|].
  intros seen c H. unfold ex_reader, ex_client in H.
  repeat match type of H with
  | match ?x with _ => _ end = _ => destruct x; try discriminate H
  | Some _ = Some _ => injection H as <-; exact I
  end.
Qed.
