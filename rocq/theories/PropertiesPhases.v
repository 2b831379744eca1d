(** Property theorems about everything a client does to one map over time, under Rust's aliasing models (C73). Statements only; proofs are in
    [ProofsPhases.v], [ProofsLookups.v] and [ProofsClientPhases.v]. Each theorem is followed by the axioms it depends on and by a concrete
    case. *)
From Coq Require Import Cantor.
From Verif Require Import Prelude Spec ModelUtils ModelTables ModelMaps ModelEmit SpecMade SpecAliasing SpecPhases ModelBorrows ModelLookups ProofsMade ProofsBorrows
  ProofsPhases ProofsLookups ProofsClientPhases ProofsStacked PropertiesMaps PropertiesAliasing.

(** ** C73 *)

(** The lookups that keep a record are [get] and [get_key_value] of the other theorems, and there is one for every map. *)
Theorem C73_record : forall M K V Q (ops : map_ops M K V Q) m f, looked_up ops m f -> forall inline call with_key q,
  fmap (fun b => match snd b with Some p => nth_error (mo_entries ops m) p | None => None end) (f inline call with_key q) = mo_get_key_value ops m q /\
  fmap (fun b => option_map snd (match snd b with Some p => nth_error (mo_entries ops m) p | None => None end)) (f inline call with_key q) = mo_get ops m q.
Proof. intros M K V Q ops m f L inline call with_key q. exact (looked_up_remembers ops m f L inline call with_key q). Qed.
Print Assumptions C73_record.
Theorem C73_every_map : forall M K V Q (ops : map_ops M K V Q) eqK eqv m input, made ops eqK eqv m input -> exists f, looked_up ops m f.
Proof. exact @every_map_looked_up. Qed.
Print Assumptions C73_every_map.
(** What is recorded does not depend on the values, which is all that a client can change. *)
Theorem C73_values_unseen : forall M K V Q (ops : map_ops M K V Q) m f h, recorded ops m f -> looked_up ops m h ->
  forall es, map fst es = map fst (mo_entries ops m) ->
  (exists f', recorded ops (mo_with_entries ops m es) f' /\ forall inline call q, f' inline call q = f inline call q) /\
  (exists h', looked_up ops (mo_with_entries ops m es) h' /\ forall inline call with_key q, h' inline call with_key q = h inline call with_key q).
Proof. intros M K V Q ops m f h R L es E. exact (conj (writing_recorded ops m f R es E) (writing_looked_up ops m h L es E)). Qed.
Print Assumptions C73_values_unseen.

(** While a map is shared, any lookups and iterators, stepped in any order, and any reads through any of the references they gave, in any
    order, are defined under both models. *)
Theorem C73_sharing : forall M K V Q (ops : map_ops M K V Q) m h, looked_up ops m h -> forall inline l ev,
  sharing inline (length (mo_entries ops m)) (h inline) 0 [] [] l = Ok ev -> sb_defined ev /\ tb_defined ev.
Proof. intros M K V Q ops m h L inline. exact (sharing_defined inline _ (h inline) (fun c k q b => looked_up_fine ops m h L inline c k q b)). Qed.
Print Assumptions C73_sharing.
(** So is a mutable iterator, the references to keys and values that it gave being read and written in any order while it goes on. *)
Theorem C73_iter_mut : forall inline n l, sb_defined (iter_mut_borrows inline 0 n ++ visiting n 0 l) /\ tb_defined (iter_mut_borrows inline 0 n ++ visiting n 0 l).
Proof. intros inline n l. exact (conj (visiting_sb inline n l) (visiting_tb inline n l)). Qed.
Print Assumptions C73_iter_mut.

(** Programs that start from the owner are defined one after the other exactly if each of them is. *)
Theorem C73_in_turn : forall ps, (forall p, In p ps -> from_owner p) ->
  (sb_defined (in_turn 0 ps) <-> forall p, In p ps -> sb_defined p) /\ (tb_defined (in_turn 0 ps) <-> forall p, In p ps -> tb_defined p).
Proof. intros ps F. exact (conj (sb_in_turn ps F) (tb_in_turn ps F)). Qed.
Print Assumptions C73_in_turn.

(** Whatever a client does to a map, as long as it lets go of what it borrowed before it borrows the map in another way, is defined under Tree
    Borrows; and under Stacked Borrows, unless it passes two keys to [get_disjoint_mut] (C68). *)
Theorem C73_history : forall M K V Q (ops : map_ops M K V Q) eqK eqv m input f h inline eqQ (ps : list (phase Q)) evs,
  made ops eqK eqv m input -> recorded ops m f -> looked_up ops m h -> (forall q q' k, eqv q k = true -> eqv q' k = true -> eqQ q q' = true) ->
  mapM (phase_events inline (length (mo_entries ops m)) (h inline) (f inline) eqQ) ps = Ok evs ->
  tb_defined (in_turn 0 evs) /\ (one_at_a_time ps -> sb_defined (in_turn 0 evs)).
Proof.
  intros M K V Q ops eqK eqv m input f h inline eqQ ps evs MD R L HQ H. split; [exact (phases_tb ops m f h R L inline eqQ eqK eqv input ps evs MD HQ H)|].
  intros ONE. exact (phases_sb ops m f h R L inline eqQ ps evs ONE H).
Qed.
Print Assumptions C73_history.
(** Under Stacked Borrows it is defined exactly if no key passed to [get_disjoint_mut] and found is followed there by one whose lookup
    reborrows the value mutably (C68 says which do). *)
Theorem C73_history_stacked : forall M K V Q (ops : map_ops M K V Q) m f h inline eqQ (ps : list (phase Q)) evs,
  recorded ops m f -> looked_up ops m h ->
  mapM (phase_events inline (length (mo_entries ops m)) (h inline) (f inline) eqQ) ps = Ok evs ->
  sb_defined (in_turn 0 evs) <->
  forall keys how ev rs, In (TakingMany keys how) ps -> disjoint_borrows (f inline) eqQ keys = Ok (ev, rs) ->
  forall i j p q b, (i < j)%nat -> nth_error rs i = Some (Some p) -> nth_error keys j = Some q -> f inline j q = Ok b -> ~ takes_over (ValAt p) (fst b).
Proof. intros M K V Q ops m f h inline eqQ ps evs R L. exact (history_stacked ops m f R h L inline eqQ ps evs). Qed.
Print Assumptions C73_history_stacked.

(** An ordered map, boxed or not: look up, iterate and read back and forth; change a value; walk over all values and change the first when at
    the last; look up again. *)
Definition ex_phases : list (phase N) :=
  [Sharing [Look true 3; Walk; Step 1 0; Look false 1; Step 1 2; Look false 7; Read true 0 2; Read false 1 0; Read false 2 1; Step 1 1; Read true 1 1; Read true 1 2];
   Taking 2 [true; false; true];
   Visiting [Advance; UseVal true 0; Advance; Advance; UseVal true 2; ReadKey 0; UseVal true 0; Advance];
   TakingMany [1] [(0%nat, true)];
   Sharing [Look true 2; Read false 0 0; Read true 0 0]].
Definition ex_history (inline : bool) (ps : list (phase N)) : option (bool * bool * nat) :=
  match mapM (phase_events inline 3 (fun call k => eytzinger_lookup inline call k N.compare ex_ordered) (fun call => eytzinger_borrows inline call N.compare ex_ordered) N.eqb) ps with
  | Ok evs => Some (forallb (fun b => b) (sb_ok (in_turn 0 evs)), forallb (fun b => b) (tb_ok (in_turn 0 evs)), length (in_turn 0 evs))
  | _ => None
  end.
Example C73_example : one_at_a_time ex_phases /\ ex_history false ex_phases = Some (true, true, 82%nat) /\ ex_history true ex_phases = Some (true, true, 90%nat).
Proof.
  split; [|split; vm_compute; reflexivity].
  intros keys how H. repeat (destruct H as [H|H]; [try discriminate; injection H as <- <-; cbn; lia|]). destruct H.
Qed.
(** With one key found and another one not, before or after it; then with two found. *)
Example C73_many_example :
  ex_history false (TakingMany [3; 4] [(0%nat, true)] :: TakingMany [5; 1] [(1%nat, true)] :: ex_phases) = Some (true, true, 114%nat) /\
  ex_history false (ex_phases ++ [TakingMany [3; 1] []]) = Some (false, true, 102%nat) /\
  ex_history true (ex_phases ++ [TakingMany [3; 4] []]) = Some (false, true, 107%nat).
Proof. split; [|split]; vm_compute; reflexivity. Qed.
(** What the borrow checker forbids, the models forbid: reading through a reference from [get] after [get_mut] was called and the value
    written, or through a reference from [get_mut] after the value was read through the map. *)
Definition ex_reads : list event := match eytzinger_lookup false 0 false N.compare ex_ordered 3 with Ok b => fst b | _ => [] end.
Definition ex_writes : list event := match eytzinger_borrows false 1 N.compare ex_ordered 3 with Ok b => fst b | _ => [] end.
Example C73_overlap_example :
  ~ sb_defined (ex_reads ++ ex_writes ++ [Use true (Ptr 1 (AVal 2)) (ValAt 2); Use false (Ptr 0 (AVal 2)) (ValAt 2)]) /\
  ~ tb_defined (ex_reads ++ ex_writes ++ [Use true (Ptr 1 (AVal 2)) (ValAt 2); Use false (Ptr 0 (AVal 2)) (ValAt 2)]) /\
  ~ sb_defined (ex_writes ++ ex_reads ++ [Use false (Ptr 0 (AVal 2)) (ValAt 2); Use true (Ptr 1 (AVal 2)) (ValAt 2)]) /\
  sb_defined (ex_reads ++ [Use false (Ptr 0 (AVal 2)) (ValAt 2)]).
Proof.
  split; [|split; [|split]]; try (intros H; apply (H (ValAt 2)); reflexivity).
  - intros H. apply (H (ValAt 2) Reserved (or_introl eq_refl)). reflexivity.
  - intros [[|[|[|i]]]|[|[|[|i]]]]; vm_compute; discriminate.
Qed.
(** A mutable iterator that gave out one entry twice would be caught. *)
Example C73_twice_example :
  ~ sb_defined (iter_mut_borrows false 0 1 ++ iter_mut_step 0 0 ++ iter_mut_step 0 0 ++ [Use true (Ptr 0 (AVal 0)) (ValAt 0); Use true (Ptr 0 (AKey 0)) (KeyAt 0)]).
Proof. intros H. apply (H (KeyAt 0)). reflexivity. Qed.
