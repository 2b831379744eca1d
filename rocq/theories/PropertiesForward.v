(** The functions that only hand a call on: theorems about the definitions of ModelForward.v in the terms of SpecForward.v. *)
From Coq Require Import Permutation.
From Verif Require Import ModelUtils ModelMaps ModelForward Spec SpecMade SpecForward Instances ProofsForward.
From Verif Require Import Prelude.
Import ListNotations.

(** ** C87: every function answers by the entries, whichever way it is called *)
Theorem C87_maps : forall M K V Q (ops : map_ops M K V Q) eqK eqv eqQ m input v o f q qs,
  made ops eqK eqv m input -> crate_map v -> map_function o f ->
  exists x, answers_with (fun fuel => call true (own_code ops eqQ m q qs) fuel v o f) x /\ map_answer ops m eqK eqv eqQ input q qs f x.
Proof. intros. eapply made_map; eauto. Qed.
Print Assumptions C87_maps.
Theorem C87_sets : forall M K V Q (ops : map_ops M K V Q) eqK eqv eqQ m input v o f q qs,
  made ops eqK eqv m input -> crate_set v -> set_function o f ->
  exists x, answers_with (fun fuel => call true (own_code ops eqQ m q qs) fuel v o f) x /\ set_answer eqK eqv input q f x.
Proof. intros. eapply made_set; eauto. Qed.
Print Assumptions C87_sets.
(** There is one answer. *)
Theorem C87_one_answer : forall K V (own : meth -> answer K V) std v o f x y,
  answers_with (fun fuel => call std own fuel v o f) x -> answers_with (fun fuel => call std own fuel v o f) y -> x = y.
Proof. intros. eapply answers_with_unique; eauto. Qed.
Print Assumptions C87_one_answer.
(** Whatever the code at the bottom answers, the function of a trait answers the same as the inherent one of that name. *)
Theorem C87_map_trait_is_inherent : forall K V (own : meth -> answer K V) v t f, crate_map v ->
  In t [Len; MapQuery; MapExtras; MapIteration; IntoIterator] -> In f (of_trait t) ->
  exists x, answers_with (fun fuel => call true own fuel v Inherent f) x /\ answers_with (fun fuel => call true own fuel v (Of t) f) x.
Proof. exact @map_trait_inherent. Qed.
Print Assumptions C87_map_trait_is_inherent.
Theorem C87_set_trait_is_inherent : forall K V (own : meth -> answer K V) v t f, crate_set v ->
  In t [Len; SetQuery; SetExtras; SetIteration; IntoIterator] -> In f (of_trait t) ->
  exists x, answers_with (fun fuel => call true own fuel v Inherent f) x /\ answers_with (fun fuel => call true own fuel v (Of t) f) x.
Proof. exact @set_trait_inherent. Qed.
Print Assumptions C87_set_trait_is_inherent.
(** [for x in &c] is [c.iter()], [for x in &mut c] is [c.iter_mut()]. *)
Theorem C87_map_references : forall K V (own : meth -> answer K V) v, crate_map v ->
  (exists x, answers_with (fun fuel => call true own fuel v Inherent m_iter) x /\ answers_with (fun fuel => call true own fuel v (Of IntoIteratorRef) m_into_iter) x) /\
  (exists x, answers_with (fun fuel => call true own fuel v Inherent m_iter_mut) x /\ answers_with (fun fuel => call true own fuel v (Of IntoIteratorMut) m_into_iter) x).
Proof. exact @map_refs. Qed.
Print Assumptions C87_map_references.
Theorem C87_set_references : forall K V (own : meth -> answer K V) v, crate_set v ->
  exists x, answers_with (fun fuel => call true own fuel v Inherent m_iter) x /\ answers_with (fun fuel => call true own fuel v (Of IntoIteratorRef) m_into_iter) x.
Proof. exact @set_refs. Qed.
Print Assumptions C87_set_references.

(** The implementations for the collections of std and hashbrown. *)
Theorem C87_foreign_maps : forall K V (own : meth -> answer K V) k t f, foreign_map k -> In t [Len; MapQuery; MapExtras; MapIteration] -> In f (of_trait t) ->
  exists x, answers_with (fun fuel => call true own fuel (Leaf k) (Of t) f) x /\ foreign_answer k own f x.
Proof. exact @foreign_map_call. Qed.
Print Assumptions C87_foreign_maps.
Theorem C87_foreign_sets : forall K V (own : meth -> answer K V) k t f, foreign_set k -> In t [Len; SetQuery; SetExtras; SetIteration] -> In f (of_trait t) ->
  exists x, answers_with (fun fuel => call true own fuel (Leaf k) (Of t) f) x /\ foreign_answer k own f x.
Proof. exact @foreign_set_call. Qed.
Print Assumptions C87_foreign_sets.
(** With a std whose HashMap has no [get_disjoint_mut] of its own, the one of the trait would call itself for ever: Cargo.toml's
    rust-version has to be at least 1.86 (it is 1.87). *)
Theorem C87_needs_new_std : forall K V (own : meth -> answer K V) f, In f [m_get_disjoint_mut; m_get_disjoint_unchecked_mut] ->
  forall fuel, call false own fuel (Leaf StdHashMap) (Of MapExtras) f = None.
Proof. exact @old_std_loops. Qed.
Print Assumptions C87_needs_new_std.

(** Nothing else depends on it. *)
Theorem C87_old_std : forall K V (own : meth -> answer K V) k t f, foreign_map k -> In t [Len; MapQuery; MapExtras; MapIteration] -> In f (of_trait t) ->
  (k = StdHashMap -> ~ In f [m_get_disjoint_mut; m_get_disjoint_unchecked_mut]) ->
  exists x, answers_with (fun fuel => call false own fuel (Leaf k) (Of t) f) x /\ foreign_answer k own f x.
Proof. exact @old_std_others. Qed.
Print Assumptions C87_old_std.

(** ** Examples *)
Definition ex_entries : list (N * N) := [(1, 10); (2, 20); (3, 30)].
Example C87_example :
  let own := own_code (scan_ops N.eqb) N.eqb (scan_map_new N.eqb ex_entries) 2 [3; 1] in
  made (scan_ops N.eqb) N.eqb N.eqb (scan_map_new N.eqb ex_entries) ex_entries /\
  crate_map (Wrap FzScalarMap 2 (Leaf SparseScalarLookupMap)) /\ map_function (Of MapQuery) m_get_mut /\
  (** [get_mut] of the sparse map is private: the call goes through its [MapQuery]. *)
  resolve true FzScalarMap SparseScalarLookupMap false m_get_mut = Some (Of MapQuery) /\
  resolve true FzScalarMap SparseScalarLookupMap false m_get = Some Inherent /\
  call true own 5 (Wrap FzScalarMap 2 (Leaf SparseScalarLookupMap)) (Of MapQuery) m_get_mut = Some (Pos (Ok (Some 1%nat))) /\
  call true own 3 (Wrap FzScalarMap 2 (Leaf SparseScalarLookupMap)) (Of MapQuery) m_get_mut = None /\
  call true own 5 (Wrap FzStringMap 1 (Leaf HashMap)) (Of Index) m_index = Some (Got (Ok 20)) /\
  call true own 5 (Wrap FzHashMap 0 (Leaf HashMap)) (Of MapExtras) m_get_disjoint_mut = Some (Poss (Ok [Some 2%nat; Some 0%nat])).
Proof.
  cbv zeta. split; [exact (made_scan N N N N.eqb N.eqb ex_entries N_eqb_lawful N_eqb_equivalent)|].
  split; [apply (map_fz FzScalarMap); constructor|]. split; [constructor; cbn; tauto|]. repeat split; vm_compute; reflexivity.
Qed.
Example C87_example_sets :
  let own := own_code (scan_ops N.eqb) N.eqb (scan_map_new N.eqb ex_entries) 2 [] in
  crate_set (Wrap FzStringSet 0 (Wrap FzStringMap 1 (Leaf HashMap))) /\ set_function (Of SetQuery) m_contains /\
  call true own 7 (Wrap FzStringSet 0 (Wrap FzStringMap 1 (Leaf HashMap))) (Of SetQuery) m_contains = Some (Flag (Ok true)) /\
  call true own 7 (Wrap InlineScanSet 0 (Leaf InlineScanMap)) (Of Len) m_is_empty = Some (Flag (Ok false)) /\
  call true own 7 (Wrap FzScalarSet 0 (Wrap FzScalarMap 1 (Leaf DenseScalarLookupMap))) (Of IntoIterator) m_into_iter = Some (Keys [1; 2; 3]) /\
  call true (fun f => match f with m_get_many_mut => @Poss N N (Ok [None]) | _ => Nonsense end) 9 (Leaf HashbrownMap) (Of MapExtras) m_get_disjoint_mut
    = Some (Poss (Ok [None])).
Proof.
  cbv zeta. split; [apply (set_fz FzStringSet FzStringMap); [cbn; tauto|constructor]|]. split; [constructor; cbn; tauto|].
  repeat split; vm_compute; reflexivity.
Qed.
Example C87_example_old : call false (fun f => match f with m_get_key_value => @Poss N N (Ok [None]) | _ => Nonsense end) 9 (Leaf StdHashMap) (Of MapExtras) m_get_key_value
    = Some (Poss (Ok [None])) /\ call false (fun _ => @Nonsense N N) 9 (Leaf StdHashMap) (Of MapExtras) m_get_disjoint_mut = None.
Proof. split; vm_compute; reflexivity. Qed.
