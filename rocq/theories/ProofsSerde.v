(** Proofs about serialization and deserialization. *)
From Coq Require Import String Permutation.
From Verif Require Import ModelUtils ModelTables ModelMaps ModelIter ModelSerde Spec SpecSets SpecMade SpecSerde
  ProofsBase ProofsIter ProofsFz ProofsMade ProofsProps ProofsSetProps.
From Verif Require Import Prelude.

Lemma collect_all {E F} (f : E -> F) (l : list E) : collect (map (fun x => ROk (f x)) l) = ROk (map f l).
Proof. induction l as [|x r IH]; [reflexivity|]. cbn. rewrite IH. reflexivity. Qed.
Lemma collect_error {E} (items : list (result E)) msg : collect items = RErr msg <-> first_error items msg.
Proof.
  unfold first_error. induction items as [|[x|e] r IH]; cbn.
  - split; [discriminate|]. intros [[|? ?] [post E0]]; discriminate.
  - destruct (collect r) as [l|e] eqn:C.
    + split; [discriminate|]. intros [[|y pre] [post E0]]; cbn in E0; [discriminate|]. injection E0 as _ E0.
      assert (ROk l = RErr msg) by (apply IH; eauto). discriminate.
    + split.
      * intros H. apply IH in H. destruct H as [pre [post ->]]. exists (x :: pre), post. reflexivity.
      * intros [[|y pre] [post E0]]; cbn in E0; [discriminate|]. injection E0 as _ E0. apply IH. eauto.
  - split.
    + intros H. injection H as ->. exists [], r. reflexivity.
    + intros [[|y pre] [post E0]]; cbn in E0; [|discriminate]. injection E0 as <- _. reflexivity.
Qed.
Lemma collect_ok {E} (items : list (result E)) l : collect items = ROk l <-> items = map (fun x => ROk x) l.
Proof.
  split.
  - revert l. induction items as [|[x|e] r IH]; cbn; intros l H.
    + injection H as <-. reflexivity.
    + destruct (collect r) as [l'|]; [|discriminate]. injection H as <-. cbn. f_equal. auto.
    + discriminate.
  - intros ->. rewrite (collect_all (fun x => x)). rewrite map_id. reflexivity.
Qed.

Lemma visit_faithful {E E' M} size (a : access E') (build : list E' -> res M) (view : E -> E') (items : list E) m :
  ac_items a = map (fun e => ROk (view e)) items -> modest_hint a -> size * N.of_nat (List.length items) <= isize_max ->
  build (map view items) = Ok m -> visit size a build = Ok (ROk m).
Proof.
  intros HI HH HS HB. unfold visit, with_capacity. rewrite HI, collect_all, HB. unfold modest_hint in HH. rewrite HI, map_length in HH.
  assert (size * (match ac_hint a with Some n => n | None => 0 end) <= isize_max) as L.
  { destruct (ac_hint a); [|lia]. etransitivity; [|exact HS]. apply N.mul_le_mono_l. exact HH. }
  apply N.leb_le in L. rewrite L. reflexivity.
Qed.

Section RoundTrip.
Context {M K V Q : Type} (ops : map_ops M K V Q) (eqK : K -> K -> bool) (eqv : Q -> K -> bool) (m : M) (input : list (K * V)).
Hypothesis MD : made ops eqK eqv m input.

Lemma entries_lookup q : spec_entry eqv (mo_entries ops m) q = spec_entry eqv input q.
Proof.
  destruct (made_lawful _ _ _ _ _ MD) as [LE LV].
  exact (survivors_lookup eqK eqv LE LV input (mo_entries ops m) q (made_entries _ _ _ _ _ MD)).
Qed.
Lemma entries_count : key_count eqK (mo_entries ops m) = key_count eqK input.
Proof.
  unfold key_count. rewrite survivors_distinct_id by (apply (made_distinct _ _ _ _ _ MD)).
  symmetry. apply Permutation_length. apply (made_entries _ _ _ _ _ MD).
Qed.

Lemma spec_entry_ext (eqv' : Q -> K -> bool) (l : list (K * V)) q : (forall q k, eqv' q k = eqv q k) -> spec_entry eqv' l q = spec_entry eqv l q.
Proof. intros H. unfold spec_entry. induction l as [|e r IH]; [reflexivity|]. cbn. rewrite IH, H. reflexivity. Qed.

Lemma rebuilt {M'} (ops' : map_ops M' K V Q) eqK' eqv' m' : made ops' eqK' eqv' m' (mo_entries ops m) ->
  (forall a b, eqK' a b = eqK a b) -> (forall q k, eqv' q k = eqv q k) -> same_answers ops m ops' m'.
Proof.
  intros MD' XK XV.
  assert (P : Permutation (mo_entries ops m) (mo_entries ops' m')).
  { rewrite <- (made_entries _ _ _ _ _ MD'). rewrite survivors_distinct_id; [reflexivity|].
    pose proof (made_distinct _ _ _ _ _ MD) as D. revert D. generalize (mo_entries ops m). intros l. induction l as [|e r IH]; [auto|].
    intros [D1 D2]. split; [|apply IH; exact D2]. intros y Hy. unfold same_key. rewrite XK. apply D1. exact Hy. }
  assert (L : map_len ops' m' = map_len ops m).
  { unfold map_len. symmetry. apply Permutation_length. exact P. }
  split; [exact P|]. split; [exact L|]. split; [unfold map_is_empty; rewrite L; reflexivity|].
  intros q. rewrite (made_get _ _ _ _ _ MD), (made_get _ _ _ _ _ MD'), (made_gkv _ _ _ _ _ MD), (made_gkv _ _ _ _ _ MD'),
      (made_contains _ _ _ _ _ MD), (made_contains _ _ _ _ _ MD').
  unfold spec_get. rewrite (spec_entry_ext eqv') by exact XV. rewrite entries_lookup. auto.
Qed.
End RoundTrip.

Lemma key_count_ext {K V} (eqK eqK' : K -> K -> bool) (l : list (K * V)) : (forall a b, eqK' a b = eqK a b) -> key_count eqK l = key_count eqK' l.
Proof. intros H. unfold key_count. f_equal. apply survivors_ext. intros x y _ _. unfold same_key. rewrite H. reflexivity. Qed.

Lemma rebuilt_equal {M M' K V} (ops : map_ops M K V K) (ops' : map_ops M' K V K) eqK eqK' eqV m m' input :
  made ops eqK eqK m input -> made ops' eqK' eqK' m' (mo_entries ops m) -> (forall a b, eqK' a b = eqK a b) -> (forall v, eqV v v = true) ->
  map_eq ops' eqV m' (as_query ops m) = Ok true /\ map_eq ops eqV m (as_query ops' m') = Ok true.
Proof.
  intros MD MD' XK RV. destruct (rebuilt _ _ _ _ _ MD ops' _ _ m' MD' XK XK) as [_ [_ [_ HG]]].
  assert (S0 : forall k, spec_get eqK' (mo_entries ops m) k = spec_get eqK input k).
  { intros k. destruct (HG k) as [G _]. rewrite (made_get _ _ _ _ _ MD), (made_get _ _ _ _ _ MD') in G. congruence. }
  assert (R : forall o : option _, opt_eq eqV o o) by (intros [v|]; cbn; auto).
  assert (HH : holds eqK' (as_query ops m) input).
  { destruct (made_holds _ _ _ _ MD) as [H1 H2]. split; [rewrite H1; apply key_count_ext; auto|]. intros k. rewrite H2.
    unfold spec_get. rewrite (spec_entry_ext eqK eqK'); auto. }
  assert (HH' : holds eqK (as_query ops' m') (mo_entries ops m)).
  { destruct (made_holds _ _ _ _ MD') as [H1 H2]. split; [rewrite H1; apply key_count_ext; auto|]. intros k. rewrite H2.
    unfold spec_get. rewrite (spec_entry_ext eqK eqK'); auto. }
  destruct (map_eq_spec ops' eqK' eqV m' _ input _ MD' HH) as [b [E H]].
  destruct (map_eq_spec ops eqK eqV m _ (mo_entries ops m) _ MD HH') as [b' [E' H']].
  rewrite E, E'. split; f_equal; [apply H|apply H']; intros k.
  - destruct (HG k) as [G _]. rewrite (made_get _ _ _ _ _ MD), (made_get _ _ _ _ _ MD') in G. injection G as G.
    unfold spec_get in *. rewrite (spec_entry_ext eqK eqK' input) by auto. rewrite G. apply R.
  - unfold spec_get. rewrite (entries_lookup _ _ _ _ _ MD). apply R.
Qed.

Lemma member_ext {T} (e e' : T -> T -> bool) x l : (forall a b, e' a b = e a b) -> member e x l <-> member e' x l.
Proof. intros H. unfold member. split; intros [y [Hy E]]; exists y; (split; [auto|]); [rewrite H|rewrite <- H]; auto. Qed.
Lemma lawful_set_ext {T} (e e' : T -> T -> bool) s : (forall a b, e' a b = e a b) -> lawful_set e' s -> lawful_set e s.
Proof.
  intros H [D L C]. split; [|auto|].
  - eapply distinct_ext; [|exact D]. auto.
  - intros x. destruct (C x) as [b [E HB]]. exists b. split; [auto|]. rewrite HB. symmetry. apply member_ext. auto.
Qed.
Lemma set_rebuilt_equal {M M' T} (ops : map_ops M T unit T) (ops' : map_ops M' T unit T) eqT eqT' m m' input :
  made ops eqT eqT m input -> made ops' eqT' eqT' m' (mo_entries ops m) -> (forall a b, eqT' a b = eqT a b) ->
  set_eq (as_set ops' m') (as_set ops m) = Ok true /\ set_eq (as_set ops m) (as_set ops' m') = Ok true.
Proof.
  intros MD MD' XK. destruct (made_set _ _ _ _ MD) as [L S]. destruct (made_set _ _ _ _ MD') as [L' S'].
  apply (lawful_set_ext eqT eqT' _ XK) in L'. destruct (made_lawful _ _ _ _ _ MD) as [LE _].
  assert (X : forall x, elem eqT x (as_set ops m) <-> elem eqT x (as_set ops' m')).
  { intros x. unfold elem at 2. rewrite (member_ext eqT eqT' x _ XK). fold (elem eqT' x (as_set ops' m')). rewrite S'.
    rewrite <- (member_ext eqT eqT' x _ XK). reflexivity. }
  destruct (set_eq_spec eqT LE _ _ L' L) as [b [E H]]. destruct (set_eq_spec eqT LE _ _ L L') as [b' [E' H']].
  rewrite E, E'. split; f_equal; [apply H|apply H']; intros x; rewrite X; reflexivity.
Qed.

(** * The visitors *)
Section Build.
Context {K V Q : Type}.
Lemma build_hash usort eqK eqv hK hQ (l : list (K * V)) :
  sorts_by_slot usort -> lawful_eq eqK -> lawful_equivalent eqK eqv -> lawful_hash eqK hK -> lawful_query_hash (Q := Q) eqv hQ hK ->
  N.of_nat (List.length l) <= usize_max ->
  exists m, fz_hash_map_with_hasher usort eqK hK l = Ok m /\ made (hash_ops (fun q => Ok (hQ q)) eqv) eqK eqv m l.
Proof. intros US LE LV LH LQ HN. destruct (fz_hash_get usort eqK eqv hK hQ l) as [m [E _]]; auto. exists m. split; [auto|]. econstructor; eauto. Qed.
Lemma build_ordered cmp cmpQ (l : list (K * V)) : lawful_ord cmp -> lawful_comparable (Q := Q) cmp cmpQ ->
  exists m, fz_ordered_map_new cmp l = Ok m /\ made (eytzinger_ops cmpQ) (cmp_eq cmp) (cmp_eq cmpQ) m l.
Proof. intros LO LC. destruct (fz_ordered_get cmp cmpQ l LO LC) as [m [E _]]. exists m. split; [auto|]. apply made_fz_ordered; auto. Qed.
Lemma build_scalar usort md idx cmp idxQ eqv (l : list (K * V)) :
  sorts_by_slot usort -> lawful_scalar idx cmp -> lawful_query_scalar (Q := Q) idx idxQ eqv -> span_representable idx (map fst l) ->
  exists m, fz_scalar_map_new usort md idx cmp l = Ok m /\ made (fz_scalar_ops idxQ eqv) (idx_eq idx) eqv m l.
Proof.
  intros US LS LQ SR. destruct (fz_scalar_get usort md idx cmp idxQ eqv l US LS LQ SR) as [m [E _]]. exists m. split; [auto|].
  eapply made_fz_scalar; eauto.
Qed.
End Build.
Lemma build_string {V} usort bh (l : list (bytes * V)) : sorts_by_slot usort -> N.of_nat (List.length l) <= usize_max ->
  (forall e, In e l -> N.of_nat (List.length (fst e)) <= usize_max) ->
  exists m, fz_string_map_with_hasher usort bh l = Ok m /\ made fz_string_ops bytes_eqb bytes_eqb m l.
Proof. intros US HN HL. destruct (fz_string_get usort bh l US HN HL) as [m [E _]]. exists m. split; [auto|]. eapply made_fz_string; eauto. Qed.

Lemma visit_visits {E M} size (a : access E) (build : list E -> res M) (good : M -> list E -> Prop) :
  (forall l, ac_items a = map (fun x => ROk x) l -> exists m, build l = Ok m /\ good m l) -> visits size a (visit size a build) good.
Proof.
  intros HB. split.
  - intros n Hn Hs. unfold visit, with_capacity. rewrite Hn. apply N.leb_gt in Hs. rewrite Hs. reflexivity.
  - intros HH. assert (W : with_capacity size (match ac_hint a with Some n => n | None => 0 end) = Ok tt).
    { unfold with_capacity. destruct (ac_hint a) as [n|]; [|rewrite N.mul_0_r; reflexivity]. specialize (HH n eq_refl). apply N.leb_le in HH.
      rewrite HH. reflexivity. }
    unfold visit. rewrite W. cbn [bind]. split.
    + intros msg He. apply collect_error in He. rewrite He. reflexivity.
    + intros l Hl. destruct (HB l Hl) as [m [Hm HG]]. apply collect_ok in Hl. rewrite Hl, Hm. exists m. auto.
Qed.

(** * Round trips *)
Lemma serialize_writes {E St Out} (ser : serializer E St Out) len items : writes ser len items (serialize ser (Some len) items).
Proof.
  unfold writes, serialize. split; [intros msg ->; reflexivity|]. split.
  - intros st pre x post st' msg -> -> T B. enough (serialize_items ser st (pre ++ x :: post) = RErr msg) as -> by reflexivity.
    induction T as [st|st y st1 l st2 S T IH]; cbn [app serialize_items]; [rewrite B; reflexivity|]. rewrite S. exact (IH B).
  - intros st st' -> T. enough (serialize_items ser st items = ROk st') as -> by reflexivity.
    induction T as [st|st y st1 l st2 S T IH]; cbn [serialize_items]; [reflexivity|]. rewrite S. exact IH.
Qed.
Lemma map_writes {M K V Q St Out} (ops : map_ops M K V Q) eqK eqv m input (ser : serializer (K * V) St Out) : made ops eqK eqv m input ->
  exists items,
    (forall e, In e items <-> exists pre post, input = pre ++ e :: post /\ forall e', In e' post -> eqK (fst e) (fst e') = false) /\
    distinct eqK (map fst items) /\ writes ser (N.of_nat (List.length items)) items (map_serialize ops ser m).
Proof.
  intros MD. exists (mo_entries ops m). destruct (made_iteration _ _ _ _ _ MD) as [A [B _]]. split; [exact A|]. split; [exact B|].
  apply serialize_writes.
Qed.
Lemma set_writes {M T Q St Out} (ops : map_ops M T unit Q) eqT eqv m values (ser : serializer T St Out) : made ops eqT eqv m (unit_entries values) ->
  exists items,
    (forall x, In x items <-> exists pre post, values = pre ++ x :: post /\ forall x', In x' post -> eqT x x' = false) /\
    distinct eqT items /\ writes ser (N.of_nat (List.length items)) items (set_serialize ops ser m).
Proof.
  intros MD. exists (set_values ops m). destruct (made_iteration _ _ _ _ _ MD) as [A [B _]]. split; [|split; [exact B|]].
  - intros x. unfold set_values. rewrite in_map_iff. split.
    + intros [[y []] [<- HI]]. apply A in HI. destruct HI as [pre [post [E F]]]. unfold unit_entries in E.
      destruct (map_eq_app _ _ _ _ E) as [l1 [l2 [-> [<- E2]]]]. destruct l2 as [|z l2]; [discriminate|]. injection E2 as -> <-.
      exists l1, l2. split; [reflexivity|]. intros x' Hx. exact (F (x', tt) (in_map (fun v => (v, tt)) _ _ Hx)).
    + intros [pre [post [-> F]]]. exists (x, tt). split; [reflexivity|]. apply A. exists (unit_entries pre), (unit_entries post).
      unfold unit_entries. rewrite map_app. split; [reflexivity|]. intros e He. apply in_map_iff in He. destruct He as [z [<- Hz]]. exact (F z Hz).
  - unfold set_serialize, set_values, set_len, map_len. rewrite map_length.
    apply serialize_writes.
Qed.

Lemma trip {E E' St Out M} (ser : serializer E St Out) (de : Out -> access E') view items out size (build : list E' -> res M) m' :
  faithful ser de view -> serialize ser (Some (N.of_nat (List.length items))) items = ROk out ->
  size * N.of_nat (List.length items) <= isize_max -> build (map view items) = Ok m' -> visit size (de out) build = Ok (ROk m').
Proof. intros FF HO HS HB. destruct (FF _ _ HO) as [HI HH]. apply (visit_faithful size (de out) build view items); auto. Qed.

Lemma unit_entries_fst {T} (l : list (T * unit)) : unit_entries (map fst l) = l.
Proof. unfold unit_entries. induction l as [|[x []] r IH]; [reflexivity|]. cbn. rewrite IH. reflexivity. Qed.

(** Reading borrowed strings back. *)
Lemma lent_items {V} (l : list (bytes * V)) : map next_str (map (fun e => ROk (lent_key e)) l) = map (fun e => ROk (whole e)) l.
Proof. rewrite map_map. apply map_ext. intros [s v]. reflexivity. Qed.
Lemma lent_elems (l : list bytes) : map next_str_elem (map (fun s => ROk (Lent s)) l) = map (fun e => ROk (whole e)) l.
Proof. rewrite map_map. reflexivity. Qed.

Section Trips.
Context {M K V Q St Out : Type} (ops : map_ops M K V Q) (eqK : K -> K -> bool) (eqv : Q -> K -> bool) (m : M) (input : list (K * V)).
Hypothesis MD : made ops eqK eqv m input.
Context (ser : serializer (K * V) St Out) (de : Out -> access (K * V)) (out : Out) (size : N).
Hypothesis FF : faithful ser de whole.
Hypothesis HO : map_serialize ops ser m = ROk out.
Hypothesis HS : size * N.of_nat (map_len ops m) <= isize_max.

Lemma map_trip {M'} (build : list (K * V) -> res M') m' : build (mo_entries ops m) = Ok m' -> visit size (de out) build = Ok (ROk m').
Proof. intros HB. apply (trip ser de whole (mo_entries ops m)); auto. unfold whole. rewrite map_id. exact HB. Qed.

Lemma hash_trip usort hK hQ : sorts_by_slot usort -> lawful_hash eqK hK -> lawful_query_hash eqv hQ hK -> N.of_nat (map_len ops m) <= usize_max ->
  exists m', fz_hash_map_visit usort eqK hK size (de out) = Ok (ROk m') /\ same_answers ops m (hash_ops (fun q => Ok (hQ q)) eqv) m' /\
    made (hash_ops (fun q => Ok (hQ q)) eqv) eqK eqv m' (mo_entries ops m).
Proof.
  intros US LH LQ HN. destruct (made_lawful _ _ _ _ _ MD) as [LE LV].
  destruct (build_hash usort eqK eqv hK hQ (mo_entries ops m)) as [m' [HB MD']]; auto.
  exists m'. split; [apply map_trip; auto|]. split; [|auto]. apply (rebuilt _ _ _ _ _ MD _ _ _ _ MD'); auto.
Qed.
Lemma ordered_trip cmp cmpQ : lawful_ord cmp -> lawful_comparable cmp cmpQ ->
  (forall a b, cmp_eq cmp a b = eqK a b) -> (forall q k, cmp_eq cmpQ q k = eqv q k) ->
  exists m', fz_ordered_map_visit cmp size (de out) = Ok (ROk m') /\ same_answers ops m (eytzinger_ops cmpQ) m' /\
    made (eytzinger_ops cmpQ) (cmp_eq cmp) (cmp_eq cmpQ) m' (mo_entries ops m).
Proof.
  intros LO LC XK XV. destruct (build_ordered cmp cmpQ (mo_entries ops m)) as [m' [HB MD']]; auto.
  exists m'. split; [apply map_trip; auto|]. split; [|auto]. apply (rebuilt _ _ _ _ _ MD _ _ _ _ MD'); auto.
Qed.
Lemma scalar_trip usort md idx cmp idxQ : sorts_by_slot usort -> lawful_scalar idx cmp -> lawful_query_scalar idx idxQ eqv ->
  (forall a b, idx_eq idx a b = eqK a b) -> span_representable idx (map fst (mo_entries ops m)) ->
  exists m', fz_scalar_map_visit usort md idx cmp size (de out) = Ok (ROk m') /\ same_answers ops m (fz_scalar_ops idxQ eqv) m' /\
    made (fz_scalar_ops idxQ eqv) (idx_eq idx) eqv m' (mo_entries ops m).
Proof.
  intros US LS LQ XK SR. destruct (build_scalar usort md idx cmp idxQ eqv (mo_entries ops m)) as [m' [HB MD']]; auto.
  exists m'. split; [apply map_trip; auto|]. split; [|auto]. apply (rebuilt _ _ _ _ _ MD _ _ _ _ MD'); auto.
Qed.
End Trips.

Section SetTrips.
Context {M T Q St Out : Type} (ops : map_ops M T unit Q) (eqT : T -> T -> bool) (eqv : Q -> T -> bool) (m : M) (input : list (T * unit)).
Hypothesis MD : made ops eqT eqv m input.
Context (ser : serializer T St Out) (de : Out -> access T) (out : Out) (size : N).
Hypothesis FF : faithful ser de whole.
Hypothesis HO : set_serialize ops ser m = ROk out.
Hypothesis HS : size * N.of_nat (set_len ops m) <= isize_max.

Lemma set_values_length : List.length (set_values ops m) = set_len ops m.
Proof. unfold set_values. rewrite map_length. reflexivity. Qed.
Lemma set_trip {M'} (build : list (T * unit) -> res M') m' : build (mo_entries ops m) = Ok m' ->
  visit size (de out) (fun v => build (unit_entries v)) = Ok (ROk m').
Proof.
  intros HB. apply (trip ser de whole (set_values ops m)); auto.
  - rewrite set_values_length. exact HO.
  - rewrite set_values_length. exact HS.
  - unfold whole. rewrite map_id. unfold set_values. rewrite unit_entries_fst. exact HB.
Qed.

Lemma hash_set_trip usort hT hQ : sorts_by_slot usort -> lawful_hash eqT hT -> lawful_query_hash eqv hQ hT -> N.of_nat (set_len ops m) <= usize_max ->
  exists m', fz_hash_set_visit usort eqT hT size (de out) = Ok (ROk m') /\ same_answers ops m (hash_ops (fun q => Ok (hQ q)) eqv) m' /\
    made (hash_ops (fun q => Ok (hQ q)) eqv) eqT eqv m' (mo_entries ops m).
Proof.
  intros US LH LQ HN. destruct (made_lawful _ _ _ _ _ MD) as [LE LV].
  destruct (build_hash usort eqT eqv hT hQ (mo_entries ops m)) as [m' [HB MD']]; auto.
  exists m'. split; [apply set_trip; auto|]. split; [|auto]. apply (rebuilt _ _ _ _ _ MD _ _ _ _ MD'); auto.
Qed.
Lemma ordered_set_trip cmp cmpQ : lawful_ord cmp -> lawful_comparable cmp cmpQ ->
  (forall a b, cmp_eq cmp a b = eqT a b) -> (forall q k, cmp_eq cmpQ q k = eqv q k) ->
  exists m', fz_ordered_set_visit cmp size (de out) = Ok (ROk m') /\ same_answers ops m (eytzinger_ops cmpQ) m' /\
    made (eytzinger_ops cmpQ) (cmp_eq cmp) (cmp_eq cmpQ) m' (mo_entries ops m).
Proof.
  intros LO LC XK XV. destruct (build_ordered cmp cmpQ (mo_entries ops m)) as [m' [HB MD']]; auto.
  exists m'. split; [apply set_trip; auto|]. split; [|auto]. apply (rebuilt _ _ _ _ _ MD _ _ _ _ MD'); auto.
Qed.
Lemma scalar_set_trip usort md idx cmp idxQ : sorts_by_slot usort -> lawful_scalar idx cmp -> lawful_query_scalar idx idxQ eqv ->
  (forall a b, idx_eq idx a b = eqT a b) -> span_representable idx (set_values ops m) ->
  exists m', fz_scalar_set_visit usort md idx cmp size (de out) = Ok (ROk m') /\ same_answers ops m (fz_scalar_ops idxQ eqv) m' /\
    made (fz_scalar_ops idxQ eqv) (idx_eq idx) eqv m' (mo_entries ops m).
Proof.
  intros US LS LQ XK SR. destruct (build_scalar usort md idx cmp idxQ eqv (mo_entries ops m)) as [m' [HB MD']]; auto.
  exists m'. split; [apply set_trip; auto|]. split; [|auto]. apply (rebuilt _ _ _ _ _ MD _ _ _ _ MD'); auto.
Qed.
End SetTrips.

Lemma string_trip {M V St Out} (ops : map_ops M bytes V bytes) eqK m input (ser : serializer (bytes * V) St Out) de out size usort bh :
  made ops eqK eqK m input -> (forall a b, eqK a b = bytes_eqb a b) -> faithful ser de lent_key -> map_serialize ops ser m = ROk out ->
  size * N.of_nat (map_len ops m) <= isize_max ->
  sorts_by_slot usort -> N.of_nat (map_len ops m) <= usize_max -> (forall e, In e (mo_entries ops m) -> N.of_nat (List.length (fst e)) <= usize_max) ->
  exists m', fz_string_map_visit usort bh size (de out) = Ok (ROk m') /\ same_answers ops m fz_string_ops m' /\
    made fz_string_ops bytes_eqb bytes_eqb m' (mo_entries ops m).
Proof.
  intros MD XK FF HO HS US HN HL. destruct (build_string usort bh (mo_entries ops m)) as [m' [HB MD']]; auto.
  exists m'. split.
  - destruct (FF _ _ HO) as [HI HH]. unfold fz_string_map_visit. apply (visit_faithful _ _ _ whole (mo_entries ops m)); auto.
    + cbn [ac_items]. rewrite HI. apply lent_items.
    + unfold modest_hint in *. cbn [ac_items ac_hint]. rewrite map_length. exact HH.
    + unfold whole. rewrite map_id. exact HB.
  - split; [|auto]. apply (rebuilt _ _ _ _ _ MD _ _ _ _ MD'); auto.
Qed.
Lemma string_set_trip {M St Out} (ops : map_ops M bytes unit bytes) eqT m input (ser : serializer bytes St Out) de out size usort bh :
  made ops eqT eqT m input -> (forall a b, eqT a b = bytes_eqb a b) -> faithful ser de Lent -> set_serialize ops ser m = ROk out ->
  size * N.of_nat (set_len ops m) <= isize_max ->
  sorts_by_slot usort -> N.of_nat (set_len ops m) <= usize_max -> (forall s, In s (set_values ops m) -> N.of_nat (List.length s) <= usize_max) ->
  exists m', fz_string_set_visit usort bh size (de out) = Ok (ROk m') /\ same_answers ops m fz_string_ops m' /\
    made fz_string_ops bytes_eqb bytes_eqb m' (mo_entries ops m).
Proof.
  intros MD XK FF HO HS US HN HL. destruct (build_string usort bh (mo_entries ops m)) as [m' [HB MD']]; auto.
  { intros e He. apply HL. unfold set_values. apply in_map. exact He. }
  exists m'. split.
  - unfold set_serialize in HO. rewrite <- set_values_length in HO, HS.
    destruct (FF _ _ HO) as [HI HH]. unfold fz_string_set_visit. apply (visit_faithful _ _ _ whole (set_values ops m)); auto.
    + cbn [ac_items]. rewrite HI. apply lent_elems.
    + unfold modest_hint in *. cbn [ac_items ac_hint]. rewrite map_length. exact HH.
    + unfold whole. rewrite map_id. unfold set_values. rewrite unit_entries_fst. exact HB.
  - split; [|auto]. apply (rebuilt _ _ _ _ _ MD _ _ _ _ MD'); auto.
Qed.

(** * Strings that cannot be borrowed *)
Lemma transient_map_fails {M V St Out} (ops : map_ops M bytes V bytes) m (ser : serializer (bytes * V) St Out) de out size usort bh :
  map_is_empty ops m = false -> faithful ser de transient_key -> map_serialize ops ser m = ROk out ->
  size * N.of_nat (map_len ops m) <= isize_max ->
  exists msg, fz_string_map_visit usort bh size (de out) = Ok (RErr msg).
Proof.
  intros HE FF HO HS. destruct (FF _ _ HO) as [HI HH]. unfold fz_string_map_visit, visit, with_capacity. cbn [ac_hint ac_items]. rewrite HI.
  unfold modest_hint in HH. rewrite HI, map_length in HH. unfold map_is_empty, map_len in *.
  assert (size * (match ac_hint (de out) with Some n => n | None => 0 end) <= isize_max) as L.
  { destruct (ac_hint (de out)); [|lia]. etransitivity; [|exact HS]. apply N.mul_le_mono_l. exact HH. }
  apply N.leb_le in L. rewrite L. destruct (mo_entries ops m) as [|[s v] r]; [discriminate|]. cbn. eauto.
Qed.
Lemma transient_set_fails {M St Out} (ops : map_ops M bytes unit bytes) m (ser : serializer bytes St Out) de out size usort bh :
  map_is_empty ops m = false -> faithful ser de Transient -> set_serialize ops ser m = ROk out ->
  size * N.of_nat (set_len ops m) <= isize_max ->
  exists msg, fz_string_set_visit usort bh size (de out) = Ok (RErr msg).
Proof.
  intros HE FF HO HS. unfold set_serialize in HO. rewrite <- set_values_length in HO, HS. destruct (FF _ _ HO) as [HI HH].
  unfold fz_string_set_visit, visit, with_capacity. cbn [ac_hint ac_items]. rewrite HI.
  unfold modest_hint in HH. rewrite HI, map_length in HH.
  assert (size * (match ac_hint (de out) with Some n => n | None => 0 end) <= isize_max) as L.
  { destruct (ac_hint (de out)); [|lia]. etransitivity; [|exact HS]. apply N.mul_le_mono_l. exact HH. }
  apply N.leb_le in L. rewrite L. unfold map_is_empty, map_len, set_values in *. destruct (mo_entries ops m) as [|[s v] r]; [discriminate|]. cbn. eauto.
Qed.

(** * The visitors on any input *)
Lemma next_str_ok {V} (items : list (result (str_datum * V))) (l : list (bytes * V)) :
  map next_str items = map (fun x => ROk x) l <-> items = map (fun e => ROk (lent_key e)) l.
Proof.
  split; [|intros ->; rewrite lent_items; reflexivity].
  revert l. induction items as [|i r IH]; intros [|e l] H; try discriminate; [reflexivity|]. cbn in H. injection H as H0 H1.
  cbn. f_equal; [|auto]. destruct i as [[[s|s] v]|]; cbn in H0; try discriminate. injection H0 as <-. reflexivity.
Qed.
Lemma next_str_elem_ok (items : list (result str_datum)) (l : list bytes) :
  map next_str_elem items = map (fun x => ROk x) l <-> items = map (fun e => ROk (Lent e)) l.
Proof.
  split; [|intros ->; rewrite lent_elems; reflexivity].
  revert l. induction items as [|i r IH]; intros [|e l] H; try discriminate; [reflexivity|]. cbn in H. injection H as H0 H1.
  cbn. f_equal; [|auto]. destruct i as [[s|s]|]; cbn in H0; try discriminate. injection H0 as <-. reflexivity.
Qed.

Lemma hash_visits {K V Q} usort eqK eqv hK hQ size (a : access (K * V)) :
  sorts_by_slot usort -> lawful_eq eqK -> lawful_equivalent eqK eqv -> lawful_hash eqK hK -> lawful_query_hash (Q := Q) eqv hQ hK ->
  N.of_nat (List.length (ac_items a)) <= usize_max ->
  visits size a (fz_hash_map_visit usort eqK hK size a) (made (hash_ops (fun q => Ok (hQ q)) eqv) eqK eqv).
Proof.
  intros US LE LV LH LQ HN. apply visit_visits. intros l Hl. apply build_hash; auto. rewrite Hl, map_length in HN. exact HN.
Qed.
Lemma ordered_visits {K V Q} cmp cmpQ size (a : access (K * V)) : lawful_ord cmp -> lawful_comparable (Q := Q) cmp cmpQ ->
  visits size a (fz_ordered_map_visit cmp size a) (made (eytzinger_ops cmpQ) (cmp_eq cmp) (cmp_eq cmpQ)).
Proof. intros LO LC. apply visit_visits. intros l _. apply build_ordered; auto. Qed.
Lemma scalar_visits {K V Q} usort md idx cmp idxQ eqv size (a : access (K * V)) :
  sorts_by_slot usort -> lawful_scalar idx cmp -> lawful_query_scalar (Q := Q) idx idxQ eqv ->
  (forall l, ac_items a = map (fun x => ROk x) l -> span_representable idx (map fst l)) ->
  visits size a (fz_scalar_map_visit usort md idx cmp size a) (made (fz_scalar_ops idxQ eqv) (idx_eq idx) eqv).
Proof. intros US LS LQ SR. apply visit_visits. intros l Hl. apply build_scalar; auto. Qed.
Lemma string_visits {V} usort bh size (a : access (str_datum * V)) :
  sorts_by_slot usort -> N.of_nat (List.length (ac_items a)) <= usize_max ->
  (forall s v, In (ROk (Lent s, v)) (ac_items a) -> N.of_nat (List.length s) <= usize_max) ->
  (forall n, ac_hint a = Some n -> isize_max < size * n -> fz_string_map_visit usort bh size a = Panic) /\
  ((forall n, ac_hint a = Some n -> size * n <= isize_max) ->
   ((exists x, In x (ac_items a) /\ bad_str x) -> exists msg, fz_string_map_visit usort bh size a = Ok (RErr msg)) /\
   (forall pre msg post, ac_items a = map (fun e => ROk (lent_key e)) pre ++ RErr msg :: post -> fz_string_map_visit usort bh size a = Ok (RErr msg)) /\
   (forall l, ac_items a = map (fun e => ROk (lent_key e)) l ->
      exists m, fz_string_map_visit usort bh size a = Ok (ROk m) /\ made fz_string_ops bytes_eqb bytes_eqb m l)).
Proof.
  intros US HN HL.
  destruct (visit_visits size {| ac_hint := ac_hint a; ac_items := map next_str (ac_items a) |} (fz_string_map_with_hasher usort bh)
    (made fz_string_ops bytes_eqb bytes_eqb)) as [V1 V2].
  { intros l Hl. cbn [ac_items] in Hl. apply next_str_ok in Hl. apply build_string; auto.
    - rewrite Hl, map_length in HN. exact HN.
    - intros [s v] He. apply (HL s v). rewrite Hl. apply in_map_iff. exists (s, v). auto. }
  cbn [ac_hint ac_items] in V1, V2. split; [exact V1|]. intros HH. destruct (V2 HH) as [V3 V4]. split; [|split].
  - intros [x [Hx Bx]]. destruct (collect (map next_str (ac_items a))) as [l|msg] eqn:C.
    + exfalso. apply collect_ok, next_str_ok in C. rewrite C in Hx. apply in_map_iff in Hx. destruct Hx as [e [<- _]]. exact Bx.
    + exists msg. apply V3. apply collect_error. exact C.
  - intros pre msg post E. apply V3. exists pre, (map next_str post). rewrite E, map_app, lent_items. reflexivity.
  - intros l Hl. apply V4. apply next_str_ok. exact Hl.
Qed.

Lemma hash_set_visits {T Q} usort eqT eqv hT hQ size (a : access T) :
  sorts_by_slot usort -> lawful_eq eqT -> lawful_equivalent eqT eqv -> lawful_hash eqT hT -> lawful_query_hash (Q := Q) eqv hQ hT ->
  N.of_nat (List.length (ac_items a)) <= usize_max ->
  visits size a (fz_hash_set_visit usort eqT hT size a) (fun m l => made (hash_ops (fun q => Ok (hQ q)) eqv) eqT eqv m (unit_entries l)).
Proof.
  intros US LE LV LH LQ HN. apply visit_visits. intros l Hl. apply build_hash; auto. unfold unit_entries. rewrite Hl, map_length in HN.
  rewrite map_length. exact HN.
Qed.
Lemma ordered_set_visits {T Q} cmp cmpQ size (a : access T) : lawful_ord cmp -> lawful_comparable (Q := Q) cmp cmpQ ->
  visits size a (fz_ordered_set_visit cmp size a) (fun m l => made (eytzinger_ops cmpQ) (cmp_eq cmp) (cmp_eq cmpQ) m (unit_entries l)).
Proof. intros LO LC. apply visit_visits. intros l _. apply build_ordered; auto. Qed.
Lemma scalar_set_visits {T Q} usort md idx cmp idxQ eqv size (a : access T) :
  sorts_by_slot usort -> lawful_scalar idx cmp -> lawful_query_scalar (Q := Q) idx idxQ eqv ->
  (forall l, ac_items a = map (fun x => ROk x) l -> span_representable idx l) ->
  visits size a (fz_scalar_set_visit usort md idx cmp size a) (fun m l => made (fz_scalar_ops idxQ eqv) (idx_eq idx) eqv m (unit_entries l)).
Proof. intros US LS LQ SR. apply visit_visits. intros l Hl. apply build_scalar; auto. rewrite unit_fst. auto. Qed.
Lemma string_set_visits usort bh size (a : access str_datum) :
  sorts_by_slot usort -> N.of_nat (List.length (ac_items a)) <= usize_max ->
  (forall s, In (ROk (Lent s)) (ac_items a) -> N.of_nat (List.length s) <= usize_max) ->
  (forall n, ac_hint a = Some n -> isize_max < size * n -> fz_string_set_visit usort bh size a = Panic) /\
  ((forall n, ac_hint a = Some n -> size * n <= isize_max) ->
   ((exists x, In x (ac_items a) /\ bad_elem x) -> exists msg, fz_string_set_visit usort bh size a = Ok (RErr msg)) /\
   (forall pre msg post, ac_items a = map (fun s => ROk (Lent s)) pre ++ RErr msg :: post -> fz_string_set_visit usort bh size a = Ok (RErr msg)) /\
   (forall l, ac_items a = map (fun s => ROk (Lent s)) l ->
      exists m, fz_string_set_visit usort bh size a = Ok (ROk m) /\ made fz_string_ops bytes_eqb bytes_eqb m (unit_entries l))).
Proof.
  intros US HN HL.
  destruct (visit_visits size {| ac_hint := ac_hint a; ac_items := map next_str_elem (ac_items a) |}
    (fun v => fz_string_map_with_hasher usort bh (unit_entries v))
    (fun m l => made fz_string_ops bytes_eqb bytes_eqb m (unit_entries l))) as [V1 V2].
  { intros l Hl. cbn [ac_items] in Hl. apply next_str_elem_ok in Hl. apply build_string; auto; unfold unit_entries.
    - rewrite map_length. rewrite Hl, map_length in HN. exact HN.
    - intros e He. apply in_map_iff in He. destruct He as [s [<- He]]. apply HL. rewrite Hl. apply in_map_iff. exists s. auto. }
  cbn [ac_hint ac_items] in V1, V2. split; [exact V1|]. intros HH. destruct (V2 HH) as [V3 V4]. split; [|split].
  - intros [x [Hx Bx]]. destruct (collect (map next_str_elem (ac_items a))) as [l|msg] eqn:C.
    + exfalso. apply collect_ok, next_str_elem_ok in C. rewrite C in Hx. apply in_map_iff in Hx. destruct Hx as [e [<- _]]. exact Bx.
    + exists msg. apply V3. apply collect_error. exact C.
  - intros pre msg post E. apply V3. exists pre, (map next_str_elem post). rewrite E, map_app, lent_elems. reflexivity.
  - intros l Hl. apply V4. apply next_str_elem_ok. exact Hl.
Qed.

(** The format of SpecSerde *)
Lemma list_ser_items {E} (items : list E) n acc : serialize_items (list_ser E) (n, acc) items = ROk (n, acc ++ items).
Proof.
  revert acc. induction items as [|x r IH]; intros acc; cbn [serialize_items]; [rewrite app_nil_r; reflexivity|].
  cbn [list_ser se_item fst snd]. rewrite IH, <- app_assoc. reflexivity.
Qed.
Lemma list_serialize {E} (items : list E) :
  serialize (list_ser E) (Some (N.of_nat (List.length items))) items = ROk (N.of_nat (List.length items), items).
Proof. unfold serialize. cbn [list_ser se_begin]. rewrite list_ser_items. cbn. rewrite N.eqb_refl. reflexivity. Qed.
Lemma list_faithful {E E'} (view : E -> E') : faithful (list_ser E) (list_de view) view.
Proof.
  intros items out H. rewrite list_serialize in H. injection H as <-. split; [reflexivity|]. unfold modest_hint. cbn.
  rewrite map_length. lia.
Qed.
