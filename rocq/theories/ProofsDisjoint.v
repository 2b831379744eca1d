(** Proofs for ModelDisjoint.v. *)
From Verif Require Import ModelUtils ModelAnalyzers ModelTables ModelMaps ModelHostile ModelDisjoint.
From Verif Require Import Spec SpecHostile SpecDisjoint ProofsBase ProofsFz ProofsHostile ProofsCovers.
From Coq Require Import Permutation.
From Verif Require Import Prelude.

(** ** Hostile traits *)
Lemma any_equal_runs q n : runs q (h_any_equal n) (fun _ => True).
Proof.
  induction n as [|n IH]; cbn [h_any_equal]; [apply runs_ret; exact I|].
  eapply runs_then; [apply (runs_bool q (fun _ => True)); auto|]. intros [|] _; [apply runs_ret; exact I|exact IH].
Qed.
Lemma has_duplicates_runs q : forall left seen, runs q (h_has_duplicates seen left) (fun _ => True).
Proof.
  induction left as [|n IH]; intros seen; cbn [h_has_duplicates]; [apply runs_ret; exact I|].
  eapply runs_then; [apply any_equal_runs|]. intros [|] _; [apply runs_ret; exact I|apply IH].
Qed.

Lemma disjoint_unchecked_runs q {K V} (m : any_map K V) n : sound m ->
  runs q (h_disjoint_unchecked m n) (fun ps => length ps = n /\ Forall (fun o => forall p, o = Some p -> (p < length (any_entries m))%nat) ps).
Proof.
  intros HS. induction n as [|n IH]; cbn [h_disjoint_unchecked]; [apply runs_ret; auto|].
  eapply runs_then; [apply get_mut_runs, HS|]. intros o Ho. eapply runs_then; [exact IH|]. intros r [L F]. apply runs_ret.
  split; [cbn; lia|]. constructor; auto. intros p ->. exact Ho.
Qed.

Lemma disjoint_safe {K V} (m : any_map K V) n adv i : sound m ->
  match h_disjoint m n adv i with
  | Ok (ps, _) => length ps = n /\ Forall (fun o => forall p, o = Some p -> (p < length (any_entries m))%nat) ps
  | Panic => True
  | UB => False
  end.
Proof.
  intros HS. unfold h_disjoint, andthen. pose proof (has_duplicates_runs false n 0%nat adv i ltac:(discriminate)) as D.
  destruct (h_has_duplicates 0 n adv i) as [[[|] i']| |]; cbn [lift]; auto.
  pose proof (disjoint_unchecked_runs false m n HS adv i' ltac:(discriminate)) as U.
  destruct (h_disjoint_unchecked m n adv i') as [[ps i'']| |]; auto.
Qed.

Lemma any_equal_quiet adv : (forall j, a_panics (adv j) = false) -> forall n i,
  (exists j i', (j < n)%nat /\ a_bool (adv (i + j)%nat) = true /\ h_any_equal n adv i = Ok (true, i')) \/
  ((forall j, (j < n)%nat -> a_bool (adv (i + j)%nat) = false) /\ h_any_equal n adv i = Ok (false, (i + n)%nat)).
Proof.
  intros Q. induction n as [|n IH]; intros i; cbn [h_any_equal].
  - right. split; [intros; lia|]. unfold ret. do 2 f_equal. lia.
  - unfold ask_bool, andthen, ask, ret. rewrite Q. destruct (a_bool (adv i)) eqn:B.
    + left. exists 0%nat, (S i). rewrite Nat.add_0_r. repeat split; auto. lia.
    + destruct (IH (S i)) as [[j [i' [L [T E]]]]|[F E]].
      * left. exists (S j), i'. split; [lia|]. rewrite Nat.add_succ_r. split; auto.
      * right. split.
        -- intros [|j] L; [rewrite Nat.add_0_r; exact B|]. rewrite Nat.add_succ_r. apply (F j). lia.
        -- rewrite E. do 2 f_equal. lia.
Qed.

(** The comparisons of [left] more keys after [seen] ones. *)
Fixpoint pairs (seen left : nat) : nat := match left with O => O | S left' => (seen + pairs (S seen) left')%nat end.
Lemma pairs_eq : forall left seen, (2 * pairs seen left + left = left * (2 * seen + left))%nat.
Proof. induction left as [|n IH]; intros seen; cbn [pairs]; [reflexivity|]. specialize (IH (S seen)). nia. Qed.

Lemma has_duplicates_quiet adv : (forall j, a_panics (adv j) = false) -> forall left seen i,
  (exists j i', (j < pairs seen left)%nat /\ a_bool (adv (i + j)%nat) = true /\ h_has_duplicates seen left adv i = Ok (true, i')) \/
  ((forall j, (j < pairs seen left)%nat -> a_bool (adv (i + j)%nat) = false) /\
   h_has_duplicates seen left adv i = Ok (false, (i + pairs seen left)%nat)).
Proof.
  intros Q. induction left as [|n IH]; intros seen i; cbn [h_has_duplicates pairs].
  - right. split; [intros; lia|]. unfold ret. do 2 f_equal. lia.
  - unfold andthen. destruct (any_equal_quiet adv Q seen i) as [[j [i' [L [T E]]]]|[F E]]; rewrite E.
    + left. exists j, i'. split; [lia|]. split; auto.
    + destruct (IH (S seen) (i + seen)%nat) as [[j [i' [L [T E']]]]|[F' E']].
      * left. exists (seen + j)%nat, i'. split; [lia|]. rewrite Nat.add_assoc. split; auto.
      * right. split.
        -- intros j L. destruct (Nat.lt_ge_cases j seen) as [H|H]; [auto|]. replace (i + j)%nat with (i + seen + (j - seen))%nat by lia.
           apply F'. lia.
        -- rewrite E', Nat.add_assoc. reflexivity.
Qed.

Lemma disjoint_panics {K V} (m : any_map K V) n adv i : sound m -> (forall j, a_panics (adv j) = false) ->
  (h_disjoint m n adv i = Panic <-> exists j, (2 * j + n < n * n)%nat /\ a_bool (adv (i + j)%nat) = true).
Proof.
  intros HS Q. pose proof (pairs_eq n 0) as PE. unfold h_disjoint, andthen.
  destruct (has_duplicates_quiet adv Q n 0%nat i) as [[j [i' [L [T E]]]]|[F E]]; rewrite E; cbn [lift].
  - split; auto. intros _. exists j. split; auto. lia.
  - pose proof (disjoint_unchecked_runs true m n HS adv (i + pairs 0 n)%nat (fun _ => Q)) as U.
    split.
    + intros EP. rewrite EP in U. discriminate.
    + intros [j [L T]]. rewrite F in T; [discriminate|lia].
Qed.

Lemma can_any_equal n : can (h_any_equal n) (Ok false).
Proof. induction n as [|n IH]; cbn [h_any_equal]; [apply can_ret|]. apply (can_bool_then false). exact IH. Qed.
Lemma can_has_duplicates : forall left seen, can (h_has_duplicates seen left) (Ok false).
Proof.
  induction left as [|n IH]; intros seen; cbn [h_has_duplicates]; [apply can_ret|]. apply (can_ok_then _ false); [apply can_any_equal|]. apply IH.
Qed.
Lemma can_unchecked {K V} (m : any_map K V) ps : Forall (fun o => can (h_get_mut m) (Ok o)) ps -> can (h_disjoint_unchecked m (length ps)) (Ok ps).
Proof.
  intros H. induction H as [|o ps Ho _ IH]; cbn [h_disjoint_unchecked length]; [apply can_ret|]. eapply can_ok_then; [exact Ho|].
  eapply can_ok_then; [exact IH|]. apply can_ret.
Qed.

(** *** The answers of one lookup *)
Lemma in_range_spec a i b : ((a <=? i) && (i <=? b))%bool = true <-> a <= i <= b.
Proof. rewrite andb_true_iff, !N.leb_le. reflexivity. Qed.

Lemma get_mut_possible {K V} (m : any_map K V) : sound m -> runs false (h_get_mut m) (possible m).
Proof.
  intros HS. destruct m as [m|m|m|m|m|m]; cbn [sound] in HS.
  - intros adv n Q. pose proof (get_mut_runs false (AnyScan m) I adv n Q) as G. destruct (h_get_mut _ adv n) as [[[p|] n']| |]; exact G.
  - intros adv n Q. pose proof (get_mut_runs false (AnyOrdered m) I adv n Q) as G. destruct (h_get_mut _ adv n) as [[[p|] n']| |]; exact G.
  - cbn [h_get_mut]. eapply runs_then; [apply (runs_number false (fun i => i < two64)); auto|]. intros i Hi. cbv beta in Hi. apply runs_lift. unfold dense_get_mut.
    in_range.
    + specialize (HS ltac:(lia)). unfold get_unchecked. destruct (nth_error _ _) as [e|] eqn:E; cbn [bind possible]; [lia|].
      apply nth_error_None in E. lia.
    + cbn [possible]. right. pose proof (eq_refl : two64 = usize_max + 1). lia.
    + cbn [possible]. left. lia.
  - cbn [h_get_mut]. eapply runs_then; [apply (runs_number false (fun i => i < two64)); auto|]. intros i Hi. cbv beta in Hi. apply runs_lift. unfold sparse_get_mut.
    in_range.
    + destruct (HS i ltac:(lia)) as [j [E B]]. unfold get_unchecked. rewrite E. cbn [bind]. destruct (N.ltb_spec 0 j) as [H1|H1].
      * destruct (nth_error (sp_entries m) _) as [e|] eqn:E'; cbn [bind possible].
        -- exists i. split; [lia|]. split; [exact Hi|]. rewrite E. f_equal. lia.
        -- apply nth_error_None in E'. lia.
      * cbn [possible]. right. right. exists i. split; [lia|]. split; [exact Hi|]. rewrite E. f_equal. lia.
    + cbn [possible]. right. left. pose proof (eq_refl : two64 = usize_max + 1). lia.
    + cbn [possible]. left. lia.
  - cbn [h_get_mut]. eapply runs_then; [apply (runs_number false (fun i => i < two64)); auto|]. intros h Hh. cbv beta in Hh. unfold h_ht_find_mut.
    destruct (HS h Hh) as [lo [hi [E B]]].
    eapply runs_then; [apply runs_get, E|]. intros s ->. cbv beta iota.
    eapply runs_then; [apply (runs_slice false (ht_entries (hm_table m)) (N.to_nat lo) (N.to_nat hi)); lia|]. intros es [Hl _].
    assert (G : forall l p, (N.to_nat lo <= p)%nat -> (p + length l <= N.to_nat hi)%nat ->
      runs false (@h_scan_slot_mut (K * V) p l) (possible (AnyHash m))).
    { induction l as [|e l IH]; intros p L1 L2; cbn [h_scan_slot_mut length] in *; [apply runs_ret; exact I|].
      eapply runs_then; [apply (runs_bool false (fun _ => True)); auto|]. intros [|] _; [|apply IH; lia]. apply runs_ret. cbn [possible].
      exists h, lo, hi. split; [exact Hh|]. split; [exact E|]. lia. }
    apply G; lia.
  - cbn [h_get_mut]. eapply runs_then; [apply (runs_number false (fun i => i < two64)); auto|]. intros h Hh. cbv beta in Hh. unfold h_nc_find_mut.
    destruct (HS h Hh) as [j [E B]]. eapply runs_then; [apply runs_get, E|]. intros s ->.
    destruct (N.ltb_spec 0 j) as [H1|H1]; [|apply runs_ret; exact I].
    eapply runs_then; [apply runs_get_in; lia|]. intros e He.
    eapply runs_then; [apply (runs_bool false (fun _ => True)); auto|]. intros b _. apply runs_ret. destruct b; [|exact I].
    cbn [possible]. exists h. split; [exact Hh|]. rewrite E. f_equal. lia.
Qed.

Lemma can_scan_none {K V} : forall (es : list (K * V)) pos o, can (h_scan_get_mut es pos o) (Ok o).
Proof. induction es as [|e r IH]; intros pos o; cbn [h_scan_get_mut]; [apply can_ret|]. apply (can_bool_then false). apply IH. Qed.
Lemma can_scan_some {K V} : forall (es : list (K * V)) p pos o, (p < length es)%nat -> can (h_scan_get_mut es pos o) (Ok (Some (pos + p)%nat)).
Proof.
  induction es as [|e r IH]; intros [|p] pos o L; cbn [h_scan_get_mut length] in *; try lia.
  - apply (can_bool_then true). rewrite Nat.add_0_r. apply can_scan_none.
  - apply (can_bool_then false). rewrite Nat.add_succ_r. apply (IH p (S pos) o). lia.
Qed.

Lemma can_search_none {T} (data : list T) : forall fuel i, (0 < fuel)%nat -> (length data < i + fuel)%nat -> can (h_search_loop fuel data i) (Ok None).
Proof.
  induction fuel as [|f IH]; intros i L0 L; [lia|]. cbn [h_search_loop]. destruct (nth_error data i) eqn:E; [|apply can_ret].
  assert (i < length data)%nat by (apply nth_error_Some; congruence).
  apply (can_order_then Gt). cbv beta iota zeta. apply IH; lia.
Qed.

(** The way down to [p]. *)
Lemma can_search_path {T} (data : list T) : forall p, (p < length data)%nat ->
  exists d, (d <= p)%nat /\ forall fuel r, can (h_search_loop fuel data p) r -> can (h_search_loop (d + fuel) data 0) r.
Proof.
  induction p as [p IH] using (well_founded_induction lt_wf). intros L. destruct p as [|p]; [exists 0%nat; split; auto|].
  assert (step : forall q c, (q < S p)%nat -> c <> Eq -> (2 * q + 1 + N.to_nat (N.land (N.shiftr (ordering_as_usize c) 1) 1) = S p)%nat ->
    exists d, (d <= S p)%nat /\ forall fuel r, can (h_search_loop fuel data (S p)) r -> can (h_search_loop (d + fuel) data 0) r).
  { intros q c Lq Hc E. destruct (IH q Lq) as [d [Ld D]]; [lia|]. exists (S d). split; [lia|]. intros fuel r C.
    replace (S d + fuel)%nat with (d + S fuel)%nat by lia. apply D. cbn [h_search_loop].
    destruct (nth_error data q) eqn:En; [|apply nth_error_None in En; lia]. apply (can_order_then c). cbv zeta. rewrite E.
    destruct c; [congruence|exact C|exact C]. }
  destruct (Nat.Even_or_Odd p) as [[q Hq]|[q Hq]].
  - apply (step q Gt); [lia|discriminate|]. change (N.to_nat _) with 0%nat. lia.
  - apply (step q Lt); [lia|discriminate|]. change (N.to_nat _) with 1%nat. lia.
Qed.

Lemma can_search_some {T} (data : list T) p : (p < length data)%nat -> can (h_search data) (Ok (Some p)).
Proof.
  intros L. destruct (can_search_path data p L) as [d [Ld D]]. unfold h_search.
  replace (S (length data)) with (d + S (length data - d))%nat by lia. apply D. cbn [h_search_loop].
  destruct (nth_error data p) eqn:E; [|apply nth_error_None in E; lia]. apply (can_order_then Eq). apply can_ret.
Qed.

Lemma can_slot_some {T} : forall (l : list T) p pos, (p < length l)%nat -> can (h_scan_slot_mut pos l) (Ok (Some (pos + p)%nat)).
Proof.
  induction l as [|e r IH]; intros [|p] pos L; cbn [h_scan_slot_mut length] in *; try lia.
  - apply (can_bool_then true). rewrite Nat.add_0_r. apply can_ret.
  - apply (can_bool_then false). rewrite Nat.add_succ_r. apply (IH p (S pos)). lia.
Qed.
Lemma can_slot_none {T} : forall (l : list T) pos, can (h_scan_slot_mut pos l) (Ok None).
Proof. induction l as [|e r IH]; intros pos; cbn [h_scan_slot_mut]; [apply can_ret|]. apply (can_bool_then false). apply IH. Qed.

Lemma can_lift_ok {A B} (y : res A) a (k : A -> hostile B) r : y = Ok a -> can (k a) r -> can (andthen (lift y) k) r.
Proof. intros -> C. eapply can_ok_then; [apply (can_lift (Ok a))|exact C]. Qed.

Lemma possible_can {K V} (m : any_map K V) o : sound m -> possible m o -> can (h_get_mut m) (Ok o).
Proof.
  intros HS HP. destruct m as [m|m|m|m|m|m]; cbn [sound] in HS; cbn [h_get_mut].
  - destruct o as [p|]; [apply (can_scan_some _ p 0%nat None HP)|apply can_scan_none].
  - destruct o as [p|]; cbn [possible any_entries] in HP.
    + apply (can_ok_then _ (Some p)); [apply can_search_some, HP|]. destruct (nth_error (em_entries m) p) as [e|] eqn:E; [|apply nth_error_None in E; lia].
      apply (can_lift_ok _ e); [unfold get_unchecked; rewrite E; reflexivity|apply can_ret].
    + apply (can_ok_then _ None); [unfold h_search; apply can_search_none; lia|apply can_ret].
  - destruct o as [p|]; cbn [possible] in HP.
    + apply (can_number_then (dm_min m + N.of_nat p)); [lia|]. unfold dense_get_mut. cbv zeta.
      replace ((_ <=? _) && (_ <=? _))%bool with true by (symmetry; apply in_range_spec; lia).
      replace (N.to_nat (dm_min m + N.of_nat p - dm_min m)) with p by lia. unfold get_unchecked.
      destruct (nth_error (dm_entries m) p) as [e|] eqn:E; [exact (can_lift (Ok (Some p)))|].
      apply nth_error_None in E. specialize (HS ltac:(lia)). lia.
    + assert (exists i, i < two64 /\ ~ dm_min m <= i <= dm_max m) as [i [Hi N]].
      { destruct HP as [H|H]; [exists 0; split; [reflexivity|lia]|exists usize_max; split; [reflexivity|lia]]. }
      apply (can_number_then i); [exact Hi|]. unfold dense_get_mut. cbv zeta.
      replace ((_ <=? _) && (_ <=? _))%bool with false; [exact (can_lift (Ok None))|]. symmetry. apply not_true_is_false.
      rewrite in_range_spec. exact N.
  - destruct o as [p|]; cbn [possible] in HP.
    + destruct HP as [i [Hr [Hi E]]]. apply (can_number_then i); [exact Hi|]. unfold sparse_get_mut. cbv zeta.
      replace ((_ <=? _) && (_ <=? _))%bool with true by (symmetry; apply in_range_spec; lia).
      destruct (HS i Hr) as [j [E' B]]. assert (j = N.of_nat (S p)) by congruence. unfold get_unchecked at 1. rewrite E. cbn [bind].
      replace (0 <? N.of_nat (S p)) with true by (symmetry; apply N.ltb_lt; lia). replace (N.to_nat (N.of_nat (S p) - 1)) with p by lia.
      unfold get_unchecked. destruct (nth_error (sp_entries m) p) as [e|] eqn:En; [exact (can_lift (Ok (Some p)))|].
      apply nth_error_None in En. lia.
    + assert ((exists i, i < two64 /\ ~ sp_min m <= i <= sp_max m) \/
        exists i, sp_min m <= i <= sp_max m /\ i < two64 /\ nth_error (sp_lookup m) (N.to_nat (i - sp_min m)) = Some 0) as [[i [Hi N]]|[i [Hr [Hi E]]]].
      { destruct HP as [H|[H|H]]; [left; exists 0; split; [reflexivity|lia]|left; exists usize_max; split; [reflexivity|lia]|right; exact H]. }
      * apply (can_number_then i); [exact Hi|]. unfold sparse_get_mut. cbv zeta.
        replace ((_ <=? _) && (_ <=? _))%bool with false; [exact (can_lift (Ok None))|]. symmetry. apply not_true_is_false.
        rewrite in_range_spec. exact N.
      * apply (can_number_then i); [exact Hi|]. unfold sparse_get_mut. cbv zeta.
        replace ((_ <=? _) && (_ <=? _))%bool with true by (symmetry; apply in_range_spec; lia).
        unfold get_unchecked at 1. rewrite E. exact (can_lift (Ok None)).
  - assert (exists h lo hi, h < two64 /\ nth_error (ht_slots (hm_table m)) (N.to_nat (N.land h (ht_mask (hm_table m)))) = Some (lo, hi) /\
      lo <= hi <= N.of_nat (length (ht_entries (hm_table m))) /\ (forall p, o = Some p -> lo <= N.of_nat p < hi)) as [h [lo [hi [Hh [E [B R]]]]]].
    { destruct o as [p|]; cbn [possible] in HP.
      - destruct HP as [h [lo [hi [Hh [E R]]]]]. destruct (HS h Hh) as [lo' [hi' [E' B']]]. exists h, lo, hi.
        assert (lo' = lo /\ hi' = hi) as [-> ->] by (split; congruence). repeat split; try (exact Hh || exact E || lia). all: congruence || (injection H as <-; lia).
      - destruct (HS 0 eq_refl) as [lo [hi [E B]]]. exists 0, lo, hi. split; [reflexivity|]. split; [exact E|]. split; [exact B|]. discriminate. }
    apply (can_number_then h); [exact Hh|]. unfold h_ht_find_mut.
    apply (can_lift_ok _ (lo, hi)); [unfold get_unchecked; rewrite E; reflexivity|]. cbv beta iota.
    apply (can_lift_ok _ (firstn (N.to_nat hi - N.to_nat lo) (skipn (N.to_nat lo) (ht_entries (hm_table m))))).
    { unfold slice_unchecked. replace (Nat.leb _ _ && Nat.leb _ _)%bool with true; [reflexivity|]. symmetry. rewrite andb_true_iff, !Nat.leb_le. lia. }
    destruct o as [p|]; [|apply can_slot_none]. specialize (R p eq_refl).
    replace p with (N.to_nat lo + (p - N.to_nat lo))%nat by lia. apply can_slot_some. rewrite firstn_length, skipn_length. lia.
  - assert (exists h j, h < two64 /\ nth_error (nc_slots (ncm_table m)) (N.to_nat (N.land h (nc_mask (ncm_table m)))) = Some j /\
      j <= N.of_nat (length (nc_entries (ncm_table m))) /\ (forall p, o = Some p -> j = N.of_nat (S p))) as [h [j [Hh [E [B R]]]]].
    { destruct o as [p|]; cbn [possible] in HP.
      - destruct HP as [h [Hh E]]. destruct (HS h Hh) as [j [E' B']]. exists h, j. split; [exact Hh|]. split; [exact E'|]. split; [exact B'|].
        intros p' Ep. injection Ep as <-. congruence.
      - destruct (HS 0 eq_refl) as [j [E B]]. exists 0, j. split; [reflexivity|]. split; [exact E|]. split; [exact B|]. discriminate. }
    apply (can_number_then h); [exact Hh|]. unfold h_nc_find_mut.
    apply (can_lift_ok _ j); [unfold get_unchecked; rewrite E; reflexivity|]. destruct (N.ltb_spec 0 j) as [H1|H1].
    + destruct (nth_error (nc_entries (ncm_table m)) (N.to_nat (j - 1))) as [e|] eqn:En; [|apply nth_error_None in En; lia].
      apply (can_lift_ok _ e); [unfold get_unchecked; rewrite En; reflexivity|]. destruct o as [p|].
      * apply (can_bool_then true). replace (N.to_nat (j - 1)) with p by (specialize (R p eq_refl); lia). apply can_ret.
      * apply (can_bool_then false). apply can_ret.
    + destruct o as [p|]; [specialize (R p eq_refl); lia|]. apply can_ret.
Qed.

Lemma disjoint_unchecked_possible {K V} (m : any_map K V) n : sound m ->
  runs false (h_disjoint_unchecked m n) (fun ps => length ps = n /\ Forall (possible m) ps).
Proof.
  intros HS. induction n as [|n IH]; cbn [h_disjoint_unchecked]; [apply runs_ret; auto|].
  eapply runs_then; [apply get_mut_possible, HS|]. intros o Ho. eapply runs_then; [exact IH|]. intros r [L F]. apply runs_ret.
  split; [cbn; lia|]. constructor; auto.
Qed.

(** What [get_disjoint_mut] can return. *)
Lemma disjoint_results {K V} (m : any_map K V) n ps : sound m ->
  ((exists adv, (forall j, a_panics (adv j) = false) /\ fmap fst (h_disjoint m n adv 0%nat) = Ok ps) <->
   length ps = n /\ Forall (possible m) ps).
Proof.
  intros HS. split.
  - intros [adv [Q E]]. unfold h_disjoint, andthen in E.
    destruct (h_has_duplicates 0 n adv 0%nat) as [[[|] i]| |]; cbn [lift] in E; try discriminate.
    pose proof (disjoint_unchecked_possible m n HS adv i ltac:(discriminate)) as U.
    destruct (h_disjoint_unchecked m n adv i) as [[ps' i']| |]; try discriminate. cbn in E. injection E as <-. exact U.
  - intros [<- F]. apply can_adv. unfold h_disjoint. apply (can_ok_then _ false); [apply can_has_duplicates|].
    apply can_unchecked. eapply Forall_impl; [|exact F]. intros o Ho. apply possible_can; auto.
Qed.

Lemma repeat_aliasing p n : (2 <= n)%nat -> aliasing (repeat (Some p) n).
Proof. intros H. destruct n as [|[|n]]; try lia. exists 0%nat, 1%nat, p. cbn. repeat split; auto. Qed.

(** ** BTreeMap *)
Section BT.
Context {K V Q : Type}.
Variable cmp : K -> K -> comparison.
Variable cmpQ : Q -> K -> comparison.

Lemma bt_find_pos : forall (es : list (K * V)) q pos p, bt_find cmpQ pos es q = Some p ->
  exists i e, p = (pos + i)%nat /\ nth_error es i = Some e /\ cmpQ q (fst e) = Eq.
Proof.
  induction es as [|e r IH]; intros q pos p; cbn [bt_find]; [discriminate|]. destruct (cmpQ q (fst e)) eqn:C; try discriminate.
  - intros E. injection E as <-. exists 0%nat, e. repeat split; auto; lia.
  - intros E. destruct (IH _ _ _ E) as [i [e' [A [B D]]]]. exists (S i), e'. repeat split; auto. lia.
Qed.

Fixpoint ascending (es : list (K * V)) : Prop :=
  match es with
  | [] => True
  | e :: r => (forall e', In e' r -> cmp (fst e) (fst e') = Lt) /\ ascending r
  end.

Hypothesis HO : lawful_ord cmp.

Lemma lt_from_eq a b c : cmp a b = Eq -> cmp b c = Lt -> cmp a c = Lt.
Proof. intros A B. rewrite (cmp_eq_law cmp HO a b c A). exact B. Qed.

Lemma bt_insert_keys k v : forall (es : list (K * V)) e, In e (bt_insert cmp k v es) -> (fst e = k \/ In (fst e) (map fst es)).
Proof.
  induction es as [|e0 r IH]; intros e; cbn [bt_insert].
  - intros [<-|[]]. auto.
  - destruct (cmp k (fst e0)); cbn [In map fst].
    + intros [<-|H]; cbn; auto. right. right. apply in_map. exact H.
    + intros [<-|[<-|H]]; auto. right. right. apply in_map. exact H.
    + intros [<-|H]; auto. destruct (IH e H); auto.
Qed.

Lemma bt_insert_ascending k v : forall es : list (K * V), ascending es -> ascending (bt_insert cmp k v es).
Proof.
  induction es as [|e r IH]; cbn [bt_insert ascending]; [intros _; split; auto; intros e' []|]. intros [H1 H2].
  destruct (cmp k (fst e)) eqn:C; cbn [ascending fst].
  - split; auto.
  - split; [|split; auto]. intros e' [<-|H]; auto. eapply (cmp_lt_law cmp HO); eauto.
  - split; auto. intros e' H. destruct (bt_insert_keys k v r e' H) as [->|H'].
    + rewrite (cmp_opp_law cmp HO), C. reflexivity.
    + apply in_map_iff in H'. destruct H' as [e2 [<- H']]. auto.
Qed.

Lemma bt_from_iter_ascending (input : list (K * V)) : ascending (bt_from_iter cmp input).
Proof.
  unfold bt_from_iter. assert (G : forall l es, ascending es -> ascending (fold_left (fun es e => bt_insert cmp (fst e) (snd e) es) l es)).
  { induction l as [|e l IH]; intros es A; cbn [fold_left]; auto. apply IH, bt_insert_ascending, A. }
  apply G. exact I.
Qed.

Hypothesis HQ : lawful_comparable cmp cmpQ.

Lemma bt_find_at q : forall (es : list (K * V)) pos i e, ascending es -> nth_error es i = Some e -> cmpQ q (fst e) = Eq ->
  bt_find cmpQ pos es q = Some (pos + i)%nat.
Proof.
  induction es as [|e0 r IH]; intros pos i e A E C; [destruct i; discriminate|]. destruct A as [A1 A2].
  destruct i as [|i]; cbn [nth_error bt_find] in *.
  - injection E as ->. rewrite C, Nat.add_0_r. reflexivity.
  - rewrite (cmpq_eq_law _ _ HQ q (fst e) (fst e0) C), (cmp_opp_law _ HO), (A1 e); [|eapply nth_error_In; eauto]. cbn [CompOpp].
    rewrite (IH (S pos) i e A2 E C). f_equal. lia.
Qed.

Lemma bt_find_exact (es : list (K * V)) q p : ascending es ->
  (bt_find cmpQ 0 es q = Some p <-> exists e, nth_error es p = Some e /\ cmpQ q (fst e) = Eq).
Proof.
  intros A. split.
  - intros E. destruct (bt_find_pos es q 0%nat p E) as [i [e [-> H]]]. exists e. exact H.
  - intros [e [E C]]. exact (bt_find_at q es 0%nat p e A E C).
Qed.

Lemma bt_disjoint_spec (input : list (K * V)) eqQ keys :
  let es := bt_from_iter cmp input in
  (repeats eqQ keys -> bt_disjoint cmpQ eqQ es keys = Panic) /\
  (~ repeats eqQ keys ->
   exists ps, bt_disjoint cmpQ eqQ es keys = Ok ps /\
     Forall2 (fun q o => forall p, o = Some p <-> exists e, nth_error es p = Some e /\ cmpQ q (fst e) = Eq) keys ps /\
     (aliasing ps <-> exists i j x y e, (i < j)%nat /\ nth_error keys i = Some x /\ nth_error keys j = Some y /\ In e es /\
        cmpQ x (fst e) = Eq /\ cmpQ y (fst e) = Eq)).
Proof.
  cbv zeta. pose proof (bt_from_iter_ascending input) as A. set (es := bt_from_iter cmp input) in *. clearbody es.
  unfold bt_disjoint. split.
  - intros R. replace (has_duplicates eqQ keys) with true; [reflexivity|]. symmetry. apply has_duplicates_spec. exact R.
  - intros R. destruct (has_duplicates eqQ keys) eqn:D; [exfalso; apply R, has_duplicates_spec, D|].
    exists (bt_disjoint_unchecked cmpQ es keys). split; [reflexivity|]. unfold bt_disjoint_unchecked. split.
    + clear D R. induction keys as [|q r IH]; constructor; auto. intros p. apply bt_find_exact, A.
    + assert (G : forall i p, nth_error (map (bt_find cmpQ 0 es) keys) i = Some (Some p) <->
        exists x e, nth_error keys i = Some x /\ nth_error es p = Some e /\ cmpQ x (fst e) = Eq).
      { intros i p. rewrite nth_error_map. destruct (nth_error keys i) as [x|]; cbn [option_map].
        - split.
          + intros E. injection E as E. apply (bt_find_exact es x p A) in E. destruct E as [e E]. exists x, e. split; auto.
          + intros [x' [e [E1 E2]]]. injection E1 as <-. f_equal. apply (bt_find_exact es x p A). exists e. exact E2.
        - split; [discriminate|]. intros [x' [e [E1 _]]]. discriminate. }
      split.
      * intros [i [j [p [L [H1 H2]]]]]. apply G in H1, H2. destruct H1 as [x [e [H1 [H3 H4]]]], H2 as [y [e' [H2 [H5 H6]]]].
        assert (e' = e) as -> by congruence. exists i, j, x, y, e. repeat split; auto. eapply nth_error_In; eauto.
      * intros [i [j [x [y [e [L [H1 [H2 [H3 [H4 H5]]]]]]]]]]. apply In_nth_error in H3. destruct H3 as [p H3]. exists i, j, p.
        split; auto. split; apply G; eexists _, e; split; eauto.
Qed.
End BT.
