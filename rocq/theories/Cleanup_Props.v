(** C19: cleanup of the persistent cache. *)
From Coq Require Import List NArith Bool Arith Lia Permutation Sorted.
From Verif Require Import Lib Cleanup_Model.
Import ListNotations.

(** *** Specification *)
(** [a] goes before [b]: modified earlier, or at the same time with the smaller path. *)
Definition before (a b : entry) : Prop :=
  modified a < modified b \/ modified a = modified b /\ path a <= path b.
Definition within (me : nat) (mb : N) (l : list entry) : Prop :=
  length l <= me /\ (total l <= mb)%N.

(** *** Proofs *)
Lemma older_spec a b : older a b = true <-> before a b.
Proof.
  unfold older, before. rewrite orb_true_iff, andb_true_iff, Nat.ltb_lt, Nat.eqb_eq, Nat.leb_le. tauto.
Qed.
Lemma before_trans a b c : before a b -> before b c -> before a c.
Proof. unfold before. lia. Qed.
Lemma older_total a b : older a b = false -> before b a.
Proof.
  intros H. unfold before. unfold older in H. apply orb_false_iff in H. destruct H as [H1 H2].
  apply Nat.ltb_ge in H1. apply andb_false_iff in H2. rewrite Nat.eqb_neq, Nat.leb_gt in H2. lia.
Qed.
Lemma insert_perm x l : Permutation (x :: l) (insert x l).
Proof.
  induction l as [|y l IH]; simpl; auto. destruct (older x y); auto.
  rewrite perm_swap. apply perm_skip. auto.
Qed.
Lemma sort_perm l : Permutation l (sort l).
Proof. induction l; simpl; auto. rewrite <- insert_perm. apply perm_skip. auto. Qed.
Lemma insert_sorted x l : StronglySorted before l -> StronglySorted before (insert x l).
Proof.
  induction 1 as [|y l S IH F]; simpl.
  - repeat constructor.
  - destruct (older x y) eqn:O.
    + apply older_spec in O. constructor; [constructor; auto|]. constructor; auto.
      rewrite Forall_forall in *. intros z Z. apply before_trans with y; auto.
    + constructor; auto. rewrite Forall_forall in *. intros z Z.
      apply (Permutation_in _ (Permutation_sym (insert_perm x l))) in Z. destruct Z as [<-|Z]; auto. apply older_total. auto.
Qed.
Lemma sort_sorted l : StronglySorted before (sort l).
Proof. induction l; simpl; [constructor|]. apply insert_sorted. auto. Qed.
Lemma total_app a b : total (a ++ b) = (total a + total b)%N.
Proof. induction a; simpl; auto. rewrite IHa. lia. Qed.
Lemma total_perm a b : Permutation a b -> total a = total b.
Proof. induction 1; simpl; lia. Qed.
Lemma sorted_app a b : StronglySorted before (a ++ b) -> forall x y, In x a -> In y b -> before x y.
Proof.
  induction a as [|z a IH]; simpl; intros S x y X Y; [tauto|].
  inversion S as [|z' l S1 F E]; subst. destruct X as [<-|X].
  - rewrite Forall_forall in F. apply F. apply in_or_app. auto.
  - apply IH; auto.
Qed.

Lemma fits_spec me mb c b : fits me mb c b = true <-> c <= me /\ (b <= mb)%N.
Proof. unfold fits. rewrite andb_true_iff, Nat.leb_le, N.leb_le. tauto. Qed.

(** the loop when every removal succeeds *)
Lemma evict_ok me mb out l : (forall x, In x l -> out (path x) = Removed) ->
  forall d c b ok, evict me mb out l (length l) (total l) = (d, c, b, ok) ->
  ok = true /\ exists rest, l = d ++ rest /\ c = length rest /\ b = total rest /\
  (rest = [] \/ within me mb rest) /\
  (forall d1 x d2, d = d1 ++ x :: d2 -> ~ within me mb (x :: d2 ++ rest)).
Proof.
  induction l as [|x l IH]; intros OK d c b ok E.
  - simpl in E. destruct (fits me mb 0 0); injection E as <- <- <- <-; (split; [auto|]; exists []; repeat split; auto;
      intros d1 y d2 Q; destruct d1; discriminate).
  - cbn [evict] in E. destruct (fits me mb (length (x :: l)) (total (x :: l))) eqn:F.
    + injection E as <- <- <- <-. split; auto. exists (x :: l). apply fits_spec in F.
      repeat split; auto; try (right; exact F). intros d1 y d2 Q; destruct d1; discriminate.
    + rewrite (OK x) in E by (left; auto).
      destruct (evict me mb out l (length (x :: l) - 1) (total (x :: l) - size x)%N) as [[[d' c'] b'] ok'] eqn:E2.
      replace (length (x :: l) - 1) with (length l) in E2 by (simpl; lia).
      replace (total (x :: l) - size x)%N with (total l) in E2 by (simpl; lia).
      injection E as <- <- <- <-. destruct (IH (fun y H => OK y (or_intror H)) _ _ _ _ E2) as (-> & rest & -> & -> & -> & W & M).
      split; auto. exists rest. repeat split; auto.
      intros d1 y d2 Q. destruct d1 as [|z d1]; injection Q as <- Q.
      * intros [W1 W2]. assert (X : fits me mb (length (x :: d' ++ rest)) (total (x :: d' ++ rest)) = true)
          by (subst d2; apply fits_spec; auto). congruence.
      * apply (M d1 y d2). auto.
Qed.

(** When every removal succeeds: the deleted files [d] and the remaining ones [rest] make up the
    directory; what remains is within the limits; every deleted file goes before every kept one;
    keeping any of the deleted files that were deleted last would have exceeded a limit; and the
    accounting afterwards is exact. *)
Theorem C19_cleanup_is_exact : forall me mb out disk d c b ok,
  (forall x, In x disk -> out (path x) = Removed) ->
  cleanup me mb out disk = (d, c, b, ok) ->
  ok = true /\ exists rest,
    Permutation disk (d ++ rest) /\ within me mb rest /\
    c = length rest /\ b = total rest /\
    (forall x y, In x d -> In y rest -> before x y) /\
    (forall d1 x d2, d = d1 ++ x :: d2 -> ~ within me mb (x :: d2 ++ rest)).
Proof.
  intros me mb out disk d c b ok OK E. unfold cleanup in E. pose proof (sort_perm disk) as P.
  rewrite (Permutation_length P), (total_perm _ _ P) in E.
  assert (OK' : forall x, In x (sort disk) -> out (path x) = Removed).
  { intros x X. apply OK. apply (Permutation_in _ (Permutation_sym P)). auto. }
  destruct (evict_ok me mb out (sort disk) OK' d c b ok E) as (-> & rest & S & -> & -> & W & M). split; auto.
  exists rest. repeat match goal with |- _ /\ _ => split end; auto.
  - rewrite <- S. auto.
  - destruct W as [->|W]; auto. split; simpl; lia.
  - apply sorted_app. rewrite <- S. apply sort_sorted.
Qed.

(** Nothing is deleted when the directory is within its limits. *)
Theorem C19_nothing_removed_within_limits : forall me mb out disk,
  within me mb disk -> cleanup me mb out disk = ([], length disk, total disk, true).
Proof.
  intros me mb out disk [W1 W2]. unfold cleanup. assert (F : fits me mb (length disk) (total disk) = true) by (apply fits_spec; auto).
  destruct (sort disk); simpl; rewrite F; reflexivity.
Qed.

(** A file that vanishes between the scan and its removal is still counted, so one file too many is
    deleted: the minimality claim is false there. *)
Theorem C19_minimal_with_vanished_files_refuted :
  exists me mb out disk d c b,
    cleanup me mb out disk = (d, c, b, true) /\
    (forall x, In x disk -> out (path x) = Removed \/ out (path x) = NotFound) /\
    within me mb (filter (fun e => match out (path e) with NotFound => false | _ => true end) disk) /\
    d <> [].
Proof.
  exists 1, 100%N, (fun p => if p =? 0 then NotFound else Removed), [mkE 0 5 1; mkE 1 5 2], [mkE 1 5 2], 1, 5%N.
  split; [reflexivity|]. split; [|split; [split; simpl; lia|discriminate]].
  intros x [<-|[<-|[]]]; auto.
Qed.
(** The limits hold nevertheless. *)
Lemma evict_nf me mb out l : (forall x, In x l -> out (path x) <> Failed) ->
  forall n t d c b ok, length l <= n -> (total l <= t)%N ->
  evict me mb out l n t = (d, c, b, ok) ->
  ok = true /\ exists used rest, l = used ++ rest /\ (rest = [] \/ within me mb rest) /\
   (forall x, In x d <-> In x used /\ out (path x) = Removed).
Proof.
  induction l as [|x l IH]; intros OK n t d c b ok Ln Lt E.
  - simpl in E. destruct (fits me mb n t); injection E as <- <- <- <-; (split; [auto|]; exists [], []; repeat split; auto; simpl in *; tauto).
  - cbn [evict] in E. destruct (fits me mb n t) eqn:F.
    + injection E as <- <- <- <-. split; auto. exists [], (x :: l). apply fits_spec in F. repeat split; auto; simpl in *; try tauto.
      right. split; simpl; lia.
    + cbn [length total] in Ln, Lt. destruct (out (path x)) eqn:O.
      * destruct (evict me mb out l (n - 1) (t - size x)%N) as [[[d' c'] b'] ok'] eqn:E2.
        injection E as <- <- <- <-.
        destruct (IH (fun y H => OK y (or_intror H)) (n - 1) (t - size x)%N _ _ _ _ ltac:(lia) ltac:(lia) E2) as (-> & u & r & -> & W & M).
        split; auto. exists (x :: u), r. repeat split; auto.
        -- destruct H as [<-|H]; simpl; auto. right. apply M. auto.
        -- destruct H as [<-|H]; auto. apply M. auto.
        -- intros [[<-|H1] H2]; [left; auto|]. right. apply M. auto.
      * destruct (IH (fun y H => OK y (or_intror H)) n t _ _ _ _ ltac:(lia) ltac:(lia) E) as (-> & u & r & -> & W & M).
        split; auto. exists (x :: u), r. repeat split; auto.
        -- right. apply M. auto.
        -- apply M. auto.
        -- intros [[<-|H1] H2]; [congruence|]. apply M. auto.
      * destruct (OK x (or_introl eq_refl) O).
Qed.
Theorem C19_limits_hold_with_vanished_files : forall me mb out disk d c b ok,
  (forall x, In x disk -> out (path x) <> Failed) ->
  cleanup me mb out disk = (d, c, b, ok) ->
  ok = true /\ exists used rest, Permutation disk (used ++ rest) /\ within me mb rest /\
    (forall x, In x d <-> In x used /\ out (path x) = Removed) /\
    (forall x y, In x used -> In y rest -> before x y).
Proof.
  intros me mb out disk d c b ok OK E. unfold cleanup in E. pose proof (sort_perm disk) as P.
  rewrite (Permutation_length P), (total_perm _ _ P) in E.
  assert (OK' : forall x, In x (sort disk) -> out (path x) <> Failed).
  { intros x X. apply OK. apply (Permutation_in _ (Permutation_sym P)). auto. }
  destruct (evict_nf me mb out (sort disk) OK' _ _ d c b ok (le_n _) (N.le_refl _) E) as (-> & u & r & S & W & M). split; auto.
  exists u, r. repeat match goal with |- _ /\ _ => split end; auto.
  - rewrite <- S. auto.
  - destruct W as [->|W]; auto. split; simpl; lia.
  - apply sorted_app. rewrite <- S. apply sort_sorted.
Qed.

(** *** The limits between cleanups *)
Definition paths_distinct (l : list entry) : Prop := NoDup (map path l).

Lemma present_in p l : present p l = true <-> In p (map path l).
Proof.
  unfold present. rewrite existsb_exists, in_map_iff. split; intros (e & A & B).
  - apply Nat.eqb_eq in B. eauto.
  - exists e. rewrite Nat.eqb_eq. auto.
Qed.
Lemma filter_le f l : length (filter f l) <= length l /\ (total (filter f l) <= total l)%N.
Proof. induction l; simpl; [lia|]. destruct (f a); simpl; lia. Qed.
Lemma nodup_filter_paths f l : paths_distinct l -> paths_distinct (filter f l).
Proof.
  unfold paths_distinct. induction l as [|x l IH]; simpl; intros N; [constructor|].
  inversion N as [|y ys N1 N2]; subst. destruct (f x); simpl; auto. constructor; auto.
  intros H. apply N1. apply in_map_iff in H. destruct H as (z & Z & H). apply filter_In in H. apply in_map_iff. exists z. tauto.
Qed.
Lemma minus_rest disk d rest : paths_distinct disk -> Permutation disk (d ++ rest) -> Permutation (minus disk d) rest.
Proof.
  intros N P. unfold minus.
  assert (ND : NoDup (map path (d ++ rest))) by (apply (Permutation_NoDup (Permutation_map path P)); auto).
  rewrite (filter_perm _ _ _ P). rewrite filter_app.
  replace (filter (fun e => negb (present (path e) d)) d) with (@nil entry).
  - replace (filter (fun e => negb (present (path e) d)) rest) with rest; auto. symmetry.
    assert (forall e, In e rest -> present (path e) d = false).
    { intros e E. destruct (present (path e) d) eqn:Q; auto. exfalso. apply present_in in Q.
      rewrite map_app in ND. assert (In (path e) (map path rest)) by (apply in_map; auto).
      revert Q H ND. generalize (map path rest). generalize (path e). clear.
      induction (map path d) as [|y l IH]; simpl; intros n m Q H ND; [tauto|]. inversion ND as [|z zs N1 N2]; subst.
      destruct Q as [->|Q]; [apply N1; apply in_or_app; auto|]. apply (IH n m); auto. }
    revert H. clear. induction rest as [|x r IH]; simpl; intros H; auto. rewrite (H x) by auto. simpl. f_equal. apply IH. auto.
  - assert (forall l, (forall e, In e l -> In (path e) (map path d)) -> [] = filter (fun e => negb (present (path e) d)) l).
    { induction l as [|x l IH]; simpl; intros H; auto. rewrite (proj2 (present_in (path x) d)) by auto. simpl. auto. }
    apply H. intros. apply in_map. auto.
Qed.

Definition counted (s : st) (q : nat) : Prop :=
  initialized (accts s q) = true -> length (disk s) <= entries (accts s q) /\ (total (disk s) <= abytes (accts s q))%N.
Definition only (q : nat) (o : aop) : Prop :=
  match o with Work p _ | Corrupt p _ | Invalidate p _ | Clear p | Restart p => p = q end.

Lemma fset_same f k v : fset f k v k = v. Proof. unfold fset. rewrite Nat.eqb_refl. auto. Qed.

Lemma record_ok me mb s q bytes : paths_distinct (disk s) -> initialized (accts s q) = true ->
  length (disk s) <= S (entries (accts s q)) -> (total (disk s) <= abytes (accts s q) + bytes)%N ->
  let s' := record me mb s q bytes in
  paths_distinct (disk s') /\ initialized (accts s' q) = true /\ counted s' q /\ within me mb (disk s').
Proof.
  intros N I L1 L2. unfold record. cbv zeta.
  cbn [entries abytes since_scan initialized].
  destruct ((me <? S (entries (accts s q))) || (mb <? abytes (accts s q) + bytes)%N || (64 <=? S (since_scan (accts s q)))) eqn:G.
  - destruct (cleanup me mb (fun _ => Removed) (disk s)) as [[[d c] b] ok] eqn:E.
    destruct (C19_cleanup_is_exact me mb (fun _ => Removed) (disk s) d c b ok (fun _ _ => eq_refl) E)
      as (-> & rest & P & W & -> & -> & _ & _).
    pose proof (minus_rest _ _ _ N P) as M. pose proof (Permutation_length M) as ML. pose proof (total_perm _ _ M) as MT.
    unfold counted. cbn [disk accts]. rewrite !fset_same. cbn [entries abytes initialized]. unfold within.
    rewrite ML, MT. repeat split; auto; try apply W; try lia. apply nodup_filter_paths. auto.
  - apply orb_false_iff in G. destruct G as [G _]. apply orb_false_iff in G. destruct G as [G1 G2].
    apply Nat.ltb_ge in G1. apply N.ltb_ge in G2.
    unfold counted. cbn [disk accts]. rewrite !fset_same. cbn [entries abytes initialized]. unfold within.
    repeat split; auto; lia.
Qed.

Lemma ensure_ok s q : counted s q -> paths_distinct (disk s) ->
  initialized (accts (ensure s q) q) = true /\ counted (ensure s q) q /\ disk (ensure s q) = disk s.
Proof.
  intros C N. unfold ensure. destruct (initialized (accts s q)) eqn:I; auto.
  unfold counted. cbn [disk accts]. rewrite fset_same. simpl. repeat split; lia.
Qed.

Lemma without_not p l : ~ In p (map path (without p l)).
Proof.
  intros H. apply in_map_iff in H. destruct H as (e & E & H). apply filter_In in H. destruct H as [_ H].
  rewrite E, Nat.eqb_refl in H. discriminate.
Qed.

Lemma publish_ok me mb s q e : paths_distinct (disk s) -> initialized (accts s q) = true -> counted s q ->
  let s' := publish me mb s q e in
  paths_distinct (disk s') /\ initialized (accts s' q) = true /\ counted s' q /\ within me mb (disk s').
Proof.
  intros N I C. unfold publish. destruct (C I) as [C1 C2]. unfold without.
  pose proof (filter_le (fun e0 => negb (path e0 =? path e)) (disk s)) as [F1 F2].
  apply (record_ok me mb _ q); auto; cbn [disk accts length total]; try lia.
  constructor; [apply without_not|]. apply nodup_filter_paths. auto.
Qed.

Lemma step_ok me mb q s o : only q o -> paths_distinct (disk s) -> counted s q ->
  paths_distinct (disk (step me mb s o)) /\ counted (step me mb s o) q.
Proof.
  intros O N C. destruct o as [p e|p e|p x|p|p]; simpl in O; subst p; cbn [step].
  - destruct (ensure_ok s q C N) as (I & C' & D). destruct (present _ _); [rewrite D; auto|].
    destruct (publish_ok me mb (ensure s q) q e) as (A & B & A' & _); auto. rewrite D. auto.
  - destruct (ensure_ok s q C N) as (I & C' & D). destruct (present _ _); [|rewrite D; auto].
    destruct (publish_ok me mb (mkSt (without (path e) (disk (ensure s q))) (accts (ensure s q))) q e) as (A & B & A' & _); auto.
    + cbn [disk]. apply nodup_filter_paths. rewrite D. auto.
    + intros _. cbn [disk accts]. destruct (C' I) as [X Y]. unfold without.
      pose proof (filter_le (fun e0 => negb (path e0 =? path e)) (disk (ensure s q))) as [F1 F2]. lia.
  - destruct (present x (disk s)); auto. split; [apply nodup_filter_paths; auto|].
    intros H. cbn [accts] in H. rewrite fset_same in H. discriminate.
  - split; [constructor|]. intros _. simpl. lia.
  - split; auto. intros H. cbn [accts] in H. rewrite fset_same in H. discriminate.
Qed.

(** Did this operation publish? *)
Definition publishes (s : st) (o : aop) : Prop :=
  match o with
  | Work _ e => ~ In (path e) (map path (disk s))
  | Corrupt _ e => In (path e) (map path (disk s))
  | _ => False
  end.

(** With one process at a time using the directory, the limits hold after every publication,
    whatever was in the directory at the start and however often the process was restarted. *)
Theorem C19_limits_after_every_publication : forall me mb q disk0 h o,
  paths_distinct disk0 -> Forall (only q) (h ++ [o]) ->
  let s := run me mb (mkSt disk0 (fun _ => no_acct)) h in
  publishes s o -> within me mb (disk (step me mb s o)).
Proof.
  intros me mb q disk0 h o N F s P. apply Forall_app in F. destruct F as [F1 F2]. inversion F2 as [|x xs O _ ]; subst.
  assert (S : paths_distinct (disk s) /\ counted s q).
  { unfold s. clear P s F2 O. induction h as [|p h IH] using rev_ind.
    - split; auto. discriminate.
    - apply Forall_app in F1. destruct F1 as [F1 F3]. inversion F3 as [|x xs O3 _ ]; subst.
      unfold run. rewrite fold_left_app. simpl. apply step_ok; auto; apply IH; auto. }
  destruct S as [S1 S2]. destruct o as [p e|p e|p x|p|p]; simpl in O, P; try tauto; subst p; cbn [step];
   destruct (ensure_ok s q S2 S1) as (I & C' & D).
  - destruct (present (path e) (disk (ensure s q))) eqn:Q; [rewrite D in Q; apply present_in in Q; tauto|].
    apply publish_ok; auto. rewrite D. auto.
  - destruct (present (path e) (disk (ensure s q))) eqn:Q.
    + apply publish_ok; auto.
      * cbn [disk]. apply nodup_filter_paths. rewrite D. auto.
      * intros _. cbn [disk accts]. destruct (C' I) as [X Y]. unfold without.
        pose proof (filter_le (fun e0 => negb (path e0 =? path e)) (disk (ensure s q))) as [F1' F2']. lia.
    + exfalso. apply present_in in P. rewrite D in Q. congruence.
Qed.

(** With two processes it does not: each counts only its own publications between scans. *)
Theorem C19_limits_across_processes_refuted :
  exists me mb h s, run me mb (mkSt [] (fun _ => no_acct)) h = s /\
    (exists e, last h (Clear 0) = Work 2 e) /\ ~ within me mb (disk s).
Proof.
  exists 2, 100%N, [Work 1 (mkE 0 5 1); Work 2 (mkE 0 5 1); Work 1 (mkE 1 5 2); Work 2 (mkE 2 5 3)].
  eexists. split; [reflexivity|]. split; [eexists; reflexivity|]. intros [W _]. vm_compute in W. lia.
Qed.

(** *** Hypotheses are met *)
Example ex_cleanup : cleanup 2 20%N (fun _ => Removed) [mkE 3 9 5; mkE 1 9 1; mkE 2 9 1] = ([mkE 1 9 1], 2, 18%N, true).
Proof. reflexivity. Qed.
Example ex_sequence :
  let s := run 2 20%N (mkSt [mkE 9 30 0] (fun _ => no_acct)) [Work 1 (mkE 0 5 1); Restart 1; Work 1 (mkE 1 5 2)] in
  publishes s (Work 1 (mkE 2 5 3)) /\ disk (step 2 20%N s (Work 1 (mkE 2 5 3))) = [mkE 2 5 3; mkE 1 5 2].
Proof. split; [|reflexivity]. vm_compute. lia. Qed.

Print Assumptions C19_cleanup_is_exact.
Print Assumptions C19_nothing_removed_within_limits.
Print Assumptions C19_minimal_with_vanished_files_refuted.
Print Assumptions C19_limits_hold_with_vanished_files.
Print Assumptions C19_limits_after_every_publication.
Print Assumptions C19_limits_across_processes_refuted.
