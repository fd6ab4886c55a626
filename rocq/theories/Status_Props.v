(** Properties C22, C23, C52: the indexing status (/repo/src/indexing_status.rs). *)
From Coq Require Import String List Arith Lia Bool Sorted.
From Verif Require Import Status_Model.
Import ListNotations.
Local Open Scope string_scope.
Local Open Scope list_scope.
Local Open Scope nat_scope.

(** ** Vocabulary *)
Definition begins (h : list (nat * op)) : nat :=
  length (filter (fun x => match snd x with OBegin => true | _ => false end) h).

(** Generation carried by an update call. *)
Definition update_of (o : op) : option nat :=
  match o with OTransition g _ _ _ | OFail g _ | OCancel g => Some g | _ => None end.

(** The snapshot published by a call, if any. *)
Definition published (o : out) : option snapshot :=
  match o with Published n => n | _ => None end.

Fixpoint somes {A} (l : list (option A)) : list A :=
  match l with [] => [] | Some x :: r => x :: somes r | None :: r => somes r end.

Lemma run_app h1 : forall s h2, run s (h1 ++ h2) = run (run s h1) h2.
Proof. induction h1 as [|[n o] h1 IH]; simpl; auto. Qed.

(** Facts about one step. *)
Lemma step_gen now s o : generation (fst (step now s o)) =
  match o with OBegin => S (generation s) | _ => generation s end.
Proof.
  destruct o; simpl; auto.
  - destruct (negb (args_ok _ _ _)); auto. destruct (stale s g); auto.
    destruct (negb (forward_ok _ _ _ _)); auto.
  - destruct (blank msg); auto. destruct (stale s g); auto.
  - destruct (stale s g); auto.
Qed.

Lemma run_gen h : forall s, generation (run s h) = begins h + generation s.
Proof.
  induction h as [|[n o] h IH]; intros s; [reflexivity|]. cbn [run]. rewrite IH, step_gen.
  unfold begins. destruct o; simpl; lia.
Qed.

(** Either nothing changes, or a new run starts, or an update of the current run is published. *)
Lemma step_inv now s o :
  (fst (step now s o) = s /\ published (snd (step now s o)) = None) \/
  (o = OBegin) \/
  (exists s', step now s o = (s', Published (Some (snap s' now))) /\
     generation s' = generation s /\ sequence s' = S (sequence s) /\
     is_terminal (ph s) = false /\ rank (ph s) <= rank (ph s') /\
     update_of o = Some (generation s) /\ started_at s' = started_at s /\
     token s' = token s /\ incl (cancelled s) (cancelled s') /\ next_token s' = next_token s /\
     (ph s' = ph s -> (forall a b, completed s = Some a -> completed s' = Some b -> a <= b) /\
                      (forall a b, total s = Some a -> total s' = Some b -> a = b))).
Proof.
  assert (NT : forall g, stale s g = false -> g = generation s /\ is_terminal (ph s) = false).
  { intros g H. unfold stale in H. apply orb_false_iff in H as [H1 H2].
    apply negb_false_iff, Nat.eqb_eq in H1. auto. }
  assert (R12 : is_terminal (ph s) = false -> rank (ph s) <= 12) by (destruct (ph s); simpl; lia).
  destruct o; simpl; auto.
  - destruct (args_ok p c t) eqn:Ea; simpl; auto. destruct (stale s g) eqn:Es; simpl; auto.
    destruct (NT g Es) as [-> T].
    destruct (forward_ok s p c t) eqn:Ef; simpl; auto. right. right. eexists.
    split; [reflexivity|]. simpl. unfold forward_ok in Ef. apply andb_true_iff in Ef as [Er Ef].
    apply Nat.leb_le in Er. repeat split; auto using incl_refl.
    + intros a b Ha Hb. subst p. rewrite Ha, Hb in Ef. unfold phase_eqb in Ef.
      destruct (phase_eq_dec (ph s) (ph s)); [|contradiction].
      apply andb_true_iff in Ef as [Ef _]. now apply Nat.leb_le.
    + intros a b Ha Hb. subst p. rewrite Ha, Hb in Ef. unfold phase_eqb in Ef.
      destruct (phase_eq_dec (ph s) (ph s)); [|contradiction].
      apply andb_true_iff in Ef as [_ Ef]. symmetry. now apply Nat.eqb_eq.
  - destruct (blank msg) eqn:Eb; simpl; auto. destruct (stale s g) eqn:Es; simpl; auto.
    destruct (NT g Es) as [-> T]. right. right. eexists. split; [reflexivity|]. simpl.
    repeat split; auto using incl_refl; intros; discriminate.
  - destruct (stale s g) eqn:Es; simpl; auto.
    destruct (NT g Es) as [-> T]. right. right. eexists. split; [reflexivity|]. simpl.
    repeat split; auto; try (intros; discriminate). intros x Hx. now right.
Qed.

(** C22. An update carrying a generation other than the latest run's, or arriving after the
    run ended, changes nothing and publishes nothing. *)
Theorem C22_stale_updates_ignored : forall h now o g,
  update_of o = Some g ->
  (g <> begins h \/ is_terminal (n_phase (snap (run init h) now)) = true) ->
  fst (step now (run init h) o) = run init h /\
  published (snd (step now (run init h) o)) = None.
Proof.
  intros h now o g U H. pose proof (run_gen h init) as G. simpl in G. rewrite Nat.add_0_r in G.
  set (s := run init h) in *.
  destruct (step_inv now s o) as [E|[->|(s' & E & _ & _ & T & _ & U' & _)]]; auto.
  - discriminate.
  - exfalso. rewrite U in U'. injection U' as ->. simpl in H. destruct H; congruence.
Qed.
Print Assumptions C22_stale_updates_ignored.

(** Tokens handed out by the runs of a history, oldest first. *)
Definition runs_of (h : list (nat * op)) : list (nat * nat) :=
  somes (map (fun o => match o with Run g t => Some (g, t) | _ => None end) (outputs init h)).

Lemma outputs_app h1 : forall s h2, outputs s (h1 ++ h2) = outputs s h1 ++ outputs (run s h1) h2.
Proof. induction h1 as [|[n o] h1 IH]; simpl; auto. intros. now rewrite IH. Qed.

Lemma somes_app {A} (a b : list (option A)) : somes (a ++ b) = somes a ++ somes b.
Proof. induction a as [|[x|] a IH]; simpl; auto. now rewrite IH. Qed.

Lemma runs_snoc h now o : runs_of (h ++ [(now, o)]) =
  runs_of h ++ match o with OBegin => [(S (begins h), next_token (run init h))] | _ => [] end.
Proof.
  unfold runs_of. rewrite outputs_app, map_app, somes_app. f_equal. cbn [outputs map].
  pose proof (run_gen h init) as G. simpl in G. rewrite Nat.add_0_r in G.
  set (s := run init h) in *. destruct o; simpl; auto.
  - now rewrite G.
  - destruct (negb (args_ok _ _ _)); auto. destruct (stale s g); auto.
    destruct (negb (forward_ok _ _ _ _)); auto.
  - destruct (blank msg); auto. destruct (stale s g); auto.
  - destruct (stale s g); auto.
Qed.

Lemma tokens_inv h :
  let s := run init h in
  token s < next_token s /\
  (forall x, In x (runs_of h) -> fst x <= generation s /\ snd x <= token s /\
     (fst x = generation s <-> snd x = token s) /\
     (snd x <> token s -> In (snd x) (cancelled s))) /\
  (forall x, In x (cancelled s) -> x <= token s).
Proof.
  induction h as [|[now o] h IH] using rev_ind; intros s.
  - simpl. repeat split; auto; try easy.
  - unfold s. rewrite run_app. cbn [run]. set (s0 := run init h) in *.
    destruct IH as (L & I & K). rewrite runs_snoc. fold s0.
    pose proof (run_gen h init) as G. simpl in G. rewrite Nat.add_0_r in G. fold s0 in G.
    destruct (step_inv now s0 o) as [[E _]|[->|(s' & E & Eg & Es & _ & _ & U & _ & Et & Ic & En & _)]].
    + rewrite E. split; [auto|]. split; [|auto].
      destruct o; rewrite ?app_nil_r; auto. simpl in E. exfalso.
      apply (f_equal generation) in E. simpl in E. lia.
    + simpl. split; [lia|]. split.
      * intros x Hx. apply in_app_iff in Hx as [Hx|[<-|[]]]; simpl.
        -- destruct (I x Hx) as (I1 & I2 & I3 & I4). repeat split; try lia.
           intros _. destruct (Nat.eq_dec (snd x) (token s0)); auto.
        -- rewrite G. repeat split; auto; lia.
      * intros x [<-|Hx]; [lia|]. apply K in Hx. lia.
    + rewrite E. cbn [fst]. rewrite Et, En, Eg. split; [auto|]. split.
      * intros x Hx. assert (Hx' : In x (runs_of h)) by (destruct o; [discriminate|rewrite app_nil_r in Hx; auto..]).
        destruct (I x Hx') as (I1 & I2 & I3 & I4). repeat split; auto; apply I3.
      * intros x Hx. destruct o; simpl in E; try discriminate.
        -- destruct (negb (args_ok _ _ _)); [discriminate|]. destruct (stale _ _); [discriminate|].
           destruct (negb (forward_ok _ _ _ _)); [discriminate|]. injection E as <- _. auto.
        -- destruct (blank _); [discriminate|]. destruct (stale _ _); [discriminate|].
           injection E as <- _. auto.
        -- destruct (stale _ _); [discriminate|]. injection E as <- _. simpl in Hx.
           destruct Hx as [<-|Hx]; auto.
Qed.

(** C22, tokens: a run that is not the latest has its token cancelled, and [is_current_run]
    answers true exactly for the latest run, while it has not ended and was not cancelled. *)
Theorem C22_new_run_cancels_old : forall h g tok,
  In (g, tok) (runs_of h) -> g <> begins h -> In tok (cancelled (run init h)).
Proof.
  intros h g tok H N. destruct (tokens_inv h) as (_ & I & _).
  destruct (I (g, tok) H) as (_ & _ & I3 & I4). simpl in *.
  pose proof (run_gen h init) as G. simpl in G. rewrite Nat.add_0_r in G.
  apply I4. intros E. apply N. rewrite <- G. now apply I3.
Qed.
Print Assumptions C22_new_run_cancels_old.

Theorem C22_only_latest_run_is_current : forall h now g tok,
  In (g, tok) (runs_of h) ->
  (snd (step now (run init h) (OIsCurrent g tok)) = Bool true <->
   g = begins h /\ is_terminal (ph (run init h)) = false /\ ~ In tok (cancelled (run init h))).
Proof.
  intros h now g tok H. simpl.
  pose proof (run_gen h init) as G. simpl in G. rewrite Nat.add_0_r in G.
  set (s := run init h) in *.
  assert (E : existsb (Nat.eqb tok) (cancelled s) = true <-> In tok (cancelled s)).
  { rewrite existsb_exists. split.
    - intros (x & Hx & Ex). apply Nat.eqb_eq in Ex. now subst.
    - intros Hx. exists tok. split; auto. apply Nat.eqb_refl. }
  split.
  - intros Hb. injection Hb as Hb. apply andb_true_iff in Hb as [Hb Hc].
    apply andb_true_iff in Hb as [Ha Hb]. apply Nat.eqb_eq in Ha.
    apply negb_true_iff in Hb, Hc. split; [congruence|]. split; auto.
    intros K. apply E in K. congruence.
  - intros (-> & T & N). rewrite G, Nat.eqb_refl, T. simpl. f_equal. apply negb_true_iff.
    destruct (existsb _ _); auto. exfalso. apply N. now apply E.
Qed.
Print Assumptions C22_only_latest_run_is_current.

Definition two_runs : list (nat * op) :=
  [(1, OBegin); (2, OTransition 1 IndexingCore None None); (3, OBegin)].
Example C22_meets :
  runs_of two_runs = [(1, 1); (2, 2)] /\ begins two_runs = 2 /\
  snd (step 4 (run init two_runs) (OTransition 1 IndexingProject None None)) = Published None /\
  snd (step 4 (run init two_runs) (OIsCurrent 2 2)) = Bool true.
Proof. vm_compute. auto. Qed.

(** C23. Published snapshots carry strictly increasing sequence numbers. *)
Theorem C23_sequence_strictly_increases : forall h,
  StronglySorted (fun a b => n_sequence a < n_sequence b)
    (somes (map published (outputs init h))).
Proof.
  assert (G : forall h s,
    StronglySorted (fun a b => n_sequence a < n_sequence b) (somes (map published (outputs s h))) /\
    Forall (fun n => sequence s < n_sequence n) (somes (map published (outputs s h)))).
  { induction h as [|[now o] h IH]; intros s; [simpl; auto using SSorted_nil|].
    cbn [outputs map]. destruct (IH (fst (step now s o))) as [S F].
    destruct (step_inv now s o) as [[E P]|[->|(s' & E & _ & Es & _)]].
    - rewrite P. cbn [somes]. rewrite E in *. auto.
    - simpl in *. split; auto. eapply Forall_impl; [|exact F]. simpl. intros; lia.
    - rewrite E in *. cbn [fst snd published somes] in *. split.
      + constructor; auto.
      + constructor; [simpl; lia|]. eapply Forall_impl; [|exact F]. simpl. intros; lia. }
  intros h. apply G.
Qed.
Print Assumptions C23_sequence_strictly_increases.

(** C23, phases: of two readings in the same run, the later one is never in an earlier phase. *)
Theorem C23_phase_monotone : forall h1 h2 now1 now2,
  let a := snap (run init h1) now1 in
  let b := snap (run init (h1 ++ h2)) now2 in
  n_generation a = n_generation b -> rank (n_phase a) <= rank (n_phase b).
Proof.
  intros h1 h2 now1 now2. rewrite run_app. generalize (run init h1) as s. intros s. simpl.
  revert s. induction h2 as [|[now o] h IH]; intros s E; [simpl; lia|]. cbn [run] in *.
  destruct (step_inv now s o) as [[Es _]|[->|(s' & Es & Eg & _ & _ & R & _)]].
  - rewrite Es in *. auto.
  - exfalso. rewrite run_gen in E. simpl in E. lia.
  - rewrite Es in *. cbn [fst] in *. rewrite <- Eg in E. specialize (IH s' E). lia.
Qed.
Print Assumptions C23_phase_monotone.

(** C23, progress: false in general. A call without counters resets the comparison, after
    which the count in the same phase may go down and the denominator may change. *)
Theorem C23_progress_monotone_refuted : exists h1 h2 c1 c2 t1 t2,
  let a := snap (run init h1) 0 in
  let b := snap (run init (h1 ++ h2)) 0 in
  n_generation a = n_generation b /\ n_phase a = n_phase b /\
  n_completed a = Some c1 /\ n_completed b = Some c2 /\ c2 < c1 /\
  n_total a = Some t1 /\ n_total b = Some t2 /\ t1 <> t2 /\
  ~ In Panic (outputs init (h1 ++ h2)).
Proof.
  exists [(0, OBegin); (0, OTransition 1 IndexingProject (Some 5) (Some 10))],
    [(0, OTransition 1 IndexingProject None None); (0, OTransition 1 IndexingProject (Some 3) (Some 4))],
    5, 3, 10, 4.
  vm_compute. repeat split; auto; try lia; try discriminate. intuition discriminate.
Qed.
Print Assumptions C23_progress_monotone_refuted.

(** C23, progress, what holds: between two readings of the same run and phase such that every
    published snapshot in between (the first reading included) carries counters, the completed
    count does not decrease and the total does not change. *)
Theorem C23_progress_monotone_partial : forall h1 h2 now1 now2 c1 c2,
  let a := snap (run init h1) now1 in
  let b := snap (run init (h1 ++ h2)) now2 in
  n_generation a = n_generation b -> n_phase a = n_phase b ->
  (forall n, In (Some n) (map published (outputs (run init h1) h2)) -> n_completed n <> None /\ n_total n <> None) ->
  n_total a <> None ->
  n_completed a = Some c1 -> n_completed b = Some c2 ->
  c1 <= c2 /\ n_total a = n_total b.
Proof.
  intros h1 h2 now1 now2 c1 c2. rewrite run_app. generalize (run init h1) as s. intros s. simpl.
  assert (PM : forall h s, generation s = generation (run s h) -> rank (ph s) <= rank (ph (run s h))).
  { induction h as [|[now o] h IH]; intros s0 E; [simpl; lia|]. cbn [run] in *.
    destruct (step_inv now s0 o) as [[Es _]|[->|(s' & Es & Eg & _ & _ & R & _)]].
    - rewrite Es in *. auto.
    - exfalso. rewrite run_gen in E. simpl in E. lia.
    - rewrite Es in *. cbn [fst] in *. rewrite <- Eg in E. specialize (IH s' E). lia. }
  revert s c1. induction h2 as [|[now o] h IH]; intros s c1 E Ep Hin Ht H1 H2.
  { simpl in *. split; [|auto]. rewrite H1 in H2. injection H2 as ->. lia. }
  cbn [run outputs map] in *.
  destruct (step_inv now s o) as [[Es Pn]|[->|(s' & Es & Eg & _ & T & R & _ & _ & _ & _ & _ & Mo)]].
  - rewrite Es in *. eapply IH; eauto. intros n Hn. apply Hin. now right.
  - exfalso. rewrite run_gen in E. simpl in E. lia.
  - rewrite Es in *. cbn [fst snd published] in *.
    assert (Eq : ph s' = ph s).
    { assert (Rk : rank (ph s') = rank (ph s)).
      { rewrite <- Eg in E. pose proof (PM h s' E). rewrite <- Ep in H. lia. }
      clear -Rk T. destruct (ph s), (ph s'); simpl in *; congruence || lia || discriminate. }
    destruct (Mo Eq) as [M1 M2].
    destruct (Hin (snap s' now)) as [Hc Htt]; [now left|]. simpl in Hc, Htt.
    destruct (completed s') as [c|] eqn:Ec; [|congruence].
    destruct (IH s' c) as [I1 I2]; auto; try congruence.
    { intros n Hn. apply Hin. now right. }
    split; [pose proof (M1 c1 c H1 eq_refl); lia|].
    rewrite <- I2. destruct (total s) as [a|] eqn:Ea; [|congruence].
    destruct (total s') as [b|] eqn:Eb; [|congruence]. f_equal. eauto.
Qed.
Print Assumptions C23_progress_monotone_partial.

Definition progress_run : list (nat * op) :=
  [(1, OBegin); (2, OTransition 1 IndexingProject (Some 3) (Some 9))].
Example C23_meets :
  let a := snap (run init progress_run) 2 in
  let b := snap (run init (progress_run ++ [(3, OTransition 1 IndexingProject (Some 7) (Some 9))])) 3 in
  n_generation a = n_generation b /\ n_phase a = n_phase b /\
  n_completed a = Some 3 /\ n_completed b = Some 7 /\ n_sequence a < n_sequence b.
Proof. vm_compute. auto 10. Qed.

(** C52. A status that reached its end does not change any more until the next run begins:
    fails, because [transition] also accepts the phases [Failed] and [Cancelled] and then
    leaves the clock running (and, for [Cancelled], the token alive). *)
Theorem C52_terminal_status_frozen_refuted : exists h g tok,
  In (g, tok) (runs_of h) /\
  n_phase (snap (run init h) 0) = Cancelled /\
  n_elapsed (snap (run init h) 5) <> n_elapsed (snap (run init h) 6) /\
  ~ In tok (cancelled (run init h)).
Proof.
  exists [(1, OBegin); (2, OTransition 1 Cancelled None None)], 1, 1.
  vm_compute. intuition discriminate.
Qed.
Print Assumptions C52_terminal_status_frozen_refuted.

(** What holds: if the phases [Failed] and [Cancelled] are reached through [fail] and [cancel]
    only, every reading after the end of a run equals every other until the next run begins,
    and a cancelled run's token is cancelled. *)
Definition uses_fail_and_cancel (h : list (nat * op)) : Prop :=
  forall now g p c t, In (now, OTransition g p c t) h -> p <> Failed /\ p <> Cancelled.

Theorem C52_terminal_status_frozen_partial : forall h1 h2 now1 now2,
  uses_fail_and_cancel h1 ->
  is_terminal (n_phase (snap (run init h1) now1)) = true -> begins h2 = 0 ->
  snap (run init (h1 ++ h2)) now2 = snap (run init h1) now1 /\
  (n_phase (snap (run init h1) now1) = Cancelled ->
     In (token (run init h1)) (cancelled (run init h1))).
Proof.
  intros h1 h2 now1 now2 U.
  assert (I : is_terminal (ph (run init h1)) = true -> completed_elapsed (run init h1) <> None /\
     (ph (run init h1) = Cancelled -> In (token (run init h1)) (cancelled (run init h1)))).
  { revert U. induction h1 as [|[now o] h IH] using rev_ind; intros U.
    - discriminate.
    - rewrite run_app. cbn [run]. set (s := run init h) in *.
      assert (U0 : uses_fail_and_cancel h).
      { intros a g p c t H. eapply (U a g p c t). apply in_app_iff. auto. }
      specialize (IH U0).
      destruct o; simpl; auto; try discriminate.
      + assert (p <> Failed /\ p <> Cancelled).
        { eapply (U now g p c t). apply in_app_iff. right. now left. }
        destruct (negb (args_ok _ _ _)); auto. destruct (stale s g); auto.
        destruct (negb (forward_ok _ _ _ _)); auto. simpl. intros T.
        destruct p; simpl in *; try discriminate; try tauto. split; discriminate.
      + destruct (blank msg); auto. destruct (stale s g); auto. simpl. intros _. split; discriminate.
      + destruct (stale s g); auto. simpl. split; [discriminate|auto]. }
  simpl. rewrite run_app. generalize dependent (run init h1). intros s I T B.
  destruct (I T) as [Ce Ct]. split; auto.
  assert (E : run s h2 = s).
  { clear -T B. revert B. induction h2 as [|[now o] h IH]; intros B; [reflexivity|]. cbn [run].
    destruct (step_inv now s o) as [[-> _]|[->|(s' & _ & _ & _ & T' & _)]].
    - apply IH. unfold begins in *. simpl in B. destruct o; simpl in B; auto; lia.
    - discriminate B.
    - congruence. }
  rewrite E. unfold snap. destruct (completed_elapsed s); congruence.
Qed.
Print Assumptions C52_terminal_status_frozen_partial.

Example C52_meets :
  uses_fail_and_cancel (progress_run ++ [(5, OFail 1 "no gemfile")]) /\
  is_terminal (n_phase (snap (run init (progress_run ++ [(5, OFail 1 "no gemfile")])) 7)) = true /\
  n_elapsed (snap (run init (progress_run ++ [(5, OFail 1 "no gemfile")])) 7) = 4.
Proof.
  split; [|vm_compute; auto]. intros now g p c t H. simpl in H.
  destruct H as [H|[H|[H|[]]]]; try discriminate. injection H as _ _ <- _ _. split; discriminate.
Qed.
