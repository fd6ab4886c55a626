(** Properties C08-C11 and C51: the resource governor (/repo/src/indexing_resources.rs). *)
From Coq Require Import List Arith Lia Bool Permutation.
From Verif Require Import Lib Governor_Model Governor_Spec
  Governor_Proofs Governor_Proofs2 Governor_Proofs3.
Import ListNotations.

(** C08. The leases in callers' hands never add up to more than the policy, for each of the
    four resources; no assertion or checked subtraction fires; and the snapshot reports
    exactly these sums and their maxima so far. *)
Theorem C08_never_over_commits : forall p s,
  reachable p s ->
  panicked s = false /\
  leases s <= p_tasks p /\ total w_cpu (tasks s) <= p_cpu p /\
  total w_mem (tasks s) <= p_mem p /\ total w_io (tasks s) <= p_io p /\
  a_tasks (adm s) = leases s /\ a_cpu (adm s) = total w_cpu (tasks s) /\
  a_mem (adm s) = total w_mem (tasks s) /\ a_io (adm s) = total w_io (tasks s) /\
  leases s <= peak_tasks (adm s) <= p_tasks p /\
  total w_cpu (tasks s) <= peak_cpu (adm s) <= p_cpu p /\
  total w_mem (tasks s) <= peak_mem (adm s) <= p_mem p /\
  total w_io (tasks s) <= peak_io (adm s) <= p_io p.
Proof.
  intros p s R. pose proof (core_reachable p s R) as C. rewrite <- (pol_reachable p s R).
  destruct C. unfold leases. rewrite <- c_tasks, <- c_cpu, <- c_mem, <- c_io.
  repeat split; auto; lia.
Qed.
Print Assumptions C08_never_over_commits.

(** C08, nothing leaks: with no lease outstanding the governor is back to zero, and every
    admission so far either still holds its lease or was counted once as completed,
    panicked or cancelled. *)
Theorem C08_no_leak : forall p ops,
  let s := run (init p) ops in
  (leases s = 0 -> a_tasks (adm s) = 0 /\ a_cpu (adm s) = 0 /\ a_mem (adm s) = 0 /\ a_io (adm s) = 0) /\
  admissions (init p) ops =
    leases s + completed (adm s) + panicked_tasks (adm s) + cancelled_after (adm s).
Proof.
  intros p ops s. assert (C : Core s) by (apply core_run, core_init). split.
  - intros L. rewrite (c_tasks s C), (c_cpu s C), (c_mem s C), (c_io s C).
    unfold leases in L. rewrite !total_zero by auto. auto.
  - pose proof (ended_run ops (init p) (core_init p)) as E. fold s in E. unfold ended in E.
    change (leases (init p)) with 0 in E. simpl in E. lia.
Qed.
Print Assumptions C08_no_leak.

(** Two of three requests admitted; the third needs more lanes than are left. *)
Definition pol3 : policy := mkPolicy 4 3 10 5.
Definition rq (r : nat) (c m : nat) (par : bool) : spec := mkSpec (Some r) Background c m 1 par.
Definition sample : list op :=
  [OTicket (rq 1 3 2 true); OPush 0; OTicket (rq 2 1 3 false); OPush 1; OTicket (rq 3 2 1 false); OPush 2;
   OTop 0; OLock 0; OTop 1; OLock 1; OTop 2; OLock 2].
Example C08_meets :
  let s := run (init pol3) sample in
  leases s = 2 /\ total w_cpu (tasks s) = 4 /\ total w_mem (tasks s) = 5 /\
  length (queued (adm s)) = 1 /\
  admissions (init pol3) (sample ++ [ORelease 0 Panicked; ONotify 0; OWake 2; OTop 2; OLock 2]) = 3.
Proof. vm_compute. auto. Qed.

(** C09. While the editor waits for navigation in project [a], no project-parallel work of
    another project (or of no project) is admitted. *)
Theorem C09_navigation_gate : forall p ops o i w pr a,
  admits (run (init p) ops) o i w pr ->
  nav_history (None, false) ops = (Some a, true) ->
  w_par w = true -> w_root w = Some a.
Proof.
  intros p ops o i w pr a AD H Hp.
  pose proof (core_run ops _ (core_init p)) as C.
  destruct (admission_order _ _ _ _ _ C AD) as [(_ & _ & _ & _ & G) _].
  pose proof (nav_run ops _ (core_init p)) as N. simpl in N. rewrite H in N. injection N as N1 N2.
  rewrite <- (G Hp N2). auto.
Qed.
Print Assumptions C09_navigation_gate.

(** Project 1 waits for navigation: work of project 2 is held back although everything is
    free, work of project 1 gets in, and after completion project 2 gets in. *)
Definition gate : list op :=
  [OTicket (rq 2 1 1 true); OPush 0; OTicket (rq 1 1 1 true); OPush 1; OPrioritize 1 true; ONotifyOwed;
   OTop 0; OLock 0; OTop 1].
Example C09_meets :
  nav_history (None, false) gate = (Some 1, true) /\
  asleep (run (init pol3) gate) 0 /\
  admits (run (init pol3) gate) (OLock 1) 1 (rq 1 1 1 true) ActiveDocument /\
  holds (run (init pol3) (gate ++ [OLock 1; ONavComplete 1; ONotifyOwed; OWake 0; OTop 0; OLock 0])) 0 (rq 2 1 1 true).
Proof.
  split; [reflexivity|]. split; [eexists; vm_compute; eauto|]. split; [split; [|split]|].
  - eexists. vm_compute. split; [right; left; reflexivity|auto].
  - intros w (t & H & _ & P). vm_compute in H. injection H as <-. discriminate.
  - eexists. vm_compute. eauto.
  - eexists. vm_compute. eauto.
Qed.

(** C10 fails: a request that could start sleeps although no wake-up is on its way. *)
Definition c10_pol : policy := mkPolicy 2 2 0 0.
Definition lane (n : nat) : spec := mkSpec None Background n 0 0 false.
Definition c10_ops : list op :=
  [OTicket (lane 2); OPush 0; OTop 0; OLock 0;
   OTicket (lane 1); OPush 1; OTop 1; OLock 1; OTicket (lane 1); OPush 2; OTop 2; OLock 2;
   ORelease 0 Completed; ONotify 0; OWake 2; OTop 2; OLock 2; OWake 1; OTop 1; OLock 1].
Theorem C10_sleeping_on_available_work_refuted : exists p s i w pr,
  reachable p s /\ ~ notify_outstanding s /\
  waiting s i w pr /\ could_start s w /\
  (forall j w' p', waiting s j w' p' -> asleep s j).
Proof.
  exists c10_pol, (run (init c10_pol) c10_ops), 2, (lane 1), Background.
  split; [eexists; reflexivity|]. split; [|split; [|split]].
  - intros [H|(t & Ht & O)]; vm_compute in *; [lia|].
    repeat (destruct Ht as [<-|Ht]; [discriminate|]). destruct Ht.
  - eexists. vm_compute. split; [left; reflexivity|auto].
  - vm_compute. repeat split; auto; discriminate.
  - intros j w' p' (q & Hq & <- & _). vm_compute in Hq. destruct Hq as [<-|[]].
    eexists. vm_compute. eauto.
Qed.
Print Assumptions C10_sleeping_on_available_work_refuted.

(** C10, what holds: with no lease held and no notification on its way, if any waiting
    request could start then one that could start is awake and its own next three steps give
    it the lease. Missing: the same while other leases are held (their release notifies). *)
Theorem C10_no_lost_wakeup_partial : forall p s,
  reachable p s -> ~ notify_outstanding s -> leases s = 0 ->
  (exists i w q, waiting s i w q /\ could_start s w) ->
  exists i w q, waiting s i w q /\ could_start s w /\ ~ asleep s i /\
    (forall t, nth_error (tasks s) i = Some t -> t_cancelled t = false ->
       t_phase t <> PDropping -> t_phase t <> PCancelling ->
       holds (run s [OWake i; OTop i; OLock i]) i w).
Proof. exact no_lost_wakeup_idle. Qed.
Print Assumptions C10_no_lost_wakeup_partial.

Example C10_meets :
  let s := run (init c10_pol) (firstn 14 c10_ops) in
  leases s = 0 /\ waiting s 1 (lane 1) Background /\ could_start s (lane 1) /\
  holds (run s [OWake 1; OTop 1; OLock 1]) 1 (lane 1).
Proof.
  split; [reflexivity|]. split; [|split].
  - eexists. vm_compute. split; [left; reflexivity|auto].
  - vm_compute. repeat split; auto; try lia; discriminate.
  - eexists. vm_compute. eauto.
Qed.

(** C11 fails: a background request needing two lanes waits while any number of one-lane
    background requests that arrived later are admitted (and finish). *)
Theorem C11_background_starvation_refuted : exists p s i w,
  reachable p s /\ waiting s i w Background /\
  forall n, exists ops, n <= admissions s ops /\
    (forall s', In s' (states s ops) -> waiting s' i w Background) /\
    leases (run s ops) = leases s.
Proof.
  exists P2, (S0 1), 0, wide. split; [exists to_S0; symmetry; exact S0_reach|]. split.
  - exists big. simpl. auto.
  - intros n. exists (cycles 1 n). destruct (cycles_ok n 1) as [H1 H2]. repeat split; auto.
    assert (G : forall n k, run (S0 k) (cycles k n) = S0 (k + n)).
    { assert (RA : forall l1 s l2, run s (l1 ++ l2) = run (run s l1) l2)
        by (induction l1; simpl; auto).
      induction n0 as [|n0 IH]; intros k; cbn [cycles]; [now rewrite Nat.add_0_r|].
      rewrite RA, cycle_run, IH. f_equal. lia. }
    rewrite G. unfold leases, S0. cbn [tasks]. rewrite !count_app. f_equal.
    unfold past. simpl. induction (n + 0); simpl; auto.
    clear. induction n; simpl; auto.
Qed.
Print Assumptions C11_background_starvation_refuted.

(** C11, what holds: while the request has the resources it needs, at most
    2*(older requests still waiting)+1 other requests are admitted before it. Missing: the
    same while it does not fit. *)
Theorem C11_background_bounded_overtaking_partial : forall p s ops i w,
  reachable p s ->
  (forall s', In s' (states s ops) -> waiting s' i w Background /\ could_start s' w) ->
  admissions s ops <= 2 * older_pending s i + 1.
Proof.
  intros p s ops i w R H.
  pose proof (background_bounded ops s i w (core_reachable p s R) H). lia.
Qed.
Print Assumptions C11_background_bounded_overtaking_partial.

Definition pol5 : policy := mkPolicy 8 5 0 0.
Definition act (r : nat) : spec := mkSpec (Some r) ActiveDocument 1 0 0 false.
Definition bg_before : list op :=
  [OTicket (lane 1); OPush 0; OTicket (lane 2); OPush 1; OTicket (act 2); OPush 2;
   OTicket (act 3); OPush 3; OTop 0; OTop 2; OTop 3].
Definition bg_segment : list op := [OLock 2; OLock 0; OLock 3].
Example C11_meets :
  admissions (run (init pol5) bg_before) bg_segment = 3 /\
  older_pending (run (init pol5) bg_before) 1 = 1 /\
  forall s', In s' (states (run (init pol5) bg_before) bg_segment) ->
     waiting s' 1 (lane 2) Background /\ could_start s' (lane 2).
Proof.
  split; [reflexivity|]. split; [reflexivity|].
  intros s' H. vm_compute in H.
  repeat (destruct H as [<-|H];
    [split; [exists (mkWork 1 (lane 2) Background 1); simpl; auto 10
            |repeat split; vm_compute; auto 10; try lia; discriminate]|]).
  destruct H.
Qed.

(** C51. Admission order of the governor. *)
Theorem C51_governor_admission_order : forall p s o i w pr,
  reachable p s -> admits s o i w pr ->
  could_start s w /\
  ((pr = Background /\
    forall j w', waiting s j w' Background -> could_start s w' -> i <= j) \/
   (forall j w' p', waiting s j w' p' -> could_start s w' ->
      rank pr < rank p' \/ (rank pr = rank p' /\ i <= j))).
Proof. intros p s o i w pr R. apply admission_order. apply (core_reachable p s R). Qed.
Print Assumptions C51_governor_admission_order.

Example C51_meets :
  admits (run (init pol5) bg_before) (OLock 2) 2 (act 2) ActiveDocument.
Proof.
  split; [|split].
  - eexists. vm_compute. split; [right; right; left; reflexivity|auto].
  - intros w (t & H & _ & P). vm_compute in H. injection H as <-. discriminate.
  - eexists. vm_compute. eauto.
Qed.
