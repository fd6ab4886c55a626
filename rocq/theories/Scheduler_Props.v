(** Properties C01-C07: the indexing scheduler (/repo/src/indexing_scheduler.rs). *)
From Coq Require Import List Arith Lia Bool Permutation.
From Verif Require Import Lib Scheduler_Model Scheduler_Spec
  Scheduler_Proofs Scheduler_Proofs2 Scheduler_Proofs3.
Import ListNotations.

(** C01. The number of permits in callers' hands never exceeds the limit, and it is what
    [snapshot().active] reports. *)
Theorem C01_concurrency_bounded : forall lim s,
  reachable lim s -> permits s <= lim /\ active s = permits s.
Proof.
  intros lim s R. pose proof (core_reachable lim s R) as C.
  rewrite (permits_active s C). split; auto.
  rewrite <- (limit_reachable lim s R). apply (c_lim s C).
Qed.
Print Assumptions C01_concurrency_bounded.

(** A run with two permits out at limit 2 and a third request queued. *)
Definition two_held : list op :=
  [OTicket 1 Background; OPush 0; ONotify 0; OTicket 2 OpenDocument; OPush 1; ONotify 1;
   OTicket 3 Background; OPush 2; ONotify 2;
   OTop 1; OLock 1; OTop 0; OLock 0; ONotify 1; ONotify 0; OTop 2; OLock 2].
Example C01_meets : permits (run (init 2) two_held) = 2 /\ length (queued (run (init 2) two_held)) = 1.
Proof. vm_compute. auto. Qed.

(** C02. No project has two permits at once and no assertion of the scheduler fires. *)
Theorem C02_one_generation_per_project : forall lim s,
  reachable lim s ->
  panicked s = false /\
  forall i j root, holds s i root -> holds s j root -> i = j.
Proof.
  intros lim s R. pose proof (core_reachable lim s R) as C. split; [apply (c_np s C)|].
  intros i j r Hi Hj. apply holds_iff in Hi as (t & Ht & Rt & Pt).
  apply holds_iff in Hj as (u & Hu & Ru & Pu).
  eapply (nodup_map_filter_inj t_root holding_phase (tasks s)); eauto; [|congruence].
  eapply Permutation_NoDup; [apply (c_perm s C)|apply (c_apnd s C)].
Qed.
Print Assumptions C02_one_generation_per_project.

(** Two requests of project 1; only one gets in although the limit is 2. *)
Definition same_project : list op :=
  [OTicket 1 Background; OPush 0; ONotify 0; OTicket 1 ActiveDocument; OPush 1; ONotify 1;
   OTop 0; OTop 1; OLock 1; OLock 0; ONotify 1].
Example C02_meets : holds (run (init 2) same_project) 1 1 /\ ~ holds (run (init 2) same_project) 0 1.
Proof.
  split.
  - exists (mkTask 1 ActiveDocument false PHolding). vm_compute. auto.
  - intros (t & H & _ & P). vm_compute in H. injection H as <-. destruct P; discriminate.
Qed.

(** C03. Admission order (soundness): an admitted request belongs to an idle project, a slot
    was free, and it was the right one. *)
Theorem C03_admission_order : forall lim ops o i root p,
  let s := run (init lim) ops in
  admits s o i root p ->
  idle s root /\ permits s < lim /\
  ((last_overtook (init lim) ops /\ background_waits s) ->
     p = Background /\ forall j r, waiting s j r Background -> idle s r -> i <= j) /\
  (~ (last_overtook (init lim) ops /\ background_waits s) ->
     forall j r p', waiting s j r p' -> idle s r -> before p i p' j).
Proof. exact admission_order. Qed.
Print Assumptions C03_admission_order.

(** C03, the priorities compared above: those requested, raised to [ActiveDocument] for the
    project the editor most recently declared active. *)
Theorem C03_effective_priority : forall lim ops i root p,
  waiting (run (init lim) ops) i root p ->
  exists q, nth_error (tickets ops) i = Some (root, q) /\
    ((last_prioritized None ops = Some root /\ p = ActiveDocument) \/
     (last_prioritized None ops <> Some root /\ p = q)).
Proof. exact effective_priority_correct. Qed.
Print Assumptions C03_effective_priority.

Example C03_effective_meets :
  waiting (run (init 1) [OTicket 5 Background; OPush 0; ONotify 0; OPrioritize 5]) 0 5 ActiveDocument.
Proof. exists (mkEntry 0 5 Background ActiveDocument 0). vm_compute. auto. Qed.

(** Request 2 (active document) overtakes request 0 (background); the next admission is the
    background request although an active-document request 3 waits. *)
Definition overtake : list op :=
  [OTicket 1 Background; OPush 0; ONotify 0; OTicket 4 Background; OPush 1; ONotify 1;
   OTicket 2 ActiveDocument; OPush 2; ONotify 2; OTop 2; OLock 2; ONotify 2;
   OTicket 3 ActiveDocument; OPush 3; ONotify 3; OTop 0].
Example C03_meets :
  admits (run (init 2) overtake) (OLock 0) 0 1 Background /\
  waiting (run (init 2) overtake) 3 3 ActiveDocument.
Proof.
  split; [split; [|split]|].
  - exists (mkEntry 0 1 Background Background 0). vm_compute. auto.
  - intros r (t & H & _ & P). vm_compute in H. injection H as <-. destruct P; discriminate.
  - eexists. vm_compute. eauto.
  - exists (mkEntry 3 3 ActiveDocument ActiveDocument 3). vm_compute. auto.
Qed.

(** C04. Background work is not starved. *)
Theorem C04_background_bounded_overtaking : forall lim s ops i root,
  reachable lim s ->
  (forall s', In s' (states s ops) -> waiting s' i root Background /\ idle s' root) ->
  admissions s ops <= 2 * older_pending s i + 1.
Proof.
  intros lim s ops i root R H.
  pose proof (background_bounded ops s i root (core_reachable lim s R) H). lia.
Qed.
Print Assumptions C04_background_bounded_overtaking.

(** The bound is reached: request 1 waits behind one older background request. *)
Definition bg_before : list op :=
  [OTicket 1 Background; OPush 0; ONotify 0; OTicket 4 Background; OPush 1; ONotify 1;
   OTicket 2 ActiveDocument; OPush 2; ONotify 2;
   OTicket 3 ActiveDocument; OPush 3; ONotify 3; OTop 0; OTop 2; OTop 3].
Definition bg_segment : list op := [OLock 2; OLock 0; OLock 3].
Example C04_meets :
  admissions (run (init 3) bg_before) bg_segment = 3 /\
  older_pending (run (init 3) bg_before) 1 = 1 /\
  forall s', In s' (states (run (init 3) bg_before) bg_segment) ->
     waiting s' 1 4 Background /\ idle s' 4.
Proof.
  split; [reflexivity|]. split; [reflexivity|].
  intros s' H. vm_compute in H.
  repeat (destruct H as [<-|H];
    [split; [exists (mkEntry 1 4 Background Background 1); simpl; auto 10
            |intros i (t & Ht & R & P);
             repeat (destruct i as [|i]; [simpl in Ht; injection Ht as <-; try discriminate; destruct P; discriminate|]);
             simpl in Ht; destruct i; discriminate]|]).
  destruct H.
Qed.

(** C05 fails: an open-document request of an idle project can be overtaken without bound. *)
Theorem C05_open_document_starvation_refuted :
  exists lim s i root, reachable lim s /\
    forall n, exists ops,
      n <= admissions s ops /\
      (forall s', In s' (states s ops) -> waiting s' i root OpenDocument /\ idle s' root).
Proof.
  exists 1, (S0 0), 0, 7. split.
  - eexists. exact S0_reach.
  - intros n. exists (cycles 0 n). apply cycles_ok.
Qed.
Print Assumptions C05_open_document_starvation_refuted.

(** C05, what holds: requests of the same class overtake only if they are older. Missing from
    the full property: a bound on active-document (and the interleaved background) admissions. *)
Theorem C05_open_document_partial : forall lim s ops i root,
  reachable lim s ->
  (forall s', In s' (states s ops) -> waiting s' i root OpenDocument /\ idle s' root) ->
  admissions_of OpenDocument s ops <= older_pending s i.
Proof.
  intros lim s ops i root R H. apply (open_bounded ops s i root (core_reachable lim s R) H).
Qed.
Print Assumptions C05_open_document_partial.

Example C05_meets : exists ops,
  (forall s', In s' (states (S0 0) ops) -> waiting s' 0 7 OpenDocument /\ idle s' 7) /\
  3 <= admissions (S0 0) ops.
Proof. exists (cycles 0 3). split; apply cycles_ok. Qed.

(** C06. When a slot is free, some idle project waits and no notification is still on its way,
    the request to be served is awake and its own next three steps give it the permit
    (unless it is being cancelled). *)
Theorem C06_no_lost_wakeup : forall lim s,
  reachable lim s -> ~ notify_outstanding s -> permits s < lim ->
  (exists i r p, waiting s i r p /\ idle s r) ->
  exists i r p, waiting s i r p /\ idle s r /\ ~ asleep s i /\
    (forall t, nth_error (tasks s) i = Some t -> t_cancelled t = false ->
       t_phase t <> PDropping -> holds (run s [OWake i; OTop i; OLock i]) i r).
Proof. exact no_lost_wakeup. Qed.
Print Assumptions C06_no_lost_wakeup.

(** Request 1 went to sleep behind request 0 (limit 1); after the release it is awake. *)
Definition sleeper : list op :=
  [OTicket 1 Background; OPush 0; ONotify 0; OTicket 2 Background; OPush 1; ONotify 1;
   OTop 0; OLock 0; ONotify 0; OTop 1; OLock 1; ORelease 0; ONotify 0].
Example C06_meets :
  let s := run (init 1) sleeper in
  permits s < 1 /\ waiting s 1 2 Background /\ asleep (run (init 1) (firstn 11 sleeper)) 1 /\
  holds (run s [OWake 1; OTop 1; OLock 1]) 1 2.
Proof.
  split; [vm_compute; auto|]. split; [|split].
  - exists (mkEntry 1 2 Background Background 1). vm_compute. auto.
  - exists (mkTask 2 Background false (PBlocked false)). vm_compute. auto.
  - eexists. vm_compute. eauto.
Qed.

(** C07. A request cancelled before admission never gets a permit; it leaves the queue by its
    own steps, and nothing else in the scheduler changes; the same for a dropped admission. *)
Theorem C07_cancelled_never_admitted : forall lim s ops i t,
  reachable lim s -> nth_error (tasks s) i = Some t ->
  t_cancelled t = true -> (forall r, ~ holds s i r) ->
  forall r, ~ holds (run s ops) i r.
Proof.
  intros lim s ops i t R Hi Hc NH. apply (cancelled_never ops s i t); auto.
  - now apply (core_reachable lim).
  - destruct (holding_phase t) eqn:E; auto. exfalso. apply (NH (t_root t)). apply holds_iff. eauto.
Qed.
Print Assumptions C07_cancelled_never_admitted.

Theorem C07_cancelled_leaves_queue : forall lim s i r0 p0 t,
  reachable lim s -> waiting s i r0 p0 -> nth_error (tasks s) i = Some t -> t_cancelled t = true ->
  let s' := run s [ONotify i; OWake i; OTop i; OLock i; ODropLock i] in
  (forall r p, ~ waiting s' i r p) /\
  (forall j r p, j <> i -> (waiting s' j r p <-> waiting s j r p)) /\
  active s' = active s /\ active_projects s' = active_projects s.
Proof.
  intros lim s i r0 p0 t R (e & He & Ei & _) Hi Hc.
  pose proof (core_reachable lim s R) as C. apply (cancelled_leaves s i t C); auto.
  destruct (c_ent s C e He) as (u & Hu & Q & _). rewrite Ei, Hi in Hu. now injection Hu as <-.
Qed.
Print Assumptions C07_cancelled_leaves_queue.

Theorem C07_dropped_leaves_queue : forall lim s i t,
  reachable lim s -> nth_error (tasks s) i = Some t -> t_phase t = PDropping ->
  let s' := step s (ODropLock i) in
  (forall r p, ~ waiting s' i r p) /\
  (forall j r p, j <> i -> (waiting s' j r p <-> waiting s j r p)) /\
  active s' = active s /\ active_projects s' = active_projects s.
Proof. intros lim s i t R. apply drop_removes. now apply (core_reachable lim). Qed.
Print Assumptions C07_dropped_leaves_queue.

Example C07_meets :
  let s := run (init 1) (firstn 11 sleeper ++ [OCancel 1]) in
  waiting s 1 2 Background /\
  nth_error (tasks s) 1 = Some (mkTask 2 Background true (PBlocked false)).
Proof.
  split; [|reflexivity]. exists (mkEntry 1 2 Background Background 1). vm_compute. auto.
Qed.
