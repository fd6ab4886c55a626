(** Admission order, fairness and wake-ups of the scheduler model. *)
From Coq Require Import List Arith Lia Bool Permutation.
From Verif Require Import Lib Scheduler_Model Scheduler_Spec Scheduler_Proofs.
Import ListNotations.

Local Arguments effective_priority : simpl never.

Lemma step_eq s o : Core s -> step s o = step_ok s o.
Proof. intros C. unfold step. now rewrite (c_np s C). Qed.

Lemma holds_iff s i r : holds s i r <->
  exists t, nth_error (tasks s) i = Some t /\ t_root t = r /\ holding_phase t = true.
Proof.
  unfold holds, holding_phase. split; intros (t & H & R & P); exists t; repeat split; auto.
  - destruct P as [-> | ->]; auto.
  - destruct (t_phase t); auto; discriminate.
Qed.

Lemma idle_iff s r : Core s -> (idle s r <-> ~ In r (active_projects s)).
Proof.
  intros C. unfold idle. split; intros H.
  - intros Hin. eapply Permutation_in in Hin; [|apply (c_perm s C)].
    apply in_map_iff in Hin as (t & Ht & Hf). apply filter_In in Hf as [Hf Hh].
    apply In_nth_error in Hf as [i Hi]. apply (H i). apply holds_iff. eauto.
  - intros i Hh. apply holds_iff in Hh as (t & Ht & Hr & Hp). apply H.
    eapply Permutation_in; [symmetry; apply (c_perm s C)|].
    apply in_map_iff. exists t. split; auto. apply filter_In. split; auto.
    eapply nth_error_In; eauto.
Qed.

Lemma permits_active s : Core s -> permits s = active s.
Proof.
  intros C. unfold permits. rewrite count_filter, (c_act s C).
  rewrite (Permutation_length (c_perm s C)). now rewrite map_length.
Qed.

Lemma limit_step s o : limit (step s o) = limit s.
Proof.
  unfold step. destruct (panicked s); auto. destruct o; simpl; auto;
  try (destruct (nth_error (tasks s) i); auto; destruct (t_phase t); auto).
  - destruct (t_cancelled t); auto.
  - unfold lock_step. destruct (t_cancelled t); auto. destruct (Nat.ltb _ _); auto.
    destruct (best_with_fairness _ _ _); auto. destruct (nth_error _ _); auto.
    destruct (Nat.eqb _ _); auto. destruct (mem _ _); auto. destruct (Nat.ltb MAX_BURST _); auto.
  - destruct (t_cancelled t); auto. destruct n; auto.
  - destruct (position _ _); auto.
  - destruct (Nat.eqb _ _); auto. destruct (negb _); auto.
  - destruct (owed s); auto.
Qed.

Lemma limit_run ops : forall s, limit (run s ops) = limit s.
Proof. induction ops; simpl; auto. intros. now rewrite IHops, limit_step. Qed.

Lemma limit_reachable lim s : reachable lim s -> limit s = lim.
Proof. intros [ops ->]. now rewrite limit_run. Qed.

(** ** Where new permits come from *)

Definition admitting (s : state) (o : op) (j : nat) : Prop :=
  exists t n w e, o = OLock j /\ nth_error (tasks s) j = Some t /\ t_phase t = PArmed n /\
    t_cancelled t = false /\ wins s j w e /\ ~ In (e_root e) (active_projects s) /\
    step s o = admit_state s j w t e.

(** An update of task [i] that is not an admission and does not change roots keeps the
    set of holders from growing. *)
Definition no_new (s s' : state) : Prop :=
  forall j t', nth_error (tasks s') j = Some t' -> holding_phase t' = true ->
    exists t, nth_error (tasks s) j = Some t /\ holding_phase t = true /\ t_root t = t_root t'.

Lemma no_new_refl s : no_new s s.
Proof. intros j t' H1 H2. eauto. Qed.

Lemma no_new_upd s s' i t t' :
  nth_error (tasks s) i = Some t -> tasks s' = upd (tasks s) i t' ->
  (holding_phase t' = true -> holding_phase t = true /\ t_root t = t_root t') ->
  no_new s s'.
Proof.
  intros Hi E H j u Hj Hu. rewrite E, nth_upd in Hj.
  destruct (Nat.eqb_spec i j) as [->|N]; eauto.
  rewrite Hi in Hj. injection Hj as <-. exists t. destruct (H Hu). auto.
Qed.

Lemma no_new_notify s s' : no_new s s' -> no_new s (notify_all s').
Proof.
  intros H j u Hj Hu. simpl in Hj. rewrite nth_error_map in Hj.
  destruct (nth_error (tasks s') j) as [v|] eqn:E; [|discriminate]. simpl in Hj.
  injection Hj as <-. rewrite wake_holding in Hu. rewrite wake_root. eauto.
Qed.

Lemma no_new_tasks s s' : tasks s' = tasks s -> no_new s s'.
Proof. intros E j u Hj Hu. rewrite E in Hj. eauto. Qed.

Ltac nn t := eapply no_new_upd; [eassumption|reflexivity|];
  unfold holding_phase; simpl;
  repeat match goal with H : t_phase t = _ |- _ => rewrite H end; auto; try discriminate.

Lemma step_cases s o : Core s ->
  (exists j, admitting s o j) \/ (no_new s (step s o) /\ burst (step s o) = burst s).
Proof.
  intros C. rewrite (step_eq s o C).
  assert (K : forall j t n, o = OLock j -> nth_error (tasks s) j = Some t -> t_phase t = PArmed n ->
     (exists j, admitting s o j) \/ (no_new s (lock_step s j t n) /\ burst (lock_step s j t n) = burst s)).
  { intros j t n -> Hj Hp.
    destruct (lock_step_cases s j t n C Hj Hp) as [[_ ->]|[[Hc (w & e & W & A & E)]|[_ [_ ->]]]].
    - right. split; auto. nn t.
    - left. exists j, t, n, w, e. repeat split; auto; try apply W.
      rewrite step_eq by auto. simpl. now rewrite Hj, Hp.
    - right. split; auto. nn t. }
  destruct o; simpl;
    try (destruct (nth_error (tasks s) i) as [t|] eqn:Hi; [|right; split; [apply no_new_refl|auto]]);
    try (destruct (t_phase t) eqn:Hp; try (right; split; [apply no_new_refl|auto; fail])).
  all: try (right; split; [nn t|reflexivity]).
  all: try (right; split; [apply no_new_notify; nn t|reflexivity]).
  - right. split; auto. intros j u Hj Hu. simpl in Hj.
    destruct (Nat.lt_ge_cases j (length (tasks s))).
    + rewrite nth_error_app1 in Hj by auto. eauto.
    + rewrite nth_error_app2 in Hj by auto. destruct (j - length (tasks s)) as [|k]; simpl in Hj.
      * injection Hj as <-. discriminate.
      * destruct k; discriminate.
  - right. destruct (t_cancelled t); (split; [nn t|reflexivity]).
  - eapply K; eauto.
  - right. destruct (t_cancelled t); [split; [nn t|reflexivity]|].
    destruct n; (split; [|reflexivity]); [nn t|apply no_new_refl].
  - right. destruct (position _ _); (split; [nn t|reflexivity]).
  - right. destruct (Nat.eqb _ _); [split; [now apply no_new_tasks|reflexivity]|].
    destruct (negb _); [split; [now apply no_new_tasks|reflexivity]|].
    split; [nn t|reflexivity].
  - right. split; [now apply no_new_tasks|reflexivity].
  - right. destruct (owed s) eqn:Eo; [split; [apply no_new_refl|auto]|].
    split; [|reflexivity]. apply no_new_notify. now apply no_new_tasks.
Qed.

Lemma admitting_fun s o i j : admitting s o i -> admitting s o j -> i = j.
Proof.
  intros (t & n & w & e & -> & _) (t' & n' & w' & e' & H & _). congruence.
Qed.

Lemma admits_admitting s o i root p : Core s -> admits s o i root p -> admitting s o i.
Proof.
  intros C (W & NH & H). destruct (step_cases s o C) as [[j A]|[NN _]].
  - destruct (Nat.eq_dec i j) as [->|N]; auto. exfalso.
    destruct A as (t & n & w & e & -> & Hj & Hp & Hc & Wi & An & E).
    rewrite E in H. apply holds_iff in H as (u & Hu & Hr & Hh). simpl in Hu.
    rewrite nth_upd_neq in Hu by auto. apply (NH root). apply holds_iff. eauto.
  - exfalso. apply holds_iff in H as (u & Hu & Hr & Hh).
    destruct (NN i u Hu Hh) as (t & Ht & Hh' & Hr'). apply (NH root).
    apply holds_iff. exists t. repeat split; congruence.
Qed.

Lemma in_queue_unique s e e' : Core s -> In e (queued s) -> In e' (queued s) ->
  e_id e = e_id e' -> e = e'.
Proof.
  intros C H H' E. pose proof (c_nd s C) as ND.
  revert H H' ND. induction (queued s) as [|a l IH]; simpl; [easy|].
  intros H H' ND. inversion ND as [|? ? NI ND']; subst.
  destruct H as [->|H], H' as [->|H']; auto.
  - exfalso. apply NI. rewrite E. now apply in_map.
  - exfalso. apply NI. rewrite <- E. now apply in_map.
Qed.

Lemma admitting_admits s o i : Core s -> admitting s o i ->
  exists e, In e (queued s) /\ e_id e = i /\ admits s o i (e_root e) (e_priority e).
Proof.
  intros C (t & n & w & e & -> & Hj & Hp & Hc & (L & Bw & Hw & Ei) & An & E).
  pose proof (nth_error_In _ _ Hw) as Hin.
  exists e. split; [auto|]. split; [auto|]. split.
  - exists e. auto.
  - split.
    + intros r Hh. apply holds_iff in Hh as (u & Hu & _ & Hh). rewrite Hj in Hu.
      injection Hu as <-. unfold holding_phase in Hh. rewrite Hp in Hh. discriminate.
    + rewrite E. apply holds_iff. eexists. simpl.
      split; [eapply nth_upd_eq; eauto|]. simpl. auto.
Qed.

Lemma background_waits_iff s : Core s ->
  (background_waits s <-> existsb (admissible_bg (active_projects s)) (queued s) = true).
Proof.
  intros C. rewrite existsb_exists. unfold background_waits, waiting. split.
  - intros (i & r & (e & He & <- & <- & Hp) & Hi). exists e. split; auto.
    apply admissible_bg_iff. split; auto. now apply idle_iff.
  - intros (e & He & A). apply admissible_bg_iff in A as [P A].
    exists (e_id e), (e_root e). split; [exists e; auto|]. now apply idle_iff.
Qed.

Lemma next_burst_iff s e w : Core s ->
  best_with_fairness (queued s) (active_projects s) (burst s) = Some w ->
  nth_error (queued s) w = Some e ->
  (next_burst s e = 1 <-> e_priority e <> Background /\ background_waits s).
Proof.
  intros C Hw He. pose proof (next_burst_le s w e C Hw He) as NB.
  rewrite (background_waits_iff s C). unfold next_burst in *.
  destruct (prio_eqb (e_priority e) Background) eqn:Ep; simpl in *.
  - apply prio_eqb_eq in Ep. split; [lia|tauto].
  - assert (e_priority e <> Background).
    { intros H. rewrite H in Ep. discriminate. }
    destruct (existsb _ _); simpl in *; split; auto; try lia; intros [_ H']; discriminate.
Qed.

(** The fairness counter is one exactly when the last admission overtook background work. *)
Lemma burst_history lim ops :
  burst (run (init lim) ops) = 1 <-> last_overtook (init lim) ops.
Proof.
  assert (RA : forall s l o, run s (l ++ [o]) = step (run s l) o).
  { intros s l; revert s. induction l; simpl; auto. }
  induction ops as [|o ops IH] using rev_ind.
  - simpl. split; [discriminate|]. intros H. inversion H; destruct ops; discriminate.
  - rewrite RA. set (s := run (init lim) ops) in *.
    assert (C : Core s) by (apply core_run, core_init).
    destruct (step_cases s o C) as [[j A]|[NN EB]].
    + pose proof A as A'. destruct A' as (t & n & w & e & -> & Hj & Hp & Hc & (L & Bw & Hw & Ei) & An & E).
      rewrite E. simpl. rewrite (next_burst_iff s e w C Bw Hw).
      destruct (admitting_admits s _ j C A) as (e' & He' & Ei' & AD).
      assert (e' = e).
      { eapply in_queue_unique; eauto; [eapply nth_error_In; eauto|congruence]. }
      subst e'.
      split.
      * intros [P B]. eapply lo_here; eauto.
      * intros H. inversion H as [s0 ops0 o0 i r p AD' P B E1 E2|s0 ops0 o0 LO NA E1 E2]; subst s0;
          apply app_inj_tail in E2 as [E2 E2']; subst ops0 o0.
        -- fold s in AD', B. pose proof (admits_admitting s _ _ _ _ C AD') as A2.
           pose proof (admitting_fun _ _ _ _ A A2) as E3.
           destruct AD' as ((e2 & He2 & Ei2 & Er2 & Ep2) & _ & _).
           assert (e2 = e).
           { eapply in_queue_unique; eauto; try congruence. }
           subst e2. rewrite Ep2. auto.
        -- exfalso. eapply NA; eauto.
    + rewrite EB, IH. split.
      * intros H. apply lo_later; auto. intros i r p AD. fold s in AD.
        destruct AD as (_ & NH & H'). apply holds_iff in H' as (u & Hu & Hr & Hh).
        destruct (NN i u Hu Hh) as (t & Ht & Hh' & Hr'). apply (NH r). apply holds_iff.
        exists t. repeat split; congruence.
      * intros H. inversion H as [s0 ops0 o0 i r p AD' P B E1 E2|s0 ops0 o0 LO NA E1 E2]; subst s0;
          apply app_inj_tail in E2 as [E2 E2']; subst ops0 o0; auto.
        exfalso. fold s in AD'. destruct AD' as (_ & NH & H').
        apply holds_iff in H' as (u & Hu & Hr & Hh).
        destruct (NN i u Hu Hh) as (t & Ht & Hh' & Hr'). apply (NH r). apply holds_iff.
        exists t. repeat split; congruence.
Qed.

(** ** Admission order *)
Lemma admission_order lim ops o i root p :
  let s := run (init lim) ops in
  admits s o i root p ->
  idle s root /\ permits s < lim /\
  ((last_overtook (init lim) ops /\ background_waits s) ->
     p = Background /\
     forall j r, waiting s j r Background -> idle s r -> i <= j) /\
  (~ (last_overtook (init lim) ops /\ background_waits s) ->
     forall j r p', waiting s j r p' -> idle s r -> before p i p' j).
Proof.
  intros s AD. assert (C : Core s) by (apply core_run, core_init).
  pose proof (admits_admitting s o i root p C AD) as A.
  destruct A as (t & n & w & e & -> & Hj & Hp & Hc & (L & Bw & Hw & Ei) & An & E).
  destruct AD as ((e2 & He2 & Ei2 & Er2 & Ep2) & _ & _).
  assert (e2 = e).
  { eapply in_queue_unique; eauto; [eapply nth_error_In; eauto|congruence]. }
  subst e2.
  assert (Hlim : limit s = lim) by (unfold s; now rewrite limit_run).
  destruct (winner_spec _ _ _ _ Bw) as (e3 & He3 & _ & F1 & F2).
  rewrite Hw in He3. injection He3 as <-.
  pose proof (c_burst s C) as Bu.
  assert (BI : (burst s >= 1 /\ (exists x, In x (queued s) /\ admissible_bg (active_projects s) x = true))
     <-> (last_overtook (init lim) ops /\ background_waits s)).
  { rewrite <- burst_history. fold s. rewrite (background_waits_iff s C), existsb_exists.
    split; intros [H1 H2]; split; auto; lia. }
  assert (Ord : e_order e = i).
  { destruct (c_ent s C e) as (u & _ & _ & _ & _ & O & _); [eapply nth_error_In; eauto|congruence]. }
  assert (OrdX : forall x, In x (queued s) -> e_order x = e_id x).
  { intros x Hx. now destruct (c_ent s C x Hx) as (u & _ & _ & _ & _ & O & _). }
  split. { apply idle_iff; auto. congruence. }
  split. { rewrite permits_active by auto. lia. }
  rewrite <- BI. split.
  - intros H. destruct (F1 H) as [P M]. split; [congruence|].
    intros j r (x & Hx & <- & <- & Px) Ir. rewrite <- Ord, <- (OrdX x Hx).
    apply M; auto. apply admissible_bg_iff. split; auto. now apply idle_iff.
  - intros H j r p' (x & Hx & <- & <- & <-) Ir. unfold before.
    rewrite <- Ep2, <- Ord, <- (OrdX x Hx). apply F2; auto. now apply idle_iff.
Qed.

(** ** No lost wake-up *)

Definition outstanding (s : state) : Prop := notify_outstanding s.

Definition Wk (s : state) : Prop :=
  notify_outstanding s \/ (forall i w e, wins s i w e -> ~ asleep s i).

Lemma outstanding_upd s s' i t t' :
  nth_error (tasks s) i = Some t -> tasks s' = upd (tasks s) i t' -> owed s' = owed s ->
  owes_phase t = false -> notify_outstanding s -> notify_outstanding s'.
Proof.
  intros Hi E Eo Ho [H|[u [Hu Ou]]]; [left; lia|right].
  apply In_nth_error in Hu as [j Hj]. exists u. split; auto.
  apply (nth_error_In _ j). rewrite E, nth_upd_neq; auto.
  intros ->. rewrite Hi in Hj. injection Hj as <-. congruence.
Qed.

Lemma owes_new s i t : nth_error (tasks s) i = Some t -> owes_phase t = true ->
  notify_outstanding s.
Proof. intros H O. right. exists t. split; auto. eapply nth_error_In; eauto. Qed.

Lemma notify_not_asleep s i : ~ asleep (notify_all s) i.
Proof.
  intros (t & Ht & Hp). simpl in Ht. rewrite nth_error_map in Ht.
  destruct (nth_error (tasks s) i) as [u|]; [|discriminate]. simpl in Ht. injection Ht as <-.
  destruct u as [r p c []]; discriminate.
Qed.

Lemma wk_notify s : Wk (notify_all s).
Proof. right. intros. apply notify_not_asleep. Qed.

(** A step of task [i] that leaves the shared state alone. *)
Lemma wk_local s i t p :
  Wk s -> nth_error (tasks s) i = Some t -> owes_phase t = false ->
  (p = PBlocked false -> forall w e, ~ wins s i w e) ->
  Wk (set_phase s i t p).
Proof.
  intros [O|W] Hi Ho Hs.
  - left. eapply outstanding_upd; eauto; reflexivity.
  - right. intros j w e Hw Ha.
    assert (Hw' : wins s j w e) by exact Hw.
    destruct Ha as (u & Hu & Hp). simpl in Hu. rewrite nth_upd in Hu.
    destruct (Nat.eqb_spec i j) as [->|N].
    + rewrite Hi in Hu. injection Hu as <-. simpl in Hp. eapply Hs; eauto.
    + eapply W; eauto. exists u. auto.
Qed.

Lemma wk_cancel s i t :
  Wk s -> nth_error (tasks s) i = Some t ->
  Wk (set_task s i (mkTask (t_root t) (t_prio t) true (t_phase t))).
Proof.
  intros [[H|[u [Hu Ou]]]|W] Hi.
  - left. left. exact H.
  - left. right. apply In_nth_error in Hu as [j Hj]. simpl.
    destruct (Nat.eq_dec i j) as [->|N].
    + eexists. split; [eapply nth_error_In, nth_upd_eq; eauto|].
      rewrite Hi in Hj. injection Hj as <-. exact Ou.
    + exists u. split; auto. eapply nth_error_In. rewrite nth_upd_neq; eauto.
  - right. intros j w e Hw Ha.
    assert (Hw' : wins s j w e) by exact Hw. apply (W j w e Hw').
    destruct Ha as (u & Hu & Hp). simpl in Hu. rewrite nth_upd in Hu.
    destruct (Nat.eqb_spec i j) as [->|N]; [|exists u; auto].
    rewrite Hi in Hu. injection Hu as <-. exists t. auto.
Qed.

Lemma prioritize_unchanged s r :
  existsb (fun e => negb (prio_eqb (e_priority e)
     (effective_priority (e_root e) (e_requested e) (Some r)))) (queued s) = false ->
  map (fun e => mkEntry (e_id e) (e_root e) (e_requested e)
         (effective_priority (e_root e) (e_requested e) (Some r)) (e_order e)) (queued s)
  = queued s.
Proof.
  induction (queued s) as [|e l IH]; cbn [map existsb]; auto. intros H.
  apply orb_false_iff in H as [H1 H2]. rewrite IH by auto. f_equal.
  apply negb_false_iff, prio_eqb_eq in H1. rewrite <- H1. now destruct e.
Qed.

Theorem wk_step s o : Core s -> Wk s -> Wk (step s o).
Proof.
  intros C W. rewrite (step_eq s o C).
  assert (LK : forall i t n, nth_error (tasks s) i = Some t -> t_phase t = PArmed n ->
     Wk (lock_step s i t n)).
  { intros i t n Hi Hp.
    destruct (lock_step_cases s i t n C Hi Hp) as [[_ ->]|[[Hc (w & e & Wi & A & ->)]|[_ [NW ->]]]].
    - apply wk_local; auto; [unfold owes_phase; now rewrite Hp|discriminate].
    - left. eapply owes_new; [simpl; eapply nth_upd_eq; eauto|reflexivity].
    - apply wk_local; auto; unfold owes_phase; now rewrite Hp. }
  destruct o; simpl;
    try (destruct (nth_error (tasks s) i) as [t|] eqn:Hi; [|exact W]);
    try (destruct (t_phase t) eqn:Hp; try exact W);
    try (apply wk_notify).
  all: try (rewrite <- Hp; apply wk_cancel; auto; fail).
  - destruct W as [[H|[u [Hu Ou]]]|W].
    + left. left. exact H.
    + left. right. exists u. split; auto. simpl. apply in_app_iff. auto.
    + right. intros i w e Hw Ha. assert (Hw' : wins s i w e) by exact Hw.
      apply (W i w e Hw'). destruct Ha as (u & Hu & Pu). exists u. split; auto. simpl in Hu.
      destruct (Nat.lt_ge_cases i (length (tasks s))).
      * now rewrite nth_error_app1 in Hu by auto.
      * rewrite nth_error_app2 in Hu by auto.
        destruct (i - length (tasks s)) as [|k]; simpl in Hu.
        -- injection Hu as <-. discriminate.
        -- destruct k; discriminate.
  - left. eapply owes_new; [simpl; eapply nth_upd_eq; eauto|reflexivity].
  - destruct (t_cancelled t); apply wk_local; auto; try discriminate;
      unfold owes_phase; now rewrite Hp.
  - apply LK; auto.
  - destruct (t_cancelled t); [apply wk_local; auto; try discriminate; unfold owes_phase; now rewrite Hp|].
    destruct n; auto. apply wk_local; auto; try discriminate; unfold owes_phase; now rewrite Hp.
  - apply wk_local; auto; try discriminate; unfold owes_phase; now rewrite Hp.
  - apply wk_local; auto; try discriminate; unfold owes_phase; now rewrite Hp.
  - destruct (position _ _).
    + left. eapply owes_new; [simpl; eapply nth_upd_eq; eauto|reflexivity].
    + apply wk_local; auto; try discriminate; unfold owes_phase; now rewrite Hp.
  - destruct (core_release s i t C Hi Hp) as (H1 & H2 & H3).
    destruct (Nat.eqb_spec (active s) 0); [lia|].
    rewrite (proj2 (mem_In _ _) H1). simpl.
    left. eapply owes_new; [simpl; eapply nth_upd_eq; eauto|reflexivity].
  - unfold prioritize_step.
    destruct (match active_project s with Some a => negb (a =? root) | None => true end) eqn:E1;
      simpl; [left; left; simpl; lia|].
    destruct (existsb _ (queued s)) eqn:E2; [left; left; simpl; lia|].
    rewrite (prioritize_unchanged s root E2).
    destruct W as [[H|[u [Hu Ou]]]|W].
    + left. left. exact H.
    + left. right. exists u. auto.
    + right. intros i w e Hw Ha. exact (W i w e Hw Ha).
  - destruct (owed s); auto. apply wk_notify.
Qed.

Lemma wk_reachable lim s : reachable lim s -> Wk s.
Proof.
  intros [ops ->]. assert (G : forall s, Core s -> Wk s -> Wk (run s ops)).
  { induction ops as [|o ops IH]; simpl; auto. intros s C W. apply IH; [apply core_step|apply wk_step]; auto. }
  apply G; [apply core_init|]. right. intros i w e (_ & H & _) _. discriminate.
Qed.

Lemma run_local_wins s i t p w e : wins s i w e -> wins (set_phase s i t p) i w e.
Proof. exact (fun H => H). Qed.

(** From a waiting, awake, uncancelled winner: three own steps give the permit. *)
Lemma winner_progress s i w e t :
  Core s -> wins s i w e -> ~ In (e_root e) (active_projects s) ->
  nth_error (tasks s) i = Some t -> t_cancelled t = false ->
  (t_phase t = PTop \/ (exists n, t_phase t = PArmed n) \/ t_phase t = PBlocked true) ->
  holds (run s [OWake i; OTop i; OLock i]) i (e_root e).
Proof.
  assert (L : forall s t n, Core s -> wins s i w e -> ~ In (e_root e) (active_projects s) ->
    nth_error (tasks s) i = Some t -> t_cancelled t = false -> t_phase t = PArmed n ->
    holds (step s (OLock i)) i (e_root e)).
  { clear. intros s t n C W A Hi Hc Hp. rewrite step_eq by auto. simpl. rewrite Hi, Hp.
    destruct (lock_step_cases s i t n C Hi Hp) as [[E _]|[[_ (w' & e' & (L & B & Hw & Ei) & A' & ->)]|[_ [NW _]]]].
    - congruence.
    - destruct W as (_ & B2 & Hw2 & Ei2). rewrite B in B2. injection B2 as ->.
      rewrite Hw in Hw2. injection Hw2 as ->.
      apply holds_iff. eexists. simpl. split; [eapply nth_upd_eq; eauto|]. auto.
    - exfalso. eapply NW; eauto. }
  intros C W A Hi Hc Hp. simpl.
  assert (T : forall s t, Core s -> wins s i w e -> ~ In (e_root e) (active_projects s) ->
    nth_error (tasks s) i = Some t -> t_cancelled t = false -> t_phase t = PTop ->
    holds (step (step s (OTop i)) (OLock i)) i (e_root e)).
  { clear -L. intros s t C W A Hi Hc Hp.
    assert (E : step s (OTop i) = set_phase s i t (PArmed false)).
    { rewrite step_eq by auto. simpl. now rewrite Hi, Hp, Hc. }
    pose proof (core_step s (OTop i) C) as C'. rewrite E in *.
    apply (L _ (with_phase t (PArmed false)) false); auto. simpl; eapply nth_upd_eq; eauto. }
  destruct Hp as [Hp|[[n Hp]|Hp]].
  - assert (E : step s (OWake i) = s) by (rewrite step_eq by auto; simpl; now rewrite Hi, Hp).
    rewrite E. eapply T; eauto.
  - assert (E : step s (OWake i) = s) by (rewrite step_eq by auto; simpl; now rewrite Hi, Hp).
    rewrite E.
    assert (E2 : step s (OTop i) = s) by (rewrite step_eq by auto; simpl; now rewrite Hi, Hp).
    rewrite E2. eapply L; eauto.
  - assert (E : step s (OWake i) = set_phase s i t PTop).
    { rewrite step_eq by auto. simpl. now rewrite Hi, Hp, Hc. }
    pose proof (core_step s (OWake i) C) as C'. rewrite E in *.
    apply (T _ (with_phase t PTop)); auto. simpl; eapply nth_upd_eq; eauto.
Qed.

Lemma no_lost_wakeup lim s : reachable lim s ->
  ~ notify_outstanding s -> permits s < lim ->
  (exists i r p, waiting s i r p /\ idle s r) ->
  exists i r p, waiting s i r p /\ idle s r /\ ~ asleep s i /\
    (forall t, nth_error (tasks s) i = Some t -> t_cancelled t = false -> t_phase t <> PDropping ->
       holds (run s [OWake i; OTop i; OLock i]) i r).
Proof.
  intros R NO Hl (i0 & r0 & p0 & (e0 & He0 & _ & Er0 & _) & Id0).
  pose proof (core_reachable lim s R) as C. pose proof (wk_reachable lim s R) as Wq.
  destruct Wq as [H|W]; [contradiction|].
  destruct (best_with_fairness (queued s) (active_projects s) (burst s)) as [w|] eqn:Ew.
  - destruct (winner_spec _ _ _ _ Ew) as (e & He & A & _).
    pose proof (nth_error_In _ _ He) as Hin.
    assert (Wi : wins s (e_id e) w e).
    { repeat split; auto. rewrite (limit_reachable lim s R), <- (permits_active s C). auto. }
    exists (e_id e), (e_root e), (e_priority e).
    split; [exists e; auto|]. split; [now apply idle_iff|]. split; [eapply W; eauto|].
    intros t Ht Hc Hd. eapply winner_progress; eauto.
    destruct (c_ent s C e Hin) as (t' & Ht' & Q & _). rewrite Ht in Ht'. injection Ht' as <-.
    unfold inq in Q. destruct (t_phase t) eqn:Hp; try discriminate; auto.
    + exfalso. apply NO. eapply owes_new; eauto. unfold owes_phase. now rewrite Hp.
    + eauto.
    + destruct n; auto. exfalso. eapply W; eauto. exists t. auto.
    + congruence.
  - exfalso. pose proof (winner_none _ _ _ Ew e0 He0) as H. apply (idle_iff s r0 C) in Id0.
    congruence.
Qed.
