(** Wake-ups and the starvation family of the governor model. *)
From Coq Require Import List Arith Lia Bool Permutation.
From Verif Require Import Lib Governor_Model Governor_Spec Governor_Proofs Governor_Proofs2.
Import ListNotations.
Local Arguments effective_priority : simpl never.

(** The winner is determined by who waits. *)
Lemma wins_shrink s a' i w q :
  Core s ->
  incl (queued (adm s)) (queued a') ->
  (forall x, In x (queued a') -> In x (queued (adm s)) \/ q_id x <> i) ->
  (forall x, fits_q (pol s) a' x = fits_q (pol s) (adm s) x) -> burst a' = burst (adm s) ->
  winner (pol s) a' = Some w -> nth_error (queued a') w = Some q -> q_id q = i ->
  exists w', wins s i w' q.
Proof.
  intros C Sub New F B Hw Hq Ei.
  destruct (winner_spec _ _ _ Hw) as (q2 & Hq2 & Fq & G1 & G2).
  rewrite Hq in Hq2. injection Hq2 as <-.
  assert (Hin : In q (queued (adm s))).
  { destruct (New q (nth_error_In _ _ Hq)); auto. congruence. }
  rewrite F in Fq.
  assert (FB : forall x, fits_bg (pol s) a' x = fits_bg (pol s) (adm s) x).
  { intros x. unfold fits_bg. now rewrite F. }
  destruct (winner (pol s) (adm s)) as [w'|] eqn:Ew.
  2:{ rewrite (winner_none _ _ Ew q Hin) in Fq. discriminate. }
  destruct (winner_spec _ _ _ Ew) as (y & Hy & Fy & H1 & H2).
  pose proof (nth_error_In _ _ Hy) as Hyin.
  assert (E : y = q).
  { apply (in_queue_unique s); auto. rewrite <- (order_id s y), <- (order_id s q) by auto.
    assert (D : (burst (adm s) >= 1 /\ exists x, In x (queued a') /\ fits_bg (pol s) a' x = true)
       \/ ~ (burst (adm s) >= 1 /\ exists x, In x (queued a') /\ fits_bg (pol s) a' x = true)).
    { destruct (Nat.le_gt_cases 1 (burst (adm s))) as [Bu|Bu]; [|right; lia].
      destruct (existsb (fits_bg (pol s) a') (queued a')) eqn:Ex.
      - left. split; auto. apply existsb_exists in Ex. exact Ex.
      - right. intros [_ Hx]. apply existsb_exists in Hx. congruence. }
    rewrite B in *. destruct D as [D|D].
    - destruct (G1 D) as [P M].
      assert (Fqb : fits_bg (pol s) (adm s) q = true) by (apply fits_bg_iff; auto).
      destruct H1 as [P' M']; [split; [apply D|eauto]|].
      assert (Fyb : fits_bg (pol s) (adm s) y = true) by (apply fits_bg_iff; auto).
      specialize (M' q Hin Fqb). specialize (M y (Sub y Hyin)). rewrite FB in M. specialize (M Fyb). lia.
    - specialize (G2 D y (Sub y Hyin)). rewrite F in G2. specialize (G2 Fy).
      assert (D' : ~ (burst (adm s) >= 1 /\ exists x, In x (queued (adm s)) /\ fits_bg (pol s) (adm s) x = true)).
      { intros [X1 (x & X2 & X3)]. apply D. split; auto. exists x. rewrite FB. auto. }
      specialize (H2 D' q Hin Fq). lia. }
  subst y. exists w'. repeat split; auto.
Qed.

Definition Wk (s : state) : Prop :=
  notify_outstanding s \/ leases s > 0 \/ (forall i w q, wins s i w q -> ~ asleep s i).

Lemma outstanding_upd s s' i t t' :
  nth_error (tasks s) i = Some t -> tasks s' = upd (tasks s) i t' -> owed s' = owed s ->
  owes_phase t = false -> notify_outstanding s -> notify_outstanding s'.
Proof.
  intros Hi E Eo Ho [H|[u [Hu Ou]]]; [left; lia|right].
  apply In_nth_error in Hu as [j Hj]. exists u. split; auto.
  apply (nth_error_In _ j). rewrite E, nth_upd_neq; auto.
  intros ->. rewrite Hi in Hj. injection Hj as <-. congruence.
Qed.

Lemma owes_new s i t : nth_error (tasks s) i = Some t -> owes_phase t = true ->
  notify_outstanding s.
Proof. intros H O. right. exists t. split; auto. eapply nth_error_In; eauto. Qed.

Lemma notify_not_asleep s i : ~ asleep (notify_all s) i.
Proof.
  intros (t & Ht & Hp). simpl in Ht. rewrite nth_error_map in Ht.
  destruct (nth_error (tasks s) i) as [u|]; [|discriminate]. simpl in Ht. injection Ht as <-.
  destruct u as [r c []]; discriminate.
Qed.

Lemma wk_notify s : Wk (notify_all s).
Proof. right. right. intros. apply notify_not_asleep. Qed.

Lemma leases_pos_upd s s' i t t' : nth_error (tasks s) i = Some t -> tasks s' = upd (tasks s) i t' ->
  leased t' = leased t -> leases s > 0 -> leases s' > 0.
Proof. intros Hi E L H. pose proof (leases_upd s s' i t t' Hi E). rewrite L in *. destruct (leased t); lia. Qed.

(** A step of task [i] that leaves the queue alone. *)
Lemma wk_local s s' i t t' :
  Wk s -> nth_error (tasks s) i = Some t -> tasks s' = upd (tasks s) i t' -> owed s' = owed s ->
  (owes_phase t' = true \/ owes_phase t = false) -> leased t' = leased t ->
  (forall j w q, wins s' j w q -> (exists w', wins s j w' q) \/ (j = i /\ t_phase t' <> PBlocked false)) ->
  (t_phase t' = PBlocked false -> t_phase t = PBlocked false \/ forall w e, ~ wins s i w e) ->
  Wk s'.
Proof.
  intros W Hi E Eo Ho L Hw Hs. destruct Ho as [Ho|Ho].
  { left. eapply owes_new; eauto. rewrite E. eapply nth_upd_eq; eauto. }
  destruct W as [O|[Le|W]].
  - left. eapply outstanding_upd; eauto.
  - right. left. eapply leases_pos_upd; eauto.
  - right. right. intros j w q W' (u & Hu & Hp). rewrite E, nth_upd in Hu.
    destruct (Nat.eqb_spec i j) as [->|N].
    + rewrite Hi in Hu. injection Hu as <-.
      destruct (Hw j w q W') as [[w' Hw']|[_ K]]; [|contradiction].
      destruct (Hs Hp) as [K|K].
      * apply (W j w' q Hw'). exists t. auto.
      * apply (K w' q Hw').
    + destruct (Hw j w q W') as [[w' Hw']|[K _]]; [|congruence].
      apply (W j w' q Hw'). exists u. auto.
Qed.

Lemma prioritize_unchanged q r :
  existsb (fun q => negb (prio_eqb (q_prio q) (effective_priority (q_spec q) (Some r)))) q = false ->
  map (fun q => mkWork (q_id q) (q_spec q) (effective_priority (q_spec q) (Some r)) (q_order q)) q = q.
Proof.
  induction q as [|e l IH]; cbn [map existsb]; auto. intros H.
  apply orb_false_iff in H as [H1 H2]. rewrite IH by auto. f_equal.
  apply negb_false_iff, prio_eqb_eq in H1. rewrite <- H1. now destruct e.
Qed.

Lemma wk_same s s' : Wk s -> tasks s' = tasks s -> owed s' = owed s ->
  (forall j w q, wins s' j w q -> wins s j w q) -> Wk s'.
Proof.
  intros [[H|[u [Hu Ou]]]|[H|W]] E Eo Hw.
  - left. left. lia.
  - left. right. exists u. rewrite E. auto.
  - right. left. unfold leases in *. now rewrite E.
  - right. right. intros j w q Hj Ha. apply (W j w q (Hw _ _ _ Hj)).
    unfold asleep in *. now rewrite E in Ha.
Qed.

Ltac lo := unfold owes_phase, leased; simpl; repeat match goal with H : t_phase _ = _ |- _ => rewrite H end; auto; try discriminate.
Ltac wkl W Hi := eapply wk_local; [exact W|exact Hi|reflexivity|reflexivity|lo|lo|
   intros ? ? ? HW; left; eexists; exact HW|lo].

Theorem wk_step s o : Core s -> Wk s -> Wk (step s o).
Proof.
  intros C W. rewrite (step_eq s o C).
  assert (LK : forall i t n, nth_error (tasks s) i = Some t -> t_phase t = PArmed n ->
     Wk (lock_step s i t n)).
  { intros i t n Hi Hp.
    destruct (lock_step_cases s i t n C Hi Hp) as [[_ ->]|[[Hc (w & q & Wi & A & ->)]|[_ [NW ->]]]].
    - wkl W Hi.
    - right. left. unfold leases, admit_state. simpl. apply count_pos. eexists. split.
      + eapply nth_error_In. eapply nth_upd_eq; eauto.
      + reflexivity.
    - wkl W Hi. }
  unfold step_ok. destruct o;
    try (destruct (nth_error (tasks s) i) as [t|] eqn:Hi; [|exact W]);
    try (destruct (t_phase t) eqn:Hp; try exact W);
    try (apply wk_notify).
  all: try (wkl W Hi; fail).
  - (* OTicket *) destruct (fits_policy w (pol s)); auto. destruct W as [[H|[u [Hu Ou]]]|[H|W]].
    + left. left. exact H.
    + left. right. exists u. split; auto. simpl. apply in_app_iff. auto.
    + right. left. unfold leases in *. simpl. rewrite count_app. lia.
    + right. right. intros i k e Hw Ha. apply (W i k e Hw). destruct Ha as (u & Hu & Pu).
      exists u. split; auto. simpl in Hu.
      destruct (Nat.lt_ge_cases i (length (tasks s))).
      * now rewrite nth_error_app1 in Hu by auto.
      * rewrite nth_error_app2 in Hu by auto.
        destruct (i - length (tasks s)) as [|m]; simpl in Hu.
        -- injection Hu as <-. discriminate.
        -- destruct m; discriminate.
  - (* OPush *)
    eapply wk_local; [exact W|exact Hi|reflexivity|reflexivity|lo|lo| |lo].
    intros j w q (H1 & H2 & H3). destruct (Nat.eq_dec j i) as [->|N].
    + right. split; auto. discriminate.
    + left. simpl in H1, H2. eapply wins_shrink; [exact C| | | | |exact H1|exact H2|exact H3].
      * simpl. intros x Hx. apply in_app_iff. auto.
      * simpl. intros x Hx. apply in_app_iff in Hx as [Hx|[<-|[]]]; auto.
      * reflexivity.
      * reflexivity.
  - destruct (t_cancelled t); wkl W Hi.
  - apply LK; auto.
  - destruct (t_cancelled t); [wkl W Hi|]. destruct n; [wkl W Hi|auto].
  - destruct (position _ _).
    + left. eapply owes_new; [simpl; eapply nth_upd_eq; eauto|reflexivity].
    + wkl W Hi.
  - destruct (release_ok s i t e C Hi Hp) as (a & -> & _).
    left. eapply owes_new; [simpl; eapply nth_upd_eq; eauto|reflexivity].
  - unfold prioritize_step.
    destruct (negb (root_eqb (active_project (adm s)) (Some r))) eqn:E1; [left; left; simpl; lia|].
    destruct (negb (Bool.eqb (nav_pending (adm s)) nav)) eqn:E2; [left; left; simpl; lia|].
    destruct (existsb _ (queued (adm s))) eqn:E3; [left; left; simpl; lia|].
    rewrite (prioritize_unchanged _ r E3). cbn [orb].
    apply negb_false_iff, root_eqb_eq in E1. apply negb_false_iff, Bool.eqb_prop in E2.
    eapply wk_same; [exact W|reflexivity|reflexivity|].
    intros j w q Hw. rewrite <- E1, <- E2 in Hw. exact Hw.
  - unfold nav_step. destruct (_ && _); auto. left. left. simpl. lia.
  - unfold nav_step. destruct (_ && _); auto. left. left. simpl. lia.
  - destruct (owed s); auto. apply wk_notify.
Qed.

Lemma wk_reachable p s : reachable p s -> Wk s.
Proof.
  intros [ops ->]. assert (G : forall s, Core s -> Wk s -> Wk (run s ops)).
  { induction ops as [|o ops IH]; simpl; auto. intros s C W. apply IH; [apply core_step|apply wk_step]; auto. }
  apply G; [apply core_init|]. right. right. intros i w e (H & _) _. discriminate.
Qed.

Lemma winner_progress s i w q t :
  Core s -> wins s i w q ->
  nth_error (tasks s) i = Some t -> t_cancelled t = false ->
  (t_phase t = PTop \/ (exists n, t_phase t = PArmed n) \/ t_phase t = PBlocked true) ->
  holds (run s [OWake i; OTop i; OLock i]) i (q_spec q).
Proof.
  assert (L : forall s t n, Core s -> wins s i w q ->
    nth_error (tasks s) i = Some t -> t_cancelled t = false -> t_phase t = PArmed n ->
    holds (step s (OLock i)) i (q_spec q)).
  { clear. intros s t n C W Hi Hc Hp. rewrite step_eq by auto. simpl. rewrite Hi, Hp.
    destruct (lock_step_cases s i t n C Hi Hp) as [[E _]|[[_ (w' & e' & (B & Hw & Ei) & A' & ->)]|[_ [NW _]]]].
    - congruence.
    - destruct W as (B2 & Hw2 & Ei2). rewrite B in B2. injection B2 as ->.
      rewrite Hw in Hw2. injection Hw2 as ->.
      apply holds_iff. eexists. simpl. split; [eapply nth_upd_eq; eauto|]. auto.
    - exfalso. eapply NW; eauto. }
  intros C W Hi Hc Hp. cbn [run].
  assert (T : forall s t, Core s -> wins s i w q ->
    nth_error (tasks s) i = Some t -> t_cancelled t = false -> t_phase t = PTop ->
    holds (step (step s (OTop i)) (OLock i)) i (q_spec q)).
  { clear -L. intros s t C W Hi Hc Hp.
    assert (E : step s (OTop i) = set_phase s i t (PArmed false)).
    { rewrite step_eq by auto. simpl. now rewrite Hi, Hp, Hc. }
    pose proof (core_step s (OTop i) C) as C'. rewrite E in *.
    apply (L _ (with_phase t (PArmed false)) false); auto. simpl; eapply nth_upd_eq; eauto. }
  destruct Hp as [Hp|[[n Hp]|Hp]].
  - assert (E : step s (OWake i) = s) by (rewrite step_eq by auto; simpl; now rewrite Hi, Hp).
    rewrite E. eapply T; eauto.
  - assert (E : step s (OWake i) = s) by (rewrite step_eq by auto; simpl; now rewrite Hi, Hp).
    rewrite E.
    assert (E2 : step s (OTop i) = s) by (rewrite step_eq by auto; simpl; now rewrite Hi, Hp).
    rewrite E2. eapply L; eauto.
  - assert (E : step s (OWake i) = set_phase s i t PTop).
    { rewrite step_eq by auto. simpl. now rewrite Hi, Hp, Hc. }
    pose proof (core_step s (OWake i) C) as C'. rewrite E in *.
    apply (T _ (with_phase t PTop)); auto. simpl; eapply nth_upd_eq; eauto.
Qed.

Lemma no_lost_wakeup_idle p s : reachable p s ->
  ~ notify_outstanding s -> leases s = 0 ->
  (exists i w q, waiting s i w q /\ could_start s w) ->
  exists i w q, waiting s i w q /\ could_start s w /\ ~ asleep s i /\
    (forall t, nth_error (tasks s) i = Some t -> t_cancelled t = false ->
       t_phase t <> PDropping -> t_phase t <> PCancelling ->
       holds (run s [OWake i; OTop i; OLock i]) i w).
Proof.
  intros R NO Hl (i0 & w0 & p0 & (e0 & He0 & _ & Er0 & _) & Id0).
  pose proof (core_reachable p s R) as C. pose proof (wk_reachable p s R) as Wq.
  destruct Wq as [H|[H|W]]; [contradiction|lia|].
  destruct (winner (pol s) (adm s)) as [k|] eqn:Ew.
  - destruct (winner_spec _ _ _ Ew) as (e & He & A & _).
    pose proof (nth_error_In _ _ He) as Hin.
    assert (Wi : wins s (q_id e) k e) by (repeat split; auto).
    exists (q_id e), (q_spec e), (q_prio e).
    split; [exists e; auto|]. split; [now apply could_start_iff|]. split; [eapply W; eauto|].
    intros t Ht Hc Hd Hd2. eapply winner_progress; eauto.
    destruct (c_ent s C e Hin) as (t' & Ht' & Q & _). rewrite Ht in Ht'. injection Ht' as <-.
    unfold inq in Q. destruct (t_phase t) eqn:Hp; try discriminate; try congruence; eauto.
    destruct n; auto. exfalso. eapply W; eauto. exists t. auto.
  - exfalso. pose proof (winner_none _ _ Ew e0 He0) as H. apply (could_start_iff s w0 C) in Id0.
    unfold fits_q in H. congruence.
Qed.

(** ** A wide background request can be overtaken for ever *)
Definition P2 : policy := mkPolicy 2 2 0 0.
Definition wide : spec := mkSpec None Background 2 0 0 false.
Definition narrow : spec := mkSpec None Background 1 0 0 false.
Definition big : work := mkWork 0 wide Background 0.
Definition nq (k : nat) : work := mkWork k narrow Background k.
Definition tb : task := mkTask wide false PTop.
Definition tk (p : phase) : task := mkTask narrow false p.
(** request 0 waits, requests 1..k are over *)
Definition past (k : nat) : list task := tb :: repeat (tk PDone) k.
Definition A (q : list work) (n d : nat) : admission :=
  mkAdm q n n 0 0 2 2 0 0 d 0 0 0 None 0 0 false.
(** request [k+1] holds one lane *)
Definition S0 (k : nat) : state := mkState P2 (A [big] 1 k) (past k ++ [tk PHolding]) 0 false.
(** ... and request [k+2] is in phase [p] *)
Definition S1 (k : nat) (q : list work) (n d : nat) (p1 p2 : phase) : state :=
  mkState P2 (A q n d) (past k ++ [tk p1; tk p2]) 0 false.
Definition cycle (k : nat) : list op :=
  [OTicket narrow; OPush (2 + k); OTop (2 + k); OLock (2 + k); ORelease (1 + k) Completed; ONotify (1 + k)].

Lemma past_len k : length (past k) = S k.
Proof. unfold past. simpl. now rewrite repeat_length. Qed.

Lemma nth_past1 k x y : nth_error (past k ++ [x; y]) (1 + k) = Some x.
Proof. rewrite nth_error_app2 by (rewrite past_len; lia). rewrite past_len.
  replace (1 + k - S k) with 0 by lia. reflexivity. Qed.
Lemma nth_past2 k x y : nth_error (past k ++ [x; y]) (2 + k) = Some y.
Proof. rewrite nth_error_app2 by (rewrite past_len; lia). rewrite past_len.
  replace (2 + k - S k) with 1 by lia. reflexivity. Qed.
Lemma upd_app {X} (l : list X) m i x : upd (l ++ m) (length l + i) x = l ++ upd m i x.
Proof. induction l; simpl; auto. now rewrite IHl. Qed.
Lemma upd_past1 k x y z : upd (past k ++ [x; y]) (1 + k) z = past k ++ [z; y].
Proof. replace (1 + k) with (length (past k) + 0) by (rewrite past_len; lia). now rewrite upd_app. Qed.
Lemma upd_past2 k x y z : upd (past k ++ [x; y]) (2 + k) z = past k ++ [x; z].
Proof. replace (2 + k) with (length (past k) + 1) by (rewrite past_len; lia). now rewrite upd_app. Qed.
Lemma wake_past k : map wake (past k) = past k.
Proof. unfold past. simpl. f_equal. induction k; simpl; auto. now rewrite IHk. Qed.
Lemma past_snoc k l : past k ++ tk PDone :: l = past (S k) ++ l.
Proof.
  change (tk PDone :: l) with ([tk PDone] ++ l). rewrite app_assoc. f_equal.
  unfold past. simpl. f_equal. rewrite <- repeat_cons. reflexivity.
Qed.

Ltac one H1 H2 := unfold step; match goal with |- (if panicked ?s then _ else _) = _ =>
   change (panicked s) with false end; cbv iota; unfold step_ok, S1; cbn [tasks];
  rewrite H1; cbn [tk t_phase t_cancelled t_spec]; unfold set_phase, set_tasks, set_adm, notify_all;
  cbn [tasks]; rewrite ?H2; try reflexivity.

Lemma c1 k : step (S0 k) (OTicket narrow) = S1 k [big] 1 k PHolding PTicketed.
Proof. unfold step, S0, S1. simpl. unfold set_tasks. simpl. now rewrite <- app_assoc. Qed.
Lemma c2 k : step (S1 k [big] 1 k PHolding PTicketed) (OPush (2 + k)) = S1 k [big; nq (2 + k)] 1 k PHolding PTop.
Proof. one nth_past2 upd_past2. Qed.
Lemma c3 k : step (S1 k [big; nq (2 + k)] 1 k PHolding PTop) (OTop (2 + k))
  = S1 k [big; nq (2 + k)] 1 k PHolding (PArmed false).
Proof. one nth_past2 upd_past2. Qed.
Lemma c4 k : step (S1 k [big; nq (2 + k)] 1 k PHolding (PArmed false)) (OLock (2 + k))
  = S1 k [big] 2 k PHolding PHolding.
Proof.
  one nth_past2 upd_past2. unfold lock_step. cbn [t_cancelled].
  assert (Wn : winner P2 (A [big; nq (2 + k)] 1 k) = Some 1) by reflexivity.
  cbn [pol adm]. rewrite Wn. cbn [A queued nth_error nq q_id]. rewrite Nat.eqb_refl.
  unfold S1. rewrite <- (upd_past2 k (tk PHolding) (tk (PArmed false)) (tk PHolding)). reflexivity.
Qed.
Lemma c5 k : step (S1 k [big] 2 k PHolding PHolding) (ORelease (1 + k) Completed)
  = S1 k [big] 1 (S k) PReleaseOwes PHolding.
Proof. one nth_past1 upd_past1. Qed.
Lemma c6 k : step (S1 k [big] 1 (S k) PReleaseOwes PHolding) (ONotify (1 + k)) = S0 (S k).
Proof.
  one nth_past1 upd_past1. rewrite map_app, wake_past. unfold S0.
  rewrite <- past_snoc. reflexivity.
Qed.

Lemma cycle_run k : run (S0 k) (cycle k) = S0 (S k).
Proof. unfold cycle. cbn [run]. now rewrite c1, c2, c3, c4, c5, c6. Qed.

Lemma cycle_states k x : In x (states (S0 k) (cycle k)) -> waiting x 0 wide Background.
Proof.
  unfold cycle. cbn [states]. rewrite c1, c2, c3, c4, c5, c6.
  intros H. repeat (destruct H as [<-|H]; [exists big; simpl; auto|]). destruct H.
Qed.

Lemma cycle_admissions k : 1 <= admissions (S0 k) (cycle k).
Proof.
  unfold cycle. cbn [admissions]. rewrite c1, c2, c3, c4.
  enough (1 <= newly (S1 k [big; nq (2 + k)] 1 k PHolding (PArmed false)) (S1 k [big] 2 k PHolding PHolding)) by lia.
  rewrite (newly_upd _ _ (2 + k) (tk (PArmed false)) (tk PHolding)).
  - reflexivity.
  - apply nth_past2.
  - symmetry. apply upd_past2.
Qed.

Lemma states_app l1 : forall s l2 x, In x (states s (l1 ++ l2)) ->
  In x (states s l1) \/ In x (states (run s l1) l2).
Proof.
  induction l1 as [|o l1 IH]; simpl; intros s l2 x H; auto.
  destruct H as [H|H]; auto. apply IH in H as [H|H]; auto.
Qed.

Lemma admissions_app l1 : forall s l2,
  admissions s (l1 ++ l2) = admissions s l1 + admissions (run s l1) l2.
Proof. induction l1; intros; cbn [admissions app run]; auto. rewrite IHl1. lia. Qed.

Fixpoint cycles (k n : nat) : list op :=
  match n with 0 => [] | S m => cycle k ++ cycles (S k) m end.

Lemma cycles_ok n : forall k, n <= admissions (S0 k) (cycles k n) /\
  (forall x, In x (states (S0 k) (cycles k n)) -> waiting x 0 wide Background).
Proof.
  induction n as [|n IH]; intros k; cbn [cycles].
  - split; [simpl; lia|]. simpl. intros x [<-|[]]. exists big. simpl. auto.
  - destruct (IH (S k)) as [B1 B2]. split.
    + rewrite admissions_app, cycle_run. pose proof (cycle_admissions k). lia.
    + intros x H. apply states_app in H as [H|H]; [eapply cycle_states; eauto|].
      rewrite cycle_run in H. auto.
Qed.

(** The starting point of the cycles is reachable (both peaks have reached two). *)
Definition to_S0 : list op :=
  [OTicket wide; OTicket narrow; OPush 1; OTop 1; OLock 1; OPush 0] ++
  [OTicket narrow; OPush 2; OTop 2; OLock 2; ORelease 1 Completed; ONotify 1].
Lemma S0_reach : run (init P2) to_S0 = S0 1.
Proof. reflexivity. Qed.
