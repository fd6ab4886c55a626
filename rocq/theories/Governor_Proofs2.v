(** Admission order, accounting, wake-ups and fairness of the governor model. *)
From Coq Require Import List Arith Lia Bool Permutation.
From Verif Require Import Lib Governor_Model Governor_Spec Governor_Proofs.
Import ListNotations.
Local Arguments effective_priority : simpl never.

Lemma step_eq s o : Core s -> step s o = step_ok s o.
Proof. intros C. unfold step. now rewrite (c_np s C). Qed.

Lemma holds_iff s i w : holds s i w <->
  exists t, nth_error (tasks s) i = Some t /\ t_spec t = w /\ leased t = true.
Proof.
  unfold holds, leased. split; intros (t & H & R & P); exists t; repeat split; auto.
  - now rewrite P.
  - destruct (t_phase t); auto; discriminate.
Qed.

Lemma could_start_iff s w : Core s -> (could_start s w <-> fits (pol s) (adm s) w = true).
Proof.
  intros C. rewrite fits_iff. unfold could_start, leases, blocked_by_navigation.
  rewrite <- (c_tasks s C), <- (c_cpu s C), <- (c_mem s C), <- (c_io s C).
  assert (E : (w_par w = true -> nav_pending (adm s) = true -> active_project (adm s) = w_root w) <->
     w_par w && nav_pending (adm s) && negb (root_eqb (active_project (adm s)) (w_root w)) = false).
  { destruct (w_par w); simpl; [|easy]. destruct (nav_pending (adm s)); simpl; [|easy].
    rewrite negb_false_iff, root_eqb_eq. intuition. }
  rewrite E. tauto.
Qed.

(** ** Where new leases come from *)
Definition admitting (s : state) (o : op) (j : nat) : Prop :=
  exists t n w q, o = OLock j /\ nth_error (tasks s) j = Some t /\ t_phase t = PArmed n /\
    t_cancelled t = false /\ wins s j w q /\ fits (pol s) (adm s) (q_spec q) = true /\
    step s o = admit_state s j w t q.

Definition no_new (s s' : state) : Prop :=
  forall j t', nth_error (tasks s') j = Some t' -> leased t' = true ->
    exists t, nth_error (tasks s) j = Some t /\ leased t = true /\ t_spec t = t_spec t'.

Lemma no_new_refl s : no_new s s.
Proof. intros j t' H1 H2. eauto. Qed.

Lemma no_new_upd s s' i t t' :
  nth_error (tasks s) i = Some t -> tasks s' = upd (tasks s) i t' ->
  (leased t' = true -> leased t = true /\ t_spec t = t_spec t') -> no_new s s'.
Proof.
  intros Hi E H j u Hj Hu. rewrite E, nth_upd in Hj.
  destruct (Nat.eqb_spec i j) as [->|N]; eauto.
  rewrite Hi in Hj. injection Hj as <-. exists t. destruct (H Hu). auto.
Qed.

Lemma no_new_notify s s' : no_new s s' -> no_new s (notify_all s').
Proof.
  intros H j u Hj Hu. simpl in Hj. rewrite nth_error_map in Hj.
  destruct (nth_error (tasks s') j) as [v|] eqn:E; [|discriminate]. simpl in Hj.
  injection Hj as <-. rewrite wake_leased in Hu. rewrite wake_spec. eauto.
Qed.

Lemma no_new_tasks s s' : tasks s' = tasks s -> no_new s s'.
Proof. intros E j u Hj Hu. rewrite E in Hj. eauto. Qed.

Ltac nn t := eapply no_new_upd; [eassumption|reflexivity|];
  unfold leased; simpl;
  repeat match goal with H : t_phase t = _ |- _ => rewrite H end; auto; try discriminate.

Lemma release_burst a w e a' : release a w e = Some a' -> burst a' = burst a.
Proof. unfold release. destruct (_ && _); [|discriminate]. now intros [= <-]. Qed.

Lemma step_cases s o : Core s ->
  (exists j, admitting s o j) \/ (no_new s (step s o) /\ burst (adm (step s o)) = burst (adm s)).
Proof.
  intros C.
  assert (K : forall j t n, o = OLock j -> nth_error (tasks s) j = Some t -> t_phase t = PArmed n ->
     (exists j, admitting s o j) \/
     (no_new s (lock_step s j t n) /\ burst (adm (lock_step s j t n)) = burst (adm s))).
  { intros j t n -> Hj Hp.
    destruct (lock_step_cases s j t n C Hj Hp) as [[_ ->]|[[Hc (w & q & W & A & E)]|[_ [_ ->]]]].
    - right. split; auto. nn t.
    - left. exists j, t, n, w, q. repeat split; auto; try apply W.
      rewrite step_eq by auto. simpl. now rewrite Hj, Hp.
    - right. split; auto. nn t. }
  rewrite (step_eq s o C). unfold step_ok.
  destruct o;
    try (destruct (nth_error (tasks s) i) as [t|] eqn:Hi; [|right; split; [apply no_new_refl|auto]]);
    try (destruct (t_phase t) eqn:Hp; try (right; split; [apply no_new_refl|auto; fail])).
  all: try (right; split; [nn t|reflexivity]).
  all: try (right; split; [apply no_new_notify; nn t|reflexivity]).
  - right. destruct (fits_policy w (pol s)); [|split; [apply no_new_refl|auto]].
    split; auto. intros j u Hj Hu. simpl in Hj.
    destruct (Nat.lt_ge_cases j (length (tasks s))).
    + rewrite nth_error_app1 in Hj by auto. eauto.
    + rewrite nth_error_app2 in Hj by auto. destruct (j - length (tasks s)) as [|k]; simpl in Hj.
      * injection Hj as <-. discriminate.
      * destruct k; discriminate.
  - right. destruct (t_cancelled t); (split; [nn t|reflexivity]).
  - eapply K; eauto.
  - right. destruct (t_cancelled t); [split; [nn t|reflexivity]|].
    destruct n; (split; [|reflexivity]); [nn t|apply no_new_refl].
  - right. destruct (position _ _); (split; [nn t|reflexivity]).
  - right. destruct (release _ _ _) as [a|] eqn:Er; [|split; [now apply no_new_tasks|reflexivity]].
    split; [nn t|]. simpl. eapply release_burst; eauto.
  - right. split; [now apply no_new_tasks|reflexivity].
  - right. unfold nav_step. destruct (_ && _); split; try reflexivity; now apply no_new_tasks.
  - right. unfold nav_step. destruct (_ && _); split; try reflexivity; now apply no_new_tasks.
  - right. destruct (owed s) eqn:Eo; [split; [apply no_new_refl|auto]|].
    split; [|reflexivity]. apply no_new_notify. now apply no_new_tasks.
Qed.

Lemma admits_admitting s o i w p : Core s -> admits s o i w p -> admitting s o i.
Proof.
  intros C (W & NH & H). destruct (step_cases s o C) as [[j A]|[NN _]].
  - destruct (Nat.eq_dec i j) as [->|N]; auto. exfalso.
    destruct A as (t & n & k & q & -> & Hj & Hp & Hc & Wi & An & E).
    rewrite E in H. apply holds_iff in H as (u & Hu & Hr & Hh). simpl in Hu.
    rewrite nth_upd_neq in Hu by auto. apply (NH w). apply holds_iff. eauto.
  - exfalso. apply holds_iff in H as (u & Hu & Hr & Hh).
    destruct (NN i u Hu Hh) as (t & Ht & Hh' & Hr'). apply (NH w).
    apply holds_iff. exists t. repeat split; congruence.
Qed.

Lemma in_queue_unique s e e' : Core s -> In e (queued (adm s)) -> In e' (queued (adm s)) ->
  q_id e = q_id e' -> e = e'.
Proof.
  intros C H H' E. pose proof (c_nd s C) as ND.
  revert H H' ND. induction (queued (adm s)) as [|a l IH]; simpl; [easy|].
  intros H H' ND. inversion ND as [|? ? NI ND']; subst.
  destruct H as [->|H], H' as [->|H']; auto.
  - exfalso. apply NI. rewrite E. now apply in_map.
  - exfalso. apply NI. rewrite <- E. now apply in_map.
Qed.

Lemma order_id s q : Core s -> In q (queued (adm s)) -> q_order q = q_id q.
Proof. intros C H. destruct (c_ent s C q H) as (t & _ & _ & _ & O & _). exact O. Qed.

(** ** Admission order *)
Lemma admission_order s o i w p : Core s -> admits s o i w p ->
  could_start s w /\
  ((p = Background /\
    forall j w', waiting s j w' Background -> could_start s w' -> i <= j) \/
   forall j w' p', waiting s j w' p' -> could_start s w' ->
      rank p < rank p' \/ (rank p = rank p' /\ i <= j)).
Proof.
  intros C AD. pose proof (admits_admitting s o i w p C AD) as A.
  destruct A as (t & n & k & q & -> & Hj & Hp & Hc & (Bw & Hw & Ei) & An & E).
  destruct AD as ((q2 & Hq2 & Ei2 & Er2 & Ep2) & _ & _).
  pose proof (nth_error_In _ _ Hw) as Hin.
  assert (q2 = q) by (apply (in_queue_unique s); auto; congruence). subst q2.
  split. { apply could_start_iff; auto. congruence. }
  destruct (winner_spec _ _ _ Bw) as (e3 & He3 & _ & F1 & F2).
  rewrite Hw in He3. injection He3 as <-.
  pose proof (order_id s q C Hin) as Oq.
  assert (D : (burst (adm s) >= 1 /\ exists x, In x (queued (adm s)) /\ fits_bg (pol s) (adm s) x = true)
     \/ ~ (burst (adm s) >= 1 /\ exists x, In x (queued (adm s)) /\ fits_bg (pol s) (adm s) x = true)).
  { destruct (Nat.le_gt_cases 1 (burst (adm s))) as [B|B]; [|right; lia].
    destruct (existsb (fits_bg (pol s) (adm s)) (queued (adm s))) eqn:Ex.
    - left. split; auto. apply existsb_exists in Ex. exact Ex.
    - right. intros [_ Hx]. apply existsb_exists in Hx. congruence. }
  destruct D as [D|D].
  - left. destruct (F1 D) as [P M]. split; [congruence|].
    intros j w' (x & Hx & <- & <- & Px) CS. rewrite <- Ei, <- Oq, <- (order_id s x C Hx).
    apply M; auto. apply fits_bg_iff. split; auto. now apply could_start_iff in CS.
  - right. intros j w' p' (x & Hx & <- & <- & <-) CS.
    rewrite <- Ep2, <- Ei, <- Oq, <- (order_id s x C Hx). apply F2; auto.
    now apply could_start_iff in CS.
Qed.

(** ** Project and navigation state follow the history *)
Lemma nav_step_adm s o : Core s ->
  (active_project (adm (step s o)), nav_pending (adm (step s o))) =
  nav_history (active_project (adm s), nav_pending (adm s)) [o].
Proof.
  intros C. rewrite (step_eq s o C). unfold step_ok.
  destruct o; cbn [nav_history fst snd];
    try (destruct (nth_error (tasks s) i) as [t|] eqn:Hi; [|reflexivity]);
    try (destruct (t_phase t) eqn:Hp; try reflexivity).
  - destruct (fits_policy _ _); reflexivity.
  - destruct (t_cancelled t); reflexivity.
  - destruct (lock_step_cases s i t n C Hi Hp) as [[_ ->]|[[_ (w & q & W & A & ->)]|[_ [_ ->]]]]; reflexivity.
  - destruct (t_cancelled t); try destruct n; reflexivity.
  - destruct (position _ _); reflexivity.
  - destruct (release _ _ _) eqn:E; [|reflexivity]. unfold release in E. destruct (_ && _); [|discriminate].
    injection E as <-. reflexivity.
  - reflexivity.
  - unfold nav_step. destruct (active_project (adm s)) as [a|] eqn:Ea; simpl.
    + destruct (Nat.eqb a r); simpl; [|now rewrite ?Ea].
      destruct (nav_pending (adm s)) eqn:En; simpl; rewrite ?Ea, ?En; auto.
    + now rewrite ?Ea.
  - unfold nav_step. destruct (active_project (adm s)) as [a|] eqn:Ea; simpl.
    + destruct (Nat.eqb a r); simpl; [|now rewrite ?Ea].
      destruct (nav_pending (adm s)) eqn:En; simpl; rewrite ?Ea, ?En; auto.
    + now rewrite ?Ea.
  - destruct (owed s); reflexivity.
Qed.

Lemma nav_history_cons c o ops : nav_history c (o :: ops) = nav_history (nav_history c [o]) ops.
Proof. destruct o; reflexivity. Qed.

Lemma nav_run ops : forall s, Core s ->
  (active_project (adm (run s ops)), nav_pending (adm (run s ops))) =
  nav_history (active_project (adm s), nav_pending (adm s)) ops.
Proof.
  induction ops as [|o ops IH]; intros s C; [reflexivity|]. cbn [run].
  rewrite IH by now apply core_step. rewrite nav_step_adm by auto. symmetry; apply nav_history_cons.
Qed.

(** ** Every admission ends exactly once *)
Definition ended (s : state) : nat :=
  completed (adm s) + panicked_tasks (adm s) + cancelled_after (adm s).

Lemma newly_notify s s' : newly s (notify_all s') = newly s s'.
Proof.
  unfold newly. induction (seq _ _) as [|i l IH]; cbn [count]; auto. rewrite IH. f_equal.
  cbn [notify_all set_tasks tasks]. rewrite nth_error_map. destruct (nth_error (tasks s) i); auto.
  destruct (nth_error (tasks s') i); simpl; auto. now rewrite wake_leased.
Qed.

Lemma newly_same s s' : tasks s' = tasks s -> newly s s' = 0.
Proof.
  intros E. unfold newly. rewrite E. induction (seq _ _) as [|i l IH]; simpl; auto. rewrite IH.
  destruct (nth_error (tasks s) i) as [t|]; auto. now destruct (leased t).
Qed.

Lemma count_single (p : nat -> bool) j l : NoDup l -> In j l -> (forall x, x <> j -> p x = false) ->
  count p l = if p j then 1 else 0.
Proof.
  intros ND. induction ND as [|x l NI ND IH]; simpl; [easy|]. intros [->|H] Hp.
  - assert (Z : count p l = 0).
    { clear IH ND. induction l as [|y l IH]; simpl; auto.
      rewrite Hp by (intros ->; apply NI; now left).
      rewrite IH; auto. intros K; apply NI; now right. }
    rewrite Z. lia.
  - rewrite IH by auto. rewrite (Hp x) by (intros ->; contradiction). lia.
Qed.

Lemma newly_upd s s' i t t' : nth_error (tasks s) i = Some t -> tasks s' = upd (tasks s) i t' ->
  newly s s' = if negb (leased t) && leased t' then 1 else 0.
Proof.
  intros Hi E. unfold newly. rewrite (count_single _ i).
  - rewrite Hi, E, (nth_upd_eq _ _ _ t) by auto. reflexivity.
  - apply seq_NoDup.
  - apply in_seq. split; [lia|]. simpl. apply nth_error_Some. congruence.
  - intros x N. rewrite E, nth_upd_neq by auto. destruct (nth_error (tasks s) x) as [u|]; auto.
    now destruct (leased u).
Qed.

Lemma leases_upd s s' i t t' : nth_error (tasks s) i = Some t -> tasks s' = upd (tasks s) i t' ->
  leases s' + (if leased t then 1 else 0) = leases s + (if leased t' then 1 else 0).
Proof. intros Hi E. unfold leases. rewrite E. apply count_upd; auto. Qed.

Lemma leases_notify s : leases (notify_all s) = leases s.
Proof. apply count_wake. Qed.

Lemma ended_step s o : Core s ->
  newly s (step s o) + leases s + ended s = leases (step s o) + ended (step s o).
Proof.
  intros C. rewrite (step_eq s o C).
  assert (U : forall s' i t t', nth_error (tasks s) i = Some t -> tasks s' = upd (tasks s) i t' ->
     leased t = leased t' -> ended s' = ended s ->
     newly s s' + leases s + ended s = leases s' + ended s').
  { intros s' i t t' Hi E L En. rewrite (newly_upd s s' i t t' Hi E).
    pose proof (leases_upd s s' i t t' Hi E). rewrite L in *. destruct (leased t'); simpl in *; lia. }
  assert (UN : forall s' i t t', nth_error (tasks s) i = Some t -> tasks s' = upd (tasks s) i t' ->
     leased t = leased t' -> ended s' = ended s ->
     newly s (notify_all s') + leases s + ended s = leases (notify_all s') + ended (notify_all s')).
  { intros s' i t t' Hi E L En. rewrite newly_notify, leases_notify.
    change (ended (notify_all s')) with (ended s'). eapply U; eauto. }
  assert (Sm : newly s s + leases s + ended s = leases s + ended s) by (rewrite newly_same; auto).
  unfold step_ok. destruct o;
    try (destruct (nth_error (tasks s) i) as [t|] eqn:Hi; [|exact Sm]);
    try (destruct (t_phase t) eqn:Hp; try exact Sm).
  all: try (eapply U; [exact Hi|reflexivity| |reflexivity]; unfold leased; simpl; now rewrite Hp).
  all: try (eapply UN; [exact Hi|reflexivity| |reflexivity]; unfold leased; simpl; now rewrite Hp).
  - destruct (fits_policy w (pol s)); [|exact Sm].
    unfold leases. simpl. rewrite count_app. simpl. unfold ended. simpl.
    assert (Z : newly s (set_tasks s (tasks s ++ [mkTask w false PTicketed])) = 0).
    { unfold newly. simpl. 
      assert (G : forall l, (forall x, In x l -> x < length (tasks s)) ->
         count (fun i => match nth_error (tasks s) i, nth_error (tasks s ++ [mkTask w false PTicketed]) i with
                  | Some t, Some t' => negb (leased t) && leased t' | _, _ => false end) l = 0).
      { induction l as [|i l IH]; intros Hl; simpl; auto. rewrite IH by (intros; apply Hl; now right).
        rewrite nth_error_app1 by (apply Hl; now left). destruct (nth_error (tasks s) i); auto.
        now destruct (leased t). }
      apply G. intros x Hx. apply in_seq in Hx. lia. }
    rewrite Z. lia.
  - destruct (t_cancelled t); eapply U; try exact Hi; try reflexivity; unfold leased; simpl; now rewrite Hp.
  - destruct (lock_step_cases s i t n C Hi Hp) as [[_ ->]|[[_ (w & q & W & A & ->)]|[_ [_ ->]]]].
    + eapply U; try exact Hi; try reflexivity; unfold leased; simpl; now rewrite Hp.
    + assert (L : leased t = false) by (unfold leased; now rewrite Hp).
      set (t' := mkTask (q_spec q) (t_cancelled t) PHolding).
      pose proof (newly_upd s (admit_state s i w t q) i t t' Hi eq_refl) as N.
      pose proof (leases_upd s (admit_state s i w t q) i t t' Hi eq_refl) as Le.
      rewrite L in *. simpl in N, Le. rewrite N. unfold ended. simpl. lia.
    + eapply U; try exact Hi; try reflexivity; unfold leased; simpl; now rewrite Hp.
  - destruct (t_cancelled t); [|destruct n; [|exact Sm]];
      (eapply U; try exact Hi; try reflexivity; unfold leased; simpl; now rewrite Hp).
  - destruct (position _ _); (eapply U; try exact Hi; try reflexivity; unfold leased; simpl; now rewrite Hp).
  - destruct (release_ok s i t e C Hi Hp) as (a & Ea & _). rewrite Ea.
    assert (L : leased t = true) by (unfold leased; now rewrite Hp).
    set (t' := with_phase t PReleaseOwes).
    set (s' := set_adm s a (upd (tasks s) i t')).
    pose proof (newly_upd s s' i t t' Hi eq_refl) as N.
    pose proof (leases_upd s s' i t t' Hi eq_refl) as Le.
    rewrite L in *. simpl in N, Le. rewrite N.
    unfold release in Ea. destruct (_ && _); [|discriminate]. injection Ea as Ea.
    unfold ended. unfold s'. simpl. rewrite <- Ea. simpl. unfold s' in Le. rewrite <- Ea in Le. destruct e; lia.
  - unfold prioritize_step. rewrite newly_same by reflexivity. reflexivity.
  - unfold nav_step. destruct (_ && _); rewrite newly_same by reflexivity; reflexivity.
  - unfold nav_step. destruct (_ && _); rewrite newly_same by reflexivity; reflexivity.
  - destruct (owed s); [exact Sm|]. rewrite newly_notify, leases_notify, newly_same by reflexivity. reflexivity.
Qed.

Lemma ended_run ops : forall s, Core s ->
  admissions s ops + leases s + ended s = leases (run s ops) + ended (run s ops).
Proof.
  induction ops as [|o ops IH]; intros s C; cbn [admissions run]; [lia|].
  pose proof (ended_step s o C). specialize (IH (step s o) (core_step s o C)). lia.
Qed.

(** ** Background fairness while a request could start *)
Definition evolves (s s' : state) : Prop :=
  forall j t, nth_error (tasks s) j = Some t ->
    exists t', nth_error (tasks s') j = Some t' /\
      (t_cancelled t = true -> t_cancelled t' = true) /\
      (pending_phase t' = true -> pending_phase t = true).

Lemma evolves_refl s s' : tasks s' = tasks s -> evolves s s'.
Proof. intros E j t H. exists t. now rewrite E. Qed.

Lemma evolves_upd s s' i t t' :
  nth_error (tasks s) i = Some t -> tasks s' = upd (tasks s) i t' ->
  (t_cancelled t = true -> t_cancelled t' = true) ->
  (pending_phase t' = true -> pending_phase t = true) -> evolves s s'.
Proof.
  intros Hi E Hc Hp j u Hj. rewrite E. destruct (Nat.eq_dec i j) as [->|N].
  - exists t'. rewrite Hi in Hj. injection Hj as <-. split; [eapply nth_upd_eq; eauto|auto].
  - exists u. rewrite nth_upd_neq by auto. auto.
Qed.

Lemma evolves_notify s s' : evolves s s' -> evolves s (notify_all s').
Proof.
  intros H j t Hj. destruct (H j t Hj) as (t' & Ht' & Hc & Hp). exists (wake t').
  simpl. rewrite nth_error_map, Ht'. split; [reflexivity|].
  destruct t' as [w c []]; simpl in *; auto.
Qed.

Ltac ev t := eapply evolves_upd; [eassumption|reflexivity| |];
  unfold pending_phase; simpl;
  repeat match goal with H : t_phase t = _ |- _ => rewrite H end; auto; try discriminate.

Lemma step_evolves s o : Core s -> evolves s (step s o).
Proof.
  intros C. rewrite (step_eq s o C). unfold step_ok.
  destruct o;
    try (destruct (nth_error (tasks s) i) as [t|] eqn:Hi; [|now apply evolves_refl]);
    try (destruct (t_phase t) eqn:Hp; try (now apply evolves_refl)).
  all: try (ev t; fail).
  all: try (apply evolves_notify; ev t; fail).
  - destruct (fits_policy _ _); [|now apply evolves_refl]. intros j t Hj. exists t. simpl. rewrite nth_error_app1; auto.
    apply nth_error_Some. congruence.
  - destruct (t_cancelled t); ev t.
  - destruct (lock_step_cases s i t n C Hi Hp) as [[_ ->]|[[Hc (w & e & W & A & ->)]|[_ [_ ->]]]];
      ev t.
  - destruct (t_cancelled t); [ev t|]. destruct n; [ev t|now apply evolves_refl].
  - destruct (position _ _); ev t.
  - destruct (release _ _ _); [ev t|now apply evolves_refl].
  - now apply evolves_refl.
  - unfold nav_step. destruct (_ && _); now apply evolves_refl.
  - unfold nav_step. destruct (_ && _); now apply evolves_refl.
  - destruct (owed s); [now apply evolves_refl|]. apply evolves_notify. now apply evolves_refl.
Qed.

Lemma newly_no_new s s' : no_new s s' -> newly s s' = 0.
Proof.
  intros H. unfold newly. induction (seq _ _) as [|i l IH]; simpl; auto. rewrite IH.
  destruct (nth_error (tasks s) i) as [t|] eqn:E; auto.
  destruct (nth_error (tasks s') i) as [t'|] eqn:E'; auto.
  destruct (leased t') eqn:Hh; [|now rewrite andb_false_r].
  destruct (H i t' E' Hh) as (u & Hu & Hhu & _). rewrite E in Hu. injection Hu as <-.
  now rewrite Hhu.
Qed.

Lemma count_pointwise {A} (p : A -> bool) : forall l l',
  (forall j t', nth_error l' j = Some t' -> p t' = true ->
     exists t, nth_error l j = Some t /\ p t = true) ->
  count p l' <= count p l.
Proof.
  intros l l'; revert l. induction l' as [|a l' IH]; intros l H; simpl; [lia|].
  destruct l as [|b l].
  - destruct (p a) eqn:E.
    + destruct (H 0 a eq_refl E) as (t & Ht & _). discriminate.
    + simpl. rewrite (IH []) by (intros j t' H1 H2; destruct (H (S j) t' H1 H2) as (t & Ht & _); discriminate).
      simpl. lia.
  - simpl. assert (count p l' <= count p l).
    { apply IH. intros j t' H1 H2. apply (H (S j) t' H1 H2). }
    destruct (p a) eqn:E; [|destruct (p b); lia].
    destruct (H 0 a eq_refl E) as (t & Ht & Hp). simpl in Ht. injection Ht as ->.
    rewrite Hp. lia.
Qed.

Lemma nth_firstn {A} (l : list A) : forall i j, nth_error (firstn i l) j =
  if Nat.ltb j i then nth_error l j else None.
Proof.
  induction l as [|a l IH]; intros [|i] [|j]; simpl; auto.
  - now destruct (Nat.ltb _ _).
  - rewrite IH. reflexivity.
Qed.

Lemma older_mono s s' i : evolves s s' -> i < length (tasks s) ->
  older_pending s' i <= older_pending s i.
Proof.
  intros E L. unfold older_pending. apply count_pointwise.
  intros j t' Hj Hp. rewrite nth_firstn in *. destruct (Nat.ltb_spec j i) as [Hji|]; [|discriminate].
  destruct (nth_error (tasks s) j) as [t|] eqn:Ht.
  - exists t. split; auto. destruct (E j t Ht) as (u & Hu & _ & HP). rewrite Hj in Hu.
    injection Hu as <-. auto.
  - apply nth_error_None in Ht. lia.
Qed.

Lemma firstn_upd {A} (l : list A) : forall i j x, firstn i (upd l j x) = upd (firstn i l) j x.
Proof. induction l as [|a l IH]; intros [|i] [|j] x; simpl; auto. now rewrite IH. Qed.

Lemma older_admit s j w t q i : nth_error (tasks s) j = Some t -> pending_phase t = true ->
  j < i -> S (older_pending (admit_state s j w t q) i) = older_pending s i.
Proof.
  intros Hj Hp L. unfold older_pending. simpl. rewrite firstn_upd.
  assert (H : nth_error (firstn i (tasks s)) j = Some t).
  { rewrite nth_firstn. now rewrite (proj2 (Nat.ltb_lt _ _) L). }
  pose proof (count_upd pending_phase _ _ (mkTask (q_spec q) (t_cancelled t) PHolding) _ H) as E.
  rewrite Hp in E. simpl in E. lia.
Qed.

Lemma waiting_task s i w p : Core s -> waiting s i w p ->
  exists t, nth_error (tasks s) i = Some t /\ inq t = true /\ leased t = false.
Proof.
  intros C (e & He & <- & _). destruct (c_ent s C e He) as (t & Ht & Q & _).
  exists t. split; auto. split; auto. unfold inq in Q. unfold leased. now destruct (t_phase t).
Qed.

Lemma potential_step s o i wk :
  Core s -> waiting s i wk Background -> could_start s wk ->
  waiting (step s o) i wk Background ->
  newly s (step s o) + (2 * older_pending (step s o) i + (1 - burst (adm (step s o))))
  <= 2 * older_pending s i + (1 - burst (adm s)).
Proof.
  intros C W I W'. pose proof (core_step s o C) as C'.
  assert (L : i < length (tasks s)).
  { destruct (waiting_task s i wk _ C W) as (t & Ht & _). apply nth_error_Some. congruence. }
  pose proof (older_mono s (step s o) i (step_evolves s o C) L) as M.
  destruct (step_cases s o C) as [[j A]|[NN EB]].
  2:{ rewrite (newly_no_new _ _ NN), EB. lia. }
  destruct A as (t & n & w & e & -> & Hj & Hp & Hc & (Bw & Hw & Ei) & An & E).
  rewrite E in *.
  assert (N : j <> i).
  { intros ->. destruct (waiting_task _ i wk _ C' W') as (u & Hu & _ & Hh). simpl in Hu.
    rewrite (nth_upd_eq _ _ _ t) in Hu by auto. injection Hu as <-. discriminate. }
  assert (Nw : newly s (admit_state s j w t e) <= 1).
  { rewrite (newly_upd s (admit_state s j w t e) j t _ Hj eq_refl). destruct (_ && _); lia. }
  assert (Pt : pending_phase t = true) by (unfold pending_phase; now rewrite Hp).
  pose proof (nth_error_In _ _ Hw) as Hin.
  pose proof (order_id s e C Hin) as Oe.
  destruct W as (x & Hx & Ex & Rx & Px).
  pose proof (order_id s x C Hx) as Ox.
  assert (Ax : fits_bg (pol s) (adm s) x = true).
  { apply fits_bg_iff. split; auto. unfold fits_q. rewrite Rx. now apply could_start_iff. }
  assert (Ebg : other_bg s j = true).
  { apply existsb_exists. exists x. split; auto. rewrite Ax, Ex.
    destruct (Nat.eqb_spec i j); [congruence|reflexivity]. }
  destruct (winner_spec _ _ _ Bw) as (e' & He' & _ & F1 & F2).
  rewrite Hw in He'. injection He' as <-.
  assert (NB : burst (adm (admit_state s j w t e)) =
               if prio_eqb (q_prio e) Background then 0 else S (burst (adm s))).
  { simpl. unfold next_burst. rewrite Ebg. simpl. now rewrite orb_false_r. }
  pose proof (c_burst s C) as Bs.
  destruct (prio_eqb (q_prio e) Background) eqn:Ep.
  - apply prio_eqb_eq in Ep.
    assert (Hlt : j < i).
    { assert (q_order e <= q_order x); [|lia].
      destruct (Nat.eq_dec (burst (adm s)) 0) as [B0|B0].
      - destruct (F2 ltac:(lia) x Hx) as [H|[_ H]]; auto.
        + apply fits_bg_iff in Ax. tauto.
        + rewrite Ep, Px in H. simpl in H. lia.
      - destruct F1 as [_ F1]; [split; [lia|eauto]|]. apply F1; auto. }
    pose proof (older_admit s j w t e i Hj Pt Hlt). rewrite NB. lia.
  - rewrite NB. destruct (Nat.eq_dec (burst (adm s)) 0) as [B0|B0].
    + rewrite B0 in *. lia.
    + exfalso. destruct F1 as [P _]; [split; [lia|eauto]|]. rewrite P in Ep. discriminate.
Qed.

Lemma background_bounded ops : forall s i w, Core s ->
  (forall s', In s' (states s ops) -> waiting s' i w Background /\ could_start s' w) ->
  admissions s ops <= 2 * older_pending s i + (1 - burst (adm s)).
Proof.
  induction ops as [|o ops IH]; intros s i w C H; cbn [admissions]; [lia|].
  pose proof (core_step s o C) as C'.
  assert (W : waiting s i w Background /\ could_start s w) by (apply H; now left).
  assert (W' : waiting (step s o) i w Background).
  { apply H. simpl. right. destruct ops; now left. }
  assert (admissions (step s o) ops <= 2 * older_pending (step s o) i + (1 - burst (adm (step s o)))).
  { apply (IH _ i w C'). intros s' Hs'. apply H. simpl. now right. }
  pose proof (potential_step s o i w C (proj1 W) (proj2 W) W'). lia.
Qed.
