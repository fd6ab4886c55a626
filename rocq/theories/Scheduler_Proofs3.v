(** Starvation and cancellation lemmas of the scheduler model. *)
From Coq Require Import List Arith Lia Bool Permutation.
From Verif Require Import Lib Scheduler_Model Scheduler_Spec Scheduler_Proofs Scheduler_Proofs2.
Import ListNotations.
Local Arguments effective_priority : simpl never.

(** ** How a task may change in one step *)
Definition evolves (s s' : state) : Prop :=
  forall j t, nth_error (tasks s) j = Some t ->
    exists t', nth_error (tasks s') j = Some t' /\
      (t_cancelled t = true -> t_cancelled t' = true) /\
      (pending_phase t' = true -> pending_phase t = true).

Lemma evolves_refl s s' : tasks s' = tasks s -> evolves s s'.
Proof. intros E j t H. exists t. now rewrite E. Qed.

Lemma evolves_upd s s' i t t' :
  nth_error (tasks s) i = Some t -> tasks s' = upd (tasks s) i t' ->
  (t_cancelled t = true -> t_cancelled t' = true) ->
  (pending_phase t' = true -> pending_phase t = true) -> evolves s s'.
Proof.
  intros Hi E Hc Hp j u Hj. rewrite E. destruct (Nat.eq_dec i j) as [->|N].
  - exists t'. rewrite Hi in Hj. injection Hj as <-. split; [eapply nth_upd_eq; eauto|auto].
  - exists u. rewrite nth_upd_neq by auto. auto.
Qed.

Lemma evolves_notify s s' : evolves s s' -> evolves s (notify_all s').
Proof.
  intros H j t Hj. destruct (H j t Hj) as (t' & Ht' & Hc & Hp). exists (wake t').
  simpl. rewrite nth_error_map, Ht'. split; [reflexivity|].
  destruct t' as [r p c []]; simpl in *; auto.
Qed.

Ltac ev t := eapply evolves_upd; [eassumption|reflexivity| |];
  unfold pending_phase; simpl;
  repeat match goal with H : t_phase t = _ |- _ => rewrite H end; auto; try discriminate.

Lemma step_evolves s o : Core s -> evolves s (step s o).
Proof.
  intros C. rewrite (step_eq s o C).
  destruct o; simpl;
    try (destruct (nth_error (tasks s) i) as [t|] eqn:Hi; [|now apply evolves_refl]);
    try (destruct (t_phase t) eqn:Hp; try (now apply evolves_refl)).
  all: try (ev t; fail).
  all: try (apply evolves_notify; ev t; fail).
  - intros j t Hj. exists t. simpl. rewrite nth_error_app1; auto.
    apply nth_error_Some. congruence.
  - destruct (t_cancelled t); ev t.
  - destruct (lock_step_cases s i t n C Hi Hp) as [[_ ->]|[[Hc (w & e & W & A & ->)]|[_ [_ ->]]]];
      ev t.
  - destruct (t_cancelled t); [ev t|]. destruct n; [ev t|now apply evolves_refl].
  - destruct (position _ _); ev t.
  - destruct (Nat.eqb _ _); [now apply evolves_refl|]. destruct (negb _); [now apply evolves_refl|]. ev t.
  - now apply evolves_refl.
  - destruct (owed s); [now apply evolves_refl|]. apply evolves_notify. now apply evolves_refl.
Qed.

(** ** Admissions of one step *)
Definition newly (s s' : state) : nat :=
  count (fun i => match nth_error (tasks s) i, nth_error (tasks s') i with
                  | Some t, Some t' => negb (holding_phase t) && holding_phase t'
                  | _, _ => false end) (seq 0 (length (tasks s))).

Lemma newly_no_new s s' : no_new s s' -> newly s s' = 0.
Proof.
  intros H. unfold newly. induction (seq _ _) as [|i l IH]; simpl; auto. rewrite IH.
  destruct (nth_error (tasks s) i) as [t|] eqn:E; auto.
  destruct (nth_error (tasks s') i) as [t'|] eqn:E'; auto.
  destruct (holding_phase t') eqn:Hh; [|now rewrite andb_false_r].
  destruct (H i t' E' Hh) as (u & Hu & Hhu & _). rewrite E in Hu. injection Hu as <-.
  now rewrite Hhu.
Qed.

Lemma count_unique (p : nat -> bool) j l : NoDup l -> (forall x, p x = true -> x = j) ->
  count p l <= 1.
Proof.
  intros ND H. induction ND as [|x l NI ND IH]; simpl; [lia|].
  destruct (p x) eqn:E; [|lia]. apply H in E. subst x.
  assert (count p l = 0); [|lia].
  clear IH ND. induction l as [|y l IH]; simpl; auto.
  destruct (p y) eqn:E.
  - exfalso. apply NI. left. now apply H.
  - rewrite IH; auto. intros K. apply NI. now right.
Qed.

Lemma newly_admit s j w t e : nth_error (tasks s) j = Some t ->
  newly s (admit_state s j w t e) <= 1.
Proof.
  intros Hj. unfold newly. apply (count_unique _ j); [apply seq_NoDup|].
  intros x. simpl. rewrite nth_upd. destruct (Nat.eqb_spec j x) as [->|N]; auto.
  destruct (nth_error (tasks s) x); [|discriminate].
  destruct (holding_phase t0); discriminate.
Qed.

Lemma newly_pos s s' i t t' : nth_error (tasks s) i = Some t -> nth_error (tasks s') i = Some t' ->
  holding_phase t = false -> holding_phase t' = true -> 1 <= newly s s'.
Proof.
  intros H1 H2 H3 H4. unfold newly. apply count_pos. exists i. split.
  - apply in_seq. split; [lia|]. simpl. apply nth_error_Some. congruence.
  - now rewrite H1, H2, H3, H4.
Qed.

(** ** Older pending requests *)
Lemma count_pointwise {A} (p : A -> bool) : forall l l',
  (forall j t', nth_error l' j = Some t' -> p t' = true ->
     exists t, nth_error l j = Some t /\ p t = true) ->
  count p l' <= count p l.
Proof.
  intros l l'; revert l. induction l' as [|a l' IH]; intros l H; simpl; [lia|].
  destruct l as [|b l].
  - destruct (p a) eqn:E.
    + destruct (H 0 a eq_refl E) as (t & Ht & _). discriminate.
    + simpl. rewrite (IH []) by (intros j t' H1 H2; destruct (H (S j) t' H1 H2) as (t & Ht & _); discriminate).
      simpl. lia.
  - simpl. assert (count p l' <= count p l).
    { apply IH. intros j t' H1 H2. apply (H (S j) t' H1 H2). }
    destruct (p a) eqn:E; [|destruct (p b); lia].
    destruct (H 0 a eq_refl E) as (t & Ht & Hp). simpl in Ht. injection Ht as ->.
    rewrite Hp. lia.
Qed.

Lemma nth_firstn {A} (l : list A) : forall i j, nth_error (firstn i l) j =
  if Nat.ltb j i then nth_error l j else None.
Proof.
  induction l as [|a l IH]; intros [|i] [|j]; simpl; auto.
  - now destruct (Nat.ltb _ _).
  - rewrite IH. reflexivity.
Qed.

Lemma older_mono s s' i : evolves s s' -> i < length (tasks s) ->
  older_pending s' i <= older_pending s i.
Proof.
  intros E L. unfold older_pending. apply count_pointwise.
  intros j t' Hj Hp. rewrite nth_firstn in *. destruct (Nat.ltb_spec j i) as [Hji|]; [|discriminate].
  destruct (nth_error (tasks s) j) as [t|] eqn:Ht.
  - exists t. split; auto. destruct (E j t Ht) as (u & Hu & _ & HP). rewrite Hj in Hu.
    injection Hu as <-. auto.
  - apply nth_error_None in Ht. lia.
Qed.

Lemma firstn_upd {A} (l : list A) : forall i j x, firstn i (upd l j x) = upd (firstn i l) j x.
Proof.
  induction l as [|a l IH]; intros [|i] [|j] x; simpl; auto. now rewrite IH.
Qed.

Lemma older_admit s j w t e i : nth_error (tasks s) j = Some t -> pending_phase t = true ->
  j < i -> S (older_pending (admit_state s j w t e) i) = older_pending s i.
Proof.
  intros Hj Hp L. unfold older_pending. simpl. rewrite firstn_upd.
  assert (H : nth_error (firstn i (tasks s)) j = Some t).
  { rewrite nth_firstn. now rewrite (proj2 (Nat.ltb_lt _ _) L). }
  pose proof (count_upd pending_phase _ _ (mkTask (e_root e) (t_prio t) (t_cancelled t) PAdmitted) _ H) as E.
  rewrite Hp in E. simpl in E. lia.
Qed.

Lemma waiting_lt s i r p : Core s -> waiting s i r p -> i < length (tasks s).
Proof.
  intros C (e & He & <- & _). destruct (c_ent s C e He) as (t & Ht & _).
  apply nth_error_Some. congruence.
Qed.

Lemma waiting_not_held s i r p : Core s -> waiting s i r p ->
  exists t, nth_error (tasks s) i = Some t /\ holding_phase t = false.
Proof.
  intros C (e & He & <- & _). destruct (c_ent s C e He) as (t & Ht & Q & _).
  exists t. split; auto. unfold inq in Q. unfold holding_phase. now destruct (t_phase t).
Qed.

(** One step of the potential argument. *)
Lemma potential_step s o i root :
  Core s -> waiting s i root Background -> idle s root ->
  waiting (step s o) i root Background -> Core (step s o) ->
  newly s (step s o) + (2 * older_pending (step s o) i + (1 - burst (step s o)))
  <= 2 * older_pending s i + (1 - burst s).
Proof.
  intros C W I W' C'. pose proof (waiting_lt s i root _ C W) as L.
  pose proof (older_mono s (step s o) i (step_evolves s o C) L) as M.
  destruct (step_cases s o C) as [[j A]|[NN EB]].
  2:{ rewrite (newly_no_new _ _ NN), EB. lia. }
  destruct A as (t & n & w & e & -> & Hj & Hp & Hc & (Lm & Bw & Hw & Ei) & An & E).
  rewrite E in *.
  assert (N : j <> i).
  { intros ->. destruct (waiting_not_held _ i root _ C' W') as (u & Hu & Hh). simpl in Hu.
    rewrite (nth_upd_eq _ _ _ t) in Hu by auto. injection Hu as <-. discriminate. }
  pose proof (newly_admit s j w t e Hj) as Nw.
  assert (Pt : pending_phase t = true) by (unfold pending_phase; now rewrite Hp).
  pose proof (nth_error_In _ _ Hw) as Hin.
  destruct (c_ent s C e Hin) as (u & Hu & _ & _ & _ & Oe & _).
  destruct W as (x & Hx & Ex & Rx & Px).
  assert (Ax : admissible_bg (active_projects s) x = true).
  { apply admissible_bg_iff. split; auto. rewrite Rx. now apply idle_iff. }
  destruct (c_ent s C x Hx) as (_ & _ & _ & _ & _ & Ox & _).
  assert (Ebg : existsb (admissible_bg (active_projects s)) (queued s) = true).
  { apply existsb_exists. eauto. }
  destruct (winner_spec _ _ _ _ Bw) as (e' & He' & _ & F1 & F2).
  rewrite Hw in He'. injection He' as <-.
  assert (NB : burst (admit_state s j w t e) = if prio_eqb (e_priority e) Background then 0 else S (burst s)).
  { simpl. unfold next_burst. rewrite Ebg. simpl. now rewrite orb_false_r. }
  pose proof (c_burst s C) as Bs.
  destruct (prio_eqb (e_priority e) Background) eqn:Ep.
  - apply prio_eqb_eq in Ep.
    assert (Hlt : j < i).
    { assert (e_order e <= e_order x); [|lia].
      destruct (Nat.eq_dec (burst s) 0) as [B0|B0].
      - destruct (F2 ltac:(lia) x Hx) as [H|[_ H]]; auto.
        + apply admissible_bg_iff in Ax. tauto.
        + rewrite Ep, Px in H. simpl in H. lia.
      - destruct F1 as [_ F1]; [split; [lia|eauto]|]. apply F1; auto. }
    pose proof (older_admit s j w t e i Hj Pt Hlt). rewrite NB. lia.
  - rewrite NB. destruct (Nat.eq_dec (burst s) 0) as [B0|B0].
    + rewrite B0 in *. lia.
    + exfalso. destruct F1 as [P _]; [split; [lia|eauto]|]. rewrite P in Ep. discriminate.
Qed.

Lemma background_bounded ops : forall s i root, Core s ->
  (forall s', In s' (states s ops) -> waiting s' i root Background /\ idle s' root) ->
  admissions s ops <= 2 * older_pending s i + (1 - burst s).
Proof.
  induction ops as [|o ops IH]; intros s i root C H; cbn [admissions]; [lia|].
  fold (newly s (step s o)). pose proof (core_step s o C) as C'.
  assert (W : waiting s i root Background /\ idle s root) by (apply H; now left).
  assert (W' : waiting (step s o) i root Background).
  { apply H. simpl. right. destruct ops; now left. }
  specialize (IH (step s o) i root C'). 
  assert (admissions (step s o) ops <= 2 * older_pending (step s o) i + (1 - burst (step s o))).
  { apply IH. intros s' Hs'. apply H. simpl. now right. }
  pose proof (potential_step s o i root C (proj1 W) (proj2 W) W' C'). lia.
Qed.

(** ** Open-document requests: same-class overtaking is bounded *)
Definition newly_of (p : priority) (s s' : state) : nat :=
  count (fun e => Nat.eqb (rank (e_priority e)) (rank p) && becomes_held s s' (e_id e)) (queued s).

Lemma newly_of_no_new p s s' : no_new s s' -> newly_of p s s' = 0.
Proof.
  intros H. unfold newly_of. induction (queued s) as [|e l IH]; simpl; auto. rewrite IH.
  unfold becomes_held.
  destruct (nth_error (tasks s) (e_id e)) as [t|] eqn:E; [|now rewrite andb_false_r].
  destruct (nth_error (tasks s') (e_id e)) as [t'|] eqn:E'; [|now rewrite andb_false_r].
  destruct (holding_phase t') eqn:Hh; [|now rewrite !andb_false_r].
  destruct (H _ t' E' Hh) as (u & Hu & Hhu & _). rewrite E in Hu. injection Hu as <-.
  rewrite Hhu. now rewrite andb_false_r.
Qed.

Lemma newly_of_admit p s j w t e : Core s -> nth_error (tasks s) j = Some t ->
  nth_error (queued s) w = Some e -> e_id e = j ->
  newly_of p s (admit_state s j w t e) <= if Nat.eqb (rank (e_priority e)) (rank p) then 1 else 0.
Proof.
  intros C Hj Hw Ei. unfold newly_of.
  pose proof (nth_error_In _ _ Hw) as Hin.
  assert (Q : forall x, In x (queued s) -> (Nat.eqb (rank (e_priority x)) (rank p) && becomes_held s (admit_state s j w t e) (e_id x) = true) -> x = e).
  { intros x Hx H. apply andb_true_iff in H as [_ H]. unfold becomes_held in H. simpl in H.
    rewrite nth_upd in H. destruct (Nat.eqb_spec j (e_id x)) as [E|N].
    - apply (in_queue_unique s); auto. congruence.
    - destruct (nth_error (tasks s) (e_id x)) as [u|]; [|discriminate].
      destruct (holding_phase u); discriminate. }
  pose proof (c_nd s C) as ND.
  destruct (Nat.eqb (rank (e_priority e)) (rank p)) eqn:Ep.
  - clear -Q ND. induction (queued s) as [|x l IH]; simpl; [lia|].
    inversion ND as [|? ? NI ND']; subst.
    match goal with |- (if ?b then _ else _) + _ <= _ => destruct b eqn:E end.
    + assert (x = e) by (apply Q; [now left|auto]). subst x.
      assert (Z : forall l', (forall y, In y l' -> In y l) -> count (fun e0 => (rank (e_priority e0) =? rank p) && becomes_held s (admit_state s j w t e) (e_id e0)) l' = 0).
      { induction l' as [|y l' IHl]; intros Sub; simpl; auto. rewrite IHl by (intros; apply Sub; now right).
        match goal with |- (if ?b then _ else _) + _ = _ => destruct b eqn:Ey end; auto.
        exfalso. apply NI. assert (y = e) by (apply Q; [right; apply Sub; now left|auto]). subst y.
        apply in_map. apply Sub. now left. }
      rewrite Z; auto.
    + apply IH; auto. intros y Hy. apply Q. now right.
  - clear -Q Ep. assert (Z : forall l', (forall y, In y l' -> In y (queued s)) -> count (fun e0 => (rank (e_priority e0) =? rank p) && becomes_held s (admit_state s j w t e) (e_id e0)) l' <= 0).
    { induction l' as [|y l' IHl]; intros Sub; simpl; auto. 
      match goal with |- (if ?b then _ else _) + _ <= _ => destruct b eqn:Ey end.
      - exfalso. assert (y = e) by (apply Q; [apply Sub; now left|auto]). subst y.
        rewrite Ep in Ey. discriminate.
      - apply IHl. intros; apply Sub; now right. }
    apply Z; auto.
Qed.

Lemma open_step s o i root :
  Core s -> waiting s i root OpenDocument -> idle s root ->
  waiting (step s o) i root OpenDocument -> Core (step s o) ->
  newly_of OpenDocument s (step s o) + older_pending (step s o) i <= older_pending s i.
Proof.
  intros C W I W' C'. pose proof (waiting_lt s i root _ C W) as L.
  pose proof (older_mono s (step s o) i (step_evolves s o C) L) as M.
  destruct (step_cases s o C) as [[j A]|[NN EB]].
  2:{ rewrite (newly_of_no_new _ _ _ NN). lia. }
  destruct A as (t & n & w & e & -> & Hj & Hp & Hc & (Lm & Bw & Hw & Ei) & An & E).
  rewrite E in *.
  pose proof (newly_of_admit OpenDocument s j w t e C Hj Hw Ei) as Nw.
  destruct (Nat.eqb_spec (rank (e_priority e)) (rank OpenDocument)) as [Er|Er]; [|lia].
  assert (Pe : e_priority e = OpenDocument) by (destruct (e_priority e); simpl in Er; congruence).
  assert (N : j <> i).
  { intros ->. destruct (waiting_not_held _ i root _ C' W') as (u & Hu & Hh). simpl in Hu.
    rewrite (nth_upd_eq _ _ _ t) in Hu by auto. injection Hu as <-. discriminate. }
  assert (Pt : pending_phase t = true) by (unfold pending_phase; now rewrite Hp).
  pose proof (nth_error_In _ _ Hw) as Hin.
  destruct (c_ent s C e Hin) as (u & Hu & _ & _ & _ & Oe & _).
  destruct W as (x & Hx & Ex & Rx & Px).
  destruct (c_ent s C x Hx) as (_ & _ & _ & _ & _ & Ox & _).
  destruct (winner_spec _ _ _ _ Bw) as (e' & He' & _ & F1 & F2).
  rewrite Hw in He'. injection He' as <-.
  assert (Hlt : j < i).
  { assert (e_order e <= e_order x); [|lia].
    destruct (F2) with (x := x) as [H|[_ H]]; auto.
    - intros K. destruct (F1 K) as [P _]. congruence.
    - rewrite Rx. now apply idle_iff.
    - rewrite Pe, Px in H. simpl in H. lia. }
  pose proof (older_admit s j w t e i Hj Pt Hlt). lia.
Qed.

Lemma open_bounded ops : forall s i root, Core s ->
  (forall s', In s' (states s ops) -> waiting s' i root OpenDocument /\ idle s' root) ->
  admissions_of OpenDocument s ops <= older_pending s i.
Proof.
  induction ops as [|o ops IH]; intros s i root C H; cbn [admissions_of]; [lia|].
  fold (newly_of OpenDocument s (step s o)). pose proof (core_step s o C) as C'.
  assert (W : waiting s i root OpenDocument /\ idle s root) by (apply H; now left).
  assert (W' : waiting (step s o) i root OpenDocument).
  { apply H. simpl. right. destruct ops; now left. }
  assert (admissions_of OpenDocument (step s o) ops <= older_pending (step s o) i).
  { eapply IH; eauto. intros s' Hs'. apply H. simpl. now right. }
  pose proof (open_step s o i root C (proj1 W) (proj2 W) W' C'). lia.
Qed.

(** ** An open-document request can be overtaken for ever *)
Definition e0 : entry := mkEntry 0 7 OpenDocument OpenDocument 0.
Definition t0 : task := mkTask 7 OpenDocument false PTop.
Definition tk (p : phase) : task := mkTask 1 ActiveDocument false p.
Definition past (k : nat) : list task := t0 :: repeat (tk PDone) k.
Definition S0 (k : nat) : state := mkState 1 0 [] [e0] None 0 0 (past k) 0 false.
Definition ek (k : nat) : entry := mkEntry k 1 ActiveDocument ActiveDocument k.
Definition cycle (k : nat) : list op :=
  [OTicket 1 ActiveDocument; OPush k; ONotify k; OTop k; OLock k; ONotify k; ORelease k; ONotify k].

Lemma past_len k : length (past k) = S k.
Proof. unfold past. simpl. now rewrite repeat_length. Qed.

Lemma nth_last {A} (l : list A) x : nth_error (l ++ [x]) (length l) = Some x.
Proof. rewrite nth_error_app2, Nat.sub_diag; auto. Qed.

Lemma upd_last {A} (l : list A) x y : upd (l ++ [x]) (length l) y = l ++ [y].
Proof. induction l; simpl; auto. now rewrite IHl. Qed.

Lemma wake_past k : map wake (past k) = past k.
Proof. unfold past. simpl. f_equal. induction k; simpl; auto. now rewrite IHk. Qed.

Lemma past_snoc k : past k ++ [tk PDone] = past (S k).
Proof. unfold past. simpl. f_equal. rewrite <- repeat_cons. reflexivity. Qed.

Definition SQ (k act : nat) (ap : list nat) (q : list entry) (p : phase) : state :=
  mkState 1 act ap q None 0 0 (past k ++ [tk p]) 0 false.

Ltac cyc k := unfold step, SQ, S0; simpl panicked; cbn [step_ok tasks];
  rewrite <- (past_len k), nth_last; cbn; rewrite ?upd_last;
  unfold notify_all, set_phase, set_task; cbn;
  rewrite <- ?past_len, ?upd_last; rewrite ?map_app, ?wake_past; cbn; reflexivity.

Lemma app_past k l : t0 :: repeat (tk PDone) k ++ l = past k ++ l.
Proof. reflexivity. Qed.

Lemma cyc1 k : step (S0 k) (OTicket 1 ActiveDocument) = SQ k 0 [] [e0] PTicketed.
Proof. reflexivity. Qed.

Lemma SQ_nth k a ap q p : nth_error (tasks (SQ k a ap q p)) (S k) = Some (tk p).
Proof. unfold SQ. cbn [tasks]. rewrite <- (past_len k). apply nth_last. Qed.

Lemma SQ_upd k a ap q p t : upd (tasks (SQ k a ap q p)) (S k) t = past k ++ [t].
Proof. unfold SQ. cbn [tasks]. rewrite <- (past_len k). apply upd_last. Qed.

Ltac one := match goal with |- step ?s ?o = _ =>
  unfold step; change (panicked s) with false; cbv iota; unfold step_ok; rewrite SQ_nth; cbn [tk t_phase t_cancelled t_root t_prio];
  unfold set_phase, set_task; rewrite ?SQ_upd; unfold notify_all; cbn [tasks limit active active_projects queued active_project reprioritizations burst owed panicked]; rewrite ?map_app, ?wake_past; try reflexivity end.

Lemma cyc2 k : step (SQ k 0 [] [e0] PTicketed) (OPush (S k)) = SQ k 0 [] [e0; ek (S k)] PPushed.
Proof. one. Qed.
Lemma cyc3 k : step (SQ k 0 [] [e0; ek (S k)] PPushed) (ONotify (S k)) = SQ k 0 [] [e0; ek (S k)] PTop.
Proof. one. Qed.
Lemma cyc4 k : step (SQ k 0 [] [e0; ek (S k)] PTop) (OTop (S k)) = SQ k 0 [] [e0; ek (S k)] (PArmed false).
Proof. one. Qed.
Lemma cyc5 k : step (SQ k 0 [] [e0; ek (S k)] (PArmed false)) (OLock (S k)) = SQ k 1 [1] [e0] PAdmitted.
Proof. one. unfold lock_step. cbn. rewrite Nat.eqb_refl. cbn.
  rewrite app_comm_cons, app_past, <- (past_len k) || idtac.
  unfold SQ. f_equal. change (tk (PArmed false)) with (tk (PArmed false)).
  pose proof (SQ_upd k 0 [] [] (PArmed false) (tk PAdmitted)) as H. unfold SQ in H. cbn [tasks] in H. exact H.
Qed.
Lemma cyc6 k : step (SQ k 1 [1] [e0] PAdmitted) (ONotify (S k)) = SQ k 1 [1] [e0] PHolding.
Proof. one. Qed.
Lemma cyc7 k : step (SQ k 1 [1] [e0] PHolding) (ORelease (S k)) = SQ k 0 [] [e0] PReleaseOwes.
Proof. one. Qed.
Lemma cyc8 k : step (SQ k 0 [] [e0] PReleaseOwes) (ONotify (S k)) = S0 (S k).
Proof. one. cbn. unfold S0. f_equal. apply past_snoc. Qed.

Lemma past_idle7 k p i : ~ holds (mkState 1 0 [] [] None 0 0 (past k ++ [tk p]) 0 false) i 7.
Proof.
  intros H. apply holds_iff in H as (t & Ht & Hr & Hh). apply nth_error_In in Ht. simpl in Ht.
  destruct Ht as [<-|Ht]; [discriminate|]. apply in_app_iff in Ht as [Ht|[<-|[]]]; [|discriminate].
  apply repeat_spec in Ht. subst. discriminate.
Qed.

Lemma SQ_ok k a ap q p : In e0 q -> waiting (SQ k a ap q p) 0 7 OpenDocument /\ idle (SQ k a ap q p) 7.
Proof.
  intros H. split; [exists e0; auto|]. intros i Hh. apply (past_idle7 k p i). exact Hh.
Qed.

Lemma S0_ok k : waiting (S0 k) 0 7 OpenDocument /\ idle (S0 k) 7.
Proof.
  split; [exists e0; simpl; auto|]. intros i Hh. apply holds_iff in Hh as (t & Ht & Hr & Hh).
  apply nth_error_In in Ht. simpl in Ht. destruct Ht as [<-|Ht]; [discriminate|].
  apply repeat_spec in Ht. subst. discriminate.
Qed.

Lemma states_app l1 : forall s l2 x, In x (states s (l1 ++ l2)) ->
  In x (states s l1) \/ In x (states (run s l1) l2).
Proof.
  induction l1 as [|o l1 IH]; simpl; intros s l2 x H; auto.
  destruct H as [H|H]; auto. apply IH in H as [H|H]; auto.
Qed.

Lemma admissions_app l1 : forall s l2,
  admissions s (l1 ++ l2) = admissions s l1 + admissions (run s l1) l2.
Proof. induction l1; intros; cbn [admissions app run]; auto. rewrite IHl1. lia. Qed.

Lemma run_app l1 : forall s l2, run s (l1 ++ l2) = run (run s l1) l2.
Proof. induction l1; simpl; auto. Qed.

Lemma cycle_run k : run (S0 k) (cycle (S k)) = S0 (S k).
Proof. unfold cycle. cbn [run]. rewrite cyc1, cyc2, cyc3, cyc4, cyc5, cyc6, cyc7, cyc8. reflexivity. Qed.

Lemma cycle_states k x : In x (states (S0 k) (cycle (S k))) ->
  waiting x 0 7 OpenDocument /\ idle x 7.
Proof.
  unfold cycle. cbn [states]. rewrite cyc1, cyc2, cyc3, cyc4, cyc5, cyc6, cyc7, cyc8.
  intros H. repeat (destruct H as [<-|H]; [first [apply S0_ok|apply SQ_ok; simpl; auto]|]).
  destruct H.
Qed.

Lemma cycle_admissions k : 1 <= admissions (S0 k) (cycle (S k)).
Proof.
  unfold cycle. cbn [admissions]. rewrite cyc1, cyc2, cyc3, cyc4, cyc5.
  match goal with |- _ <= ?a + (?b + (?c + (?d + (?f + _)))) =>
    enough (1 <= f) by lia; change f with (newly (SQ k 0 [] [e0; ek (S k)] (PArmed false)) (SQ k 1 [1] [e0] PAdmitted)) end.
  eapply newly_pos; try apply SQ_nth; reflexivity.
Qed.

Fixpoint cycles (k n : nat) : list op :=
  match n with 0 => [] | S m => cycle (S k) ++ cycles (S k) m end.

Lemma cycles_ok n : forall k, n <= admissions (S0 k) (cycles k n) /\
  (forall x, In x (states (S0 k) (cycles k n)) -> waiting x 0 7 OpenDocument /\ idle x 7).
Proof.
  induction n as [|n IH]; intros k; cbn [cycles].
  - split; [simpl; lia|]. simpl. intros x [<-|[]]. apply S0_ok.
  - destruct (IH (S k)) as [A B]. split.
    + rewrite admissions_app, cycle_run. pose proof (cycle_admissions k). lia.
    + intros x H. apply states_app in H as [H|H]; [eapply cycle_states; eauto|].
      rewrite cycle_run in H. auto.
Qed.

Lemma S0_reach : S0 0 = run (init 1) [OTicket 7 OpenDocument; OPush 0; ONotify 0].
Proof. reflexivity. Qed.

(** ** Cancellation *)
Lemma cancelled_never ops : forall s i t, Core s ->
  nth_error (tasks s) i = Some t -> t_cancelled t = true -> holding_phase t = false ->
  forall r, ~ holds (run s ops) i r.
Proof.
  induction ops as [|o ops IH]; intros s i t C Hi Hc Hh r; simpl.
  - intros H. apply holds_iff in H as (u & Hu & _ & Hu'). congruence.
  - destruct (step_evolves s o C i t Hi) as (t' & Ht' & Hc' & _).
    eapply (IH _ i t'); auto; [now apply core_step|].
    destruct (holding_phase t') eqn:Hh'; auto. exfalso.
    destruct (step_cases s o C) as [[j A]|[NN EB]].
    + destruct A as (u & n & w & e & -> & Hj & Hp & Hcu & _ & _ & E).
      rewrite E in Ht'. simpl in Ht'. rewrite nth_upd in Ht'.
      destruct (Nat.eqb_spec j i) as [->|N]; congruence.
    + destruct (NN i t' Ht' Hh') as (u & Hu & Hhu & _). congruence.
Qed.

Lemma drop_removes s i t : Core s -> nth_error (tasks s) i = Some t -> t_phase t = PDropping ->
  let s' := step s (ODropLock i) in
  (forall r p, ~ waiting s' i r p) /\
  (forall j r p, j <> i -> (waiting s' j r p <-> waiting s j r p)) /\
  active s' = active s /\ active_projects s' = active_projects s.
Proof.
  intros C Hi Hp s'. assert (E : s' = step_ok s (ODropLock i)) by (apply step_eq; auto).
  simpl in E. rewrite Hi, Hp in E.
  destruct (position _ (queued s)) as [k|] eqn:Ek.
  - apply position_some in Ek as (e & Hk & Ei). apply Nat.eqb_eq in Ei.
    destruct (remove_entry_facts s i k e C Hk Ei) as (_ & IN & IN2).
    rewrite E. simpl. repeat split; auto.
    + intros r p (x & Hx & Ex & _). simpl in Hx. apply IN in Hx. tauto.
    + intros (x & Hx & Ex & R). simpl in Hx. apply IN in Hx. exists x. tauto.
    + intros (x & Hx & Ex & R). exists x. simpl. split; auto. apply IN2; auto. congruence.
  - exfalso. destruct (c_inq s C i t Hi) as (e & He & Ei); [unfold inq; now rewrite Hp|].
    apply (position_none _ _ Ek) in He. rewrite Ei, Nat.eqb_refl in He. discriminate.
Qed.

(** A cancelled (or dropped) request removes itself with its own steps only. *)
Lemma cancelled_leaves s i t : Core s ->
  nth_error (tasks s) i = Some t -> t_cancelled t = true -> inq t = true ->
  let s' := run s [ONotify i; OWake i; OTop i; OLock i; ODropLock i] in
  (forall r p, ~ waiting s' i r p) /\
  (forall j r p, j <> i -> (waiting s' j r p <-> waiting s j r p)) /\
  active s' = active s /\ active_projects s' = active_projects s.
Proof.
  intros C Hi Hc Hq. cbn [run].
  assert (LD : forall s t, Core s -> nth_error (tasks s) i = Some t -> t_cancelled t = true ->
     (exists n, t_phase t = PArmed n) \/ t_phase t = PDropping ->
     let s' := step (step s (OLock i)) (ODropLock i) in
     (forall r p, ~ waiting s' i r p) /\
     (forall j r p, j <> i -> (waiting s' j r p <-> waiting s j r p)) /\
     active s' = active s /\ active_projects s' = active_projects s).
  { clear. intros s t C Hi Hc [[n Hp]|Hp].
    - assert (E : step s (OLock i) = set_phase s i t PDropping).
      { rewrite step_eq by auto. simpl. rewrite Hi, Hp. unfold lock_step. now rewrite Hc. }
      assert (C' : Core (set_phase s i t PDropping)) by (rewrite <- E; now apply core_step).
      rewrite E. 
      apply (drop_removes (set_phase s i t PDropping) i (with_phase t PDropping)); auto.
      simpl. eapply nth_upd_eq; eauto.
    - assert (E : step s (OLock i) = s) by (rewrite step_eq by auto; simpl; now rewrite Hi, Hp).
      rewrite E. eapply drop_removes; eauto. }
  assert (TLD : forall s t, Core s -> nth_error (tasks s) i = Some t -> t_cancelled t = true ->
     t_phase t = PTop \/ (exists n, t_phase t = PArmed n) \/ t_phase t = PDropping ->
     let s' := step (step (step s (OTop i)) (OLock i)) (ODropLock i) in
     (forall r p, ~ waiting s' i r p) /\
     (forall j r p, j <> i -> (waiting s' j r p <-> waiting s j r p)) /\
     active s' = active s /\ active_projects s' = active_projects s).
  { clear -LD. intros s t C Hi Hc [Hp|Hp].
    - assert (E : step s (OTop i) = set_phase s i t PDropping).
      { rewrite step_eq by auto. simpl. now rewrite Hi, Hp, Hc. }
      assert (C' : Core (set_phase s i t PDropping)) by (rewrite <- E; now apply core_step).
      rewrite E. apply (LD (set_phase s i t PDropping) (with_phase t PDropping)); auto.
      simpl. eapply nth_upd_eq; eauto.
    - assert (E : step s (OTop i) = s).
      { rewrite step_eq by auto. simpl. rewrite Hi. destruct Hp as [[n ->]| ->]; auto. }
      rewrite E. eapply LD; eauto. }
  assert (WTLD : forall s t, Core s -> nth_error (tasks s) i = Some t -> t_cancelled t = true ->
     inq t = true -> t_phase t <> PPushed ->
     let s' := step (step (step (step s (OWake i)) (OTop i)) (OLock i)) (ODropLock i) in
     (forall r p, ~ waiting s' i r p) /\
     (forall j r p, j <> i -> (waiting s' j r p <-> waiting s j r p)) /\
     active s' = active s /\ active_projects s' = active_projects s).
  { clear -TLD. intros s t C Hi Hc Hq HnP. unfold inq in Hq.
    destruct (t_phase t) eqn:Hp; try discriminate; try congruence.
    3:{ assert (E : step s (OWake i) = set_phase s i t PDropping).
        { rewrite step_eq by auto. simpl. now rewrite Hi, Hp, Hc. }
        assert (C' : Core (set_phase s i t PDropping)) by (rewrite <- E; now apply core_step).
        rewrite E. apply (TLD (set_phase s i t PDropping) (with_phase t PDropping)); auto.
        simpl. eapply nth_upd_eq; eauto. }
    all: assert (E : step s (OWake i) = s) by (rewrite step_eq by auto; simpl; now rewrite Hi, Hp);
         rewrite E; eapply TLD; eauto. }
  assert (D : t_phase t = PPushed \/ t_phase t <> PPushed) by (destruct (t_phase t); auto; right; discriminate).
  destruct D as [Hp|Hp].
  - assert (E : step s (ONotify i) = notify_all (set_phase s i t PTop)).
    { rewrite step_eq by auto. simpl. now rewrite Hi, Hp. }
    assert (C' : Core (notify_all (set_phase s i t PTop))) by (rewrite <- E; now apply core_step).
    rewrite E. 
    apply (WTLD (notify_all (set_phase s i t PTop)) (with_phase t PTop)); auto; [|discriminate].
    simpl. rewrite nth_error_map, (nth_upd_eq _ _ _ t) by auto. reflexivity.
  - assert (E : step s (ONotify i) = s).
    { rewrite step_eq by auto. simpl. rewrite Hi. unfold inq in Hq.
      destruct (t_phase t); auto; try discriminate. congruence. }
    rewrite E. eapply WTLD; eauto.
Qed.

(** ** Requested and effective priorities *)
Definition rp (t : task) : nat * priority := (t_root t, t_prio t).

Lemma map_upd_same {A B} (f : A -> B) l i x y :
  nth_error l i = Some y -> f x = f y -> map f (upd l i x) = map f l.
Proof.
  intros H E. destruct (upd_split l i x y H) as (l1 & l2 & -> & _ & ->).
  rewrite !map_app. simpl. now rewrite E.
Qed.

Lemma map_rp_wake l : map rp (map wake l) = map rp l.
Proof.
  rewrite map_map. apply map_ext. intros a. unfold rp. now rewrite wake_root, wake_prio.
Qed.

Lemma step_rp s o : Core s ->
  map rp (tasks (step s o)) = map rp (tasks s) ++ tickets [o].
Proof.
  intros C. rewrite (step_eq s o C).
  destruct o; simpl; rewrite ?app_nil_r;
    try (destruct (nth_error (tasks s) i) as [t|] eqn:Hi; [|reflexivity]);
    try (destruct (t_phase t) eqn:Hp; try reflexivity); simpl; rewrite ?map_rp_wake;
    try (eapply map_upd_same; [eassumption|reflexivity]).
  - now rewrite map_app.
  - destruct (t_cancelled t); simpl; (eapply map_upd_same; [eassumption|reflexivity]).
  - destruct (lock_step_cases s i t n C Hi Hp) as [[_ ->]|[[Hc (w & e & W & A & ->)]|[_ [_ ->]]]];
      simpl; (eapply map_upd_same; [eassumption|]); try reflexivity.
    destruct W as (_ & _ & Hw & Ei). destruct (c_ent s C e (nth_error_In _ _ Hw)) as (u & Hu & _ & R & _).
    rewrite Ei, Hi in Hu. injection Hu as <-. unfold rp. simpl. now rewrite R.
  - destruct (t_cancelled t); simpl; [eapply map_upd_same; [eassumption|reflexivity]|].
    destruct n; simpl; auto. eapply map_upd_same; [eassumption|reflexivity].
  - destruct (position _ _); simpl; (eapply map_upd_same; [eassumption|reflexivity]).
  - destruct (Nat.eqb _ _); auto. destruct (negb _); auto. simpl.
    eapply map_upd_same; [eassumption|reflexivity].
  - reflexivity.
  - destruct (owed s); simpl; rewrite ?map_rp_wake; auto.
Qed.

Lemma tickets_cons o ops : tickets (o :: ops) = tickets [o] ++ tickets ops.
Proof. destruct o; reflexivity. Qed.

Lemma run_rp ops : forall s, Core s -> map rp (tasks (run s ops)) = map rp (tasks s) ++ tickets ops.
Proof.
  induction ops as [|o ops IH]; intros s C; cbn [run]; [simpl; now rewrite app_nil_r|].
  rewrite IH by now apply core_step. rewrite step_rp by auto.
  now rewrite (tickets_cons o ops), app_assoc.
Qed.

Lemma step_active_project s o : Core s ->
  active_project (step s o) = last_prioritized (active_project s) [o].
Proof.
  intros C. rewrite (step_eq s o C). destruct o; simpl; auto;
  try (destruct (nth_error (tasks s) i) as [t|] eqn:Hi; [|reflexivity]);
  try (destruct (t_phase t) eqn:Hp; try reflexivity).
  - destruct (t_cancelled t); auto.
  - destruct (lock_step_cases s i t n C Hi Hp) as [[_ ->]|[[Hc (w & e & W & A & ->)]|[_ [_ ->]]]]; auto.
  - destruct (t_cancelled t); auto. destruct n; auto.
  - destruct (position _ _); auto.
  - destruct (Nat.eqb _ _); auto. destruct (negb _); auto.
  - destruct (owed s); auto.
Qed.

Lemma last_prioritized_cons c o ops :
  last_prioritized c (o :: ops) = last_prioritized (last_prioritized c [o]) ops.
Proof. destruct o; reflexivity. Qed.

Lemma run_active_project ops : forall s, Core s ->
  active_project (run s ops) = last_prioritized (active_project s) ops.
Proof.
  induction ops as [|o ops IH]; intros s C; cbn [run]; auto.
  rewrite IH by now apply core_step. rewrite step_active_project by auto.
  now rewrite (last_prioritized_cons _ o ops).
Qed.

Lemma effective_priority_correct lim ops i root p :
  waiting (run (init lim) ops) i root p ->
  exists q, nth_error (tickets ops) i = Some (root, q) /\
    ((last_prioritized None ops = Some root /\ p = ActiveDocument) \/
     (last_prioritized None ops <> Some root /\ p = q)).
Proof.
  intros (e & He & Ei & Er & Ep). set (s := run (init lim) ops) in *.
  assert (C : Core s) by (apply core_run, core_init).
  destruct (c_ent s C e He) as (t & Ht & _ & R1 & R2 & _ & R3).
  exists (t_prio t). split.
  - pose proof (run_rp ops (init lim) (core_init lim)) as H. fold s in H. simpl in H.
    rewrite <- H, nth_error_map, <- Ei, Ht. simpl. unfold rp. congruence.
  - pose proof (run_active_project ops (init lim) (core_init lim)) as H. fold s in H.
    change (active_project (init lim)) with (@None nat) in H. rewrite <- H.
    rewrite <- Ep, R3, R2, Er. unfold effective_priority.
    destruct (active_project s) as [a|]; [|right; split; [discriminate|auto]].
    destruct (Nat.eqb_spec a root) as [->|N]; [left; auto|right; split; congruence].
Qed.
