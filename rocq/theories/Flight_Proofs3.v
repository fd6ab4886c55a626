(** Consequences used by Flight_Props. *)
From Coq Require Import List Arith Bool Lia.
From Verif Require Import Lib Flight_Model Flight_Spec Flight_Proofs Flight_Proofs2.
Import ListNotations.

Section W.
Variable weight : nat -> nat.
Notation step := (step weight).
Notation run := (run weight).

Definition gone (s : state) (c : nat) : Prop := c < length (flights s) /\ forall k, ~ cached s k c.

Lemma step_gone kd s o c : inv kd s -> gone s c -> gone (step kd s o) c.
Proof.
  intros I [L N]. unfold gone, cached in *.
  destruct (step_effect weight kd s o I); simpl; rewrite ?upd_length; auto.
  - rewrite H, H0. replace (free s) with true by (unfold free; rewrite H1; auto).
    rewrite (find_entry_in _ _ _ (i_nodup _ _ I) H2). auto.
  - rewrite app_length. split; [lia|]. intros k Q. apply in_app_or in Q.
    destruct Q as [Q|[Q|[]]]; [apply (N _ Q)|]. injection Q as _ Q. lia.
  - split; auto. intros k Q. apply (remove_owned_spec (f_key f) c0) in Q; [|apply I]. apply (N k); tauto.
  - split; auto. intros k Q. apply remove_entry_in in Q. apply (N k); tauto.
Qed.

Lemma step_not_attached kd s o c i k p : inv kd s -> gone s c -> call s i k p -> ~ attached_phase p c ->
  exists p', call (step kd s o) i k p' /\ ~ attached_phase p' c.
Proof.
  intros I [L G] C NA.
  destruct p; try (destruct (step_call weight kd s o i k _ I C) as (p' & C' & _ & A); [discriminate|]; exists p'; split; auto; fail).
  unfold call in *.
  assert (SAME : exists p', Some (mkK k KStart) = Some (mkK k p') /\ ~ attached_phase p' c) by eauto.
  destruct (step_effect weight kd s o I); simpl; try (rewrite C; exact SAME).
  - rewrite nth_error_app1 by (apply nth_error_Some; congruence). rewrite C. exact SAME.
  - rewrite H, H0. replace (free s) with true by (unfold free; rewrite H1; auto).
    rewrite (find_entry_in _ _ _ (i_nodup _ _ I) H2). simpl.
    destruct (Nat.eq_dec i i0) as [<-|N].
    + rewrite (nth_upd_eq _ _ _ _ H). rewrite C in H. injection H as <-. simpl in *.
      eexists; split; [reflexivity|]. simpl. intros ->. apply (G _ H2).
    + rewrite nth_upd_neq by auto. rewrite C. exact SAME.
  - destruct (Nat.eq_dec i i0) as [<-|N].
    + rewrite (nth_upd_eq _ _ _ _ H). rewrite C in H. injection H as <-. simpl in *.
      eexists; split; [reflexivity|]. simpl. lia.
    + rewrite nth_upd_neq by auto. rewrite C. exact SAME.
  - rewrite nth_upd_neq. + rewrite C. exact SAME. + intros ->. rewrite C in H. injection H as <-. discriminate.
  - rewrite nth_upd_neq. + rewrite C. exact SAME. + intros ->. rewrite C in H. injection H as <-. auto.
Qed.

Lemma run_not_attached kd h : forall s c i k p, inv kd s -> gone s c -> call s i k p -> ~ attached_phase p c ->
  exists p', call (run kd s h) i k p' /\ ~ attached_phase p' c.
Proof.
  induction h as [|o h IH]; simpl; intros s c i k p I G C N; eauto.
  destruct (step_not_attached kd s o c i k p I G C N) as (p' & C' & N').
  apply (IH _ _ _ _ _ (step_inv _ _ _ _ I) (step_gone _ _ _ _ I G) C' N').
Qed.

Lemma blocking_failed_gone e w s c r : inv (Blocking e w) s -> result s c = Some r -> failure r -> gone s c.
Proof.
  intros I R F. unfold result in R. destruct (nth_error (flights s) c) as [f|] eqn:E; [|discriminate].
  split; [apply nth_error_Some; congruence|]. intros k H. apply (i_ent _ _ I) in H.
  destruct H as (g & G & _ & D). replace g with f in D by congruence.
  pose proof (i_fwf _ _ I _ _ E) as W. unfold fwf in W. unfold dropped, failed in D. rewrite R in *.
  assert (failed_result r = true) by (destruct r; auto; destruct (F v); auto).
  destruct (f_phase f); simpl in *; try congruence; destruct W; discriminate.
Qed.

Lemma done_failed_gone kd s c r : inv kd s -> result s c = Some r -> failure r ->
  phase_of s c = Some FDone -> gone s c.
Proof.
  intros I R F P. unfold result, phase_of in *. destruct (nth_error (flights s) c) as [f|] eqn:E; [|discriminate].
  split; [apply nth_error_Some; congruence|]. intros k H. apply (i_ent _ _ I) in H.
  destruct H as (g & G & _ & D). replace g with f in D by congruence. simpl in P. injection P as P.
  unfold dropped, failed in D. rewrite R, P in *.
  destruct r; simpl in *; try discriminate. apply (F v); auto.
Qed.

(** *** progress *)
Definition quietly (o : op) : Prop := match o with OStep _ | OWait _ => True | _ => False end.

Lemma drain kd n : forall s d, inv kd s -> evictor s = Some d -> length (entries s) <= n ->
  exists h, Forall quietly h /\ evictor (run kd s h) = None /\ callers (run kd s h) = callers s /\
    forall c f, c <> d -> nth_error (flights s) c = Some f -> nth_error (flights (run kd s h)) c = Some f.
Proof.
  induction n as [|n IH]; intros s d I E L; destruct (i_ev1 _ _ I _ E) as (f & F & P).
  - exists [OStep d]. split; [repeat constructor|]. simpl. rewrite F, P.
    assert (entries s = []) as Z by (destruct (entries s); simpl in *; auto; lia).
    rewrite within_empty by (unfold retained; rewrite Z; auto). simpl. repeat split; auto.
    intros c g N G. rewrite nth_upd_neq; auto.
  - destruct (within weight kd s) eqn:W.
    + exists [OStep d]. split; [repeat constructor|]. simpl. rewrite F, P, W. simpl. repeat split; auto.
      intros c g N G. rewrite nth_upd_neq; auto.
    + destruct (oldest (retained s)) as [e|] eqn:O.
      2:{ apply oldest_none in O. rewrite (within_empty weight kd s O) in W. discriminate. }
      assert (S1 : step kd s (OStep d) = with_cnt (with_entries s (remove_entry (fst e) (entries s)))
         (mkC (lookups (cnt s)) (hits (cnt s)) (joined (cnt s)) (misses (cnt s)) (producers (cnt s))
            (failures (cnt s)) (S (evictions (cnt s))))).
      { simpl. rewrite F, P, W, O. auto. }
      apply oldest_some in O. destruct O as [O _]. apply filter_In in O. destruct O as [O _].
      destruct e as [ke ce]. pose proof (remove_entry_length _ _ _ (i_nodup _ _ I) O) as Q.
      destruct (IH (step kd s (OStep d)) d) as (h & H1 & H2 & H3 & H4).
      * apply step_inv; auto.
      * rewrite S1. auto.
      * rewrite S1. simpl in *. lia.
      * exists (OStep d :: h). split; [constructor; simpl; auto|].
        change (run kd s (OStep d :: h)) with (run kd (step kd s (OStep d)) h).
        rewrite S1 in *. auto.
Qed.

Definition returned (p : fphase) : bool :=
  match p with FNew | FRun | FLost => false | _ => true end.

Lemma finish kd s c f : inv kd s -> nth_error (flights s) c = Some f -> returned (f_phase f) = true ->
  exists h, Forall quietly h /\ callers (run kd s h) = callers s /\
    exists f' r, nth_error (flights (run kd s h)) c = Some f' /\ f_rung f' = true /\ f_res f' = Some r.
Proof.
  intros I F R.
  (* from FSet *)
  assert (SETP : forall s f, inv kd s -> nth_error (flights s) c = Some f -> f_phase f = FSet ->
    exists h, Forall quietly h /\ callers (run kd s h) = callers s /\
    exists f' r, nth_error (flights (run kd s h)) c = Some f' /\ f_rung f' = true /\ f_res f' = Some r).
  { clear. intros s f I F P. exists [OStep c]. split; [repeat constructor|]. simpl. rewrite F, P. simpl.
    split; auto. pose proof (i_fwf _ _ I _ _ F) as W. unfold fwf in W. rewrite P in W. destruct W as (_ & r & W & _).
    eexists; exists r. split; [apply (nth_upd_eq _ _ _ _ F)|]. auto. }
  assert (CONS : forall s o, quietly o -> callers (step kd s o) = callers s ->
    (exists h, Forall quietly h /\ callers (run kd (step kd s o) h) = callers (step kd s o) /\
    exists f' r, nth_error (flights (run kd (step kd s o) h)) c = Some f' /\ f_rung f' = true /\ f_res f' = Some r) ->
    exists h, Forall quietly h /\ callers (run kd s h) = callers s /\
    exists f' r, nth_error (flights (run kd s h)) c = Some f' /\ f_rung f' = true /\ f_res f' = Some r).
  { clear. intros s o Q E (h & H1 & H2 & H3). exists (o :: h). split; [constructor; auto|].
    change (run kd s (o :: h)) with (run kd (step kd s o) h). split; auto. congruence. }
  assert (REM : forall s f r, inv kd s -> nth_error (flights s) c = Some f -> f_phase f = FRemoved r ->
    exists h, Forall quietly h /\ callers (run kd s h) = callers s /\
    exists f' r, nth_error (flights (run kd s h)) c = Some f' /\ f_rung f' = true /\ f_res f' = Some r).
  { clear - SETP CONS. intros s f r I F P. apply (CONS s (OStep c)); simpl; auto; rewrite ?F, ?P; auto.
    apply (SETP _ (mkF (f_key f) (Some r) (f_rung f) FSet)).
    - pose proof (step_inv weight kd s (OStep c) I) as Q. simpl in Q. rewrite F, P in Q. auto.
    - simpl. apply (nth_upd_eq _ _ _ _ F).
    - auto. }
  assert (GOT : forall s f r, inv kd s -> nth_error (flights s) c = Some f -> f_phase f = FGot r -> evictor s = None ->
    exists h, Forall quietly h /\ callers (run kd s h) = callers s /\
    exists f' r, nth_error (flights (run kd s h)) c = Some f' /\ f_rung f' = true /\ f_res f' = Some r).
  { clear - SETP CONS REM. intros s f r I F P E.
    pose proof (step_inv weight kd s (OStep c) I) as Q. simpl in Q. rewrite F, P in Q.
    assert (FR : free s = true) by (unfold free; rewrite E; auto). rewrite FR in Q.
    apply (CONS s (OStep c)); simpl; auto; rewrite ?F, ?P, ?FR.
    - destruct (is_blocking kd && negb (is_ok r)); auto.
    - destruct (is_blocking kd && negb (is_ok r)).
      + apply (REM _ (at_phase f (FRemoved r)) r); auto. simpl. apply (nth_upd_eq _ _ _ _ F).
      + apply (SETP _ (mkF (f_key f) (Some r) (f_rung f) FSet)); auto. simpl. apply (nth_upd_eq _ _ _ _ F). }
  assert (AFTER : forall b, f_rung f = b -> b = true -> (exists r, f_res f = Some r) ->
    exists h, Forall quietly h /\ callers (run kd s h) = callers s /\
    exists f' r, nth_error (flights (run kd s h)) c = Some f' /\ f_rung f' = true /\ f_res f' = Some r).
  { intros b Hb Hb' (r & Hr). exists []. simpl. split; auto. split; auto. exists f, r. split; auto. split; congruence. }
  pose proof (i_fwf _ _ I _ _ F) as W. unfold fwf in W.
  destruct (f_phase f) eqn:P; try discriminate; eauto.
  - destruct (evictor s) as [d|] eqn:E; [|eauto].
    destruct (drain kd (length (entries s)) s d I E (le_n _)) as (h & H1 & H2 & H3 & H4).
    assert (D : c <> d). { intros ->. destruct (i_ev1 _ _ I _ E) as (g & G & PG). congruence. }
    destruct (GOT (run kd s h) f r (run_inv _ _ _ _ I) (H4 _ _ D F) P H2) as (h' & H1' & H2' & H3').
    exists (h ++ h'). rewrite run_app. split; [apply Forall_app; auto|]. split; [congruence|auto].
  - destruct W as (W1 & r & W2 & _). eauto.
  - destruct W as (W1 & _ & r & W2 & _). eauto.
  - destruct W as (W1 & r & W2 & _). eauto.
Qed.

Definition answered (p : kphase) : Prop := p = KPanic \/ exists c r, p = KGot c r.

Lemma answer kd s i k c b f r : call s i k (KSleep c b) -> b = false ->
  nth_error (flights s) c = Some f -> f_rung f = true -> f_res f = Some r ->
  exists p, call (run kd s [OWait i; OWait i; OWait i]) i k p /\
    (if is_ok r then p = KGot c r else answered p).
Proof.
  unfold call. intros C -> F G R. simpl. unfold result.
  repeat (rewrite ?C, ?F, ?G; simpl; rewrite ?(nth_upd_eq _ _ _ _ C); simpl; unfold with_caller in *; simpl in *).
  set (cs := upd (callers s) i (mkK k (KReg c))) in *.
  assert (C1 : nth_error cs i = Some (mkK k (KReg c))) by apply (nth_upd_eq _ _ _ _ C).
  rewrite ?(nth_upd_eq _ _ _ _ C1). simpl. unfold result; simpl. rewrite F, R.
  assert (C2 : nth_error (upd cs i (mkK k (KCheck c true))) i = Some (mkK k (KCheck c true))) by apply (nth_upd_eq _ _ _ _ C1).
  destruct r; simpl; rewrite (nth_upd_eq _ _ _ _ C2); eexists; (split; [reflexivity|]); unfold answered; eauto.
Qed.

(** *** a lost flight *)
Lemma step_lost kd s o c f : inv kd s -> nth_error (flights s) c = Some f -> f_phase f = FLost ->
  nth_error (flights (step kd s o)) c = Some f.
Proof.
  intros I F P.
  assert (U : forall d g g', nth_error (flights s) d = Some g -> f_phase g <> FLost ->
     nth_error (upd (flights s) d g') c = Some f).
  { intros d g g' G N. rewrite nth_upd_neq; auto. intros ->. congruence. }
  destruct (step_effect weight kd s o I); simpl; auto.
  - rewrite H, H0. replace (free s) with true by (unfold free; rewrite H1; auto).
    rewrite (find_entry_in _ _ _ (i_nodup _ _ I) H2). auto.
  - rewrite nth_error_app1 by (apply nth_error_Some; congruence). auto.
  - apply (U fl f0); auto. congruence.
  - apply (U c0 f0); auto. congruence.
  - apply (U c0 f0); auto. destruct H0 as [[Q _]|Q]; congruence.
  - apply (U c0 f0); auto. congruence.
  - apply (U c0 f0); auto. destruct H2 as [[Q _]|[Q _]]; congruence.
  - apply (U c0 f0); auto. congruence.
  - apply (U c0 f0); auto. congruence.
  - apply (U c0 f0); auto. congruence.
Qed.
Lemma run_lost kd h : forall s c f, inv kd s -> nth_error (flights s) c = Some f -> f_phase f = FLost ->
  nth_error (flights (run kd s h)) c = Some f.
Proof.
  induction h as [|o h IH]; simpl; auto. intros s c f I F P. apply IH; auto using step_inv, step_lost.
Qed.
End W.
