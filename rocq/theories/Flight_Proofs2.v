(** Counters, limits, provenance of results. *)
From Coq Require Import List Arith Bool Lia.
From Verif Require Import Lib Flight_Model Flight_Spec Flight_Proofs.
Import ListNotations.

Section W.
Variable weight : nat -> nat.
Notation step := (step weight).
Notation run := (run weight).
Local Arguments limits : simpl never.
Local Arguments within : simpl never.

Ltac leaf :=
  repeat match goal with
  | |- context [match ?x with _ => _ end] =>
      lazymatch x with
      | match _ with _ => _ end => fail
      | _ => destruct x eqn:?
      end
  end.

(** What one step did. *)
Inductive effect (kd : kind) (s : state) : op -> state -> Prop :=
| e_id o : effect kd s o s
| e_call k : effect kd s (OCall k) (step kd s (OCall k))
| e_join i c fl : nth_error (callers s) i = Some c -> k_phase c = KStart -> evictor s = None ->
    In (k_key c, fl) (entries s) -> effect kd s (OLock i) (step kd s (OLock i))
| e_miss i c : nth_error (callers s) i = Some c -> k_phase c = KStart -> evictor s = None ->
    find_entry (k_key c) (entries s) = None ->
    effect kd s (OLock i)
      (mkState (entries s ++ [(k_key c, length (flights s))])
         (flights s ++ [mkF (k_key c) None false FNew])
         (upd (callers s) i (mkK (k_key c) (KOwner (length (flights s))))) (evictor s)
         (mkC (lookups (cnt s)) (hits (cnt s)) (joined (cnt s)) (S (misses (cnt s)))
              (producers (cnt s)) (failures (cnt s)) (evictions (cnt s))))
| e_begin o i c fl f p q : nth_error (callers s) i = Some c -> k_phase c = KOwner fl ->
    nth_error (flights s) fl = Some f -> f_phase f = FNew -> (p = FRun \/ p = FLost) ->
    (q = KOwner fl \/ q = KReg fl \/ q = KPanic) ->
    (o = OStart i \/ o = OStartPanic i) ->
    effect kd s o
      (mkState (entries s) (upd (flights s) fl (at_phase f p)) (upd (callers s) i (mkK (k_key c) q)) (evictor s)
         (mkC (lookups (cnt s)) (hits (cnt s)) (joined (cnt s)) (misses (cnt s))
              (S (producers (cnt s))) (failures (cnt s)) (evictions (cnt s))))
| e_finish c f r r' : nth_error (flights s) c = Some f -> f_phase f = FRun ->
    r' = (match r with RPanicked => if is_blocking kd then RPanicked else RErr join_error | _ => r end) ->
    effect kd s (OFinish c r)
      (mkState (entries s) (upd (flights s) c (at_phase f (FGot r'))) (callers s) (evictor s)
         (mkC (lookups (cnt s)) (hits (cnt s)) (joined (cnt s)) (misses (cnt s)) (producers (cnt s))
            (if is_ok r' then failures (cnt s) else S (failures (cnt s))) (evictions (cnt s))))
| e_publish c f r : nth_error (flights s) c = Some f ->
    ((f_phase f = FGot r /\ (is_blocking kd = true -> is_ok r = true)) \/ f_phase f = FRemoved r) ->
    effect kd s (OStep c) (with_flight s c (mkF (f_key f) (Some r) (f_rung f) FSet))
| e_notify c f : nth_error (flights s) c = Some f -> f_phase f = FSet ->
    effect kd s (OStep c) (with_flight s c (mkF (f_key f) (f_res f) true FPost))
| e_forget c f r p : nth_error (flights s) c = Some f -> evictor s = None -> is_ok r = false ->
    ((f_phase f = FGot r /\ is_blocking kd = true /\ p = FRemoved r) \/
     (f_phase f = FPost /\ f_res f = Some r /\ is_blocking kd = false /\ p = FDone)) ->
    effect kd s (OStep c)
      (with_flight (with_entries s (remove_if_owned (f_key f) c (entries s))) c (at_phase f p))
| e_settle c f r : nth_error (flights s) c = Some f -> f_phase f = FPost -> f_res f = Some r ->
    (r = RPanicked \/ (limits kd = None /\ is_ok r = true)) ->
    effect kd s (OStep c) (with_flight s c (at_phase f FDone))
| e_enter c f r : nth_error (flights s) c = Some f -> f_phase f = FPost -> f_res f = Some r ->
    evictor s = None -> limits kd <> None -> (is_ok r = true \/ is_blocking kd = true) ->
    effect kd s (OStep c) (with_evictor (with_flight s c (at_phase f FEvict)) (Some c))
| e_leave c f : nth_error (flights s) c = Some f -> f_phase f = FEvict -> within weight kd s = true ->
    effect kd s (OStep c) (with_evictor (with_flight s c (at_phase f FDone)) None)
| e_evict c f e : nth_error (flights s) c = Some f -> f_phase f = FEvict -> within weight kd s = false ->
    oldest (retained s) = Some e ->
    effect kd s (OStep c)
      (with_cnt (with_entries s (remove_entry (fst e) (entries s)))
         (mkC (lookups (cnt s)) (hits (cnt s)) (joined (cnt s)) (misses (cnt s)) (producers (cnt s))
            (failures (cnt s)) (S (evictions (cnt s)))))
| e_wait o i c p : nth_error (callers s) i = Some c ->
    (o = OOwner i \/ o = OWait i \/ o = ODrop i) -> k_phase c <> KStart -> p <> KStart ->
    (forall fl, attached_phase p fl -> attached_phase (k_phase c) fl) ->
    effect kd s o (with_caller s i c p).

Lemma free_none s : free s = true -> evictor s = None.
Proof. unfold free. destruct (evictor s); auto; discriminate. Qed.

Lemma within_empty kd s : retained s = [] -> within weight kd s = true.
Proof.
  intros H. unfold within. destruct (limits kd) as [[e w]|]; auto.
  unfold retained_weight. rewrite H. reflexivity.
Qed.

Lemma upd_same {A} (l : list A) i x : nth_error l i = Some x -> upd l i x = l.
Proof. revert i; induction l; destruct i; simpl; intros; try discriminate; f_equal; auto. congruence. Qed.

Lemma step_effect kd s o : inv kd s -> effect kd s o (step kd s o).
Proof.
  intros I. destruct o; [apply e_call|..]; cbn [Flight_Model.step].
  - destruct (nth_error (callers s) i) as [c|] eqn:HC; [|apply e_id].
    destruct (k_phase c) eqn:HP; try apply e_id. destruct (free s) eqn:HF; [|apply e_id].
    destruct (find_entry (k_key c) (entries s)) as [fl|] eqn:HE.
    + pose proof (e_join kd s i c fl HC HP (free_none _ HF) (find_entry_some _ _ _ HE)) as Q.
      cbn [Flight_Model.step] in Q. rewrite HC, HP, HF, HE in Q. exact Q.
    + apply e_miss; auto. apply free_none; auto.
  - destruct (nth_error (callers s) i) as [c|] eqn:HC; [|apply e_id].
    destruct (k_phase c) eqn:HP; try apply e_id.
    destruct (nth_error (flights s) c0) as [f|] eqn:HF; [|apply e_id].
    destruct (f_phase f) eqn:P; try apply e_id.
    destruct (is_blocking kd).
    + replace (with_cnt _ _) with
       (mkState (entries s) (upd (flights s) c0 (at_phase f FRun)) (upd (callers s) i (mkK (k_key c) (KOwner c0))) (evictor s)
         (mkC (lookups (cnt s)) (hits (cnt s)) (joined (cnt s)) (misses (cnt s))
              (S (producers (cnt s))) (failures (cnt s)) (evictions (cnt s)))).
      * apply e_begin with (c := c) (i := i); auto.
      * unfold with_cnt, with_flight; simpl. f_equal. apply upd_same. rewrite HC. destruct c; simpl in *. congruence.
    + apply (e_begin kd s (OStart i) i c c0 f FRun (KReg c0)); auto.
  - destruct (is_blocking kd); [apply e_id|].
    destruct (nth_error (callers s) i) as [c|] eqn:HC; [|apply e_id].
    destruct (k_phase c) eqn:HP; try apply e_id.
    destruct (nth_error (flights s) c0) as [f|] eqn:HF; [|apply e_id].
    destruct (f_phase f) eqn:P; try apply e_id.
    apply (e_begin kd s (OStartPanic i) i c c0 f FLost KPanic); auto.
  - destruct (nth_error (flights s) c) as [f|] eqn:HF; [|apply e_id].
    destruct (f_phase f) eqn:P; try apply e_id.
    exact (e_finish kd s c f r _ HF P eq_refl).
  - destruct (nth_error (flights s) c) as [f|] eqn:HF; [|apply e_id].
    destruct (f_phase f) eqn:P; try apply e_id.
    + destruct (is_blocking kd && negb (is_ok r)) eqn:B.
      * apply andb_prop in B. rewrite negb_true_iff in B. destruct B.
        destruct (free s) eqn:FR; [|apply e_id]. apply free_none in FR.
        apply e_forget with (r := r); auto.
      * apply e_publish; auto. left. split; auto. intros Q. rewrite Q in B. simpl in B. destruct (is_ok r); auto; discriminate.
    + apply e_publish; auto.
    + apply e_notify; auto.
    + destruct (f_res f) as [r|] eqn:R; [|apply e_id].
      destruct (is_blocking kd) eqn:B.
      * assert (L : limits kd <> None) by (destruct kd; unfold limits; simpl in *; congruence).
        destruct r; try (apply e_settle with (r := RPanicked); solve [auto]);
        (destruct (free s) eqn:FR; [|apply e_id]); apply free_none in FR; eapply e_enter; eauto.
      * destruct r; simpl; try (apply e_settle with (r := RPanicked); solve [auto]).
        -- destruct (limits kd) eqn:L; [|eapply e_settle; eauto].
           (destruct (free s) eqn:FR; [|apply e_id]); apply free_none in FR; eapply e_enter; eauto. congruence.
        -- (destruct (free s) eqn:FR; [|apply e_id]); apply free_none in FR.
           apply e_forget with (r := RErr e); auto 8.
    + destruct (within weight kd s) eqn:W; [apply e_leave; auto|].
      destruct (oldest (retained s)) eqn:O; [eapply e_evict; eauto|].
      apply oldest_none in O. rewrite within_empty in W; auto. discriminate.
  - destruct (negb (is_blocking kd)); [apply e_id|].
    destruct (nth_error (callers s) i) as [c|] eqn:HC; [|apply e_id].
    destruct (k_phase c) eqn:HP; try apply e_id.
    destruct (nth_error (flights s) c0) as [f|] eqn:HF; [|apply e_id].
    destruct (f_phase f) eqn:P; try apply e_id.
    apply e_wait; auto; destruct (f_res f) as [[]|]; try congruence; rewrite HP; simpl; tauto.
  - destruct (nth_error (callers s) i) as [c|] eqn:HC; [|apply e_id].
    destruct (k_phase c) eqn:HP; try apply e_id.
    + destruct (nth_error (flights s) c0); [|apply e_id]. apply e_wait; auto; try congruence. rewrite HP; auto.
    + destruct (result s c0) as [[]|]; apply e_wait; auto; try congruence; rewrite HP; simpl; tauto.
    + destruct (nth_error (flights s) c0); [|apply e_id]. destruct (Bool.eqb _ _); [apply e_id|].
      apply e_wait; auto; try congruence. rewrite HP; auto.
  - destruct (is_blocking kd); [apply e_id|].
    destruct (nth_error (callers s) i) as [c|] eqn:HC; [|apply e_id].
    destruct (k_phase c) eqn:HP; try apply e_id; apply e_wait; auto; try congruence; simpl; tauto.
Qed.

Lemma run_app kd s h1 h2 : run kd s (h1 ++ h2) = run kd (run kd s h1) h2.
Proof. unfold Flight_Model.run. apply fold_left_app. Qed.

(** Flights only grow. *)
Lemma step_fle kd s o c f : inv kd s -> nth_error (flights s) c = Some f ->
  exists f', nth_error (flights (step kd s o)) c = Some f' /\ fle f f'.
Proof.
  intros I F. pose proof (i_fwf _ _ I) as D.
  assert (U : forall d g g', nth_error (flights s) d = Some g -> fle g g' ->
    exists f', nth_error (upd (flights s) d g') c = Some f' /\ fle f f').
  { intros d g g' G L. apply (upd_fle s d g g' G L c f F). }
  destruct (step_effect kd s o I); simpl; try (exists f; split; [assumption|apply fle_refl]).
  - rewrite H, H0. replace (free s) with true by (unfold free; rewrite H1; auto).
    rewrite (find_entry_in _ _ _ (i_nodup _ _ I) H2). exists f. split; auto. apply fle_refl.
  - exists f. rewrite nth_error_app1 by (apply nth_error_Some; congruence). split; auto. apply fle_refl.
  - apply (U fl f0); auto. repeat split; auto.
  - apply (U c0 f0); auto. repeat split; auto.
  - apply (U c0 f0); auto. pose proof (D _ _ H) as W. unfold fwf in W. repeat split; auto.
    left. destruct H0 as [[P _]|P]; rewrite P in W; tauto.
  - apply (U c0 f0); auto. repeat split; auto.
  - apply (U c0 f0); auto. repeat split; auto.
  - apply (U c0 f0); auto. repeat split; auto.
  - apply (U c0 f0); auto. repeat split; auto.
  - apply (U c0 f0); auto. repeat split; auto.
Qed.

Lemma run_fle kd h : forall s c f, inv kd s -> nth_error (flights s) c = Some f ->
  exists f', nth_error (flights (run kd s h)) c = Some f' /\ fle f f'.
Proof.
  induction h as [|o h IH]; simpl; intros s c f I F.
  - exists f; split; auto. apply fle_refl.
  - destruct (step_fle kd s o c f I F) as (g & G & (L1 & L2 & L3)).
    destruct (IH (step kd s o) c g (step_inv weight _ _ _ I) G) as (g' & G' & (M1 & M2 & M3)).
    exists g'. split; auto. repeat split; try congruence; auto.
    destruct L2; auto. destruct M2; [left|right]; congruence.
Qed.

(** *** counters *)
Record cinv (kd : kind) (s : state) : Prop := mkCinv {
  c_lookups : lookups (cnt s) = length (callers s);
  c_sum : hits (cnt s) + joined (cnt s) + misses (cnt s) = count past_lookup (callers s);
  c_misses : misses (cnt s) = length (flights s);
  c_producers : producers (cnt s) = count begun (flights s);
  c_failures : failures (cnt s) = count failed (flights s);
  c_entries : length (entries s) + evictions (cnt s) + count (dropped kd) (flights s) = misses (cnt s) }.

Lemma cinv_flight kd s c f f' e : cinv kd s -> nth_error (flights s) c = Some f ->
  begun f' = begun f -> failed f' = failed f ->
  length e + (if dropped kd f' then 1 else 0) = length (entries s) + (if dropped kd f then 1 else 0) ->
  forall ev, cinv kd (mkState e (upd (flights s) c f') (callers s) ev (cnt s)).
Proof.
  intros [A B C D E G] F H1 H2 H3 ev. split; simpl; auto.
  - rewrite upd_length. auto.
  - pose proof (count_upd begun _ _ f' _ F). rewrite H1 in H. lia.
  - pose proof (count_upd failed _ _ f' _ F). rewrite H2 in H. lia.
  - pose proof (count_upd (dropped kd) _ _ f' _ F). lia.
Qed.

Lemma remove_owned_length k c l : NoDup (map fst l) -> In (k, c) l ->
  S (length (remove_if_owned k c l)) = length l.
Proof.
  intros N H. unfold remove_if_owned. rewrite (find_entry_in _ _ _ N H), Nat.eqb_refl.
  apply (remove_entry_length _ c); auto.
Qed.

Lemma step_cinv kd s o : inv kd s -> cinv kd s -> cinv kd (step kd s o).
Proof.
  intros I J. pose proof J as [A B C D E G]. pose proof (i_fwf _ _ I) as W. pose proof (i_in _ _ I) as IN.
  pose proof (i_nodup _ _ I) as ND.
  destruct (step_effect kd s o I); auto.
  - split; simpl; auto; rewrite ?app_length, ?count_app; simpl; lia.
  - simpl. rewrite H, H0. replace (free s) with true by (unfold free; rewrite H1; auto).
    rewrite (find_entry_in _ _ _ ND H2). unfold with_cnt, with_caller.
    assert (PL : past_lookup c = false) by (unfold past_lookup; rewrite H0; auto).
    pose proof (count_upd past_lookup _ _ (mkK (k_key c) (KReg fl)) _ H) as Q.
    rewrite PL in Q. simpl in Q.
    match goal with |- context [if ?b then _ else _] => destruct b end;
    split; simpl; rewrite ?upd_length; auto; lia.
  - assert (PL : past_lookup c = false) by (unfold past_lookup; rewrite H0; auto).
    pose proof (count_upd past_lookup _ _ (mkK (k_key c) (KOwner (length (flights s)))) _ H) as Q.
    rewrite PL in Q. simpl in Q.
    split; simpl; rewrite ?upd_length, ?app_length, ?count_app; simpl; auto; lia.
  - pose proof (count_upd past_lookup _ _ (mkK (k_key c) q) _ H) as Q.
    replace (past_lookup c) with true in Q by (unfold past_lookup; rewrite H0; auto).
    replace (past_lookup (mkK (k_key c) q)) with true in Q by (unfold past_lookup; destruct H4 as [->|[->| ->]]; auto).
    pose proof (W _ _ H1) as WF. unfold fwf in WF. rewrite H2 in WF. destruct WF as [WF1 WF2].
    assert (V : begun f = false /\ failed f = false /\ dropped kd f = false) by
      (unfold begun, dropped, failed; rewrite H2, WF1; auto).
    assert (V' : begun (at_phase f p) = true /\ failed (at_phase f p) = false /\ dropped kd (at_phase f p) = false) by
      (unfold begun, dropped, failed, at_phase; simpl; rewrite WF1; destruct H3; subst p; auto).
    destruct V as (V1 & V2 & V3), V' as (V4 & V5 & V6).
    pose proof (count_upd begun _ _ (at_phase f p) _ H1) as Q1. rewrite V1, V4 in Q1.
    pose proof (count_upd failed _ _ (at_phase f p) _ H1) as Q2. rewrite V2, V5 in Q2.
    pose proof (count_upd (dropped kd) _ _ (at_phase f p) _ H1) as Q3. rewrite V3, V6 in Q3.
    split; simpl; rewrite ?upd_length; auto; lia.
  - pose proof (W _ _ H) as WF. unfold fwf in WF. rewrite H0 in WF. destruct WF as [WF1 WF2].
    clear H1. 
    assert (V : begun f = true /\ failed f = false /\ dropped kd f = false) by
      (unfold begun, dropped, failed; rewrite H0, WF1; auto).
    assert (V' : begun (at_phase f (FGot r')) = true /\ failed (at_phase f (FGot r')) = negb (is_ok r') /\ dropped kd (at_phase f (FGot r')) = false) by
      (unfold begun, dropped, failed, at_phase; simpl; destruct r'; auto).
    destruct V as (V1 & V2 & V3), V' as (V4 & V5 & V6).
    pose proof (count_upd begun _ _ (at_phase f (FGot r')) _ H) as Q1. rewrite V1, V4 in Q1.
    pose proof (count_upd failed _ _ (at_phase f (FGot r')) _ H) as Q2. rewrite V2, V5 in Q2.
    pose proof (count_upd (dropped kd) _ _ (at_phase f (FGot r')) _ H) as Q3. rewrite V3, V6 in Q3.
    split; simpl; rewrite ?upd_length; auto; try lia. destruct (is_ok r'); simpl in *; lia.
  - pose proof (W _ _ H) as WF. unfold fwf in WF.
    apply (cinv_flight kd s c f); auto; unfold begun, failed, dropped; simpl.
    + destruct H0 as [[P _]|P]; rewrite P; auto.
    + destruct H0 as [[P _]|P]; rewrite P; auto.
    + unfold failed. simpl. destruct H0 as [[P Q]|P]; rewrite P; simpl.
      * destruct (is_blocking kd); simpl; auto. 
        specialize (Q eq_refl). destruct r; simpl in *; congruence.
      * rewrite P in WF. destruct WF as (_ & _ & _ & -> & R). destruct r; simpl in *; try congruence; auto.
  - apply (cinv_flight kd s c f); auto; unfold begun, failed, dropped; simpl; rewrite H0; auto.
    unfold failed; simpl. rewrite H0. auto.
  - apply (cinv_flight kd s c f); auto; unfold begun, failed, dropped, at_phase; simpl.
    + destruct H2 as [(P&_&->)|(P&_&_&->)]; rewrite P; auto.
    + destruct H2 as [(P&_&->)|(P&R&_&->)]; rewrite P; auto.
    + assert (INC : In (f_key f, c) (entries s)).
      { apply IN; auto. unfold must_in, failed. destruct H2 as [(P&_)|(P&R&BL&_)]; rewrite P; auto.
        rewrite BL, R. destruct r; simpl in *; congruence. }
      pose proof (remove_owned_length _ _ _ ND INC).
      destruct H2 as [(P&BL&->)|(P&R&BL&->)]; rewrite P; unfold failed; simpl.
      * destruct r; simpl in *; try discriminate; lia.
      * rewrite R, BL. destruct r; simpl in *; try discriminate; lia.
  - apply (cinv_flight kd s c f); auto; unfold begun, failed, dropped, at_phase; simpl; rewrite H0; auto.
    unfold failed; simpl. rewrite H0, H1. destruct H2 as [->|[_ OK]]; [|destruct r; try discriminate; simpl; rewrite andb_false_r; auto].
    pose proof (W _ _ H) as WF. unfold fwf in WF. rewrite H0 in WF. destruct WF as (_ & r0 & R0 & Q0).
    rewrite Q0; auto; congruence.
  - apply (cinv_flight kd s c f); auto; unfold begun, failed, dropped, at_phase; simpl; rewrite H0; auto.
    unfold failed; simpl. rewrite H0, H1. destruct H4 as [OK|OK]; [destruct r; try discriminate; simpl; rewrite andb_false_r; auto|].
    rewrite OK. auto.
  - apply (cinv_flight kd s c f); auto; unfold begun, failed, dropped, at_phase; simpl; rewrite H0; auto.
    unfold failed; simpl. rewrite H0. auto.
  - apply oldest_some in H2. destruct H2 as [H2 _]. apply filter_In in H2. destruct H2 as [H2 _].
    destruct e as [ke ce]. pose proof (remove_entry_length ke ce _ ND H2).
    split; simpl; auto. lia.
  - pose proof (count_upd past_lookup _ _ (mkK (k_key c) p) _ H) as Q.
    assert (past_lookup c = true /\ past_lookup (mkK (k_key c) p) = true) as [Q1 Q2].
    { unfold past_lookup; simpl. destruct (k_phase c), p; split; congruence. }
    rewrite Q1, Q2 in Q. split; simpl; rewrite ?upd_length; auto; lia.
Qed.

Lemma run_cinv kd h : forall s, inv kd s -> cinv kd s -> cinv kd (run kd s h).
Proof.
  induction h; simpl; auto. intros s I J. apply IHh.
  - apply step_inv; auto.
  - apply step_cinv; auto.
Qed.
Lemma init_cinv kd : cinv kd init.
Proof. split; reflexivity. Qed.

(** *** limits *)
Definition settled (kd : kind) (s : state) : Prop :=
  (exists c, unsettled s c) \/ within weight kd s = true.

Lemma result_upd s c f f' : nth_error (flights s) c = Some f -> f_res f' = f_res f ->
  forall s', flights s' = upd (flights s) c f' -> forall d, result s' d = result s d.
Proof.
  intros F R s' E d. unfold result. rewrite E, nth_upd. destruct (Nat.eqb_spec c d) as [->|]; auto.
  rewrite F. congruence.
Qed.

Lemma retained_same s s' p : (forall d, result s' d = result s d) -> entries s' = filter p (entries s) ->
  retained s' = filter p (retained s).
Proof.
  intros R E. unfold retained. rewrite E. clear E. induction (entries s) as [|e l IH]; simpl; auto.
  assert (completed_ok s' e = completed_ok s e) by (unfold completed_ok; rewrite R; auto).
  destruct (p e) eqn:P; simpl; rewrite ?H; destruct (completed_ok s e); simpl; rewrite ?P, IH; auto.
Qed.

Lemma sum_filter_le (p : nat * nat -> bool) (w : nat * nat -> nat) l :
  list_sum (map w (filter p l)) <= list_sum (map w l).
Proof. induction l; simpl; auto. destruct (p a); simpl; lia. Qed.
Lemma filter_length_le' {A} (p : A -> bool) l : length (filter p l) <= length l.
Proof. induction l; simpl; auto. destruct (p a); simpl; lia. Qed.

Lemma within_filter kd s s' p : (forall d, result s' d = result s d) -> entries s' = filter p (entries s) ->
  within weight kd s = true -> within weight kd s' = true.
Proof.
  intros R E. unfold within. destruct (limits kd) as [[e w]|]; auto.
  unfold retained_weight. rewrite (retained_same s s' p R E).
  rewrite !andb_true_iff, !Nat.leb_le. intros [H1 H2].
  pose proof (filter_length_le' p (retained s)).
  assert (map (entry_weight weight s') (filter p (retained s)) = map (entry_weight weight s) (filter p (retained s))) as ->.
  { apply map_ext. intros a. unfold entry_weight. rewrite R. auto. }
  pose proof (sum_filter_le p (entry_weight weight s) (retained s)). lia.
Qed.

Lemma filter_true {A} (l : list A) : l = filter (fun _ => true) l.
Proof. induction l; simpl; auto. congruence. Qed.
Lemma within_same kd s s' : (forall d, result s' d = result s d) -> entries s' = entries s ->
  within weight kd s = true -> within weight kd s' = true.
Proof. intros R E. apply (within_filter kd s s' (fun _ => true)); auto. rewrite E. apply filter_true. Qed.

Lemma remove_owned_filter k c l : exists p, remove_if_owned k c l = filter p l.
Proof.
  unfold remove_if_owned. destruct (find_entry k l); [destruct (_ =? _)|]; eauto using filter_true.
  eexists. reflexivity.
Qed.

Definition live (f : flight) : Prop :=
  exists v, f_res f = Some (ROk v) /\ (f_phase f = FSet \/ f_phase f = FPost \/ f_phase f = FEvict).
Lemma unsettled_live s c : unsettled s c <-> exists f, nth_error (flights s) c = Some f /\ live f.
Proof. unfold unsettled, live. firstorder. Qed.

Lemma settled_flight kd s s' c f f' p : settled kd s -> nth_error (flights s) c = Some f ->
  f_res f' = f_res f -> (live f -> live f') ->
  flights s' = upd (flights s) c f' -> entries s' = filter p (entries s) -> settled kd s'.
Proof.
  intros [[d U]|W] F R L E E2.
  - left. apply unsettled_live in U. destruct U as (g & G & LG).
    destruct (Nat.eq_dec d c) as [->|N].
    + exists c. apply unsettled_live. exists f'. rewrite E. split; [apply (nth_upd_eq _ _ _ _ F)|].
      apply L. congruence.
    + exists d. apply unsettled_live. exists g. rewrite E, nth_upd_neq; auto.
  - right. apply (within_filter kd s s' p); auto. eapply result_upd; eauto.
Qed.

Lemma step_settled kd s o : inv kd s -> settled kd s -> settled kd (step kd s o).
Proof.
  intros I J. pose proof (i_fwf _ _ I) as WF.
  assert (SAME : forall s', flights s' = flights s -> entries s' = entries s -> settled kd s').
  { intros s' E1 E2. destruct J as [[c U]|W].
    - left. exists c. unfold unsettled. rewrite E1. auto.
    - right. apply (within_same kd s); auto. intros d. unfold result. rewrite E1. auto. }
  destruct (step_effect kd s o I); auto.
  - apply SAME; simpl; rewrite H, H0; replace (free s) with true by (unfold free; rewrite H1; auto);
    rewrite (find_entry_in _ _ _ (i_nodup _ _ I) H2); auto.
  - destruct J as [[d U]|W].
    + left. exists d. apply unsettled_live in U. destruct U as (g & G & LG). apply unsettled_live.
      exists g. simpl. rewrite nth_error_app1 by (apply nth_error_Some; congruence). auto.
    + right. revert W. unfold within. destruct (limits kd) as [[e w]|]; auto.
      assert (R : forall d, result (mkState (entries s ++ [(k_key c, length (flights s))])
         (flights s ++ [mkF (k_key c) None false FNew])
         (upd (callers s) i (mkK (k_key c) (KOwner (length (flights s))))) (evictor s)
         (mkC (lookups (cnt s)) (hits (cnt s)) (joined (cnt s)) (S (misses (cnt s)))
              (producers (cnt s)) (failures (cnt s)) (evictions (cnt s)))) d = result s d).
      { intros d. unfold result. simpl. destruct (Nat.lt_ge_cases d (length (flights s))).
        - rewrite nth_error_app1 by auto. auto.
        - rewrite nth_error_app2 by auto. rewrite (proj2 (nth_error_None (flights s) d)) by auto.
          destruct (d - length (flights s)) as [|[|]]; auto. }
      set (s' := mkState _ _ _ _ _) in *.
      assert (retained s' = retained s) as RT.
      { unfold retained. change (entries s') with (entries s ++ [(k_key c, length (flights s))]).
        rewrite filter_app. rewrite (filter_ext _ (completed_ok s)) by (intros a; unfold completed_ok; rewrite R; auto).
        simpl. unfold completed_ok at 2. rewrite R. unfold result. simpl.
        rewrite (proj2 (nth_error_None (flights s) (length (flights s)))) by auto. apply app_nil_r. }
      unfold retained_weight. rewrite RT.
      rewrite (map_ext (entry_weight weight s') (entry_weight weight s)); auto.
      intros a. unfold entry_weight. rewrite R. auto.
  - apply (settled_flight kd s _ fl f (at_phase f p) (fun _ => true)); simpl; auto using filter_true.
    intros (v & R & _). pose proof (WF _ _ H1) as Q. unfold fwf in Q. rewrite H2, R in Q. destruct Q; discriminate.
  - apply (settled_flight kd s _ c f (at_phase f (FGot r')) (fun _ => true)); simpl; auto using filter_true.
    intros (v & R & _). pose proof (WF _ _ H) as Q. unfold fwf in Q. rewrite H0, R in Q. destruct Q; discriminate.
  - (* publish *)
    assert (N : f_res f = None). { pose proof (WF _ _ H) as Q. unfold fwf in Q. destruct H0 as [[P _]|P]; rewrite P in Q; tauto. }
    destruct (is_ok r) eqn:OK.
    + left. exists c. apply unsettled_live. eexists. split; [simpl; apply (nth_upd_eq _ _ _ _ H)|].
      destruct r; try discriminate. exists v. simpl. auto.
    + destruct J as [[d U]|W].
      * left. exists d. apply unsettled_live in U. destruct U as (g & G & LG). apply unsettled_live.
        exists g. simpl. rewrite nth_upd_neq; auto. intros ->. destruct LG as (v & R & _). congruence.
      * right. revert W. unfold within. destruct (limits kd) as [[e w]|]; auto.
        set (s' := with_flight _ _ _).
        assert (CO : forall a, completed_ok s' a = completed_ok s a /\ (completed_ok s a = true -> entry_weight weight s' a = entry_weight weight s a)).
        { intros a. unfold completed_ok, entry_weight, result, s'. simpl. rewrite nth_upd.
          destruct (Nat.eqb_spec c (snd a)) as [Q|]; auto. rewrite <- Q, H, N. simpl.
          destruct r; try discriminate; split; auto; discriminate. }
        assert (RT : retained s' = retained s) by (unfold retained; apply filter_ext; intros a; apply CO).
        unfold retained_weight. rewrite RT.
        rewrite (map_ext_in (entry_weight weight s') (entry_weight weight s)); auto.
        intros a Q. apply filter_In in Q. apply CO. tauto.
  - apply (settled_flight kd s _ c f (mkF (f_key f) (f_res f) true FPost) (fun _ => true)); simpl; auto using filter_true.
    intros (v & R & _). exists v. auto.
  - destruct (remove_owned_filter (f_key f) c (entries s)) as [q Q].
    apply (settled_flight kd s _ c f (at_phase f p) q); simpl; auto.
    intros (v & R & LP). destruct H2 as [(P&_)|(P&R'&_)].
    + pose proof (WF _ _ H) as Z. unfold fwf in Z. rewrite P, R in Z. destruct Z; discriminate.
    + rewrite R in R'. injection R' as <-. discriminate.
  - destruct H2 as [->|[LM _]].
    + apply (settled_flight kd s _ c f (at_phase f FDone) (fun _ => true)); simpl; auto using filter_true.
      intros (v & R & _). congruence.
    + right. unfold within. rewrite LM. auto.
  - apply (settled_flight kd s _ c f (at_phase f FEvict) (fun _ => true)); simpl; auto using filter_true.
    intros (v & R & _). exists v. simpl. auto.
  - right. apply (within_same kd s); auto. apply (result_upd s c f (at_phase f FDone)); auto.
  - destruct J as [[d U]|W]; [|congruence]. left. exists d. exact U.
Qed.

Lemma run_settled kd h : forall s, inv kd s -> settled kd s -> settled kd (run kd s h).
Proof.
  induction h; simpl; auto. intros s I J. apply IHh.
  - apply step_inv; auto.
  - apply step_settled; auto.
Qed.
Lemma init_settled kd : settled kd init.
Proof. right. apply within_empty. reflexivity. Qed.

(** *** provenance *)
Definition published (kd : kind) (r : res) : res :=
  match r with RPanicked => if is_blocking kd then RPanicked else RErr join_error | _ => r end.
Definition outcome (f : flight) : option res :=
  match f_phase f with FGot r | FRemoved r => Some r | _ => f_res f end.

Lemma run_outcome kd h c f r : nth_error (flights (run kd init h)) c = Some f -> outcome f = Some r ->
  exists h1 r0 h2, h = h1 ++ OFinish c r0 :: h2 /\ producing (run kd init h1) c (f_key f) /\ r = published kd r0.
Proof.
  revert f. induction h as [|o h IH] using rev_ind; intros f.
  - simpl. destruct c; discriminate.
  - rewrite run_app. simpl. set (s := run kd init h) in *. intros F O.
    assert (I : inv kd s) by apply run_inv, init_inv.
    assert (EXT : (exists h1 r0 h2, h = h1 ++ OFinish c r0 :: h2 /\ producing (run kd init h1) c (f_key f) /\ r = published kd r0) ->
       exists h1 r0 h2, h ++ [o] = h1 ++ OFinish c r0 :: h2 /\ producing (run kd init h1) c (f_key f) /\ r = published kd r0).
    { intros (h1 & r0 & h2 & -> & Q). exists h1, r0, (h2 ++ [o]). rewrite <- app_assoc. auto. }
    assert (OLD : nth_error (flights s) c = Some f -> exists h1 r0 h2, h ++ [o] = h1 ++ OFinish c r0 :: h2 /\ producing (run kd init h1) c (f_key f) /\ r = published kd r0).
    { intros Q. apply EXT. apply IH; auto. }
    assert (UPD : forall d g g', nth_error (upd (flights s) d g') c = Some f -> nth_error (flights s) d = Some g ->
       f_key g' = f_key g -> (c = d -> outcome g' = outcome g) ->
       exists h1 r0 h2, h ++ [o] = h1 ++ OFinish c r0 :: h2 /\ producing (run kd init h1) c (f_key f) /\ r = published kd r0).
    { intros d g g' U G K Q. destruct (Nat.eq_dec c d) as [->|N].
      - rewrite (nth_upd_eq _ _ _ _ G) in U. injection U as <-. apply EXT. rewrite K. apply IH; auto.
        rewrite <- Q; auto.
      - rewrite nth_upd_neq in U; auto. }
    pose proof (i_fwf _ _ I) as WF. revert F OLD. unfold outcome in *.
    destruct (step_effect kd s o I); simpl; intros F OLD; auto.
    + rewrite H, H0 in F. replace (free s) with true in F by (unfold free; rewrite H1; auto).
      rewrite (find_entry_in _ _ _ (i_nodup _ _ I) H2) in F. auto.
    + destruct (Nat.lt_ge_cases c (length (flights s))).
      * rewrite nth_error_app1 in F by auto. auto.
      * rewrite nth_error_app2 in F by auto. destruct (c - length (flights s)) as [|[|]]; try discriminate.
        simpl in F. injection F as <-. discriminate.
    + apply (UPD fl f0 _ F); auto. simpl. intros _. rewrite H2. destruct H3; subst; auto.
    + destruct (Nat.eq_dec c c0) as [<-|N].
      * rewrite (nth_upd_eq _ _ _ _ H) in F. injection F as <-. simpl in O. injection O as <-.
        exists h, r0, []. split; auto. simpl. split; [exists f0; auto|]. auto.
      * rewrite nth_upd_neq in F; auto.
    + apply (UPD c0 f0 _ F); auto. simpl. intros _. destruct H0 as [[P _]|P]; rewrite P; auto.
    + apply (UPD c0 f0 _ F); auto. simpl. rewrite H0. auto.
    + apply (UPD c0 f0 _ F); auto. simpl. intros _. destruct H2 as [(P&_&->)|(P&R&_&->)]; rewrite P; auto.
    + apply (UPD c0 f0 _ F); auto. simpl. rewrite H0. auto.
    + apply (UPD c0 f0 _ F); auto. simpl. rewrite H0. auto.
    + apply (UPD c0 f0 _ F); auto. simpl. rewrite H0. auto.
Qed.

(** *** a call keeps its flight *)
Lemma step_call kd s o i k p : inv kd s -> call s i k p -> p <> KStart ->
  exists p', call (step kd s o) i k p' /\ p' <> KStart /\ (forall c, attached_phase p' c -> attached_phase p c).
Proof.
  intros I C NS. unfold call in *.
  assert (SAME : exists p', Some (mkK k p) = Some (mkK k p') /\ p' <> KStart /\ (forall c, attached_phase p' c -> attached_phase p c)).
  { exists p. auto. }
  destruct (step_effect kd s o I); simpl; try (rewrite C; exact SAME).
  - rewrite nth_error_app1 by (apply nth_error_Some; congruence). rewrite C. exact SAME.
  - rewrite H, H0. replace (free s) with true by (unfold free; rewrite H1; auto).
    rewrite (find_entry_in _ _ _ (i_nodup _ _ I) H2). simpl.
    rewrite nth_upd_neq. + rewrite C. exact SAME. + intros ->. rewrite C in H. injection H as <-. auto.
  - rewrite nth_upd_neq. + rewrite C. exact SAME. + intros ->. rewrite C in H. injection H as <-. auto.
  - destruct (Nat.eq_dec i i0) as [<-|N].
    + rewrite (nth_upd_eq _ _ _ _ H). rewrite C in H. injection H as <-. simpl in *. exists q.
      split; auto. split; [destruct H4 as [->|[->| ->]]; congruence|].
      intros c A. subst p. destruct H4 as [->|[->| ->]]; simpl in *; tauto.
    + rewrite nth_upd_neq by auto. rewrite C. exact SAME.
  - destruct (Nat.eq_dec i i0) as [<-|N].
    + rewrite (nth_upd_eq _ _ _ _ H). rewrite C in H. injection H as <-. simpl in *. exists p0. auto.
    + rewrite nth_upd_neq by auto. rewrite C. exact SAME.
Qed.

Lemma run_call kd h : forall s i k p, inv kd s -> call s i k p -> p <> KStart ->
  exists p', call (run kd s h) i k p' /\ (forall c, attached_phase p' c -> attached_phase p c).
Proof.
  induction h as [|o h IH]; simpl; intros s i k p I C N; eauto.
  destruct (step_call kd s o i k p I C N) as (p1 & C1 & N1 & A1).
  destruct (IH (step kd s o) i k p1 (step_inv _ _ _ _ I) C1 N1) as (p2 & C2 & A2). eauto.
Qed.
End W.
