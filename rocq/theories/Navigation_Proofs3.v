(** Proofs for C53: tickets. *)
From Coq Require Import List Arith Lia Bool Sorted.
From Verif Require Import Lib Navigation_Model Navigation_Spec Navigation_Proofs Navigation_Proofs2.
Import ListNotations.

Section Unicode.
Variable alnum : nat -> bool.
Local Notation step := (step alnum).
Local Notation run := (run alnum).
Local Notation after := (after alnum).
Local Notation happened := (happened alnum).

(** What a step does to tickets, notifications and the revision. *)
Lemma step_other s o : (forall g st k, o <> ORequest g st k) -> (forall i, o <> OTicket i) ->
  tickets (fst (step s o)) = tickets s /\ revision s <= revision (fst (step s o)) /\
  (owed s <= owed (fst (step s o)) \/ revision s < revision (fst (step s o))) /\
  (panicked s = true -> panicked (fst (step s o)) = true).
Proof.
  intros N1 N2. destruct o as [g|g st k|g st|g st k|g st ks|g st|g| |i]; cbn [Navigation_Model.step].
  - destruct (Nat.eqb g 0); [cbn; repeat split; auto; lia|].
    destruct (generation s); [destruct (Nat.leb _ _)|]; cbn; repeat split; auto; lia.
  - now elim (N1 g st k).
  - destruct (negb (live s g)); [cbn; repeat split; auto; lia|]. destruct (complete (get s st)); [cbn; repeat split; auto; lia|].
    destruct (drain_loop _ _); cbn [fst]; [|cbn; repeat split; auto; lia].
    rewrite tk_owe, tk_put, rev_owe, rev_put, pan_owe, pan_put. repeat split; auto.
    left. destruct (negb _); cbn; rewrite owed_put; lia.
  - destruct (negb (valid_key alnum k)); [cbn; repeat split; auto; lia|]. destruct (negb (live s g)); [cbn; repeat split; auto; lia|].
    destruct (_ || _); [cbn; repeat split; auto; lia|]. destruct (mem _ _); [cbn; repeat split; auto; lia|]. destruct (mem _ _); [|cbn; repeat split; auto; lia].
    cbn [fst]. rewrite tk_owe, tk_put, rev_owe, rev_put, pan_owe, pan_put. repeat split; auto.
    left. cbn. rewrite owed_put. lia.
  - destruct (negb (live s g)); [cbn; repeat split; auto; lia|]. destruct (complete_loop _ _ _) as [x [c|]]; cbn [fst].
    + rewrite tk_owe, tk_put, rev_owe, rev_put, pan_owe, pan_put. repeat split; auto.
      left. destruct c; cbn; rewrite owed_put; lia.
    + cbn. rewrite tk_put, rev_put, owed_put. repeat split; auto.
  - destruct (negb (live s g)); [cbn; repeat split; auto; lia|]. destruct (complete (get s st)); [cbn; repeat split; auto; lia|]. cbn [fst].
    rewrite tk_owe, tk_put, rev_owe, rev_put, pan_owe, pan_put. repeat split; auto.
    left. cbn. rewrite owed_put. lia.
  - destruct (negb (live s g)); cbn; repeat split; auto; lia.
  - destruct (owed s); cbn; repeat split; auto; lia.
  - now elim (N2 i).
Qed.

(** [outcome_for] in terms of the state. *)
Lemma outcome_none s g st k : outcome_for s g st k = None <->
  generation s = Some g /\ terminal s = None /\ ~ In k (processed (get s st)) /\ complete (get s st) = false.
Proof.
  unfold outcome_for, is_gen. destruct (generation s) as [p|]; cbn [negb].
  2:{ split; [discriminate|]. intros (H & _). discriminate. }
  destruct (Nat.eqb_spec p g) as [->|N]; cbn [negb].
  2:{ split; [discriminate|]. intros (H & _). congruence. }
  destruct (terminal s); [split; [discriminate|]; intros (_ & H & _); discriminate|].
  destruct (mem k _) eqn:M.
  - apply mem_in in M. split; [discriminate|]. tauto.
  - apply mem_out in M. destruct (complete _); split; try discriminate; auto. intros (_ & _ & _ & H). discriminate.
Qed.
Lemma outcome_same s s' g st k : same s s' -> outcome_for s' g st k = outcome_for s g st k.
Proof. intros (G & T & S). unfold outcome_for, is_gen. now rewrite G, T, S. Qed.

(** A step that decides the fate of a waiting ticket owes a notification, or panics. *)
Lemma decided_notifies s o g st k : Inv s -> outcome_for s g st k = None ->
  outcome_for (fst (step s o)) g st k <> None -> owed (fst (step s o)) > 0 \/ panicked (fst (step s o)) = true.
Proof.
  intros I E1 E2. assert (E0 := E1). apply outcome_none in E1 as (G & T & Np & C).
  destruct o as [g'|g' st' k'|g' st'|g' st' k'|g' st' ks|g' st'|g'| |i]; cbn [Navigation_Model.step] in *.
  - destruct (Nat.eqb g' 0); [right; reflexivity|]. destruct (generation s); [destruct (Nat.leb _ _)|]; cbn; ((left; lia) || (right; reflexivity)).
  - destruct (negb (valid_key alnum k')); [right; reflexivity|]. exfalso. apply E2. clear E2.
    unfold accept_request. destruct (negb (is_gen s g')); cbn [fst].
    { now rewrite (outcome_same s). }
    rewrite T.
    destruct (mem k' (processed (get s st'))); [now rewrite (outcome_same s)|].
    destruct (complete (get s st')) eqn:Cx; [now rewrite (outcome_same s)|].
    destruct (_ || _); [now rewrite (outcome_same s)|].
    destruct (Nat.leb _ _); [now rewrite (outcome_same s)|]. cbn [fst].
    apply outcome_none. cbn. rewrite gen_put, term_put. destruct st, st'; simpl in *; auto.
  - exfalso. apply E2. clear E2.
    destruct (negb (live s g')); [auto|]. destruct (complete (get s st')) eqn:Cx; [auto|].
    destruct (drain_loop _ _) as [fl|]; cbn [fst]; [|now rewrite (outcome_same s) by apply same_panic].
    apply outcome_none. rewrite gen_owe, term_owe, get_owe, gen_put, term_put. destruct st, st'; simpl in *; auto.
  - destruct (negb (valid_key alnum k')); [right; reflexivity|]. exfalso. apply E2. clear E2.
    destruct (negb (live s g')); [auto|]. destruct (complete (get s st')) eqn:Cx; [auto|]. cbn [orb].
    destruct (mem _ _); [auto|]. destruct (mem _ _); [auto|]. destruct (mem _ _); [|auto]. cbn [fst].
    apply outcome_none. rewrite gen_owe, term_owe, get_owe, gen_put, term_put. destruct st, st'; simpl in *; auto.
  - destruct (negb (live s g')); [contradiction|].
    destruct (complete_loop (get s st') ks false) as [x [c|]] eqn:El; cbn [fst] in *; [|right; reflexivity].
    destruct c; [left; cbn; lia|]. exfalso. apply E2.
    destruct (complete_loop_spec _ _ _ _ _ (i_stage _ I st') El) as (_ & _ & _ & _ & _ & _ & _ & _ & A & _).
    destruct (A eq_refl) as [_ ->]. simpl in El. injection El as <-.
    apply outcome_none. cbn. rewrite gen_put, term_put. destruct st, st'; simpl in *; auto.
  - destruct (negb (live s g')); [contradiction|]. destruct (complete (get s st')); [contradiction|].
    left. cbn. lia.
  - destruct (negb (live s g')); [contradiction|]. left. cbn. lia.
  - exfalso. apply E2. destruct (owed s); cbn [fst]; auto.
  - exfalso. apply E2. destruct (nth_error _ _) as [t|]; auto.
    destruct (t_phase t) as [[]| | |]; cbn [fst]; try (destruct (Nat.eqb _ _)); cbn [fst]; auto.
Qed.

(** Once decided, always decided. *)
Lemma decided_stable s o g st k : Inv s -> (exists p, generation s = Some p /\ g <= p) ->
  outcome_for s g st k <> None -> outcome_for (fst (step s o)) g st k <> None.
Proof.
  intros I (p & Gp & Lp) D D'. apply D. apply outcome_none in D' as (G' & T' & Np & C').
  destruct (step_effect alnum s o I) as
    [(Eg & Et & Es) _ _ _ _ _|g' Eo Er N0 Lt Eg Et Es|g' st' x G T G2 T2 Ex Eother W|g' Eo G T G2 T2 E].
  - apply outcome_none. rewrite <- Eg, <- Et, <- Es. auto.
  - exfalso. specialize (Lt p Gp). rewrite Eg in G'. injection G' as ->. lia.
  - apply outcome_none. assert (g' = g) by congruence. subst g'. split; auto. split; auto.
    destruct (stage_dec st st') as [<-|N]; [|rewrite Eother in Np, C' by auto; auto].
    rewrite Ex in Np, C'. destruct o; try contradiction.
    + destruct W as (_ & _ & Cx & A & B & Dn & L & _ & ->). auto.
    + destruct W as (_ & _ & Cx & _ & fl & Ed & ->). auto.
    + destruct W as (_ & _ & Cx & P & _ & ->). auto.
    + destruct W as (_ & _ & c & El & _).
      destruct (complete_loop_spec _ _ _ _ _ (i_stage _ I st) El) as (_ & _ & Ec & A & _).
      rewrite <- Ec. split; auto.
    + destruct W as (_ & _ & Cx & ->). discriminate.
  - congruence.
Qed.

(** Reachable tickets. *)
Definition wait_ok (s : state) (t : ticket) : Prop :=
  t_imm t = None ->
  (exists p, generation s = Some p /\ t_gen t <= p) /\
  (outcome_for s (t_gen t) (t_stage t) (t_key t) = None -> waiting s (t_stage t) (t_key t)).
Definition sleep_ok (s : state) (t : ticket) : Prop :=
  match t_phase t with
  | Opening _ => True
  | Looking n => t_imm t = None /\ n <= revision s
  | Sleeping n => t_imm t = None /\ n <= revision s /\
      (panicked s = false -> outcome_for s (t_gen t) (t_stage t) (t_key t) = None \/ owed s > 0 \/ n < revision s)
  | Answered _ => True
  end.
Definition TInv (s : state) : Prop := forall t, In t (tickets s) -> wait_ok s t /\ sleep_ok s t.

Lemma gen_le s o g : Inv s -> (exists p, generation s = Some p /\ g <= p) ->
  exists p, generation (fst (step s o)) = Some p /\ g <= p.
Proof.
  intros I (p & Gp & Lp). destruct (step_effect alnum s o I) as
    [(Eg & Et & Es) _ _ _ _ _|g' Eo Er N0 Lt Eg Et Es|g' st' x G T G' T' Ex Eother W|g' Eo G T G' T' E].
  - rewrite Eg. eauto.
  - exists g'. split; auto. specialize (Lt p Gp). lia.
  - exists g'. split; auto. congruence.
  - exists g'. split; auto. congruence.
Qed.

Lemma wait_step s o t : Inv s -> wait_ok s t -> wait_ok (fst (step s o)) t.
Proof.
  intros I W Hi. destruct (W Hi) as [P Q]. split; [now apply gen_le|].
  intros D. destruct (outcome_for s (t_gen t) (t_stage t) (t_key t)) eqn:E.
  { exfalso. assert (N : outcome_for s (t_gen t) (t_stage t) (t_key t) <> None) by congruence.
    apply (decided_stable s o) in N; auto. }
  specialize (Q eq_refl). apply outcome_none in E as (G & T & Np & C).
  apply outcome_none in D as (G' & T' & Np' & C').
  destruct (step_effect alnum s o I) as
    [(Eg & Et & Es) _ _ _ _ _|g' Eo Er N0 Lt Eg Et Es|g' st' x G2 T2 G3 T3 Ex Eother Wf|g' Eo G2 T2 G3 T3 E].
  - unfold waiting. rewrite Es. exact Q.
  - exfalso. specialize (Lt _ G). rewrite Eg in G'. injection G' as ->. lia.
  - unfold waiting in *. destruct (stage_dec (t_stage t) st') as [Et|N]; [|rewrite Eother by auto; auto].
    rewrite Et in *. rewrite Ex in *. destruct o; try contradiction.
    + destruct Wf as (_ & _ & _ & _ & _ & _ & _ & _ & ->). simpl. rewrite in_ins. tauto.
    + destruct Wf as (_ & _ & Cx & _ & fl & Ed & ->).
      destruct (sinv_drain _ (i_stage _ I st') Cx) as (fl' & Ed' & _ & If).
      rewrite Ed in Ed'. injection Ed' as <-. simpl. rewrite If. auto.
    + destruct Wf as (_ & _ & Cx & Pp & _ & ->). simpl. rewrite in_del, in_ins.
      destruct (keq (t_key t) k) eqn:Ek; [apply keq_true in Ek; auto|].
      assert (t_key t <> k) by (intros Eq; apply keq_true in Eq; congruence). intuition.
    + destruct Wf as (_ & _ & c & El & _).
      destruct (complete_loop_spec _ _ _ _ _ (i_stage _ I st') El) as (_ & Ep & _ & _ & _ & A & _).
      rewrite Ep. destruct Q as [Q|Q]; auto. apply A in Q as [Q|Q]; auto. contradiction.
    + destruct Wf as (_ & _ & Cx & ->). discriminate.
  - congruence.
Qed.

Lemma sleep_step s o t : Inv s -> wait_ok s t -> sleep_ok s t ->
  revision s <= revision (fst (step s o)) ->
  (owed s <= owed (fst (step s o)) \/ revision s < revision (fst (step s o))) ->
  (panicked s = true -> panicked (fst (step s o)) = true) ->
  sleep_ok (fst (step s o)) t.
Proof.
  intros I W S R O P. unfold sleep_ok in *. destruct (t_phase t); auto.
  - destruct S. split; auto. lia.
  - destruct S as (Hi & L & D). split; auto. split; [lia|]. intros Np.
    destruct (panicked s) eqn:Ps; [rewrite P in Np by auto; discriminate|].
    destruct (D eq_refl) as [E|[E|E]].
    + destruct (outcome_for (fst (step s o)) (t_gen t) (t_stage t) (t_key t)) eqn:E'; auto.
      destruct (decided_notifies s o _ _ _ I E) as [H|H]; auto; congruence.
    + destruct O; [right; left; lia|right; right; lia].
    + right. right. lia.
Qed.

Lemma tinv_step s o : Inv s -> TInv s -> TInv (fst (step s o)).
Proof.
  intros I TI.
  assert (Cases : (exists g st k, o = ORequest g st k) \/ (exists i, o = OTicket i) \/
    ((forall g st k, o <> ORequest g st k) /\ (forall i, o <> OTicket i))).
  { destruct o; try (right; right; split; discriminate); eauto 6. }
  destruct Cases as [(g & st & k & ->)|[(i & ->)|[N1 N2]]].
  - (* request *)
    destruct (valid_key alnum k) eqn:V.
    2:{ intros t. cbn [Navigation_Model.step]. rewrite V. cbn [negb fst]. intros Ht. destruct (TI t Ht) as [Wt St].
        split; [exact Wt|]. unfold sleep_ok in *. cbn. destruct (t_phase t); auto.
        destruct St as (? & ? & ?). repeat split; auto; try easy. }
    intros t Ht.
    set (s' := fst (step s (ORequest g st k))) in *.
    assert (R : revision s' = revision s /\ owed s' = owed s /\ panicked s' = panicked s /\
      (In t (tickets s) \/ exists imm b, t = mkT g st k imm (Opening b) /\
         (imm = None -> generation s' = Some g /\ waiting s' st k))).
    { unfold s' in *. cbn [Navigation_Model.step] in *. rewrite V in *. cbn [negb] in *.
      unfold accept_request in *. destruct (is_gen s g) eqn:Gb; cbn [negb] in *.
      2:{ cbn in *. repeat split; auto. apply in_app_iff in Ht as [Ht|[<-|[]]]; auto. right.
          eexists _, _. split; [reflexivity|]. discriminate. }
      assert (G : generation s = Some g).
      { unfold is_gen in Gb. destruct (generation s); [|discriminate]. apply Nat.eqb_eq in Gb. now subst. }
      destruct (terminal s).
      { cbn in *. repeat split; auto. apply in_app_iff in Ht as [Ht|[<-|[]]]; auto. right.
        eexists _, _. split; [reflexivity|]. discriminate. }
      destruct (mem k (processed (get s st))).
      { cbn in *. repeat split; auto. apply in_app_iff in Ht as [Ht|[<-|[]]]; auto. right.
        eexists _, _. split; [reflexivity|]. discriminate. }
      destruct (complete (get s st)).
      { cbn in *. repeat split; auto. apply in_app_iff in Ht as [Ht|[<-|[]]]; auto. right.
        eexists _, _. split; [reflexivity|]. discriminate. }
      destruct (mem k (pending (get s st)) || mem k (in_flight (get s st))) eqn:M.
      { cbn in *. repeat split; auto. apply in_app_iff in Ht as [Ht|[<-|[]]]; auto. right.
        eexists _, _. split; [reflexivity|]. intros _. split; auto.
        apply orb_true_iff in M. rewrite !mem_in in M. unfold waiting. destruct st; exact M. }
      destruct (Nat.leb _ _).
      { cbn in *. repeat split; auto. apply in_app_iff in Ht as [Ht|[<-|[]]]; auto. right.
        eexists _, _. split; [reflexivity|]. discriminate. }
      cbn in *. rewrite rev_put, owed_put, pan_put, gen_put. rewrite tk_put in Ht. repeat split; auto.
      apply in_app_iff in Ht as [Ht|[<-|[]]]; auto. right.
      eexists _, _. split; [reflexivity|]. intros _. split; auto. left.
      destruct st; simpl; apply in_ins; auto. }
    destruct R as (R & O & P & [Old|(imm & b & -> & New)]).
    + destruct (TI t Old) as [Wt St]. split; [now apply wait_step|].
      apply sleep_step; auto; fold s'; rewrite ?R, ?O, ?P; auto.
    + split; [|exact Logic.I]. intros Hi. cbn in Hi. destruct (New Hi) as [Gn Wn]. cbn.
      split; [exists g; auto|auto].
  - (* ticket step *)
    intros t Ht. cbn [Navigation_Model.step] in *.
    destruct (nth_error (tickets s) i) as [u|] eqn:Eu; [|apply TI; exact Ht].
    assert (Hu : In u (tickets s)) by (eapply nth_error_In; eauto). destruct (TI u Hu) as [Wu Su].
    (* a ticket of the new state is an old one or the updated one *)
    assert (Gen : forall p rev', revision s <= rev' ->
      let s' := mkState (generation s) (terminal s) (project s) (dependency s) rev' (owed s)
        (upd (tickets s) i (mkT (t_gen u) (t_stage u) (t_key u) (t_imm u) p)) (panicked s) in
      (In t (tickets s')) -> sleep_ok s' (mkT (t_gen u) (t_stage u) (t_key u) (t_imm u) p) ->
      wait_ok s' t /\ sleep_ok s' t).
    { intros p rev' Lr s' Hin Hs. apply in_upd in Hin as [->|Hin]; [split; auto; exact Wu|].
      destruct (TI t Hin) as [Wt St]. split; [exact Wt|].
      unfold sleep_ok in *. cbn. destruct (t_phase t); auto.
      - destruct St. split; auto. lia.
      - destruct St as (A & B & D). split; auto. split; [lia|]. intros Np. destruct (D Np) as [D1|[D1|D1]]; auto.
        right. right. lia. }
    destruct (t_phase u) as [[]|n|n|o] eqn:Ph; cbn [fst] in *.
    + apply (Gen (Opening false) (S (revision s))); auto. exact Logic.I.
    + refine (Gen _ (revision s) _ Ht _); auto. cbn. destruct (t_imm u) eqn:Ei; cbn; auto.
    + refine (Gen _ (revision s) _ Ht _); auto. unfold sleep_ok in Su. rewrite Ph in Su. destruct Su as [Hi L].
      cbn. destruct (outcome_for s (t_gen u) (t_stage u) (t_key u)) eqn:Eo; cbn; auto.
    + destruct (Nat.eqb_spec (revision s) n) as [E|E]; cbn [fst] in *; [apply TI; auto|].
      refine (Gen _ (revision s) _ Ht _); auto. unfold sleep_ok in Su. rewrite Ph in Su. destruct Su as (Hi & L & _).
      cbn. auto.
    + apply TI; auto.
  - destruct (step_other s o N1 N2) as (Et & R & O & P). intros t Ht. rewrite Et in Ht.
    destruct (TI t Ht) as [Wt St]. split; [now apply wait_step|now apply sleep_step].
Qed.

Lemma tinv h : TInv (after h).
Proof.
  unfold after. generalize (inv_init). assert (T0 : TInv init) by (intros t []).
  revert T0. generalize init as s. induction h as [|o h IH]; intros s T0 I; simpl; auto.
  apply IH; [now apply tinv_step|now apply inv_step].
Qed.

(** A decided ticket answers within three steps of its own once no notification is owed. *)
Lemma resumes h i t o : nth_error (tickets (after h)) i = Some t -> t_imm t = None ->
  panicked (after h) = false -> owed (after h) = 0 ->
  outcome_for (after h) (t_gen t) (t_stage t) (t_key t) = Some o ->
  (forall o', t_phase t <> Answered o') ->
  exists t', nth_error (tickets (resume alnum (after h) i 3)) i = Some t' /\ t_phase t' = Answered o.
Proof.
  intros Hn Hi Hp Ho Hd Hu. pose proof (tinv h t (nth_error_In _ _ Hn)) as [_ SK].
  set (s := after h) in *.
  (* answered tickets stay *)
  assert (A : forall n s t, nth_error (tickets s) i = Some t -> t_phase t = Answered o ->
    exists t', nth_error (tickets (resume alnum s i n)) i = Some t' /\ t_phase t' = Answered o).
  { induction n as [|n IH]; intros s1 t1 H1 H2; simpl; [eauto|]. rewrite H1. destruct t1 as [? ? ? ? p]. cbn in *. subst p.
    cbn [fst]. eapply IH; eauto. }
  (* a looking ticket answers *)
  assert (B : forall n s1 t1 m, nth_error (tickets s1) i = Some t1 -> t_phase t1 = Looking m ->
    outcome_for s1 (t_gen t1) (t_stage t1) (t_key t1) = Some o ->
    exists t', nth_error (tickets (resume alnum s1 i (S n))) i = Some t' /\ t_phase t' = Answered o).
  { intros n s1 t1 m H1 H2 H3. cbn [resume Navigation_Model.step]. rewrite H1, H2. cbn [fst]. rewrite H3.
    eapply A. { cbn. eapply nth_upd_eq; eauto. } reflexivity. }
  assert (C : forall n s1 t1, nth_error (tickets s1) i = Some t1 -> t_phase t1 = Opening false -> t_imm t1 = None ->
    outcome_for s1 (t_gen t1) (t_stage t1) (t_key t1) = Some o ->
    exists t', nth_error (tickets (resume alnum s1 i (S (S n)))) i = Some t' /\ t_phase t' = Answered o).
  { intros n s1 t1 H1 H2 H3 H4.
    change (resume alnum s1 i (S (S n))) with (resume alnum (fst (step s1 (OTicket i))) i (S n)).
    cbn [Navigation_Model.step]. rewrite H1, H2, H3. cbn [fst]. eapply B.
    - cbn. eapply nth_upd_eq; eauto.
    - reflexivity.
    - rewrite (outcome_same s1); [exact H4|apply same_tickets]. }
  unfold sleep_ok in SK. destruct (t_phase t) as [[]|n|n|o'] eqn:Ph.
  - change (resume alnum s i 3) with (resume alnum (fst (step s (OTicket i))) i 2).
    cbn [Navigation_Model.step]. rewrite Hn, Ph. cbn [fst]. eapply C.
    + cbn. eapply nth_upd_eq; eauto.
    + reflexivity.
    + exact Hi.
    + rewrite (outcome_same s); [exact Hd|]. repeat split; destruct st; reflexivity.
  - eapply C; eauto.
  - eapply B; eauto.
  - destruct SK as (_ & L & D). destruct (D Hp) as [E|[E|E]]; [congruence|lia|].
    change (resume alnum s i 3) with (resume alnum (fst (step s (OTicket i))) i 2).
    cbn [Navigation_Model.step]. rewrite Hn, Ph.
    destruct (Nat.eqb_spec (revision s) n) as [E'|_]; [lia|]. cbn [fst]. eapply B.
    + cbn. eapply nth_upd_eq; eauto.
    + reflexivity.
    + rewrite (outcome_same s); [exact Hd|apply same_tickets].
  - now elim (Hu o').
Qed.

(** Answers of waiting tickets, in terms of the history. *)
Definition truthful (h : list op) (t : ticket) (o : outcome) : Prop :=
  match o with
  | TargetProcessed => exists ks r, happened h (OComplete (t_gen t) (t_stage t) ks) r /\ In (t_key t) ks
  | StageComplete => happened h (OCompleteStage (t_gen t) (t_stage t)) Done
  | Cancelled => happened h (OCancel (t_gen t)) Done
  | Superseded => exists g, t_gen t < g /\ happened h (OBegin g) Done
  | Saturated => False
  end.

Lemma truthful_more h t o x : truthful h t o -> truthful (h ++ [x]) t o.
Proof.
  destruct o; simpl; auto using happened_more.
  - intros (ks & r & H & K). exists ks, r. split; auto. now apply happened_more.
  - intros (g & L & H). exists g. split; auto. now apply happened_more.
Qed.

Lemma truthful_now h t o : wait_ok (after h) t -> t_imm t = None ->
  outcome_for (after h) (t_gen t) (t_stage t) (t_key t) = Some o -> truthful h t o.
Proof.
  intros W Hi. destruct (W Hi) as [(p & Gp & Lp) _]. pose proof (hinv alnum h) as [Ho Hp Hc Hk Hb Hg].
  unfold outcome_for, is_gen. rewrite Gp. destruct (Nat.eqb_spec p (t_gen t)) as [E|N]; cbn [negb].
  - destruct (terminal (after h)) eqn:T.
    { intros E'. injection E' as ->. destruct (i_term _ (inv_after alnum h)) as [Tc _]; [congruence|].
      rewrite T in Tc. injection Tc as ->. simpl. apply Hk; congruence. }
    destruct (mem (t_key t) _) eqn:M.
    { intros E'. injection E' as <-. simpl. apply mem_in in M. apply Hp; congruence. }
    destruct (complete _) eqn:C; [|discriminate]. intros E'. injection E' as <-. simpl. apply Hc; congruence.
  - intros E'. injection E' as <-. simpl. exists p. split; [lia|]. apply Hg. auto.
Qed.

Lemma answers_truthful h t o : In t (tickets (after h)) -> t_imm t = None -> t_phase t = Answered o -> truthful h t o.
Proof.
  revert t o. induction h as [|x h IH] using rev_ind; [intros t o []|].
  intros t o Ht Hi Hp. rewrite after_snoc in Ht.
  assert (Cases : (exists g st k, x = ORequest g st k) \/ (exists i, x = OTicket i) \/
    ((forall g st k, x <> ORequest g st k) /\ (forall i, x <> OTicket i))).
  { destruct x; try (right; right; split; discriminate); eauto 6. }
  destruct Cases as [(g & st & k & ->)|[(i & ->)|[N1 N2]]].
  - apply truthful_more. apply IH; auto. cbn [Navigation_Model.step] in Ht.
    destruct (negb (valid_key alnum k)); [exact Ht|].
    destruct (accept_request (after h) g st k) as [[s' imm] b] eqn:E. cbn in Ht.
    apply in_app_iff in Ht as [Ht|[<-|[]]]; [|discriminate].
    unfold accept_request in E. destruct (negb _); [now injection E as <- _ _|].
    destruct (terminal _); [now injection E as <- _ _|].
    destruct (mem _ _); [now injection E as <- _ _|].
    destruct (complete _); [now injection E as <- _ _|].
    destruct (_ || _); [now injection E as <- _ _|].
    destruct (Nat.leb _ _); [now injection E as <- _ _|]. injection E as <- _ _. now rewrite tk_put in Ht.
  - apply truthful_more. cbn [Navigation_Model.step] in Ht.
    destruct (nth_error (tickets (after h)) i) as [u|] eqn:Eu; [|now apply IH].
    assert (Hu : In u (tickets (after h))) by (eapply nth_error_In; eauto).
    pose proof (tinv h u Hu) as [Wu _].
    destruct (t_phase u) as [[]|n|n|o'] eqn:Ph; cbn [fst] in Ht.
    + cbn in Ht. apply in_upd in Ht as [->|Ht]; [discriminate|now apply IH].
    + cbn in Ht. apply in_upd in Ht as [->|Ht]; [|now apply IH]. cbn in *. rewrite Hi in Hp. discriminate.
    + cbn in Ht. apply in_upd in Ht as [->|Ht]; [|now apply IH]. cbn in *.
      destruct (outcome_for (after h) (t_gen u) (t_stage u) (t_key u)) eqn:Eo; [|discriminate].
      injection Hp as ->. eapply (truthful_now h u); eauto.
    + destruct (Nat.eqb _ _); cbn in Ht; [now apply IH|].
      apply in_upd in Ht as [->|Ht]; [discriminate|now apply IH].
    + now apply IH.
  - apply truthful_more. destruct (step_other (after h) x N1 N2) as (Et & _). rewrite Et in Ht. now apply IH.
Qed.
End Unicode.
