(** The cases of the induction for loops, exits and sequences. *)
From Coq Require Import List Bool NArith.
From Verif Require Import Types_Model Types_Spec Types_Union TypeFlow_Model TypeFlow_Spec TypeFlow_Frame TypeFlow_Tracker TypeFlow_Cover TypeFlow_Views TypeFlow_Fits TypeFlow_Narrow TypeFlow_Calls TypeFlow_Sound TypeFlow_Main.
From Coq Require Import String.
Import ListNotations.
Local Open Scope list_scope.

Section Loop.
Variables (W : world) (T : facts) (K : vision).
Hypothesis Hon : honest W T.
Hypothesis HU : forall x, H K x = true -> U K x = true.
Notation dn := (den (named W)).
Notation fits := (fits W K).
Notation hides := (hides K).
Notation moved := (moved K).
Notation post := (post W K).
Notation quiet := (quiet W K).
Notation spec := (spec W T K).
Notation ends := (ends W K).
Notation sound_at := (sound_at W K).
Notation arm_ends := (arm_ends W K).


(** ** Loops *)
Lemma again_more k f last st : again (S k) f last st =
  also (plus (ro (f st)) (passed (vars st) (vars (rs (f st))))) (again k f (rt (f st)) (rs (f st))).
Proof. reflexivity. Qed.
Section Passes.
Variables (b : stmts) (p : bool) (e : env).
Hypothesis C : simple_s K p true b = true.
(** what every pass starts from *)
Definition rel (st : state) : Prop :=
  (forall x, D K x = false -> vars st x = e x) /\
  (forall x, ~ In x (mods_s b ++ guards_s b) -> cov (named W) (e x) (vars st x)) /\
  (forall x, U K x = true -> same_dom x e (vars st)).
Lemma rel_pass st : rel st -> quiet (passed (vars st) (vars (rs (track_s T p true b st)))) -> rel (rs (track_s T p true b st)).
Proof.
  intros (R1&R2&R3) [Q1 _]. split; [|split].
  - intros x Dx. rewrite <- (R1 x Dx). symmetry. apply (Q1 (vars st) _ x); [left; reflexivity|exact Dx].
  - intros x NI. rewrite in_app_iff in NI. eapply cov_trans; [apply R2; rewrite in_app_iff; exact NI|].
    destruct (track_step (named W) T K x (nil_ok W T Hon)) as (_&_&_&_&TS&_).
    apply (TS b p true true st C); [right; tauto|left; tauto].
  - intros x Ux. eapply same_dom_trans; [apply R3; exact Ux|]. apply (dom_s T K); assumption.
Qed.
Lemma rel_again : forall k last st, rel st -> quiet (ro (again k (track_s T p true b) last st)) -> rel (rs (again k (track_s T p true b) last st)).
Proof.
  induction k as [|k IH]; intros last st R1 Qt; cbn [again] in *; [exact R1|]. cbn [also ro rs] in *. qs. apply IH; [|exact Qt]. apply rel_pass; assumption.
Qed.
Lemma again_post L s tr o s' : (forall st, rel st -> quiet (ro (track_s T p true b st)) -> post L p s tr o s' (ro (track_s T p true b st))) ->
  forall k last st, rel st -> quiet (ro (again (S k) (track_s T p true b) last st)) -> post L p s tr o s' (ro (again (S k) (track_s T p true b) last st)).
Proof.
  intros A. induction k as [|k IH]; intros last st R1 Qt.
  - cbn [again just also ro] in *. qs. eapply post_mono; [apply (A st R1); assumption|inl|inl|intros _; inl|inl].
  - rewrite (again_more (S k)) in Qt |- *. cbn [also ro] in Qt |- *. qs.
    eapply post_mono; [apply post_two; [apply (A st R1); assumption|apply (IH (rt (track_s T p true b st)) (rs (track_s T p true b st)))]| | | |].
    + apply rel_pass; assumption.
    + exact Qt.
    + inl.
    + inl.
    + intros _. inl.
    + inl.
Qed.
End Passes.

Lemma passes_some d : exists k, pass_count d = S k.
Proof. destruct d; cbn; eauto. Qed.

(** one round: the condition, and the body *)
Lemma while_parts u c b p m d st V : simple K p m (While u c b) = true -> ready K V (While u c b) = true -> NoDup (labs (While u c b)) ->
  hides (vars st) -> quiet (ro (track T p d (While u c b) st)) ->
  (forall s t1 o s1, spec (IN c) s t1 o s1 -> fits (lasting K V) (vars st) s ->
     post (labs (While u c b)) p s t1 o s1 (ro (track T p d (While u c b) st)) /\
     forall v, o = Normal v -> fits (good_after K V (While u c b)) (vars (rs (track T p d (While u c b) st))) s1) /\
  (forall s t1 v s1 t2 o s2, spec (IN c) s t1 (Normal v) s1 -> spec (IS b) s1 t2 o s2 -> fits (lasting K V) (vars st) s ->
     post (labs (While u c b)) p s (t1 ++ t2) o s2 (ro (track T p d (While u c b) st)) /\
     forall w, o = Normal w -> fits (lasting K V) (vars st) s2).
Proof.
  intros C R ND HI Qt. cbn [simple ready labs] in C, R, ND. checks. nd.
  match goal with X : simple K p true c = true |- _ => rename X into C1 end.
  match goal with X : simple_s K p true b = true |- _ => rename X into C2 end.
  match goal with X : ready K _ c = true |- _ => rename X into R1 end.
  match goal with X : ready_s K _ b = true |- _ => rename X into R2 end.
  cbn [track labs ro good_after rs at_ vars] in *.
  set (r := track T p d c (flowing st)) in *. set (k := again (pass_count d) (track_s T p true b) nil_class (rs r)) in *. qs.
  assert (HI1 : hides (vars (rs r))) by (apply hides_track with true; assumption).
  assert (RL : rel b (vars (rs r)) (rs r)).
  { split; [reflexivity|split]; [intros; apply cov_refl|intros; apply same_dom_refl]. }
  assert (RK : rel b (vars (rs r)) (rs k)) by (unfold k; apply (rel_again b p (vars (rs r)) C2); assumption).
  assert (IK1 : idle (labs_s b) (ro k)) by (apply idle_again).
  assert (SE : forall x, D K x = false -> vars st x = vars (rs r) x).
  { intros x Dx. destruct QT as [Q1 _]. apply (Q1 (vars st) _ x); [left; reflexivity|exact Dx]. }
  assert (CO : forall s t1 o s1, spec (IN c) s t1 o s1 -> fits (lasting K V) (vars st) s ->
    ends (good_after K (lasting K V) c) (leaves c) (worth c) (vars (rs r)) (rt r) o s1 /\ post (labs c) p s t1 o s1 (ro r)).
  { intros s t1 o s1 I F. apply (I p true d (flowing st) (lasting K V) C1 R1 ltac:(assumption) QT0 F HI). }
  split.
  - intros s t1 o s1 I F. destruct (CO s t1 o s1 I F) as [A B]. split.
    + eapply post_mono; [eapply post_then; [exact B|exact IK1|ap]|inl|inl|intros _; inl|inl].
    + intros v EV. destruct (A v EV) as (_&A2&_). apply (fits_merge_l W T K Hon); [exact A2|]. apply RK.
  - intros s t1 v s1 t2 o s2 I I2 F. destruct (CO s t1 (Normal v) s1 I F) as [A B]. destruct (A v eq_refl) as (_&A2&_).
    set (Vb := resting K (mods_s b ++ guards_s b) (good_after K (lasting K V) c)) in *.
    assert (FB : forall st', rel b (vars (rs r)) st' -> fits Vb (vars st') s1 /\ hides (vars st')).
    { intros st' (X1&X2&X3). split.
      - intros x Vx. unfold Vb, resting in Vx. apply andb_true_iff in Vx as [Gx Vx]. specialize (A2 x Gx).
        destruct (D K x) eqn:Dx; [|rewrite (X1 x Dx); exact A2]. cbn in Vx. checks.
        apply (fits1_cov W K x (vars (rs r))); [apply X2; apply member_not; assumption|apply X3|exact A2].
      - eapply (hides_dom K (vars (rs r))); [|exact HI1]. intros x Hx. apply X3. apply HU. exact Hx. }
    assert (BO : forall st', rel b (vars (rs r)) st' -> quiet (ro (track_s T p true b st')) ->
      ends (good_after_s K Vb b) (leaves_s b) (worth_s b) (vars (rs (track_s T p true b st'))) (rt (track_s T p true b st')) o s2 /\
      post (labs_s b) p s1 t2 o s2 (ro (track_s T p true b st'))).
    { intros st' RS QS. destruct (FB st' RS) as [FS HS]. apply (I2 p true true st' Vb C2 R2 ltac:(assumption) QS FS HS). }
    destruct (passes_some d) as [n PN].
    assert (B2 : post (labs_s b) p s1 t2 o s2 (ro k)).
    { unfold k in *. rewrite PN in *. eapply (again_post b p (vars (rs r)) C2); [|exact RL|exact Qt]. intros st' RS QS. apply BO; assumption. }
    split.
    + eapply post_mono; [eapply post_seq; [exact B|exact B2|ap]|inl|inl|intros _; inl|inl].
    + intros w EW. assert (QP : quiet (ro (track_s T p true b (rs r))) /\ quiet (passed (vars (rs r)) (vars (rs (track_s T p true b (rs r)))))).
      { unfold k in Qt. rewrite PN in Qt. cbn [again also ro] in Qt. qs. auto. }
      destruct QP as [QP1 [QP2 _]]. destruct (BO (rs r) RL QP1) as [A3 _]. destruct (A3 w EW) as (_&A4&_).
      intros x Vx. unfold lasting in Vx. apply andb_true_iff in Vx as [Vx Dx]. apply negb_true_iff in Dx.
      rewrite (SE x Dx), (QP2 (vars (rs r)) _ x (or_introl eq_refl) Dx). apply A4.
      destruct (keeps K x Dx) as (K1&_&_&_&K2&_). apply K2. unfold Vb, resting. rewrite Dx. cbn. rewrite andb_true_r. apply K1.
      unfold lasting. rewrite Vx, Dx. reflexivity.
Qed.
Lemma s_while_end u c b s tr v s' : spec (IN c) s tr (Normal v) s' -> spec (IN (While u c b)) s tr (Normal vnil) s'.
Proof.
  intros I p m d st V C R ND Qt F HI. destruct (while_parts u c b p m d st V C R ND HI Qt) as [P1 _].
  destruct (P1 s tr _ s' I) as [B A]; [eapply fits_sub; [apply lasting_sub|exact F]|]. split.
  - intros w _. split; [reflexivity|split; [apply (A v); reflexivity|discriminate]].
  - eapply post_as; [exact B|discriminate].
Qed.
Lemma s_while_stop u c b s tr o s' : spec (IN c) s tr o s' -> abrupt o -> spec (IN (While u c b)) s tr o s'.
Proof.
  intros I AB p m d st V C R ND Qt F HI. destruct (while_parts u c b p m d st V C R ND HI Qt) as [P1 _].
  destruct (P1 s tr _ s' I) as [B A]; [eapply fits_sub; [apply lasting_sub|exact F]|]. split; [apply ends_abrupt; exact AB|exact B].
Qed.
Lemma s_while_body_stop u c b s t1 v s1 t2 o s2 : spec (IN c) s t1 (Normal v) s1 -> spec (IS b) s1 t2 o s2 -> abrupt o ->
  spec (IN (While u c b)) s (t1 ++ t2) o s2.
Proof.
  intros I I2 AB p m d st V C R ND Qt F HI. destruct (while_parts u c b p m d st V C R ND HI Qt) as [_ P2].
  destruct (P2 s t1 v s1 t2 o s2 I I2) as [B A]; [eapply fits_sub; [apply lasting_sub|exact F]|]. split; [apply ends_abrupt; exact AB|exact B].
Qed.
Lemma s_while_break u c b s t1 s1 t2 s2 : exec W (IS b) s1 t2 Brk s2 -> spec (IN (While u c b)) s (t1 ++ t2) (Normal vnil) s2.
Proof.
  intros E p m d st V C. exfalso. destruct (exec_frame W _ _ _ _ _ E) as (_&_&_&X&_). specialize (X eq_refl). cbn [any_c] in X.
  cbn [simple] in C. checks. congruence.
Qed.
Lemma s_while_more u c b s t1 v s1 t2 o s2 t3 o' s3 : spec (IN c) s t1 (Normal v) s1 -> exec W (IS b) s1 t2 o s2 -> spec (IS b) s1 t2 o s2 ->
  (o = Nxt \/ exists v', o = Normal v') -> spec (IN (While u c b)) s2 t3 o' s3 -> spec (IN (While u c b)) s (t1 ++ t2 ++ t3) o' s3.
Proof.
  intros I E2 I2 O I3 p m d st V C R ND Qt F HI. destruct (while_parts u c b p m d st V C R ND HI Qt) as [_ P2].
  destruct (P2 s t1 v s1 t2 o s2 I I2) as [B A]; [eapply fits_sub; [apply lasting_sub|exact F]|].
  destruct O as [->|[w ->]].
  { exfalso. destruct (exec_frame W _ _ _ _ _ E2) as (_&_&_&_&X&_). destruct (X eq_refl) as [X' _]. cbn [any_c] in X'.
    cbn [simple] in C. checks. congruence. }
  specialize (A w eq_refl). rewrite app_assoc.
  assert (LS : sub (lasting K V) (lasting K (lasting K V))).
  { intros x X. unfold lasting in *. apply andb_true_iff in X as [X Y]. rewrite X, Y. reflexivity. }
  destruct (good_mono K) as (GM&_). destruct (ready_mono K) as (RM&_&_&_&RS&_).
  assert (R' : ready K (lasting K V) (While u c b) = true).
  { cbn [ready] in *. checks. apply andb_true_iff. split; [eapply RM; [exact LS|assumption]|]. eapply RS; [|eassumption].
    intros x X. unfold resting in *. apply andb_true_iff in X as [X Y]. apply andb_true_iff. split; [|exact Y]. eapply GM; [exact LS|exact X]. }
  destruct (I3 p m d st (lasting K V) C R' ND Qt A HI) as [A3 B3]. split.
  - intros w' EW. destruct (A3 w' EW) as (_&A4&A5). split; [reflexivity|split; [|exact A5]].
    eapply fits_sub; [|exact A4]. cbn [good_after]. apply GM. exact LS.
  - eapply post_again; [exact B|exact B3].
Qed.

(** ** Exits *)
Lemma s_return s : spec (IN (Return RNone)) s [] (Ret vnil) s.
Proof.
  intros p m d st V C R ND Qt F HI. split; [apply ends_abrupt; exact Logic.I|]. cbn [track ro labs].
  constructor; [intros ? ? []|intros ? ? []|intros ? ? ? []|left; reflexivity|].
  intros q v E. injection E as <-. exists nil_class. split; [left; reflexivity|apply (nil_ok W T Hon)].
Qed.
Lemma return_look n p m d st V : simple K p m (Return (RNode n)) = true -> ready K V (Return (RNode n)) = true -> NoDup (labs (Return (RNode n))) ->
  quiet (ro (track T p d (Return (RNode n)) st)) -> hides (vars st) -> forall s tr o s', exec W (IN n) s tr o s' -> spec (IN n) s tr o s' -> fits V (vars st) s ->
  exists q, ro (track T p d (Return (RNode n)) st) = plus (ro q) (returned (rt q)) /\ post (labs n) p s tr o s' (ro q) /\
  forall v, o = Normal v -> dn (rt q) v.
Proof.
  intros C R ND Qt HI s tr o s' E I F. cbn [simple ready labs simple_v ready_v labs_v track ro] in *.
  exists (if direct n then track T p d n st else just TUnknown st). split; [reflexivity|]. qs. destruct (direct n).
  - checks. destruct (I p m d st V ltac:(assumption) R ND QT F HI) as [A B]. split; [exact B|]. intros v EV. destruct (A v EV) as (_&_&A3). auto.
  - destruct (dark_run W K (IN n) s tr o s' p E C) as [M P]. split; [exact P|]. intros v _. exact Logic.I.
Qed.
Lemma s_return_value n s tr v s' : exec W (IN n) s tr (Normal v) s' -> spec (IN n) s tr (Normal v) s' -> spec (IN (Return (RNode n))) s tr (Ret v) s'.
Proof.
  intros E I p m d st V C R ND Qt F HI. split; [apply ends_abrupt; exact Logic.I|].
  destruct (return_look n p m d st V C R ND Qt HI s tr _ s' E I F) as (q&EQ&B&TY). rewrite EQ. cbn [labs labs_v].
  destruct B as [B1 B2 B3 B4 B5]. constructor.
  - exact B1.
  - cbn [plus reads returned]. rewrite app_nil_r. exact B2.
  - cbn [plus reads returned]. rewrite app_nil_r. exact B3.
  - cbn [plus obs returned]. rewrite app_nil_r. exact B4.
  - intros _ w EW. injection EW as <-. exists (rt q). cbn [plus rets returned]. rewrite in_app_iff. cbn. auto.
Qed.
Lemma s_return_stop n s tr o s' : exec W (IN n) s tr o s' -> spec (IN n) s tr o s' -> abrupt o -> spec (IN (Return (RNode n))) s tr o s'.
Proof.
  intros E I AB p m d st V C R ND Qt F HI. split; [apply ends_abrupt; exact AB|].
  destruct (return_look n p m d st V C R ND Qt HI s tr _ s' E I F) as (q&EQ&B&TY). rewrite EQ. cbn [labs labs_v].
  eapply post_mono; [exact B|inl|inl|intros _; inl|inl].
Qed.
Lemma s_break s : spec (IN Break) s [] Brk s.
Proof. intros p m d st V C R ND Qt F HI. split; [apply ends_abrupt; exact Logic.I|apply post_none; discriminate]. Qed.
Lemma s_next s : spec (IN Next) s [] Nxt s.
Proof. intros p m d st V C R ND Qt F HI. split; [apply ends_abrupt; exact Logic.I|apply post_none; discriminate]. Qed.
Lemma s_retry_node s : spec (IN Retry) s [] Rtr s.
Proof. intros p m d st V C. discriminate. Qed.

(** ** Sequences *)
Lemma s_paren b s tr o s' : spec (IS b) s tr o s' -> spec (IN (Paren b)) s tr o s'.
Proof.
  intros I p m d st V C R ND Qt F HI. destruct (I p m d st V C R ND Qt F HI) as [A B]. split; [|exact B].
  intros v EV. destruct (A v EV) as (_&A2&A3). split; [reflexivity|split; [exact A2|exact A3]].
Qed.
Lemma s_stmts b s tr o s' : spec (IS b) s tr o s' -> spec (IN (Stmts b)) s tr o s'.
Proof. intros I. exact I. Qed.
Lemma s_empty s : spec (IS SNil) s [] (Normal vnil) s.
Proof.
  intros p m d st V C R ND Qt F HI. split; [|apply post_none; discriminate].
  intros v EV. injection EV as <-. split; [reflexivity|split; [exact F|]]. intros _. apply (nil_ok W T Hon).
Qed.
Lemma s_last n s tr o s' : spec (IN n) s tr o s' -> spec (IS (SCons n SNil)) s tr o s'.
Proof.
  intros I p m d st V C R ND Qt F HI. cbn [simple_s ready_s labs_s good_after_s leaves_s worth_s] in *. checks. rewrite app_nil_r in *.
  apply (I p m d st V); assumption.
Qed.
Lemma s_seq_stop n b s tr o s' : spec (IN n) s tr o s' -> abrupt o -> spec (IS (SCons n b)) s tr o s'.
Proof.
  intros I AB. destruct b as [|n' b']; [apply s_last; exact I|].
  intros p m d st V C R ND. remember (SCons n' b') as b eqn:EB. cbn [simple_s ready_s labs_s] in *. checks. nd.
  assert (ET : track_s T p d (SCons n b) st = also (ro (track T p d n st)) (track_s T p d b (rs (track T p d n st)))) by (rewrite EB; reflexivity).
  rewrite ET. intros Qt F HI. cbn [also ro] in *. qs.
  destruct (I p m d st V ltac:(assumption) ltac:(assumption) ltac:(assumption) QT F HI) as [_ B].
  split; [apply ends_abrupt; exact AB|]. eapply post_then; [exact B|apply idle_s|ap].
Qed.
Lemma s_seq n b s t1 v s1 t2 o s2 : spec (IN n) s t1 (Normal v) s1 -> spec (IS b) s1 t2 o s2 -> b <> SNil -> spec (IS (SCons n b)) s (t1 ++ t2) o s2.
Proof.
  intros I I2 NB p m d st V C R ND.
  assert (ET : track_s T p d (SCons n b) st = also (ro (track T p d n st)) (track_s T p d b (rs (track T p d n st)))) by (destruct b; [congruence|reflexivity]).
  assert (EL : leaves_s (SCons n b) = leaves_s b) by (destruct b; [congruence|reflexivity]).
  assert (EW : worth_s (SCons n b) = worth_s b) by (destruct b; [congruence|reflexivity]).
  rewrite ET, EL, EW. cbn [simple_s ready_s labs_s good_after_s] in *. checks. nd. intros Qt F HI. cbn [also ro rs rt] in *. qs.
  destruct (I p m d st V ltac:(assumption) ltac:(assumption) ltac:(assumption) QT F HI) as [A B]. destruct (A v eq_refl) as (_&A2&_).
  destruct (I2 p m d _ _ ltac:(eassumption) ltac:(eassumption) ltac:(assumption) Qt A2) as [A3 B2]; [apply hides_track with m; assumption|].
  split; [exact A3|]. eapply post_seq; [exact B|exact B2|ap].
Qed.
End Loop.
