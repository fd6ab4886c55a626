(** The cases of the induction for exceptions. *)
From Coq Require Import List Bool NArith.
From Verif Require Import Types_Model Types_Spec Types_Union TypeFlow_Model TypeFlow_Spec TypeFlow_Frame TypeFlow_Tracker TypeFlow_Cover TypeFlow_Views TypeFlow_Fits TypeFlow_Narrow TypeFlow_Calls TypeFlow_Sound TypeFlow_Main.
From Coq Require Import String.
Import ListNotations.
Local Open Scope list_scope.

Section Except.
Variables (W : world) (T : facts) (K : vision).
Hypothesis Hon : honest W T.
Hypothesis HU : forall x, H K x = true -> U K x = true.
Notation dn := (den (named W)).
Notation fits := (fits W K).
Notation hides := (hides K).
Notation moved := (moved K).
Notation post := (post W K).
Notation quiet := (quiet W K).
Notation spec := (spec W T K).
Notation ends := (ends W K).
Notation sound_at := (sound_at W K).
Notation arm_ends := (arm_ends W K).


(** ** The protected body *)
Lemma s_body b r s tr v s' : spec (IS b) s tr (Normal v) s' -> spec (IC b r NoTail) s tr (Normal v) s'.
Proof.
  intros I p d st V C1 C2 C3 R1 R2 R3 ND k z.
  pose proof (idle_r T p d r (at_ (entry (vars st) (obs (ro k))) (rs z))) as IR1.
  destruct (track_r T p d r _) as [[l st1] o1]. cbn [snd] in IR1. intros Qt F HI. nd. qs.
  destruct (I (p || protected r) true d st V C1 R1 ltac:(assumption) QT F HI) as [A B]. split.
  - intros v' EV. destruct (A v' EV) as (A1&A2&A3). exists (arm_of z (leaves_s b || leaves_t NoTail)). split; [left; reflexivity|].
    cbn [arm_of a_gone a_env a_type leaves_t good_after_t worth]. rewrite A1. split; [reflexivity|split].
    + eapply fits_sub; [apply sub_left|exact A2].
    + intros WO. checks. apply A3. assumption.
  - change (ro z) with nothing. eapply post_mono; [eapply post_then; [eapply post_p; [exact B|intros ->; reflexivity]|exact IR1|ap]|inl|inl|intros _; inl|inl].
Qed.
Lemma s_body_else b r e s t1 v s1 t2 o s2 : spec (IS b) s t1 (Normal v) s1 -> exec W (IS e) s1 t2 o s2 -> spec (IS e) s1 t2 o s2 ->
  spec (IC b r (Else e)) s (t1 ++ t2) o s2.
Proof.
  intros I E2 I2 p d st V C1 C2 C3 R1 R2 R3 ND k z.
  pose proof (idle_r T p d r (at_ (entry (vars st) (obs (ro k))) (rs z))) as IR1.
  assert (HI1 : hides (vars st) -> hides (vars (rs k))) by (intros HI; apply hides_track_s with true; assumption).
  assert (Z : quiet (ro z) -> fits (good_after_s K V b) (vars (rs k)) s1 -> hides (vars (rs k)) ->
     ends (good_after_s K (good_after_s K V b) e) (leaves_s e) (match e with SNil => false | _ => worth_s e end) (vars (rs z)) (rt z) o s2 /\
     post (labs_s e) p s1 t2 o s2 (ro z)).
  { destruct e as [|n e].
    - intros _ F1 _. inversion E2; subst.
      + split; [apply ends_abrupt; exact Logic.I|apply post_none; discriminate].
      + split; [|apply post_none; discriminate]. intros v' _. split; [reflexivity|]. split; [exact F1|discriminate].
    - intros QZ F1 HK. cbn [labs_t] in ND. nd.
      exact (I2 p true d (rs k) (good_after_s K V b) C3 R2 ltac:(assumption) QZ F1 HK). }
  destruct (track_r T p d r _) as [[l st1] o1]. cbn [snd] in IR1. intros Qt F HI. nd. qs.
  destruct (I (p || protected r) true d st V C1 R1 ltac:(assumption) QT F HI) as [A B]. destruct (A v eq_refl) as (A1&A2&A3).
  destruct (Z QT0 A2 (HI1 HI)) as [A4 B2]. split.
  - intros v' EV. destruct (A4 v' EV) as (A5&A6&A7). exists (arm_of z (leaves_s b || leaves_t (Else e))). split; [left; reflexivity|].
    cbn [arm_of a_gone a_env a_type leaves_t good_after_t worth]. rewrite A1, A5. split; [reflexivity|split].
    + eapply fits_sub; [apply sub_left|exact A6].
    + intros WO. checks. apply A7. assumption.
  - eapply post_mono; [eapply post_seq; [eapply post_p; [exact B|intros ->; reflexivity]|eapply post_then; [exact B2|exact IR1|ap]|ap]|inl|inl|intros _; inl|inl].
Qed.
Lemma s_body_stop b r e s tr o s' : spec (IS b) s tr o s' -> abrupt o -> spec (IC b r e) s tr o s'.
Proof.
  intros I AB p d st V C1 C2 C3 R1 R2 R3 ND k z.
  pose proof (idle_r T p d r (at_ (entry (vars st) (obs (ro k))) (rs z))) as IR1.
  pose proof (idle_else T p d e k) as IE1. fold z in IE1.
  destruct (track_r T p d r _) as [[l st1] o1]. cbn [snd] in IR1. intros Qt F HI. nd. qs.
  destruct (I (p || protected r) true d st V C1 R1 ltac:(assumption) QT F HI) as [A B]. split; [apply arm_ends_abrupt; exact AB|].
  pose proof (idle_plus _ _ _ _ IR1 IE1) as IP.
  eapply post_mono; [eapply post_then; [eapply post_p; [exact B|intros ->; reflexivity]|exact IP|ap]|inl|inl|intros _; inl|inl].
Qed.

(** ** Clauses *)
Lemma s_rescued b r e s t1 s1 t2 o s2 : spec (IS b) s t1 Raised s1 -> exec W (IR r) s1 t2 o s2 -> spec (IR r) s1 t2 o s2 ->
  spec (IC b r e) s (t1 ++ t2) o s2.
Proof.
  intros I E2 I2. destruct r as [|x0 b0 r0] eqn:ER.
  { inversion E2; subst. rewrite app_nil_r. intros p d st V C1 C2 C3 R1 R2 R3 ND k z.
    pose proof (s_body_stop b RNil e s t1 Raised s2 I Logic.I p d st V C1 C2 C3 R1 R2 R3 ND) as X. cbv zeta in X. fold k in X. fold z in X.
    destruct (track_r T p d RNil _) as [[l st1] o1]. intros Qt F HI. destruct (X Qt F HI) as [_ P].
    split; [apply arm_ends_abrupt; exact Logic.I|]. eapply post_as; [exact P|discriminate]. }
  rewrite <- ER in *. assert (PR : protected r = true) by (rewrite ER; reflexivity). clear ER x0 b0 r0.
  intros p d st V C1 C2 C3 R1 R2 R3 ND. cbv zeta. rewrite PR, orb_true_r in *.
  set (k := track_s T true d b st) in *. set (z := else_of T p d e k) in *. nd.
  pose proof (I2 p d (at_ (entry (vars st) (obs (ro k))) (rs z)) V C2 R3 ltac:(assumption)) as I3.
  pose proof (idle_else T p d e k) as IE1. fold z in IE1.
  destruct (track_r T p d r _) as [[l st1] o1]. intros Qt F HI. qs.
  destruct (I true true d st V C1 R1 ltac:(assumption) QT F HI) as [_ B]. fold k in B.
  assert (F1 : fits V (entry (vars st) (obs (ro k))) s1).
  { eapply (fits_entry W K HU); [exact F|exact HI| | |].
    - intros x Ux. eapply (track_obs_s T K true true); eassumption.
    - intros x. destruct (track_step (named W) T K x (nil_ok W T Hon)) as (_&_&_&_&TS&_).
      apply (TS b true true d st C1 (or_introl eq_refl)). reflexivity.
    - destruct B as [_ _ _ B4 _]. apply B4. reflexivity. }
  destruct (I3 Qt F1) as [A2 B2].
  { cbn [at_ vars]. eapply (hides_entry T K HU); eassumption. }
  split.
  - intros v EV. destruct (A2 v EV) as (a&J&G&FA&TA). exists a. split; [right; exact J|]. split; [exact G|split].
    + eapply fits_sub; [apply sub_right|exact FA].
    + intros WO. apply TA. cbn [worth] in WO. checks. assumption.
  - eapply post_mono; [eapply post_seq; [eapply post_p; [exact B|reflexivity]|eapply post_then; [exact B2|exact IE1|ap]|ap]|inl|inl|intros _; inl|inl].
Qed.
Lemma s_retry b r e s t1 s1 t2 s2 t3 o s3 : exec W (IR r) s1 t2 Rtr s2 -> spec (IC b r e) s (t1 ++ t2 ++ t3) o s3.
Proof.
  intros E p d st V C1 C2. exfalso. destruct (exec_frame W _ _ _ _ _ E) as (_&_&_&_&_&X). specialize (X eq_refl). cbn [any_c] in X.
  destruct (simple_retry K) as (_&_&_&_&_&_&_&Y). rewrite (Y r p C2) in X. discriminate.
Qed.
Lemma s_clause x b r v s tr o s' : spec (IS b) (match x with Some x => upd s x v | None => s end) tr o s' -> spec (IR (RCons x b r)) s tr o s'.
Proof.
  intros I p d st V C R ND. cbn [simple_r ready_r labs_r track_r] in *. checks. nd.
  assert (M : moved s (match x with Some x => upd s x v | None => s end)).
  { destruct x as [x|]; [|apply moved_refl]. intros y Hy. apply upd_other. intros ->. congruence. }
  pose proof (idle_r T p d r (at_ (vars st) (rs (track_s T p d b st)))) as IR1.
  destruct (track_r T p d r _) as [[l st1] o1]. cbn [snd] in IR1. intros Qt F HI. qs.
  destruct (I p true d st V ltac:(assumption) ltac:(assumption) ltac:(assumption) QT ltac:(eapply (fits_moved W K HU); eassumption) HI) as [A B].
  split.
  - intros v' EV. destruct (A v' EV) as (A1&A2&A3). eexists. split; [left; reflexivity|]. split; [exact A1|].
    cbn [good_after_r worth_r]. rewrite A1. split; [eapply fits_sub; [apply sub_left|exact A2]|]. intros WO. checks. apply A3. assumption.
  - eapply post_then; [eapply post_start; [exact M|exact B]|exact IR1|ap].
Qed.
Lemma s_clause_skip x b r s tr o s' : spec (IR r) s tr o s' -> spec (IR (RCons x b r)) s tr o s'.
Proof.
  intros I p d st V C R ND. cbn [simple_r ready_r labs_r track_r] in *. checks. nd.
  pose proof (I p d (at_ (vars st) (rs (track_s T p d b st))) V ltac:(assumption) ltac:(assumption) ltac:(assumption)) as I2.
  pose proof (idle_s T p d b st) as IS1.
  destruct (track_r T p d r _) as [[l st1] o1]. intros Qt F HI. qs.
  destruct (I2 Qt F HI) as [A B]. split.
  - intros v' EV. destruct (A v' EV) as (a&J&G&FA&TA). exists a. split; [right; exact J|]. split; [exact G|split].
    + eapply fits_sub; [apply sub_right|exact FA].
    + intros WO. cbn [worth_r] in WO. checks. apply TA. assumption.
  - eapply post_after; [exact B|exact IS1|ap].
Qed.

(** ** Rescue as a modifier *)
Lemma mod_dom p d a b st x : simple K true true a = true -> simple K p true b = true -> U K x = true ->
  same_dom x (vars (rs (track T true d a st)))
    (vars (rs (track T p d b (at_ (entry (vars st) (obs (ro (track T true d a st)))) (rs (track T true d a st)))))).
Proof.
  intros A B Ux. pose proof (dom_n T K true d a st x A Ux) as D1.
  pose proof (dom_n T K p d b (at_ (entry (vars st) (obs (ro (track T true d a st)))) (rs (track T true d a st))) x B Ux) as D2.
  cbn [at_ vars] in D2. unfold same_dom in *. unfold entry at 1 in D2.
  rewrite (proj2 (entry_type_keys (obs (ro (track T true d a st))) x) (track_obs_n T K true true d a st x A Ux)) in D2. tauto.
Qed.
Lemma s_mod_left a b s tr o s' : spec (IN a) s tr o s' -> spec (IN (RescueMod a b)) s tr o s'.
Proof.
  intros I p m d st V C R ND Qt F HI. cbn [simple ready labs track ro] in *. checks. nd. qs.
  destruct (I true true d (flowing st) V ltac:(assumption) ltac:(assumption) ltac:(assumption) QT F HI) as [A B]. split.
  - intros v EV. destruct (A v EV) as (A1&A2&A3). cbn [leaves good_after rs at_ vars rt worth]. split; [reflexivity|split].
    + apply (fits_merge_l W T K Hon); [eapply fits_sub; [apply sub_left|exact A2]|]. intros x Ux.
      exact (mod_dom p d a b (flowing st) x ltac:(assumption) ltac:(assumption) Ux).
    + intros WO. checks. eapply (join_type W); [left; reflexivity|exact A1|]. apply A3. assumption.
  - eapply post_then; [eapply post_p; [exact B|reflexivity]|apply idle_n|ap].
Qed.
Lemma s_mod_right a b s t1 s1 t2 o s2 : spec (IN a) s t1 Raised s1 -> spec (IN b) s1 t2 o s2 -> spec (IN (RescueMod a b)) s (t1 ++ t2) o s2.
Proof.
  intros I I2 p m d st V C R ND Qt F HI. cbn [simple ready labs track ro] in *. checks. nd. qs.
  set (k := track T true d a (flowing st)) in *.
  destruct (I true true d (flowing st) V ltac:(assumption) ltac:(assumption) ltac:(assumption) QT F HI) as [_ B]. fold k in B.
  assert (OU : forall x, U K x = true -> ~ In x (keys (obs (ro k)))) by (intros x Ux; eapply (track_obs_n T K true true); eassumption).
  assert (F1 : fits V (entry (vars st) (obs (ro k))) s1).
  { eapply (fits_entry W K HU); [exact F|exact HI|exact OU| |].
    - intros x. destruct (track_step (named W) T K x (nil_ok W T Hon)) as (TS&_).
      apply (TS a true true d (flowing st) ltac:(assumption) (or_introl eq_refl)). reflexivity.
    - destruct B as [_ _ _ B4 _]. apply B4. reflexivity. }
  assert (HI1 : hides (entry (vars st) (obs (ro k)))).
  { intros x Hx. unfold entry. rewrite (proj2 (entry_type_keys (obs (ro k)) x) (OU x (HU x Hx))). apply HI. exact Hx. }
  destruct (I2 p true d (at_ (entry (vars st) (obs (ro k))) (rs k)) V ltac:(assumption) ltac:(assumption) ltac:(assumption) Qt F1 HI1) as [A2 B2].
  split.
  - intros v EV. destruct (A2 v EV) as (A3&A4&A5). cbn [leaves good_after rs at_ vars rt worth]. split; [reflexivity|split].
    + apply (fits_merge_r W T K Hon); [eapply fits_sub; [apply sub_right|exact A4]|]. intros x Ux.
      exact (mod_dom p d a b (flowing st) x ltac:(assumption) ltac:(assumption) Ux).
    + intros WO. checks. eapply (join_type W); [right; left; reflexivity|exact A3|]. apply A5. assumption.
  - eapply post_seq; [eapply post_p; [exact B|reflexivity]|exact B2|ap].
Qed.

(** ** Begin *)
Lemma begin_parts b r e n p m d st V : simple K p m (Begin b r e n) = true -> ready K V (Begin b r e n) = true ->
  NoDup (labs (Begin b r e n)) -> hides (vars st) ->
  let k := track_s T (p || protected r) d b (flowing st) in
  let z := else_of T p d e k in
  let '(l, st1, o1) := track_r T p d r (at_ (entry (vars st) (obs (ro k))) (rs z)) in
  let l := arm_of z (leaves_s b || leaves_t e) :: l in
  let je := join_envs (vars st) l in
  forall s t1 o s1, exec W (IC b r e) s t1 o s1 -> spec (IC b r e) s t1 o s1 -> quiet (plus (ro k) (plus (ro z) o1)) -> fits V (vars st) s ->
  hides je /\ post (labs_s b ++ labs_r r ++ labs_t e) p s t1 o s1 (plus (ro k) (plus (ro z) o1)) /\
  fits (less (mods_s b ++ mods_r r ++ mods_t e ++ guards_s b ++ guards_r r ++ guards_t e) V) je s1 /\
  forall v, o = Normal v ->
    (leaves_s b || leaves_t e) && match r with RNil => true | RCons _ _ _ => leaves_r r end = false /\
    fits (both (unless_gone (leaves_s b || leaves_t e) (good_after_t K (good_after_s K V b) e)) (good_after_r K V r)) je s1 /\
    (worth (Begin b r e n) = true -> dn (join_types l) v).
Proof.
  intros C R ND HI k z. cbn [simple ready labs] in C, R, ND. checks.
  match goal with X : simple_s K (p || _) true b = true |- _ => change (simple_s K (p || protected r) true b = true) in X; rename X into C1 end.
  match goal with X : simple_r K p r = true |- _ => rename X into C2 end.
  match goal with X : simple_t K p true e = true |- _ => rename X into C3 end.
  assert (ND' : NoDup (labs_s b ++ labs_r r ++ labs_t e)) by (rewrite !app_assoc in ND; rewrite app_assoc; apply nodup_apart in ND; apply ND).
  assert (DM : forall x, U K x = true -> forall a, In a (arm_of z (leaves_s b || leaves_t e) :: fst (fst (track_r T p d r (at_ (entry (vars st) (obs (ro k))) (rs z))))) ->
    same_dom x (vars st) (a_env a)).
  { intros x Ux a [<-|J].
    - cbn [arm_of a_env]. eapply same_dom_trans; [apply (dom_s T K (p || protected r) d b (flowing st) x C1 Ux)|].
      apply (else_dom T K p d e k x C3 Ux).
    - pose proof (dom_r T K p d r _ x C2 Ux a J) as X. cbn [at_ vars] in X.
      pose proof (entry_dom K x Ux T (p || protected r) true d b (flowing st) C1) as Y. fold k in Y. cbn [flowing vars] in Y.
      unfold same_dom in *. rewrite Y in X. exact X. }
  assert (CV : forall x, ~ In x (guards_s b ++ guards_r r ++ guards_t e) -> ~ In x (mods_s b ++ mods_r r ++ mods_t e) ->
     cov (named W) (vars st x) (vars (rs (track T p d (Begin b r e NoTail) st)) x)).
  { intros x G M. destruct (track_step (named W) T K x (nil_ok W T Hon)) as (TS&_).
    apply (TS (Begin b r e NoTail) p m d st).
    - cbn [simple simple_t]. change (match r with RNil => false | RCons _ _ _ => true end) with (protected r). rewrite C1, C2, C3. reflexivity.
    - right. cbn [guards guards_t]. rewrite !app_nil_r. exact G.
    - left. cbn [mods mods_t]. rewrite !app_nil_r. exact M. }
  rewrite track_begin in CV. cbv zeta in CV. change (vars (flowing st)) with (vars st) in CV. fold k in CV. fold z in CV.
  pose proof (gone_r T p d r (at_ (entry (vars st) (obs (ro k))) (rs z))) as GR.
  assert (RN : r = RNil -> fst (fst (track_r T p d r (at_ (entry (vars st) (obs (ro k))) (rs z)))) = []) by (intros ->; reflexivity).
  destruct (track_r T p d r (at_ (entry (vars st) (obs (ro k))) (rs z))) as [[l st1] o1] eqn:TR. cbn [fst] in *.
  intros s t1 o s1 E I Qt F.
  assert (HJ : hides (join_envs (vars st) (arm_of z (leaves_s b || leaves_t e) :: l))).
  { eapply (hides_dom K (vars st)); [|exact HI]. intros x Hx. apply join_dom. intros a J. apply DM; auto. }
  pose proof (I p d (flowing st) V C1 C2 C3 ltac:(assumption) ltac:(assumption) ltac:(assumption) ND') as I2. cbv zeta in I2.
  change (vars (flowing st)) with (vars st) in I2. fold k in I2. fold z in I2. rewrite TR in I2.
  destruct (I2 Qt F HI) as [A B]. split; [exact HJ|split; [exact B|split]].
  - intros x Vx. unfold less in Vx. checks. match goal with X : member x _ = false |- _ => apply member_not in X; rename X into NM end.
    rewrite !in_app_iff in NM.
    assert (SX : s1 x = s x) by (apply (exec_frame W _ _ _ _ _ E); cbn [mods_c]; rewrite !in_app_iff; tauto).
    rewrite SX. apply (fits1_cov W K x (vars st)); [| |apply F; assumption].
    + apply (CV x); rewrite !in_app_iff; tauto.
    + intros Ux. apply join_dom. intros a J. apply DM; auto.
  - intros v EV. destruct (A v EV) as (a&J&G&FA&TA). split; [|split].
    + destruct J as [<-|J]; [cbn in G; rewrite G; reflexivity|]. destruct r; [rewrite (RN eq_refl) in J; destruct J|].
      rewrite (GR a J G). apply andb_false_r.
    + eapply (fits_join W T K Hon); [exact J|exact G|exact FA|exact DM].
    + intros WO. eapply (join_type W); [exact J|exact G|]. apply TA. exact WO.
Qed.
Lemma s_begin b r e s tr o s' : exec W (IC b r e) s tr o s' -> spec (IC b r e) s tr o s' -> spec (IN (Begin b r e NoTail)) s tr o s'.
Proof.
  intros E I p m d st V C R ND Qt F HI. pose proof (begin_parts b r e NoTail p m d st V C R ND HI) as BP. cbv zeta in BP.
  rewrite track_begin in *. cbv zeta in *. change (vars (flowing st)) with (vars st) in *.
  destruct (track_r T p d r _) as [[l st1] o1]. cbn [track_t just rs rt ro at_ vars] in *.
  destruct (BP s tr o s' E I) as (_&B&_&A).
  - qs. repeat (apply quiet_plus; split); assumption.
  - exact F.
  - split.
    + intros v EV. destruct (A v EV) as (A1&A2&A3). cbn [leaves leaves_t orb good_after good_after_t]. auto.
    + eapply post_mono; [exact B|inl|inl|intros _; inl|inl].
Qed.
Lemma less_sub l V V' : sub (both (less l V) V') V'.
Proof. apply sub_right. Qed.
Lemma s_ensure b r e n s t1 o s1 t2 v s2 : exec W (IC b r e) s t1 o s1 -> spec (IC b r e) s t1 o s1 ->
  spec (IS n) s1 t2 (Normal v) s2 -> spec (IN (Begin b r e (Else n))) s (t1 ++ t2) o s2.
Proof.
  intros E I I2 p m d st V C R ND Qt F HI. pose proof (begin_parts b r e (Else n) p m d st V C R ND HI) as BP. cbv zeta in BP.
  rewrite track_begin in *. cbv zeta in *. change (vars (flowing st)) with (vars st) in *.
  assert (CN : simple_s K p m n = true) by (cbn [simple simple_t] in C; checks; assumption).
  assert (RN : ready_s K (both (less (mods_s b ++ mods_r r ++ mods_t e ++ guards_s b ++ guards_r r ++ guards_t e) V)
    (both (unless_gone (leaves_s b || leaves_t e) (good_after_t K (good_after_s K V b) e)) (good_after_r K V r))) n = true)
    by (cbn [ready ready_t] in R; checks; assumption).
  cbn [labs labs_t] in ND. nd.
  set (k := track_s T (p || protected r) d b (flowing st)) in *. set (z := else_of T p d e k) in *.
  destruct (track_r T p d r _) as [[l st1] o1]. cbn [rs rt ro at_ vars] in *. cbn [track_t] in *.
  set (y := track_s T p d n _) in *.
  destruct (BP s t1 o s1 E I) as (HJ&B&F3&A).
  { qs. repeat (apply quiet_plus; split); assumption. }
  { exact F. }
  qs. destruct (ready_mono K) as (_&_&_&_&RM&_).
  assert (B2 : post (labs_s n) p s1 t2 (Normal v) s2 (ro y)).
  { eapply (I2 p m d _ _ CN); [eapply RM; [apply sub_left|exact RN]|assumption|exact Qt|exact F3|exact HJ]. }
  split.
  - intros w EW. destruct (A w EW) as (A1&A2&A3). cbn [leaves leaves_t good_after good_after_t].
    destruct (I2 p m d _ _ CN (RM _ _ _ (less_sub _ _ _) RN) ltac:(assumption) Qt A2 HJ) as [A4 _]. fold y in A4.
    destruct (A4 v eq_refl) as (A5&A6&A7). rewrite A5, A1. auto.
  - assert (PS : post (labs_s b ++ labs_r r ++ labs_t e ++ labs_s n) p s (t1 ++ t2) (Normal v) s2 (plus (ro k) (plus (ro z) (plus o1 (ro y))))).
    { eapply post_mono; [eapply post_seq; [exact B|exact B2|ap]|inl|inl|intros _; inl|inl]. }
    destruct PS as [P1 P2 P3 P4 P5]. constructor; try assumption.
    intros q w EW. destruct B as [_ _ _ _ B5]. destruct (B5 q w EW) as [t [J G]]. exists t. split; [|exact G].
    cbn [plus rets] in *. rewrite !in_app_iff in *. tauto.
Qed.
Lemma s_ensure_stop b r e n s t1 o s1 t2 o' s2 : exec W (IC b r e) s t1 o s1 -> spec (IC b r e) s t1 o s1 ->
  spec (IS n) s1 t2 o' s2 -> abrupt o' -> spec (IN (Begin b r e (Else n))) s (t1 ++ t2) o' s2.
Proof.
  intros E I I2 AB p m d st V C R ND Qt F HI. pose proof (begin_parts b r e (Else n) p m d st V C R ND HI) as BP. cbv zeta in BP.
  rewrite track_begin in *. cbv zeta in *. change (vars (flowing st)) with (vars st) in *.
  assert (CN : simple_s K p m n = true) by (cbn [simple simple_t] in C; checks; assumption).
  assert (RN : ready_s K (both (less (mods_s b ++ mods_r r ++ mods_t e ++ guards_s b ++ guards_r r ++ guards_t e) V)
    (both (unless_gone (leaves_s b || leaves_t e) (good_after_t K (good_after_s K V b) e)) (good_after_r K V r))) n = true)
    by (cbn [ready ready_t] in R; checks; assumption).
  cbn [labs labs_t] in ND. nd.
  destruct (track_r T p d r _) as [[l st1] o1]. cbn [rs rt ro at_ vars] in *. cbn [track_t] in *.
  destruct (BP s t1 o s1 E I) as (HJ&B&F3&A).
  { qs. repeat (apply quiet_plus; split); assumption. }
  { exact F. }
  qs. destruct (ready_mono K) as (_&_&_&_&RM&_). split; [apply ends_abrupt; exact AB|].
  set (y := track_s T p d n _) in *.
  assert (B2 : post (labs_s n) p s1 t2 o' s2 (ro y)).
  { eapply (I2 p m d _ _ CN); [eapply RM; [apply sub_left|exact RN]|assumption|exact Qt|exact F3|exact HJ]. }
  eapply post_mono; [eapply post_seq; [exact B|exact B2|ap]|inl|inl|intros _; inl|inl].
Qed.
Lemma s_ensure_cut b r e n s tr s' : exec W (IC b r e) s tr Cut s' -> spec (IC b r e) s tr Cut s' ->
  spec (IN (Begin b r e (Else n))) s tr Cut s'.
Proof.
  intros E I. rewrite <- (app_nil_r tr). eapply s_ensure_stop; [exact E|exact I| |exact Logic.I]. apply s_cut.
Qed.
End Except.
