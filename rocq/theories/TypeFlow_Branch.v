(** The cases of the induction for branches. *)
From Coq Require Import List Bool NArith.
From Verif Require Import Types_Model Types_Spec Types_Union TypeFlow_Model TypeFlow_Spec TypeFlow_Frame TypeFlow_Tracker TypeFlow_Cover TypeFlow_Views TypeFlow_Fits TypeFlow_Narrow TypeFlow_Calls TypeFlow_Sound TypeFlow_Main.
From Coq Require Import String.
Import ListNotations.
Local Open Scope list_scope.

Section Branch.
Variables (W : world) (T : facts) (K : vision).
Hypothesis Hon : honest W T.
Hypothesis HU : forall x, H K x = true -> U K x = true.
Notation dn := (den (named W)).
Notation fits := (fits W K).
Notation hides := (hides K).
Notation moved := (moved K).
Notation post := (post W K).
Notation quiet := (quiet W K).
Notation spec := (spec W T K).
Notation ends := (ends W K).
Notation sound_at := (sound_at W K).
Notation arm_ends := (arm_ends W K).


(** ** If *)
Lemma s_if_stop u q t e s tr o s' : spec (IN q) s tr o s' -> abrupt o -> spec (IN (If u q t e)) s tr o s'.
Proof.
  intros I AB p m d st V C R ND Qt F HI. cbn [simple ready labs track ro] in *. checks. nd. qs.
  destruct (I p m d (flowing st) V ltac:(assumption) ltac:(assumption) ltac:(assumption) QT F HI) as [_ B].
  split; [apply ends_abrupt; exact AB|]. apply post_then; [exact B| |ap]. apply idle_plus; [apply idle_s|apply idle_t].
Qed.
Lemma s_if_then u q t e s t1 v s1 t2 o s2 : exec W (IN q) s t1 (Normal v) s1 -> spec (IN q) s t1 (Normal v) s1 -> truthy v = negb u ->
  exec W (IS t) s1 t2 o s2 -> spec (IS t) s1 t2 o s2 -> spec (IN (If u q t e)) s (t1 ++ t2) o s2.
Proof.
  intros E I TV E2 I2 p m d st V C R ND Qt F HI. cbn [simple ready labs] in C, R, ND. apply andb_true_iff in C as [C G]. checks. nd. cbn [track ro] in Qt. qs.
  destruct (I p m d (flowing st) V ltac:(assumption) ltac:(assumption) ltac:(assumption) QT F HI) as [A B].
  destruct (A v eq_refl) as (A1&A2&_).
  assert (HI1 : hides (vars (rs (track T p d q (flowing st))))) by (apply hides_track with m; assumption).
  destruct (I2 p true d (rs (track T p d q (flowing st))) (good_after K V q) ltac:(assumption) ltac:(assumption) ltac:(assumption) QT0 A2 HI1) as [A3 B2].
  split.
  - intros v' EV. destruct (A3 v' EV) as (A4&A5&A6). cbn [leaves good_after track rs vars at_ rt worth]. rewrite A4 in *. split; [reflexivity|split].
    + apply fits_sub with (good_after_s K (good_after K V q) t); [apply sub_left|]. unfold join_if. cbn [arm_of a_gone a_env].
      destruct (leaves_t e).
      * eapply (guarded W T K Hon); [exact G|exact E|exact TV| |exact A5]. apply (exec_frame W _ _ _ _ _ E2).
      * apply (fits_merge_l W T K Hon); [exact A5|]. intros x Ux.
        pose proof (dom_s T K p d t (rs (track T p d q (flowing st))) x ltac:(assumption) Ux) as D1.
        pose proof (dom_t T K p d e (at_ (vars (rs (track T p d q (flowing st)))) (rs (track_s T p d t (rs (track T p d q (flowing st)))))) x ltac:(assumption) Ux) as D2.
        unfold same_dom in *. cbn [at_ vars] in D2. tauto.
    + intros WO. checks. eapply (join_type W); [left; reflexivity|reflexivity|]. apply A6. assumption.
  - cbn [track ro labs]. eapply post_seq; [exact B| |ap]. apply post_then; [exact B2|apply idle_t|ap].
Qed.
Lemma s_if_else u q t e s t1 v s1 t2 o s2 : exec W (IN q) s t1 (Normal v) s1 -> spec (IN q) s t1 (Normal v) s1 -> truthy v = u ->
  exec W (IT e) s1 t2 o s2 -> spec (IT e) s1 t2 o s2 -> spec (IN (If u q t e)) s (t1 ++ t2) o s2.
Proof.
  intros E I TV E2 I2 p m d st V C R ND Qt F HI. cbn [simple ready labs] in C, R, ND. apply andb_true_iff in C as [C G]. checks. nd. cbn [track ro] in Qt. qs.
  destruct (I p m d (flowing st) V ltac:(assumption) ltac:(assumption) ltac:(assumption) QT F HI) as [A B].
  destruct (A v eq_refl) as (A1&A2&_).
  assert (HI1 : hides (vars (rs (track T p d q (flowing st))))) by (apply hides_track with m; assumption).
  set (r := track T p d q (flowing st)) in *. set (k := track_s T p d t (rs r)) in *.
  destruct (I2 p true d (at_ (vars (rs r)) (rs k)) (good_after K V q) ltac:(assumption) ltac:(assumption) ltac:(assumption) Qt A2 HI1) as [A3 B2].
  split.
  - intros v' EV. destruct (A3 v' EV) as (A4&A5&A6). cbn [leaves good_after track rs vars at_ rt worth]. fold r. fold k. rewrite A4 in *.
    split; [apply andb_false_r|split].
    + apply fits_sub with (good_after_t K (good_after K V q) e); [apply sub_right|]. unfold join_if. cbn [arm_of a_gone a_env].
      destruct (leaves_s t).
      * eapply (guarded W T K Hon); [exact G|exact E|exact TV| |exact A5]. apply (exec_frame W _ _ _ _ _ E2).
      * apply (fits_merge_r W T K Hon); [exact A5|]. intros x Ux.
        pose proof (dom_s T K p d t (rs r) x ltac:(assumption) Ux) as D1. fold k in D1.
        pose proof (dom_t T K p d e (at_ (vars (rs r)) (rs k)) x ltac:(assumption) Ux) as D2.
        unfold same_dom in *. cbn [at_ vars] in D2. tauto.
    + intros WO. checks. eapply (join_type W); [right; left; reflexivity|reflexivity|]. apply A6. assumption.
  - cbn [track ro labs]. fold r. fold k. eapply post_seq; [exact B| |ap]. apply post_after; [exact B2|apply idle_s|ap].
Qed.
Lemma s_no_tail s : spec (IT NoTail) s [] (Normal vnil) s.
Proof.
  intros p m d st V C R ND Qt F HI. split.
  - intros v E. injection E as <-. cbn. split; [reflexivity|split; [exact F|]]. intros _. apply (nil_ok W T Hon).
  - apply post_none. discriminate.
Qed.
Lemma s_else b s tr o s' : spec (IS b) s tr o s' -> spec (IT (Else b)) s tr o s'.
Proof. intros I. exact I. Qed.

(** ** Case *)
Lemma s_case_stop q w e s tr o s' : spec (IN q) s tr o s' -> abrupt o -> spec (IN (Case q w e)) s tr o s'.
Proof.
  intros I AB p m d st V C R ND. cbn [simple ready labs track] in *. checks. nd.
  pose proof (idle_w T p d w (rs (track T p d q (flowing st)))) as IW1.
  destruct (track_w T p d w (rs (track T p d q (flowing st)))) as [[l st1] o1]. cbn [snd] in IW1. intros Qt F HI. cbn [ro] in Qt |- *. qs.
  destruct (I p m d (flowing st) V ltac:(assumption) ltac:(assumption) ltac:(assumption) QT F HI) as [_ B].
  split; [apply ends_abrupt; exact AB|]. apply post_then; [exact B| |ap]. apply idle_plus; [exact IW1|apply idle_t].
Qed.
Lemma s_case q w e s t1 v s1 t2 o s2 : exec W (IN q) s t1 (Normal v) s1 -> spec (IN q) s t1 (Normal v) s1 ->
  spec (IW w e) s1 t2 o s2 -> spec (IN (Case q w e)) s (t1 ++ t2) o s2.
Proof.
  intros E I I2 p m d st V C R ND. cbn [simple ready labs track] in *. checks. apply nodup_apart in ND as (ND1&ND2&AP1).
  set (r := track T p d q (flowing st)) in *.
  assert (HI1 : hides (vars st) -> hides (vars (rs r))) by (intros HI; apply hides_track with m; assumption).
  pose proof (gone_w T p d w (rs r)) as GW.
  pose proof (fun x Ux => dom_w T K p d w (rs r) x ltac:(assumption) Ux) as DW.
  pose proof (I2 p d (rs r) (good_after K V q) ltac:(assumption) ltac:(assumption) ltac:(assumption) ltac:(assumption) ltac:(assumption)) as I3.
  destruct (track_w T p d w (rs r)) as [[l st1] o1]. cbn [fst] in *. intros Qt F HI. cbn [ro] in Qt |- *. apply quiet_plus in Qt as [QT Qt].
  destruct (I p m d (flowing st) V ltac:(assumption) ltac:(assumption) ltac:(assumption) QT F HI) as [A B].
  destruct (A v eq_refl) as (_&A2&_).
  destruct (I3 Qt A2 (HI1 HI)) as [A3 B2]. split.
  - intros v' EV. destruct (A3 v' EV) as (a&J&G&FA&TA). cbn [leaves good_after rs vars at_ rt worth]. split; [|split].
    + apply in_app_or in J as [J|[<-|[]]]; [rewrite (GW a J G); reflexivity|]. cbn in G. rewrite G. apply andb_false_r.
    + eapply (fits_join W T K Hon); [exact J|exact G|exact FA|]. intros x Ux b Jb. apply in_app_or in Jb as [Jb|[<-|[]]]; [apply DW; assumption|].
      cbn [arm_of a_env]. apply (dom_t T K p d e (at_ (vars (rs r)) st1) x ltac:(assumption) Ux).
    + intros WO. eapply (join_type W); [exact J|exact G|]. apply TA. exact WO.
  - eapply post_seq; [exact B|exact B2|exact AP1].
Qed.
Lemma s_when_hit a1 a2 b w e s t1 vs s1 t2 o s2 : exec W (IA a1) s t1 (Normal vs) s1 -> spec (IS b) s1 t2 o s2 ->
  spec (IW (WCons (capp a1 a2) b w) e) s (t1 ++ t2) o s2.
Proof.
  intros E I p d st V C1 C2 R1 R2 ND. cbn [simple_w ready_w labs_w track_w] in *. rewrite labs_capp in *. checks. nd.
  match goal with X : dark_a K _ = true |- _ => apply dark_a_capp in X; destruct (dark_run W K (IA a1) s t1 _ s1 p E X) as [M P] end.
  cbn [labs_c] in P.
  pose proof (idle_w T p d w (at_ (vars st) (rs (track_s T p d b st)))) as IW1.
  destruct (track_w T p d w _) as [[l st1] o1]. cbn [snd] in IW1. intros Qt F HI. qs.
  destruct (I p true d st V ltac:(assumption) ltac:(assumption) ltac:(assumption) QT0 ltac:(eapply (fits_moved W K HU); eassumption) HI) as [A B].
  split.
  - intros v EV. destruct (A v EV) as (A1&A2&A3). exists (arm_of (track_s T p d b st) (leaves_s b)). split; [left; reflexivity|].
    split; [exact A1|]. cbn [good_after_w worth_w]. rewrite A1. split.
    + eapply fits_sub; [|exact A2]. eapply sub_trans; apply sub_left.
    + intros WO. checks. apply A3. assumption.
  - assert (IP : idle (labs_w w ++ labs_t e) (plus o1 (ro (track_t T p d e (at_ (vars st) st1))))) by (apply idle_plus; [exact IW1|apply idle_t]).
    eapply post_mono; [eapply post_seq; [exact P|eapply post_then; [exact B|exact IP|ap]|ap]| | | |].
    + inl.
    + inl.
    + intros _. inl.
    + inl.
Qed.
Lemma s_when_miss a b w e s t1 vs s1 t2 o s2 : exec W (IA a) s t1 (Normal vs) s1 -> spec (IW w e) s1 t2 o s2 ->
  spec (IW (WCons a b w) e) s (t1 ++ t2) o s2.
Proof.
  intros E I p d st V C1 C2 R1 R2 ND. cbn [simple_w ready_w labs_w track_w] in *. checks. rewrite <- !app_assoc in ND.
  apply nodup_apart in ND as (ND1&ND2&AP1). apply nodup_apart in ND2 as (ND2&ND3&AP2).
  match goal with X : dark_a K _ = true |- _ => destruct (dark_run W K (IA a) s t1 _ s1 p E X) as [M P] end. cbn [labs_c] in P.
  pose proof (I p d (at_ (vars st) (rs (track_s T p d b st))) V ltac:(assumption) ltac:(assumption) ltac:(assumption) ltac:(assumption) ltac:(assumption)) as I2.
  pose proof (idle_s T p d b st) as IS1.
  destruct (track_w T p d w _) as [[l st1] o1]. intros Qt F HI. qs.
  destruct I2 as [A B]; [apply quiet_plus; split; assumption|eapply (fits_moved W K HU); eassumption|exact HI|]. split.
  - intros v EV. destruct (A v EV) as (x&J&G&FA&TA). exists x. split; [right; exact J|]. split; [exact G|split].
    + eapply fits_sub; [|exact FA]. intros y Y. unfold both in *. cbn [good_after_w] in Y. unfold both in Y. checks. apply andb_true_iff. split; assumption.
    + intros WO. apply TA. cbn [worth_w] in WO. checks. apply andb_true_iff. split; assumption.
  - eapply post_mono; [eapply post_seq; [exact P|eapply post_after; [exact B|exact IS1|exact AP2]|exact AP1]| | | |].
    + inl.
    + inl.
    + intros _. inl.
    + inl.
Qed.
Lemma s_when_stop a b w e s tr o s' : exec W (IA a) s tr o s' -> abrupt o -> spec (IW (WCons a b w) e) s tr o s'.
Proof.
  intros E AB p d st V C1 C2 R1 R2 ND. cbn [simple_w ready_w labs_w track_w] in *. checks. nd.
  match goal with X : dark_a K _ = true |- _ => destruct (dark_run W K (IA a) s tr _ s' p E X) as [M P] end. cbn [labs_c] in P.
  pose proof (idle_s T p d b st) as IS1.
  pose proof (idle_w T p d w (at_ (vars st) (rs (track_s T p d b st)))) as IW1.
  destruct (track_w T p d w _) as [[l st1] o1]. cbn [snd] in IW1. intros Qt F HI.
  split; [apply arm_ends_abrupt; exact AB|].
  assert (IP : idle (labs_s b ++ labs_w w ++ labs_t e) (plus (ro (track_s T p d b st)) (plus o1 (ro (track_t T p d e (at_ (vars st) st1))))))
    by (apply idle_plus; [exact IS1|]; apply idle_plus; [exact IW1|apply idle_t]).
  eapply post_mono; [eapply post_then; [exact P|exact IP|ap]| | | |].
  - inl.
  - inl.
  - intros _. inl.
  - inl.
Qed.
Lemma s_when_none e s tr o s' : spec (IT e) s tr o s' -> spec (IW WNil e) s tr o s'.
Proof.
  intros I p d st V C1 C2 R1 R2 ND. cbn [labs_w track_w app] in *. intros Qt F HI. qs.
  destruct (I p true d (at_ (vars st) st) V C2 R2 ND Qt F HI) as [A B]. split.
  - intros v EV. destruct (A v EV) as (A1&A2&A3). eexists. split; [left; reflexivity|]. split; [exact A1|]. cbn [good_after_w worth_w].
    rewrite A1. split; [exact A2|exact A3].
  - eapply post_mono; [exact B|inl|inl|intros _; inl|inl].
Qed.

(** ** And, or *)
Lemma s_logic_stop or a b s tr o s' : spec (IN a) s tr o s' -> abrupt o -> spec (IN (Logic or a b)) s tr o s'.
Proof.
  intros I AB p m d st V C R ND Qt F HI. cbn [simple ready labs track] in *. checks. nd.
  set (r := track T p d a (flowing st)) in *.
  assert (P : quiet (ro r) -> post (labs a ++ labs b) p s tr o s' (ro r)).
  { intros QR. destruct (I p m d (flowing st) V ltac:(assumption) ltac:(assumption) ltac:(assumption) QR F HI) as [_ B].
    eapply post_mono; [exact B|inl|inl|intros _; inl|inl]. }
  assert (P2 : quiet (ro r) -> post (labs a ++ labs b) p s tr o s' (plus (plus (ro r) (tested (rt r))) (ro (track T p d b (rs r))))).
  { intros QR. destruct (I p m d (flowing st) V ltac:(assumption) ltac:(assumption) ltac:(assumption) QR F HI) as [_ B].
    eapply post_mono; [eapply post_then; [exact B|apply (idle_n T p d b (rs r))|ap]|inl|inl|intros _; inl|inl]. }
  split; [apply ends_abrupt; exact AB|]. destruct (truthiness (rt r)) as [tr0|]; [destruct (Bool.eqb tr0 or)|]; cbn [also ro] in *; qs.
  - eapply post_mono; [exact (P QT)|inl|inl|intros _; inl|inl].
  - exact (P2 QT0).
  - exact (P2 QT0).
Qed.
Lemma tested_tells t : quiet (tested t) -> tells W t.
Proof. intros [_ A]. apply A. left. reflexivity. Qed.
Lemma s_logic_left or a b s tr v s' : spec (IN a) s tr (Normal v) s' -> truthy v = or -> spec (IN (Logic or a b)) s tr (Normal v) s'.
Proof.
  intros I TV p m d st V C R ND Qt F HI. cbn [simple ready labs] in C, R, ND. checks. nd. cbn [track] in Qt |- *.
  set (r := track T p d a (flowing st)) in *.
  assert (P : quiet (ro r) -> ends (good_after K V a) (leaves a) (worth a) (vars (rs r)) (rt r) (Normal v) s' /\
    post (labs a) p s tr (Normal v) s' (ro r)).
  { intros QR. apply (I p m d (flowing st) V ltac:(assumption) ltac:(assumption) ltac:(assumption) QR F HI). }
  destruct (truthiness (rt r)) as [tr0|] eqn:TT.
  - destruct (Bool.eqb tr0 or) eqn:EB; cbn [also ro] in Qt; qs.
    + destruct (P QT) as [A B]. destruct (A v eq_refl) as (A1&A2&A3). split.
      * intros v' EV. injection EV as <-. cbn [rs rt leaves good_after]. split; [reflexivity|split; [|auto]].
        eapply fits_sub; [apply sub_left|exact A2].
      * cbn [ro labs]. eapply post_mono; [exact B|inl|inl|intros _; inl|inl].
    + exfalso. destruct (P QT0) as [A B]. destruct (A v eq_refl) as (A1&A2&A3).
      rewrite (truth_ok W _ v tr0 (tested_tells _ QT) (A3 ltac:(assumption)) TT) in TV. subst tr0. rewrite eqb_reflx in EB. discriminate.
  - cbn [ro] in Qt. qs. destruct (P QT0) as [A B]. destruct (A v eq_refl) as (A1&A2&A3). split.
    + intros v' EV. injection EV as <-. cbn [rs rt leaves good_after vars at_]. split; [reflexivity|split].
      * apply (fits_merge_l W T K Hon); [eapply fits_sub; [apply sub_left|exact A2]|]. intros x Ux. apply (dom_n T K); assumption.
      * intros _. apply short_left; auto. apply tested_tells. exact QT.
    + cbn [ro labs]. eapply post_mono; [eapply post_then; [exact B|apply (idle_n T p d b (rs r))|ap]|inl|inl|intros _; inl|inl].
Qed.
Lemma s_logic_right or a b s t1 v s1 t2 o s2 : spec (IN a) s t1 (Normal v) s1 -> truthy v = negb or -> spec (IN b) s1 t2 o s2 ->
  spec (IN (Logic or a b)) s (t1 ++ t2) o s2.
Proof.
  intros I TV I2 p m d st V C R ND Qt F HI. cbn [simple ready labs] in C, R, ND. checks. nd. cbn [track] in Qt |- *.
  set (r := track T p d a (flowing st)) in *.
  assert (P : quiet (ro r) -> ends (good_after K V a) (leaves a) (worth a) (vars (rs r)) (rt r) (Normal v) s1 /\
    post (labs a) p s t1 (Normal v) s1 (ro r)).
  { intros QR. apply (I p m d (flowing st) V ltac:(assumption) ltac:(assumption) ltac:(assumption) QR F HI). }
  assert (HI1 : hides (vars (rs r))) by (apply hides_track with m; assumption).
  destruct (truthiness (rt r)) as [tr0|] eqn:TT.
  - destruct (Bool.eqb tr0 or) eqn:EB; cbn [also ro] in Qt; qs.
    + exfalso. destruct (P QT) as [A B]. destruct (A v eq_refl) as (A1&A2&A3).
      rewrite (truth_ok W _ v tr0 (tested_tells _ Qt) (A3 ltac:(assumption)) TT) in TV. subst tr0. destruct or; discriminate.
    + destruct (P QT0) as [A B]. destruct (A v eq_refl) as (A1&A2&A3).
      destruct (I2 p true d (rs r) (good_after K V a) ltac:(assumption) ltac:(assumption) ltac:(assumption) Qt A2 HI1) as [A4 B2]. split.
      * intros v' EV. destruct (A4 v' EV) as (A5&A6&A7). cbn [rs rt leaves good_after worth also]. split; [reflexivity|split; [|auto]].
        eapply fits_sub; [apply sub_right|exact A6].
      * cbn [also ro labs]. eapply post_mono; [eapply post_seq; [exact B|exact B2|ap]|inl|inl|intros _; inl|inl].
  - cbn [ro] in Qt. qs. destruct (P QT0) as [A B]. destruct (A v eq_refl) as (A1&A2&A3).
    destruct (I2 p true d (rs r) (good_after K V a) ltac:(assumption) ltac:(assumption) ltac:(assumption) Qt A2 HI1) as [A4 B2]. split.
    + intros v' EV. destruct (A4 v' EV) as (A5&A6&A7). cbn [rs rt leaves good_after vars at_ worth]. split; [reflexivity|split].
      * apply (fits_merge_r W T K Hon); [eapply fits_sub; [apply sub_right|exact A6]|]. intros x Ux. apply (dom_n T K); assumption.
      * intros WO. apply short_right. auto.
    + cbn [ro labs]. eapply post_mono; [eapply post_seq; [exact B|exact B2|ap]|inl|inl|intros _; inl|inl].
Qed.
End Branch.
