(** The cases of the induction on runs, and the induction. *)
From Coq Require Import List Bool NArith.
From Verif Require Import Types_Model Types_Spec Types_Union TypeFlow_Model TypeFlow_Spec TypeFlow_Frame TypeFlow_Tracker TypeFlow_Cover TypeFlow_Views TypeFlow_Fits TypeFlow_Narrow TypeFlow_Calls TypeFlow_Sound.
From Coq Require Import String.
Import ListNotations.
Local Open Scope list_scope.

Section Main.
Variables (W : world) (T : facts) (K : vision).
Hypothesis Hon : honest W T.
Hypothesis HU : forall x, H K x = true -> U K x = true.
Notation dn := (den (named W)).
Notation fits := (fits W K).
Notation hides := (hides K).
Notation moved := (moved K).
Notation post := (post W K).
Notation quiet := (quiet W K).
Notation spec := (spec W T K).
Notation ends := (ends W K).
Notation sound_at := (sound_at W K).
Notation arm_ends := (arm_ends W K).

Lemma post_out L p s tr o o' s' a : post L p s tr o s' a -> (forall v, o' = Ret v -> o = Ret v) -> post L p s tr o' s' a.
Proof. intros [A1 A2 A3 A4 A5] B. constructor; auto. Qed.

(** ** Cut short, leaves *)
Lemma s_cut c s : spec c s [] Cut s.
Proof.
  assert (NR : forall v, Cut <> Ret v) by discriminate.
  destruct c; cbn [TypeFlow_Calls.spec].
  - intros p m d st V C R ND Qt F HI. split; [apply ends_abrupt; exact Logic.I|]. apply post_no_run; [exact NR|apply idle_n].
  - intros p m d st V C R ND. split; [|discriminate]. intros Qt F HI. split; [apply ends_abrupt; exact Logic.I|]. apply post_no_run; [exact NR|].
    intros l t. apply (records_in T).
  - intros p m d st V C S1 D1 R ND Qt F HI. split; [discriminate|]. apply post_no_run; [exact NR|]. intros l t. apply (records_in T).
  - intros p m d st V C R ND Qt F HI. split; [apply ends_abrupt; exact Logic.I|]. apply post_no_run; [exact NR|apply idle_s].
  - intros p m d st V C R ND Qt F HI. split; [apply ends_abrupt; exact Logic.I|]. apply post_no_run; [exact NR|apply idle_t].
  - intros p d st V C1 C2 R1 R2 ND. pose proof (idle_w T p d w st) as IW1. destruct (track_w T p d w st) as [[l st1] o1]. cbn [snd] in IW1.
    intros Qt F HI. split; [apply arm_ends_abrupt; exact Logic.I|]. apply post_no_run; [exact NR|]. apply idle_plus; [exact IW1|apply idle_t].
  - intros p d st V C1 C2 C3 R1 R2 R3 ND.
    set (k := track_s T (p || protected r) d b st).
    pose proof (idle_r T p d r (at_ (entry (vars st) (obs (ro k))) (rs (else_of T p d e k)))) as IW1.
    destruct (track_r T p d r _) as [[l st1] o1]. cbn [snd] in IW1.
    intros Qt F HI. split; [apply arm_ends_abrupt; exact Logic.I|]. apply post_no_run; [exact NR|].
    intros l0 t J. cbn [plus reads] in J. rewrite !in_app_iff in *. destruct J as [J|[J|J]].
    + left. eapply idle_s. exact J.
    + right. right. eapply idle_else. exact J.
    + right. left. eapply IW1. exact J.
  - intros p d st V C R ND. pose proof (idle_r T p d r st) as IW1. destruct (track_r T p d r st) as [[l st1] o1]. cbn [snd] in IW1.
    intros Qt F HI. split; [apply arm_ends_abrupt; exact Logic.I|]. apply post_no_run; [exact NR|exact IW1].
  - intros ps ls body E p d e st V params B R ND Y Qt F HI. split; [discriminate|]. apply post_no_run; [exact NR|].
    intros l t J. cbn [unreturned reads] in J. eapply idle_s. exact J.
Qed.
Lemma s_lit t v s : dn t v -> spec (IN (Lit t)) s [] (Normal v) s.
Proof.
  intros A p m d st V C R ND Qt F HI. split.
  - intros v' E. injection E as <-. cbn. auto.
  - apply post_none. discriminate.
Qed.
Lemma s_const c s : spec (IN (Const c)) s [] (Normal (konst W c)) s.
Proof.
  intros p m d st V C R ND Qt F HI. split.
  - intros v' E. injection E as <-. cbn. split; [reflexivity|split; [exact F|]]. intros _. apply (h_const W T Hon).
  - apply post_none. discriminate.
Qed.
Lemma s_read l x s : spec (IN (Read l x)) s [(l, s x)] (Normal (s x)) s.
Proof.
  intros p m d st V C R ND Qt F HI. cbn [ready] in R.
  assert (DV : dn (match vars st x with Some t => t | None => TUnknown end) (s x)).
  { specialize (F x R). unfold fits1 in F. destruct (vars st x); [exact F|exact Logic.I]. }
  split.
  - intros v E. injection E as <-. cbn. auto.
  - cbn [track ro labs]. apply post_hidden.
    + intros l' v [E|[]]. injection E as <- _. left. reflexivity.
    + intros l' t J. destruct (flow st); [|destruct J]. destruct J as [E|[]]. injection E as <- _. left. reflexivity.
    + intros l' v t [E|[]] J. injection E as <- <-. destruct (flow st); [|destruct J]. destruct J as [E|[]]. injection E as <-. exact DV.
    + apply moved_refl.
    + discriminate.
Qed.

(** ** Assignment *)
Lemma s_write x n s tr v s' : spec (IN n) s tr (Normal v) s' -> spec (IN (Write x n)) s tr (Normal v) (upd s' x v).
Proof.
  intros I p m d st V C R ND Qt F HI. cbn [simple] in C. checks. cbn [ready labs] in R, ND.
  assert (Q1 : quiet (ro (track T p d n st))).
  { cbn [track ro] in Qt. destruct p; [qs; assumption|exact Qt]. }
  destruct (I p m d st V ltac:(assumption) R ND Q1 F HI) as [A B]. destruct (A v eq_refl) as (A1&A2&A3). specialize (A3 C).
  split.
  - intros v' E. injection E as <-. cbn [track rs rt at_ vars leaves good_after]. split; [reflexivity|split; [|auto]].
    intros y Vy. destruct (N.eq_dec y x) as [->|NE].
    + rewrite set_same, upd_same. exact A3.
    + rewrite set_other, upd_other by exact NE. apply A2. unfold with_ in Vy. cbn in Vy.
      apply N.eqb_neq in NE. rewrite NE in Vy. exact Vy.
  - cbn [track ro labs]. destruct B as [B1 B2 B3 B4 B5]. constructor.
    + exact B1.
    + intros l t J. destruct p; [|eapply B2; exact J]. cbn [plus observed reads] in J. rewrite app_nil_r in J. eapply B2; exact J.
    + intros l v' t J J'. destruct p; [|eapply B3; eassumption]. cbn [plus observed reads] in J'. rewrite app_nil_r in J'. eapply B3; eassumption.
    + intros -> y Hy. destruct (N.eq_dec y x) as [->|NE].
      * right. exists (rt (track T true d n st)). rewrite upd_same. split; [|exact A3]. cbn [plus observed obs]. rewrite !in_app_iff. cbn. auto.
      * rewrite upd_other by exact NE. destruct (B4 eq_refl y Hy) as [E|[t [E G]]]; [left; exact E|]. right. exists t. split; [|exact G].
        cbn [plus observed obs]. rewrite !in_app_iff. auto.
    + discriminate.
Qed.
Lemma s_write_stop x n s tr o s' : spec (IN n) s tr o s' -> abrupt o -> spec (IN (Write x n)) s tr o s'.
Proof.
  intros I AB p m d st V C R ND Qt F HI. cbn [simple] in C. checks. cbn [ready labs] in R, ND.
  assert (Q1 : quiet (ro (track T p d n st))).
  { cbn [track ro] in Qt. destruct p; [qs; assumption|exact Qt]. }
  destruct (I p m d st V ltac:(assumption) R ND Q1 F HI) as [_ B]. split; [apply ends_abrupt; exact AB|].
  cbn [track ro labs]. destruct p; [|exact B]. eapply post_mono; [exact B|apply incl_refl|inl|intros _; inl|inl].
Qed.

(** ** Receivers and arguments *)
Lemma s_self s : spec (IV RNone) s [] (Normal (self W)) s.
Proof.
  intros p m d st V C R ND. split; [|intros v E; injection E as <-; reflexivity].
  intros Qt F HI. split.
  - intros v E. injection E as <-. cbn. auto.
  - apply post_none. discriminate.
Qed.
Lemma s_recv n s tr o s' : exec W (IN n) s tr o s' -> spec (IN n) s tr o s' -> spec (IV (RNode n)) s tr o s'.
Proof.
  intros E I p m d st V C R ND. split.
  - intros Qt F HI. cbn [simple_v ready_v labs_v look good_after_v] in *. destruct (direct n) eqn:DN.
    + checks. destruct (I p m d st V ltac:(assumption) R ND Qt F HI) as [A B]. split; [|exact B].
      intros v EV. destruct (A v EV) as (A1&A2&A3). auto.
    + destruct (dark_run W K (IN n) s tr o s' p E C) as [M P]. split.
      * intros v EV. cbn. split; [reflexivity|split; [|auto]]. eapply (fits_moved W K HU); eassumption.
      * exact P.
  - intros v EV. subst o. destruct n; try exact Logic.I. inversion E; subst. reflexivity.
Qed.
Lemma s_anil s : spec (IA ANil) s [] (Normal (VArr [])) s.
Proof.
  intros p m d st V C S1 D1 R ND Qt F HI. split.
  - intros v E. injection E as <-. exists []. split; [reflexivity|constructor].
  - apply post_none. discriminate.
Qed.
Lemma s_acons n a s t1 v s1 t2 o s2 : exec W (IN n) s t1 (Normal v) s1 -> spec (IN n) s t1 (Normal v) s1 ->
  spec (IA a) s1 t2 o s2 -> spec (IA (ACons n a)) s (t1 ++ t2) (push v o) s2.
Proof.
  intros E I1 I2 p m d st V C S1 D1 R ND. cbn [simple_a still_a ready_a labs_a track_a] in *. checks. nd.
  apply dark_a_cons in D1 as [DN DA].
  destruct (still_vars T) as (SV&_). pose proof (SV n ltac:(assumption) p d st) as SE.
  pose proof (I2 p m d (rs (track T p d n st)) V C S1 DA R ltac:(assumption)) as I2'.
  destruct (track_a T p d a (rs (track T p d n st))) as [[ts st1] oa]. cbn [fst snd] in *. intros Qt F HI. qs.
  destruct (I1 p m d st V ltac:(assumption) ltac:(assumption) ltac:(assumption) QT F HI) as [A B].
  destruct (A v eq_refl) as (_&_&A3).
  destruct (dark_run W K (IN n) s t1 (Normal v) s1 p E DN) as [M _].
  rewrite SE in I2'. destruct (I2' Qt) as [A2 B2]; [eapply (fits_moved W K HU); eassumption|exact HI|].
  split.
  - intros v' EV. destruct o; try discriminate EV. destruct (A2 _ eq_refl) as [vs [-> F2]]. cbn in EV. injection EV as <-.
    exists (v :: vs). split; [reflexivity|]. constructor; auto.
  - eapply post_out; [eapply post_seq; [exact B|exact B2|ap]|]. intros u EU. eapply push_same; [exact EU|exact Logic.I].
Qed.
Lemma s_acons_stop n a s tr o s' : spec (IN n) s tr o s' -> abrupt o -> spec (IA (ACons n a)) s tr o s'.
Proof.
  intros I AB p m d st V C S1 D1 R ND. cbn [simple_a still_a ready_a labs_a track_a] in *. checks. nd.
  assert (IA1 : idle (labs_a a) (snd (track_a T p d a (rs (track T p d n st))))) by (intros l t; apply (records_in T)).
  destruct (track_a T p d a (rs (track T p d n st))) as [[ts st1] oa]. cbn [fst snd] in *. intros Qt F HI. qs.
  destruct (I p m d st V ltac:(assumption) ltac:(assumption) ltac:(assumption) QT F HI) as [_ B]. split.
  - intros v ->. destruct AB.
  - apply post_then; [exact B|exact IA1|ap].
Qed.

(** ** Calls *)
Lemma s_call_safe r f a b s tr s' : exec W (IV r) s tr (Normal vnil) s' -> spec (IV r) s tr (Normal vnil) s' ->
  spec (IN (Call true r f a b)) s tr (Normal vnil) s'.
Proof.
  intros E I p m d st V C R ND Qt F HI.
  destruct (call_parts W T K Hon HU p m d true r f a b st V C R ND Qt HI) as (P1&_&_).
  pose proof (call_fits W T K HU p m d true r f a b st V C R ND Qt HI s tr vnil s' E I F) as (F1&_&_).
  destruct (call_simple W T K p m d true r f a b st V C R ND Qt) as (_&NE&_&TE&_).
  split; [|eapply P1; eassumption].
  intros v EV. split; [|split; [exact F1|discriminate]]. cbn [leaves]. rewrite NE.
  destruct (terminating r f); [destruct (TE eq_refl); discriminate|reflexivity].
Qed.
Lemma s_call_recv safe r f a b s tr o s' : exec W (IV r) s tr o s' -> spec (IV r) s tr o s' -> abrupt o ->
  spec (IN (Call safe r f a b)) s tr o s'.
Proof.
  intros E I AB p m d st V C R ND Qt F HI.
  destruct (call_parts W T K Hon HU p m d safe r f a b st V C R ND Qt HI) as (P1&_&_).
  split; [apply ends_abrupt; exact AB|eapply P1; eassumption].
Qed.
Lemma s_call_args safe r f a b s t1 w s1 t2 o s2 : exec W (IV r) s t1 (Normal w) s1 -> spec (IV r) s t1 (Normal w) s1 ->
  exec W (IA a) s1 t2 o s2 -> spec (IA a) s1 t2 o s2 -> abrupt o -> spec (IN (Call safe r f a b)) s (t1 ++ t2) o s2.
Proof.
  intros E I E2 I2 AB p m d st V C R ND Qt F HI.
  destruct (call_parts W T K Hon HU p m d safe r f a b st V C R ND Qt HI) as (_&P2&_).
  split; [apply ends_abrupt; exact AB|eapply P2; eassumption].
Qed.
Lemma s_call safe r f a b s t1 w s1 t2 vs s2 t3 us s3 v : exec W (IV r) s t1 (Normal w) s1 -> spec (IV r) s t1 (Normal w) s1 ->
  exec W (IA a) s1 t2 (Normal (VArr vs)) s2 -> spec (IA a) s1 t2 (Normal (VArr vs)) s2 ->
  exec W (IK w f vs b) s2 t3 (Normal (VArr us)) s3 -> spec (IK w f vs b) s2 t3 (Normal (VArr us)) s3 ->
  sends W w f vs us v -> spec (IN (Call safe r f a b)) s (t1 ++ t2 ++ t3) (Normal v) s3.
Proof.
  intros E I E2 I2 E3 I3 SE p m d st V C R ND Qt F HI.
  destruct (call_parts W T K Hon HU p m d safe r f a b st V C R ND Qt HI) as (_&_&P3).
  destruct (call_simple W T K p m d safe r f a b st V C R ND Qt) as (C1&NE&_&TE&_).
  destruct (P3 s t1 w s1 t2 vs s2 t3 _ s3 E I E2 I2 E3 I3 F) as (PO&FI&TY). split.
  - intros v' EV. injection EV as <-. split; [|split; [exact FI|]].
    + cbn [leaves]. rewrite NE. destruct (terminating r f) eqn:TR; [|reflexivity]. exfalso.
      unfold terminating in TR. destruct r; [|discriminate]. apply existsb_exists in TR as [g [J G]]. apply String.eqb_eq in G. subst g.
      inversion E; subst. eapply (h_stop W T Hon); eassumption.
    + intros WO. eapply TY; eauto.
  - eapply post_as; [exact PO|discriminate].
Qed.
Lemma s_call_other safe r f a b s t1 w s1 t2 vs s2 t3 o s3 : exec W (IV r) s t1 (Normal w) s1 -> spec (IV r) s t1 (Normal w) s1 ->
  exec W (IA a) s1 t2 (Normal (VArr vs)) s2 -> spec (IA a) s1 t2 (Normal (VArr vs)) s2 ->
  exec W (IK w f vs b) s2 t3 o s3 -> spec (IK w f vs b) s2 t3 o s3 ->
  forall o', abrupt o' -> (forall v, o' = Ret v -> o = Ret v) -> spec (IN (Call safe r f a b)) s (t1 ++ t2 ++ t3) o' s3.
Proof.
  intros E I E2 I2 E3 I3 o' AB EO p m d st V C R ND Qt F HI.
  destruct (call_parts W T K Hon HU p m d safe r f a b st V C R ND Qt HI) as (_&_&P3).
  destruct (P3 s t1 w s1 t2 vs s2 t3 _ s3 E I E2 I2 E3 I3 F) as (PO&FI&TY).
  split; [apply ends_abrupt; exact AB|]. eapply post_out; [exact PO|exact EO].
Qed.
Lemma s_call_break safe r f a b s t1 w s1 t2 vs s2 t3 s3 : exec W (IV r) s t1 (Normal w) s1 -> spec (IV r) s t1 (Normal w) s1 ->
  exec W (IA a) s1 t2 (Normal (VArr vs)) s2 -> spec (IA a) s1 t2 (Normal (VArr vs)) s2 ->
  exec W (IK w f vs b) s2 t3 Brk s3 -> spec (IK w f vs b) s2 t3 Brk s3 ->
  spec (IN (Call safe r f a b)) s (t1 ++ t2 ++ t3) (Normal vnil) s3.
Proof.
  intros E I E2 I2 E3 I3 p m d st V C R ND Qt F HI.
  destruct (call_parts W T K Hon HU p m d safe r f a b st V C R ND Qt HI) as (_&_&P3).
  destruct (call_simple W T K p m d safe r f a b st V C R ND Qt) as (C1&NE&_&TE&_).
  destruct (P3 s t1 w s1 t2 vs s2 t3 _ s3 E I E2 I2 E3 I3 F) as (PO&FI&TY).
  destruct (exec_frame W _ _ _ _ _ E3) as (_&_&_&BR&_). specialize (BR eq_refl). cbn [any_c] in BR.
  destruct b as [|ps ls body]; [discriminate|]. cbn [any_b] in BR. split.
  - intros v EV. split; [|split; [exact FI|]].
    + cbn [leaves]. rewrite NE. destruct (terminating r f); [destruct (TE eq_refl); discriminate|reflexivity].
    + cbn [worth]. rewrite BR. cbn [negb]. rewrite !andb_false_r. discriminate.
  - eapply post_as; [exact PO|discriminate].
Qed.
Lemma s_runs_end w f vs b s : spec (IK w f vs b) s [] (Normal (VArr [])) s.
Proof.
  intros ps ls body E p d e st V params B R ND Y Qt F HI. split.
  - intros v EV. injection EV as <-. exists []. split; [reflexivity|]. intros _ _. constructor.
  - apply post_no_run; [discriminate|]. intros l t J. cbn [unreturned reads] in J. eapply idle_s. exact J.
Qed.
Lemma block_body w f vs ps ls body xs s t1 o s1 p d e st V params :
  yields W w f vs xs -> exec W (IS body) (bind s ps ls xs) t1 o s1 -> spec (IS body) (bind s ps ls xs) t1 o s1 ->
  block_ok K p ps ls body = true -> ready_s K (with_ ps (less ls V)) body = true -> NoDup (labs_s body) ->
  (forall xs i, yields W w f vs xs -> dn (nth i params nil_class) (nth i xs vnil)) ->
  quiet (ro (track_s T p d body (at_ (sets e (parameters ps params)) st))) -> fits V e s -> hides e ->
  moved s (unbind s s1 (ps ++ ls)) /\
  (forall v, o = Normal v -> worth_s body = true -> dn (rt (track_s T p d body (at_ (sets e (parameters ps params)) st))) v) /\
  (forall o', (Q K = true -> forall v, o' <> Ret v) ->
    post (labs_s body) p s t1 o' (unbind s s1 (ps ++ ls)) (unreturned (ro (track_s T p d body (at_ (sets e (parameters ps params)) st))))) /\
  (Q K = true -> forall v, o <> Ret v).
Proof.
  intros Y E I B R ND YS Qt F HI.
  assert (C : simple_s K p false body = true) by (unfold block_ok in B; checks; assumption).
  destruct (I p false d (at_ (sets e (parameters ps params)) st) (with_ ps (less ls V)) C R ND Qt) as [A P].
  { cbn [at_ vars]. apply bind_fits; [exact F|]. intros i. apply YS. exact Y. }
  { cbn [at_ vars]. eapply sets_hides; eassumption. }
  assert (M : moved s (unbind s s1 (ps ++ ls))).
  { intros x Hx. unfold unbind. destruct (member x (ps ++ ls)) eqn:ME; [reflexivity|]. apply member_not in ME.
    destruct (exec_frame W _ _ _ _ _ E) as (FR&_). rewrite FR; [apply bind_other; exact ME|]. intros J.
    assert (X : TypeFlow_Spec.H K x = true); [|congruence]. eapply block_mods; [exact B|]. cbn [mods_b]. apply in_without. auto. }
  split; [exact M|split; [|split]].
  - intros v EV WO. destruct (A v EV) as (_&_&A3). auto.
  - intros o' NR. destruct P as [P1 P2 P3 _ _]. apply post_hidden; assumption.
  - intros q v EV. destruct (exec_frame W _ _ _ _ _ E) as (_&_&RT&_). specialize (RT v EV). cbn in RT. unfold block_ok in B. checks. rewrite q, RT in B. discriminate.
Qed.
Lemma s_run w f vs ps ls body xs s t1 o1 s1 t2 o s2 v : yields W w f vs xs ->
  exec W (IS body) (bind s ps ls xs) t1 o1 s1 -> spec (IS body) (bind s ps ls xs) t1 o1 s1 -> o1 = Normal v \/ o1 = Nxt ->
  spec (IK w f vs (BBlock ps ls body)) (unbind s s1 (ps ++ ls)) t2 o s2 ->
  spec (IK w f vs (BBlock ps ls body)) s (t1 ++ t2) (push v o) s2.
Proof.
  intros Y E I O I2 ps' ls' body' EB p d e st V params B R ND YS k Qt F HI. injection EB as <- <- <-.
  destruct (block_body w f vs ps ls body xs s t1 o1 s1 p d e st V params Y E I B R ND YS Qt F HI) as (M&TY&PO&_). fold k in TY, PO.
  destruct (I2 ps ls body eq_refl p d e st V params B R ND YS Qt) as [A2 B2]; [eapply (fits_moved W K HU); eassumption|exact HI|]. fold k in A2, B2.
  split.
  - intros u EV. destruct o; try discriminate EV. destruct (A2 _ eq_refl) as [us [-> F2]]. cbn in EV. injection EV as <-.
    exists (v :: us). split; [reflexivity|]. intros WO NX. constructor; [|auto].
    destruct O as [O|O]; [apply TY; auto|]. subst o1. destruct (exec_frame W _ _ _ _ _ E) as (_&_&_&_&NE&_).
    destruct (NE eq_refl) as [NE' _]. cbn in NE'. congruence.
  - eapply post_out; [eapply post_again; [apply (PO Cut); discriminate|exact B2]|].
    intros u EU. eapply push_same; [exact EU|exact Logic.I].
Qed.
Lemma s_run_stop w f vs ps ls body xs s t1 o s1 : yields W w f vs xs ->
  exec W (IS body) (bind s ps ls xs) t1 o s1 -> spec (IS body) (bind s ps ls xs) t1 o s1 -> abrupt o ->
  spec (IK w f vs (BBlock ps ls body)) s t1 o (unbind s s1 (ps ++ ls)).
Proof.
  intros Y E I AB ps' ls' body' EB p d e st V params B R ND YS k Qt F HI. injection EB as <- <- <-.
  destruct (block_body w f vs ps ls body xs s t1 o s1 p d e st V params Y E I B R ND YS Qt F HI) as (M&TY&PO&NR). split.
  - intros v ->. destruct AB.
  - apply PO. exact NR.
Qed.
End Main.
