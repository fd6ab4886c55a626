(** The induction on runs. *)
From Coq Require Import List Bool NArith.
From Verif Require Import Types_Model Types_Spec Types_Union TypeFlow_Model TypeFlow_Spec TypeFlow_Frame TypeFlow_Tracker TypeFlow_Cover TypeFlow_Views TypeFlow_Fits TypeFlow_Narrow TypeFlow_Calls.
From Coq Require Import String.
Import ListNotations.
Local Open Scope list_scope.

Ltac nd := repeat match goal with
  | N : NoDup (_ ++ _) |- _ => let A := fresh "ND" in let B := fresh "ND" in let C := fresh "AP" in apply nodup_apart in N as (A&B&C)
  end.
Ltac ap := let l := fresh "l" in intros l;
  repeat match goal with N : apart _ _ |- _ => specialize (N l) end; rewrite ?in_app_iff in *; tauto.
Ltac inl := let l := fresh "l" in intros l;
  cbn [plus reads obs rets observed returned tested passed read_as nothing unreturned labs labs_v labs_a labs_s labs_t labs_w labs_r labs_b];
  rewrite ?in_app_iff; cbn [In]; tauto.
Ltac qs := repeat match goal with
  | A : quiet _ _ (plus _ _) |- _ => let B := fresh "QT" in apply quiet_plus in A as [B A]
  end.

Section Sound.
Variables (W : world) (T : facts) (K : vision).
Hypothesis Hon : honest W T.
Hypothesis HU : forall x, H K x = true -> U K x = true.
Notation dn := (den (named W)).
Notation fits := (fits W K).
Notation hides := (hides K).
Notation moved := (moved K).
Notation post := (post W K).
Notation quiet := (quiet W K).
Notation spec := (spec W T K).
Notation ends := (ends W K).
Notation sound_at := (sound_at W K).
Notation arm_ends := (arm_ends W K).

Lemma post_p L p p' s tr o s' a : post L p' s tr o s' a -> (p = true -> p' = true) -> post L p s tr o s' a.
Proof. intros [A1 A2 A3 A4 A5] B. constructor; auto. Qed.
Lemma post_more L p s tr o s' a b : post L p s tr o s' a -> idle L b -> agree W tr (reads b) -> post L p s tr o s' (plus a b).
Proof.
  intros [A1 A2 A3 A4 A5] B C. constructor.
  - exact A1.
  - intros l t J. cbn [plus reads] in J. apply in_app_or in J as [J|J]; eauto.
  - intros l v t J J'. cbn [plus reads] in J'. apply in_app_or in J' as [J'|J']; [eapply A3|eapply C]; eassumption.
  - intros P x Hx. cbn [plus obs]. destruct (A4 P x Hx) as [G|[t [G F]]]; [left; exact G|]. right. exists t. rewrite in_app_iff. auto.
  - intros q v G. destruct (A5 q v G) as [t [F J]]. exists t. cbn [plus rets]. rewrite in_app_iff. auto.
Qed.
Lemma post_again L p s t1 o1 s1 t2 o2 s2 a : post L p s t1 o1 s1 a -> post L p s1 t2 o2 s2 a -> post L p s (t1 ++ t2) o2 s2 a.
Proof.
  intros [A1 A2 A3 A4 A5] [B1 B2 B3 B4 B5]. constructor.
  - intros l v J. apply in_app_or in J as [J|J]; eauto.
  - exact A2.
  - intros l v t J J'. apply in_app_or in J as [J|J]; [eapply A3|eapply B3]; eassumption.
  - intros P x Hx. destruct (B4 P x Hx) as [E|E]; [|right; exact E]. rewrite E. apply A4; assumption.
  - exact B5.
Qed.

(** what is recorded while looking at a part belongs to that part *)
Lemma idle_n p d n st : idle (labs n) (ro (track T p d n st)).
Proof. intros l t. apply (records_in T). Qed.
Lemma idle_s p d s st : idle (labs_s s) (ro (track_s T p d s st)).
Proof. intros l t. apply (records_in T). Qed.
Lemma idle_t p d e st : idle (labs_t e) (ro (track_t T p d e st)).
Proof. intros l t. apply (records_in T). Qed.
Lemma idle_w p d w st : idle (labs_w w) (snd (track_w T p d w st)).
Proof. intros l t. apply (records_in T). Qed.
Lemma idle_r p d r st : idle (labs_r r) (snd (track_r T p d r st)).
Proof. intros l t. apply (records_in T). Qed.
Lemma idle_plus L1 L2 a b : idle L1 a -> idle L2 b -> idle (L1 ++ L2) (plus a b).
Proof. intros A B l t J. cbn [plus reads] in J. rewrite in_app_iff in *. destruct J as [J|J]; eauto. Qed.
Lemma idle_else p d e k : idle (labs_t e) (ro (else_of T p d e k)).
Proof.
  unfold else_of. destruct e as [|s]; [intros ? ? []|]. destruct s; [intros ? ? []|]. apply idle_s.
Qed.
Lemma idle_again p d b : forall k last st, idle (labs_s b) (ro (again k (track_s T p d b) last st)).
Proof.
  induction k as [|k IH]; intros last st; cbn [again]; [intros ? ? []|]. cbn [also ro].
  intros l t. cbn [plus passed reads]. rewrite !in_app_iff. intros [[J|[]]|J]; [eapply idle_s|eapply IH]; exact J.
Qed.

(** where the tracker looked inside a branch, it did not learn of new untracked variables *)
Lemma dom_n p d n st x : simple K p true n = true -> U K x = true -> same_dom x (vars st) (vars (rs (track T p d n st))).
Proof. intros A B. destruct (track_dom T K x B) as (X&_). apply (X n p true d st A). left. reflexivity. Qed.
Lemma dom_s p d n st x : simple_s K p true n = true -> U K x = true -> same_dom x (vars st) (vars (rs (track_s T p d n st))).
Proof. intros A B. destruct (track_dom T K x B) as (_&_&_&_&X&_). apply (X n p true d st A). left. reflexivity. Qed.
Lemma dom_t p d n st x : simple_t K p true n = true -> U K x = true -> same_dom x (vars st) (vars (rs (track_t T p d n st))).
Proof. intros A B. destruct (track_dom T K x B) as (_&_&_&_&_&X&_). apply (X n p true d st A). left. reflexivity. Qed.
Lemma dom_w p d w st x : simple_w K p w = true -> U K x = true -> forall a, In a (fst (fst (track_w T p d w st))) -> same_dom x (vars st) (a_env a).
Proof. intros A B. destruct (track_dom T K x B) as (_&_&_&_&_&_&X&_). apply (X w p d st A). Qed.
Lemma dom_r p d r st x : simple_r K p r = true -> U K x = true -> forall a, In a (fst (fst (track_r T p d r st))) -> same_dom x (vars st) (a_env a).
Proof. intros A B. destruct (track_dom T K x B) as (_&_&_&_&_&_&_&X). apply (X r p d st A). Qed.
Lemma hides_entry p m d b st : simple_s K p m b = true -> hides (vars st) -> hides (entry (vars st) (obs (ro (track_s T p d b st)))).
Proof. intros A B x Hx. rewrite (entry_dom K x (HU x Hx) T p m d b st A). auto. Qed.
Lemma track_obs_n p m d n st x : simple K p m n = true -> U K x = true -> ~ In x (keys (obs (ro (track T p d n st)))).
Proof.
  intros A B J. apply in_keys in J as [t J]. destruct (obs_tracked T K x) as (O&_). rewrite (O _ _ _ _ _ _ A J) in B. discriminate.
Qed.
Lemma track_obs_s p m d n st x : simple_s K p m n = true -> U K x = true -> ~ In x (keys (obs (ro (track_s T p d n st)))).
Proof.
  intros A B J. apply in_keys in J as [t J]. destruct (obs_tracked T K x) as (_&_&_&_&O&_). rewrite (O _ _ _ _ _ _ A J) in B. discriminate.
Qed.
Lemma else_dom p d e k x : simple_t K p true e = true -> U K x = true -> same_dom x (vars (rs k)) (vars (rs (else_of T p d e k))).
Proof.
  intros A B. unfold else_of. destruct e as [|s]; [apply same_dom_refl|]. destruct s; [apply same_dom_refl|]. apply dom_s; assumption.
Qed.
Lemma gone_w p d : forall w st a, In a (fst (fst (track_w T p d w st))) -> a_gone a = false -> leaves_w w = false.
Proof.
  induction w as [|q s w IH]; intros st a; cbn [track_w]; [intros []|].
  pose proof (IH (at_ (vars st) (rs (track_s T p d s st))) a) as IH'. destruct (track_w T p d w _) as [[l st1] o]. cbn [fst leaves_w] in *.
  intros [<-|J] G.
  - cbn in G. rewrite G. reflexivity.
  - rewrite (IH' J G). apply andb_false_r.
Qed.
Lemma gone_r p d : forall r st a, In a (fst (fst (track_r T p d r st))) -> a_gone a = false -> leaves_r r = false.
Proof.
  induction r as [|q s w IH]; intros st a; cbn [track_r]; [intros []|].
  pose proof (IH (at_ (vars st) (rs (track_s T p d s st))) a) as IH'. destruct (track_r T p d w _) as [[l st1] o]. cbn [fst leaves_r] in *.
  intros [<-|J] G.
  - cbn in G. rewrite G. reflexivity.
  - rewrite (IH' J G). apply andb_false_r.
Qed.
Lemma sub_left V V' : sub (both V V') V.
Proof. intros x A. unfold both in A. apply andb_true_iff in A. apply A. Qed.
Lemma sub_right V V' : sub (both V V') V'.
Proof. intros x A. unfold both in A. apply andb_true_iff in A. apply A. Qed.
Lemma sub_trans V V' V'' : sub V V' -> sub V' V'' -> sub V V''.
Proof. intros A B x C. auto. Qed.

(** ** Assignments the tracker does not see *)
Lemma hidden_spec n s tr o s' : (match n with OrWrite _ _ | OpWrite _ _ _ => True | _ => False end) ->
  exec W (IN n) s tr o s' -> spec (IN n) s tr o s'.
Proof.
  intros A E p m d st V C R ND Qt F HI.
  assert (X : moved s s' /\ post (labs n) p s tr o s' nothing).
  { apply (dark_run W K (IN n)); [exact E|]. unfold dark_list. cbn [mods_c any_c].
    destruct n; destruct A; cbn [simple] in C; checks; unfold dark, dark_list in C; checks;
    cbn [mods any is_retry is_return forallb]; rewrite ?CK, ?CK0, ?CK1; cbn; rewrite C; reflexivity. }
  destruct X as [M P]. split.
  - intros v _. destruct n; destruct A; cbn; (split; [reflexivity|split; [|intros; exact Logic.I]]); eapply (fits_moved W K HU); eassumption.
  - destruct n; destruct A; exact P.
Qed.

(** ** Calls *)
Lemma call_parts p m d safe r f a b st V : simple K p m (Call safe r f a b) = true -> ready K V (Call safe r f a b) = true ->
  NoDup (labs (Call safe r f a b)) -> quiet (ro (track T p d (Call safe r f a b) st)) -> hides (vars st) ->
  (forall s t1 o s1, exec W (IV r) s t1 o s1 -> spec (IV r) s t1 o s1 -> fits V (vars st) s ->
     post (labs (Call safe r f a b)) p s t1 o s1 (ro (track T p d (Call safe r f a b) st))) /\
  (forall s t1 w s1 t2 o s2, exec W (IV r) s t1 (Normal w) s1 -> spec (IV r) s t1 (Normal w) s1 ->
     exec W (IA a) s1 t2 o s2 -> spec (IA a) s1 t2 o s2 -> fits V (vars st) s ->
     post (labs (Call safe r f a b)) p s (t1 ++ t2) o s2 (ro (track T p d (Call safe r f a b) st))) /\
  (forall s t1 w s1 t2 vs s2 t3 o s3, exec W (IV r) s t1 (Normal w) s1 -> spec (IV r) s t1 (Normal w) s1 ->
     exec W (IA a) s1 t2 (Normal (VArr vs)) s2 -> spec (IA a) s1 t2 (Normal (VArr vs)) s2 ->
     exec W (IK w f vs b) s2 t3 o s3 -> spec (IK w f vs b) s2 t3 o s3 -> fits V (vars st) s ->
     post (labs (Call safe r f a b)) p s (t1 ++ t2 ++ t3) o s3 (ro (track T p d (Call safe r f a b) st)) /\
     fits (good_after K V (Call safe r f a b)) (vars (rs (track T p d (Call safe r f a b) st))) s3 /\
     forall us v, o = Normal (VArr us) -> worth (Call safe r f a b) = true -> sends W w f vs us v ->
       dn (rt (track T p d (Call safe r f a b) st)) v).
Proof.
  intros C R ND Qt HI.
  destruct (call_out W T K Hon p m d safe r f a b st V C R ND Qt HI) as (RR&A&B&(I1&I2&I3)&PR&(IA1&PA)&(IB1&PB)&TY).
  pose proof (call_fits W T K HU p m d safe r f a b st V C R ND Qt HI) as FT.
  destruct (call_simple W T K p m d safe r f a b st V C R ND Qt) as (C1&_&DA&_&C2).
  set (c := track T p d (Call safe r f a b) st) in *. cbn [labs] in *. nd.
  assert (MV : forall s1 t2 o s2, exec W (IA a) s1 t2 o s2 -> moved s1 s2) by (intros; apply (dark_run W K (IA a) s1 t2 o s2 p); assumption).
  assert (MB : forall w vs s2 t3 o s3, exec W (IK w f vs b) s2 t3 o s3 -> moved s2 s3).
  { intros w vs s2 t3 o s3 E. eapply frame_moved; [exact E|]. cbn [mods_c]. destruct b as [|ps ls body]; [intros x []|].
    destruct (C2 ps ls body eq_refl) as (_&_&_&BO). intros x. eapply block_mods; exact BO. }
  split; [|split].
  - intros s t1 o s1 E I F. eapply post_mono; [apply (post_then W K _ (labs_a a ++ labs_b b) _ _ _ _ _ _ (plus A B) (PR _ _ _ _ E I F))| | | |]; auto.
    + apply idle_plus; assumption.
    + apply incl_refl.
  - intros s t1 w s1 t2 o s2 E I E2 I' F. destruct (FT s t1 w s1 E I F) as (F1&H1&F2).
    eapply post_mono; [apply (post_seq W K _ (labs_a a ++ labs_b b) _ _ _ _ _ _ _ _ _ (plus A B) (PR _ _ _ _ E I F))| | | |]; auto.
    + apply post_then; auto.
    + apply incl_refl.
  - intros s t1 w s1 t2 vs s2 t3 o s3 E I E2 I' E3 I'' F. destruct (FT s t1 w s1 E I F) as (F1&H1&F2).
    pose proof (MV _ _ _ _ E2) as M1. pose proof (MB _ _ _ _ _ _ E3) as M2.
    assert (F3 : b <> BNone -> fits V (vars st) s2) by (intros NB; eapply (fits_moved W K HU); [apply F2; exact NB|exact HI|exact M1]).
    assert (KN : known W T K r st V w) by (exists s, t1, s1; auto).
    assert (GV : given W T K a st V b vs) by (exists s1, t2, s2; auto).
    split; [|split].
    + eapply post_mono; [apply (post_seq W K _ (labs_a a ++ labs_b b) _ _ _ _ _ _ _ _ _ (plus A B) (PR _ _ _ _ E I F))| | | |]; auto.
      * eapply post_seq; [apply PA; eassumption|eapply PB; eassumption|ap].
      * apply incl_refl.
    + eapply (fits_moved W K HU); [exact F1|exact H1|]. eapply moved_trans; eassumption.
    + intros us v EO WO SE. subst o. eapply TY; try eassumption. exists s2, t3, s3. auto.
Qed.

End Sound.
