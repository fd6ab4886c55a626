(** What a run and the tracker have to agree on, and how agreements combine. *)
From Coq Require Import List Bool NArith.
From Verif Require Import Types_Model Types_Spec Types_Union TypeFlow_Model TypeFlow_Spec TypeFlow_Frame TypeFlow_Tracker TypeFlow_Cover TypeFlow_Views.
From Coq Require Import String.
Import ListNotations.
Local Open Scope list_scope.

Definition apart {A} (a b : list A) : Prop := forall l, In l a -> ~ In l b.
Lemma nodup_apart {A} (a b : list A) : NoDup (a ++ b) -> NoDup a /\ NoDup b /\ apart a b.
Proof.
  induction a as [|x a IH]; cbn; intros B.
  - repeat split; [constructor|exact B|intros l []].
  - inversion B as [|? ? C E]; subst. destruct (IH E) as (F&G&J). rewrite in_app_iff in C. repeat split; auto.
    + constructor; tauto.
    + intros l [<-|L]; [tauto|]. apply J. exact L.
Qed.

Section Fits.
Variables (W : world) (T : facts) (K : vision).
Hypothesis Hon : honest W T.
Hypothesis HU : forall x, H K x = true -> U K x = true.
Let dn := den (named W).

Lemma nil_ok : den (named W) nil_class vnil.
Proof. cbn. apply (h_nil W T Hon); reflexivity. Qed.

(** the value of a variable is what the environment says *)
Definition fits1 (x : N) (o : option ty) (v : val) : Prop :=
  match o with Some t => dn t v | None => U K x = true \/ v = vnil end.
Definition fits (V : N -> bool) (e : env) (s : store) : Prop := forall x, V x = true -> fits1 x (e x) (s x).
Definition hides (e : env) : Prop := forall x, H K x = true -> e x = None.
Definition moved (s s' : store) : Prop := forall x, H K x = false -> s' x = s x.

Lemma fits_sub V V' e s : sub V V' -> fits V' e s -> fits V e s.
Proof. intros A B x C. apply B, A, C. Qed.
Lemma moved_refl s : moved s s.
Proof. intros x _. reflexivity. Qed.
Lemma moved_trans s s1 s2 : moved s s1 -> moved s1 s2 -> moved s s2.
Proof. intros A B x C. rewrite (B x C). apply A, C. Qed.
Lemma fits_moved V e s s' : fits V e s -> hides e -> moved s s' -> fits V e s'.
Proof.
  intros A B C x V'. destruct (H K x) eqn:E; [|rewrite (C x E); auto].
  unfold fits1. rewrite (B x E). left. auto.
Qed.
Lemma fits1_cov x (e e' : env) v : cov (named W) (e x) (e' x) -> (U K x = true -> same_dom x e e') ->
  fits1 x (e x) v -> fits1 x (e' x) v.
Proof.
  unfold fits1, same_dom. intros C S A. specialize (C v). destruct (e x) as [t|]; cbn in C.
  - specialize (C A). destruct (e' x); cbn in C; auto.
  - destruct A as [A|A].
    + destruct (S A) as [S1 _]. rewrite S1 by reflexivity. auto.
    + specialize (C A). destruct (e' x); cbn in C; auto.
Qed.

(** ** What holds of every run *)
Definition agree (tr : list (N * val)) (rd : list (N * ty)) : Prop :=
  forall l v t, In (l, v) tr -> In (l, t) rd -> dn t v.
Record post (L : list N) (p : bool) (s : store) (tr : list (N * val)) (o : outcome) (s' : store) (a : out) : Prop := {
  p_tr : forall l v, In (l, v) tr -> In l L;
  p_rd : forall l t, In (l, t) (reads a) -> In l L;
  p_agree : agree tr (reads a);
  p_kept : p = true -> forall x, H K x = false -> s' x = s x \/ exists t, In (x, t) (obs a) /\ dn t (s' x);
  p_ret : Q K = true -> forall v, o = Ret v -> exists t, In t (rets a) /\ dn t v }.

Lemma post_seq L1 L2 p s t1 o1 s1 a t2 o2 s2 b :
  post L1 p s t1 o1 s1 a -> post L2 p s1 t2 o2 s2 b -> apart L1 L2 -> post (L1 ++ L2) p s (t1 ++ t2) o2 s2 (plus a b).
Proof.
  intros [A1 A2 A3 A4 A5] [B1 B2 B3 B4 B5] X. constructor.
  - intros l v. rewrite !in_app_iff. intros [C|C]; eauto.
  - intros l t. cbn [plus reads]. rewrite !in_app_iff. intros [C|C]; eauto.
  - intros l v t C E. cbn [plus reads] in E. apply in_app_or in C, E. destruct C as [C|C], E as [E|E].
    + eapply A3; eassumption.
    + exfalso. eapply X; eauto.
    + exfalso. eapply X; eauto.
    + eapply B3; eassumption.
  - intros P x Hx. cbn [plus obs]. destruct (B4 P x Hx) as [E|[t [E F]]].
    + destruct (A4 P x Hx) as [G|[t [G F]]]; [left; congruence|]. right. exists t. rewrite in_app_iff, E. auto.
    + right. exists t. rewrite in_app_iff. auto.
  - intros q v E. destruct (B5 q v E) as [t [F G]]. exists t. cbn [plus rets]. rewrite in_app_iff. auto.
Qed.
Lemma post_mono L L' p s tr o s' a b : post L p s tr o s' a -> incl L L' ->
  (forall x, In x (reads b) -> In x (reads a)) -> (p = true -> forall x, In x (obs a) -> In x (obs b)) ->
  (forall x, In x (rets a) -> In x (rets b)) -> post L' p s tr o s' b.
Proof.
  intros [A1 A2 A3 A4 A5] X R O E. constructor.
  - intros l v J. eapply X, A1; eassumption.
  - intros l t J. eapply X, A2, R; eassumption.
  - intros l v t J J'. eapply A3; [exact J|]. apply R, J'.
  - intros P x Hx. destruct (A4 P x Hx) as [G|[t [G F]]]; [left; exact G|]. right. exists t. auto.
  - intros q v G. destruct (A5 q v G) as [t [F J]]. exists t. auto.
Qed.
Definition idle (L : list N) (b : out) : Prop := forall l t, In (l, t) (reads b) -> In l L.
Lemma post_then L1 L2 p s tr o s' a b : post L1 p s tr o s' a -> idle L2 b -> apart L1 L2 -> post (L1 ++ L2) p s tr o s' (plus a b).
Proof.
  intros [A1 A2 A3 A4 A5] B X. constructor.
  - intros l v J. apply in_or_app. left. eauto.
  - intros l t J. cbn [plus reads] in J. rewrite in_app_iff in *. destruct J as [J|J]; eauto.
  - intros l v t J J'. cbn [plus reads] in J'. apply in_app_or in J' as [J'|J']; [eapply A3; eassumption|].
    exfalso. eapply X; eauto.
  - intros P x Hx. cbn [plus obs]. destruct (A4 P x Hx) as [G|[t [G F]]]; [left; exact G|]. right. exists t. rewrite in_app_iff. auto.
  - intros q v G. destruct (A5 q v G) as [t [F J]]. exists t. cbn [plus rets]. rewrite in_app_iff. auto.
Qed.
Lemma post_after L1 L2 p s tr o s' a b : post L2 p s tr o s' b -> idle L1 a -> apart L1 L2 -> post (L1 ++ L2) p s tr o s' (plus a b).
Proof.
  intros A B X. eapply post_mono; [apply (post_then L2 L1 p s tr o s' b a A B)| | | |].
  - intros l J J'. eapply X; eassumption.
  - intros l. rewrite !in_app_iff. tauto.
  - intros x. cbn [plus reads]. rewrite !in_app_iff. tauto.
  - intros _ x. cbn [plus obs]. rewrite !in_app_iff. tauto.
  - intros x. cbn [plus rets]. rewrite !in_app_iff. tauto.
Qed.
Lemma post_two L p s tr o s' a b : post L p s tr o s' a -> post L p s tr o s' b -> post L p s tr o s' (plus a b).
Proof.
  intros [A1 A2 A3 A4 A5] [B1 B2 B3 B4 B5]. constructor.
  - exact A1.
  - intros l t J. cbn [plus reads] in J. apply in_app_or in J as [J|J]; eauto.
  - intros l v t J J'. cbn [plus reads] in J'. apply in_app_or in J' as [J'|J']; [eapply A3|eapply B3]; eassumption.
  - intros P x Hx. cbn [plus obs]. destruct (A4 P x Hx) as [G|[t [G F]]]; [left; exact G|]. right. exists t. rewrite in_app_iff. auto.
  - intros q v G. destruct (A5 q v G) as [t [F J]]. exists t. cbn [plus rets]. rewrite in_app_iff. auto.
Qed.
Lemma post_as L p s tr o o' s' a : post L p s tr o s' a -> (Q K = true -> forall v, o' <> Ret v) -> post L p s tr o' s' a.
Proof. intros [A1 A2 A3 A4 A5] B. constructor; auto. intros q v E. destruct (B q v E). Qed.
Lemma post_start L p s0 s tr o s' a : moved s0 s -> post L p s tr o s' a -> post L p s0 tr o s' a.
Proof.
  intros M [A1 A2 A3 A4 A5]. constructor; auto. intros P x Hx. rewrite <- (M x Hx). auto.
Qed.
Lemma post_end L p s tr o s' s'' a : moved s' s'' -> post L p s tr o s' a -> post L p s tr o s'' a.
Proof.
  intros M [A1 A2 A3 A4 A5]. constructor; auto. intros P x Hx. rewrite (M x Hx). auto.
Qed.
Lemma post_hidden L p s tr o s' a : (forall l v, In (l, v) tr -> In l L) -> idle L a -> agree tr (reads a) -> moved s s' ->
  (Q K = true -> forall v, o <> Ret v) -> post L p s tr o s' a.
Proof.
  intros A B C M R. constructor; auto. intros q v E. destruct (R q v E).
Qed.
Lemma post_none L p s o : (forall v, o <> Ret v) -> post L p s [] o s nothing.
Proof. intros A. apply post_hidden; [intros ? ? []|intros ? ? []|intros ? ? ? []|apply moved_refl|auto]. Qed.
Lemma post_no_run L p s o a : (forall v, o <> Ret v) -> idle L a -> post L p s [] o s a.
Proof. intros A B. apply post_hidden; [intros ? ? []|exact B|intros ? ? ? []|apply moved_refl|auto]. Qed.

(** ** Code the tracker does not look at *)
Lemma frame_moved c s tr o s' : exec W c s tr o s' -> (forall x, In x (mods_c c) -> H K x = true) -> moved s s'.
Proof.
  intros E A x Hx. destruct (exec_frame W c s tr o s' E) as (F&_). apply F. intros J. apply A in J. congruence.
Qed.
Lemma dark_run c s tr o s' p : exec W c s tr o s' ->
  dark_list K (mods_c c) (any_c is_retry true c) (any_c is_return true c) = true ->
  moved s s' /\ post (labs_c c) p s tr o s' nothing.
Proof.
  intros E A. unfold dark_list in A. apply andb_true_iff in A as [A R]. apply andb_true_iff in A as [A _].
  rewrite forallb_forall in A.
  pose proof (frame_moved c s tr o s' E A) as M. destruct (exec_frame W c s tr o s' E) as (_&F&G&_).
  split; [exact M|]. apply post_hidden; [exact F|intros ? ? []|intros ? ? ? _ []|exact M|].
  intros q v B. rewrite (G v B), q in R. discriminate.
Qed.
Lemma dark_a_cons n a : dark_a K (ACons n a) = true -> dark K n = true /\ dark_a K a = true.
Proof.
  unfold dark_a, dark, dark_list. cbn [mods_a any_a]. rewrite forallb_app.
  destruct (forallb _ (mods n)), (forallb _ (mods_a a)), (any is_retry true n), (any_a is_retry true a), (any is_return true n), (any_a is_return true a), (Q K);
    cbn; intros A; try discriminate; split; reflexivity.
Qed.
Lemma dark_a_capp a b : dark_a K (capp a b) = true -> dark_a K a = true.
Proof.
  unfold dark_a, dark_list. rewrite mods_capp, !any_capp, forallb_app.
  destruct (forallb _ (mods_a a)), (forallb _ (mods_a b)), (any_a is_retry true a), (any_a is_retry true b), (any_a is_return true a), (any_a is_return true b), (Q K);
    cbn; intros A; try discriminate; reflexivity.
Qed.

(** ** The conditions on what the tracker saw *)
Definition quiet (a : out) : Prop := settled K a /\ forall t, In t (tests a) -> tells W t.
Lemma quiet_plus a b : quiet (plus a b) <-> quiet a /\ quiet b.
Proof.
  unfold quiet, settled. cbn [plus passes tests]. split.
  - intros [A B]. split; (split; [intros c e x J; apply A; rewrite in_app_iff; auto|intros t J; apply B; rewrite in_app_iff; auto]).
  - intros [[A B] [C E]]. split.
    + intros c e x J. apply in_app_or in J as [J|J]; eauto.
    + intros t J. apply in_app_or in J as [J|J]; eauto.
Qed.
Lemma quiet_unreturned a : quiet (unreturned a) <-> quiet a.
Proof. reflexivity. Qed.
Lemma quiet_nothing : quiet nothing.
Proof. split; [intros ? ? ? []|intros ? []]. Qed.

(** ** Joins *)
Lemma hides_dom e e' : (forall x, H K x = true -> same_dom x e e') -> hides e -> hides e'.
Proof. intros A B x Hx. apply (A x Hx). auto. Qed.
Lemma fits_merge_l V a b s : fits V a s -> (forall x, U K x = true -> same_dom x a b) -> fits V (merge a b) s.
Proof.
  intros A B x Vx. eapply (fits1_cov x a (merge a b)); [apply merge_cov_l, nil_ok| |apply A; exact Vx].
  intros u. apply merge_dom; [apply same_dom_refl|apply B; exact u].
Qed.
Lemma fits_merge_r V a b s : fits V b s -> (forall x, U K x = true -> same_dom x a b) -> fits V (merge a b) s.
Proof.
  intros A B x Vx. eapply (fits1_cov x b (merge a b)); [apply merge_cov_r, nil_ok| |apply A; exact Vx].
  intros u. specialize (B x u). apply merge_dom; [|apply same_dom_refl]. unfold same_dom in *. tauto.
Qed.
Lemma fold_merge_any x l : forall a b, In b l -> cov (named W) (a_env b x) (fold_left (fun e b => merge e (a_env b)) l a x).
Proof.
  induction l as [|c l IH]; intros a b J; [destruct J|]. destruct J as [J|J]; cbn [fold_left].
  - subst c. eapply cov_trans; [apply (merge_cov_r (named W) x nil_ok a)|]. apply fold_merge_first, nil_ok.
  - apply IH. exact J.
Qed.
Lemma fits_join V e l a s : In a l -> a_gone a = false -> fits V (a_env a) s ->
  (forall x, U K x = true -> forall b, In b l -> same_dom x e (a_env b)) -> fits V (join_envs e l) s.
Proof.
  intros A G F B x Vx. apply (fits1_cov x (a_env a)); [| |apply F; exact Vx].
  - unfold join_envs. assert (J : In a (staying l)) by (apply staying_in; auto).
    destruct (staying l) as [|b k]; [destruct J|]. destruct J as [<-|J]; [apply fold_merge_first, nil_ok|apply fold_merge_any; exact J].
  - intros u. assert (S1 : same_dom x e (a_env a)) by (apply B; auto).
    assert (S2 : same_dom x e (join_envs e l)) by (apply join_dom; intros b J; apply B; auto).
    unfold same_dom in *. tauto.
Qed.
Lemma join_type a l v : In a l -> a_gone a = false -> dn (a_type a) v -> dn (join_types l) v.
Proof.
  intros A G B. unfold join_types. assert (J : In a (staying l)) by (apply staying_in; auto).
  destruct (staying l) as [|b k] eqn:E; [destruct J|]. apply union_complete. exists (a_type a). split; [|exact B].
  apply in_map. exact J.
Qed.

(** what a rescue clause starts from *)
Lemma fits_entry V e ob s s' : fits V e s -> hides e -> (forall x, U K x = true -> ~ In x (keys ob)) ->
  (forall x, covered (named W) x e ob) ->
  (forall x, H K x = false -> s' x = s x \/ exists t, In (x, t) ob /\ dn t (s' x)) ->
  fits V (entry e ob) s'.
Proof.
  intros F HI O C M x Vx.
  assert (NO : ~ In x (keys ob) -> entry e ob x = e x).
  { intros J. unfold entry. rewrite (proj2 (entry_type_keys ob x) J). reflexivity. }
  destruct (H K x) eqn:Hx.
  { rewrite NO by auto. unfold fits1. rewrite (HI x Hx). left. auto. }
  destruct (M x Hx) as [E|[t [J D]]].
  - rewrite E. specialize (F x Vx). destruct (in_dec N.eq_dec x (keys ob)) as [I|I]; [|rewrite NO; auto].
    destruct (U K x) eqn:Ux; [destruct (O x Ux I)|].
    apply (fits1_cov x e (entry e ob)); [apply entry_cov, C|congruence|exact F].
  - destruct (entry_type_in (named W) x ob t (s' x) J D) as [u [E F']]. unfold entry, fits1. rewrite E. exact F'.
Qed.
End Fits.
