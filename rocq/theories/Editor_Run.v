(** The invariant of Editor_Proofs.v holds after every step, hence of every run that respects the protocol. *)
From Coq Require Import List Bool ZArith String Lia.
From Verif Require Import Editor_Model Editor_Spec Editor_Core Editor_Steps Editor_Proofs.
Import ListNotations.
Open Scope list_scope.

Section Run.
Variable W : world.

Lemma colof_nil : forall u c, ~ colof [] u c.
Proof. intros u c [t []]. Qed.
Lemma colof_refresh : forall s us u c, ~ colof (refresh s us) u c.
Proof. intros s us u c [t i]. unfold refresh in i. apply in_map_iff in i. destruct i as [w [E _]]. discriminate. Qed.

Lemma notes_arrive : forall es n, notes (es ++ [Arrive n]) = notes es ++ [n].
Proof. intros. rewrite notes_app. reflexivity. Qed.
Lemma notes_other : forall es e, notes [e] = [] -> notes (es ++ [e]) = notes es.
Proof. intros es e E. rewrite notes_app, E. apply app_nil_r. Qed.

(** A handler other than a waiting one takes a step that shows nothing new of any document. *)
Lemma inv_move : forall s s' b b' l1 n p p' l2 es,
  inv W (State s b (l1 ++ (n, p) :: l2)) es ->
  p <> Waiting -> p' <> Some Waiting ->
  (forall j, p' = Some (Analysing (Some j)) -> exists j', p = Analysing (Some j') /\ ju j = ju j') ->
  (forall q u, p' = Some q -> In u (named q) -> In u (named p)) ->
  (forall g, core W s (act (l1 ++ (n, p) :: l2) b) (colof b) (flagged (l1 ++ (n, p) :: l2))
               (fun u => watched u (notes es)) g ->
     (forall u, In u (named p) -> watched u (notes es)) ->
     (forall u, view s' g u = view s g u) /\
     core W s' (act (l1 ++ kept n p' ++ l2) b') (colof b') (flagged (l1 ++ kept n p' ++ l2))
            (fun u => watched u (notes es)) g) ->
  inv W (State s' b' (l1 ++ kept n p' ++ l2)) (es ++ [Tau]).
Proof.
  intros s s' b b' l1 n p p' l2 es [Ex [Ll [Nm [g [Hh [Hl C]]]]]] Nw Nw' Ej En St. cbn [srv busy hs] in *.
  destruct (lists_next l1 n p p' l2 (fun u => watched u (notes es)) Nw Nw' Ex Ll Nm Ej En) as [A1 [A2 [A3 A4]]].
  destruct (St g C) as [V C'].
  { intros u i. apply (Nm n p u); auto. apply in_mid. auto. }
  unfold inv. cbn [srv busy hs]. rewrite notes_other by reflexivity.
  split; [auto|split;[auto|split;[auto|]]]. exists g. split; [|split; auto].
  - intro u. rewrite A4, V. auto.
  - intro u. rewrite A4, V. auto.
Qed.

Lemma refresh_in : forall s us j, In (Process j) (refresh s us) ->
  In (ju j) us /\ jt j = text_of s (ju j) /\ jstage j = PCheck /\ jforced j = true.
Proof.
  intros s us j i. unfold refresh in i. apply in_map_iff in i. destruct i as [u [E i]]. injection E as <-. cbn. auto.
Qed.

Lemma core_refreshed : forall s A wd g us l1 n p l2 (P : uri -> Prop),
  core W s A (colof []) (flagged (l1 ++ (n, p) :: l2)) wd g ->
  (forall j, A j <-> act (l1 ++ l2) [] j) ->
  (forall u, In u us -> P u) -> (forall u, P u -> is_open s u) ->
  flag p = false \/ (forall u, is_open s u -> project_file s u -> In u us) ->
  core W s (act (l1 ++ l2) (refresh s us)) (colof (refresh s us)) (flagged (l1 ++ l2)) wd g.
Proof.
  intros s A wd g us l1 n p l2 P C EA H1 H2 H3.
  eapply core_more with (A := act (l1 ++ l2) (refresh s us)) (col := colof []) (fl := flagged (l1 ++ l2)) (wd := wd).
  2: reflexivity. 2: intros u c K; now apply colof_refresh in K. 2: auto. 2: auto.
  eapply core_refresh; eauto.
  - intros w c. apply colof_nil.
  - intros j a. apply EA in a. destruct a as [a|[]]. left; auto.
  - intros j [a|a].
    + left. apply EA. left; auto.
    + right. apply refresh_in in a. destruct a as [a [b [c e]]]. split; auto.
      specialize (H2 _ (H1 _ a)). unfold is_open in H2. unfold text_of in b. destruct (docs s (ju j)) as [d|]; [|easy]. eauto.
  - destruct H3 as [H3|H3].
    + left. intro F. apply flagged_mid in F. destruct F as [F|F]; [auto|congruence].
    + right. intros u d D K. exists (Job u (text_of s u) true PCheck 0). cbn. repeat split. right.
      unfold refresh. apply in_map_iff. exists u. split; auto. apply H3; [unfold is_open; congruence|auto].
Qed.

Theorem inv_step : forall x es e y, inv W x es -> step W x e y -> protocol (notes (es ++ [e])) -> inv W y (es ++ [e]).
Proof.
  intros x es e y V St Pr. destruct St.
  - (* arrive *)
    destruct V as [Ex [Ll [Nm [g [Hh [Hl C]]]]]]. unfold inv. cbn [srv busy hs] in *.
    rewrite notes_arrive in *.
    assert (Wd : forall u, watched u (notes es) -> watched u (notes es ++ [n])).
    { intros u [cs [c [i k]]]. exists cs, c. split; auto. apply in_or_app. auto. }
    split; [|split; [|split]].
    + apply excl_app. split; auto. split; [apply excl_one|]. intros a b' i [<-|[]] u o o'.
      destruct n; cbn in *; auto. discriminate.
    + intros m j i. apply in_app_or in i. destruct i as [i|[i|[]]]; [eauto|]. destruct n; discriminate.
    + intros m p u i k. apply in_app_or in i. destruct i as [i|[i|[]]]; [eauto|].
      destruct n; injection i as <- <-; cbn in k; try tauto.
      apply in_map_iff in k. destruct k as [[w c] [<- k]]. exists cs, c. split; auto. apply in_or_app. cbn; auto.
    + exists g. assert (Q : forall u v, fold_left (upd u) (waiting [(n, first_phase n)]) v = upd u v n).
      { intros u v. destruct n; reflexivity. }
      split; [|split].
      * intro u. rewrite waiting_app, fold_left_app, Hh, Q. unfold shown. rewrite fold_left_app. reflexivity.
      * intro u. rewrite waiting_app. apply legal_app. split; auto. rewrite Hh. specialize (Pr u).
        apply legal_app in Pr. destruct Pr as [_ Pr]. destruct n; cbn in *; auto.
      * eapply core_more; eauto.
        -- intro j. unfold act. setoid_rewrite in_app_iff. cbn. split; [|firstorder].
           intros [[m [i|[i|[]]]]|i]; [left; eauto| |auto]. destruct n; discriminate.
        -- unfold flagged. intros [m [p [i F]]]. exists m, p. split; auto. apply in_or_app. auto.
  - (* disk *)
    destruct V as [Ex [Ll [Nm [g [Hh [Hl C]]]]]]. unfold inv. cbn [srv busy hs] in *.
    rewrite notes_other by reflexivity.
    split; [auto|split;[auto|split;[auto|]]]. exists g. split; [|split]; auto. apply core_disk. auto.
  - (* start *)
    destruct V as [Ex [Ll [Nm [g [Hh [Hl C]]]]]]. unfold inv. cbn [srv busy hs] in *.
    rewrite notes_other by reflexivity.
    assert (Oth : forall u m, locks n = Some u -> In m (waiting l1) -> locks m <> Some u).
    { intros u m Lu i E. apply waiting_in in i. apply (H _ u i E Lu). }
    assert (Here : forall u, upd u (fold_left (upd u) (waiting l1) (view s g u)) n =
                             fold_left (upd u) (waiting l1) (upd u (view s g u) n)).
    { intro u. destruct (locks n) as [w|] eqn:Lw.
      - destruct (uri_dec w u) as [->|N].
        + rewrite !fold_other; auto.
        + rewrite !upd_other by congruence. reflexivity.
      - rewrite !upd_other by congruence. reflexivity. }
    assert (Le : forall u, legal_note u (view s g u) n).
    { intro u. specialize (Hl u). rewrite waiting_app, waiting_cons in Hl. apply legal_app in Hl. destruct Hl as [_ [Hl _]].
      destruct (locks n) as [w|] eqn:Lw.
      - destruct (uri_dec w u) as [->|N].
        + rewrite fold_other in Hl; auto.
        + apply legal_other. congruence.
      - apply legal_other. congruence. }
    assert (Kw : waiting (kept n (snd (start W s n))) = []).
    { destruct (snd (start W s n)) as [p|] eqn:E; [|reflexivity]. destruct (kept_phase _ _ _ _ E) as [j ->]. reflexivity. }
    split; [|split; [|split]].
    + destruct (snd (start W s n)) as [p|] eqn:E; cbn [kept app]; [eapply excl_start; eauto|eapply excl_out; eauto].
    + intros m j i. rewrite !in_app_iff in i. destruct i as [i|[i|i]].
      * apply (Ll m j). rewrite in_app_iff. auto.
      * destruct (snd (start W s n)) as [p|] eqn:E; [|easy]. destruct i as [i|[]]. injection i as -> ->.
        eapply kept_locks; eauto.
      * apply (Ll m j). rewrite in_app_iff. cbn; auto.
    + intros m p u i k. rewrite !in_app_iff in i. destruct i as [i|[i|i]].
      * apply (Nm m p u); auto. rewrite in_app_iff. auto.
      * destruct (snd (start W s n)) as [q|] eqn:E; [|easy]. destruct i as [i|[]]. injection i as -> ->.
        destruct (kept_phase _ _ _ _ E) as [j ->]. easy.
      * apply (Nm m p u); auto. rewrite in_app_iff. cbn; auto.
    + exists (mode n g). split; [|split].
      * intro u. rewrite view_start, !waiting_app, Kw, !fold_left_app. cbn [app]. specialize (Hh u).
        rewrite waiting_app, waiting_cons, !fold_left_app in Hh. cbn [app fold_left] in *. now rewrite Here in Hh.
      * intro u. rewrite view_start, !waiting_app, Kw. cbn [app]. specialize (Hl u).
        rewrite waiting_app, waiting_cons in Hl. apply legal_app in Hl. destruct Hl as [Hl1 [_ Hl2]]. cbn [app] in *.
        rewrite Here in Hl2. apply legal_app. split; auto.
        destruct (locks n) as [w|] eqn:Lw; [|rewrite upd_other by congruence; auto].
        destruct (uri_dec w u) as [->|N]; [apply legal_others; auto|rewrite upd_other by congruence; auto].
      * eapply core_more; [apply (core_start W s _ _ _ _ g n C)| | | |].
        -- intros w c. apply colof_nil.
        -- intros j u [[m i]|[]] Lu E. apply in_app_or in i. destruct i as [i|[i|i]].
           ++ apply (H _ u i); auto. red. cbn. rewrite (Ll m j) by (apply in_or_app; auto). now rewrite E.
           ++ discriminate.
           ++ apply excl_app in Ex. destruct Ex as [_ [Ex _]]. apply excl_cons in Ex.
              specialize (proj2 Ex _ i u Lu). unfold on; cbn.
              rewrite (Ll m j) by (apply in_or_app; cbn; auto). rewrite E. intro X. specialize (X eq_refl). discriminate.
        -- auto.
        -- intro j. unfold with_job. rewrite act_mid. destruct (snd (start W s n)) as [p|]; cbn [kept app].
           ++ rewrite act_mid. intuition congruence.
           ++ intuition discriminate.
        -- auto.
        -- rewrite flagged_mid. intros [F|F]; [|discriminate]. destruct (snd (start W s n)) as [p|]; cbn [kept app]; [rewrite flagged_mid|]; auto.
        -- auto.
  - (* work *)
    apply (inv_move s _ b b l1 n _ (Some (Analysing (snd (job_step W s j)))) l2 es V); try discriminate.
    + intros j' E. exists j. split; auto. eapply job_step_u. injection E as E. apply E.
    + intros q u E i. injection E as <-. easy.
    + intros g C Wd. cbn [kept app].
      assert (a : act (l1 ++ (n, Analysing (Some j)) :: l2) b j) by (apply act_mid; auto).
      split; [intro u; eapply view_job; eauto|].
      eapply core_more; [apply (core_job W _ _ _ _ _ _ _ (act (l1 ++ (n, Analysing (snd (job_step W s j))) :: l2) b) C a)| | | |]; auto.
      * repeat split.
        -- intros j'. rewrite !act_mid. intuition congruence.
        -- intros j'. rewrite !act_mid. intuition congruence.
        -- intros j' E. rewrite act_mid. right. congruence.
      * reflexivity.
      * rewrite !flagged_mid. cbn. auto.
  - (* fail *)
    apply (inv_move s _ b b l1 n _ (Some (Analysing None)) l2 es V); try discriminate.
    + intros q u E i. injection E as <-. easy.
    + intros g C Wd. cbn [kept app]. split; [auto|].
      assert (a : act (l1 ++ (n, Analysing (Some j)) :: l2) b j) by (apply act_mid; auto).
      eapply core_more; [apply (core_fail W _ _ _ _ _ _ j (act (l1 ++ (n, Analysing None) :: l2) b) C a H0)| | | |]; auto.
      * intros j'. rewrite !act_mid. intuition congruence.
      * intros j'. rewrite !act_mid. intuition congruence.
      * reflexivity.
      * rewrite !flagged_mid. cbn. auto.
  - (* main *)
    destruct V as [Ex [Ll [Nm [g [Hh [Hl C]]]]]]. unfold inv. cbn [srv busy hs] in *.
    rewrite notes_other by reflexivity.
    split; [auto|split;[auto|split;[auto|]]]. exists g.
    destruct k as [j|u t c]; cbn [task_step fst snd pushed].
    + assert (a : act l (Process j :: r) j) by (right; cbn; auto).
      assert (Vw := view_job W _ _ _ _ _ _ _ C a).
      split; [intro u; rewrite Vw; auto|]. split; [intro u; rewrite Vw; auto|].
      destruct (snd (job_step W s j)) as [j'|] eqn:E; cbn [option_map pushed].
      * eapply core_more; [apply (core_job W _ _ _ _ _ _ _ (act l (Process j' :: r)) C a)| | | |]; auto; try reflexivity.
        -- rewrite E. unfold next, act. cbn [In]. repeat split; intros; intuition congruence.
        -- intros u c [t [i|i]]; [discriminate|]. exists t. cbn; auto.
      * eapply core_more; [apply (core_job W _ _ _ _ _ _ _ (act l r) C a)| | | |]; auto; try reflexivity.
        -- rewrite E. unfold next, act. cbn [In]. repeat split; intros; intuition congruence.
        -- intros u c [t i]. exists t. cbn; auto.
    + destruct (c_col _ _ _ _ _ _ _ C u c) as [Fl [Wu Kp]]; [exists t; cbn; auto|].
      assert (Sp : forall s', elsewhere s s' u -> file_kind s' u = Some Project ->
                core W s' (act l r) (colof (Collect u t CSeed :: Collect u t CFacts :: r)) (flagged l) (fun u0 => watched u0 (notes es)) g).
      { intros s' El Kp'. eapply core_spoil with (col := colof (Collect u t c :: r)) (u := u) (s := s); auto.
        - eapply core_more; eauto. intro j. unfold act. cbn. intuition discriminate.
        - intros w c' [t' i]. destruct (uri_dec w u) as [->|N]; [right; auto|]. left. split; auto.
          exists t'. cbn in *. intuition congruence. }
      destruct c; cbn [task_step fst snd pushed].
      * split; [auto|]. split; [auto|]. eapply core_more; [apply (Sp (register s u Project t))| | | |]; auto.
        -- split; [reflexivity|]. intros w N. cbn. now rewrite set_ne by auto.
        -- unfold file_kind; cbn. now rewrite set_eq.
        -- intro j. unfold act. cbn. intuition discriminate.
        -- intros w c' [t' i]. exists t'. cbn in *. tauto.
      * split; [auto|]. split; [auto|]. eapply core_more; [apply (Sp (set_facts s u (Seed t)))| | | |]; auto.
        -- split; [reflexivity|]. intros w N. cbn. now rewrite set_ne by auto.
        -- apply Kp. discriminate.
        -- intro j. unfold act. cbn. intuition discriminate.
        -- intros w c' [t' i]. exists t'. cbn in *. tauto.
      * split; [auto|]. split; [auto|]. eapply core_more; [apply (Sp (set_facts s u (Full t)))| | | |]; auto.
        -- split; [reflexivity|]. intros w N. cbn. now rewrite set_ne by auto.
        -- apply Kp. discriminate.
        -- reflexivity.
        -- intros w c' [t' i]. exists t'. cbn in *. tauto.
  - (* main fails *)
    destruct V as [Ex [Ll [Nm [g [Hh [Hl C]]]]]]. unfold inv. cbn [srv busy hs] in *.
    rewrite notes_other by reflexivity.
    split; [auto|split;[auto|split;[auto|]]]. exists g. split; [auto|]. split; [auto|].
    assert (a : act l (Process j :: r) j) by (right; cbn; auto).
    eapply core_more; [apply (core_fail W _ _ _ _ _ _ j (act l r) C a H0)| | | |]; auto; try reflexivity.
    + intros j' [i|i]; [left; auto|right; cbn; auto].
    + intros j' [i|[i|i]]; [left; left; auto|right; congruence|left; right; auto].
    + intros u c [t i]. exists t. cbn; auto.
  - (* opened *)
    apply (inv_move s s [] _ l1 _ _ None l2 es V); try discriminate.
    intros g C Wd. cbn [kept app]. split; [auto|]. eapply core_refreshed with (P := others_after_open s u); eauto.
    + intro j. rewrite act_mid. intuition discriminate.
    + intro w. apply H.
    + intros w Q. apply Q.
  - (* changed *)
    apply (inv_move s s [] _ l1 _ _ None l2 es V); try discriminate.
    intros g C Wd. cbn [kept app]. split; [auto|]. eapply core_refreshed with (P := others_after_change s u); eauto.
    + intro j. rewrite act_mid. intuition discriminate.
    + intros w i. apply H. rewrite <- (firstn_skipn max_refresh us). apply in_or_app. auto.
    + intros w Q. apply Q.
  - (* unchanged *)
    apply (inv_move s s [] _ l1 _ _ None l2 es V); try discriminate.
    intros g C Wd. cbn [kept app]. split; [auto|]. eapply core_more; eauto.
    + intro j. rewrite act_mid. intuition discriminate.
    + rewrite flagged_mid. intuition discriminate.
  - (* saved *)
    apply (inv_move s s [] _ l1 _ _ None l2 es V); try discriminate.
    intros g C Wd. cbn [kept app]. split; [auto|]. eapply core_more; eauto.
    + intro j. rewrite act_mid. intuition discriminate.
    + rewrite flagged_mid. intuition discriminate.
  - (* skip *)
    apply (inv_move s s [] [] l1 _ _ (Some (Looping cs f)) l2 es V); try discriminate.
    + intros q w E i. injection E as <-. cbn in *. auto.
    + intros g C Wd. cbn [kept app]. split; [auto|]. eapply core_more; eauto.
      * intro j. rewrite !act_mid. intuition discriminate.
      * rewrite !flagged_mid. auto.
  - (* rbs *)
    apply (inv_move s _ [] [] l1 _ _ (Some (Looping cs (f || g))) l2 es V); try discriminate.
    + intros q w E i. injection E as <-. cbn in *. auto.
    + intros g' C Wd. cbn [kept app]. split; [auto|].
      eapply core_more; [eapply (core_spoil W s _ _ _ _ _ _ (colof []) (flagged (l1 ++ (n, Looping cs (f || g)) :: l2)) u C)| | | |].
      * split; [reflexivity|]. intros w N. cbn. now rewrite !set_ne by auto.
      * apply Wd. cbn; auto.
      * rewrite !flagged_mid. cbn. destruct f; auto. intuition discriminate.
      * intros d D. unfold is_open in H0. rewrite D in H0. exfalso. apply H0. discriminate.
      * intros w c' Q. now apply colof_nil in Q.
      * intro j. rewrite !act_mid. intuition discriminate.
      * auto.
      * auto.
      * auto.
  - (* gone *)
    apply (inv_move s _ [] [] l1 _ _ (Some (Looping cs (f || snd (clear_if is_project s u)))) l2 es V); try discriminate.
    + intros q w E i. injection E as <-. cbn in *. auto.
    + intros g C Wd. cbn [kept app]. split.
      * intro w. unfold view, clear_if. destruct (files s u) as [[k y]|]; [destruct (is_project k)|]; reflexivity.
      * eapply core_more; [apply (core_clear W s _ _ _ _ _ u (flagged (l1 ++ (n, Looping cs (f || snd (clear_if is_project s u))) :: l2)) C)| | | |]; auto.
        -- apply Wd. cbn; auto.
        -- intros w c'. apply colof_nil.
        -- rewrite !flagged_mid. cbn. destruct f; auto. intuition discriminate.
        -- intro E. rewrite flagged_mid. cbn. rewrite E, orb_true_r. auto.
        -- intro j. rewrite !act_mid. intuition discriminate.
  - (* read *)
    apply (inv_move s s [] [] l1 _ _ (Some (Reading u cs f)) l2 es V); try discriminate.
    + intros q w E i. injection E as <-. cbn in *. auto.
    + intros g C Wd. cbn [kept app]. split; [auto|]. eapply core_more; eauto.
      * intro j. rewrite !act_mid. intuition discriminate.
      * rewrite !flagged_mid. auto.
  - (* bytes *)
    apply (inv_move s s b b l1 _ _ (Some (HasRead u (disk s u) cs f)) l2 es V); try discriminate.
    + intros q w E i. injection E as <-. cbn in *. auto.
    + intros g C Wd. cbn [kept app]. split; [auto|]. eapply core_more; eauto.
      * intro j. rewrite !act_mid. intuition discriminate.
      * rewrite !flagged_mid. auto.
  - (* collect *)
    apply (inv_move s s [] [Collect u t CRegister] l1 _ _ (Some (Looping cs true)) l2 es V); try discriminate.
    + intros q w E i. injection E as <-. cbn in *. auto.
    + intros g C Wd. cbn [kept app]. split; [auto|].
      assert (F : flagged (l1 ++ (n, Looping cs true) :: l2)) by (apply flagged_mid; cbn; auto).
      assert (C' : core W s (act (l1 ++ (n, Looping cs true) :: l2) [Collect u t CRegister]) (colof []) (flagged (l1 ++ (n, Looping cs true) :: l2))
                     (fun u0 => watched u0 (notes es)) g).
      { eapply core_more; eauto.
        intro j. unfold act. setoid_rewrite in_mid. cbn. split.
        - intros [[m [i|i]]|[i|[]]]; try discriminate. left. exists m. auto.
        - intros [[m [i|i]]|[]]; try discriminate. left. exists m. auto. }
      destruct C' as [c1 c2 c3 c4 c5 c6 c7]. constructor; auto.
      intros w c [t' [i|[]]]. injection i as -> _ <-. split; auto. split; [apply Wd; cbn; auto|congruence].
  - (* missing *)
    apply (inv_move s _ [] [] l1 _ _ (Some (Looping cs (f || snd (clear_if is_project s u)))) l2 es V); try discriminate.
    + intros q w E i. injection E as <-. cbn in *. auto.
    + intros g C Wd. cbn [kept app]. split.
      * intro w. unfold view, clear_if. destruct (files s u) as [[k y]|]; [destruct (is_project k)|]; reflexivity.
      * eapply core_more; [apply (core_clear W s _ _ _ _ _ u (flagged (l1 ++ (n, Looping cs (f || snd (clear_if is_project s u))) :: l2)) C)| | | |]; auto.
        -- apply Wd. cbn; auto.
        -- intros w c'. apply colof_nil.
        -- rewrite !flagged_mid. cbn. destruct f; auto. intuition discriminate.
        -- intro E. rewrite flagged_mid. cbn. rewrite E, orb_true_r. auto.
        -- intro j. rewrite !act_mid. intuition discriminate.
  - (* watched *)
    apply (inv_move s s [] _ l1 _ _ None l2 es V); try discriminate.
    intros g C Wd. cbn [kept app]. split; [auto|]. eapply core_refreshed with (P := all_after_watch s); eauto.
    + intro j. rewrite act_mid. intuition discriminate.
    + intro w. apply H.
    + intros w Q. apply Q.
    + right. intros w O K. apply H. split; auto.
  - (* watched nothing *)
    apply (inv_move s s [] _ l1 _ _ None l2 es V); try discriminate.
    intros g C Wd. cbn [kept app]. split; [auto|]. eapply core_more; eauto.
    + intro j. rewrite act_mid. intuition discriminate.
    + rewrite flagged_mid. intuition discriminate.
Qed.
Lemma protocol_prefix : forall a b, protocol (a ++ b) -> protocol a.
Proof. intros a b P u. specialize (P u). apply legal_app in P. tauto. Qed.

Lemma inv_start : forall s, indexed s -> inv W (State s [] []) [].
Proof.
  intros s [Dn [Fa _]]. unfold inv. cbn [srv busy hs]. split; [constructor|]. split; [easy|]. split; [easy|].
  exists (fun _ => false). split; [|split].
  - intro u. unfold view. now rewrite Dn.
  - intro u. exact Logic.I.
  - constructor; try (intros; congruence).
    + intros j [[n []]|[]].
    + intros u c [t []].
    + intros u t _ _ Fi _ _. auto.
Qed.

Theorem inv_run : forall s es x, indexed s -> run W (State s [] []) es x -> protocol (notes es) -> inv W x es.
Proof.
  intros s es x Ix R. remember (State s [] []) as x0 eqn:E0. induction R; intro Pr; subst.
  - now apply inv_start.
  - eapply inv_step; eauto. apply IHR; auto. rewrite notes_app in Pr. eapply protocol_prefix; eauto.
Qed.

(** *** A file of the workspace stays one *)
Definition ours (s : server) (u : uri) : Prop := is_dependency (source_kind s u) = false.
Lemma ours_register : forall s w k t u, ours s u -> (w = u -> is_dependency k = false) -> ours (register s w k t) u.
Proof.
  intros s w k t u O K. unfold ours, source_kind, file_kind, register, set_files in *. cbn. unfold set.
  destruct (String.eqb_spec u w) as [->|N]; cbn; auto.
Qed.
Lemma ours_same : forall s s' u, files s' = files s -> ours s u -> ours s' u.
Proof. intros s s' u E. unfold ours, source_kind, file_kind. now rewrite E. Qed.
Lemma ours_clear : forall p s w u, ours s u -> ours (fst (clear_if p s w)) u.
Proof.
  intros p s w u O. unfold clear_if. destruct (files s w) as [[k y]|] eqn:F; auto. destruct (p k); auto. cbn [fst].
  apply (ours_same (register s w k "")); [reflexivity|]. apply ours_register; auto. intros ->.
  unfold ours, source_kind, file_kind in O. now rewrite F in O.
Qed.
Lemma ours_job : forall s j u, ours s u -> ours (fst (job_step W s j)) u.
Proof.
  intros s [w t fo p v] u O. destruct p; cbn; auto.
  - apply (ours_same (register s w (source_kind s w) t)); [reflexivity|]. apply ours_register; auto. now intros ->.
  - apply ours_register; auto. now intros ->.
  - destruct (docs s w); auto.
Qed.
Lemma ours_start : forall s n u, ours s u -> ours (fst (start W s n)) u.
Proof.
  intros s n u O.
  assert (K : forall w t, ours (register s w match file_kind s w with Some k => k | None => new_kind W w end t) u).
  { intros w t. apply ours_register; auto. intros ->. unfold ours, source_kind in O. destruct (file_kind s u); auto.
    unfold new_kind. destruct (inside W u && included W u); reflexivity. }
  destruct n as [w v t|w v ts|w|w|cs]; cbn [start]; auto.
  - unfold start_open. specialize (K w t). set (k := match file_kind s w with Some k => k | None => new_kind W w end) in *.
    destruct (match file_kind s w with Some k0 => is_dependency k0 | None => false end || matches s w t); [|exact K].
    cbn [fst]. destruct (is_project k), (matches s w t); try exact K;
      (match goal with |- context [docs ?x ?y] => destruct (docs x y) end; exact K).
  - unfold start_change. destruct (rev ts) as [|t r]; [auto|exact (K w t)].
  - unfold start_save. destruct (ends_rb w); [destruct (docs s w)|]; auto.
  - unfold start_close. cbn [fst]. apply ours_clear. exact O.
Qed.
Theorem ours_run : forall x es y u, run W x es y -> signature W u = false -> ours (srv x) u -> ours (srv y) u.
Proof.
  intros x es y u R Sg O. induction R; auto. specialize (IHR O). destruct H; cbn [srv] in *; auto.
  - now apply ours_start.
  - now apply ours_job.
  - destruct k as [j|w t c]; cbn [task_step fst]; [now apply ours_job|]. destruct c; auto. cbn. now apply ours_register.
  - apply (ours_same (register s u0 Signature t)); [reflexivity|]. apply ours_register; auto. congruence.
  - now apply ours_clear.
  - now apply ours_clear.
Qed.

(** *** At rest *)
Theorem rest_docs : forall s es x, indexed s -> run W (State s [] []) es x -> protocol (notes es) -> at_rest x ->
  exists g, (forall u, view (srv x) g u = shown (notes es) u) /\
    core W (srv x) (fun _ => False) (fun _ _ => False) False (fun u => watched u (notes es)) g.
Proof.
  intros s es x Ix R Pr [Rb Rh]. destruct (inv_run s es x Ix R Pr) as [_ [_ [_ [g [Hh [_ C]]]]]].
  destruct x as [s' b l]. cbn [busy hs srv] in *. subst b l. exists g. split.
  - intro u. rewrite <- Hh. reflexivity.
  - eapply core_more; eauto.
    + intro j. unfold act. cbn. split; [tauto|]. intros [[n []]|[]].
    + easy.
    + intros [n [p [[] _]]].
Qed.

End Run.
