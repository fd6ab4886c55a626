(** C84 and C85: watched-file changes and diagnostics go through their queues. *)
From Coq Require Import List Bool NArith String Lia.
From Verif Require Import Queues_Model Queues_Spec Queues_Proofs.
Import ListNotations.
Open Scope string_scope.
Open Scope list_scope.

(** ** C84 *)

(** In every run, in whatever order the sleeps end: every batch handed on holds, for every file, exactly the change told
    last and not yet handed on; a file occurs once in it; and it is handed on by the handler of the newest
    notification. *)
Theorem C84_batches : forall tr x a i ds b, wrun tr x -> tr = a ++ Handed i ds :: b ->
  (forall u k, In (u, k) ds <-> owed a u = Some k) /\ NoDup (map fst ds) /\ newest a = Some i /\ ds <> [].
Proof. intros tr x a i ds b R E. apply wok_run in R. destruct R as [_ [_ [_ [_ R]]]]. apply (R a i ds b E). Qed.

(** When no handler sleeps any more, nothing is owed. *)
Theorem C84_nothing_lost : forall tr x u, wrun tr x -> asleep x = [] -> owed tr u = None.
Proof.
  intros tr x u R E. apply wok_run in R. destruct R as [_ [h2 [_ [h4 _]]]]. destruct (owed tr u) as [k|] eqn:O; auto.
  apply h2 in O. destruct h4 as [i h4]; [intro X; rewrite X in O; destruct O|]. rewrite E in h4. destruct h4.
Qed.

Definition two_wakes : list wobs :=
  [Notified 0 [("a", Created); ("b", Changed); ("a", Changed)]; Notified 1 [("b", Deleted)];
   Handed 1 [("a", Changed); ("b", Deleted)]].
Example two_wakes_run : exists x, wrun two_wakes x /\ asleep x = [].
Proof.
  pose proof (wr_step _ _ _ _ wr_start (w_notify _ _ _ [("a", Created); ("b", Changed); ("a", Changed)])) as R1.
  pose proof (wr_step _ _ _ _ R1 (w_notify _ _ _ [("b", Deleted)])) as R2.
  pose proof (wr_step _ _ _ _ R2 (w_wake _ _ [(0, 1%N)] 1 2%N [])) as R3.
  pose proof (wr_step _ _ _ _ R3 (w_wake _ _ [] 0 1%N [])) as R4.
  eexists. split; [exact R4|reflexivity].
Qed.

(** A steady stream of notifications postpones a change for ever: for every [n] there is a run in which the file is told
    first, [n] notifications follow, all handlers but the newest have woken, and nothing has been handed on. *)
Theorem C84_postponed_refuted : forall n, exists tr x,
  wrun (Notified 0 [("a", Changed)] :: tr) x /\ List.length tr = n /\ (forall i ds, ~ In (Handed i ds) tr) /\
  List.length (asleep x) = 1 /\ owed (Notified 0 [("a", Changed)] :: tr) "a" = Some Changed.
Proof.
  intro n.
  assert (P : exists tr x, wrun (Notified 0 [("a", Changed)] :: tr) x /\ List.length tr = n /\
            (forall o, In o tr -> exists i, o = Notified i []) /\ exists i, asleep x = [(i, generation (held x))]).
  { induction n as [|n [tr [x [R [L [H [i E]]]]]]].
    - exists [], (WState (queue (Batch 0 []) [("a", Changed)]) 1 [(0, 1%N)]). split; [|cbn; split; [auto|split; [tauto|eauto]]].
      exact (wr_step _ _ _ _ wr_start (w_notify _ _ _ [("a", Changed)])).
    - destruct x as [b c l]. cbn in E. subst l.
      exists (tr ++ [Notified c []]), (WState (queue b []) (S c) [(c, generation (queue b []))]). split; [|split; [|split]].
      + assert (R2 : wrun (Notified 0 [("a", Changed)] :: (tr ++ [Notified c []]))
                       (WState (queue b []) (S c) ([(i, generation b)] ++ [(c, generation (queue b []))]))).
        { rewrite app_comm_cons. eapply wr_step; [exact R|]. constructor. }
        assert (T : take (queue b []) (generation b) = (queue b [], None)).
        { unfold take. cbn. assert (E : (generation b =? generation b + 1)%N = false) by (apply N.eqb_neq; lia). now rewrite E. }
        pose proof (wr_step _ _ _ _ R2 (w_wake (queue b []) (S c) [] i (generation b) [(c, generation (queue b []))])) as R3.
        rewrite T in R3. cbn [fst snd app] in R3. rewrite app_nil_r in R3. exact R3.
      + rewrite app_length. cbn. lia.
      + intros o i0. apply in_app_or in i0. destruct i0 as [i0|[<-|[]]]; eauto.
      + cbn. eauto. }
  destruct P as [tr [x [R [L [H [i E]]]]]]. exists tr, x. split; [auto|]. split; [auto|]. split; [|split].
  - intros j ds K. apply H in K. destruct K as [m K]. discriminate.
  - now rewrite E.
  - assert (Q : forall tr v, (forall o, In o tr -> exists i, o = Notified i []) -> fold_left
        (fun v o => match o with
                    | Notified _ cs => match told cs "a" with Some k => Some k | None => v end
                    | Handed _ cs => match told cs "a" with Some _ => None | None => v end
                    | Cancelled => None end) tr v = v).
    { intro t. induction t as [|o t IH]; intros v K; cbn; auto. destruct (K o) as [m ->]; [cbn; auto|]. cbn. apply IH.
      intros o' i'. apply K. cbn; auto. }
    unfold owed. cbn. apply Q. auto.
Qed.

(** ** C85 *)
Section Diag.
Context {D : Type}.

Lemma part_front : forall (r a b : list D), part_of (a ++ r) b -> part_of a b.
Proof.
  induction r as [|d r IH] using rev_ind; intros a b P; [now rewrite app_nil_r in P|].
  rewrite app_assoc in P. apply part_less in P. auto.
Qed.

(** In every run there is at most one sender, there is one whenever something waits, and the editor receives, of every
    document, part of what was published, in the order it was published. *)
Theorem C85_one_sender_in_order : forall (tr : list (pobs D)) x, prun tr x ->
  List.length (senders x) <= 1 /\ (waits (pub x) <> [] -> senders x <> []) /\ forall u, part_of (ins tr u) (outs tr u).
Proof.
  intros tr x R. apply pok_run in R. destruct R as [_ [h2 h3]]. split; [|split].
  - destruct h2 as [[-> _]|[o [-> _]]]; cbn; lia.
  - destruct h2 as [[_ [-> _]]|[o [-> _]]]; congruence.
  - intro u. destruct (h3 u) as [l [_ [P _]]]. eapply part_front; eauto.
Qed.

(** When no sender is left, the editor shows for every document what was published last. *)
Theorem C85_latest_shown : forall (tr : list (pobs D)) x u, prun tr x -> senders x = [] -> received tr u = published tr u.
Proof.
  intros tr x u R E. apply pok_run in R. destruct R as [_ [h2 h3]]. destruct (h3 u) as [l [Q [_ L]]].
  rewrite received_last, published_last, <- L. unfold flight. rewrite E. cbn.
  destruct h2 as [[_ [Wn _]]|[o [X _]]]; [|congruence]. rewrite Wn in Q.
  destruct Q as [[-> _]|[d [_ []]]]. now rewrite app_nil_r.
Qed.

(** And if nothing more is published, the senders finish: from every reachable state sends alone lead to rest. *)
Theorem C85_drains : forall (tr : list (pobs D)) x, prun tr x ->
  exists tr' y, prun (tr ++ tr') y /\ senders y = [] /\ forall u d, ~ In (Published u d) tr'.
Proof.
  intros tr x R. remember (waits (pub x)) as m eqn:M. revert tr x R M. induction m as [|e m IH]; intros tr x R M.
  - destruct (pok_run _ _ R) as [_ [h2 _]]. destruct x as [[w f] l]. cbn in M, h2. subst w.
    destruct h2 as [[-> _]|[o [-> _]]].
    + exists [], (PState (Publication [] f) []). rewrite app_nil_r. repeat split; auto.
    + assert (R' : exists tr', prun (tr ++ tr') (PState (Publication [] f) [None]) /\ forall u d, ~ In (Published u d) tr').
      { destruct o as [[u d]|]; [|exists []; rewrite app_nil_r; auto].
        exists [Received u d]. split; [|intros u' d' [X|[]]; discriminate].
        eapply pr_step; [exact R|]. apply (p_sent _ _ [] u d []). }
      destruct R' as [tr' [R' N]]. exists tr', (PState (Publication [] false) []). split; [|auto].
      pose proof (pr_step _ _ _ _ _ R' (p_take _ (Publication [] f) [] [])) as R2. cbn in R2. now rewrite app_nil_r in R2.
  - destruct (pok_run _ _ R) as [_ [h2 _]]. destruct x as [[w f] l]. cbn in M, h2. subst w.
    destruct h2 as [[_ [X _]]|[o [-> _]]]; [discriminate|].
    assert (R' : exists tr', prun (tr ++ tr') (PState (Publication (e :: m) f) [None]) /\ forall u d, ~ In (Published u d) tr').
    { destruct o as [[u d]|]; [|exists []; rewrite app_nil_r; auto].
      exists [Received u d]. split; [|intros u' d' [X|[]]; discriminate].
      eapply pr_step; [exact R|]. apply (p_sent _ _ [] u d []). }
    destruct R' as [tr' [R' N]].
    pose proof (pr_step _ _ _ _ _ R' (p_take _ (Publication (e :: m) f) [] [])) as R2. cbn in R2. rewrite app_nil_r in R2.
    destruct (IH _ _ R2 eq_refl) as [tr2 [y [R3 [E N2]]]]. exists (tr' ++ tr2), y. rewrite app_assoc. split; [auto|].
    split; [auto|]. intros u d i. apply in_app_or in i. destruct i as [i|i]; [eapply N|eapply N2]; eauto.
Qed.
End Diag.

(** Diagnostics of an alphabetically later document can wait for ever: for every [n] there is a run in which those of
    "z" are published, and then [n] others are received, all of them published later. *)
Theorem C85_starved_refuted : forall n, exists tr x,
  prun (D := nat) tr x /\ published tr "z" = Some 7 /\ received tr "z" = None /\ List.length (ins tr "a") = n /\
  hd_error tr = Some (Published "z" 7).
Proof.
  intro n.
  assert (P : exists tr, prun (D := nat) (Published "z" 7 :: tr) (PState (Publication [("a", n); ("z", 7)] true) [None]) /\
            (forall o, In o tr -> exists k, o = Published "a" k \/ o = Received "a" k) /\
            List.length (ins tr "a") = n).
  { induction n as [|n [tr [R [H L]]]].
    - exists [Published "a" 0]. split; [|split; [|reflexivity]].
      + pose proof (pr_step _ _ _ _ _ (pr_step _ _ _ _ _ (pr_start nat) (p_publish _ _ [] "z" 7)) (p_publish _ _ _ "a" 0)) as R.
        exact R.
      + intros o [<-|[]]. exists 0. auto.
    - exists (tr ++ [Received "a" n; Published "a" (S n)]). split; [|split].
      + pose proof (pr_step _ _ _ _ _ R (p_take _ (Publication [("a", n); ("z", 7)] true) [] [])) as R1. cbn in R1.
        rewrite app_nil_r in R1.
        pose proof (pr_step _ _ _ _ _ R1 (p_sent _ _ [] "a" n [])) as R2.
        pose proof (pr_step _ _ _ _ _ R2 (p_publish _ _ _ "a" (S n))) as R3. cbn in R3. rewrite <- app_assoc in R3. exact R3.
      + intros o i. apply in_app_or in i. destruct i as [i|[<-|[<-|[]]]]; eauto.
      + unfold ins. rewrite flat_map_app. cbn. rewrite app_length. fold (ins tr "a"). cbn. rewrite L. lia. }
  destruct P as [tr [R [H L]]]. exists (Published "z" 7 :: tr), (PState (Publication [("a", n); ("z", 7)] true) [None]).
  assert (Q : forall t : list (pobs nat), (forall o, In o t -> exists k, o = Published "a" k \/ o = Received "a" k) -> outs t "z" = [] /\ ins t "z" = []).
  { induction t as [|o t IH]; intro K; [auto|]. destruct IH as [I1 I2]; [intros o' i'; apply K; cbn; auto|].
    destruct (K o) as [k [-> | ->]]; cbn; auto. }
  destruct (Q tr H) as [Q1 Q2]. split; [auto|]. rewrite published_last, received_last.
  change (outs (Published "z" 7 :: tr) "z") with (7 :: outs tr "z"). change (ins (Published "z" 7 :: tr) "z") with (ins tr "z").
  change (ins (Published "z" 7 :: tr) "a") with (ins tr "a"). rewrite Q1, Q2. auto.
Qed.

Print Assumptions C84_batches.
Print Assumptions C84_nothing_lost.
Print Assumptions C84_postponed_refuted.
Print Assumptions C85_one_sender_in_order.
Print Assumptions C85_latest_shown.
Print Assumptions C85_drains.
Print Assumptions C85_starved_refuted.
