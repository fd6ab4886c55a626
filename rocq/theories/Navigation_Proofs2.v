(** Proofs for C20 and C21 over call histories. *)
From Coq Require Import List Arith Lia Bool Sorted.
From Verif Require Import Lib Navigation_Model Navigation_Spec Navigation_Proofs.
Import ListNotations.

Section Unicode.
Variable alnum : nat -> bool.
Local Notation step := (step alnum).
Local Notation run := (run alnum).
Local Notation outputs := (outputs alnum).
Local Notation after := (after alnum).
Local Notation answer := (answer alnum).
Local Notation happened := (happened alnum).
Local Notation held := (held alnum).
Local Notation events := (events alnum).

Lemma after_snoc h o : after (h ++ [o]) = fst (step (after h) o).
Proof. unfold after. now rewrite run_app. Qed.
Lemma after_app h h2 : after (h ++ h2) = run (after h) h2.
Proof. unfold after. now rewrite run_app. Qed.
Lemma inv_after h : Inv (after h).
Proof. apply inv_reach. Qed.

Lemma happened_more h o r o' : happened h o r -> happened (h ++ [o']) o r.
Proof. intros (h1 & h2 & -> & A). exists h1, (h2 ++ [o']). rewrite <- app_assoc. auto. Qed.
Lemma happened_now h o : happened (h ++ [o]) o (answer h o).
Proof. exists h, []. auto. Qed.

(** * What the sets contain, in terms of the history *)
Definition waiting (s : state) st k := In k (pending (get s st)) \/ In k (in_flight (get s st)).

Record HInv (h : list op) : Prop := {
  h_out : forall g st k, generation (after h) = Some g -> waiting (after h) st k ->
      exists i, happened h (ORequest g st k) (Ticket i None);
  h_proc : forall g st k, generation (after h) = Some g -> In k (processed (get (after h) st)) ->
      exists ks r, happened h (OComplete g st ks) r /\ In k ks;
  h_comp : forall g st, generation (after h) = Some g -> complete (get (after h) st) = true ->
      happened h (OCompleteStage g st) Done;
  h_canc : forall g, generation (after h) = Some g -> terminal (after h) <> None ->
      happened h (OCancel g) Done;
  h_beg : forall g, happened h (OBegin g) Done -> exists p, generation (after h) = Some p /\ g <= p;
  h_gen : forall g, generation (after h) = Some g -> happened h (OBegin g) Done }.

Lemma happened_snoc_inv h o o' r : happened (h ++ [o']) o r -> happened h o r \/ (o = o' /\ answer h o = r).
Proof.
  intros (h1 & h2 & E & A). destruct h2 as [|z0 h2].
  - apply app_inj_tail in E as [-> ->]. auto.
  - destruct (exists_last (l := z0 :: h2)) as (h3 & z & Ez); [discriminate|]. rewrite Ez in E. left.
    rewrite app_comm_cons, app_assoc in E. apply app_inj_tail in E as [-> _].
    exists h1, h3. auto.
Qed.

Lemma hinv h : HInv h.
Proof.
  induction h as [|o h [Ho Hp Hc Hk Hb Hg]] using rev_ind.
  { constructor; try discriminate. intros g (h1 & h2 & E & _). destruct h1; discriminate. }
  pose proof (inv_after h) as I. pose proof (step_effect alnum _ o I) as F.
  pose proof (happened_now h o) as Now. unfold answer in Now.
  rewrite <- after_snoc in F.
  destruct F as [(Eg & Et & Es) Nb _ _ _ _|g Eo Er N0 Lt Eg Et Es|g st x G T G' T' Ex Eother W|g Eo G T G' T' E].
  - (* nothing changed *)
    constructor.
    + intros g st k. rewrite Eg. unfold waiting. rewrite Es. intros H1 H2.
      destruct (Ho g st k H1 H2) as (i & Hi). exists i. now apply happened_more.
    + intros g st k. rewrite Eg, Es. intros H1 H2.
      destruct (Hp g st k H1 H2) as (ks & r & Hr & Hk'). exists ks, r. split; auto. now apply happened_more.
    + intros g st. rewrite Eg, Es. intros H1 H2. now apply happened_more, Hc.
    + intros g. rewrite Eg, Et. intros H1 H2. now apply happened_more, Hk.
    + intros g H. rewrite Eg. apply happened_snoc_inv in H as [H|[<- H]]; auto.
      destruct (Nb g) as [H0|H0]; [congruence|]. unfold answer in H. congruence.
    + intros g. rewrite Eg. intros H. now apply happened_more, Hg.
  - (* a new generation *)
    constructor.
    + intros g' st k _. unfold waiting. rewrite Es. simpl. tauto.
    + intros g' st k _. rewrite Es. simpl. tauto.
    + intros g' st _. rewrite Es. discriminate.
    + intros g' _. rewrite Et. congruence.
    + intros g' H. exists g. split; auto. apply happened_snoc_inv in H as [H|[H _]].
      * destruct (Hb g' H) as (p & Gp & L). specialize (Lt p Gp). lia.
      * rewrite Eo in H. injection H as ->. lia.
    + intros g'. rewrite Eg. intros H. injection H as <-. rewrite Er in Now. now rewrite Eo in *.
  - (* an update of one stage *)
    assert (Keep : forall st', st' <> st -> get (after (h ++ [o])) st' = get (after h) st') by exact Eother.
    assert (P1 : forall k, waiting (after (h ++ [o])) st k -> waiting (after h) st k \/
      exists i, o = ORequest g st k /\ snd (step (after h) o) = Ticket i None).
    { intros k. unfold waiting. rewrite Ex. destruct o; try contradiction.
      - destruct W as (-> & -> & _ & _ & _ & _ & _ & Er & ->). simpl.
        intros [H|H]; auto. apply in_ins in H as [->|H]; eauto.
      - destruct W as (-> & -> & C & _ & fl & Ed & ->). simpl.
        destruct (sinv_drain _ (i_stage _ I st) C) as (fl' & Ed' & _ & If).
        rewrite Ed in Ed'. injection Ed' as <-. rewrite If. tauto.
      - destruct W as (-> & -> & C & P & _ & ->). simpl. rewrite in_del, in_ins.
        intros [[H _]|[->|H]]; auto.
      - destruct W as (-> & -> & c & El & _).
        destruct (complete_loop_spec _ _ _ _ _ (i_stage _ I st) El) as (_ & Ep & _ & _ & Ef & _).
        rewrite Ep. intros [H|H]; auto.
      - destruct W as (-> & -> & C & ->). simpl. tauto. }
    assert (P2 : forall k, In k (processed x) -> In k (processed (get (after h) st)) \/
      exists ks, o = OComplete g st ks /\ In k ks).
    { intros k. destruct o; try contradiction.
      - destruct W as (_ & _ & _ & _ & _ & _ & _ & _ & ->). auto.
      - destruct W as (_ & _ & _ & _ & fl & _ & ->). auto.
      - destruct W as (_ & _ & _ & _ & _ & ->). auto.
      - destruct W as (-> & -> & c & El & _).
        destruct (complete_loop_spec _ _ _ _ _ (i_stage _ I st) El) as (_ & _ & _ & _ & _ & _ & A & _).
        intros H. apply A in H as [H|[H _]]; eauto.
      - destruct W as (_ & _ & _ & ->). auto. }
    assert (P3 : complete x = true -> complete (get (after h) st) = true \/ (o = OCompleteStage g st)).
    { destruct o; try contradiction.
      - destruct W as (_ & _ & _ & _ & _ & _ & _ & _ & ->). auto.
      - destruct W as (_ & _ & _ & _ & fl & _ & ->). auto.
      - destruct W as (_ & _ & _ & _ & _ & ->). auto.
      - destruct W as (-> & -> & c & El & _).
        destruct (complete_loop_spec _ _ _ _ _ (i_stage _ I st) El) as (_ & _ & A & _). rewrite A. auto.
      - destruct W as (-> & -> & _ & ->). auto. }
    assert (Rd : forall st, o = OCompleteStage g st -> snd (step (after h) o) = Done).
    { intros st' ->. cbn [Navigation_Model.step]. destruct (negb (live (after h) g)); [reflexivity|].
      now destruct (complete (get (after h) st')). }
    constructor.
    + intros g' st' k. rewrite G'. intros H H2. injection H as <-.
      destruct (stage_dec st' st) as [->|N].
      * apply P1 in H2 as [H2|(i & -> & Er)].
        -- destruct (Ho g st k G H2) as (i & Hi). exists i. now apply happened_more.
        -- exists i. now rewrite Er in Now.
      * unfold waiting in H2. rewrite Keep in H2 by auto.
        destruct (Ho g st' k G H2) as (i & Hi). exists i. now apply happened_more.
    + intros g' st' k. rewrite G'. intros H H2. injection H as <-.
      destruct (stage_dec st' st) as [->|N].
      * rewrite Ex in H2. apply P2 in H2 as [H2|(ks & -> & Hk')]; [|eauto].
        destruct (Hp g st k G H2) as (ks & r & Hr & Hk'). exists ks, r. split; auto. now apply happened_more.
      * rewrite Keep in H2 by auto.
        destruct (Hp g st' k G H2) as (ks & r & Hr & Hk'). exists ks, r. split; auto. now apply happened_more.
    + intros g' st'. rewrite G'. intros H H2. injection H as <-.
      destruct (stage_dec st' st) as [->|N].
      * rewrite Ex in H2. apply P3 in H2 as [H2|Eo].
        -- now apply happened_more, Hc.
        -- rewrite (Rd st Eo) in Now. now rewrite Eo in *.
      * rewrite Keep in H2 by auto. now apply happened_more, Hc.
    + intros g'. rewrite T'. congruence.
    + intros g' H. apply happened_snoc_inv in H as [H|[H _]].
      * destruct (Hb g' H) as (p & Gp & L). exists p. split; [congruence|auto].
      * subst o. contradiction.
    + intros g'. rewrite G'. intros H. injection H as <-. now apply happened_more, Hg.
  - (* cancellation *)
    constructor.
    + intros g' st k _. unfold waiting. rewrite E. simpl. tauto.
    + intros g' st k. rewrite G', E. simpl. intros H H2. injection H as <-.
      destruct (Hp g st k G H2) as (ks & r & Hr & Hk'). exists ks, r. split; auto. now apply happened_more.
    + intros g' st. rewrite G', E. simpl. intros H H2. injection H as <-. now apply happened_more, Hc.
    + intros g'. rewrite G'. intros H _. injection H as <-.
      replace Done with (snd (step (after h) o)); [now rewrite Eo in *|].
      rewrite Eo. cbn [Navigation_Model.step]. now destruct (negb (live (after h) g)).
    + intros g' H. apply happened_snoc_inv in H as [H|[H _]]; [|congruence].
      destruct (Hb g' H) as (p & Gp & L). exists p. split; [congruence|auto].
    + intros g'. rewrite G'. intros H. injection H as <-. now apply happened_more, Hg.
Qed.

(** * C20 *)
Lemma bounded h st : length (outstanding (after h) st) <= 16 /\ NoDup (outstanding (after h) st).
Proof.
  pose proof (i_stage _ (inv_after h) st) as []. unfold outstanding. rewrite app_length. split; auto.
  revert s_pf. generalize (ordered_nodup _ s_op), (ordered_nodup _ s_of).
  generalize (pending (get (after h) st)) as a, (in_flight (get (after h) st)) as b.
  induction a as [|x a IH]; intros b Na Nb D; simpl; auto.
  inversion Na; subst. constructor.
  - rewrite in_app_iff. intros [H|H]; [contradiction|]. eapply D; eauto. now left.
  - apply IH; auto. intros k Hk. apply D. now right.
Qed.

Lemma drain_answer h g st ks : answer h (ODrain g st) = Keys ks ->
  ks = [] \/ (ks = pending (get (after h) st) /\ generation (after h) = Some g /\
    exists fl, get (after (h ++ [ODrain g st])) st = mkS [] fl (processed (get (after h) st)) (complete (get (after h) st)) /\
      (forall k, In k fl <-> waiting (after h) st k) /\ terminal (after (h ++ [ODrain g st])) = None /\
      generation (after (h ++ [ODrain g st])) = Some g).
Proof.
  intros A. pose proof (inv_after h) as I. pose proof (step_effect alnum _ (ODrain g st) I) as F.
  rewrite <- after_snoc in F. fold (answer h (ODrain g st)) in F. rewrite A in F.
  inversion F as [_ _ Nd _ _ _|g' Eo|g' st' x G T G' T' Ex Eother W|g' Eo]; try discriminate.
  - left. eauto.
  - right. destruct W as (-> & -> & C & Er & fl & Ed & ->). injection Er as ->.
    destruct (sinv_drain _ (i_stage _ I st') C) as (fl' & Ed' & _ & If).
    rewrite Ed in Ed'. injection Ed' as <-. repeat split; auto. exists fl. repeat split; auto; apply If.
Qed.

Definition gone (s : state) g st k : Prop :=
  (exists p, generation s = Some p /\ g <= p) /\
  (generation s = Some g -> ~ In k (pending (get s st)) /\
     (In k (in_flight (get s st)) \/ In k (processed (get s st)) \/ complete (get s st) = true \/ terminal s <> None)).

Lemma gone_step s o g st k : Inv s -> gone s g st k -> gone (fst (step s o)) g st k.
Proof.
  intros I [(p & Gp & Lp) H].
  destruct (step_effect alnum s o I) as
    [(Eg & Et & Es) _ _ _ _ _|g' Eo Er N0 Lt Eg Et Es|g' st' x G T G' T' Ex Eother W|g' Eo G T G' T' E].
  - unfold gone. rewrite Eg, Et, Es. split; eauto.
  - specialize (Lt p Gp). split; [exists g'; split; auto; lia|]. intros Hg. rewrite Eg in Hg. injection Hg as ->. lia.
  - split; [exists g'; split; auto; congruence|]. intros Hg. assert (Eg : generation s = Some g) by congruence.
    specialize (H Eg). destruct H as [H1 H2]. rewrite T'.
    destruct (stage_dec st st') as [<-|N]; [|rewrite Eother by auto; rewrite T in H2; tauto].
    rewrite Ex. destruct o; try contradiction.
    + destruct W as (-> & -> & C & A & B & D & L & _ & ->). simpl. rewrite in_ins. split.
      * intros [->|Hk]; auto. rewrite C in H2. intuition congruence.
      * intuition congruence.
    + destruct W as (-> & -> & C & _ & fl & Ed & ->).
      destruct (sinv_drain _ (i_stage _ I st) C) as (fl' & Ed' & _ & If).
      rewrite Ed in Ed'. injection Ed' as <-. simpl. split; auto. rewrite If. intuition congruence.
    + destruct W as (-> & -> & C & P & _ & ->). simpl. rewrite in_del, in_ins. split; [tauto|]. intuition congruence.
    + destruct W as (-> & -> & c & El & _).
      destruct (complete_loop_spec _ _ _ _ _ (i_stage _ I st) El) as (_ & Ep & Ec & A1 & A2 & A3 & _).
      rewrite Ep, Ec. split; auto. destruct H2 as [H2|[H2|[H2|H2]]]; auto; [|congruence].
      apply A3 in H2. tauto.
    + destruct W as (-> & -> & C & ->). simpl. split; [tauto|]. right. right. now left.
  - split; [exists g'; split; auto; congruence|]. intros _. rewrite E, T'. simpl. split; auto.
    right. right. right. discriminate.
Qed.
Lemma gone_run h g st k : forall s, Inv s -> gone s g st k -> gone (run s h) g st k.
Proof. induction h; simpl; auto using gone_step, inv_step. Qed.

Lemma drained_once h1 h2 g st ks ks' k :
  answer h1 (ODrain g st) = Keys ks -> answer (h1 ++ ODrain g st :: h2) (ODrain g st) = Keys ks' ->
  In k ks -> ~ In k ks'.
Proof.
  intros A1 A2 Hk Hk'.
  assert (Gn : gone (after (h1 ++ [ODrain g st])) g st k).
  { apply drain_answer in A1 as [->|(-> & G & fl & E & If & T & G')]; [destruct Hk|].
    split; [eauto|]. intros _. rewrite E. simpl. split; auto. left. apply If. now left. }
  replace (h1 ++ ODrain g st :: h2) with ((h1 ++ [ODrain g st]) ++ h2) in A2 by now rewrite <- app_assoc.
  apply drain_answer in A2 as [->|(-> & G & _)]; [destruct Hk'|].
  rewrite after_app in G, Hk'. destruct (gone_run h2 _ _ _ _ (inv_after _) Gn) as [_ N].
  apply N in G. tauto.
Qed.

(** An accepted request stays outstanding until something accounts for it. *)
Lemma waiting_step s o g st k : Inv s ->
  generation s = Some g -> terminal s = None -> waiting s st k ->
  let s' := fst (step s o) in
  (generation s' = Some g /\ terminal s' = None /\ waiting s' st k) \/
  (exists ks, o = OComplete g st ks /\ In k ks) \/ o = OCompleteStage g st \/ o = OCancel g \/
  (exists g', g < g' /\ o = OBegin g').
Proof.
  intros I G T Wt s'. unfold s'.
  destruct (step_effect alnum s o I) as
    [(Eg & Et & Es) _ _ _ _ _|g' Eo Er N0 Lt Eg Et Es|g' st' x G2 T2 G' T' Ex Eother W|g' Eo G2 T2 G' T' E].
  - left. unfold waiting. rewrite Eg, Et, Es. auto.
  - right. right. right. right. exists g'. split; auto.
  - assert (g' = g) by congruence. subst g'.
    destruct (stage_dec st st') as [<-|N]; [|left; unfold waiting; rewrite Eother by auto; auto].
    unfold waiting in *. rewrite Ex. destruct o; try contradiction.
    + destruct W as (-> & -> & C & A & B & D & L & _ & ->). left. simpl. rewrite in_ins. intuition.
    + destruct W as (-> & -> & C & _ & fl & Ed & ->).
      destruct (sinv_drain _ (i_stage _ I st) C) as (fl' & Ed' & _ & If).
      rewrite Ed in Ed'. injection Ed' as <-. left. simpl. rewrite If. auto.
    + destruct W as (-> & -> & C & P & _ & ->). left. simpl. rewrite in_del, in_ins.
      destruct (keq k k0) eqn:Ek; [apply keq_true in Ek; auto|].
      assert (k <> k0) by (intros ->; assert (keq k0 k0 = true) by (now apply keq_true); congruence). intuition.
    + destruct W as (-> & -> & c & El & _).
      destruct (complete_loop_spec _ _ _ _ _ (i_stage _ I st) El) as (_ & Ep & Ec & A1 & A2 & A3 & A4 & A5 & _).
      rewrite Ep. destruct Wt as [Wt|Wt]; [left; auto|].
      destruct (mem k ks) eqn:M; [apply mem_in in M; right; left; eauto|].
      apply mem_out in M. left. auto.
    + destruct W as (-> & -> & C & ->). auto.
  - right. right. right. left. congruence.
Qed.

Lemma waiting_run h g st k : forall s, Inv s ->
  generation s = Some g -> terminal s = None -> waiting s st k ->
  let s' := run s h in
  (generation s' = Some g /\ terminal s' = None /\ waiting s' st k) \/
  (exists ks, In (OComplete g st ks) h /\ In k ks) \/ In (OCompleteStage g st) h \/ In (OCancel g) h \/
  (exists g', g < g' /\ In (OBegin g') h).
Proof.
  induction h as [|o h IH]; intros s I G T W s'; simpl in *; auto.
  destruct (waiting_step s o g st k I G T W) as [(G' & T' & W')|[(ks & -> & Hk)|[->|[->|(g' & L & ->)]]]]; try tauto.
  - destruct (IH _ (inv_step alnum s o I) G' T' W') as [H|[(ks & H1 & H2)|[H|[H|(g' & L & H)]]]]; try tauto.
    + right. left. eauto.
    + right. right. right. right. eauto.
  - right. left. eauto.
  - right. right. right. right. eauto.
Qed.

(** The answers to a request. *)
Lemma request_answer h g st k i imm : answer h (ORequest g st k) = Ticket i imm ->
  match imm with
  | None => generation (after h) = Some g /\ terminal (after h) = None /\
            generation (after (h ++ [ORequest g st k])) = Some g /\
            terminal (after (h ++ [ORequest g st k])) = None /\ waiting (after (h ++ [ORequest g st k])) st k
  | Some Superseded => generation (after h) <> Some g
  | Some Cancelled => generation (after h) = Some g /\ terminal (after h) <> None
  | Some TargetProcessed => generation (after h) = Some g /\ In k (processed (get (after h) st))
  | Some StageComplete => generation (after h) = Some g /\ complete (get (after h) st) = true
  | Some Saturated => length (outstanding (after h) st) = 16 /\ ~ In k (outstanding (after h) st)
  end.
Proof.
  rewrite after_snoc. unfold answer. pose proof (inv_after h) as I.
  pose proof (bounded h st) as [B _]. set (s := after h) in *.
  cbn [Navigation_Model.step]. destruct (valid_key alnum k); [|discriminate]. cbn [negb]. unfold accept_request.
  destruct (is_gen s g) eqn:Gb; cbn [negb].
  2:{ intros E. injection E as _ <-. intros G. unfold is_gen in Gb. rewrite G, Nat.eqb_refl in Gb. discriminate. }
  assert (G : generation s = Some g).
  { unfold is_gen in Gb. destruct (generation s); [|discriminate]. apply Nat.eqb_eq in Gb. now subst. }
  destruct (terminal s) eqn:T.
  { intros E. injection E as _ <-. destruct (i_term s I) as [Tc _]; [congruence|].
    rewrite T in Tc. injection Tc as ->. split; auto. discriminate. }
  destruct (mem k (processed (get s st))) eqn:M1.
  { intros E. injection E as _ <-. split; auto. now apply mem_in. }
  destruct (complete (get s st)) eqn:C.
  { intros E. injection E as _ <-. auto. }
  destruct (mem k (pending (get s st)) || mem k (in_flight (get s st))) eqn:M2.
  { intros E. injection E as _ <-. cbn [fst]. repeat split; auto.
    apply orb_true_iff in M2. rewrite !mem_in in M2. destruct st; exact M2. }
  apply orb_false_iff in M2 as [M2 M3]. apply mem_out in M2, M3.
  destruct (Nat.leb max_keys (outstanding_len (get s st))) eqn:L; cbn [fst snd].
  { intros E. injection E as _ <-. apply Nat.leb_le in L. unfold outstanding_len, max_keys in L.
    unfold outstanding in *. rewrite app_length in *. split; [lia|]. rewrite in_app_iff. tauto. }
  intros E. injection E as _ <-. cbn. rewrite gen_put, term_put. repeat split; auto.
  left. destruct st; simpl; apply in_ins; auto.
Qed.

(** * C21 *)

Lemma combine_app {A B} (a : list A) : forall (b : list B) a' b', length a = length b ->
  combine (a ++ a') (b ++ b') = combine a b ++ combine a' b'.
Proof. induction a as [|x a IH]; intros [|y b] a' b' L; simpl in *; try discriminate; auto. f_equal. auto. Qed.

Lemma held_snoc h o : held (h ++ [o]) = track (held h) (o, answer h o).
Proof.
  unfold held, events. rewrite outputs_app, combine_app by (symmetry; apply outputs_length).
  rewrite fold_left_app. reflexivity.
Qed.

Lemma is_stage_true a b : is_stage a b = true <-> a = b.
Proof. destruct a, b; simpl; split; congruence. Qed.

Definition HeldInv h := forall g st k, In (g, st, k) (held h) ->
  (exists p, generation (after h) = Some p /\ g <= p) /\
  (generation (after h) = Some g -> terminal (after h) = None -> In k (in_flight (get (after h) st))).

Lemma complete_no_panic ks : forall x c, SInv x -> NoDup ks -> (forall k, In k ks -> In k (in_flight x)) ->
  snd (complete_loop x ks c) <> None.
Proof.
  induction ks as [|k ks IH]; intros x c I N H; simpl; [discriminate|].
  inversion N; subst. assert (Hk : In k (in_flight x)) by (apply H; now left).
  rewrite (proj2 (mem_in _ _) Hk). apply IH; auto using sinv_done. simpl.
  intros z Hz. apply in_del. split; [apply H; now right|]. intros ->. contradiction.
Qed.

Lemma legal_no_panic h o : HeldInv h -> legal_call alnum h o -> answer h o <> Panic.
Proof.
  intros HI L. unfold answer. pose proof (inv_after h) as I.
  destruct o as [g|g st k|g st|g st k|g st ks|g st|g| |i]; cbn [Navigation_Model.step]; simpl in L.
  - destruct L as [L1 L2]. destruct (Nat.eqb_spec g 0); [lia|].
    destruct (generation (after h)) as [p|] eqn:G; [|discriminate].
    specialize (L2 p (h_gen _ (hinv h) p G)). destruct (Nat.leb_spec g p); [lia|discriminate].
  - rewrite L. cbn [negb]. destruct (accept_request _ _ _ _) as [[? ?] ?]. discriminate.
  - destruct (live (after h) g); cbn [negb]; [|discriminate].
    destruct (complete (get (after h) st)) eqn:C; [discriminate|].
    destruct (sinv_drain _ (i_stage _ I st) C) as (fl & -> & _). discriminate.
  - rewrite L. cbn [negb]. destruct (live (after h) g); [|discriminate]. cbn [negb].
    destruct (complete _ || _); [discriminate|]. destruct (mem _ _); [discriminate|]. destruct (mem _ _); discriminate.
  - destruct (live (after h) g) eqn:Lv; cbn [negb]; [|discriminate].
    apply live_spec in Lv as [G T]. destruct L as [N L].
    pose proof (complete_no_panic ks (get (after h) st) false (i_stage _ I st) N) as P.
    destruct (complete_loop (get (after h) st) ks false) as [x [c|]]; [discriminate|].
    exfalso. apply P; auto. intros k Hk. apply (HI g st k); auto.
  - destruct (negb _); [discriminate|]. destruct (complete _); discriminate.
  - destruct (negb _); discriminate.
  - destruct (owed _); discriminate.
  - destruct (nth_error _ _) as [t|]; [|discriminate].
    destruct (t_phase t) as [[]| | |]; try discriminate. destruct (Nat.eqb _ _); discriminate.
Qed.

Lemma held_step h o : HeldInv h -> legal_call alnum h o -> HeldInv (h ++ [o]).
Proof.
  intros HI L. pose proof (legal_no_panic h o HI L) as NP.
  pose proof (inv_after h) as I. pose proof (step_effect alnum _ o I) as F. fold (answer h o) in F.
  intros g st k Hin. rewrite held_snoc in Hin.
  (* a key newly handed out belongs to the current generation and is in flight afterwards *)
  assert (New : In (g, st, k) (held h) \/
    (generation (after (h ++ [o])) = Some g /\ In k (in_flight (get (after (h ++ [o])) st)))).
  { destruct o; simpl in Hin; auto.
    - destruct (answer h (ODrain g0 st0)) eqn:A; auto.
      apply in_app_iff in Hin as [Hin|Hin]; auto. right.
      apply in_map_iff in Hin as (z & Ez & Hz). injection Ez as -> -> ->.
      apply drain_answer in A as [->|(-> & G & fl & E & If & T & G')]; [destruct Hz|].
      split; auto. rewrite E. simpl. apply If. now left.
    - destruct (answer h (OClaim g0 st0 k0)) eqn:A; auto. destruct b; auto.
      destruct Hin as [E|Hin]; auto. injection E as -> -> ->. right.
      rewrite after_snoc. unfold answer in A. cbn [Navigation_Model.step] in *.
      destruct (valid_key alnum k); [|discriminate]. cbn [negb] in *.
      destruct (live (after h) g) eqn:Lv; [|discriminate]. cbn [negb] in *. apply live_spec in Lv as [G T].
      destruct (complete _ || _); [discriminate|]. destruct (mem k (in_flight (get (after h) st))) eqn:M.
      + split; auto. now apply mem_in.
      + destruct (mem k (pending _)); [|discriminate]. cbn [fst]. rewrite gen_owe, gen_put, get_owe, get_put_same.
        split; auto. simpl. apply in_ins. auto.
    - apply filter_In in Hin. tauto.
    - apply filter_In in Hin. tauto. }
  destruct New as [Old|[G K]].
  2:{ split; [exists g; auto|auto]. }
  destruct (HI g st k Old) as [(p & Gp & Lp) Hf]. rewrite after_snoc.
  destruct F as [(Eg & Et & Es) Nb _ _ _ _|g' Eo Er N0 Lt Eg Et Es|g' st' x G T G' T' Ex Eother W|g' Eo G T G' T' E].
  - rewrite Eg, Et, Es. split; eauto.
  - specialize (Lt p Gp). split; [exists g'; split; auto; lia|]. rewrite Eg. intros H. injection H as ->. lia.
  - split; [exists g'; split; auto; congruence|]. intros Hg _. assert (g' = g) by congruence. subst g'.
    specialize (Hf G T). destruct (stage_dec st st') as [<-|N]; [|now rewrite Eother by auto].
    rewrite Ex. destruct o; try contradiction.
    + destruct W as (-> & -> & C & A & B & D & Lx & _ & ->). auto.
    + destruct W as (-> & -> & C & _ & fl & Ed & ->).
      destruct (sinv_drain _ (i_stage _ I st) C) as (fl' & Ed' & _ & If).
      rewrite Ed in Ed'. injection Ed' as <-. simpl. apply If. auto.
    + destruct W as (-> & -> & C & P & _ & ->). simpl. apply in_ins. auto.
    + destruct W as (-> & -> & c & El & _).
      destruct (complete_loop_spec _ _ _ _ _ (i_stage _ I st) El) as (_ & Ep & Ec & A1 & A2 & A3 & A4 & A5 & _).
      apply A5; auto. simpl in Hin. apply filter_In in Hin as [_ Hin]. cbn [fst snd] in Hin.
      rewrite Nat.eqb_refl, (proj2 (is_stage_true st st) eq_refl) in Hin. simpl in Hin.
      apply negb_true_iff, mem_out in Hin. auto.
    + destruct W as (-> & -> & C & ->). simpl in Hin. apply filter_In in Hin as [_ Hin]. cbn [fst snd] in Hin.
      rewrite Nat.eqb_refl, (proj2 (is_stage_true st st) eq_refl) in Hin. discriminate.
  - split; [exists g'; split; auto; congruence|]. rewrite T'. discriminate.
Qed.

Lemma legal_inv h : legal alnum h -> HeldInv h /\ ~ In Panic (outputs init h).
Proof.
  induction h as [|o h IH] using rev_ind; intros L.
  - split; [|auto]. intros g st k [].
  - assert (L1 : legal alnum h).
    { intros h1 o' h2 ->. apply (L h1 o' (h2 ++ [o])). now rewrite <- app_assoc. }
    assert (L2 : legal_call alnum h o) by (apply (L h o []); auto).
    destruct (IH L1) as [HI NP]. split; [now apply held_step|].
    rewrite outputs_app, in_app_iff. intros [H|[H|[]]]; auto.
    apply (legal_no_panic h o HI L2). exact H.
Qed.
End Unicode.
