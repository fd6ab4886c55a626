(** Properties C20, C21, C53: navigation demand (/repo/src/navigation_demand.rs). *)
From Coq Require Import List Arith Lia Bool Sorted.
From Verif Require Import Lib Navigation_Model Navigation_Spec Navigation_Proofs Navigation_Proofs2 Navigation_Proofs3.
Import ListNotations.

(** C20. In every reachable state (also after a panic) a stage has at most sixteen outstanding
    keys, all different. *)
Theorem C20_outstanding_bounded : forall alnum h st,
  length (outstanding (after alnum h) st) <= 16 /\ NoDup (outstanding (after alnum h) st).
Proof. exact bounded. Qed.
Print Assumptions C20_outstanding_bounded.

(** C20. A key handed to the indexer had been requested, in the same generation and stage. *)
Theorem C20_drained_keys_were_requested : forall alnum h g st ks k,
  answer alnum h (ODrain g st) = Keys ks -> In k ks ->
  exists i, happened alnum h (ORequest g st k) (Ticket i None).
Proof.
  intros alnum h g st ks k A Hk. apply drain_answer in A as [->|(-> & G & _)]; [destruct Hk|].
  eapply h_out; [apply hinv|exact G|now left].
Qed.
Print Assumptions C20_drained_keys_were_requested.

(** C20. No key is handed out twice by [drain] in one generation and stage. *)
Theorem C20_drained_once : forall alnum h1 h2 g st ks ks' k,
  answer alnum h1 (ODrain g st) = Keys ks ->
  answer alnum (h1 ++ ODrain g st :: h2) (ODrain g st) = Keys ks' ->
  In k ks -> ~ In k ks'.
Proof. exact drained_once. Qed.
Print Assumptions C20_drained_once.

(** C20. [drain] hands out each key once, in increasing order. *)
Theorem C20_drain_order : forall alnum h g st ks,
  answer alnum h (ODrain g st) = Keys ks -> StronglySorted (fun a b => kcmp a b = Lt) ks.
Proof.
  intros alnum h g st ks A. apply drain_answer in A as [->|(-> & _)]; [constructor|].
  apply (s_op _ (i_stage _ (inv_after alnum h) st)).
Qed.
Print Assumptions C20_drain_order.

(** C20. An accepted request is not lost: as long as its generation lasts and is not cancelled
    and its stage is not declared complete, it is outstanding until completed. *)
Theorem C20_accepted_key_not_lost : forall alnum h1 h2 g st k i,
  answer alnum h1 (ORequest g st k) = Ticket i None ->
  In k (outstanding (after alnum (h1 ++ ORequest g st k :: h2)) st) \/
  (exists ks, In (OComplete g st ks) h2 /\ In k ks) \/
  In (OCompleteStage g st) h2 \/ In (OCancel g) h2 \/
  (exists g', g < g' /\ In (OBegin g') h2).
Proof.
  intros alnum h1 h2 g st k i A. apply request_answer in A as (_ & _ & G & T & W).
  replace (h1 ++ ORequest g st k :: h2) with ((h1 ++ [ORequest g st k]) ++ h2) by now rewrite <- app_assoc.
  rewrite after_app. unfold outstanding.
  destruct (waiting_run alnum h2 g st k _ (inv_after alnum _) G T W) as [(_ & _ & H)|H]; auto.
  left. apply in_app_iff. exact H.
Qed.
Print Assumptions C20_accepted_key_not_lost.

(** C20. The immediate answers of [request] are true. *)
Theorem C20_request_answers : forall alnum h g st k i imm,
  answer alnum h (ORequest g st k) = Ticket i imm ->
  match imm with
  | None => In k (outstanding (after alnum (h ++ [ORequest g st k])) st)
  | Some Superseded => generation (after alnum h) <> Some g
  | Some Cancelled => happened alnum h (OCancel g) Done
  | Some TargetProcessed => exists ks r, happened alnum h (OComplete g st ks) r /\ In k ks
  | Some StageComplete => happened alnum h (OCompleteStage g st) Done
  | Some Saturated => length (outstanding (after alnum h) st) = 16 /\ ~ In k (outstanding (after alnum h) st)
  end.
Proof.
  intros alnum h g st k i imm A. apply request_answer in A. pose proof (hinv alnum h) as [Ho Hp Hc Hk Hb Hg].
  destruct imm as [[]|]; auto.
  - destruct A. auto.
  - destruct A. auto.
  - destruct A. auto.
  - destruct A as (_ & _ & _ & _ & W). unfold outstanding. apply in_app_iff. exact W.
Qed.
Print Assumptions C20_request_answers.

Definition ascii_alnum (c : nat) : bool :=
  (Nat.leb 48 c && Nat.leb c 57) || (Nat.leb 65 c && Nat.leb c 90) || (Nat.leb 97 c && Nat.leb c 122).
Definition demo : list op :=
  [OBegin 1; ORequest 1 Project [117]; ORequest 1 Project [97; 98]; ODrain 1 Project; ORequest 1 Project [99]].
Example C20_meets :
  answer ascii_alnum (firstn 3 demo) (ODrain 1 Project) = Keys [[97; 98]; [117]] /\
  answer ascii_alnum demo (ODrain 1 Project) = Keys [[99]] /\
  outstanding (after ascii_alnum demo) Project = [[99]; [97; 98]; [117]].
Proof. vm_compute. auto. Qed.

(** C21 is false of the code in three ways.
    (1) A normalized name need not be acceptable: lower-casing U+0130 (LATIN CAPITAL LETTER I
    WITH DOT ABOVE) yields "i" and U+0307, and U+0307 is not alphanumeric; the request made
    for the constant panics.  The three hypotheses are facts of the Unicode tables. *)
Theorem C21_normalized_name_panics_refuted : forall alnum lower,
  alnum 304 = true -> lower 304 = [105; 775] -> alnum 105 = true -> alnum 775 = false ->
  exists name, normalize alnum lower name <> [] /\
    answer alnum [OBegin 1] (ORequest 1 Project (normalize alnum lower name)) = Panic.
Proof.
  intros alnum lower H1 H2 H3 H4. exists [304]. unfold normalize. simpl. rewrite H1. simpl. rewrite H2. simpl.
  split; [discriminate|]. unfold answer, after. simpl. rewrite H3, H4. reflexivity.
Qed.
Print Assumptions C21_normalized_name_panics_refuted.

(** (2) A coordinator that completes, after the stage was declared complete, the keys it was
    handed before, panics.  (3) Two coordinators that were both handed one key (one by [drain],
    one by [claim_if_requested]) and both complete it panic; the gem pipeline of
    coordinator.rs 2684-2857 has such a pair. *)
Theorem C21_late_completion_panics_refuted : exists h ks,
  ~ In Panic (outputs ascii_alnum init h) /\
  happened ascii_alnum h (ODrain 1 Project) (Keys ks) /\
  (forall ks', ~ In (OComplete 1 Project ks') h) /\
  answer ascii_alnum h (OComplete 1 Project ks) = Panic.
Proof.
  exists [OBegin 1; ORequest 1 Project [97]; ODrain 1 Project; OCompleteStage 1 Project], [[97]].
  split; [vm_compute; intuition discriminate|]. split.
  { exists [OBegin 1; ORequest 1 Project [97]], [OCompleteStage 1 Project]. vm_compute. auto. }
  split; [intros ks' H; simpl in H; intuition discriminate|]. reflexivity.
Qed.
Print Assumptions C21_late_completion_panics_refuted.

Theorem C21_shared_key_panics_refuted : exists h,
  ~ In Panic (outputs ascii_alnum init h) /\
  happened ascii_alnum h (ODrain 1 Dependency) (Keys [[97]]) /\
  happened ascii_alnum h (OClaim 1 Dependency [97]) (Bool true) /\
  (exists h1, h = h1 ++ [OComplete 1 Dependency [[97]]]) /\
  answer ascii_alnum h (OComplete 1 Dependency [[97]]) = Panic.
Proof.
  exists [OBegin 1; ORequest 1 Dependency [97]; ODrain 1 Dependency; OClaim 1 Dependency [97];
          OComplete 1 Dependency [[97]]].
  split; [vm_compute; intuition discriminate|]. split.
  { exists [OBegin 1; ORequest 1 Dependency [97]], [OClaim 1 Dependency [97]; OComplete 1 Dependency [[97]]].
    vm_compute. auto. }
  split.
  { exists [OBegin 1; ORequest 1 Dependency [97]; ODrain 1 Dependency], [OComplete 1 Dependency [[97]]].
    vm_compute. auto. }
  split; [|reflexivity].
  exists [OBegin 1; ORequest 1 Dependency [97]; ODrain 1 Dependency; OClaim 1 Dependency [97]]. reflexivity.
Qed.
Print Assumptions C21_shared_key_panics_refuted.

(** What holds: callers that follow the protocol of [legal] never see a panic, in any
    interleaving; and names normalize to acceptable keys if lower-casing stays within the
    alphanumeric characters. *)
Theorem C21_legal_use_never_panics_partial : forall alnum h,
  legal alnum h -> ~ In Panic (outputs alnum init h).
Proof. intros alnum h L. now apply legal_inv. Qed.
Print Assumptions C21_legal_use_never_panics_partial.

Theorem C21_normalize_partial : forall alnum lower name,
  (forall c, alnum c = true -> forallb alnum (lower c) = true) ->
  normalize alnum lower name <> [] -> valid_key alnum (normalize alnum lower name) = true.
Proof.
  intros alnum lower name H N. unfold valid_key.
  assert (A : forallb alnum (normalize alnum lower name) = true).
  { unfold normalize. clear N. induction name as [|c r IH]; simpl; auto.
    destruct (alnum c) eqn:E; auto. simpl. rewrite forallb_app, IH, H; auto. }
  destruct (normalize alnum lower name); [congruence|exact A].
Qed.
Print Assumptions C21_normalize_partial.

Definition good_use : list op :=
  [OBegin 1; ORequest 1 Project [97]; ODrain 1 Project; OComplete 1 Project [[97]]; OCompleteStage 1 Project; OBegin 2].
Example C21_meets : legal ascii_alnum good_use /\ held ascii_alnum (firstn 3 good_use) = [(1, Project, [97])].
Proof.
  split; [|reflexivity]. intros h1 o h2 E.
  assert (Len : length h1 <= 5).
  { apply (f_equal (@length op)) in E. rewrite app_length in E. simpl in E. lia. }
  assert (No : forall h g, ~ In (OBegin g) h -> ~ happened ascii_alnum h (OBegin g) Done).
  { intros h g N (a & b & -> & _). apply N. apply in_app_iff. right. now left. }
  destruct h1 as [|o1 [|o2 [|o3 [|o4 [|o5 [|o6 h1]]]]]]; simpl in E; injection E; intros; subst; simpl; auto.
  - split; [lia|]. intros g' H. exfalso. eapply No; [|exact H]. auto.
  - split; [repeat constructor; auto|]. intros k [<-|[]]. vm_compute. auto.
  - split; [lia|]. intros g' (a & b & Ex & _).
    assert (Hin : In (OBegin g') [OBegin 1; ORequest 1 Project [97]; ODrain 1 Project; OComplete 1 Project [[97]]; OCompleteStage 1 Project]).
    { rewrite Ex. apply in_app_iff. right. now left. }
    simpl in Hin. destruct Hin as [Hin|Hin]; [injection Hin as <-; lia|intuition discriminate].
  - simpl in Len. lia.
Qed.

(** C53. A ticket whose fate is undecided is backed by outstanding work; once its fate is
    decided and no notification is owed, it answers within three steps of its own, unless a
    panic happened before. *)
Theorem C53_tickets_are_answered : forall alnum h i t,
  nth_error (tickets (after alnum h)) i = Some t -> t_imm t = None ->
  (outcome_for (after alnum h) (t_gen t) (t_stage t) (t_key t) = None ->
     In (t_key t) (outstanding (after alnum h) (t_stage t))) /\
  (forall o, panicked (after alnum h) = false -> owed (after alnum h) = 0 ->
     outcome_for (after alnum h) (t_gen t) (t_stage t) (t_key t) = Some o ->
     (forall o', t_phase t <> Answered o') ->
     exists t', nth_error (tickets (resume alnum (after alnum h) i 3)) i = Some t' /\ t_phase t' = Answered o).
Proof.
  intros alnum h i t Hn Hi. split.
  - intros D. destruct (tinv alnum h t (nth_error_In _ _ Hn)) as [W _]. destruct (W Hi) as [_ Q].
    apply in_app_iff. exact (Q D).
  - intros o Hp Ho Hd Hu. eapply resumes; eauto.
Qed.
Print Assumptions C53_tickets_are_answered.

(** C53. Once decided, a waiting ticket's fate stays decided whatever happens next. *)
Theorem C53_decided_stays_decided : forall alnum h h2 t,
  In t (tickets (after alnum h)) -> t_imm t = None ->
  outcome_for (after alnum h) (t_gen t) (t_stage t) (t_key t) <> None ->
  outcome_for (after alnum (h ++ h2)) (t_gen t) (t_stage t) (t_key t) <> None.
Proof.
  intros alnum h h2 t Ht Hi. destruct (tinv alnum h t Ht) as [W _]. destruct (W Hi) as [G _].
  rewrite after_app. revert G. generalize (inv_after alnum h). generalize (after alnum h) as s.
  induction h2 as [|o h2 IH]; intros s I G D; simpl; auto.
  apply IH; [now apply inv_step|now apply gen_le|now apply decided_stable].
Qed.
Print Assumptions C53_decided_stays_decided.

(** C53. A ticket's answer is true of the history. *)
Theorem C53_answers_are_true : forall alnum h t o,
  In t (tickets (after alnum h)) -> t_imm t = None -> t_phase t = Answered o ->
  match o with
  | TargetProcessed => exists ks r, happened alnum h (OComplete (t_gen t) (t_stage t) ks) r /\ In (t_key t) ks
  | StageComplete => happened alnum h (OCompleteStage (t_gen t) (t_stage t)) Done
  | Cancelled => happened alnum h (OCancel (t_gen t)) Done
  | Superseded => exists g, t_gen t < g /\ happened alnum h (OBegin g) Done
  | Saturated => False
  end.
Proof. intros. now apply answers_truthful. Qed.
Print Assumptions C53_answers_are_true.

(** C53 needs the absence of panics: a [complete_keys] call that fails half way has already
    marked keys processed but sends no notification, so their tickets sleep on. *)
Theorem C53_panic_loses_wakeup_refuted : exists h i t n,
  nth_error (tickets (after ascii_alnum h)) i = Some t /\ t_phase t = Sleeping n /\
  outcome_for (after ascii_alnum h) (t_gen t) (t_stage t) (t_key t) = Some TargetProcessed /\
  owed (after ascii_alnum h) = 0 /\
  forall m, resume ascii_alnum (after ascii_alnum h) i m = after ascii_alnum h.
Proof.
  exists [OBegin 1; ONotify; ORequest 1 Project [97]; OTicket 0; ODrain 1 Project; ONotify; OTicket 0; OTicket 0;
          OComplete 1 Project [[97]; [98]]], 0, (mkT 1 Project [97] None (Sleeping 3)), 3.
  split; [vm_compute; reflexivity|]. split; [vm_compute; reflexivity|]. split; [vm_compute; reflexivity|].
  split; [vm_compute; reflexivity|].
  induction m as [|m IH]; [reflexivity|]. cbn [resume].
  replace (fst (step ascii_alnum _ (OTicket 0))) with
    (after ascii_alnum [OBegin 1; ONotify; ORequest 1 Project [97]; OTicket 0; ODrain 1 Project; ONotify; OTicket 0; OTicket 0;
          OComplete 1 Project [[97]; [98]]]) by (vm_compute; reflexivity).
  exact IH.
Qed.
Print Assumptions C53_panic_loses_wakeup_refuted.

Definition sleeper : list op :=
  [OBegin 1; ONotify; ORequest 1 Project [97]; OTicket 0; ODrain 1 Project; ONotify; OTicket 0; OTicket 0].
Example C53_meets :
  nth_error (tickets (after ascii_alnum sleeper)) 0 = Some (mkT 1 Project [97] None (Sleeping 3)) /\
  outcome_for (after ascii_alnum sleeper) 1 Project [97] = None /\
  let h := sleeper ++ [OComplete 1 Project [[97]]; ONotify] in
  panicked (after ascii_alnum h) = false /\ owed (after ascii_alnum h) = 0 /\
  outcome_for (after ascii_alnum h) 1 Project [97] = Some TargetProcessed.
Proof. vm_compute. auto 10. Qed.
