(** Lemmas about the scheduler model. *)
From Coq Require Import List Arith Lia Bool Permutation.
From Verif Require Import Lib Scheduler_Model Scheduler_Spec.
Import ListNotations.

Definition inq (t : task) : bool :=
  match t_phase t with
  | PPushed | PTop | PArmed _ | PBlocked _ | PDropping => true
  | _ => false
  end.

(** ** The selector *)

Lemma lex2_spec a1 a2 b1 b2 : lex2 a1 a2 b1 b2 = true <-> a1 < b1 \/ (a1 = b1 /\ a2 < b2).
Proof.
  unfold lex2. rewrite orb_true_iff, andb_true_iff, Nat.eqb_eq, !Nat.ltb_lt. lia.
Qed.

Lemma lex2_false a1 a2 b1 b2 : lex2 a1 a2 b1 b2 = false <-> b1 < a1 \/ (a1 = b1 /\ b2 <= a2).
Proof.
  destruct (lex2 a1 a2 b1 b2) eqn:E.
  - apply lex2_spec in E. split; [discriminate|lia].
  - split; auto. intros _. assert (~ (a1 < b1 \/ (a1 = b1 /\ a2 < b2))).
    { rewrite <- lex2_spec. congruence. } lia.
Qed.

Lemma entry_lt_spec a b : entry_lt a b = true <->
  rank (e_priority a) < rank (e_priority b) \/
  (rank (e_priority a) = rank (e_priority b) /\
   (e_order a < e_order b \/ (e_order a = e_order b /\ e_root a < e_root b))).
Proof.
  unfold entry_lt. rewrite orb_true_iff, andb_true_iff, Nat.eqb_eq, Nat.ltb_lt, lex2_spec. lia.
Qed.

Lemma entry_lt_false a b : entry_lt a b = false <->
  ~ (rank (e_priority a) < rank (e_priority b) \/
  (rank (e_priority a) = rank (e_priority b) /\
   (e_order a < e_order b \/ (e_order a = e_order b /\ e_root a < e_root b)))).
Proof. rewrite <- entry_lt_spec. destruct (entry_lt a b); split; congruence. Qed.

Lemma entry_lt_asym x y : entry_lt x y = true -> entry_lt y x = false.
Proof. rewrite entry_lt_spec, entry_lt_false. lia. Qed.

Lemma entry_lt_tr x y z : entry_lt x y = false -> entry_lt y z = false -> entry_lt x z = false.
Proof. rewrite !entry_lt_false. lia. Qed.

Lemma bg_lt_asym x y : bg_lt x y = true -> bg_lt y x = false.
Proof. unfold bg_lt. rewrite lex2_spec, lex2_false. lia. Qed.

Lemma bg_lt_tr x y z : bg_lt x y = false -> bg_lt y z = false -> bg_lt x z = false.
Proof. unfold bg_lt. rewrite !lex2_false. lia. Qed.

Lemma prio_eqb_eq a b : prio_eqb a b = true <-> a = b.
Proof. unfold prio_eqb. rewrite Nat.eqb_eq. destruct a, b; simpl; split; congruence || auto. Qed.

Lemma mem_In r l : mem r l = true <-> In r l.
Proof.
  unfold mem. rewrite existsb_exists. split.
  - intros [x [H E]]. apply Nat.eqb_eq in E. now subst.
  - intros H. exists r. split; auto. apply Nat.eqb_refl.
Qed.

Lemma mem_false r l : mem r l = false <-> ~ In r l.
Proof. rewrite <- mem_In. destruct (mem r l); split; congruence. Qed.

Lemma admissible_iff act e : admissible act e = true <-> ~ In (e_root e) act.
Proof. unfold admissible. rewrite negb_true_iff. apply mem_false. Qed.

Lemma admissible_bg_iff act e :
  admissible_bg act e = true <-> e_priority e = Background /\ ~ In (e_root e) act.
Proof. unfold admissible_bg. now rewrite andb_true_iff, prio_eqb_eq, admissible_iff. Qed.

(** What the selector returns. *)
Lemma winner_spec q act b w :
  best_with_fairness q act b = Some w ->
  exists e, nth_error q w = Some e /\ ~ In (e_root e) act /\
    ((b >= 1 /\ (exists x, In x q /\ admissible_bg act x = true)) ->
       e_priority e = Background /\
       forall x, In x q -> admissible_bg act x = true -> e_order e <= e_order x) /\
    (~ (b >= 1 /\ (exists x, In x q /\ admissible_bg act x = true)) ->
       forall x, In x q -> ~ In (e_root x) act ->
         rank (e_priority e) < rank (e_priority x) \/
         (rank (e_priority e) = rank (e_priority x) /\ e_order e <= e_order x)).
Proof.
  unfold best_with_fairness, MAX_BURST. intros H.
  assert (G : best_admissible q act = Some w ->
     exists e, nth_error q w = Some e /\ ~ In (e_root e) act /\
       forall x, In x q -> ~ In (e_root x) act ->
         rank (e_priority e) < rank (e_priority x) \/
         (rank (e_priority e) = rank (e_priority x) /\ e_order e <= e_order x)).
  { intros G. apply (best_index_some _ _ entry_lt_asym entry_lt_tr) in G
      as (e & He & Ok & Min). exists e. split; [auto|]. rewrite admissible_iff in Ok.
    split; auto. intros x Hx Hn. specialize (Min x Hx). rewrite admissible_iff in Min.
    specialize (Min Hn). rewrite entry_lt_false in Min. lia. }
  destruct (Nat.leb 1 b) eqn:Eb.
  - apply Nat.leb_le in Eb.
    destruct (best_index (admissible_bg act) bg_lt q) as [i|] eqn:E.
    + injection H as ->.
      apply (best_index_some _ _ bg_lt_asym bg_lt_tr) in E as (e & He & Ok & Min).
      exists e. split; [auto|]. pose proof Ok as Ok'. apply admissible_bg_iff in Ok as [P A].
      split; [auto|]. split.
      * intros _. split; auto. intros x Hx Hb. specialize (Min x Hx Hb).
        unfold bg_lt in Min. apply lex2_false in Min. lia.
      * intros N. exfalso. apply N. split; [lia|]. exists e. split; auto.
        eapply nth_error_In; eauto.
    + pose proof (best_index_none _ _ bg_lt_asym bg_lt_tr _ E) as No.
      destruct (G H) as (e & He & A & Min). exists e. split; [auto|]. split; [auto|]. split.
      * intros [_ [x [Hx Hb]]]. rewrite No in Hb; auto. discriminate.
      * auto.
  - apply Nat.leb_gt in Eb. destruct (G H) as (e & He & A & Min).
    exists e. split; [auto|]. split; [auto|]. split; [intros [? _]; lia|auto].
Qed.

Lemma winner_none q act b :
  best_with_fairness q act b = None -> forall x, In x q -> In (e_root x) act.
Proof.
  unfold best_with_fairness. intros H x Hx.
  assert (G : best_admissible q act = None).
  { destruct (Nat.leb MAX_BURST b); auto.
    destruct (best_index (admissible_bg act) bg_lt q); [discriminate|auto]. }
  pose proof (best_index_none _ _ entry_lt_asym entry_lt_tr _ G x Hx) as A.
  unfold admissible in A. apply negb_false_iff in A. now apply mem_In.
Qed.

(** ** Core invariant *)

Record Core (s : state) : Prop := {
  c_np : panicked s = false;
  c_ent : forall e, In e (queued s) -> exists t, nth_error (tasks s) (e_id e) = Some t /\
            inq t = true /\ e_root e = t_root t /\ e_requested e = t_prio t /\
            e_order e = e_id e /\
            e_priority e = effective_priority (e_root e) (e_requested e) (active_project s);
  c_nd : NoDup (map e_id (queued s));
  c_inq : forall i t, nth_error (tasks s) i = Some t -> inq t = true ->
            exists e, In e (queued s) /\ e_id e = i;
  c_perm : Permutation (active_projects s) (map t_root (filter holding_phase (tasks s)));
  c_apnd : NoDup (active_projects s);
  c_act : active s = length (active_projects s);
  c_lim : active s <= limit s;
  c_burst : burst s <= 1 }.

Lemma core_init lim : Core (init lim).
Proof.
  constructor; simpl; auto; try lia; try constructor; try easy.
  intros i t H. destruct i; discriminate.
Qed.

(** Replacing task [i] by one of the same class keeps the invariant. *)
Lemma core_set_task s i t t' :
  Core s -> nth_error (tasks s) i = Some t ->
  holding_phase t' = holding_phase t -> inq t' = inq t ->
  t_root t' = t_root t -> t_prio t' = t_prio t ->
  Core (set_task s i t').
Proof.
  intros C Hi Hh Hq Hr Hp. destruct C. unfold set_task.
  constructor; simpl; auto.
  - intros e He. destruct (c_ent0 e He) as (u & Hu & ? & ? & ? & ? & ?).
    rewrite nth_upd. destruct (Nat.eqb_spec i (e_id e)) as [->|N].
    + rewrite Hi. rewrite Hi in Hu. injection Hu as <-. exists t'.
      rewrite Hq, Hr, Hp. repeat split; auto.
    + exists u. repeat split; auto.
  - intros j u Hj Hu. rewrite nth_upd in Hj. destruct (Nat.eqb_spec i j) as [->|N].
    + rewrite Hi in Hj. injection Hj as <-. rewrite Hq in Hu. eauto.
    + eauto.
  - destruct (upd_split _ i t' t Hi) as (l1 & l2 & E1 & _ & E2).
    rewrite E2. rewrite E1 in c_perm0.
    rewrite filter_app, map_app in *. simpl in *. rewrite Hh.
    destruct (holding_phase t); simpl in *; auto. now rewrite Hr.
Qed.

Lemma wake_root t : t_root (wake t) = t_root t.
Proof. destruct t as [r p c []]; reflexivity. Qed.
Lemma wake_prio t : t_prio (wake t) = t_prio t.
Proof. destruct t as [r p c []]; reflexivity. Qed.
Lemma wake_inq t : inq (wake t) = inq t.
Proof. destruct t as [r p c []]; reflexivity. Qed.
Lemma wake_holding t : holding_phase (wake t) = holding_phase t.
Proof. destruct t as [r p c []]; reflexivity. Qed.

Lemma map_filter_wake l :
  map t_root (filter holding_phase (map wake l)) = map t_root (filter holding_phase l).
Proof.
  induction l as [|a l IH]; simpl; auto. rewrite wake_holding.
  destruct (holding_phase a); simpl; rewrite IH; auto. now rewrite wake_root.
Qed.

Lemma core_notify s : Core s -> Core (notify_all s).
Proof.
  intros []. constructor; simpl; auto.
  - intros e He. destruct (c_ent0 e He) as (t & Ht & ? & ? & ? & ? & ?).
    exists (wake t). rewrite nth_error_map, Ht. simpl.
    rewrite wake_inq, wake_root, wake_prio. repeat split; auto.
  - intros i t Hi Hq. rewrite nth_error_map in Hi.
    destruct (nth_error (tasks s) i) eqn:E; simpl in Hi; [|discriminate].
    injection Hi as <-. rewrite wake_inq in Hq. eauto.
  - now rewrite map_filter_wake.
Qed.

Lemma core_owed s k : Core s ->
  Core (mkState (limit s) (active s) (active_projects s) (queued s)
         (active_project s) (reprioritizations s) (burst s) (tasks s) k (panicked s)).
Proof. intros []. constructor; simpl; auto. Qed.

Lemma core_ticket s r p : Core s -> Core (step s (OTicket r p)).
Proof.
  intros C. unfold step. rewrite (c_np s C). unfold step_ok. destruct C. constructor; simpl; auto.
  - intros e He. destruct (c_ent0 e He) as (t & Ht & R). exists t. split; auto.
    rewrite nth_error_app1; auto. apply nth_error_Some. congruence.
  - intros i t Hi Hq. destruct (Nat.lt_ge_cases i (length (tasks s))).
    + rewrite nth_error_app1 in Hi by auto. eauto.
    + rewrite nth_error_app2 in Hi by auto. destruct (i - length (tasks s)) as [|k]; simpl in Hi.
      * injection Hi as <-. discriminate.
      * destruct k; discriminate.
  - rewrite filter_app, map_app. simpl. now rewrite app_nil_r.
Qed.

Lemma core_prioritize s r : Core s -> Core (prioritize_step s r).
Proof.
  intros C. destruct C. constructor; simpl; auto.
  - intros e He. apply in_map_iff in He as (e0 & <- & He0). simpl.
    destruct (c_ent0 e0 He0) as (t & Ht & ? & ? & ? & ? & ?).
    exists t. repeat split; auto.
  - rewrite map_map. simpl. exact c_nd0.
  - intros i t Hi Hq. destruct (c_inq0 i t Hi Hq) as (e & He & <-).
    eexists. split; [apply in_map; exact He|]. reflexivity.
Qed.

Lemma filter_upd_flip l i t t' :
  nth_error l i = Some t -> holding_phase t = false -> holding_phase t' = true ->
  Permutation (map t_root (filter holding_phase (upd l i t')))
              (t_root t' :: map t_root (filter holding_phase l)).
Proof.
  intros Hi H0 H1. destruct (upd_split l i t' t Hi) as (l1 & l2 & E1 & _ & E2).
  rewrite E2, E1. rewrite !filter_app, !map_app. simpl. rewrite H0, H1. simpl.
  symmetry. apply Permutation_middle.
Qed.

Lemma filter_upd_same l i t t' :
  nth_error l i = Some t -> holding_phase t = false -> holding_phase t' = false ->
  filter holding_phase (upd l i t') = filter holding_phase l.
Proof.
  intros Hi H0 H1. destruct (upd_split l i t' t Hi) as (l1 & l2 & E1 & _ & E2).
  rewrite E2, E1. rewrite !filter_app. simpl. now rewrite H0, H1.
Qed.

Lemma core_push s i t : Core s -> nth_error (tasks s) i = Some t -> t_phase t = PTicketed ->
  Core (mkState (limit s) (active s) (active_projects s)
         (queued s ++ [mkEntry i (t_root t) (t_prio t)
            (effective_priority (t_root t) (t_prio t) (active_project s)) i])
         (active_project s) (reprioritizations s) (burst s)
         (upd (tasks s) i (with_phase t PPushed)) (owed s) (panicked s)).
Proof.
  intros [] Hi Hp. constructor; simpl; auto.
  - intros e He. rewrite nth_upd. apply in_app_iff in He as [He|[<-|[]]]; simpl.
    + destruct (c_ent0 e He) as (u & Hu & Q & R).
      destruct (Nat.eqb_spec i (e_id e)) as [->|N].
      * rewrite Hi in Hu. injection Hu as <-. unfold inq in Q. rewrite Hp in Q. discriminate.
      * exists u. auto.
    + rewrite Nat.eqb_refl, Hi. eexists. repeat split; reflexivity.
  - rewrite map_app. simpl. apply NoDup_app_comm || idtac.
    apply (Permutation_NoDup (l := i :: map e_id (queued s))).
    + apply Permutation_cons_append.
    + constructor; auto. intros Hin. apply in_map_iff in Hin as (e & E & He).
      destruct (c_ent0 e He) as (u & Hu & Q & _). rewrite E, Hi in Hu. injection Hu as <-.
      unfold inq in Q. rewrite Hp in Q. discriminate.
  - intros j u Hj Hq. rewrite nth_upd in Hj. destruct (Nat.eqb_spec i j) as [->|N].
    + eexists. split; [apply in_app_iff; right; left; reflexivity|reflexivity].
    + destruct (c_inq0 j u Hj Hq) as (e & He & E). exists e. split; auto.
      apply in_app_iff; auto.
  - rewrite (filter_upd_same _ _ t); auto. unfold holding_phase. now rewrite Hp.
Qed.

Lemma in_swap_remove {A} (l : list A) i x y :
  nth_error l i = Some x -> In y (swap_remove l i) -> In y l.
Proof.
  intros H Hy. eapply Permutation_in; [symmetry; apply (swap_remove_perm _ _ _ H)|].
  now right.
Qed.

(** The queue after removing the entry of task [i]. *)
Lemma remove_entry_facts s i w e :
  Core s -> nth_error (queued s) w = Some e -> e_id e = i ->
  NoDup (map e_id (swap_remove (queued s) w)) /\
  (forall x, In x (swap_remove (queued s) w) -> In x (queued s) /\ e_id x <> i) /\
  (forall x, In x (queued s) -> e_id x <> i -> In x (swap_remove (queued s) w)).
Proof.
  intros C Hw Hi. pose proof (swap_remove_perm _ _ _ Hw) as P.
  pose proof (c_nd s C) as ND.
  assert (ND2 : NoDup (map e_id (e :: swap_remove (queued s) w))).
  { eapply Permutation_NoDup; [apply Permutation_map; exact P|exact ND]. }
  simpl in ND2. inversion ND2 as [|? ? NI ND3]; subst. split; [auto|]. split.
  - intros x Hx. split; [eapply in_swap_remove; eauto|].
    intros E. apply NI. rewrite <- E. now apply in_map.
  - intros x Hx Nx. eapply Permutation_in in P; [|exact Hx]. destruct P as [->|P]; auto.
    congruence.
Qed.

Lemma core_admit s i t w e b' :
  Core s -> nth_error (tasks s) i = Some t -> inq t = true ->
  nth_error (queued s) w = Some e -> e_id e = i ->
  ~ In (e_root e) (active_projects s) -> active s < limit s -> b' <= 1 ->
  Core (mkState (limit s) (S (active s)) (e_root e :: active_projects s)
         (swap_remove (queued s) w) (active_project s) (reprioritizations s) b'
         (upd (tasks s) i (mkTask (e_root e) (t_prio t) (t_cancelled t) PAdmitted))
         (owed s) (panicked s)).
Proof.
  intros C Hi Hq Hw He Hn Hl Hb.
  destruct (remove_entry_facts s i w e C Hw He) as (ND & IN & IN2).
  assert (Hh : holding_phase t = false).
  { unfold inq in Hq. unfold holding_phase. now destruct (t_phase t). }
  destruct C. constructor; simpl; auto.
  - intros x Hx. apply IN in Hx as [Hx Nx].
    destruct (c_ent0 x Hx) as (u & Hu & R). exists u. rewrite nth_upd_neq; auto.
  - intros j u Hj Hu. rewrite nth_upd in Hj. destruct (Nat.eqb_spec i j) as [->|N].
    + rewrite Hi in Hj. injection Hj as <-. discriminate.
    + destruct (c_inq0 j u Hj Hu) as (x & Hx & E). exists x. split; auto.
      apply IN2; auto. congruence.
  - etransitivity; [|symmetry; apply (filter_upd_flip _ _ t); auto]. simpl. now constructor.
  - constructor; auto.
Qed.

Lemma core_drop s i t k e :
  Core s -> nth_error (tasks s) i = Some t -> t_phase t = PDropping ->
  nth_error (queued s) k = Some e -> e_id e = i ->
  Core (mkState (limit s) (active s) (active_projects s) (swap_remove (queued s) k)
         (active_project s) (reprioritizations s) (burst s)
         (upd (tasks s) i (with_phase t PDropOwes)) (owed s) (panicked s)).
Proof.
  intros C Hi Hp Hk He.
  destruct (remove_entry_facts s i k e C Hk He) as (ND & IN & IN2).
  destruct C. constructor; simpl; auto.
  - intros x Hx. apply IN in Hx as [Hx Nx].
    destruct (c_ent0 x Hx) as (u & Hu & R). exists u. rewrite nth_upd_neq; auto.
  - intros j u Hj Hu. rewrite nth_upd in Hj. destruct (Nat.eqb_spec i j) as [->|N].
    + rewrite Hi in Hj. injection Hj as <-. discriminate.
    + destruct (c_inq0 j u Hj Hu) as (x & Hx & E). exists x. split; auto.
      apply IN2; auto. congruence.
  - rewrite (filter_upd_same _ _ t); auto. unfold holding_phase. now rewrite Hp.
Qed.

Lemma remove_root_perm r l rest :
  NoDup l -> Permutation l (r :: rest) -> Permutation (remove_root r l) rest.
Proof.
  intros ND P. unfold remove_root.
  assert (NI : NoDup (r :: rest)) by (eapply Permutation_NoDup; eauto).
  inversion NI as [|? ? N1 N2]; subst.
  rewrite (filter_perm _ _ _ P). simpl. rewrite Nat.eqb_refl. simpl.
  clear -N1. induction rest as [|a l' IH]; simpl; auto.
  destruct (Nat.eqb_spec a r) as [->|N]; simpl.
  - exfalso. apply N1. now left.
  - apply perm_skip. apply IH. intros H. apply N1. now right.
Qed.

Lemma core_release s i t :
  Core s -> nth_error (tasks s) i = Some t -> t_phase t = PHolding ->
  In (t_root t) (active_projects s) /\ active s <> 0 /\
  Core (mkState (limit s) (active s - 1)
         (remove_root (t_root t) (active_projects s)) (queued s)
         (active_project s) (reprioritizations s) (burst s)
         (upd (tasks s) i (with_phase t PReleaseOwes)) (owed s) (panicked s)).
Proof.
  intros [] Hi Hp.
  assert (Hh : holding_phase t = true) by (unfold holding_phase; now rewrite Hp).
  destruct (upd_split _ i (with_phase t PReleaseOwes) t Hi) as (l1 & l2 & E1 & _ & E2).
  assert (P : Permutation (active_projects s)
     (t_root t :: map t_root (filter holding_phase (upd (tasks s) i (with_phase t PReleaseOwes))))).
  { rewrite c_perm0. rewrite E2. rewrite E1. rewrite !filter_app, !map_app. simpl. rewrite Hh.
    simpl. symmetry. apply Permutation_middle. }
  pose proof (remove_root_perm _ _ _ c_apnd0 P) as PR.
  assert (Hin : In (t_root t) (active_projects s)).
  { eapply Permutation_in; [symmetry; exact P|now left]. }
  pose proof (Permutation_length P) as L. simpl in L.
  pose proof (Permutation_length PR) as L2.
  split; [auto|]. split; [lia|]. constructor; simpl; auto; try lia.
  - intros e He. destruct (c_ent0 e He) as (u & Hu & Q & R). exists u. rewrite nth_upd_neq; auto.
    intros ->. rewrite Hi in Hu. injection Hu as <-. unfold inq in Q. rewrite Hp in Q. discriminate.
  - intros j u Hj Hu. rewrite nth_upd in Hj. destruct (Nat.eqb_spec i j) as [->|N]; eauto.
    rewrite Hi in Hj. injection Hj as <-. discriminate.
  - apply NoDup_filter. auto.
Qed.

(** The outcome of the critical section of [wait]. *)
Definition wins (s : state) (i w : nat) (e : entry) : Prop :=
  active s < limit s /\
  best_with_fairness (queued s) (active_projects s) (burst s) = Some w /\
  nth_error (queued s) w = Some e /\ e_id e = i.

Definition next_burst (s : state) (e : entry) : nat :=
  if prio_eqb (e_priority e) Background
     || negb (existsb (admissible_bg (active_projects s)) (queued s)) then 0 else S (burst s).

Definition admit_state (s : state) (i w : nat) (t : task) (e : entry) : state :=
  mkState (limit s) (S (active s)) (e_root e :: active_projects s)
    (swap_remove (queued s) w) (active_project s) (reprioritizations s) (next_burst s e)
    (upd (tasks s) i (mkTask (e_root e) (t_prio t) (t_cancelled t) PAdmitted))
    (owed s) (panicked s).

Lemma next_burst_le s w e : Core s ->
  best_with_fairness (queued s) (active_projects s) (burst s) = Some w ->
  nth_error (queued s) w = Some e -> next_burst s e <= 1.
Proof.
  intros C Hw He. unfold next_burst.
  destruct (winner_spec _ _ _ _ Hw) as (e' & He' & A & F & _).
  rewrite He in He'. injection He' as <-.
  destruct (existsb _ _) eqn:Ex; [|rewrite orb_true_r; auto].
  destruct (prio_eqb (e_priority e) Background) eqn:Ep; simpl; auto.
  pose proof (c_burst s C). destruct (Nat.eq_dec (burst s) 0) as [->|N]; [lia|].
  apply existsb_exists in Ex. destruct F as [F _]; [split; [lia|auto]|].
  rewrite F in Ep. discriminate.
Qed.

Lemma lock_step_cases s i t n : Core s -> nth_error (tasks s) i = Some t -> 
  t_phase t = PArmed n ->
  (t_cancelled t = true /\ lock_step s i t n = set_phase s i t PDropping) \/
  (t_cancelled t = false /\ exists w e, wins s i w e /\ ~ In (e_root e) (active_projects s) /\
     lock_step s i t n = admit_state s i w t e) \/
  (t_cancelled t = false /\ (forall w e, ~ wins s i w e) /\
     lock_step s i t n = set_phase s i t (PBlocked n)).
Proof.
  intros C Hi Hp. unfold lock_step.
  destruct (t_cancelled t) eqn:Ec; [left; auto|right].
  destruct (Nat.ltb_spec (active s) (limit s)) as [L|L].
  2:{ right. split; [auto|]. split; auto. intros w e (H & _). lia. }
  destruct (best_with_fairness (queued s) (active_projects s) (burst s)) as [w|] eqn:Ew.
  2:{ right. split; [auto|]. split; auto. intros w e (_ & H & _). congruence. }
  destruct (winner_spec _ _ _ _ Ew) as (e & He & A & _).
  rewrite He. destruct (Nat.eqb_spec (e_id e) i) as [E|N].
  - left. split; [auto|]. exists w, e. split; [repeat split; auto|]. split; [auto|].
    rewrite (proj2 (mem_false _ _) A).
    change (if prio_eqb (e_priority e) Background ||
       negb (existsb (admissible_bg (active_projects s)) (queued s)) then 0 else S (burst s))
      with (next_burst s e).
    pose proof (next_burst_le s w e C Ew He) as NB.
    destruct (Nat.ltb_spec MAX_BURST (next_burst s e)) as [B|B]; [unfold MAX_BURST in B; lia|].
    unfold admit_state. rewrite Ec. reflexivity.
  - right. split; [auto|]. split; auto. intros w' e' (_ & H1 & H2 & H3). congruence.
Qed.

Lemma core_admit_state s i w t e :
  Core s -> nth_error (tasks s) i = Some t -> inq t = true -> wins s i w e ->
  ~ In (e_root e) (active_projects s) -> Core (admit_state s i w t e).
Proof.
  intros C Hi Hq (L & W & Hw & E) A. apply core_admit; auto. eapply next_burst_le; eauto.
Qed.

(** [set_phase] within the same class. *)
Lemma core_set_phase s i t p : Core s -> nth_error (tasks s) i = Some t ->
  holding_phase (with_phase t p) = holding_phase t -> inq (with_phase t p) = inq t ->
  Core (set_phase s i t p).
Proof. intros. eapply core_set_task; eauto. Qed.

Ltac cls := unfold holding_phase, inq; simpl;
  repeat match goal with H : t_phase _ = _ |- _ => rewrite H end; reflexivity.

Theorem core_step s o : Core s -> Core (step s o).
Proof.
  intros C. pose proof (c_np s C) as NP.
  destruct o; [apply core_ticket; auto| | | | | | | | | | |];
    unfold step; rewrite NP; unfold step_ok;
    try (destruct (nth_error (tasks s) i) as [t|] eqn:Hi; [|exact C]);
    try (destruct (t_phase t) eqn:Hp; try exact C).
  - apply core_push; auto.
  - apply core_notify, core_set_phase; auto; cls.
  - apply core_notify, core_set_phase; auto; cls.
  - apply core_notify, core_set_phase; auto; cls.
  - apply core_notify, core_set_phase; auto; cls.
  - eapply core_set_task; eauto; cls.
  - eapply core_set_task; eauto; cls.
  - eapply core_set_task; eauto; cls.
  - eapply core_set_task; eauto; cls.
  - eapply core_set_task; eauto; cls.
  - eapply core_set_task; eauto; cls.
  - eapply core_set_task; eauto; cls.
  - eapply core_set_task; eauto; cls.
  - eapply core_set_task; eauto; cls.
  - eapply core_set_task; eauto; cls.
  - eapply core_set_task; eauto; cls.
  - destruct (t_cancelled t); apply core_set_phase; auto; cls.
  - destruct (lock_step_cases s i t n C Hi Hp) as [[_ ->]|[[_ (w & e & W & A & ->)]|[_ [_ ->]]]].
    + apply core_set_phase; auto; cls.
    + apply core_admit_state; auto; cls.
    + apply core_set_phase; auto; cls.
  - destruct (t_cancelled t); [apply core_set_phase; auto; cls|].
    destruct n; auto. apply core_set_phase; auto; cls.
  - apply core_set_phase; auto; cls.
  - apply core_set_phase; auto; cls.
  - destruct (position _ (queued s)) as [k|] eqn:Ek.
    + apply position_some in Ek as (e & Hk & E). apply Nat.eqb_eq in E.
      eapply core_drop; eauto.
    + exfalso. destruct (c_inq s C i t Hi) as (e & He & E); [cls|].
      apply (position_none _ _ Ek) in He. rewrite E, Nat.eqb_refl in He. discriminate.
  - destruct (core_release s i t C Hi Hp) as (H1 & H2 & H3).
    destruct (Nat.eqb_spec (active s) 0); [lia|].
    rewrite (proj2 (mem_In _ _) H1). simpl. exact H3.
  - apply core_prioritize; auto.
  - destruct (owed s); auto. apply core_notify. apply core_owed. auto.
Qed.

Lemma core_run ops : forall s, Core s -> Core (run s ops).
Proof. induction ops; simpl; auto. intros. apply IHops, core_step; auto. Qed.

Lemma core_reachable lim s : reachable lim s -> Core s.
Proof. intros [ops ->]. apply core_run, core_init. Qed.
