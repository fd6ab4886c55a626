(** Lemmas about the resource-governor model. *)
From Coq Require Import List Arith Lia Bool Permutation.
From Verif Require Import Lib Governor_Model Governor_Spec.
Import ListNotations.
Local Arguments effective_priority : simpl never.

Definition inq (t : task) : bool :=
  match t_phase t with
  | PTop | PArmed _ | PBlocked _ | PCancelling | PDropping => true
  | _ => false
  end.

(** ** The selector *)
Lemma order_lt_spec a b : order_lt a b = true <->
  q_order a < q_order b \/ (q_order a = q_order b /\
     root_rank (w_root (q_spec a)) < root_rank (w_root (q_spec b))).
Proof. unfold order_lt. rewrite orb_true_iff, andb_true_iff, Nat.eqb_eq, !Nat.ltb_lt. lia. Qed.

Lemma order_lt_false a b : order_lt a b = false <->
  ~ (q_order a < q_order b \/ (q_order a = q_order b /\
     root_rank (w_root (q_spec a)) < root_rank (w_root (q_spec b)))).
Proof. rewrite <- order_lt_spec. destruct (order_lt a b); split; congruence. Qed.

Lemma work_lt_spec a b : work_lt a b = true <->
  rank (q_prio a) < rank (q_prio b) \/
  (rank (q_prio a) = rank (q_prio b) /\
   (q_order a < q_order b \/ (q_order a = q_order b /\
     root_rank (w_root (q_spec a)) < root_rank (w_root (q_spec b))))).
Proof. unfold work_lt. rewrite orb_true_iff, andb_true_iff, Nat.eqb_eq, Nat.ltb_lt, order_lt_spec. lia. Qed.

Lemma work_lt_false a b : work_lt a b = false <->
  ~ (rank (q_prio a) < rank (q_prio b) \/
  (rank (q_prio a) = rank (q_prio b) /\
   (q_order a < q_order b \/ (q_order a = q_order b /\
     root_rank (w_root (q_spec a)) < root_rank (w_root (q_spec b)))))).
Proof. rewrite <- work_lt_spec. destruct (work_lt a b); split; congruence. Qed.

Lemma order_lt_asym x y : order_lt x y = true -> order_lt y x = false.
Proof. rewrite order_lt_spec, order_lt_false. lia. Qed.
Lemma order_lt_tr x y z : order_lt x y = false -> order_lt y z = false -> order_lt x z = false.
Proof. rewrite !order_lt_false. lia. Qed.
Lemma work_lt_asym x y : work_lt x y = true -> work_lt y x = false.
Proof. rewrite work_lt_spec, work_lt_false. lia. Qed.
Lemma work_lt_tr x y z : work_lt x y = false -> work_lt y z = false -> work_lt x z = false.
Proof. rewrite !work_lt_false. lia. Qed.

Lemma prio_eqb_eq a b : prio_eqb a b = true <-> a = b.
Proof. unfold prio_eqb. rewrite Nat.eqb_eq. destruct a, b; simpl; split; congruence || auto. Qed.

Lemma root_eqb_eq a b : root_eqb a b = true <-> a = b.
Proof.
  destruct a, b; simpl; split; try congruence; auto.
  - intros H. apply Nat.eqb_eq in H. congruence.
  - intros H. injection H as ->. apply Nat.eqb_refl.
Qed.

Lemma fits_bg_iff p a q : fits_bg p a q = true <-> q_prio q = Background /\ fits_q p a q = true.
Proof. unfold fits_bg. now rewrite andb_true_iff, prio_eqb_eq. Qed.

Lemma winner_spec p a w : winner p a = Some w ->
  exists q, nth_error (queued a) w = Some q /\ fits_q p a q = true /\
    ((burst a >= 1 /\ exists x, In x (queued a) /\ fits_bg p a x = true) ->
       q_prio q = Background /\
       forall x, In x (queued a) -> fits_bg p a x = true -> q_order q <= q_order x) /\
    (~ (burst a >= 1 /\ exists x, In x (queued a) /\ fits_bg p a x = true) ->
       forall x, In x (queued a) -> fits_q p a x = true ->
         rank (q_prio q) < rank (q_prio x) \/
         (rank (q_prio q) = rank (q_prio x) /\ q_order q <= q_order x)).
Proof.
  unfold winner, MAX_BURST. intros H.
  assert (G : best_index (fits_q p a) work_lt (queued a) = Some w ->
     exists q, nth_error (queued a) w = Some q /\ fits_q p a q = true /\
       forall x, In x (queued a) -> fits_q p a x = true ->
         rank (q_prio q) < rank (q_prio x) \/
         (rank (q_prio q) = rank (q_prio x) /\ q_order q <= q_order x)).
  { intros G. apply (best_index_some _ _ work_lt_asym work_lt_tr) in G as (q & Hq & Ok & Min).
    exists q. split; [auto|]. split; auto. intros x Hx Hf. specialize (Min x Hx Hf).
    rewrite work_lt_false in Min. lia. }
  destruct (Nat.leb 1 (burst a)) eqn:Eb.
  - apply Nat.leb_le in Eb.
    destruct (best_index (fits_bg p a) order_lt (queued a)) as [i|] eqn:E.
    + injection H as ->.
      apply (best_index_some _ _ order_lt_asym order_lt_tr) in E as (q & Hq & Ok & Min).
      exists q. split; [auto|]. pose proof Ok as Ok'. apply fits_bg_iff in Ok as [P A].
      split; [auto|]. split.
      * intros _. split; auto. intros x Hx Hb. specialize (Min x Hx Hb).
        apply order_lt_false in Min. lia.
      * intros N. exfalso. apply N. split; [lia|]. exists q. split; auto.
        eapply nth_error_In; eauto.
    + pose proof (best_index_none _ _ order_lt_asym order_lt_tr _ E) as No.
      destruct (G H) as (q & Hq & A & Min). exists q. split; [auto|]. split; [auto|]. split; auto.
      intros [_ [x [Hx Hb]]]. rewrite No in Hb; auto. discriminate.
  - apply Nat.leb_gt in Eb. destruct (G H) as (q & Hq & A & Min).
    exists q. split; [auto|]. split; [auto|]. split; [intros [? _]; lia|auto].
Qed.

Lemma winner_none p a : winner p a = None -> forall x, In x (queued a) -> fits_q p a x = false.
Proof.
  unfold winner. intros H x Hx.
  assert (G : best_index (fits_q p a) work_lt (queued a) = None).
  { destruct (Nat.leb MAX_BURST (burst a)); auto.
    destruct (best_index (fits_bg p a) order_lt (queued a)); [discriminate|auto]. }
  apply (best_index_none _ _ work_lt_asym work_lt_tr _ G x Hx).
Qed.

(** ** Sums over leases *)
Lemma total_app f l1 l2 : total f (l1 ++ l2) = total f l1 + total f l2.
Proof. induction l1; simpl; lia. Qed.

Lemma total_upd f l i t t' : nth_error l i = Some t ->
  total f (upd l i t') + (if leased t then f (t_spec t) else 0)
  = total f l + (if leased t' then f (t_spec t') else 0).
Proof.
  intros H. destruct (upd_split l i t' t H) as (l1 & l2 & -> & _ & ->).
  rewrite !total_app. simpl. lia.
Qed.

Lemma total_wake f l : total f (map wake l) = total f l.
Proof.
  induction l as [|t l IH]; simpl; auto. rewrite IH. now destruct t as [w c []].
Qed.

Lemma count_wake l : count leased (map wake l) = count leased l.
Proof. induction l as [|t l IH]; simpl; auto. rewrite IH. now destruct t as [w c []]. Qed.

Lemma total_zero f l : count leased l = 0 -> total f l = 0.
Proof.
  induction l as [|t l IH]; simpl; auto. destruct (leased t); [lia|]. intros H. rewrite IH; auto.
Qed.

Lemma total_one f l i t : nth_error l i = Some t -> leased t = true -> f (t_spec t) <= total f l.
Proof.
  revert i. induction l as [|a l IH]; intros [|i] H L; simpl in *; try discriminate.
  - injection H as ->. rewrite L. lia.
  - specialize (IH i H L). lia.
Qed.

(** ** Core invariant *)
Record Core (s : state) : Prop := {
  c_np : panicked s = false;
  c_ent : forall q, In q (queued (adm s)) -> exists t, nth_error (tasks s) (q_id q) = Some t /\
            inq t = true /\ q_spec q = t_spec t /\ q_order q = q_id q /\
            q_prio q = effective_priority (q_spec q) (active_project (adm s));
  c_nd : NoDup (map q_id (queued (adm s)));
  c_inq : forall i t, nth_error (tasks s) i = Some t -> inq t = true ->
            exists q, In q (queued (adm s)) /\ q_id q = i;
  c_tasks : a_tasks (adm s) = count leased (tasks s);
  c_cpu : a_cpu (adm s) = total w_cpu (tasks s);
  c_mem : a_mem (adm s) = total w_mem (tasks s);
  c_io : a_io (adm s) = total w_io (tasks s);
  c_ltasks : a_tasks (adm s) <= peak_tasks (adm s) <= p_tasks (pol s);
  c_lcpu : a_cpu (adm s) <= peak_cpu (adm s) <= p_cpu (pol s);
  c_lmem : a_mem (adm s) <= peak_mem (adm s) <= p_mem (pol s);
  c_lio : a_io (adm s) <= peak_io (adm s) <= p_io (pol s);
  c_burst : burst (adm s) <= 1;
  c_fit : forall t, In t (tasks s) -> fits_policy (t_spec t) (pol s) = true }.

Lemma core_init p : Core (init p).
Proof.
  constructor; simpl; auto; try lia; try constructor; try easy.
  intros i t H. destruct i; discriminate.
Qed.

Lemma core_local s i t t' :
  Core s -> nth_error (tasks s) i = Some t ->
  leased t' = leased t -> inq t' = inq t -> t_spec t' = t_spec t ->
  Core (set_tasks s (upd (tasks s) i t')).
Proof.
  intros C Hi Hh Hq Hr. destruct C. constructor; simpl; auto.
  - intros e He. destruct (c_ent0 e He) as (u & Hu & ? & ? & ? & ?).
    rewrite nth_upd. destruct (Nat.eqb_spec i (q_id e)) as [->|N].
    + rewrite Hi. rewrite Hi in Hu. injection Hu as <-. exists t'.
      rewrite Hq, Hr. repeat split; auto.
    + exists u. repeat split; auto.
  - intros j u Hj Hu. rewrite nth_upd in Hj. destruct (Nat.eqb_spec i j) as [->|N].
    + rewrite Hi in Hj. injection Hj as <-. rewrite Hq in Hu. eauto.
    + eauto.
  - pose proof (count_upd leased _ _ t' _ Hi) as E. rewrite Hh in E. lia.
  - pose proof (total_upd w_cpu _ _ _ t' Hi) as E. rewrite Hh, Hr in E. lia.
  - pose proof (total_upd w_mem _ _ _ t' Hi) as E. rewrite Hh, Hr in E. lia.
  - pose proof (total_upd w_io _ _ _ t' Hi) as E. rewrite Hh, Hr in E. lia.
  - intros u Hu. apply in_upd in Hu as [->|Hu]; auto. rewrite Hr. apply c_fit0.
    eapply nth_error_In; eauto.
Qed.

Lemma wake_spec t : t_spec (wake t) = t_spec t.
Proof. destruct t as [w c []]; reflexivity. Qed.
Lemma wake_inq t : inq (wake t) = inq t.
Proof. destruct t as [w c []]; reflexivity. Qed.
Lemma wake_leased t : leased (wake t) = leased t.
Proof. destruct t as [w c []]; reflexivity. Qed.

Lemma core_notify s : Core s -> Core (notify_all s).
Proof.
  intros []. constructor; simpl; auto.
  - intros e He. destruct (c_ent0 e He) as (t & Ht & ? & ? & ? & ?).
    exists (wake t). rewrite nth_error_map, Ht. simpl.
    rewrite wake_inq, wake_spec. repeat split; auto.
  - intros i t Hi Hq. rewrite nth_error_map in Hi.
    destruct (nth_error (tasks s) i) eqn:E; simpl in Hi; [|discriminate].
    injection Hi as <-. rewrite wake_inq in Hq. eauto.
  - now rewrite count_wake.
  - now rewrite total_wake.
  - now rewrite total_wake.
  - now rewrite total_wake.
  - intros t Ht. apply in_map_iff in Ht as (u & <- & Hu). rewrite wake_spec. auto.
Qed.

Lemma core_owed s k : Core s -> Core (mkState (pol s) (adm s) (tasks s) k (panicked s)).
Proof. intros []. constructor; simpl; auto. Qed.

Lemma core_ticket s w : Core s -> fits_policy w (pol s) = true ->
  Core (set_tasks s (tasks s ++ [mkTask w false PTicketed])).
Proof.
  intros [] F. constructor; simpl; auto.
  - intros e He. destruct (c_ent0 e He) as (t & Ht & R). exists t. split; auto.
    rewrite nth_error_app1; auto. apply nth_error_Some. congruence.
  - intros i t Hi Hq. destruct (Nat.lt_ge_cases i (length (tasks s))).
    + rewrite nth_error_app1 in Hi by auto. eauto.
    + rewrite nth_error_app2 in Hi by auto. destruct (i - length (tasks s)) as [|k]; simpl in Hi.
      * injection Hi as <-. discriminate.
      * destruct k; discriminate.
  - rewrite count_app. simpl. lia.
  - rewrite total_app. simpl. lia.
  - rewrite total_app. simpl. lia.
  - rewrite total_app. simpl. lia.
  - intros t Ht. apply in_app_iff in Ht as [Ht|[<-|[]]]; auto.
Qed.

Lemma core_prioritize s r nav : Core s -> Core (prioritize_step s r nav).
Proof.
  intros []. constructor; simpl; auto.
  - intros e He. apply in_map_iff in He as (e0 & <- & He0). simpl.
    destruct (c_ent0 e0 He0) as (t & Ht & ? & ? & ? & ?). exists t. repeat split; auto.
  - rewrite map_map. simpl. exact c_nd0.
  - intros i t Hi Hq. destruct (c_inq0 i t Hi Hq) as (e & He & <-).
    eexists. split; [apply in_map; exact He|]. reflexivity.
Qed.

Lemma core_nav s r v : Core s -> Core (nav_step s r v).
Proof.
  intros C. unfold nav_step. destruct (_ && _); auto. destruct C. constructor; simpl; auto.
Qed.

Lemma core_push s i t : Core s -> nth_error (tasks s) i = Some t -> t_phase t = PTicketed ->
  Core (set_adm s (set_queue (adm s) (queued (adm s) ++
         [mkWork i (t_spec t) (effective_priority (t_spec t) (active_project (adm s))) i]))
         (upd (tasks s) i (with_phase t PTop))).
Proof.
  intros [] Hi Hp.
  assert (Hl : leased t = false) by (unfold leased; now rewrite Hp).
  constructor; simpl; auto.
  - intros e He. rewrite nth_upd. apply in_app_iff in He as [He|[<-|[]]]; simpl.
    + destruct (c_ent0 e He) as (u & Hu & Q & R).
      destruct (Nat.eqb_spec i (q_id e)) as [->|N].
      * rewrite Hi in Hu. injection Hu as <-. unfold inq in Q. rewrite Hp in Q. discriminate.
      * exists u. auto.
    + rewrite Nat.eqb_refl, Hi. eexists. repeat split; reflexivity.
  - rewrite map_app. simpl.
    apply (Permutation_NoDup (l := i :: map q_id (queued (adm s)))).
    + apply Permutation_cons_append.
    + constructor; auto. intros Hin. apply in_map_iff in Hin as (e & E & He).
      destruct (c_ent0 e He) as (u & Hu & Q & _). rewrite E, Hi in Hu. injection Hu as <-.
      unfold inq in Q. rewrite Hp in Q. discriminate.
  - intros j u Hj Hq. rewrite nth_upd in Hj. destruct (Nat.eqb_spec i j) as [->|N].
    + eexists. split; [apply in_app_iff; right; left; reflexivity|reflexivity].
    + destruct (c_inq0 j u Hj Hq) as (e & He & E). exists e. split; auto.
      apply in_app_iff; auto.
  - pose proof (count_upd leased _ _ (with_phase t PTop) _ Hi) as E. rewrite Hl in E. simpl in E. lia.
  - pose proof (total_upd w_cpu _ _ _ (with_phase t PTop) Hi) as E. rewrite Hl in E. simpl in E. lia.
  - pose proof (total_upd w_mem _ _ _ (with_phase t PTop) Hi) as E. rewrite Hl in E. simpl in E. lia.
  - pose proof (total_upd w_io _ _ _ (with_phase t PTop) Hi) as E. rewrite Hl in E. simpl in E. lia.
  - intros u Hu. apply in_upd in Hu as [->|Hu]; auto. apply (c_fit0 t). eapply nth_error_In; eauto.
Qed.

Lemma remove_entry_facts s i w e :
  Core s -> nth_error (queued (adm s)) w = Some e -> q_id e = i ->
  NoDup (map q_id (swap_remove (queued (adm s)) w)) /\
  (forall x, In x (swap_remove (queued (adm s)) w) -> In x (queued (adm s)) /\ q_id x <> i) /\
  (forall x, In x (queued (adm s)) -> q_id x <> i -> In x (swap_remove (queued (adm s)) w)).
Proof.
  intros C Hw Hi. pose proof (swap_remove_perm _ _ _ Hw) as P.
  pose proof (c_nd s C) as ND.
  assert (ND2 : NoDup (map q_id (e :: swap_remove (queued (adm s)) w))).
  { eapply Permutation_NoDup; [apply Permutation_map; exact P|exact ND]. }
  simpl in ND2. inversion ND2 as [|? ? NI ND3]; subst. split; [auto|]. split.
  - intros x Hx. split.
    + eapply Permutation_in; [symmetry; exact P|]. now right.
    + intros E. apply NI. rewrite <- E. now apply in_map.
  - intros x Hx Nx. eapply Permutation_in in P; [|exact Hx]. destruct P as [->|P]; auto.
    congruence.
Qed.

Lemma fits_iff p a w : fits p a w = true <->
  blocked_by_navigation w a = false /\ a_tasks a < p_tasks p /\ a_cpu a + w_cpu w <= p_cpu p /\
  a_mem a + w_mem w <= p_mem p /\ a_io a + w_io w <= p_io p.
Proof.
  unfold fits. rewrite !andb_true_iff, negb_true_iff, Nat.ltb_lt, !Nat.leb_le. tauto.
Qed.

Definition wins (s : state) (i w : nat) (q : work) : Prop :=
  winner (pol s) (adm s) = Some w /\ nth_error (queued (adm s)) w = Some q /\ q_id q = i.

Definition other_bg (s : state) (i : nat) : bool :=
  existsb (fun x => negb (Nat.eqb (q_id x) i) && fits_bg (pol s) (adm s) x) (queued (adm s)).

Definition next_burst (s : state) (i : nat) (q : work) : nat :=
  if prio_eqb (q_prio q) Background || negb (other_bg s i) then 0 else S (burst (adm s)).

Definition admit_state (s : state) (i w : nat) (t : task) (q : work) : state :=
  set_adm s (reserve (adm s) (swap_remove (queued (adm s)) w) (q_spec q) (next_burst s i q))
    (upd (tasks s) i (mkTask (q_spec q) (t_cancelled t) PHolding)).

Lemma next_burst_le s i w q : Core s -> wins s i w q -> next_burst s i q <= 1.
Proof.
  intros C (Hw & He & Hi). unfold next_burst, other_bg.
  destruct (winner_spec _ _ _ Hw) as (e' & He' & A & F & _).
  rewrite He in He'. injection He' as <-.
  destruct (existsb _ _) eqn:Ex; [|rewrite orb_true_r; auto].
  destruct (prio_eqb (q_prio q) Background) eqn:Ep; simpl; auto.
  pose proof (c_burst s C). destruct (Nat.eq_dec (burst (adm s)) 0) as [->|N]; [lia|].
  apply existsb_exists in Ex as (x & Hx & Ex). apply andb_true_iff in Ex as [_ Ex].
  destruct F as [F _]; [split; [lia|eauto]|].
  rewrite F in Ep. discriminate.
Qed.

Lemma core_admit s i t w q :
  Core s -> nth_error (tasks s) i = Some t -> inq t = true -> wins s i w q ->
  fits (pol s) (adm s) (q_spec q) = true -> Core (admit_state s i w t q).
Proof.
  intros C Hi Hq Wn F. pose proof (next_burst_le s i w q C Wn) as NB.
  destruct Wn as (Hw & He & Ei).
  destruct (remove_entry_facts s i w q C He Ei) as (ND & IN & IN2).
  assert (Hl : leased t = false).
  { unfold inq in Hq. unfold leased. now destruct (t_phase t). }
  apply fits_iff in F as (_ & F1 & F2 & F3 & F4).
  set (t' := mkTask (q_spec q) (t_cancelled t) PHolding).
  destruct C. unfold admit_state. fold t'. constructor; simpl; auto; try lia.
  - intros x Hx. apply IN in Hx as [Hx Nx].
    destruct (c_ent0 x Hx) as (u & Hu & R). exists u. rewrite nth_upd_neq; auto.
  - intros j u Hj Hu. rewrite nth_upd in Hj. destruct (Nat.eqb_spec i j) as [->|N].
    + rewrite Hi in Hj. injection Hj as <-. discriminate.
    + destruct (c_inq0 j u Hj Hu) as (x & Hx & E). exists x. split; auto.
      apply IN2; auto. congruence.
  - pose proof (count_upd leased _ _ t' _ Hi) as E. rewrite Hl in E. simpl in E. lia.
  - pose proof (total_upd w_cpu _ _ _ t' Hi) as E. rewrite Hl in E. simpl in E. lia.
  - pose proof (total_upd w_mem _ _ _ t' Hi) as E. rewrite Hl in E. simpl in E. lia.
  - pose proof (total_upd w_io _ _ _ t' Hi) as E. rewrite Hl in E. simpl in E. lia.
  - intros u Hu. apply in_upd in Hu as [->|Hu]; auto. simpl.
    destruct (c_ent0 q (nth_error_In _ _ He)) as (v & Hv & _ & E & _). rewrite E.
    apply c_fit0. eapply nth_error_In; eauto.
Qed.

Lemma core_drop s i t k e :
  Core s -> nth_error (tasks s) i = Some t -> t_phase t = PDropping ->
  nth_error (queued (adm s)) k = Some e -> q_id e = i ->
  Core (set_adm s (set_queue (adm s) (swap_remove (queued (adm s)) k))
          (upd (tasks s) i (with_phase t PDropOwes))).
Proof.
  intros C Hi Hp Hk He.
  destruct (remove_entry_facts s i k e C Hk He) as (ND & IN & IN2).
  assert (Hl : leased t = false) by (unfold leased; now rewrite Hp).
  set (t' := with_phase t PDropOwes).
  destruct C. constructor; simpl; auto.
  - intros x Hx. apply IN in Hx as [Hx Nx].
    destruct (c_ent0 x Hx) as (u & Hu & R). exists u. rewrite nth_upd_neq; auto.
  - intros j u Hj Hu. rewrite nth_upd in Hj. destruct (Nat.eqb_spec i j) as [->|N].
    + rewrite Hi in Hj. injection Hj as <-. discriminate.
    + destruct (c_inq0 j u Hj Hu) as (x & Hx & E). exists x. split; auto.
      apply IN2; auto. congruence.
  - pose proof (count_upd leased _ _ t' _ Hi) as E. rewrite Hl in E. simpl in E. lia.
  - pose proof (total_upd w_cpu _ _ _ t' Hi) as E. rewrite Hl in E. simpl in E. lia.
  - pose proof (total_upd w_mem _ _ _ t' Hi) as E. rewrite Hl in E. simpl in E. lia.
  - pose proof (total_upd w_io _ _ _ t' Hi) as E. rewrite Hl in E. simpl in E. lia.
  - intros u Hu. apply in_upd in Hu as [->|Hu]; auto. simpl. apply (c_fit0 t). eapply nth_error_In; eauto.
Qed.

Lemma core_record s i t :
  Core s -> nth_error (tasks s) i = Some t -> t_phase t = PCancelling ->
  Core (set_adm s (add_cancelled_before (adm s)) (upd (tasks s) i (with_phase t PDropping))).
Proof.
  intros C Hi Hp.
  assert (C2 : Core (set_tasks s (upd (tasks s) i (with_phase t PDropping)))).
  { eapply core_local; eauto; unfold leased, inq; simpl; rewrite Hp; auto. }
  destruct C2. constructor; simpl in *; auto.
Qed.

Lemma release_ok s i t e : Core s -> nth_error (tasks s) i = Some t -> t_phase t = PHolding ->
  exists a, release (adm s) (t_spec t) e = Some a /\
    Core (set_adm s a (upd (tasks s) i (with_phase t PReleaseOwes))).
Proof.
  intros C Hi Hp.
  assert (Hl : leased t = true) by (unfold leased; now rewrite Hp).
  pose proof (total_one w_cpu _ _ _ Hi Hl). pose proof (total_one w_mem _ _ _ Hi Hl).
  pose proof (total_one w_io _ _ _ Hi Hl).
  assert (1 <= count leased (tasks s)).
  { apply count_pos. exists t. split; auto. eapply nth_error_In; eauto. }
  set (t' := with_phase t PReleaseOwes).
  destruct C. unfold release.
  rewrite (proj2 (Nat.leb_le 1 (a_tasks (adm s)))) by lia.
  rewrite (proj2 (Nat.leb_le (w_cpu (t_spec t)) _)) by lia.
  rewrite (proj2 (Nat.leb_le (w_mem (t_spec t)) _)) by lia.
  rewrite (proj2 (Nat.leb_le (w_io (t_spec t)) _)) by lia.
  simpl andb. cbv iota. eexists. split; [reflexivity|].
  constructor; simpl; auto; try lia.
  - intros q Hq. destruct (c_ent0 q Hq) as (u & Hu & Q & R). exists u. rewrite nth_upd_neq; auto.
    intros ->. rewrite Hi in Hu. injection Hu as <-. unfold inq in Q. rewrite Hp in Q. discriminate.
  - intros j u Hj Hu. rewrite nth_upd in Hj. destruct (Nat.eqb_spec i j) as [->|N]; eauto.
    rewrite Hi in Hj. injection Hj as <-. discriminate.
  - pose proof (count_upd leased _ _ t' _ Hi) as E. rewrite Hl in E. simpl in E. lia.
  - pose proof (total_upd w_cpu _ _ _ t' Hi) as E. rewrite Hl in E. simpl in E. lia.
  - pose proof (total_upd w_mem _ _ _ t' Hi) as E. rewrite Hl in E. simpl in E. lia.
  - pose proof (total_upd w_io _ _ _ t' Hi) as E. rewrite Hl in E. simpl in E. lia.
  - intros u Hu. apply in_upd in Hu as [->|Hu]; auto. simpl. apply (c_fit0 t). eapply nth_error_In; eauto.
Qed.

Lemma lock_step_cases s i t n : Core s -> nth_error (tasks s) i = Some t ->
  t_phase t = PArmed n ->
  (t_cancelled t = true /\ lock_step s i t n = set_phase s i t PCancelling) \/
  (t_cancelled t = false /\ exists w q, wins s i w q /\ fits (pol s) (adm s) (q_spec q) = true /\
     lock_step s i t n = admit_state s i w t q) \/
  (t_cancelled t = false /\ (forall w q, ~ wins s i w q) /\
     lock_step s i t n = set_phase s i t (PBlocked n)).
Proof.
  intros C Hi Hp. unfold lock_step.
  destruct (t_cancelled t) eqn:Ec; [left; auto|right].
  destruct (winner (pol s) (adm s)) as [w|] eqn:Ew.
  2:{ right. split; [auto|]. split; auto. intros w e (H & _). congruence. }
  destruct (winner_spec _ _ _ Ew) as (q & Hq & A & _).
  rewrite Hq. destruct (Nat.eqb_spec (q_id q) i) as [E|N].
  - left. split; [auto|]. exists w, q. assert (Wn : wins s i w q) by (repeat split; auto).
    split; [exact Wn|]. unfold fits_q in A. split; [exact A|]. rewrite A. simpl negb. cbv iota.
    fold (other_bg s i). fold (next_burst s i q).
    pose proof (next_burst_le s i w q C Wn) as NB.
    destruct (Nat.ltb_spec MAX_BURST (next_burst s i q)) as [B|B]; [unfold MAX_BURST in B; lia|].
    unfold admit_state. rewrite Ec. reflexivity.
  - right. split; [auto|]. split; auto. intros w' e' (H1 & H2 & H3). congruence.
Qed.

Lemma core_phase s i t p : Core s -> nth_error (tasks s) i = Some t ->
  leased (with_phase t p) = leased t -> inq (with_phase t p) = inq t -> Core (set_phase s i t p).
Proof. intros. eapply core_local; eauto. Qed.

Ltac cls := unfold leased, inq; simpl;
  repeat match goal with H : t_phase _ = _ |- _ => rewrite H end; reflexivity.

Theorem core_step s o : Core s -> Core (step s o).
Proof.
  intros C. pose proof (c_np s C) as NP. unfold step. rewrite NP. unfold step_ok.
  destruct o;
    try (destruct (nth_error (tasks s) i) as [t|] eqn:Hi; [|exact C]);
    try (destruct (t_phase t) eqn:Hp; try exact C);
    try (eapply core_local; eauto; cls);
    try (apply core_notify, core_phase; auto; cls);
    try (apply core_phase; auto; cls).
  - destruct (fits_policy w (pol s)) eqn:F; auto. apply core_ticket; auto.
  - apply core_push; auto.
  - destruct (t_cancelled t); apply core_phase; auto; cls.
  - destruct (lock_step_cases s i t n C Hi Hp) as [[_ ->]|[[_ (w & q & W & A & ->)]|[_ [_ ->]]]].
    + apply core_phase; auto; cls.
    + apply core_admit; auto; cls.
    + apply core_phase; auto; cls.
  - destruct (t_cancelled t); [apply core_phase; auto; cls|].
    destruct n; auto. apply core_phase; auto; cls.
  - apply core_record; auto.
  - destruct (position _ (queued (adm s))) as [k|] eqn:Ek.
    + apply position_some in Ek as (e & Hk & E). apply Nat.eqb_eq in E.
      eapply core_drop; eauto.
    + exfalso. destruct (c_inq s C i t Hi) as (e & He & E); [cls|].
      apply (position_none _ _ Ek) in He. rewrite E, Nat.eqb_refl in He. discriminate.
  - destruct (release_ok s i t e C Hi Hp) as (a & -> & H). exact H.
  - apply core_prioritize; auto.
  - apply core_nav; auto.
  - apply core_nav; auto.
  - destruct (owed s); auto. apply core_notify. apply core_owed. auto.
Qed.

Lemma core_run ops : forall s, Core s -> Core (run s ops).
Proof. induction ops; simpl; auto. intros. apply IHops, core_step; auto. Qed.

Lemma core_reachable p s : reachable p s -> Core s.
Proof. intros [ops ->]. apply core_run, core_init. Qed.

Lemma pol_step s o : Core s -> pol (step s o) = pol s.
Proof.
  intros C. unfold step. rewrite (c_np s C). unfold step_ok.
  destruct o; auto;
    try (destruct (nth_error (tasks s) i) as [t|] eqn:Hi; [|auto]);
    try (destruct (t_phase t) eqn:Hp; auto).
  - destruct (fits_policy w (pol s)); auto.
  - destruct (t_cancelled t); auto.
  - destruct (lock_step_cases s i t n C Hi Hp) as [[_ ->]|[[_ (w & q & W & A & ->)]|[_ [_ ->]]]]; auto.
  - destruct (t_cancelled t); auto. destruct n; auto.
  - destruct (position _ _); auto.
  - destruct (release _ _ _); auto.
  - unfold nav_step. destruct (_ && _); auto.
  - unfold nav_step. destruct (_ && _); auto.
  - destruct (owed s); auto.
Qed.

Lemma pol_run ops : forall s, Core s -> pol (run s ops) = pol s.
Proof. induction ops; simpl; auto. intros. rewrite IHops, pol_step; auto. now apply core_step. Qed.

Lemma pol_reachable p s : reachable p s -> pol s = p.
Proof. intros [ops ->]. now rewrite pol_run by apply core_init. Qed.
