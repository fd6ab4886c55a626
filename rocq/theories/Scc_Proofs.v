(** Correctness of the component search. *)
From Coq Require Import List Arith Lia Bool Permutation Sorted.
From Verif Require Import Scc_Model.
Import ListNotations.

(** * Specification: paths in a graph *)
Definition edge (g : graph) (a b : nat) : Prop := exists ds, get g a = Some ds /\ In b ds.
Inductive reach (g : graph) : nat -> nat -> Prop :=
| R_here a : reach g a a
| R_step a b c : edge g a b -> reach g b c -> reach g a c.
Definition closed (g : graph) : Prop := forall a b, edge g a b -> In b (map fst g).

Lemma reach_trans g a b c : reach g a b -> reach g b c -> reach g a c.
Proof. induction 1; auto. intros. econstructor; eauto. Qed.
Lemma reach_edge g a b : edge g a b -> reach g a b.
Proof. intros. econstructor; [eassumption|constructor]. Qed.
Lemma reach_closed g (S : nat -> Prop) : (forall a b, S a -> edge g a b -> S b) -> forall a b, reach g a b -> S a -> S b.
Proof. intros H a b R. induction R; eauto. Qed.

(** * Maps, sets, sorting *)
Lemma get_put {A} k (v : A) m x : get (put k v m) x = if x =? k then Some v else get m x.
Proof. reflexivity. Qed.
Lemma get_put_eq {A} k (v : A) m : get (put k v m) k = Some v.
Proof. rewrite get_put, Nat.eqb_refl. reflexivity. Qed.
Lemma get_put_ne {A} k (v : A) m x : x <> k -> get (put k v m) x = get m x.
Proof. intros. rewrite get_put. apply Nat.eqb_neq in H. rewrite H. reflexivity. Qed.
Lemma get_in {A} (m : list (nat * A)) k : In k (map fst m) <-> exists v, get m k = Some v.
Proof.
  induction m as [|[x v] r IH]; cbn; [split; [tauto|intros [? ?]; discriminate]|].
  destruct (k =? x) eqn:E.
  - apply Nat.eqb_eq in E. subst. split; eauto.
  - apply Nat.eqb_neq in E. rewrite <- IH. split; [intros [H|H]; [congruence|auto]|auto].
Qed.
Lemma mem_in x l : mem x l = true <-> In x l.
Proof.
  unfold mem. rewrite existsb_exists. split.
  - intros [y [I E]]. apply Nat.eqb_eq in E. subst. exact I.
  - intros I. exists x. split; [exact I|apply Nat.eqb_refl].
Qed.
Lemma ninsert_perm x l : Permutation (x :: l) (ninsert x l).
Proof.
  induction l as [|y r IH]; cbn; [constructor; constructor|]. destruct (x <=? y); [reflexivity|].
  rewrite perm_swap. constructor. exact IH.
Qed.
Lemma nsort_perm l : Permutation l (nsort l).
Proof. induction l; cbn; [constructor|]. rewrite <- ninsert_perm. constructor. exact IHl. Qed.
Lemma in_nsort x l : In x (nsort l) <-> In x l.
Proof. split; apply Permutation_in; [symmetry|]; apply nsort_perm. Qed.
Lemma ninsert_sorted x l : StronglySorted le l -> StronglySorted le (ninsert x l).
Proof.
  induction 1 as [|y r HS IH HF]; cbn; [constructor; constructor|]. destruct (x <=? y) eqn:E.
  - apply Nat.leb_le in E. constructor; [constructor; assumption|]. constructor; [exact E|].
    eapply Forall_impl; [|exact HF]. intros; cbn in *; lia.
  - apply Nat.leb_gt in E. constructor; [exact IH|].
    eapply (Permutation_Forall (ninsert_perm x r)). constructor; [lia|exact HF].
Qed.
Lemma nsort_sorted l : StronglySorted le (nsort l).
Proof. induction l; cbn; [constructor|]. apply ninsert_sorted, IHl. Qed.

(** * The invariant *)
Section Search.
Variable g : graph.
Hypothesis G : closed g.

Definition ix (s : tarjan) (x : nat) : nat := match get (indexes s) x with Some i => i | None => 0 end.
Definition seen (s : tarjan) (x : nat) : Prop := get (indexes s) x <> None.
Definition done (s : tarjan) (x : nat) : Prop := In x (concat (components s)).

(** what every emitted list of components satisfies *)
Definition good (cs : list (list nat)) : Prop :=
  (forall c, In c cs -> c <> [] /\ StronglySorted le c /\ forall x, In x c -> forall y, In y c <-> reach g x y /\ reach g y x) /\
  (forall l c r, cs = l ++ c :: r -> forall x y, In x c -> edge g x y -> In y c \/ In y (concat l)).

Record Inv (P : list nat) (s : tarjan) : Prop := {
  i_lt : forall x, seen s x -> ix s x < next_index s;
  i_inj : forall x y, seen s x -> seen s y -> ix s x = ix s y -> x = y;
  i_sorted : StronglySorted (fun a b => ix s b < ix s a) (stack s);
  i_seen : forall x, seen s x <-> In x (stack s) \/ done s x;
  i_disj : forall x, In x (stack s) -> done s x -> False;
  i_nodup : NoDup (concat (components s));
  i_on : forall x, In x (on_stack s) <-> In x (stack s);
  i_grey : incl P (stack s);
  i_keys : forall x, seen s x -> In x (map fst g);
  i_black : forall x y, seen s x -> ~ In x P -> edge g x y -> seen s y;
  i_down : forall a x, In a P -> In x (stack s) -> ix s a <= ix s x -> reach g a x;
  i_up : forall x, In x (stack s) -> exists a, In a P /\ ix s a <= ix s x /\ reach g x a;
  i_good : good (components s) }.

Lemma good_closed cs x y : good cs -> In x (concat cs) -> edge g x y -> In y (concat cs).
Proof.
  intros [_ C] I E. apply in_concat in I as [c [Ic Ix]]. apply in_split in Ic as [l [r ->]].
  destruct (C l c r eq_refl x y Ix E) as [H|H]; apply in_concat.
  - exists c. split; [apply in_elt|exact H].
  - apply in_concat in H as [c' [I' H]]. exists c'. split; [apply in_or_app; auto|exact H].
Qed.

Lemma sorted_nodup s l : StronglySorted (fun a b => ix s b < ix s a) l -> NoDup l.
Proof.
  induction 1 as [|x l HS IH HF]; constructor; auto. intros I. rewrite Forall_forall in HF. apply HF in I. lia.
Qed.
Lemma sorted_app s l m r x : StronglySorted (fun a b => ix s b < ix s a) (l ++ m :: r) -> In x l -> ix s m < ix s x.
Proof.
  induction l as [|a l IH]; cbn; intros HS I; [contradiction|]. inversion HS as [|? ? HS' HF]; subst.
  destruct I as [<-|I]; [|exact (IH HS' I)]. rewrite Forall_forall in HF. apply HF. apply in_elt.
Qed.
Lemma sorted_tail s l m r x : StronglySorted (fun a b => ix s b < ix s a) (l ++ m :: r) -> In x r -> ix s x < ix s m.
Proof.
  induction l as [|a l IH]; cbn; intros HS I; inversion HS as [|? ? HS' HF]; subst.
  - rewrite Forall_forall in HF. apply HF, I.
  - exact (IH HS' I).
Qed.
Lemma sorted_ext s s' l : (forall x, In x l -> ix s' x = ix s x) ->
  StronglySorted (fun a b => ix s b < ix s a) l -> StronglySorted (fun a b => ix s' b < ix s' a) l.
Proof.
  intros E HS. induction HS as [|x l HS IH HF]; constructor.
  - apply IH. intros; apply E; right; assumption.
  - rewrite Forall_forall in *. intros y I. rewrite (E x), (E y) by (cbn; auto). auto.
Qed.
Lemma sorted_suffix s l r : StronglySorted (fun a b => ix s b < ix s a) (l ++ r) -> StronglySorted (fun a b => ix s b < ix s a) r.
Proof. induction l; cbn; auto. intros HS. inversion HS; auto. Qed.

(** what a call leaves behind *)
Record Post (s s' : tarjan) (v : nat) (new : list nat) : Prop := {
  p_stack : stack s' = new ++ stack s;
  p_next : next_index s <= next_index s';
  p_ix : forall x, seen s x -> get (indexes s') x = get (indexes s) x;
  p_low : forall x, seen s x -> get (lowlinks s') x = get (lowlinks s) x;
  p_new : forall x, seen s' x -> ~ seen s x -> next_index s <= ix s' x;
  p_v : seen s' v;
  p_vlow : exists l, get (lowlinks s') v = Some l /\ l <= ix s' v /\
    (forall x y, In x new -> In y (stack s) -> edge g x y -> l <= ix s' y) /\
    (l < next_index s -> exists y, In y (stack s') /\ ix s' y = l /\ reach g v y) }.

(** the state inside the loop over the dependencies of [m] *)
Record Loop (P : list nat) (s0 s : tarjan) (m : nat) (seen_deps : list nat) (new : list nat) : Prop := {
  l_inv : Inv (m :: P) s;
  l_stack : stack s = new ++ m :: stack s0;
  l_next : next_index s0 <= next_index s;
  l_m : get (indexes s) m = Some (next_index s0);
  l_ix : forall x, seen s0 x -> get (indexes s) x = get (indexes s0) x;
  l_lowf : forall x, seen s0 x -> get (lowlinks s) x = get (lowlinks s0) x;
  l_new : forall x, seen s x -> ~ seen s0 x -> next_index s0 <= ix s x;
  l_low : exists l, get (lowlinks s) m = Some l /\ l <= next_index s0 /\
    (forall x y, In x new -> In y (stack s0) -> edge g x y -> l <= ix s y) /\
    (exists y, In y (stack s) /\ ix s y = l /\ reach g m y) /\
    (forall d, In d seen_deps -> seen s d /\ (In d (stack s0) -> l <= ix s d)) }.

Lemma seen_dec s x : {seen s x} + {~ seen s x}.
Proof. unfold seen. destruct (get (indexes s) x); [left|right]; congruence. Qed.

Lemma ix_ext s s' x : get (indexes s') x = get (indexes s) x -> ix s' x = ix s x.
Proof. unfold ix. intros ->. reflexivity. Qed.
Lemma seen_ext s s' x : get (indexes s') x = get (indexes s) x -> seen s' x <-> seen s x.
Proof. unfold seen. intros ->. reflexivity. Qed.

(** changing a low link of the method being visited changes nothing else *)
Lemma set_low_inv P s m l : Inv P s -> Inv P (set_low s m l).
Proof.
  intros [A1 A2 A3 A4 A5 A6 A7 A8 A9 A10 A11 A12 A13]. constructor; try assumption.
Qed.

Lemma push_loop P s m : Inv P s -> ~ seen s m -> In m (map fst g) -> (forall a, In a P -> reach g a m) ->
  Loop P s (push s m) m [] [].
Proof.
  intros I N K R.
  assert (Q : forall x, get (indexes (push s m)) x = if x =? m then Some (next_index s) else get (indexes s) x) by reflexivity.
  assert (Q1 : get (indexes (push s m)) m = Some (next_index s)) by (rewrite Q, Nat.eqb_refl; reflexivity).
  assert (NE : forall x, seen s x -> x <> m) by (intros x H ->; contradiction).
  assert (Q2 : forall x, seen s x -> get (indexes (push s m)) x = get (indexes s) x).
  { intros x H. rewrite Q. apply NE, Nat.eqb_neq in H. rewrite H. reflexivity. }
  assert (QI : ix (push s m) m = next_index s) by (unfold ix; rewrite Q1; reflexivity).
  assert (QX : forall x, seen s x -> ix (push s m) x = ix s x) by (intros; apply ix_ext, Q2; assumption).
  assert (QS : forall x, seen (push s m) x <-> x = m \/ seen s x).
  { intros x. unfold seen at 1. rewrite Q. destruct (x =? m) eqn:E.
    - apply Nat.eqb_eq in E. subst. split; [auto|discriminate].
    - apply Nat.eqb_neq in E. split; [auto|intros [H|H]; [contradiction|exact H]]. }
  assert (SS : forall x, In x (stack s) -> seen s x) by (intros; apply (i_seen _ _ I); auto).
  constructor; auto.
  - constructor.
    + intros x H. cbn [next_index push]. apply QS in H as [->|H]; [rewrite QI; lia|]. rewrite QX by assumption.
      apply (i_lt _ _ I) in H. lia.
    + intros x y X Y E. apply QS in X as [->|X]; apply QS in Y as [->|Y]; auto.
      * rewrite QI, QX in E by assumption. apply (i_lt _ _ I) in Y. lia.
      * rewrite QI, QX in E by assumption. apply (i_lt _ _ I) in X. lia.
      * rewrite !QX in E by assumption. apply (i_inj _ _ I); assumption.
    + cbn [stack push]. constructor.
      * eapply sorted_ext; [|apply (i_sorted _ _ I)]. intros; apply QX, SS; assumption.
      * apply Forall_forall. intros x H. rewrite QI, QX by auto. apply (i_lt _ _ I); auto.
    + intros x. rewrite QS, (i_seen _ _ I). cbn. unfold done. cbn. intuition.
    + intros x [<-|H] D.
      * apply N, (i_seen _ _ I). right. exact D.
      * exact (i_disj _ _ I x H D).
    + exact (i_nodup _ _ I).
    + intros x. cbn. rewrite (i_on _ _ I). reflexivity.
    + intros x [<-|H]; cbn; [auto|right; apply (i_grey _ _ I); assumption].
    + intros x H. apply QS in H as [->|H]; [exact K|apply (i_keys _ _ I); assumption].
    + intros x y H NP E. apply QS in H as [->|H]; [exfalso; apply NP; left; reflexivity|].
      apply QS. right. eapply (i_black _ _ I); eauto. intros H'. apply NP. right. exact H'.
    + intros a x [<-|A] X L; cbn in X.
      * destruct X as [<-|X]; [constructor|]. rewrite QI, QX in L by auto. apply SS, (i_lt _ _ I) in X. lia.
      * destruct X as [<-|X]; [apply R, A|].
        rewrite !QX in L by (auto using (i_grey _ _ I)). apply (i_down _ _ I); assumption.
    + intros x [<-|X].
      * exists m. split; [left; reflexivity|split; [lia|constructor]].
      * destruct (i_up _ _ I x X) as [a [A1 [A2 A3]]]. exists a. split; [right; exact A1|]. split; [|exact A3].
        rewrite !QX by (auto using (i_grey _ _ I)). exact A2.
    + exact (i_good _ _ I).
  - cbn. lia.
  - intros x H. cbn [lowlinks push]. apply get_put_ne, NE, H.
  - intros x H NH. apply QS in H as [->|H]; [rewrite QI; lia|contradiction].
  - exists (next_index s). split; [apply get_put_eq|]. split; [lia|]. split; [intros x y []|].
    split; [|intros d []]. exists m. split; [left; reflexivity|]. split; [exact QI|constructor].
Qed.

Lemma white_lt (s s' : tarjan) (m : nat) : In m (map fst g) -> ~ seen s m -> seen s' m ->
  (forall x, seen s x -> seen s' x) ->
  length (filter (fun k => match get (indexes s') k with None => true | _ => false end) (map fst g)) <
  length (filter (fun k => match get (indexes s) k with None => true | _ => false end) (map fst g)).
Proof.
  intros K N Y M. generalize dependent (map fst g). intros l K. induction l as [|k l IH]; [contradiction|].
  assert (W : forall l, length (filter (fun k => match get (indexes s') k with None => true | _ => false end) l) <=
    length (filter (fun k => match get (indexes s) k with None => true | _ => false end) l)).
  { clear - M. induction l as [|k l IH]; cbn; [lia|]. specialize (M k). unfold seen in M.
    destruct (get (indexes s) k), (get (indexes s') k); cbn; try lia. exfalso. apply M; congruence. }
  cbn. destruct K as [->|K].
  - unfold seen in *. destruct (get (indexes s) m); [exfalso; apply N; discriminate|].
    destruct (get (indexes s') m); [|contradiction]. specialize (W l). cbn. lia.
  - specialize (IH K). specialize (M k). unfold seen in M.
    destruct (get (indexes s) k), (get (indexes s') k); cbn; try lia. exfalso. apply M; congruence.
Qed.

Definition white (s : tarjan) : nat :=
  length (filter (fun k => match get (indexes s) k with None => true | _ => false end) (map fst g)).
Lemma white_le s s' : (forall x, seen s x -> seen s' x) -> white s' <= white s.
Proof.
  intros M. unfold white. induction (map fst g) as [|k l IH]; cbn; [lia|]. specialize (M k). unfold seen in M.
  destruct (get (indexes s) k), (get (indexes s') k); cbn; try lia. exfalso. apply M; congruence.
Qed.

Lemma pop_to_spec m l r : ~ In m l -> pop_to m (l ++ m :: r) = Some (l ++ [m], r).
Proof.
  induction l as [|x l IH]; cbn; intros N.
  - rewrite Nat.eqb_refl. reflexivity.
  - destruct (x =? m) eqn:E; [apply Nat.eqb_eq in E; subst; tauto|]. rewrite IH by tauto. reflexivity.
Qed.

Definition visit_ok (P : list nat) (rec : tarjan -> nat -> option tarjan) (n : nat) : Prop :=
  forall s d, Inv P s -> ~ seen s d -> In d (map fst g) -> (forall a, In a P -> reach g a d) -> white s <= n ->
  exists s' new, rec s d = Some s' /\ Inv P s' /\ Post s s' d new.

Lemma visit_all_ok P rec n m s0 deps : (visit_ok (m :: P) rec n) -> (forall d, In d deps -> edge g m d) ->
  Inv P s0 -> (forall a, In a P -> reach g a m) ->
  forall s done_deps new, Loop P s0 s m done_deps new -> white s <= n ->
  exists s' new', visit_all rec m s deps = Some s' /\ Loop P s0 s' m (done_deps ++ deps) new' .
Proof.
  intros V E I0 RM. induction deps as [|d deps IH]; intros s dd new L W.
  - exists s, new. split; [reflexivity|]. rewrite app_nil_r. exact L.
  - assert (Ed : edge g m d) by (apply E; left; reflexivity).
    assert (E' : forall d, In d deps -> edge g m d) by (intros; apply E; right; assumption).
    specialize (IH E'). cbn [visit_all].
    pose proof L as L0. destruct L as [LI LS LN LM LX LF LW [l [L1 [L2 [L3 [L4 L5]]]]]].
    assert (SM : seen s m) by (unfold seen; congruence).
    destruct (get (indexes s) d) as [i|] eqn:GI.
    + destruct (mem d (on_stack s)) eqn:ON.
      * apply mem_in in ON. apply (i_on _ _ LI) in ON. rewrite L1.
        replace (dd ++ d :: deps) with ((dd ++ [d]) ++ deps) by (rewrite <- app_assoc; reflexivity).
        apply (IH (set_low s m (Nat.min l i)) (dd ++ [d]) new); [|exact W].
        constructor; auto.
        -- apply set_low_inv, LI.
        -- intros x H. cbn [lowlinks set_low]. rewrite get_put_ne; [apply LF, H|].
           intros ->. apply (i_lt _ _ I0) in H as H'. apply LX in H. unfold ix in H'. rewrite <- H, LM in H'. lia.
        -- exists (Nat.min l i). split; [apply get_put_eq|]. split; [lia|]. split.
           { intros x y X Y Exy. specialize (L3 x y X Y Exy). unfold ix in *. cbn [indexes set_low]. lia. }
           split.
           { destruct (Nat.le_gt_cases l i) as [C|C].
             - rewrite Nat.min_l by exact C. destruct L4 as [y Y]. exists y. exact Y.
             - rewrite Nat.min_r by lia. exists d. split; [exact ON|]. split; [unfold ix; cbn [indexes set_low]; rewrite GI; reflexivity|].
               apply reach_edge, Ed. }
           { intros x X. apply in_app_or in X as [X|[<-|[]]].
             - destruct (L5 x X) as [X1 X2]. split; [exact X1|]. intros X3. specialize (X2 X3). unfold ix in *. cbn [indexes set_low]. lia.
             - split; [unfold seen; cbn; congruence|]. intros _. unfold ix. cbn [indexes set_low]. rewrite GI. lia. }
      * assert (NO : ~ In d (stack s)).
        { intros H. apply (i_on _ _ LI), mem_in in H. congruence. }
        replace (dd ++ d :: deps) with ((dd ++ [d]) ++ deps) by (rewrite <- app_assoc; reflexivity).
        apply (IH s (dd ++ [d]) new); [|exact W]. constructor; auto.
        exists l. repeat (split; [assumption|]). intros x X. apply in_app_or in X as [X|[<-|[]]]; [apply L5, X|].
        split; [unfold seen; congruence|]. intros X. exfalso. apply NO. rewrite LS. apply in_or_app. right. right. exact X.
    + assert (ND : ~ seen s d) by (unfold seen; congruence).
      destruct (V s d LI ND) as [s' [new2 [Ev [I' PO]]]]; [eapply G, Ed| |exact W|].
      { intros a [<-|A]; [apply reach_edge, Ed|]. eapply reach_trans; [apply RM, A|apply reach_edge, Ed]. }
      rewrite Ev. destruct PO as [P1 P2 P3 P4 P5 P6 [ld [D1 [D2 [D3 D4]]]]].
      assert (LM' : get (lowlinks s') m = Some l) by (rewrite P4 by exact SM; exact L1).
      rewrite D1, LM'.
      assert (IM : get (indexes s') m = Some (next_index s0)) by (rewrite P3 by exact SM; exact LM).
      assert (S0S : forall x, seen s0 x -> seen s x) by (intros x H; apply (seen_ext s0 s); auto).
      assert (SS' : forall x, seen s x -> seen s' x) by (intros x H; apply (seen_ext s s'); auto).
      assert (ST : forall x, In x (stack s) -> seen s x) by (intros; apply (i_seen _ _ LI); auto).
      assert (ST0 : forall x, In x (stack s0) -> In x (stack s)).
      { intros x H. rewrite LS. apply in_or_app. right. right. exact H. }
      assert (MN : next_index s0 < next_index s).
      { pose proof (i_lt _ _ LI m SM) as H. unfold ix in H. rewrite LM in H. exact H. }
      replace (dd ++ d :: deps) with ((dd ++ [d]) ++ deps) by (rewrite <- app_assoc; reflexivity).
      apply (IH (set_low s' m (Nat.min l ld)) (dd ++ [d]) (new2 ++ new)).
      2:{ change (white s' <= n). pose proof (white_le s s' SS'). lia. }
      constructor.
      * apply set_low_inv, I'.
      * cbn [stack set_low]. rewrite P1, LS, app_assoc. reflexivity.
      * cbn [next_index set_low]. lia.
      * exact IM.
      * intros x H. cbn [indexes set_low]. rewrite P3 by auto. auto.
      * intros x H. cbn [lowlinks set_low]. rewrite get_put_ne.
        -- rewrite P4 by auto. auto.
        -- intros ->. apply (i_lt _ _ I0) in H as H'. apply LX in H. unfold ix in H'. rewrite <- H, LM in H'. lia.
      * intros x H NH. change (next_index s0 <= ix s' x). destruct (seen_dec s x) as [C|C].
        -- rewrite (ix_ext s s') by auto. apply LW; auto.
        -- specialize (P5 x H C). lia.
      * exists (Nat.min l ld). split; [apply get_put_eq|]. split; [lia|].
        change (stack (set_low s' m (Nat.min l ld))) with (stack s').
        assert (IXE : forall x, ix (set_low s' m (Nat.min l ld)) x = ix s' x) by reflexivity.
        split; [|split].
        -- intros x y X Y Exy. rewrite IXE. apply in_app_or in X as [X|X].
           ++ specialize (D3 x y X (ST0 y Y) Exy). lia.
           ++ specialize (L3 x y X Y Exy). rewrite (ix_ext s s') by auto. lia.
        -- destruct (Nat.le_gt_cases l ld) as [C|C].
           ++ rewrite Nat.min_l by exact C. destruct L4 as [y [Y1 [Y2 Y3]]]. exists y. split; [rewrite P1; apply in_or_app; auto|].
              split; [|exact Y3]. change (ix s' y = l). rewrite (ix_ext s s') by auto. exact Y2.
           ++ rewrite Nat.min_r by lia. destruct (D4 ltac:(lia)) as [y [Y1 [Y2 Y3]]]. exists y. split; [exact Y1|].
              split; [exact Y2|]. econstructor; [exact Ed|exact Y3].
        -- intros x X. apply in_app_or in X as [X|[<-|[]]].
           ++ destruct (L5 x X) as [X1 X2]. split; [exact (SS' x X1)|]. intros X3. specialize (X2 X3).
              rewrite IXE, (ix_ext s s') by auto. lia.
           ++ split; [exact P6|]. intros X. exfalso. apply ND, ST, ST0, X.
Qed.

Lemma finish_ok P s0 s m deps new : Inv P s0 -> ~ seen s0 m -> (forall d, edge g m d -> In d deps) ->
  Loop P s0 s m deps new ->
  exists s' new', finish s m = Some s' /\ Inv P s' /\ Post s0 s' m new'.
Proof.
  intros I0 N0 ED [LI LS LN LM LX LF LW [l [L1 [L2 [L3 [L4 L5]]]]]].
  assert (SM : seen s m) by (unfold seen; congruence).
  assert (IM : ix s m = next_index s0) by (unfold ix; rewrite LM; reflexivity).
  assert (MN : next_index s0 < next_index s) by (rewrite <- IM; apply (i_lt _ _ LI); exact SM).
  assert (S0S : forall x, seen s0 x -> seen s x) by (intros x H; apply (seen_ext s0 s); auto).
  assert (ST : forall x, In x (stack s) -> seen s x) by (intros; apply (i_seen _ _ LI); auto).
  assert (ST0 : forall x, In x (stack s0) -> seen s0 x) by (intros; apply (i_seen _ _ I0); auto).
  assert (SUB : forall x, In x (stack s0) -> In x (stack s)).
  { intros x H. rewrite LS. apply in_or_app. right. right. exact H. }
  assert (IX0 : forall x, seen s0 x -> ix s x = ix s0 x) by (intros; apply ix_ext; auto).
  assert (SEEN : forall x y, seen s x -> ~ In x P -> edge g x y -> seen s y).
  { intros x y X NP E. destruct (Nat.eq_dec x m) as [->|NE].
    - apply L5, ED, E.
    - eapply (i_black _ _ LI); eauto. intros [H|H]; congruence. }
  unfold finish. rewrite L1, LM. destruct (l =? next_index s0) eqn:EQ.
  - (* a component is complete *)
    apply Nat.eqb_eq in EQ. subst l.
    pose proof (i_sorted _ _ LI) as SO. rewrite LS in SO.
    assert (NDS : NoDup (new ++ m :: stack s0)) by (eapply sorted_nodup; exact SO).
    assert (NM : ~ In m new).
    { intros H. apply NoDup_remove_2 in NDS. apply NDS. apply in_or_app. left. exact H. }
    rewrite LS, pop_to_spec by exact NM.
    set (c := nsort (new ++ [m])).
    assert (INC : forall x, In x c <-> In x new \/ x = m).
    { intros x. unfold c. rewrite in_nsort, in_app_iff. cbn. intuition. }
    assert (CS : forall x, In x c -> In x (stack s)).
    { intros x H. apply INC in H. rewrite LS. apply in_or_app. destruct H as [H|H]; [auto|right; left; congruence]. }
    assert (OLD : forall x, In x (stack s0) -> In x c -> False).
    { intros x X C. apply INC in C as [C|C].
      - apply NoDup_remove in NDS as [NDS _]. clear - NDS X C. induction new; [contradiction|]. cbn in NDS.
        inversion NDS; subst. destruct C as [<-|C]; [apply H1; apply in_or_app; auto|auto].
      - subst x. apply N0, ST0, X. }
    assert (CP : forall x, In x c -> ~ In x P).
    { intros x C H. apply (i_grey _ _ I0) in H. eauto. }
    assert (OUT : forall x y, In x c -> edge g x y -> In y c \/ done s y).
    { intros x y C E. assert (Y : seen s y) by (apply (SEEN x y); [apply ST, CS, C|apply CP, C|exact E]).
      apply (i_seen _ _ LI) in Y as [Y|Y]; [|auto]. rewrite LS in Y. apply in_app_or in Y as [Y|[Y|Y]].
      - left. apply INC. auto.
      - left. apply INC. auto.
      - exfalso. assert (NX : next_index s0 <= ix s y).
        { apply INC in C as [C|C]; [eapply L3; eauto|]. subst x. apply L5; auto. }
        rewrite IX0 in NX by auto. apply ST0, (i_lt _ _ I0) in Y. lia. }
    assert (CL : forall x y, reach g x y -> In x c \/ done s x -> In y c \/ done s y).
    { apply reach_closed. intros a b [A|A] E; [eauto|]. right. eapply good_closed; [apply (i_good _ _ LI)|exact A|exact E]. }
    assert (DCL : forall x y, reach g x y -> done s x -> done s y).
    { apply reach_closed. intros a b A E. eapply good_closed; [apply (i_good _ _ LI)|exact A|exact E]. }
    assert (MX : forall x, In x c -> reach g m x).
    { intros x C. apply (i_down _ _ LI); [left; reflexivity|apply CS, C|].
      apply INC in C as [C|C]; [|subst; lia]. apply (sorted_app s new m (stack s0)) in C; [lia|exact SO]. }
    assert (XM : forall x, In x c -> reach g x m).
    { intros x C. destruct (i_up _ _ LI x (CS x C)) as [a [[A|A] [_ R]]]; [subst a; exact R|].
      exfalso. apply (i_grey _ _ I0) in A. destruct (CL x a R (or_introl C)) as [H|H]; [eauto|].
      exact (i_disj _ _ LI a (SUB a A) H). }
    assert (GC : good (components s ++ [c])).
    { destruct (i_good _ _ LI) as [G1 G2]. split.
      - intros k K. apply in_app_or in K as [K|[<-|[]]]; [apply G1, K|]. split; [|split].
        + intros H. assert (In m c) by (apply INC; auto). rewrite H in H0. destruct H0.
        + apply nsort_sorted.
        + intros x X y. split.
          * intros Y. split; eapply reach_trans; eauto.
          * intros [R1 R2]. destruct (CL x y R1 (or_introl X)) as [H|H]; [exact H|].
            exfalso. apply (i_disj _ _ LI x (CS x X)). eapply DCL; eauto.
      - intros l k r E x y X Ex. destruct r as [|r0 r] using rev_ind.
        + apply app_inj_tail in E as [<- <-]. apply OUT with x; assumption.
        + clear IHr. change (k :: r ++ [r0]) with ((k :: r) ++ [r0]) in E. rewrite app_assoc in E.
          apply app_inj_tail in E as [E _]. eapply G2; eauto. }
    eexists. exists []. split; [reflexivity|].
    set (s' := mkT _ _ _ _ _ _).
    assert (IX : forall x, ix s' x = ix s x) by reflexivity.
    assert (SE : forall x, seen s' x <-> seen s x) by reflexivity.
    assert (DN : forall x, done s' x <-> done s x \/ In x c).
    { intros x. unfold done, s'. cbn. rewrite concat_app, in_app_iff. cbn. rewrite app_nil_r. reflexivity. }
    split.
    + constructor.
      * exact (i_lt _ _ LI).
      * exact (i_inj _ _ LI).
      * change (StronglySorted (fun a b => ix s b < ix s a) (stack s0)).
        change (m :: stack s0) with ([m] ++ stack s0) in SO. rewrite app_assoc in SO. eapply sorted_suffix, SO.
      * intros x. rewrite SE, DN, (i_seen _ _ LI), LS, in_app_iff, INC. cbn. intuition.
      * intros x X D. apply DN in D as [D|D]; [|eauto]. exact (i_disj _ _ LI x (SUB x X) D).
      * unfold s'. cbn. rewrite concat_app. cbn. rewrite app_nil_r.
        assert (NC : NoDup c).
        { apply (Permutation_NoDup (nsort_perm _)). change (m :: stack s0) with ([m] ++ stack s0) in NDS.
          rewrite app_assoc in NDS. clear - NDS. induction (new ++ [m]); [constructor|]. cbn in NDS. inversion NDS; subst.
          constructor; [|auto]. intros H. apply H1. apply in_or_app. auto. }
        pose proof (i_nodup _ _ LI) as NN. assert (DJ : forall x, In x (concat (components s)) -> ~ In x c).
        { intros x D C. exact (i_disj _ _ LI x (CS x C) D). }
        clear - NN NC DJ. induction (concat (components s)) as [|a k IH]; [exact NC|]. cbn. inversion NN; subst. constructor.
        { intros H. apply in_app_or in H as [H|H]; [contradiction|]. apply (DJ a); [left; reflexivity|exact H]. }
        apply IH; [assumption|]. intros x X. apply DJ. right. exact X.
      * intros x. unfold s'. cbn. rewrite filter_In, (i_on _ _ LI), LS. split.
        -- intros [X Y]. apply negb_true_iff in Y. assert (Z : ~ In x (new ++ [m])) by (intros H; apply mem_in in H; congruence).
           rewrite in_app_iff in Z. apply in_app_or in X as [X|[X|X]]; [tauto| |exact X]. subst. exfalso. apply Z. right. left. reflexivity.
        -- intros X. split; [apply in_or_app; right; right; exact X|]. apply negb_true_iff.
           destruct (mem x (new ++ [m])) eqn:E; [|reflexivity]. apply mem_in in E. exfalso. apply (OLD x X). unfold c. apply in_nsort, E.
      * exact (i_grey _ _ I0).
      * exact (i_keys _ _ LI).
      * exact SEEN.
      * intros a x A X L. apply (i_down _ _ I0); auto. rewrite !IX, !IX0 in L by (auto using (i_grey _ _ I0)). exact L.
      * intros x X. destruct (i_up _ _ I0 x X) as [a [A1 [A2 A3]]]. exists a. split; [exact A1|]. split; [|exact A3].
        rewrite !IX, !IX0 by (auto using (i_grey _ _ I0)). exact A2.
      * exact GC.
    + constructor.
      * reflexivity.
      * exact LN.
      * exact LX.
      * exact LF.
      * exact LW.
      * exact SM.
      * exists (next_index s0). split; [exact L1|]. split; [rewrite IX, IM; lia|]. split; [intros x y []|lia].
  - (* the component continues below *)
    apply Nat.eqb_neq in EQ. assert (LT : l < next_index s0) by lia.
    exists s, (new ++ [m]). split; [reflexivity|].
    assert (SO : StronglySorted (fun a b => ix s b < ix s a) (new ++ m :: stack s0)) by (rewrite <- LS; apply (i_sorted _ _ LI)).
    split.
    + destruct LI as [A1 A2 A3 A4 A5 A6 A7 A8 A9 A10 A11 A12 A13]. constructor; auto.
      * intros x X. apply A8. right. exact X.
      * intros a x A. apply A11. right. exact A.
      * intros x X. destruct (A12 x X) as [a [[A|A] [B C]]]; [subst a|eauto].
        destruct L4 as [y [Y1 [Y2 Y3]]]. destruct (A12 y Y1) as [b [[Bm|Bp] [B1 B2]]].
        -- subst b. lia.
        -- exists b. split; [exact Bp|]. split; [lia|]. eapply reach_trans; [exact C|]. eapply reach_trans; eauto.
    + constructor; auto.
      * rewrite <- app_assoc. exact LS.
      * exists l. split; [exact L1|]. split; [lia|]. split; [|intros _; exact L4].
        intros x y X Y E. apply in_app_or in X as [X|[X|[]]]; [eauto|]. subst x. apply L5; auto.
Qed.

Lemma visit_correct n : forall P, visit_ok P (visit n g) n.
Proof.
  induction n as [|n IH]; intros P s m I N K R W.
  - exfalso. unfold white in W. assert (E : In m (filter (fun k => match get (indexes s) k with None => true | _ => false end) (map fst g))).
    { apply filter_In. split; [exact K|]. unfold seen in N. destruct (get (indexes s) m); [exfalso; apply N; discriminate|reflexivity]. }
    destruct (filter _ _); [contradiction|cbn in W; lia].
  - cbn [visit]. apply get_in in K as [deps D]. rewrite D.
    assert (K : In m (map fst g)) by (apply get_in; eauto).
    pose proof (push_loop P s m I N K R) as L0.
    destruct (visit_all_ok P (visit n g) n m s deps (IH (m :: P))) with (s := push s m) (done_deps := @nil nat) (new := @nil nat)
      as [s' [new [E L]]]; auto.
    { intros d H. exists deps. auto. }
    { assert (H : white (push s m) < white s).
      { apply white_lt with m; auto.
        - unfold seen. cbn. rewrite Nat.eqb_refl. discriminate.
        - intros x H. apply (seen_ext s); auto. apply (l_ix _ _ _ _ _ _ L0), H. }
      lia. }
    rewrite E. eapply finish_ok; [exact I|exact N| |exact L].
    intros d [ds [E1 E2]]. replace ds with deps in E2 by congruence. exact E2.
Qed.

Lemma start_inv : Inv [] start.
Proof.
  assert (N : forall x, seen start x -> False) by (intros x H; apply H; reflexivity).
  constructor; try (intros; exfalso; eauto; contradiction).
  - constructor.
  - intros x. split; [intros H; exfalso; eauto|]. intros [[]|[]].
  - constructor.
  - intros x. reflexivity.
  - intros x [].
  - split; [intros c []|]. intros l c r E. destruct l; discriminate.
Qed.

Lemma visit_keys_correct keys : incl keys (map fst g) -> forall s, Inv [] s ->
  exists s', visit_keys (length g) g s keys = Some s' /\ Inv [] s' /\ (forall x, seen s x -> seen s' x) /\ (forall x, In x keys -> seen s' x).
Proof.
  induction keys as [|k keys IH]; intros C s I.
  - exists s. cbn. split; [reflexivity|]. split; [exact I|]. split; [auto|intros x []].
  - cbn [visit_keys]. assert (C' : incl keys (map fst g)) by (intros x X; apply C; right; exact X).
    destruct (get (indexes s) k) as [i|] eqn:E.
    + destruct (IH C' s I) as [s' [E1 [E2 [E3 E4]]]]. exists s'. split; [exact E1|]. split; [exact E2|]. split; [exact E3|].
      intros x [<-|X]; [apply E3; unfold seen; congruence|auto].
    + destruct (visit_correct (length g) [] s k I) as [s1 [new [V1 [V2 V3]]]].
      * unfold seen. congruence.
      * apply C. left. reflexivity.
      * intros a [].
      * unfold white. rewrite <- (map_length fst g). generalize (map fst g). intros l. induction l as [|a l IHl]; cbn; [lia|]. destruct (get (indexes s) a); cbn; lia.
      * rewrite V1. destruct (IH C' s1 V2) as [s' [E1 [E2 [E3 E4]]]]. exists s'. split; [exact E1|]. split; [exact E2|].
        assert (M : forall x, seen s x -> seen s1 x).
        { intros x H. apply (seen_ext s s1); [apply (p_ix _ _ _ _ V3), H|exact H]. }
        split; [auto|]. intros x [<-|X]; [|auto]. apply E3, (p_v _ _ _ _ V3).
Qed.

(** the list of components: every method once, each component a class of mutually reachable methods, in an
    order in which dependencies come first *)
Lemma scc_correct : exists cs, scc g = Some cs /\ NoDup (concat cs) /\
  (forall x, In x (concat cs) <-> In x (map fst g)) /\ good cs.
Proof.
  unfold scc. destruct (visit_keys_correct (map fst g) (incl_refl _) start start_inv) as [s [E [I [_ A]]]].
  rewrite E. cbn. exists (components s). split; [reflexivity|]. split; [apply (i_nodup _ _ I)|]. split; [|apply (i_good _ _ I)].
  intros x. split.
  - intros D. apply (i_keys _ _ I), (i_seen _ _ I). right. exact D.
  - intros K. apply A, (i_seen _ _ I) in K as [K|K]; [|exact K]. destruct (i_up _ _ I x K) as [a [[] _]].
Qed.
End Search.
