(** Renaming a local variable: proofs. *)
From Coq Require Import List Arith NArith Bool Lia.
From Verif Require Import Rename_Model Rename_Spec.
Import ListNotations.

(** ** The visitor as a fold over the occurrences it sees *)
Definition event := (ident * option nat * span)%type.
Fixpoint count (a : ast) : nat :=
  match a with
  | Seq a b => count a + count b
  | Write _ _ _ e | OptParam _ _ e | OptKeyParam _ _ e => count e
  | Scope h i => S (count h + count i)
  | _ => 0
  end.
Fixpoint events (st : list nat) (n : nat) (a : ast) : list event :=
  match a with
  | Leaf | KeyParam _ _ | BlockLocal _ _ => []
  | Seq a b => events st n a ++ events st (n + count a) b
  | Read x d s | Implicit x d s | Target x d s => [(x, nth_error st d, s)]
  | Write x d s e => (x, nth_error st d, s) :: events st n e
  | Param x s => [(x, nth_error st 0, s)]
  | OptParam x s e => (x, nth_error st 0, s) :: events st n e
  | OptKeyParam _ _ e => events st n e
  | Scope h i => events (n :: st) (n + 1) h ++ events (n :: st) (n + 1 + count h) i
  end.

Definition with_place (v : visitor) (st : list nat) (n : nat) : visitor := Visitor (cursor v) st n (target v) (ranges v) (at_phase v).
Definition act (v : visitor) (e : event) : visitor :=
  let '(x, o, s) := e in
  match o with
  | None => v
  | Some id =>
      match at_phase v with
      | FindTarget => match target v with
          | None => if cursor_in v s then Visitor (cursor v) (scope_stack v) (next_scope_id v) (Some (x, id)) (ranges v) (at_phase v) else v
          | Some _ => v end
      | Collect => match target v with
          | Some (y, t) => if (x =? y)%N && (id =? t) then Visitor (cursor v) (scope_stack v) (next_scope_id v) (target v) (ranges v ++ [s]) (at_phase v) else v
          | None => v end
      end
  end.
Lemma process_act v x d s : process v x d s = act v (x, nth_error (scope_stack v) d, s).
Proof. reflexivity. Qed.
Lemma act_place v e st n : act (with_place v st n) e = with_place (act v e) st n.
Proof.
  destruct e as [[x [id|]] s]; cbn; auto. destruct v as [c st0 n0 t r p]; cbn. unfold cursor_in; cbn. destruct p, t as [[y t]|]; cbn; auto.
  - destruct (_ && _); reflexivity.
  - destruct (_ && _); reflexivity.
Qed.
Lemma fold_place l : forall v st n, fold_left act l (with_place v st n) = with_place (fold_left act l v) st n.
Proof. induction l as [|e l IH]; intros v st n; cbn [fold_left]; auto. now rewrite act_place, IH. Qed.
Lemma with_with v a b c d : with_place (with_place v a b) c d = with_place v c d.
Proof. reflexivity. Qed.
Lemma place_self v : with_place v (scope_stack v) (next_scope_id v) = v.
Proof. destruct v; reflexivity. Qed.

Lemma visit_events a : forall v st n, visit a (with_place v st n) = with_place (fold_left act (events st n a) v) st (n + count a).
Proof.
  induction a; intros v st n; cbn [visit events fold_left count]; rewrite ?Nat.add_0_r; auto.
  - rewrite IHa1, IHa2. rewrite fold_left_app. f_equal. lia.
  - rewrite process_act, act_place. reflexivity.
  - rewrite process_act, act_place. reflexivity.
  - rewrite process_act, act_place. reflexivity.
  - rewrite process_act, act_place, IHa. reflexivity.
  - rewrite process_act, act_place. reflexivity.
  - rewrite process_act, act_place, IHa. reflexivity.
  - unfold push_scope. cbn [cursor scope_stack next_scope_id target ranges at_phase with_place].
    change (Visitor (cursor v) (n :: st) (n + 1) (target v) (ranges v) (at_phase v)) with (with_place v (n :: st) (n + 1)).
    rewrite IHa1, IHa2. unfold pop_scope. cbn [with_place scope_stack tl next_scope_id cursor target ranges at_phase].
    rewrite fold_left_app. unfold with_place. f_equal. lia.
Qed.

(** ** Environments *)
Lemma map_label_declare x e : map label (declare x e) = map label e.
Proof. destruct e; reflexivity. Qed.
Lemma map_label_assign x e : map label (assign x e) = map label e.
Proof. unfold assign. destruct (visible x e); auto. apply map_label_declare. Qed.

Lemma resolve_labels p : forall e, map label (snd (resolve p e)) = map label e.
Proof.
  induction p; intros e; cbn [resolve snd]; auto using map_label_declare, map_label_assign;
    try (destruct (resolve p (declare x e)) as [l e1] eqn:E; cbn; change e1 with (snd (l, e1)); rewrite <- E, IHp; apply map_label_declare).
  - specialize (IHp1 e). destruct (resolve p1 e) as [l e1]. specialize (IHp2 e1). destruct (resolve p2 e1). cbn in *. congruence.
  - specialize (IHp (assign x e)). destruct (resolve p (assign x e)). cbn in *. now rewrite IHp, map_label_assign.
  - specialize (IHp1 e). destruct (resolve p1 e) as [l e1]. specialize (IHp2 (InScope hard label [] :: e1)).
    destruct (resolve p2 (InScope hard label [] :: e1)) as [m e2]. cbn in *. destruct e2; cbn in *; congruence.
Qed.
Lemma parse_env p : forall e, snd (parse p e) = snd (resolve p e).
Proof.
  induction p; intros e; cbn [resolve parse]; auto;
    try (specialize (IHp (declare x e)); destruct (resolve p (declare x e)), (parse p (declare x e)); auto; fail).
  - specialize (IHp1 e). destruct (resolve p1 e) as [l e1], (parse p1 e) as [a e1']. cbn in IHp1. subst.
    specialize (IHp2 e1). destruct (resolve p2 e1), (parse p2 e1); auto.
  - specialize (IHp (assign x e)). destruct (resolve p (assign x e)), (parse p (assign x e)); auto.
  - specialize (IHp1 e). destruct (resolve p1 e) as [l e1], (parse p1 e) as [a e1']. cbn in IHp1. subst.
    specialize (IHp2 (InScope hard label [] :: e1)). destruct (resolve p2 _), (parse p2 _); cbn in *. congruence.
Qed.

Lemma visible_nth x e d t : visible x e = Some (d, t) -> nth_error e d = Some t.
Proof.
  revert d. induction e as [|s e IH]; cbn; intros d; [discriminate|]. destruct (declared x s); [intros E; injection E as <- <-; auto|].
  destruct (hard s); [discriminate|]. destruct (visible x e) as [[d' t']|]; [|discriminate]. intros E. injection E as <- <-. cbn. auto.
Qed.
Lemma visible_declare x s e : exists t, visible x (declare x (s :: e)) = Some (0, t) /\ label t = label s.
Proof. cbn. unfold declared. cbn. rewrite N.eqb_refl. cbn. eauto. Qed.
Lemma visible_assign x e : e <> [] -> exists d t, visible x (assign x e) = Some (d, t).
Proof.
  intros NE. unfold assign. destruct (visible x e) as [[d t]|] eqn:V; [rewrite V; eauto|]. destruct e as [|s e]; [easy|].
  destruct (visible_declare x s e) as (t & E & _). eauto.
Qed.

Lemma assign_nonempty x e : e <> [] -> assign x e <> [].
Proof. intros NE E. apply NE. apply (f_equal (map label)) in E. rewrite map_label_assign in E. now apply map_eq_nil in E. Qed.

(** ** Occurrences and events *)
Fixpoint assigned (n : nat) (p : source) : list (nat * nat) :=
  match p with
  | SSeq a b => assigned n a ++ assigned (n + length (labels a)) b
  | SAssign _ _ v | SOptParam _ _ v | SOptKeyParam _ _ v => assigned n v
  | SScope _ k a b => (k, n) :: assigned (n + 1) a ++ assigned (n + 1 + length (labels a)) b
  | _ => []
  end.
Lemma assigned_labels p : forall n, map fst (assigned n p) = labels p.
Proof. induction p; intros n; cbn; rewrite ?map_app, ?IHp1, ?IHp2; auto. Qed.
Lemma assigned_ids p : forall n, map snd (assigned n p) = seq n (length (labels p)).
Proof.
  induction p; intros n; cbn; rewrite ?map_app, ?app_length, ?seq_app, ?IHp1, ?IHp2; auto. rewrite Nat.add_1_r. reflexivity.
Qed.
Lemma count_labels p : forall e, count (fst (parse p e)) = length (labels p).
Proof.
  induction p; intros e; cbn [parse labels]; auto;
    try (specialize (IHp (declare x e)); destruct (parse p (declare x e)); auto; fail).
  - specialize (IHp1 e). destruct (parse p1 e) as [l e1]. specialize (IHp2 e1). destruct (parse p2 e1). cbn in *. rewrite app_length. lia.
  - destruct (visible x e) as [[? ?]|]; reflexivity.
  - destruct (visible x e) as [[? ?]|]; reflexivity.
  - specialize (IHp (assign x e)). destruct (parse p (assign x e)). auto.
  - specialize (IHp1 e). destruct (parse p1 e) as [l e1]. specialize (IHp2 (InScope hard label [] :: e1)).
    destruct (parse p2 _). cbn in *. rewrite app_length. lia.
Qed.

Definition seen (o : occurrence) : bool := match snd o with Ordinary | Shorthand => true | Keyword | Local => false end.
Definition matches (pairs : list (nat * nat)) (o : occurrence) (ev : event) : Prop :=
  let '(s, (x, k), _) := o in let '(x', id, s') := ev in s = s' /\ x = x' /\ exists i, id = Some i /\ In (k, i) pairs.

Lemma combine_nth {A B} (l : list A) : forall (m : list B) d a, length l = length m -> nth_error l d = Some a -> exists b, nth_error m d = Some b /\ In (a, b) (combine l m).
Proof.
  induction l as [|x l IH]; intros [|y m] [|d] a L E; cbn in *; try discriminate.
  - injection E as ->. eauto.
  - destruct (IH m d a) as (b & B1 & B2); auto. eauto.
Qed.
Lemma matches_more p q l m : Forall2 (matches p) l m -> (forall x, In x p -> In x q) -> Forall2 (matches q) l m.
Proof.
  induction 1 as [|[[s [x k]] o] [[x' id] s'] l m M F IH]; intros I; constructor; auto. destruct M as (A & B & i & C & D). cbn. eauto 6.
Qed.
Lemma here_matches k x s e st : length e = length st -> (k = Ordinary \/ k = Shorthand) ->
  match visible x e with
  | Some (d, _) => Forall2 (matches (combine (map label e) st)) (filter seen (here k x s e)) [(x, nth_error st d, s)]
  | None => here k x s e = []
  end.
Proof.
  intros L K. unfold here. destruct (visible x e) as [[d t]|] eqn:V; auto. apply visible_nth in V.
  destruct (combine_nth (map label e) st d (label t)) as (b & B1 & B2); [now rewrite map_length|now rewrite nth_error_map, V|].
  assert (filter seen [(s, (x, label t), k)] = [(s, (x, label t), k)]) as -> by (destruct K as [-> | ->]; reflexivity).
  constructor; [|constructor]. cbn. rewrite B1. eauto.
Qed.
Lemma unseen_here k x s e : (k = Keyword \/ k = Local) -> filter seen (here k x s e) = [].
Proof. intros K. unfold here. destruct (visible x e) as [[d t]|]; auto. destruct K as [-> | ->]; reflexivity. Qed.

Lemma no_variables p : forall e, variables (fst (parse p e)) = [] -> fst (resolve p e) = [].
Proof.
  induction p; intros e; cbn [parse resolve]; auto; unfold here; try discriminate.
  - pose proof (parse_env p1 e) as PE. specialize (IHp1 e). destruct (parse p1 e) as [a1 e1], (resolve p1 e) as [l1 f1]. cbn in PE. subst e1.
    specialize (IHp2 f1). destruct (parse p2 f1) as [a2 e2], (resolve p2 f1) as [l2 f2]. cbn in *. intros V. apply app_eq_nil in V. destruct V as [V1 V2].
    now rewrite IHp1, IHp2.
  - destruct (visible x e) as [[? ?]|]; [discriminate|auto].
  - destruct (visible x e) as [[? ?]|]; [discriminate|auto].
  - destruct (parse p (assign x e)); discriminate.
  - destruct (parse p (declare x e)); discriminate.
  - destruct (parse p (declare x e)); discriminate.
  - pose proof (parse_env p1 e) as PE. specialize (IHp1 e). destruct (parse p1 e) as [a1 e1], (resolve p1 e) as [l1 f1]. cbn in PE. subst e1.
    specialize (IHp2 (InScope hard label [] :: f1)). destruct (parse p2 _) as [a2 e2], (resolve p2 _) as [l2 f2]. cbn in *. intros V. apply app_eq_nil in V.
    destruct V as [V1 V2]. now rewrite IHp1, IHp2.
Qed.
Lemma no_events a : variables a = [] -> forall st n, events st n a = [].
Proof.
  induction a; cbn; intros V st n; try discriminate; auto; apply app_eq_nil in V; destruct V as [V1 V2]; now rewrite IHa1, IHa2.
Qed.

Lemma events_match p : forall e st n, e <> [] -> length e = length st -> plain_heads (fst (parse p e)) ->
  Forall2 (matches (combine (map label e) st ++ assigned n p)) (filter seen (fst (resolve p e))) (events st n (fst (parse p e))).
Proof.
  induction p; intros e st n NE L P; cbn [parse resolve assigned]; rewrite ?app_nil_r.
  - constructor.
  - cbn [parse] in P. pose proof (parse_env p1 e) as PE. pose proof (resolve_labels p1 e) as RL. pose proof (count_labels p1 e) as CL. specialize (IHp1 e st n).
    destruct (parse p1 e) as [a1 e1], (resolve p1 e) as [l1 f1]. cbn [fst snd] in PE, RL, CL. subst e1.
    specialize (IHp2 f1 st (n + length (labels p1))). destruct (parse p2 f1) as [a2 e2], (resolve p2 f1) as [l2 f2]. cbn [fst snd events] in *. destruct P as [P1 P2].
    rewrite filter_app, CL. apply Forall2_app.
    + eapply matches_more; [apply IHp1; auto|]. intros x. rewrite !in_app_iff. tauto.
    + eapply matches_more; [apply IHp2; auto|].
      * intros ->. destruct e; [easy|discriminate].
      * rewrite <- L, <- (map_length label f1), RL, map_length. reflexivity.
      * intros x. rewrite RL, !in_app_iff. tauto.
  - pose proof (here_matches Ordinary x at_ e st L (or_introl eq_refl)) as H. destruct (visible x e) as [[d t]|] eqn:V; cbn [fst events]; auto.
    rewrite H. constructor.
  - pose proof (here_matches Shorthand x at_ e st L (or_intror eq_refl)) as H. destruct (visible x e) as [[d t]|] eqn:V; cbn [fst events]; auto.
    rewrite H. constructor.
  - cbn [parse] in P. assert (length (assign x e) = length st) as L' by (rewrite <- L, <- (map_length label), map_label_assign, map_length; reflexivity).
    destruct (visible_assign x e NE) as (d & t & V). pose proof (here_matches Ordinary x at_ (assign x e) st L' (or_introl eq_refl)) as H. rewrite V in H.
    assert (assign x e <> []) as NE' by now apply assign_nonempty.
    specialize (IHp (assign x e) st n NE' L'). destruct (parse p (assign x e)) as [a e1], (resolve p (assign x e)) as [l f1]. cbn [fst events] in *.
    unfold depth_of. rewrite V, filter_app, map_label_assign in *.
    change ((x, nth_error st d, at_) :: events st n a) with ([(x, nth_error st d, at_)] ++ events st n a). apply Forall2_app; [|apply IHp; exact P].
    eapply matches_more; [exact H|]. intros q. rewrite in_app_iff. tauto.
  - assert (length (assign x e) = length st) as L' by (rewrite <- L, <- (map_length label), map_label_assign, map_length; reflexivity).
    destruct (visible_assign x e NE) as (d & t & V). pose proof (here_matches Ordinary x at_ (assign x e) st L' (or_introl eq_refl)) as H. rewrite V in H.
    cbn [fst events]. unfold depth_of. rewrite V. rewrite map_label_assign in H. exact H.
  - destruct e as [|s0 e]; [easy|]. destruct (visible_declare x s0 e) as (t & V & _). set (e1 := declare x (s0 :: e)) in *.
    assert (length e1 = length st) as L' by (cbn in *; lia). pose proof (here_matches Ordinary x at_ e1 st L' (or_introl eq_refl)) as H. rewrite V in H.
    unfold e1 in H at 1. rewrite map_label_declare in H. exact H.
  - cbn [parse] in P. destruct e as [|s0 e]; [easy|]. destruct (visible_declare x s0 e) as (t & V & _). pose proof (map_label_declare x (s0 :: e)) as ML. set (e1 := declare x (s0 :: e)) in *.
    assert (length e1 = length st) as L' by (cbn in *; lia). pose proof (here_matches Ordinary x at_ e1 st L' (or_introl eq_refl)) as H. rewrite V in H.
    assert (e1 <> []) as NE' by (unfold e1; cbn; discriminate). specialize (IHp e1 st n NE' L'). destruct (parse p e1) as [a e2], (resolve p e1) as [l f1]. cbn [fst events] in *.
    rewrite filter_app. rewrite ML in *. change ((x, nth_error st 0, at_) :: events st n a) with ([(x, nth_error st 0, at_)] ++ events st n a).
    apply Forall2_app; [|apply IHp; exact P]. eapply matches_more; [exact H|]. intros q. rewrite in_app_iff. tauto.
  - cbn [fst events]. rewrite unseen_here by auto. constructor.
  - cbn [parse] in P. destruct e as [|s0 e]; [easy|]. pose proof (map_label_declare x (s0 :: e)) as ML. set (e1 := declare x (s0 :: e)) in *.
    assert (length e1 = length st) as L' by (cbn in *; lia). assert (e1 <> []) as NE' by (unfold e1; cbn; discriminate). specialize (IHp e1 st n NE' L').
    pose proof (unseen_here Keyword x at_ e1 (or_introl eq_refl)) as U. destruct (parse p e1) as [a e2], (resolve p e1) as [l f1]. cbn [fst events] in *.
    rewrite filter_app, U. rewrite ML in *. apply IHp. exact P.
  - cbn [fst events]. rewrite unseen_here by auto. constructor.
  - cbn [parse] in P. pose proof (parse_env p1 e) as PE. pose proof (resolve_labels p1 e) as RL. pose proof (count_labels p1 e) as CL. pose proof (no_variables p1 e) as NV.
    destruct (parse p1 e) as [a1 e1], (resolve p1 e) as [l1 f1]. cbn [fst snd] in PE, RL, CL, NV. subst e1.
    specialize (IHp2 (InScope hard label [] :: f1) (n :: st) (n + 1 + length (labels p1))).
    destruct (parse p2 _) as [a2 e2], (resolve p2 _) as [l2 f2]. cbn [fst snd events] in *. destruct P as [P1 P2].
    rewrite (NV P1), (no_events a1 P1), CL. cbn [app]. eapply matches_more; [apply IHp2|]; auto.
    + discriminate.
    + cbn. rewrite <- L, <- (map_length Rename_Spec.label f1), RL, map_length. reflexivity.
    + intros q. cbn [map combine app Rename_Spec.label]. rewrite RL. cbn [In]. rewrite !in_app_iff. cbn [In]. rewrite !in_app_iff. tauto.
Qed.

(** ** Finding and collecting *)
Definition hit (c : nat) (ev : event) : bool := match ev with (_, Some _, s) => (fst s <=? c) && (c <? snd s) | _ => false end.
Lemma fold_found l : forall c st n t r, fold_left act l (Visitor c st n (Some t) r FindTarget) = Visitor c st n (Some t) r FindTarget.
Proof. induction l as [|[[x [id|]] s] l IH]; intros c st n [y t] r; cbn; auto. Qed.
Lemma fold_find l : forall c st n r, fold_left act l (Visitor c st n None r FindTarget) =
  Visitor c st n (match find (hit c) l with Some (x, Some id, _) => Some (x, id) | _ => None end) r FindTarget.
Proof.
  induction l as [|[[x [id|]] s] l IH]; intros c st n r; cbn [fold_left find]; auto.
  - cbn [act at_phase target]. unfold cursor_in. cbn [cursor hit]. destruct (_ && _); [apply fold_found|apply IH].
  - cbn [act hit]. apply IH.
Qed.
Definition chosen (y : ident) (t : nat) (ev : event) : bool := match ev with (x, Some id, _) => (x =? y)%N && (id =? t) | _ => false end.
Definition span_of (ev : event) : span := snd ev.
Lemma fold_collect l : forall c st n y t r, fold_left act l (Visitor c st n (Some (y, t)) r Collect) =
  Visitor c st n (Some (y, t)) (r ++ map span_of (filter (chosen y t) l)) Collect.
Proof.
  induction l as [|[[x [id|]] s] l IH]; intros c st n y t r; cbn [fold_left filter]; [cbn; now rewrite app_nil_r| |].
  - cbn [act at_phase target chosen]. destruct ((x =? y)%N && (id =? t)); rewrite IH; cbn [map]; rewrite <- ?app_assoc; reflexivity.
  - cbn [act chosen]. apply IH.
Qed.

Lemma targets_events c a : let l := events [0] 1 a in
  find_rename_targets c a = match find (hit c) l with Some (x, Some id, _) => map span_of (filter (chosen x id) l) | _ => [] end.
Proof.
  cbn zeta. unfold find_rename_targets.
  assert (forall t r ph, visit a (Visitor c [0] 1 t r ph) = with_place (fold_left act (events [0] 1 a) (Visitor c [0] 1 t r ph)) [0] (1 + count a)) as V.
  { intros t r ph. exact (visit_events a (Visitor c [0] 1 t r ph) [0] 1). }
  rewrite !V. rewrite fold_find. unfold with_place at 1. cbn [target].
  destruct (find (hit c) (events [0] 1 a)) as [[[x [id|]] s]|]; auto. rewrite V, fold_collect. reflexivity.
Qed.
