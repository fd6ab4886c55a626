(** Stable sorting, shared by the models of the per-file indexes.

    Models [slice::sort_by_key] / [slice::sort_by] of the Rust standard library: the result is
    sorted and elements with equal keys keep their order.  The specification [listed] below
    determines the result uniquely ([listed_unique]), so nothing depends on the insertion sort
    that is used to compute it. *)
From Coq Require Import List Arith Lia Bool Permutation Sorted.
Import ListNotations.

(** Lexicographic comparison of tuples of numbers, Rust's derived [Ord] on tuples. *)
Fixpoint lexb (a b : list nat) : bool :=
  match a, b with
  | [], _ => true
  | _ :: _, [] => false
  | x :: a', y :: b' => (x <? y) || ((x =? y) && lexb a' b')
  end.

Lemma lexb_total a : forall b, lexb a b = true \/ lexb b a = true.
Proof.
  induction a as [|x a IH]; intros [|y b]; simpl; auto.
  destruct (Nat.ltb_spec x y); auto. destruct (Nat.ltb_spec y x); auto.
  assert (x = y) by lia. subst. rewrite Nat.eqb_refl. simpl. apply IH.
Qed.

Lemma lexb_trans a : forall b c, lexb a b = true -> lexb b c = true -> lexb a c = true.
Proof.
  induction a as [|x a IH]; intros [|y b] [|z c]; simpl; auto; try discriminate.
  rewrite !orb_true_iff, !andb_true_iff, !Nat.ltb_lt, !Nat.eqb_eq.
  intros [H1|[H1 H2]] [H3|[H3 H4]]; try (left; lia). right. split; [lia|]. eauto.
Qed.

Lemma lexb_antisym a : forall b, lexb a b = true -> lexb b a = true -> a = b.
Proof.
  induction a as [|x a IH]; intros [|y b]; simpl; auto; try discriminate.
  rewrite !orb_true_iff, !andb_true_iff, !Nat.ltb_lt, !Nat.eqb_eq.
  intros [H1|[H1 H2]] [H3|[H3 H4]]; try lia. f_equal; auto.
Qed.

Section Sort.
  Context {A : Type} (leb : A -> A -> bool).

  Fixpoint insert (x : A) (l : list A) : list A :=
    match l with
    | [] => [x]
    | y :: t => if leb x y then x :: y :: t else y :: insert x t
    end.

  Fixpoint sort (l : list A) : list A :=
    match l with
    | [] => []
    | x :: t => insert x (sort t)
    end.

  Definition eqv (x y : A) : bool := leb x y && leb y x.
  Definition le (x y : A) : Prop := leb x y = true.

  (** [r] lists [l] in order: same elements, sorted, ties in their original order. *)
  Definition listed (l r : list A) : Prop :=
    Permutation l r /\ StronglySorted le r /\
    forall x, filter (eqv x) r = filter (eqv x) l.

  Lemma insert_perm x l : Permutation (x :: l) (insert x l).
  Proof.
    induction l as [|y l IH]; simpl; auto. destruct (leb x y); auto.
    eapply perm_trans; [apply perm_swap|]. now apply perm_skip.
  Qed.

  Lemma sort_perm l : Permutation l (sort l).
  Proof.
    induction l; simpl; auto. eapply perm_trans; [|apply insert_perm]. now apply perm_skip.
  Qed.

  Lemma sort_in l x : In x (sort l) <-> In x l.
  Proof.
    split; apply Permutation_in; [symmetry|]; apply sort_perm.
  Qed.

  Lemma sort_length l : length (sort l) = length l.
  Proof. symmetry. apply Permutation_length, sort_perm. Qed.

  Hypothesis total : forall x y, leb x y = true \/ leb y x = true.
  Hypothesis trans : forall x y z, leb x y = true -> leb y z = true -> leb x z = true.

  Lemma leb_refl x : leb x x = true.
  Proof. destruct (total x x); auto. Qed.

  Lemma insert_sorted x l : StronglySorted le l -> StronglySorted le (insert x l).
  Proof.
    induction 1 as [|y l S IH F]; simpl; [repeat constructor|].
    destruct (leb x y) eqn:E.
    - constructor; [now constructor|]. constructor; auto.
      eapply Forall_impl; [|exact F]. intros z Hz. exact (trans _ _ _ E Hz).
    - constructor; auto. apply Forall_forall. intros z Hz.
      apply (Permutation_in _ (Permutation_sym (insert_perm x l))) in Hz.
      destruct Hz as [<-|Hz].
      + destruct (total x y) as [H|H]; [congruence|exact H].
      + rewrite Forall_forall in F. auto.
  Qed.

  Lemma sort_sorted l : StronglySorted le (sort l).
  Proof. induction l; simpl; [constructor|]. now apply insert_sorted. Qed.

  Lemma eqv_trans x y z : eqv x y = true -> eqv x z = eqv y z.
  Proof.
    unfold eqv. rewrite andb_true_iff. intros [H1 H2]. apply eq_iff_eq_true.
    rewrite !andb_true_iff. split; intros [H3 H4]; split; eauto.
  Qed.

  Lemma insert_filter x y l : StronglySorted le l ->
    filter (eqv y) (insert x l) = filter (eqv y) (x :: l).
  Proof.
    induction 1 as [|z l S IH F]; auto. cbn [insert]. destruct (leb x z) eqn:E; auto.
    cbn [filter]. cbn [filter] in IH. rewrite IH.
    destruct (eqv y z) eqn:Ez, (eqv y x) eqn:Ex; auto. exfalso.
    unfold eqv in *. rewrite andb_true_iff in *. destruct Ez, Ex.
    assert (leb x z = true) by eauto. congruence.
  Qed.

  Lemma sort_stable l y : filter (eqv y) (sort l) = filter (eqv y) l.
  Proof.
    induction l as [|x l IH]; auto. cbn [sort]. rewrite insert_filter by apply sort_sorted.
    cbn [filter]. now rewrite IH.
  Qed.

  Lemma sort_listed l : listed l (sort l).
  Proof. split; [apply sort_perm|]. split; [apply sort_sorted|apply sort_stable]. Qed.

  Lemma sorted_head_min x l : StronglySorted le (x :: l) -> forall y, In y (x :: l) -> leb x y = true.
  Proof.
    inversion 1 as [|? ? ? F]; subst. intros y [<-|H1]; [apply leb_refl|].
    rewrite Forall_forall in F. now apply F.
  Qed.

  Lemma in_by_filter l1 l2 : (forall x, filter (eqv x) l1 = filter (eqv x) l2) ->
    forall x, In x l1 -> In x l2.
  Proof.
    intros H x Hx. assert (In x (filter (eqv x) l1)) as H1.
    { apply filter_In. split; auto. unfold eqv. now rewrite !leb_refl. }
    rewrite H in H1. now apply filter_In in H1.
  Qed.

  Lemma sorted_unique l1 : forall l2, StronglySorted le l1 -> StronglySorted le l2 ->
    (forall x, filter (eqv x) l1 = filter (eqv x) l2) -> l1 = l2.
  Proof.
    induction l1 as [|x l1 IH]; intros [|y l2] S1 S2 H; auto.
    - exfalso.
      pose proof (in_by_filter (y :: l2) [] (fun x => eq_sym (H x)) y (or_introl eq_refl)) as [].
    - exfalso. pose proof (in_by_filter (x :: l1) [] H x (or_introl eq_refl)) as [].
    - assert (leb x y = true) as Hxy.
      { apply (sorted_head_min _ _ S1). apply (in_by_filter _ _ (fun z => eq_sym (H z))). now left. }
      assert (leb y x = true) as Hyx.
      { apply (sorted_head_min _ _ S2). apply (in_by_filter _ _ H). now left. }
      assert (x = y) as ->.
      { pose proof (H x) as Hf. cbn [filter] in Hf.
        assert (eqv x x = true) as E1 by (unfold eqv; now rewrite leb_refl).
        assert (eqv x y = true) as E2 by (unfold eqv; now rewrite Hxy, Hyx).
        rewrite E1, E2 in Hf. congruence. }
      f_equal. inversion S1; inversion S2; subst. apply IH; auto. intros z.
      specialize (H z). cbn [filter] in H. destruct (eqv z y); congruence.
  Qed.

  Lemma listed_unique l r1 r2 : listed l r1 -> listed l r2 -> r1 = r2.
  Proof.
    intros (_ & S1 & F1) (_ & S2 & F2). apply sorted_unique; auto. intros x. congruence.
  Qed.

  Lemma sort_eq l r : StronglySorted le r -> (forall x, filter (eqv x) r = filter (eqv x) l) ->
    sort l = r.
  Proof.
    intros S F. apply sorted_unique; auto; [apply sort_sorted|]. intros x.
    now rewrite sort_stable, F.
  Qed.

  Lemma sort_id l : StronglySorted le l -> sort l = l.
  Proof. intros S. now apply sort_eq. Qed.

  Lemma filter_sorted p l : StronglySorted le l -> StronglySorted le (filter p l).
  Proof.
    induction 1 as [|x l S IH F]; simpl; [constructor|]. destruct (p x); auto.
    constructor; auto. apply Forall_forall. intros y Hy. apply filter_In in Hy.
    rewrite Forall_forall in F. now apply F.
  Qed.

  Lemma filter_comm {B} (p q : B -> bool) l : filter p (filter q l) = filter q (filter p l).
  Proof.
    induction l as [|x l IH]; auto. simpl. destruct (p x) eqn:P, (q x) eqn:Q; simpl;
    rewrite ?P, ?Q; auto. now rewrite IH.
  Qed.

  Lemma sort_filter p l : filter p (sort l) = sort (filter p l).
  Proof.
    symmetry. apply sort_eq; [apply filter_sorted, sort_sorted|]. intros x.
    now rewrite filter_comm, sort_stable, filter_comm.
  Qed.

  Lemma sort_sort_app l l' : sort (sort l ++ l') = sort (l ++ l').
  Proof.
    symmetry. apply sort_eq; [apply sort_sorted|]. intros x.
    now rewrite sort_stable, !filter_app, sort_stable.
  Qed.

  Lemma sort_app_sort l l' : sort (l ++ sort l') = sort (l ++ l').
  Proof.
    symmetry. apply sort_eq; [apply sort_sorted|]. intros x.
    now rewrite sort_stable, !filter_app, sort_stable.
  Qed.

  Lemma sorted_app l1 l2 : StronglySorted le l1 -> StronglySorted le l2 ->
    (forall x y, In x l1 -> In y l2 -> leb x y = true) -> StronglySorted le (l1 ++ l2).
  Proof.
    induction 1 as [|x l1 S IH F]; simpl; auto. intros S2 H. constructor.
    - apply IH; auto.
    - apply Forall_app. split; auto. apply Forall_forall. intros y Hy. apply H; auto.
  Qed.

  Lemma sort_app_lt l1 l2 : (forall x y, In x l1 -> In y l2 -> leb x y = true) ->
    sort (l1 ++ l2) = sort l1 ++ sort l2.
  Proof.
    intros H. apply sort_eq.
    - apply sorted_app; try apply sort_sorted. intros x y Hx Hy. apply H; now apply sort_in.
    - intros x. now rewrite !filter_app, !sort_stable.
  Qed.

  Lemma filter_nil {B} (p : B -> bool) l : (forall x, In x l -> p x = false) -> filter p l = [].
  Proof.
    induction l as [|x l IH]; intros H; auto. simpl. rewrite H by now left. apply IH.
    intros; apply H; now right.
  Qed.

  (** Elements of one list never tie with elements of the other: their order is immaterial. *)
  Lemma sort_app_comm l1 l2 : (forall x y, In x l1 -> In y l2 -> eqv x y = false) ->
    sort (l1 ++ l2) = sort (l2 ++ l1).
  Proof.
    intros H. apply sort_eq; [apply sort_sorted|]. intros x.
    rewrite sort_stable, !filter_app.
    destruct (filter (eqv x) l1) as [|a t] eqn:E1; [now rewrite app_nil_r|].
    assert (filter (eqv x) l2 = []) as ->; [|now rewrite app_nil_r].
    apply filter_nil. intros y Hy. destruct (eqv x y) eqn:E; auto.
    assert (In a (filter (eqv x) l1)) as Ha by (rewrite E1; now left).
    apply filter_In in Ha. destruct Ha as [Ha Exa].
    rewrite <- (H a y Ha Hy). symmetry. rewrite <- E. symmetry. now apply eqv_trans.
  Qed.

  (** With an antisymmetric order only the multiset matters. *)
  Lemma sort_perm_eq l1 l2 : (forall x y, In x l1 -> In y l1 -> eqv x y = true -> x = y) ->
    Permutation l1 l2 -> sort l1 = sort l2.
  Proof.
    intros AS P. revert AS. induction P as [|x l l' P IH|x y l|l l' l'' P1 IH1 P2 IH2]; intros AS.
    - auto.
    - simpl. f_equal. apply IH. intros; apply AS; auto; now right.
    - apply sort_eq; [apply sort_sorted|]. intros z. rewrite sort_stable. simpl.
      destruct (eqv z x) eqn:Ex, (eqv z y) eqn:Ey; auto.
      rewrite (AS x y); auto; [now right; left|now left|].
      rewrite <- Ey. symmetry. now apply eqv_trans.
    - rewrite IH1 by auto. apply IH2. intros; apply AS; auto;
      (eapply Permutation_in; [symmetry; exact P1|auto]).
  Qed.
End Sort.

Lemma sort_partition {A} (leb : A -> A -> bool) (p : A -> bool) l :
  (forall x y, leb x y = true \/ leb y x = true) ->
  (forall x y z, leb x y = true -> leb y z = true -> leb x z = true) ->
  (forall x y, eqv leb x y = true -> p x = p y) ->
  sort leb (filter p l ++ filter (fun x => negb (p x)) l) = sort leb l.
Proof.
  intros T R H. symmetry. apply sort_eq; auto; [now apply sort_sorted|]. intros x.
  rewrite sort_stable by auto. rewrite filter_app. clear -H.
  induction l as [|y l IH]; auto. simpl. destruct (p y) eqn:P; simpl.
  - destruct (eqv leb x y) eqn:E; auto. simpl. now f_equal.
  - destruct (eqv leb x y) eqn:E; auto. rewrite <- IH.
    assert (forall m, filter (eqv leb x) (filter p m) = []) as ->; auto.
    intros m. apply filter_nil. intros z Hz. apply filter_In in Hz. destruct Hz as [_ Hz].
    destruct (eqv leb x z) eqn:E2; auto. apply H in E. apply H in E2. congruence.
Qed.

Lemma sort_ext {A} (le1 le2 : A -> A -> bool) l :
  (forall x y, In x l -> In y l -> le1 x y = le2 x y) -> sort le1 l = sort le2 l.
Proof.
  induction l as [|x l IH]; intros H; auto. simpl.
  rewrite IH by (intros; apply H; now right).
  assert (forall y, In y (sort le2 l) -> le1 x y = le2 x y) as H1.
  { intros y Hy. apply H; [now left|]. right. now apply sort_in in Hy. }
  clear IH. induction (sort le2 l) as [|y r IHr]; auto. simpl. rewrite H1 by now left.
  destruct (le2 x y); auto. f_equal. apply IHr. intros; apply H1; now right.
Qed.

Lemma sort_map {A B} (f : A -> B) (leb : B -> B -> bool) l :
  map f (sort (fun x y => leb (f x) (f y)) l) = sort leb (map f l).
Proof.
  induction l as [|x l IH]; auto. simpl. rewrite <- IH.
  clear IH. induction (sort _ l) as [|y r IHr]; auto. simpl. destruct (leb (f x) (f y)); simpl; auto.
  now rewrite IHr.
Qed.

(** Sorting by a tuple key. *)
Section Key.
  Context {A : Type} (key : A -> list nat).
  Definition key_leb (x y : A) : bool := lexb (key x) (key y).
  Lemma key_total x y : key_leb x y = true \/ key_leb y x = true.
  Proof. apply lexb_total. Qed.
  Lemma key_trans x y z : key_leb x y = true -> key_leb y z = true -> key_leb x z = true.
  Proof. apply lexb_trans. Qed.
  Lemma key_eqv x y : eqv key_leb x y = true <-> key x = key y.
  Proof.
    unfold eqv, key_leb. rewrite andb_true_iff. split.
    - intros [H1 H2]. now apply lexb_antisym.
    - intros ->. assert (lexb (key y) (key y) = true) as H by (destruct (lexb_total (key y) (key y)); auto).
      auto.
  Qed.
End Key.

(** [r] is [l] in order of position [pos], elements at the same position keeping their order. *)
Definition in_order {A} (pos : A -> list nat) (l r : list A) : Prop :=
  Permutation l r /\
  StronglySorted (fun x y => lexb (pos x) (pos y) = true) r /\
  forall p, filter (fun x => if list_eq_dec Nat.eq_dec (pos x) p then true else false) r =
            filter (fun x => if list_eq_dec Nat.eq_dec (pos x) p then true else false) l.

Section InOrder.
  Context {A : Type} (pos : A -> list nat).

  Definition at_pos (p : list nat) (x : A) : bool :=
    if list_eq_dec Nat.eq_dec (pos x) p then true else false.

  Lemma at_pos_eqv x l : filter (eqv (key_leb pos) x) l = filter (at_pos (pos x)) l.
  Proof.
    induction l as [|y l IH]; auto. simpl.
    assert (eqv (key_leb pos) x y = at_pos (pos x) y) as ->; [|now rewrite IH].
    apply eq_iff_eq_true. rewrite key_eqv. unfold at_pos.
    destruct (list_eq_dec Nat.eq_dec (pos y) (pos x)) as [e|e]; split; intros; auto; try discriminate.
  Qed.

  Lemma listed_in_order l r : listed (key_leb pos) l r -> in_order pos l r.
  Proof.
    intros (P & S & F). split; auto. split; [exact S|]. intros p.
    destruct (find (at_pos p) r) as [y|] eqn:E.
    - apply find_some in E. destruct E as [_ E]. unfold at_pos in E.
      destruct (list_eq_dec Nat.eq_dec (pos y) p) as [<-|]; [|discriminate].
      change (filter (at_pos (pos y)) r = filter (at_pos (pos y)) l).
      now rewrite <- !at_pos_eqv.
    - assert (forall x, In x r -> at_pos p x = false) as H by apply (find_none _ _ E).
      change (filter (at_pos p) r = filter (at_pos p) l).
      rewrite (filter_nil _ r), (filter_nil _ l); auto.
      intros x Hx. apply H. eapply Permutation_in; eauto.
  Qed.

  Lemma sort_in_order l : in_order pos l (sort (key_leb pos) l).
  Proof. apply listed_in_order, sort_listed; [apply key_total|apply key_trans]. Qed.

  Lemma in_order_eq l1 l2 r1 r2 : in_order pos l1 r1 -> in_order pos l2 r2 ->
    (forall p, filter (at_pos p) l1 = filter (at_pos p) l2) -> r1 = r2.
  Proof.
    intros (_ & S1 & F1) (_ & S2 & F2) H.
    apply (sorted_unique (key_leb pos) (key_total pos)); auto.
    intros x. rewrite !at_pos_eqv. unfold at_pos. rewrite F1, F2. apply H.
  Qed.

  Lemma in_order_unique l r1 r2 : in_order pos l r1 -> in_order pos l r2 -> r1 = r2.
  Proof. intros H1 H2. eapply in_order_eq; eauto. Qed.

  Lemma in_order_sort l r : in_order pos l r -> r = sort (key_leb pos) l.
  Proof. intros H. eapply in_order_unique; [exact H|apply sort_in_order]. Qed.
End InOrder.
