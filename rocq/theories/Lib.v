(** Shared list utilities used by several models.  Nothing here models code of its own
    except [swap_remove] (Rust's [Vec::swap_remove]) and [best_index]
    (Rust's [iter().enumerate().filter(p).min_by_key(k).map(|(i,_)| i)]). *)
From Coq Require Import List Arith Lia Bool Permutation.
Import ListNotations.

Section Upd.
  Context {A : Type}.

  (** Replace the element at index [i] (no effect when out of range). *)
  Fixpoint upd (l : list A) (i : nat) (x : A) : list A :=
    match l, i with
    | [], _ => []
    | _ :: t, 0 => x :: t
    | h :: t, S j => h :: upd t j x
    end.

  Lemma upd_length l : forall i x, length (upd l i x) = length l.
  Proof. induction l; destruct i; simpl; auto. Qed.

  Lemma nth_upd_eq l : forall i x y, nth_error l i = Some y -> nth_error (upd l i x) i = Some x.
  Proof. induction l; destruct i; simpl; intros; try discriminate; eauto. Qed.

  Lemma nth_upd_neq l : forall i j x, i <> j -> nth_error (upd l i x) j = nth_error l j.
  Proof. induction l; destruct i, j; simpl; intros; auto; try congruence. Qed.

  Lemma nth_upd l i j x :
    nth_error (upd l i x) j =
    if Nat.eqb i j then (match nth_error l i with Some _ => Some x | None => None end)
    else nth_error l j.
  Proof.
    destruct (Nat.eqb_spec i j) as [->|H].
    - destruct (nth_error l j) eqn:E; [eapply nth_upd_eq; eauto|].
      apply nth_error_None. rewrite upd_length. now apply nth_error_None.
    - now apply nth_upd_neq.
  Qed.

  Lemma upd_split l : forall i x y, nth_error l i = Some y ->
    exists l1 l2, l = l1 ++ y :: l2 /\ length l1 = i /\ upd l i x = l1 ++ x :: l2.
  Proof.
    induction l as [|a l IH]; intros [|i] x y H; simpl in *; try discriminate.
    - injection H as ->. exists [], l. auto.
    - destruct (IH i x y H) as (l1 & l2 & -> & <- & E). exists (a :: l1), l2. simpl.
      now rewrite E.
  Qed.

  Lemma in_upd l : forall i x z, In z (upd l i x) -> z = x \/ In z l.
  Proof.
    induction l as [|a l IH]; intros [|i] x z H; simpl in *; auto.
    - destruct H; auto.
    - destruct H as [->|H]; auto. apply IH in H. tauto.
  Qed.

  (** Count of the elements satisfying [p]. *)
  Fixpoint count (p : A -> bool) (l : list A) : nat :=
    match l with
    | [] => 0
    | h :: t => (if p h then 1 else 0) + count p t
    end.

  Lemma count_app p l1 l2 : count p (l1 ++ l2) = count p l1 + count p l2.
  Proof. induction l1; simpl; lia. Qed.

  Lemma count_upd p l : forall i x y, nth_error l i = Some y ->
    count p (upd l i x) + (if p y then 1 else 0) = count p l + (if p x then 1 else 0).
  Proof.
    induction l; destruct i; simpl; intros x y H; try discriminate.
    - injection H as ->. lia.
    - specialize (IHl _ x _ H). lia.
  Qed.

  Lemma count_perm p l1 l2 : Permutation l1 l2 -> count p l1 = count p l2.
  Proof. induction 1; simpl; lia. Qed.

  Lemma count_pos p l : (exists x, In x l /\ p x = true) -> 0 < count p l.
  Proof.
    induction l as [|a l IH]; intros [x [H1 H2]]; [easy|].
    destruct H1 as [->|H1]; simpl; [rewrite H2; lia|].
    assert (0 < count p l) by eauto. lia.
  Qed.

  Lemma count_zero p l : count p l = 0 -> forall x, In x l -> p x = false.
  Proof.
    induction l as [|a l IH]; simpl; intros H x []; subst.
    - destruct (p x); [lia|auto].
    - apply IH; auto. lia.
  Qed.

  Lemma count_le_length p l : count p l <= length l.
  Proof. induction l; simpl; [lia|]. destruct (p a); lia. Qed.

  Lemma count_map_upd_ge p q l : (forall x, p x = true -> q x = true) -> count p l <= count q l.
  Proof.
    intros H; induction l; simpl; [lia|].
    specialize (H a). destruct (p a); [rewrite H by auto; lia|destruct (q a); lia].
  Qed.

  (** Rust [Vec::swap_remove(i)]: the last element takes the place of element [i]. *)
  Fixpoint swap_remove (l : list A) (i : nat) : list A :=
    match l, i with
    | [], _ => []
    | _ :: t, 0 => match rev t with [] => [] | z :: r => z :: rev r end
    | h :: t, S j => h :: swap_remove t j
    end.

  Lemma swap_remove_perm l : forall i x, nth_error l i = Some x ->
    Permutation l (x :: swap_remove l i).
  Proof.
    induction l as [|h t IH]; intros [|i] x H; simpl in *; try discriminate.
    - injection H as ->. apply perm_skip. destruct (rev t) eqn:E.
      + apply (f_equal (@rev A)) in E. rewrite rev_involutive in E. now subst.
      + apply (f_equal (@rev A)) in E. rewrite rev_involutive in E. subst. simpl.
        symmetry. apply Permutation_cons_append.
    - eapply perm_trans; [apply perm_skip, (IH _ _ H)|apply perm_swap].
  Qed.

  (** [filter(ok).min_by_key(key)] over an indexed list, returning the index; [lt a b] is
      "key a < key b".  Rust keeps the first of equal minima. *)
  Fixpoint best_from (ok : A -> bool) (lt : A -> A -> bool) (l : list A) (i : nat)
           (cur : option (nat * A)) : option (nat * A) :=
    match l with
    | [] => cur
    | x :: t =>
        best_from ok lt t (S i)
          (if ok x then
             match cur with
             | None => Some (i, x)
             | Some (_, y) => if lt x y then Some (i, x) else cur
             end
           else cur)
    end.

  Definition best_index ok lt l : option nat :=
    option_map fst (best_from ok lt l 0 None).

  (** What is needed of the strict order [lt]: it is a strict weak order. *)
  Lemma best_from_spec ok lt
    (asym : forall x y, lt x y = true -> lt y x = false)
    (tr : forall x y z, lt x y = false -> lt y z = false -> lt x z = false) :
    forall l pre cur,
    match cur with
    | None => forall y, In y pre -> ok y = false
    | Some (j, x) => nth_error pre j = Some x /\ ok x = true /\
                     forall y, In y pre -> ok y = true -> lt y x = false
    end ->
    match best_from ok lt l (length pre) cur with
    | None => forall y, In y (pre ++ l) -> ok y = false
    | Some (j, x) => nth_error (pre ++ l) j = Some x /\ ok x = true /\
                     forall y, In y (pre ++ l) -> ok y = true -> lt y x = false
    end.
  Proof.
    assert (irr : forall x, lt x x = false).
    { intros x. destruct (lt x x) eqn:E; auto. now rewrite (asym _ _ E) in E. }
    induction l as [|a l IH]; intros pre cur H; simpl.
    - rewrite app_nil_r. exact H.
    - specialize (IH (pre ++ [a])).
      rewrite app_length in IH. simpl in IH. rewrite Nat.add_1_r in IH.
      rewrite <- app_assoc in IH. simpl in IH. apply IH. clear IH.
      assert (Ha : nth_error (pre ++ [a]) (length pre) = Some a).
      { rewrite nth_error_app2 by lia. now rewrite Nat.sub_diag. }
      destruct (ok a) eqn:Eo; destruct cur as [[j x]|].
      + destruct H as (H1 & H2 & H3). destruct (lt a x) eqn:El.
        * split; [auto|split; auto]. intros y Hy Hok. apply in_app_iff in Hy as [Hy|[<-|[]]]; auto.
          apply (tr y x a); auto.
        * split; [rewrite nth_error_app1; auto; apply nth_error_Some; congruence|split; auto].
          intros y Hy Hok. apply in_app_iff in Hy as [Hy|[<-|[]]]; auto.
      + split; [auto|split; auto]. intros y Hy Hok.
        apply in_app_iff in Hy as [Hy|[<-|[]]]; auto. rewrite H in Hok; auto. discriminate.
      + destruct H as (H1 & H2 & H3).
        split; [rewrite nth_error_app1; auto; apply nth_error_Some; congruence|split; auto].
        intros y Hy Hok. apply in_app_iff in Hy as [Hy|[<-|[]]]; auto. congruence.
      + intros y Hy. apply in_app_iff in Hy as [Hy|[<-|[]]]; auto.
  Qed.

  Lemma best_index_some ok lt
    (asym : forall x y, lt x y = true -> lt y x = false)
    (tr : forall x y z, lt x y = false -> lt y z = false -> lt x z = false) l i :
    best_index ok lt l = Some i ->
    exists x, nth_error l i = Some x /\ ok x = true /\
              forall y, In y l -> ok y = true -> lt y x = false.
  Proof.
    unfold best_index. intros H.
    pose proof (best_from_spec ok lt asym tr l [] None) as S. simpl in S.
    destruct (best_from ok lt l 0 None) as [[j x]|]; simpl in H; [|discriminate].
    injection H as ->. exists x. apply S. intros y [].
  Qed.

  Lemma best_index_none ok lt
    (asym : forall x y, lt x y = true -> lt y x = false)
    (tr : forall x y z, lt x y = false -> lt y z = false -> lt x z = false) l :
    best_index ok lt l = None -> forall y, In y l -> ok y = false.
  Proof.
    unfold best_index. intros H.
    pose proof (best_from_spec ok lt asym tr l [] None) as S. simpl in S.
    destruct (best_from ok lt l 0 None) as [[j x]|]; simpl in H; [discriminate|].
    apply S. intros y [].
  Qed.

  Lemma filter_perm (p : A -> bool) l1 l2 :
    Permutation l1 l2 -> Permutation (filter p l1) (filter p l2).
  Proof.
    induction 1; simpl; auto.
    - destruct (p x); auto.
    - destruct (p x), (p y); auto. apply perm_swap.
    - eapply perm_trans; eauto.
  Qed.

  Lemma count_filter (p : A -> bool) l : count p l = length (filter p l).
  Proof. induction l; simpl; auto. destruct (p a); simpl; lia. Qed.

  (** Rust [iter().position(p)]. *)
  Fixpoint position (p : A -> bool) (l : list A) : option nat :=
    match l with
    | [] => None
    | h :: t => if p h then Some 0 else option_map S (position p t)
    end.

  Lemma position_some p l : forall i, position p l = Some i ->
    exists x, nth_error l i = Some x /\ p x = true.
  Proof.
    induction l as [|h t IH]; simpl; intros i H; [discriminate|].
    destruct (p h) eqn:E.
    - injection H as <-. exists h. auto.
    - destruct (position p t); simpl in H; [|discriminate].
      injection H as <-. simpl. eauto.
  Qed.

  Lemma position_none p l : position p l = None -> forall x, In x l -> p x = false.
  Proof.
    induction l as [|h t IH]; simpl; intros H x []; subst.
    - destruct (p x); [discriminate|auto].
    - destruct (p h); [discriminate|]. destruct (position p t); [discriminate|]. auto.
  Qed.
End Upd.

Lemma nodup_map_filter_inj {A B} (f : A -> B) (p : A -> bool) (l : list A) :
  NoDup (map f (filter p l)) ->
  forall i j x y, nth_error l i = Some x -> nth_error l j = Some y ->
    p x = true -> p y = true -> f x = f y -> i = j.
Proof.
  induction l as [|a l IH]; intros ND i j x y Hi Hj Px Py E.
  - destruct i; discriminate.
  - simpl in ND. destruct i, j; simpl in *; auto.
    + injection Hi as ->. rewrite Px in ND. simpl in ND. inversion ND as [|? ? NI]; subst.
      exfalso. apply NI. rewrite E. apply in_map. apply filter_In. split; auto.
      eapply nth_error_In; eauto.
    + injection Hj as ->. rewrite Py in ND. simpl in ND. inversion ND as [|? ? NI]; subst.
      exfalso. apply NI. rewrite <- E. apply in_map. apply filter_In. split; auto.
      eapply nth_error_In; eauto.
    + f_equal. eapply IH; eauto. destruct (p a); auto. simpl in ND. now inversion ND.
Qed.
