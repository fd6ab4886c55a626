(** The derived order is a strict total order; canonical lists are determined by their elements. *)
From Coq Require Import List Arith Bool Lia Sorted Permutation.
From Verif Require Import Lib Types_Model.
Import ListNotations.

Lemma tree_ind' (P : tree -> Prop) :
  (forall n l, Forall P l -> P (Node n l)) -> forall t, P t.
Proof.
  intros H. fix IH 1. intros [n l]. apply H.
  induction l as [|x l IHl]; constructor; [apply IH|exact IHl].
Qed.

Lemma ty_ind' (P : ty -> Prop)
  (Hc : forall f, P (TClass f)) (Hm : forall f, P (TModule f))
  (Hcr : forall f, P (TClassRef f)) (Hmr : forall f, P (TModuleRef f))
  (Hl : forall l, P (TLit l))
  (Ha : forall l, Forall P l -> P (TArray l))
  (Hh : forall k v, Forall P k -> Forall P v -> P (THash k v))
  (Hs : forall fs rest ex fr d, Forall (fun f => P (fval f)) fs ->
        (forall a b, rest = Some (a, b) -> P a /\ P b) -> P (TShape fs rest ex fr d))
  (Hu : forall l, Forall P l -> P (TUnion l))
  (Hx : P TUnknown) : forall t, P t.
Proof.
  fix IH 1. intros [f|f|f|f|l|l|k v|fs rest ex fr d|l|].
  - apply Hc. - apply Hm. - apply Hcr. - apply Hmr. - apply Hl.
  - apply Ha. induction l as [|x l IHl]; constructor; [apply IH|exact IHl].
  - apply Hh.
    + induction k as [|x l IHl]; constructor; [apply IH|exact IHl].
    + induction v as [|x l IHl]; constructor; [apply IH|exact IHl].
  - apply Hs.
    + induction fs as [|[[k x] r] l IHl]; constructor; [cbn; apply IH|exact IHl].
    + destruct rest as [[a b]|]; intros a' b' E; [|discriminate].
      assert (a = a') by congruence. assert (b = b') by congruence. subst a' b'. split; apply IH.
  - apply Hu. induction l as [|x l IHl]; constructor; [apply IH|exact IHl].
  - apply Hx.
Qed.

Fixpoint lcmp (l k : list tree) : comparison :=
  match l, k with
  | [], [] => Eq
  | [], _ => Lt
  | _, [] => Gt
  | x :: l, y :: k => match tcmp x y with Eq => lcmp l k | c => c end
  end.
Lemma tcmp_node n l m k :
  tcmp (Node n l) (Node m k) = match Nat.compare n m with Eq => lcmp l k | c => c end.
Proof. reflexivity. Qed.

Lemma tcmp_eq : forall a b, tcmp a b = Eq <-> a = b.
Proof.
  induction a as [n l H] using tree_ind'. intros [m k]. rewrite tcmp_node.
  assert (L : forall k, lcmp l k = Eq <-> l = k).
  { induction H as [|x l Hx Hl IH]; intros [|y k']; cbn; try (split; congruence).
    destruct (tcmp x y) eqn:E.
    - apply Hx in E. subst. rewrite IH. split; congruence.
    - split; [discriminate|]. intros Q. assert (Q2 : x = y) by congruence. apply Hx in Q2. congruence.
    - split; [discriminate|]. intros Q. assert (Q2 : x = y) by congruence. apply Hx in Q2. congruence. }
  destruct (Nat.compare n m) eqn:E.
  - apply Nat.compare_eq in E. subst. rewrite L. split; congruence.
  - split; [discriminate|]. intros Q. assert (n = m) by congruence. subst.
    rewrite Nat.compare_refl in E. discriminate.
  - split; [discriminate|]. intros Q. assert (n = m) by congruence. subst.
    rewrite Nat.compare_refl in E. discriminate.
Qed.
Lemma tcmp_antisym : forall a b, tcmp b a = CompOpp (tcmp a b).
Proof.
  induction a as [n l H] using tree_ind'. intros [m k]. rewrite !tcmp_node.
  rewrite (Nat.compare_antisym n m).
  assert (L : forall k, lcmp k l = CompOpp (lcmp l k)).
  { induction H as [|x l Hx Hl IH]; intros [|y k']; cbn; try reflexivity.
    rewrite (Hx y). destruct (tcmp x y); cbn; auto. }
  destruct (Nat.compare n m); cbn; auto.
Qed.
Lemma tcmp_trans : forall a b c, tcmp a b = Lt -> tcmp b c = Lt -> tcmp a c = Lt.
Proof.
  induction a as [n l H] using tree_ind'. intros [m k] [p q]. rewrite !tcmp_node.
  assert (L : forall k q, lcmp l k = Lt -> lcmp k q = Lt -> lcmp l q = Lt).
  { induction H as [|x l Hx Hl IH]; intros [|y k'] [|z q']; cbn; try congruence.
    destruct (tcmp x y) eqn:E1; destruct (tcmp y z) eqn:E2; try discriminate.
    - apply tcmp_eq in E1. apply tcmp_eq in E2. subst.
      destruct (tcmp z z) eqn:E; [apply IH| |]; try congruence.
      pose proof (proj2 (tcmp_eq z z) eq_refl). congruence.
    - apply tcmp_eq in E1. subst. rewrite E2. congruence.
    - apply tcmp_eq in E2. subst. rewrite E1. congruence.
    - intros _ _. rewrite (Hx y z E1 E2). reflexivity. }
  destruct (Nat.compare_spec n m); try discriminate; destruct (Nat.compare_spec m p); try discriminate; intros A B.
  - subst. rewrite Nat.compare_refl. eapply L; eauto.
  - subst. apply Nat.compare_lt_iff in H1. rewrite H1. reflexivity.
  - subst. apply Nat.compare_lt_iff in H0. rewrite H0. reflexivity.
  - assert (n < p) by lia. apply Nat.compare_lt_iff in H2. rewrite H2. reflexivity.
Qed.

(** *** The encoding is injective *)
Lemma enc_fqn_inj a b : enc_fqn a = enc_fqn b -> a = b.
Proof. destruct a, b. cbn. intros Q. inversion Q. reflexivity. Qed.
Lemma enc_lit_inj a b : enc_lit a = enc_lit b -> a = b.
Proof. destruct a, b; cbn; intros Q; inversion Q; reflexivity. Qed.
Lemma enc_bool_inj a b : enc_bool a = enc_bool b -> a = b.
Proof. destruct a, b; cbn; intros Q; inversion Q; reflexivity. Qed.
Lemma enc_frozen_inj a b : enc_frozen a = enc_frozen b -> a = b.
Proof. destruct a, b; cbn; intros Q; inversion Q; reflexivity. Qed.
Lemma map_inj {A B} (f : A -> B) l : Forall (fun x => forall y, f x = f y -> x = y) l ->
  forall k, map f l = map f k -> l = k.
Proof.
  induction 1 as [|x l Hx Hl IH]; intros [|y k]; cbn; intros Q; try discriminate; [reflexivity|].
  inversion Q. f_equal; auto.
Qed.
Lemma enc_inj : forall a b, enc a = enc b -> a = b.
Proof.
  Local Arguments enc_fqn : simpl never. Local Arguments enc_lit : simpl never.
  Local Arguments enc_bool : simpl never. Local Arguments enc_frozen : simpl never.
  induction a using ty_ind'; intros [ ]; cbn; intros Q; try discriminate; try reflexivity.
  - f_equal. apply enc_fqn_inj. congruence.
  - f_equal. apply enc_fqn_inj. congruence.
  - f_equal. apply enc_fqn_inj. congruence.
  - f_equal. apply enc_fqn_inj. congruence.
  - f_equal. apply enc_lit_inj. congruence.
  - f_equal. eapply map_inj; [eassumption|congruence].
  - f_equal; eapply map_inj; eassumption || congruence.
  - assert (E1 : fs = fs0).
    { match type of Q with Node _ [Node _ ?a; _; _; _; _] = Node _ [Node _ ?b; _; _; _; _] =>
        assert (Q1 : a = b) by congruence end.
      eapply map_inj; [|exact Q1]. eapply Forall_impl; [|exact H].
      intros [[k v] r] Hv [[k' v'] r'] Q'. cbn in Hv.
      f_equal; [f_equal|]; [apply enc_lit_inj|apply Hv|apply enc_bool_inj]; congruence. }
    assert (E2 : rest = rest0).
    { destruct rest as [[x y]|], rest0 as [[x' y']|]; try (exfalso; congruence); [|reflexivity].
      destruct (H0 x y eq_refl) as [P1 P2].
      assert (enc x = enc x') by congruence. assert (enc y = enc y') by congruence.
      rewrite (P1 x'), (P2 y') by assumption. reflexivity. }
    assert (ex = ex0) by (apply enc_bool_inj; congruence).
    assert (fr = fr0) by (apply enc_frozen_inj; congruence).
    assert (d = depth) by (unfold leaf in Q; congruence). subst. reflexivity.
  - f_equal. eapply map_inj; [eassumption|congruence].
Qed.

Lemma cmp_eq a b : cmp a b = Eq <-> a = b.
Proof. unfold cmp. rewrite tcmp_eq. split; [apply enc_inj|congruence]. Qed.
Lemma cmp_refl a : cmp a a = Eq.
Proof. apply cmp_eq. reflexivity. Qed.
Lemma cmp_antisym a b : cmp b a = CompOpp (cmp a b).
Proof. apply tcmp_antisym. Qed.
Lemma cmp_trans a b c : cmp a b = Lt -> cmp b c = Lt -> cmp a c = Lt.
Proof. apply tcmp_trans. Qed.
Lemma eqb_eq a b : eqb a b = true <-> a = b.
Proof. unfold eqb. destruct (cmp a b) eqn:E; rewrite <- cmp_eq, E; split; congruence. Qed.
Lemma eqb_refl a : eqb a a = true.
Proof. apply eqb_eq. reflexivity. Qed.
Lemma eqb_neq a b : eqb a b = false <-> a <> b.
Proof. rewrite <- eqb_eq. destruct (eqb a b); split; congruence. Qed.
Lemma ty_dec (a b : ty) : {a = b} + {a <> b}.
Proof. destruct (eqb a b) eqn:E; [left; apply eqb_eq|right; apply eqb_neq]; assumption. Defined.
Lemma lit_cmp_eq a b : lit_cmp a b = Eq <-> a = b.
Proof. unfold lit_cmp. rewrite tcmp_eq. split; [apply enc_lit_inj|congruence]. Qed.
Lemma lit_cmp_antisym a b : lit_cmp b a = CompOpp (lit_cmp a b).
Proof. apply tcmp_antisym. Qed.
Lemma lit_cmp_trans a b c : lit_cmp a b = Lt -> lit_cmp b c = Lt -> lit_cmp a c = Lt.
Proof. apply tcmp_trans. Qed.
Lemma lit_eqb_eq a b : lit_eqb a b = true <-> a = b.
Proof. unfold lit_eqb. destruct (lit_cmp a b) eqn:E; rewrite <- lit_cmp_eq, E; split; congruence. Qed.

(** *** Sorting *)
Definition lt (a b : ty) : Prop := cmp a b = Lt.
Definition le (a b : ty) : Prop := a = b \/ lt a b.
Lemma lt_irrefl a : ~ lt a a.
Proof. unfold lt. rewrite cmp_refl. discriminate. Qed.
Lemma leb_le a b : leb a b = true <-> le a b.
Proof.
  unfold leb, le, lt. destruct (cmp a b) eqn:E.
  - apply cmp_eq in E. tauto.
  - tauto.
  - split; [discriminate|]. intros [->|]; [rewrite cmp_refl in E|]; discriminate.
Qed.
Lemma leb_false a b : leb a b = false -> lt b a.
Proof. unfold leb, lt. rewrite (cmp_antisym a b). destruct (cmp a b); cbn; congruence. Qed.
Lemma le_trans a b c : le a b -> le b c -> le a c.
Proof. intros [->|P] [->|Q]; unfold le; auto. right. eapply cmp_trans; eauto. Qed.
Lemma lt_le_trans a b c : lt a b -> le b c -> lt a c.
Proof. intros P [->|Q]; auto. eapply cmp_trans; eauto. Qed.

Lemma in_insert x y l : In y (insert x l) <-> y = x \/ In y l.
Proof.
  induction l as [|z l IH]; cbn; [intuition|]. destruct (leb x z); cbn; [intuition|].
  rewrite IH. tauto.
Qed.
Lemma in_sort y l : In y (sort l) <-> In y l.
Proof. induction l as [|x l IH]; cbn; [tauto|]. rewrite in_insert, IH. intuition. Qed.
Lemma insert_sorted x l : StronglySorted le l -> StronglySorted le (insert x l).
Proof.
  induction l as [|y l IH]; cbn; intros H; [repeat constructor|].
  inversion H as [|? ? HS HF]; subst. destruct (leb x y) eqn:E.
  - apply leb_le in E. constructor; [assumption|]. constructor; [assumption|].
    eapply Forall_impl; [|exact HF]. intros z. apply le_trans. assumption.
  - apply leb_false in E. constructor; [auto|].
    apply Forall_forall. intros z Z. apply in_insert in Z as [->|Z]; [right; assumption|].
    rewrite Forall_forall in HF. auto.
Qed.
Lemma sort_sorted l : StronglySorted le (sort l).
Proof. induction l; cbn; [constructor|apply insert_sorted; assumption]. Qed.
Lemma in_dedup y l : In y (dedup l) <-> In y l.
Proof.
  induction l as [|x l IH]; cbn [dedup]; [tauto|].
  destruct l as [|z l]; [tauto|]. destruct (eqb x z) eqn:E.
  - apply eqb_eq in E. subst. rewrite IH. cbn. tauto.
  - cbn [In]. cbn [In] in IH. rewrite IH. tauto.
Qed.
Lemma dedup_sorted l : StronglySorted le l -> StronglySorted lt (dedup l).
Proof.
  induction 1 as [|x l HS IH HF]; cbn [dedup]; [constructor|].
  destruct l as [|y l]; [repeat constructor|]. destruct (eqb x y) eqn:E; [assumption|].
  apply eqb_neq in E. constructor; [assumption|].
  apply Forall_forall. intros z Z. apply (proj1 (in_dedup z (y :: l))) in Z.
  rewrite Forall_forall in HF. assert (lt x y) as L by (destruct (HF y) as [|]; [left; reflexivity|contradiction|assumption]).
  destruct Z as [->|Z]; [assumption|].
  inversion HS as [|? ? HS' HF']; subst. rewrite Forall_forall in HF'. eapply lt_le_trans; eauto.
Qed.
Definition canon (l : list ty) : list ty := dedup (sort l).
Lemma canon_sorted l : StronglySorted lt (canon l).
Proof. apply dedup_sorted, sort_sorted. Qed.
Lemma in_canon y l : In y (canon l) <-> In y l.
Proof. unfold canon. rewrite in_dedup, in_sort. tauto. Qed.
Lemma sorted_unique : forall l k, StronglySorted lt l -> StronglySorted lt k ->
  (forall x, In x l <-> In x k) -> l = k.
Proof.
  induction l as [|x l IH]; intros [|y k] HL HK E.
  - reflexivity.
  - exfalso. apply (E y). left. reflexivity.
  - exfalso. apply (E x). left. reflexivity.
  - inversion HL as [|? ? SL FL]; inversion HK as [|? ? SK FK]; subst.
    rewrite Forall_forall in FL, FK.
    assert (x = y).
    { destruct (proj1 (E x) (or_introl eq_refl)) as [|P]; [congruence|].
      destruct (proj2 (E y) (or_introl eq_refl)) as [|Q]; [congruence|].
      exfalso. apply (lt_irrefl x). eapply cmp_trans; [apply FL|apply FK]; eassumption. }
    subst y. f_equal. apply IH; auto. intros z. split; intros Z.
    + destruct (proj1 (E z) (or_intror Z)) as [->|]; [|assumption]. exfalso. eapply lt_irrefl, FL, Z.
    + destruct (proj2 (E z) (or_intror Z)) as [->|]; [|assumption]. exfalso. eapply lt_irrefl, FK, Z.
Qed.
Lemma canon_ext l k : (forall x, In x l <-> In x k) -> canon l = canon k.
Proof. intros E. apply sorted_unique; try apply canon_sorted. intros x. rewrite !in_canon. apply E. Qed.
Lemma canon_id l : StronglySorted lt l -> canon l = l.
Proof. intros E. apply sorted_unique; auto using canon_sorted. intros x. apply in_canon. Qed.
Lemma sorted_nodup l : StronglySorted lt l -> NoDup l.
Proof.
  induction 1 as [|x l HS IH HF]; constructor; auto. intros P. rewrite Forall_forall in HF.
  eapply lt_irrefl, HF, P.
Qed.
