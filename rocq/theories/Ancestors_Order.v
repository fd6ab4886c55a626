(** The order of a method resolution order. *)
From Coq Require Import List Arith Lia Bool Relations.
From Verif Require Import Ancestors_Model Ancestors_Spec Ancestors_Proofs.
Import ListNotations.

Lemma edges_followed_eq w allow f g k :
  filter (allowed allow f) (edges_from w g k) = edges_followed w allow f g k.
Proof.
  unfold edges_from, edges_out, edges_followed. rewrite !filter_filter. apply filter_ext. intros e.
  unfold allowed. destruct (same (source e) g), (same_kind (kind e) k), (universal f), allow, (owned e); reflexivity.
Qed.
Lemma before_latest w allow f : before w allow f = latest_first w allow f Prepend.
Proof. unfold before, latest_first. now rewrite edges_followed_eq, map_rev. Qed.
Lemma filter_idem {A} (p : A -> bool) l : filter p (filter p l) = filter p l.
Proof. induction l as [|x l IH]; auto. cbn. destruct (p x) eqn:E; cbn; [rewrite E|]; now rewrite IH. Qed.
Lemma filter_app {A} (p : A -> bool) l m : filter p (l ++ m) = filter p l ++ filter p m.
Proof. induction l as [|x l IH]; auto. cbn. destruct (p x); cbn; now rewrite IH. Qed.
Lemma filter_flat_map {A B} (p : B -> bool) (g : A -> list B) l :
  filter p (flat_map (fun x => filter p (g x)) l) = flat_map (fun x => filter p (g x)) l.
Proof. induction l as [|x l IH]; auto. cbn. now rewrite filter_app, filter_idem, IH. Qed.
Lemma flat_map_ext' {A B} (g h : A -> list B) l : (forall x, g x = h x) -> flat_map g l = flat_map h l.
Proof. intros H. induction l as [|x l IH]; auto. cbn. now rewrite H, IH. Qed.
Lemma hooked_eq w allow f : map target (rev (filter (allowed allow f) (hook_edges w allow f))) = hooked w allow f.
Proof.
  unfold hook_edges, hooked. destruct (singleton f); auto. rewrite filter_flat_map, map_rev. do 2 f_equal.
  rewrite filter_app, !edges_followed_eq. apply flat_map_ext'. intros e. apply edges_followed_eq.
Qed.

Lemma unfolds_inv w allow f l : unfolds w allow f l -> exists bs cs, l = concat bs ++ f :: concat cs /\
  Forall2 (unfolds w allow) (before w allow f) bs /\ Forall2 (unfolds w allow) (after w allow f) cs.
Proof.
  intros H. inversion H as [f' u bs cs H1 H2 H3]; subst. exists bs, cs. split; auto. split; [now rewrite before_latest|].
  unfold after. rewrite edges_followed_eq, map_rev, hooked_eq.
  assert (match proven_superclass w f with Some e => if allowed allow f e then [target e] else [] | None => [] end = u) as ->; auto.
  destruct u as [|t [|]]; [| |easy].
  - destruct (proven_superclass w f) as [e|] eqn:E; auto. destruct (allowed allow f e) eqn:A; auto. exfalso.
    apply proven_superclass_spec in E. apply allowed_followed in A. now apply (H1 e).
  - destruct H1 as (e & E & F & <-). apply proven_superclass_spec in E. apply allowed_followed in F. now rewrite E, F.
Qed.

Lemma forall2_length_le {A} (R : A -> list ns -> Prop) xs ls (x : A) l : Forall2 R xs ls -> In l ls -> length l <= length (concat ls).
Proof.
  intros H. induction H as [|y m xs ls _ _ IH]; [easy|]. cbn. rewrite app_length. intros [<-|Hl]; [lia|].
  specialize (IH Hl). lia.
Qed.

Lemma forall2_det {A B} (R : A -> B -> Prop) xs ls ms : Forall2 R xs ls -> Forall2 R xs ms ->
  (forall x l m, In l ls -> R x l -> R x m -> l = m) -> ls = ms.
Proof.
  intros H. revert ms. induction H as [|x l xs ls H1 H2 IH]; intros ms H3 D; inversion H3; subst; auto. f_equal.
  - apply (D x); auto. now left.
  - apply IH; auto. intros z a b Ha. apply D. now right.
Qed.

Lemma unfolds_det w allow n : forall f l m, length l < n -> unfolds w allow f l -> unfolds w allow f m -> l = m.
Proof.
  induction n as [|n IH]; intros f l m Hn Hl Hm; [lia|].
  apply unfolds_inv in Hl, Hm. destruct Hl as (bs & cs & -> & B & C), Hm as (bs' & cs' & -> & B' & C').
  rewrite app_length in Hn. cbn in Hn.
  assert (bs = bs') as <-.
  { apply (forall2_det _ _ _ _ B B'). intros x a b Ha. apply IH.
    pose proof (forall2_length_le _ _ _ x _ B Ha). lia. }
  assert (cs = cs') as <-; auto.
  apply (forall2_det _ _ _ _ C C'). intros x a b Ha. apply IH.
  pose proof (forall2_length_le _ _ _ x _ C Ha). lia.
Qed.

Lemma forall2_in {A B} (R : A -> B -> Prop) xs ls l : Forall2 R xs ls -> In l ls -> exists x, In x xs /\ R x l.
Proof.
  intros H. induction H as [|x m xs ls H1 _ IH]; [easy|]. intros [<-|Hl].
  - exists x. split; auto. now left.
  - destruct (IH Hl) as (y & Hy & R'). exists y. split; auto. now right.
Qed.

Lemma unfolds_sub w allow n : forall f l x, length l < n -> unfolds w allow f l -> In x l ->
  exists m, unfolds w allow x m /\ length m <= length l /\ incl m l.
Proof.
  induction n as [|n IH]; intros f l x Hn Hl Hx; [lia|]. pose proof Hl as Hl'.
  apply unfolds_inv in Hl. destruct Hl as (bs & cs & -> & B & C). rewrite app_length in *. cbn [length] in *.
  apply in_app_or in Hx. destruct Hx as [Hx|[<-|Hx]].
  - apply in_concat in Hx. destruct Hx as (k & Hk & Hx). destruct (forall2_in _ _ _ _ B Hk) as (g & _ & Hg).
    pose proof (forall2_length_le _ _ _ g _ B Hk). destruct (IH g k x) as (m & Hm & Lm & Im); auto; [lia|].
    exists m. repeat split; auto; [lia|]. intros y Hy. apply in_or_app. left. apply in_concat. eauto.
  - exists (concat bs ++ f :: concat cs). rewrite app_length. repeat split; auto. intros y Hy. auto.
  - apply in_concat in Hx. destruct Hx as (k & Hk & Hx). destruct (forall2_in _ _ _ _ C Hk) as (g & _ & Hg).
    pose proof (forall2_length_le _ _ _ g _ C Hk). destruct (IH g k x) as (m & Hm & Lm & Im); auto; [lia|].
    exists m. repeat split; auto; [lia|]. intros y Hy. apply in_or_app. right. right. apply in_concat. eauto.
Qed.

Lemma unfolds_acyclic w allow f bs cs : unfolds w allow f (concat bs ++ f :: concat cs) ->
  Forall2 (unfolds w allow) (before w allow f) bs -> Forall2 (unfolds w allow) (after w allow f) cs ->
  ~ In f (concat bs) /\ ~ In f (concat cs).
Proof.
  intros H B C. split; intros Hf; apply in_concat in Hf; destruct Hf as (k & Hk & Hf).
  - destruct (forall2_in _ _ _ _ B Hk) as (g & _ & Hg). pose proof (forall2_length_le _ _ _ g _ B Hk).
    destruct (unfolds_sub w allow _ g k f (Nat.lt_succ_diag_r _) Hg Hf) as (m & Hm & Lm & _).
    assert (m = concat bs ++ f :: concat cs) by (eapply unfolds_det; eauto). subst. rewrite app_length in Lm. cbn in Lm. lia.
  - destruct (forall2_in _ _ _ _ C Hk) as (g & _ & Hg). pose proof (forall2_length_le _ _ _ g _ C Hk).
    destruct (unfolds_sub w allow _ g k f (Nat.lt_succ_diag_r _) Hg Hf) as (m & Hm & Lm & _).
    assert (m = concat bs ++ f :: concat cs) by (eapply unfolds_det; eauto). subst. rewrite app_length in Lm. cbn in Lm. lia.
Qed.

(** ** First occurrences *)

Lemma mem_ext a b x : (forall y, In y a <-> In y b) -> mem x a = mem x b.
Proof. intros H. apply eq_iff_eq_true. rewrite !mem_in. apply H. Qed.
Lemma firsts_ext l : forall a b, (forall y, In y a <-> In y b) -> firsts a l = firsts b l.
Proof.
  induction l as [|x l IH]; intros a b H; auto. cbn [firsts]. rewrite (mem_ext a b x H).
  destruct (mem x b); auto. f_equal. apply IH. intros y. cbn [In]. now rewrite H.
Qed.
Lemma firsts_app l m : forall a, firsts a (l ++ m) = firsts a l ++ firsts (l ++ a) m.
Proof.
  induction l as [|x l IH]; intros a; auto. cbn [firsts List.app]. destruct (mem x a) eqn:E.
  - rewrite IH. f_equal. apply firsts_ext. intros y. apply mem_in in E. cbn [In]. rewrite !in_app_iff. split; auto.
    intros [<-|H]; auto.
  - cbn [List.app]. f_equal. rewrite IH. f_equal. apply firsts_ext. intros y. cbn [In]. rewrite !in_app_iff. cbn [In]. tauto.
Qed.
Lemma firsts_skip f l : forall a, ~ In f l -> firsts (f :: a) l = firsts a l.
Proof.
  induction l as [|x l IH]; intros a H; auto. cbn [firsts].
  assert (mem x (f :: a) = mem x a) as ->.
  { apply eq_iff_eq_true. rewrite !mem_in. cbn. split; auto. intros [->|?]; auto. exfalso. apply H. now left. }
  destruct (mem x a); [apply IH; firstorder|]. f_equal. rewrite <- (IH (x :: a)); [|firstorder].
  apply firsts_ext. intros y. cbn. tauto.
Qed.
Lemma firsts_all l : forall a, incl l a -> firsts a l = [].
Proof.
  induction l as [|x l IH]; intros a H; auto. cbn [firsts].
  assert (mem x a = true) as -> by (apply mem_in, H; now left). apply IH. intros y Hy. apply H. now right.
Qed.
Lemma firsts_in l x : forall a, In x (firsts a l) <-> In x l /\ ~ In x a.
Proof.
  induction l as [|y l IH]; intros a; [cbn; tauto|]. cbn [firsts]. destruct (mem y a) eqn:E.
  - apply mem_in in E. rewrite IH. cbn [In]. split; [tauto|]. intros [[<-|?] ?]; tauto.
  - apply mem_false in E. cbn [In]. rewrite IH. cbn [In]. split.
    + intros [<-|[? ?]]; tauto.
    + intros [[<-|?] ?]; auto. destruct (ns_eq_dec y x); auto. right. tauto.
Qed.
Lemma firsts_id l : forall a, NoDup l -> (forall x, In x l -> ~ In x a) -> firsts a l = l.
Proof.
  induction l as [|x l IH]; intros a N D; auto. inversion N; subst. cbn [firsts].
  assert (mem x a = false) as -> by (apply mem_false, D; now left). f_equal. apply IH; auto.
  intros y Hy [<-|Ha]; [easy|]. apply (D y); auto. now right.
Qed.

(** ** The walk follows the unfolded order *)

(** [grey] are the namespaces whose visit has begun and not ended. *)
Definition consistent (w : world) (allow : bool) (grey c v : list ns) : Prop :=
  (forall x, In x v <-> In x grey \/ In x c) /\
  (forall x l, In x c -> ~ In x grey -> unfolds w allow x l -> incl l c).

Definition disjoint (a b : list ns) : Prop := forall x, In x a -> ~ In x b.

Definition follows (w : world) (allow : bool) (rec : ns -> list ns * list ns -> option (list ns * list ns)) : Prop :=
  forall f l c v grey c' v', unfolds w allow f l -> rec f (c, v) = Some (c', v') ->
    consistent w allow grey c v -> disjoint grey l ->
    c' = c ++ firsts v l /\ (forall x, In x v' <-> In x v \/ In x l) /\ consistent w allow grey c' v'.

Lemma visit_all_order w allow rec : follows w allow rec -> forall fs ls c v grey c' v',
  Forall2 (unfolds w allow) fs ls -> visit_all rec fs (c, v) = Some (c', v') ->
  consistent w allow grey c v -> disjoint grey (concat ls) ->
  c' = c ++ firsts v (concat ls) /\ (forall x, In x v' <-> In x v \/ In x (concat ls)) /\ consistent w allow grey c' v'.
Proof.
  intros HR fs ls c v grey c' v' HF. revert c v. induction HF as [|f l fs ls H1 H2 IH]; intros c v E K D.
  - cbn in E. injection E as <- <-. cbn. rewrite app_nil_r. repeat split; auto; try apply K; tauto.
  - cbn [visit_all] in E. destruct (rec f (c, v)) as [[c1 v1]|] eqn:E1; [|easy]. cbn [concat] in *.
    destruct (HR f l c v grey c1 v1) as (A1 & A2 & A3); auto.
    { intros x Hx Hy. apply (D x Hx), in_or_app. auto. }
    destruct (IH c1 v1) as (B1 & B2 & B3); auto.
    { intros x Hx Hy. apply (D x Hx), in_or_app. auto. }
    split; [|split]; auto.
    + rewrite B1, A1, firsts_app, app_assoc. f_equal. apply firsts_ext. intros y. rewrite A2, in_app_iff. tauto.
    + intros x. rewrite B2, A2, in_app_iff. tauto.
Qed.

Lemma build_order w allow n : follows w allow (build_mro n w allow).
Proof.
  induction n as [|n IH]; intros f l c v grey c' v' Hl E K D; [easy|]. cbn [build_mro fst snd] in E.
  pose proof Hl as Hl'. apply unfolds_inv in Hl. destruct Hl as (bs & cs & -> & B & C).
  destruct (unfolds_acyclic w allow f bs cs Hl' B C) as [Ab Ac].
  assert (In f (concat bs ++ f :: concat cs)) as Hf by (apply in_or_app; right; now left).
  destruct (mem f v) eqn:M.
  - apply mem_in in M. injection E as <- <-. destruct K as [K1 K2].
    assert (In f c) as Hc. { apply K1 in M. destruct M as [M|M]; auto. exfalso. now apply (D f M). }
    assert (incl (concat bs ++ f :: concat cs) c) as Hi. { apply (K2 f); auto. intros M'. now apply (D f M'). }
    rewrite firsts_all, app_nil_r. 2:{ intros x Hx. apply K1. right. auto. }
    split; auto. split; [|split; auto]. intros x. split; auto. intros [H|H]; auto. apply K1. auto.
  - apply mem_false in M.
    destruct (visit_all (build_mro n w allow) (before w allow f) (c, f :: v)) as [[c1 v1]|] eqn:E1; [|easy].
    assert (~ In f c /\ ~ In f grey) as [Mc Mg]. { split; intros H; apply M, K; auto. }
    destruct (visit_all_order w allow _ IH _ _ c (f :: v) (f :: grey) c1 v1 B E1) as (B1 & B2 & B3).
    { destruct K as [K1 K2]. split.
      - intros x. cbn [In]. rewrite K1. tauto.
      - intros x lx Hx Hg. apply K2; auto. intros H. apply Hg. now right. }
    { intros x [<-|Hx]; auto. intros Hy. apply (D x Hx), in_or_app. auto. }
    destruct (visit_all_order w allow _ IH _ _ (c1 ++ [f]) v1 (f :: grey) c' v' C E) as (C1 & C2 & C3).
    { destruct B3 as [K1 K2]. split.
      - intros x. rewrite K1, in_app_iff. cbn [In]. tauto.
      - intros x lx Hx Hg Hu. apply in_app_or in Hx. destruct Hx as [Hx|[<-|[]]]; [|exfalso; apply Hg; now left].
        intros y Hy. apply in_or_app. left. now apply (K2 x lx). }
    { intros x [<-|Hx]; auto. intros Hy. apply (D x Hx), in_or_app. right. now right. }
    assert (c' = c ++ firsts v (concat bs ++ f :: concat cs)) as Ec'.
    { rewrite C1, B1, firsts_app, <- !app_assoc. f_equal. cbn [firsts List.app].
      rewrite (firsts_skip f (concat bs)) by auto. f_equal.
      assert (mem f (concat bs ++ v) = false) as ->. { apply mem_false. rewrite in_app_iff. tauto. }
      f_equal. apply firsts_ext. intros y. rewrite B2. cbn [In]. rewrite in_app_iff. tauto. }
    assert (forall x, In x v' <-> In x v \/ In x (concat bs ++ f :: concat cs)) as Hv'.
    { intros x. rewrite C2, B2, in_app_iff. cbn [In]. tauto. }
    split; [|split]; auto. split.
    + destruct C3 as [C3 _]. intros x. rewrite C3. cbn [In]. split; [|tauto]. intros [[<-|H]|H]; auto.
      right. rewrite Ec'. apply in_or_app. right. apply firsts_in. auto.
    + intros x lx Hx Hg Hu. destruct (ns_eq_dec x f) as [->|Nx].
      * assert (lx = concat bs ++ f :: concat cs) as -> by (symmetry; eapply unfolds_det; eauto).
        intros y Hy. assert (In y v') as Hyv by (apply Hv'; auto). apply C3 in Hyv.
        destruct Hyv as [[<-|H]|H]; auto. exfalso. now apply (D y H).
      * destruct C3 as [_ C3]. apply (C3 x); auto. intros [H|H]; congruence || auto.
Qed.

Lemma mro_order w allow f l : unfolds w allow f l -> exists v, mro w allow f ([], []) = Some (firsts [] l, v).
Proof.
  intros H. destruct (mro_fresh w allow f) as (c & v & E & _). rewrite E.
  destruct (build_order w allow _ f l [] [] [] c v H E) as (-> & _); [|easy|eauto].
  split; [cbn; tauto|easy].
Qed.

(** ** What stands before a namespace in its own chain was prepended *)

Lemma mro_before w allow f : exists c1 c2 v, mro w allow f ([], []) = Some (c1 ++ f :: c2, v) /\
  (forall x, In x c1 -> exists e, has_edge w f Prepend e /\ followed allow f e /\ ancestor w allow (target e) x) /\
  (forall e, has_edge w f Prepend e -> followed allow f e -> target e <> f -> In (target e) c1).
Proof.
  set (U := f :: map target (edges w)).
  assert (closed_in w allow U) as HU by (intros x y _ Hp; right; now apply parent_target in Hp).
  assert (forall x, In x (before w allow f ++ after w allow f) -> In x U) as HI.
  { intros x Hx. apply next_parent in Hx. apply (HU f); auto. now left. }
  pose proof (room_le_length U []) as R0. pose proof (room_cons U [] f (or_introl eq_refl) (fun H => H)) as R1.
  unfold U in R0. cbn [length] in R0. rewrite map_length in R0. fold U in R0.
  assert (room U [f] < S (length (edges w))) as R2 by lia.
  unfold mro, mro_fuel. remember (S (length (edges w))) as n eqn:En. cbn [build_mro mem existsb fst snd].
  destruct (visit_all_ok w allow U n (fun g c v => build_ok w allow U HU _ g c v) (before w allow f) [] [f])
    as (c1 & v1 & E1 & W1); auto.
  { intros x Hx. apply HI, in_or_app. auto. }
  rewrite E1. destruct W1 as (new1 & -> & N1 & D1 & V1 & F1 & C1 & A1). cbn [List.app].
  destruct (visit_all_ok w allow U n (fun g c v => build_ok w allow U HU _ g c v) (after w allow f) (new1 ++ [f]) v1)
    as (c2 & v2 & E2 & W2).
  { intros x Hx. apply HI, in_or_app. auto. }
  { assert (room U v1 <= room U [f]); [|lia]. apply room_le. intros x Hx. apply V1. auto. }
  rewrite E2. destruct W2 as (new2 & -> & _). exists new1, new2, v2. split; [now rewrite <- app_assoc|]. split.
  - intros x Hx. destruct (A1 x Hx) as (g & Hg & Ha). apply before_in in Hg. destruct Hg as (e & H1 & H2 & <-). eauto.
  - intros e H1 H2 H3. assert (In (target e) v1) as Hv. { apply F1, before_in. eauto. }
    apply V1 in Hv. destruct Hv as [[H|[]]|Hv]; auto. congruence.
Qed.
