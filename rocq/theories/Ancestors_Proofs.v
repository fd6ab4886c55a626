(** Proofs about the ancestry queries. *)
From Coq Require Import List Arith Lia Bool Relations Permutation.
From Verif Require Import Sort_Lib Ancestors_Model Ancestors_Spec.
Import ListNotations.

(** ** Basics *)

Lemma same_eq a b : same a b = true <-> a = b.
Proof. unfold same. destruct (ns_eq_dec a b); split; congruence. Qed.
Lemma same_kind_eq a b : same_kind a b = true <-> a = b.
Proof. unfold same_kind. destruct (kind_eq_dec a b); split; congruence. Qed.
Lemma mem_in x l : mem x l = true <-> In x l.
Proof.
  unfold mem. rewrite existsb_exists. split.
  - intros (y & Hy & E). apply same_eq in E. now subst.
  - intros H. exists x. split; auto. now apply same_eq.
Qed.
Lemma mem_false x l : mem x l = false <-> ~ In x l.
Proof. rewrite <- mem_in. destruct (mem x l); split; congruence. Qed.

Lemma edges_from_in w f k e : In e (edges_from w f k) <-> has_edge w f k e.
Proof.
  unfold edges_from, edges_out, has_edge. rewrite !filter_In, same_eq, same_kind_eq. tauto.
Qed.

Lemma allowed_followed allow f e : allowed allow f e = true <-> followed allow f e.
Proof.
  unfold allowed, followed. destruct (universal f), allow, (owned e); cbn; intuition congruence.
Qed.

Lemma nodes_for_nil w f : is_nil (nodes_for w f) = true <-> ~ defined w f.
Proof.
  unfold defined, nodes_for. split.
  - intros H (k & Hk).
    assert (In (f, k) (filter (fun n => same (fst n) f) (nodes w))) as Hi.
    { apply filter_In. split; auto. now apply same_eq. }
    destruct (filter _ _); easy.
  - intros H. destruct (filter (fun n => same (fst n) f) (nodes w)) as [|[g k] r] eqn:E; auto.
    exfalso. apply H. assert (In (g, k) (filter (fun n => same (fst n) f) (nodes w))) as Hi by (rewrite E; now left).
    apply filter_In in Hi. destruct Hi as [Hi Hs]. apply same_eq in Hs. cbn in Hs. subst. eauto.
Qed.
Lemma nodes_for_some w f : is_nil (nodes_for w f) = false <-> defined w f.
Proof.
  pose proof (nodes_for_nil w f) as H. destruct (is_nil (nodes_for w f)).
  - split; [easy|]. intros D. now apply H in D.
  - split; auto. intros _. unfold defined, nodes_for in *.
    destruct (filter (fun n => same (fst n) f) (nodes w)) as [|[g k] r] eqn:E.
    + exfalso. destruct H as [_ H]. assert (false = true); [|easy]. apply H. intros (k & Hk).
      assert (In (f, k) (filter (fun n => same (fst n) f) (nodes w))) as Hi.
      { apply filter_In. split; auto. now apply same_eq. }
      rewrite E in Hi. easy.
    + assert (In (g, k) (filter (fun n => same (fst n) f) (nodes w))) as Hi by (rewrite E; now left).
      apply filter_In in Hi. destruct Hi as [Hi Hs]. apply same_eq in Hs. cbn in Hs. subst. eauto.
Qed.

(** ** Superclasses *)

Definition counts (w : world) (f : ns) (e : edge) : bool :=
  same (source e) f && same_kind (kind e) Superclass &&
  (explicit e || negb (existsb explicit (edges_from w f Superclass))).

Lemma filter_filter {A} (p q : A -> bool) l : filter p (filter q l) = filter (fun x => q x && p x) l.
Proof. induction l as [|x l IH]; auto. cbn. destruct (q x); cbn; [destruct (p x)|]; now rewrite IH. Qed.

Lemma superclass_edges_counts w f : superclass_edges w f = filter (counts w f) (edges w).
Proof.
  unfold superclass_edges. destruct (existsb explicit (edges_from w f Superclass)) eqn:E.
  - unfold edges_from at 1, edges_out. rewrite !filter_filter. apply filter_ext. intros e. unfold counts. rewrite E. cbn.
    now rewrite orb_false_r, andb_assoc.
  - unfold edges_from at 1, edges_out. rewrite filter_filter. apply filter_ext. intros e. unfold counts. rewrite E. cbn.
    now rewrite orb_true_r, andb_true_r.
Qed.

Lemma counts_declared w f e : In e (edges w) -> (counts w f e = true <-> declared w f e).
Proof.
  intros He. unfold counts, declared, has_edge. rewrite !andb_true_iff, orb_true_iff, same_eq, same_kind_eq, negb_true_iff.
  split.
  - intros [[H1 H2] H3]. split; auto. destruct H3 as [H3|H3]; auto. right. intros d Hd.
    destruct (explicit d) eqn:E; auto. exfalso.
    assert (existsb explicit (edges_from w f Superclass) = true); [|congruence].
    apply existsb_exists. exists d. split; auto. now apply edges_from_in.
  - intros [(_ & H1 & H2) H3]. split; auto. destruct H3 as [H3|H3]; auto. right.
    apply not_true_is_false. intros H. apply existsb_exists in H. destruct H as (d & Hd & E).
    apply edges_from_in in Hd. apply H3 in Hd. congruence.
Qed.
Lemma superclass_edges_in w f e : In e (superclass_edges w f) <-> declared w f e.
Proof.
  rewrite superclass_edges_counts, filter_In. split.
  - intros [H1 H2]. now apply counts_declared.
  - intros H. assert (In e (edges w)) by apply H. split; auto. now apply counts_declared.
Qed.

Lemma filter_first {A} (p : A -> bool) l x r : filter p l = x :: r ->
  exists l1 l2, l = l1 ++ x :: l2 /\ p x = true /\ (forall y, In y l1 -> p y = false).
Proof.
  induction l as [|a l IH]; [easy|]. cbn. destruct (p a) eqn:E.
  - intros [= <- <-]. exists [], l. repeat split; auto. intros y [].
  - intros H. destruct (IH H) as (l1 & l2 & -> & H2 & H3). exists (a :: l1), l2. repeat split; auto.
    intros y [<-|Hy]; auto.
Qed.

Lemma settled_pending w f : superclass_pending w f = false <-> settled w f.
Proof.
  unfold superclass_pending, settled. rewrite <- not_true_iff_false, existsb_exists. split.
  - intros H u Hu Hs Hk. apply not_true_is_false. intros He. apply H. exists u. split; auto.
    rewrite !andb_true_iff, same_eq, same_kind_eq. auto.
  - intros H (u & Hu & Hb). rewrite !andb_true_iff, same_eq, same_kind_eq in Hb. destruct Hb as [[H1 H2] H3].
    rewrite (H u Hu H1 H2) in H3. easy.
Qed.

Lemma resolution_spec w f :
  match superclass_resolution w f with
  | Missing => forall e, ~ declared w f e
  | Unique e => (forall d, declared w f d -> target d = target e) /\
      exists l1 l2, edges w = l1 ++ e :: l2 /\ declared w f e /\ forall d, In d l1 -> ~ declared w f d
  | Ambiguous => torn w f
  end.
Proof.
  unfold superclass_resolution. destruct (superclass_edges w f) as [|e r] eqn:E.
  - intros e He. apply superclass_edges_in in He. rewrite E in He. easy.
  - destruct (forallb (fun d => same (target d) (target e)) r) eqn:F.
    + rewrite forallb_forall in F. split.
      * intros d Hd. apply superclass_edges_in in Hd. rewrite E in Hd. destruct Hd as [<-|Hd]; auto.
        apply same_eq. auto.
      * rewrite superclass_edges_counts in E. apply filter_first in E. destruct E as (l1 & l2 & E1 & E2 & E3).
        assert (In e (edges w)) as He by (rewrite E1; apply in_or_app; right; now left).
        exists l1, l2. split; auto. split; [now apply counts_declared|]. intros d Hd Hc.
        apply counts_declared in Hc; [|rewrite E1; apply in_or_app; now left]. rewrite E3 in Hc; easy.
    + assert (exists d, In d r /\ target d <> target e) as (d & Hd & N).
      { clear E. induction r as [|a r IH]; [easy|]. cbn in F. destruct (same (target a) (target e)) eqn:S.
        - destruct (IH F) as (d & Hd & N). exists d. split; auto. now right.
        - exists a. split; [now left|]. intros H. apply same_eq in H. congruence. }
      exists d, e. split; [|split]; auto; apply superclass_edges_in; rewrite E; [now right|now left].
Qed.

Lemma first_unique {A} (P : A -> Prop) (l1 l2 m1 m2 : list A) x y : l1 ++ x :: l2 = m1 ++ y :: m2 ->
  P x -> P y -> (forall d, In d l1 -> ~ P d) -> (forall d, In d m1 -> ~ P d) -> x = y.
Proof.
  revert m1. induction l1 as [|a l1 IH]; intros [|b m1] E Px Py H1 H2.
  - cbn in E. congruence.
  - cbn in E. injection E as <- E. exfalso. apply (H2 x); auto. now left.
  - cbn in E. injection E as -> E. exfalso. apply (H1 y); auto. now left.
  - cbn in E. injection E as <- E. eapply IH; eauto; intros d Hd; [apply H1|apply H2]; now right.
Qed.

Lemma proven_superclass_spec w f e : proven_superclass w f = Some e <-> proven_by w f e.
Proof.
  unfold proven_superclass, proven_by. pose proof (settled_pending w f) as S. pose proof (resolution_spec w f) as R.
  destruct (superclass_pending w f).
  - split; [easy|]. intros [H _]. apply S in H. easy.
  - destruct S as [S _]. specialize (S eq_refl). destruct (superclass_resolution w f) as [|d|].
    + split; [easy|]. intros (_ & _ & l1 & l2 & _ & H & _). now apply R in H.
    + destruct R as [R1 (l1 & l2 & E1 & E2 & E3)]. split.
      * intros [= <-]. split; auto. split; auto. exists l1, l2. auto.
      * intros (_ & _ & m1 & m2 & F1 & F2 & F3). f_equal.
        apply (first_unique (declared w f) l1 l2 m1 m2); auto. congruence.
    + split; [easy|]. intros (_ & H & _). destruct R as (a & b & Ha & Hb & N). exfalso. apply N.
      rewrite (H a Ha), (H b Hb). reflexivity.
Qed.
Lemma ambiguous_torn w f : superclass_ambiguous w f = true <-> torn w f.
Proof.
  unfold superclass_ambiguous. pose proof (resolution_spec w f) as R. destruct (superclass_resolution w f) as [|d|].
  - split; [easy|]. intros (a & b & Ha & _). now apply R in Ha.
  - split; [easy|]. intros (a & b & Ha & Hb & N). exfalso. apply N. destruct R as [R _].
    rewrite (R a Ha), (R b Hb). reflexivity.
  - tauto.
Qed.

(** ** Steps *)

Lemma before_in w allow f x : In x (before w allow f) <->
  exists e, has_edge w f Prepend e /\ followed allow f e /\ target e = x.
Proof.
  unfold before. rewrite in_map_iff. split.
  - intros (e & <- & H). apply in_rev in H. apply filter_In in H. destruct H as [H1 H2].
    apply edges_from_in in H1. apply allowed_followed in H2. eauto.
  - intros (e & H1 & H2 & <-). exists e. split; auto. apply in_rev. rewrite rev_involutive. apply filter_In.
    split; [now apply edges_from_in|now apply allowed_followed].
Qed.

Lemma hook_edges_in w allow f h : In h (hook_edges w allow f) <->
  exists e, singleton f = true /\ (has_edge w (instance f) Include e \/ has_edge w (instance f) Prepend e) /\
    followed allow f e /\ has_edge w (target e) Extend h /\ followed allow f h.
Proof.
  unfold hook_edges. destruct (singleton f).
  - rewrite in_flat_map. split.
    + intros (e & He & Hh). apply filter_In in He, Hh. destruct He as [He1 He2], Hh as [Hh1 Hh2].
      apply allowed_followed in He2, Hh2. apply edges_from_in in Hh1. apply in_app_or in He1.
      exists e. repeat (split; auto). destruct He1 as [H|H]; apply edges_from_in in H; auto.
    + intros (e & _ & H1 & H2 & H3 & H4). exists e. split.
      * apply filter_In. split; [|now apply allowed_followed]. apply in_or_app. rewrite !edges_from_in. tauto.
      * apply filter_In. split; [now apply edges_from_in|now apply allowed_followed].
  - split; [easy|]. intros (e & H & _). easy.
Qed.

Lemma next_parent w allow f x : In x (before w allow f ++ after w allow f) <-> parent w allow f x.
Proof.
  rewrite in_app_iff, before_in. unfold after. rewrite !in_app_iff. split.
  - intros [(e & H1 & H2 & <-)|[H|[H|H]]].
    + apply by_mixin; auto.
    + apply in_map_iff in H. destruct H as (e & <- & H). apply in_rev in H. apply filter_In in H. destruct H as [H1 H2].
      apply edges_from_in in H1. apply allowed_followed in H2. apply by_mixin; auto.
    + apply in_map_iff in H. destruct H as (h & <- & H). apply in_rev in H. apply filter_In in H. destruct H as [H1 H2].
      apply hook_edges_in in H1. destruct H1 as (e & H1 & H3 & H4 & H5 & H6). eapply by_hook; eauto.
    + destruct (proven_superclass w f) as [e|] eqn:E; [|easy]. destruct (allowed allow f e) eqn:A; [|easy].
      destruct H as [<-|[]]. apply proven_superclass_spec in E. apply allowed_followed in A. now apply by_superclass.
  - intros H. destruct H as [f e H1 H2|f e h H1 H2 H3 H4 H5|f e H1 H2].
    + destruct H1 as [H1|H1]; [left; eauto|]. right. left. apply in_map_iff. exists e. split; auto. apply in_rev.
      rewrite rev_involutive. apply filter_In. split; [now apply edges_from_in|now apply allowed_followed].
    + right. right. left. apply in_map_iff. exists h. split; auto. apply in_rev.
      rewrite rev_involutive. apply filter_In. split; [|now apply allowed_followed]. apply hook_edges_in. eauto 8.
    + right. right. right. apply proven_superclass_spec in H1. rewrite H1. apply allowed_followed in H2. rewrite H2. now left.
Qed.

Lemma parent_target w allow f x : parent w allow f x -> In x (map target (edges w)).
Proof.
  intros H. destruct H as [f e H1 H2|f e h H1 H2 H3 H4 H5|f e H1 H2]; apply in_map_iff; eexists; split; eauto.
  - destruct H1 as [H1|H1]; apply H1.
  - apply H4.
  - destruct H1 as (_ & _ & l1 & l2 & -> & _). apply in_or_app. right. now left.
Qed.

(** ** The depth first walk *)

Definition room (U v : list ns) : nat := length (filter (fun x => negb (mem x v)) U).

Lemma room_le U v v' : incl v v' -> room U v' <= room U v.
Proof.
  intros H. unfold room. induction U as [|x U IH]; auto. cbn.
  destruct (mem x v) eqn:E.
  - assert (mem x v' = true) as -> by (apply mem_in, H, mem_in; auto). auto.
  - destruct (mem x v'); cbn; lia.
Qed.
Lemma room_cons U v f : In f U -> ~ In f v -> room U (f :: v) < room U v.
Proof.
  intros HU HN. unfold room. induction U as [|x U IH]; [easy|]. cbn [filter].
  destruct (ns_eq_dec x f) as [->|N].
  - assert (mem f (f :: v) = true) as -> by (apply mem_in; now left).
    assert (mem f v = false) as -> by now apply mem_false. cbn [negb length].
    assert (room U (f :: v) <= room U v) as HR by (apply room_le; intros y Hy; now right).
    unfold room in HR. apply le_n_S. exact HR.
  - destruct HU as [->|HU]; [easy|]. specialize (IH HU).
    destruct (mem x v) eqn:E.
    + assert (mem x (f :: v) = true) as -> by (apply mem_in; right; now apply mem_in). exact IH.
    + assert (mem x (f :: v) = false) as ->.
      { apply mem_false. intros [->|H]; [easy|]. apply mem_false in E. easy. }
      cbn [negb length]. unfold room in IH. cbn in *. lia.
Qed.
Lemma room_le_length U v : room U v <= length U.
Proof. unfold room. induction U as [|x U IH]; auto. cbn. destruct (negb _); cbn; lia. Qed.

Definition closed_in (w : world) (allow : bool) (U : list ns) : Prop :=
  forall x y, In x U -> parent w allow x y -> In y U.

(** What a walk adds: each namespace once, none visited before, all ancestors of the start, and
    whatever they step to has been visited. *)
Definition walked (w : world) (allow : bool) (fs : list ns) (c v c' v' : list ns) : Prop :=
  exists new, c' = c ++ new /\ NoDup new /\ (forall x, In x new -> ~ In x v) /\
    (forall x, In x v' <-> In x v \/ In x new) /\
    (forall f, In f fs -> In f v') /\
    (forall x y, In x new -> parent w allow x y -> In y v') /\
    (forall x, In x new -> exists f, In f fs /\ ancestor w allow f x).

Lemma ancestor_refl w allow f : ancestor w allow f f.
Proof. constructor. Qed.
Lemma ancestor_step w allow f g x : parent w allow f g -> ancestor w allow g x -> ancestor w allow f x.
Proof. intros. econstructor; eauto. Qed.

Lemma nodup_app {A} (l m : list A) : NoDup l -> NoDup m -> (forall x, In x l -> ~ In x m) -> NoDup (l ++ m).
Proof.
  intros Hl Hm D. induction l as [|a l IH]; auto. cbn. inversion Hl; subst. constructor.
  - rewrite in_app_iff. intros [H|H]; auto. apply (D a); auto. now left.
  - apply IH; auto. intros x Hx. apply D. now right.
Qed.

Lemma walked_trans w allow fs gs c v c1 v1 c2 v2 : walked w allow fs c v c1 v1 -> walked w allow gs c1 v1 c2 v2 ->
  walked w allow (fs ++ gs) c v c2 v2.
Proof.
  intros (new1 & E1 & N1 & D1 & V1 & F1 & C1 & R1) (new2 & E2 & N2 & D2 & V2 & F2 & C2 & R2).
  exists (new1 ++ new2). split; [now rewrite E2, E1, app_assoc|]. split; [|split; [|split; [|split; [|split]]]].
  - apply nodup_app; auto. intros x Hx Hy. apply (D2 x Hy), V1. auto.
  - intros x Hx. apply in_app_or in Hx. destruct Hx as [Hx|Hx]; auto. intros Hv. apply (D2 x Hx), V1. auto.
  - intros x. rewrite V2, V1, in_app_iff. tauto.
  - intros f Hf. apply in_app_or in Hf. destruct Hf as [Hf|Hf]; auto. apply V2. auto.
  - intros x y Hx Hp. apply in_app_or in Hx. destruct Hx as [Hx|Hx]; eauto. apply V2. left. eauto.
  - intros x Hx. apply in_app_or in Hx. destruct Hx as [Hx|Hx].
    + destruct (R1 x Hx) as (f & Hf & Ha). exists f. split; auto. apply in_or_app. auto.
    + destruct (R2 x Hx) as (f & Hf & Ha). exists f. split; auto. apply in_or_app. auto.
Qed.

Lemma visit_all_ok w allow U n (rec := build_mro n w allow) :
  (forall f c v, In f U -> room U v < n -> exists c' v', rec f (c, v) = Some (c', v') /\ walked w allow [f] c v c' v') ->
  forall fs c v, incl fs U -> room U v < n ->
    exists c' v', visit_all rec fs (c, v) = Some (c', v') /\ walked w allow fs c v c' v'.
Proof.
  intros IH fs. induction fs as [|f fs IHf]; intros c v Hi Hr.
  - exists c, v. split; auto. exists []. rewrite app_nil_r. repeat split; try easy; [constructor|tauto|intros [|[]]; auto].
  - cbn [visit_all]. destruct (IH f c v) as (c1 & v1 & -> & W1); auto.
    { apply Hi. now left. }
    destruct (IHf c1 v1) as (c2 & v2 & E2 & W2).
    { intros x Hx. apply Hi. now right. }
    { assert (room U v1 <= room U v); [|lia]. apply room_le. intros x Hx.
      destruct W1 as (new1 & _ & _ & _ & V1 & _). apply V1. auto. }
    exists c2, v2. split; auto. exact (walked_trans _ _ [f] fs _ _ _ _ _ _ W1 W2).
Qed.

Lemma build_ok w allow U : closed_in w allow U -> forall n f c v, In f U -> room U v < n ->
  exists c' v', build_mro n w allow f (c, v) = Some (c', v') /\ walked w allow [f] c v c' v'.
Proof.
  intros HU n. induction n as [|n IH]; intros f c v Hf Hr; [lia|]. cbn [build_mro fst snd].
  destruct (mem f v) eqn:M.
  - apply mem_in in M. exists c, v. split; auto. exists []. rewrite app_nil_r.
    repeat split; try easy; [constructor|tauto|intros [|[]]; auto|]. intros g [<-|[]]. auto.
  - apply mem_false in M.
    assert (forall x, In x (before w allow f ++ after w allow f) -> In x U) as HI.
    { intros x Hx. apply next_parent in Hx. now apply (HU f). }
    assert (room U (f :: v) < n) as Hr' by (pose proof (room_cons U v f Hf M); lia).
    destruct (visit_all_ok w allow U n IH (before w allow f) c (f :: v)) as (c1 & v1 & -> & W1); auto.
    { intros x Hx. apply HI, in_or_app. auto. }
    destruct W1 as (new1 & E1 & N1 & D1 & V1 & F1 & C1 & R1).
    destruct (visit_all_ok w allow U n IH (after w allow f) (c1 ++ [f]) v1) as (c2 & v2 & E2' & W2).
    { intros x Hx. apply HI, in_or_app. auto. }
    { assert (room U v1 <= room U (f :: v)); [|lia]. apply room_le. intros x Hx. apply V1. auto. }
    exists c2, v2. split; auto. destruct W2 as (new2 & E2 & N2 & D2 & V2 & F2 & C2 & R2).
    exists (new1 ++ f :: new2). split; [|split; [|split; [|split; [|split; [|split]]]]].
    + rewrite E2, E1, <- !app_assoc. reflexivity.
    + apply nodup_app; auto.
      * constructor; auto. intros H. apply (D2 f H), V1. left. now left.
      * intros x Hx [<-|Hy]; [apply (D1 f Hx); now left|]. apply (D2 x Hy), V1. auto.
    + intros x Hx. apply in_app_or in Hx. destruct Hx as [Hx|[<-|Hx]]; auto.
      * intros Hv. apply (D1 x Hx). now right.
      * intros Hv. apply (D2 x Hx), V1. left. now right.
    + intros x. rewrite V2, V1, in_app_iff. cbn [In]. tauto.
    + intros g [<-|[]]. apply V2. left. apply V1. left. now left.
    + intros x y Hx Hp. apply in_app_or in Hx. destruct Hx as [Hx|[<-|Hx]].
      * apply V2. left. eauto.
      * apply next_parent in Hp. apply in_app_or in Hp. destruct Hp as [Hp|Hp]; auto. apply V2. left. auto.
      * eauto.
    + intros x Hx. exists f. split; [now left|]. apply in_app_or in Hx. destruct Hx as [Hx|[<-|Hx]].
      * destruct (R1 x Hx) as (g & Hg & Ha). eapply ancestor_step; eauto. apply next_parent, in_or_app. auto.
      * apply ancestor_refl.
      * destruct (R2 x Hx) as (g & Hg & Ha). eapply ancestor_step; eauto. apply next_parent, in_or_app. auto.
Qed.

Lemma mro_ok w allow f c v : exists c' v', mro w allow f (c, v) = Some (c', v') /\ walked w allow [f] c v c' v'.
Proof.
  unfold mro. apply build_ok with (U := f :: map target (edges w)).
  - intros x y _ Hp. right. now apply parent_target in Hp.
  - now left.
  - pose proof (room_le_length (f :: map target (edges w)) v) as H. cbn [length] in H. rewrite map_length in H.
    unfold mro_fuel. lia.
Qed.

(** From a closed set of visited namespaces the walk adds exactly the ancestors. *)
Definition closed (w : world) (allow : bool) (v : list ns) : Prop :=
  forall x y, In x v -> parent w allow x y -> In y v.

Lemma mro_closed w allow f c v : closed w allow v -> NoDup c -> (forall x, In x c -> In x v) ->
  exists c' v', mro w allow f (c, v) = Some (c', v') /\ NoDup c' /\ closed w allow v' /\
    (forall x, In x v' <-> In x v \/ ancestor w allow f x) /\
    (forall x, In x c' <-> In x c \/ (~ In x v /\ ancestor w allow f x)).
Proof.
  intros Hv Hc Hcv. destruct (mro_ok w allow f c v) as (c' & v' & E & new & E1 & N1 & D1 & V1 & F1 & C1 & R1).
  exists c', v'. split; auto.
  assert (closed w allow v') as Hv'.
  { intros x y Hx Hp. apply V1 in Hx. destruct Hx as [Hx|Hx]; eauto. apply V1. left. eauto. }
  assert (forall x, ancestor w allow f x -> In x v') as HA.
  { intros x Ha. assert (In f v') as Hf by (apply F1; now left). clear - Hf Hv' Ha. revert Hf.
    induction Ha as [g|g h x Hp Ha IH]; auto. intros Hg. apply IH. eapply Hv'; eauto. }
  split; [|split; [|split]]; auto.
  - rewrite E1. apply nodup_app; auto. intros x Hx Hn. apply (D1 x Hn); auto.
  - intros x. rewrite V1. split.
    + intros [H|H]; auto. right. destruct (R1 x H) as (g & [<-|[]] & Ha). auto.
    + intros [H|H]; auto. apply V1. auto.
  - intros x. rewrite E1, in_app_iff. split.
    + intros [H|H]; auto. right. split; auto. destruct (R1 x H) as (g & [<-|[]] & Ha). auto.
    + intros [H|[H Ha]]; auto. right. apply HA, V1 in Ha. tauto.
Qed.

Lemma mro_fresh w allow f : exists c v, mro w allow f ([], []) = Some (c, v) /\ NoDup c /\
  (forall x, In x c <-> ancestor w allow f x) /\ (forall x, In x v <-> In x c) /\ closed w allow v.
Proof.
  destruct (mro_closed w allow f [] []) as (c & v & E & N & C & V & H); try easy; [constructor|].
  exists c, v. split; auto. split; auto. split; [|split]; auto.
  - intros x. rewrite H. cbn. tauto.
  - intros x. rewrite H, V. cbn. tauto.
Qed.

(** Following fewer edges reaches less. *)
Lemma followed_more allow f e : followed false f e -> followed allow f e.
Proof. unfold followed. intros H U. destruct (H U); auto. easy. Qed.
Lemma parent_more w allow f x : parent w false f x -> parent w allow f x.
Proof.
  intros H. destruct H.
  - apply by_mixin; auto. now apply followed_more.
  - eapply by_hook; eauto; now apply followed_more.
  - apply by_superclass; auto. now apply followed_more.
Qed.
Lemma closed_more w allow v : closed w allow v -> closed w false v.
Proof. intros H x y Hx Hp. apply (H x y Hx). now apply parent_more. Qed.

(** ** The barrier *)

Lemma successors_in w f x : In x (successors w f) <-> up w f x.
Proof.
  unfold successors, edges_out, up, has_edge. rewrite in_map_iff. split.
  - intros (e & <- & H). rewrite !filter_In, same_eq in H. destruct H as [[H1 H2] H3].
    exists e, (kind e). repeat split; auto. intros E. rewrite E in H3. easy.
  - intros (e & k & (H1 & H2 & H3) & H4 & H5). exists e. split; auto. rewrite !filter_In, same_eq.
    repeat split; auto. rewrite H3. destruct k; auto.
Qed.

Lemma waiting_pending w f : has_pending w f = true <-> waiting w f.
Proof.
  unfold has_pending, waiting. rewrite existsb_exists. split.
  - intros (u & H1 & H2). rewrite andb_true_iff, same_eq in H2. destruct H2. eauto.
  - intros (u & H1 & H2 & H3). exists u. split; auto. rewrite andb_true_iff, same_eq. auto.
Qed.

Definition outside (w : world) (v : list ns) : nat := length (filter (fun e => negb (mem (source e) v)) (edges w)).
Lemma outside_cons w v x : ~ In x v -> outside w (x :: v) + length (edges_out w x) = outside w v.
Proof.
  intros N. unfold outside, edges_out. induction (edges w) as [|e l IH]; auto. cbn [filter].
  destruct (same (source e) x) eqn:E.
  - apply same_eq in E. subst.
    assert (mem (source e) (source e :: v) = true) as -> by (apply mem_in; now left).
    assert (mem (source e) v = false) as -> by now apply mem_false. cbn [negb]. cbn [length]. lia.
  - assert (mem (source e) (x :: v) = mem (source e) v) as ->.
    { apply eq_iff_eq_true. rewrite !mem_in. cbn. split; auto. intros [->|H]; auto.
      exfalso. assert (same (source e) (source e) = true) by now apply same_eq. congruence. }
    destruct (mem (source e) v); cbn [negb length]; lia.
Qed.

Lemma blocked_loop_ok w f n : forall stack v, length stack + outside w v < n ->
  (forall x, In x stack \/ In x v -> clos_refl_trans_1n ns (up w) f x) ->
  (In f stack \/ In f v) ->
  (forall x, In x v -> ~ torn w x /\ ~ waiting w x) ->
  (forall x y, In x v -> up w x y -> In y v \/ In y stack) ->
  exists b, blocked_loop n w stack v = Some b /\ (b = true <-> unproven w f).
Proof.
  induction n as [|n IH]; intros stack v Hr HS HF HB HC; [lia|]. cbn [blocked_loop].
  destruct stack as [|x r].
  - exists false. split; auto. split; [easy|]. intros (g & Hg & Hbad). exfalso.
    assert (In g v) as Hv.
    { assert (In f v) as Hf by (destruct HF; easy). clear - HC Hg Hf. induction Hg as [h|h k g Hu Hg IH]; auto.
      apply IH. destruct (HC h k Hf Hu); easy. }
    destruct (HB g Hv). tauto.
  - destruct (mem x v) eqn:M.
    + apply mem_in in M. apply IH.
      * cbn in Hr. lia.
      * intros y Hy. apply HS. destruct Hy; auto. left. now right.
      * destruct HF as [[<-|H]|H]; auto.
      * auto.
      * intros y z Hy Hz. destruct (HC y z Hy Hz) as [H|[<-|H]]; auto.
    + apply mem_false in M. pose proof (outside_cons w v x M) as Ho.
      assert (clos_refl_trans_1n ns (up w) f x) as Hx by (apply HS; left; now left).
      destruct (superclass_ambiguous w x) eqn:A.
      * exists true. split; auto. split; auto. intros _. exists x. split; auto. left. now apply ambiguous_torn.
      * destruct (has_pending w x) eqn:P.
        -- exists true. split; auto. split; auto. intros _. exists x. split; auto. right. now apply waiting_pending.
        -- apply IH.
           ++ cbn in Hr. rewrite app_length, rev_length.
              assert (length (successors w x) <= length (edges_out w x)); [|lia].
              unfold successors. rewrite map_length. clear. induction (edges_out w x); cbn; auto. destruct (walks _); cbn; lia.
           ++ intros y [Hy|[<-|Hy]]; auto. apply in_app_or in Hy. destruct Hy as [Hy|Hy].
              ** apply in_rev in Hy. apply successors_in in Hy. apply clos_rt_rt1n. eapply rt_trans.
                 --- apply clos_rt1n_rt. exact Hx.
                 --- now apply rt_step.
              ** apply HS. left. now right.
           ++ destruct HF as [[<-|H]|H]; [right; now left|left; apply in_or_app; now right|right; now right].
           ++ intros y [<-|Hy]; auto. split.
              ** intros H. apply ambiguous_torn in H. congruence.
              ** intros H. apply waiting_pending in H. congruence.
           ++ intros y z [<-|Hy] Hz.
              ** right. apply in_or_app. left. apply in_rev. rewrite rev_involutive. now apply successors_in.
              ** destruct (HC y z Hy Hz) as [H|[<-|H]]; [left; now right|left; now left|right; apply in_or_app; now right].
Qed.

Lemma blocked_ok w f : exists b, blocked w f = Some b /\ (b = true <-> unproven w f).
Proof.
  apply blocked_loop_ok; try easy.
  - cbn. assert (outside w [] <= length (edges w)); [|lia]. unfold outside. clear.
    induction (edges w) as [|e l IH]; auto. apply le_n_S. exact IH.
  - intros x [[<-|[]]|[]]. constructor.
  - left. now left.
Qed.

(** ** Method lookup chains *)

Lemma append_new_ok l : forall c v, NoDup c -> (forall x, In x c <-> In x v) ->
  NoDup (fst (append_new l (c, v))) /\ (forall x, In x (fst (append_new l (c, v))) <-> In x c \/ In x l).
Proof.
  induction l as [|a l IH]; intros c v N H.
  - cbn. split; auto. tauto.
  - cbn [append_new fst snd]. destruct (mem a v) eqn:M.
    + apply mem_in in M. destruct (IH c v N H) as [I1 I2]. split; auto. intros x. rewrite I2. cbn [In].
      split; [tauto|]. intros [?|[<-|?]]; auto. left. now apply H.
    + apply mem_false in M. destruct (IH (c ++ [a]) (a :: v)) as [I1 I2].
      * apply nodup_app; auto; [constructor; [easy|constructor]|]. intros x Hx [<-|[]]. now apply M, H.
      * intros x. rewrite in_app_iff, H. cbn [In]. tauto.
      * split; auto. intros x. rewrite I2, in_app_iff. cbn [In]. tauto.
Qed.

Lemma top_level_ok w : exists t, top_level_fallback w = Some t /\ NoDup t /\
  forall x, In x t <-> ancestor w true root x \/ (defined w object /\ ancestor w true object x).
Proof.
  unfold top_level_fallback. destruct (mro_fresh w true root) as (c & v & -> & N & C & V & K). cbn [fst].
  destruct (is_nil (nodes_for w object)) eqn:E.
  - exists c. split; auto. split; auto. apply nodes_for_nil in E. intros x. rewrite C. tauto.
  - apply nodes_for_some in E. destruct (mro_closed w true object c v K N) as (c' & v' & -> & N' & _ & V' & C').
    { intros x Hx. now apply V. }
    exists c'. split; auto. split; auto. intros x. rewrite C', V, C.
    split; [intros [?|[? ?]]; auto|]. intros [?|[_ ?]]; auto.
    destruct (in_dec ns_eq_dec x c) as [Y|Y].
    + left. now apply C.
    + right. split; auto. intros H'. now apply Y, C.
Qed.

Lemma universal_ok w : exists u, universal_fallback w = Some u /\ NoDup u /\ closed w false u /\
  forall x, In x u <-> defined w object /\ ancestor w false object x.
Proof.
  unfold universal_fallback. destruct (is_nil (nodes_for w object)) eqn:E.
  - apply nodes_for_nil in E. exists []. split; auto. split; [constructor|]. split; [intros x y []|].
    intros x. split; [easy|]. tauto.
  - apply nodes_for_some in E. destruct (mro_fresh w false object) as (c & v & -> & N & C & V & K).
    exists c. split; auto. split; auto. split.
    + intros x y Hx Hp. apply V in Hx. apply V. eauto.
    + intros x. rewrite C. tauto.
Qed.

Lemma is_module_spec w f : is_module w f = true <-> module_namespace w f.
Proof.
  unfold is_module, module_namespace, nodes_for. rewrite andb_true_iff, negb_true_iff, existsb_exists. split.
  - intros [H (k & Hk & E)]. split; auto. apply in_map_iff in Hk. destruct Hk as ([g k'] & <- & Hk).
    apply filter_In in Hk. destruct Hk as [Hk S]. apply same_eq in S. cbn in *. subst. destruct k'; easy.
  - intros [H Hi]. split; auto. exists Module. split; auto. apply in_map_iff. exists (f, Module). split; auto.
    apply filter_In. split; auto. now apply same_eq.
Qed.

Lemma metaclass_spec w f m : metaclass w f = Some m <-> object_class w f m.
Proof.
  unfold metaclass, object_class. destruct (singleton f); [|split; [easy|intros (H & _); easy]].
  destruct (first_kind w f) as [k|]; [|split; [easy|intros (_ & _ & k & H & _); easy]].
  set (m' := mkNs [match k with Class => ClassC | Module => ModuleC end] false).
  destruct (is_nil (nodes_for w m')) eqn:E.
  - apply nodes_for_nil in E. split; [easy|]. intros (_ & D & k' & [= <-] & ->). easy.
  - apply nodes_for_some in E. split.
    + intros [= <-]. repeat split; auto. exists k. auto.
    + intros (_ & D & k' & [= <-] & ->). reflexivity.
Qed.
Lemma first_kind_defined w f k : first_kind w f = Some k -> defined w f.
Proof. unfold first_kind. intros H. apply nodes_for_some. destruct (nodes_for w f); easy. Qed.

(** The chain of the namespace without that of its class object. *)
Definition plain (w : world) (f x : ns) : Prop :=
  (defined w f /\ ancestor w (universal f) f x) \/
  (defined w f /\ ~ ancestor w (universal f) f root /\ path f <> [] /\
     (module_namespace w f \/ singleton f = true) /\ ~ unproven w f /\ defined w object /\ ancestor w false object x) \/
  (~ defined w f /\ path f <> [] /\ x = f) \/
  (~ defined w f /\ path f = [] /\ (ancestor w true root x \/ (defined w object /\ ancestor w true object x))).

Lemma chain_ok w f b t u : (b = true <-> unproven w f) ->
  (forall x, In x t <-> ancestor w true root x \/ (defined w object /\ ancestor w true object x)) ->
  closed w false u -> (forall x, In x u <-> defined w object /\ ancestor w false object x) ->
  exists c, chain_without_metaclass w t u f (negb b) = Some c /\ NoDup c /\ (defined w f -> closed w false c) /\
    forall x, In x c <-> plain w f x.
Proof.
  intros Hb Ht Ku Hu. unfold chain_without_metaclass, plain. destruct (is_nil (nodes_for w f)) eqn:E.
  - apply nodes_for_nil in E. destruct (path f) as [|p ps] eqn:P.
    + destruct (append_new_ok t [] []) as [N H]; [constructor|tauto|].
      set (c := fst (append_new t ([], []))) in *.
      assert (In root c) as Hr.
      { apply H. right. apply Ht. left. apply ancestor_refl. }
      exists c. split; [destruct c; easy|]. split; auto. split; [tauto|]. intros x. rewrite H, Ht. cbn [In]. tauto.
    + exists [f]. split; auto. split; [repeat constructor; easy|]. split; [tauto|]. intros x. cbn [In]. split.
      * intros [<-|[]]. right. right. left. repeat split; auto. congruence.
      * intros [?|[?|[(_ & _ & ->)|(_ & ? & _)]]]; tauto || auto. congruence.
  - apply nodes_for_some in E. destruct (mro_fresh w (universal f) f) as (c & v & -> & N & C & V & K). cbn [fst].
    assert (closed w false c) as Kc.
    { intros x y Hx Hp. apply V. apply V in Hx. eapply closed_more in K. eapply K; eauto. }
    destruct (negb (mem root c) && negb (is_nil (path f)) && (is_module w f || singleton f) && negb b) eqn:B.
    + rewrite !andb_true_iff, orb_true_iff, is_module_spec, !negb_true_iff, mem_false, C in B.
      destruct B as [[[B1 B2] B3] B4].
      destruct (append_new_ok u c v N) as [N' H]. { intros x. now rewrite V. }
      set (c' := fst (append_new u (c, v))) in *. exists c'. split; auto. split; auto. split.
      { intros _ x y Hx Hp. apply H in Hx. apply H. destruct Hx; [left|right]; eauto. }
      intros x. rewrite H, C, Hu. assert (path f <> []) by (destruct (path f); easy).
      assert (~ unproven w f). { intros H'. apply Hb in H'. congruence. } tauto.
    + exists c. split; auto. split; auto. split; auto. intros x. rewrite C. split; [tauto|].
      intros [[_ H]|[(_ & H1 & H2 & H3 & H4 & _)|[(H & _)|(H & _)]]]; auto; try easy. exfalso.
      apply not_true_iff_false in B. apply B.
      rewrite !andb_true_iff, orb_true_iff, is_module_spec, !negb_true_iff, mem_false, C.
      repeat split; auto; [destruct (path f); easy|]. destruct b; auto. exfalso. now apply H4, Hb.
Qed.

Lemma looked_up_plain w f x : looked_up w f x <-> plain w f x \/ exists m, object_class w f m /\ ancestor w false m x.
Proof.
  unfold plain. split.
  - intros H. destruct H; eauto 12.
  - intros [[[H1 H2]|[(H1 & H2 & H3 & H4 & H5 & H6 & H7)|[(H1 & H2 & ->)|(H1 & H2 & H3)]]]|(m & H1 & H2)].
    + now apply own.
    + now apply core.
    + now apply unknown.
    + now apply top.
    + now apply meta with m.
Qed.

Lemma method_lookup_chain_ok w f : exists c, method_lookup_chain w f = Some c /\ NoDup c /\
  forall x, In x c <-> looked_up w f x.
Proof.
  unfold method_lookup_chain, method_lookup_chain_with. destruct (top_level_ok w) as (t & -> & _ & Ht).
  destruct (universal_ok w) as (u & -> & _ & Ku & Hu). destruct (blocked_ok w f) as (b & -> & Hb).
  destruct (chain_ok w f b t u Hb Ht Ku Hu) as (c & -> & N & K & C).
  destruct (metaclass w f) as [m|] eqn:M.
  - apply metaclass_spec in M. assert (defined w f) as D.
    { destruct M as (_ & _ & k & M & _). now apply first_kind_defined in M. }
    destruct (mro_closed w false m c c (K D) N) as (c' & v' & -> & N' & _ & _ & C'); auto.
    exists c'. split; auto. split; auto. intros x. rewrite C', looked_up_plain, <- C. split.
    + intros [H|[_ H]]; eauto.
    + intros [H|(m' & H1 & H2)]; auto. destruct (in_dec ns_eq_dec x c); auto. right. split; auto.
      apply metaclass_spec in M. apply metaclass_spec in H1. congruence.
  - exists c. split; auto. split; auto. intros x. rewrite looked_up_plain, <- C. split; auto.
    intros [H|(m & H & _)]; auto. apply metaclass_spec in H. congruence.
Qed.
