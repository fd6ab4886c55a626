(** Unions: canonical forms and what they denote. *)
From Coq Require Import List Arith Bool Lia Sorted Permutation.
From Verif Require Import Lib Types_Model Types_Spec Types_Order.
Import ListNotations.

Lemma in_flatten x l : In x (flatten l) <->
  exists t, In t l /\ match t with TUnion k => In x k | t => x = t end.
Proof.
  unfold flatten. rewrite in_flat_map. split; intros [t [A B]]; exists t; split; auto;
    destruct t; cbn in *; intuition congruence.
Qed.
Lemma flatten_app a b : flatten (a ++ b) = flatten a ++ flatten b.
Proof. apply flat_map_app. Qed.
Lemma unknown_in l : existsb is_unknown l = true <-> In TUnknown l.
Proof.
  rewrite existsb_exists. split.
  - intros [[ ] [A B]]; try discriminate. exact A.
  - intros A. exists TUnknown. auto.
Qed.
Definition shapes (l : list ty) : list ty := filter is_shape l.

(** The result of [union], by cases. *)
Inductive union_case (l : list ty) : ty -> Prop :=
| UC_unknown : In TUnknown (flatten l) -> union_case l TUnknown
| UC_empty : flatten l = [] -> union_case l TUnknown
| UC_bound : ~ In TUnknown (flatten l) -> max_variants < length (shapes (canon (flatten l))) -> union_case l TUnknown
| UC_single x : ~ In TUnknown (flatten l) -> canon (flatten l) = [x] -> union_case l x
| UC_union v : ~ In TUnknown (flatten l) -> canon (flatten l) = v -> 2 <= length v ->
    length (shapes v) <= max_variants -> union_case l (TUnion v).
Lemma union_cases l : union_case l (union l).
Proof.
  unfold union. destruct (existsb is_unknown (flatten l)) eqn:U.
  - apply UC_unknown. apply unknown_in. exact U.
  - assert (N : ~ In TUnknown (flatten l)) by (rewrite <- unknown_in; congruence).
    fold (canon (flatten l)). fold (shapes (canon (flatten l))).
    destruct (max_variants <? length (shapes (canon (flatten l)))) eqn:B.
    + apply UC_bound; auto. apply Nat.ltb_lt. exact B.
    + apply Nat.ltb_ge in B. destruct (canon (flatten l)) as [|x [|y v]] eqn:C.
      * apply UC_empty. destruct (flatten l) as [|z r] eqn:F; [reflexivity|].
        exfalso. assert (In z (canon (z :: r))) as Z by (apply in_canon; left; reflexivity).
        rewrite C in Z. destruct Z.
      * apply UC_single; auto.
      * apply UC_union; auto. cbn. lia.
Qed.
Lemma union_eq l t : union_case l t -> union l = t.
Proof.
  assert (N : forall k, ~ In TUnknown k -> existsb is_unknown k = false).
  { intros k H. destruct (existsb is_unknown k) eqn:E; [|reflexivity]. apply unknown_in in E. contradiction. }
  intros A. destruct A as [H|H|H B|x H E|v H E LV B]; unfold union.
  - rewrite (proj2 (unknown_in _) H). reflexivity.
  - rewrite H. reflexivity.
  - rewrite (N _ H). fold (canon (flatten l)). fold (shapes (canon (flatten l))).
    apply Nat.ltb_lt in B. rewrite B. reflexivity.
  - rewrite (N _ H). fold (canon (flatten l)). rewrite E. cbn. destruct (is_shape x); reflexivity.
  - rewrite (N _ H). fold (canon (flatten l)). rewrite E. fold (shapes v).
    apply Nat.ltb_ge in B. rewrite B. destruct v as [|y [|z v]]; cbn in LV; try lia. reflexivity.
Qed.

(** C24, order and duplication: only the set of flattened members matters. *)
Lemma flatten_ext l k : (forall x, In x l <-> In x k) -> forall x, In x (flatten l) <-> In x (flatten k).
Proof. intros E x. rewrite !in_flatten. split; intros [t [A B]]; exists t; rewrite E in *; auto; rewrite <- E in *; auto. Qed.
Lemma union_ext l k : (forall x, In x (flatten l) <-> In x (flatten k)) -> union l = union k.
Proof.
  intros E. apply union_eq. pose proof (canon_ext _ _ E) as C. destruct (union_cases k).
  - apply UC_unknown. apply E. assumption.
  - apply UC_empty. destruct (flatten l) as [|z r]; [reflexivity|]. exfalso.
    rewrite H in E. apply (E z). left. reflexivity.
  - apply UC_bound; [|rewrite C; assumption]. rewrite E. assumption.
  - apply UC_single; [rewrite E; assumption|congruence].
  - apply UC_union; try assumption; [rewrite E; assumption|congruence].
Qed.

(** the members of a union of flat types are not unions *)
Lemma flatten_flat l : Forall flat l -> forall x, In x (flatten l) -> is_union x = false.
Proof.
  intros F x X. apply in_flatten in X as [t [A B]]. rewrite Forall_forall in F. specialize (F t A).
  destruct t; cbn in *; subst; auto.
Qed.
Lemma shapes_incl l k : (forall x, In x l -> In x k) -> NoDup l -> length (shapes l) <= length (shapes k).
Proof.
  intros E N. apply NoDup_incl_length; [apply NoDup_filter; assumption|].
  intros x X. apply filter_In in X as [A B]. apply filter_In. auto.
Qed.
Lemma canon_nodup l : NoDup (canon l).
Proof. apply sorted_nodup, canon_sorted. Qed.

(** the result flattened again *)
Lemma flatten_union l : Forall flat l -> flatten l <> [] -> union l <> TUnknown ->
  forall x, In x (flatten [union l]) <-> In x (flatten l).
Proof.
  intros F N U x. rewrite in_flatten. destruct (union_cases l); try congruence.
  - assert (is_union x0 = false) as X0.
    { apply (flatten_flat l F). apply in_canon. rewrite H0. left. reflexivity. }
    rewrite <- (in_canon x), H0. split.
    + intros [t [[<-|[]] B]]. destruct x0; cbn in *; try discriminate; auto.
    + intros [<-|[]]. exists x0. split; [left; reflexivity|]. destruct x0; cbn in *; try discriminate; auto.
  - rewrite <- (in_canon x (flatten l)), H0. split.
    + intros [t [[<-|[]] B]]. exact B.
    + intros X. exists (TUnion v). split; [left; reflexivity|exact X].
Qed.

Lemma union_group l1 l2 l3 : Forall flat l2 -> flatten l2 <> [] ->
  union (l1 ++ union l2 :: l3) = union (l1 ++ l2 ++ l3).
Proof.
  intros F N. destruct (ty_dec (union l2) TUnknown) as [U|U].
  - rewrite U. rewrite (union_eq (l1 ++ TUnknown :: l3) TUnknown).
    2:{ apply UC_unknown. rewrite flatten_app. apply in_or_app. right. left. reflexivity. }
    symmetry. pose proof (union_cases l2) as C. rewrite U in C.
    destruct (in_dec ty_dec TUnknown (flatten (l1 ++ l2 ++ l3))) as [I|I].
    { apply union_eq, UC_unknown, I. }
    assert (I2 : forall x, In x (flatten l2) -> In x (flatten (l1 ++ l2 ++ l3))).
    { intros x X. rewrite !flatten_app. apply in_or_app. right. apply in_or_app. left. exact X. }
    inversion C; subst.
    + exfalso. apply I, I2. assumption.
    + congruence.
    + apply union_eq, UC_bound; [assumption|]. eapply Nat.lt_le_trans; [eassumption|].
      apply shapes_incl; [|apply canon_nodup]. intros x X. rewrite in_canon in *. auto.
    + exfalso. apply I, I2. apply in_canon. rewrite H0. left. reflexivity.
  - apply union_ext. intros x. pose proof (flatten_union l2 F N U x) as E.
    change (union l2 :: l3) with ([union l2] ++ l3).
    rewrite !flatten_app, !in_app_iff, E. tauto.
Qed.

(** canonical types *)
Definition canonical (t : ty) : Prop :=
  match t with
  | TUnion l => StronglySorted lt l /\ 2 <= length l /\ ~ In TUnknown l /\
                (forall x, In x l -> is_union x = false) /\ length (shapes l) <= max_variants
  | _ => True
  end.
Lemma canonical_flat t : canonical t -> flat t.
Proof. destruct t; cbn; auto. tauto. Qed.
Lemma union_canonical l : Forall flat l -> canonical (union l).
Proof.
  intros F. destruct (union_cases l); cbn; auto.
  - assert (is_union x = false). { apply (flatten_flat l F). apply in_canon. rewrite H0. left. reflexivity. }
    destruct x; cbn in *; auto; discriminate.
  - subst v. repeat split; auto using canon_sorted.
    + rewrite in_canon. assumption.
    + intros x X. apply (flatten_flat l F). apply in_canon. assumption.
Qed.
Lemma union_single t : canonical t -> union [t] = t.
Proof.
  destruct t; intros C;
    try (apply union_eq, UC_single; [cbn; intuition discriminate|reflexivity]).
  - destruct C as [S1 [S2 [S3 [S4 S5]]]].
    assert (E : flatten [TUnion l] = l) by (cbn; apply app_nil_r).
    apply union_eq, UC_union; rewrite ?E; auto using canon_id.
  - apply union_eq, UC_unknown. left. reflexivity.
Qed.

(** optional and union_with are instances of union *)
Lemma union_two_atoms a b : is_union a = false -> is_union b = false -> a <> TUnknown -> b <> TUnknown ->
  lt a b -> union [a; b] = TUnion [a; b].
Proof.
  intros A B UA UB L. apply union_eq.
  assert (F : flatten [a; b] = [a; b]) by (destruct a, b; cbn in *; congruence).
  assert (C : canon [a; b] = [a; b]).
  { apply canon_id. constructor; [repeat constructor|]. constructor; [exact L|constructor]. }
  apply UC_union; rewrite ?F; auto.
  - cbn. intuition congruence.
  - unfold shapes. cbn [filter]. destruct (is_shape a), (is_shape b); cbn [length]; unfold max_variants; lia.
Qed.
Lemma lt_or a b : a <> b -> lt a b \/ lt b a.
Proof.
  intros N. unfold lt. rewrite (cmp_antisym a b). destruct (cmp a b) eqn:E; cbn; auto.
  apply cmp_eq in E. congruence.
Qed.
Lemma optional_union t : canonical t -> optional t = union [t; nil_class].
Proof.
  intros C.
  assert (A : is_union t = false -> t <> TUnknown ->
    (if eqb t nil_class then t else if ltb t nil_class then TUnion [t; nil_class] else TUnion [nil_class; t])
    = union [t; nil_class]).
  { intros U K. destruct (eqb t nil_class) eqn:E.
    - apply eqb_eq in E. subst. reflexivity.
    - apply eqb_neq in E. destruct (ltb t nil_class) eqn:L.
      + symmetry. apply union_two_atoms; auto; [discriminate|].
        unfold ltb in L. unfold lt. destruct (cmp t nil_class); congruence.
      + rewrite (union_ext [t; nil_class] [nil_class; t]).
        2:{ apply flatten_ext. intros x. cbn. tauto. }
        symmetry. apply union_two_atoms; auto; [discriminate|].
        destruct (lt_or _ _ E) as [Q|Q]; auto. unfold ltb in L. unfold lt in Q. rewrite Q in L. discriminate. }
  destruct t; try (apply A; [reflexivity|discriminate]).
  - cbn [optional]. apply union_ext. intros x. destruct C as [_ [_ [_ [U _]]]].
    rewrite flatten_app, in_app_iff.
    change (flatten [TUnion l; nil_class]) with (l ++ flatten [nil_class]). rewrite in_app_iff.
    assert (In x (flatten l) <-> In x l); [|tauto]. rewrite in_flatten. split.
    + intros [t [P Q]]. specialize (U t P). destruct t; subst; auto; discriminate.
    + intros P. exists x. split; auto. specialize (U x P). destruct x; auto; discriminate.
  - reflexivity.
Qed.
Lemma flatten_atoms l : (forall x, In x l -> is_union x = false) -> flatten l = l.
Proof.
  induction l as [|x l IH]; cbn; intros U; [reflexivity|]. fold (flatten l). rewrite IH by auto.
  specialize (U x (or_introl eq_refl)). destruct x; try reflexivity. discriminate.
Qed.
Lemma union_with_union a b : canonical a -> canonical b -> union_with a b = union [a; b].
Proof.
  intros A B. unfold union_with. destruct (eqb a b) eqn:E.
  { apply eqb_eq in E. subst b. rewrite <- (union_single a A) at 1. apply union_ext, flatten_ext. cbn. tauto. }
  assert (UA : forall l, a = TUnion l -> flatten l = l). { intros l ->. apply flatten_atoms. apply A. }
  assert (UB : forall l, b = TUnion l -> flatten l = l). { intros l ->. apply flatten_atoms. apply B. }
  assert (UNK : In TUnknown [a; b] -> TUnknown = union [a; b]).
  { intros X. symmetry. apply union_eq, UC_unknown. apply in_flatten. exists TUnknown. auto. }
  destruct a as [ | | | | | | | |la| ]; destruct b as [ | | | | | | | |kb| ];
    try (apply UNK; cbn; tauto); try reflexivity; apply union_ext; intros x;
    rewrite ?flatten_app, ?in_app_iff, ?(UA _ eq_refl), ?(UB _ eq_refl); cbn; rewrite ?in_app_iff; cbn; tauto.
Qed.

(** *** Denotation *)
Section Den.
Variable named : meaning.
Notation D := (den named).
Notation some := (described_by_some named).

Lemma den_union l v : D (TUnion l) v <-> some l v.
Proof.
  cbn. unfold ors. split.
  - intros [P [A B]]. apply in_map_iff in A as [t [<- A]]. exists t. auto.
  - intros [t [A B]]. exists (D t). split; auto. apply in_map. assumption.
Qed.
Lemma some_flatten l v : some (flatten l) v <-> some l v.
Proof.
  split.
  - intros [t [A B]]. apply in_flatten in A as [u [A C]]. exists u. split; auto.
    destruct u; subst; auto. apply den_union. exists t. auto.
  - intros [t [A B]]. destruct t;
      try (match goal with |- some _ _ => eexists; split; [apply in_flatten; eexists; split; [exact A|reflexivity]|exact B] end).
    apply den_union in B as [u [C E]]. exists u. split; auto. apply in_flatten. eexists. split; [exact A|exact C].
Qed.
Lemma some_canon l v : some (canon l) v <-> some l v.
Proof. split; intros [t [A B]]; exists t; split; auto; apply in_canon; assumption. Qed.
Lemma some_app a b v : some (a ++ b) v <-> some a v \/ some b v.
Proof.
  split.
  - intros [t [A B]]. apply in_app_or in A as [A|A]; [left|right]; exists t; auto.
  - intros [[t [A B]]|[t [A B]]]; exists t; split; auto; apply in_or_app; auto.
Qed.

Lemma union_complete l v : some l v -> D (union l) v.
Proof.
  intros S1. rewrite <- some_flatten, <- some_canon in S1. destruct (union_cases l); cbn; auto.
  - rewrite H0 in S1. destruct S1 as [t [[<-|[]] B]]. exact B.
  - rewrite H0 in S1. apply den_union. exact S1.
Qed.
Lemma union_sound l v : union l <> TUnknown -> D (union l) v -> some l v.
Proof.
  intros N B. rewrite <- some_flatten, <- some_canon. destruct (union_cases l); try congruence.
  - rewrite H0. exists x. split; [left; reflexivity|exact B].
  - rewrite H0. apply den_union. exact B.
Qed.
Lemma members_den t v : some (members t) v <-> D t v.
Proof.
  destruct t; cbn [members]; try (split; [intros [u [[<-|[]] B]]; exact B|intros B; eexists; split; [left; reflexivity|exact B]]).
  symmetry. apply den_union.
Qed.
Lemma canonical_members_complete l v : some l v -> some (canonical_members l) v.
Proof.
  destruct l as [|x [|y l]]; cbn [canonical_members].
  - intros [t [[] _]].
  - intros S1. destruct x; auto. apply members_den, union_complete, S1.
  - intros S1. apply members_den, union_complete, S1.
Qed.
End Den.
