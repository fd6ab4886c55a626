(** Subtyping: the recursion ends, it is sound on a fragment, reflexive, and transitive without shapes. *)
From Coq Require Import List Arith Bool Lia Sorted Permutation.
From Verif Require Import Lib Types_Model Types_Spec Types_Order Types_Union Types_Shape Types_Widen.
Import ListNotations.

(** *** Short-circuiting connectives *)
Lemma all_o_ext {A} (f g : A -> option bool) l : (forall x, In x l -> f x = g x) -> all_o f l = all_o g l.
Proof.
  induction l as [|x l IH]; cbn; intros H; [reflexivity|]. rewrite <- (H x) by auto.
  destruct (f x) as [[ ]|]; auto.
Qed.
Lemma any_o_ext {A} (f g : A -> option bool) l : (forall x, In x l -> f x = g x) -> any_o f l = any_o g l.
Proof.
  induction l as [|x l IH]; cbn; intros H; [reflexivity|]. rewrite <- (H x) by auto.
  destruct (f x) as [[ ]|]; auto.
Qed.
Lemma all_o_true {A} (f : A -> option bool) l : all_o f l = Some true <-> forall x, In x l -> f x = Some true.
Proof.
  induction l as [|x l IH]; cbn; [split; [intros _ x []|reflexivity]|]. split.
  - destruct (f x) as [[ ]|] eqn:E; try discriminate. intros H y [<-|Y]; [exact E|]. apply IH; assumption.
  - intros H. rewrite (H x) by auto. apply IH. auto.
Qed.
Lemma any_o_true {A} (f : A -> option bool) l : any_o f l = Some true -> exists x, In x l /\ f x = Some true.
Proof.
  induction l as [|x l IH]; cbn; [discriminate|]. destruct (f x) as [[ ]|] eqn:E; try discriminate.
  - intros _. exists x. auto.
  - intros H. destruct (IH H) as [y [Y1 Y2]]. exists y. auto.
Qed.
Lemma any_o_intro {A} (f : A -> option bool) l : (forall x, In x l -> f x <> None) ->
  (exists x, In x l /\ f x = Some true) -> any_o f l = Some true.
Proof.
  induction l as [|x l IH]; cbn; intros N [y [Y1 Y2]]; [destruct Y1|].
  destruct (f x) as [[ ]|] eqn:E; [reflexivity| |exfalso; apply (N x); auto].
  apply IH; [auto|]. destruct Y1 as [<-|Y1]; [congruence|]. exists y. auto.
Qed.
Lemma all_o_total {A} (f : A -> option bool) l : (forall x, In x l -> f x <> None) -> all_o f l <> None.
Proof.
  induction l as [|x l IH]; cbn; intros N; [discriminate|].
  destruct (f x) as [[ ]|] eqn:E; [|discriminate|exfalso; apply (N x); auto]. apply IH. auto.
Qed.
Lemma any_o_total {A} (f : A -> option bool) l : (forall x, In x l -> f x <> None) -> any_o f l <> None.
Proof.
  induction l as [|x l IH]; cbn; intros N; [discriminate|].
  destruct (f x) as [[ ]|] eqn:E; [discriminate| |exfalso; apply (N x); auto]. apply IH. auto.
Qed.
Lemma and_o_true a b : and_o a b = Some true <-> a = Some true /\ b = Some true.
Proof. destruct a as [[ ]|]; cbn; intuition congruence. Qed.
Lemma and_o_total a b : a <> None -> b <> None -> and_o a b <> None.
Proof. destruct a as [[ ]|]; cbn; congruence. Qed.

Lemma lookup_some k fs f : lookup k fs = Some f -> In f fs /\ fkey f = k.
Proof. intros H. apply find_some in H as [A B]. apply lit_eqb_eq in B. auto. Qed.
Lemma lookup_none k fs : lookup k fs = None -> forall f, In f fs -> fkey f <> k.
Proof. intros H f I E. pose proof (find_none _ _ H f I) as Q. cbn in Q. apply lit_eqb_eq in E. congruence. Qed.
Lemma lookup_has k fs : In k (map fkey fs) <-> exists f, lookup k fs = Some f.
Proof.
  split.
  - intros I. destruct (lookup k fs) as [f|] eqn:E; [eauto|]. apply in_map_iff in I as [f [Q I]].
    exfalso. eapply lookup_none; eauto.
  - intros [f E]. apply lookup_some in E as [A B]. rewrite <- B. apply in_map, A.
Qed.

(** *** The recursion ends *)
Definition pays (t : ty) : nat := match t with TLit _ | TShape _ _ _ _ _ => 1 | _ => 0 end.
Definition measure (a b : ty) : nat := 2 * (height a + height b) + pays a.
Lemma pays_le t : pays t <= 1.
Proof. destruct t; cbn; lia. Qed.
Lemma measure_lt x y a b : height x + height y < height a + height b -> measure x y < measure a b.
Proof. unfold measure. pose proof (pays_le x). lia. Qed.
Lemma in_union_height x l : In x l -> height x < height (TUnion l).
Proof. intros I. apply in_height in I. cbn [height]. lia. Qed.
Lemma in_array_height x l : In x l -> height x < height (TArray l).
Proof. intros I. apply in_height in I. cbn [height]. lia. Qed.
Lemma in_key_height x k v : In x k -> height x < height (THash k v).
Proof. intros I. apply in_height in I. cbn [height]. lia. Qed.
Lemma in_value_height x k v : In x v -> height x < height (THash k v).
Proof. intros I. apply in_height in I. cbn [height]. lia. Qed.
Lemma in_shape_height f fs r e z d : In f fs -> height (fval f) < height (TShape fs r e z d).
Proof. intros I. apply in_field_heights in I. cbn [height]. fold (field_heights fs). lia. Qed.
Lemma rest_height fs a b e z d : height a < height (TShape fs (Some (a, b)) e z d) /\ height b < height (TShape fs (Some (a, b)) e z d).
Proof. cbn [height]. lia. Qed.
Lemma shape_height fs r e z d : 2 <= height (TShape fs r e z d).
Proof. cbn [height]. lia. Qed.
Lemma widened_height l : height (widened l) = 1.
Proof. destruct l; reflexivity. Qed.

Lemma shape_sub_ext r1 r2 fs rest ex fr d fs' rest' ex' fr' d' :
  (forall x y, height x + height y < height (TShape fs rest ex fr d) + height (TShape fs' rest' ex' fr' d') -> r1 x y = r2 x y) ->
  shape_sub r1 fs rest ex fs' rest' ex' = shape_sub r2 fs rest ex fs' rest' ex'.
Proof.
  intros H. unfold shape_sub.
  pose proof (shape_height fs rest ex fr d) as HS. pose proof (shape_height fs' rest' ex' fr' d') as HS'.
  assert (A1 : forall f f', In f fs -> In f' fs' -> r1 (fval f) (fval f') = r2 (fval f) (fval f')).
  { intros f f' I J. apply H. apply (in_shape_height f fs rest ex fr d) in I. apply (in_shape_height f' fs' rest' ex' fr' d') in J. lia. }
  f_equal.
  - apply all_o_ext. intros f' J. destruct (lookup (fkey f') fs) as [f|] eqn:L.
    + apply lookup_some in L as [I _]. rewrite (A1 f f' I J). reflexivity.
    + destruct (freq f'); [reflexivity|]. destruct rest as [[rk rv]|]; [|reflexivity].
      destruct (rest_height fs rk rv ex fr d).
      rewrite (H (widened (fkey f')) rk) by (rewrite widened_height; lia).
      destruct (r2 (widened (fkey f')) rk) as [[ ]|]; try reflexivity.
      apply H. apply (in_shape_height f' fs' rest' ex' fr' d') in J. lia.
  - destruct ex'; [reflexivity|]. destruct rest' as [[rk' rv']|]; [|reflexivity].
    destruct (rest_height fs' rk' rv' false fr' d'). f_equal.
    + apply all_o_ext. intros f I. apply filter_In in I as [I _].
      rewrite (H (widened (fkey f)) rk') by (rewrite widened_height; lia).
      rewrite (H (fval f) rv'); [reflexivity|]. apply (in_shape_height f fs rest ex fr d) in I. lia.
    + destruct rest as [[rk rv]|]; [|reflexivity]. destruct (rest_height fs rk rv ex fr d).
      rewrite (H rk rk') by lia. rewrite (H rv rv') by lia. reflexivity.
Qed.
Lemma sub_body_ext r1 r2 a b : (forall x y, measure x y < measure a b -> r1 x y = r2 x y) ->
  sub_body r1 a b = sub_body r2 a b.
Proof.
  intros H. unfold sub_body. destruct (is_unknown a) eqn:U; [reflexivity|]. destruct (eqb a b); [reflexivity|].
  assert (UB : forall l, b = TUnion l -> any_o (fun t => r1 a t) l = any_o (fun t => r2 a t) l).
  { intros l ->. apply any_o_ext. intros x I. apply H. apply in_union_height in I. unfold measure. lia. }
  destruct a as [fa|fa|fa|fa|la|la|ka va|fsa ra ea za da|la|]; try discriminate;
    destruct b as [fb|fb|fb|fb|lb|lb|kb vb|fsb rb eb zb db|lb|]; try reflexivity;
    try (apply UB; reflexivity);
    try (apply all_o_ext; intros x I; apply H; apply in_union_height in I; apply measure_lt; lia);
    try (apply H; unfold measure; rewrite widened_height; destruct la; cbn [pays widened]; cbn; lia).
  - apply all_o_ext. intros x I. apply any_o_ext. intros y J. apply H, measure_lt.
    apply in_array_height in I. apply in_array_height in J. lia.
  - f_equal; apply all_o_ext; intros x I; apply any_o_ext; intros y J; apply H, measure_lt.
    + apply (in_key_height x ka va) in I. apply (in_key_height y kb vb) in J. lia.
    + apply (in_value_height x ka va) in I. apply (in_value_height y kb vb) in J. lia.
  - destruct (generic_hash fsa ra ea) as [h|] eqn:G; [|reflexivity]. apply H. unfold measure.
    pose proof (generic_hash_height fsa ra ea za da h G) as GH.
    assert (pays h = 0). { unfold generic_hash in G. cbv zeta in G. destruct (seqo _); [|discriminate].
      destruct (match ra with None => _ | Some _ => _ end) as [[ks vs]|]; [|discriminate]. injection G as <-. reflexivity. }
    cbn [pays]. lia.
  - apply (shape_sub_ext r1 r2 fsa ra ea za da fsb rb eb zb db). intros x y L. apply H, measure_lt. lia.
Qed.
Lemma sub_enough : forall n n' a b, measure a b < n -> measure a b < n' -> sub n a b = sub n' a b.
Proof.
  induction n as [|n IH]; intros n' a b L L'; [lia|]. destruct n' as [|n']; [lia|].
  cbn [sub]. apply sub_body_ext. intros x y M. apply IH; lia.
Qed.
Lemma is_subtype_unfold a b : is_subtype a b = sub_body is_subtype a b.
Proof.
  unfold is_subtype at 1. replace (2 * (height a + height b) + 2) with (S (2 * (height a + height b) + 1)) by lia.
  cbn [sub]. apply sub_body_ext. intros x y M. unfold is_subtype. apply sub_enough.
  - unfold measure in *. pose proof (pays_le a). lia.
  - unfold measure in *. pose proof (pays_le x). lia.
Qed.

(** *** Components *)
Lemma occurs_trans x y z : occurs x y -> occurs y z -> occurs x z.
Proof.
  intros A B. induction B; auto.
  - eapply Occ_array; eauto. - eapply Occ_key; eauto. - eapply Occ_value; eauto. - eapply Occ_union; eauto.
  - eapply Occ_field; eauto. - eapply Occ_rest_key; eauto. - eapply Occ_rest_value; eauto.
Qed.
Lemma every_shape_part p x t : occurs x t -> every_shape p t -> every_shape p x.
Proof. intros O H fs rest ex fr d OC. eapply H, occurs_trans; eauto. Qed.
Lemma built_part x t : occurs x t -> built t -> built x.
Proof.
  intros O. induction O as [|l t I O IH|k v t I O IH|k v t I O IH|l t I O IH|fs r e z d f I O IH|fs a b e z d O IH|fs a b e z d O IH];
    intros B; auto; apply IH; inversion B as [|?|?|?|?|? F|? ? F G|? F| |fs0 rest0 ex0 fr0 t0 F R T]; subst;
    try (rewrite Forall_forall in F; auto; fail); try (rewrite Forall_forall in G; auto; fail);
    apply try_new_inl in T as [_ [Q _]]; try discriminate; inversion Q; subst.
  - rewrite Forall_forall in F. apply F. eapply Permutation_in; [apply Permutation_sym, fsort_perm|exact I].
  - apply (R _ _ eq_refl).
  - apply (R _ _ eq_refl).
Qed.
Lemma built_keys fs r e z d : built (TShape fs r e z d) -> NoDup (map fkey fs).
Proof.
  intros B. inversion B; subst. apply try_new_inl in H1 as [_ [Q SS]]. inversion Q; subst.
  apply sorted_keys_nodup. assumption.
Qed.

Lemma rest_free_union l : rest_free (TUnion l) <-> Forall rest_free l.
Proof.
  split.
  - intros H. apply Forall_forall. intros x I. eapply every_shape_part; [|exact H]. eapply Occ_union; [exact I|constructor].
  - intros H fs rest ex fr d O. inversion O; subst. rewrite Forall_forall in H. eapply H; eauto.
Qed.
Lemma rest_free_array l : rest_free (TArray l) <-> Forall rest_free l.
Proof.
  split.
  - intros H. apply Forall_forall. intros x I. eapply every_shape_part; [|exact H]. eapply Occ_array; [exact I|constructor].
  - intros H fs rest ex fr d O. inversion O; subst. rewrite Forall_forall in H. eapply H; eauto.
Qed.
Lemma rest_free_hash k v : rest_free (THash k v) <-> Forall rest_free k /\ Forall rest_free v.
Proof.
  split.
  - intros H. split; apply Forall_forall; intros x I; (eapply every_shape_part; [|exact H]).
    + eapply Occ_key; [exact I|constructor].
    + eapply Occ_value; [exact I|constructor].
  - intros [H1 H2] fs rest ex fr d O. rewrite Forall_forall in H1, H2. inversion O; subst.
    + eapply H1; eauto. + eapply H2; eauto.
Qed.
Lemma rest_free_shape fs rest ex fr d : rest_free (TShape fs rest ex fr d) <->
  rest = None /\ Forall (fun f => rest_free (fval f)) fs.
Proof.
  split.
  - intros H. split; [eapply H; constructor|]. apply Forall_forall. intros f I.
    eapply every_shape_part; [|exact H]. eapply Occ_field; [exact I|constructor].
  - intros [-> H] fs' rest' ex' fr' d' O. rewrite Forall_forall in H. inversion O; subst; [reflexivity|].
    eapply H; eauto.
Qed.
Lemma rest_free_unknown : rest_free TUnknown.
Proof. intros fs rest ex fr d O. inversion O. Qed.
Lemma rest_free_widened l : rest_free (widened l).
Proof. intros fs rest ex fr d O. destruct l; inversion O. Qed.
Lemma rest_free_members l : Forall rest_free l -> Forall rest_free (canonical_members l).
Proof. apply canonical_members_pres; [apply rest_free_unknown|]. intros k. apply rest_free_union. Qed.
Lemma Forall2_rest_free l l' : Forall2 (fun x y => widen x = Some y) l l' ->
  Forall (fun t => forall t', rest_free t -> widen t = Some t' -> rest_free t') l -> Forall rest_free l -> Forall rest_free l'.
Proof.
  intros F H R. apply Forall_forall. intros y Y. destruct (Forall2_in_r _ _ _ _ F Y) as [x [X W]].
  rewrite Forall_forall in H, R. eauto.
Qed.
Lemma widen_rest_free : forall t t', rest_free t -> widen t = Some t' -> rest_free t'.
Proof.
  induction t as [f|f|f|f|l|l H|k w H H0|fs rest ex fr d H H0|l H|] using ty_ind'; intros t' R W; cbn [widen] in W;
    try (injection W as <-; exact R).
  - injection W as <-. apply rest_free_widened.
  - destruct (seqo (map widen l)) as [l'|] eqn:E; [|discriminate]. apply seqo_map in E.
    assert (t' = TArray (canonical_members l')) as -> by (cbn in W; congruence).
    apply rest_free_array. apply rest_free_members. eapply Forall2_rest_free; eauto. apply rest_free_array, R.
  - destruct (seqo (map widen k)) as [k'|] eqn:E; [|discriminate]. apply seqo_map in E.
    destruct (seqo (map widen w)) as [w'|] eqn:E2; [|discriminate]. apply seqo_map in E2.
    assert (t' = THash (canonical_members k') (canonical_members w')) as -> by congruence.
    apply rest_free_hash in R as [R1 R2].
    apply rest_free_hash. split; apply rest_free_members; eapply Forall2_rest_free; eauto.
  - apply (widen_shape fs rest ex fr d t') in W as [fs' [rest' [F [RR T]]]].
    apply try_new_inl in T as [_ [-> _]]. apply rest_free_shape in R as [-> R].
    destruct rest'; [contradiction|]. apply rest_free_shape. split; [reflexivity|].
    apply Forall_forall. intros f' I. apply (Permutation_in _ (Permutation_sym (fsort_perm fs'))) in I.
    destruct (Forall2_in_r _ _ _ _ F I) as [f [J [_ [_ W]]]]. rewrite Forall_forall in H, R. eapply H; eauto.
  - destruct (seqo (map widen l)) as [l'|] eqn:E; [|discriminate]. apply seqo_map in E.
    assert (t' = union l') as -> by (cbn in W; congruence).
    apply union_pres; [apply rest_free_unknown|intros k; apply rest_free_union|intros k; apply rest_free_union|].
    eapply Forall2_rest_free; eauto. apply rest_free_union, R.
Qed.
Lemma generic_hash_rest_free fs rest ex fr d h : rest_free (TShape fs rest ex fr d) ->
  generic_hash fs rest ex = Some h -> rest_free h.
Proof.
  intros R. apply rest_free_shape in R as [-> R]. unfold generic_hash. cbv zeta.
  destruct (seqo _) as [vals|] eqn:E; [|discriminate]. apply seqo_map in E.
  assert (K : Forall rest_free (map (fun f => widened (fkey f)) fs)).
  { apply Forall_forall. intros x I. apply in_map_iff in I as [f [<- _]]. apply rest_free_widened. }
  assert (V : Forall rest_free vals).
  { apply Forall_forall. intros y Y. destruct (Forall2_in_r _ _ _ _ E Y) as [f [I W]].
    rewrite Forall_forall in R. eapply widen_rest_free; eauto. }
  destruct ex; intros Q.
  - assert (h = THash (canonical_members (map (fun f => widened (fkey f)) fs ++ [])) (canonical_members (vals ++ []))) as -> by congruence.
    rewrite !app_nil_r. apply rest_free_hash. split; apply rest_free_members; assumption.
  - assert (h = THash (canonical_members (map (fun f => widened (fkey f)) fs ++ [TUnknown])) (canonical_members (vals ++ [TUnknown]))) as -> by congruence.
    apply rest_free_hash. split; apply rest_free_members; apply Forall_app; auto using rest_free_unknown.
Qed.

(** *** Soundness *)
Definition safe_pair (a b : ty) : Prop := required_only b \/ exact_required_only b /\ rest_free a.
Lemma safe_part x y a b : occurs x a -> occurs y b -> safe_pair a b -> safe_pair x y.
Proof.
  intros A B [H|[H1 H2]]; [left|right; split]; eapply every_shape_part; eauto.
Qed.
Lemma safe_widened l y b : occurs y b -> (exists a, safe_pair a b) -> safe_pair (widened l) y.
Proof.
  intros O [a [H|[H _]]]; [left|right; split; [|apply rest_free_widened]]; eapply every_shape_part; eauto.
Qed.

Section Sound.
Variable named : meaning.
Hypothesis core : core_classes named.
Notation D := (den named).
Notation some := (described_by_some named).

Lemma litval_inj a b : litval a = litval b -> a = b.
Proof. destruct a, b; cbn; congruence. Qed.
Lemma key_or_not x (fs : list field) : (exists f, In f fs /\ x = litval (fkey f)) \/ (forall f, In f fs -> x <> litval (fkey f)).
Proof.
  induction fs as [|f fs IH]; [right; intros f []|].
  destruct IH as [[g [G1 G2]]|N]; [left; exists g; split; [right|]; assumption|].
  assert (DL : {x = litval (fkey f)} + {x <> litval (fkey f)}).
  { destruct (fkey f) as [n|n], x as [m|m|m|m|m]; cbn; try (right; discriminate);
      destruct (Nat.eq_dec m n); [left|right|left|right]; congruence. }
  destruct DL as [L|L]; [left; exists f; split; [left; reflexivity|assumption]|].
  right. intros g [<-|G]; auto.
Qed.
Lemma all_any_sound r l k v : (forall x y w, In x l -> In y k -> r x y = Some true -> D x w -> D y w) ->
  all_o (fun e => any_o (fun e' => r e e') k) l = Some true -> some l v -> some k v.
Proof.
  intros H A [t [I B]]. rewrite all_o_true in A. specialize (A t I). apply any_o_true in A as [u [J E]].
  exists u. split; [exact J|]. eapply H; eauto.
Qed.
Lemma sub_sound : forall n a b v, built b -> safe_pair a b -> sub n a b = Some true -> D a v -> D b v.
Proof.
  induction n as [|n IH]; intros a b v BB SP; [discriminate|]. cbn [sub]. unfold sub_body.
  destruct (is_unknown a) eqn:U. { intros E _. destruct b; try discriminate. exact Logic.I. }
  destruct (eqb a b) eqn:EQ. { intros _ DA. apply eqb_eq in EQ. subst. exact DA. }
  assert (UA : forall l, a = TUnion l -> all_o (fun t => sub n t b) l = Some true -> D a v -> D b v).
  { intros l -> A DA. apply den_union in DA as [t [I DT]]. rewrite all_o_true in A.
    eapply (IH t); eauto. eapply safe_part; [eapply Occ_union; [exact I|constructor]|constructor|exact SP]. }
  assert (UB : forall l, b = TUnion l -> any_o (fun t => sub n a t) l = Some true -> D a v -> D b v).
  { intros l -> A DA. apply any_o_true in A as [t [I A]]. apply den_union. exists t. split; [exact I|].
    eapply (IH a); eauto.
    - eapply built_part; [eapply Occ_union; [exact I|constructor]|exact BB].
    - eapply safe_part; [constructor|eapply Occ_union; [exact I|constructor]|exact SP]. }
  destruct a as [fa|fa|fa|fa|la|la|ka va|fsa ra ea za da|la|]; try discriminate;
    try (intros A DA; apply (UA la eq_refl A DA));
    destruct b as [fb|fb|fb|fb|lb|lb|kb vb|fsb rb eb zb db|lb|]; try discriminate;
    try (intros A DA; apply (UB lb eq_refl A DA));
    try (intros A DA; cbn in DA; subst v; eapply (IH (widened la)); eauto;
         [eapply safe_widened; [constructor|eauto]|apply den_widened; exact core]).
  - intros A DA. apply den_array in DA as [vs [-> DA]]. apply den_array. exists vs. split; [reflexivity|].
    intros x X. eapply all_any_sound; [|exact A|apply DA, X].
    intros e e' w I J E. apply IH; auto.
    + eapply built_part; [eapply Occ_array; [exact J|constructor]|exact BB].
    + eapply safe_part; [eapply Occ_array; [exact I|constructor]|eapply Occ_array; [exact J|constructor]|exact SP].
  - intros A DA. apply and_o_true in A as [A1 A2]. apply den_hash in DA as [es [-> DA]].
    apply den_hash. exists es. split; [reflexivity|]. intros x y X. destruct (DA x y X) as [D1 D2]. split.
    + eapply all_any_sound; [|exact A1|exact D1]. intros e e' w I J E. apply IH; auto.
      * eapply built_part; [eapply Occ_key; [exact J|constructor]|exact BB].
      * eapply safe_part; [eapply Occ_key; [exact I|constructor]|eapply Occ_key; [exact J|constructor]|exact SP].
    + eapply all_any_sound; [|exact A2|exact D2]. intros e e' w I J E. apply IH; auto.
      * eapply built_part; [eapply Occ_value; [exact J|constructor]|exact BB].
      * eapply safe_part; [eapply Occ_value; [exact I|constructor]|eapply Occ_value; [exact J|constructor]|exact SP].
  - intros A DA. destruct (generic_hash fsa ra ea) as [h|] eqn:G; [|discriminate].
    eapply (IH h); [exact BB| |exact A|eapply generic_hash_larger; eauto].
    destruct SP as [SP|[S1 S2]]; [left; exact SP|right; split; [exact S1|]]. eapply generic_hash_rest_free; eauto.
  - intros A DA. apply den_shape in DA as [es [-> [A1 [A2 A3]]]]. apply den_shape. exists es. split; [reflexivity|].
    unfold shape_sub in A. apply and_o_true in A as [F R]. rewrite all_o_true in F.
    assert (BF : forall f', In f' fsb -> built (fval f')).
    { intros f' J. eapply built_part; [eapply Occ_field; [exact J|constructor]|exact BB]. }
    assert (SF : forall f f', In f fsa -> In f' fsb -> safe_pair (fval f) (fval f')).
    { intros f f' I J. eapply safe_part; [eapply Occ_field; [exact I|constructor]|eapply Occ_field; [exact J|constructor]|exact SP]. }
    assert (OPT : forall f', In f' fsb -> freq f' = false -> ra = None).
    { intros f' J Q. destruct SP as [SP|[_ SP]].
      - rewrite (SP _ _ _ _ _ (Occ_self _) f' J) in Q. discriminate.
      - apply (SP _ _ _ _ _ (Occ_self _)). }
    split; [|split].
    + intros f' J Q. specialize (F f' J). destruct (lookup (fkey f') fsa) as [f|] eqn:L; rewrite Q in F; [|discriminate].
      apply and_o_true in F as [F1 _]. apply lookup_some in L as [I K]. rewrite <- K. apply A1; [exact I|congruence].
    + intros x y f' X J K. specialize (F f' J). destruct (lookup (fkey f') fsa) as [f|] eqn:L.
      * apply lookup_some in L as [I KK].
        assert (E : sub n (fval f) (fval f') = Some true).
        { destruct (freq f'); [apply and_o_true in F as [_ F]|]; exact F. }
        eapply (IH (fval f)); [apply BF, J|apply SF; assumption|exact E|]. eapply A2; [exact X|exact I|congruence].
      * exfalso. destruct (freq f') eqn:Q; [discriminate|]. rewrite (OPT f' J Q) in *.
        assert (ea = true) by congruence. subst ea.
        assert (false = true); [|discriminate]. symmetry. apply (A3 x y X). intros f I KK.
        apply (lookup_none _ _ L f I). apply litval_inj. congruence.
    + intros x y X N. destruct eb.
      * exfalso. injection R as R. apply andb_true_iff in R as [R LEN]. apply andb_true_iff in R as [R1 R2].
        apply Nat.eqb_eq in LEN. destruct ra; [discriminate|]. rewrite R1 in *.
        assert (REQ : forall f', In f' fsb -> freq f' = true).
        { destruct SP as [SP|[SP _]]; [apply (SP _ _ _ _ _ (Occ_self _))|apply (SP _ _ _ _ _ (Occ_self _) eq_refl)]. }
        assert (INC : incl (map fkey fsb) (map fkey fsa)).
        { intros k I. apply in_map_iff in I as [f' [<- J]]. specialize (F f' J). rewrite (REQ f' J) in F.
          destruct (lookup (fkey f') fsa) as [f|] eqn:L; [|discriminate]. apply lookup_has. eauto. }
        assert (INC' : incl (map fkey fsa) (map fkey fsb)).
        { apply NoDup_length_incl; [eapply built_keys; eauto|rewrite !map_length; unfold field in *; lia|exact INC]. }
        assert (true = false); [|discriminate]. apply (A3 x y X). intros f I K.
        assert (In (fkey f) (map fkey fsb)) as J by (apply INC', in_map, I).
        apply in_map_iff in J as [f' [KK J]]. apply (N f' J). congruence.
      * destruct rb as [[rk' rv']|]; [|reflexivity]. apply and_o_true in R as [R1 R2]. rewrite all_o_true in R1.
        assert (OK : occurs rk' (TShape fsb (Some (rk', rv')) false zb db)) by (apply Occ_rest_key; constructor).
        assert (OV : occurs rv' (TShape fsb (Some (rk', rv')) false zb db)) by (apply Occ_rest_value; constructor).
        pose proof (built_part _ _ OK BB) as BK. pose proof (built_part _ _ OV BB) as BV.
        destruct (key_or_not x fsa) as [[f [I K]]|NK].
        -- assert (L : lookup (fkey f) fsb = None).
           { destruct (lookup (fkey f) fsb) as [f'|] eqn:L; [|reflexivity]. apply lookup_some in L as [J KK].
             exfalso. apply (N f' J). congruence. }
           assert (IN : In f (filter (fun f => match lookup (fkey f) fsb with None => true | Some _ => false end) fsa)).
           { apply filter_In. rewrite L. auto. }
           specialize (R1 f IN). apply and_o_true in R1 as [E1 E2]. split.
           ++ eapply (IH (widened (fkey f))); [exact BK|eapply safe_widened; eauto|exact E1|].
              rewrite K. apply den_widened, core.
           ++ eapply (IH (fval f)); [exact BV| |exact E2|eapply A2; eauto].
              eapply safe_part; [eapply Occ_field; [exact I|constructor]|exact OV|exact SP].
        -- specialize (A3 x y X NK). destruct ra as [[rk rv]|]; [|congruence].
           apply and_o_true in R2 as [E1 E2]. destruct A3 as [D1 D2]. split.
           ++ eapply (IH rk); [exact BK| |exact E1|exact D1].
              eapply safe_part; [apply Occ_rest_key; constructor|exact OK|exact SP].
           ++ eapply (IH rv); [exact BV| |exact E2|exact D2].
              eapply safe_part; [apply Occ_rest_value; constructor|exact OV|exact SP].
Qed.
End Sound.

(** *** Reflexivity and transitivity *)
Lemma is_subtype_refl a : is_subtype a a = Some true.
Proof.
  rewrite is_subtype_unfold. unfold sub_body. destruct (is_unknown a) eqn:U.
  - reflexivity.
  - rewrite eqb_refl. reflexivity.
Qed.
Lemma free_part x t : occurs x t -> shape_free t -> shape_free x.
Proof. apply every_shape_part. Qed.
Lemma free_widened l : shape_free (widened l).
Proof. intros fs rest ex fr d O. destruct l; inversion O. Qed.
Ltac occ := first [constructor | eapply Occ_union; [eassumption|constructor] | eapply Occ_array; [eassumption|constructor]
  | eapply Occ_key; [eassumption|constructor] | eapply Occ_value; [eassumption|constructor]].
Lemma free_total : forall n a b, measure a b < n -> shape_free a -> shape_free b -> is_subtype a b <> None.
Proof.
  induction n as [|n IH]; intros a b M FA FB; [lia|]. rewrite is_subtype_unfold. unfold sub_body.
  destruct (is_unknown a) eqn:U; [discriminate|]. destruct (eqb a b); [discriminate|].
  assert (R : forall x y, occurs x a -> occurs y b -> measure x y < measure a b -> is_subtype x y <> None).
  { intros x y O1 O2 L. apply IH; [lia|eapply free_part; eauto|eapply free_part; eauto]. }
  assert (UB : forall l, b = TUnion l -> any_o (fun t => is_subtype a t) l <> None).
  { intros l ->. apply any_o_total. intros x I. apply R; [constructor|occ|].
    apply in_union_height in I. unfold measure. lia. }
  destruct a as [fa|fa|fa|fa|la|la|ka va|fsa ra ea za da|la|]; try discriminate;
    destruct b as [fb|fb|fb|fb|lb|lb|kb vb|fsb rb eb zb db|lb|]; try discriminate;
    try (apply UB; reflexivity);
    try (apply all_o_total; intros x I; apply R; [occ|constructor|apply in_union_height in I; apply measure_lt; lia]);
    try (apply IH; [|apply free_widened|exact FB]; unfold measure in *; rewrite widened_height; destruct la; cbn [pays widened height] in *; cbn in *; lia);
    try (exfalso; exact (FA _ _ _ _ _ (Occ_self _))).
  - apply all_o_total. intros x I. apply any_o_total. intros y J. apply R; [occ|occ|]. apply measure_lt.
    apply in_array_height in I. apply in_array_height in J. lia.
  - apply and_o_total; apply all_o_total; intros x I; apply any_o_total; intros y J; (apply R; [occ|occ|]; apply measure_lt).
    + apply (in_key_height x ka va) in I. apply (in_key_height y kb vb) in J. lia.
    + apply (in_value_height x ka va) in I. apply (in_value_height y kb vb) in J. lia.
Qed.
Lemma free_in_union x l : shape_free (TUnion l) -> In x l -> shape_free x.
Proof. intros F I. apply (free_part x (TUnion l)); [occ|exact F]. Qed.
Lemma free_in_array x l : shape_free (TArray l) -> In x l -> shape_free x.
Proof. intros F I. apply (free_part x (TArray l)); [occ|exact F]. Qed.
Lemma free_in_key x k v : shape_free (THash k v) -> In x k -> shape_free x.
Proof. intros F I. apply (free_part x (THash k v)); [occ|exact F]. Qed.
Lemma free_in_value x k v : shape_free (THash k v) -> In x v -> shape_free x.
Proof. intros F I. apply (free_part x (THash k v)); [|exact F]. eapply Occ_value; [exact I|constructor]. Qed.
Lemma total_free a b : shape_free a -> shape_free b -> is_subtype a b <> None.
Proof. apply free_total with (n := S (measure a b)). lia. Qed.

Lemma all_any_trans (l k m : list ty) :
  (forall x y z, In x l -> In y k -> In z m -> is_subtype x y = Some true -> is_subtype y z = Some true -> is_subtype x z = Some true) ->
  (forall x z, In x l -> In z m -> is_subtype x z <> None) ->
  all_o (fun e => any_o (fun e' => is_subtype e e') k) l = Some true ->
  all_o (fun e => any_o (fun e' => is_subtype e e') m) k = Some true ->
  all_o (fun e => any_o (fun e' => is_subtype e e') m) l = Some true.
Proof.
  intros H T A B. rewrite all_o_true in *. intros x X.
  destruct (any_o_true _ _ (A x X)) as [y [Y E1]]. destruct (any_o_true _ _ (B y Y)) as [z [Z E2]].
  apply any_o_intro; [intros z' Z'; apply T; assumption|]. exists z. eauto.
Qed.
Lemma sub_trans : forall N a b c, height a + height b + height c < N ->
  shape_free a -> shape_free b -> shape_free c ->
  is_subtype a b = Some true -> is_subtype b c = Some true -> is_subtype a c = Some true.
Proof.
  induction N as [|N IH]; intros a b c L FA FB FC H1 H2; [lia|].
  destruct (ty_dec a b) as [->|NAB]; [exact H2|]. destruct (ty_dec b c) as [->|NBC]; [exact H1|].
  destruct (ty_dec a c) as [->|NAC]; [apply is_subtype_refl|].
  pose proof H1 as H1u. pose proof H2 as H2u. rewrite is_subtype_unfold in H1u, H2u.
  unfold sub_body in H1u, H2u.
  apply eqb_neq in NAB. apply eqb_neq in NBC. apply eqb_neq in NAC. rewrite NAB in H1u. rewrite NBC in H2u.
  destruct (is_unknown a) eqn:UA.
  { destruct a; try discriminate. destruct b; try discriminate. }
  destruct (is_unknown b) eqn:UB.
  { destruct b; try discriminate. destruct c; discriminate. }
  rewrite is_subtype_unfold. unfold sub_body. rewrite UA, NAC.
  destruct (is_union a) eqn:QA.
  { destruct a as [ | | | | | | | |la| ]; try discriminate. rewrite all_o_true in *. intros t I.
    pose proof (in_union_height t la I). eapply (IH t b c); eauto; [lia|]. eauto using free_in_union, free_in_array, free_in_key, free_in_value. }
  assert (R1 : forall X (y : X) z, match a with TUnion l => y | _ => z end = z).
  { intros. destruct a; try reflexivity. discriminate. }
  destruct (is_union b) eqn:QB.
  { destruct b as [ | | | | | | | |lb| ]; try discriminate.
    assert (H1' : any_o (fun t => is_subtype a t) lb = Some true) by (destruct a; try discriminate; exact H1u).
    apply any_o_true in H1' as [t [I E]]. rewrite all_o_true in H2u. specialize (H2u t I).
    pose proof (in_union_height t lb I).
    assert (is_subtype a c = Some true) as G.
    { eapply (IH a t c); eauto; [lia|]. eauto using free_in_union, free_in_array, free_in_key, free_in_value. }
    rewrite is_subtype_unfold in G. unfold sub_body in G. rewrite UA, NAC in G. exact G. }
  destruct (is_union c) eqn:QC.
  { destruct c as [ | | | | | | | |lc| ]; try discriminate.
    assert (H2' : any_o (fun t => is_subtype b t) lc = Some true) by (destruct b; try discriminate; exact H2u).
    apply any_o_true in H2' as [t [I E]].
    assert (G : any_o (fun t => is_subtype a t) lc = Some true).
    { apply any_o_intro.
      - intros x X. apply total_free; [exact FA|eauto using free_in_union, free_in_array, free_in_key, free_in_value].
      - exists t. split; [exact I|]. pose proof (in_union_height t lc I). eapply (IH a b t); eauto; [lia|].
        eauto using free_in_union, free_in_array, free_in_key, free_in_value. }
    destruct a; try discriminate; exact G. }
  destruct a as [fa|fa|fa|fa|la|la|ka va|fsa ra ea za da|la|]; try discriminate;
    try (exfalso; exact (FA _ _ _ _ _ (Occ_self _)));
    destruct b as [fb|fb|fb|fb|lb|lb|kb vb|fsb rb eb zb db|lb|]; try discriminate;
    try (exfalso; exact (FB _ _ _ _ _ (Occ_self _)));
    destruct c as [fc|fc|fc|fc|lc|lc|kc vc|fsc rc ec zc dc|lc|]; try discriminate;
    try (exfalso; exact (FC _ _ _ _ _ (Occ_self _)));
    try (rewrite is_subtype_unfold in H1u; unfold sub_body in H1u; destruct la; discriminate).
  - eapply all_any_trans; [| |exact H1u|exact H2u].
    + intros x y z X Y Z. apply IH.
      * apply in_array_height in X. apply in_array_height in Y. apply in_array_height in Z. lia.
      * eauto using free_in_union, free_in_array, free_in_key, free_in_value. * eauto using free_in_union, free_in_array, free_in_key, free_in_value. * eauto using free_in_union, free_in_array, free_in_key, free_in_value.
    + intros x z X Z. apply total_free; [eauto using free_in_union, free_in_array, free_in_key, free_in_value|eauto using free_in_union, free_in_array, free_in_key, free_in_value].
  - apply and_o_true in H1u as [K1 V1]. apply and_o_true in H2u as [K2 V2]. apply and_o_true. split.
    + eapply all_any_trans; [| |exact K1|exact K2].
      * intros x y z X Y Z. apply IH.
        -- apply (in_key_height x ka va) in X. apply (in_key_height y kb vb) in Y. apply (in_key_height z kc vc) in Z. lia.
        -- eauto using free_in_union, free_in_array, free_in_key, free_in_value. -- eauto using free_in_union, free_in_array, free_in_key, free_in_value. -- eauto using free_in_union, free_in_array, free_in_key, free_in_value.
      * intros x z X Z. apply total_free; [eauto using free_in_union, free_in_array, free_in_key, free_in_value|eauto using free_in_union, free_in_array, free_in_key, free_in_value].
    + eapply all_any_trans; [| |exact V1|exact V2].
      * intros x y z X Y Z. apply IH.
        -- apply (in_value_height x ka va) in X. apply (in_value_height y kb vb) in Y. apply (in_value_height z kc vc) in Z. lia.
        -- eauto using free_in_union, free_in_array, free_in_key, free_in_value.
        -- eauto using free_in_union, free_in_array, free_in_key, free_in_value.
        -- eauto using free_in_union, free_in_array, free_in_key, free_in_value.
      * intros x z X Z. apply total_free;
          [eauto using free_in_union, free_in_array, free_in_key, free_in_value|eauto using free_in_union, free_in_array, free_in_key, free_in_value].
Qed.
