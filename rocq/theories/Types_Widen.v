(** Widening: it only enlarges types, never grows them, and is total on well-formed types. *)
From Coq Require Import List Arith Bool Lia Sorted Permutation.
From Verif Require Import Lib Types_Model Types_Spec Types_Order Types_Union Types_Shape.
Import ListNotations.

Lemma seqo_map {A B} (f : A -> option B) : forall l l', seqo (map f l) = Some l' ->
  Forall2 (fun x y => f x = Some y) l l'.
Proof.
  induction l as [|x l IH]; cbn; intros l' E.
  - assert (l' = []) by congruence. subst. constructor.
  - destruct (f x) as [y|] eqn:F; [|discriminate]. destruct (seqo (map f l)) as [r|] eqn:S1; [|discriminate].
    cbn in E. assert (l' = y :: r) by congruence. subst. constructor; auto.
Qed.
Lemma seqo_total {A B} (f : A -> option B) l : (forall x, In x l -> exists y, f x = Some y) ->
  exists l', seqo (map f l) = Some l'.
Proof.
  induction l as [|x l IH]; cbn; intros H; [eauto|].
  destruct (H x (or_introl eq_refl)) as [y ->]. destruct IH as [r ->]; [auto|]. cbn. eauto.
Qed.
Lemma Forall2_in_l {A B} (R : A -> B -> Prop) l l' x : Forall2 R l l' -> In x l -> exists y, In y l' /\ R x y.
Proof.
  induction 1 as [|a b l l' P F IH]; cbn; [tauto|]. intros [->|I]; [exists b; auto|].
  destruct (IH I) as [y [Y1 Y2]]. exists y. auto.
Qed.
Lemma Forall2_in_r {A B} (R : A -> B -> Prop) l l' y : Forall2 R l l' -> In y l' -> exists x, In x l /\ R x y.
Proof.
  induction 1 as [|a b l l' P F IH]; cbn; [tauto|]. intros [->|I]; [exists a; auto|].
  destruct (IH I) as [x [X1 X2]]. exists x. auto.
Qed.

(** [widen] on a shape, field by field *)
Definition widen_field (f f' : field) : Prop :=
  fkey f' = fkey f /\ freq f' = freq f /\ widen (fval f) = Some (fval f').
Lemma widen_shape fs rest ex fr d t : widen (TShape fs rest ex fr d) = Some t ->
  exists fs' rest', Forall2 widen_field fs fs' /\
    match rest, rest' with
    | None, None => True
    | Some (a, b), Some (a', b') => widen a = Some a' /\ widen b = Some b'
    | _, _ => False
    end /\ try_new fs' rest' ex fr = inl t.
Proof.
  cbn [widen].
  destruct (seqo _) as [fs'|] eqn:E1; [|discriminate].
  destruct (match rest with None => _ | Some _ => _ end) as [rest'|] eqn:E2; [|discriminate].
  destruct (try_new fs' rest' ex fr) as [t'|] eqn:E3; [|discriminate].
  intros E. assert (t' = t) by congruence. subst t'. exists fs', rest'. split; [|split; [|assumption]].
  - apply seqo_map in E1. clear -E1. induction E1 as [|[[k v] r] y l l' P F IH]; constructor; auto.
    cbn in P. destruct (widen v) as [v'|] eqn:W; [|discriminate]. cbn in P.
    assert (y = (k, v', r)) by congruence. subst. repeat split. exact W.
  - destruct rest as [[a b]|].
    + destruct (widen a) as [a'|]; [|discriminate]. destruct (widen b) as [b'|]; [|discriminate].
      destruct rest' as [[x y]|]; [|discriminate]. split; congruence.
    + destruct rest'; [discriminate|trivial].
Qed.

Section Den.
Variable named : meaning.
Notation D := (den named).
Notation some := (described_by_some named).

Lemma ors_some l v : ors (map D l) v <-> some l v.
Proof. exact (den_union named l v). Qed.
Lemma den_array l v : D (TArray l) v <-> exists vs, v = VArr vs /\ forall x, In x vs -> some l x.
Proof.
  cbn [den]. split; intros [vs [E H]]; exists vs; (split; [exact E|]); intros x X; apply ors_some; auto.
Qed.
Lemma den_hash k w v : D (THash k w) v <->
  exists es, v = VHash es /\ forall x y, In (x, y) es -> some k x /\ some w y.
Proof.
  cbn [den]. split; intros [es [E H]]; exists es; (split; [exact E|]); intros x y I; destruct (H x y I);
    split; apply ors_some; assumption.
Qed.
Definition shape_den (fs : list field) (rest : option (ty * ty)) (ex : bool) (es : list (val * val)) : Prop :=
  (forall f, In f fs -> freq f = true -> exists y, In (litval (fkey f), y) es) /\
  (forall x y f, In (x, y) es -> In f fs -> x = litval (fkey f) -> D (fval f) y) /\
  (forall x y, In (x, y) es -> (forall f, In f fs -> x <> litval (fkey f)) ->
     match rest with Some (a, b) => D a x /\ D b y | None => ex = false end).
Lemma den_shape fs rest ex fr d v :
  D (TShape fs rest ex fr d) v <-> exists es, v = VHash es /\ shape_den fs rest ex es.
Proof.
  cbn [den]. split; intros [es [E [H1 [H2 H3]]]]; exists es; (split; [exact E|]); (split; [|split]).
  - intros f I R. apply H1. apply in_map_iff. exists (fkey f, true). split; [reflexivity|].
    apply filter_In. split; [|reflexivity]. apply in_map_iff. exists f. split; [|assumption].
    destruct f as [[k t] r]. cbn in *. subst. reflexivity.
  - intros x y f I J Q. apply (H2 x y I (fkey f) (D (fval f))); [|exact Q].
    apply in_map_iff. exists f. split; [|assumption]. destruct f as [[k t] r]. reflexivity.
  - intros x y I N. apply H3; [exact I|]. intros J. apply in_map_iff in J as [[[k t] r] [Q J]].
    apply (N _ J). symmetry. exact Q.
  - intros k I. apply in_map_iff in I as [[k' r] [Q I]]. cbn in Q. subst k'.
    apply filter_In in I as [I R]. cbn in R. subst r.
    apply in_map_iff in I as [[[k' t] r] [Q I]]. inversion Q; subst. apply (H1 _ I). reflexivity.
  - intros x y I k P J Q. apply in_map_iff in J as [[[k' t] r] [QQ J]].
    assert (k' = k) by congruence. assert (P = D t) by congruence. subst. apply (H2 _ y (k, t, r) I J). reflexivity.
  - intros x y I N. apply (H3 x y I). intros f J Q. apply N. apply in_map_iff. exists f. split; [|assumption].
    destruct f as [[k t] r]. symmetry. exact Q.
Qed.
(** the order of the fields does not matter *)
Lemma shape_den_incl fs fs' rest ex es : (forall f, In f fs <-> In f fs') ->
  shape_den fs rest ex es -> shape_den fs' rest ex es.
Proof.
  intros E [H1 [H2 H3]]. split; [|split].
  - intros f I. apply H1, E, I.
  - intros x y f I J. apply H2; [exact I|apply E, J].
  - intros x y I N. apply H3; [exact I|]. intros f J. apply N, E, J.
Qed.
Lemma shape_den_sort fs rest ex es : shape_den fs rest ex es -> shape_den (fsort fs) rest ex es.
Proof.
  apply shape_den_incl. intros f. split; intros I.
  - eapply Permutation_in; [apply fsort_perm|exact I].
  - eapply Permutation_in; [apply Permutation_sym, fsort_perm|exact I].
Qed.

Hypothesis core : core_classes named.
Lemma den_widened l : D (widened l) (litval l).
Proof. destruct core as [A B]. destruct l; cbn; auto. Qed.

Lemma some_mono l l' v : Forall2 (fun x y => widen x = Some y) l l' ->
  Forall (fun t => forall t' v, widen t = Some t' -> D t v -> D t' v) l ->
  some l v -> some l' v.
Proof.
  intros F H [t [I B]]. destruct (Forall2_in_l _ _ _ _ F I) as [y [Y W]].
  rewrite Forall_forall in H. exists y. split; [exact Y|]. eapply H; eauto.
Qed.
Lemma widen_larger : forall t t' v, widen t = Some t' -> D t v -> D t' v.
Proof.
  induction t as [f|f|f|f|l|l H|k w H H0|fs rest ex fr d H H0|l H|] using ty_ind'; intros t' v0 W DV; cbn [widen] in W;
    try (injection W as <-; exact DV).
  - assert (t' = widened l) as -> by congruence. cbn in DV. subst. apply den_widened.
  - destruct (seqo (map widen l)) as [l'|] eqn:E; [|discriminate]. apply seqo_map in E. cbn in W.
    assert (t' = TArray (canonical_members l')) as -> by congruence.
    apply den_array in DV as [vs [-> A]]. apply den_array. exists vs. split; [reflexivity|].
    intros x X. apply canonical_members_complete. eapply some_mono; eauto.
  - destruct (seqo (map widen k)) as [k'|] eqn:E; [|discriminate]. apply seqo_map in E.
    destruct (seqo (map widen w)) as [w'|] eqn:E2; [|discriminate]. apply seqo_map in E2.
    assert (t' = THash (canonical_members k') (canonical_members w')) as -> by congruence.
    apply den_hash in DV as [es [-> A]]. apply den_hash. exists es. split; [reflexivity|].
    intros x y I. destruct (A x y I). split; apply canonical_members_complete; eapply some_mono; eauto.
  - apply (widen_shape fs rest ex fr d t') in W as [fs' [rest' [F [R T]]]].
    apply try_new_inl in T as [_ [-> _]].
    apply den_shape in DV as [es [-> [A1 [A2 A3]]]]. apply den_shape. exists es. split; [reflexivity|].
    apply shape_den_sort. rewrite Forall_forall in H. split; [|split].
    + intros f' I' R'. destruct (Forall2_in_r _ _ _ _ F I') as [f [I [K [Q _]]]]. rewrite K. apply A1; congruence.
    + intros x y f' I I' K'. destruct (Forall2_in_r _ _ _ _ F I') as [f [J [K [Q W]]]].
      eapply (H f J); [exact W|]. eapply A2; [exact I|exact J|congruence].
    + intros x y I N. specialize (A3 x y I).
      assert (N' : forall f, In f fs -> x <> litval (fkey f)).
      { intros f J. destruct (Forall2_in_l _ _ _ _ F J) as [f' [J' [K _]]]. rewrite <- K. auto. }
      specialize (A3 N'). destruct rest as [[a b]|], rest' as [[a' b']|]; try contradiction; auto.
      destruct (H0 a b eq_refl) as [Ha Hb]. destruct R as [Ra Rb], A3. eauto.
  - destruct (seqo (map widen l)) as [l'|] eqn:E; [|discriminate]. apply seqo_map in E. cbn in W.
    assert (t' = union l') as -> by congruence. apply den_union in DV. apply union_complete.
    eapply some_mono; eauto.
Qed.
Lemma generic_hash_larger fs rest ex fr d h v : generic_hash fs rest ex = Some h ->
  D (TShape fs rest ex fr d) v -> D h v.
Proof.
  unfold generic_hash. cbv zeta.
  destruct (seqo _) as [vals|] eqn:E; [|discriminate]. apply seqo_map in E.
  destruct (match rest with None => _ | Some _ => _ end) as [[ks vs]|] eqn:R; [|discriminate].
  intros Q. assert (h = THash (canonical_members (map (fun f => widened (fkey f)) fs ++ ks)) (canonical_members (vals ++ vs))) as -> by congruence.
  intros DV. apply den_shape in DV as [es [-> [A1 [A2 A3]]]]. apply den_hash. exists es. split; [reflexivity|].
  intros x y I.
  assert (C : (exists f, In f fs /\ x = litval (fkey f)) \/ (forall f, In f fs -> x <> litval (fkey f))).
  { clear -x. induction fs as [|f fs IH]; [right; intros f []|].
    destruct IH as [[g [G1 G2]]|N]; [left; exists g; split; [right|]; assumption|].
    assert (DL : {x = litval (fkey f)} + {x <> litval (fkey f)}).
    { destruct (fkey f) as [n|n], x as [m|m|m|m|m]; cbn; try (right; discriminate);
        destruct (Nat.eq_dec m n); [left|right|left|right]; congruence. }
    destruct DL as [L|L]; [left; exists f; split; [left; reflexivity|assumption]|].
    right. intros g [<-|G]; auto. }
  destruct C as [[f [J K]]|N].
  - split; apply canonical_members_complete; apply some_app; left.
    + exists (widened (fkey f)). split; [apply in_map_iff; eauto|]. rewrite K. apply den_widened.
    + destruct (Forall2_in_l _ _ _ _ E J) as [t' [T W]]. exists t'. split; [exact T|].
      eapply widen_larger; [exact W|]. eapply A2; eauto.
  - specialize (A3 x y I N). split; apply canonical_members_complete; apply some_app; right;
      destruct rest as [[a b]|].
    + destruct (widen a) as [a'|] eqn:Wa; [|discriminate]. destruct (widen b) as [b'|]; [|discriminate].
      assert (ks = [a']) by congruence. subst. exists a'. split; [left; reflexivity|]. eapply widen_larger; [exact Wa|tauto].
    + rewrite A3 in R. assert (ks = [TUnknown]) by congruence. subst. exists TUnknown. split; [left; reflexivity|exact Logic.I].
    + destruct (widen a) as [a'|]; [|discriminate]. destruct (widen b) as [b'|] eqn:Wb; [|discriminate].
      assert (vs = [b']) by congruence. subst. exists b'. split; [left; reflexivity|]. eapply widen_larger; [exact Wb|tauto].
    + rewrite A3 in R. assert (vs = [TUnknown]) by congruence. subst. exists TUnknown. split; [left; reflexivity|exact Logic.I].
Qed.
End Den.

(** *** Heights *)
Lemma height_pos t : 1 <= height t.
Proof. destruct t; cbn; lia. Qed.
Lemma in_height x l : In x l -> height x <= maxl (map height l).
Proof. intros I. apply maxl_in, in_map, I. Qed.
Lemma members_of_flatten x l : In x (flatten l) -> height x <= maxl (map height l).
Proof.
  intros I. apply in_flatten in I as [t [A B]]. pose proof (in_height t l A). destruct t; subst; try assumption.
  cbn [height] in H. apply in_height in B. lia.
Qed.
(** a property that passes between a union and its members passes through canonical forms *)
Lemma flatten_pres (P : ty -> Prop) l : (forall k, P (TUnion k) -> Forall P k) -> Forall P l -> Forall P (flatten l).
Proof.
  intros U F. apply Forall_forall. intros x I. apply in_flatten in I as [t [A B]].
  rewrite Forall_forall in F. specialize (F t A). destruct t; subst; try assumption.
  apply U in F. rewrite Forall_forall in F. auto.
Qed.
Lemma union_members_pres (P : ty -> Prop) l : P TUnknown -> (forall k, P (TUnion k) -> Forall P k) ->
  Forall P l -> Forall P (members (union l)).
Proof.
  intros N U F. pose proof (flatten_pres P l U F) as FF.
  assert (FC : Forall P (canon (flatten l))).
  { apply Forall_forall. intros x I. rewrite in_canon in I. rewrite Forall_forall in FF. auto. }
  destruct (union_cases l); cbn; auto.
  - rewrite H0 in FC. inversion FC; subst. destruct x; cbn; auto.
  - rewrite <- H0. exact FC.
Qed.
Lemma canonical_members_pres (P : ty -> Prop) l : P TUnknown -> (forall k, P (TUnion k) -> Forall P k) ->
  Forall P l -> Forall P (canonical_members l).
Proof.
  intros N U F. destruct l as [|x [|y l]]; cbn [canonical_members].
  - auto.
  - destruct x; auto. apply union_members_pres; auto.
  - apply union_members_pres; auto.
Qed.
Lemma union_pres (P : ty -> Prop) l : P TUnknown -> (forall k, P (TUnion k) -> Forall P k) ->
  (forall k, Forall P k -> P (TUnion k)) -> Forall P l -> P (union l).
Proof.
  intros N U V F. pose proof (union_members_pres P l N U F) as M.
  destruct (union l); cbn in M; try (inversion M; assumption). auto.
Qed.

Lemma maxl_le_in n l : Forall (fun x => height x <= n) l -> maxl (map height l) <= n.
Proof.
  intros F. apply maxl_le. intros x I. apply in_map_iff in I as [t [<- I]]. rewrite Forall_forall in F. auto.
Qed.
Lemma heights_le l : Forall (fun x => height x <= maxl (map height l)) l.
Proof. apply Forall_forall. intros x. apply in_height. Qed.
Lemma canonical_members_height n l : 1 <= n -> Forall (fun x => height x <= n) l ->
  maxl (map height (canonical_members l)) <= n.
Proof.
  intros N F. apply maxl_le_in. apply canonical_members_pres; auto.
  intros k H. cbn [height] in H. eapply Forall_impl; [|apply heights_le]. cbn. intros x Q. lia.
Qed.
Lemma union_height n l : 1 <= n -> Forall (fun x => height x <= n) l -> height (union l) <= S n.
Proof.
  intros N F.
  assert (U : forall k, height (TUnion k) <= n -> Forall (fun x => height x <= n) k).
  { intros k H. cbn [height] in H. eapply Forall_impl; [|apply heights_le]. cbn. intros x Q. lia. }
  pose proof (union_members_pres (fun x => height x <= n) l N U F) as M.
  destruct (union l); cbn [members] in M; try (inversion M; lia).
  cbn [height]. apply maxl_le_in in M. lia.
Qed.
Lemma Forall2_height l l' n : Forall2 (fun x y => widen x = Some y) l l' ->
  Forall (fun t => forall t', widen t = Some t' -> height t' <= height t) l ->
  maxl (map height l) <= n -> Forall (fun x => height x <= n) l'.
Proof.
  intros F H N. apply Forall_forall. intros y Y. destruct (Forall2_in_r _ _ _ _ F Y) as [x [X W]].
  rewrite Forall_forall in H. specialize (H x X y W). apply in_height in X. lia.
Qed.
Definition field_heights (fs : list field) : list nat := map (fun f => match f with (_, v, _) => height v end) fs.
Lemma in_field_heights f fs : In f fs -> height (fval f) <= maxl (field_heights fs).
Proof.
  intros I. apply maxl_in. unfold field_heights. apply in_map_iff. exists f. split; [|exact I].
  destruct f as [[k v] r]. reflexivity.
Qed.
Lemma field_heights_le n fs : (forall f, In f fs -> height (fval f) <= n) -> maxl (field_heights fs) <= n.
Proof.
  intros H. apply maxl_le. intros x I. unfold field_heights in I.
  apply in_map_iff in I as [[[k v] r] [<- I]]. apply (H _ I).
Qed.
Lemma widen_height : forall t t', widen t = Some t' -> height t' <= height t.
Proof.
  induction t as [f|f|f|f|l|l H|k w H H0|fs rest ex fr d H H0|l H|] using ty_ind'; intros t' W; cbn [widen] in W;
    try (injection W as <-; cbn; lia).
  - injection W as <-. destruct l; cbn; lia.
  - destruct (seqo (map widen l)) as [l'|] eqn:E; [|discriminate]. apply seqo_map in E.
    assert (t' = TArray (canonical_members l')) as -> by (cbn in W; congruence). cbn [height]. set (n := Nat.max 1 (maxl (map height l))).
    assert (maxl (map height (canonical_members l')) <= n); [|lia].
    apply canonical_members_height; [lia|]. eapply Forall2_height; eauto. lia.
  - destruct (seqo (map widen k)) as [k'|] eqn:E; [|discriminate]. apply seqo_map in E.
    destruct (seqo (map widen w)) as [w'|] eqn:E2; [|discriminate]. apply seqo_map in E2.
    assert (t' = THash (canonical_members k') (canonical_members w')) as -> by congruence. cbn [height].
    set (n := Nat.max 1 (Nat.max (maxl (map height k)) (maxl (map height w)))).
    assert (maxl (map height (canonical_members k')) <= n).
    { apply canonical_members_height; [lia|]. eapply Forall2_height; eauto. lia. }
    assert (maxl (map height (canonical_members w')) <= n).
    { apply canonical_members_height; [lia|]. eapply Forall2_height; eauto. lia. }
    lia.
  - apply (widen_shape fs rest ex fr d t') in W as [fs' [rest' [F [R T]]]].
    apply try_new_inl in T as [_ [-> _]]. cbn [height]. fold (field_heights (fsort fs')). fold (field_heights fs).
    rewrite Forall_forall in H.
    assert (A : maxl (field_heights (fsort fs')) <= maxl (field_heights fs)).
    { apply field_heights_le. intros f' I'.
      apply (Permutation_in _ (Permutation_sym (fsort_perm fs'))) in I'.
      destruct (Forall2_in_r _ _ _ _ F I') as [f [I [_ [_ W]]]]. apply (H f I) in W.
      apply in_field_heights in I. lia. }
    destruct rest as [[a b]|], rest' as [[a' b']|]; try contradiction; [|lia].
    destruct (H0 a b eq_refl) as [Ha Hb]. destruct R as [Ra Rb]. apply Ha in Ra. apply Hb in Rb. lia.
  - destruct (seqo (map widen l)) as [l'|] eqn:E; [|discriminate]. apply seqo_map in E.
    assert (t' = union l') as -> by (cbn in W; congruence). cbn [height].
    apply union_height; [lia|]. eapply Forall2_height; eauto. lia.
Qed.
Lemma generic_hash_height fs rest ex fr d h : generic_hash fs rest ex = Some h ->
  height h <= height (TShape fs rest ex fr d).
Proof.
  unfold generic_hash. cbv zeta.
  destruct (seqo _) as [vals|] eqn:E; [|discriminate]. apply seqo_map in E.
  destruct (match rest with None => _ | Some _ => _ end) as [[ks vs]|] eqn:R; [|discriminate].
  intros Q. assert (h = THash (canonical_members (map (fun f => widened (fkey f)) fs ++ ks)) (canonical_members (vals ++ vs))) as -> by congruence.
  cbn [height]. fold (field_heights fs).
  match goal with |- _ <= S ?m => set (n := m) end.
  assert (RR : Forall (fun x => height x <= n) ks /\ Forall (fun x => height x <= n) vs).
  { destruct rest as [[a b]|].
    - destruct (widen a) as [a'|] eqn:Wa; [|discriminate]. destruct (widen b) as [b'|] eqn:Wb; [|discriminate].
      assert (ks = [a']) as -> by congruence. assert (vs = [b']) as -> by congruence.
      apply widen_height in Wa. apply widen_height in Wb. split; constructor; auto; lia.
    - destruct ex; injection R as <- <-; split; try apply Forall_nil; (apply Forall_cons; [cbn [height]; lia|apply Forall_nil]). }
  assert (maxl (map height (canonical_members (map (fun f => widened (fkey f)) fs ++ ks))) <= n).
  { apply canonical_members_height; [lia|]. apply Forall_app. split; [|tauto].
    apply Forall_forall. intros x I. apply in_map_iff in I as [f [<- I]]. assert (N1 : 1 <= n) by lia. destruct (fkey f); exact N1. }
  assert (maxl (map height (canonical_members (vals ++ vs))) <= n).
  { apply canonical_members_height; [lia|]. apply Forall_app. split; [|tauto].
    apply Forall_forall. intros x I. destruct (Forall2_in_r _ _ _ _ E I) as [f [J W]].
    apply widen_height in W. apply in_field_heights in J. lia. }
  lia.
Qed.
