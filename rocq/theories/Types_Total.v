(** Widening never panics on well-formed types, and keeps them well-formed. *)
From Coq Require Import List Arith Bool Lia Sorted Permutation.
From Verif Require Import Lib Types_Model Types_Spec Types_Order Types_Union Types_Shape Types_Widen.
Import ListNotations.

Lemma few_canon l : few_shapes l -> length (shapes (canon (flatten l))) <= max_variants.
Proof.
  intros F. apply F.
  - apply NoDup_filter, canon_nodup.
  - intros x I. apply filter_In in I as [A B]. rewrite in_canon in A. auto.
Qed.
Lemma few_sub l l' : (forall x, In x (flatten l') -> x = TUnknown \/ In x (flatten l)) -> few_shapes l -> few_shapes l'.
Proof.
  intros E F ks N H. apply F; [exact N|]. intros x I. destruct (H x I) as [A B]. split; [exact A|].
  destruct (E x B) as [->|]; [discriminate|assumption].
Qed.
Lemma wf_ind' (P : ty -> Prop)
  (Hc : forall f, P (TClass f)) (Hm : forall f, P (TModule f))
  (Hcr : forall f, P (TClassRef f)) (Hmr : forall f, P (TModuleRef f))
  (Hl : forall l, P (TLit l)) (Hx : P TUnknown)
  (Ha : forall l, l <> [] -> few_shapes l -> Forall well_formed l -> Forall P l -> P (TArray l))
  (Hh : forall k v, k <> [] -> v <> [] -> few_shapes k -> few_shapes v -> Forall well_formed k -> Forall well_formed v ->
        Forall P k -> Forall P v -> P (THash k v))
  (Hu : forall l, l <> [] -> few_shapes l -> (forall x, In x l -> is_union x = false) ->
        Forall well_formed l -> Forall P l -> P (TUnion l))
  (Hs : forall fs rest ex fr t, Forall (fun f => well_formed (fval f)) fs ->
        (forall a b, rest = Some (a, b) -> well_formed a /\ well_formed b) ->
        Forall (fun f => P (fval f)) fs ->
        (forall a b, rest = Some (a, b) -> P a /\ P b) -> try_new fs rest ex fr = inl t -> P t) :
  forall t, well_formed t -> P t.
Proof.
  fix IH 2. intros t [f|f|f|f|l| |l N S F|k v N M S S' F G|l N S U F|fs rest ex fr t' F R T].
  - apply Hc. - apply Hm. - apply Hcr. - apply Hmr. - apply Hl. - apply Hx.
  - apply Ha; auto. clear N S. induction F; constructor; auto.
  - apply Hh; auto; [clear N S; induction F|clear M S'; induction G]; constructor; auto.
  - apply Hu; auto. clear N S U. induction F; constructor; auto.
  - eapply Hs; [exact F|exact R| | |exact T].
    + clear T. induction F; constructor; auto.
    + intros a b E. destruct (R a b E). split; auto.
Qed.
Lemma wf_flat t : well_formed t -> flat t.
Proof.
  intros W. destruct W; cbn; auto. apply try_new_inl in H1 as [_ [-> _]]. exact Logic.I.
Qed.
Lemma wf_union_inv l : well_formed (TUnion l) ->
  l <> [] /\ few_shapes l /\ (forall x, In x l -> is_union x = false) /\ Forall well_formed l.
Proof.
  intros W. inversion W; subst; auto. apply try_new_inl in H1 as [_ [Q _]]. discriminate.
Qed.
Lemma wf_members k : well_formed (TUnion k) -> Forall well_formed k.
Proof. intros W. apply wf_union_inv in W. tauto. Qed.
Lemma wf_flats l : Forall well_formed l -> Forall flat l.
Proof. apply Forall_impl. apply wf_flat. Qed.
Lemma wf_flatten_nonempty l : Forall well_formed l -> l <> [] -> flatten l <> [].
Proof.
  destruct l as [|x l]; [congruence|]. intros F _ E. inversion F as [|? ? W _]; subst.
  cbn in E. apply app_eq_nil in E as [E _]. destruct x; try discriminate.
  subst. apply wf_union_inv in W as [W _]. congruence.
Qed.

(** members of canonical forms of well-formed lists *)
Lemma members_sub l x : Forall well_formed l -> In x (canonical_members l) -> x = TUnknown \/ In x (flatten l).
Proof.
  intros W. assert (M : In x (members (union l)) -> x = TUnknown \/ In x (flatten l)).
  { pose proof (flatten_flat l (wf_flats l W)) as FF. destruct (union_cases l); cbn [members].
    - intros [<-|[]]. auto.
    - intros [<-|[]]. auto.
    - intros [<-|[]]. auto.
    - assert (In x0 (flatten l)) as I by (apply in_canon; rewrite H0; left; reflexivity).
      pose proof (FF x0 I) as U. destruct x0; try discriminate; intros [<-|[]]; auto.
    - intros I. right. rewrite <- H0, in_canon in I. exact I. }
  destruct l as [|a [|b l]]; cbn [canonical_members]; auto.
  destruct a; auto; intros [<-|[]]; right; left; reflexivity.
Qed.
Lemma members_atoms l x : Forall well_formed l -> In x (canonical_members l) -> is_union x = false.
Proof.
  intros W I. destruct (members_sub l x W I) as [->|J]; [reflexivity|].
  eapply flatten_flat; [apply wf_flats, W|exact J].
Qed.
Lemma members_nonempty l : Forall well_formed l -> canonical_members l <> [].
Proof.
  intros W. assert (M : members (union l) <> []).
  { pose proof (flatten_flat l (wf_flats l W)) as FF. destruct (union_cases l); cbn [members]; try discriminate.
    - assert (In x (flatten l)) as I by (apply in_canon; rewrite H0; left; reflexivity).
      pose proof (FF x I) as U. destruct x; discriminate.
    - destruct v; [cbn in *; lia|discriminate]. }
  destruct l as [|a [|b l]]; cbn [canonical_members]; auto; try discriminate.
  destruct a; auto; discriminate.
Qed.
Lemma few_members l : Forall well_formed l -> few_shapes l -> few_shapes (canonical_members l).
Proof.
  intros W. apply few_sub. intros x I. rewrite flatten_atoms in I; [apply members_sub; assumption|].
  intros y. apply members_atoms, W.
Qed.
Lemma wf_canonical_members l : Forall well_formed l -> Forall well_formed (canonical_members l).
Proof. apply canonical_members_pres; [constructor|apply wf_members]. Qed.
Lemma wf_union l : Forall well_formed l -> few_shapes l -> well_formed (union l).
Proof.
  intros W F. pose proof (flatten_flat l (wf_flats l W)) as FF.
  pose proof (flatten_pres well_formed l wf_members W) as FW. rewrite Forall_forall in FW.
  destruct (union_cases l); try constructor.
  - apply FW. apply in_canon. rewrite H0. left. reflexivity.
  - destruct v; [cbn in *; lia|discriminate].
  - subst v. eapply few_sub; [|exact F]. intros x I. right.
    rewrite flatten_atoms in I; [apply in_canon; exact I|]. intros y J. apply FF. apply in_canon. exact J.
  - subst v. intros y J. apply FF. apply in_canon. exact J.
  - subst v. apply Forall_forall. intros y J. apply FW. apply in_canon. exact J.
Qed.

(** what widening does to one well-formed type *)
Record widened_well (t t' : ty) : Prop := {
  ww_wf : well_formed t';
  ww_proven : contains_unknown t = false -> contains_unknown t' = false;
  ww_depth : shape_depth t' <= shape_depth t;
  ww_union : is_union t' = true -> is_union t = true }.
Definition widens (t t' : ty) : Prop := widen t = Some t' /\ widened_well t t'.

Lemma widen_shape_is t t' : widen t = Some t' -> is_union t = false -> is_shape t' = true -> is_shape t = true.
Proof.
  destruct t; cbn; intros W U; try (injection W as <-; cbn; auto; fail); try reflexivity; try discriminate.
  - injection W as <-. destruct l; discriminate.
  - destruct (seqo _); [|discriminate]. injection W as <-. discriminate.
  - destruct (seqo _); [|discriminate]. destruct (seqo _); [|discriminate]. injection W as <-. discriminate.
Qed.
Lemma widen_not_union t t' : widen t = Some t' -> is_union t = false -> is_union t' = false.
Proof.
  destruct t; intros W U; try discriminate; try (injection W as <-; reflexivity).
  - injection W as <-. destruct l; reflexivity.
  - cbn in W. destruct (seqo _); [|discriminate]. injection W as <-. reflexivity.
  - cbn in W. destruct (seqo _); [|discriminate]. destruct (seqo _); [|discriminate]. injection W as <-. reflexivity.
  - apply widen_shape in W as [fs' [rest' [_ [_ T]]]]. apply try_new_inl in T as [_ [-> _]]. reflexivity.
Qed.
Lemma widen_union l t' : widen (TUnion l) = Some t' -> exists l', Forall2 (fun x y => widen x = Some y) l l' /\ t' = union l'.
Proof.
  cbn. destruct (seqo (map widen l)) as [l'|] eqn:E; [|discriminate]. cbn. intros Q. injection Q as <-.
  exists l'. split; [apply seqo_map, E|reflexivity].
Qed.
(** a member of the widened list is a widened member *)
Lemma widened_members l l' x' : Forall well_formed l -> Forall2 widens l l' ->
  In x' (flatten l') -> x' = TUnknown \/ exists x, In x (flatten l) /\ is_union x = false /\ widen x = Some x'.
Proof.
  intros W F I. apply in_flatten in I as [t' [I' B]].
  destruct (Forall2_in_r _ _ _ _ F I') as [t [I [E WW]]].
  rewrite Forall_forall in W. pose proof (W t I) as Wt.
  destruct (is_union t) eqn:U.
  - destruct t as [ | | | | | | | |l0| ]; try discriminate. apply wf_union_inv in Wt as [_ [_ [U0 W0]]].
    apply widen_union in E as [l0' [F0 ->]].
    assert (A : forall y, In y (flatten l0') -> exists x, In x (flatten l) /\ is_union x = false /\ widen x = Some y).
    { intros y Y. apply in_flatten in Y as [u' [Y1 Y2]]. destruct (Forall2_in_r _ _ _ _ F0 Y1) as [u [Y3 Y4]].
      pose proof (widen_not_union u u' Y4 (U0 u Y3)) as NU.
      assert (y = u') as -> by (destruct u'; try exact Y2; discriminate).
      exists u. split; [|auto]. apply in_flatten. exists (TUnion l0). auto. }
    assert (AU : forall y, In y (flatten l0') -> is_union y = false).
    { intros y Y. destruct (A y Y) as [x [_ [X1 X2]]]. eapply widen_not_union; eauto. }
    clear WW. destruct (union_cases l0') as [K|K|K K2|y K K2|v K K2 K3 K4]; auto.
    + assert (In y (flatten l0')) as Y by (apply in_canon; rewrite K2; left; reflexivity).
      assert (x' = y) as ->. { pose proof (AU y Y). destruct y; try exact B; discriminate. }
      right. apply A, Y.
    + right. apply A. rewrite <- K2 in B. rewrite in_canon in B. exact B.
  - pose proof (widen_not_union t t' E U) as NU.
    assert (x' = t') as -> by (destruct t'; try exact B; discriminate).
    right. exists t. split; [|auto]. apply in_flatten. exists t. split; [exact I|]. destruct t; try reflexivity. discriminate.
Qed.
Lemma widened_few l l' : Forall well_formed l -> Forall2 widens l l' -> few_shapes l -> few_shapes l'.
Proof.
  intros W F FS ks N H.
  set (w := fun x => match widen x with Some y => y | None => x end).
  assert (INC : incl ks (map w (shapes (canon (flatten l))))).
  { intros x' I. destruct (H x' I) as [S1 I'].
    destruct (widened_members l l' x' W F I') as [->|[x [J [U E]]]]; [discriminate|].
    apply in_map_iff. exists x. split; [unfold w; rewrite E; reflexivity|].
    apply filter_In. split; [apply in_canon, J|]. eapply widen_shape_is; eauto. }
  pose proof (NoDup_incl_length N INC) as L. rewrite map_length in L.
  pose proof (few_canon l FS). unfold max_variants in *. lia.
Qed.
Lemma proven_flatten l : (forall x, In x l -> contains_unknown x = false) ->
  forall x, In x (flatten l) -> contains_unknown x = false.
Proof.
  intros H x I. apply in_flatten in I as [t [A B]]. specialize (H t A). destruct t; subst; try assumption.
  cbn in H. destruct (contains_unknown x) eqn:E; [|reflexivity].
  assert (existsb contains_unknown l0 = true) by (apply existsb_exists; eauto). congruence.
Qed.
Lemma existsb_false {A} (f : A -> bool) l : existsb f l = false <-> (forall x, In x l -> f x = false).
Proof.
  split.
  - intros H x I. destruct (f x) eqn:E; [|reflexivity].
    assert (existsb f l = true) by (apply existsb_exists; eauto). congruence.
  - intros H. destruct (existsb f l) eqn:E; [|reflexivity]. apply existsb_exists in E as [x [I E]].
    rewrite H in E by exact I. discriminate.
Qed.
Lemma union_proven l : few_shapes l -> flatten l <> [] -> (forall x, In x l -> contains_unknown x = false) ->
  contains_unknown (union l) = false.
Proof.
  intros F N H. pose proof (proven_flatten l H) as HF. destruct (union_cases l).
  - apply HF in H0. discriminate.
  - congruence.
  - apply few_canon in F. lia.
  - apply HF. apply in_canon. rewrite H1. left. reflexivity.
  - cbn. apply existsb_false. intros x I. apply HF. rewrite <- H1, in_canon in I. exact I.
Qed.
Lemma members_proven l : few_shapes l -> flatten l <> [] -> (forall x, In x l -> contains_unknown x = false) ->
  forall x, In x (canonical_members l) -> contains_unknown x = false.
Proof.
  intros F N H. pose proof (union_proven l F N H) as U.
  assert (M : forall x, In x (members (union l)) -> contains_unknown x = false).
  { destruct (union l); cbn [members]; try (intros x [<-|[]]; exact U). apply existsb_false. exact U. }
  destruct l as [|a [|b l]]; cbn [canonical_members].
  - cbn in N. congruence.
  - destruct a; auto; intros x [<-|[]]; apply H; left; reflexivity.
  - exact M.
Qed.
Lemma depth_members n l : Forall (fun x => shape_depth x <= n) l -> maxl (map shape_depth (canonical_members l)) <= n.
Proof.
  intros F. apply maxl_le. intros x I. apply in_map_iff in I as [t [<- I]].
  revert t I. apply Forall_forall.
  apply (canonical_members_pres (fun x => shape_depth x <= n) l); auto; [cbn; lia|]. intros k D. apply Forall_forall. intros y Y. cbn in D.
  eapply Nat.le_trans; [|exact D]. apply maxl_in, in_map, Y.
Qed.
Lemma depth_union n l : Forall (fun x => shape_depth x <= n) l -> shape_depth (union l) <= n.
Proof.
  intros F. apply (union_pres (fun x => shape_depth x <= n)); [cbn; lia| | |exact F].
  - intros k D. apply Forall_forall. intros y Y. cbn in D.
    eapply Nat.le_trans; [|exact D]. apply maxl_in, in_map, Y.
  - intros k D. cbn. apply maxl_le. intros x I. apply in_map_iff in I as [t [<- I]].
    rewrite Forall_forall in D. auto.
Qed.
Lemma Forall2_widens l : Forall well_formed l -> Forall (fun t => exists t', widens t t') l ->
  exists l', seqo (map widen l) = Some l' /\ Forall2 widens l l' /\ Forall well_formed l' /\
    (forall n, maxl (map shape_depth l) <= n -> Forall (fun x => shape_depth x <= n) l') /\
    (l <> [] -> l' <> []) /\
    ((forall x, In x l -> contains_unknown x = false) -> forall x, In x l' -> contains_unknown x = false).
Proof.
  intros W H. destruct (seqo_total widen l) as [l' E].
  { rewrite Forall_forall in H. intros x I. destruct (H x I) as [t' [T _]]. eauto. }
  exists l'. split; [exact E|]. apply seqo_map in E.
  assert (F : Forall2 widens l l').
  { clear W. induction E as [|x y l l' P F IH]; constructor; inversion H; subst; auto.
    destruct H2 as [t' [T WW]]. assert (t' = y) by congruence. subst. split; assumption. }
  repeat split; auto.
  - apply Forall_forall. intros y Y. destruct (Forall2_in_r _ _ _ _ F Y) as [x [_ [_ Q]]]. apply Q.
  - intros n N. apply Forall_forall. intros y Y. destruct (Forall2_in_r _ _ _ _ F Y) as [x [X [_ Q]]].
    eapply Nat.le_trans; [apply Q|]. eapply Nat.le_trans; [|exact N]. apply maxl_in, in_map, X.
  - intros N ->. inversion F. subst. congruence.
  - intros P y Y. destruct (Forall2_in_r _ _ _ _ F Y) as [x [X [_ Q]]]. apply Q, P, X.
Qed.

Lemma widen_total : forall t, well_formed t -> exists t', widens t t'.
Proof.
  apply wf_ind'; try (intros; eexists; split; [reflexivity|constructor; [constructor|auto..]]; fail).
  - intros l. exists (widened l). split; [reflexivity|]. destruct l; (constructor; [constructor|auto..]).
  - intros l N FS W H. destruct (Forall2_widens l W H) as [l' [E [F [W' [HD [HN HP]]]]]].
    exists (TArray (canonical_members l')). split; [cbn [widen]; rewrite E; reflexivity|].
    pose proof (widened_few l l' W F FS) as FS'.
    pose proof (wf_flatten_nonempty l' W' (HN N)) as NE. constructor.
    + constructor; auto using members_nonempty, few_members, wf_canonical_members.
    + cbn. rewrite !existsb_false. intros P. apply members_proven; auto.
    + cbn. apply depth_members, HD. lia.
    + discriminate.
  - intros k v N M FS1 FS2 W1 W2 H1 H2.
    destruct (Forall2_widens k W1 H1) as [k' [E [F [W' [HD [HN HP]]]]]].
    destruct (Forall2_widens v W2 H2) as [v' [Ev [Fv [Wv [HDv [HNv HPv]]]]]].
    exists (THash (canonical_members k') (canonical_members v')).
    split; [cbn [widen]; rewrite E, Ev; reflexivity|].
    pose proof (widened_few k k' W1 F FS1) as FS1'. pose proof (widened_few v v' W2 Fv FS2) as FS2'.
    pose proof (wf_flatten_nonempty k' W' (HN N)) as NE. pose proof (wf_flatten_nonempty v' Wv (HNv M)) as NEv. constructor.
    + constructor; auto using members_nonempty, few_members, wf_canonical_members.
    + cbn [contains_unknown]. rewrite !orb_false_iff, !existsb_false. intros [P Q]. split; apply members_proven; auto.
    + cbn [shape_depth].
      assert (maxl (map shape_depth (canonical_members k')) <= maxl (map shape_depth k)) by (apply depth_members, HD; lia).
      assert (maxl (map shape_depth (canonical_members v')) <= maxl (map shape_depth v)) by (apply depth_members, HDv; lia).
      lia.
    + discriminate.
  - intros l N FS U W H. destruct (Forall2_widens l W H) as [l' [E [F [W' [HD [HN HP]]]]]].
    exists (union l'). split; [cbn [widen]; rewrite E; reflexivity|].
    pose proof (widened_few l l' W F FS) as FS'.
    pose proof (wf_flatten_nonempty l' W' (HN N)) as NE. constructor.
    + apply wf_union; auto.
    + cbn [contains_unknown]. rewrite !existsb_false. intros P. apply union_proven; auto.
    + cbn [shape_depth]. apply depth_union, HD. lia.
    + reflexivity.
  - intros fs rest ex fr t WF WR HF HR T. apply try_new_inl in T as [AC [-> SS]].
    pose proof (fsort_perm fs) as PM.
    assert (HF' : Forall (fun f => exists t', widens (fval f) t') (fsort fs)) by (eapply Permutation_Forall; eauto).
    assert (exists fs', seqo (map (fun f : field => match f with (k, v, r) => option_map (fun v => (k, v, r)) (widen v) end) (fsort fs)) = Some fs'
              /\ Forall2 (fun f f' => fkey f' = fkey f /\ widens (fval f) (fval f')) (fsort fs) fs') as [fs' [E F]].
    { clear -HF'. induction HF' as [|[[k v] r] l [t' [T WW]] HF' [fs' [E F]]]; cbn.
      - exists []. auto.
      - cbn in T, WW. rewrite T. cbn [option_map]. rewrite E. cbn. exists ((k, t', r) :: fs'). split; [reflexivity|].
        constructor; [|exact F]. split; [reflexivity|]. split; assumption. }
    assert (exists rest', match rest with None => Some None | Some (a, b) => match widen a, widen b with Some a, Some b => Some (Some (a, b)) | _, _ => None end end = Some rest'
              /\ match rest, rest' with None, None => True | Some (a, b), Some (a', b') => widens a a' /\ widens b b' | _, _ => False end) as [rest' [E2 R2]].
    { destruct rest as [[a b]|]; [|exists None; auto].
      destruct (HR a b eq_refl) as [[a' [A1 A2]] [b' [B1 B2]]]. rewrite A1, B1. exists (Some (a', b')).
      split; [reflexivity|]. split; split; assumption. }
    assert (KEYS : map fkey fs' = map fkey (fsort fs)).
    { clear -F. induction F as [|x y l l' [K _] F IH]; cbn; congruence. }
    assert (LEN : length fs' = length (fsort fs)) by (rewrite <- (map_length fkey), KEYS; apply map_length).
    apply (acceptable_perm _ _ _ _ PM) in AC. destruct AC as [A1 A2 A3 A4 A5 A6].
    assert (DEP : inner_depth fs' rest' <= inner_depth (fsort fs) rest).
    { unfold inner_depth. apply Nat.max_le_compat.
      - apply maxl_le. intros x I. apply in_map_iff in I as [f' [<- I]].
        destruct (Forall2_in_r _ _ _ _ F I) as [f [J [_ [_ Q]]]].
        eapply Nat.le_trans; [apply Q|]. apply maxl_in. apply (in_map (fun f => shape_depth (fval f))). exact J.
      - destruct rest as [[a b]|], rest' as [[a' b']|]; try contradiction; [|lia].
        destruct R2 as [[_ Q1] [_ Q2]]. apply Nat.max_le_compat; [apply Q1|apply Q2]. }
    assert (AC' : acceptable fs' rest' ex).
    { constructor.
      - eapply Nat.le_trans; [|exact A1]. apply Nat.eq_le_incl. exact LEN.
      - intros X. specialize (A2 X). subst rest. destruct rest'; [contradiction|reflexivity].
      - rewrite KEYS. exact A3.
      - intros f' I. destruct (Forall2_in_r _ _ _ _ F I) as [f [J [_ [_ Q]]]]. apply Q, A4, J.
      - destruct rest as [[a b]|], rest' as [[a' b']|]; try contradiction; [|reflexivity].
        cbn in *. apply orb_false_iff in A5 as [P1 P2]. destruct R2 as [[_ Q1] [_ Q2]].
        apply orb_false_iff. split; [apply Q1|apply Q2]; assumption.
      - lia. }
    pose proof (try_new_ok fs' rest' ex fr AC') as T'.
    exists (TShape (fsort fs') rest' ex fr (S (inner_depth fs' rest'))). split.
    { cbn [widen]. match goal with |- match ?x with _ => _ end = _ => replace x with (Some fs') by (symmetry; exact E) end.
      rewrite E2, T'. reflexivity. }
    constructor.
    + eapply W_shape; [| |exact T'].
      * apply Forall_forall. intros f' I. destruct (Forall2_in_r _ _ _ _ F I) as [f [J [_ [_ Q]]]]. apply Q.
      * intros a' b' ->. destruct rest as [[a b]|]; [|contradiction]. destruct R2 as [[_ Q1] [_ Q2]]. split; [apply Q1|apply Q2].
    + intros _. cbn [contains_unknown]. apply orb_false_iff. split.
      * apply existsb_false. intros [[k v] r] I.
        apply (Permutation_in _ (Permutation_sym (fsort_perm fs'))) in I.
        apply (ac_proven _ _ _ AC' (k, v, r) I).
      * apply (ac_rest _ _ _ AC').
    + cbn [shape_depth]. rewrite (inner_depth_perm fs _ rest PM). lia.
    + discriminate.
Qed.
