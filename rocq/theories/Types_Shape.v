(** ShapeType::try_new: what it accepts, what it builds, what it reports. *)
From Coq Require Import List Arith Bool Lia Sorted Permutation.
From Verif Require Import Lib Types_Model Types_Spec Types_Order.
Import ListNotations.

Definition klt (a b : field) : Prop := lit_cmp (fkey a) (fkey b) = Lt.
Definition kle (a b : field) : Prop := fkey a = fkey b \/ klt a b.
Lemma kle_trans a b c : kle a b -> kle b c -> kle a c.
Proof.
  unfold kle, klt. intros [E|P] [F|Q].
  - left. congruence.
  - right. rewrite E. assumption.
  - right. rewrite <- F. assumption.
  - right. eapply lit_cmp_trans; eauto.
Qed.
Lemma finsert_perm x l : Permutation (x :: l) (finsert x l).
Proof.
  induction l as [|y l IH]; cbn; [apply Permutation_refl|].
  destruct (lit_cmp (fkey x) (fkey y)); try apply Permutation_refl.
  eapply Permutation_trans; [apply perm_swap|]. apply perm_skip. exact IH.
Qed.
Lemma fsort_perm l : Permutation l (fsort l).
Proof.
  induction l as [|x l IH]; cbn; [apply Permutation_refl|].
  eapply Permutation_trans; [apply perm_skip, IH|]. apply finsert_perm.
Qed.
Lemma finsert_sorted x l : StronglySorted kle l -> StronglySorted kle (finsert x l).
Proof.
  induction l as [|y l IH]; cbn; intros H; [repeat constructor|].
  inversion H as [|? ? HS HF]; subst. destruct (lit_cmp (fkey x) (fkey y)) eqn:E.
  - constructor; [assumption|]. assert (kle x y) by (left; apply lit_cmp_eq; assumption).
    constructor; [assumption|]. eapply Forall_impl; [|exact HF]. intros z. apply kle_trans. assumption.
  - constructor; [assumption|]. assert (kle x y) by (right; assumption).
    constructor; [assumption|]. eapply Forall_impl; [|exact HF]. intros z. apply kle_trans. assumption.
  - constructor; [auto|]. apply Forall_forall. intros z Z.
    apply (Permutation_in z (Permutation_sym (finsert_perm x l))) in Z as [<-|Z].
    + right. unfold klt. rewrite (lit_cmp_antisym (fkey x)), E. reflexivity.
    + rewrite Forall_forall in HF. auto.
Qed.
Lemma fsort_sorted l : StronglySorted kle (fsort l).
Proof. induction l; cbn; [constructor|apply finsert_sorted; assumption]. Qed.

Lemma klt_kle_trans a b c : klt a b -> kle b c -> klt a c.
Proof.
  unfold klt. intros P [E|Q]; [rewrite <- E; assumption|]. eapply lit_cmp_trans; eauto.
Qed.
Lemma first_dup_none l : StronglySorted kle l -> first_dup l = None -> StronglySorted klt l.
Proof.
  induction 1 as [|x l HS IH HF]; cbn [first_dup]; [constructor|].
  destruct l as [|y l]; [repeat constructor|]. destruct (lit_eqb (fkey x) (fkey y)) eqn:E; [discriminate|].
  intros N. specialize (IH N). constructor; [assumption|].
  rewrite Forall_forall in HF.
  assert (klt x y) as L.
  { destruct (HF y (or_introl eq_refl)) as [Q|]; [|assumption]. apply lit_eqb_eq in Q. congruence. }
  apply Forall_forall. intros z [<-|Z]; [assumption|]. inversion HS as [|? ? _ HF']; subst.
  rewrite Forall_forall in HF'. eapply klt_kle_trans; eauto.
Qed.
Lemma first_dup_some l k : first_dup l = Some k ->
  exists a b c f g, l = a ++ f :: b ++ g :: c /\ fkey f = k /\ fkey g = k.
Proof.
  induction l as [|x l IH]; cbn [first_dup]; [discriminate|].
  destruct l as [|y l]; [discriminate|]. destruct (lit_eqb (fkey x) (fkey y)) eqn:E.
  - intros Q. assert (fkey x = k) by congruence. apply lit_eqb_eq in E.
    exists [], [], l, x, y. repeat split; congruence.
  - intros Q. destruct (IH Q) as [a [b [c [f [g [A [B C]]]]]]].
    exists (x :: a), b, c, f, g. rewrite A. auto.
Qed.
Lemma klt_irrefl a : ~ klt a a.
Proof. unfold klt. rewrite (proj2 (lit_cmp_eq _ _) eq_refl). discriminate. Qed.
Lemma sorted_keys_nodup l : StronglySorted klt l -> NoDup (map fkey l).
Proof.
  induction 1 as [|x l HS IH HF]; cbn; constructor; auto.
  intros P. apply in_map_iff in P as [y [E P]]. rewrite Forall_forall in HF. specialize (HF y P).
  unfold klt in HF. rewrite E in HF. rewrite (proj2 (lit_cmp_eq _ _) eq_refl) in HF. discriminate.
Qed.

Lemma maxl_cons x l : maxl (x :: l) = Nat.max x (maxl l).
Proof. reflexivity. Qed.
Lemma maxl_perm l k : Permutation l k -> maxl l = maxl k.
Proof. induction 1; rewrite ?maxl_cons; lia. Qed.
Lemma maxl_in x l : In x l -> x <= maxl l.
Proof.
  induction l as [|y l IH]; [intros []|]. rewrite maxl_cons. intros [->|P]; [lia|]. specialize (IH P). lia.
Qed.
Lemma maxl_le n l : (forall x, In x l -> x <= n) -> maxl l <= n.
Proof.
  induction l as [|y l IH]; intros H; [cbn; lia|]. rewrite maxl_cons.
  pose proof (H y (or_introl eq_refl)). assert (maxl l <= n) by (apply IH; intros z Z; apply H; right; exact Z). lia.
Qed.

(** what try_new requires, independent of the sorting *)
Definition inner_depth (fs : list field) (rest : option (ty * ty)) : nat :=
  Nat.max (maxl (map (fun f => shape_depth (fval f)) fs))
    (match rest with Some (a, b) => Nat.max (shape_depth a) (shape_depth b) | None => 0 end).
Definition rest_unproven (rest : option (ty * ty)) : bool :=
  match rest with Some (a, b) => contains_unknown a || contains_unknown b | None => false end.
Record acceptable (fs : list field) (rest : option (ty * ty)) (ex : bool) : Prop := {
  ac_fields : length fs <= max_fields;
  ac_exact : ex = true -> rest = None;
  ac_keys : NoDup (map fkey fs);
  ac_proven : forall f, In f fs -> contains_unknown (fval f) = false;
  ac_rest : rest_unproven rest = false;
  ac_depth : S (inner_depth fs rest) <= max_depth }.

Lemma acceptable_perm fs fs' rest ex : Permutation fs fs' -> acceptable fs rest ex -> acceptable fs' rest ex.
Proof.
  intros P [A B C D E F]. constructor; auto.
  - rewrite <- (Permutation_length P). assumption.
  - eapply Permutation_NoDup; [apply Permutation_map, P|assumption].
  - intros f I. apply D. eapply Permutation_in; [apply Permutation_sym, P|exact I].
  - replace (inner_depth fs' rest) with (inner_depth fs rest); [assumption|].
    unfold inner_depth. f_equal. apply maxl_perm, Permutation_map, P.
Qed.
Lemma inner_depth_perm fs fs' rest : Permutation fs fs' -> inner_depth fs rest = inner_depth fs' rest.
Proof. intros P. unfold inner_depth. f_equal. apply maxl_perm, Permutation_map, P. Qed.

Definition truthful (fs : list field) (rest : option (ty * ty)) (ex : bool) (e : shape_error) : Prop :=
  match e with
  | FieldBound n => n = length fs /\ max_fields < n
  | DepthBound n => n = S (inner_depth fs rest) /\ max_depth < n
  | Duplicate k => ~ NoDup (map fkey fs) /\ exists a b c f g, Permutation fs (a ++ f :: b ++ g :: c) /\ fkey f = k /\ fkey g = k
  | ExactWithRest => ex = true /\ rest <> None
  | UnprovenField k => exists f, In f fs /\ fkey f = k /\ contains_unknown (fval f) = true
  | UnprovenRest => exists a b, rest = Some (a, b) /\ (contains_unknown a = true \/ contains_unknown b = true)
  end.

Lemma try_new_cases fs rest ex fr :
  match try_new fs rest ex fr with
  | inl t => acceptable fs rest ex /\ t = TShape (fsort fs) rest ex fr (S (inner_depth fs rest)) /\
             StronglySorted klt (fsort fs)
  | inr e => truthful fs rest ex e
  end.
Proof.
  unfold try_new. destruct (max_fields <? length fs) eqn:E1.
  { cbn. apply Nat.ltb_lt in E1. auto. }
  apply Nat.ltb_ge in E1.
  destruct (ex && match rest with Some _ => true | None => false end) eqn:E2.
  { apply andb_true_iff in E2 as [A B]. cbn. split; [assumption|]. destruct rest; congruence. }
  pose proof (fsort_perm fs) as P. pose proof (fsort_sorted fs) as SS.
  cbv zeta. destruct (first_dup (fsort fs)) as [k|] eqn:E3.
  { apply first_dup_some in E3 as [a [b [c [f [g [A [B C]]]]]]]. cbn. split.
    - intros ND. apply (Permutation_NoDup (Permutation_map fkey P)) in ND. rewrite A, map_app in ND. cbn in ND.
      apply NoDup_remove_2 in ND. apply ND. rewrite map_app. cbn. apply in_or_app. right. apply in_or_app. right.
      left. congruence.
    - exists a, b, c, f, g. rewrite <- A. auto. }
  apply first_dup_none in E3; [|assumption].
  destruct (find (fun f => contains_unknown (fval f)) (fsort fs)) as [f|] eqn:E4.
  { apply find_some in E4 as [A B]. cbn. exists f. split; [|auto].
    eapply Permutation_in; [apply Permutation_sym, P|exact A]. }
  fold (rest_unproven rest). destruct (rest_unproven rest) eqn:E5.
  { destruct rest as [[a b]|]; [|discriminate]. cbn in E5. apply orb_true_iff in E5. cbn. eauto. }
  fold (inner_depth (fsort fs) rest). rewrite <- (inner_depth_perm fs _ rest P).
  destruct (max_depth <? S (inner_depth fs rest)) eqn:E6.
  { apply Nat.ltb_lt in E6. cbn [truthful]. auto. }
  apply Nat.ltb_ge in E6. split; [|split; [reflexivity|assumption]].
  constructor; auto.
  - intros ->. destruct rest; [discriminate|reflexivity].
  - eapply Permutation_NoDup; [apply Permutation_map, Permutation_sym, P|]. apply sorted_keys_nodup. assumption.
  - intros f I. apply (find_none _ _ E4). eapply Permutation_in; [exact P|exact I].
Qed.
Lemma try_new_ok fs rest ex fr : acceptable fs rest ex ->
  try_new fs rest ex fr = inl (TShape (fsort fs) rest ex fr (S (inner_depth fs rest))).
Proof.
  intros [A B C D E F]. pose proof (try_new_cases fs rest ex fr) as T.
  destruct (try_new fs rest ex fr) as [t|e].
  - destruct T as [_ [-> _]]. reflexivity.
  - exfalso. destruct e; cbn in T.
    + lia.
    + lia.
    + tauto.
    + destruct T as [T1 T2]. apply T2, B, T1.
    + destruct T as [f [I [_ U]]]. rewrite D in U by assumption. discriminate.
    + destruct T as [a [b [-> U]]]. cbn in E. apply orb_false_iff in E. intuition congruence.
Qed.
Lemma try_new_inl fs rest ex fr t : try_new fs rest ex fr = inl t ->
  acceptable fs rest ex /\ t = TShape (fsort fs) rest ex fr (S (inner_depth fs rest)) /\ StronglySorted klt (fsort fs).
Proof. intros H. pose proof (try_new_cases fs rest ex fr) as T. rewrite H in T. exact T. Qed.

(** contains_unknown = Unknown occurs *)
Lemma contains_unknown_occurs : forall t, contains_unknown t = true <-> occurs TUnknown t.
Proof.
  induction t using ty_ind'; cbn;
    try (split; [discriminate|intros O; inversion O]).
  - rewrite existsb_exists. rewrite Forall_forall in H. split.
    + intros [x [A B]]. eapply Occ_array; [exact A|]. apply H; assumption.
    + intros O. inversion O; subst. exists t. split; [assumption|]. apply H; assumption.
  - rewrite orb_true_iff, !existsb_exists. rewrite Forall_forall in H, H0. split.
    + intros [[x [A B]]|[x [A B]]].
      * eapply Occ_key; [exact A|]. apply H; assumption.
      * eapply Occ_value; [exact A|]. apply H0; assumption.
    + intros O. inversion O; subst; [left|right]; exists t; (split; [assumption|]).
      * apply H; assumption. * apply H0; assumption.
  - rewrite orb_true_iff, existsb_exists. rewrite Forall_forall in H. split.
    + intros [[[[k v] r] [A B]]|B].
      * eapply Occ_field; [exact A|]. apply (H (k, v, r)); assumption.
      * destruct rest as [[a b]|]; [|discriminate]. destruct (H0 a b eq_refl) as [Ha Hb].
        apply orb_true_iff in B as [B|B]; [apply Occ_rest_key, Ha|apply Occ_rest_value, Hb]; assumption.
    + intros O. inversion O; subst.
      * left. destruct f as [[k v] r]. exists (k, v, r). split; [assumption|]. apply (H (k, v, r)); assumption.
      * right. destruct (H0 a b eq_refl) as [Ha Hb]. apply orb_true_iff. left. apply Ha. assumption.
      * right. destruct (H0 a b eq_refl) as [Ha Hb]. apply orb_true_iff. right. apply Hb. assumption.
  - rewrite existsb_exists. rewrite Forall_forall in H. split.
    + intros [x [A B]]. eapply Occ_union; [exact A|]. apply H; assumption.
    + intros O. inversion O; subst. exists t. split; [assumption|]. apply H; assumption.
  - split; [constructor|reflexivity].
Qed.

(** the stored depth is the real nesting *)
Lemma built_ind' (P : ty -> Prop)
  (Hc : forall f, P (TClass f)) (Hm : forall f, P (TModule f))
  (Hcr : forall f, P (TClassRef f)) (Hmr : forall f, P (TModuleRef f))
  (Hl : forall l, P (TLit l))
  (Ha : forall l, Forall P l -> P (TArray l))
  (Hh : forall k v, Forall P k -> Forall P v -> P (THash k v))
  (Hu : forall l, Forall P l -> P (TUnion l))
  (Hx : P TUnknown)
  (Hs : forall fs rest ex fr t, Forall (fun f => P (fval f)) fs ->
        (forall a b, rest = Some (a, b) -> P a /\ P b) -> try_new fs rest ex fr = inl t -> P t) :
  forall t, built t -> P t.
Proof.
  fix IH 2. intros t [f|f|f|f|l|l F|k v F G|l F| |fs rest ex fr t' F R T].
  - apply Hc. - apply Hm. - apply Hcr. - apply Hmr. - apply Hl.
  - apply Ha. induction F; constructor; auto.
  - apply Hh; [induction F|induction G]; constructor; auto.
  - apply Hu. induction F; constructor; auto.
  - apply Hx.
  - eapply Hs; [| |exact T].
    + clear T. induction F; constructor; auto.
    + intros a b E. destruct (R a b E). split; auto.
Qed.
Lemma maxl_map_ext {A} (f g : A -> nat) l : Forall (fun x => f x = g x) l -> maxl (map f l) = maxl (map g l).
Proof. induction 1; [reflexivity|]. cbn [map]. rewrite !maxl_cons. congruence. Qed.
Lemma built_depth : forall t, built t -> shape_depth t = nesting t.
Proof.
  apply built_ind'; cbn; auto.
  - intros l F. apply maxl_map_ext, F.
  - intros k v F G. f_equal; apply maxl_map_ext; assumption.
  - intros l F. apply maxl_map_ext, F.
  - intros fs rest ex fr t F R T. apply try_new_inl in T as [_ [-> _]]. cbn [shape_depth nesting]. f_equal. unfold inner_depth. f_equal.
    + transitivity (maxl (map (fun f => nesting (fval f)) (fsort fs))).
      * rewrite (maxl_perm _ _ (Permutation_map _ (fsort_perm fs))).
        apply maxl_map_ext. eapply Permutation_Forall; [apply fsort_perm|exact F].
      * apply f_equal, map_ext. intros [[k v] r]. reflexivity.
    + destruct rest as [[a b]|]; [|reflexivity]. destruct (R a b eq_refl) as [-> ->]. reflexivity.
Qed.
