(** The types that the analysis of literals builds: well formed, with exact shapes that have only
    required keys. *)
From Coq Require Import List Arith Bool Lia Permutation.
From Verif Require Import Types_Model Types_Spec Types_Order Types_Union Types_Shape Types_Widen Types_Sub Types_Total Literal_Model Literal_Spec Literal_Proofs.
Import ListNotations.

(** Induction over nodes. *)
Definition parts (e : helem node) : list node := match e with HPair k v => [k; v] | HSplat (Some n) => [n] | _ => [] end.
Lemma node_ind' (P : node -> Prop)
  (Hp : forall p, P (NPlain p)) (Hs : forall n, P (NStr n)) (Hms : P NMadeStr) (Hy : forall n, P (NSym n)) (Hmy : P NMadeSym)
  (Ha : forall l, Forall P l -> P (NArray l))
  (Hh : forall l, Forall (fun e => Forall P (parts e)) l -> P (NHash l))
  (Hi : forall r args, P r -> P (NIndex r args))
  (Hst : forall l, Forall P l -> P (NStatements l))
  (Hsp : forall o, P (NSplat o)) (Hr : forall l, P (NReturn l)) (Ho : forall i, P (NOther i)) : forall n, P n.
Proof.
  fix IH 1. intros [p|n| |n| |l|l|r args|l|o|l|i].
  - apply Hp. - apply Hs. - apply Hms. - apply Hy. - apply Hmy.
  - apply Ha. induction l; constructor; auto.
  - apply Hh. induction l as [|e l IHl]; constructor; auto. destruct e as [k v|[n|]|]; cbn; repeat constructor; apply IH.
  - apply Hi, IH.
  - apply Hst. induction l; constructor; auto.
  - apply Hsp. - apply Hr. - apply Ho.
Qed.

(** *** Few shapes *)
Lemma few_atoms l : (forall x, In x l -> is_union x = false) -> length (shapes l) <= 8 -> few_shapes l.
Proof.
  intros A L ks N H. eapply Nat.le_trans; [|exact L]. apply NoDup_incl_length; auto. intros x I. destruct (H x I) as [S1 S2].
  rewrite flatten_atoms in S2 by exact A. apply filter_In. auto.
Qed.
Lemma wf_few t : well_formed t -> few_shapes [t].
Proof.
  intros W. destruct (is_union t) eqn:U.
  - destruct t; try discriminate. apply wf_union_inv in W as (_ & F & A & _). eapply few_sub; [|exact F]. intros x I. right.
    cbn in I. rewrite app_nil_r in I. rewrite flatten_atoms; auto.
  - apply few_atoms.
    + intros x [<-|[]]. exact U.
    + cbn. destruct (is_shape t); cbn; lia.
Qed.
Lemma members_few l : Forall well_formed l -> few_shapes (canonical_members l).
Proof.
  intros W. assert (M : few_shapes (members (union l))).
  { pose proof (flatten_flat l (wf_flats l W)) as FF. destruct (union_cases l); cbn [members]; try (apply few_atoms; [intros x [<-|[]]; reflexivity|cbn; lia]).
    - assert (is_union x = false) as U. { apply FF. apply in_canon. rewrite H0. now left. }
      apply few_atoms.
      + destruct x; cbn [members]; try (intros y [<-|[]]; assumption). discriminate.
      + destruct x; cbn; try lia. discriminate.
    - apply few_atoms; auto. intros x I. apply FF. apply in_canon. congruence. }
  destruct l as [|x [|y l]]; cbn [canonical_members]; auto.
  - inversion W; subst. destruct x; auto using wf_few.
Qed.
Lemma wf_array_type l : Forall well_formed l -> well_formed (array_type l).
Proof.
  intros W. unfold array_type. destruct l as [|t l].
  - constructor; [discriminate|apply few_atoms; [intros x [<-|[]]; reflexivity|cbn; lia]|repeat constructor].
  - constructor; auto using members_nonempty, members_few, wf_canonical_members.
Qed.
Lemma wf_any_union l : Forall well_formed l -> well_formed (union l).
Proof.
  intros W. pose proof (flatten_flat l (wf_flats l W)) as FF.
  pose proof (flatten_pres well_formed l wf_members W) as FW. rewrite Forall_forall in FW.
  destruct (union_cases l); try constructor.
  - apply FW. apply in_canon. rewrite H0. left. reflexivity.
  - destruct v; [cbn in *; lia|discriminate].
  - apply few_atoms; auto. intros x I. apply FF. apply in_canon. congruence.
  - subst v. intros y J. apply FF. apply in_canon. exact J.
  - subst v. apply Forall_forall. intros y J. apply FW. apply in_canon. exact J.
Qed.
Lemma union_with_pres (P : ty -> Prop) a b : P TUnknown -> (forall k, P (TUnion k) -> Forall P k) -> (forall l, Forall P l -> P (union l)) ->
  P a -> P b -> P (union_with a b).
Proof.
  intros N U V A B. unfold union_with. destruct (eqb a b); auto.
  destruct a, b; auto; apply V; auto; try (apply Forall_app; split; auto).
Qed.

(** *** Literal shapes *)
Definition literal_shapes : ty -> Prop := every_shape (fun fs rest ex => ex = true /\ rest = None /\ forall f, In f fs -> freq f = true).
Lemma ls_union l : literal_shapes (TUnion l) <-> Forall literal_shapes l.
Proof.
  split.
  - intros H. apply Forall_forall. intros x I. eapply every_shape_part; [|exact H]. eapply Occ_union; [exact I|constructor].
  - intros H fs rest ex fr d O. inversion O; subst. rewrite Forall_forall in H. eapply H; eauto.
Qed.
Lemma ls_array l : literal_shapes (TArray l) <-> Forall literal_shapes l.
Proof.
  split.
  - intros H. apply Forall_forall. intros x I. eapply every_shape_part; [|exact H]. eapply Occ_array; [exact I|constructor].
  - intros H fs rest ex fr d O. inversion O; subst. rewrite Forall_forall in H. eapply H; eauto.
Qed.
Lemma ls_hash k v : literal_shapes (THash k v) <-> Forall literal_shapes k /\ Forall literal_shapes v.
Proof.
  split.
  - intros H. split; apply Forall_forall; intros x I; (eapply every_shape_part; [|exact H]).
    + eapply Occ_key; [exact I|constructor].
    + eapply Occ_value; [exact I|constructor].
  - intros [H1 H2] fs rest ex fr d O. rewrite Forall_forall in H1, H2. inversion O; subst.
    + eapply H1; eauto. + eapply H2; eauto.
Qed.
Lemma ls_shape fs rest ex fr d : literal_shapes (TShape fs rest ex fr d) <->
  ex = true /\ rest = None /\ Forall (fun f => freq f = true /\ literal_shapes (fval f)) fs.
Proof.
  split.
  - intros H. destruct (H fs rest ex fr d (Occ_self _)) as (H1 & H2 & H3). do 2 (split; auto). apply Forall_forall. intros f I. split; auto.
    eapply every_shape_part; [|exact H]. eapply Occ_field; [exact I|constructor].
  - intros (-> & -> & H) fs' rest' ex' fr' d' O. rewrite Forall_forall in H. inversion O; subst.
    + do 2 (split; auto). intros f I. apply H, I.
    + match goal with I : In ?f fs |- _ => destruct (H f I) as [_ Q] end. eapply Q; eauto.
Qed.
Lemma ls_unknown : literal_shapes TUnknown.
Proof. intros fs rest ex fr d O. inversion O. Qed.
Lemma ls_class f : literal_shapes (TClass f).
Proof. intros fs rest ex fr d O. inversion O. Qed.
Lemma ls_lit l : literal_shapes (TLit l).
Proof. intros fs rest ex fr d O. inversion O. Qed.
Lemma ls_widened l : literal_shapes (widened l).
Proof. destruct l; apply ls_class. Qed.
Lemma ls_members l : Forall literal_shapes l -> Forall literal_shapes (canonical_members l).
Proof. apply canonical_members_pres; [apply ls_unknown|]. intros k. apply ls_union. Qed.
Lemma ls_any_union l : Forall literal_shapes l -> literal_shapes (union l).
Proof. intros F. apply union_pres; auto; [apply ls_unknown|intros k; apply ls_union|intros k; apply ls_union]. Qed.
Lemma Forall2_ls l l' : Forall2 (fun x y => widen x = Some y) l l' ->
  Forall (fun t => forall t', literal_shapes t -> widen t = Some t' -> literal_shapes t') l -> Forall literal_shapes l -> Forall literal_shapes l'.
Proof.
  intros F H R. apply Forall_forall. intros y Y. destruct (Forall2_in_r _ _ _ _ F Y) as [x [X W]].
  rewrite Forall_forall in H, R. eauto.
Qed.
Lemma widen_ls : forall t t', literal_shapes t -> widen t = Some t' -> literal_shapes t'.
Proof.
  induction t as [f|f|f|f|l|l H|k w H H0|fs rest ex fr d H H0|l H|] using ty_ind'; intros t' R W; cbn [widen] in W;
    try (injection W as <-; exact R).
  - injection W as <-. apply ls_widened.
  - destruct (seqo (map widen l)) as [l'|] eqn:E; [|discriminate]. apply seqo_map in E.
    assert (t' = TArray (canonical_members l')) as -> by (cbn in W; congruence).
    apply ls_array. apply ls_members. eapply Forall2_ls; eauto. apply ls_array, R.
  - destruct (seqo (map widen k)) as [k'|] eqn:E; [|discriminate]. apply seqo_map in E.
    destruct (seqo (map widen w)) as [w'|] eqn:E2; [|discriminate]. apply seqo_map in E2.
    assert (t' = THash (canonical_members k') (canonical_members w')) as -> by congruence.
    apply ls_hash in R as [R1 R2].
    apply ls_hash. split; apply ls_members; eapply Forall2_ls; eauto.
  - apply (widen_shape fs rest ex fr d t') in W as [fs' [rest' [F [RR T]]]].
    apply try_new_inl in T as [_ [-> _]]. apply ls_shape in R as (-> & -> & R).
    destruct rest'; [contradiction|]. apply ls_shape. do 2 (split; [reflexivity|]).
    apply Forall_forall. intros f' I. apply (Permutation_in _ (Permutation_sym (fsort_perm fs'))) in I.
    destruct (Forall2_in_r _ _ _ _ F I) as [f [J [_ [FR W]]]]. rewrite Forall_forall in H, R. destruct (R f J) as [R1 R2]. split; [congruence|]. eapply H; eauto.
  - destruct (seqo (map widen l)) as [l'|] eqn:E; [|discriminate]. apply seqo_map in E.
    assert (t' = union l') as -> by (cbn in W; congruence).
    apply ls_any_union. eapply Forall2_ls; eauto. apply ls_union, R.
Qed.

(** *** Both *)
Definition nice (t : ty) : Prop := well_formed t /\ literal_shapes t.
Lemma nices l : Forall nice l <-> Forall well_formed l /\ Forall literal_shapes l.
Proof. split; [intros H; split; eapply Forall_impl; [|exact H| |exact H]; intros t [A B]; auto|intros [A B]; rewrite Forall_forall in *; intros t I; split; auto]. Qed.
Lemma nice_unknown : nice TUnknown.
Proof. split; [constructor|apply ls_unknown]. Qed.
Lemma nice_widen t : nice t -> exists t', widen t = Some t' /\ nice t'.
Proof. intros [W L]. destruct (widen_total t W) as [t' [E Q]]. exists t'. split; auto. split; [apply Q|eapply widen_ls; eauto]. Qed.
Lemma nice_fields fs rest ex fr d : nice (TShape fs rest ex fr d) ->
  ex = true /\ rest = None /\ NoDup (map fkey fs) /\ Forall (fun f => freq f = true /\ nice (fval f) /\ contains_unknown (fval f) = false) fs.
Proof.
  intros [W L]. apply ls_shape in L as (-> & -> & L). do 2 (split; auto). inversion W; subst. apply try_new_inl in H1 as (A & E & SS). injection E as -> <- <- -> _.
  split; [apply sorted_keys_nodup, SS|]. rewrite Forall_forall in *. intros f I. destruct (L f I) as [L1 L2]. split; auto.
  assert (J : In f fs0) by (eapply Permutation_in; [apply Permutation_sym, fsort_perm|exact I]). split; [split; auto|]. apply (ac_proven _ _ _ A f J).
Qed.
Lemma nice_generic fs fr d : nice (TShape fs None true fr d) ->
  exists ks vs, generic_hash fs None true = Some (THash ks vs) /\ Forall nice ks /\ Forall nice vs /\ ks <> [] /\ vs <> [].
Proof.
  intros H. apply nice_fields in H as (_ & _ & _ & F). unfold generic_hash. cbv zeta.
  destruct (seqo_total (fun f => widen (fval f)) fs) as [vals E].
  { intros f I. rewrite Forall_forall in F. destruct (F f I) as (_ & Q & _). destruct (nice_widen _ Q) as (t' & T & _). eauto. }
  rewrite E. apply seqo_map in E. eexists. eexists. split; [reflexivity|].
  assert (K : Forall nice (map (fun f => widened (fkey f)) fs ++ [])).
  { rewrite app_nil_r. apply Forall_forall. intros x I. apply in_map_iff in I as [f [<- _]]. split; [destruct (fkey f); constructor|apply ls_widened]. }
  assert (V : Forall nice (vals ++ [])).
  { rewrite app_nil_r. apply Forall_forall. intros y Y. destruct (Forall2_in_r _ _ _ _ E Y) as [f [I Q]]. rewrite Forall_forall in F. destruct (F f I) as (_ & N & _).
    destruct (nice_widen _ N) as (t' & T & N'). assert (y = t') as -> by congruence. exact N'. }
  apply nices in K as [K1 K2]. apply nices in V as [V1 V2].
  split; [apply nices; split; auto using wf_canonical_members, ls_members|]. split; [apply nices; split; auto using wf_canonical_members, ls_members|].
  split; apply members_nonempty; assumption.
Qed.

Definition nice_elem (e : elem) : Prop := match e with EPair _ kt vt => nice kt /\ nice vt | ESplat t => nice t | EElse => True end.
Record nice_acc (a : acc) : Prop := {
  n_fields : Forall (fun f => freq f = true /\ nice (fval f) /\ contains_unknown (fval f) = false) (a_fields a);
  n_unique : NoDup (map fkey (a_fields a));
  n_keys : Forall nice (a_keys a);
  n_values : Forall nice (a_values a) }.
Lemma nice_step a e : nice_acc a -> nice_elem e -> exists a', step a e = Some a' /\ nice_acc a'.
Proof.
  intros [H1 H0 H2 H3] N.
  assert (U : nice_acc (mkA (a_fields a) (a_keys a ++ [TUnknown]) (a_values a ++ [TUnknown]) false)).
  { constructor; cbn; auto; apply Forall_app; split; auto; constructor; auto using nice_unknown. }
  assert (X : forall ks vs fs c, Forall nice ks -> Forall nice vs -> Forall (fun f => freq f = true /\ nice (fval f) /\ contains_unknown (fval f) = false) fs -> NoDup (map fkey fs) ->
    nice_acc (mkA fs (a_keys a ++ ks) (a_values a ++ vs) c)).
  { intros. constructor; cbn; auto; apply Forall_app; auto. }
  destruct e as [k kt vt|t|]; cbn [step].
  - destruct N as [N1 N2]. destruct (nice_widen _ N1) as (kt' & -> & K). destruct (nice_widen _ N2) as (vt' & -> & V).
    destruct k as [k|]; [destruct (contains_unknown vt) eqn:CU|]; eexists; (split; [reflexivity|]); apply X; auto.
    + rewrite Forall_forall in *. intros f I. apply in_put in I as [->|[I _]]; auto.
    + apply put_unique, H0.
  - destruct t as [f|f|f|f|c|m|ks m|fs rest ex fr d|m|]; try (eexists; split; [reflexivity|exact U]).
    + eexists. split; [reflexivity|]. destruct N as [N1 N2]. apply ls_hash in N2 as [L1 L2]. inversion N1; subst; [|apply try_new_inl in H5 as (_ & E & _); discriminate].
      apply X; auto; apply nices; auto.
    + pose proof N as NF. apply nice_fields in NF as (-> & -> & ND & F). destruct (nice_generic _ _ _ N) as (ks & vs & -> & G1 & G2 & _). cbn.
      eexists. split; [reflexivity|]. apply X; auto.
      * rewrite Forall_forall in *. intros f I. apply (in_puts fs ND) in I as [I|[I _]]; auto.
      * apply puts_unique, H0.
  - eexists. split; [reflexivity|exact U].
Qed.
Lemma nice_steps l : Forall nice_elem l -> forall a, nice_acc a -> exists a', steps a l = Some a' /\ nice_acc a'.
Proof.
  induction 1 as [|e l N F IH]; intros a H; cbn [steps]; [eauto|]. destruct (nice_step a e H N) as (b & -> & B). apply IH, B.
Qed.
Lemma nice_finish a t : nice_acc a -> finish a = inl t -> nice t.
Proof.
  intros [H1 H0 H2 H3]. unfold finish. destruct (a_complete a); intros E.
  - split.
    + eapply W_shape; [| |exact E]; [|discriminate]. rewrite Forall_forall in *. intros f I. apply H1, I.
    + apply try_new_inl in E as (_ & -> & _). apply ls_shape. do 2 (split; auto). eapply Permutation_Forall; [apply fsort_perm|].
      rewrite Forall_forall in *. intros f I. destruct (H1 f I) as (Q1 & Q2 & _). split; auto. apply Q2.
  - injection E as <-. apply nices in H2 as [K1 K2]. apply nices in H3 as [V1 V2]. split.
    + constructor; auto using members_nonempty, members_few, wf_canonical_members.
    + apply ls_hash. split; apply ls_members; assumption.
Qed.
Lemma nice_reason a e : nice_acc a -> finish a = inr e -> reason_given e = true.
Proof.
  intros [H1 H0 H2 H3]. unfold finish. destruct (a_complete a); [|discriminate]. intros E. pose proof (try_new_cases (a_fields a) None true false) as T. rewrite E in T.
  rewrite Forall_forall in H1.
  destruct e; cbn in T |- *; auto.
  - tauto.
  - destruct T as [_ T]. congruence.
  - destruct T as (f & I & K & Q). destruct (H1 f I) as (_ & _ & C). congruence.
  - destruct T as (x & y & Q & _). discriminate.
Qed.
Lemma nice_start : nice_acc (mkA [] [] [] true).
Proof. constructor; constructor. Qed.

Lemma nice_elem_of f e : (forall n, In n (parts e) -> exists t, f n = Some t /\ nice t) -> exists x, elem_of f e = Some x /\ nice_elem x.
Proof.
  intros H. destruct e as [k v|[n|]|]; cbn [elem_of].
  - destruct (H k) as (kt & -> & K); [now left|]. destruct (literal_value v) as [t|] eqn:L.
    + eexists. split; [reflexivity|]. cbn. split; auto. destruct v; try discriminate. injection L as <-. split; [constructor|apply ls_lit].
    + destruct (H v) as (vt & -> & V); [right; now left|]. eexists. split; [reflexivity|]. cbn. auto.
  - destruct (H n) as (t & -> & T); [now left|]. eexists. split; [reflexivity|exact T].
  - eexists. split; [reflexivity|apply nice_unknown].
  - eexists. split; [reflexivity|exact Logic.I].
Qed.
Lemma seqo_nice {A B} (P : B -> Prop) (f : A -> option B) l : (forall x, In x l -> exists t, f x = Some t /\ P t) -> exists ts, seqo (map f l) = Some ts /\ Forall P ts.
Proof.
  induction l as [|x l IH]; cbn; intros H; [eauto|]. destruct (H x (or_introl eq_refl)) as (t & -> & T). destruct IH as (ts & -> & F); [auto|]. cbn. eauto.
Qed.
Lemma nice_plain c : nice (TClass c).
Proof. split; [constructor|apply ls_class]. Qed.
Lemma nice_index t u : nice t -> index_type t = Some u -> nice u.
Proof.
  intros [W L] E.
  assert (V : forall l, Forall nice l -> nice (union l)). { intros l H. apply nices in H as [A B]. split; auto using wf_any_union, ls_any_union. }
  assert (M : forall k, nice (TUnion k) -> Forall nice k). { intros k [A B]. apply nices. split; [apply wf_members, A|apply ls_union, B]. }
  assert (Q : forall a, nice a -> nice (union_with a nil_class)).
  { intros a A. apply (union_with_pres nice); auto using nice_unknown. apply nice_plain. }
  destruct t as [f|f|f|f|c|m|ks m|fs rest ex fr d|m|]; try discriminate.
  - apply ls_array in L. inversion W; subst; [|apply try_new_inl in H1 as (_ & E' & _); discriminate].
    assert (F : Forall nice m) by (apply nices; auto). destruct m as [|x [|y m]]; cbn in E; injection E as <-; [apply nice_plain|inversion F; auto|apply V, F].
  - apply ls_hash in L as [L1 L2]. inversion W; subst; [|apply try_new_inl in H1 as (_ & E' & _); discriminate].
    assert (F : Forall nice m) by (apply nices; auto). destruct m as [|x [|y m]]; cbn in E; injection E as <-; [apply nice_plain|apply Q; inversion F; auto|apply Q, V, F].
Qed.
Lemma nice_analyze : forall n, exists o, analyze n = Some o /\ nice (known o).
Proof.
  assert (G : forall n, (exists o, analyze n = Some o /\ nice (known o)) -> exists t, option_map known (analyze n) = Some t /\ nice t).
  { intros n (o & -> & H). exists (known o). auto. }
  induction n as [p|n| |n| |l H|l H|r args H|l H|o|l|i] using node_ind'; cbn [analyze]; try (eexists; split; [reflexivity|first [apply nice_plain|apply nice_unknown]]).
  - destruct (seqo_nice nice (fun m => option_map known (analyze m)) l) as (ts & -> & F).
    { intros x I. rewrite Forall_forall in H. apply G, H, I. }
    cbn. eexists. split; [reflexivity|]. cbn. apply nices in F as [F1 F2]. split; [apply wf_array_type, F1|]. apply ls_array. destruct ts; [constructor; auto using ls_unknown|apply ls_members, F2].
  - destruct (seqo_nice nice_elem (elem_of (fun m => option_map known (analyze m))) l) as (es & -> & F).
    { intros e I. apply nice_elem_of. intros n J. rewrite Forall_forall in H. specialize (H e I). rewrite Forall_forall in H. apply G, H, J. }
    unfold hash_type. destruct (nice_steps es F _ nice_start) as (a & -> & A). cbn. destruct (finish a) as [t|e] eqn:E.
    + eexists. split; [reflexivity|]. eapply nice_finish; eauto.
    + eexists. split; [reflexivity|apply nice_unknown].
  - destruct H as ([t|] & -> & N); [|eexists; split; [reflexivity|apply nice_unknown]]. eexists. split; [reflexivity|].
    destruct (index_type t) eqn:E; [eapply nice_index; eauto|apply nice_unknown].
  - destruct l as [|x l]; [eexists; split; [reflexivity|apply nice_unknown]|]. inversion H; auto.
Qed.
Lemma nice_built t : well_formed t -> built t.
Proof.
  revert t. apply wf_ind'; try (intros; constructor; auto; fail). intros. eapply B_shape; eauto.
Qed.
