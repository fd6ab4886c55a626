(** C107: the type given to a literal describes what the literal evaluates to. *)
From Coq Require Import List Arith Bool Lia Permutation.
From Verif Require Import Types_Model Types_Spec Types_Order Types_Union Types_Shape Types_Widen Types_Sub Types_Total Types_Props ShapeRead_Spec ShapeRead_Props Literal_Model Literal_Spec Literal_Proofs Literal_Invariants.
Import ListNotations.

Scheme ev_min := Minimality for ev Sort Prop
with evs_min := Minimality for evs Sort Prop
with writes_min := Minimality for writes Sort Prop.
Combined Scheme ev_all from ev_min, evs_min, writes_min.

Section Sound.
Variables (named : meaning) (nil : val) (other : nat -> val -> Prop).
Hypothesis core : core_classes named.
Hypothesis nil_is : named InstanceOfClass (const_name nil_text) nil.
Notation D := (den named).
Notation some := (described_by_some named).
Notation E := (ev named nil other False).

Lemma infer_den n v : (forall t, analyze n = Some (Some t) -> D t v) -> forall t, infer n = Some t -> D t v.
Proof.
  intros H t. unfold infer. destruct (analyze n) as [[u|]|] eqn:A; cbn; intros Q; [|injection Q as <-; exact Logic.I|discriminate].
  injection Q as <-. auto.
Qed.
Lemma key_den k x : E k x -> forall k', literal_key k = Some k' -> x = litval k'.
Proof. intros H k' Q. destruct k; try discriminate; injection Q as <-; inversion H; reflexivity. Qed.
Lemma value_den v y : E v y -> forall t, literal_value v = Some t -> D t y.
Proof. intros H t Q. destruct v; try discriminate; injection Q as <-; inversion H; reflexivity. Qed.
Lemma index_array l us v u : D (TArray l) (VArr us) -> In v us -> index_type (TArray l) = Some u -> D u v.
Proof.
  intros H I Q. apply den_array in H as (vs & Q1 & H). injection Q1 as <-. specialize (H v I).
  destruct l as [|x [|y l]]; cbn in Q; injection Q as <-.
  - destruct H as (t & [] & _).
  - destruct H as (t & [<-|[]] & H). exact H.
  - apply union_complete, H.
Qed.
Lemma index_hash ks vs es x y u : D (THash ks vs) (VHash es) -> reads nil es x y -> index_type (THash ks vs) = Some u -> D u y.
Proof.
  intros H R Q. apply den_hash in H as (es' & Q1 & H). injection Q1 as <-. destruct R as [I|[-> _]].
  - destruct (H x y I) as [_ V]. destruct vs as [|a [|b vs]]; cbn in Q; injection Q as <-.
    + destruct V as (t & [] & _).
    + destruct V as (t & [<-|[]] & V). apply union_with_complete. now left.
    + apply union_with_complete. left. apply union_complete, V.
  - destruct vs as [|a [|b vs]]; cbn in Q; injection Q as <-; [exact nil_is|apply union_with_complete; now right|apply union_with_complete; now right].
Qed.
Lemma index_of_array t us v u : D t (VArr us) -> In v us -> index_type t = Some u -> D u v.
Proof.
  intros H I Q. destruct t; try discriminate; [eapply index_array; eauto|]. apply den_hash in H as (es & Q1 & _). discriminate.
Qed.
Lemma index_of_hash t es x y u : D t (VHash es) -> reads nil es x y -> index_type t = Some u -> D u y.
Proof.
  intros H I Q. destruct t; try discriminate; [|eapply index_hash; eauto]. apply den_array in H as (vs & Q1 & _). discriminate.
Qed.
Lemma index_of_else t w u : D t w -> (forall us, w <> VArr us) -> (forall es, w <> VHash es) -> index_type t = Some u -> False.
Proof.
  intros H N M Q. destruct t; try discriminate; [apply den_array in H as (vs & -> & _)|apply den_hash in H as (es & -> & _)]; [eapply N|eapply M]; reflexivity.
Qed.
Lemma index_eq r args t : analyze (NIndex r args) = Some (Some t) -> exists u, analyze r = Some (Some u) /\ index_type u = Some t.
Proof. cbn [analyze]. destruct (analyze r) as [[u|]|]; try discriminate. intros Q. injection Q as Q. eauto. Qed.
Lemma elem_pair f k v e : elem_of f (HPair k v) = Some e -> exists kt vt, e = EPair (literal_key k) kt vt /\ f k = Some kt /\ (literal_value v = Some vt \/ (literal_value v = None /\ f v = Some vt)).
Proof.
  cbn. destruct (f k) as [kt|]; [|discriminate]. destruct (literal_value v) as [t|] eqn:L; [|destruct (f v) as [t|] eqn:V; [|discriminate]]; intros Q; injection Q as <-; eauto 8.
Qed.
Lemma seqo_cons {A B} (f : A -> option B) x l r : seqo (map f (x :: l)) = Some r -> exists y ys, f x = Some y /\ seqo (map f l) = Some ys /\ r = y :: ys.
Proof. cbn. destruct (f x) as [y|]; [|discriminate]. destruct (seqo (map f l)) as [ys|]; [|discriminate]. cbn. intros Q. injection Q as <-. eauto. Qed.
Lemma nice_splat_ok e : nice_elem e -> splat_ok e.
Proof.
  destruct e as [| |]; cbn; auto. destruct t; auto. intros N. apply nice_fields in N as (_ & _ & ND & F). split; auto. rewrite Forall_forall in F. intros f I. apply F, I.
Qed.
Lemma parts_nice l es : seqo (map (elem_of infer) l) = Some es -> Forall nice_elem es.
Proof.
  intros Q. destruct (seqo_nice nice_elem (elem_of infer) l) as (ts & T & F).
  - intros e I. apply nice_elem_of. intros n J. destruct (nice_analyze n) as (o & A & N). exists (known o). unfold infer. rewrite A. auto.
  - congruence.
Qed.

Lemma all_sound :
  (forall n v, E n v -> forall t, analyze n = Some (Some t) -> D t v) /\
  (forall l vs, evs named nil other False l vs -> forall ts, seqo (map infer l) = Some ts -> forall v, In v vs -> some ts v) /\
  (forall l ws, writes named nil other False l ws -> forall es, seqo (map (elem_of infer) l) = Some es -> described named es ws).
Proof.
  destruct core as [cs cst].
  apply ev_all.
  - intros p c v I H t Q. cbn in Q. injection Q as <-. inversion I; subst; exact H.
  - intros n t Q. cbn in Q. injection Q as <-. apply cst.
  - intros n t Q. cbn in Q. injection Q as <-. apply cst.
  - intros n t Q. cbn in Q. injection Q as <-. apply cs.
  - intros n t Q. cbn in Q. injection Q as <-. apply cs.
  - intros l vs _ IH t Q. cbn [analyze] in Q. fold infer in Q. destruct (seqo (map _ l)) as [ts|] eqn:S1; [|discriminate]. cbn in Q. injection Q as <-.
    apply array_den. intros v I. eapply IH; eauto.
  - intros l ws es _ IH R t Q. cbn [analyze] in Q. fold infer in Q. destruct (seqo (map _ l)) as [ps|] eqn:S1; [|discriminate].
    destruct (hash_type ps) as [[u|e]|] eqn:HT; [|injection Q as <-; exact Logic.I|discriminate]. injection Q as <-.
    eapply hash_den; eauto. eapply Forall_impl; [intros e; apply nice_splat_ok|]. eapply parts_nice. exact S1.
  - intros r args us v _ IH I t Q. apply index_eq in Q as (u & Q1 & Q2). eapply index_of_array; eauto.
  - intros r args us [].
  - intros r args us a b c [].
  - intros r args es x y _ IH R t Q. apply index_eq in Q as (u & Q1 & Q2). eapply index_of_hash; eauto.
  - intros r args u v _ IH N M t Q. apply index_eq in Q as (w & Q1 & Q2). exfalso. eapply index_of_else; eauto.
  - intros x v _ IH t Q. apply IH. exact Q.
  - intros l x v [].
  - intros i v _ t Q. discriminate.
  - intros ts _ v [].
  - intros x l v vs _ IH1 _ IH2 ts Q u I. apply seqo_cons in Q as (t & ts' & Q1 & Q2 & ->). destruct I as [<-|I].
    + exists t. split; [now left|]. eapply infer_den; eauto.
    + destruct (IH2 ts' Q2 u I) as (w & W & V). exists w. split; [now right|exact V].
  - intros o l us vs _ IH ts Q u I. apply seqo_cons in Q as (t & ts' & Q1 & Q2 & ->). cbn in Q1. injection Q1 as <-.
    exists TUnknown. split; [now left|exact Logic.I].
  - intros es Q. cbn in Q. injection Q as <-. constructor.
  - intros k v l x y ws K IH1 V IH2 _ IH3 es Q. apply seqo_cons in Q as (e & es' & Q1 & Q2 & ->). apply elem_pair in Q1 as (kt & vt & -> & Q3 & Q4).
    constructor; auto.
    + eapply infer_den; eauto.
    + destruct Q4 as [Q4|[_ Q4]]; [eapply value_den; eauto|eapply infer_den; eauto].
    + eapply key_den; eauto.
  - intros n l us ws _ IH1 _ IH2 es Q. apply seqo_cons in Q as (e & es' & Q1 & Q2 & ->). cbn in Q1. destruct (infer n) as [t|] eqn:A; [|discriminate]. injection Q1 as <-.
    apply d_splat; auto. eapply infer_den; eauto.
  - intros n u l us ws _ IH1 N _ IH2 es Q. apply seqo_cons in Q as (e & es' & Q1 & Q2 & ->). cbn in Q1. destruct (infer n) as [t|] eqn:A; [|discriminate]. injection Q1 as <-.
    apply (d_splat_else named t u); auto. eapply infer_den; eauto.
  - intros l us ws _ IH es Q. apply seqo_cons in Q as (e & es' & Q1 & Q2 & ->). cbn in Q1. injection Q1 as <-.
    apply (d_splat named TUnknown); auto. exact Logic.I.
  - intros l us ws _ IH es Q. apply seqo_cons in Q as (e & es' & Q1 & Q2 & ->). cbn in Q1. injection Q1 as <-.
    apply d_else; auto.
Qed.
End Sound.

(** *** Soundness *)
(** Missing from the full claim: an index into an array out of its range or asking for a part of it,
    and lists of several statements (the [wild] rules); refuted below. *)
Theorem C107_literal_partial : forall named nil other n v t,
  core_classes named -> named InstanceOfClass (const_name nil_text) nil ->
  ev named nil other False n v -> analyze n = Some (Some t) -> den named t v.
Proof. intros named nil other n v t C N H. apply (proj1 (all_sound named nil other C N) n v H). Qed.
Print Assumptions C107_literal_partial.

(** For the other places that type hashes, where the types of the parts come from elsewhere: missing
    are splatted shapes with optional keys, refuted below. *)
Theorem C107_hash_partial : forall named l ws es t,
  core_classes named -> described named l ws -> (forall u, In (ESplat u) l -> built u) -> required_splats l ->
  result_of_writes ws es -> hash_type l = Some (inl t) -> den named t (VHash es).
Proof.
  intros named l ws es t C H B R W Q. eapply hash_den; eauto. apply Forall_forall. intros e I. destruct e as [| |]; cbn; auto. destruct t0; auto.
  split; [eapply built_keys; apply B; exact I|]. intros f F. eapply R; eauto.
Qed.
Print Assumptions C107_hash_partial.
Theorem C107_array : forall named l vs, (forall v, In v vs -> described_by_some named l v) -> den named (array_type l) (VArr vs).
Proof. exact array_den. Qed.
Print Assumptions C107_array.

(** Nothing panics, and the shapes are well formed. *)
Theorem C107_total : forall n, analyze n <> None /\ forall t, analyze n = Some (Some t) -> well_formed t.
Proof. intros n. destruct (nice_analyze n) as (o & Q & N). rewrite Q. split; [discriminate|]. intros t T. injection T as ->. apply N. Qed.
Print Assumptions C107_total.

(** The only errors are the two that are reported as a bound exceeded; any other would be a panic. *)
Theorem C107_errors : forall l e, (forall u, In (ESplat u) l -> built u) -> hash_type l = Some (inr e) -> reason_given e = true.
Proof.
  intros l e B. unfold hash_type. destruct (steps _ l) as [a|] eqn:S1; [|discriminate]. cbn. intros Q. injection Q as Q.
  assert (G : NoDup (map fkey (a_fields a)) /\ forall f, In f (a_fields a) -> contains_unknown (fval f) = false).
  { clear Q. assert (G0 : NoDup (map fkey (a_fields (mkA [] [] [] true))) /\ forall f, In f (a_fields (mkA [] [] [] true)) -> contains_unknown (fval f) = false) by (split; [constructor|easy]).
    revert G0 S1. generalize (mkA [] [] [] true) as b. induction l as [|x l IH]; intros b G S1; cbn [steps] in S1; [injection S1 as <-; exact G|].
    destruct (step b x) as [c|] eqn:S2; [|discriminate]. eapply IH; [intros; apply B; now right| |exact S1]. destruct G as [G1 G2]. clear IH S1.
    destruct x as [k kt vt|t|]; cbn [step] in S2.
    - destruct (widen kt); [|discriminate]. destruct (widen vt); [|discriminate]. destruct k as [k|]; [destruct (contains_unknown vt) eqn:U|]; injection S2 as <-; cbn [a_fields]; auto.
      split; [apply put_unique, G1|]. intros f I. apply in_put in I as [->|[I _]]; auto.
    - destruct t as [f|f|f|f|i|m|ks m|fs rest ex fr d|m|]; try (injection S2 as <-; cbn [a_fields]; auto; fail).
      destruct (generic_hash fs rest ex) as [[ | | | | | | ks vs| | | ]|]; try discriminate.
      destruct (ex && _); injection S2 as <-; cbn [a_fields]; auto.
      specialize (B _ (or_introl eq_refl)). split; [apply puts_unique, G1|]. intros f I. apply (in_puts fs (built_keys _ _ _ _ _ B)) in I as [I|[I _]]; auto.
      inversion B; subst. apply try_new_inl in H1 as (A & Q & _). injection Q as -> _ _ _ _. apply (ac_proven _ _ _ A). eapply Permutation_in; [apply Permutation_sym, fsort_perm|exact I].
    - injection S2 as <-. cbn [a_fields]. auto. }
  destruct G as [G1 G2]. unfold finish in Q. destruct (a_complete a); [|discriminate]. pose proof (try_new_cases (a_fields a) None true false) as T. rewrite Q in T.
  destruct e; cbn in T |- *; auto.
  - tauto.
  - destruct T as [_ T]. congruence.
  - destruct T as (f & I & K & X). rewrite (G2 f I) in X. discriminate.
  - destruct T as (x & y & X & _). discriminate.
Qed.
Print Assumptions C107_errors.

(** *** Precision *)
(** A hash literal with symbols or strings as keys, and values of known types, is typed as exactly the
    keys it writes, each with the type of the last value written to it. *)
Definition last_value (l : list (lit * ty * ty)) (k : lit) (t : ty) : Prop :=
  exists a b kt, l = a ++ (k, kt, t) :: b /\ forall kt' t', ~ In (k, kt', t') b.
Definition pairs (l : list (lit * ty * ty)) : list elem := map (fun p => match p with (k, kt, vt) => EPair (Some k) kt vt end) l.
Theorem C107_exact : forall l,
  (forall k kt vt, In (k, kt, vt) l -> well_formed kt /\ well_formed vt /\ contains_unknown vt = false /\ shape_depth vt < 8) ->
  length l <= 32 ->
  exists fs d, hash_type (pairs l) = Some (inl (TShape fs None true false d)) /\
    NoDup (map fkey fs) /\ forall f, In f fs <-> freq f = true /\ last_value l (fkey f) (fval f).
Proof.
  intros l H L.
  assert (G : forall l, (forall k kt vt, In (k, kt, vt) l -> well_formed kt /\ well_formed vt /\ contains_unknown vt = false /\ shape_depth vt < 8) ->
    exists a, steps (mkA [] [] [] true) (pairs l) = Some a /\ a_complete a = true /\ NoDup (map fkey (a_fields a)) /\ length (a_fields a) <= length l /\
      forall f, In f (a_fields a) <-> freq f = true /\ last_value l (fkey f) (fval f)).
  { clear. intros l. induction l as [|[[k kt] vt] l IH] using rev_ind; intros H.
    - eexists. split; [reflexivity|]. cbn. do 3 (split; [auto; constructor|]). intros f. split; [easy|]. intros [_ (a & b & kt & Q & _)]. destruct a; discriminate.
    - destruct IH as (a & S1 & C & N & Le & I). { intros. apply (H k0 kt0). apply in_or_app. now left. }
      destruct (H k kt vt) as (W1 & W2 & U & _). { apply in_or_app. right. now left. }
      destruct (widen_total kt W1) as (kt' & E1 & _). destruct (widen_total vt W2) as (vt' & E2 & _).
      assert (S2 : forall b l1 l2, steps b (l1 ++ l2) = match steps b l1 with Some c => steps c l2 | None => None end).
      { intros b l1 l2. revert b. induction l1 as [|e l1 IH]; intros b; cbn; auto. destruct (step b e); auto. }
      unfold pairs. rewrite map_app, S2. fold (pairs l). rewrite S1. cbn [map steps step]. rewrite E1, E2, U. eexists. split; [reflexivity|]. cbn [a_complete a_fields].
      split; [exact C|]. split; [apply put_unique, N|]. split.
      + unfold put. rewrite !app_length. assert (X : forall p (fs : list field), length (filter p fs) <= length fs).
        { clear. intros p fs. induction fs as [|f fs IH]; cbn; auto. destruct (p f); cbn; lia. } eapply Nat.le_trans; [apply Nat.add_le_mono_r, X|]. cbn [length]. lia.
      + intros f. rewrite in_put, I. split.
        * intros [->|[[F (x & y & t & Q & M)] K]].
          -- split; auto. exists l, [], kt. split; [reflexivity|easy].
          -- split; auto. exists x, (y ++ [(k, kt, vt)]), t. split; [rewrite Q, <- app_assoc; reflexivity|]. intros t1 t2 J. apply in_app_or in J as [J|[J|[]]]; [eapply M; eauto|]. injection J as J _ _. apply K. symmetry. exact J.
        * intros [F (x & y & t & Q & M)]. destruct y as [|p y _] using rev_ind.
          -- apply app_inj_tail in Q as [_ Q]. injection Q as Q1 _ Q2. left. destruct f as [[fk fv] fr]. cbn in *. subst. reflexivity.
          -- change ((fkey f, t, fval f) :: y ++ [p]) with (((fkey f, t, fval f) :: y) ++ [p]) in Q. rewrite app_assoc in Q. apply app_inj_tail in Q as [Q <-]. right. split.
             ++ split; auto. exists x, y, t. split; auto. intros t1 t2 J. apply (M t1 t2). apply in_or_app. now left.
             ++ intros K. cbn in K. apply (M kt vt). apply in_or_app. right. left. rewrite K. reflexivity. }
  destruct (G l H) as (a & S1 & C & N & Le & I). unfold hash_type. rewrite S1. cbn [option_map]. unfold finish. rewrite C.
  assert (O : forall f, In f (a_fields a) -> contains_unknown (fval f) = false /\ shape_depth (fval f) <= 7).
  { intros f F. apply I in F as (_ & x & y & t & Q & _). destruct (H (fkey f) t (fval f)) as (_ & _ & U & S2); [rewrite Q; apply in_or_app; right; now left|]. split; auto. lia. }
  rewrite try_new_ok.
  - eexists. eexists. split; [reflexivity|]. split; [eapply Permutation_NoDup; [apply Permutation_map, fsort_perm|exact N]|].
    intros f. rewrite <- I. split; intros J; eapply Permutation_in; try exact J; [apply Permutation_sym|]; apply fsort_perm.
  - constructor; auto.
    + unfold max_fields. lia.
    + intros f F. apply O, F.
    + unfold inner_depth, max_depth. assert (maxl (map (fun f => shape_depth (fval f)) (a_fields a)) <= 7); [|lia].
      apply maxl_le. intros x X. apply in_map_iff in X as (f & <- & F). apply O, F.
Qed.
Print Assumptions C107_exact.

(** The elements of a described array are described by the types of the elements written. *)
Theorem C107_array_tight : forall named l vs,
  l <> [] -> ~ In TUnknown (canonical_members l) -> den named (array_type l) (VArr vs) -> forall v, In v vs -> described_by_some named l v.
Proof.
  intros named l vs N U H v I. unfold array_type in H. apply den_array in H as (us & Q & H). injection Q as <-. specialize (H v I).
  destruct l as [|x [|y l]]; [congruence| |].
  - cbn [canonical_members] in *. destruct x; auto. apply members_den in H. apply union_sound in H; auto. intros C. apply U. rewrite C. now left.
  - cbn [canonical_members] in *. apply members_den in H. apply union_sound in H; auto. intros C. apply U. rewrite C. now left.
Qed.
Print Assumptions C107_array_tight.
(** A generic hash says no more keys and values than those written. *)
Theorem C107_hash_tight : forall named l ks vs es,
  hash_type l = Some (inl (THash ks vs)) -> ~ In TUnknown ks -> ~ In TUnknown vs ->
  den named (THash ks vs) (VHash es) -> forall x y, In (x, y) es ->
  (exists e t, In e l /\ den named t x /\ match e with EPair _ kt _ => widen kt = Some t | ESplat (THash k _) => In t k | ESplat (TShape fs r e _ _) => exists k v, generic_hash fs r e = Some (THash k v) /\ In t k | _ => False end) /\
  (exists e t, In e l /\ den named t y /\ match e with EPair _ _ vt => widen vt = Some t | ESplat (THash _ v) => In t v | ESplat (TShape fs r e _ _) => exists k v, generic_hash fs r e = Some (THash k v) /\ In t v | _ => False end).
Proof.
  intros named l ks vs es. unfold hash_type. destruct (steps _ l) as [a|] eqn:S1; [|discriminate]. cbn [option_map]. intros Q U V H x y I. injection Q as Q.
  unfold finish in Q. destruct (a_complete a); [apply try_new_inl in Q as (_ & Q & _); discriminate|]. injection Q as <- <-.
  assert (T : forall m v, ~ In TUnknown (canonical_members m) -> described_by_some named (canonical_members m) v -> described_by_some named m v /\ ~ In TUnknown m).
  { intros m v N D. destruct m as [|p [|q m]].
    - exfalso. apply N. now left.
    - cbn [canonical_members] in *. split.
      + destruct p; auto. apply members_den in D. apply union_sound in D; auto. intros C. apply N. rewrite C. now left.
      + intros [->|[]]. apply N. now left.
    - cbn [canonical_members] in *. assert (W : union (p :: q :: m) <> TUnknown) by (intros C; apply N; rewrite C; now left). split.
      + apply members_den in D. apply union_sound in D; auto.
      + intros C. apply W. apply union_eq, UC_unknown. apply in_flatten. exists TUnknown. auto. }
  apply den_hash in H as (es' & Q & H). injection Q as <-. destruct (H x y I) as [HK HV]. apply T in HK as [HK NK]; auto. apply T in HV as [HV NV]; auto.
  assert (G : forall t, (In t (a_keys a) -> t <> TUnknown -> exists e, In e l /\ match e with EPair _ kt _ => widen kt = Some t | ESplat (THash k _) => In t k | ESplat (TShape fs r e _ _) => exists k v, generic_hash fs r e = Some (THash k v) /\ In t k | _ => False end) /\
    (In t (a_values a) -> t <> TUnknown -> exists e, In e l /\ match e with EPair _ _ vt => widen vt = Some t | ESplat (THash _ v) => In t v | ESplat (TShape fs r e _ _) => exists k v, generic_hash fs r e = Some (THash k v) /\ In t v | _ => False end)).
  { clear -S1. intros t.
    set (PK := fun e : elem => match e with EPair _ kt _ => widen kt = Some t | ESplat (THash k _) => In t k | ESplat (TShape fs r e _ _) => exists k v, generic_hash fs r e = Some (THash k v) /\ In t k | _ => False end).
    set (PV := fun e : elem => match e with EPair _ _ vt => widen vt = Some t | ESplat (THash _ v) => In t v | ESplat (TShape fs r e _ _) => exists k v, generic_hash fs r e = Some (THash k v) /\ In t v | _ => False end).
    assert (G : forall b, steps b l = Some a -> (In t (a_keys a) -> t <> TUnknown -> In t (a_keys b) \/ exists e, In e l /\ PK e) /\ (In t (a_values a) -> t <> TUnknown -> In t (a_values b) \/ exists e, In e l /\ PV e)).
    { clear S1. induction l as [|e l IH]; intros b S1; cbn [steps] in S1; [injection S1 as <-; auto|]. destruct (step b e) as [c|] eqn:S2; [|discriminate]. specialize (IH c S1).
      assert (X : (In t (a_keys c) -> t <> TUnknown -> In t (a_keys b) \/ PK e) /\ (In t (a_values c) -> t <> TUnknown -> In t (a_values b) \/ PV e)).
      { clear IH S1. destruct e as [k kt vt|u|]; cbn [step] in S2.
        - destruct (widen kt) as [kt'|] eqn:W1; [|discriminate]. destruct (widen vt) as [vt'|] eqn:W2; [|discriminate].
          assert (a_keys c = a_keys b ++ [kt'] /\ a_values c = a_values b ++ [vt']) as [-> ->] by (destruct k; [destruct (contains_unknown vt)|]; injection S2 as <-; auto).
          split; intros J _; apply in_app_or in J as [J|[<-|[]]]; auto.
        - destruct u as [f|f|f|f|i|m|ks m|fs rest ex fr d|m|];
            try (injection S2 as <-; cbn [a_keys a_values]; split; intros J M; apply in_app_or in J as [J|[<-|[]]]; auto; congruence).
          + injection S2 as <-. cbn [a_keys a_values]. split; intros J M; apply in_app_or in J as [J|J]; auto.
          + destruct (generic_hash fs rest ex) as [[ | | | | | | gk gv| | | ]|] eqn:GH; try discriminate.
            assert (a_keys c = a_keys b ++ gk /\ a_values c = a_values b ++ gv) as [-> ->] by (destruct (ex && _); injection S2 as <-; auto).
            split; intros J M; apply in_app_or in J as [J|J]; auto; right; exists gk, gv; auto.
        - injection S2 as <-; cbn [a_keys a_values]; split; intros J M; apply in_app_or in J as [J|[<-|[]]]; auto; congruence. }
      destruct IH as [IH1 IH2], X as [X1 X2]. split; intros J M.
      - destruct (IH1 J M) as [J'|(e' & E1 & E2)]; [|right; exists e'; split; [now right|exact E2]]. destruct (X1 J' M); auto. right. exists e. split; [now left|auto].
      - destruct (IH2 J M) as [J'|(e' & E1 & E2)]; [|right; exists e'; split; [now right|exact E2]]. destruct (X2 J' M); auto. right. exists e. split; [now left|auto]. }
    destruct (G _ S1) as [G1 G2]. split; intros J M; [destruct (G1 J M) as [[]|X]|destruct (G2 J M) as [[]|X]]; exact X. }
  destruct HK as (t & K1 & K2), HV as (u & V1 & V2). split.
  - destruct (G t) as [G1 _]. destruct (G1 K1) as (e & E1 & E2); [intros ->; contradiction|]. exists e, t. auto.
  - destruct (G u) as [_ G1]. destruct (G1 V1) as (e & E1 & E2); [intros ->; contradiction|]. exists e, u. auto.
Qed.
Print Assumptions C107_hash_tight.
(** Literals of a fixed class have the type of that class. *)
Theorem C107_class : forall p c, instance p c -> analyze (NPlain p) = Some (Some (TClass (const_name c))).
Proof. intros p c []; reflexivity. Qed.
Print Assumptions C107_class.
Theorem C107_texts : forall n, analyze (NStr n) = Some (Some string) /\ analyze NMadeStr = Some (Some string) /\
  analyze (NSym n) = Some (Some symbol) /\ analyze NMadeSym = Some (Some symbol).
Proof. intros n. repeat split. Qed.
Print Assumptions C107_texts.
(** An index into an array literal is typed as an element; into a hash, as a value or nil. *)
Theorem C107_index_tight : forall named r args t u v,
  analyze r = Some (Some t) -> analyze (NIndex r args) = Some (Some u) -> u <> TUnknown -> den named u v ->
  (exists l, t = TArray l /\ (described_by_some named l v \/ (l = [] /\ den named nil_class v))) \/
  (exists k l, t = THash k l /\ (described_by_some named l v \/ den named nil_class v)).
Proof.
  intros named r args t u v A Q N H. apply index_eq in Q as (w & Q1 & Q2). assert (w = t) as -> by congruence.
  assert (S1 : forall x : ty, den named x v -> described_by_some named [x] v) by (intros x X; exists x; split; [now left|exact X]).
  assert (X : forall a, union_with a nil_class = u -> described_by_some named [a] v \/ den named nil_class v).
  { intros a E. unfold union_with in E. destruct (eqb a nil_class); [subst; auto|].
    assert (Y : forall l k, u = union (l ++ k) -> described_by_some named l v \/ described_by_some named k v).
    { intros l k ->. apply some_app. apply union_sound; auto. }
    destruct a; try (symmetry in E; apply (Y [_] [_]) in E as [E|(z & [<-|[]] & E)]; auto; fail).
    - symmetry in E. apply Y in E as [E|(z & [<-|[]] & E)]; auto. left. apply S1. apply den_union. exact E.
    - subst u. congruence. }
  destruct t as [f|f|f|f|i|m|ks m|fs rest ex fr d|m|]; try discriminate.
  - left. exists m. split; auto. destruct m as [|x [|y m]]; cbn in Q2; injection Q2 as <-; auto. left. apply union_sound; auto.
  - right. exists ks, m. split; auto. destruct m as [|x [|y m]]; cbn in Q2; injection Q2 as Q2.
    + subst u. auto.
    + apply X in Q2. exact Q2.
    + destruct (X _ Q2) as [(z & [<-|[]] & Z)|Z]; auto. left. apply union_sound; auto.
      intros C. cbn [union_with] in Q2. rewrite C in Q2. cbn in Q2. subst u. congruence.
Qed.
Print Assumptions C107_index_tight.

(** *** The declared return type *)
(** Missing from the full claim: types with optional keys (as in C25), values of unknown type, and the
    indexes and statements missing above; refuted below are methods without a body and with an earlier
    [return]. *)
Theorem C107_declared_partial : forall named nil other l x s t b v,
  core_classes named -> named InstanceOfClass (const_name nil_text) nil ->
  built b -> required_only b -> contains_unknown b = false ->
  (forall a, ~ In (NReturn a) l) -> s = x \/ s = NReturn [x] ->
  analyze x = Some (Some t) -> contains_unknown t = false ->
  warns (Some b) (Some (l ++ [s])) = Some false ->
  gives named nil other False (Some (l ++ [s])) v -> den named b v.
Proof.
  intros named nil other l x s t b v C N B R U L S1 A T W G.
  assert (R1 : return_types s = Some [t]).
  { destruct S1 as [->| ->]; cbn [return_types]; [|rewrite A; reflexivity]. destruct x; cbn [return_types]; rewrite ?A; try reflexivity. discriminate. }
  unfold warns, checked_types in W. rewrite rev_app_distr in W. cbn [rev app] in W. rewrite R1 in W. cbn [map] in W.
  unfold warns_of in W. rewrite U, T in W. cbn [orb] in W. destruct (is_subtype t b) as [[|]|] eqn:Q; try discriminate.
  eapply (C25_subtyping_sound_partial named t b); eauto. apply (C107_literal_partial named nil other x v t C N); [|exact A].
  inversion G as [|l' y w H1 H2 E1|l' a r w H1 H2 E1]; subst.
  - apply app_inj_tail in E1 as [-> ->]. destruct S1 as [->| ->]; auto. inversion H2.
  - assert (l' = l /\ NReturn a = s /\ r = []) as (-> & Q1 & ->).
    { destruct r as [|z r _] using rev_ind.
      - apply app_inj_tail in E1 as [-> <-]. auto.
      - exfalso. change (NReturn a :: r ++ [z]) with ((NReturn a :: r) ++ [z]) in E1. rewrite app_assoc in E1. apply app_inj_tail in E1 as [E1 _]. subst l. apply (L a). apply in_or_app. right. now left. }
    destruct S1 as [->| ->]; [rewrite <- Q1 in A; discriminate|]. injection Q1 as ->. inversion H2; subst; auto. discriminate.
Qed.
Print Assumptions C107_declared_partial.
(** The same for a bare [return] and for one with several values: without a warning, nil or the array
    of the values is of the declared type. *)
Lemma last_return : forall named nil other wild l a v, (forall b, ~ In (NReturn b) l) ->
  gives named nil other wild (Some (l ++ [NReturn a])) v -> returned named nil other wild a v.
Proof.
  intros named nil other wild l a v L G. inversion G as [|l' y w H1 H2 E1|l' a' r w H1 H2 E1]; subst.
  - apply app_inj_tail in E1 as [-> ->]. inversion H2.
  - destruct r as [|z r _] using rev_ind.
    + apply app_inj_tail in E1 as [_ E]. injection E as ->. exact H2.
    + exfalso. change (NReturn a' :: r ++ [z]) with ((NReturn a' :: r) ++ [z]) in E1. rewrite app_assoc in E1. apply app_inj_tail in E1 as [E1 _]. subst l. apply (L a'). apply in_or_app. right. now left.
Qed.
Theorem C107_bare_return : forall named nil other wild l b v,
  core_classes named -> named InstanceOfClass (const_name nil_text) nil ->
  built b -> required_only b -> contains_unknown b = false -> (forall a, ~ In (NReturn a) l) ->
  warns (Some b) (Some (l ++ [NReturn []])) = Some false ->
  gives named nil other wild (Some (l ++ [NReturn []])) v -> den named b v.
Proof.
  intros named nil other wild l b v C N B R U L W G. apply (last_return _ _ _ _ _ _ _ L) in G. inversion G; subst.
  unfold warns, checked_types in W. rewrite rev_app_distr in W. cbn [rev app return_types map] in W.
  unfold warns_of in W. rewrite U in W. change (contains_unknown nil_class) with false in W. cbn [orb] in W.
  destruct (is_subtype nil_class b) as [[|]|] eqn:Q; try discriminate.
  exact (C25_subtyping_sound_partial named nil_class b C B (or_introl R) Q _ N).
Qed.
Print Assumptions C107_bare_return.
Theorem C107_several_returned : forall named nil other l x y r ts b v,
  core_classes named -> named InstanceOfClass (const_name nil_text) nil ->
  built b -> required_only b -> contains_unknown b = false -> (forall a, ~ In (NReturn a) l) ->
  Forall2 (fun n t => analyze n = Some (Some t) /\ contains_unknown t = false) (x :: y :: r) ts ->
  warns (Some b) (Some (l ++ [NReturn (x :: y :: r)])) = Some false ->
  gives named nil other False (Some (l ++ [NReturn (x :: y :: r)])) v -> den named b v.
Proof.
  intros named nil other l x y r ts b v C N B R U L T W G. apply (last_return _ _ _ _ _ _ _ L) in G. inversion G as [| | |x' y' l' vs V]; subst.
  assert (S1 : seqo (map infer (x :: y :: r)) = Some ts /\ existsb contains_unknown ts = false).
  { clear - T. induction T as [|n t ns ts [A K] _ [IH1 IH2]]; [split; reflexivity|]. cbn [map seqo existsb]. split.
    - unfold infer at 1. rewrite A. cbn [known option_map]. now rewrite IH1.
    - now rewrite K, IH2. }
  destruct S1 as [S1 S2].
  unfold warns, checked_types in W. rewrite rev_app_distr in W. cbn [rev app return_types] in W. rewrite S1 in W. cbn [option_map map] in W.
  unfold warns_of in W. rewrite U in W. change (contains_unknown (TArray ts)) with (existsb contains_unknown ts) in W. rewrite S2 in W. cbn [orb] in W.
  destruct (is_subtype (TArray ts) b) as [[|]|] eqn:Q; try discriminate.
  apply (C25_subtyping_sound_partial named (TArray ts) b C B (or_introl R) Q). apply den_array. exists vs. split; [reflexivity|].
  exact (proj1 (proj2 (all_sound named nil other C N)) _ vs V ts S1).
Qed.
Print Assumptions C107_several_returned.
(** Without a declared type, or with one that is not known, there is no warning. *)
Theorem C107_no_declaration : forall body, warns None body = Some false.
Proof. reflexivity. Qed.
Print Assumptions C107_no_declaration.
(** A warning is about the last statement: its type is not a subtype of the declared one. *)
Theorem C107_warning : forall b l s, warns (Some b) (Some (l ++ [s])) = Some true ->
  contains_unknown b = false /\ exists t, return_types s = Some [t] /\ contains_unknown t = false /\ is_subtype t b = Some false.
Proof.
  intros b l s W. unfold warns, checked_types in W. rewrite rev_app_distr in W. cbn [rev app] in W. destruct (return_types s) as [ts|] eqn:E; [|discriminate].
  assert (X : ts = [] \/ exists t, ts = [t]).
  { destruct s as [p|n| |n| |m|m|r args|m|o|[|x [|y m]]|i]; cbn [return_types] in E;
      try (destruct (analyze _) as [[t|]|]; try discriminate; injection E as <-; eauto; fail).
    - injection E as <-. eauto.
    - destruct (seqo _); [|discriminate]. cbn in E. injection E as <-. eauto. }
  destruct X as [->|(t & ->)]; [discriminate|]. cbn [map seqo] in W. unfold warns_of in W. destruct (contains_unknown b); [discriminate|]. split; auto. exists t. split; auto.
  destruct (contains_unknown t); [discriminate|]. split; auto. cbn [orb] in W. destruct (is_subtype t b) as [[|]|]; try discriminate. reflexivity.
Qed.
Print Assumptions C107_warning.

(** *** Concrete cases *)
Definition anything (i : nat) (v : val) : Prop := True.
(** {a: 1, "b" => ["x", :y], a: nil} *)
Definition small : node := NHash [HPair (NSym 1) (NPlain PInteger); HPair (NStr 2) (NArray [NStr 3; NSym 4]); HPair (NSym 1) (NPlain PNil)].
Definition small_value : val := VHash [(VStr 2, VArr [VStr 3; VSym 4]); (VSym 1, VObj 0)].
Example C107_literal_case :
  ev world (VObj 0) anything False small small_value /\
  analyze small = Some (Some (TShape [(LSym 1, nil_class, true); (LStr 2, TArray [symbol; string], true)] None true false 1)) /\
  den world (TShape [(LSym 1, nil_class, true); (LStr 2, TArray [symbol; string], true)] None true false 1) small_value.
Proof.
  assert (H : ev world (VObj 0) anything False small small_value).
  { apply (ev_hash _ _ _ _ _ [(VSym 1, VObj 7); (VStr 2, VArr [VStr 3; VSym 4]); (VSym 1, VObj 0)]).
    - repeat (constructor; try (eapply ev_plain; [constructor|reflexivity]; fail)).
    - intros x y. split.
      + intros [E|[E|[]]]; injection E as <- <-.
        * exists [(VSym 1, VObj 7)], [(VSym 1, VObj 0)]. split; auto. intros z [E|[]]. discriminate.
        * exists [(VSym 1, VObj 7); (VStr 2, VArr [VStr 3; VSym 4])], []. split; auto.
      + intros (a & b & E & N). destruct a as [|p [|q [|r [|s a]]]]; cbn in E; try discriminate.
        * injection E as <- <- <-. exfalso. apply (N (VObj 0)). right. now left.
        * injection E as _ <- <- _. now left.
        * injection E as _ _ <- <- _. right. now left. }
  assert (A : analyze small = Some (Some (TShape [(LSym 1, nil_class, true); (LStr 2, TArray [symbol; string], true)] None true false 1))) by (vm_compute; reflexivity).
  split; [exact H|]. split; [exact A|]. eapply C107_literal_partial; [apply world_core| |exact H|exact A]. reflexivity.
Qed.
(** {1 => {a: 2}}[3], typed as the shape or nil *)
Example C107_index_case :
  analyze (NIndex (NHash [HPair (NPlain PInteger) (NHash [HPair (NSym 1) (NPlain PInteger)])]) [NPlain PInteger]) =
  Some (Some (TUnion [nil_class; TShape [(LSym 1, integer, true)] None true false 1])).
Proof. vm_compute. reflexivity. Qed.
(** {a: :b, **{c: 1}} *)
Example C107_splat_case :
  analyze (NHash [HPair (NSym 1) (NSym 2); HSplat (Some (NHash [HPair (NSym 3) (NPlain PInteger)]))]) =
  Some (Some (TShape [(LSym 1, TLit (LSym 2), true); (LSym 3, integer, true)] None true false 1)) /\
  analyze (NHash [HPair (NSym 1) (NSym 2); HSplat (Some (NOther 0))]) = Some (Some (THash [TUnknown] [TUnknown])).
Proof. split; vm_compute; reflexivity. Qed.
Example C107_exact_case :
  hash_type (pairs [(LSym 1, symbol, integer); (LStr 2, string, string); (LSym 1, symbol, nil_class)]) =
  Some (inl (TShape [(LSym 1, nil_class, true); (LStr 2, string, true)] None true false 1)).
Proof. vm_compute. reflexivity. Qed.
(** Thirty-three keys: the bound is reported. *)
Example C107_errors_case :
  hash_type (map (fun n => EPair (Some (LSym n)) symbol integer) (seq 0 33)) = Some (inr (FieldBound 33)).
Proof. vm_compute. reflexivity. Qed.
Example C107_hash_tight_case :
  hash_type [EPair None integer string; ESplat (THash [symbol] [integer])] = Some (inl (THash [symbol; integer] [string; integer])).
Proof. vm_compute. reflexivity. Qed.
Example C107_bare_return_case : built nil_class /\ warns (Some nil_class) (Some [NStr 1; NReturn []]) = Some false
  /\ warns (Some string) (Some [NStr 1; NReturn []]) = Some true
  /\ gives world (VObj 0) (fun _ _ => False) False (Some ([NStr 1] ++ [NReturn []])) (VObj 0).
Proof.
  split; [constructor|]. split; [vm_compute; reflexivity|]. split; [vm_compute; reflexivity|].
  apply (g_return _ _ _ _ [NStr 1] [] []); [|constructor]. intros a [E|[]]. discriminate.
Qed.
Example C107_several_returned_case :
  Forall2 (fun n t => analyze n = Some (Some t) /\ contains_unknown t = false) [NStr 1; NSym 2] [string; symbol]
  /\ warns (Some (TArray [string; symbol])) (Some [NReturn [NStr 1; NSym 2]]) = Some false
  /\ warns (Some string) (Some [NReturn [NStr 1; NSym 2]]) = Some true
  /\ gives world (VObj 0) (fun _ _ => False) False (Some ([] ++ [NReturn [NStr 1; NSym 2]])) (VArr [VStr 1; VSym 2]).
Proof.
  split; [repeat constructor|]. split; [vm_compute; reflexivity|]. split; [vm_compute; reflexivity|].
  apply (g_return _ _ _ _ [] [NStr 1; NSym 2] []); [easy|]. repeat constructor.
Qed.
Example C107_declared_case :
  warns (Some (TArray [integer])) (Some [NOther 0; NReturn [NArray [NPlain PInteger]]]) = Some false /\
  warns (Some (TArray [integer])) (Some [NOther 0; NArray [NStr 1]]) = Some true /\
  gives world (VObj 0) anything False (Some [NOther 0; NReturn [NArray [NPlain PInteger]]]) (VArr [VObj 7]).
Proof.
  split; [vm_compute; reflexivity|]. split; [vm_compute; reflexivity|].
  apply (g_return _ _ _ _ [NOther 0] _ []).
  - intros a [E|[]]. discriminate.
  - constructor; [discriminate|]. repeat constructor. eapply ev_plain; [constructor|reflexivity].
Qed.

(** *** What does not hold *)
(** ["a"][5] is nil and is typed as a String. *)
Theorem C107_index_refuted : exists n v t,
  ev world (VObj 0) anything True n v /\ analyze n = Some (Some t) /\ t = string /\ v = VObj 0 /\ ~ den world t v.
Proof.
  exists (NIndex (NArray [NStr 1]) [NPlain PInteger]), (VObj 0), string. split; [|split; [vm_compute; reflexivity|split; [reflexivity|split; [reflexivity|]]]].
  - eapply (ev_index_outside _ _ _ _ _ _ [VStr 1]); [exact Logic.I|]. repeat constructor.
  - cbn. discriminate.
Qed.
Print Assumptions C107_index_refuted.
(** ["a", "b"][0, 1] is an array and is typed as a String. *)
Theorem C107_part_refuted : exists n v t,
  ev world (VObj 0) anything True n v /\ analyze n = Some (Some t) /\ t = string /\ v = VArr [VStr 1] /\ ~ den world t v.
Proof.
  exists (NIndex (NArray [NStr 1; NStr 2]) [NPlain PInteger; NPlain PInteger]), (VArr [VStr 1]), string.
  split; [|split; [vm_compute; reflexivity|split; [reflexivity|split; [reflexivity|]]]].
  - eapply (ev_index_part _ _ _ _ _ _ [VStr 1; VStr 2] [] [VStr 1] [VStr 2]); [exact Logic.I| |reflexivity]. repeat constructor.
  - cbn. tauto.
Qed.
Print Assumptions C107_part_refuted.
(** A list of statements is typed by its first and evaluates to its last. *)
Theorem C107_statements_refuted : exists n v t,
  ev world (VObj 0) anything True n v /\ analyze n = Some (Some t) /\ ~ den world t v.
Proof.
  exists (NStatements [NStr 1; NSym 2]), (VSym 2), string. split; [|split; [vm_compute; reflexivity|cbn; discriminate]].
  apply (ev_last _ _ _ _ [NStr 1]); [exact Logic.I|constructor].
Qed.
Print Assumptions C107_statements_refuted.
(** {a: 1, **h} where the key a of h is optional and a string: typed as if a were absent or a string. *)
Theorem C107_optional_splat_refuted : exists h l ws es t,
  h = TShape [(LSym 1, string, false)] None true false 1 /\ built h /\
  l = [EPair (Some (LSym 1)) symbol integer; ESplat h] /\ described world l ws /\ result_of_writes ws es /\
  hash_type l = Some (inl t) /\ ~ den world t (VHash es).
Proof.
  exists (TShape [(LSym 1, string, false)] None true false 1). eexists. exists [(VSym 1, VObj 7)], [(VSym 1, VObj 7)]. eexists.
  split; [reflexivity|]. split; [apply (B_shape [(LSym 1, string, false)] None true false); [repeat constructor|discriminate|vm_compute; reflexivity]|].
  split; [reflexivity|]. split.
  - apply (d_pair world (Some (LSym 1)) symbol integer _ (VSym 1) (VObj 7) []); [reflexivity|reflexivity|intros k E; injection E as <-; reflexivity|].
    change (@nil (val * val)) with (@nil (val * val) ++ []). apply d_splat; [|constructor]. apply den_shape. exists []. split; auto. split; [|split]; easy || (intros f [<-|[]]; discriminate).
  - split.
    + intros x y. split.
      * intros [E|[]]. injection E as <- <-. exists [], []. auto.
      * intros (a & b & E & N). destruct a as [|p a]; [injection E as <- <- _; now left|]. destruct a; discriminate.
    + split; [vm_compute; reflexivity|]. intros H. apply den_shape in H as (es & E & _ & H & _). injection E as <-.
      specialize (H (VSym 1) (VObj 7) (LSym 1, string, false) (or_introl eq_refl) (or_introl eq_refl) eq_refl). cbn in H. discriminate.
Qed.
Print Assumptions C107_optional_splat_refuted.
(** [return foo], where foo is always a String and a String is declared, is warned about: the value is
    taken for nil. *)
Theorem C107_return_refuted : exists other l,
  warns (Some string) (Some l) = Some true /\
  (exists v, gives world (VObj 0) other True (Some l) v) /\
  forall v, gives world (VObj 0) other True (Some l) v -> den world string v.
Proof.
  exists (fun _ v => v = VStr 1), [NReturn [NOther 0]]. split; [vm_compute; reflexivity|]. split.
  - exists (VStr 1). apply (g_return _ _ _ _ [] _ []); [easy|]. constructor; [discriminate|]. now constructor.
  - intros v G. inversion G as [|l' y w H1 H2 E1|l' a r w H1 H2 E1]; subst.
    + destruct l' as [|z l']; [injection E1 as ->; inversion H2|destruct l'; discriminate].
    + destruct l' as [|z l']; [|destruct l'; discriminate]. injection E1 as -> ->. inversion H2 as [|x w N H|o us|]; subst. inversion H; subst. reflexivity.
Qed.
Print Assumptions C107_return_refuted.
(** A declared superclass is warned about. *)
Theorem C107_superclass_refuted : exists (named : meaning) numeric,
  core_classes named /\ (forall v, named InstanceOfClass (const_name integer_text) v -> named InstanceOfClass numeric v) /\
  warns (Some (TClass numeric)) (Some [NPlain PInteger]) = Some true.
Proof.
  exists (fun k f v => match v with VObj _ => ftext f = integer_text \/ ftext f = 12 | _ => world k f v end), (const_name 12).
  split; [split; intros n; reflexivity|]. split; [|vm_compute; reflexivity]. intros [n|n|n|l|l] H; cbn in *; auto; discriminate.
Qed.
Print Assumptions C107_superclass_refuted.
(** A method without a body, or with an earlier [return], gives something else than declared, and there
    is no warning. *)
Theorem C107_unchecked_refuted :
  (gives world (VObj 0) anything False None (VObj 0) /\ warns (Some string) None = Some false /\ ~ den world string (VObj 0)) /\
  exists l v, gives world (VObj 0) anything False (Some l) v /\ warns (Some string) (Some l) = Some false /\ ~ den world string v.
Proof.
  split; [split; [constructor|split; [reflexivity|discriminate]]|].
  exists [NReturn [NPlain PInteger]; NStr 1], (VObj 7). split; [|split; [vm_compute; reflexivity|discriminate]].
  apply (g_return _ _ _ _ [] _ [NStr 1]); [easy|]. constructor; [discriminate|]. eapply ev_plain; [constructor|reflexivity].
Qed.
Print Assumptions C107_unchecked_refuted.
