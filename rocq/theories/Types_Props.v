(** C24-C28, C58: the type algebra. *)
From Coq Require Import List Arith Bool Lia Sorted Permutation.
From Verif Require Import Lib Types_Model Types_Spec Types_Order Types_Union Types_Shape Types_Widen Types_Total Types_Sub.
Import ListNotations.

(** concrete material *)
Definition ty_a := TClass (const_name 10).
Definition ty_b := TClass (const_name 11).
Definition ty_c := TModule (const_name 12).
(** a meaning in which objects 0.. are integers *)
Definition demo : meaning := fun k f v =>
  match k, v with
  | InstanceOfClass, VSym _ => ftext f = symbol_text
  | InstanceOfClass, VStr _ => ftext f = string_text
  | InstanceOfClass, VObj _ => ftext f = integer_text
  | _, _ => False
  end.
Lemma demo_core : core_classes demo.
Proof. split; intros n; reflexivity. Qed.

(** *** C24 *)
Theorem C24_order_and_duplication : forall l k, (forall t, In t l <-> In t k) -> union l = union k.
Proof. intros l k E. apply union_ext, flatten_ext, E. Qed.
Print Assumptions C24_order_and_duplication.
Example C24_order_case : union [ty_a; ty_b; ty_c] = union [ty_c; ty_b; ty_c; ty_a; ty_b] /\ union [ty_a; ty_b; ty_c] <> TUnknown.
Proof.
  split; [|vm_compute; discriminate]. apply C24_order_and_duplication. intros t. cbn. tauto.
Qed.

Theorem C24_grouping : forall l1 l2 l3, Forall flat l2 -> flatten l2 <> [] ->
  union (l1 ++ union l2 :: l3) = union (l1 ++ l2 ++ l3).
Proof. exact union_group. Qed.
Print Assumptions C24_grouping.
Example C24_grouping_case : union [ty_a; union [ty_b; ty_c]; boolean] = union [ty_a; ty_b; ty_c; boolean].
Proof. apply (C24_grouping [ty_a] [ty_b; ty_c] [boolean]); [repeat constructor|discriminate]. Qed.

Theorem C24_idempotent : forall l, Forall flat l -> union [union l] = union l.
Proof. intros l F. apply union_single, union_canonical, F. Qed.
Print Assumptions C24_idempotent.
(** without flatness a second pass can change the result *)
Theorem C24_idempotent_nested_refuted : exists l, union [union l] <> union l.
Proof. exists [TUnion [TUnion [ty_a]]]. vm_compute. discriminate. Qed.
Print Assumptions C24_idempotent_nested_refuted.

(** every result over flat inputs is canonical: sorted without repetition, at least two members, no
    Unknown, no nested union, at most eight shapes *)
Theorem C24_result_canonical : forall l t, Forall flat l -> union l = TUnion t ->
  StronglySorted (fun a b => ltb a b = true) t /\ NoDup t /\ 2 <= length t /\ ~ In TUnknown t /\
  (forall x, In x t -> is_union x = false) /\ length (filter is_shape t) <= 8.
Proof.
  intros l t F E. pose proof (union_canonical l F) as C. rewrite E in C. destruct C as [S1 [S2 [S3 [S4 S5]]]].
  repeat split; auto.
  - clear -S1. induction S1 as [|x t HS IH HF]; constructor; auto. eapply Forall_impl; [|exact HF].
    intros y L. unfold ltb. unfold lt in L. rewrite L. reflexivity.
  - apply sorted_nodup, S1.
Qed.
Print Assumptions C24_result_canonical.

Theorem C24_unknown_absorbs : forall l, In TUnknown l -> union l = TUnknown.
Proof. intros l I. apply union_eq, UC_unknown, in_flatten. exists TUnknown. auto. Qed.
Print Assumptions C24_unknown_absorbs.
(** exactly when the answer is Unknown *)
Theorem C24_unknown_exactly : forall l,
  union l = TUnknown <-> In TUnknown (flatten l) \/ flatten l = [] \/ ~ few_shapes l.
Proof.
  intros l. split.
  - intros E. pose proof (union_cases l) as C. rewrite E in C. inversion C; subst; auto.
    + right. right. intros F. apply few_canon in F. lia.
    + exfalso. apply H. apply in_canon. rewrite H0. left. reflexivity.
  - intros [I|[N|F]].
    + apply union_eq, UC_unknown, I.
    + apply union_eq, UC_empty, N.
    + destruct (in_dec ty_dec TUnknown (flatten l)) as [I|I]; [apply union_eq, UC_unknown, I|].
      apply union_eq, UC_bound; [exact I|].
      destruct (Nat.lt_ge_cases max_variants (length (shapes (canon (flatten l))))) as [L|L]; [exact L|].
      exfalso. apply F. intros ks N H. eapply Nat.le_trans; [|exact L]. apply NoDup_incl_length; [exact N|].
      intros x X. destruct (H x X). apply filter_In. split; [apply in_canon|]; assumption.
Qed.
Print Assumptions C24_unknown_exactly.

Theorem C24_denotes_the_union : forall named l v,
  (described_by_some named l v -> den named (union l) v) /\
  (union l <> TUnknown -> den named (union l) v -> described_by_some named l v).
Proof. intros. split; [apply union_complete|apply union_sound]. Qed.
Print Assumptions C24_denotes_the_union.
Example C24_denotes_case : union [integer; symbol] <> TUnknown /\
  den demo (union [integer; symbol]) (VSym 4) /\ den demo (union [integer; symbol]) (VObj 4) /\
  ~ den demo (union [integer; symbol]) (VStr 4).
Proof.
  split; [vm_compute; discriminate|]. split; [|split].
  - apply C24_denotes_the_union. exists symbol. cbn. auto.
  - apply C24_denotes_the_union. exists integer. cbn. auto.
  - intros B. apply C24_denotes_the_union in B; [|vm_compute; discriminate].
    destruct B as [t [[<-|[<-|[]]] B]]; cbn in B; discriminate.
Qed.

Theorem C24_union_with : forall a b, canonical a -> canonical b -> union_with a b = union [a; b].
Proof. exact union_with_union. Qed.
Print Assumptions C24_union_with.
Theorem C24_optional : forall t, canonical t -> optional t = union [t; nil_class].
Proof. exact optional_union. Qed.
Print Assumptions C24_optional.
Theorem C24_union_with_comm : forall a b, canonical a -> canonical b -> union_with a b = union_with b a.
Proof.
  intros a b A B. rewrite !union_with_union by assumption. apply C24_order_and_duplication. cbn. tauto.
Qed.
Print Assumptions C24_union_with_comm.
Theorem C24_union_with_assoc : forall a b c, canonical a -> canonical b -> canonical c ->
  union_with (union_with a b) c = union_with a (union_with b c).
Proof.
  intros a b c A B C.
  assert (FL : forall x y, canonical x -> canonical y -> Forall flat [x; y]).
  { intros x y X Y. repeat constructor; apply canonical_flat; assumption. }
  assert (NE : forall x y, canonical x -> canonical y -> flatten [x; y] <> []).
  { intros x y X Y E. destruct x; try discriminate. cbn in E. destruct X as [_ [X _]].
    apply app_eq_nil in E as [-> _]. cbn in X. lia. }
  rewrite (union_with_union a b), (union_with_union b c) by assumption.
  rewrite !union_with_union; auto using union_canonical.
  pose proof (C24_grouping [] [a; b] [c] (FL a b A B) (NE a b A B)) as G1.
  pose proof (C24_grouping [a] [b; c] [] (FL b c B C) (NE b c B C)) as G2. cbn [app] in G1, G2. congruence.
Qed.
Print Assumptions C24_union_with_assoc.
Example C24_canonical_case : canonical (union [ty_b; ty_a]) /\ canonical boolean /\
  union_with (union [ty_b; ty_a]) boolean = TUnion [TClass (const_name false_text); TClass (const_name true_text); ty_a; ty_b].
Proof.
  split; [apply union_canonical; repeat constructor|]. split; [|vm_compute; reflexivity].
  cbn. repeat split; auto; try lia.
  - repeat constructor.
  - intros [|[|[]]]; discriminate.
  - intros x [<-|[<-|[]]]; reflexivity.
Qed.

(** union_from_proven fails closed *)
Lemma all_proven_some l ts : all_proven l = Some ts -> l = map Some ts /\ ~ In TUnknown ts.
Proof.
  revert ts. induction l as [|[t|] l IH]; cbn; intros ts E.
  - injection E as <-. auto.
  - destruct (is_unknown t) eqn:U; [discriminate|]. destruct (all_proven l) as [r|]; [|discriminate].
    injection E as <-. destruct (IH r eq_refl) as [-> N]. split; [reflexivity|].
    intros [->|I]; [discriminate|auto].
  - discriminate.
Qed.
Theorem C24_from_proven : forall l u, union_from_proven l = Some u ->
  l <> [] /\ exists ts, l = map Some ts /\ ~ In TUnknown ts /\ u = union ts.
Proof.
  intros l u. unfold union_from_proven. destruct (all_proven l) as [[|t ts]|] eqn:E; try discriminate.
  intros Q. injection Q as <-. apply all_proven_some in E as [-> N]. split; [discriminate|].
  exists (t :: ts). auto.
Qed.
Print Assumptions C24_from_proven.
Example C24_from_proven_case : union_from_proven [Some ty_a; Some ty_b] = Some (TUnion [ty_a; ty_b]) /\
  union_from_proven [Some ty_a; None; Some ty_b] = None /\ union_from_proven [Some ty_a; Some TUnknown] = None.
Proof. vm_compute. auto. Qed.

(** *** C25 *)
(** the recursion of is_subtype_of, without the step bound used to define it *)
Theorem C25_recursion : forall a b, is_subtype a b = sub_body is_subtype a b.
Proof. exact is_subtype_unfold. Qed.
Print Assumptions C25_recursion.
(** Missing from the full claim: optional fields of an exact target shape, and optional target fields
    absent from a source shape that has a rest type.  Both are refuted below. *)
Theorem C25_subtyping_sound_partial : forall named a b,
  core_classes named -> built b ->
  required_only b \/ (exact_required_only b /\ rest_free a) ->
  is_subtype a b = Some true -> included named a b.
Proof. intros named a b C B SP H v. eapply sub_sound; eauto. Qed.
Print Assumptions C25_subtyping_sound_partial.
Definition shape_of (fs : list field) (rest : option (ty * ty)) (ex : bool) : ty :=
  match try_new fs rest ex false with inl t => t | inr _ => TUnknown end.
Lemma built_shape_of fs rest ex : Forall (fun f => built (fval f)) fs -> (forall a b, rest = Some (a, b) -> built a /\ built b) ->
  built (shape_of fs rest ex).
Proof.
  intros F R. unfold shape_of. destruct (try_new fs rest ex false) eqn:E; [|constructor].
  eapply B_shape; eauto.
Qed.
Ltac bshape := apply built_shape_of; [repeat constructor|let E := fresh in intros ? ? E; try discriminate E; injection E as <- <-; split; constructor].
Lemma occurs_nesting x t : occurs x t -> nesting x <= nesting t.
Proof.
  induction 1 as [|l t I O IH|k v t I O IH|k v t I O IH|l t I O IH|fs r e z d f I O IH|fs a b e z d O IH|fs a b e z d O IH];
    cbn [nesting]; try lia.
  - assert (nesting t <= maxl (map nesting l)) by (apply maxl_in, in_map, I). lia.
  - assert (nesting t <= maxl (map nesting k)) by (apply maxl_in, in_map, I). lia.
  - assert (nesting t <= maxl (map nesting v)) by (apply maxl_in, in_map, I). lia.
  - assert (nesting t <= maxl (map nesting l)) by (apply maxl_in, in_map, I). lia.
  - assert (nesting (fval f) <= maxl (map (fun f : field => match f with (_, v, _) => nesting v end) fs)).
    { apply maxl_in. apply in_map_iff. exists f. split; [destruct f as [[k v] q]; reflexivity|exact I]. }
    unfold field in *. lia.
Qed.
Lemma free_of_nesting t : nesting t = 0 -> shape_free t.
Proof. intros N fs rest ex fr d O. apply occurs_nesting in O. cbn [nesting] in O. lia. Qed.
Lemma required_only_shape fs rest ex fr d :
  (forall f, In f fs -> freq f = true) -> nesting (TShape fs rest ex fr d) = 1 -> required_only (TShape fs rest ex fr d).
Proof.
  intros R N fs' rest' ex' fr' d' O. inversion O; subst; auto; exfalso.
  all: match goal with H : occurs (TShape _ _ _ _ _) ?x |- _ => apply occurs_nesting in H as L;
    cbn [nesting] in L; assert (S (nesting x) <= 1); [|lia]; rewrite <- N; cbn [nesting] end.
  - assert (nesting (fval f) <= maxl (map (fun f : field => match f with (_, v, _) => nesting v end) fs)).
    { apply maxl_in. apply in_map_iff. exists f. split; [destruct f as [[k v] q]; reflexivity|assumption]. }
    unfold field in *. lia.
  - lia.
  - lia.
Qed.
Example C25_case : let a := shape_of [(LSym 1, integer, true); (LSym 2, TLit (LStr 7), true)] None true in
  let b := shape_of [(LSym 1, TUnion [integer; nil_class], true)] (Some (symbol, string)) false in
  built b /\ required_only b /\ is_subtype a b = Some true /\
  is_subtype a (THash [symbol] [integer; string]) = Some true /\ is_subtype b a = Some false.
Proof.
  cbv zeta. split; [bshape|]. split; [|vm_compute; auto].
  apply (required_only_shape [(LSym 1, TUnion [integer; nil_class], true)] (Some (symbol, string)) false false 1); [|reflexivity].
  intros f [<-|[]]. reflexivity.
Qed.
(** an exact shape without the key is accepted where an exact shape with only an optional other key is wanted *)
Theorem C25_subtyping_sound_refuted : exists named a b v,
  core_classes named /\ built a /\ built b /\ is_subtype a b = Some true /\ den named a v /\ ~ den named b v.
Proof.
  exists demo, (shape_of [(LSym 2, integer, true)] None true), (shape_of [(LSym 1, integer, false)] None true),
    (VHash [(VSym 2, VObj 0)]).
  split; [apply demo_core|]. split; [bshape|]. split; [bshape|].
  split; [vm_compute; reflexivity|]. split.
  - apply (den_shape demo [(LSym 2, integer, true)] None true false 1). eexists. split; [reflexivity|]. split; [|split].
    + intros f [<-|[]] _. exists (VObj 0). left. reflexivity.
    + intros x y f [E|[]] [<-|[]] _. inversion E. reflexivity.
    + intros x y [E|[]] N. inversion E. subst. exfalso. apply (N _ (or_introl eq_refl)). reflexivity.
  - intros DV. apply (den_shape demo [(LSym 1, integer, false)] None true false 1) in DV as [es [E [_ [_ A3]]]].
    assert (es = [(VSym 2, VObj 0)]) as -> by congruence.
    specialize (A3 _ _ (or_introl eq_refl)). assert (true = false); [|discriminate]. apply A3.
    intros f [<-|[]]. discriminate.
Qed.
Print Assumptions C25_subtyping_sound_refuted.
(** a rest type with a literal key is not compared with the optional field of that very key *)
Theorem C25_rest_key_refuted : exists named a b v,
  core_classes named /\ built a /\ built b /\ exact_required_only b /\ is_subtype a b = Some true /\
  den named a v /\ ~ den named b v.
Proof.
  exists demo, (shape_of [] (Some (TLit (LSym 1), string)) false), (shape_of [(LSym 1, integer, false)] None false),
    (VHash [(VSym 1, VStr 0)]).
  split; [apply demo_core|]. split; [bshape|]. split; [bshape|].
  split.
  { intros fs rest ex fr d O. vm_compute in O. inversion O; subst; [discriminate|].
    match goal with H : In _ _ |- _ => destruct H as [H|[]] end. subst. cbn in *.
    match goal with H : occurs _ _ |- _ => inversion H end. }
  split; [vm_compute; reflexivity|]. split.
  - apply (den_shape demo [] (Some (TLit (LSym 1), string)) false false 1). eexists. split; [reflexivity|]. split; [|split].
    + intros f [].
    + intros x y f _ [].
    + intros x y [E|[]] _. inversion E. split; reflexivity.
  - intros DV. apply (den_shape demo [(LSym 1, integer, false)] None false false 1) in DV as [es [E [_ [A2 _]]]].
    assert (es = [(VSym 1, VStr 0)]) as -> by congruence.
    specialize (A2 _ _ _ (or_introl eq_refl) (or_introl eq_refl) eq_refl). cbn in A2. discriminate.
Qed.
Print Assumptions C25_rest_key_refuted.
(** the common supertype describes both types, on the same fragment *)
Theorem C25_common_supertype_partial : forall named a b c,
  core_classes named -> built a -> built b -> required_only a -> required_only b ->
  common_supertype a b = Some c -> included named a c /\ included named b c.
Proof.
  intros named a b c C BA BB RA RB. unfold common_supertype.
  destruct (is_subtype a b) as [[ ]|] eqn:E1; try discriminate.
  { intros Q. injection Q as <-. split; [|intros v DV; exact DV].
    apply C25_subtyping_sound_partial; auto. }
  destruct (is_subtype b a) as [[ ]|] eqn:E2; try discriminate; intros Q; injection Q as <-.
  - split; [intros v DV; exact DV|]. apply C25_subtyping_sound_partial; auto.
  - split; intros v DV; apply union_complete; [exists a|exists b]; split; auto; cbn; auto.
Qed.
Print Assumptions C25_common_supertype_partial.
(** the generic Hash view of a shape describes every value of the shape, whatever its fields *)
Theorem C25_generic_hash_view : forall named fs rest ex fr d h,
  core_classes named -> generic_hash fs rest ex = Some h -> included named (TShape fs rest ex fr d) h.
Proof. intros named fs rest ex fr d h C G v. eapply generic_hash_larger; eauto. Qed.
Print Assumptions C25_generic_hash_view.
Example C25_generic_hash_case :
  generic_hash [(LSym 1, integer, true); (LStr 2, TLit (LSym 3), false)] None true =
  Some (THash [symbol; string] [symbol; integer]).
Proof. vm_compute. reflexivity. Qed.

(** *** C26 *)
Theorem C26_reflexive : forall a, is_subtype a a = Some true.
Proof. exact is_subtype_refl. Qed.
Print Assumptions C26_reflexive.
(** Missing: types that contain shapes (refuted below). *)
Theorem C26_transitive_partial : forall a b c, shape_free a -> shape_free b -> shape_free c ->
  is_subtype a b = Some true -> is_subtype b c = Some true -> is_subtype a c = Some true.
Proof. intros a b c. apply sub_trans with (N := S (height a + height b + height c)). lia. Qed.
Print Assumptions C26_transitive_partial.
Example C26_case : let a := TArray [TLit (LSym 1)] in let b := TArray [symbol] in
  let c := TUnion [nil_class; TArray [integer; symbol]] in
  shape_free c /\ is_subtype a b = Some true /\ is_subtype b c = Some true /\ is_subtype c b = Some false.
Proof.
  cbv zeta. split; [apply free_of_nesting; reflexivity|vm_compute; auto].
Qed.
Theorem C26_transitive_refuted : exists a b c, built a /\ built b /\ built c /\
  is_subtype a b = Some true /\ is_subtype b c = Some true /\ is_subtype a c = Some false.
Proof.
  exists (shape_of [(LSym 1, integer, true)] None true), (shape_of [(LSym 1, integer, true)] None false),
    (THash [TUnknown] [TUnknown]).
  split; [bshape|]. split; [bshape|]. split; [repeat constructor|]. vm_compute. auto.
Qed.
Print Assumptions C26_transitive_refuted.
(** without shapes the comparison always ends with an answer *)
Theorem C26_decides_without_shapes : forall a b, shape_free a -> shape_free b -> exists r, is_subtype a b = Some r.
Proof.
  intros a b A B. pose proof (total_free a b A B). destruct (is_subtype a b); [eauto|congruence].
Qed.
Print Assumptions C26_decides_without_shapes.

(** *** C27 *)
(** Missing: types outside [well_formed]; refuted below for an empty Array inside a shape. *)
Theorem C27_widen_total_partial : forall t, well_formed t -> exists t', widen t = Some t' /\ well_formed t'.
Proof. intros t W. destruct (widen_total t W) as [t' [E Q]]. exists t'. split; [exact E|apply Q]. Qed.
Print Assumptions C27_widen_total_partial.
(** mapping the types of a shape with any function that keeps proofs and depths gives a shape *)
Theorem C27_shape_mapping : forall fs rest ex fr (m : ty -> ty),
  acceptable fs rest ex ->
  (forall t, contains_unknown t = false -> contains_unknown (m t) = false) ->
  (forall t, shape_depth (m t) <= shape_depth t) ->
  exists t, try_new (map (fun f => (fkey f, m (fval f), freq f)) fs)
                    (match rest with Some (a, b) => Some (m a, m b) | None => None end) ex fr = inl t.
Proof.
  intros fs rest ex fr m [A1 A2 A3 A4 A5 A6] P DP. eexists. apply try_new_ok. constructor.
  - rewrite map_length. exact A1.
  - intros X. rewrite (A2 X). reflexivity.
  - rewrite map_map. cbn. exact A3.
  - intros f I. apply in_map_iff in I as [g [<- I]]. cbn. apply P, A4, I.
  - destruct rest as [[a b]|]; [|reflexivity]. cbn in *. apply orb_false_iff in A5 as [X Y].
    rewrite (P a X), (P b Y). reflexivity.
  - eapply Nat.le_trans; [|exact A6]. apply le_n_S. unfold inner_depth. apply Nat.max_le_compat.
    + rewrite map_map. apply maxl_le. intros x I. apply in_map_iff in I as [g [<- I]]. cbn.
      eapply Nat.le_trans; [apply DP|]. apply maxl_in. apply (in_map (fun f => shape_depth (fval f))). exact I.
    + destruct rest as [[a b]|]; [|lia]. apply Nat.max_le_compat; apply DP.
Qed.
Print Assumptions C27_shape_mapping.
Lemma few_small (l : list ty) : length (flatten l) <= 8 -> few_shapes l.
Proof.
  intros L ks N H. eapply Nat.le_trans; [|exact L]. apply NoDup_incl_length; [exact N|]. intros x X. apply H, X.
Qed.
Example C27_case : let t := shape_of [(LSym 1, TArray [TUnion [TLit (LSym 2); TLit (LSym 3)]; integer], true)] None true in
  well_formed t /\ widen t = Some (shape_of [(LSym 1, TArray [symbol; integer], true)] None true).
Proof.
  cbv zeta. split; [|vm_compute; reflexivity].
  eapply W_shape with (fs := [(LSym 1, TArray [TUnion [TLit (LSym 2); TLit (LSym 3)]; integer], true)]) (rest := None) (ex := true) (fr := false); [| |vm_compute; reflexivity].
  - constructor; [|constructor]. cbn. constructor; [discriminate|apply few_small; cbn; lia|].
    constructor; [|constructor; constructor]. constructor; [discriminate|apply few_small; cbn; lia| |repeat constructor].
    intros x [<-|[<-|[]]]; reflexivity.
  - intros a b E. discriminate.
Qed.
(** the public interface can build a shape on which widen_literals panics *)
Theorem C27_widen_total_refuted : exists t, built t /\ is_shape t = true /\ widen t = None.
Proof.
  exists (shape_of [(LSym 1, TArray [], true)] None true). split; [bshape|]. vm_compute. auto.
Qed.
Print Assumptions C27_widen_total_refuted.
(** and is_subtype_of, which widens, panics with it *)
Theorem C27_subtype_total_refuted : exists a b, built a /\ built b /\ is_subtype a b = None.
Proof.
  exists (shape_of [(LSym 2, shape_of [(LSym 1, TArray [], true)] None true, true)] None true), (THash [symbol] [integer]).
  split; [apply built_shape_of; [constructor; [cbn [fval fst snd]; bshape|constructor]|discriminate]|]. split; [repeat constructor|]. vm_compute. auto.
Qed.
Print Assumptions C27_subtype_total_refuted.

(** *** C28 *)
Theorem C28_accepts_exactly : forall fs rest ex fr,
  (exists t, try_new fs rest ex fr = inl t) <->
  length fs <= 32 /\ (ex = true -> rest = None) /\ NoDup (map fkey fs) /\
  (forall f, In f fs -> ~ occurs TUnknown (fval f)) /\
  (forall a b, rest = Some (a, b) -> ~ occurs TUnknown a /\ ~ occurs TUnknown b) /\
  (forall f, In f fs -> shape_depth (fval f) <= 7) /\
  (forall a b, rest = Some (a, b) -> shape_depth a <= 7 /\ shape_depth b <= 7).
Proof.
  intros fs rest ex fr. split.
  - intros [t T]. apply try_new_inl in T as [[A1 A2 A3 A4 A5 A6] _]. unfold max_fields, max_depth in *.
    unfold inner_depth in A6. split; [exact A1|]. split; [exact A2|]. split; [exact A3|]. split; [|split; [|split]].
    + intros f I. rewrite <- contains_unknown_occurs, (A4 f I). discriminate.
    + intros a b ->. cbn in A5. apply orb_false_iff in A5 as [X Y]. rewrite <- !contains_unknown_occurs, X, Y. split; discriminate.
    + intros f I. assert (shape_depth (fval f) <= maxl (map (fun f => shape_depth (fval f)) fs)); [|lia].
      apply maxl_in. apply (in_map (fun f => shape_depth (fval f))). exact I.
    + intros a b ->. lia.
  - intros [A1 [A2 [A3 [A4 [A5 [A6 A7]]]]]]. eexists. apply try_new_ok. constructor; auto.
    + intros f I. specialize (A4 f I). rewrite <- contains_unknown_occurs in A4. destruct (contains_unknown (fval f)); congruence.
    + destruct rest as [[a b]|]; [|reflexivity]. destruct (A5 a b eq_refl) as [X Y].
      rewrite <- contains_unknown_occurs in X, Y. cbn. destruct (contains_unknown a), (contains_unknown b); cbn; congruence.
    + unfold inner_depth, max_depth. assert (maxl (map (fun f => shape_depth (fval f)) fs) <= 7).
      { apply maxl_le. intros x I. apply in_map_iff in I as [f [<- I]]. auto. }
      destruct rest as [[a b]|]; [destruct (A7 a b eq_refl)|]; lia.
Qed.
Print Assumptions C28_accepts_exactly.
Theorem C28_result : forall fs rest ex fr t, try_new fs rest ex fr = inl t ->
  exists fs', t = TShape fs' rest ex fr (shape_depth t) /\ Permutation fs fs' /\
    StronglySorted (fun f g => lit_cmp (fkey f) (fkey g) = Lt) fs' /\ 1 <= shape_depth t <= 8.
Proof.
  intros fs rest ex fr t T. apply try_new_inl in T as [A [-> SS]]. exists (fsort fs).
  split; [reflexivity|]. split; [apply fsort_perm|]. split; [exact SS|]. cbn [shape_depth].
  pose proof (ac_depth _ _ _ A). unfold max_depth in *. lia.
Qed.
Print Assumptions C28_result.
(** the recorded depth is how deeply shapes really nest, at most eight *)
Theorem C28_depth_exact : forall t, built t -> shape_depth t = nesting t.
Proof. exact built_depth. Qed.
Print Assumptions C28_depth_exact.
Theorem C28_nesting_bounded : forall fs rest ex fr t,
  Forall (fun f => built (fval f)) fs -> (forall a b, rest = Some (a, b) -> built a /\ built b) ->
  try_new fs rest ex fr = inl t -> nesting t <= 8.
Proof.
  intros fs rest ex fr t F R T. rewrite <- built_depth by (eapply B_shape; eauto).
  apply C28_result in T as [_ [_ [_ [_ L]]]]. lia.
Qed.
Print Assumptions C28_nesting_bounded.
(** the stored fields are found by key, and only those *)
Theorem C28_field_lookup : forall fs rest ex fr t f k, try_new fs rest ex fr = inl t ->
  match t with TShape fs' _ _ _ _ => lookup k fs' = Some f <-> In f fs /\ fkey f = k | _ => False end.
Proof.
  intros fs rest ex fr t f k T. apply try_new_inl in T as [A [-> SS]]. split.
  - intros L. apply lookup_some in L as [I E]. split; [|exact E].
    eapply Permutation_in; [apply Permutation_sym, fsort_perm|exact I].
  - intros [I E]. apply (Permutation_in _ (fsort_perm fs)) in I. destruct (lookup k (fsort fs)) as [g|] eqn:L.
    + apply lookup_some in L as [J EJ]. f_equal. apply sorted_keys_nodup in SS.
      revert SS I J. generalize (fsort fs). clear -E EJ. intros l ND I J.
      induction l as [|x l IH]; [destruct I|]. cbn in ND. inversion ND; subst.
      destruct I as [->|I], J as [->|J]; auto.
      * exfalso. apply H1. rewrite <- EJ. apply in_map, J.
      * exfalso. apply H1. rewrite EJ. apply in_map, I.
    + exfalso. eapply lookup_none; eauto.
Qed.
Print Assumptions C28_field_lookup.
Theorem C28_errors_truthful : forall fs rest ex fr e, try_new fs rest ex fr = inr e -> truthful fs rest ex e.
Proof. intros fs rest ex fr e T. pose proof (try_new_cases fs rest ex fr) as C. rewrite T in C. exact C. Qed.
Print Assumptions C28_errors_truthful.
Example C28_cases :
  try_new [(LStr 3, integer, true); (LSym 9, string, false)] None true false =
    inl (TShape [(LSym 9, string, false); (LStr 3, integer, true)] None true false 1) /\
  try_new [(LSym 1, integer, true); (LSym 2, string, true); (LSym 1, string, true)] None true false = inr (Duplicate (LSym 1)) /\
  try_new [] (Some (symbol, integer)) true false = inr ExactWithRest /\
  try_new [(LSym 1, TArray [TUnknown], true)] None false false = inr (UnprovenField (LSym 1)).
Proof. vm_compute. auto. Qed.

(** *** C58: narrowing *)
Lemma some_filter named p l v : described_by_some named (filter p l) v <-> exists t, In t l /\ p t = true /\ den named t v.
Proof.
  split.
  - intros [t [I B]]. apply filter_In in I as [I P]. exists t. auto.
  - intros [t [I [P B]]]. exists t. split; [apply filter_In; auto|exact B].
Qed.
Definition is_nil (named : meaning) (v : val) : Prop := exists f, ftext f = nil_text /\ named InstanceOfClass f v.
Theorem C58_remove_nil_keeps : forall named t v, den named t v -> ~ is_nil named v -> den named (remove_nil t) v.
Proof.
  intros named t v DV N.
  assert (A : forall t, den named t v -> is_nil_class t = false).
  { intros [ ] B; try reflexivity. cbn in *. destruct (ftext f =? nil_text) eqn:E; [|reflexivity].
    apply Nat.eqb_eq in E. exfalso. apply N. exists f. auto. }
  assert (B : (if is_nil_class t then TUnknown else t) = t) by (rewrite (A t DV); reflexivity).
  destruct t; unfold remove_nil; try (rewrite B; exact DV).
  apply union_complete. apply den_union in DV as [u [I DU]]. apply some_filter. exists u.
  rewrite (A u DU). auto.
Qed.
Print Assumptions C58_remove_nil_keeps.
Theorem C58_remove_nil_adds_nothing : forall named t v, remove_nil t <> TUnknown -> den named (remove_nil t) v -> den named t v.
Proof.
  intros named t v N DV.
  assert (B : remove_nil t = (if is_nil_class t then TUnknown else t) -> den named t v).
  { intros E. rewrite E in *. destruct (is_nil_class t); [congruence|exact DV]. }
  destruct t; try (apply B; reflexivity). cbn [remove_nil] in *.
  apply union_sound in DV; [|exact N]. apply some_filter in DV as [u [I [_ DU]]].
  apply den_union. exists u. auto.
Qed.
Print Assumptions C58_remove_nil_adds_nothing.
Theorem C58_remove_nil_removes : forall t, flat t -> is_nilable (remove_nil t) = false.
Proof.
  intros t F.
  assert (B : is_union t = false -> is_nilable (if is_nil_class t then TUnknown else t) = false).
  { intros U. destruct t; try reflexivity; try discriminate. cbn. destruct (ftext f =? nil_text) eqn:E; [reflexivity|exact E]. }
  destruct t; try (apply B; reflexivity). cbn [remove_nil]. cbn in F.
  set (l' := filter (fun x => negb (is_nil_class x)) l).
  assert (M : forall x, In x (flatten l') -> is_nilable x = false).
  { intros x I. rewrite flatten_atoms in I by (intros y Y; apply filter_In in Y as [Y _]; auto).
    apply filter_In in I as [I P]. specialize (F x I). destruct x; try reflexivity; try discriminate.
    cbn in *. destruct (ftext f =? nil_text); [discriminate|reflexivity]. }
  destruct (union_cases l'); try reflexivity.
  - apply M. apply in_canon. rewrite H0. left. reflexivity.
  - cbn. apply existsb_false. intros x I. apply M. rewrite <- H0, in_canon in I. exact I.
Qed.
Print Assumptions C58_remove_nil_removes.
Theorem C58_subtract_keeps : forall named t o v, den named t v -> ~ den named o v -> den named (subtract t o) v.
Proof.
  intros named t o v DV N.
  assert (A : forall u, den named u v -> eqb u o = false).
  { intros u DU. apply eqb_neq. intros ->. contradiction. }
  assert (B : (if eqb t o then TUnknown else t) = t) by (rewrite (A t DV); reflexivity).
  destruct t; unfold subtract; try (rewrite B; exact DV).
  apply union_complete. apply den_union in DV as [u [I DU]]. apply some_filter. exists u.
  rewrite (A u DU). auto.
Qed.
Print Assumptions C58_subtract_keeps.
Theorem C58_subtract_adds_nothing : forall named t o v, subtract t o <> TUnknown -> den named (subtract t o) v -> den named t v.
Proof.
  intros named t o v N DV.
  assert (B : subtract t o = (if eqb t o then TUnknown else t) -> den named t v).
  { intros E. rewrite E in *. destruct (eqb t o); [congruence|exact DV]. }
  destruct t; try (apply B; reflexivity). cbn [subtract] in *.
  apply union_sound in DV; [|exact N]. apply some_filter in DV as [u [I [_ DU]]].
  apply den_union. exists u. auto.
Qed.
Print Assumptions C58_subtract_adds_nothing.
Theorem C58_subtract_removes : forall t o, flat t -> is_union o = false -> o <> TUnknown -> ~ In o (members (subtract t o)).
Proof.
  intros t o F U N.
  assert (B : is_union t = false -> ~ In o (members (if eqb t o then TUnknown else t))).
  { intros Q. destruct (eqb t o) eqn:E; [cbn; intuition congruence|]. apply eqb_neq in E.
    destruct t; try discriminate; cbn; intuition congruence. }
  destruct t; try (apply B; reflexivity). cbn [subtract]. cbn in F.
  set (l' := filter (fun x => negb (eqb x o)) l).
  assert (M : ~ In o (flatten l')).
  { rewrite flatten_atoms by (intros y Y; apply filter_In in Y as [Y _]; auto).
    intros I. apply filter_In in I as [_ P]. rewrite eqb_refl in P. discriminate. }
  assert (MU : forall x, In x (flatten l') -> is_union x = false).
  { intros x I. rewrite flatten_atoms in I by (intros y Y; apply filter_In in Y as [Y _]; auto).
    apply filter_In in I as [I _]. auto. }
  destruct (union_cases l'); cbn [members]; try (cbn; intuition congruence).
  - assert (In x (flatten l')) as I by (apply in_canon; rewrite H0; left; reflexivity).
    pose proof (MU x I) as Q. destruct x; try discriminate; cbn; intros [<-|[]]; contradiction.
  - rewrite <- H0, in_canon. exact M.
Qed.
Print Assumptions C58_subtract_removes.
Theorem C58_make_nilable : forall named t v, den named t v -> den named (make_nilable t) v.
Proof.
  intros named t v DV. unfold make_nilable. destruct (is_nilable t); [exact DV|].
  assert (A : is_unknown t = false -> den named (if eqb t nil_class then t else if ltb t nil_class then TUnion [t; nil_class] else TUnion [nil_class; t]) v).
  { intros _. destruct (eqb t nil_class); [exact DV|]. destruct (ltb t nil_class); apply den_union; exists t; cbn; auto. }
  destruct t; try (apply A; reflexivity); [|exact DV].
  cbn [optional]. apply union_complete. apply some_app. left. apply den_union. exact DV.
Qed.
Print Assumptions C58_make_nilable.
Example C58_case : remove_nil (TUnion [nil_class; integer; string]) = TUnion [string; integer] \/
  remove_nil (TUnion [nil_class; integer; string]) = TUnion [integer; string].
Proof. vm_compute. auto. Qed.
Example C58_subtract_case : subtract (TUnion [nil_class; integer; string]) integer = union [nil_class; string] /\
  flat (TUnion [nil_class; integer; string]).
Proof. split; [vm_compute; reflexivity|]. cbn. intros x [<-|[<-|[<-|[]]]]; reflexivity. Qed.
