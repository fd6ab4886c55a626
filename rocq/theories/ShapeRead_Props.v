(** C106: what the analysis says about reading a hash holds of every such hash. *)
From Coq Require Import List Arith Bool.
From Verif Require Import Types_Model Types_Spec Types_Order Types_Union Types_Shape Types_Widen Types_Sub Types_Props ShapeRead_Model ShapeRead_Spec.
Import ListNotations.

Lemma litval_inj a b : litval a = litval b -> a = b.
Proof. destruct a, b; cbn; congruence. Qed.
Lemma val_lit_dec (x : val) k : {x = litval k} + {x <> litval k}.
Proof. destruct k as [n|n], x as [m|m|m|l|l]; cbn; try (right; discriminate); destruct (Nat.eq_dec m n) as [->|]; [left; auto|right; congruence|left; auto|right; congruence]. Qed.
Lemma lookup_some k fs f : lookup k fs = Some f -> In f fs /\ fkey f = k.
Proof. intros H. apply find_some in H. destruct H as (H & E). split; auto. now apply lit_eqb_eq. Qed.
Lemma lookup_none k fs : lookup k fs = None -> forall f, In f fs -> litval k <> litval (fkey f).
Proof.
  intros H f Hf C. apply litval_inj in C. pose proof (find_none _ _ H f Hf) as N0. cbn in N0. assert (lit_eqb (fkey f) k = true) by now apply lit_eqb_eq. congruence.
Qed.
Lemma collect_some {A B} (f : A -> option (option B)) l : forall ys, collect f l = Some (Some ys) -> forall x, In x l -> exists y, f x = Some (Some y) /\ In y ys.
Proof.
  induction l as [|a l IH]; intros ys H x Hx; [easy|]. cbn [collect] in H. destruct (f a) as [[y|]|] eqn:E; try easy.
  destruct (collect f l) as [[ys'|]|]; try easy. injection H as <-. destruct Hx as [<-|Hx]; [exists y; split; auto; now left|].
  destruct (IH ys' eq_refl x Hx) as (z & H1 & H2). exists z. split; auto. now right.
Qed.
Lemma collect_from {A B} (f : A -> option (option B)) l : forall ys, collect f l = Some (Some ys) -> forall y, In y ys -> exists x, In x l /\ f x = Some (Some y).
Proof.
  induction l as [|a l IH]; intros ys H y Hy; cbn [collect] in H; [injection H as <-; easy|]. destruct (f a) as [[z|]|] eqn:E; try easy.
  destruct (collect f l) as [[ys'|]|]; try easy. injection H as <-. destruct Hy as [<-|Hy]; [exists a; split; auto; now left|].
  destruct (IH ys' eq_refl y Hy) as (x & H1 & H2). exists x. split; auto. now right.
Qed.

(** Exact shapes have no rest. *)
Lemma occurs_trans x t u : occurs x t -> occurs t u -> occurs x u.
Proof. intros H. induction 1; eauto using occurs. Qed.
Lemma exact_no_rest : forall t, built t -> every_shape (fun _ rest ex => ex = true -> rest = None) t.
Proof.
  apply built_ind'; try (intros; intros fs' rest' ex' fr' d' O; inversion O; subst; auto; fail).
  - intros l F fs' rest' ex' fr' d' O. inversion O; subst; auto. rewrite Forall_forall in F. eapply F; eauto.
  - intros k v F G fs' rest' ex' fr' d' O. rewrite Forall_forall in F, G. inversion O; subst; auto; [eapply F|eapply G]; eauto.
  - intros l F fs' rest' ex' fr' d' O. inversion O; subst; auto. rewrite Forall_forall in F. eapply F; eauto.
  - intros fs rest ex fr t F R H fs' rest' ex' fr' d' O. apply try_new_inl in H. destruct H as (A & -> & _). rewrite Forall_forall in F.
    inversion O; subst.
    + apply (ac_exact _ _ _ A).
    + eapply F; [|eassumption]. eapply Permutation.Permutation_in; [apply Permutation.Permutation_sym, fsort_perm|eassumption].
    + destruct (R _ _ eq_refl) as (H1 & _). eapply H1; eauto.
    + destruct (R _ _ eq_refl) as (_ & H1). eapply H1; eauto.
Qed.

Section Reads.
Variable named : meaning.
Variables nil yes no : val.
Hypothesis core : core_classes named.
Hypothesis single : singletons named nil yes no.
Notation D := (den named).
Notation some := (described_by_some named).

Lemma proven_complete l t v : proven_union l = Some t -> some l v -> D t v.
Proof.
  unfold proven_union. destruct l as [|x l]; [easy|]. destruct (existsb is_unknown (x :: l)); [easy|].
  intros H S0. pose proof (union_complete named (x :: l) v S0) as U. destruct (union (x :: l)); try easy; injection H as <-; exact U.
Qed.
Lemma proven_is l t : proven_union l = Some t -> t = union l.
Proof. unfold proven_union. destruct l as [|x l]; [easy|]. destruct (existsb is_unknown (x :: l)); [easy|]. now destruct (union (x :: l)); intros [= <-]. Qed.
Lemma nil_den : D nil_class nil.
Proof. apply (nil_only _ _ _ _ single). reflexivity. Qed.

(** What holds of every shape of a type passes to its alternatives. *)
Definition sound_shape (whole : Prop) (fs : list field) (rest : option (ty * ty)) (ex : bool) : Prop :=
  (ex = true -> rest = None) /\ (whole -> forall a b, rest = Some (a, b) -> forall k, D a (litval k) -> is_subtype (widened k) a = Some true).
Definition sound_type (whole : Prop) : ty -> Prop := every_shape (sound_shape whole).
Lemma sound_member whole t m : sound_type whole t -> In m (members t) -> sound_type whole m.
Proof.
  intros H Hm fs rest ex fr d O. apply (H fs rest ex fr d). destruct t; cbn [members] in Hm; try (destruct Hm as [<-|[]]; exact O).
  eapply Occ_union; eauto.
Qed.
Lemma sound_union whole l : Forall (sound_type whole) l -> sound_type whole (union l).
Proof.
  intros H. apply union_pres; auto.
  - intros fs rest ex fr d O. inversion O.
  - intros k Hk. apply Forall_forall. intros x Hx fs rest ex fr d O. apply (Hk fs rest ex fr d). eapply Occ_union; eauto.
  - intros k Hk fs rest ex fr d O. rewrite Forall_forall in Hk. inversion O; subst. eapply Hk; eauto.
Qed.
Lemma sound_nil whole : sound_type whole nil_class.
Proof. intros fs rest ex fr d O. inversion O. Qed.

(** Every hash of the type is one of some alternative that is a shape. *)
Lemma variants_den {B} (f : list field -> option (ty * ty) -> bool -> option (option B)) r l v :
  variants f r = Some (Some l) -> D r v ->
  exists fs rest ex fr d es b, In (TShape fs rest ex fr d) (members r) /\ v = VHash es /\ shape_den named fs rest ex es /\ f fs rest ex = Some (Some b) /\ In b l.
Proof.
  intros H Hv. apply members_den in Hv. destruct Hv as (m & Hm & Dm). destruct (collect_some _ _ _ H m Hm) as (b & Hb & Ib).
  destruct m; try easy. apply den_shape in Dm. destruct Dm as (es & -> & S0). eexists _, _, _, _, _, es, b. eauto 7.
Qed.
Lemma resolve_den f r t v y : resolve f r = Some (Some t) -> D r v ->
  (forall fs rest ex fr d es u, In (TShape fs rest ex fr d) (members r) -> v = VHash es -> shape_den named fs rest ex es -> f fs rest ex = Some (Some u) -> D u y) -> D t y.
Proof.
  unfold resolve. destruct (variants f r) as [[l|]|] eqn:E; try easy. intros [= H] Hv K.
  destruct (variants_den f r l v E Hv) as (fs & rest & ex & fr & d & es & u & Hm & Ev & S0 & Hu & Iu).
  eapply proven_complete; [exact H|]. exists u. split; auto. eapply K; eauto.
Qed.

Lemma any_value_den fs rest ex l es x y : any_value fs rest ex = Some l -> (ex = true -> rest = None) -> shape_den named fs rest ex es -> In (x, y) es -> some l y.
Proof.
  intros H X (S1 & S2 & S3) I0.
  assert ((exists f, In f fs /\ x = litval (fkey f)) \/ (forall f, In f fs -> x <> litval (fkey f))) as [(f & If & Ex)|No].
  { clear - fs. induction fs as [|g fs [(f & Hf & Ef)|IH]]; [right; easy|left; exists f; split; auto; now right|].
    destruct (val_lit_dec x (fkey g)) as [Eg|Ng]; [left; exists g; split; auto; now left|]. right. intros f [<-|Hf]; auto. }
  - assert (some (map fval fs) y) as So. { exists (fval f). split; [now apply in_map|]. eapply S2; eauto. }
    unfold any_value in H. destruct rest as [[a b]|]; [injection H as <-; apply some_app; now left|]. destruct ex; [|easy]. now injection H as <-.
  - pose proof (S3 x y I0 No) as R. unfold any_value in H. destruct rest as [[a b]|].
    + injection H as <-. apply some_app. right. exists b. split; [now left|]. tauto.
    + destruct ex; easy.
Qed.

Lemma some_inj {A} (a b : A) : Some a = Some b -> a = b.
Proof. congruence. Qed.
Lemma some_one t v : D t v -> some [t] v.
Proof. intros H. exists t. split; auto. now left. Qed.
Lemma some_more t l v : some l v -> some (t :: l) v.
Proof. intros (u & Hu & H). exists u. split; auto. now right. Qed.
Lemma some_here t l v : D t v -> some (t :: l) v.
Proof. intros H. exists t. split; auto. now left. Qed.

(** ** One shape. *)
Lemma read_literal_den k fs rest ex es u y : sound_shape True fs rest ex -> shape_den named fs rest ex es ->
  read_literal k fs rest ex = Some (Some u) -> reads nil es (litval k) y -> D u y.
Proof.
  intros (X & W) (S1 & S2 & S3) H R. unfold read_literal in H. destruct (lookup k fs) as [f|] eqn:L.
  - apply lookup_some in L. destruct L as (If & <-). apply some_inj in H. eapply proven_complete; [exact H|]. destruct (freq f) eqn:Q.
    + apply some_one. destruct R as [R|(_ & R)]; [eapply S2; eauto|]. destruct (S1 f If Q) as (z & Hz). now apply R in Hz.
    + destruct R as [R|(-> & _)]; [apply some_here; eapply S2; eauto|apply some_more, some_one, nil_den].
  - pose proof (lookup_none k fs L) as No. destruct ex.
    + apply some_inj in H. eapply proven_complete; [exact H|]. apply some_one. destruct R as [R|(-> & _)]; [|apply nil_den].
      pose proof (S3 _ _ R No) as C. rewrite X in C by auto. easy.
    + destruct rest as [[a b]|]; [|easy]. destruct (is_subtype (widened k) a) as [[|]|] eqn:E; [| |easy]; apply some_inj in H; (eapply proven_complete; [exact H|]).
      * destruct R as [R|(-> & _)]; [apply some_here; apply (S3 _ _ R No)|apply some_more, some_one, nil_den].
      * apply some_one. destruct R as [R|(-> & _)]; [|apply nil_den]. destruct (S3 _ _ R No) as (Ha & _). apply (W Logic.I a b eq_refl k) in Ha. congruence.
Qed.
Lemma read_dynamic_den fs rest ex es u x y : (ex = true -> rest = None) -> shape_den named fs rest ex es ->
  read_dynamic fs rest ex = Some (Some u) -> reads nil es x y -> D u y.
Proof.
  intros X S0 H R. unfold read_dynamic in H. destruct (any_value fs rest ex) as [l|] eqn:E; [|easy]. apply some_inj in H. eapply proven_complete; [exact H|].
  apply some_app. destruct R as [R|(-> & _)]; [left; eapply any_value_den; eauto|right; apply some_one, nil_den].
Qed.
Lemma in_shape_sound whole r fs rest ex fr d : sound_type whole r -> In (TShape fs rest ex fr d) (members r) -> sound_shape whole fs rest ex.
Proof. intros H Hm. eapply (sound_member whole r _ H Hm). apply Occ_self. Qed.
Lemma index_den r k t es x y : sound_type (k <> None) r -> D r (VHash es) -> indexed_read r k = Some (Some t) -> written k x -> reads nil es x y -> D t y.
Proof.
  intros So Hv H Wr R. eapply resolve_den; [exact H|exact Hv|]. intros fs rest ex fr d es' u Hm [= <-] S0 Hu.
  pose proof (in_shape_sound _ r fs rest ex fr d So Hm) as (X & W). destruct k as [k|]; cbn in Wr.
  - subst x. eapply read_literal_den; eauto. split; auto. intros _. apply W. easy.
  - eapply read_dynamic_den; eauto.
Qed.

(** ** The types read are again made of sound shapes. *)
Lemma sound_proven whole l t : Forall (sound_type whole) l -> proven_union l = Some t -> sound_type whole t.
Proof. intros H E. apply proven_is in E. subst t. now apply sound_union. Qed.
Lemma sound_resolve whole f r t : sound_type whole r -> resolve f r = Some (Some t) ->
  (forall fs rest ex fr d u, In (TShape fs rest ex fr d) (members r) -> f fs rest ex = Some (Some u) -> sound_type whole u) -> sound_type whole t.
Proof.
  intros So H K. unfold resolve in H. destruct (variants f r) as [[l|]|] eqn:E; try easy. apply some_inj in H. eapply sound_proven; [|exact H].
  apply Forall_forall. intros u Hu. destruct (collect_from _ _ _ E u Hu) as (m & Hm & Em). destruct m; try easy. eapply K; eauto.
Qed.
Lemma sound_inside whole r m t : sound_type whole r -> In m (members r) -> occurs t m -> sound_type whole t.
Proof. intros So Hm O fs rest ex fr d O'. eapply (sound_member whole r m So Hm). eapply occurs_trans; eauto. Qed.
Lemma sound_any whole r fs rest ex fr d l : sound_type whole r -> In (TShape fs rest ex fr d) (members r) -> any_value fs rest ex = Some l -> Forall (sound_type whole) l.
Proof.
  intros So Hm H. apply Forall_forall. intros u Hu. assert (In u (map fval fs) \/ exists a, rest = Some (a, u)) as [Hu'|(a & ->)].
  { unfold any_value in H. destruct rest as [[a b]|]; [injection H as <-; apply in_app_or in Hu; destruct Hu as [Hu|[<-|[]]]; eauto|]. destruct ex; [|easy]. injection H as <-. auto. }
  - apply in_map_iff in Hu'. destruct Hu' as (f & <- & If). eapply sound_inside; eauto. eapply Occ_field; [exact If|apply Occ_self].
  - eapply sound_inside; eauto. eapply Occ_rest_value. apply Occ_self.
Qed.
Lemma sound_index whole r k t : sound_type whole r -> indexed_read r k = Some (Some t) -> sound_type whole t.
Proof.
  intros So H. eapply sound_resolve; [exact So|exact H|]. intros fs rest ex fr d u Hm Hu. destruct k as [k|].
  - assert (exists l, Some (Some u) = Some (proven_union l) /\ forall x, In x l -> x = nil_class \/ (exists f, In f fs /\ x = fval f) \/ exists a, rest = Some (a, x)) as (l & [= El] & Hl).
    { rewrite <- Hu. unfold read_literal. destruct (lookup k fs) as [f|] eqn:L.
      - apply lookup_some in L. destruct L as (If & _). eexists. split; [reflexivity|]. intros x Hx. destruct (freq f); cbn in Hx; intuition (subst; eauto).
      - destruct ex; [eexists; split; [reflexivity|]; intros x [<-|[]]; auto|]. destruct rest as [[a b]|].
        + unfold read_literal in Hu. rewrite L in Hu. destruct (is_subtype (widened k) a) as [[|]|]; [| |easy]; (eexists; split; [reflexivity|]); intros x Hx; cbn in Hx; intuition (subst; eauto).
        + unfold read_literal in Hu. rewrite L in Hu. easy. }
    eapply sound_proven; [|symmetry; exact El]. apply Forall_forall. intros x Hx. destruct (Hl x Hx) as [->|[(f & If & ->)|(a & ->)]].
    + apply sound_nil.
    + eapply sound_inside; eauto. eapply Occ_field; [exact If|apply Occ_self].
    + eapply sound_inside; eauto. eapply Occ_rest_value. apply Occ_self.
  - unfold read_dynamic in Hu. destruct (any_value fs rest ex) as [l|] eqn:E; [|easy]. apply some_inj in Hu. eapply sound_proven; [|exact Hu].
    apply Forall_app. split; [eapply sound_any; eauto|]. constructor; [apply sound_nil|constructor].
Qed.

Lemma shape_only_den t v : shape_only t = true -> D t v -> exists es, v = VHash es.
Proof.
  revert t v. fix rec 1. intros [f|f|f|f|l|l|k w|fs rest ex fr d|l|] v H Hv; try easy.
  - apply den_shape in Hv. destruct Hv as (es & E & _). now exists es.
  - cbn [shape_only] in H. rewrite (den_union named l v) in Hv. destruct Hv as (t & Ht & Dt).
    induction l as [|u l IH]; [easy|]. cbn [forallb] in H. apply andb_true_iff in H. destruct H as (Hu & Hl).
    destruct Ht as [E|Ht]; [apply (rec u v Hu); now rewrite E|now apply IH].
Qed.
Lemma digs_inv v xs y : digs nil v xs y -> exists es x xs', v = VHash es /\ xs = x :: xs' /\
  ((xs' = [] /\ reads nil es x y) \/ (xs' <> [] /\ ((y = nil /\ reads nil es x nil) \/ exists z, reads nil es x z /\ digs nil z xs' y))).
Proof.
  intros H. destruct H as [es x y R|es x x' xs R|es x x' xs y z R Dz]; exists es, x; eexists; (split; [reflexivity|]); (split; [reflexivity|]).
  - auto.
  - right. split; [easy|]. auto.
  - right. split; [easy|]. eauto.
Qed.
Lemma dig_den ks : forall r t v xs y, sound_type True r -> D r v -> dig r ks = Some (Some t) -> Forall2 written ks xs -> digs nil v xs y -> D t y.
Proof.
  induction ks as [|k ks IH]; intros r t v xs y So Hv H Wr Dg; [easy|].
  apply digs_inv in Dg. destruct Dg as (es & x & xs' & -> & -> & Dg). inversion Wr as [|? ? ? ? Wk Wks]; subst. cbn [dig] in H. destruct (indexed_read r k) as [[w|]|] eqn:E; try easy.
  assert (forall y, reads nil es x y -> D w y) as Rd.
  { intros y' R. eapply index_den; eauto. intros fs rest ex fr d O. destruct (So fs rest ex fr d O) as (X & W). split; auto. intros _. exact (W Logic.I). }
  destruct ks as [|k' ks].
  - inversion Wks; subst. injection H as <-. destruct Dg as [(_ & R)|(C & _)]; [auto|easy].
  - destruct (collect _ (members w)) as [[l|]|] eqn:C; try easy. apply some_inj in H. destruct Dg as [(-> & _)|(_ & Dg)]; [inversion Wks|].
    eapply proven_complete; [exact H|]. destruct Dg as [(-> & R)|(z & R & Dz)].
    + pose proof (Rd nil R) as Dn. apply members_den in Dn. destruct Dn as (m & Hm & Dm). destruct (collect_some _ _ _ C m Hm) as (u & Hu & Iu). cbn beta in Hu.
      exists u. split; auto. destruct (eqb m nil_class) eqn:Em; [injection Hu as <-; apply nil_den|].
      destruct (shape_only m) eqn:Sm; [|easy]. destruct (shape_only_den m nil Sm Dm) as (es' & C'). now apply (nil_no_hash _ _ _ _ single) in C'.
    + pose proof (Rd z R) as Dn. apply members_den in Dn. destruct Dn as (m & Hm & Dm). destruct (collect_some _ _ _ C m Hm) as (u & Hu & Iu). cbn beta in Hu.
      exists u. split; auto. destruct (eqb m nil_class) eqn:Em.
      * apply eqb_eq in Em. rewrite Em in Dm. apply (nil_only _ _ _ _ single) in Dm. rewrite Dm in Dz. apply digs_inv in Dz. destruct Dz as (es' & _ & _ & C' & _). now apply (nil_no_hash _ _ _ _ single) in C'.
      * destruct (shape_only m) eqn:Sm; [|easy]. apply (IH m u z xs' y); auto. eapply sound_member; [eapply sound_index; eauto|exact Hm].
Qed.

Lemma proven_sound l t v : proven_union l = Some t -> D t v -> some l v.
Proof.
  unfold proven_union. destruct l as [|x l]; [easy|]. destruct (existsb is_unknown (x :: l)); [easy|]. intros H Hv. apply (union_sound named); destruct (union (x :: l)); try easy; now injection H as ->.
Qed.
Lemma fetch_den r k d t es x y : sound_type (k <> None) r -> D r (VHash es) -> fetch r k d = Some (Some t) -> written k x ->
  fetches es x (fun y => match d with Some d => D d y | None => False end) y -> D t y.
Proof.
  intros So Hv H Wr R. eapply resolve_den; [exact H|exact Hv|]. intros fs rest ex fr dd es' u Hm [= <-] S0 Hu. cbn beta in Hu.
  pose proof (in_shape_sound _ r fs rest ex fr dd So Hm) as (X & W).
  assert (forall l reach, match k with Some k => fetch_literal k fs rest ex | None => Some (option_map (fun l => (l, true)) (any_value fs rest ex)) end = Some (Some (l, reach)) ->
     (forall z, In (x, z) es -> some l z) /\ (reach = false -> exists z, In (x, z) es)) as K.
  { intros l reach E. destruct k as [k|]; cbn in Wr.
    - subst x. destruct S0 as (S1 & S2 & S3). unfold fetch_literal in E. destruct (lookup k fs) as [f|] eqn:L.
      + apply lookup_some in L. destruct L as (If & <-). injection E as <- <-. split; [intros z Hz; apply some_one; eapply S2; eauto|]. intros Q. apply S1; auto. now destruct (freq f).
      + pose proof (lookup_none k fs L) as No. destruct ex.
        * injection E as <- <-. split; [|easy]. intros z Hz. pose proof (S3 _ _ Hz No) as C. rewrite X in C by auto. easy.
        * destruct rest as [[a b]|]; [|easy]. destruct (is_subtype (widened k) a) as [[|]|] eqn:Q; [| |easy]; injection E as <- <-; (split; [|easy]); intros z Hz; destruct (S3 _ _ Hz No) as (Ha & Hb).
          -- now apply some_one.
          -- apply (W ltac:(easy) a b eq_refl k) in Ha. congruence.
    - destruct (any_value fs rest ex) as [l0|] eqn:A; [|easy]. injection E as <- <-. split; [|easy]. intros z Hz. eapply any_value_den; eauto. }
  destruct (match k with Some k => _ | None => _ end) as [[[l reach]|]|]; try easy. destruct (K l reach eq_refl) as (K1 & K2). destruct d as [d|].
  - destruct reach.
    + destruct (is_unknown d); [easy|]. apply some_inj in Hu. eapply proven_complete; [exact Hu|]. apply some_app. destruct R as [R|(Hd & _)]; [left; auto|right; now apply some_one].
    + apply some_inj in Hu. eapply proven_complete; [exact Hu|]. destruct R as [R|(_ & No)]; [auto|]. destruct (K2 eq_refl) as (z & Hz). now apply No in Hz.
  - apply some_inj in Hu. eapply proven_complete; [exact Hu|]. destruct R as [R|([] & _)]. auto.
Qed.

Lemma project_den f r t es g : D r (VHash es) -> project f r = Some (Some t) ->
  (forall fs rest ex fr d l, In (TShape fs rest ex fr d) (members r) -> shape_den named fs rest ex es -> f fs rest = Some l -> (ex = true \/ rest <> None) -> forall e, In e es -> some l (g e)) ->
  D t (VArr (map g es)).
Proof.
  intros Hv H K. unfold project in H. destruct (variants _ r) as [[ls|]|] eqn:E; try easy. destruct (existsb contains_unknown (concat ls)); [easy|]. injection H as <-.
  destruct (variants_den _ r ls _ E Hv) as (fs & rest & ex & fr & d & es' & l & Hm & [= <-] & S0 & Hl & Il).
  destruct (negb ex && match rest with None => true | Some _ => false end) eqn:Q; [easy|]. destruct (f fs rest) as [l0|] eqn:F; [|easy]. injection Hl as ->.
  apply den_array. eexists. split; [reflexivity|]. intros v Hx. apply in_map_iff in Hx. destruct Hx as (e & <- & He). apply canonical_members_complete.
  assert (some l (g e)) as (u & Hu & Du). { eapply K; eauto. destruct ex; [auto|]. right. now destruct rest. }
  exists u. split; auto. apply in_concat. eauto.
Qed.
Lemma entry_kind fs rest ex es x y : shape_den named fs rest ex es -> (ex = true -> rest = None) -> (ex = true \/ rest <> None) -> In (x, y) es ->
  (exists f, In f fs /\ x = litval (fkey f) /\ D (fval f) y) \/ (exists a b, rest = Some (a, b) /\ D a x /\ D b y).
Proof.
  intros (S1 & S2 & S3) X N I0.
  assert ((exists f, In f fs /\ x = litval (fkey f)) \/ (forall f, In f fs -> x <> litval (fkey f))) as [(f & If & Ex)|No].
  { clear - fs. induction fs as [|g fs [(f & Hf & Ef)|IH]]; [right; easy|left; exists f; split; auto; now right|].
    destruct (val_lit_dec x (fkey g)) as [Eg|Ng]; [left; exists g; split; auto; now left|]. right. intros f [<-|Hf]; auto. }
  - left. exists f. do 2 (split; auto). eapply S2; eauto.
  - right. pose proof (S3 x y I0 No) as R. destruct rest as [[a b]|]; [exists a, b; tauto|]. destruct N as [->|N]; easy.
Qed.
Lemma keys_den r t es : sound_type False r -> D r (VHash es) -> keys r = Some (Some t) -> D t (VArr (map fst es)).
Proof.
  intros So Hv H. eapply project_den; [exact Hv|exact H|]. intros fs rest ex fr d l Hm S0 El N [x y] I0. cbn [fst]. apply some_inj in El. subst l.
  pose proof (in_shape_sound _ r fs rest ex fr d So Hm) as (X & _). apply some_app.
  destruct (entry_kind fs rest ex es x y S0 X N I0) as [(f & If & -> & _)|(a & b & -> & Ha & _)].
  - left. exists (widened (fkey f)). split; [apply in_map_iff; eauto|now apply den_widened].
  - right. now apply some_one.
Qed.
Lemma values_den r t es : sound_type False r -> D r (VHash es) -> values r = Some (Some t) -> D t (VArr (map snd es)).
Proof.
  intros So Hv H. eapply project_den; [exact Hv|exact H|]. intros fs rest ex fr d l Hm S0 El N [x y] I0. cbn [snd].
  pose proof (in_shape_sound _ r fs rest ex fr d So Hm) as (X & _). cbn beta in El. destruct (seqo (map (fun f => widen (fval f)) fs)) as [l1|] eqn:Q; [|easy]. apply seqo_map in Q.
  destruct (entry_kind fs rest ex es x y S0 X N I0) as [(f & If & -> & Hf)|(a & b & -> & _ & Hb)].
  - destruct (match rest with Some _ => _ | None => _ end) as [l2|]; [|easy]. apply some_inj in El. subst l. apply some_app. left.
    destruct (Forall2_in_l _ _ _ f Q If) as (u & Hu & Wu). exists u. split; auto. eapply widen_larger; eauto.
  - destruct (widen b) as [b'|] eqn:Wb; [|easy]. cbn in El. apply some_inj in El. subst l. apply some_app. right. apply some_one. eapply widen_larger; eauto.
Qed.

Lemma boolean_den v : v = yes \/ v = no -> D boolean v.
Proof.
  intros H. unfold boolean. rewrite (den_union named). destruct H as [->| ->].
  - exists (TClass (const_name true_text)). split; [right; now left|]. now apply (true_only _ _ _ _ single).
  - exists (TClass (const_name false_text)). split; [now left|]. now apply (false_only _ _ _ _ single).
Qed.
Lemma presence_den r k t es x v : sound_type (k <> None) r -> D r (VHash es) -> key_presence r k = Some (Some t) -> written k x ->
  (v = yes /\ (exists z, In (x, z) es)) \/ (v = no /\ forall z, ~ In (x, z) es) -> D t v.
Proof.
  intros So Hv H Wr P. unfold key_presence in H. destruct k as [k|]; [|apply some_inj, some_inj in H; subst t; apply boolean_den; tauto]. cbn in Wr. subst x.
  destruct (variants (presence_in k) r) as [[l|]|] eqn:E; try easy. destruct (variants_den _ r l _ E Hv) as (fs & rest & ex & fr & d & es' & [missing there] & Hm & [= <-] & S0 & Hb & Ib).
  pose proof (in_shape_sound _ r fs rest ex fr d So Hm) as (X & W). specialize (W ltac:(easy)).
  assert ((missing = false -> exists z, In (litval k, z) es) /\ (there = false -> forall z, ~ In (litval k, z) es)) as (Ms & Th).
  { destruct S0 as (S1 & S2 & S3). unfold presence_in in Hb. destruct (lookup k fs) as [f|] eqn:L.
    - apply lookup_some in L. destruct L as (If & <-). injection Hb as <- <-. split; [|easy]. intros Q. apply S1; auto. now destruct (freq f).
    - pose proof (lookup_none k fs L) as No. destruct ex.
      + injection Hb as <- <-. split; [easy|]. intros _ z Hz. pose proof (S3 _ _ Hz No) as C. rewrite X in C by auto. easy.
      + destruct rest as [[a b]|]; [|now injection Hb as <- <-]. destruct (is_subtype (widened k) a) as [[|]|] eqn:Q; [| |easy]; injection Hb as <- <-; (split; [easy|]); [easy|].
        intros _ z Hz. destruct (S3 _ _ Hz No) as (Ha & _). apply (W a b eq_refl k) in Ha. congruence. }
  apply some_inj in H. destruct (forallb (fun m => negb (fst m)) l) eqn:F1, (forallb (fun m => negb (snd m)) l) eqn:F2; try easy; injection H as <-.
  - rewrite forallb_forall in F1. specialize (F1 _ Ib). cbn in F1. destruct missing; [easy|]. destruct P as [(-> & _)|(_ & No)]; [now apply (true_only _ _ _ _ single)|]. destruct (Ms eq_refl) as (z & Hz). now apply No in Hz.
  - rewrite forallb_forall in F2. specialize (F2 _ Ib). cbn in F2. destruct there; [easy|]. destruct P as [(_ & z & Hz)|(-> & _)]; [now apply Th in Hz|now apply (false_only _ _ _ _ single)].
  - apply boolean_den; tauto.
Qed.

Lemma index_only r k t y : indexed_read r (Some k) = Some (Some t) -> D t y ->
  exists fs rest ex fr d, In (TShape fs rest ex fr d) (members r) /\
    ((exists f, In f fs /\ fkey f = k /\ D (fval f) y) \/ (exists a b, rest = Some (a, b) /\ D b y) \/
     (y = nil /\ ((exists f, In f fs /\ fkey f = k /\ freq f = false) \/ forall f, In f fs -> fkey f <> k))).
Proof.
  unfold indexed_read, resolve. intros H Hy. destruct (variants (read_literal k) r) as [[l|]|] eqn:E; try easy. apply some_inj in H. apply (proven_sound _ _ _ H) in Hy.
  destruct Hy as (u & Hu & Du). destruct (collect_from _ _ _ E u Hu) as (m & Hm & Em). destruct m as [| | | | | | |fs rest ex fr d| |]; try easy.
  exists fs, rest, ex, fr, d. split; auto. unfold read_literal in Em. assert (forall v, D nil_class v -> v = nil) as Nil by apply (nil_only _ _ _ _ single). destruct (lookup k fs) as [f|] eqn:L.
  - apply lookup_some in L. destruct L as (If & Ek). apply some_inj in Em. apply (proven_sound _ _ _ Em) in Du. destruct Du as (w & Hw & Dw). destruct (freq f) eqn:Q; cbn in Hw.
    + destruct Hw as [<-|[]]. left. eauto.
    + destruct Hw as [<-|[<-|[]]]; [left; eauto|right; right; split; [now apply Nil|left; eauto]].
  - assert (forall f, In f fs -> fkey f <> k) as No. { intros f If Ef. apply (lookup_none k fs L f If). now rewrite Ef. }
    destruct ex.
    + apply some_inj in Em. apply (proven_sound _ _ _ Em) in Du. destruct Du as (w & [<-|[]] & Dw). right. right. split; [now apply Nil|auto].
    + destruct rest as [[a b]|]; [|easy]. destruct (is_subtype (widened k) a) as [[|]|]; [| |easy]; apply some_inj in Em; apply (proven_sound _ _ _ Em) in Du; destruct Du as (w & Hw & Dw); cbn in Hw.
      * destruct Hw as [<-|[<-|[]]]; right; [left; eauto|right; split; [now apply Nil|auto]].
      * destruct Hw as [<-|[]]. right. right. split; [now apply Nil|auto].
Qed.
End Reads.

Lemma built_sound named r : built r -> sound_type named False r.
Proof. intros H fs rest ex fr d O. split; [|easy]. eapply (exact_no_rest r H); eauto. Qed.
Lemma whole_sound named r (P : Prop) : built r -> (P -> whole_key_types named r) -> sound_type named P r.
Proof. intros H W fs rest ex fr d O. split; [eapply (exact_no_rest r H); eauto|]. intros p. exact (W p fs rest ex fr d O). Qed.

(** C106: the value read under a literal key, or nil, is described by the answer. *)
Theorem C106_index_partial : forall named nil yes no r k t es y, core_classes named -> singletons named nil yes no -> built r -> whole_key_types named r ->
  indexed_read r (Some k) = Some (Some t) -> den named r (VHash es) -> reads nil es (litval k) y -> den named t y.
Proof. intros named nil yes no r k t es y C Si B W H Hv R. eapply index_den; eauto; [apply whole_sound; auto|reflexivity]. Qed.
Print Assumptions C106_index_partial.
Theorem C106_index_any : forall named nil yes no r t es x y, core_classes named -> singletons named nil yes no -> built r ->
  indexed_read r None = Some (Some t) -> den named r (VHash es) -> reads nil es x y -> den named t y.
Proof. intros named nil yes no r t es x y C Si B H Hv R. eapply index_den; eauto; [|exact Logic.I]. apply whole_sound; easy. Qed.
Print Assumptions C106_index_any.
(** The answer takes in nothing else: what the fields of that key hold, what the rest holds, and nil only where some alternative may lack the key. *)
Theorem C106_index_tight : forall named nil yes no r k t y, singletons named nil yes no ->
  indexed_read r (Some k) = Some (Some t) -> den named t y ->
  exists fs rest ex fr d, In (TShape fs rest ex fr d) (members r) /\
    ((exists f, In f fs /\ fkey f = k /\ den named (fval f) y) \/ (exists a b, rest = Some (a, b) /\ den named b y) \/
     (y = nil /\ ((exists f, In f fs /\ fkey f = k /\ freq f = false) \/ forall f, In f fs -> fkey f <> k))).
Proof. intros. eapply index_only; eauto. Qed.
Print Assumptions C106_index_tight.
Theorem C106_fetch_partial : forall named nil yes no r k default t es x y, core_classes named -> singletons named nil yes no -> built r ->
  (k <> None -> whole_key_types named r) -> fetch r k default = Some (Some t) -> den named r (VHash es) -> written k x ->
  fetches es x (fun y => match default with Some d => den named d y | None => False end) y -> den named t y.
Proof. intros named nil yes no r k default t es x y C Si B W H Hv Wr R. eapply fetch_den; eauto. now apply whole_sound. Qed.
Print Assumptions C106_fetch_partial.
Theorem C106_dig_partial : forall named nil yes no r ks t v xs y, core_classes named -> singletons named nil yes no -> built r -> whole_key_types named r ->
  dig r ks = Some (Some t) -> den named r v -> Forall2 written ks xs -> digs nil v xs y -> den named t y.
Proof. intros named nil yes no r ks t v xs y C Si B W H Hv Wr R. eapply dig_den; eauto. now apply whole_sound. Qed.
Print Assumptions C106_dig_partial.
(** keys, values and the generic view. *)
Theorem C106_keys : forall named r t es, core_classes named -> built r -> keys r = Some (Some t) -> den named r (VHash es) -> den named t (VArr (map fst es)).
Proof. intros named r t es C B H Hv. eapply keys_den; eauto. now apply built_sound. Qed.
Print Assumptions C106_keys.
Theorem C106_values : forall named r t es, core_classes named -> built r -> values r = Some (Some t) -> den named r (VHash es) -> den named t (VArr (map snd es)).
Proof. intros named r t es C B H Hv. eapply values_den; eauto. now apply built_sound. Qed.
Print Assumptions C106_values.
Theorem C106_generic : forall named r t v, core_classes named -> generic_projection r = Some (Some t) -> den named r v -> den named t v.
Proof.
  intros named r t v C H Hv. eapply resolve_den; [exact H|exact Hv|]. intros fs rest ex fr d es u Hm -> S0 Hu. cbn beta in Hu.
  destruct (generic_hash fs rest ex) as [h|] eqn:E; [|easy]. injection Hu as <-. eapply (generic_hash_larger named C fs rest ex fr d); eauto. apply den_shape. eauto.
Qed.
Print Assumptions C106_generic.
(** [key?]. *)
Theorem C106_presence_partial : forall named nil yes no r k t es x v, singletons named nil yes no -> built r -> (k <> None -> whole_key_types named r) ->
  key_presence r k = Some (Some t) -> den named r (VHash es) -> written k x ->
  (v = yes /\ exists z, In (x, z) es) \/ (v = no /\ forall z, ~ In (x, z) es) -> den named t v.
Proof. intros named nil yes no r k t es x v Si B W H Hv Wr R. eapply presence_den; eauto. now apply whole_sound. Qed.
Print Assumptions C106_presence_partial.

(** ** Concrete cases. *)
Definition world : meaning := fun k f v =>
  match k, v with
  | InstanceOfClass, VSym _ => ftext f = symbol_text
  | InstanceOfClass, VStr _ => ftext f = string_text
  | InstanceOfClass, VObj 0 => ftext f = nil_text
  | InstanceOfClass, VObj 1 => ftext f = true_text
  | InstanceOfClass, VObj 2 => ftext f = false_text
  | InstanceOfClass, VObj _ => ftext f = integer_text
  | _, _ => False
  end.
Lemma world_core : core_classes world.
Proof. split; intros n; reflexivity. Qed.
Lemma world_single : singletons world (VObj 0) (VObj 1) (VObj 2).
Proof.
  split; try (intros v; split; [|intros ->; reflexivity]); try (destruct v as [[|[|[|n]]]| | | |]; cbn; easy). easy.
Qed.
Definition pair_shape := shape_of [(LSym 1, integer, true); (LSym 2, string, false)] None true.
Definition nested_shape := shape_of [(LSym 3, pair_shape, false); (LStr 1, integer, true)] None true.
Definition open_shape := shape_of [(LSym 1, integer, true)] (Some (symbol, string)) false.
Lemma pair_built : built pair_shape.
Proof. bshape. Qed.
Lemma nested_built : built nested_shape.
Proof. apply built_shape_of; [constructor; [apply pair_built|repeat constructor]|easy]. Qed.
Lemma open_built : built open_shape.
Proof. bshape. Qed.
Lemma closed_whole t : every_shape (fun _ rest _ => rest = None) t -> whole_key_types world t.
Proof. intros H fs rest ex fr d O a b E. rewrite (H fs rest ex fr d O) in E. easy. Qed.
Lemma pair_closed : every_shape (fun _ rest _ => rest = None) pair_shape.
Proof.
  intros fs rest ex fr d O. vm_compute in O. inversion O; subst; auto.
  repeat match goal with H : In _ _ |- _ => destruct H as [<-|H] | H : In _ [] |- _ => destruct H end; match goal with H : occurs _ _ |- _ => inversion H end.
Qed.
Lemma nested_closed : every_shape (fun _ rest _ => rest = None) nested_shape.
Proof.
  intros fs rest ex fr d O. change nested_shape with (TShape [(LSym 3, pair_shape, false); (LStr 1, integer, true)] None true false 2) in O. inversion O; subst; auto.
  match goal with H : In _ _ |- _ => destruct H as [<-|[<-|[]]] end; match goal with H : occurs _ _ |- _ => cbn [fval] in H end.
  - eapply pair_closed; eauto.
  - match goal with H : occurs _ _ |- _ => inversion H end.
Qed.
Lemma open_whole : whole_key_types world open_shape.
Proof.
  intros fs rest ex fr d O. vm_compute in O. inversion O; subst; intros a b E.
  - injection E as <- <-. intros [n|n] H; [vm_compute; reflexivity|discriminate H].
  - match goal with H : In _ _ |- _ => destruct H as [<-|[]] end; match goal with H : occurs _ _ |- _ => inversion H end.
  - match goal with H : occurs _ _ |- _ => inversion H end.
  - match goal with H : occurs _ _ |- _ => inversion H end.
Qed.
Definition pair_hash := [(VSym 1, VObj 7)].
Lemma pair_den : den world pair_shape (VHash pair_hash).
Proof.
  apply (den_shape world [(LSym 1, integer, true); (LSym 2, string, false)] None true false 1). eexists. split; [reflexivity|]. split; [|split].
  - intros f [<-|[<-|[]]] H; [|easy]. eexists. now left.
  - intros x y f [E|[]] [<-|[<-|[]]]; injection E as <- <-; [reflexivity|easy].
  - intros x y [E|[]] H. injection E as <- <-. exfalso. apply (H _ (or_introl eq_refl)). reflexivity.
Qed.
Example C106_index_case : indexed_read pair_shape (Some (LSym 1)) = Some (Some integer) /\
  indexed_read pair_shape (Some (LSym 2)) = Some (Some (union [string; nil_class])) /\
  indexed_read pair_shape (Some (LSym 9)) = Some (Some nil_class) /\
  indexed_read pair_shape None = Some (Some (union [integer; string; nil_class])) /\
  indexed_read open_shape (Some (LSym 9)) = Some (Some (union [string; nil_class])) /\
  indexed_read open_shape (Some (LStr 9)) = Some (Some nil_class) /\
  indexed_read (union [pair_shape; open_shape]) (Some (LSym 2)) = Some (Some (union [string; nil_class])) /\
  indexed_read (union [pair_shape; integer]) (Some (LSym 1)) = Some None /\
  den world integer (VObj 7) /\ whole_key_types world pair_shape /\ whole_key_types world open_shape.
Proof.
  do 8 (split; [vm_compute; reflexivity|]). split; [|split].
  - eapply (C106_index_partial world (VObj 0) (VObj 1) (VObj 2) pair_shape (LSym 1)); [apply world_core|apply world_single|apply pair_built|apply closed_whole, pair_closed|vm_compute; reflexivity|apply pair_den|]. left. now left.
  - apply closed_whole, pair_closed.
  - apply open_whole.
Qed.
Example C106_dig_case : dig nested_shape [Some (LSym 3); Some (LSym 1)] = Some (Some (union [integer; nil_class])) /\
  dig nested_shape [Some (LStr 1); Some (LSym 1)] = Some None /\
  digs (VObj 0) (VHash [(VStr 1, VObj 5); (VSym 3, VHash pair_hash)]) [VSym 3; VSym 1] (VObj 7) /\
  den world (union [integer; nil_class]) (VObj 7).
Proof.
  assert (digs (VObj 0) (VHash [(VStr 1, VObj 5); (VSym 3, VHash pair_hash)]) [VSym 3; VSym 1] (VObj 7)) as Dg.
  { eapply digs_on; [left; right; left; reflexivity|]. apply digs_last. left. now left. }
  split; [vm_compute; reflexivity|]. split; [vm_compute; reflexivity|]. split; [exact Dg|].
  eapply (C106_dig_partial world (VObj 0) (VObj 1) (VObj 2) nested_shape [Some (LSym 3); Some (LSym 1)]); [apply world_core|apply world_single|apply nested_built|apply closed_whole, nested_closed|vm_compute; reflexivity| | |exact Dg].
  - apply (den_shape world [(LSym 3, pair_shape, false); (LStr 1, integer, true)] None true false 2). eexists. split; [reflexivity|]. split; [|split].
    + intros f [<-|[<-|[]]] H; [easy|]. eexists. now left.
    + intros x y f [E|[E|[]]] [<-|[<-|[]]]; injection E as <- <-; intros E; try easy. apply pair_den.
    + intros x y [E|[E|[]]] H; injection E as <- <-; exfalso; [apply (H _ (or_intror (or_introl eq_refl)))|apply (H _ (or_introl eq_refl))]; reflexivity.
  - constructor; [reflexivity|]. constructor; [reflexivity|constructor].
Qed.
Example C106_fetch_case : fetch pair_shape (Some (LSym 1)) (Some string) = Some (Some integer) /\
  fetch pair_shape (Some (LSym 2)) (Some integer) = Some (Some (union [string; integer])) /\
  fetch pair_shape (Some (LSym 2)) None = Some (Some string) /\ fetch pair_shape (Some (LSym 9)) None = Some None /\
  fetch pair_shape None (Some symbol) = Some (Some (union [integer; string; symbol])).
Proof. repeat split; vm_compute; reflexivity. Qed.
Example C106_keys_case : keys nested_shape = Some (Some (TArray (members (union [symbol; string])))) /\ keys (TShape [] None false false 1) = Some None /\
  values pair_shape = Some (Some (TArray (members (union [integer; string])))) /\ generic_projection pair_shape = Some (Some (THash [symbol] (members (union [integer; string])))).
Proof. repeat split; vm_compute; reflexivity. Qed.
Example C106_presence_case : key_presence pair_shape (Some (LSym 1)) = Some (Some true_class) /\ key_presence pair_shape (Some (LSym 2)) = Some (Some boolean) /\
  key_presence pair_shape (Some (LSym 3)) = Some (Some false_class) /\ key_presence (union [pair_shape; open_shape]) (Some (LSym 3)) = Some (Some boolean) /\ key_presence pair_shape None = Some (Some boolean).
Proof. repeat split; vm_compute; reflexivity. Qed.

(** Where the other keys are described by a literal, a key that is there is read as nil and reported missing. *)
Theorem C106_rest_key_refuted : exists named nil yes no r k es y, core_classes named /\ singletons named nil yes no /\ built r /\
  den named r (VHash es) /\ In (litval k, y) es /\
  (exists t, indexed_read r (Some k) = Some (Some t) /\ ~ den named t y) /\
  (exists t, key_presence r (Some k) = Some (Some t) /\ ~ den named t yes).
Proof.
  exists world, (VObj 0), (VObj 1), (VObj 2), (shape_of [] (Some (TLit (LSym 1), string)) false), (LSym 1), [(VSym 1, VStr 4)], (VStr 4).
  split; [apply world_core|]. split; [apply world_single|]. split; [bshape|]. split; [|split; [now left|split]].
  - apply (den_shape world [] (Some (TLit (LSym 1), string)) false false 1). eexists. split; [reflexivity|]. split; [easy|split; [easy|]].
    intros x y [E|[]] _. injection E as <- <-. split; reflexivity.
  - exists nil_class. split; [vm_compute; reflexivity|]. discriminate.
  - exists false_class. split; [vm_compute; reflexivity|]. discriminate.
Qed.
Print Assumptions C106_rest_key_refuted.
