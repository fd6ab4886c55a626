(** Proofs about the types of literals. *)
From Coq Require Import List Arith Bool Lia Permutation.
From Verif Require Import Types_Model Types_Spec Types_Order Types_Union Types_Shape Types_Widen Types_Sub Types_Total ShapeRead_Spec Literal_Model Literal_Spec.
Import ListNotations.

Lemma lit_of_val a b : litval a = litval b -> a = b.
Proof. destruct a, b; cbn; congruence. Qed.

(** *** The map of fields *)
Lemma in_put f g fs : In g (put fs f) <-> g = f \/ (In g fs /\ fkey g <> fkey f).
Proof.
  unfold put. rewrite in_app_iff, filter_In. cbn [In]. split.
  - intros [[H E]|[<-|[]]]; auto. right. split; auto. intros C. rewrite (proj2 (lit_eqb_eq _ _) C) in E. discriminate.
  - intros [->|[H E]]; auto. left. split; auto. destruct (lit_eqb (fkey g) (fkey f)) eqn:Q; auto. apply lit_eqb_eq in Q. contradiction.
Qed.
Lemma put_unique f fs : NoDup (map fkey fs) -> NoDup (map fkey (put fs f)).
Proof.
  intros N. unfold put. rewrite map_app. cbn [map].
  assert (M : NoDup (map fkey (filter (fun g => negb (lit_eqb (fkey g) (fkey f))) fs))).
  { clear -N. induction fs as [|g fs IH]; cbn; [constructor|]. inversion N; subst. destruct (negb _); cbn; auto. constructor; auto.
    intros C. apply H1. apply in_map_iff in C as [h [E C]]. apply filter_In in C as [C _]. apply in_map_iff. exists h. auto. }
  apply Permutation_NoDup with (fkey f :: map fkey (filter (fun g => negb (lit_eqb (fkey g) (fkey f))) fs)).
  - apply Permutation_cons_append.
  - constructor; auto. intros C. apply in_map_iff in C as [h [E C]]. apply filter_In in C as [_ C]. rewrite (proj2 (lit_eqb_eq _ _) E) in C. discriminate.
Qed.
Lemma puts_unique fs : forall gs, NoDup (map fkey gs) -> NoDup (map fkey (fold_left put fs gs)).
Proof. induction fs as [|f fs IH]; cbn; intros gs N; auto. apply IH, put_unique, N. Qed.
Lemma in_puts fs : NoDup (map fkey fs) -> forall gs g,
  In g (fold_left put fs gs) <-> In g fs \/ (In g gs /\ ~ In (fkey g) (map fkey fs)).
Proof.
  induction fs as [|f fs IH]; intros N gs g; cbn [fold_left map In]; [tauto|].
  inversion N as [|? ? N1 N2]; subst. rewrite (IH N2), in_put. split.
  - intros [H|[[->|[H E]] M]]; auto. right. split; auto. intros [C|C]; auto.
  - intros [[<-|H]|[H M]]; auto. right. split; [|tauto]. right. split; [exact H|]. intros C. apply M. auto.
Qed.

Lemma same_key fs f g : NoDup (map fkey fs) -> In f fs -> In g fs -> fkey f = fkey g -> f = g.
Proof.
  induction fs as [|h fs IH]; intros N F G E; [easy|]. inversion N as [|? ? N1 N2]; subst.
  destruct F as [->|F], G as [->|G]; auto; exfalso; apply N1; apply in_map_iff; [exists g|exists f]; auto.
Qed.

Section Den.
Variable named : meaning.
Hypothesis core : core_classes named.
Notation D := (den named).
Notation some := (described_by_some named).

Lemma some_unknown l x : In TUnknown l -> some l x.
Proof. intros H. exists TUnknown. split; auto. exact Logic.I. Qed.
Lemma some_left a b x : some a x -> some (a ++ b) x.
Proof. intros H. apply some_app. now left. Qed.
Lemma some_right a b x : some b x -> some (a ++ b) x.
Proof. intros H. apply some_app. now right. Qed.
Lemma some_last t a x : D t x -> some (a ++ [t]) x.
Proof. intros H. apply some_app. right. exists t. split; [now left|exact H]. Qed.
Lemma union_with_complete a b v : D a v \/ D b v -> D (union_with a b) v.
Proof.
  intros H. unfold union_with. destruct (eqb a b) eqn:E. { apply eqb_eq in E. subst. tauto. }
  assert (A : forall l, a = TUnion l -> D a v -> some l v) by (intros l -> X; now apply den_union).
  assert (B : forall l, b = TUnion l -> D b v -> some l v) by (intros l -> X; now apply den_union).
  assert (S1 : forall t : ty, D t v -> some [t] v) by (intros t X; exists t; split; [now left|exact X]).
  destruct a, b; try exact Logic.I;
    (apply union_complete; rewrite ?some_app;
     destruct H as [H|H];
     [first [left; eapply A; [reflexivity|exact H] | right; apply S1, H | exists (ltac:(match type of H with D ?t _ => exact t end)); split; [cbn; tauto|exact H]]
     |first [right; eapply B; [reflexivity|exact H] | left; eapply B; [reflexivity|exact H] | right; apply S1, H | exists (ltac:(match type of H with D ?t _ => exact t end)); split; [cbn; tauto|exact H]]]).
Qed.

(** *** Hash literals *)
Record holds (a : acc) (ws : list (val * val)) : Prop := {
  h_types : forall x y, In (x, y) ws -> some (a_keys a) x /\ some (a_values a) y;
  h_unique : NoDup (map fkey (a_fields a));
  h_stays : a_complete a = true -> forall x y, stays ws x y -> exists f, In f (a_fields a) /\ x = litval (fkey f) /\ D (fval f) y;
  h_present : a_complete a = true -> forall f, In f (a_fields a) -> freq f = true -> exists y, In (litval (fkey f), y) ws }.

Lemma stays_app ws us x y : stays (ws ++ us) x y -> stays us x y \/ (stays ws x y /\ forall z, ~ In (x, z) us).
Proof.
  intros (a & b & E & N). apply app_eq_app in E as (l & [[E1 E2]|[E1 E2]]).
  - destruct l as [|p l].
    + cbn in E2. left. exists [], b. split; [symmetry; exact E2|exact N].
    + cbn in E2. injection E2 as <- ->. right. split.
      * exists a, l. split; [exact E1|]. intros z Z. apply (N z). apply in_or_app. now left.
      * intros z Z. apply (N z). apply in_or_app. now right.
  - left. exists l, b. split; [exact E2|exact N].
Qed.
Lemma stays_in ws x y : stays ws x y -> In (x, y) ws.
Proof. intros (a & b & -> & _). apply in_or_app. right. now left. Qed.
Lemma stays_one x y u v : stays [(u, v)] x y -> x = u /\ y = v.
Proof. intros H. apply stays_in in H as [E|[]]. injection E as -> ->. auto. Qed.
Lemma val_dec_lit (x : val) k : {x = litval k} + {x <> litval k}.
Proof. destruct k as [n|n], x as [m|m|m|l|l]; cbn; try (right; discriminate); destruct (Nat.eq_dec m n) as [->|]; [left; auto|right; congruence|left; auto|right; congruence]. Qed.

Lemma step_pair a ws k kt vt x y a' : holds a ws -> D kt x -> D vt y -> (forall k', k = Some k' -> x = litval k') ->
  step a (EPair k kt vt) = Some a' -> holds a' (ws ++ [(x, y)]).
Proof.
  intros [H1 H2 H3 H4] K V L. cbn [step]. destruct (widen kt) as [kt'|] eqn:WK; [|discriminate]. destruct (widen vt) as [vt'|] eqn:WV; [|discriminate].
  pose proof (widen_larger named core _ _ _ WK K) as K'. pose proof (widen_larger named core _ _ _ WV V) as V'.
  assert (T : forall u v, In (u, v) (ws ++ [(x, y)]) -> some (a_keys a ++ [kt']) u /\ some (a_values a ++ [vt']) v).
  { intros u v I. apply in_app_or in I as [I|[E|[]]].
    - destruct (H1 u v I). split; apply some_left; assumption.
    - injection E as <- <-. split; apply some_last; assumption. }
  destruct k as [k|]; [destruct (contains_unknown vt)|]; intros E; injection E as <-; constructor; cbn [a_keys a_values a_fields a_complete]; auto; try discriminate.
  - apply put_unique, H2.
  - intros C u v S1. specialize (L k eq_refl). apply stays_app in S1 as [S1|[S1 N]].
    + apply stays_one in S1 as [-> ->]. exists (k, vt, true). split; [apply in_put; now left|]. split; auto.
    + destruct (H3 C u v S1) as (f & F1 & F2 & F3). exists f. split; auto. apply in_put. right. split; auto.
      intros Q. apply (N y). left. rewrite L, F2, Q. reflexivity.
  - intros C f F R. apply in_put in F as [->|[F Q]].
    + exists y. apply in_or_app. right. left. rewrite (L k eq_refl). reflexivity.
    + destruct (H4 C f F R) as [z Z]. exists z. apply in_or_app. now left.
Qed.
Lemma step_open a ws us ks vs : holds a ws -> (forall x y, In (x, y) us -> some ks x /\ some vs y) ->
  holds (mkA (a_fields a) (a_keys a ++ ks) (a_values a ++ vs) false) (ws ++ us).
Proof.
  intros [H1 H2 H3 H4] T. constructor; cbn [a_keys a_values a_fields a_complete]; auto; try discriminate.
  intros x y I. apply in_app_or in I as [I|I]; [destruct (H1 x y I)|destruct (T x y I)]; split; (apply some_left; assumption) || (apply some_right; assumption).
Qed.
Lemma step_unknown a ws us : holds a ws ->
  holds (mkA (a_fields a) (a_keys a ++ [TUnknown]) (a_values a ++ [TUnknown]) false) (ws ++ us).
Proof. intros H. apply step_open; auto. intros x y _. split; apply some_unknown; now left. Qed.
Lemma step_exact a ws us fs ks vs : holds a ws -> NoDup (map fkey fs) -> (forall f, In f fs -> freq f = true) -> shape_den named fs None true us ->
  (forall x y, In (x, y) us -> some ks x /\ some vs y) ->
  holds (mkA (fold_left put fs (a_fields a)) (a_keys a ++ ks) (a_values a ++ vs) (a_complete a)) (ws ++ us).
Proof.
  intros H N R (S1 & S2 & S3) T. destruct (step_open a ws us ks vs H T) as [Q _ _ _]. destruct H as [H1 H2 H3 H4].
  constructor; cbn [a_keys a_values a_fields a_complete]; auto; cbn [a_keys a_values] in *.
  - apply puts_unique, H2.
  - intros C x y S4. apply stays_app in S4 as [S4|[S4 M]].
    + pose proof (stays_in _ _ _ S4) as I.
      assert (X : (exists f, In f fs /\ x = litval (fkey f)) \/ (forall f, In f fs -> x <> litval (fkey f))).
      { clear. induction fs as [|f fs IH]; [right; easy|]. destruct (val_dec_lit x (fkey f)) as [E|E]; [left; exists f; split; [now left|exact E]|].
        destruct IH as [(g & G1 & G2)|IH]; [left; exists g; split; [now right|exact G2]|]. right. intros g [<-|G]; auto. }
      destruct X as [(f & F & E)|X].
      * exists f. split; [apply in_puts; auto|]. split; auto. eapply S2; eauto.
      * specialize (S3 x y I X). discriminate.
    + destruct (H3 C x y S4) as (f & F1 & F2 & F3). exists f. split; auto. apply in_puts; auto. right. split; auto.
      intros I. apply in_map_iff in I as [g [E G]]. destruct (S1 g G (R g G)) as [z Z]. apply (M z). rewrite F2, <- E. exact Z.
  - intros C f F FR. apply (in_puts fs N) in F as [F|[F _]].
    + destruct (S1 f F FR) as [z Z]. exists z. apply in_or_app. now right.
    + destruct (H4 C f F FR) as [z Z]. exists z. apply in_or_app. now left.
Qed.

Definition splat_ok (e : elem) : Prop :=
  match e with ESplat (TShape fs _ _ _ _) => NoDup (map fkey fs) /\ forall f, In f fs -> freq f = true | _ => True end.
Lemma steps_hold l us : described named l us -> Forall splat_ok l -> forall a ws a', holds a ws -> steps a l = Some a' -> holds a' (ws ++ us).
Proof.
  induction 1 as [|k kt vt l x y us K V L DL IH|t l vs us T DL IH|t u l vs us T NH DL IH|l vs us DL IH]; intros F a ws a' H E; cbn [steps] in E.
  - injection E as <-. rewrite app_nil_r. exact H.
  - inversion F as [|? ? F1 F2]; subst. destruct (step a (EPair k kt vt)) as [b|] eqn:Q; [|discriminate].
    change ((x, y) :: us) with ([(x, y)] ++ us). rewrite app_assoc. apply (IH F2 b _ a'); [|exact E]. eapply step_pair; eauto.
  - inversion F as [|? ? F1 F2]; subst. destruct (step a (ESplat t)) as [b|] eqn:Q; [|discriminate]. rewrite app_assoc. apply (IH F2 b _ a'); [|exact E].
    assert (G : forall ks ws', t = THash ks ws' -> forall x y, In (x, y) vs -> some ks x /\ some ws' y).
    { intros ks ws' -> x y I. apply den_hash in T as (es & E' & T). injection E' as <-. auto. }
    destruct t as [f|f|f|f|c|m|ks m|fs rest ex fr d|m|]; cbn [step] in Q; try (injection Q as <-; apply step_unknown; assumption).
    + injection Q as <-. apply step_open; [assumption|eapply G; reflexivity].
    + destruct (generic_hash fs rest ex) as [h|] eqn:GH; [|discriminate]. destruct h; try discriminate.
      pose proof (generic_hash_larger named core _ _ _ fr d _ _ GH T) as TH. apply den_hash in TH as (es & E' & TH). injection E' as <-.
      destruct F1 as [N R]. destruct ex, rest; cbn in Q; injection Q as <-; try (apply step_open; assumption).
      apply step_exact; auto. apply den_shape in T as (es & E' & T). injection E' as <-. exact T.
  - inversion F as [|? ? F1 F2]; subst. destruct (step a (ESplat t)) as [b|] eqn:Q; [|discriminate]. rewrite app_assoc. apply (IH F2 b _ a'); [|exact E].
    destruct t as [f|f|f|f|c|m|ks m|fs rest ex fr d|m|]; cbn [step] in Q; try (injection Q as <-; apply step_unknown; assumption).
    + apply den_hash in T as (es & E' & T). exfalso. eapply NH; eauto.
    + apply den_shape in T as (es & E' & T). exfalso. eapply NH; eauto.
  - inversion F as [|? ? F1 F2]; subst. rewrite app_assoc. eapply (IH F2); [|exact E]. apply step_unknown, H.
Qed.

Lemma finish_den a ws es t : holds a ws -> result_of_writes ws es -> finish a = inl t -> D t (VHash es).
Proof.
  intros [H1 H2 H3 H4] R. unfold finish. destruct (a_complete a) eqn:C.
  - intros E. apply try_new_inl in E as (_ & -> & _). apply den_shape. exists es. split; auto. apply shape_den_sort. split; [|split].
    + intros f F FR. destruct (H4 eq_refl f F FR) as [y Y].
      assert (X : exists z, stays ws (litval (fkey f)) z).
      { clear -Y. revert y Y. induction ws as [|[u v] ws IH] using rev_ind; intros y Y; [destruct Y|].
        destruct (val_dec_lit u (fkey f)) as [->|Q].
        - exists v, ws, []. split; auto.
        - apply in_app_or in Y as [Y|[Y|[]]]; [|injection Y as -> _; congruence]. destruct (IH y Y) as (z & a & b & -> & N).
          exists z, a, (b ++ [(u, v)]). split; [rewrite <- app_assoc; reflexivity|]. intros w W. apply in_app_or in W as [W|[W|[]]]; [eapply N; eauto|injection W as -> _; congruence]. }
      destruct X as [z Z]. exists z. apply R. exact Z.
    + intros x y f I F E. apply R in I. destruct (H3 eq_refl x y I) as (g & G & Q & V). rewrite E in Q. apply lit_of_val in Q.
      enough (f = g) as -> by exact V. eapply same_key; eauto.
    + intros x y I N. apply R in I. destruct (H3 eq_refl x y I) as (g & G & Q & V). exfalso. eapply N; eauto.
  - intros E. injection E as <-. apply den_hash. exists es. split; auto. intros x y I. apply R, stays_in in I.
    destruct (H1 x y I). split; apply canonical_members_complete; assumption.
Qed.
Lemma start_holds : holds (mkA [] [] [] true) [].
Proof. constructor; cbn; try easy. - constructor. - intros _ x y (a & b & E & _). destruct a; discriminate. Qed.
Lemma hash_den l ws es t : described named l ws -> Forall splat_ok l -> result_of_writes ws es -> hash_type l = Some (inl t) -> D t (VHash es).
Proof.
  intros DL F R. unfold hash_type. destruct (steps _ l) as [a|] eqn:E; [|discriminate]. cbn. intros Q.
  eapply (finish_den a ([] ++ ws)); eauto; [|congruence]. eapply steps_hold; eauto. apply start_holds.
Qed.
Lemma array_den l vs : (forall v, In v vs -> some l v) -> D (array_type l) (VArr vs).
Proof.
  intros H. unfold array_type. apply den_array. exists vs. split; auto. intros x I. destruct l as [|t l]; [apply some_unknown; now left|].
  apply canonical_members_complete. auto.
Qed.
End Den.
