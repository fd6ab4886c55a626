(** The method return solver over all components: totality, solutions, independence of the order. *)
From Coq Require Import List Arith Lia Bool Permutation Sorted.
From Verif Require Import Types_Model Types_Spec Types_Order Types_Union Scc_Model Scc_Proofs Returns_Model Returns_Spec Returns_Proofs.
Import ListNotations.
Local Arguments union : simpl never.

Lemma nodup_mid {A} (l c r : list A) : NoDup (l ++ c ++ r) -> NoDup c.
Proof.
  induction l as [|x l IH]; cbn; intros H; [|inversion H; auto].
  induction c as [|x c IHc]; [constructor|]. inversion H; subst. constructor; [intros Q; apply H2, in_or_app; auto|auto].
Qed.

(** * All components *)
Section Whole.
Variable eqs : list equation.
Notation g := (graph_of eqs).
Hypothesis US : usable eqs.
Variable cs : list (list nat).
Hypothesis NDC : NoDup (concat cs).
Hypothesis COV : forall x, In x (concat cs) <-> In x (map fst g).
Hypothesis GOOD : good g cs.

Definition SolInv (before : list nat) (so : list (nat * outcome)) : Prop :=
  (forall m, (exists o, get so m = Some o) <-> In m before) /\
  (forall m t, get so m = Some (OProven t) -> good_type eqs m t /\ solution eqs so m t).

(** what a component in the list satisfies *)
Lemma component_facts l c r : cs = l ++ c :: r ->
  c <> [] /\ NoDup c /\ (forall m, In m c -> has_body eqs m) /\
  (forall x, In x c -> forall y, In y c <-> reach g x y /\ reach g y x) /\
  (forall x y, In x c -> edge g x y -> In y c \/ In y (concat l)) /\
  (forall x y, In x (concat l) -> edge g x y -> In y (concat l)) /\
  (forall x, In x c -> In x (concat l) -> False).
Proof.
  intros E. destruct GOOD as [G1 G2]. assert (IC : In c cs) by (rewrite E; apply in_elt).
  destruct (G1 c IC) as [A1 [A2 A3]]. rewrite E, concat_app in NDC. cbn in NDC.
  split; [exact A1|]. split. { apply (nodup_mid _ _ _ NDC). }
  split. { intros m M. apply in_keys. rewrite <- keys_graph. apply COV. apply in_concat. eauto. }
  split; [exact A3|]. split; [eauto|]. split.
  - intros x y X Exy. apply in_concat in X as [k [K X]]. apply in_split in K as [l1 [l2 K]]. subst l.
    rewrite <- app_assoc in E. cbn in E. destruct (G2 l1 k (l2 ++ c :: r) E x y X Exy) as [H|H]; rewrite concat_app; apply in_or_app.
    + right. cbn. apply in_or_app. left. exact H.
    + left. exact H.
  - intros x X Y. clear - NDC X Y. induction (concat l) as [|a k IH]; [contradiction|]. cbn in NDC. inversion NDC; subst.
    destruct Y as [->|Y]; [|auto]. apply H1. apply in_or_app. right. apply in_or_app. left. exact X.
Qed.

Lemma solution_keep so so' m t (before : list nat) :
  (forall d, In d before -> get so' d = get so d) -> (forall d, (exists o, get so d = Some o) -> In d before) ->
  solution eqs so m t -> solution eqs so' m t.
Proof.
  intros K D [A [B [l [L1 [L2 L3]]]]]. split; [exact A|].
  assert (BD : forall d, returns_call eqs m d -> get so' d = get so d).
  { intros d C. apply K, D. destruct (B d C) as [td T]. eauto. }
  split.
  - intros d C. rewrite BD by exact C. auto.
  - exists l. split; [exact L1|]. split; [exact L2|]. intros x. rewrite L3. split; (intros [H|[d [C H]]]; [left; exact H|right; exists d; split; [exact C|]]).
    + rewrite BD by exact C. exact H.
    + rewrite BD in H by exact C. exact H.
Qed.

Lemma component_step l c r so tel : cs = l ++ c :: r -> SolInv (concat l) so ->
  exists so' tel', solve_component eqs g c (so, tel) = Some (so', tel') /\ SolInv (concat (l ++ [c])) so' /\
    forall m, ~ In m c -> get so' m = get so m.
Proof.
  intros E [I1 I2]. destruct (component_facts l c r E) as [F1 [F2 [F3 [F4 [F5 [F6 F7]]]]]].
  assert (SG : forall m t, get so m = Some (OProven t) -> good_type eqs m t) by (intros; apply I2; assumption).
  assert (DD : forall d, (exists o, get so d = Some o) -> In d (concat l)) by (intros d; apply I1).
  unfold solve_component. destruct (is_recursive g c) eqn:R.
  - destruct (component_recursive eqs (concat l) c so US F2 F3 F4 F5 F6 F7 SG max_iterations R)
      as [conv [a [k [A1 [A2 [so' [A3 [A4 [A5 A6]]]]]]]]].
    rewrite A1, A3. cbn [option_map]. eexists so', _. split; [reflexivity|].
    assert (KEEP : forall m, ~ In m c -> get so' m = get so m).
    { intros m N. rewrite A4, (not_mem c m N). reflexivity. }
    split; [|exact KEEP]. split.
    + intros m. rewrite concat_app, in_app_iff. cbn. rewrite app_nil_r. destruct (in_dec Nat.eq_dec m c) as [M|M].
      * rewrite A4, (proj2 (mem_in m c) M). split; [auto|eauto].
      * rewrite KEEP by exact M. rewrite I1. tauto.
    + intros m t Q. destruct (in_dec Nat.eq_dec m c) as [M|M]; [apply A6; assumption|].
      rewrite KEEP in Q by exact M. destruct (I2 m t Q) as [Q1 Q2]. split; [exact Q1|].
      apply (solution_keep so so' m t (concat l)); auto. intros d D. apply KEEP. intros H. eauto.
  - destruct (component_simple eqs (concat l) c so US F1 F2 F3 F4 F5 F7 SG R) as [m [v [EC [V1 [V2 [V3 [V4 V5]]]]]]].
    rewrite EC in *. rewrite V1, V2. cbn [option_map]. eexists _, _. split; [reflexivity|].
    assert (KEEP : forall k, ~ In k [m] -> get (put m (pure v false) so) k = get so k).
    { intros k N. apply get_put_ne. intros ->. apply N. left. reflexivity. }
    split; [|exact KEEP]. split.
    + intros k. rewrite concat_app, in_app_iff. cbn [concat app]. rewrite get_put. destruct (k =? m) eqn:Z.
      * apply Nat.eqb_eq in Z. subst k. split; [intros _; right; left; reflexivity|eauto].
      * apply Nat.eqb_neq in Z. rewrite I1. split; [auto|intros [H|[H|[]]]; congruence].
    + intros k t Q. rewrite get_put in Q. destruct (k =? m) eqn:Z.
      * apply Nat.eqb_eq in Z. subst k. destruct v; cbn in Q; try discriminate. assert (t0 = t) by congruence. subst t0. apply V5. reflexivity.
      * apply Nat.eqb_neq in Z. destruct (I2 k t Q) as [Q1 Q2]. split; [exact Q1|].
        apply (solution_keep so _ k t (concat l)); auto. intros d D. apply KEEP. intros H. eauto.
Qed.

Lemma components_step r : forall l so tel, cs = l ++ r -> SolInv (concat l) so ->
  exists so' tel', solve_components eqs g r (so, tel) = Some (so', tel') /\ SolInv (concat cs) so'.
Proof.
  induction r as [|c r IH]; intros l so tel E I.
  - rewrite app_nil_r in E. subst l. exists so, tel. auto.
  - destruct (component_step l c r so tel E I) as [so' [tel' [A [B _]]]]. cbn [solve_components]. rewrite A.
    apply (IH (l ++ [c])); [rewrite <- app_assoc; exact E|exact B].
Qed.
End Whole.

Lemma start_inv eqs : SolInv eqs (concat []) [].
Proof. split; [intros m; cbn; split; [intros [? ?]; discriminate|tauto]|intros m t; discriminate]. Qed.

Lemma solve_total eqs : usable eqs -> exists so tel, solve eqs = Some (so, tel) /\ SolInv eqs (keys eqs) so.
Proof.
  intros U. destruct (scc_correct (graph_of eqs) (graph_closed eqs)) as [cs [E [N [C G]]]].
  unfold solve. rewrite E.
  destruct (components_step eqs U cs N C G cs [] [] (mkTel 0 0 0 0) eq_refl (start_inv eqs)) as [so [tel [A [B1 B2]]]].
  exists so, tel. split; [exact A|]. split; [|exact B2]. intros m. rewrite B1, C, keys_graph. reflexivity.
Qed.

(** * Independence of the order *)
Definition osim (a b : option outcome) : Prop :=
  match a, b with
  | None, None => True
  | Some (OProven s), Some (OProven t) => s = t
  | Some (OUnknown _), Some (OUnknown _) => True
  | _, _ => False
  end.
Lemma osim_refl o : osim o o.
Proof. destruct o as [[t|r]|]; cbn; auto. Qed.
Lemma osim_proven a b t : osim a b -> a = Some (OProven t) <-> b = Some (OProven t).
Proof. destruct a as [[?|?]|], b as [[?|?]|]; cbn; intros H; try contradiction; subst; split; congruence. Qed.
Lemma osim_sym a b : osim a b -> osim b a.
Proof. destruct a as [[?|?]|], b as [[?|?]|]; cbn; auto. Qed.

Definition asim (a b : list (nat * approx)) : Prop := forall m,
  match get a m, get b m with Some x, Some y => sim x y | None, None => True | _, _ => False end.
Lemma assoc_ext {A} (a : list (nat * A)) : forall b, map fst a = map fst b -> NoDup (map fst a) -> (forall m, get a m = get b m) -> a = b.
Proof.
  induction a as [|[k x] a IH]; intros [|[j y] b] E N H; cbn in E; try discriminate; [reflexivity|].
  injection E as <- E. inversion N; subst. f_equal.
  - specialize (H k). cbn in H. rewrite Nat.eqb_refl in H. congruence.
  - apply IH; auto. intros m. specialize (H m). cbn in H. destruct (m =? k) eqn:Z; [|exact H].
    apply Nat.eqb_eq in Z. subst m. cbn in H2. transitivity (@None A).
    + destruct (get a k) eqn:Q; [|reflexivity]. exfalso. apply H2, get_in. eauto.
    + destruct (get b k) eqn:Q; [|reflexivity]. exfalso. apply H2. rewrite E. apply get_in. eauto.
Qed.
Lemma sim_eq x y : sim x y -> (forall r, x <> Unknown r) -> x = y.
Proof. destruct x, y; cbn; intros; subst; try contradiction; auto. exfalso. eapply H0. reflexivity. Qed.

Definition pubf (conv : bool) (a : list (nat * approx)) (m : nat) : outcome :=
  if conv then match get a m with Some x => pure x true | None => OUnknown 0 end else OUnknown unproven_recursive_cycle.

Lemma graph_same eqs eqs' : (forall e, In e eqs <-> In e eqs') -> graph_of eqs = graph_of eqs'.
Proof.
  intros E. unfold graph_of. assert (K : keys eqs = keys eqs').
  { apply to_set_ext. intros x. rewrite !in_map_iff. split; intros [e [A B]]; exists e; (split; [exact A|apply E, B]). }
  rewrite K. apply map_ext. intros m. f_equal. apply to_set_ext. intros x. rewrite !filter_In, !in_flat_map.
  split; intros [[e [A B]] C]; (split; [|exact C]); exists e; (split; [|exact B]); rewrite in_defs in *; rewrite ?E in *; tauto.
Qed.

Section Order.
Variables eqs eqs' : list equation.
Hypothesis SAME : forall e, In e eqs <-> In e eqs'.
Notation g := (graph_of eqs).
Hypothesis US : usable eqs.

Lemma rc_same a b : returns_call eqs a b <-> returns_call eqs' a b.
Proof. unfold returns_call. split; intros [e [A B]]; exists e; (split; [apply SAME, A|exact B]). Qed.
Lemma hb_same m : has_body eqs m <-> has_body eqs' m.
Proof. unfold has_body. split; intros [e [A B]]; exists e; (split; [apply SAME, A|exact B]). Qed.
Lemma rt_same m t : returns_type eqs m t <-> returns_type eqs' m t.
Proof. unfold returns_type. split; intros [e [A B]]; exists e; (split; [apply SAME, A|exact B]). Qed.
Lemma us_same : usable eqs'.
Proof. intros m t R. apply (US m). apply rt_same, R. Qed.

Variables (before c : list nat) (so so' : list (nat * outcome)).
Hypothesis NE : c <> [].
Hypothesis ND : NoDup c.
Hypothesis BODY : forall m, In m c -> has_body eqs m.
Hypothesis SCC : forall x, In x c -> forall y, In y c <-> reach g x y /\ reach g y x.
Hypothesis OUT : forall x y, In x c -> edge g x y -> In y c \/ In y before.
Hypothesis DCL : forall x y, In x before -> edge g x y -> In y before.
Hypothesis DISJ : forall x, In x c -> In x before -> False.
Hypothesis SG : forall m t, get so m = Some (OProven t) -> good_type eqs m t.
Hypothesis SG' : forall m t, get so' m = Some (OProven t) -> good_type eqs' m t.
Hypothesis SS : forall m, osim (get so m) (get so' m).

Lemma term_sim lk lk' m : (forall d, returns_call eqs m d -> match lk d, lk' d with Some x, Some y => sim x y | None, None => True | _, _ => False end) ->
  (forall x, term eqs lk m (Some (Proven x)) <-> term eqs' lk' m (Some (Proven x))) /\
  ((exists r, term eqs lk m (Some (Unknown r))) <-> (exists r, term eqs' lk' m (Some (Unknown r)))).
Proof.
  intros L. split.
  - intros x. unfold term. split; intros [[e [A B]]|[d [A B]]].
    + left. exists e. split; [apply SAME, A|exact B].
    + right. exists d. split; [apply rc_same, A|]. specialize (L d A). rewrite <- B in L. destruct (lk' d) as [[|y|r]|]; cbn in L; try contradiction. congruence.
    + left. exists e. split; [apply SAME, A|exact B].
    + right. exists d. split; [apply rc_same, A|]. apply rc_same in A. specialize (L d A). rewrite <- B in L. destruct (lk d) as [[|y|r]|]; cbn in L; try contradiction. congruence.
  - unfold term. split; intros [r [[e [A B]]|[d [A B]]]].
    + exists r. left. exists e. split; [apply SAME, A|exact B].
    + pose proof (L d A) as Q. rewrite <- B in Q. destruct (lk' d) as [[|y|r']|] eqn:K; cbn in Q; try contradiction.
      exists r'. right. exists d. split; [apply rc_same, A|congruence].
    + exists r. left. exists e. split; [apply SAME, A|exact B].
    + apply rc_same in A. pose proof (L d A) as Q. rewrite <- B in Q. destruct (lk d) as [[|y|r']|] eqn:K; cbn in Q; try contradiction.
      exists r'. right. exists d. split; [exact A|congruence].
Qed.
Lemma look_sim a a' d : asim a a' -> match look c a so d, look c a' so' d with Some x, Some y => sim x y | None, None => True | _, _ => False end.
Proof.
  intros A. unfold look. destruct (mem d c); [apply A|]. specialize (SS d).
  destruct (get so d) as [[t|r]|], (get so' d) as [[t'|r']|]; cbn in *; auto; try contradiction.
Qed.
Lemma terms_inhabited (q : list equation) lk m : has_body q m -> exists x, term q lk m x.
Proof. intros [e [A B]]. exists (Some (eq_base e)). left. exists e. auto. Qed.
Lemma says_term_sim lk lk' m v v' : has_body eqs m ->
  (forall d, returns_call eqs m d -> match lk d, lk' d with Some x, Some y => sim x y | None, None => True | _, _ => False end) ->
  says (term eqs lk m) v -> says (term eqs' lk' m) v' -> sim v v'.
Proof.
  intros H L A B. destruct (term_sim lk lk' m L) as [T1 T2]. eapply says_sim; [exact T1|exact T2| |exact A|exact B].
  split; apply terms_inhabited; [|apply hb_same]; exact H.
Qed.

Definition J1 := J eqs c. Definition J2 := J eqs' c.
Lemma BODY' : forall m, In m c -> has_body eqs' m.
Proof. intros m M. apply hb_same, BODY, M. Qed.

Lemma passes_sim a a' b b' : J1 a -> J2 a' -> asim a a' ->
  pass (evaluate eqs c a so) c = Some b -> pass (evaluate eqs' c a' so') c = Some b' -> asim b b'.
Proof.
  intros JA JB A P P'. destruct (pass_J eqs c so US ND BODY SG a JA) as [b1 [B1 [B2 [_ B3]]]].
  destruct (pass_J eqs' c so' us_same ND BODY' SG' a' JB) as [b2 [D1 [D2 [_ D3]]]].
  assert (b1 = b) by congruence. assert (b2 = b') by congruence. subst b1 b2. intros m.
  destruct (in_dec Nat.eq_dec m c) as [M|M].
  - destruct (B3 m M) as [v [V1 V2]], (D3 m M) as [v' [W1 W2]]. rewrite V1, W1.
    eapply says_term_sim; [apply BODY, M| |exact V2|exact W2]. intros d _. apply look_sim, A.
  - assert (Z : forall q : list (nat * approx), map fst q = c -> get q m = None).
    { intros q Q. destruct (get q m) eqn:G; [|reflexivity]. exfalso. apply M. rewrite <- Q. apply get_in. eauto. }
    rewrite (Z b), (Z b'); [exact Logic.I|apply D2|apply B2].
Qed.
End Order.

Section Unknowns.
Variable eqs : list equation.
Notation g := (graph_of eqs).
Hypothesis US : usable eqs.
Variables (before c : list nat) (so : list (nat * outcome)).
Hypothesis NE : c <> [].
Hypothesis ND : NoDup c.
Hypothesis BODY : forall m, In m c -> has_body eqs m.
Hypothesis SCC : forall x, In x c -> forall y, In y c <-> reach g x y /\ reach g y x.
Hypothesis OUT : forall x y, In x c -> edge g x y -> In y c \/ In y before.
Hypothesis DCL : forall x y, In x before -> edge g x y -> In y before.
Hypothesis DISJ : forall x, In x c -> In x before -> False.
Hypothesis SG : forall m t, get so m = Some (OProven t) -> good_type eqs m t.
Hypothesis REC : is_recursive g c = true.

Definition all_unknown (a : list (nat * approx)) : Prop := forall m, In m c -> exists r, get a m = Some (Unknown r).
Lemma unknown_term lk m v r : says (term eqs lk m) v -> term eqs lk m (Some (Unknown r)) -> exists r', v = Unknown r'.
Proof.
  intros S1 T. destruct v; cbn in S1.
  - apply S1 in T. discriminate.
  - destruct S1 as [N _]. exfalso. exact (N r T).
  - eauto.
Qed.
Lemma all_unknown_pass a b : J eqs c a -> all_unknown a -> pass (evaluate eqs c a so) c = Some b -> all_unknown b.
Proof.
  intros JA A P m M. destruct (pass_J eqs c so US ND BODY SG a JA) as [b1 [B1 [B2 [_ B3]]]].
  assert (b1 = b) by congruence. subst b1. destruct (B3 m M) as [v [V1 V2]].
  destruct (recursive_dep eqs before c NE ND BODY SCC OUT DISJ REC m M) as [d [D1 D2]]. destruct (A d D1) as [r R].
  destruct (unknown_term _ _ _ r V2) as [r' ->]; [|eauto]. right. exists d. split; [apply edge_graph in D2; apply D2|].
  rewrite look_in by exact D1. auto.
Qed.
Lemma all_unknown_iterate n : forall a conv b k, J eqs c a -> all_unknown a ->
  iterate n (fun a => evaluate eqs c a so) c a = Some (conv, b, k) -> forall m, In m c -> exists r, pubf conv b m = OUnknown r.
Proof.
  induction n as [|n IH]; intros a conv b k JA A E m M; cbn [iterate] in E.
  - assert (conv = false) by congruence. subst conv. cbn. eauto.
  - destruct (pass_J eqs c so US ND BODY SG a JA) as [b1 [B1 [B2 _]]]. rewrite B1 in E.
    pose proof (all_unknown_pass a b1 JA A B1) as A1.
    destruct (same b1 a).
    + assert (conv = true) by congruence. assert (b1 = b) by congruence. subst. unfold pubf. destruct (A1 m M) as [r ->]. cbn. eauto.
    + destruct (iterate n _ c b1) as [[[conv1 b2] k1]|] eqn:Q; [|discriminate].
      assert (conv1 = conv) by congruence. assert (b2 = b) by congruence. subst. eapply IH; eauto.
Qed.
Lemma fix_unknown a m r : J eqs c a -> pass (evaluate eqs c a so) c = Some a -> In m c -> get a m = Some (Unknown r) -> all_unknown a.
Proof.
  intros JA P M R x X. destruct (pass_J eqs c so US ND BODY SG a JA) as [b1 [B1 [B2 [_ B3]]]].
  assert (b1 = a) by congruence. subst b1. destruct (B3 x X) as [v [V1 V2]].
  destruct v as [|t|r']; [| |eauto]; exfalso.
  - assert (Q : exists v, get a m = Some v /\ forall r, v <> Unknown r).
    { refine (component_path eqs before c SCC OUT DCL DISJ (fun z => exists v, get a z = Some v /\ forall r, v <> Unknown r) _ x m X M _).
      - intros y z Y Z Eyz [w [W1 W2]]. destruct (B3 y Y) as [w' [W3 W4]]. destruct (B3 z Z) as [u [U1 U2]]. exists u. split; [exact U1|].
        intros r0 ->. destruct (unknown_term _ _ _ r0 W4) as [r1 ->].
        + right. exists z. split; [apply edge_graph in Eyz; apply Eyz|]. rewrite look_in by exact Z. auto.
        + apply (W2 r1). congruence.
      - exists Bottom. split; [exact V1|discriminate]. }
    destruct Q as [v [Q1 Q2]]. apply (Q2 r). congruence.
  - assert (Q : exists v, get a m = Some v /\ forall r, v <> Unknown r).
    { refine (component_path eqs before c SCC OUT DCL DISJ (fun z => exists v, get a z = Some v /\ forall r, v <> Unknown r) _ x m X M _).
      - intros y z Y Z Eyz [w [W1 W2]]. destruct (B3 y Y) as [w' [W3 W4]]. destruct (B3 z Z) as [u [U1 U2]]. exists u. split; [exact U1|].
        intros r0 ->. destruct (unknown_term _ _ _ r0 W4) as [r1 ->].
        + right. exists z. split; [apply edge_graph in Eyz; apply Eyz|]. rewrite look_in by exact Z. auto.
        + apply (W2 r1). congruence.
      - exists (Proven t). split; [exact V1|discriminate]. }
    destruct Q as [v [Q1 Q2]]. apply (Q2 r). congruence.
Qed.
End Unknowns.

Section Order2.
Variables eqs eqs' : list equation.
Hypothesis SAME : forall e, In e eqs <-> In e eqs'.
Hypothesis US : usable eqs.
Hypothesis US' : usable eqs'.
Notation g := (graph_of eqs).
Variables (before c : list nat) (so so' : list (nat * outcome)).
Hypothesis NE : c <> [].
Hypothesis ND : NoDup c.
Hypothesis BODY : forall m, In m c -> has_body eqs m.
Hypothesis SCC : forall x, In x c -> forall y, In y c <-> reach g x y /\ reach g y x.
Hypothesis OUT : forall x y, In x c -> edge g x y -> In y c \/ In y before.
Hypothesis DCL : forall x y, In x before -> edge g x y -> In y before.
Hypothesis DISJ : forall x, In x c -> In x before -> False.
Hypothesis SG : forall m t, get so m = Some (OProven t) -> good_type eqs m t.
Hypothesis SG' : forall m t, get so' m = Some (OProven t) -> good_type eqs' m t.
Hypothesis SS : forall m, osim (get so m) (get so' m).

Lemma BODY2 : forall m, In m c -> has_body eqs' m.
Proof. intros m M. apply (hb_same eqs eqs' SAME), BODY, M. Qed.
(** if one run has converged and the other has not, everything in the component is unknown *)
Lemma half_converged a a' b' m : is_recursive g c = true -> J eqs c a -> J eqs' c a' -> asim a a' ->
  pass (evaluate eqs c a so) c = Some a -> pass (evaluate eqs' c a' so') c = Some b' -> b' <> a' ->
  In m c -> exists r, get a m = Some (Unknown r).
Proof.
  intros R JA JA' A P P' N M.
  assert (B : asim a b') by (eapply passes_sim; eauto).
  assert (MA : map fst a = c) by apply JA. assert (MA' : map fst a' = c) by apply JA'.
  assert (MB : map fst b' = c).
  { destruct (pass_J eqs' c so' US' ND BODY2 SG' a' JA') as [b1 [B1 [B2 _]]]. assert (b1 = b') by congruence. subst b1. apply B2. }
  assert (D : (exists x r, In x c /\ get a x = Some (Unknown r)) \/ (forall x r, In x c -> get a x <> Some (Unknown r))).
  { clear - c. induction c as [|y k IH]; [right; intros x r []|]. destruct IH as [[x [r [X1 X2]]]|H].
    - left. exists x, r. split; [right; exact X1|exact X2].
    - destruct (get a y) as [[|t|r]|] eqn:Y; [right|right|left|right].
      + intros x r [<-|X]; [congruence|auto].
      + intros x r [<-|X]; [congruence|auto].
      + exists y, r. split; [left; reflexivity|exact Y].
      + intros x r [<-|X]; [congruence|auto]. }
  destruct D as [[x [r [X1 X2]]]|D].
  - eapply (fix_unknown eqs US before c so); eauto.
  - exfalso. apply N. apply assoc_ext; [congruence|rewrite MB; exact ND|]. intros x.
    pose proof (A x) as A1. pose proof (B x) as B1. destruct (get a x) as [v|] eqn:V.
    + assert (X : In x c) by (rewrite <- MA; apply get_in; eauto).
      assert (NU : forall r, v <> Unknown r) by (intros r ->; exact (D x r X V)).
      destruct (get a' x) as [u|]; [|contradiction]. destruct (get b' x) as [w|]; [|contradiction].
      apply sim_eq in A1; [|exact NU]. apply sim_eq in B1; [|exact NU]. congruence.
    + destruct (get a' x), (get b' x); try contradiction. reflexivity.
Qed.
Lemma asim_pure x y : sim x y -> osim (Some (pure x true)) (Some (pure y true)).
Proof. destruct x, y; cbn; auto. Qed.
Lemma asim_pubf a a' m : asim a a' -> In m c -> map fst a = c -> osim (Some (pubf true a m)) (Some (pubf true a' m)).
Proof.
  intros A M E. unfold pubf. specialize (A m). assert (X : exists v, get a m = Some v) by (apply get_in; rewrite E; exact M).
  destruct X as [v V]. rewrite V in *. destruct (get a' m); [|contradiction]. apply asim_pure, A.
Qed.
End Order2.

Section Order3.
Variables eqs eqs' : list equation.
Hypothesis SAME : forall e, In e eqs <-> In e eqs'.
Hypothesis US : usable eqs.
Hypothesis US' : usable eqs'.
Notation g := (graph_of eqs).
Variables (before c : list nat) (so so' : list (nat * outcome)).
Hypothesis NE : c <> [].
Hypothesis ND : NoDup c.
Hypothesis BODY : forall m, In m c -> has_body eqs m.
Hypothesis BODY' : forall m, In m c -> has_body eqs' m.
Hypothesis SCC : forall x, In x c -> forall y, In y c <-> reach g x y /\ reach g y x.
Hypothesis OUT : forall x y, In x c -> edge g x y -> In y c \/ In y before.
Hypothesis DCL : forall x y, In x before -> edge g x y -> In y before.
Hypothesis DISJ : forall x, In x c -> In x before -> False.
Hypothesis SG : forall m t, get so m = Some (OProven t) -> good_type eqs m t.
Hypothesis SG' : forall m t, get so' m = Some (OProven t) -> good_type eqs' m t.
Hypothesis SS : forall m, osim (get so m) (get so' m).
Hypothesis REC : is_recursive g c = true.
Hypothesis GG : graph_of eqs' = graph_of eqs.

Lemma iterate_sim n : forall a a' conv b k conv' b' k', J eqs c a -> J eqs' c a' -> asim a a' ->
  iterate n (fun a => evaluate eqs c a so) c a = Some (conv, b, k) ->
  iterate n (fun a => evaluate eqs' c a so') c a' = Some (conv', b', k') ->
  forall m, In m c -> osim (Some (pubf conv b m)) (Some (pubf conv' b' m)).
Proof.
  assert (SCC' : forall x, In x c -> forall y, In y c <-> reach (graph_of eqs') x y /\ reach (graph_of eqs') y x) by (rewrite GG; exact SCC).
  assert (REC' : is_recursive (graph_of eqs') c = true) by (rewrite GG; exact REC).
  assert (OUT' : forall x y, In x c -> edge (graph_of eqs') x y -> In y c \/ In y before) by (rewrite GG; exact OUT).
  assert (DCL' : forall x y, In x before -> edge (graph_of eqs') x y -> In y before) by (rewrite GG; exact DCL).
  assert (SAME' : forall e, In e eqs' <-> In e eqs) by (intros e; symmetry; apply SAME).
  assert (SS' : forall m, osim (get so' m) (get so m)) by (intros; apply osim_sym, SS).
  induction n as [|n IH]; intros a a' conv b k conv' b' k' JA JA' A E E' m M; cbn [iterate] in E, E'.
  - assert (conv = false) by congruence. assert (conv' = false) by congruence. subst. exact Logic.I.
  - destruct (pass_J eqs c so US ND BODY SG a JA) as [b1 [B1 [B2 _]]]. rewrite B1 in E.
    destruct (pass_J eqs' c so' US' ND BODY' SG' a' JA') as [b2 [D1 [D2 _]]]. rewrite D1 in E'.
    assert (B : asim b1 b2) by exact (passes_sim eqs eqs' SAME US c so so' ND BODY SG SG' SS a a' b1 b2 JA JA' A B1 D1).
    assert (A' : asim a' a).
    { intros x. specialize (A x). destruct (get a x) as [[]|], (get a' x) as [[]|]; cbn in *; auto. }
    destruct (same b1 a) eqn:S1; destruct (same b2 a') eqn:S2.
    + assert (conv = true) by congruence. assert (conv' = true) by congruence. assert (b1 = b) by congruence. assert (b2 = b') by congruence. subst.
      apply (asim_pubf c); auto. apply B2.
    + apply same_eq in S1. subst b1. assert (conv = true) by congruence. assert (a = b) by congruence. subst.
      assert (NE2 : b2 <> a') by (intros Q; apply (proj2 (same_eq b2 a')) in Q; congruence).
      assert (AU : all_unknown c b).
      { intros x X. apply (half_converged eqs eqs' SAME US US' before c so so' ND BODY SCC OUT DCL DISJ SG SG' SS b a' b2 x); auto. }
      assert (AU2 : all_unknown c b2).
      { intros x X. destruct (AU x X) as [r R]. specialize (B x). rewrite R in B. destruct (get b2 x) as [[]|]; cbn in B; try contradiction. eauto. }
      destruct (iterate n _ c b2) as [[[conv2 r2] k2]|] eqn:Q; [|discriminate].
      assert (conv2 = conv') by congruence. assert (r2 = b') by congruence. subst.
      destruct (all_unknown_iterate eqs' US' before c so' NE ND BODY' SCC' OUT' DISJ SG' REC' n b2 conv' b' k2 D2 AU2 Q m M) as [r R]. rewrite R.
      unfold pubf. destruct (AU m M) as [r' ->]. exact Logic.I.
    + apply same_eq in S2. subst b2. assert (conv' = true) by congruence. assert (a' = b') by congruence. subst.
      assert (NE2 : b1 <> a) by (intros Q; apply (proj2 (same_eq b1 a)) in Q; congruence).
      assert (AU : all_unknown c b').
      { intros x X. apply (half_converged eqs' eqs SAME' US' US before c so' so ND BODY' SCC' OUT' DCL' DISJ SG' SG SS' b' a b1 x); auto. }
      assert (AU2 : all_unknown c b1).
      { intros x X. destruct (AU x X) as [r R]. specialize (B x). rewrite R in B. destruct (get b1 x) as [[]|]; cbn in B; try contradiction. eauto. }
      destruct (iterate n _ c b1) as [[[conv2 r2] k2]|] eqn:Q; [|discriminate].
      assert (conv2 = conv) by congruence. assert (r2 = b) by congruence. subst.
      destruct (all_unknown_iterate eqs US before c so NE ND BODY SCC OUT DISJ SG REC n b1 conv b k2 B2 AU2 Q m M) as [r R]. rewrite R.
      unfold pubf. destruct (AU m M) as [r' ->]. exact Logic.I.
    + destruct (iterate n _ c b1) as [[[conv1 r1] k1]|] eqn:Q1; [|discriminate].
      destruct (iterate n _ c b2) as [[[conv2 r2] k2]|] eqn:Q2; [|discriminate].
      assert (conv1 = conv) by congruence. assert (r1 = b) by congruence. assert (conv2 = conv') by congruence. assert (r2 = b') by congruence. subst.
      eapply IH; eauto.
Qed.
End Order3.
