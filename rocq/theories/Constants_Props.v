(** C31: the types of constants. *)
From Coq Require Import List Arith Lia Bool Permutation.
From Verif Require Import Types_Model Types_Spec Types_Order Types_Union Types_Props Constants_Model Constants_Spec Constants_Proofs.
Import ListNotations.

(** A chain, a circle, a user of the circle, a constructor and an unresolved name. *)
Definition demo_ceqs : list cequation :=
  [mkC 10 [1]; mkC 20 [2; 5]; mkC 30 [4]; mkC 40 [3]; mkC 50 [3; 1]; mkC 60 [9]].
Definition demo_facts : list cfact :=
  [mkF 1 11 ty_b (0, 0, 0); mkF 1 10 TUnknown (0, 3, 7); mkF 2 20 TUnknown (0, 9, 12); mkF 3 30 TUnknown (1, 0, 2);
   mkF 4 40 TUnknown (1, 4, 8); mkF 5 50 TUnknown (1, 9, 9); mkF 7 70 ty_c (2, 0, 0)].
(** dependency 1 reads constant 7, 2 reads 1, 3 reads 3, 4 reads 4, 5 constructs an [A] *)
Definition demo_resolve (d : nat) : option rdep :=
  match d with
  | 1 => Some (RValue 7) | 2 => Some (RValue 1) | 3 => Some (RValue 3) | 4 => Some (RValue 4) | 5 => Some (RProjected ty_a)
  | _ => None
  end.
Lemma demo_one : one_per_target demo_ceqs.
Proof.
  intros e e' E E' T. cbn in E, E'.
  repeat (destruct E as [<-|E]; [repeat (destruct E' as [<-|E']; [first [reflexivity|discriminate T]|]); contradiction|]). contradiction.
Qed.
Lemma demo_projected : projected_known demo_ceqs demo_resolve.
Proof.
  intros e d t _ _ R. destruct d as [|[|[|[|[|[|d]]]]]]; cbn in R; try discriminate. injection R as <-. discriminate.
Qed.
Lemma demo_places : distinct_places demo_facts.
Proof.
  intros f f' F F' C O. cbn in F, F'.
  repeat (destruct F as [<-|F]; [repeat (destruct F' as [<-|F']; [first [reflexivity|discriminate C|discriminate O]|]); contradiction|]). contradiction.
Qed.

Lemma solve_constants_body eqs facts resolve : eqs <> [] -> solve_constants eqs facts resolve =
  if targets_agree [] eqs then
    match cloop (length eqs + 1) eqs facts resolve (repeat None (length eqs)) with
    | Some values => Some (combine (map ce_target eqs) (map (fun v => match v with Some t => t | None => TUnknown end) values))
    | None => None
    end
  else None.
Proof. destruct eqs; [congruence|reflexivity]. Qed.

(** The solver never reaches its "did not converge" panic, or any other, however the constants depend on
    one another, and answers each equation once, in the order given. *)
Theorem C31_never_panics : forall eqs facts resolve, one_per_target eqs -> projected_known eqs resolve ->
  exists out, solve_constants eqs facts resolve = Some out /\ map fst out = map ce_target eqs.
Proof.
  intros eqs facts resolve ONE PROJ. assert (NE : eqs = [] \/ eqs <> []) by (destruct eqs; [left|right]; congruence).
  destruct NE as [->|NE]; [exists []; split; reflexivity|].
  destruct (loop_result eqs facts resolve PROJ) as [k [L _]]. rewrite (solve_constants_body eqs facts resolve NE), L.
  assert (TA : targets_agree [] eqs = true) by (apply targets_agree_spec; [intros p q []|exact ONE]). rewrite TA.
  eexists. split; [reflexivity|].
  assert (LEN : length (map ce_target eqs) = length (map (fun v : option ty => match v with Some t => t | None => TUnknown end) (vchain eqs facts resolve k)))
    by (rewrite !map_length, (vchain_length eqs facts resolve PROJ); reflexivity).
  revert LEN. generalize (map ce_target eqs) (map (fun v : option ty => match v with Some t => t | None => TUnknown end) (vchain eqs facts resolve k)).
  clear. induction l as [|x l IH]; intros [|y q]; cbn; intros H; try discriminate; auto. f_equal. apply IH. lia.
Qed.
Print Assumptions C31_never_panics.
(** conflicting equations for one target do panic *)
Theorem C31_conflict_panics : forall eqs facts resolve, ~ one_per_target eqs -> solve_constants eqs facts resolve = None.
Proof.
  intros eqs facts resolve N. assert (NE : eqs <> []) by (intros ->; apply N; intros ? ? []).
  rewrite (solve_constants_body eqs facts resolve NE). destruct (targets_agree [] eqs) eqn:T; [|reflexivity].
  exfalso. apply N. exact (proj1 (targets_agree_spec eqs [] ltac:(intros p q [])) T).
Qed.
Print Assumptions C31_conflict_panics.

(** A constant gets type [u] exactly when every dependency has a type, in turn, and [u] is their union;
    all the others are Unknown. *)
Theorem C31_typed_exactly : forall eqs facts resolve out, one_per_target eqs -> projected_known eqs resolve -> distinct_places facts ->
  solve_constants eqs facts resolve = Some out -> forall e, In e eqs ->
  exists t, In (ce_target e, t) out /\
    (forall t', In (ce_target e, t') out -> t' = t) /\
    (forall u, u <> TUnknown -> (t = u <-> typed eqs facts resolve e u)) /\
    ((forall u, ~ typed eqs facts resolve e u) -> t = TUnknown).
Proof.
  intros eqs facts resolve out ONE PROJ PL S e E.
  destruct (solve_constants_spec eqs facts resolve ONE PROJ PL) as [out' [S' [KEYS H]]]. assert (out' = out) by congruence. subst out'.
  apply In_nth_error in E as [i E]. destruct (H i e E) as [t [O T]]. exists t. split; [eapply nth_error_In, O|]. split; [|split; [exact T|]].
  - intros t' I. apply In_nth_error in I as [j J].
    assert (EJ : exists e', nth_error eqs j = Some e' /\ ce_target e' = ce_target e).
    { assert (Q : nth_error (map fst out) j = Some (ce_target e)) by (rewrite (map_nth_error fst _ _ J); reflexivity).
      rewrite KEYS in Q. destruct (nth_error eqs j) as [e'|] eqn:Z; [|rewrite nth_error_map, Z in Q; discriminate].
      rewrite nth_error_map, Z in Q. cbn in Q. exists e'. split; [reflexivity|congruence]. }
    destruct EJ as [e' [E' TT]]. assert (e' = e) by (apply ONE; [eapply nth_error_In, E'|eapply nth_error_In, E|exact TT]). subst e'.
    destruct (H j e E') as [t2 [O2 T2]]. assert (t2 = t') by congruence. subst t2.
    destruct (ty_dec t' TUnknown) as [->|N'].
    + destruct (ty_dec t TUnknown) as [->|N]; [reflexivity|]. apply (T2 t N). apply (T t N). reflexivity.
    + symmetry. apply (T t' N'). apply (T2 t' N'). reflexivity.
  - intros N. destruct (ty_dec t TUnknown) as [Q|Q]; [exact Q|]. exfalso. apply (N t). apply (T t Q). reflexivity.
Qed.
Print Assumptions C31_typed_exactly.
Example C31_demo : one_per_target demo_ceqs /\ projected_known demo_ceqs demo_resolve /\ distinct_places demo_facts /\
  solve_constants demo_ceqs demo_facts demo_resolve =
    Some [(10, ty_c); (20, TUnion [ty_a; ty_c]); (30, TUnknown); (40, TUnknown); (50, TUnknown); (60, TUnknown)].
Proof. split; [exact demo_one|]. split; [exact demo_projected|]. split; [exact demo_places|]. vm_compute. reflexivity. Qed.
Example C31_demo_typed : typed demo_ceqs demo_facts demo_resolve (mkC 20 [2; 5]) (union [ty_c; ty_a]).
Proof.
  destruct (C31_typed_exactly demo_ceqs demo_facts demo_resolve _ demo_one demo_projected demo_places (proj2 (proj2 (proj2 C31_demo)))
    (mkC 20 [2; 5]) ltac:(cbn; auto)) as [t [I [_ [T _]]]].
  apply T; [vm_compute; discriminate|]. cbn in I. repeat (destruct I as [I|I]; [try discriminate I; injection I as <-; vm_compute; reflexivity|]). contradiction.
Qed.

(** Constants in a circle are Unknown, and so is everything that depends on one. *)
Theorem C31_circles : forall eqs facts resolve out e e', one_per_target eqs -> projected_known eqs resolve -> distinct_places facts ->
  solve_constants eqs facts resolve = Some out -> In e eqs ->
  (e = e' \/ needs_chain eqs facts resolve e e') -> needs_chain eqs facts resolve e' e' ->
  forall t, In (ce_target e, t) out -> t = TUnknown.
Proof.
  intros eqs facts resolve out e e' ONE PROJ PL S E R C t I.
  destruct (C31_typed_exactly eqs facts resolve out ONE PROJ PL S e E) as [u [_ [U [_ K]]]]. rewrite (U t I). apply K.
  intros v V. destruct (typed_acc eqs facts resolve ONE PL) as [A _]. specialize (A e v V).
  destruct R as [<-|R]; [exact (acc_no_circle _ _ _ e A C)|].
  assert (A' : Acc (fun a b => needs eqs facts resolve b a) e').
  { clear - A R. induction R as [a b N|a b c N R IH]; [exact (Acc_inv A N)|apply IH; exact (Acc_inv A N)]. }
  exact (acc_no_circle _ _ _ e' A' C).
Qed.
Print Assumptions C31_circles.
Example C31_circles_case : needs_chain demo_ceqs demo_facts demo_resolve (mkC 30 [4]) (mkC 30 [4]) /\
  needs_chain demo_ceqs demo_facts demo_resolve (mkC 50 [3; 1]) (mkC 30 [4]).
Proof.
  assert (N1 : needs demo_ceqs demo_facts demo_resolve (mkC 30 [4]) (mkC 40 [3])).
  { exists 4, 4, (mkF 4 40 TUnknown (1, 4, 8)). split; [cbn; auto|]. split; [reflexivity|]. split; [apply latest_current; reflexivity|]. cbn. auto 10. }
  assert (N2 : forall e, In 3 (ce_deps e) -> needs demo_ceqs demo_facts demo_resolve e (mkC 30 [4])).
  { intros e I. exists 3, 3, (mkF 3 30 TUnknown (1, 0, 2)). split; [exact I|]. split; [reflexivity|]. split; [apply latest_current; reflexivity|]. cbn. auto 10. }
  split; [eapply N_more; [exact N1|]; apply N_one, N2; cbn; auto|]. apply N_one, N2. cbn. auto.
Qed.

(** The answers do not depend on the order of the equations or of the facts. *)
Theorem C31_order : forall eqs facts resolve eqs' facts' out out', one_per_target eqs -> projected_known eqs resolve -> distinct_places facts ->
  (forall e, In e eqs <-> In e eqs') -> (forall f, In f facts <-> In f facts') ->
  solve_constants eqs facts resolve = Some out -> solve_constants eqs' facts' resolve = Some out' ->
  forall target t, In (target, t) out <-> In (target, t) out'.
Proof.
  assert (W : forall eqs facts resolve eqs' facts' out out', one_per_target eqs -> projected_known eqs resolve -> distinct_places facts ->
    (forall e, In e eqs <-> In e eqs') -> (forall f, In f facts <-> In f facts') ->
    solve_constants eqs facts resolve = Some out -> solve_constants eqs' facts' resolve = Some out' ->
    forall target t, In (target, t) out -> In (target, t) out').
  { intros eqs facts resolve eqs' facts' out out' ONE PROJ PL SE SF S S' target t I.
    assert (ONE' : one_per_target eqs') by (intros a b A B; apply ONE; apply SE; assumption).
    assert (PROJ' : projected_known eqs' resolve) by (intros a d u A; apply (PROJ a), SE, A).
    assert (PL' : distinct_places facts') by (intros a b A B; apply PL; apply SF; assumption).
    destruct (C31_never_panics eqs facts resolve ONE PROJ) as [o [O K]]. assert (o = out) by congruence. subst o.
    assert (M : In target (map ce_target eqs)) by (rewrite <- K; apply (in_map fst _ _ I)). apply in_map_iff in M as [e [<- E]].
    destruct (C31_typed_exactly eqs facts resolve out ONE PROJ PL S e E) as [u [_ [U [T KK]]]]. rewrite (U t I).
    destruct (C31_typed_exactly eqs' facts' resolve out' ONE' PROJ' PL' S' e (proj1 (SE e) E)) as [u' [I' [_ [T' KK']]]].
    assert (Q : u = u'); [|subst; exact I'].
    destruct (typed_same eqs facts resolve eqs' facts') as [M1 _]; [apply SE|apply SE|exact SF|].
    destruct (typed_same eqs' facts' resolve eqs facts) as [M2 _]; [apply SE|apply SE|intros f; symmetry; apply SF|].
    destruct (ty_dec u TUnknown) as [->|N].
    - destruct (ty_dec u' TUnknown) as [->|N']; [reflexivity|]. apply (T u' N'). apply M2. apply (T' u' N'). reflexivity.
    - symmetry. apply (T' u N). apply M1. apply (T u N). reflexivity. }
  intros eqs facts resolve eqs' facts' out out' ONE PROJ PL SE SF S S' target t. split; [eapply W; eauto|].
  assert (ONE' : one_per_target eqs') by (intros a b A B; apply ONE; apply SE; assumption).
  assert (PROJ' : projected_known eqs' resolve) by (intros a d u A; apply (PROJ a), SE, A).
  assert (PL' : distinct_places facts') by (intros a b A B; apply PL; apply SF; assumption).
  eapply (W eqs' facts' resolve eqs facts); eauto; [intros e; symmetry; apply SE|intros f; symmetry; apply SF].
Qed.
Print Assumptions C31_order.
Example C31_order_case : solve_constants (rev demo_ceqs) (rev demo_facts) demo_resolve =
  Some [(60, TUnknown); (50, TUnknown); (40, TUnknown); (30, TUnknown); (20, TUnion [ty_a; ty_c]); (10, ty_c)].
Proof. vm_compute. reflexivity. Qed.
(** two definitions recorded at the same place are told apart by their order in the store *)
Theorem C31_same_place_refuted : exists eqs facts facts' resolve, Permutation facts facts' /\
  solve_constants eqs facts resolve <> solve_constants eqs facts' resolve.
Proof.
  exists [mkC 10 [1]], [mkF 7 70 ty_a (0, 0, 0); mkF 7 70 ty_b (0, 0, 0)], [mkF 7 70 ty_b (0, 0, 0); mkF 7 70 ty_a (0, 0, 0)], (fun _ => Some (RValue 7)).
  split; [apply perm_swap|]. vm_compute. discriminate.
Qed.
Print Assumptions C31_same_place_refuted.
(** the latest definition in (file, start, end) order is the one that counts *)
Theorem C31_latest_definition : forall facts c f, distinct_places facts -> latest facts c = Some f <-> current facts c f.
Proof. intros facts c f D. split; [apply latest_current|apply current_latest, D]. Qed.
Print Assumptions C31_latest_definition.
Example C31_latest_case : latest demo_facts 1 = Some (mkF 1 10 TUnknown (0, 3, 7)).
Proof. reflexivity. Qed.
