(** C29 and C30: inferred method return types. *)
From Coq Require Import List Arith Lia Bool Permutation.
From Verif Require Import Types_Model Types_Spec Types_Order Types_Union Types_Props Scc_Model Scc_Proofs Returns_Model Returns_Spec
  Returns_Proofs Returns_Solve Returns_Complete.
Import ListNotations.

(** * C29 *)

(** A proven return type is the union of the types its own bodies return and of the proven types of all the
    methods it returns calls to; all of those are proven. *)
Theorem C29_proven_is_the_union : forall eqs m t, usable eqs -> outcome_of eqs m = Some (OProven t) ->
  ~ returns_unproven eqs m /\
  (forall d, returns_call eqs m d -> exists td, outcome_of eqs d = Some (OProven td)) /\
  exists l, l <> [] /\ t = union l /\
    forall x, In x l <-> returns_type eqs m x \/ exists d, returns_call eqs m d /\ outcome_of eqs d = Some (OProven x).
Proof. intros eqs m t US Q. apply (outcome_sound eqs US m t Q). Qed.
Print Assumptions C29_proven_is_the_union.

Theorem C29_unproven_blocks : forall eqs m d, usable eqs ->
  returns_unproven eqs m \/ (returns_call eqs m d /\ forall td, outcome_of eqs d <> Some (OProven td)) ->
  forall t, outcome_of eqs m <> Some (OProven t).
Proof.
  intros eqs m d US H t Q. destruct (C29_proven_is_the_union eqs m t US Q) as [A [B _]].
  destruct H as [H|[H1 H2]]; [auto|]. destruct (B d H1) as [td T]. exact (H2 td T).
Qed.
Print Assumptions C29_unproven_blocks.

(** No alternative is missing and none is invented: they are the alternatives of the bodies of all the
    methods whose result it can end up returning, whatever the recursion. *)
Theorem C29_exact_alternatives : forall eqs m t, usable eqs -> flat_bases eqs -> outcome_of eqs m = Some (OProven t) ->
  forall x, In x (members t) <-> exists m' b, calls eqs m m' /\ returns_type eqs m' b /\ In x (members b).
Proof. intros eqs m t US FB Q x. exact (outcome_members eqs US FB m t Q x). Qed.
Print Assumptions C29_exact_alternatives.
Theorem C29_exact_values : forall named eqs m t v, usable eqs -> flat_bases eqs -> outcome_of eqs m = Some (OProven t) ->
  den named t v <-> exists m' b, calls eqs m m' /\ returns_type eqs m' b /\ den named b v.
Proof.
  intros named eqs m t v US FB Q. rewrite <- members_den. split.
  - intros [x [X V]]. apply (C29_exact_alternatives eqs m t US FB Q) in X as [m' [b [C [R X]]]]. exists m', b. split; [exact C|]. split; [exact R|].
    apply members_den. exists x. auto.
  - intros [m' [b [C [R V]]]]. apply members_den in V as [x [X V]]. exists x. split; [|exact V].
    apply (C29_exact_alternatives eqs m t US FB Q). eauto.
Qed.
Print Assumptions C29_exact_values.
(** the type is in normal form and is not Unknown *)
Theorem C29_canonical : forall eqs m t, usable eqs -> flat_bases eqs -> outcome_of eqs m = Some (OProven t) ->
  canonical t /\ members t <> [] /\ union_members_contain_unknown t = false.
Proof.
  intros eqs m t US FB Q. destruct (canonical_solution eqs US FB m t Q) as [A B]. split; [exact A|]. split; [exact B|].
  apply (outcome_sound eqs US m t Q).
Qed.
Print Assumptions C29_canonical.

(** Nothing is proven without everything below it being known ... *)
Theorem C29_proven_only_when_known : forall eqs m t, usable eqs -> flat_bases eqs -> outcome_of eqs m = Some (OProven t) ->
  forall m', calls eqs m m' ->
    has_body eqs m' /\ ~ returns_unproven eqs m' /\ (forall b, returns_type eqs m' b -> b <> TUnknown) /\
    exists x, ends_in eqs m' x.
Proof.
  intros eqs m t US FB Q m' C. revert t Q. induction C as [m|m d m' RC C IH]; intros t Q.
  - pose proof (C29_proven_is_the_union eqs m t US Q) as [A [_ [l [_ [E L]]]]]. split; [|split; [exact A|split]].
    + unfold outcome_of in Q. destruct (solve_total eqs US) as [so [tel [S1 [S2 _]]]]. rewrite S1 in Q. apply in_keys, S2. eauto.
    + intros b R ->. destruct (C29_canonical eqs m t US FB Q) as [_ [_ U]]. assert (Z : t = TUnknown); [|rewrite Z in U; discriminate U].
      rewrite E. apply C24_unknown_absorbs, L. auto.
    + destruct (C29_canonical eqs m t US FB Q) as [_ [N _]]. destruct (members t) as [|x r] eqn:M; [congruence|].
      exists x. apply (outcome_members eqs US FB m t Q). rewrite M. left. reflexivity.
  - destruct (C29_proven_is_the_union eqs m t US Q) as [_ [B _]]. destruct (B d RC) as [td T]. exact (IH td T).
Qed.
Print Assumptions C29_proven_only_when_known.
(** ... and everything below it being known is enough, as long as the alternatives have at most eight
    different shapes and no circle of recursion has more than seven methods. *)
Theorem C29_proven_when_known_partial : forall eqs m, usable eqs -> flat_bases eqs ->
  known eqs m -> few_shape_results eqs m -> small_circles eqs m ->
  exists t, outcome_of eqs m = Some (OProven t).
Proof. intros. apply solve_complete; assumption. Qed.
Print Assumptions C29_proven_when_known_partial.

(** two parity methods calling one another, a method that returns either, and a caller of an untyped one *)
Definition demo_eqs : list equation :=
  [mkE 1 (Proven ty_a) [2]; mkE 2 (Proven ty_b) [1]; mkE 3 Bottom [1]; mkE 3 (Proven ty_c) [];
   mkE 4 (Unknown 3) []; mkE 5 (Proven ty_a) [4]; mkE 6 Bottom [6]].
Lemma demo_bases m t : returns_type demo_eqs m t -> t = ty_a \/ t = ty_b \/ t = ty_c.
Proof. intros [e [E [_ B]]]. cbn in E. repeat (destruct E as [<-|E]; [cbn in B; try discriminate; injection B; auto|]). contradiction. Qed.
Lemma demo_usable : usable demo_eqs.
Proof. intros m t R. right. destruct (demo_bases m t R) as [->|[->| ->]]; reflexivity. Qed.
Lemma demo_flat : flat_bases demo_eqs.
Proof. intros m t R. destruct (demo_bases m t R) as [->|[->| ->]]; exact Logic.I. Qed.
Example C29_demo : map (fun m => outcome_of demo_eqs m) [1; 2; 3; 4; 5; 6; 7] =
  [Some (OProven (TUnion [ty_a; ty_b])); Some (OProven (TUnion [ty_a; ty_b])); Some (OProven (TUnion [ty_a; ty_b; ty_c]));
   Some (OUnknown 3); Some (OUnknown 3); Some (OUnknown unproven_recursive_cycle); None].
Proof. vm_compute. reflexivity. Qed.
Lemma demo_calls m m' : calls demo_eqs m m' -> In m [1; 2; 3] -> In m' [1; 2; 3].
Proof.
  induction 1 as [|a b c [e [E [EM D]]] C IH]; [auto|]. intros A. apply IH. clear C IH.
  cbn in E. repeat (destruct E as [<-|E]; [cbn in EM; subst a; cbn in D, A |- *; intuition lia|]). contradiction.
Qed.
Example C29_proven_when_known_case : known demo_eqs 3 /\ few_shape_results demo_eqs 3 /\ small_circles demo_eqs 3.
Proof.
  assert (R : forall m t, In (mkE m (Proven t) [2]) demo_eqs \/ In (mkE m (Proven t) [1]) demo_eqs \/ In (mkE m (Proven t) []) demo_eqs ->
     returns_type demo_eqs m t) by (intros m t [H|[H|H]]; (eexists; split; [exact H|split; reflexivity])).
  split; [|split].
  - intros m' C. apply demo_calls in C; [|cbn; auto]. split; [|split; [|split]].
    + destruct C as [<-|[<-|[<-|[]]]]; [exists (mkE 1 (Proven ty_a) [2])|exists (mkE 2 (Proven ty_b) [1])|exists (mkE 3 Bottom [1])]; cbn; auto 8.
    + intros [e [r [E [M B]]]]. cbn in E. repeat (destruct E as [<-|E]; [cbn in M, B; subst m'; try discriminate; cbn in C; intuition lia|]). contradiction.
    + intros b B. destruct (demo_bases _ _ B) as [->|[->| ->]]; (split; [discriminate|cbn; intuition discriminate]).
    + destruct C as [<-|[<-|[<-|[]]]]; [exists ty_a, 1, ty_a|exists ty_b, 2, ty_b|exists ty_c, 3, ty_c];
        (split; [constructor|]; split; [apply R; cbn; auto 20|left; reflexivity]).
  - intros ks N H. destruct ks as [|x ks]; [cbn; lia|]. exfalso. destruct (H x (or_introl eq_refl)) as [S1 [m' [b [_ [B X]]]]].
    destruct (demo_bases _ _ B) as [->|[->| ->]]; destruct X as [<-|[]]; discriminate.
  - intros m' ks C N H. apply demo_calls in C; [|cbn; auto].
    assert (L : length ks <= length [1; 2; 3]); [|cbn in L; lia]. apply NoDup_incl_length; [exact N|]. intros x X.
    apply (demo_calls m'); [apply H, X|exact C].
Qed.
Example C29_demo_order : outcome_of demo_eqs 3 = outcome_of (rev demo_eqs) 3.
Proof. vm_compute. reflexivity. Qed.

(** The bound on circles is needed: with eight methods in a circle and one typed body nothing is proven. *)
Definition ring (n : nat) : list equation :=
  mkE 0 (Proven ty_a) [1] :: map (fun i => mkE (S i) Bottom [if S (S i) =? n then 0 else S (S i)]) (seq 0 (n - 1)).
Lemma ring_calls n m m' : 1 < n -> calls (ring n) m m' -> m < n -> m' < n.
Proof.
  intros N1. induction 1 as [|a b c [e [E [EM D]]] C IH]; [auto|]. intros A. apply IH. clear C IH. destruct E as [<-|E].
  - destruct D as [<-|[]]. exact N1.
  - apply in_map_iff in E as [i [<- I]]. apply in_seq in I. destruct D as [<-|[]]. cbn in EM. destruct (S (S i) =? n) eqn:Z; [lia|].
    apply Nat.eqb_neq in Z. lia.
Qed.
Theorem C29_large_circle_refuted : exists eqs m, usable eqs /\ flat_bases eqs /\ known eqs m /\ few_shape_results eqs m /\
  outcome_of eqs m = Some (OUnknown unproven_recursive_cycle).
Proof.
  exists (ring 8), 0.
  assert (B : forall m t, returns_type (ring 8) m t -> t = ty_a).
  { intros m t [e [E [_ Q]]]. cbn in E. repeat (destruct E as [<-|E]; [cbn in Q; try discriminate; congruence|]). contradiction. }
  split; [intros m t R; right; rewrite (B m t R); reflexivity|]. split; [intros m t R; rewrite (B m t R); exact Logic.I|].
  split; [|split; [|vm_compute; reflexivity]].
  - intros m' C. apply ring_calls in C; [|lia|lia].
    assert (TO : calls (ring 8) m' 0).
    { assert (S7 : calls (ring 8) 7 0) by (apply (C_step _ _ 0); [exists (mkE 7 Bottom [0]); cbn; auto 10|constructor]).
      assert (ST : forall i, In (mkE i Bottom [S i]) (ring 8) -> calls (ring 8) (S i) 0 -> calls (ring 8) i 0).
      { intros i I K. apply (C_step _ _ (S i)); [exists (mkE i Bottom [S i]); cbn; split; [exact I|auto]|exact K]. }
      assert (S6 : calls (ring 8) 6 0) by (apply ST; [cbn; auto 10|exact S7]).
      assert (S5 : calls (ring 8) 5 0) by (apply ST; [cbn; auto 10|exact S6]).
      assert (S4 : calls (ring 8) 4 0) by (apply ST; [cbn; auto 10|exact S5]).
      assert (S3 : calls (ring 8) 3 0) by (apply ST; [cbn; auto 10|exact S4]).
      assert (S2 : calls (ring 8) 2 0) by (apply ST; [cbn; auto 10|exact S3]).
      assert (S1 : calls (ring 8) 1 0) by (apply ST; [cbn; auto 10|exact S2]).
      destruct m' as [|[|[|[|[|[|[|[|m']]]]]]]]; auto; [constructor|lia]. }
    split; [|split; [|split]].
    + destruct (Nat.eq_dec m' 0) as [->|N]; [eexists; split; [left; reflexivity|reflexivity]|].
      exists (mkE m' Bottom [if S m' =? 8 then 0 else S m']). split; [|reflexivity]. right. apply in_map_iff. exists (m' - 1).
      assert (E : S (m' - 1) = m') by lia. rewrite E. split; [reflexivity|]. apply in_seq. lia.
    + intros [e [r [E [_ Q]]]]. cbn in E. repeat (destruct E as [<-|E]; [discriminate|]). contradiction.
    + intros b R. rewrite (B m' b R). split; [discriminate|cbn; intuition discriminate].
    + exists ty_a, 0, ty_a. split; [exact TO|]. split; [|left; reflexivity]. eexists. split; [left; reflexivity|split; reflexivity].
  - intros ks N H. destruct ks as [|x ks]; [cbn; lia|]. exfalso. destruct (H x (or_introl eq_refl)) as [S1 [m' [b [_ [R X]]]]].
    rewrite (B _ _ R) in X. destruct X as [<-|[]]; discriminate.
Qed.
Print Assumptions C29_large_circle_refuted.
Example C29_circle_of_seven : outcome_of (ring 7) 0 = Some (OProven ty_a).
Proof. vm_compute. reflexivity. Qed.

(** the constructors of equations only give usable bases *)
Theorem C29_constructors : forall m t r e, from_ruby_type m t r = Some e \/ equation_proven m t = Some e ->
  forall b, eq_base e = Proven b -> union_members_contain_unknown b = false.
Proof.
  intros m t r e H b E. unfold from_ruby_type, equation_proven in H. destruct (union_members_contain_unknown t) eqn:U.
  - destruct H as [H|H]; [|discriminate]. injection H as <-. discriminate.
  - destruct H as [H|H]; injection H as <-; cbn in E; congruence.
Qed.
Print Assumptions C29_constructors.
Theorem C29_from_ruby_type_total : forall m t r, exists e, from_ruby_type m t r = Some e /\ eq_method e = m /\ eq_deps e = [].
Proof. intros m t r. unfold from_ruby_type, equation_proven. destruct (union_members_contain_unknown t); eexists; split; try reflexivity; split; reflexivity. Qed.
Print Assumptions C29_from_ruby_type_total.
Lemma resolved_members_spec l ts : resolved_members l = Some ts -> l = map Some ts /\ forall t, In t ts -> union_members_contain_unknown t = false.
Proof.
  revert ts. induction l as [|[t|] l IH]; cbn; intros ts H; try discriminate.
  - injection H as <-. split; [reflexivity|intros t []].
  - destruct (union_members_contain_unknown t) eqn:U; [discriminate|]. destruct (resolved_members l) as [k|] eqn:E; [|discriminate].
    cbn in H. injection H as <-. destruct (IH k eq_refl) as [-> Q]. split; [reflexivity|]. intros x [<-|X]; auto.
Qed.
(** Folding constant types into an equation: nothing changes without constants; an untyped constant makes
    the body unproven; otherwise the base is the union with all of their types, and stays usable. *)
Theorem C29_constant_bases : forall e resolved,
  (resolved = [] -> with_resolved_constant_types e resolved = e) /\
  (forall r, eq_base e = Unknown r -> with_resolved_constant_types e resolved = e) /\
  (In None resolved -> (exists r, eq_base e = Unknown r) \/
     eq_base (with_resolved_constant_types e resolved) = Unknown unresolved_assignment_value) /\
  (forall ts, ts <> [] -> resolved = map Some ts -> (forall t, In t ts -> union_members_contain_unknown t = false) ->
     (eq_base e = Bottom -> eq_base (with_resolved_constant_types e resolved) = Proven (union ts)) /\
     (forall t, eq_base e = Proven t -> eq_base (with_resolved_constant_types e resolved) = Proven (union (t :: ts)))) /\
  eq_method (with_resolved_constant_types e resolved) = eq_method e /\
  eq_deps (with_resolved_constant_types e resolved) = eq_deps e.
Proof.
  intros [m b ds] resolved. unfold with_resolved_constant_types. cbn [eq_base eq_method eq_deps].
  assert (RM : forall ts, (forall t, In t ts -> union_members_contain_unknown t = false) -> resolved_members (map Some ts) = Some ts).
  { induction ts as [|t ts IH]; intros H; [reflexivity|]. cbn. rewrite (H t (or_introl eq_refl)), IH; [reflexivity|]. intros; apply H; right; assumption. }
  split; [intros ->; reflexivity|]. split; [intros r ->; destruct resolved; reflexivity|]. split.
  - intros I. assert (RN : resolved_members resolved = None).
    { destruct (resolved_members resolved) as [ts|] eqn:E; [|reflexivity]. apply resolved_members_spec in E as [-> _].
      apply in_map_iff in I as [x [X _]]. discriminate. }
    destruct resolved as [|x rest]; [destruct I|]. destruct b as [|t|r]; [right|right|left; eauto]; rewrite RN; reflexivity.
  - split.
    + intros ts N -> H. destruct ts as [|t0 ts]; [congruence|]. split.
      * intros ->. rewrite (RM _ H). reflexivity.
      * intros t ->. rewrite (RM _ H). reflexivity.
    + destruct resolved as [|x rest]; [split; reflexivity|]. destruct b as [|t|r]; [| |split; reflexivity];
        destruct (resolved_members (x :: rest)); split; reflexivity.
Qed.
Print Assumptions C29_constant_bases.
Theorem C29_constant_bases_usable : forall e resolved b,
  (forall t, eq_base e = Proven t -> t = TUnknown \/ union_members_contain_unknown t = false) ->
  eq_base (with_resolved_constant_types e resolved) = Proven b -> b = TUnknown \/ union_members_contain_unknown b = false.
Proof.
  intros [m a ds] resolved b H. unfold with_resolved_constant_types. cbn [eq_base eq_method eq_deps] in *.
  destruct resolved as [|x rest]; [cbn; apply H|].
  destruct a as [|t|r]; [| |cbn; discriminate]; (destruct (resolved_members (x :: rest)) as [ts|] eqn:E; [|cbn; discriminate]);
    apply resolved_members_spec in E as [_ E]; cbn [eq_base].
  - destruct ts as [|t0 ts]; [discriminate|]. intros Q. injection Q as <-. destruct (ty_dec (union (t0 :: ts)) TUnknown) as [U|U]; [left; exact U|right].
    apply umu_union; [|exact U]. intros y Y. right. apply E, Y.
  - intros Q. injection Q as <-. destruct (ty_dec (union (t :: ts)) TUnknown) as [U|U]; [left; exact U|right].
    apply umu_union; [|exact U]. intros y [<-|Y]; [apply H; reflexivity|right; apply E, Y].
Qed.
Print Assumptions C29_constant_bases_usable.
(** bases the constructors do not give can make the solver panic *)
Theorem C29_unchecked_base_panics : solve [mkE 0 (Proven (TArray [TUnion [ty_a; TUnknown]])) []] = None.
Proof. vm_compute. reflexivity. Qed.
Print Assumptions C29_unchecked_base_panics.

(** * C30 *)

(** The solver always ends without a panic; a method has an outcome exactly when it has a body. *)
Theorem C30_terminates : forall eqs, usable eqs -> exists outcomes tel, solve eqs = Some (outcomes, tel).
Proof. intros eqs US. destruct (solve_total eqs US) as [so [tel [A _]]]. eauto. Qed.
Print Assumptions C30_terminates.
Theorem C30_one_outcome : forall eqs m, usable eqs -> (exists o, outcome_of eqs m = Some o) <-> has_body eqs m.
Proof.
  intros eqs m US. unfold outcome_of. destruct (solve_total eqs US) as [so [tel [A [B _]]]]. rewrite A, B. apply in_keys.
Qed.
Print Assumptions C30_one_outcome.

(** The types do not depend on the order of the equations, nor on repeating one. *)
Theorem C30_order : forall eqs eqs', usable eqs -> (forall e, In e eqs <-> In e eqs') -> forall m,
  (forall t, outcome_of eqs m = Some (OProven t) <-> outcome_of eqs' m = Some (OProven t)) /\
  ((exists r, outcome_of eqs m = Some (OUnknown r)) <-> (exists r, outcome_of eqs' m = Some (OUnknown r))) /\
  (outcome_of eqs m = None <-> outcome_of eqs' m = None).
Proof.
  intros eqs eqs' US SAME m. pose proof (solve_order eqs eqs' m SAME US) as H.
  split; [intros t; apply osim_proven, H|].
  destruct (outcome_of eqs m) as [[t|r]|], (outcome_of eqs' m) as [[t'|r']|]; cbn in H; try contradiction;
    split; split; try (intros [? ?]); try discriminate; eauto; reflexivity.
Qed.
Print Assumptions C30_order.
Theorem C30_permutation : forall eqs eqs', usable eqs -> Permutation eqs eqs' -> forall m t,
  outcome_of eqs m = Some (OProven t) <-> outcome_of eqs' m = Some (OProven t).
Proof.
  intros eqs eqs' US P m t. apply C30_order; [exact US|]. intros e. split; apply Permutation_in; [exact P|symmetry; exact P].
Qed.
Print Assumptions C30_permutation.
Example C30_order_case : usable demo_eqs /\ Permutation demo_eqs (rev demo_eqs) /\
  outcome_of (rev demo_eqs) 1 = Some (OProven (TUnion [ty_a; ty_b])).
Proof. split; [exact demo_usable|]. split; [apply Permutation_rev|vm_compute; reflexivity]. Qed.
(** the reason given with an Unknown does depend on it, and so do the counters *)
Theorem C30_reason_order_refuted : exists eqs eqs' m, usable eqs /\ Permutation eqs eqs' /\ outcome_of eqs m <> outcome_of eqs' m.
Proof.
  exists [mkE 0 (Unknown 1) []; mkE 0 (Unknown 2) []], [mkE 0 (Unknown 2) []; mkE 0 (Unknown 1) []], 0.
  split; [|split; [apply perm_swap|vm_compute; discriminate]].
  intros m t [e [E [_ B]]]. cbn in E. destruct E as [<-|[<-|[]]]; discriminate.
Qed.
Print Assumptions C30_reason_order_refuted.
Theorem C30_telemetry_order_refuted : exists eqs eqs', usable eqs /\ Permutation eqs eqs' /\
  option_map snd (solve eqs) <> option_map snd (solve eqs').
Proof.
  exists [mkE 0 Bottom [1]; mkE 0 (Unknown 1) []; mkE 1 Bottom [0]; mkE 1 (Unknown 2) []],
         [mkE 0 (Unknown 1) []; mkE 0 Bottom [1]; mkE 1 (Unknown 2) []; mkE 1 Bottom [0]].
  split; [|split; [|vm_compute; discriminate]].
  - intros m t [e [E [_ B]]]. cbn in E. repeat (destruct E as [<-|E]; [discriminate|]). contradiction.
  - eapply perm_trans; [apply perm_swap|]. apply perm_skip, perm_skip, perm_swap.
Qed.
Print Assumptions C30_telemetry_order_refuted.

(** The order in which the components are solved is callee first, and each is a maximal circle of calls. *)
Theorem C30_components : forall eqs, exists cs, scc (graph_of eqs) = Some cs /\ NoDup (concat cs) /\
  (forall m, In m (concat cs) <-> has_body eqs m) /\
  (forall c, In c cs -> c <> [] /\ forall a, In a c -> forall b, In b c <-> reach (graph_of eqs) a b /\ reach (graph_of eqs) b a) /\
  (forall l c r a b, cs = l ++ c :: r -> In a c -> returns_call eqs a b -> has_body eqs b -> In b (concat l) \/ In b c).
Proof.
  intros eqs. destruct (scc_correct (graph_of eqs) (graph_closed eqs)) as [cs [E [N [C [G1 G2]]]]]. exists cs. split; [exact E|]. split; [exact N|].
  split; [intros m; rewrite C, keys_graph; apply in_keys|]. split.
  - intros c I. destruct (G1 c I) as [A [_ B]]. auto.
  - intros l c r a b Q A R H. destruct (G2 l c r Q a b A) as [X|X]; [apply edge_graph; auto|auto|auto].
Qed.
Print Assumptions C30_components.
