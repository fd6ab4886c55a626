(** The method return solver: independence of the order, what a proven type holds, when a type is proven. *)
From Coq Require Import List Arith Lia Bool Permutation Sorted.
From Verif Require Import Types_Model Types_Spec Types_Order Types_Union Types_Total Scc_Model Scc_Proofs Returns_Model Returns_Spec
  Returns_Proofs Returns_Solve.
Import ListNotations.
Local Arguments union : simpl never.

(** * A growing chain of finite sets stops growing after as many steps as there are elements *)
Section Chain.
Variables (c : list nat) (B : nat -> nat -> bool).
Hypothesis GROW : forall k m, In m c -> B k m = true -> B (S k) m = true.
Hypothesis KEEP : forall k, (forall m, In m c -> B (S k) m = B k m) -> forall m, In m c -> B (S (S k)) m = B (S k) m.
Definition size k := length (filter (B k) c).
Lemma filter_grow (f h : nat -> bool) l : (forall m, In m l -> f m = true -> h m = true) ->
  length (filter f l) <= length (filter h l) /\
  (length (filter h l) <= length (filter f l) -> forall m, In m l -> h m = f m).
Proof.
  induction l as [|x l IH]; intros H; cbn; [split; [lia|intros _ m []]|].
  destruct IH as [I1 I2]; [intros; apply H; [right|]; assumption|].
  pose proof (H x (or_introl eq_refl)) as HX. destruct (f x) eqn:F, (h x) eqn:G; cbn; try (specialize (HX eq_refl); discriminate).
  - split; [lia|]. intros L m [<-|M]; [congruence|]. apply I2; [lia|exact M].
  - split; [lia|]. intros L. lia.
  - split; [lia|]. intros L m [<-|M]; [congruence|]. apply I2; [lia|exact M].
Qed.
Lemma chain_size k : (forall m, In m c -> B (S k) m = B k m) \/ S k <= size (S k).
Proof.
  induction k as [|k IH].
  - destruct (le_lt_dec (size 1) (size 0)) as [L|L]; [left|right; lia].
    apply (filter_grow (B 0) (B 1) c); [apply GROW|exact L].
  - destruct IH as [IH|IH]; [left; apply KEEP, IH|].
    destruct (le_lt_dec (size (S (S k))) (size (S k))) as [L|L]; [left|right; lia].
    apply (filter_grow (B (S k)) (B (S (S k))) c); [apply GROW|exact L].
Qed.
Lemma chain_stable k : length c <= k -> forall m, In m c -> B (S k) m = B k m.
Proof.
  intros L. destruct (chain_size k) as [H|H]; [exact H|]. unfold size in H.
  assert (length (filter (B (S k)) c) <= length c).
  { clear. induction c as [|x l IH]; cbn; [lia|]. destruct (B (S k) x); cbn; lia. }
  lia.
Qed.
End Chain.

(** * Independence of the order *)
Section OrderAll.
Variables eqs eqs' : list equation.
Hypothesis SAME : forall e, In e eqs <-> In e eqs'.
Hypothesis US : usable eqs.
Hypothesis US' : usable eqs'.
Notation g := (graph_of eqs).
Variable cs : list (list nat).
Hypothesis NDC : NoDup (concat cs).
Hypothesis COV : forall x, In x (concat cs) <-> In x (map fst g).
Hypothesis GOOD : good g cs.

Lemma start_asim (c : list nat) : asim (map (fun m => (m, Bottom)) c) (map (fun m => (m, Bottom)) c).
Proof. intros m. destruct (get _ m) as [v|]; [|exact Logic.I]. destruct v; cbn; auto. Qed.
Lemma component_order l c r so so' tel tel' : cs = l ++ c :: r -> SolInv eqs (concat l) so -> SolInv eqs' (concat l) so' ->
  (forall m, osim (get so m) (get so' m)) ->
  forall so1 tel1 so1' tel1', solve_component eqs g c (so, tel) = Some (so1, tel1) ->
  solve_component eqs' g c (so', tel') = Some (so1', tel1') -> forall m, osim (get so1 m) (get so1' m).
Proof.
  intros E [I1 I2] [I1' I2'] SS so1 tel1 so1' tel1' P P' m.
  assert (GG : graph_of eqs' = graph_of eqs) by (symmetry; apply graph_same, SAME).
  destruct (component_facts eqs cs NDC COV GOOD l c r E) as [F1 [F2 [F3 [F4 [F5 [F6 F7]]]]]].
  assert (F3' : forall m, In m c -> has_body eqs' m) by (intros x X; apply (hb_same eqs eqs' SAME), F3, X).
  assert (F4' : forall x, In x c -> forall y, In y c <-> reach (graph_of eqs') x y /\ reach (graph_of eqs') y x) by (rewrite GG; exact F4).
  assert (F5' : forall x y, In x c -> edge (graph_of eqs') x y -> In y c \/ In y (concat l)) by (rewrite GG; exact F5).
  assert (F6' : forall x y, In x (concat l) -> edge (graph_of eqs') x y -> In y (concat l)) by (rewrite GG; exact F6).
  assert (SG : forall m t, get so m = Some (OProven t) -> good_type eqs m t) by (intros; apply I2; assumption).
  assert (SG' : forall m t, get so' m = Some (OProven t) -> good_type eqs' m t) by (intros; apply I2'; assumption).
  unfold solve_component in P, P'. destruct (is_recursive g c) eqn:R.
  - assert (R' : is_recursive (graph_of eqs') c = true) by (rewrite GG; exact R).
    destruct (component_recursive eqs (concat l) c so US F2 F3 F4 F5 F6 F7 SG max_iterations R)
      as [conv [a [k [A1 [A2 [s [A3 [A4 _]]]]]]]].
    destruct (component_recursive eqs' (concat l) c so' US' F2 F3' F4' F5' F6' F7 SG' max_iterations R')
      as [conv' [a' [k' [D1 [D2 [s' [D3 [D4 _]]]]]]]].
    rewrite A1, A3 in P. rewrite D1, D3 in P'. cbn [option_map] in P, P'.
    assert (s = so1) by congruence. assert (s' = so1') by congruence. subst s s'. rewrite A4, D4.
    destruct (mem m c) eqn:M; [|apply SS]. apply mem_in in M.
    exact (iterate_sim eqs eqs' SAME US US' (concat l) c so so' F1 F2 F3 F3' F4 F5 F6 F7 SG SG' SS R GG max_iterations
      _ _ conv a k conv' a' k' (J_start eqs c) (J_start eqs' c) (start_asim c) A1 D1 m M).
  - assert (R' : is_recursive (graph_of eqs') c = false) by (rewrite GG; exact R).
    destruct (component_simple eqs (concat l) c so US F1 F2 F3 F4 F5 F7 SG R) as [x [v [EC [V1 [V2 [V3 _]]]]]].
    destruct (component_simple eqs' (concat l) c so' US' F1 F2 F3' F4' F5' F7 SG' R') as [x' [v' [EC' [W1 [W2 [W3 [W4 _]]]]]]].
    assert (x' = x) by congruence. subst x'. rewrite EC in *. rewrite V1, V2 in P. rewrite W1, W2 in P'. cbn [option_map] in P, P'.
    assert (put x (pure v false) so = so1) by congruence. assert (put x (pure v' false) so' = so1') by congruence. subst so1 so1'.
    rewrite !get_put. destruct (m =? x) eqn:Z; [|apply SS]. apply Nat.eqb_eq in Z. subst m.
    assert (SV : sim v v').
    { eapply (says_term_sim eqs eqs' SAME); [apply F3; left; reflexivity| |exact V3|exact W3].
      intros d D. assert (d <> x) by (apply W4; apply (rc_same eqs eqs' SAME), D).
      rewrite !look_out by (intros [Q|[]]; congruence). specialize (SS d).
      destruct (get so d) as [[t|r']|], (get so' d) as [[t'|r'']|]; cbn in *; auto; contradiction. }
    destruct v, v'; cbn in *; auto.
Qed.
Lemma components_order r : forall l so so' tel tel', cs = l ++ r -> SolInv eqs (concat l) so -> SolInv eqs' (concat l) so' ->
  (forall m, osim (get so m) (get so' m)) ->
  forall so1 tel1 so1' tel1', solve_components eqs g r (so, tel) = Some (so1, tel1) ->
  solve_components eqs' g r (so', tel') = Some (so1', tel1') -> forall m, osim (get so1 m) (get so1' m).
Proof.
  assert (GG : graph_of eqs' = graph_of eqs) by (symmetry; apply graph_same, SAME).
  induction r as [|c r IH]; intros l so so' tel tel' E I I' SS so1 tel1 so1' tel1' P P' m; cbn [solve_components] in P, P'.
  - assert (so = so1) by congruence. assert (so' = so1') by congruence. subst. apply SS.
  - destruct (component_step eqs US cs NDC COV GOOD l c r so tel E I) as [s [t [A [B _]]]].
    assert (COV' : forall x, In x (concat cs) <-> In x (map fst (graph_of eqs'))) by (rewrite GG; exact COV).
    assert (GOOD' : good (graph_of eqs') cs) by (rewrite GG; exact GOOD).
    destruct (component_step eqs' US' cs NDC COV' GOOD' l c r so' tel' E I') as [s' [t' [A' [B' _]]]].
    rewrite GG in A'. rewrite A in P. rewrite A' in P'.
    assert (SS1 : forall m, osim (get s m) (get s' m)) by (exact (component_order l c r so so' tel tel' E I I' SS s t s' t' A A')).
    refine (IH (l ++ [c]) s s' t t' _ B B' SS1 so1 tel1 so1' tel1' P P' m).
    rewrite <- app_assoc. exact E.
Qed.
End OrderAll.

Lemma solve_order eqs eqs' m : (forall e, In e eqs <-> In e eqs') -> usable eqs -> osim (outcome_of eqs m) (outcome_of eqs' m).
Proof.
  intros SAME US. pose proof (us_same eqs eqs' SAME US) as US'.
  assert (GG : graph_of eqs' = graph_of eqs) by (symmetry; apply graph_same, SAME).
  destruct (scc_correct (graph_of eqs) (graph_closed eqs)) as [cs [E [N [C G]]]].
  destruct (solve_total eqs US) as [so [tel [A _]]]. destruct (solve_total eqs' US') as [so' [tel' [A' _]]].
  unfold outcome_of. rewrite A, A'. unfold solve in A, A'. rewrite GG in A'. rewrite E in A, A'.
  exact (components_order eqs eqs' SAME US US' cs N C G cs [] [] [] (mkTel 0 0 0 0) (mkTel 0 0 0 0) eq_refl
    (start_inv eqs) (start_inv eqs') (fun m => Logic.I) so tel so' tel' A A' m).
Qed.

(** * What a proven type holds *)
Lemma outcome_sound eqs : usable eqs -> forall m t, outcome_of eqs m = Some (OProven t) ->
  good_type eqs m t /\ ~ returns_unproven eqs m /\
  (forall d, returns_call eqs m d -> exists td, outcome_of eqs d = Some (OProven td)) /\
  exists l, l <> [] /\ t = union l /\
    forall x, In x l <-> returns_type eqs m x \/ exists d, returns_call eqs m d /\ outcome_of eqs d = Some (OProven x).
Proof.
  intros US m t. unfold outcome_of. destruct (solve_total eqs US) as [so [tel [A [_ B]]]]. rewrite A. intros Q.
  destruct (B m t Q) as [B1 B2]. split; [exact B1|exact B2].
Qed.
Section Holds.
Variable eqs : list equation.
Variable so : list (nat * outcome).
Hypothesis SOL : forall m t, get so m = Some (OProven t) -> good_type eqs m t /\ solution eqs so m t.
Hypothesis FB : flat_bases eqs.
Lemma proven_not_unknown m t : get so m = Some (OProven t) -> t <> TUnknown.
Proof. intros Q ->. destruct (SOL _ _ Q) as [[U _] _]. discriminate. Qed.
Lemma holds m m' : calls eqs m m' -> forall t b x, get so m = Some (OProven t) -> returns_type eqs m' b -> In x (members b) -> In x (members t).
Proof.
  assert (FL : forall m t l, solution eqs so m t -> (forall x, In x l <-> returns_type eqs m x \/ exists d, returns_call eqs m d /\ get so d = Some (OProven x)) -> Forall flat l).
  { intros k t l _ L. apply Forall_forall. intros y Y. apply L in Y as [Y|[d [_ D]]]; [apply (FB k), Y|]. destruct (SOL _ _ D) as [[_ M] _]. apply M, FB. }
  intros C. induction C as [m|m d m' RC C IH]; intros t b x Q R X; destruct (SOL _ _ Q) as [_ S1]; pose proof S1 as [_ [S3 [l [_ [-> L]]]]];
    (apply union_members; [eapply FL; eauto|eapply proven_not_unknown, Q|]).
  - exists b. split; [apply L; auto|exact X].
  - destruct (S3 d RC) as [td D]. exists td. split; [apply L; right; eauto|]. eapply IH; eauto.
Qed.
End Holds.
Lemma outcome_members eqs : usable eqs -> flat_bases eqs -> forall m t, outcome_of eqs m = Some (OProven t) ->
  forall x, In x (members t) <-> ends_in eqs m x.
Proof.
  intros US FB m t. unfold outcome_of. destruct (solve_total eqs US) as [so [tel [A [_ B]]]]. rewrite A. intros Q x. split.
  - intros X. destruct (B m t Q) as [[_ M] _]. destruct (M FB) as [_ H]. destruct (H x X) as [m' [b H']]. exists m', b. exact H'.
  - intros [m' [b [C [R X]]]]. exact (holds eqs so B FB m m' C t b x Q R X).
Qed.
Lemma canonical_solution eqs : usable eqs -> flat_bases eqs -> forall m t, outcome_of eqs m = Some (OProven t) -> canonical t /\ members t <> [].
Proof.
  intros US FB m t Q. pose proof (outcome_sound eqs US m t Q) as [[U _] [_ [_ [l [_ [-> L]]]]]].
  assert (FL : Forall flat l).
  { apply Forall_forall. intros y Y. apply L in Y as [Y|[d [_ D]]]; [apply (FB m), Y|]. destruct (outcome_sound eqs US d y D) as [[_ M] _]. apply M, FB. }
  assert (NU : union l <> TUnknown) by (intros E; rewrite E in U; discriminate).
  split; [apply union_canonical, FL|]. intros E.
  assert (NE : flatten l = []).
  { destruct (flatten l) as [|y r] eqn:W; [reflexivity|]. assert (Y : In y (flatten l)) by (rewrite W; left; reflexivity).
    apply in_flatten_members in Y. apply (union_members l FL NU) in Y. rewrite E in Y. destruct Y. }
  apply NU. apply union_eq, UC_empty, NE.
Qed.

(** canonical types with the same members are the same *)
Lemma canonical_same s t : canonical s -> canonical t -> (forall x, In x (members s) <-> In x (members t)) -> s = t.
Proof.
  intros CS CT H. rewrite <- (union_single s CS), <- (union_single t CT). apply union_ext. intros x.
  rewrite !in_flatten_members. split; intros [u [[<-|[]] X]]; eexists; (split; [left; reflexivity|]); apply H; exact X.
Qed.

(** * When a type is proven *)
Lemma ends_in_step eqs m d x : returns_call eqs m d -> ends_in eqs d x -> ends_in eqs m x.
Proof. intros R [m' [b [C Q]]]. exists m', b. split; [econstructor; eauto|exact Q]. Qed.
Definition hasv (x : ty) (v : option approx) : Prop := match v with Some (Proven t) => In x (members t) | _ => False end.
Definition finev (v : approx) : Prop := v = Bottom \/ exists t, v = Proven t /\ canonical t /\ members t <> [].

Section Says.
Variable eqs : list equation.
Hypothesis FB : flat_bases eqs.
Lemma says_fine lk m v : known eqs m -> few_shape_results eqs m ->
  (forall d, returns_call eqs m d -> lk d = Some Bottom \/ exists t, lk d = Some (Proven t) /\ flat t /\ members t <> [] /\
     forall x, In x (members t) -> ends_in eqs d x) ->
  says (term eqs lk m) v -> finev v /\
  forall x, hasv x (Some v) <-> (exists b, returns_type eqs m b /\ In x (members b)) \/
                             (exists d, returns_call eqs m d /\ hasv x (lk d)).
Proof.
  intros K F L SV. destruct (K m (C_here eqs m)) as [K1 [K2 [K3 K4]]].
  (* the alternatives *)
  assert (ALT : forall u, term eqs lk m (Some (Proven u)) -> flat u /\ members u <> [] /\ forall x, In x (members u) -> ends_in eqs m x).
  { intros u [[e [E1 [E2 E3]]]|[d [D1 D2]]].
    - assert (R : returns_type eqs m u) by (exists e; repeat split; auto; congruence). split; [apply (FB m), R|]. split; [apply K3, R|].
      intros x X. exists m, u. split; [constructor|auto].
    - destruct (L d D1) as [Q|[t [Q1 [Q2 [Q3 Q4]]]]]; [congruence|]. assert (t = u) by congruence. subst t. split; [exact Q2|]. split; [exact Q3|].
      intros x X. eapply ends_in_step; eauto. }
  assert (NT : ~ ends_in eqs m TUnknown).
  { intros [m' [b [C [R X]]]]. destruct (K m' C) as [_ [_ [K5 _]]]. destruct (K5 b R) as [_ N]. contradiction. }
  assert (HAS : forall x, (exists u, term eqs lk m (Some (Proven u)) /\ In x (members u)) <->
     (exists b, returns_type eqs m b /\ In x (members b)) \/ (exists d, returns_call eqs m d /\ hasv x (lk d))).
  { intros x. split.
    - intros [u [[[e [E1 [E2 E3]]]|[d [D1 D2]]] X]].
      + left. exists u. split; [exists e; repeat split; auto; congruence|exact X].
      + right. exists d. split; [exact D1|]. rewrite <- D2. exact X.
    - intros [[b [[e [E1 [E2 E3]]] X]]|[d [D X]]].
      + exists b. split; [left; exists e; rewrite E3; auto|exact X].
      + destruct (lk d) as [[|t|r]|] eqn:Q; cbn in X; try contradiction. exists t. split; [right; exists d; auto|exact X]. }
  destruct v as [|t|r]; cbn in SV.
  - split; [left; reflexivity|]. intros x. rewrite <- HAS. cbn. split; [tauto|]. intros [u [U _]]. apply SV in U. discriminate.
  - destruct SV as [_ [l [N [E [-> NU]]]]].
    assert (FL : Forall flat l) by (apply Forall_forall; intros u U; apply ALT, E, U).
    split.
    + right. exists (union l). split; [reflexivity|]. split; [apply union_canonical, FL|].
      destruct l as [|u l]; [congruence|]. destruct (ALT u) as [_ [A _]]; [apply E; left; reflexivity|].
      destruct (members u) as [|x q] eqn:MU; [congruence|]. intros Z.
      assert (X : In x (members (union (u :: l)))).
      { apply union_members; auto. exists u. split; [left; reflexivity|]. rewrite MU. left. reflexivity. }
      rewrite Z in X. destruct X.
    + intros x. rewrite <- HAS. cbn [hasv]. rewrite (union_members l FL NU). split; intros [u [U X]]; exists u; (split; [apply E, U|exact X]).
  - exfalso. destruct SV as [[[e [E1 [E2 E3]]]|[d [D1 D2]]]|[l [N [E U]]]].
    + apply K2. exists e, r. repeat split; auto. congruence.
    + destruct (L d D1) as [Q|[t [Q1 _]]]; congruence.
    + assert (A : forall x, In x (flatten l) -> ends_in eqs m x).
      { intros x X. apply in_flatten_members in X as [u [U1 U2]]. apply E in U1. apply (ALT u U1), U2. }
      pose proof (union_cases l) as UC. rewrite U in UC. inversion UC; subst.
      * apply NT, A. assumption.
      * destruct l as [|u l]; [congruence|]. destruct (ALT u) as [_ [B _]]; [apply E; left; reflexivity|].
        destruct (members u) as [|x q] eqn:MU; [congruence|].
        assert (X : In x (flatten (u :: l))) by (apply in_flatten_members; exists u; split; [left; reflexivity|rewrite MU; left; reflexivity]).
        rewrite H in X. destruct X.
      * assert (W : length (shapes (canon (flatten l))) <= max_variants); [|lia].
        apply F; [apply NoDup_filter, canon_nodup|]. intros x X. apply filter_In in X as [X1 X2]. split; [exact X2|]. apply A, in_canon, X1.
      * apply H. apply in_canon. rewrite H0. left. reflexivity.
Qed.
End Says.

Section CompleteRec.
Variable eqs : list equation.
Notation g := (graph_of eqs).
Variables (c : list nat) (so : list (nat * outcome)).
Hypothesis US : usable eqs.
Hypothesis FB : flat_bases eqs.
Hypothesis ND : NoDup c.
Hypothesis SOL : forall m t, get so m = Some (OProven t) -> good_type eqs m t /\ solution eqs so m t.
Hypothesis SNE : forall m t, get so m = Some (OProven t) -> members t <> [].
Hypothesis KNOWN : forall m, In m c -> known eqs m.
Hypothesis FEW : forall m, In m c -> few_shape_results eqs m.
Hypothesis EXT : forall m d, In m c -> returns_call eqs m d -> ~ In d c -> exists t, get so d = Some (OProven t).

Lemma BODYk : forall m, In m c -> has_body eqs m.
Proof. intros m M. apply (KNOWN m M m (C_here eqs m)). Qed.
Lemma SGk : forall m t, get so m = Some (OProven t) -> good_type eqs m t.
Proof. intros m t Q. apply SOL, Q. Qed.
Definition fine (a : list (nat * approx)) : Prop :=
  J eqs c a /\ forall m, In m c -> exists v, get a m = Some v /\ finev v.
Lemma good_flat_ends d t : good_type eqs d t -> flat t /\ forall x, In x (members t) -> ends_in eqs d x.
Proof. intros [_ M]. destruct (M FB) as [M1 M2]. split; [exact M1|]. intros x X. destruct (M2 x X) as [m' [b Q]]. exists m', b. exact Q. Qed.
Lemma look_fine a m : fine a -> In m c -> forall d, returns_call eqs m d -> look c a so d = Some Bottom \/
  exists t, look c a so d = Some (Proven t) /\ flat t /\ members t <> [] /\ forall x, In x (members t) -> ends_in eqs d x.
Proof.
  intros [JA FA] M d D. destruct (in_dec Nat.eq_dec d c) as [DC|DC].
  - rewrite look_in by exact DC. destruct (FA d DC) as [v [V [->|[t [-> [T1 T2]]]]]]; [left; exact V|right].
    exists t. destruct JA as [_ G]. destruct (good_flat_ends d t (G d t V)) as [X1 X2]. auto.
  - right. destruct (EXT m d M D DC) as [t T]. exists t. rewrite look_out, T by exact DC. split; [reflexivity|].
    destruct (good_flat_ends d t (SGk d t T)) as [X1 X2]. split; [exact X1|]. split; [eapply SNE, T|exact X2].
Qed.
Definition ext (m : nat) (x : ty) : Prop :=
  (exists b, returns_type eqs m b /\ In x (members b)) \/ exists d t, returns_call eqs m d /\ ~ In d c /\ get so d = Some (OProven t) /\ In x (members t).
Lemma pass_fine a : fine a -> exists b, pass (evaluate eqs c a so) c = Some b /\ fine b /\
  forall m, In m c -> forall x, hasv x (get b m) <-> ext m x \/ exists d, In d c /\ returns_call eqs m d /\ hasv x (get a d).
Proof.
  intros FA. destruct (pass_J eqs c so US ND BODYk SGk a (proj1 FA)) as [b [B1 [B2 [_ B3]]]]. exists b. split; [exact B1|].
  assert (P : forall m, In m c -> exists v, get b m = Some v /\ finev v /\ forall x, hasv x (Some v) <->
     (exists b, returns_type eqs m b /\ In x (members b)) \/ (exists d, returns_call eqs m d /\ hasv x (look c a so d))).
  { intros m M. destruct (B3 m M) as [v [V1 V2]]. exists v. split; [exact V1|].
    exact (says_fine eqs FB (look c a so) m v (KNOWN m M) (FEW m M) (look_fine a m FA M) V2). }
  split.
  - split; [exact B2|]. intros m M. destruct (P m M) as [v [V1 [V2 _]]]. eauto.
  - intros m M x. destruct (P m M) as [v [V1 [_ V2]]]. rewrite V1, V2. unfold ext. split.
    + intros [H|[d [D X]]]; [auto|]. destruct (in_dec Nat.eq_dec d c) as [DC|DC].
      * rewrite look_in in X by exact DC. right. eauto.
      * rewrite look_out in X by exact DC. destruct (get so d) as [[t|r]|] eqn:Q; cbn in X; try contradiction.
        left. right. exists d, t. auto.
    + intros [[H|[d [t [D [DC [Q X]]]]]]|[d [DC [D X]]]]; [auto| |]; right; exists d; (split; [exact D|]).
      * rewrite look_out, Q by exact DC. exact X.
      * rewrite look_in by exact DC. exact X.
Qed.
Fixpoint chain (k : nat) : list (nat * approx) :=
  match k with
  | O => map (fun m => (m, Bottom)) c
  | S k => match pass (evaluate eqs c (chain k) so) c with Some b => b | None => [] end
  end.
Lemma chain_fine k : fine (chain k).
Proof.
  induction k as [|k IH]; cbn [chain].
  - split; [apply J_start|]. intros m M. exists Bottom. rewrite get_map, (proj2 (mem_in m c) M). split; [reflexivity|left; reflexivity].
  - destruct (pass_fine _ IH) as [b [-> [B _]]]. exact B.
Qed.
Lemma chain_pass k : pass (evaluate eqs c (chain k) so) c = Some (chain (S k)).
Proof. destruct (pass_fine _ (chain_fine k)) as [b [E _]]. cbn [chain]. rewrite E. reflexivity. Qed.
Lemma chain_has k m x : In m c -> hasv x (get (chain (S k)) m) <-> ext m x \/ exists d, In d c /\ returns_call eqs m d /\ hasv x (get (chain k) d).
Proof.
  intros M. destruct (pass_fine _ (chain_fine k)) as [b [E [_ B]]]. pose proof (chain_pass k) as Q. assert (b = chain (S k)) by congruence. subst b. apply B, M.
Qed.
Definition hasb (x : ty) (k m : nat) : bool := match get (chain k) m with Some (Proven t) => existsb (eqb x) (members t) | _ => false end.
Lemma hasb_spec x k m : hasb x k m = true <-> hasv x (get (chain k) m).
Proof.
  unfold hasb, hasv. destruct (get (chain k) m) as [[|t|r]|]; try (split; [discriminate|tauto]).
  rewrite existsb_exists. split; [intros [y [Y E]]; apply eqb_eq in E; congruence|]. intros X. exists x. split; [exact X|apply eqb_refl].
Qed.
Lemma chain_grow x k : forall m, In m c -> hasv x (get (chain k) m) -> hasv x (get (chain (S k)) m).
Proof.
  induction k as [|k IH]; intros m M H.
  - cbn [chain] in H. rewrite get_map in H. destruct (mem m c); destruct H.
  - apply chain_has; [exact M|]. apply chain_has in H; [|exact M]. destruct H as [H|[d [DC [D H]]]]; [auto|]. right. exists d. auto.
Qed.
Lemma bool_iff (a b : bool) : (a = true <-> b = true) -> a = b.
Proof. destruct a, b; intuition; symmetry; auto. Qed.
Lemma chain_done : length c <= 7 -> chain 8 = chain 7.
Proof.
  intros LC.
  assert (ST : forall x m, In m c -> hasb x 8 m = hasb x 7 m).
  { intros x. apply chain_stable; [| |exact LC].
    - intros k m M H. apply hasb_spec, chain_grow; [exact M|]. apply hasb_spec, H.
    - intros k H m M. apply bool_iff. rewrite !hasb_spec, (chain_has (S k) m x M), (chain_has k m x M).
      split; (intros [Q|[d [DC [D Q]]]]; [auto|right; exists d; split; [exact DC|]; split; [exact D|]]);
        rewrite <- hasb_spec in *; [rewrite <- (H d DC); exact Q|rewrite (H d DC); exact Q]. }
  destruct (chain_fine 8) as [[A1 _] A2], (chain_fine 7) as [[B1 _] B2].
  apply assoc_ext; [congruence|rewrite A1; exact ND|]. intros m. destruct (in_dec Nat.eq_dec m c) as [M|M].
  - assert (HX : forall x, hasv x (get (chain 8) m) <-> hasv x (get (chain 7) m)).
    { intros x. rewrite <- !hasb_spec, (ST x m M). reflexivity. }
    destruct (A2 m M) as [v [V1 V2]], (B2 m M) as [u [U1 U2]]. rewrite V1, U1 in HX |- *. f_equal.
    destruct V2 as [->|[t [-> [T1 T2]]]], U2 as [->|[s [-> [S1 S2]]]]; cbn in HX; auto.
    + destruct (members s) as [|y q]; [congruence|]. exfalso. apply (HX y). left. reflexivity.
    + destruct (members t) as [|y q]; [congruence|]. exfalso. apply (HX y). left. reflexivity.
    + f_equal. apply canonical_same; auto.
  - transitivity (@None approx); [|symmetry].
    + destruct (get (chain 8) m) eqn:Q; [|reflexivity]. exfalso. apply M. rewrite <- A1. apply get_in. eauto.
    + destruct (get (chain 7) m) eqn:Q; [|reflexivity]. exfalso. apply M. rewrite <- B1. apply get_in. eauto.
Qed.
Lemma iterate_chain n : forall k j, k <= j < k + n -> chain (S j) = chain j ->
  exists b i, iterate n (fun a => evaluate eqs c a so) c (chain k) = Some (true, b, i) /\ fine b /\ pass (evaluate eqs c b so) c = Some b.
Proof.
  induction n as [|n IH]; intros k j L E; [lia|]. cbn [iterate]. rewrite chain_pass.
  destruct (same (chain (S k)) (chain k)) eqn:Q.
  - apply same_eq in Q. exists (chain (S k)), 1. split; [reflexivity|]. split; [apply chain_fine|]. rewrite Q, chain_pass, Q. reflexivity.
  - assert (N : k <> j). { intros ->. apply (proj2 (same_eq _ _)) in E. congruence. }
    destruct (IH (S k) j) as [b [i [I1 I2]]]; [lia|exact E|]. rewrite I1. exists b, (S i). auto.
Qed.
Lemma fixpoint_has b : fine b -> pass (evaluate eqs c b so) c = Some b ->
  forall m m', calls eqs m m' -> In m c -> forall t x, returns_type eqs m' t -> In x (members t) -> hasv x (get b m).
Proof.
  intros FB' P m m' C. destruct (pass_fine b FB') as [b' [B1 [_ B2]]]. assert (b' = b) by congruence. subst b'.
  induction C as [m|m d m' RC C IH]; intros M t x R X; apply (B2 m M).
  - left. left. eauto.
  - destruct (in_dec Nat.eq_dec d c) as [DC|DC].
    + right. exists d. split; [exact DC|]. split; [exact RC|]. eapply IH; eauto.
    + left. right. destruct (EXT m d M RC DC) as [td T]. exists d, td. repeat split; auto.
      exact (holds eqs so SOL FB d m' C td t x T R X).
Qed.
Lemma recursive_proven : length c <= 7 -> exists b i,
  iterate max_iterations (fun a => evaluate eqs c a so) c (map (fun m => (m, Bottom)) c) = Some (true, b, i) /\
  forall m, In m c -> exists t, get b m = Some (Proven t).
Proof.
  intros LC. destruct (iterate_chain 8 0 7) as [b [i [I1 [I2 I3]]]]; [lia|apply chain_done, LC|].
  exists b, i. split; [exact I1|]. intros m M. destruct (I2) as [_ F]. destruct (F m M) as [v [V [->|[t [-> _]]]]]; [|eauto].
  exfalso. destruct (KNOWN m M m (C_here eqs m)) as [_ [_ [_ [x [m' [t [C [R X]]]]]]]].
  pose proof (fixpoint_has b I2 I3 m m' C M t x R X) as H. rewrite V in H. exact H.
Qed.
End CompleteRec.

Section CompleteAll.
Variable eqs : list equation.
Hypothesis US : usable eqs.
Hypothesis FB : flat_bases eqs.
Notation g := (graph_of eqs).
Variable cs : list (list nat).
Hypothesis NDC : NoDup (concat cs).
Hypothesis COV : forall x, In x (concat cs) <-> In x (map fst g).
Hypothesis GOOD : good g cs.

Definition ok (m : nat) : Prop := known eqs m /\ few_shape_results eqs m /\ small_circles eqs m.
Lemma ok_calls m d : ok m -> calls eqs m d -> ok d.
Proof.
  intros [A [B C]] Q. split; [|split].
  - intros m' R. apply A. eapply calls_trans; eauto.
  - intros ks N H. apply B; [exact N|]. intros x X. destruct (H x X) as [H1 [m' [b [R H2]]]]. split; [exact H1|]. exists m', b.
    split; [eapply calls_trans; eauto|exact H2].
  - intros m' ks R. apply C. eapply calls_trans; eauto.
Qed.
Lemma sol_nonempty so : (forall m t, get so m = Some (OProven t) -> good_type eqs m t /\ solution eqs so m t) ->
  forall m t, get so m = Some (OProven t) -> members t <> [].
Proof.
  intros SOL m t Q E. destruct (SOL m t Q) as [[U _] [_ [_ [l [_ [-> L]]]]]].
  assert (FL : Forall flat l).
  { apply Forall_forall. intros y Y. apply L in Y as [Y|[d [_ D]]]; [apply (FB m), Y|]. destruct (SOL d y D) as [[_ M] _]. apply M, FB. }
  assert (NU : union l <> TUnknown) by (intros Z; rewrite Z in U; discriminate).
  apply NU. apply union_eq, UC_empty. destruct (flatten l) as [|y r] eqn:W; [reflexivity|].
  assert (Y : In y (flatten l)) by (rewrite W; left; reflexivity).
  apply in_flatten_members in Y. apply (union_members l FL NU) in Y. rewrite E in Y. destruct Y.
Qed.
Lemma component_complete l c r so tel so' tel' : cs = l ++ c :: r -> SolInv eqs (concat l) so ->
  (forall m, In m (concat l) -> ok m -> exists t, get so m = Some (OProven t)) ->
  solve_component eqs g c (so, tel) = Some (so', tel') ->
  forall m, In m c -> ok m -> exists t, get so' m = Some (OProven t).
Proof.
  intros E [I1 I2] DONE P m M OK.
  destruct (component_facts eqs cs NDC COV GOOD l c r E) as [F1 [F2 [F3 [F4 [F5 [F6 F7]]]]]].
  assert (SG : forall m t, get so m = Some (OProven t) -> good_type eqs m t) by (intros; apply I2; assumption).
  assert (MUT : forall x, In x c -> calls eqs m x /\ calls eqs x m).
  { intros x X. destruct (proj1 (F4 m M x) X) as [R1 R2]. split; apply reach_calls; assumption. }
  assert (OKC : forall x, In x c -> ok x) by (intros x X; apply (ok_calls m); [exact OK|apply MUT, X]).
  assert (EXT : forall x d, In x c -> returns_call eqs x d -> ~ In d c -> exists t, get so d = Some (OProven t)).
  { intros x d X D DC. assert (OD : ok d) by (apply (ok_calls x); [apply OKC, X|econstructor; [exact D|constructor]]).
    apply DONE; [|exact OD]. destruct (F5 x d X) as [H|H]; [|contradiction|exact H]. apply edge_graph. split; [exact D|].
    destruct OD as [K _]. apply (K d (C_here eqs d)). }
  assert (LC : length c <= 7).
  { destruct OK as [_ [_ S1]]. apply (S1 m c); [constructor|exact F2|exact MUT]. }
  pose proof (sol_nonempty so I2) as SNE.
  unfold solve_component in P. destruct (is_recursive g c) eqn:R.
  - destruct (component_recursive eqs (concat l) c so US F2 F3 F4 F5 F6 F7 SG max_iterations R)
      as [conv [a [k [A1 [A2 [s [A3 [A4 _]]]]]]]].
    destruct (recursive_proven eqs c so US FB F2 I2 SNE (fun x X => proj1 (OKC x X)) (fun x X => proj1 (proj2 (OKC x X))) EXT LC)
      as [b [i [B1 B2]]].
    rewrite A1, A3 in P. cbn [option_map] in P. assert (s = so') by congruence. subst s.
    assert (conv = true) by congruence. assert (a = b) by congruence. subst conv a.
    rewrite A4, (proj2 (mem_in m c) M). destruct (B2 m M) as [t T]. rewrite T. exists t. reflexivity.
  - destruct (component_simple eqs (concat l) c so US F1 F2 F3 F4 F5 F7 SG R) as [x [v [EC [V1 [V2 [V3 [V4 _]]]]]]].
    rewrite EC in *. rewrite V1, V2 in P. cbn [option_map] in P. assert (put x (pure v false) so = so') by congruence. subst so'.
    destruct M as [<-|[]]. rewrite get_put_eq.
    assert (LK : forall d, returns_call eqs x d -> exists t, get so d = Some (OProven t) /\ look [x] [] so d = Some (Proven t)).
    { intros d D. assert (ND : ~ In d [x]) by (intros [Q|[]]; apply (V4 d D); auto). destruct (EXT x d (or_introl eq_refl) D ND) as [t T].
      exists t. split; [exact T|]. rewrite look_out, T by exact ND. reflexivity. }
    destruct OK as [K [W _]].
    destruct (says_fine eqs FB (look [x] [] so) x v K W) as [S1 S2]; [|exact V3|].
    { intros d D. right. destruct (LK d D) as [t [T1 T2]]. exists t. split; [exact T2|]. destruct (good_flat_ends eqs FB d t (SG d t T1)) as [G1 G2].
      split; [exact G1|]. split; [eapply SNE, T1|exact G2]. }
    destruct S1 as [->|[t [-> _]]]; [|exists t; reflexivity]. exfalso.
    destruct (K x (C_here eqs x)) as [_ [_ [_ [y [m' [t [C [RT X]]]]]]]]. apply (S2 y).
    inversion C as [|? d ? RC C' E1]; subst.
    + left. exists t. auto.
    + right. destruct (LK d RC) as [td [T1 T2]]. exists d. split; [exact RC|]. rewrite T2. cbn.
      exact (holds eqs so I2 FB d m' C' td t y T1 RT X).
Qed.
Lemma components_complete r : forall l so tel so1 tel1, cs = l ++ r -> SolInv eqs (concat l) so ->
  (forall m, In m (concat l) -> ok m -> exists t, get so m = Some (OProven t)) ->
  solve_components eqs g r (so, tel) = Some (so1, tel1) ->
  forall m, In m (concat cs) -> ok m -> exists t, get so1 m = Some (OProven t).
Proof.
  induction r as [|c r IH]; intros l so tel so1 tel1 E I D P m M OK; cbn [solve_components] in P.
  - rewrite app_nil_r in E. subst l. assert (so = so1) by congruence. subst. auto.
  - destruct (component_step eqs US cs NDC COV GOOD l c r so tel E I) as [s [t [A [B KEEP]]]]. rewrite A in P.
    apply (IH (l ++ [c]) s t so1 tel1); auto; [rewrite <- app_assoc; exact E|].
    intros x X OX. rewrite concat_app, in_app_iff in X. cbn in X. rewrite app_nil_r in X.
    destruct (in_dec Nat.eq_dec x c) as [XC|XC].
    + exact (component_complete l c r so tel s t E I D A x XC OX).
    + destruct X as [X|X]; [|contradiction]. rewrite KEEP by exact XC. auto.
Qed.
End CompleteAll.
Lemma solve_complete eqs m : usable eqs -> flat_bases eqs -> known eqs m -> few_shape_results eqs m -> small_circles eqs m ->
  exists t, outcome_of eqs m = Some (OProven t).
Proof.
  intros US FB K F S1. destruct (scc_correct (graph_of eqs) (graph_closed eqs)) as [cs [E [N [C G]]]].
  destruct (solve_total eqs US) as [so [tel [A _]]]. unfold outcome_of. rewrite A. unfold solve in A. rewrite E in A.
  refine (components_complete eqs US FB cs N C G cs [] [] (mkTel 0 0 0 0) so tel eq_refl (start_inv eqs) _ A m _ (conj K (conj F S1))).
  - intros x [].
  - apply C. rewrite keys_graph. apply in_keys. apply (K m (C_here eqs m)).
Qed.
