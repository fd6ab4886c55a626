(** The method return solver: what it publishes. *)
From Coq Require Import List Arith Lia Bool Permutation Sorted.
From Verif Require Import Types_Model Types_Spec Types_Order Types_Union Scc_Model Scc_Proofs Returns_Model Returns_Spec.
Import ListNotations.
Local Arguments union : simpl never.

(** * Sets *)
Lemma in_ndedup x l : In x (ndedup l) <-> In x l.
Proof.
  induction l as [|a l IH]; [reflexivity|]. destruct l as [|b l]; [reflexivity|].
  change (ndedup (a :: b :: l)) with (if a =? b then ndedup (b :: l) else a :: ndedup (b :: l)).
  destruct (a =? b) eqn:E.
  - apply Nat.eqb_eq in E. subst. rewrite IH. cbn. tauto.
  - cbn [In] in *. rewrite IH. tauto.
Qed.
Lemma ndedup_sorted l : StronglySorted Nat.le l -> StronglySorted Nat.lt (ndedup l).
Proof.
  induction l as [|a l IH]; intros S1; [constructor|]. inversion S1 as [|? ? S2 F]; subst. destruct l as [|b l]; [constructor; constructor|].
  change (ndedup (a :: b :: l)) with (if a =? b then ndedup (b :: l) else a :: ndedup (b :: l)).
  destruct (a =? b) eqn:E; [auto|]. apply Nat.eqb_neq in E. constructor; [auto|].
  apply Forall_forall. intros x X. rewrite (in_ndedup x (b :: l)) in X. rewrite Forall_forall in F.
  assert (a <= b) by (apply F; left; reflexivity). inversion S2 as [|? ? S3 F2]; subst. rewrite Forall_forall in F2.
  destruct X as [<-|X]; [lia|]. apply F2 in X. unfold Nat.le in *. unfold Nat.lt. lia.
Qed.
Lemma in_to_set x l : In x (to_set l) <-> In x l.
Proof. unfold to_set. rewrite in_ndedup, in_nsort. reflexivity. Qed.
Lemma to_set_sorted l : StronglySorted Nat.lt (to_set l).
Proof. apply ndedup_sorted, nsort_sorted. Qed.
Lemma nlt_sorted_unique : forall l k, StronglySorted Nat.lt l -> StronglySorted Nat.lt k -> (forall x, In x l <-> In x k) -> l = k.
Proof.
  induction l as [|a l IH]; intros k L K E.
  - destruct k as [|b k]; [reflexivity|]. exfalso. apply (E b). left. reflexivity.
  - destruct k as [|b k]; [exfalso; apply (E a); left; reflexivity|].
    inversion L as [|? ? L1 L2]; inversion K as [|? ? K1 K2]; subst. rewrite Forall_forall in L2, K2.
    assert (a = b).
    { destruct (proj1 (E a) (or_introl eq_refl)) as [X|X]; [auto|]. destruct (proj2 (E b) (or_introl eq_refl)) as [Y|Y]; [auto|].
      apply K2 in X. apply L2 in Y. unfold Nat.lt in *. lia. }
    subst b. f_equal. apply IH; auto. intros x. split; intros X.
    + destruct (proj1 (E x) (or_intror X)) as [Y|Y]; [|exact Y]. subst. apply L2 in X. unfold Nat.lt in *. lia.
    + destruct (proj2 (E x) (or_intror X)) as [Y|Y]; [|exact Y]. subst. apply K2 in X. unfold Nat.lt in *. lia.
Qed.
Lemma to_set_ext l k : (forall x, In x l <-> In x k) -> to_set l = to_set k.
Proof. intros E. apply nlt_sorted_unique; auto using to_set_sorted. intros x. rewrite !in_to_set. apply E. Qed.
Lemma nlt_sorted_nodup l : StronglySorted Nat.lt l -> NoDup l.
Proof.
  induction 1 as [|x l HS IH HF]; constructor; auto. intros I. rewrite Forall_forall in HF. apply HF in I. unfold Nat.lt in I. lia.
Qed.

(** * The dependency graph *)
Lemma in_defs eqs m e : In e (defs eqs m) <-> In e eqs /\ eq_method e = m.
Proof. unfold defs. rewrite filter_In, Nat.eqb_eq. reflexivity. Qed.
Lemma in_keys eqs m : In m (keys eqs) <-> has_body eqs m.
Proof.
  unfold keys, has_body. rewrite in_to_set, in_map_iff. split; intros [e [A B]]; exists e; auto.
Qed.
Lemma keys_graph eqs : map fst (graph_of eqs) = keys eqs.
Proof. unfold graph_of. rewrite map_map. cbn. apply map_id. Qed.
Lemma get_map {A} (f : nat -> A) l m : get (map (fun m => (m, f m)) l) m = if mem m l then Some (f m) else None.
Proof.
  induction l as [|k l IH]; cbn [map get mem existsb]; [reflexivity|]. rewrite IH.
  destruct (m =? k) eqn:E; [apply Nat.eqb_eq in E; subst|]; reflexivity.
Qed.
Lemma get_graph eqs m ds : get (graph_of eqs) m = Some ds ->
  ds = to_set (filter (fun d => mem d (keys eqs)) (flat_map eq_deps (defs eqs m))).
Proof. unfold graph_of. rewrite get_map. destruct (mem m (keys eqs)); [congruence|discriminate]. Qed.
Lemma edge_graph eqs a b : edge (graph_of eqs) a b <-> returns_call eqs a b /\ has_body eqs b.
Proof.
  split.
  - intros [ds [E I]]. apply get_graph in E. subst ds. rewrite in_to_set, filter_In, mem_in, in_keys, in_flat_map in I.
    destruct I as [[e [E1 E2]] H]. apply in_defs in E1 as [E1 E3]. split; [|exact H]. exists e. auto.
  - intros [[e [E1 [E2 E3]]] H].
    assert (K : In a (map fst (graph_of eqs))) by (rewrite keys_graph, in_keys; exists e; auto).
    apply get_in in K as [ds D]. exists ds. split; [exact D|]. apply get_graph in D. subst ds.
    rewrite in_to_set, filter_In, mem_in, in_keys, in_flat_map. split; [|exact H]. exists e. rewrite in_defs. auto.
Qed.
Lemma graph_closed eqs : closed (graph_of eqs).
Proof. intros a b E. apply edge_graph in E as [_ H]. rewrite keys_graph, in_keys. exact H. Qed.
Lemma reach_calls eqs a b : reach (graph_of eqs) a b -> calls eqs a b.
Proof. induction 1; [constructor|]. apply edge_graph in H as [H _]. econstructor; eauto. Qed.
Lemma calls_trans eqs a b c : calls eqs a b -> calls eqs b c -> calls eqs a c.
Proof. induction 1; auto. intros. econstructor; eauto. Qed.

(** * Evaluating one method *)
Definition prov (a : option approx) : list ty := match a with Some (Proven t) => [t] | _ => [] end.
Lemma collect_spec l : forall acc, (forall a, In a l -> a <> None) ->
  (exists r, collect l acc = Some (inl r) /\ In (Some (Unknown r)) l) \/
  (collect l acc = Some (inr (acc ++ flat_map prov l)) /\ forall r, ~ In (Some (Unknown r)) l).
Proof.
  induction l as [|a l IH]; intros acc N; cbn.
  - right. rewrite app_nil_r. split; [reflexivity|]. auto.
  - assert (N' : forall a, In a l -> a <> None) by (intros; apply N; right; assumption).
    destruct a as [[|t|r]|].
    + destruct (IH acc N') as [[r [E I]]|[E I]]; [left; eauto|right]. split; [exact E|]. intros r [H|H]; [discriminate|eapply I, H].
    + destruct (IH (acc ++ [t]) N') as [[r [E I]]|[E I]]; [left; eauto|right]. cbn. rewrite <- app_assoc in E. split; [exact E|].
      intros r [H|H]; [discriminate|eapply I, H].
    + left. exists r. auto.
    + exfalso. apply (N None); [left; reflexivity|reflexivity].
Qed.
Lemma in_prov l x : In x (flat_map prov l) <-> In (Some (Proven x)) l.
Proof.
  rewrite in_flat_map. split.
  - intros [a [A B]]. destruct a as [[|t|r]|]; cbn in B; try contradiction. destruct B as [<-|[]]. exact A.
  - intros A. exists (Some (Proven x)). split; [exact A|left; reflexivity].
Qed.

Section Eval.
Variable eqs : list equation.
Definition term (lk : nat -> option approx) (m : nat) (a : option approx) : Prop :=
  (exists e, In e eqs /\ eq_method e = m /\ a = Some (eq_base e)) \/ (exists d, returns_call eqs m d /\ a = lk d).
Lemma in_terms lk m a : In a (terms lk (defs eqs m)) <-> term lk m a.
Proof.
  unfold terms, term, returns_call. rewrite in_flat_map. split.
  - intros [e [E A]]. apply in_defs in E as [E1 E2]. destruct A as [<-|A]; [left; eauto|].
    apply in_map_iff in A as [d [<- D]]. right. exists d. split; [exists e|]; auto.
  - intros [[e [E1 [E2 ->]]]|[d [[e [E1 [E2 D]]] ->]]]; exists e; rewrite in_defs; split; auto.
    + left. reflexivity.
    + right. apply in_map. exact D.
Qed.

(** what one evaluation says, given the set of terms *)
Definition says (T : option approx -> Prop) (a : approx) : Prop :=
  match a with
  | Bottom => forall x, T x -> x = Some Bottom
  | Proven t => (forall r, ~ T (Some (Unknown r))) /\
      exists l, l <> [] /\ (forall x, In x l <-> T (Some (Proven x))) /\ t = union l /\ t <> TUnknown
  | Unknown r => T (Some (Unknown r)) \/
      exists l, l <> [] /\ (forall x, In x l <-> T (Some (Proven x))) /\ union l = TUnknown
  end.
Lemma evaluate_says comp a so m : has_body eqs m -> (forall x, term (look comp a so) m x -> x <> None) ->
  exists v, evaluate eqs comp a so m = Some v /\ says (term (look comp a so) m) v.
Proof.
  intros H N. unfold evaluate.
  assert (ND : defs eqs m <> []).
  { destruct H as [e E]. apply in_defs in E. intros Z. rewrite Z in E. destruct E. }
  destruct (defs eqs m) as [|e ds] eqn:D; [congruence|]. rewrite <- D. clear ND.
  set (T := terms _ _). assert (N' : forall x, In x T -> x <> None) by (intros x X; apply N, in_terms, X).
  destruct (collect_spec T [] N') as [[r [E I]]|[E I]].
  - rewrite E. exists (Unknown r). split; [reflexivity|]. left. apply in_terms, I.
  - rewrite E. cbn [app]. assert (PX : forall x, In x (flat_map prov T) <-> term (look comp a so) m (Some (Proven x))).
    { intros x. rewrite in_prov. apply in_terms. }
    destruct (flat_map prov T) as [|t l] eqn:P.
    + exists Bottom. split; [reflexivity|]. intros x X. pose proof (N x X) as NX.
      destruct x as [[|t|r]|]; [reflexivity| | |congruence].
      * exfalso. apply PX in X. destruct X.
      * exfalso. apply (I r). apply in_terms, X.
    + destruct (is_unknown (union (t :: l))) eqn:U.
      * eexists. split; [reflexivity|]. right. exists (t :: l). split; [discriminate|]. split; [exact PX|].
        destruct (union (t :: l)); cbn in U; try discriminate; reflexivity.
      * eexists. split; [reflexivity|]. split.
        { intros r X. apply (I r). apply in_terms, X. }
        exists (t :: l). split; [discriminate|]. split; [exact PX|]. split; [reflexivity|].
        intros Z. rewrite Z in U. discriminate.
Qed.

(** two evaluations agree on the kind of answer and on the type *)
Definition sim (a b : approx) : Prop :=
  match a, b with Bottom, Bottom => True | Proven s, Proven t => s = t | Unknown _, Unknown _ => True | _, _ => False end.
Lemma says_sim (T T' : option approx -> Prop) a b :
  (forall x, T (Some (Proven x)) <-> T' (Some (Proven x))) ->
  ((exists r, T (Some (Unknown r))) <-> (exists r, T' (Some (Unknown r)))) ->
  ((exists x, T x) /\ exists x, T' x) ->
  says T a -> says T' b -> sim a b.
Proof.
  intros P U [[x0 X0] [y0 Y0]] A B. destruct a as [|t|r], b as [|t'|r']; cbn in *; auto.
  - destruct B as [_ [l [N [L _]]]]. destruct l as [|y l]; [congruence|].
    assert (Y : T (Some (Proven y))) by (apply P, L; left; reflexivity). apply A in Y. discriminate.
  - destruct B as [B|[l [N [L _]]]].
    + destruct (proj2 U (ex_intro _ r' B)) as [r R]. apply A in R. discriminate.
    + destruct l as [|y l]; [congruence|]. assert (Y : T (Some (Proven y))) by (apply P, L; left; reflexivity). apply A in Y. discriminate.
  - destruct A as [_ [l [N [L _]]]]. destruct l as [|y l]; [congruence|].
    assert (Y : T' (Some (Proven y))) by (apply P, L; left; reflexivity). apply B in Y. discriminate.
  - destruct A as [_ [l [_ [L [-> _]]]]], B as [_ [k [_ [K [-> _]]]]]. apply union_ext, flatten_ext.
    intros x. rewrite L, K. apply P.
  - destruct A as [A [l [_ [L [-> NU]]]]], B as [B|[k [_ [K UK]]]].
    + destruct (proj2 U (ex_intro _ r' B)) as [r R]. exact (A r R).
    + apply NU. rewrite <- UK. apply union_ext, flatten_ext. intros x. rewrite L, K. apply P.
  - destruct A as [A|[l [N [L _]]]].
    + destruct (proj1 U (ex_intro _ r A)) as [r' R]. apply B in R. discriminate.
    + destruct l as [|y l]; [congruence|]. assert (Y : T' (Some (Proven y))) by (apply P, L; left; reflexivity). apply B in Y. discriminate.
  - destruct B as [B [l [_ [L [-> NU]]]]], A as [A|[k [_ [K UK]]]].
    + destruct (proj1 U (ex_intro _ r A)) as [r' R]. exact (B r' R).
    + apply NU. rewrite <- UK. apply union_ext, flatten_ext. intros x. rewrite L, K. symmetry. apply P.
Qed.
End Eval.

(** * Passes *)
Lemma approx_eqb_eq a b : approx_eqb a b = true <-> a = b.
Proof.
  destruct a, b; cbn; split; try discriminate; try congruence; intros H.
  - apply eqb_eq in H. congruence.
  - injection H as <-. apply eqb_refl.
  - apply Nat.eqb_eq in H. congruence.
  - injection H as <-. apply Nat.eqb_refl.
Qed.
Lemma same_eq a : forall b, same a b = true <-> a = b.
Proof.
  induction a as [|[m x] a IH]; intros [|[n y] b]; cbn; split; try discriminate; auto.
  - intros H. apply andb_prop in H as [H H3]. apply andb_prop in H as [H1 H2].
    apply Nat.eqb_eq in H1. apply approx_eqb_eq in H2. apply IH in H3. congruence.
  - intros H. injection H as <- <- <-. rewrite Nat.eqb_refl, (proj2 (approx_eqb_eq x x) eq_refl), (proj2 (IH a) eq_refl). reflexivity.
Qed.
Lemma pass_some ev comp : (forall m, In m comp -> exists a, ev m = Some a) ->
  exists l, pass ev comp = Some l /\ map fst l = comp /\ (NoDup comp -> forall m, In m comp -> get l m = ev m).
Proof.
  induction comp as [|m r IH]; intros H; cbn.
  - exists []. repeat split; auto. intros _ m [].
  - destruct (H m (or_introl eq_refl)) as [a A]. destruct IH as [l [L1 [L2 L3]]]; [intros; apply H; right; assumption|].
    rewrite A, L1. exists ((m, a) :: l). cbn. split; [reflexivity|]. split; [congruence|].
    intros N k K. inversion N; subst. destruct (k =? m) eqn:E; [apply Nat.eqb_eq in E; congruence|].
    apply Nat.eqb_neq in E. destruct K as [K|K]; [congruence|]. auto.
Qed.
Lemma get_keys {A} (l : list (nat * A)) m : (exists v, get l m = Some v) <-> In m (map fst l).
Proof. rewrite get_in. reflexivity. Qed.

(** * Unions and Unknown members *)
Lemma existsb_ext_in {A} (f h : A -> bool) l : (forall x, In x l -> f x = h x) -> existsb f l = existsb h l.
Proof.
  induction l as [|a l IH]; intros H; [reflexivity|]. cbn. rewrite (H a) by (left; reflexivity). f_equal.
  apply IH. intros; apply H; right; assumption.
Qed.
Lemma umu_nested : forall t, union_members_contain_unknown t = is_unknown t || nested_union_contains_unknown t.
Proof.
  apply ty_ind'; try reflexivity. intros l F. cbn. apply existsb_ext_in. intros x X.
  rewrite Forall_forall in F. rewrite (F x X). destruct (is_unknown x); reflexivity.
Qed.
Lemma umu_member t x : union_members_contain_unknown t = false -> In x (members t) -> union_members_contain_unknown x = false.
Proof.
  destruct t; cbn [members]; intros H I; try (destruct I as [<-|[]]; exact H).
  cbn in H. rewrite <- not_true_iff_false in *. intros E. apply H. apply existsb_exists. exists x. rewrite E. split; [exact I|].
  apply orb_true_r.
Qed.
Lemma in_flatten_members l x : In x (flatten l) <-> exists t, In t l /\ In x (members t).
Proof.
  rewrite in_flatten. split; intros [t [A B]]; exists t; (split; [exact A|]); destruct t; cbn in *; intuition.
Qed.
Lemma umu_union l : (forall x, In x l -> x = TUnknown \/ union_members_contain_unknown x = false) -> union l <> TUnknown ->
  union_members_contain_unknown (union l) = false.
Proof.
  intros H N.
  assert (NU : ~ In TUnknown l).
  { intros I. apply N. apply union_eq, UC_unknown. apply in_flatten_members. exists TUnknown. split; [exact I|left; reflexivity]. }
  assert (M : forall x, In x (flatten l) -> union_members_contain_unknown x = false).
  { intros x X. apply in_flatten_members in X as [t [T1 T2]]. destruct (H t T1) as [->|U]; [contradiction|]. eapply umu_member; eauto. }
  destruct (union_cases l); try congruence.
  - apply M. apply in_canon. rewrite H1. left. reflexivity.
  - cbn. rewrite <- not_true_iff_false. intros E. apply existsb_exists in E as [x [X1 X2]].
    assert (X : In x (flatten l)) by (apply in_canon; rewrite H1; exact X1).
    apply M in X. rewrite X, orb_false_r in X2. destruct x; discriminate.
Qed.
Lemma union_members l : Forall flat l -> union l <> TUnknown -> forall x, In x (members (union l)) <-> exists t, In t l /\ In x (members t).
Proof.
  intros F N x. rewrite <- in_flatten_members.
  assert (NE : flatten l <> []).
  { intros E. apply N. apply union_eq, UC_empty, E. }
  rewrite <- (flatten_union l F NE N x). rewrite in_flatten_members. split.
  - intros X. exists (union l). split; [left; reflexivity|exact X].
  - intros [t [[<-|[]] X]]. exact X.
Qed.

(** * One component *)
Definition pure (a : approx) (recursive : bool) : outcome :=
  match a with
  | Proven t => OProven t
  | Bottom => OUnknown (if recursive then unproven_recursive_cycle else unresolved_method_return)
  | Unknown r => OUnknown (if recursive then unproven_recursive_cycle else r)
  end.

Lemma iterate_spec (J : list (nat * approx) -> Prop) ev comp :
  (forall a, J a -> exists b, pass (ev a) comp = Some b /\ J b) ->
  forall n a, J a -> exists conv b k, iterate n ev comp a = Some (conv, b, k) /\ J b /\
    (conv = true -> pass (ev b) comp = Some b).
Proof.
  intros H. induction n as [|n IH]; intros a A; cbn [iterate].
  - exists false, a, 0. split; [reflexivity|]. split; [exact A|discriminate].
  - destruct (H a A) as [b [B1 B2]]. rewrite B1. destruct (same b a) eqn:E.
    + apply same_eq in E. subst b. exists true, a, 1. auto.
    + destruct (IH b B2) as [conv [r [k [R1 [R2 R3]]]]]. rewrite R1. exists conv, r, (S k). auto.
Qed.
Lemma publish_spec (conv : bool) a (f : nat -> outcome) comp : forall so,
  (forall m, In m comp -> (if conv then match get a m with Some x => into_outcome x true | None => None end
     else Some (OUnknown unproven_recursive_cycle)) = Some (f m)) ->
  exists so', publish conv a comp so = Some so' /\ forall m, get so' m = if mem m comp then Some (f m) else get so m.
Proof.
  induction comp as [|k r IH]; intros so H; cbn [publish].
  - exists so. split; reflexivity.
  - rewrite (H k (or_introl eq_refl)). destruct (IH (put k (f k) so)) as [so' [E G]]; [intros; apply H; right; assumption|].
    exists so'. split; [exact E|]. intros m. rewrite G. cbn [mem existsb]. unfold mem. destruct (existsb (Nat.eqb m) r); [rewrite orb_true_r; reflexivity|].
    rewrite orb_false_r, get_put. destruct (m =? k) eqn:Q; [apply Nat.eqb_eq in Q; subst|]; reflexivity.
Qed.

Section Component.
Variable eqs : list equation.
Notation g := (graph_of eqs).
Variables (before : list nat) (c : list nat) (so : list (nat * outcome)).
Hypothesis US : usable eqs.
Hypothesis NE : c <> [].
Hypothesis ND : NoDup c.
Hypothesis BODY : forall m, In m c -> has_body eqs m.
Hypothesis SCC : forall x, In x c -> forall y, In y c <-> reach g x y /\ reach g y x.
Hypothesis OUT : forall x y, In x c -> edge g x y -> In y c \/ In y before.
Hypothesis DCL : forall x y, In x before -> edge g x y -> In y before.
Hypothesis DISJ : forall x, In x c -> In x before -> False.
Hypothesis DOM : forall m, (exists o, get so m = Some o) <-> In m before.

(** any property that passes along the edges inside the component holds everywhere or nowhere *)
Lemma component_path (Q : nat -> Prop) : (forall x y, In x c -> In y c -> edge g x y -> Q x -> Q y) ->
  forall x y, In x c -> In y c -> Q x -> Q y.
Proof.
  intros H x y X Y QX. destruct (proj1 (SCC x X y) Y) as [R _].
  assert (P : (In y c /\ Q y) \/ In y before).
  { refine (reach_closed g (fun z => (In z c /\ Q z) \/ In z before) _ x y R _); [|left; auto].
    intros a b [[A QA]|A] E; [|right; eauto]. destruct (OUT a b A E) as [B|B]; [left|right; exact B]. split; [exact B|]. eauto. }
  destruct P as [[_ P]|P]; [exact P|]. exfalso. eauto.
Qed.
(** in a recursive component everybody depends on somebody inside *)
Lemma recursive_dep : is_recursive g c = true -> forall m, In m c -> exists d, In d c /\ edge g m d.
Proof.
  intros R m M. unfold is_recursive in R.
  assert (O : forall m', In m' c -> m' <> m -> exists d, In d c /\ edge g m d).
  { intros m' M' N. destruct (proj1 (SCC m M m') M') as [R1 R2]. inversion R1 as [|a b c' E R3]; subst; [congruence|].
    exists b. split; [|exact E]. apply (SCC m M). split; [apply reach_edge, E|]. eapply reach_trans; eauto. }
  apply orb_prop in R as [R|R].
  - apply Nat.ltb_lt in R. destruct c as [|x [|y r]]; cbn in R; try lia.
    destruct (Nat.eq_dec x m) as [->|N].
    + apply (O y); [right; left; reflexivity|]. inversion ND as [|? ? N1 N2]; subst. intros ->. apply N1. left. reflexivity.
    + apply (O x); [left; reflexivity|exact N].
  - apply existsb_exists in R as [x [X E]]. destruct (get g x) as [ds|] eqn:D; [|discriminate]. apply mem_in in E.
    destruct (Nat.eq_dec x m) as [->|N]; [|exact (O x X N)]. exists m. split; [exact M|]. exists ds. auto.
Qed.

Definition minimal (m : nat) (t : ty) : Prop :=
  flat t /\ forall x, In x (members t) -> exists m' b, calls eqs m m' /\ returns_type eqs m' b /\ In x (members b).
Definition good_type (m : nat) (t : ty) : Prop :=
  union_members_contain_unknown t = false /\ (flat_bases eqs -> minimal m t).
Hypothesis SGOOD : forall m t, get so m = Some (OProven t) -> good_type m t.
Definition J (a : list (nat * approx)) : Prop :=
  map fst a = c /\ forall m t, get a m = Some (Proven t) -> good_type m t.

Lemma look_some a d : map fst a = c -> look c a so d <> None.
Proof.
  intros A. unfold look. destruct (mem d c) eqn:M.
  - apply mem_in in M. rewrite <- A in M. apply get_in in M as [v V]. congruence.
  - destruct (get so d) as [[t|r]|]; discriminate.
Qed.
Lemma look_in a d : In d c -> look c a so d = get a d.
Proof. intros I. unfold look. rewrite (proj2 (mem_in d c) I). reflexivity. Qed.
Lemma not_mem d : ~ In d c -> mem d c = false.
Proof. intros N. destruct (mem d c) eqn:M; [apply mem_in in M; contradiction|reflexivity]. Qed.
Lemma look_out a d : ~ In d c -> look c a so d = Some (match get so d with Some (OProven t) => Proven t | Some (OUnknown r) => Unknown r | None => Unknown unresolved_method_return end).
Proof. intros N. unfold look. rewrite not_mem by exact N. destruct (get so d) as [[t|r]|]; reflexivity. Qed.
Lemma base_some a m x : map fst a = c -> term eqs (look c a so) m x -> x <> None.
Proof. intros A [[e [_ [_ ->]]]|[d [_ ->]]]; [discriminate|apply look_some, A]. Qed.

(** evaluation keeps the good types *)
Lemma says_good lk m v : (forall d t, lk d = Some (Proven t) -> good_type d t) -> says (term eqs lk m) v ->
  forall t, v = Proven t -> good_type m t.
Proof.
  intros L S1 t ->. destruct S1 as [_ [l [_ [E [-> N]]]]].
  assert (X : forall x, In x l -> returns_type eqs m x \/ exists d, returns_call eqs m d /\ good_type d x).
  { intros x X. apply E in X as [[e [E1 [E2 E3]]]|[d [D1 D2]]].
    - left. exists e. repeat split; auto. congruence.
    - right. exists d. split; [exact D1|]. apply L. congruence. }
  split.
  - apply umu_union; [|exact N]. intros x I. destruct (X x I) as [B|[d [_ D]]]; [apply (US m), B|right; apply D].
  - intros F. assert (FL : Forall flat l).
    { apply Forall_forall. intros x I. destruct (X x I) as [B|[d [_ D]]]; [apply (F m), B|apply D, F]. }
    split; [apply canonical_flat, union_canonical, FL|]. intros x I. apply (union_members l FL N) in I as [t [T1 T2]].
    destruct (X t T1) as [B|[d [D1 D2]]].
    + exists m, t. split; [constructor|]. auto.
    + destruct (D2) as [_ D3]. destruct (D3 F) as [_ D4]. destruct (D4 x T2) as [m' [b [Y1 Y2]]]. exists m', b.
      split; [|exact Y2]. econstructor; eauto.
Qed.
Lemma look_good a : J a -> forall d t, look c a so d = Some (Proven t) -> good_type d t.
Proof.
  intros [A G] d t. unfold look. destruct (mem d c); [apply G|].
  destruct (get so d) as [[t'|r]|] eqn:E; try discriminate. intros Q. injection Q as <-. apply SGOOD, E.
Qed.
Lemma pass_J a : J a -> exists b, pass (evaluate eqs c a so) c = Some b /\ J b /\
  (forall m, In m c -> get b m = evaluate eqs c a so m) /\
  (forall m, In m c -> exists v, get b m = Some v /\ says (term eqs (look c a so) m) v).
Proof.
  intros JA. pose proof JA as [A G].
  assert (EV : forall m, In m c -> exists v, evaluate eqs c a so m = Some v /\ says (term eqs (look c a so) m) v).
  { intros m M. apply evaluate_says; [apply BODY, M|]. intros x. apply base_some, A. }
  destruct (pass_some (evaluate eqs c a so) c) as [b [B1 [B2 B3]]].
  { intros m M. destruct (EV m M) as [v [V _]]. eauto. }
  exists b. split; [exact B1|]. specialize (B3 ND).
  assert (BS : forall m, In m c -> exists v, get b m = Some v /\ says (term eqs (look c a so) m) v).
  { intros m M. destruct (EV m M) as [v [V1 V2]]. exists v. split; [rewrite B3 by exact M; exact V1|exact V2]. }
  split; [|split; [exact B3|exact BS]]. split; [exact B2|]. intros m t Q.
  assert (M : In m c) by (rewrite <- B2; apply get_in; eauto).
  destruct (BS m M) as [v [V1 V2]]. apply (says_good (look c a so) m v); [apply look_good, JA|exact V2|congruence].
Qed.
Lemma J_start : J (map (fun m => (m, Bottom)) c).
Proof.
  split; [rewrite map_map; apply map_id|]. intros m t. rewrite get_map. destruct (mem m c); discriminate.
Qed.

(** the published map after this component *)
Definition solution (so' : list (nat * outcome)) (m : nat) (t : ty) : Prop :=
  ~ returns_unproven eqs m /\
  (forall d, returns_call eqs m d -> exists td, get so' d = Some (OProven td)) /\
  exists l, l <> [] /\ t = union l /\
    forall x, In x l <-> returns_type eqs m x \/ exists d, returns_call eqs m d /\ get so' d = Some (OProven x).

Lemma into_pure a r : (forall t, a = Proven t -> union_members_contain_unknown t = false) -> into_outcome a r = Some (pure a r).
Proof. intros H. destruct a; cbn; auto. unfold outcome_proven. rewrite (H t eq_refl). reflexivity. Qed.

Lemma solution_from lk so' m t :
  (forall d, returns_call eqs m d -> (forall x, get so' d = Some (OProven x) <-> lk d = Some (Proven x))) ->
  (forall d, returns_call eqs m d -> lk d = Some Bottom -> False) ->
  (forall d, lk d <> None) ->
  says (term eqs lk m) (Proven t) -> solution so' m t.
Proof.
  intros L NB NN [U [l [N [E [T _]]]]]. split; [|split].
  - intros [e [r [E1 [E2 E3]]]]. apply (U r). left. exists e. rewrite E3. auto.
  - intros d D. destruct (lk d) as [[|td|r]|] eqn:K.
    + exfalso. eauto.
    + exists td. apply L; auto.
    + exfalso. apply (U r). right. exists d. auto.
    + exfalso. eapply NN, K.
  - exists l. split; [exact N|]. split; [exact T|]. intros x. rewrite E. split.
    + intros [[e [E1 [E2 E3]]]|[d [D1 D2]]].
      * left. exists e. repeat split; auto. congruence.
      * right. exists d. split; [exact D1|]. apply L; auto.
    + intros [[e [E1 [E2 E3]]]|[d [D1 D2]]].
      * left. exists e. rewrite E3. auto.
      * right. exists d. split; [exact D1|]. symmetry. apply L; auto.
Qed.

Lemma component_recursive n : is_recursive g c = true -> exists conv a k,
  iterate n (fun a => evaluate eqs c a so) c (map (fun m => (m, Bottom)) c) = Some (conv, a, k) /\ J a /\
  exists so', publish conv a c so = Some so' /\
  (forall m, get so' m = if mem m c then Some (if conv then match get a m with Some x => pure x true | None => OUnknown 0 end
                                             else OUnknown unproven_recursive_cycle) else get so m) /\
  (conv = true -> forall m, In m c -> exists v, get a m = Some v /\ says (term eqs (look c a so) m) v) /\
  (forall m t, In m c -> get so' m = Some (OProven t) -> good_type m t /\ solution so' m t).
Proof.
  intros R. destruct (iterate_spec J (fun a => evaluate eqs c a so) c) with (n := n) (a := map (fun m => (m, Bottom)) c)
    as [conv [a [k [I1 [I2 I3]]]]].
  { intros a A. destruct (pass_J a A) as [b [B1 [B2 _]]]. eauto. }
  { apply J_start. }
  exists conv, a, k. split; [exact I1|]. split; [exact I2|].
  set (f := fun m => if conv then match get a m with Some x => pure x true | None => OUnknown 0 end else OUnknown unproven_recursive_cycle).
  assert (DA : forall m, In m c -> exists v, get a m = Some v).
  { intros m M. apply get_in. destruct I2 as [-> _]. exact M. }
  destruct (publish_spec conv a f c so) as [so' [P1 P2]].
  { intros m M. unfold f. destruct conv; [|reflexivity]. destruct (DA m M) as [v V]. rewrite V. apply into_pure.
    intros t ->. destruct I2 as [_ G]. apply (G m), V. }
  exists so'. split; [exact P1|]. split; [exact P2|].
  assert (FIX : conv = true -> forall m, In m c -> exists v, get a m = Some v /\ says (term eqs (look c a so) m) v).
  { intros CV m M. destruct (pass_J a I2) as [b [B1 [B2 [_ B4]]]]. assert (Some b = Some a) by (rewrite <- B1; auto).
    assert (b = a) by congruence. subst b. apply B4, M. }
  split; [exact FIX|]. intros m t M E. rewrite P2, (proj2 (mem_in m c) M) in E. unfold f in E. destruct conv; [|discriminate].
  destruct (FIX eq_refl m M) as [v [V1 V2]]. rewrite V1 in E. destruct v as [|t'|r]; cbn in E; try discriminate.
  assert (t' = t) by congruence. subst t'. split; [destruct I2 as [_ G]; apply (G m), V1|].
  apply (solution_from (look c a so)); auto.
  - intros d D x. rewrite P2. destruct (mem d c) eqn:MD.
    + apply mem_in in MD. rewrite look_in by exact MD. unfold f. destruct (DA d MD) as [v V]. rewrite V.
      destruct v; cbn; split; try discriminate; congruence.
    + assert (ND' : ~ In d c) by (intros H; apply mem_in in H; congruence). rewrite look_out by exact ND'.
      destruct (get so d) as [[t''|r]|]; split; try discriminate; congruence.
  - intros d D B. destruct (in_dec Nat.eq_dec d c) as [DC|DC].
    + rewrite look_in in B by exact DC.
      assert (Q : get a m = Some Bottom).
      { refine (component_path (fun x => get a x = Some Bottom) _ d m DC M B). intros x y X Y Exy QX.
        destruct (FIX eq_refl x X) as [v [W1 W2]]. assert (v = Bottom) by congruence. subst v.
        rewrite <- (look_in a y Y). apply W2. right. exists y. split; [|reflexivity]. apply edge_graph in Exy. apply Exy. }
      congruence.
    + rewrite look_out in B by exact DC. destruct (get so d) as [[?|?]|]; discriminate.
  - intros d. apply look_some, I2.
Qed.

Lemma component_simple : is_recursive g c = false -> exists m v, c = [m] /\ evaluate eqs c [] so m = Some v /\
  into_outcome v false = Some (pure v false) /\ says (term eqs (look c [] so) m) v /\
  (forall d, returns_call eqs m d -> d <> m) /\
  forall t, v = Proven t -> good_type m t /\ solution (put m (pure v false) so) m t.
Proof.
  intros R. unfold is_recursive in R. apply orb_false_iff in R as [R1 R2]. apply Nat.ltb_ge in R1.
  destruct c as [|m [|? ?]] eqn:EC; [congruence| |cbn in R1; lia]. rewrite <- EC in *.
  assert (M : In m c) by (rewrite EC; left; reflexivity).
  assert (SELF : forall d, returns_call eqs m d -> d <> m).
  { intros d D ->. assert (E : edge g m m) by (apply edge_graph; split; [exact D|apply BODY, M]).
    destruct E as [ds [E1 E2]]. rewrite EC in R2. cbn in R2. rewrite E1, orb_false_r in R2. apply mem_in in E2. congruence. }
  assert (OUTS : forall d, returns_call eqs m d -> ~ In d c).
  { intros d D I. rewrite EC in I. destruct I as [<-|[]]. exact (SELF m D eq_refl). }
  assert (LN : forall x, term eqs (look c [] so) m x -> x <> None).
  { intros x [[e [_ [_ ->]]]|[d [D ->]]]; [discriminate|]. rewrite look_out by auto. discriminate. }
  destruct (evaluate_says eqs c [] so m (BODY m M) LN) as [v [V1 V2]].
  exists m, v. split; [exact EC|]. split; [exact V1|].
  set (lk := fun d => if Nat.eq_dec d m then Some (Unknown 0) else look c [] so d).
  assert (T : forall x, term eqs lk m x <-> term eqs (look c [] so) m x).
  { intros x. unfold term, lk. split; (intros [H|[d [D ->]]]; [left; exact H|right; exists d; split; [exact D|]]);
      (destruct (Nat.eq_dec d m) as [Z|Z]; [exfalso; exact (SELF d D Z)|reflexivity]). }
  assert (S2 : says (term eqs lk m) v).
  { destruct v; cbn in *.
    - intros x X. apply V2, T, X.
    - destruct V2 as [W1 [l [W2 [W3 W4]]]]. split; [intros r X; apply T in X; exact (W1 r X)|]. exists l. split; [exact W2|].
      split; [|exact W4]. intros x. rewrite T. apply W3.
    - destruct V2 as [W|[l [W2 [W3 W4]]]]; [left; apply T, W|right]. exists l. split; [exact W2|]. split; [|exact W4]. intros x. rewrite T. apply W3. }
  assert (G : forall t, v = Proven t -> good_type m t).
  { apply (says_good lk m v); [|exact S2]. intros d t. unfold lk. destruct (Nat.eq_dec d m) as [Z|Z]; [discriminate|].
    intros Q. rewrite look_out in Q by (rewrite EC; cbn; intuition). destruct (get so d) as [[t'|r]|] eqn:E; try discriminate.
    apply SGOOD. congruence. }
  split. { apply into_pure. intros t Q. apply (G t Q). }
  split; [exact V2|]. split; [exact SELF|]. intros t Q. split; [auto|]. subst v.
  apply (solution_from lk); auto.
  - intros d D x. rewrite get_put. destruct (d =? m) eqn:Z; [apply Nat.eqb_eq in Z; exfalso; exact (SELF d D Z)|].
    unfold lk. destruct (Nat.eq_dec d m) as [Z'|Z']; [exfalso; exact (SELF d D Z')|]. rewrite look_out by auto.
    destruct (get so d) as [[t'|r]|]; split; try discriminate; congruence.
  - intros d D. unfold lk. destruct (Nat.eq_dec d m); [discriminate|]. rewrite look_out by auto.
    destruct (get so d) as [[t'|r]|]; discriminate.
  - intros d. unfold lk. destruct (Nat.eq_dec d m) as [Z|Z]; [discriminate|]. rewrite look_out by (rewrite EC; cbn; intuition). discriminate.
Qed.
End Component.
