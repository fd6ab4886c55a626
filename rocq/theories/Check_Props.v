(** C101 The report of the check command is complete, in order and without repetition. *)
From Coq Require Import List Arith Bool Lia Sorted Permutation.
From Verif Require Import Sort_Lib Check_Model Check_Spec.
Import ListNotations.

(** ** Orders *)
Definition lawful {A} (cmp : A -> A -> comparison) : Prop :=
  (forall x y, cmp x y = Eq <-> x = y) /\ (forall x y, cmp y x = CompOpp (cmp x y)) /\
  (forall x y z, cmp x y = Lt -> cmp y z = Lt -> cmp x z = Lt).
Lemma nat_lawful : lawful Nat.compare.
Proof.
  split; [exact Nat.compare_eq_iff|]. split; [intros x y; apply Nat.compare_antisym|].
  intros x y z. rewrite !Nat.compare_lt_iff. lia.
Qed.
Lemma list_lawful {A} (f : A -> A -> comparison) : lawful f -> lawful (list_cmp f).
Proof.
  intros (E & O & T). split; [|split].
  - induction x as [|x a IH]; intros [|y b]; cbn; try (split; [discriminate|discriminate]); [split; auto|].
    unfold then_cmp. destruct (f x y) eqn:F.
    + apply E in F as ->. rewrite IH. split; [now intros ->|now intros [= ->]].
    + split; [discriminate|]. intros [= <- _]. now rewrite (proj2 (E x x) eq_refl) in F.
    + split; [discriminate|]. intros [= <- _]. now rewrite (proj2 (E x x) eq_refl) in F.
  - induction x as [|x a IH]; intros [|y b]; cbn; auto. rewrite (O x y). destruct (f x y); cbn; auto.
  - induction x as [|x a IH]; intros [|y b] [|z c]; cbn; auto; try discriminate. unfold then_cmp.
    destruct (f x y) eqn:F; try discriminate.
    + apply E in F as ->. destruct (f y z); auto; try discriminate. apply IH.
    + intros _. destruct (f y z) eqn:G; try discriminate.
      * apply E in G as ->. now rewrite F.
      * now rewrite (T _ _ _ F G).
Qed.
Lemma option_lawful {A} (f : A -> A -> comparison) : lawful f -> lawful (option_cmp f).
Proof.
  intros (E & O & T). split; [|split].
  - intros [x|] [y|]; cbn; try (split; [discriminate|discriminate]); [|split; auto]. rewrite E. split; congruence.
  - intros [x|] [y|]; cbn; auto.
  - intros [x|] [y|] [z|]; cbn; auto; try discriminate. apply T.
Qed.
Lemma pair_lawful {A B} (f : A -> A -> comparison) (g : B -> B -> comparison) : lawful f -> lawful g -> lawful (pair_cmp f g).
Proof.
  intros (E & O & T) (E' & O' & T'). unfold pair_cmp. split; [|split].
  - intros [a b] [c d]. cbn. unfold then_cmp. destruct (f a c) eqn:F.
    + apply E in F as ->. rewrite E'. split; [now intros ->|now intros [= ->]].
    + split; [discriminate|]. intros [= <- _]. now rewrite (proj2 (E a a) eq_refl) in F.
    + split; [discriminate|]. intros [= <- _]. now rewrite (proj2 (E a a) eq_refl) in F.
  - intros [a b] [c d]. cbn. rewrite (O a c), (O' b d). destruct (f a c); reflexivity.
  - intros [a b] [c d] [e h]. cbn. unfold then_cmp. destruct (f a c) eqn:F; try discriminate.
    + apply E in F as ->. destruct (f c e); auto. apply T'.
    + intros _. destruct (f c e) eqn:G; try discriminate; [apply E in G as ->; now rewrite F|now rewrite (T _ _ _ F G)].
Qed.
Lemma map_lawful {A B} (k : A -> B) (f : B -> B -> comparison) : (forall x y, k x = k y -> x = y) -> lawful f -> lawful (fun x y => f (k x) (k y)).
Proof. intros K (E & O & T). split; [|split]; auto. intros x y. rewrite E. split; [apply K|now intros ->]. intros x y z. apply T. Qed.
Lemma path_lawful : lawful path_cmp.
Proof.
  unfold path_cmp. apply (map_lawful path_key (pair_cmp Nat.compare (list_cmp (list_cmp Nat.compare)))).
  - intros [a l] [b k]. unfold path_key. cbn. destruct a, b; intros [= H]; congruence.
  - apply pair_lawful; [apply nat_lawful|apply list_lawful, list_lawful, nat_lawful].
Qed.
Definition key (d : diagnostic) := (d_path d, (d_start d, (d_end d, (severity_rank (d_severity d), (d_code d, d_message d))))).
Lemma diagnostic_key a b : diagnostic_cmp a b =
  pair_cmp path_cmp (pair_cmp position_cmp (pair_cmp position_cmp (pair_cmp Nat.compare (pair_cmp (option_cmp (list_cmp Nat.compare)) (list_cmp Nat.compare))))) (key a) (key b).
Proof. reflexivity. Qed.
Lemma diagnostic_lawful : lawful diagnostic_cmp.
Proof.
  assert (L : lawful (list_cmp Nat.compare)) by apply list_lawful, nat_lawful.
  assert (P : lawful position_cmp) by (apply pair_lawful; apply nat_lawful).
  apply (map_lawful key (pair_cmp path_cmp (pair_cmp position_cmp (pair_cmp position_cmp (pair_cmp Nat.compare (pair_cmp (option_cmp (list_cmp Nat.compare)) (list_cmp Nat.compare))))))).
  - intros [p s e v c m] [p' s' e' v' c' m']. unfold key. cbn. intros [= -> -> -> V -> ->]. f_equal. destruct v, v'; cbn in V; congruence.
  - repeat apply pair_lawful; auto using nat_lawful, path_lawful, option_lawful.
Qed.

(** ** Sorting and dropping repetitions *)
Section Canonical.
  Context {A : Type} (cmp : A -> A -> comparison) (law : lawful cmp).
  Let leb := leb_of cmp.
  Let eqb := eqb_of cmp.
  Let lt (a b : A) : Prop := cmp a b = Lt.
  Lemma eqb_iff a b : eqb a b = true <-> a = b.
  Proof. destruct law as (E & _). unfold eqb, eqb_of. rewrite <- E. destruct (cmp a b); split; auto; discriminate. Qed.
  Lemma leb_iff a b : leb a b = true <-> lt a b \/ a = b.
  Proof. destruct law as (E & _). unfold leb, leb_of, lt. rewrite <- E. destruct (cmp a b); split; auto; try discriminate. intros [H|H]; discriminate. Qed.
  Lemma leb_total a b : leb a b = true \/ leb b a = true.
  Proof. destruct law as (_ & O & _). unfold leb, leb_of. rewrite (O a b). destruct (cmp a b); cbn; auto. Qed.
  Lemma lt_trans_ a b c : lt a b -> lt b c -> lt a c.
  Proof. destruct law as (_ & _ & T). apply T. Qed.
  Lemma leb_trans a b c : leb a b = true -> leb b c = true -> leb a c = true.
  Proof. rewrite !leb_iff. intros [H| ->] [K| ->]; auto. left. exact (lt_trans_ _ _ _ H K). Qed.
  Lemma lt_irrefl a : ~ lt a a.
  Proof. destruct law as (E & _). unfold lt. rewrite (proj2 (E a a) eq_refl). discriminate. Qed.
  Lemma dedup_from_in x l y : In y (dedup_from eqb x l) -> In y l.
  Proof.
    revert x. induction l as [|z l IH]; intros x; cbn [dedup_from]; auto. destruct (eqb z x); cbn; intros H; [right; exact (IH _ H)|]. destruct H as [H|H]; auto. right. exact (IH _ H).
  Qed.
  Lemma dedup_from_keeps l : forall x y, In y l -> y = x \/ In y (dedup_from eqb x l).
  Proof.
    induction l as [|z l IH]; intros x y []; cbn [dedup_from].
    - subst. destruct (eqb y x) eqn:E; [left; now apply eqb_iff|right; now left].
    - destruct (eqb z x) eqn:E; [now apply IH|]. destruct (IH z y H) as [->|K]; right; [now left|now right].
  Qed.
  Lemma dedup_in l y : In y (dedup eqb l) <-> In y l.
  Proof.
    destruct l as [|x l]; cbn [dedup]; [tauto|]. cbn. split.
    - intros [H|H]; auto. right. exact (dedup_from_in _ _ _ H).
    - intros [H|H]; auto. destruct (dedup_from_keeps l x y H); auto.
  Qed.
  Lemma dedup_from_sorted l : forall x, StronglySorted (fun a b => leb a b = true) (x :: l) -> StronglySorted lt (x :: dedup_from eqb x l).
  Proof.
    induction l as [|z l IH]; intros x H; cbn [dedup_from]; [repeat constructor|].
    inversion H as [|? ? S1 F1]; subst. inversion F1 as [|? ? Xz Fx]; subst. destruct (eqb z x) eqn:E.
    - apply eqb_iff in E as ->. now apply IH.
    - specialize (IH z S1). constructor; [exact IH|]. assert (Lxz : lt x z).
      { apply leb_iff in Xz as [Xz| ->]; [exact Xz|]. rewrite (proj2 (eqb_iff z z) eq_refl) in E. discriminate. }
      constructor; [exact Lxz|]. inversion IH as [|? ? _ F]; subst. eapply Forall_impl; [|exact F]. intros y Hy. exact (lt_trans_ _ _ _ Lxz Hy).
  Qed.
  Definition canonical (l : list A) : list A := dedup eqb (sort leb l).
  Lemma canonical_in l y : In y (canonical l) <-> In y l.
  Proof. unfold canonical. rewrite dedup_in. apply sort_in. Qed.
  Lemma canonical_sorted l : StronglySorted lt (canonical l).
  Proof.
    unfold canonical. pose proof (sort_sorted leb leb_total leb_trans l) as S0. destruct (sort leb l) as [|x r]; [constructor|].
    cbn [dedup]. apply dedup_from_sorted. exact S0.
  Qed.
  Lemma strict_unique l : forall k, StronglySorted lt l -> StronglySorted lt k -> (forall x, In x l <-> In x k) -> l = k.
  Proof.
    induction l as [|x l IH]; intros [|y k] Hl Hk H; auto.
    - exfalso. apply (proj2 (H y)). now left.
    - exfalso. apply (proj1 (H x)). now left.
    - inversion Hl as [|? ? Sl Fl]; subst. inversion Hk as [|? ? Sk Fk]; subst. rewrite Forall_forall in Fl, Fk.
      assert (E : x = y).
      { destruct (proj1 (H x) (or_introl eq_refl)) as [E|X]; auto. destruct (proj2 (H y) (or_introl eq_refl)) as [E|Y]; auto.
        exfalso. exact (lt_irrefl x (lt_trans_ _ _ _ (Fl _ Y) (Fk _ X))). }
      subst y. f_equal. apply IH; auto. intros z. split; intros Z.
      + destruct (proj1 (H z) (or_intror Z)) as [<-|]; auto. exfalso. exact (lt_irrefl _ (Fl _ Z)).
      + destruct (proj2 (H z) (or_intror Z)) as [<-|]; auto. exfalso. exact (lt_irrefl _ (Fk _ Z)).
  Qed.
  Lemma canonical_same l k : (forall x, In x l <-> In x k) -> canonical l = canonical k.
  Proof. intros H. apply strict_unique; try apply canonical_sorted. intros x. rewrite !canonical_in. apply H. Qed.
  Lemma sorted_nodup l : StronglySorted lt l -> NoDup l.
  Proof. induction 1 as [|x l S0 IH F]; constructor; auto. intros X. rewrite Forall_forall in F. exact (lt_irrefl _ (F _ X)). Qed.
End Canonical.

(** ** The order, as specified *)
Lemma list_cmp_earlier {A} (f : A -> A -> comparison) (lt : A -> A -> Prop) : lawful f -> (forall x y, f x y = Lt -> lt x y) ->
  forall a b, list_cmp f a b = Lt -> earlier lt a b.
Proof.
  intros (E & _) H. induction a as [|x a IH]; intros [|y b]; cbn; try discriminate; [constructor|].
  unfold then_cmp. destruct (f x y) eqn:F; try discriminate; [apply E in F as ->; intros; apply earlier_tail; auto|intros _; apply earlier_head; auto].
Qed.
Lemma name_cmp_earlier a b : list_cmp Nat.compare a b = Lt -> name_earlier a b.
Proof. apply list_cmp_earlier; [apply nat_lawful|]. intros x y. apply Nat.compare_lt_iff. Qed.
Lemma position_cmp_before a b : position_cmp a b = Lt -> position_before a b.
Proof.
  unfold position_cmp, pair_cmp, then_cmp, position_before. destruct (Nat.compare_spec (fst a) (fst b)); try discriminate; auto.
  intros L. apply Nat.compare_lt_iff in L. auto.
Qed.
Lemma path_cmp_before a b : path_cmp a b = Lt -> file_before a b.
Proof.
  destruct a as [x a], b as [y b]. unfold path_cmp, pair_cmp, path_key, then_cmp, file_before. cbn.
  destruct x, y; cbn; try discriminate; auto; intros H; right; (split; [reflexivity|]); revert H; apply list_cmp_earlier; auto using list_lawful, nat_lawful, name_cmp_earlier.
Qed.
Lemma cmp_before a b : diagnostic_cmp a b = Lt -> reported_before a b.
Proof.
  pose proof path_lawful as (P & _). assert (Q : lawful position_cmp) by (apply pair_lawful; apply nat_lawful). destruct Q as (Q & _).
  pose proof (option_lawful _ (list_lawful _ nat_lawful)) as (C & _).
  unfold diagnostic_cmp. destruct (path_cmp (d_path a) (d_path b)) eqn:E1; cbn [then_cmp]; try discriminate.
  2:{ intros _. apply by_file. now apply path_cmp_before. }
  apply P in E1. destruct (position_cmp (d_start a) (d_start b)) eqn:E2; cbn [then_cmp]; try discriminate.
  2:{ intros _. apply by_start; auto. now apply position_cmp_before. }
  apply Q in E2. destruct (position_cmp (d_end a) (d_end b)) eqn:E3; cbn [then_cmp]; try discriminate.
  2:{ intros _. apply by_end; auto. now apply position_cmp_before. }
  apply Q in E3. destruct (Nat.compare_spec (severity_rank (d_severity a)) (severity_rank (d_severity b))) as [E4|E4|E4]; cbn [then_cmp]; try discriminate.
  2:{ intros _. apply by_severity; auto. destruct (d_severity a), (d_severity b); cbn in E4; try lia; cbn; auto 10. }
  assert (E5 : d_severity a = d_severity b) by (destruct (d_severity a), (d_severity b); cbn in E4; congruence).
  destruct (option_cmp (list_cmp Nat.compare) (d_code a) (d_code b)) eqn:E6; cbn [then_cmp]; try discriminate.
  2:{ intros _. apply by_code; auto. destruct (d_code a), (d_code b); cbn in E6; try discriminate; [right|left; split; congruence].
      eexists _, _. split; [reflexivity|]. split; [reflexivity|]. now apply name_cmp_earlier. }
  apply C in E6. intros H. apply by_message; auto. now apply name_cmp_earlier.
Qed.

(** ** The diagnostics of the report *)
Lemma normalize_canonical l : normalize l = canonical diagnostic_cmp l.
Proof. reflexivity. Qed.
Lemma path_eqb_iff a b : path_eqb a b = true <-> a = b.
Proof. unfold path_eqb. rewrite <- (proj1 path_lawful). destruct (path_cmp a b); split; auto; discriminate. Qed.
Lemma name_eqb_iff a : forall b, name_eqb a b = true <-> a = b.
Proof.
  induction a as [|x a IH]; intros [|y b]; cbn; try (split; [discriminate|discriminate]); [split; auto|].
  rewrite andb_true_iff, Nat.eqb_eq, IH. split; [now intros [-> ->]|now intros [= -> ->]].
Qed.
Lemma strip_names_iff p : forall l r, strip_names p l = Some r <-> l = p ++ r.
Proof.
  induction p as [|x p IH]; intros l r; cbn; [split; congruence|]. destruct l as [|y l]; [split; discriminate|].
  destruct (name_eqb x y) eqn:E.
  - apply name_eqb_iff in E as ->. rewrite IH. split; [now intros ->|now intros [= ->]].
  - split; [discriminate|]. intros [= -> _]. rewrite (proj2 (name_eqb_iff x x) eq_refl) in E. discriminate.
Qed.
Lemma strip_path_iff root p r : strip_path root p = Some r <-> absolute p = absolute root /\ absolute r = false /\ components p = components root ++ components r.
Proof.
  unfold strip_path. destruct (Bool.eqb (absolute root) (absolute p)) eqn:E.
  - apply Bool.eqb_prop in E. destruct (strip_names (components root) (components p)) as [x|] eqn:N.
    + apply strip_names_iff in N. split; [intros [= <-]; cbn; auto|]. intros (_ & A & H). rewrite N in H. apply app_inv_head in H. subst x. destruct r; cbn in *; congruence.
    + split; [discriminate|]. intros (_ & _ & H). apply strip_names_iff in H. congruence.
  - split; [discriminate|]. intros (H & _). rewrite H in E. rewrite Bool.eqb_reflx in E. discriminate.
Qed.
Lemma under_strip root p : under root p <-> exists r, strip_path root p = Some r.
Proof.
  unfold under. split.
  - intros (A & r & C). exists (mkPath false r). apply strip_path_iff. auto.
  - intros (r & H). apply strip_path_iff in H as (A & _ & C). eauto.
Qed.
Lemma shown_shows root p r d : shown root p r = d <-> shows root p r d.
Proof.
  assert (X : shows root p r (shown root p r)).
  { unfold shows, shown, report_path. cbn. split; [|split].
    + intros U. apply under_strip in U as (x & U). rewrite U. apply strip_path_iff in U. tauto.
    + intros U. destruct (strip_path root p) eqn:E; [|reflexivity]. exfalso. apply U, under_strip. eauto.
    + unfold one_based. rewrite !Nat.add_1_r. destruct (r_severity r); auto 10. }
  split; [now intros <-|]. intros Y. destruct X as (U & V & A1 & A2 & A3 & A4 & A5), Y as (U' & V' & B1 & B2 & B3 & B4 & B5).
  assert (P : d_path (shown root p r) = d_path d).
  { destruct (strip_path root p) eqn:E.
    - assert (W : under root p) by (apply under_strip; eauto). destruct (U W) as [C1 C2], (U' W) as [D1 D2]. rewrite C2 in D2. apply app_inv_head in D2.
      destruct (d_path (shown root p r)), (d_path d). cbn in *. congruence.
    - assert (W : ~ under root p) by (intros W; apply under_strip in W as (x & W); congruence). rewrite (V W), (V' W). reflexivity. }
  destruct (shown root p r), d. cbn in *. destruct (r_severity r); congruence.
Qed.
Lemma selected_iff p selected root : selected_source p selected root = true <-> chosen root selected p.
Proof.
  unfold selected_source, chosen. destruct selected; [apply path_eqb_iff|]. rewrite under_strip.
  destruct (strip_path root p); split; eauto; try discriminate. intros (x & H); discriminate.
Qed.
Lemma collected root selected ws d : In d (flat_map (collect root selected) ws) <-> exists p r, to_report root selected ws p r /\ shows root p r d.
Proof.
  rewrite in_flat_map. unfold collect. split.
  - intros (w & Hw & H). apply in_app_or in H as [H|H].
    + apply in_flat_map in H as (f & Hf & H). unfold syntax_of in H. destruct (checked root selected f) eqn:C; [|destruct H].
      unfold checked in C. destruct (f_kind f) eqn:K; try destruct H. apply in_map_iff in H as (r & E & Hr). apply selected_iff in C.
      exists (f_path f), r. split; [|now apply shown_shows]. exists w. split; [exact Hw|]. left. exists f. auto 10.
    + apply in_flat_map in H as (f & Hf & H). unfold domain_of in H. exists (at_file f), (said f). split.
      * exists w. split; [exact Hw|]. right. split; [destruct f; exact Hf|]. destruct selected as [s|]; auto.
        destruct (path_eqb (at_file f) s) eqn:E; [now apply path_eqb_iff|destruct H].
      * apply shown_shows. destruct selected as [s|]; [destruct (path_eqb (at_file f) s)|]; cbn in H; intuition.
  - intros (p & r & (w & Hw & H) & S0). exists w. split; [exact Hw|]. apply shown_shows in S0. apply in_or_app. destruct H as [(f & Hf & K & <- & C & Hr)|(Hf & C)].
    + left. apply in_flat_map. exists f. split; [exact Hf|]. unfold syntax_of, checked. rewrite K. apply selected_iff in C. rewrite C. apply in_map_iff. eauto.
    + right. apply in_flat_map. exists (mkFact p r). split; [exact Hf|]. unfold domain_of. cbn [at_file said]. destruct selected as [s|]; [|left; exact S0].
      subst p. rewrite (proj2 (path_eqb_iff s s) eq_refl). cbn. auto.
Qed.
Lemma check_inv root selected ws rep : check root selected ws = Some rep ->
  diagnostics rep = normalize (flat_map (collect root selected) ws) /\ totals rep = summarize (diagnostics rep) /\
  files_checked rep = length (filter (checked root selected) (flat_map files ws)).
Proof.
  unfold check. destruct (match selected with Some _ => _ | None => _ end); [discriminate|]. intros [= <-]. cbn. auto.
Qed.
(** The report shows what is to be reported of the files chosen, and nothing else. *)
Theorem C101_complete root selected ws rep d : check root selected ws = Some rep ->
  (In d (diagnostics rep) <-> exists p r, to_report root selected ws p r /\ shows root p r d).
Proof. intros H. apply check_inv in H as (-> & _). rewrite normalize_canonical, (canonical_in _ diagnostic_lawful). apply collected. Qed.
Print Assumptions C101_complete.
(** It is in order, each shown once. *)
Theorem C101_ordered root selected ws rep : check root selected ws = Some rep ->
  StronglySorted reported_before (diagnostics rep) /\ NoDup (diagnostics rep).
Proof.
  intros H. apply check_inv in H as (-> & _). rewrite normalize_canonical. pose proof (canonical_sorted _ diagnostic_lawful (flat_map (collect root selected) ws)) as S0.
  split; [|exact (sorted_nodup _ diagnostic_lawful _ S0)]. revert S0. generalize (canonical diagnostic_cmp (flat_map (collect root selected) ws)). intros l.
  induction 1 as [|x l S0 IH F]; constructor; auto. eapply Forall_impl; [|exact F]. intros y. apply cmp_before.
Qed.
Print Assumptions C101_ordered.
(** It does not depend on the order in which projects, files and diagnostics come. *)
Theorem C101_same_report root selected ws ws' rep rep' : check root selected ws = Some rep -> check root selected ws' = Some rep' ->
  (forall p r, to_report root selected ws p r <-> to_report root selected ws' p r) ->
  diagnostics rep = diagnostics rep' /\ totals rep = totals rep'.
Proof.
  intros H H' E. apply check_inv in H as (D & T & _). apply check_inv in H' as (D' & T' & _). assert (X : diagnostics rep = diagnostics rep').
  { rewrite D, D', !normalize_canonical. apply (canonical_same _ diagnostic_lawful). intros x. rewrite !collected. split; intros (p & r & A & B); exists p, r; split; auto; apply E; exact A. }
  split; [exact X|]. now rewrite T, T', X.
Qed.
Print Assumptions C101_same_report.
(** The totals are those of the diagnostics shown, and the exit code is one exactly if an error or a warning is. *)
Lemma summarize_spec l : forall s, fold_left count l s =
  mkSummary (errors s + of_severity Error l) (warnings s + of_severity Warning l) (information s + of_severity Information l) (hints s + of_severity Hint l).
Proof.
  unfold of_severity. induction l as [|d l IH]; intros s; cbn [fold_left filter length].
  - rewrite !Nat.add_0_r. destruct s; reflexivity.
  - rewrite IH. unfold count. destruct (d_severity d); cbn [errors warnings information hints length]; f_equal; lia.
Qed.
Theorem C101_totals root selected ws rep : check root selected ws = Some rep ->
  errors (totals rep) = of_severity Error (diagnostics rep) /\ warnings (totals rep) = of_severity Warning (diagnostics rep) /\
  information (totals rep) = of_severity Information (diagnostics rep) /\ hints (totals rep) = of_severity Hint (diagnostics rep).
Proof. intros H. apply check_inv in H as (_ & -> & _). unfold summarize. rewrite summarize_spec. auto. Qed.
Print Assumptions C101_totals.
Theorem C101_exit root selected ws rep : check root selected ws = Some rep ->
  (exit_code (totals rep) = 1 <-> exists d, In d (diagnostics rep) /\ (d_severity d = Error \/ d_severity d = Warning)) /\
  (exit_code (totals rep) = 0 \/ exit_code (totals rep) = 1).
Proof.
  intros H. destruct (C101_totals _ _ _ _ H) as (A & B & _). unfold exit_code, has_failures. rewrite A, B. clear.
  assert (X : forall s, 0 < of_severity s (diagnostics rep) <-> exists d, In d (diagnostics rep) /\ d_severity d = s).
  { intros s. unfold of_severity. split.
    - intros L. destruct (filter _ (diagnostics rep)) as [|d l] eqn:F; [cbn in L; lia|]. assert (I0 : In d (d :: l)) by now left. rewrite <- F in I0.
      apply filter_In in I0 as [I0 E]. exists d. split; [exact I0|]. destruct (d_severity d), s; congruence.
    - intros (d & I0 & E). destruct (filter _ (diagnostics rep)) as [|e l] eqn:F; [|cbn; lia]. exfalso.
      assert (Q : In d (filter (fun d0 => match d_severity d0, s with Error, Error | Warning, Warning | Information, Information | Hint, Hint => true | _, _ => false end) (diagnostics rep))).
      { apply filter_In. split; [exact I0|]. rewrite E. destruct s; reflexivity. }
      rewrite F in Q. exact Q. }
  destruct (Nat.ltb_spec 0 (of_severity Error (diagnostics rep))) as [L|L]; cbn [orb].
  - split; auto. split; auto. intros _. apply X in L as (d & I0 & E). eauto.
  - destruct (Nat.ltb_spec 0 (of_severity Warning (diagnostics rep))) as [M|M].
    + split; auto. split; auto. intros _. apply X in M as (d & I0 & E). eauto.
    + split; auto. split; [discriminate|]. intros (d & I0 & [E|E]); exfalso; [assert (0 < of_severity Error (diagnostics rep))|assert (0 < of_severity Warning (diagnostics rep))]; try (apply X; eauto); lia.
Qed.
Print Assumptions C101_exit.
(** A file that was chosen and not indexed, or indexed twice, is an error rather than an empty report. *)
Theorem C101_indexed_once root s ws rep : check root (Some s) ws = Some rep -> files_checked rep = 1 /\
  exists f, In f (flat_map files ws) /\ f_path f = s /\ f_kind f <> Other.
Proof.
  intros H. pose proof (check_inv _ _ _ _ H) as (_ & _ & N). unfold check in H. destruct (Nat.eqb_spec (length (filter (checked root (Some s)) (flat_map files ws))) 1) as [E|E]; [|discriminate].
  split; [congruence|]. destruct (filter (checked root (Some s)) (flat_map files ws)) as [|f l] eqn:F; [discriminate|].
  assert (I0 : In f (f :: l)) by now left. rewrite <- F in I0. apply filter_In in I0 as [I0 C]. exists f. split; [exact I0|].
  unfold checked in C. destruct (f_kind f); try discriminate; apply path_eqb_iff in C; split; auto; discriminate.
Qed.
Print Assumptions C101_indexed_once.
(** Distinct files are shown under distinct paths. *)
Theorem C101_paths root p q : absolute p = true -> absolute q = true -> report_path root p = report_path root q -> p = q.
Proof.
  intros P Q. unfold report_path. destruct (strip_path root p) as [x|] eqn:X, (strip_path root q) as [y|] eqn:Y.
  - intros <-. apply strip_path_iff in X as (A & _ & B). apply strip_path_iff in Y as (A' & _ & B'). destruct p, q. cbn in *. congruence.
  - intros ->. apply strip_path_iff in X as (_ & A & _). congruence.
  - intros <-. apply strip_path_iff in Y as (_ & A & _). congruence.
  - auto.
Qed.
Print Assumptions C101_paths.

(** ** The root of a file *)
Lemma ancestors_spec dir : forall a, In a (ancestors dir) <-> exists r, dir = a ++ r.
Proof.
  induction dir as [|x dir IH]; intros a; cbn [ancestors].
  - split; [intros [<-|[]]; exists []; reflexivity|]. intros (r & E). symmetry in E. apply app_eq_nil in E as [-> _]. now left.
  - rewrite in_app_iff, in_map_iff. split.
    + intros [(b & <- & H)|[<-|[]]]; [apply IH in H as (r & ->); exists r; reflexivity|exists (x :: dir); reflexivity].
    + intros (r & E). destruct a as [|y a]; [right; now left|]. left. cbn in E. injection E as <- E. exists a. split; [reflexivity|]. apply IH. eauto.
Qed.
Lemma ancestors_first gem dir a : find gem (ancestors dir) = Some a -> gem a = true /\ (exists r, dir = a ++ r) /\ forall b r, dir = b ++ r -> gem b = true -> length b <= length a.
Proof.
  revert gem a. induction dir as [|x dir IH]; intros gem a; cbn [ancestors].
  - cbn. destruct (gem []) eqn:G; [|discriminate]. intros [= <-]. split; [exact G|]. split; [exists []; reflexivity|]. intros b r E _. symmetry in E. apply app_eq_nil in E as [-> _]. cbn; lia.
  - assert (FA : forall l k, find gem (l ++ k) = match find gem l with Some z => Some z | None => find gem k end) by (induction l as [|z l IHl]; intros k; cbn; auto; destruct (gem z); auto).
    assert (FM : forall l, find gem (map (cons x) l) = option_map (cons x) (find (fun z => gem (x :: z)) l)) by (induction l as [|z l IHl]; cbn; auto; destruct (gem (x :: z)); auto).
    rewrite FA, FM. destruct (find (fun z => gem (x :: z)) (ancestors dir)) as [z|] eqn:F; cbn [option_map].
    + intros [= <-]. destruct (IH _ _ F) as (G & (r & ->) & M). split; [exact G|]. split; [exists r; reflexivity|].
      intros [|y b] s E Hb; cbn; [lia|]. cbn in E. injection E as <- E. specialize (M b s E Hb). lia.
    + cbn. destruct (gem []) eqn:G; [|discriminate]. intros [= <-]. split; [exact G|]. split; [exists (x :: dir); reflexivity|].
      intros [|y b] s E Hb; cbn; [lia|]. exfalso. cbn in E. injection E as <- E. assert (I0 : In b (ancestors dir)) by (apply ancestors_spec; eauto).
      pose proof (find_none _ _ F b I0) as Nn. cbn in Nn. congruence.
Qed.
(** It is the nearest directory above the file with a Gemfile, else the one the file is in. *)
Theorem C101_root gem dir name abs : exists a, nearest_root gem (mkPath abs (dir ++ [name])) = Some (mkPath abs a) /\
  (exists r, dir = a ++ r) /\
  ((gem a = true /\ forall b r, dir = b ++ r -> gem b = true -> length b <= length a) \/
   (a = dir /\ forall b r, dir = b ++ r -> gem b = false)).
Proof.
  assert (M : nearest_root gem (mkPath abs (dir ++ [name])) = match find gem (ancestors dir) with Some a => Some (mkPath abs a) | None => Some (mkPath abs dir) end).
  { unfold nearest_root. cbn [components absolute]. rewrite removelast_last. destruct dir; reflexivity. }
  rewrite M. destruct (find gem (ancestors dir)) as [a|] eqn:F.
  - apply ancestors_first in F as (G & R & L). exists a. auto.
  - exists dir. split; [reflexivity|]. split; [exists []; now rewrite app_nil_r|]. right. split; [reflexivity|]. intros b r E.
    apply (find_none _ _ F). apply ancestors_spec. eauto.
Qed.
Print Assumptions C101_root.

(** ** The command line *)
Lemma strip_text_iff p : forall t r, strip_text p t = Some r <-> t = p ++ r.
Proof.
  induction p as [|x p IH]; intros t r; cbn; [split; congruence|]. destruct t as [|y t]; [split; discriminate|].
  destruct (Nat.eqb_spec x y) as [->|N]; [rewrite IH; split; [now intros ->|now intros [= ->]]|split; [discriminate|intros [= -> _]; congruence]].
Qed.
Lemma parse_format_iff t f : parse_format t = Some f <-> t = format_name f.
Proof.
  unfold parse_format. destruct (name_eqb t a_human) eqn:E.
  - apply name_eqb_iff in E as ->. destruct f; cbn; split; auto; discriminate.
  - destruct (name_eqb t a_json) eqn:G.
    + apply name_eqb_iff in G as ->. destruct f; cbn; split; auto; discriminate.
    + split; [discriminate|]. intros ->. destruct f; cbn in *; discriminate.
Qed.
Lemma arguments_iff n : forall args p f p' f', length args <= n ->
  (arguments args p f = Some (p', f') <-> exists l, line l args /\ match p with Some x => p' = Some x /\ paths l = [] | None => match paths l with [] => p' = None | [x] => p' = Some x | _ => False end end
     /\ f' = last (formats l) f).
Proof.
  induction n as [|n IH]; intros args p f p' f' L.
  - destruct args; [|cbn in L; lia]. cbn [arguments]. split.
    + intros [= -> ->]. exists []. split; [constructor|]. split; [destruct p'; cbn; auto|reflexivity].
    + intros (l & Hl & A & ->). inversion Hl as [|i w k r Hs Hk E1 E2]; subst; [|apply app_eq_nil in E2 as [-> _]; inversion Hs].
      cbn in *. destruct p; [destruct A as [-> _]; reflexivity|subst; reflexivity].
  - destruct args as [|a rest]; [apply (IH [] p f p' f'); cbn; lia|]. cbn [arguments]. cbn in L.
    (* steps *)
    assert (INV : forall l, line l (a :: rest) -> (exists g k r2, l = Option_ g :: k /\ a = a_format /\ rest = format_name g :: r2 /\ line k r2) \/
       (exists g k, l = Option_ g :: k /\ a = a_format ++ 61 :: format_name g /\ line k rest) \/ (exists k, l = Path_ a :: k /\ hd 0 a <> 45 /\ line k rest)).
    { intros l Hl. inversion Hl as [|i w k r Hs Hk E1 E2]; subst. inversion Hs; subst; cbn in E2.
      - injection E2 as <- <-. left. exists f0, k, r. auto.
      - injection E2 as <- <-. right; left. exists f0, k. auto.
      - injection E2 as <- <-. right; right. exists k. auto. }
    destruct (name_eqb a a_format) eqn:EA.
    { apply name_eqb_iff in EA as ->. destruct rest as [|v rest].
      - split; [discriminate|]. intros (l & Hl & _). destruct (INV l Hl) as [(g & k & r2 & _ & _ & E & _)|[(g & k & _ & E & _)|(k & _ & E & _)]]; [discriminate| |exfalso; exact (E eq_refl)].
        destruct g; cbn in E; discriminate.
      - destruct (parse_format v) as [g|] eqn:PF.
        + apply parse_format_iff in PF as ->. rewrite (IH rest p g p' f') by (cbn in L; lia). split.
          * intros (l & Hl & A & F). exists (Option_ g :: l). split; [exact (line_cons (Option_ g) [a_format; format_name g] l rest (spells_two g) Hl)|]. split; [exact A|].
            cbn [formats flat_map app]. rewrite F. fold (formats l). destruct (formats l) eqn:Q; [reflexivity|]. clear. revert f0. induction l0 as [|z l0 IH0]; intros y; [reflexivity|]. apply (IH0 z).
          * intros (l & Hl & A & F). destruct (INV l Hl) as [(g' & k & r2 & -> & _ & E & Hk)|[(g' & k & _ & E & _)|(k & _ & E & _)]]; [|destruct g'; cbn in E; discriminate|exfalso; exact (E eq_refl)].
            injection E as E ->. assert (g' = g) by (destruct g, g'; first [reflexivity|discriminate E]). subst g'. exists k. split; [exact Hk|]. split; [exact A|].
            rewrite F. cbn [formats flat_map app]. fold (formats k). destruct (formats k) eqn:Q; [reflexivity|]. clear. revert f0. induction l as [|z l0 IH0]; intros y; [reflexivity|]. apply (IH0 z).
        + split; [discriminate|]. intros (l & Hl & _). exfalso. destruct (INV l Hl) as [(g' & k & r2 & -> & _ & E & Hk)|[(g' & k & _ & E & _)|(k & _ & E & _)]]; [|destruct g'; cbn in E; discriminate|exfalso; exact (E eq_refl)].
          injection E as -> _. destruct g'; cbn in PF; discriminate. }
    assert (NA : a <> a_format) by (intros ->; rewrite (proj2 (name_eqb_iff a_format a_format) eq_refl) in EA; discriminate).
    destruct (strip_text (a_format ++ [61]) a) as [v|] eqn:ST.
    { apply strip_text_iff in ST. rewrite <- app_assoc in ST. cbn [app] in ST. destruct (parse_format v) as [g|] eqn:PF.
      - apply parse_format_iff in PF as ->. rewrite (IH rest p g p' f') by lia. split.
        + intros (l & Hl & A & F). exists (Option_ g :: l). split; [rewrite ST; exact (line_cons (Option_ g) [a_format ++ 61 :: format_name g] l rest (spells_one g) Hl)|]. split; [exact A|].
          cbn [formats flat_map app]. rewrite F. fold (formats l). destruct (formats l) eqn:Q; [reflexivity|]. clear. revert f0. induction l0 as [|z l0 IH0]; intros y; [reflexivity|]. apply (IH0 z).
        + intros (l & Hl & A & F). destruct (INV l Hl) as [(g' & k & r2 & -> & E & _)|[(g' & k & -> & E & Hk)|(k & _ & E & _)]]; [congruence| |rewrite ST in E; exfalso; exact (E eq_refl)].
          rewrite ST in E. apply app_inv_head in E. injection E as E. assert (g' = g) by (destruct g, g'; first [reflexivity|discriminate E]). subst g'. exists k. split; [exact Hk|]. split; [exact A|].
          rewrite F. cbn [formats flat_map app]. fold (formats k). destruct (formats k) eqn:Q; [reflexivity|]. clear. revert f0. induction l as [|z l0 IH0]; intros y; [reflexivity|]. apply (IH0 z).
      - split; [discriminate|]. intros (l & Hl & _). exfalso. destruct (INV l Hl) as [(g' & k & r2 & -> & E & _)|[(g' & k & -> & E & Hk)|(k & _ & E & _)]]; [congruence| |rewrite ST in E; exfalso; exact (E eq_refl)].
        rewrite ST in E. apply app_inv_head in E. injection E as ->. destruct g'; cbn in PF; discriminate. }
    assert (NS : forall g, a <> a_format ++ 61 :: format_name g).
    { intros g E. assert (X : strip_text (a_format ++ [61]) a = Some (format_name g)) by (apply strip_text_iff; rewrite E, <- app_assoc; reflexivity). congruence. }
    destruct (match a with c :: _ => c =? 45 | [] => false end) eqn:D.
    { split; [discriminate|]. intros (l & Hl & _). exfalso. destruct (INV l Hl) as [(g' & k & r2 & -> & E & _)|[(g' & k & -> & E & Hk)|(k & _ & E & _)]]; [congruence|exact (NS _ E)|].
      destruct a; [discriminate|]. apply Nat.eqb_eq in D. cbn in E. congruence. }
    assert (D' : hd 0 a <> 45) by (destruct a; [cbn; discriminate|cbn; now apply Nat.eqb_neq]).
    destruct p as [x|].
    { split; [discriminate|]. intros (l & Hl & A & _). exfalso. destruct (INV l Hl) as [(g' & k & r2 & -> & E & _)|[(g' & k & -> & E & Hk)|(k & -> & E & _)]]; [congruence|exact (NS _ E)|].
      destruct A as [_ A]. discriminate. }
    rewrite (IH rest (Some a) f p' f') by lia. split.
    + intros (l & Hl & (-> & A) & F). exists (Path_ a :: l). split; [exact (line_cons (Path_ a) [a] l rest (spells_path a D') Hl)|]. split; [|exact F].
      unfold paths in *. cbn [flat_map app]. now rewrite A.
    + intros (l & Hl & A & F). destruct (INV l Hl) as [(g' & k & r2 & -> & E & _)|[(g' & k & -> & E & Hk)|(k & -> & E & Hk)]]; [congruence|exfalso; exact (NS _ E)|].
      exists k. split; [exact Hk|]. split; [|exact F]. unfold paths in *. cbn [flat_map app] in A. destruct (flat_map _ k); [auto|destruct A].
Qed.
(** A command line is accepted exactly if it is made of format options and at most one path; the last format counts, and
    without one the report is for people. *)
Theorem C101_arguments args p f : parse_arguments args = Some (p, f) <->
  exists l, line l args /\ match paths l with [] => p = None | [x] => p = Some x | _ => False end /\ f = last (formats l) Human.
Proof. exact (arguments_iff (length args) args None Human p f (le_n _)). Qed.
Print Assumptions C101_arguments.
(** A path that is given is checked, if there is a current directory. *)
Theorem C101_target args x f dir : parse_arguments args = Some (Some x, f) -> target args (Some dir) = Some (x, f).
Proof. intros H. unfold target. now rewrite H. Qed.
Print Assumptions C101_target.
(** If there is none, the command fails, though the path does not depend on it. *)
Theorem C101_no_directory_refuted args : target args None = None.
Proof. unfold target. destruct (parse_arguments args) as [[p f]|]; reflexivity. Qed.
Print Assumptions C101_no_directory_refuted.

(** ** Cases *)
Definition root1 : path := mkPath true [[97]].
Definition file1 : file := mkFile (mkPath true [[97]; [98]]) Project [mkRaw (4, 0) (4, 2) (Some Warning) None [120]; mkRaw (0, 3) (0, 4) None (Some [99]) [121]].
Definition ws1 : list workspace := [mkWorkspace [file1; mkFile (mkPath true [[97]; [99]]) Signature []] [mkFact (mkPath true [[97]; [98]]) (mkRaw (4, 0) (4, 2) (Some Warning) None [120])]].
Example C101_case : check root1 None ws1 = Some (mkReport 2
  [mkDiagnostic (mkPath false [[98]]) (1, 4) (1, 5) Error (Some [99]) [121]; mkDiagnostic (mkPath false [[98]]) (5, 1) (5, 3) Warning None [120]] (mkSummary 1 1 0 0)) /\
  check root1 (Some (mkPath true [[97]; [100]])) ws1 = None /\
  parse_arguments [a_format; a_json; [97]; a_format ++ 61 :: a_human] = Some (Some [97], Human) /\ parse_arguments [[97]; [98]] = None.
Proof. repeat split; reflexivity. Qed.
