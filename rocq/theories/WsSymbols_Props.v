(** C89: workspace symbol search shows the symbols of the user's code whose name answers the query,
    the best hundred of each workspace, in the order of their names. *)
From Coq Require Import List Arith Bool ZArith QArith Lia Permutation Sorted.
From Verif Require Import Sort_Lib Index_Lib Names_Model WsSymbols_Model WsSymbols_Spec.
Import ListNotations.
Open Scope nat_scope.

Lemma text_eqb_spec a b : text_eqb a b = true <-> a = b.
Proof. unfold text_eqb. destruct (list_eq_dec Nat.eq_dec a b); split; congruence. Qed.

Lemma starts_with_spec t : forall p, starts_with t p = true <-> exists r, t = p ++ r.
Proof.
  induction t as [|b t IH]; intros [|a p]; cbn [starts_with].
  - split; [exists []; reflexivity|reflexivity].
  - split; [discriminate|intros [r H]; discriminate].
  - split; [exists (b :: t); reflexivity|reflexivity].
  - rewrite andb_true_iff, Nat.eqb_eq, IH. split.
    + intros [-> [r ->]]. exists r. reflexivity.
    + intros [r H]. cbn in H. injection H as -> ->. split; [reflexivity|exists r; reflexivity].
Qed.

Lemma scattered_length p s : scattered p s -> length p <= length s.
Proof. induction 1; cbn [length]; lia. Qed.
Lemma scattered_app p a s : scattered p s -> scattered p (a ++ s).
Proof. induction a; cbn [app]; auto using scattered. Qed.
Lemma scattered_prefix p r : scattered p (p ++ r).
Proof. induction p; cbn [app]; auto using scattered. Qed.
Lemma scattered_drop c p s : scattered (c :: p) s -> scattered p s.
Proof.
  intros H. remember (c :: p) as q eqn:E. induction H; [discriminate| |].
  - injection E as -> ->. now constructor.
  - constructor. now apply IHscattered.
Qed.

Lemma walk_spec s : forall i p, walk i s p <> None <-> scattered p s.
Proof.
  induction s as [|b s IH]; intros i [|a p]; cbn [walk].
  - split; [constructor|discriminate].
  - split; [congruence|intros H; inversion H].
  - split; [constructor|discriminate].
  - destruct (a =? b) eqn:E.
    + apply Nat.eqb_eq in E as ->. specialize (IH (S i) p).
      destruct (walk (S i) s p); cbn [option_map].
      * split; [intros _; constructor; apply IH; discriminate|discriminate].
      * split; [congruence|]. intros H. exfalso. assert (scattered p s); [|now apply IH].
        inversion H; subst; [assumption|]. eapply scattered_drop; eassumption.
    + rewrite IH. split; [intros H; now constructor|].
      intros H. inversion H; subst; [rewrite Nat.eqb_refl in E; discriminate|assumption].
Qed.
Lemma walk_nonnil i s a p : walk i s (a :: p) <> Some [].
Proof.
  revert i. induction s as [|b s IH]; intros i; cbn [walk]; [discriminate|].
  destruct (a =? b); [|apply IH]. destruct (walk (S i) s p); discriminate.
Qed.

Lemma clamp_range x lo hi : (lo <= hi)%Q -> (lo <= clamp x lo hi)%Q /\ (clamp x lo hi <= hi)%Q.
Proof.
  intros H. unfold clamp. destruct (Qle_bool x lo) eqn:E1; [split; [apply Qle_refl|assumption]|].
  destruct (Qle_bool hi x) eqn:E2; [split; [assumption|apply Qle_refl]|].
  split; apply Qlt_le_weak, Qnot_le_lt; intros C; apply Qle_bool_iff in C; congruence.
Qed.

Lemma fuzzy_range s p q : p <> [] -> fuzzy_match s p = Some q -> (q <= 75 # 100)%Q.
Proof.
  intros Hp. unfold fuzzy_match. destruct p as [|a p]; [congruence|].
  destruct (length s <? length (a :: p)); [discriminate|].
  destruct (walk 0 s (a :: p)) as [ms|] eqn:E; [|discriminate].
  cbv zeta. destruct (Qle_bool _ _); [discriminate|]. injection 1 as <-.
  unfold fuzzy_score. destruct ms as [|m ms]; [now apply walk_nonnil in E|].
  apply clamp_range. discriminate.
Qed.
Lemma fuzzy_spec s p : p <> [] -> (fuzzy_match s p <> None <-> scattered p s).
Proof.
  intros Hp. unfold fuzzy_match. destruct p as [|a p]; [congruence|].
  destruct (length s <? length (a :: p)) eqn:El.
  { apply Nat.ltb_lt in El. split; [congruence|]. intros H. apply scattered_length in H. lia. }
  rewrite <- (walk_spec s 0 (a :: p)).
  destruct (walk 0 s (a :: p)) as [ms|] eqn:E; [|tauto].
  cbv zeta. assert (Hs : (3 # 10 <= fuzzy_score ms (length s) (length (a :: p)))%Q).
  { unfold fuzzy_score. destruct ms as [|m ms]; [now apply walk_nonnil in E|].
    apply clamp_range. discriminate. }
  destruct (Qle_bool _ _) eqn:Eq.
  { apply Qle_bool_iff in Eq. exfalso. apply (Qlt_not_le (2 # 10) (3 # 10)); [reflexivity|].
    eapply Qle_trans; eassumption. }
  split; discriminate.
Qed.

Lemma words_scattered p t : forall piece, existsb (fun w => starts_with w p) (words piece t) = true -> scattered p (piece ++ t).
Proof.
  induction t as [|c t IH]; intros piece; cbn [words existsb].
  - rewrite orb_false_r, app_nil_r. intros H. apply starts_with_spec in H as [r ->]. apply scattered_prefix.
  - destruct (c =? underscore).
    + cbn [existsb]. rewrite orb_true_iff. intros [H|H].
      * apply starts_with_spec in H as [r ->]. rewrite <- app_assoc. apply scattered_prefix.
      * apply IH in H. cbn [app] in H. apply scattered_app. now constructor.
    + intros H. apply IH in H. now rewrite <- app_assoc in H.
Qed.
Lemma contains_scattered p t : contains t p = true -> scattered p t.
Proof.
  induction t as [|c t IH]; cbn [contains]; rewrite orb_true_iff; intros [H|H]; try discriminate.
  - apply starts_with_spec in H as [r ->]. apply scattered_prefix.
  - apply starts_with_spec in H as [r ->]. apply scattered_prefix.
  - constructor. now apply IH.
Qed.

Section Search.
  Variable lower : text -> text.
  Variable upper : nat -> bool.
  Notation relevance_of := (calculate_relevance lower upper).

  Lemma camel_spec s p : camel_case_match upper s p = Some (7 # 10)%Q
    /\ (filter upper p <> [] /\ exists r, filter upper s = filter upper p ++ r)
    \/ camel_case_match upper s p = None
    /\ ~ (filter upper p <> [] /\ exists r, filter upper s = filter upper p ++ r).
  Proof.
    unfold camel_case_match. destruct (filter upper p) as [|a l] eqn:E.
    { right. split; [reflexivity|]. intros [H _]. congruence. }
    destruct (starts_with (filter upper s) (a :: l)) eqn:Es.
    - left. split; [reflexivity|]. split; [discriminate|]. now apply starts_with_spec.
    - right. split; [reflexivity|]. intros [_ H]. apply starts_with_spec in H. congruence.
  Qed.

  (** A symbol is found exactly when its name answers the query. *)
  Theorem C89_found s p : p <> [] -> (relevance_of s p <> None <-> answers lower upper s p).
  Proof.
    intros Hp. unfold calculate_relevance, answers. destruct p as [|c p']; [congruence|].
    set (p := c :: p') in *.
    destruct (text_eqb s p) eqn:E1.
    { apply text_eqb_spec in E1 as ->. split; [|discriminate]. intros _. left.
      rewrite <- (app_nil_r (lower p)) at 2. apply scattered_prefix. }
    destruct (text_eqb (lower s) (lower p)) eqn:E2.
    { apply text_eqb_spec in E2. split; [|discriminate]. intros _. left. rewrite E2.
      rewrite <- (app_nil_r (lower p)) at 2. apply scattered_prefix. }
    destruct (starts_with (lower s) (lower p)) eqn:E3.
    { apply starts_with_spec in E3 as [r E3]. split; [|discriminate]. intros _. left. rewrite E3.
      apply scattered_prefix. }
    assert (Hl : lower p <> []).
    { intros C. rewrite C in E3. destruct (lower s); discriminate. }
    destruct (camel_spec s p) as [[-> H]|[-> H]]; [split; [tauto|discriminate]|].
    pose proof (fuzzy_spec (lower s) (lower p) Hl) as Hf.
    destruct (fuzzy_match (lower s) (lower p)) as [q|]; [split; [|discriminate]; intros _; left; now apply Hf|].
    assert (Hn : ~ scattered (lower p) (lower s)) by (intros C; now apply Hf in C).
    destruct (word_boundary_match (lower s) (lower p)) eqn:E4.
    { exfalso. apply Hn. exact (words_scattered _ _ [] E4). }
    destruct (contains (lower s) (lower p)) eqn:E5.
    { exfalso. apply Hn. now apply contains_scattered. }
    split; [congruence|]. tauto.
  Qed.

  Definition level (n : nat) (q : Q) : Prop :=
    match n with S (S (S _)) => (q == 1)%Q | S (S _) => (q == 9 # 10)%Q | S _ => (q == 8 # 10)%Q | O => (q <= 75 # 100)%Q end.
  Lemma grade_relevance s p n : p <> [] -> grade lower upper s p n ->
    exists q, relevance_of s p = Some q
    /\ level n q.
  Proof.
    intros Hp G. unfold calculate_relevance. destruct p as [|c p']; [congruence|]. set (p := c :: p') in *.
    destruct G as [H|H1 H2|H1 H2|H1 H2].
    - apply text_eqb_spec in H. rewrite H. eexists. split; [reflexivity|]. reflexivity.
    - assert (E : text_eqb s p = false).
      { destruct (text_eqb s p) eqn:E; [|reflexivity]. now apply text_eqb_spec in E. }
      apply text_eqb_spec in H2. rewrite E, H2. eexists. split; [reflexivity|]. reflexivity.
    - assert (E2 : text_eqb (lower s) (lower p) = false).
      { destruct (text_eqb (lower s) (lower p)) eqn:E; [|reflexivity]. now apply text_eqb_spec in E. }
      assert (E1 : text_eqb s p = false).
      { destruct (text_eqb s p) eqn:E; [|reflexivity]. apply text_eqb_spec in E. congruence. }
      apply starts_with_spec in H2. rewrite E1, E2, H2. eexists. split; [reflexivity|]. reflexivity.
    - assert (E3 : starts_with (lower s) (lower p) = false).
      { destruct (starts_with (lower s) (lower p)) eqn:E; [|reflexivity]. now apply starts_with_spec in E. }
      assert (E2 : text_eqb (lower s) (lower p) = false).
      { destruct (text_eqb (lower s) (lower p)) eqn:E; [|reflexivity]. apply text_eqb_spec in E.
        exfalso. apply H1. exists []. now rewrite app_nil_r. }
      assert (E1 : text_eqb s p = false).
      { destruct (text_eqb s p) eqn:E; [|reflexivity]. apply text_eqb_spec in E. rewrite E in H1.
        exfalso. apply H1. exists []. now rewrite app_nil_r. }
      pose proof (proj2 (C89_found s p Hp) H2) as Hf. unfold calculate_relevance in Hf.
      unfold p in Hf. fold p in Hf.
      rewrite E1, E2, E3 in Hf |- *.
      assert (Hl : lower p <> []).
      { intros C. rewrite C in E3. destruct (lower s); discriminate. }
      destruct (camel_spec s p) as [[Hc _]|[Hc _]]; rewrite Hc in Hf |- *.
      { eexists. split; [reflexivity|]. discriminate. }
      pose proof (fuzzy_range (lower s) (lower p)) as Hr.
      destruct (fuzzy_match (lower s) (lower p)) as [q|].
      { exists q. split; [reflexivity|]. now apply Hr. }
      destruct (word_boundary_match (lower s) (lower p)); [eexists; split; [reflexivity|discriminate]|].
      destruct (contains (lower s) (lower p)); [eexists; split; [reflexivity|discriminate]|congruence].
  Qed.

  Lemma answer_grade s p : p <> [] -> answers lower upper s p -> exists n, grade lower upper s p n.
  Proof.
    intros Hp H. destruct (list_eq_dec Nat.eq_dec s p) as [E|E]; [exists 3; now constructor|].
    destruct (list_eq_dec Nat.eq_dec (lower s) (lower p)) as [E2|E2]; [exists 2; now constructor|].
    destruct (starts_with (lower s) (lower p)) eqn:E3.
    - exists 1. constructor; [assumption|]. now apply starts_with_spec.
    - exists 0. constructor; [|assumption]. intros C. apply starts_with_spec in C. congruence.
  Qed.

  (** The name itself ranks above its other cases, these above its beginnings, these above the rest. *)
  Theorem C89_ranks s1 s2 p n1 n2 q1 q2 : p <> [] ->
    grade lower upper s1 p n1 -> grade lower upper s2 p n2 -> n2 < n1 ->
    relevance_of s1 p = Some q1 -> relevance_of s2 p = Some q2 -> (q2 < q1)%Q.
  Proof.
    intros Hp G1 G2 Hn R1 R2.
    destruct (grade_relevance s1 p n1 Hp G1) as [r1 [E1 H1]].
    destruct (grade_relevance s2 p n2 Hp G2) as [r2 [E2 H2]].
    rewrite R1 in E1. rewrite R2 in E2. injection E1 as <-. injection E2 as <-.
    destruct G1, G2; try lia; cbn in H1, H2; try (rewrite H1, H2; reflexivity);
      rewrite H1; eapply Qle_lt_trans; try exact H2; reflexivity.
  Qed.

  Lemma own_display n : display_name n = own_name n.
  Proof. destruct n; reflexivity. Qed.

  Lemma inside_container n : inside n (container_name n).
  Proof.
    assert (H : forall ps : list text, (length ps <= 1 /\ (if length ps <=? 1 then None else Some (join (removelast ps))) = None)
      \/ exists outer p, outer <> [] /\ ps = outer ++ [p]
           /\ (if length ps <=? 1 then None else Some (join (removelast ps))) = Some (join outer)).
    { intros ps. destruct (length ps <=? 1) eqn:E.
      - left. apply Nat.leb_le in E. auto.
      - right. apply Nat.leb_gt in E. destruct ps as [|x ps] using rev_ind; [cbn in E; lia|].
        rewrite app_length in E. cbn in E. exists ps, x. rewrite removelast_last.
        split; [intros ->; cbn in E; lia|]. split; reflexivity. }
    destruct n; cbn; auto. destruct parts; [left|right]; split; auto; discriminate.
  Qed.

  (** The entry of a fact found with a relevance. *)
  Definition entry (f : fact) (r : Q) : found :=
    mkFound (display_name (fqn f)) (kind f) (at_range f) (container_name (fqn f)) r.
  Definition scored (query : text) (f : fact) : list found :=
    if fact_is_project f
    then match relevance_of (display_name (fqn f)) query with
         | None => []
         | Some r => match symbol_match f r with None => [] | Some x => [x] end
         end
    else [].
  Lemma symbol_match_spec f r : symbol_match f r = if match kind f with KLocal => true | _ => false end then None else Some (entry f r).
  Proof. unfold symbol_match, entry. destruct (kind f); reflexivity. Qed.
  Lemma scored_spec query f : query <> [] ->
    (exists r, scored query f = [entry f r] /\ listable f /\ answers lower upper (own_name (fqn f)) query
      /\ relevance_of (own_name (fqn f)) query = Some r)
    \/ scored query f = [] /\ ~ (listable f /\ answers lower upper (own_name (fqn f)) query).
  Proof.
    intros Hq. unfold scored, listable, fact_is_project. rewrite own_display.
    destruct (generated f) eqn:Eg; cbn [negb andb].
    { right. split; [reflexivity|]. intros [[H _] _]. discriminate. }
    destruct (project f) eqn:Ep.
    2:{ right. split; [reflexivity|]. intros [[_ [H _]] _]. discriminate. }
    pose proof (C89_found (own_name (fqn f)) query Hq) as H.
    destruct (relevance_of (own_name (fqn f)) query) as [r|].
    2:{ right. split; [reflexivity|]. intros [_ C]. now apply H in C. }
    assert (Ha : answers lower upper (own_name (fqn f)) query) by (apply H; discriminate).
    rewrite symbol_match_spec. destruct (kind f) eqn:Ek.
    5:{ right. split; [reflexivity|]. intros [[_ [_ C]] _]. congruence. }
    all: left; exists r; repeat split; auto; discriminate.
  Qed.

  Lemma better_total a b : better a b = true \/ better b a = true.
  Proof.
    unfold better. rewrite !Qle_bool_iff.
    destruct (Qlt_le_dec (relevance a) (relevance b)); [right; now apply Qlt_le_weak|now left].
  Qed.

  Lemma better_trans a b c : better a b = true -> better b c = true -> better a c = true.
  Proof. unfold better. rewrite !Qle_bool_iff. intros. eapply Qle_trans; eassumption. Qed.

  (** The facts found, each with its relevance. *)
  Definition pairs (query : text) (fs : list fact) : list (fact * Q) :=
    flat_map (fun f => match scored query f with [] => [] | x :: _ => [(f, relevance x)] end) fs.
  Definition put (p : fact * Q) : found := entry (fst p) (snd p).
  Lemma matches_pairs query fs : query <> [] -> matches lower upper fs query = map put (pairs query fs).
  Proof.
    intros Hq. unfold matches, pairs. induction fs as [|f fs IH]; [reflexivity|].
    cbn [flat_map]. rewrite map_app. f_equal; [|exact IH]. change (scored query f = map put match scored query f with [] => [] | x :: _ => [(f, relevance x)] end).
    destruct (scored_spec query f Hq) as [[r [-> _]]|[-> _]]; reflexivity.
  Qed.
  Lemma pairs_in query fs f r : query <> [] -> In (f, r) (pairs query fs) ->
    In f fs /\ listable f /\ answers lower upper (own_name (fqn f)) query /\ relevance_of (own_name (fqn f)) query = Some r.
  Proof.
    intros Hq. unfold pairs. rewrite in_flat_map. intros [g [Hg H]].
    destruct (scored_spec query g Hq) as [[q [E [H1 [H2 H3]]]]|[E _]]; rewrite E in H; [|destruct H].
    destruct H as [H|[]]. cbn in H. injection H as <- <-. auto.
  Qed.
  Lemma in_pairs query fs f : query <> [] -> In f fs -> listable f -> answers lower upper (own_name (fqn f)) query ->
    exists r, In (f, r) (pairs query fs).
  Proof.
    intros Hq Hf Hl Ha. destruct (scored_spec query f Hq) as [[q [E _]]|[_ E]]; [|tauto].
    exists q. unfold pairs. apply in_flat_map. exists f. split; [assumption|]. rewrite E. now left.
  Qed.
  Lemma pairs_sub query fs : query <> [] -> exists rest, Permutation fs (map fst (pairs query fs) ++ rest).
  Proof.
    intros Hq. induction fs as [|f fs [rest IH]]; [exists []; constructor|].
    unfold pairs in *. cbn [flat_map]. destruct (scored_spec query f Hq) as [[q [E _]]|[E _]]; rewrite E.
    - exists rest. cbn. now constructor.
    - exists (f :: rest). cbn [app]. etransitivity; [apply perm_skip, IH|]. apply Permutation_middle.
  Qed.

  Definition better_pair (a b : fact * Q) : bool := better (put a) (put b).
  Lemma search_pairs query fs limit : query <> [] ->
    search lower upper fs query limit = map put (firstn limit (sort better_pair (pairs query fs))).
  Proof.
    intros Hq. unfold search. rewrite matches_pairs by assumption. 
    rewrite <- firstn_map. f_equal. symmetry. apply (sort_map put better).
  Qed.

  Lemma informations_in w l x : In x (informations w l) <->
    exists y loc, In y l /\ locate w (frange y) = Some loc /\ x = mkInformation (label y) (fkind y) loc (container y).
  Proof.
    unfold informations. rewrite in_flat_map. split.
    - intros [y [Hy H]]. destruct (locate w (frange y)) as [loc|] eqn:E; [|destruct H].
      destruct H as [<-|[]]. eauto.
    - intros [y [loc [Hy [E ->]]]]. exists y. split; [assumption|]. rewrite E. now left.
  Qed.

  Lemma entry_entry_of f r loc : entry_of f (mkInformation (label (entry f r)) (fkind (entry f r)) loc (container (entry f r))) loc.
  Proof. unfold entry_of. cbn. rewrite own_display. auto using inside_container. Qed.

  Lemma dedup_in x l : In x (dedup l) <-> In x l.
  Proof.
    induction l as [|a l IH]; [reflexivity|]. cbn [dedup In]. rewrite <- IH.
    destruct (dedup l) as [|y t]; [reflexivity|].
    destruct (same_information a y) as [->|]; [|reflexivity]. cbn. tauto.
  Qed.
  Lemma respond_in ws query x : In x (respond lower upper ws query) <-> exists w, In w ws /\ In x (answer lower upper w query).
  Proof. unfold respond. rewrite dedup_in, sort_in, in_flat_map. reflexivity. Qed.

  (** Every entry is a symbol of the user's code whose name answers the query, at its place. *)
  Theorem C89_sound ws query x : query <> [] -> In x (respond lower upper ws query) ->
    exists w f place, In w ws /\ hit lower upper w query f
    /\ locate w (at_range f) = Some place /\ entry_of f x place.
  Proof.
    intros Hq H. apply respond_in in H as [w [Hw H]]. destruct query as [|c query]; [congruence|].
    cbn [answer] in H. rewrite search_pairs in H by assumption.
    apply informations_in in H as [y [loc [Hy [E ->]]]].
    apply in_map_iff in Hy as [[f r] [<- Hy]].
    assert (Hp : In (f, r) (pairs (c :: query) (facts w))).
    { apply (proj1 (sort_in better_pair _ _)).
      rewrite <- (firstn_skipn 100). apply in_or_app. now left. }
    apply pairs_in in Hp as [H1 [H2 [H3 _]]]; [|assumption].
    exists w, f, loc. split; [assumption|]. split; [split; auto|]. split; [exact E|]. apply entry_entry_of.
  Qed.

  Lemma sorted_split {A} (R : A -> A -> Prop) (a b : list A) : StronglySorted R (a ++ b) ->
    forall x y, In x a -> In y b -> R x y.
  Proof.
    induction a as [|z a IH]; cbn [app]; intros H x y Hx Hy; [destruct Hx|].
    inversion H as [|? ? H1 H2]; subst. destruct Hx as [->|Hx]; [|now apply IH].
    rewrite Forall_forall in H2. apply H2, in_or_app. now right.
  Qed.

  (** Every symbol that answers is shown, unless a hundred others of its workspace answer as well. *)
  Theorem C89_complete ws w query f place : query <> [] -> In w ws ->
    hit lower upper w query f -> locate w (at_range f) = Some place ->
    (exists x, In x (respond lower upper ws query) /\ entry_of f x place)
    \/ exists others rest, length others = 100 /\ Permutation (facts w) (others ++ f :: rest)
       /\ forall o, In o others -> hit lower upper w query o
          /\ forall n m, grade lower upper (own_name (fqn o)) query n ->
                         grade lower upper (own_name (fqn f)) query m -> m <= n.
  Proof.
    intros Hq Hw [H1 [H2 H3]] Hl. destruct (in_pairs query _ f Hq H1 H2 H3) as [r Hr].
    set (P := pairs query (facts w)) in *. set (SP := sort better_pair P).
    assert (Hs : In (f, r) SP) by (apply sort_in; assumption).
    rewrite <- (firstn_skipn 100 SP) in Hs. apply in_app_or in Hs as [Hs|Hs].
    - left. exists (mkInformation (label (entry f r)) (fkind (entry f r)) place (container (entry f r))).
      split; [|apply entry_entry_of]. apply respond_in. exists w. split; [assumption|].
      destruct query as [|c query]; [congruence|]. cbn [answer]. rewrite search_pairs by assumption.
      apply informations_in. exists (entry f r), place. split; [|split; [exact Hl|reflexivity]].
      apply in_map_iff. exists (f, r). split; [reflexivity|]. exact Hs.
    - right. destruct (in_split _ _ Hs) as [l1 [l2 El]].
      destruct (pairs_sub query (facts w) Hq) as [rest Hrest]. fold P in Hrest.
      exists (map fst (firstn 100 SP)), (map fst (l1 ++ l2) ++ rest).
      split; [|split].
      + rewrite map_length, firstn_length. apply Nat.min_l.
        assert (length (skipn 100 SP) <> 0) by (rewrite El, app_length; cbn; lia).
        rewrite skipn_length in H. lia.
      + etransitivity; [exact Hrest|].
        assert (Hp : Permutation (map fst P) (map fst (firstn 100 SP) ++ f :: map fst (l1 ++ l2))).
        { etransitivity; [apply Permutation_map, (sort_perm better_pair)|]. fold SP.
          rewrite <- (firstn_skipn 100 SP) at 1. rewrite map_app. apply Permutation_app_head.
          rewrite El, !map_app. cbn [map fst]. symmetry. apply Permutation_middle. }
        etransitivity; [apply Permutation_app_tail, Hp|]. rewrite <- app_assoc. reflexivity.
      + intros o Ho. apply in_map_iff in Ho as [[o' q] [Eo Ho]]. cbn in Eo. subst o'.
        assert (Hb : better_pair (o, q) (f, r) = true).
        { apply (sorted_split (Sort_Lib.le better_pair) (firstn 100 SP) (skipn 100 SP)); [|assumption|assumption].
          rewrite firstn_skipn. apply sort_sorted.
          - intros. apply better_total.
          - intros x y z. apply better_trans. }
        assert (Hin : In (o, q) P).
        { apply (proj1 (sort_in better_pair _ _)). fold SP. rewrite <- (firstn_skipn 100 SP). apply in_or_app. now left. }
        apply pairs_in in Hin as [O1 [O2 [O3 O4]]]; [|assumption].
        apply pairs_in in Hr as [_ [_ [_ R4]]]; [|assumption].
        split; [split; auto|]. intros n m Gn Gm.
        destruct (le_lt_dec m n); [assumption|]. exfalso.
        pose proof (C89_ranks _ _ query m n r q Hq Gm Gn l R4 O4) as C.
        unfold better_pair, better in Hb. cbn in Hb. apply Qle_bool_iff in Hb.
        now apply Qlt_not_le in C.
  Qed.

  Lemma top_spec f :
    (exists x, (if fact_is_project f then top_level f else []) = [x] /\ listable f /\ at_top (fqn f) /\ x = entry f (1 # 10)) 
    \/ (if fact_is_project f then top_level f else []) = [] /\ ~ (listable f /\ at_top (fqn f)).
  Proof.
    unfold listable, fact_is_project, top_level, at_top. rewrite symbol_match_spec.
    destruct (generated f) eqn:Eg; cbn [negb andb]; [right; split; [reflexivity|]; intros [[C _] _]; discriminate|].
    destruct (project f) eqn:Ep; [|right; split; [reflexivity|]; intros [[_ [C _]] _]; discriminate].
    assert (K : kind f = KLocal \/ kind f <> KLocal) by (destruct (kind f); (now left) || (right; discriminate)).
    destruct K as [K|K].
    { right. split; [|intros [[_ [_ C]] _]; congruence]. rewrite K. destruct (fqn f); auto; destruct (_ =? _); reflexivity. }
    assert (KB : match kind f with KLocal => true | _ => false end = false) by (destruct (kind f); congruence).
    rewrite KB. destruct (fqn f) as [ps k|ps|ps m|t].
    3,4: right; split; [reflexivity|]; intros [_ [p [[k C]|C]]]; discriminate.
    - destruct ps as [|p [|p' ps]]; cbn [length Nat.eqb].
      1,3: right; split; [reflexivity|]; intros [_ [q [[k' C]|C]]]; discriminate.
      left. eexists. split; [reflexivity|]. split; [auto|]. split; [|reflexivity]. exists p. left. eauto.
    - destruct ps as [|p [|p' ps]]; cbn [length Nat.eqb].
      1,3: right; split; [reflexivity|]; intros [_ [q [[k' C]|C]]]; discriminate.
      left. eexists. split; [reflexivity|]. split; [auto|]. split; [|reflexivity]. exists p. right. reflexivity.
  Qed.

  Lemma top_level_in limit fs : forall acc x, In x (top_level_symbols limit acc fs) ->
    In x acc \/ exists f, In f fs /\ listable f /\ at_top (fqn f) /\ x = entry f (1 # 10).
  Proof.
    induction fs as [|f fs IH]; intros acc x; cbn [top_level_symbols]; [auto|].
    pose proof (top_spec f) as T. destruct (fact_is_project f).
    - destruct (limit <=? length acc); [auto|]. intros H. apply IH in H as [H|[g [H1 H2]]].
      + apply in_app_or in H as [H|H]; [auto|]. right. exists f. split; [now left|].
        destruct T as [[y [E [T1 [T2 T3]]]]|[E _]]; rewrite E in H; [|destruct H].
        destruct H as [<-|[]]. auto.
      + right. exists g. split; [now right|assumption].
    - intros H. apply IH in H as [H|[g [H1 H2]]]; [auto|]. right. exists g. split; [now right|assumption].
  Qed.

  Lemma top_level_acc limit fs : forall acc x, In x acc -> In x (top_level_symbols limit acc fs).
  Proof.
    induction fs as [|f fs IH]; intros acc x H; cbn [top_level_symbols]; [auto|].
    destruct (fact_is_project f); [|auto]. destruct (_ <=? _); [auto|]. apply IH, in_or_app. now left.
  Qed.

  (** Facts of [pre] listed so far number those of [acc]. *)
  Lemma top_level_reach limit post pre f : forall acc, listable f -> at_top (fqn f) ->
    In (entry f (1 # 10)) (top_level_symbols limit acc (pre ++ f :: post))
    \/ exists others rest, Permutation pre (others ++ rest) /\ limit <= length acc + length others
       /\ forall o, In o others -> listable o /\ at_top (fqn o).
  Proof.
    induction pre as [|g pre IH]; intros acc Hl Ht; cbn [app top_level_symbols].
    - pose proof (top_spec f) as T. destruct T as [[x [E [_ [_ ->]]]]|[_ T]]; [|tauto].
      destruct (fact_is_project f) eqn:Ef; [|discriminate].
      destruct (limit <=? length acc) eqn:El.
      + right. exists [], []. apply Nat.leb_le in El. cbn. split; [constructor|]. split; [lia|]. intros o [].
      + left. apply top_level_acc, in_or_app. right. rewrite E. now left.
    - pose proof (top_spec g) as T. destruct (fact_is_project g).
      + destruct (limit <=? length acc) eqn:El.
        { right. apply Nat.leb_le in El. exists [], (g :: pre). cbn. split; [reflexivity|]. split; [lia|]. intros o []. }
        destruct (IH (acc ++ top_level g) Hl Ht) as [H|[others [rest [H1 [H2 H3]]]]]; [now left|]. right.
        destruct T as [[x [E [T1 [T2 _]]]]|[E _]]; rewrite E, app_length in H2; cbn in H2.
        * exists (g :: others), rest. cbn. split; [now constructor|]. split; [lia|]. intros o [<-|Ho]; auto.
        * exists others, (g :: rest). split; [|split; [lia|assumption]].
          etransitivity; [apply perm_skip, H1|]. apply Permutation_middle.
      + destruct (IH acc Hl Ht) as [H|[others [rest [H1 [H2 H3]]]]]; [now left|]. right.
        exists others, (g :: rest). split; [|split; [lia|assumption]].
        etransitivity; [apply perm_skip, H1|]. apply Permutation_middle.
  Qed.

  (** An empty query lists only the classes, modules and constants of the outermost level ... *)
  Theorem C89_top_level_sound ws x : In x (respond lower upper ws []) ->
    exists w f place, In w ws /\ In f (facts w) /\ listable f /\ at_top (fqn f)
    /\ locate w (at_range f) = Some place /\ entry_of f x place.
  Proof.
    intros H. apply respond_in in H as [w [Hw H]]. cbn [answer] in H.
    apply informations_in in H as [y [loc [Hy [E ->]]]].
    apply top_level_in in Hy as [[]|[f [H1 [H2 [H3 ->]]]]].
    exists w, f, loc. do 4 (split; [assumption|]). split; [exact E|]. apply entry_entry_of.
  Qed.

  (** ... each of them, unless fifty precede it in the index of its workspace. *)
  Theorem C89_top_level_complete ws w f pre post place : In w ws -> facts w = pre ++ f :: post ->
    listable f -> at_top (fqn f) -> locate w (at_range f) = Some place ->
    (exists x, In x (respond lower upper ws []) /\ entry_of f x place)
    \/ exists others rest, 50 <= length others /\ Permutation pre (others ++ rest)
       /\ forall o, In o others -> listable o /\ at_top (fqn o).
  Proof.
    intros Hw Ef Hl Ht Hp. destruct (top_level_reach 50 post pre f [] Hl Ht) as [H|[others [rest [H1 [H2 H3]]]]].
    - left. exists (mkInformation (label (entry f (1 # 10))) (fkind (entry f (1 # 10))) place (container (entry f (1 # 10)))).
      split; [|apply entry_entry_of]. apply respond_in. exists w. split; [assumption|]. cbn [answer].
      apply informations_in. exists (entry f (1 # 10)), place. rewrite Ef. split; [exact H|]. split; [exact Hp|reflexivity].
    - right. exists others, rest. cbn [length] in H2. auto.
  Qed.
End Search.

(** The order of the answer. *)
Lemma tuple_total a : forall b, tuple_leb a b = true \/ tuple_leb b a = true.
Proof.
  induction a as [|x a IH]; intros [|y b]; cbn [tuple_leb]; auto.
  destruct (list_eq_dec Nat.eq_dec x y) as [->|N1].
  - destruct (list_eq_dec Nat.eq_dec y y); [apply IH|congruence].
  - destruct (list_eq_dec Nat.eq_dec y x); [congruence|]. apply lexb_total.
Qed.
Lemma tuple_trans a : forall b c, tuple_leb a b = true -> tuple_leb b c = true -> tuple_leb a c = true.
Proof.
  induction a as [|x a IH]; intros [|y b] [|z c]; cbn [tuple_leb]; auto; try discriminate.
  destruct (list_eq_dec Nat.eq_dec x y) as [->|N1].
  - destruct (list_eq_dec Nat.eq_dec y z) as [->|N2]; [apply IH|auto].
  - destruct (list_eq_dec Nat.eq_dec y z) as [->|N2].
    + destruct (list_eq_dec Nat.eq_dec x z); [congruence|]. auto.
    + destruct (list_eq_dec Nat.eq_dec x z) as [->|N3].
      * intros H1 H2. exfalso. apply N1. now apply lexb_antisym.
      * apply lexb_trans.
Qed.
Lemma tuple_antisym a : forall b, tuple_leb a b = true -> tuple_leb b a = true -> a = b.
Proof.
  induction a as [|x a IH]; intros [|y b]; cbn [tuple_leb]; auto; try discriminate.
  destruct (list_eq_dec Nat.eq_dec x y) as [->|N1].
  - destruct (list_eq_dec Nat.eq_dec y y); [|congruence]. intros H1 H2. f_equal. now apply IH.
  - destruct (list_eq_dec Nat.eq_dec y x); [congruence|]. intros H1 H2. exfalso. apply N1. now apply lexb_antisym.
Qed.
Lemma info_total x y : info_leb x y = true \/ info_leb y x = true.
Proof. apply tuple_total. Qed.
Lemma info_trans x y z : info_leb x y = true -> info_leb y z = true -> info_leb x z = true.
Proof. apply tuple_trans. Qed.

Lemma lexb_four a b c d a' b' c' d' : tuple_leb [[a; b]; [c; d]] [[a'; b']; [c'; d']] = true ->
  lexb [a; b; c; d] [a'; b'; c'; d'] = true.
Proof.
  cbn [tuple_leb]. destruct (list_eq_dec Nat.eq_dec [a; b] [a'; b']) as [E|N1].
  - injection E as -> ->. destruct (list_eq_dec Nat.eq_dec [c; d] [c'; d']) as [E|N2].
    + injection E as -> ->. intros _. cbn [lexb]. rewrite !Nat.eqb_refl, !orb_true_r; reflexivity.
    + intros H. cbn [lexb] in *. rewrite !Nat.eqb_refl, H. cbn. now rewrite !orb_true_r.
  - cbn [lexb]. intros H. apply orb_true_iff in H as [H|H]; [rewrite H; reflexivity|].
    apply andb_true_iff in H as [H1 H]. apply Nat.eqb_eq in H1 as ->.
    apply orb_true_iff in H as [H|H]; [rewrite H; cbn; now rewrite Nat.eqb_refl, orb_true_r|].
    apply andb_true_iff in H as [H _]. apply Nat.eqb_eq in H as ->. congruence.
Qed.
Lemma info_not_after x y : info_leb x y = true -> not_after x y.
Proof.
  unfold info_leb, info_key, not_after, precedes, place_key. intros H.
  cbn [tuple_leb] in H. destruct (list_eq_dec Nat.eq_dec (iname x) (iname y)) as [E|E]; [|now left].
  right. split; [assumption|].
  destruct (list_eq_dec Nat.eq_dec (uri (ilocation x)) (uri (ilocation y))) as [E2|E2]; [|now left].
  right. split; [assumption|]. apply lexb_four. exact H.
Qed.

Lemma dedup_head l : match dedup l, l with y :: _, z :: _ => y = z | [], [] => True | _, _ => False end.
Proof.
  induction l as [|x l IH]; [exact Logic.I|]. cbn [dedup]. destruct (dedup l) as [|y t]; [reflexivity|].
  destruct (same_information x y); congruence.
Qed.
Lemma dedup_sorted (R : information -> information -> Prop) l : StronglySorted R l -> StronglySorted R (dedup l).
Proof.
  induction 1 as [|x l H IH Hx]; [constructor|]. cbn [dedup].
  assert (Hf : Forall (R x) (dedup l)).
  { rewrite Forall_forall in *. intros y Hy. apply Hx. exact (proj1 (dedup_in y l) Hy). }
  destruct (dedup l) as [|y t]; [constructor; constructor|].
  destruct (same_information x y); [assumption|]. now constructor.
Qed.
Lemma dedup_nodup l : StronglySorted (Sort_Lib.le info_leb) l ->
  (forall x y, In x l -> In y l -> info_leb x y = true -> info_leb y x = true -> x = y) -> NoDup (dedup l).
Proof.
  induction l as [|x l IH]; intros Hs Ha; [constructor|]. inversion Hs as [|? ? H1 H2]; subst.
  assert (Hn : NoDup (dedup l)) by (apply IH; [assumption|intros; apply Ha; auto; now right]).
  cbn [dedup]. pose proof (dedup_head l) as Hh. pose proof (fun z => dedup_in z l) as Hd.
  destruct (dedup l) as [|y t]; [constructor; [intros []|constructor]|].
  destruct (same_information x y) as [|Nx]; [assumption|]. constructor; [|assumption].
  intros Hx. apply Hd in Hx. destruct l as [|z l]; [destruct Hx|]. subst z.
  apply Nx. apply Ha; [now left|right; now left| |].
  - rewrite Forall_forall in H2. apply H2. now left.
  - inversion H1 as [|? ? H3 H4]; subst. destruct Hx as [->|Hx]; [congruence|].
    rewrite Forall_forall in H4. now apply H4.
Qed.

(** The answer goes by name, then file, then position. *)
Theorem C89_order lower upper ws query : StronglySorted not_after (respond lower upper ws query).
Proof.
  unfold respond. apply dedup_sorted.
  pose proof (sort_sorted info_leb info_total info_trans (flat_map (fun w => answer lower upper w query) ws)) as H.
  induction H as [|x l H IH Hx]; constructor; auto.
  rewrite Forall_forall in *. intros y Hy. apply info_not_after, Hx, Hy.
Qed.

(** Each entry comes once, when no two entries differ in nothing but their kind or container. *)
Theorem C89_once lower upper ws query :
  (forall x y, In x (respond lower upper ws query) -> In y (respond lower upper ws query) ->
     iname x = iname y -> ilocation x = ilocation y -> x = y) ->
  NoDup (respond lower upper ws query).
Proof.
  intros Ha. unfold respond in *. apply dedup_nodup; [apply sort_sorted; [exact info_total|exact info_trans]|].
  intros x y Hx Hy L1 L2. apply Ha; try (now apply dedup_in).
  - pose proof (tuple_antisym _ _ L1 L2) as E. now injection E.
  - pose proof (tuple_antisym _ _ L1 L2) as E. unfold info_key in E. injection E.
    destruct (ilocation x) as [u [a b] [c d]], (ilocation y) as [u' [a' b'] [c' d']]. cbn. congruence.
Qed.

(** ** A concrete index: User, Admin::User, User#find_user, a local variable and a gem's User. *)
Definition ascii_lower (t : text) : text := map (fun c => if (65 <=? c) && (c <=? 90) then c + 32 else c) t.
Definition ascii_upper (c : nat) : bool := (65 <=? c) && (c <=? 90).
Definition tUser : text := [85; 115; 101; 114].
Definition tuser : text := [117; 115; 101; 114].
Definition tAdmin : text := [65; 100; 109; 105; 110].
Definition tfind_user : text := [102; 105; 110; 100; 95; 117; 115; 101; 114].
Definition tu_s_er : text := [117; 95; 115; 95; 101; 114].
Definition tUsers : text := [85; 115; 101; 114; 115].

Definition at_line (n : nat) : text_range := mkRange 1 n (n + 4).
Definition place_of (r : text_range) : option location :=
  if start_byte r =? 99 then None else Some (mkLocation [file_id r] (start_byte r, 0) (end_byte r, 0)).
Definition demo_facts : list fact :=
  [mkFact (Namespace [tAdmin; tUser] Instance) KClass (at_line 10) false true;
   mkFact (Namespace [tUser] Instance) KClass (at_line 20) false true;
   mkFact (Method [tUser] tfind_user) KMethod (at_line 21) false true;
   mkFact (Variable_ tuser) KLocal (at_line 22) false true;
   mkFact (Namespace [tUsers] Instance) KModule (at_line 30) false false;
   mkFact (Method [] tu_s_er) KMethod (at_line 40) false true].
Definition demo : workspace := mkWorkspace demo_facts place_of.
Notation demo_respond := (respond ascii_lower ascii_upper).

Example C89_case : map (fun x => (iname x, icontainer x, fst (starts (ilocation x)))) (demo_respond [demo] tuser)
  = [(tUser, Some tAdmin, 10); (tUser, None, 20); (tfind_user, Some tUser, 21); (tu_s_er, None, 40)].
Proof. now vm_compute. Qed.
Example C89_case_top : map iname (demo_respond [demo] []) = [tUser].
Proof. now vm_compute. Qed.
Example C89_case_once : NoDup (demo_respond [demo; demo] tuser) /\ length (demo_respond [demo; demo] tuser) = 4.
Proof.
  split; [|now vm_compute]. apply C89_once. intros x y Hx Hy.
  vm_compute in Hx, Hy.
  destruct Hx as [<-|[<-|[<-|[<-|[]]]]], Hy as [<-|[<-|[<-|[<-|[]]]]]; cbn; intros; auto; discriminate.
Qed.
Example C89_case_grades : grade ascii_lower ascii_upper tUser tuser 2 /\ grade ascii_lower ascii_upper tUsers tuser 1
  /\ grade ascii_lower ascii_upper tuser tuser 3 /\ grade ascii_lower ascii_upper tfind_user tuser 0.
Proof.
  split; [constructor; [discriminate|reflexivity]|].
  split; [constructor; [discriminate|exists [115]; reflexivity]|].
  split; [now constructor|].
  constructor; [intros [r H]; discriminate|]. left. vm_compute. repeat constructor.
Qed.

(** ** Refuted: the letters of the query after its capitals do not count: "Uzz" finds User. *)
Theorem C89_letters_refuted : exists ws query x, In x (demo_respond ws query)
  /\ ~ scattered (ascii_lower query) (ascii_lower (iname x)).
Proof.
  exists [demo], [85; 122; 122]. eexists. split; [vm_compute; left; reflexivity|].
  intros H. vm_compute in H.
  inversion H as [|c p s H1|c p s H1]; subst; inversion H1 as [|? ? ? H2|? ? ? H2]; subst;
    inversion H2 as [|? ? ? H3|? ? ? H3]; subst; inversion H3 as [|? ? ? H4|? ? ? H4]; subst;
    inversion H4.
Qed.

(** ** Refuted: the full name of a symbol finds it. *)
Theorem C89_full_name_refuted : exists w f, In f (facts w) /\ listable f
  /\ locate w (at_range f) <> None /\ demo_respond [w] (print (fqn f)) = [].
Proof.
  exists demo, (mkFact (Namespace [tAdmin; tUser] Instance) KClass (at_line 10) false true).
  split; [now left|]. split; [repeat split; discriminate|]. split; [discriminate|]. now vm_compute.
Qed.

(** ** Refuted: a name that holds the query whole ranks above one whose letters are scattered. *)
Theorem C89_whole_word_refuted : exists p s1 s2 q1 q2,
  contains s1 p = true /\ contains s2 p = false
  /\ calculate_relevance ascii_lower ascii_upper s1 p = Some q1
  /\ calculate_relevance ascii_lower ascii_upper s2 p = Some q2 /\ (q1 < q2)%Q.
Proof.
  exists tuser, tfind_user, tu_s_er. eexists. eexists.
  split; [reflexivity|]. split; [reflexivity|]. split; [vm_compute; reflexivity|]. split; [vm_compute; reflexivity|].
  vm_compute. reflexivity.
Qed.

(** ** Refuted: the best match comes first: Abuser comes before User for "User". *)
Definition tAbuser : text := [65; 98; 117; 115; 101; 114].
Theorem C89_best_first_refuted : exists ws query x y r, demo_respond ws query = x :: r /\ In y r
  /\ iname y = query /\ iname x <> query.
Proof.
  exists [mkWorkspace [mkFact (Namespace [tUser] Instance) KClass (at_line 10) false true;
                       mkFact (Namespace [tAbuser] Instance) KClass (at_line 20) false true] place_of], tUser.
  eexists. eexists. eexists. split; [vm_compute; reflexivity|]. split; [now left|]. split; [reflexivity|]. discriminate.
Qed.

(** ** Refuted: each entry comes once.  A class and a constant that share name and place alternate in
    the answer of two folders that both hold the file. *)
Theorem C89_once_refuted : exists ws query, ~ NoDup (demo_respond ws query).
Proof.
  pose (w := mkWorkspace [mkFact (Namespace [tUser] Instance) KClass (at_line 10) false true;
                          mkFact (Constant [tUser]) KConstant (at_line 10) false true] place_of).
  exists [w; w], tUser. vm_compute. intros H. inversion H as [|? ? C _]; subst. apply C. right. now left.
Qed.

Print Assumptions C89_found.
Print Assumptions C89_ranks.
Print Assumptions C89_sound.
Print Assumptions C89_complete.
Print Assumptions C89_top_level_sound.
Print Assumptions C89_top_level_complete.
Print Assumptions C89_order.
Print Assumptions C89_once.
