(** Lemmas about the constant solver. *)
From Coq Require Import List Arith Lia Bool.
From Verif Require Import Types_Model Types_Order Types_Union Returns_Complete Constants_Model Constants_Spec.
Import ListNotations.
Local Arguments union : simpl never.

Scheme typed_rec' := Minimality for typed Sort Prop
  with all_typed_rec' := Minimality for all_typed Sort Prop
  with dep_typed_rec' := Minimality for dep_typed Sort Prop.
Combined Scheme typed_mutual from typed_rec', all_typed_rec', dep_typed_rec'.

(** * Orders and latest facts *)
Lemma order_leb_spec x1 x2 x3 y1 y2 y3 : order_leb (x1, x2, x3) (y1, y2, y3) = true <->
  x1 < y1 \/ (x1 = y1 /\ (x2 < y2 \/ (x2 = y2 /\ x3 <= y3))).
Proof.
  unfold order_leb. rewrite !orb_true_iff, !andb_true_iff, !orb_true_iff, !andb_true_iff, !Nat.ltb_lt, !Nat.eqb_eq, Nat.leb_le. reflexivity.
Qed.
Lemma order_refl a : order_leb a a = true.
Proof. destruct a as [[a b] c]. apply order_leb_spec. lia. Qed.
Lemma order_total a b : order_leb a b = false -> order_leb b a = true.
Proof.
  destruct a as [[a1 a2] a3], b as [[b1 b2] b3]. intros H. apply order_leb_spec.
  apply not_true_iff_false in H. rewrite order_leb_spec in H. lia.
Qed.
Lemma order_antisym a b : order_leb a b = true -> order_leb b a = true -> a = b.
Proof.
  destruct a as [[a1 a2] a3], b as [[b1 b2] b3]. rewrite !order_leb_spec. intros H1 H2.
  assert (a1 = b1) by lia. assert (a2 = b2) by lia. assert (a3 = b3) by lia. congruence.
Qed.
Lemma order_trans a b c : order_leb a b = true -> order_leb b c = true -> order_leb a c = true.
Proof. destruct a as [[a1 a2] a3], b as [[b1 b2] b3], c as [[c1 c2] c3]. rewrite !order_leb_spec. lia. Qed.
Lemma latest_from_spec facts c : forall best,
  (forall p, best = Some p -> cf_constant p = c) ->
  match latest_from facts c best with
  | Some f => (In f facts \/ best = Some f) /\ cf_constant f = c /\
      (forall f', In f' facts -> cf_constant f' = c -> order_leb (cf_order f') (cf_order f) = true) /\
      (forall p, best = Some p -> order_leb (cf_order p) (cf_order f) = true)
  | None => best = None /\ forall f', In f' facts -> cf_constant f' <> c
  end.
Proof.
  induction facts as [|f r IH]; intros best B; cbn [latest_from].
  - destruct best as [p|]; [|split; [reflexivity|intros f' []]].
    split; [auto|]. split; [auto|]. split; [intros f' []|]. intros q Q. assert (q = p) by congruence. subst. apply order_refl.
  - destruct (cf_constant f =? c) eqn:E.
    + apply Nat.eqb_eq in E.
      set (b' := match best with Some p => if order_leb (cf_order f) (cf_order p) then best else Some f | None => Some f end).
      assert (B' : forall p, b' = Some p -> cf_constant p = c).
      { unfold b'. destruct best as [q|]; [destruct (order_leb _ _)|]; intros p P; try (injection P as <-); auto. }
      specialize (IH b' B'). destruct (latest_from r c b') as [w|].
      * destruct IH as [I1 [I2 [I3 I4]]].
        assert (FW : order_leb (cf_order f) (cf_order w) = true /\ forall p, best = Some p -> order_leb (cf_order p) (cf_order w) = true).
        { unfold b' in I4. destruct best as [q|].
          - destruct (order_leb (cf_order f) (cf_order q)) eqn:O.
            + specialize (I4 q eq_refl). split; [eapply order_trans; eauto|]. intros p P. assert (p = q) by congruence. subst. exact I4.
            + specialize (I4 f eq_refl). split; [exact I4|]. intros p P. assert (p = q) by congruence. subst. apply order_total in O. eapply order_trans; eauto.
          - split; [apply I4; reflexivity|discriminate]. }
        split; [|split; [exact I2|split; [|apply FW]]].
        -- destruct I1 as [I1|I1]; [left; right; exact I1|]. unfold b' in I1. destruct best as [q|]; [destruct (order_leb _ _)|].
           ++ auto.
           ++ injection I1 as <-. left. left. reflexivity.
           ++ injection I1 as <-. left. left. reflexivity.
        -- intros f' [<-|F'] C; [exact (proj1 FW)|]. apply I3; assumption.
      * destruct IH as [I1 _]. exfalso. unfold b' in I1. destruct best; [destruct (order_leb _ _)|]; discriminate.
    + apply Nat.eqb_neq in E. specialize (IH best B). destruct (latest_from r c best) as [w|].
      * destruct IH as [I1 [I2 [I3 I4]]]. split; [destruct I1; [left; right|right]; assumption|]. split; [exact I2|]. split; [|exact I4].
        intros f' [<-|F'] C; [contradiction|auto].
      * destruct IH as [I1 I2]. split; [exact I1|]. intros f' [<-|F']; auto.
Qed.
Lemma latest_current facts c f : latest facts c = Some f -> current facts c f.
Proof.
  intros H. pose proof (latest_from_spec facts c None ltac:(discriminate)) as Q. unfold latest in H. rewrite H in Q.
  destruct Q as [[Q1|Q1] [Q2 [Q3 _]]]; [|discriminate]. split; auto.
Qed.
Lemma latest_none facts c : latest facts c = None -> forall f, ~ current facts c f.
Proof.
  intros H f [F1 [F2 _]]. pose proof (latest_from_spec facts c None ltac:(discriminate)) as Q. unfold latest in H. rewrite H in Q.
  destruct Q as [_ Q]. exact (Q f F1 F2).
Qed.
Lemma current_unique facts c f f' : distinct_places facts -> current facts c f -> current facts c f' -> f = f'.
Proof.
  intros D [A1 [A2 A3]] [B1 [B2 B3]]. apply D; auto; [congruence|]. apply order_antisym; auto.
Qed.
Lemma current_latest facts c f : distinct_places facts -> current facts c f -> latest facts c = Some f.
Proof.
  intros D C. destruct (latest facts c) as [f'|] eqn:E; [|exfalso; eapply latest_none; eauto].
  f_equal. eapply current_unique; eauto. apply latest_current, E.
Qed.

(** * The index of a target *)
Lemma index_of_spec eqs t : forall i, match index_of eqs t i with
  | Some j => i <= j < i + length eqs /\ exists e, nth_error eqs (j - i) = Some e /\ ce_target e = t
  | None => forall e, In e eqs -> ce_target e <> t
  end.
Proof.
  induction eqs as [|e r IH]; intros i; cbn [index_of].
  - intros e [].
  - specialize (IH (S i)). destruct (index_of r t (S i)) as [j|].
    + destruct IH as [L [e' [E T]]]. cbn. split; [lia|]. exists e'. split; [|exact T]. replace (j - i) with (S (j - S i)) by lia. exact E.
    + destruct (ce_target e =? t) eqn:Q.
      * apply Nat.eqb_eq in Q. cbn. split; [lia|]. exists e. rewrite Nat.sub_diag. auto.
      * apply Nat.eqb_neq in Q. intros e' [<-|E]; auto.
Qed.
Lemma cequation_eqb_eq a b : cequation_eqb a b = true <-> a = b.
Proof.
  destruct a as [t ds], b as [u es]. unfold cequation_eqb. cbn [ce_target ce_deps]. rewrite andb_true_iff, Nat.eqb_eq.
  destruct (list_eq_dec Nat.eq_dec ds es) as [E|N]; split; try (intros [-> H]); try discriminate; try congruence.
  intros H. injection H as -> ->. auto.
Qed.
(** the assertion on conflicting equations holds exactly when equal targets mean equal equations *)
Lemma targets_agree_spec eqs : forall seen, (forall p q, In p seen -> In q seen -> ce_target p = ce_target q -> p = q) ->
  targets_agree seen eqs = true <->
  forall p q, In p (seen ++ eqs) -> In q (seen ++ eqs) -> ce_target p = ce_target q -> p = q.
Proof.
  induction eqs as [|e r IH]; intros seen H; cbn [targets_agree].
  - rewrite app_nil_r. tauto.
  - rewrite andb_true_iff.
    assert (F : match find (fun p => ce_target p =? ce_target e) seen with Some p => cequation_eqb p e | None => true end = true <->
      forall p, In p seen -> ce_target p = ce_target e -> p = e).
    { destruct (find _ seen) as [p|] eqn:F.
      - apply find_some in F as [F1 F2]. apply Nat.eqb_eq in F2. rewrite cequation_eqb_eq. split.
        + intros <- q Q T. apply H; auto.
        + intros Q. auto.
      - split; [|reflexivity]. intros _ p P T. pose proof (find_none _ _ F p P) as N. cbn in N. apply Nat.eqb_neq in N. contradiction. }
    rewrite F. split.
    + intros [A B]. assert (H' : forall p q, In p (e :: seen) -> In q (e :: seen) -> ce_target p = ce_target q -> p = q).
      { intros p q [<-|P] [<-|Q] T; auto. symmetry. apply A; auto. }
      pose proof (proj1 (IH (e :: seen) H') B) as B'. intros p q P Q. apply B'; rewrite in_app_iff in *; cbn in *; tauto.
    + intros A. split; [intros p P T; apply A; auto; rewrite in_app_iff; cbn; auto|].
      apply IH.
      * intros p q P Q. apply A; rewrite in_app_iff; cbn in *; tauto.
      * intros p q P Q. apply A; rewrite in_app_iff in *; cbn in *; tauto.
Qed.

Lemma forall2_in {A B} (R : A -> B -> Prop) l k : Forall2 R l k -> forall x, In x l -> exists y, In y k /\ R x y.
Proof.
  induction 1 as [|a b l k H F IH]; intros x X; [destruct X|]. destruct X as [<-|X]; [exists b; cbn; auto|].
  destruct (IH x X) as [y [Y1 Y2]]. exists y. cbn. auto.
Qed.
(** * One equation *)
Lemma gather_spec (f : nat -> contribution) ds : (forall d, In d ds -> f d <> Broken) -> forall w ms, exists v, gather f ds w ms = Some v /\
  (v = Some TUnknown /\ (exists d, In d ds /\ f d = Incomplete) \/
   (forall d, In d ds -> f d <> Incomplete) /\
   (v = None /\ (w = true \/ (exists d, In d ds /\ f d = Waiting) \/ (ms = [] /\ ds = [])) \/
    exists l, w = false /\ Forall2 (fun d t => f d = Member t) ds l /\ ms ++ l <> [] /\ v = Some (union (ms ++ l)))).
Proof.
  induction ds as [|d ds IH]; intros NB w ms; cbn [gather].
  - destruct w; [|destruct ms as [|m ms]].
    + exists None. split; [reflexivity|]. right. split; [intros d []|]. left. auto.
    + exists None. split; [reflexivity|]. right. split; [intros d []|]. left. auto 6.
    + exists (Some (union (m :: ms))). split; [reflexivity|]. right. split; [intros d []|]. right. exists []. rewrite app_nil_r.
      repeat split; auto. discriminate.
  - assert (NB' : forall d, In d ds -> f d <> Broken) by (intros; apply NB; right; assumption).
    destruct (f d) as [t| | |] eqn:E.
    + destruct (IH NB' w (ms ++ [t])) as [v [G H]]. exists v. split; [exact G|]. destruct H as [[H1 [d' [D1 D2]]]|[H0 H]].
      * left. split; [exact H1|]. exists d'. split; [right; exact D1|exact D2].
      * right. split; [intros d' [<-|D]; [congruence|auto]|]. destruct H as [[H1 H]|[l [L1 [L2 [L3 L4]]]]].
        -- left. split; [exact H1|]. destruct H as [H|[[d' [D1 D2]]|[H H']]]; [auto| |destruct ms; discriminate].
           right. left. exists d'. split; [right; exact D1|exact D2].
        -- right. exists (t :: l). rewrite <- app_assoc in *. auto.
    + destruct (IH NB' true ms) as [v [G H]]. exists v. split; [exact G|]. destruct H as [[H1 [d' [D1 D2]]]|[H0 H]].
      * left. split; [exact H1|]. exists d'. split; [right; exact D1|exact D2].
      * right. split; [intros d' [<-|D]; [congruence|auto]|]. left. destruct H as [[H1 H]|[l [L1 _]]]; [|discriminate].
        split; [exact H1|]. right. left. exists d. split; [left; reflexivity|exact E].
    + exists (Some TUnknown). split; [reflexivity|]. left. split; [reflexivity|]. exists d. split; [left; reflexivity|exact E].
    + exfalso. apply (NB d (or_introl eq_refl)), E.
Qed.
Lemma values_eqb_eq a : forall b, values_eqb a b = true <-> a = b.
Proof.
  induction a as [|x a IH]; intros [|y b]; cbn; split; try discriminate; auto.
  - intros H. apply andb_prop in H as [H1 H2]. apply IH in H2. subst b. f_equal.
    destruct x, y; cbn in H1; try discriminate; auto. apply eqb_eq in H1. congruence.
  - intros H. injection H as <- <-. apply andb_true_intro. split; [|apply IH; reflexivity]. destruct x; cbn; auto. apply eqb_refl.
Qed.
Lemma cpass_nth f l : forall vs, cpass f l = Some vs -> length vs = length l /\
  forall i e, nth_error l i = Some e -> gather f (ce_deps e) false [] = Some (nth i vs None).
Proof.
  induction l as [|e l IH]; intros vs H; cbn in H.
  - injection H as <-. split; [reflexivity|]. intros [|i] e E; discriminate.
  - destruct (gather f (ce_deps e) false []) as [v|] eqn:G; [|discriminate]. destruct (cpass f l) as [k|]; [|discriminate].
    injection H as <-. destruct (IH k eq_refl) as [L N]. cbn. split; [lia|]. intros [|i] e' E; cbn in E; [|apply N, E].
    assert (e' = e) by congruence. subst e'. exact G.
Qed.
Lemma cpass_total f l : (forall e d, In e l -> In d (ce_deps e) -> f d <> Broken) -> exists vs, cpass f l = Some vs.
Proof.
  induction l as [|e l IH]; intros H; cbn; [eauto|].
  destruct (gather_spec f (ce_deps e) (fun d D => H e d (or_introl eq_refl) D) false []) as [v [G _]]. rewrite G.
  destruct IH as [vs V]; [intros; apply (H e0); [right|]; assumption|]. rewrite V. eauto.
Qed.

(** * The loop *)
Section Loop.
Variables (eqs : list cequation) (facts : list cfact) (resolve : nat -> option rdep).
Hypothesis ONE : one_per_target eqs.
Hypothesis PROJ : projected_known eqs resolve.
Hypothesis PLACES : distinct_places facts.
Notation con := (contribution_of eqs facts resolve).

Lemma not_broken vals e d : In e eqs -> In d (ce_deps e) -> con vals d <> Broken.
Proof.
  intros E D. unfold contribution_of. destruct (resolve d) as [[c|t]|] eqn:R; try discriminate.
  - destruct (latest facts c) as [f|]; [|discriminate].
    destruct (match index_of eqs (cf_target f) 0 with Some i => nth i vals None | None => if is_unknown (cf_type f) then None else Some (cf_type f) end) as [t|];
      [destruct (is_unknown t)|]; discriminate.
  - pose proof (PROJ e d t E D R) as N. destruct t; cbn; try discriminate. congruence.
Qed.
Fixpoint vchain (k : nat) : list (option ty) :=
  match k with
  | O => repeat None (length eqs)
  | S k => match cpass (con (vchain k)) eqs with Some v => v | None => [] end
  end.
Lemma vchain_pass k : cpass (con (vchain k)) eqs = Some (vchain (S k)).
Proof.
  destruct (cpass_total (con (vchain k)) eqs) as [vs V]; [intros; eapply not_broken; eauto|]. cbn [vchain]. rewrite V. reflexivity.
Qed.
Lemma vchain_length k : length (vchain k) = length eqs.
Proof. destruct k as [|k]; [apply repeat_length|]. apply (cpass_nth _ _ _ (vchain_pass k)). Qed.
Definition val (k i : nat) : option ty := nth i (vchain k) None.
Lemma val_step k i e : nth_error eqs i = Some e ->
  (val (S k) i = Some TUnknown /\ (exists d, In d (ce_deps e) /\ con (vchain k) d = Incomplete)) \/
  ((forall d, In d (ce_deps e) -> con (vchain k) d <> Incomplete) /\
   (val (S k) i = None /\ ((exists d, In d (ce_deps e) /\ con (vchain k) d = Waiting) \/ ce_deps e = []) \/
    exists l, Forall2 (fun d t => con (vchain k) d = Member t) (ce_deps e) l /\ l <> [] /\ val (S k) i = Some (union l))).
Proof.
  intros E. destruct (cpass_nth _ _ _ (vchain_pass k)) as [_ N]. specialize (N i e E).
  destruct (gather_spec (con (vchain k)) (ce_deps e)) with (w := false) (ms := @nil ty) as [v [G H]].
  { intros d D. eapply not_broken; [eapply nth_error_In, E|exact D]. }
  assert (Q : val (S k) i = v) by (unfold val; congruence). rewrite Q.
  destruct H as [H|[H0 [[H1 H2]|[l [_ [L1 [L2 L3]]]]]]]; [left; exact H|right|right]; (split; [exact H0|]).
  - left. split; [exact H1|]. destruct H2 as [H2|[H2|[_ H2]]]; [discriminate|auto|auto].
  - right. exists l. auto.
Qed.
(** contributions only move away from waiting *)
Lemma con_stable k d : (forall i t, val k i = Some t -> val (S k) i = Some t) -> con (vchain k) d <> Waiting ->
  con (vchain (S k)) d = con (vchain k) d.
Proof.
  intros H. unfold contribution_of. destruct (resolve d) as [[c|t]|]; auto. destruct (latest facts c) as [f|]; auto.
  destruct (index_of eqs (cf_target f) 0) as [i|]; auto. change (nth i (vchain k) None) with (val k i). change (nth i (vchain (S k)) None) with (val (S k) i).
  destruct (val k i) as [t|] eqn:V; [|congruence]. rewrite (H i t V). auto.
Qed.
Lemma val_grow k : forall i t, val k i = Some t -> val (S k) i = Some t.
Proof.
  induction k as [|k IH]; intros i t V.
  - unfold val in V. cbn [vchain] in V. exfalso. clear - V. revert i V. induction (length eqs) as [|n IH]; intros [|i] V; cbn in V; try discriminate. eauto.
  - assert (L : i < length eqs).
    { destruct (le_lt_dec (length eqs) i) as [H|H]; [|exact H]. unfold val in V. rewrite nth_overflow in V; [discriminate|]. rewrite vchain_length. exact H. }
    destruct (nth_error eqs i) as [e|] eqn:E; [|apply nth_error_None in E; lia].
    assert (ST : forall d, con (vchain k) d <> Waiting -> con (vchain (S k)) d = con (vchain k) d) by (intros; apply con_stable; assumption).
    destruct (val_step k i e E) as [[V1 [d [D1 D2]]]|[NI [[V1 _]|[l [F [N V1]]]]]]; [|congruence|].
    + destruct (val_step (S k) i e E) as [[W1 _]|[NI' _]]; [congruence|]. exfalso. apply (NI' d D1). rewrite ST by congruence. exact D2.
    + assert (F' : Forall2 (fun d t => con (vchain (S k)) d = Member t) (ce_deps e) l).
      { clear - F ST. induction F; constructor; auto. rewrite ST by congruence. exact H. }
      destruct (val_step (S k) i e E) as [[_ [d [D1 D2]]]|[NI' [[_ W]|[l' [F2 [N' W]]]]]].
      * exfalso. destruct (forall2_in _ _ _ F' d D1) as [t' [_ M]]. cbv beta in M. congruence.
      * exfalso. destruct W as [[d [D1 D2]]|W].
        -- destruct (forall2_in _ _ _ F' d D1) as [t' [_ M]]. cbv beta in M. congruence.
        -- rewrite W in F. inversion F; subst. congruence.
      * assert (l' = l); [|congruence]. clear - F' F2. revert l' F2. induction F'; intros l2 F2; inversion F2; subst; [reflexivity|].
        f_equal; [congruence|auto].
Qed.
Definition somev (k i : nat) : bool := match val k i with Some _ => true | None => false end.
Lemma chain_converges k : length eqs <= k -> vchain (S k) = vchain k.
Proof.
  intros LK.
  assert (ST : forall i, In i (seq 0 (length eqs)) -> somev (S k) i = somev k i).
  { apply chain_stable; [| |rewrite seq_length; exact LK].
    - intros j i _. unfold somev. destruct (val j i) as [t|] eqn:V; [|discriminate]. rewrite (val_grow j i t V). auto.
    - intros j H i _.
      assert (EQ : vchain (S j) = vchain j).
      { apply nth_ext with (d := None) (d' := None); [rewrite !vchain_length; reflexivity|]. intros n N. rewrite vchain_length in N.
        specialize (H n). change (val (S j) n = val j n). unfold somev in H. destruct (val j n) as [t|] eqn:V.
        - apply val_grow, V.
        - destruct (val (S j) n); [|reflexivity]. assert (I : In n (seq 0 (length eqs))) by (apply in_seq; lia). specialize (H I). discriminate. }
      assert (EQ2 : vchain (S (S j)) = vchain (S j)).
      { pose proof (vchain_pass (S j)) as P1. pose proof (vchain_pass j) as P2. rewrite EQ in P1 at 1. congruence. }
      unfold somev, val. rewrite EQ2. reflexivity. }
  apply nth_ext with (d := None) (d' := None); [rewrite !vchain_length; reflexivity|]. intros n N. rewrite vchain_length in N.
  change (val (S k) n = val k n). specialize (ST n). unfold somev in ST. destruct (val k n) as [t|] eqn:V.
  - apply val_grow, V.
  - destruct (val (S k) n); [|reflexivity]. assert (I : In n (seq 0 (length eqs))) by (apply in_seq; lia). specialize (ST I). discriminate.
Qed.
Lemma cloop_chain n : forall k j, k <= j < k + n -> vchain (S j) = vchain j ->
  exists i, cloop n eqs facts resolve (vchain k) = Some (vchain i) /\ vchain (S i) = vchain i.
Proof.
  induction n as [|n IH]; intros k j L E; [lia|]. cbn [cloop]. rewrite vchain_pass. destruct (values_eqb (vchain (S k)) (vchain k)) eqn:Q.
  - apply values_eqb_eq in Q. exists k. auto.
  - assert (N : k <> j). { intros ->. apply (proj2 (values_eqb_eq _ _)) in E. congruence. }
    apply (IH (S k) j); [lia|exact E].
Qed.
Lemma loop_result : exists i, cloop (length eqs + 1) eqs facts resolve (repeat None (length eqs)) = Some (vchain i) /\ vchain (S i) = vchain i.
Proof. apply (cloop_chain (length eqs + 1) 0 (length eqs)); [lia|]. apply chain_converges. lia. Qed.

(** * Values and typed equations *)
Lemma index_equation f i : index_of eqs (cf_target f) 0 = Some i -> exists e, nth_error eqs i = Some e /\ ce_target e = cf_target f.
Proof.
  intros H. pose proof (index_of_spec eqs (cf_target f) 0) as Q. rewrite H in Q. destruct Q as [_ [e [E T]]]. rewrite Nat.sub_0_r in E. eauto.
Qed.
Definition sound_vals (vals : list (option ty)) : Prop :=
  forall i e t, nth_error eqs i = Some e -> nth i vals None = Some t -> t <> TUnknown -> typed eqs facts resolve e t.
Lemma member_typed vals d t : sound_vals vals -> con vals d = Member t -> dep_typed eqs facts resolve d t.
Proof.
  intros SV. unfold contribution_of. destruct (resolve d) as [[c|t']|] eqn:R; try discriminate.
  - destruct (latest facts c) as [f|] eqn:L; [|discriminate]. apply latest_current in L.
    destruct (index_of eqs (cf_target f) 0) as [i|] eqn:I.
    + destruct (index_equation f i I) as [e [E T]]. destruct (nth i vals None) as [u|] eqn:V; [|discriminate].
      destruct (is_unknown u) eqn:U; [discriminate|]. intros H. assert (u = t) by congruence. subst u.
      eapply Dep_equation; eauto; [eapply nth_error_In, E|]. eapply SV; eauto. intros ->. discriminate.
    + destruct (is_unknown (cf_type f)) eqn:U; [discriminate|]. rewrite U. intros H. assert (cf_type f = t) by congruence. subst t.
      eapply Dep_plain; eauto; [|intros Z; rewrite Z in U; discriminate].
      pose proof (index_of_spec eqs (cf_target f) 0) as Q. rewrite I in Q. exact Q.
  - destruct (is_unknown t') eqn:U; [discriminate|]. intros H. assert (t' = t) by congruence. subst t'. apply Dep_projected; [exact R|].
    intros ->. discriminate.
Qed.
Lemma vals_sound k : sound_vals (vchain k).
Proof.
  induction k as [|k IH]; intros i e t E V N.
  - exfalso. cbn [vchain] in V. clear - V. revert i V. induction (length eqs) as [|n IH]; intros [|i] V; cbn in V; try discriminate. eauto.
  - change (val (S k) i = Some t) in V. destruct (val_step k i e E) as [[V1 _]|[_ [[V1 _]|[l [F [NE V1]]]]]]; [congruence|congruence|].
    assert (t = union l) by congruence. subst t. constructor; auto. clear - F IH. induction F; constructor; auto. eapply member_typed; eauto.
Qed.
Lemma fix_complete k : vchain (S k) = vchain k ->
  (forall e t, typed eqs facts resolve e t -> forall i, nth_error eqs i = Some e -> val k i = Some t) /\
  (forall ds l, all_typed eqs facts resolve ds l -> Forall2 (fun d t => con (vchain k) d = Member t) ds l) /\
  (forall d t, dep_typed eqs facts resolve d t -> con (vchain k) d = Member t /\ t <> TUnknown).
Proof.
  intros FX.
  assert (NU : forall t, t <> TUnknown -> is_unknown t = false) by (intros t N; destruct t; auto; congruence).
  assert (TN : forall e t, typed eqs facts resolve e t -> t <> TUnknown) by (intros e t T; inversion T; assumption).
  assert (KEY : (forall e t, typed eqs facts resolve e t -> t <> TUnknown /\ forall i, nth_error eqs i = Some e -> val k i = Some t) /\
    (forall ds l, all_typed eqs facts resolve ds l -> Forall2 (fun d t => con (vchain k) d = Member t) ds l) /\
    (forall d t, dep_typed eqs facts resolve d t -> con (vchain k) d = Member t /\ t <> TUnknown)).
  { apply typed_mutual.
    - intros e l A F NE N. split; [exact N|]. intros i E. unfold val. rewrite <- FX. change (val (S k) i = Some (union l)).
      destruct (val_step k i e E) as [[_ [d [D1 D2]]]|[_ [[_ W]|[l' [F2 [N' W]]]]]].
      + exfalso. destruct (forall2_in _ _ _ F d D1) as [t' [_ M]]. cbv beta in M. congruence.
      + exfalso. destruct W as [[d [D1 D2]]|W].
        * destruct (forall2_in _ _ _ F d D1) as [t' [_ M]]. cbv beta in M. congruence.
        * rewrite W in F. inversion F; subst. congruence.
      + assert (l' = l); [|congruence]. clear - F F2. revert l' F2. induction F; intros l2 F2; inversion F2; subst; [reflexivity|].
        f_equal; [congruence|auto].
    - constructor.
    - intros d ds t l _ [H _] _ F. constructor; assumption.
    - intros d t R N. unfold contribution_of. rewrite R, (NU t N). auto.
    - intros d c f R C NE N. unfold contribution_of. rewrite R, (current_latest facts c f PLACES C).
      destruct (index_of eqs (cf_target f) 0) as [i|] eqn:I; [destruct (index_equation f i I) as [e [E T]]; exfalso; eapply NE; [eapply nth_error_In, E|exact T]|].
      rewrite (NU _ N), (NU _ N). auto.
    - intros d c f e t R C E T _ [N V]. unfold contribution_of. rewrite R, (current_latest facts c f PLACES C).
      destruct (index_of eqs (cf_target f) 0) as [i|] eqn:I.
      + destruct (index_equation f i I) as [e' [E' T']]. assert (e' = e) by (apply ONE; [eapply nth_error_In, E'|exact E|congruence]). subst e'.
        change (nth i (vchain k) None) with (val k i). rewrite (V i E'), (NU t N). auto.
      + exfalso. pose proof (index_of_spec eqs (cf_target f) 0) as Q. rewrite I in Q. exact (Q e E T). }
  destruct KEY as [K1 [K2 K3]]. split; [intros e t T; apply (K1 e t T)|]. auto.
Qed.

Lemma nth_error_combine {A B} (l : list A) : forall (k : list B) i x y, nth_error l i = Some x -> nth_error k i = Some y ->
  nth_error (combine l k) i = Some (x, y).
Proof. induction l as [|a l IH]; intros [|b k] [|i] x y X Y; cbn in *; try discriminate; [congruence|]. apply IH; assumption. Qed.

(** the result of the solver, target by target *)
Lemma solve_constants_spec : exists out, solve_constants eqs facts resolve = Some out /\ map fst out = map ce_target eqs /\
  forall i e, nth_error eqs i = Some e -> exists t, nth_error out i = Some (ce_target e, t) /\
    forall u, u <> TUnknown -> (t = u <-> typed eqs facts resolve e u).
Proof.
  destruct eqs as [|e0 r] eqn:EQ.
  - exists []. split; [reflexivity|]. split; [reflexivity|]. intros [|i] e E; discriminate.
  - rewrite <- EQ in *. destruct loop_result as [k [L FX]].
    set (fill := fun v : option ty => match v with Some t => t | None => TUnknown end).
    exists (combine (map ce_target eqs) (map fill (vchain k))). split.
    + unfold solve_constants. rewrite EQ at 1. rewrite L.
      assert (TA : targets_agree [] eqs = true) by (apply targets_agree_spec; [intros p q []|exact ONE]). rewrite TA. reflexivity.
    + assert (LEN : length (map ce_target eqs) = length (map fill (vchain k))) by (rewrite !map_length, vchain_length; reflexivity).
      split.
      * clear - LEN. revert LEN. generalize (map ce_target eqs) (map fill (vchain k)). induction l as [|x l IH]; intros [|y q]; cbn; intros H; try discriminate; auto.
        f_equal. apply IH. lia.
      * intros i e E. assert (I : i < length eqs) by (apply nth_error_Some; congruence).
        exists (fill (val k i)). split.
        -- assert (N1 : nth_error (map ce_target eqs) i = Some (ce_target e)) by (apply map_nth_error, E).
           assert (N2 : nth_error (map fill (vchain k)) i = Some (fill (val k i))).
           { apply map_nth_error. unfold val. apply nth_error_nth'. rewrite vchain_length. exact I. }
           apply nth_error_combine; assumption.
        -- intros u N. split.
           ++ intros H. apply (vals_sound k i e u E); [|exact N]. change (val k i = Some u). unfold fill in H. destruct (val k i); congruence.
           ++ intros T. rewrite (proj1 (fix_complete k FX) e u T i E). reflexivity.
Qed.
End Loop.

(** * Circles *)
Lemma typed_acc eqs facts resolve : one_per_target eqs -> distinct_places facts ->
  (forall e t, typed eqs facts resolve e t -> Acc (fun a b => needs eqs facts resolve b a) e) /\
  (forall ds l, all_typed eqs facts resolve ds l -> forall d c f e, In d ds -> resolve d = Some (RValue c) -> current facts c f -> In e eqs -> ce_target e = cf_target f -> Acc (fun a b => needs eqs facts resolve b a) e) /\
  (forall d t, dep_typed eqs facts resolve d t -> forall c f e, resolve d = Some (RValue c) -> current facts c f -> In e eqs -> ce_target e = cf_target f -> Acc (fun a b => needs eqs facts resolve b a) e).
Proof.
  intros ONE PL. apply typed_mutual.
  - intros e l _ H _ _. constructor. intros e' [d [c [f [D [R [C [E T]]]]]]]. eapply H; eauto.
  - intros d c f e [].
  - intros d ds t l _ H1 _ H2 d' c f e [<-|D] R C E T; [eapply H1|eapply H2]; eauto.
  - intros d t R _ c f e R'. congruence.
  - intros d c f R C NE _ c' f' e R' C' E T. assert (c' = c) by congruence. subst c'.
    assert (f' = f) by (eapply current_unique; eauto). subst f'. exfalso. exact (NE e E T).
  - intros d c f e t R C E T _ A c' f' e' R' C' E' T'. assert (c' = c) by congruence. subst c'.
    assert (f' = f) by (eapply current_unique; eauto). subst f'. assert (e' = e) by (apply ONE; auto; congruence). subst e'. exact A.
Qed.
Lemma acc_no_circle eqs facts resolve e : Acc (fun a b => needs eqs facts resolve b a) e -> ~ needs_chain eqs facts resolve e e.
Proof.
  intros A. assert (H : forall e, Acc (fun a b => needs eqs facts resolve b a) e -> forall e', needs_chain eqs facts resolve e e' -> e' = e -> False).
  { clear. intros e A. induction A as [e A IH]. intros e' C ->.
    assert (R : exists e1, needs eqs facts resolve e e1 /\ needs_chain eqs facts resolve e1 e1).
    { inversion C as [a b N|a b c N C']; subst.
      - exists e. split; assumption.
      - exists b. split; [exact N|]. clear - N C'. induction C' as [b c M|b d c M C IH].
        + eapply N_more; [exact M|]. constructor. exact N.
        + eapply N_more; [exact M|]. clear - N C. induction C as [d c M|d x c M C IH]; [eapply N_more; [exact M|constructor; exact N]|].
          eapply N_more; [exact M|]. apply IH, N. }
    destruct R as [e1 [N C1]]. exact (IH e1 N e1 C1 eq_refl). }
  intros C. exact (H e A e C eq_refl).
Qed.

Lemma typed_same eqs facts resolve eqs' facts' : (forall e, In e eqs -> In e eqs') -> (forall e, In e eqs' -> In e eqs) ->
  (forall f, In f facts <-> In f facts') ->
  (forall e t, typed eqs facts resolve e t -> typed eqs' facts' resolve e t) /\
  (forall ds l, all_typed eqs facts resolve ds l -> all_typed eqs' facts' resolve ds l) /\
  (forall d t, dep_typed eqs facts resolve d t -> dep_typed eqs' facts' resolve d t).
Proof.
  intros E1 E2 F.
  assert (CU : forall c f, current facts c f -> current facts' c f).
  { intros c f [A [B C]]. split; [apply F, A|]. split; [exact B|]. intros f' I. apply C, F, I. }
  apply typed_mutual.
  - intros e l _ H N U. constructor; assumption.
  - constructor.
  - intros d ds t l _ H1 _ H2. constructor; assumption.
  - intros d t R N. constructor; assumption.
  - intros d c f R C NE N. eapply Dep_plain; eauto.
  - intros d c f e t R C E T _ H. eapply Dep_equation; eauto.
Qed.
