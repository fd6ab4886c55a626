(** C59: the method index is an exact per-file index.  C60: which method fact counts for a call. *)
From Coq Require Import List Arith NArith Lia Bool Permutation Sorted.
From Verif Require Import Lib Sort_Lib Index_Lib Methods_Model Methods_Spec Methods_Proofs.
Import ListNotations.

Lemma ran_within B h : (N.of_nat B <= 4294967296)%N -> well_formed h ->
  (forall h1 h2, h = h1 ++ h2 -> length (live h1) <= B) ->
  exists s G, run h = Some s /\ ok s G /\ map snd G = live h /\ length (slots (facts s)) <= B.
Proof.
  intros HB HW HF. apply (run_ok B h HB new []); auto using ok_new. simpl. lia.
Qed.

Lemma ran h : well_formed h -> fits h -> exists s G, run h = Some s /\ ok s G /\ map snd G = live h.
Proof.
  intros HW HF. destruct (ran_within (N.to_nat 4294967296) h) as (s & G & R); auto.
  - rewrite N2Nat.id. lia.
  - intros h1 h2 E. specialize (HF h1 h2 E). lia.
  - exists s, G. tauto.
Qed.

Lemma final h s : well_formed h -> fits h -> run h = Some s -> exists G, ok s G /\ map snd G = live h.
Proof.
  intros HW HF E. destruct (ran h HW HF) as (s' & G & E' & R). assert (s' = s) as -> by congruence. eauto.
Qed.

Theorem C59_never_panics h : well_formed h -> fits h -> exists s, run h = Some s.
Proof. intros HW HF. destruct (ran h HW HF) as (s & G & E & _). eauto. Qed.

(** Supplying a fact of another file is reported. *)
Theorem C59_foreign_fact_panics s n xs x :
  In x xs -> file_id (range x) <> n -> replace_file s n xs = None.
Proof. intros H N. unfold replace_file. rewrite insert_all_panics; auto. exists x. auto. Qed.

(** [facts_for]: the facts in force with that qualified name, in order of position. *)
Theorem C59_facts_for h s q : well_formed h -> fits h -> run h = Some s ->
  in_order fqn_position (filter (fun x => fqn x =? q) (live h)) (facts_for s q).
Proof.
  intros HW HF E. destruct (final h s HW HF E) as (G & (HA & HQ & _) & EL). unfold facts_for.
  rewrite (indexed_clone Nat.eqb kfqn fqn_key (facts s) (by_fqn s) G q HA HQ), EL. apply sort_in_order.
Qed.

Lemma of_owner h s o : well_formed h -> fits h -> run h = Some s ->
  in_order owner_position (filter (fun x => owner x =? o) (live h))
    (clone_facts (facts s) (getd Nat.eqb (by_owner s) o)).
Proof.
  intros HW HF E. destruct (final h s HW HF E) as (G & (HA & _ & HO & _) & EL).
  rewrite (indexed_clone Nat.eqb kowner owner_key (facts s) (by_owner s) G o HA HO), EL. apply sort_in_order.
Qed.

(** [facts_matching_owner]: the owner's facts whose name the filter accepts, in order. *)
Theorem C59_facts_matching_owner h s o p : well_formed h -> fits h -> run h = Some s ->
  in_order owner_position
    (filter (fun x => (owner x =? o) && match name x with Some n => p n | None => false end) (live h))
    (facts_matching_owner s o p).
Proof.
  intros HW HF E. destruct (final h s HW HF E) as (G & (HA & _ & HO & _) & EL). unfold facts_matching_owner.
  rewrite (indexed_clone Nat.eqb kowner owner_key (facts s) (by_owner s) G o HA HO), EL.
  rewrite sort_filter by (apply key_total || apply key_trans).
  assert (forall (q r : method -> bool) l, filter q (filter r l) = filter (fun x => r x && q x) l) as FF.
  { intros q r l. induction l as [|x l IH]; auto. simpl. destruct (r x); simpl; rewrite IH; auto. }
  rewrite FF. apply sort_in_order.
Qed.

(** [facts_matching_owner_name]: the facts of one method of one owner, in order. *)
Theorem C59_facts_matching_owner_name h s o n : well_formed h -> fits h -> run h = Some s ->
  in_order owner_position
    (filter (fun x => (owner x =? o) && match name x with Some m => m =? n | None => false end) (live h))
    (facts_matching_owner_name s o n).
Proof.
  intros HW HF E. destruct (final h s HW HF E) as (G & (HA & _ & _ & HN & _) & EL).
  unfold facts_matching_owner_name.
  rewrite (indexed_clone pair_eqb kname owner_key (facts s) (by_owner_name s) G (o, n) HA HN), EL.
  replace (filter (has_key pair_eqb kname (o, n)) (live h)) with
    (filter (fun x => (owner x =? o) && match name x with Some m => m =? n | None => false end) (live h)).
  - apply sort_in_order.
  - apply filter_same. intros x _. unfold has_key, kname, pair_eqb. destruct (name x); simpl; auto.
    now rewrite andb_false_r.
Qed.

(** [facts_in_file]: the facts in force of that file, in order of position. *)
Theorem C59_facts_in_file h s n : well_formed h -> fits h -> run h = Some s ->
  in_order file_position (filter (fun x => file_id (range x) =? n) (live h)) (facts_in_file s n).
Proof.
  intros HW HF E. destruct (final h s HW HF E) as (G & (HA & _ & _ & _ & HI) & EL). unfold facts_in_file.
  rewrite (indexed_clone Nat.eqb kfile file_key (facts s) (by_file s) G n HA HI), EL. apply sort_in_order.
Qed.

(** [all_facts]: every fact in force once. *)
Theorem C59_all_facts h s : well_formed h -> fits h -> run h = Some s ->
  Permutation (all_facts s) (live h).
Proof.
  intros HW HF E. destruct (final h s HW HF E) as (G & (HA & _) & EL).
  pose proof (holds_occupied _ _ HA) as P. now rewrite EL in P.
Qed.

(** The names of an owner: each once, ordered by first definition. *)
Lemma names_from_spec l : forall seen,
  NoDup (names_from seen l) /\
  (forall n, In n (names_from seen l) <-> (exists x, In x l /\ name x = Some n) /\ ~ In n seen) /\
  (forall n m l1 l2 l3, names_from seen l = l1 ++ n :: l2 ++ m :: l3 ->
     exists a x b, l = a ++ x :: b /\ name x = Some n /\ forall y, In y a -> name y <> Some m).
Proof.
  induction l as [|x l IH]; intros seen; cbn [names_from].
  - split; [constructor|]. split; [|intros n m [|? ?] ? ? H; discriminate].
    intros n. split; [easy|]. intros [(x & [] & _) _].
  - destruct (name x) as [n|] eqn:En.
    + destruct (existsb (Nat.eqb n) seen) eqn:Es.
      * destruct (IH seen) as (I1 & I2 & I3). split; auto.
        assert (In n seen) as Hn.
        { apply existsb_exists in Es. destruct Es as (m & Hm & E). apply Nat.eqb_eq in E. now subst. }
        split.
        -- intros m. rewrite I2. split; [intros [(y & Hy & E) N]|intros [(y & [<-|Hy] & E) N]].
           ++ split; auto. exists y. split; auto. now right.
           ++ congruence.
           ++ split; auto. exists y. auto.
        -- intros k m l1 l2 l3 E. destruct (I3 k m l1 l2 l3 E) as (a & y & b & -> & Ey & Ha).
           exists (x :: a), y, b. split; auto. split; auto. intros z [<-|Hz]; auto.
           rewrite En. intros H. injection H as <-.
           assert (In n (names_from seen (a ++ y :: b))) as Hin.
           { rewrite E. apply in_or_app. right. right. apply in_or_app. right. now left. }
           apply I2 in Hin. tauto.
      * destruct (IH (n :: seen)) as (I1 & I2 & I3).
        assert (~ In n seen) as Hn.
        { intros H. assert (existsb (Nat.eqb n) seen = true); [|congruence].
          apply existsb_exists. exists n. split; auto. apply Nat.eqb_refl. }
        split; [|split].
        -- constructor; auto. rewrite I2. intros [_ N]. apply N. now left.
        -- intros m. cbn [In]. rewrite I2. split.
           ++ intros [<-|[(y & Hy & E) N]].
              ** split; auto. exists x. split; auto. 
              ** split; [exists y; split; auto|]. intros H. apply N. now right.
           ++ intros [(y & [<-|Hy] & E) N].
              ** left. congruence.
              ** destruct (Nat.eq_dec n m) as [<-|Nm]; auto. right. split; [eauto|].
                 intros [H|H]; auto.
        -- intros k m l1 l2 l3 E. destruct l1 as [|z l1].
           ++ simpl in E. injection E as -> E. exists [], x, l. split; auto.
           ++ simpl in E. injection E as -> E. destruct (I3 k m l1 l2 l3 E) as (a & y & b & -> & Ey & Ha).
              exists (x :: a), y, b. split; auto. split; auto. intros w [<-|Hw]; auto.
              rewrite En. intros H. injection H as <-.
              assert (In z (names_from (z :: seen) (a ++ y :: b))) as Hin.
              { rewrite E. apply in_or_app. right. right. apply in_or_app. right. now left. }
              apply I2 in Hin. destruct Hin as [_ N]. apply N. now left.
    + destruct (IH seen) as (I1 & I2 & I3). split; auto. split.
      * intros m. rewrite I2. split; [intros [(y & Hy & E) N]|intros [(y & [<-|Hy] & E) N]].
        -- split; auto. exists y. split; auto. now right.
        -- congruence.
        -- split; auto. exists y. auto.
      * intros k m l1 l2 l3 E. destruct (I3 k m l1 l2 l3 E) as (a & y & b & -> & Ey & Ha).
        exists (x :: a), y, b. split; auto. split; auto. intros z [<-|Hz]; auto. congruence.
Qed.

Theorem C59_names_for_owner h s o : well_formed h -> fits h -> run h = Some s ->
  NoDup (names_for_owner s o) /\
  (forall n, In n (names_for_owner s o) <-> exists x, In x (live h) /\ of_method o n x) /\
  exists l, in_order owner_position (filter (fun x => owner x =? o) (live h)) l /\
    forall n m l1 l2 l3, names_for_owner s o = l1 ++ n :: l2 ++ m :: l3 ->
      exists a x b, l = a ++ x :: b /\ name x = Some n /\ forall y, In y a -> name y <> Some m.
Proof.
  intros HW HF E. pose proof (of_owner h s o HW HF E) as HI. unfold names_for_owner.
  destruct (names_from_spec (clone_facts (facts s) (getd Nat.eqb (by_owner s) o)) []) as (I1 & I2 & I3).
  split; auto. split; [|eexists; split; [exact HI|exact I3]].
  intros n. rewrite I2. destruct HI as [P _]. split.
  - intros [(x & Hx & En) _]. exists x. apply (Permutation_in _ (Permutation_sym P)) in Hx.
    apply filter_In in Hx. destruct Hx as [Hx Ho]. apply Nat.eqb_eq in Ho. repeat split; auto.
  - intros (x & Hx & Ho & En). split; [|easy]. exists x. split; auto. eapply Permutation_in; [exact P|].
    apply filter_In. split; auto. now apply Nat.eqb_eq.
Qed.

(** The arena never has more slots than facts were in force at once. *)
Theorem C59_slots_reused h s bound : well_formed h -> run h = Some s ->
  (N.of_nat bound <= 4294967296)%N ->
  (forall h1 h2, h = h1 ++ h2 -> length (live h1) <= bound) ->
  length (slots (facts s)) <= bound.
Proof.
  intros HW E HB HF. destruct (ran_within bound h HB HW HF) as (s' & G & E' & _ & _ & L).
  congruence.
Qed.

(** ** C60 *)

Lemma all_same_unique x l y : all_same x l = Unique y <-> y = x /\ forall z, In z l -> z = x.
Proof.
  induction l as [|z l IH]; cbn [all_same].
  - split; [intros H; injection H as <-; now split|intros [-> _]; auto].
  - destruct (method_eq_dec z x) as [->|N].
    + rewrite IH. split; intros [-> H]; split; auto.
      * intros w [<-|Hw]; auto.
      * intros w Hw. apply H. now right.
    + split; [discriminate|]. intros [-> H]. exfalso. apply N. apply H. now left.
Qed.

Lemma all_same_missing x l : all_same x l <> Missing.
Proof. induction l as [|z l IH]; cbn [all_same]; [easy|]. destruct (method_eq_dec z x); easy. Qed.

Lemma effective_spec h s o n : well_formed h -> fits h -> run h = Some s ->
  exists l, (forall x, In x l <-> In x (live h) /\ of_method o n x) /\
    effective s o n = Some (if existsb is_absent l then Missing else
      match filter (fun x => negb (existsb is_unavailable l) || is_unavailable x) l with
      | [] => Missing | first :: r => all_same first r end).
Proof.
  intros HW HF E. destruct (final h s HW HF E) as (G & (HA & _ & _ & HN & _) & EL).
  set (B := sort (entry_leb owner_key) (filter (wants pair_eqb kname (o, n)) G)).
  exists (map snd B).
  assert (forall x, In x (map snd B) <-> In x (live h) /\ of_method o n x) as HB.
  { intros x. rewrite in_map_iff. unfold B. split.
    - intros ([i y] & <- & H). rewrite sort_in in H. apply filter_In in H. destruct H as [H W].
      split; [rewrite <- EL; now apply in_map|]. simpl. unfold wants, has_key, kname in W. simpl in W.
      unfold of_method. destruct (name y); [|discriminate]. apply pair_eqb_eq in W. injection W as -> ->. auto.
    - intros [H [Ho En]]. rewrite <- EL in H. apply in_map_iff in H. destruct H as (e & <- & H).
      exists e. split; auto. rewrite sort_in. apply filter_In. split; auto. unfold wants, has_key, kname.
      rewrite En, Ho. now apply pair_eqb_eq. }
  split; auto. unfold effective. pose proof (HN (o, n)) as EB. fold B in EB. unfold getd in EB.
  destruct (get pair_eqb (by_owner_name s) (o, n)) as [ids|].
  - subst ids. rewrite (holds_entries _ G); auto.
    + destruct (existsb is_absent (map snd B)); auto.
      destruct (filter _ (map snd B)) as [|x r]; auto.
    + intros e He. unfold B in He. rewrite sort_in in He. now apply filter_In in He.
  - symmetry in EB. apply map_eq_nil in EB. rewrite EB. reflexivity.
Qed.

Lemma absent_masked h o n l : (forall x, In x l <-> In x (live h) /\ of_method o n x) ->
  (existsb is_absent l = true <-> masked (live h) o n).
Proof.
  intros HB. rewrite existsb_exists. unfold masked. split.
  - intros (x & Hx & A). apply HB in Hx. unfold is_absent in A.
    destruct (avail x) eqn:Ea; try discriminate. exists x, reason. tauto.
  - intros (x & r & Hx & Hm & Ea). exists x. split; [apply HB; auto|]. unfold is_absent. now rewrite Ea.
Qed.

Lemma counted h o n l : (forall x, In x l <-> In x (live h) /\ of_method o n x) ->
  forall x, In x (filter (fun x => negb (existsb is_unavailable l) || is_unavailable x) l) <->
            counts (live h) o n x.
Proof.
  intros HB x. rewrite filter_In, HB. unfold counts.
  assert (existsb is_unavailable l = true <->
          exists y r, In y (live h) /\ of_method o n y /\ avail y = Unavailable r) as HU.
  { rewrite existsb_exists. split.
    - intros (y & Hy & U). apply HB in Hy. unfold is_unavailable in U.
      destruct (avail y) eqn:Ea; try discriminate. exists y, reason. tauto.
    - intros (y & r & Hy & Hm & Ea). exists y. split; [apply HB; auto|]. unfold is_unavailable. now rewrite Ea. }
  assert (is_unavailable x = true <-> exists r, avail x = Unavailable r) as HX.
  { unfold is_unavailable. destruct (avail x); split; try easy; try (intros [r H]; discriminate).
    intros _. eauto. }
  rewrite orb_true_iff, negb_true_iff. rewrite <- HU, <- HX. destruct (existsb is_unavailable l); intuition.
Qed.

Theorem C60_never_panics h s o n : well_formed h -> fits h -> run h = Some s ->
  exists m, effective s o n = Some m.
Proof. intros HW HF E. destruct (effective_spec h s o n HW HF E) as (l & _ & ->). eauto. Qed.

(** No method, or a method taken away: nothing is found. *)
Theorem C60_missing h s o n : well_formed h -> fits h -> run h = Some s ->
  (effective s o n = Some Missing <->
   masked (live h) o n \/ ~ exists x, In x (live h) /\ of_method o n x).
Proof.
  intros HW HF E. destruct (effective_spec h s o n HW HF E) as (l & HB & ->).
  pose proof (absent_masked h o n l HB) as HM. pose proof (counted h o n l HB) as HC.
  destruct (existsb is_absent l); [split; auto; intros _; left; now apply HM|].
  destruct (filter _ l) as [|x r] eqn:EF.
  - split; auto. intros _. right. intros (x & Hx & Ho).
    destruct (existsb is_unavailable l) eqn:EU.
    + apply existsb_exists in EU. destruct EU as (y & Hy & U).
      apply (HC y). unfold counts. apply HB in Hy. destruct Hy as [H1 H2]. repeat split; auto; try apply H2.
      intros _. unfold is_unavailable in U. destruct (avail y); try discriminate. eauto.
    + assert (In x []) as []. rewrite <- EF. apply filter_In. split; [now apply HB|]. reflexivity.
  - split; [intros H; injection H as H; now apply all_same_missing in H|].
    intros [H|H]; [apply HM in H; discriminate|]. exfalso. apply H.
    assert (counts (live h) o n x) as (H1 & H2 & _) by (apply HC; now left). eauto.
Qed.

(** A method is found exactly when every fact that counts says the same. *)
Theorem C60_unique h s o n x : well_formed h -> fits h -> run h = Some s ->
  (effective s o n = Some (Unique x) <->
   ~ masked (live h) o n /\ counts (live h) o n x /\ forall y, counts (live h) o n y -> y = x).
Proof.
  intros HW HF E. destruct (effective_spec h s o n HW HF E) as (l & HB & ->).
  pose proof (absent_masked h o n l HB) as HM. pose proof (counted h o n l HB) as HC.
  destruct (existsb is_absent l).
  - split; [discriminate|]. intros [H _]. exfalso. apply H. now apply HM.
  - assert (~ masked (live h) o n) as NM by (intros H; apply HM in H; discriminate).
    destruct (filter _ l) as [|y r] eqn:EF.
    + split; [discriminate|]. intros (_ & H & _). now apply HC in H.
    + assert (all_same y r = Unique x <-> x = y /\ forall z, In z r -> z = y) as A by apply all_same_unique.
      split.
      * intros H. injection H as H. apply A in H. destruct H as [-> H]. split; auto.
        split; [apply HC; now left|]. intros z Hz. apply HC in Hz. destruct Hz as [<-|Hz]; auto.
      * intros (_ & Hx & Hu). f_equal. apply A. assert (y = x) as ->.
        { apply Hu. apply HC. now left. }
        split; auto. intros z Hz. apply Hu. apply HC. now right.
Qed.

(** Otherwise two facts disagree. *)
Theorem C60_ambiguous h s o n : well_formed h -> fits h -> run h = Some s ->
  (effective s o n = Some Ambiguous <->
   ~ masked (live h) o n /\ exists x y, counts (live h) o n x /\ counts (live h) o n y /\ x <> y).
Proof.
  intros HW HF E. pose proof (C60_missing h s o n HW HF E) as H0.
  pose proof (fun x => C60_unique h s o n x HW HF E) as H1.
  destruct (effective_spec h s o n HW HF E) as (l & HB & ES).
  pose proof (absent_masked h o n l HB) as HM. pose proof (counted h o n l HB) as HC.
  rewrite ES in *. destruct (existsb is_absent l).
  - split; [discriminate|]. intros [H _]. exfalso. apply H. now apply HM.
  - assert (~ masked (live h) o n) as NM by (intros H; apply HM in H; discriminate).
    destruct (filter _ l) as [|y r] eqn:EF.
    + split; [discriminate|]. intros (_ & x & _ & H & _). now apply HC in H.
    + split.
      * intros H. split; auto.
        destruct (Forall_Exists_dec (fun z => z = y) (fun z => method_eq_dec z y) r) as [F|F].
        -- exfalso. injection H as H. assert (all_same y r = Unique y); [|congruence].
           apply all_same_unique. split; auto. now apply Forall_forall.
        -- apply Exists_exists in F. destruct F as (z & Hz & N). exists z, y.
           split; [apply HC; now right|]. split; [apply HC; now left|auto].
      * intros (_ & a & b & Ha & Hb & N). destruct (all_same y r) as [|x|] eqn:EA; auto.
        -- now apply all_same_missing in EA.
        -- exfalso. destruct (proj1 (H1 x) eq_refl) as (_ & _ & Hu). apply N.
           rewrite (Hu a Ha), (Hu b Hb). reflexivity.
Qed.

(** The answer depends on the set of facts only. *)
Theorem C60_order_independent h1 h2 s1 s2 o n :
  well_formed h1 -> fits h1 -> run h1 = Some s1 ->
  well_formed h2 -> fits h2 -> run h2 = Some s2 ->
  (forall x, of_method o n x -> (In x (live h1) <-> In x (live h2))) ->
  effective s1 o n = effective s2 o n.
Proof.
  intros W1 F1 E1 W2 F2 E2 H.
  assert (masked (live h1) o n <-> masked (live h2) o n) as HM.
  { unfold masked. split; intros (x & r & Hx & Ho & A); exists x, r; repeat split; try apply Ho; auto;
      now apply H. }
  assert (forall x, counts (live h1) o n x <-> counts (live h2) o n x) as HC.
  { intros x. unfold counts. split; intros (Hx & Ho & A); repeat split; try apply Ho; try (now apply H);
      intros (y & r & Hy & Hyo & Ay); apply A; exists y, r; repeat split; try apply Hyo; auto; now apply H. }
  destruct (C60_never_panics h1 s1 o n W1 F1 E1) as [m1 M1].
  destruct (C60_never_panics h2 s2 o n W2 F2 E2) as [m2 M2].
  rewrite M1, M2. f_equal. destruct m1 as [|x|].
  - apply (C60_missing h1 s1 o n W1 F1 E1) in M1.
    assert (effective s2 o n = Some Missing) as K; [|congruence].
    apply (C60_missing h2 s2 o n W2 F2 E2). destruct M1 as [M1|M1]; [left; now apply HM|right].
    intros (x & Hx & Ho). apply M1. exists x. split; auto. now apply H.
  - apply (C60_unique h1 s1 o n x W1 F1 E1) in M1. destruct M1 as (A & B & C).
    assert (effective s2 o n = Some (Unique x)) as K; [|congruence].
    apply (C60_unique h2 s2 o n x W2 F2 E2). split; [now rewrite <- HM|]. split; [now apply HC|].
    intros y Hy. apply C. now apply HC.
  - apply (C60_ambiguous h1 s1 o n W1 F1 E1) in M1. destruct M1 as (A & x & y & Hx & Hy & N).
    assert (effective s2 o n = Some Ambiguous) as K; [|congruence].
    apply (C60_ambiguous h2 s2 o n W2 F2 E2). split; [now rewrite <- HM|]. exists x, y.
    split; [now apply HC|]. split; [now apply HC|auto].
Qed.

(** Example: a method defined twice, then made unavailable by another file. *)
Definition meth q o n f a v r : method := mkMethod q o (Some n) (mkRange f a (a + 2)) v r.
Definition sample : list op :=
  [ReplaceFile 2 [meth 1 7 3 2 5 Available 0; meth 2 7 4 2 0 Available 0];
   ReplaceFile 1 [meth 1 7 3 1 4 Available 1]; RemoveFile 5;
   ReplaceFile 2 [meth 2 7 4 2 0 Available 0; meth 1 7 3 2 6 Available 0];
   Add (meth 1 7 3 4 9 (Unavailable 8) 0)].

Example sample_meets : well_formed sample /\ fits sample.
Proof.
  split.
  - intros n xs x H Hx. simpl in H.
    repeat (destruct H as [H|H]; [try discriminate; injection H as <- <-; simpl in Hx;
            repeat (destruct Hx as [<-|Hx]; [reflexivity|]); easy|]). easy.
  - intros h1 h2 E. unfold sample in E.
    do 5 (destruct h1 as [|? h1]; [cbn; lia|simpl in E; injection E as <- E]).
    destruct h1; [cbn; lia|discriminate].
Qed.

Example sample_answers :
  option_map (fun s => effective s 7 3) (run (firstn 4 sample)) = Some (Some Ambiguous) /\
  option_map (fun s => effective s 7 4) (run (firstn 4 sample)) = Some (Some (Unique (meth 2 7 4 2 0 Available 0))) /\
  option_map (fun s => effective s 7 3) (run sample) = Some (Some (Unique (meth 1 7 3 4 9 (Unavailable 8) 0))) /\
  option_map (fun s => names_for_owner s 7) (run sample) = Some [3; 4] /\
  option_map (fun s => facts_for s 1) (run (firstn 4 sample)) =
    Some [meth 1 7 3 1 4 Available 1; meth 1 7 3 2 6 Available 0].
Proof. vm_compute. auto. Qed.

Print Assumptions C59_never_panics.
Print Assumptions C59_foreign_fact_panics.
Print Assumptions C59_facts_for.
Print Assumptions C59_facts_matching_owner.
Print Assumptions C59_facts_matching_owner_name.
Print Assumptions C59_facts_in_file.
Print Assumptions C59_all_facts.
Print Assumptions C59_names_for_owner.
Print Assumptions C59_slots_reused.
Print Assumptions C60_never_panics.
Print Assumptions C60_missing.
Print Assumptions C60_unique.
Print Assumptions C60_ambiguous.
Print Assumptions C60_order_independent.
