(** C39: the reference index is an exact per-file index. *)
From Coq Require Import List Arith Lia Bool Permutation Sorted.
From Verif Require Import Sort_Lib Index_Lib References_Model References_Spec References_Proofs.
Import ListNotations.

Lemma ran h : well_formed h -> exists s, run h = Some s /\ ok s (live h) (tidy_from true h).
Proof. intros HW. apply (run_ok h new [] true); auto using ok_new. Qed.

Lemma final h s : well_formed h -> run h = Some s -> ok s (live h) (tidy_from true h).
Proof. intros HW E. destruct (ran h HW) as (s' & E' & H). congruence. Qed.

Lemma final_tidy h s : well_formed h -> tidy h -> run h = Some s -> ok s (live h) true.
Proof. intros HW HT E. pose proof (final h s HW E) as H. now rewrite HT in H. Qed.

Theorem C39_never_panics h : well_formed h -> exists s, run h = Some s.
Proof. intros HW. destruct (ran h HW) as (s & E & _). eauto. Qed.

Theorem C39_foreign_fact_panics s n xs e :
  In e xs -> file_id (range (snd e)) <> n -> replace_file s n xs = None.
Proof. intros H N. unfold replace_file. rewrite add_all_panics; eauto. Qed.

(** [facts_for]: the references to the target, in order of position. *)
Theorem C39_facts_for h s t : well_formed h -> tidy h -> run h = Some s ->
  in_order position (refs_to t (live h)) (facts_for s t).
Proof.
  intros HW HT E. pose proof (final_tidy h s HW HT E) as H. unfold facts_for.
  rewrite (ok_sorted _ _ _ H eq_refl). apply sort_in_order.
Qed.

(** Before the sort, the same references in some order. *)
Theorem C39_facts_for_unsorted h s t : well_formed h -> run h = Some s ->
  Permutation (refs_to t (live h)) (facts_for s t).
Proof.
  intros HW E. pose proof (final h s HW E) as H. symmetry. apply perm_of_sort. apply (ok_facts _ _ _ H).
Qed.

(** [facts_in_file]: each reference of the file once, by target and position. *)
Theorem C39_facts_in_file h s n : well_formed h -> tidy h -> run h = Some s ->
  exists l, in_order target_position (filter (in_file n) (live h)) l /\ facts_in_file s n = map snd l.
Proof.
  intros HW HT E. pose proof (final_tidy h s HW HT E) as H. eexists. split; [apply sort_in_order|].
  now apply in_file_ok.
Qed.

(** [targets_for_exact_range]: the targets referenced at exactly that range, ascending, once each. *)
Theorem C39_targets_for_exact_range h s r : well_formed h -> run h = Some s ->
  (forall t, In t (targets_for_exact_range s r) <-> exists x, In (t, x) (live h) /\ range x = r) /\
  (tidy h -> StronglySorted lt (targets_for_exact_range s r)).
Proof.
  intros HW E. pose proof (final h s HW E) as H. split.
  - intros t. eapply exact_range_ok; eauto.
  - intros HT. pose proof (final_tidy h s HW HT E) as H'. pose proof (ok_strict _ _ _ H' eq_refl (file_id r)) as S.
    unfold targets_for_exact_range. unfold getd in S.
    destruct (get Nat.eqb (targets_by_file s) (file_id r)); [|constructor]. now apply sorted_filter_lt.
Qed.

(** [iter_facts_with_targets], [all_facts], [fact_count], [facts_for_caller]. *)
Theorem C39_all_facts h s : well_formed h -> run h = Some s ->
  Permutation (facts_with_targets s) (live h) /\
  Permutation (all_facts s) (map snd (live h)) /\
  fact_count s = length (live h).
Proof.
  intros HW E. pose proof (final h s HW E) as H. split; [eapply with_targets_ok; eauto|].
  split; [eapply all_ok; eauto|].
  rewrite <- (map_length snd), <- (Permutation_length (all_ok _ _ _ H)). unfold fact_count. clear.
  induction (facts s) as [|[t l] m IH]; auto. simpl. rewrite app_length. simpl in IH. now rewrite IH.
Qed.

Lemma perm_filter {A} (p : A -> bool) l m : Permutation l m -> Permutation (filter p l) (filter p m).
Proof.
  induction 1 as [|x l m P IH|x y l|l m k P1 IH1 P2 IH2]; simpl; auto.
  - destruct (p x); auto.
  - destruct (p x), (p y); auto. apply perm_swap.
  - eapply perm_trans; eauto.
Qed.

Theorem C39_facts_for_caller h s c : well_formed h -> run h = Some s ->
  Permutation (facts_for_caller s c)
    (filter (fun x => match caller x with Some d => d =? c | None => false end) (map snd (live h))).
Proof.
  intros HW E. pose proof (final h s HW E) as H. unfold facts_for_caller. apply perm_filter.
  eapply all_ok; eauto.
Qed.

(** The answers depend on the references of each file only. *)
Theorem C39_history_independent h1 h2 s1 s2 :
  well_formed h1 -> tidy h1 -> run h1 = Some s1 ->
  well_formed h2 -> tidy h2 -> run h2 = Some s2 ->
  (forall n, filter (in_file n) (live h1) = filter (in_file n) (live h2)) ->
  (forall t, facts_for s1 t = facts_for s2 t) /\ (forall n, facts_in_file s1 n = facts_in_file s2 n) /\
  (forall r, targets_for_exact_range s1 r = targets_for_exact_range s2 r).
Proof.
  intros W1 T1 E1 W2 T2 E2 H. split; [|split].
  - intros t. apply (in_order_eq position _ _ _ _ (C39_facts_for h1 s1 t W1 T1 E1) (C39_facts_for h2 s2 t W2 T2 E2)).
    intros p.
    assert (forall L, filter (at_pos position p) (refs_to t L) =
              filter (at_pos position p) (refs_to t (filter (in_file (hd 0 p)) L))) as EF.
    { intros L. rewrite refs_in. induction (refs_to t L) as [|y l IH]; auto. simpl. unfold at_pos at 1.
      destruct (list_eq_dec Nat.eq_dec (position y) p) as [<-|e].
      - simpl. unfold ref_file. rewrite Nat.eqb_refl. simpl. unfold at_pos at 2.
        destruct (list_eq_dec Nat.eq_dec (position y) (position y)); [|contradiction]. f_equal. exact IH.
      - rewrite IH. destruct (ref_file y =? hd 0 p); auto. simpl. unfold at_pos at 2.
        destruct (list_eq_dec Nat.eq_dec (position y) p); [contradiction|]. auto. }
    rewrite (EF (live h1)), (EF (live h2)), H. reflexivity.
  - intros n. destruct (C39_facts_in_file h1 s1 n W1 T1 E1) as (l1 & O1 & ->).
    destruct (C39_facts_in_file h2 s2 n W2 T2 E2) as (l2 & O2 & ->). rewrite H in O1.
    f_equal. eapply in_order_unique; eauto.
  - intros r. destruct (C39_targets_for_exact_range h1 s1 r W1 E1) as [I1 S1].
    destruct (C39_targets_for_exact_range h2 s2 r W2 E2) as [I2 S2]. specialize (S1 T1). specialize (S2 T2).
    assert (forall t, In t (targets_for_exact_range s1 r) <-> In t (targets_for_exact_range s2 r)) as HI.
    { assert (forall L t, (exists x, In (t, x) L /\ range x = r) <->
                          exists x, In (t, x) (filter (in_file (file_id r)) L) /\ range x = r) as HL.
      { intros L t. split; intros (x & Hx & E); exists x; split; auto; [|now apply filter_In in Hx].
        apply filter_In. split; auto. unfold in_file. simpl. rewrite E. apply Nat.eqb_refl. }
      intros t. now rewrite I1, I2, (HL (live h1)), (HL (live h2)), H. }
    clear -S1 S2 HI. revert S2 HI.
    generalize (targets_for_exact_range s2 r) as B.
    induction S1 as [|a A SA IH FA]; intros B SB HI.
    + destruct B as [|b B]; auto. destruct (proj2 (HI b)). now left.
    + destruct SB as [|b B SB FB]; [destruct (proj1 (HI a)); now left|].
      rewrite Forall_forall in FA, FB.
      assert (a = b) as ->.
      { destruct (proj1 (HI a) (or_introl eq_refl)) as [|Ha]; auto.
        destruct (proj2 (HI b) (or_introl eq_refl)) as [|Hb]; auto.
        specialize (FB _ Ha). specialize (FA _ Hb). lia. }
      f_equal. apply IH; auto. intros t. split; intros Ht.
      * destruct (proj1 (HI t) (or_intror Ht)) as [<-|]; auto. specialize (FA _ Ht). lia.
      * destruct (proj2 (HI t) (or_intror Ht)) as [<-|]; auto. specialize (FB _ Ht). lia.
Qed.

(** After plain [add]s without a sort, [facts_in_file] can repeat references. *)
Theorem C39_raw_adds_repeat_refuted : exists h s n, well_formed h /\ run h = Some s /\
  length (facts_in_file s n) > length (filter (in_file n) (live h)).
Proof.
  set (x := mkRef (mkRange 1 0 3) None 0). set (y := mkRef (mkRange 1 5 8) None 0).
  exists [Add 7 x; Add 7 y]. eexists. exists 1. split; [|split; [reflexivity|vm_compute; lia]].
  intros n xs e [H|[H|[]]]; discriminate.
Qed.

(** Example: two targets, two files, a replacement and a removal. *)
Definition ref f a c : reference := mkRef (mkRange f a (a + 3)) c 0.
Definition sample : list op :=
  [ReplaceFile 2 [(8, ref 2 9 None); (7, ref 2 4 (Some 5))]; ReplaceFile 1 [(7, ref 1 6 None)];
   Add 7 (ref 3 0 None); ReplaceFile 2 [(8, ref 2 0 None); (7, ref 2 0 (Some 5)); (7, ref 2 8 None)];
   RemoveFile 3].

Example sample_meets : well_formed sample /\ tidy sample.
Proof.
  split; [|reflexivity]. intros n xs e H He. simpl in H.
  repeat (destruct H as [H|H]; [try discriminate; injection H as <- <-; simpl in He;
          repeat (destruct He as [<-|He]; [reflexivity|]); easy|]). easy.
Qed.

Example sample_answers :
  option_map (fun s => (facts_for s 7, facts_in_file s 2, targets_for_exact_range s (mkRange 2 0 3))) (run sample) =
  Some ([ref 1 6 None; ref 2 0 (Some 5); ref 2 8 None],
        [ref 2 0 (Some 5); ref 2 8 None; ref 2 0 None], [7; 8]).
Proof. vm_compute. reflexivity. Qed.

Print Assumptions C39_never_panics.
Print Assumptions C39_foreign_fact_panics.
Print Assumptions C39_facts_for.
Print Assumptions C39_facts_for_unsorted.
Print Assumptions C39_facts_in_file.
Print Assumptions C39_targets_for_exact_range.
Print Assumptions C39_all_facts.
Print Assumptions C39_facts_for_caller.
Print Assumptions C39_history_independent.
Print Assumptions C39_raw_adds_repeat_refuted.
