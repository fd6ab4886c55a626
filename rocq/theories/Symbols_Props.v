(** C38: the symbol index is an exact per-file index. *)
From Coq Require Import List Arith NArith Lia Bool Permutation Sorted.
From Verif Require Import Lib Sort_Lib Index_Lib Symbols_Model Symbols_Spec Symbols_Proofs.
Import ListNotations.

Lemma ran_within B h : (N.of_nat B <= 4294967296)%N -> well_formed h ->
  (forall h1 h2, h = h1 ++ h2 -> length (live h1) <= B) ->
  exists s G, run h = Some s /\ ok s G /\ map snd G = live h /\ length (slots (facts s)) <= B.
Proof.
  intros HB HW HF. apply (run_ok B h HB new []); auto using ok_new. simpl. lia.
Qed.

Lemma ran h : well_formed h -> fits h -> exists s G, run h = Some s /\ ok s G /\ map snd G = live h.
Proof.
  intros HW HF. destruct (ran_within (N.to_nat 4294967296) h) as (s & G & R); auto.
  - rewrite N2Nat.id. lia.
  - intros h1 h2 E. specialize (HF h1 h2 E). lia.
  - exists s, G. tauto.
Qed.

(** The index never panics when callers partition facts by file and ids suffice. *)
Theorem C38_never_panics h : well_formed h -> fits h -> exists s, run h = Some s.
Proof. intros HW HF. destruct (ran h HW HF) as (s & G & E & _). eauto. Qed.

(** Supplying a fact of another file is reported, not silently accepted. *)
Theorem C38_foreign_fact_panics s n xs x :
  In x xs -> file_id (range x) <> n -> replace_file s n xs = None.
Proof. intros H N. apply replace_panics. exists x. auto. Qed.

(** [facts_for]: the facts in force with that name, in order of position. *)
Theorem C38_facts_for h s q : well_formed h -> fits h -> run h = Some s ->
  in_order position (filter (fun x => fqn x =? q) (live h)) (facts_for s q).
Proof.
  intros HW HF E. destruct (ran h HW HF) as (s' & G & E' & (HA & HQ & _) & EL).
  assert (s' = s) as -> by congruence. unfold facts_for.
  rewrite (indexed_clone Nat.eqb kfqn key (facts s) (by_fqn s) G q HA HQ), EL.
  apply sort_in_order.
Qed.

(** [facts_in_file]: the facts in force of that file, in order of position. *)
Theorem C38_facts_in_file h s n : well_formed h -> fits h -> run h = Some s ->
  in_order position (filter (fun x => file_id (range x) =? n) (live h)) (facts_in_file s n).
Proof.
  intros HW HF E. destruct (ran h HW HF) as (s' & G & E' & (HA & _ & HI) & EL).
  assert (s' = s) as -> by congruence. unfold facts_in_file.
  rewrite (indexed_clone Nat.eqb kfile file_key (facts s) (by_file s) G n HA HI), EL.
  change (has_key Nat.eqb kfile n) with (fun x => file_id (range x) =? n).
  set (l := filter _ (live h)).
  assert (forall x, In x l -> file_id (range x) = n) as Hl.
  { intros x Hx. apply filter_In in Hx. now apply Nat.eqb_eq. }
  rewrite (sort_ext (key_leb file_key) (key_leb key) l).
  - apply (sort_in_order key).
  - intros x y Hx Hy. unfold key_leb, key, file_key. cbn [lexb].
    rewrite (Hl x Hx), (Hl y Hy), Nat.ltb_irrefl, Nat.eqb_refl. reflexivity.
Qed.

(** [all_facts] and [fact_count]: every fact in force once. *)
Theorem C38_all_facts h s : well_formed h -> fits h -> run h = Some s ->
  Permutation (all_facts s) (live h) /\ fact_count s = length (live h).
Proof.
  intros HW HF E. destruct (ran h HW HF) as (s' & G & E' & (HA & _) & EL).
  assert (s' = s) as -> by congruence. pose proof (holds_occupied _ _ HA) as P.
  rewrite EL in P. split; [exact P|]. rewrite <- (Permutation_length P).
  unfold fact_count, occupied. clear. induction (slots (facts s)) as [|[x|] l IH]; simpl; auto.
Qed.

(** [known_namespace_fqns]: the names of the classes and modules in force. *)
Theorem C38_known_namespaces h s q : well_formed h -> fits h -> run h = Some s ->
  (In q (known_namespace_fqns s) <->
   exists x, In x (live h) /\ fqn x = q /\ (kind x = Class \/ kind x = Module)).
Proof.
  intros HW HF E. destruct (C38_all_facts h s HW HF E) as [P _].
  unfold known_namespace_fqns. rewrite in_map_iff. split.
  - intros (x & <- & Hx). apply filter_In in Hx. destruct Hx as [Hx K].
    exists x. split; [eapply Permutation_in; eauto|]. split; auto. destruct (kind x); auto; discriminate.
  - intros (x & Hx & <- & K). exists x. split; auto. apply filter_In.
    split; [eapply Permutation_in; [symmetry; exact P|auto]|]. destruct K as [-> | ->]; auto.
Qed.

(** Only the contents of the files matter, not how they got there. *)
Theorem C38_history_independent h1 h2 s1 s2 q :
  well_formed h1 -> fits h1 -> run h1 = Some s1 ->
  well_formed h2 -> fits h2 -> run h2 = Some s2 ->
  (forall n, filter (fun x => file_id (range x) =? n) (live h1) =
             filter (fun x => file_id (range x) =? n) (live h2)) ->
  facts_for s1 q = facts_for s2 q /\ (forall n, facts_in_file s1 n = facts_in_file s2 n).
Proof.
  intros W1 F1 E1 W2 F2 E2 H. split.
  - apply (in_order_eq position _ _ _ _ (C38_facts_for h1 s1 q W1 F1 E1) (C38_facts_for h2 s2 q W2 F2 E2)).
    intros p. rewrite !(filter_comm (at_pos position p)). f_equal.
    assert (forall l m, (forall n, filter (fun x => file_id (range x) =? n) l =
                                   filter (fun x => file_id (range x) =? n) m) ->
              filter (at_pos position p) l = filter (at_pos position p) m) as K; [|now apply K].
    intros l m Hlm. specialize (Hlm (hd 0 p)).
    assert (forall l, filter (at_pos position p) l =
              filter (at_pos position p) (filter (fun x => file_id (range x) =? hd 0 p) l)) as EF.
    { intros l'. induction l' as [|y l' IH]; auto. simpl. unfold at_pos at 1.
      destruct (list_eq_dec Nat.eq_dec (position y) p) as [<-|e].
      - simpl. rewrite Nat.eqb_refl. simpl. unfold at_pos at 2.
        destruct (list_eq_dec Nat.eq_dec (position y) (position y)); [|contradiction]. f_equal. exact IH.
      - rewrite IH. destruct (file_id (range y) =? hd 0 p); auto. simpl. unfold at_pos at 2.
        destruct (list_eq_dec Nat.eq_dec (position y) p); [contradiction|]. auto. }
    rewrite (EF l), (EF m). now rewrite Hlm.
  - intros n. pose proof (C38_facts_in_file h1 s1 n W1 F1 E1) as H1.
    pose proof (C38_facts_in_file h2 s2 n W2 F2 E2) as H2. rewrite H in H1.
    eapply in_order_unique; eauto.
Qed.

(** The facts of a file are those of its last replacement. *)
Theorem C38_last_replacement h1 n xs h2 :
  (forall x, In x xs -> file_id (range x) = n) ->
  (forall o, In o h2 -> match o with
                        | Add x => file_id (range x) <> n
                        | RemoveFile m => m <> n
                        | ReplaceFile m ys => m <> n /\ forall y, In y ys -> file_id (range y) = m
                        end) ->
  filter (fun x => file_id (range x) =? n) (live (h1 ++ ReplaceFile n xs :: h2)) = xs.
Proof.
  intros HX H2. unfold live.
  assert (forall h l k, in_force l (h ++ k) = in_force (in_force l h) k) as IA.
  { induction h as [|[?|?|? ?] h IH]; intros; simpl; auto. }
  rewrite IA. cbn [in_force].
  assert (forall l, filter (fun x => file_id (range x) =? n) l = xs ->
            filter (fun x => file_id (range x) =? n) (in_force l h2) = xs) as K.
  { induction h2 as [|o h2 IH]; intros l El; auto.
    assert (forall l', filter (fun x => file_id (range x) =? n) l' = xs ->
      filter (fun x => file_id (range x) =? n) (in_force l' h2) = xs) as IH'.
    { apply IH. intros o' Ho'. apply H2. now right. }
    pose proof (H2 o (or_introl eq_refl)) as Ho.
    assert (forall m l, m <> n -> filter (fun x => file_id (range x) =? n)
      (filter (fun x => negb (file_id (range x) =? m)) l) = filter (fun x => file_id (range x) =? n) l) as FM.
    { intros m l' N. induction l' as [|y l' IHl]; auto. simpl.
      destruct (Nat.eqb_spec (file_id (range y)) m) as [e|e]; simpl; rewrite IHl.
      - destruct (Nat.eqb_spec (file_id (range y)) n); [congruence|auto].
      - reflexivity. }
    destruct o as [x|m|m ys]; cbn [in_force]; apply IH'.
    - rewrite filter_app, El. simpl. apply Nat.eqb_neq in Ho. rewrite Ho. apply app_nil_r.
    - now rewrite FM.
    - destruct Ho as [N HY]. rewrite filter_app, FM, El by auto.
      rewrite (filter_nil _ ys), app_nil_r; auto. intros y Hy. rewrite (HY y Hy). now apply Nat.eqb_neq. }
  apply K. rewrite filter_app. rewrite filter_nil.
  - apply filter_all. intros x Hx. rewrite (HX x Hx). apply Nat.eqb_refl.
  - intros x Hx. apply filter_In in Hx. now apply negb_true_iff.
Qed.

(** The arena never has more slots than facts were in force at once. *)
Theorem C38_slots_reused h s bound : well_formed h -> run h = Some s ->
  (N.of_nat bound <= 4294967296)%N ->
  (forall h1 h2, h = h1 ++ h2 -> length (live h1) <= bound) ->
  length (slots (facts s)) <= bound.
Proof.
  intros HW E HB HF. destruct (ran_within bound h HB HW HF) as (s' & G & E' & _ & _ & L).
  congruence.
Qed.

(** Example: two files, a name defined in both, a replacement that reuses a slot. *)
Definition sym q k f a b : symbol := mkSymbol q k (mkRange f a b) (mkRange f a b).
Definition sample : list op :=
  [ReplaceFile 2 [sym 1 Class 2 0 9; sym 2 Method 2 3 5]; ReplaceFile 1 [sym 1 Class 1 4 9];
   ReplaceFile 2 [sym 1 Module 2 7 9; sym 1 Class 2 0 3]; RemoveFile 3; Add (sym 1 Class 1 0 2)].

Example sample_meets : well_formed sample /\ fits sample.
Proof.
  split.
  - intros n xs x H Hx. simpl in H.
    repeat (destruct H as [H|H]; [try discriminate; injection H as <- <-; simpl in Hx;
            repeat (destruct Hx as [<-|Hx]; [reflexivity|]); easy|]). easy.
  - intros h1 h2 E. unfold sample in E.
    do 5 (destruct h1 as [|? h1]; [cbn; lia|simpl in E; injection E as <- E]).
    destruct h1; [cbn; lia|discriminate].
Qed.

Example sample_facts : option_map (fun s => facts_for s 1) (run sample) =
  Some [sym 1 Class 1 0 2; sym 1 Class 1 4 9; sym 1 Class 2 0 3; sym 1 Module 2 7 9].
Proof. vm_compute. reflexivity. Qed.

Print Assumptions C38_never_panics.
Print Assumptions C38_foreign_fact_panics.
Print Assumptions C38_facts_for.
Print Assumptions C38_facts_in_file.
Print Assumptions C38_all_facts.
Print Assumptions C38_known_namespaces.
Print Assumptions C38_history_independent.
Print Assumptions C38_last_replacement.
Print Assumptions C38_slots_reused.
