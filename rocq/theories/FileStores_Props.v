(** C61: diagnostics per file.  C62: reference and diagnostic candidates per file. *)
From Coq Require Import List Arith Lia Bool Permutation Sorted.
From Verif Require Import Sort_Lib Index_Lib References_Model References_Proofs References_Props
  FileStores_Model FileStores_Spec FileStores_Proofs.
Import ListNotations.

(** ** Diagnostics *)

Definition dfile (x : diagnostic) : nat := file_id (drange x).

Lemma dpush_all_eq n xs : forall s, dpush_all n s xs = push_all dfile n s xs.
Proof. induction xs as [|x xs IH]; intros s; auto. Qed.

Lemma drun_ok h : forall s L, buckets dfile diag_leb s L ->
  (forall n xs x, In (DReplace n xs) h -> In x xs -> file_id (drange x) = n) ->
  exists s', drun_from s h = Some s' /\ buckets dfile diag_leb s' (d_in_force L h).
Proof.
  induction h as [|o h IH]; intros s L HB HW; [exists s; auto|].
  assert (forall n xs x, In (DReplace n xs) h -> In x xs -> file_id (drange x) = n) as HW'.
  { intros n xs x Hi. apply HW. now right. }
  cbn [drun_from]. destruct o as [x|n|n xs]; cbn [dstep d_in_force].
  - apply IH; auto. apply (add_buckets dfile diag_leb diag_total diag_trans s L x HB).
  - apply IH; auto. now apply (buckets_del dfile diag_leb).
  - unfold dreplace. rewrite dpush_all_eq.
    destruct (replace_buckets dfile diag_leb s L n xs HB) as (m & E & HB').
    { intros x Hx. eapply HW; eauto. now left. }
    unfold dremove. rewrite E. apply IH; auto.
Qed.

Lemma dfinal h s : d_well_formed h -> drun h = Some s -> buckets dfile diag_leb s (d_live h).
Proof.
  intros HW E. destruct (drun_ok h [] [] (buckets_nil _ _) HW) as (s' & E' & H).
  unfold drun in E. rewrite E' in E. now injection E as <-.
Qed.

Theorem C61_never_panics h : d_well_formed h -> exists s, drun h = Some s.
Proof. intros HW. destruct (drun_ok h [] [] (buckets_nil _ _) HW) as (s' & E' & H). eauto. Qed.

Theorem C61_foreign_fact_panics s n xs x :
  In x xs -> file_id (drange x) <> n -> dreplace s n xs = None.
Proof. intros H N. unfold dreplace. rewrite dpush_all_eq, push_all_panics; eauto. Qed.

(** The diagnostics of a file: those in force, once each, ordered by start, end, severity, code
    and message. *)
Theorem C61_facts_in_file h s n : d_well_formed h -> drun h = Some s ->
  Permutation (filter (fun x => file_id (drange x) =? n) (d_live h)) (facts_in_file s n) /\
  StronglySorted before (facts_in_file s n).
Proof.
  intros HW E. pose proof (dfinal h s HW E) as HB. unfold facts_in_file.
  rewrite (buckets_getd _ _ _ _ n HB). split; [apply (sort_perm diag_leb)|].
  assert (StronglySorted (Sort_Lib.le diag_leb) (sort diag_leb (of_file dfile n (d_live h)))) as SS
    by (apply sort_sorted; [apply diag_total|apply diag_trans]).
  induction SS as [|x r S IH F]; constructor; auto. eapply Forall_impl; [|exact F]. intros y.
  apply before_leb.
Qed.

(** Which determines the list: arrival order and history do not show. *)
Theorem C61_history_independent h1 h2 s1 s2 n :
  d_well_formed h1 -> drun h1 = Some s1 -> d_well_formed h2 -> drun h2 = Some s2 ->
  Permutation (filter (fun x => file_id (drange x) =? n) (d_live h1))
              (filter (fun x => file_id (drange x) =? n) (d_live h2)) ->
  facts_in_file s1 n = facts_in_file s2 n.
Proof.
  intros W1 E1 W2 E2 P. unfold facts_in_file.
  rewrite (buckets_getd _ _ _ _ n (dfinal h1 s1 W1 E1)), (buckets_getd _ _ _ _ n (dfinal h2 s2 W2 E2)).
  apply sort_perm_eq; [apply diag_total|apply diag_trans| |exact P].
  intros x y Hx Hy Ev. apply filter_In in Hx, Hy. destruct Hx as [_ Hx], Hy as [_ Hy].
  apply Nat.eqb_eq in Hx, Hy. apply andb_true_iff in Ev. destruct Ev as [A B].
  apply before_antisym; auto. unfold dfile in *. congruence.
Qed.

(** [all_facts], [fact_count], [file_ids]. *)
Theorem C61_all h s : d_well_formed h -> drun h = Some s ->
  Permutation (all_diagnostics s) (d_live h) /\ diagnostic_count s = length (d_live h) /\
  NoDup (diagnostic_files s) /\
  forall n, In n (diagnostic_files s) <-> exists x, In x (d_live h) /\ file_id (drange x) = n.
Proof.
  intros HW E. pose proof (dfinal h s HW E) as HB. pose proof (buckets_perm _ _ _ _ HB) as P.
  split; auto. split; [now apply list_sum_perm|]. split; [apply HB|].
  intros n. apply (buckets_files _ _ _ _ n HB).
Qed.

(** ** Reference candidates *)

Lemma crun_ok h : forall s L, cok s L -> own cfile h ->
  exists s', crun_from s h = Some s' /\ cok s' (replaced cfile L h).
Proof.
  induction h as [|[n xs] h IH]; intros s L (H1 & H2 & H3) HW; [exists s; repeat split; auto; apply H1 || apply H2 || apply H3|].
  assert (own cfile h) as HW'. { intros k ys x Hi. apply HW. now right. }
  assert (forall x, In x xs -> cfile x = n) as HX. { intros x Hx. eapply HW; eauto. now left. }
  cbn [crun_from replaced]. unfold creplace.
  assert (forallb (fun x => file_id (crange x) =? n) xs = true) as ->.
  { apply forallb_forall. intros x Hx. apply Nat.eqb_eq. now apply HX. }
  apply IH; auto. split; [|split]; cbn [constants methods resolved]; apply install_ok; auto.
Qed.

Lemma cnew_ok : cok cnew [].
Proof. repeat split; constructor. Qed.

Lemma cfinal h s : c_well_formed h -> crun h = Some s -> cok s (c_live h).
Proof.
  intros HW E. destruct (crun_ok h cnew [] cnew_ok HW) as (s' & E' & H).
  unfold crun in E. rewrite E' in E. now injection E as <-.
Qed.

Theorem C62_never_panics h : c_well_formed h -> exists s, crun h = Some s.
Proof. intros HW. destruct (crun_ok h cnew [] cnew_ok HW) as (s' & E' & H). eauto. Qed.

Theorem C62_foreign_candidate_panics s n xs x :
  In x xs -> file_id (crange x) <> n -> creplace s n xs = None.
Proof.
  intros H N. unfold creplace. destruct (forallb _ xs) eqn:E; auto.
  rewrite forallb_forall in E. specialize (E x H). apply Nat.eqb_eq in E. contradiction.
Qed.

(** The candidates of a file: its last replacement, by position and kind. *)
Theorem C62_candidates_in_file h s n : c_well_formed h -> crun h = Some s ->
  in_order c_position (filter (fun x => file_id (crange x) =? n) (c_live h)) (candidates_in_file s n).
Proof.
  intros HW E. rewrite (candidates_ok s _ n (cfinal h s HW E)). apply sort_in_order.
Qed.

Theorem C62_all h s : c_well_formed h -> crun h = Some s ->
  Permutation (all_candidates s) (c_live h) /\
  (let '(a, b, c) := stats s in
   a = length (filter is_constant (c_live h)) /\ b = length (filter is_method (c_live h)) /\
   c = length (filter is_resolved (c_live h)) /\ a + b + c = length (c_live h)).
Proof.
  intros HW E. destruct (cfinal h s HW E) as (H1 & H2 & H3).
  pose proof (buckets_perm _ _ _ _ H1) as P1. pose proof (buckets_perm _ _ _ _ H2) as P2.
  pose proof (buckets_perm _ _ _ _ H3) as P3. unfold all_candidates, stats, count.
  rewrite (list_sum_perm _ _ P1), (list_sum_perm _ _ P2), (list_sum_perm _ _ P3). split.
  - eapply perm_trans; [|apply three_kinds]. now repeat apply Permutation_app.
  - repeat split; auto. rewrite <- (Permutation_length (three_kinds (c_live h))), !app_length. lia.
Qed.

Theorem C62_method_candidates_named h s m : c_well_formed h -> crun h = Some s ->
  Permutation (method_candidates_named s m)
    (filter (fun x => match kind x with Method k => k =? m | _ => false end) (c_live h)).
Proof.
  intros HW E. destruct (cfinal h s HW E) as (_ & H2 & _). unfold method_candidates_named.
  eapply perm_trans; [apply perm_filter, (buckets_perm _ _ _ _ H2)|]. rewrite filter_comm.
  rewrite (filter_all is_method); auto. intros x Hx. apply filter_In in Hx. destruct Hx as [_ Hx].
  unfold is_method. destruct (kind x); auto.
Qed.

(** The files with a candidate, ascending. *)
Theorem C62_file_ids h s : c_well_formed h -> crun h = Some s ->
  StronglySorted lt (candidate_files s) /\
  forall n, In n (candidate_files s) <-> exists x, In x (c_live h) /\ file_id (crange x) = n.
Proof.
  intros HW E. destruct (cfinal h s HW E) as (H1 & H2 & H3). unfold candidate_files. split.
  - apply dedup_sorted, sort_sorted; [apply nat_total|apply nat_trans].
  - intros n. rewrite dedup_in, sort_in, !in_app_iff.
    rewrite (buckets_files _ _ _ _ n H1), (buckets_files _ _ _ _ n H2), (buckets_files _ _ _ _ n H3). split.
    + intros [(x & Hx & F)|[(x & Hx & F)|(x & Hx & F)]]; apply filter_In in Hx; exists x; tauto.
    + intros (x & Hx & F). destruct (kind x) eqn:Ek.
      * left. exists x. rewrite filter_In. unfold is_constant. now rewrite Ek.
      * right. left. exists x. rewrite filter_In. unfold is_method. now rewrite Ek.
      * right. right. exists x. rewrite filter_In. unfold is_resolved. now rewrite Ek.
Qed.

(** ** Diagnostic candidates *)

Definition pfile (x : problem) : nat := file_id (prange x).

Lemma ppush_all_eq n xs : forall s, ppush_all n s xs = push_all pfile n s xs.
Proof. induction xs as [|x xs IH]; intros s; auto. Qed.

Lemma prun_ok h : forall s L, buckets pfile (key_leb pkey) s L -> own pfile h ->
  exists s', prun_from s h = Some s' /\ buckets pfile (key_leb pkey) s' (replaced pfile L h).
Proof.
  induction h as [|[n xs] h IH]; intros s L HB HW; [exists s; auto|].
  assert (own pfile h) as HW'. { intros k ys x Hi. apply HW. now right. }
  cbn [prun_from replaced]. unfold preplace. rewrite ppush_all_eq.
  destruct (replace_buckets pfile (key_leb pkey) s L n xs HB) as (m & E & HB').
  { intros x Hx. eapply HW; eauto. now left. }
  rewrite E. unfold sort_at in HB'. destruct (get Nat.eqb m n); apply IH; auto.
Qed.

Lemma pfinal h s : p_well_formed h -> prun h = Some s -> buckets pfile (key_leb pkey) s (p_live h).
Proof.
  intros HW E. destruct (prun_ok h [] [] (buckets_nil _ _) HW) as (s' & E' & H).
  unfold prun in E. rewrite E' in E. now injection E as <-.
Qed.

Theorem C62_problems h s : p_well_formed h -> prun h = Some s ->
  (forall n, in_order p_position (filter (fun x => file_id (prange x) =? n) (p_live h)) (problems_in_file s n)) /\
  Permutation (all_problems s) (p_live h) /\ NoDup (problem_files s) /\
  (forall n, In n (problem_files s) <-> exists x, In x (p_live h) /\ file_id (prange x) = n).
Proof.
  intros HW E. pose proof (pfinal h s HW E) as HB. split.
  - intros n. unfold problems_in_file. rewrite (buckets_getd _ _ _ _ n HB). apply (sort_in_order p_position).
  - split; [apply (buckets_perm _ _ _ _ HB)|]. split; [apply HB|]. intros n. apply (buckets_files _ _ _ _ n HB).
Qed.

Theorem C62_problems_never_panic h : p_well_formed h -> exists s, prun h = Some s.
Proof. intros HW. destruct (prun_ok h [] [] (buckets_nil _ _) HW) as (s' & E' & H). eauto. Qed.

(** What is in force is the last replacement of each file. *)
Theorem C62_last_replacement {A} (file_of : A -> nat) h1 n xs h2 :
  own file_of (h1 ++ (n, xs) :: h2) -> ~ In n (map fst h2) ->
  filter (fun x => file_of x =? n) (replaced file_of [] (h1 ++ (n, xs) :: h2)) = xs.
Proof.
  intros HW HN.
  assert (forall h k l, replaced file_of l (h ++ k) = replaced file_of (replaced file_of l h) k) as IA.
  { induction h as [|[a b] h IH]; intros; simpl; auto. }
  rewrite IA. cbn [replaced].
  assert (forall y, In y xs -> file_of y = n) as HX.
  { intros y Hy. eapply HW; eauto. apply in_or_app. right. now left. }
  set (l := filter _ _ ++ xs).
  assert (of_file file_of n l = xs) as El.
  { unfold l, of_file. rewrite filter_app. fold (of_file file_of n xs). rewrite (of_own file_of n n xs HX), Nat.eqb_refl.
    rewrite filter_nil; auto. intros y Hy. apply filter_In in Hy. now apply negb_true_iff. }
  assert (own file_of h2) as HW2.
  { intros k ys x Hi. apply HW. apply in_or_app. right. now right. }
  clear HW. clearbody l. revert l El. induction h2 as [|[k ys] h2 IH]; intros l El; auto. cbn [replaced].
  apply IH.
  - intros H. apply HN. now right.
  - intros j zs z Hj. apply HW2. now right.
  - unfold of_file. rewrite filter_app. change (of_file file_of n (others file_of k l) ++ of_file file_of n ys = xs).
    rewrite of_others, (of_own file_of k n ys).
    + destruct (Nat.eqb_spec k n) as [->|N]; [exfalso; apply HN; now left|]. rewrite El. apply app_nil_r.
    + intros x Hx. eapply HW2; eauto. now left.
Qed.

(** Examples. *)
Definition diag f a s c : diagnostic := mkDiag (mkRange f a (a + 1)) s c [1].
Definition d_sample : list dop :=
  [DReplace 1 [diag 1 9 Hint [3]; diag 1 2 Warning [5; 1]]; DAdd (diag 1 2 Error [7]);
   DReplace 2 [diag 2 0 Error [1]]; DAdd (diag 1 2 Warning [5]); DRemove 2].
Example d_sample_meets : d_well_formed d_sample.
Proof.
  intros n xs x H Hx. simpl in H.
  repeat (destruct H as [H|H]; [try discriminate; injection H as <- <-; simpl in Hx;
          repeat (destruct Hx as [<-|Hx]; [reflexivity|]); easy|]). easy.
Qed.
Example d_sample_answers : option_map (fun s => (facts_in_file s 1, diagnostic_files s)) (drun d_sample) =
  Some ([diag 1 2 Error [7]; diag 1 2 Warning [5]; diag 1 2 Warning [5; 1]; diag 1 9 Hint [3]], [1]).
Proof. vm_compute. reflexivity. Qed.

Definition cand f a k : candidate := mkCand (mkRange f a (a + 2)) k 0.
Definition c_sample : list (nat * list candidate) :=
  [(2, [cand 2 8 Resolved]); (1, [cand 1 5 Resolved; cand 1 5 Constant; cand 1 0 (Method 4)]);
   (2, [cand 2 1 (Method 4); cand 2 0 Constant])].
Example c_sample_meets : c_well_formed c_sample.
Proof.
  intros n xs x H Hx. simpl in H.
  repeat (destruct H as [H|H]; [injection H as <- <-; simpl in Hx;
          repeat (destruct Hx as [<-|Hx]; [reflexivity|]); easy|]). easy.
Qed.
Example c_sample_answers :
  option_map (fun s => (candidates_in_file s 1, candidate_files s, stats s)) (crun c_sample) =
  Some ([cand 1 0 (Method 4); cand 1 5 Constant; cand 1 5 Resolved], [1; 2], (2, 2, 1)).
Proof. vm_compute. reflexivity. Qed.

Definition prob f a b : problem := mkProblem (mkRange f a (a + 2)) b 0.
Definition p_sample : list (nat * list problem) :=
  [(1, [prob 1 4 true; prob 1 4 false]); (2, [prob 2 0 true]); (2, [])].
Example p_sample_meets : p_well_formed p_sample.
Proof.
  intros n xs x H Hx. simpl in H.
  repeat (destruct H as [H|H]; [injection H as <- <-; simpl in Hx;
          repeat (destruct Hx as [<-|Hx]; [reflexivity|]); easy|]). easy.
Qed.
Example p_sample_answers : option_map (fun s => (problems_in_file s 1, problem_files s)) (prun p_sample) =
  Some ([prob 1 4 false; prob 1 4 true], [1]).
Proof. vm_compute. reflexivity. Qed.

Print Assumptions C61_never_panics.
Print Assumptions C61_foreign_fact_panics.
Print Assumptions C61_facts_in_file.
Print Assumptions C61_history_independent.
Print Assumptions C61_all.
Print Assumptions C62_never_panics.
Print Assumptions C62_foreign_candidate_panics.
Print Assumptions C62_candidates_in_file.
Print Assumptions C62_all.
Print Assumptions C62_method_candidates_named.
Print Assumptions C62_file_ids.
Print Assumptions C62_problems.
Print Assumptions C62_problems_never_panic.
Print Assumptions C62_last_replacement.
