(** C71: "did you mean" offers the nearest name. *)
From Coq Require Import List Arith NArith Bool Lia Permutation Sorted.
From Verif Require Import Text_Lib Sort_Lib Calls_Model Calls_Proofs Calls_Props Suggest_Model Suggest_Spec Suggest_Proofs.
Import ListNotations.

(** The distance computed is the least number of characters to insert, remove or replace, and computing it does
    not panic. *)
Theorem C71_distance : forall a b, exists n, levenshtein a b = Some n /\ distance a b n.
Proof. intros a b. exists (d a b). split; [apply levenshtein_d|apply d_distance]. Qed.

(** For a keyword of at most two bytes nothing is offered; otherwise the first of the nearest declared ones that
    is within two edits, or three if the keyword has more than eight bytes. *)
Theorem C71_keyword : forall target declared, exists r, closest_keyword target declared = Some r /\
  ((length (bytes target) <= 2 -> r = None) /\
   (3 <= length (bytes target) <= 8 -> nearest target 2 declared r) /\ (9 <= length (bytes target) -> nearest target 3 declared r)).
Proof.
  intros target declared. assert (length (bytes target) = size target) as E.
  { unfold bytes, size. induction target as [|c t IH]; cbn; auto. rewrite app_length, IH. f_equal. unfold enc, u8.
    repeat match goal with |- context [if ?b then _ else _] => destruct b end; reflexivity. }
  rewrite E. unfold closest_keyword, suggestion_threshold. destruct (Nat.leb_spec (size target) 2) as [A|A].
  { exists None. cbn. repeat split; try lia. }
  destruct (Nat.leb_spec (size target) 8) as [B|B]; cbn [Nat.eqb].
  - destruct (closest_nearest 2 target declared) as (r & R & N). exists r. repeat split; auto; lia.
  - destruct (closest_nearest 3 target declared) as (r & R & N). exists r. repeat split; auto; lia.
Qed.

Lemma name_antisym a : forall b, name_leb a b = true -> name_leb b a = true -> a = b.
Proof.
  induction a as [|x a IH]; intros [|y b]; cbn; auto; try discriminate.
  rewrite !orb_true_iff, !andb_true_iff, !N.ltb_lt, !N.eqb_eq. intros [H|[-> H]] [J|[E J]]; try lia. f_equal. auto.
Qed.

Lemma dedup_sorted l : StronglySorted (le name_leb) l -> StronglySorted (le name_leb) (dedup l).
Proof.
  induction 1 as [|a l S IH F]; [constructor|]. destruct l as [|b l]; [repeat constructor|]. cbn [dedup]. destruct (name_eqb a b); auto.
  constructor; auto. apply Forall_forall. intros x I. apply (proj1 (dedup_in (b :: l) x)) in I. rewrite Forall_forall in F. auto.
Qed.

Lemma sorted_split {A} (R : A -> A -> Prop) l : StronglySorted R l -> forall p x q y, l = p ++ x :: q -> In y q -> R x y.
Proof.
  induction 1 as [|a l S IH F]; intros p x q y E I; [destruct p; discriminate|]. destruct p as [|b p]; injection E as -> ->.
  - rewrite Forall_forall in F. auto.
  - eapply IH; eauto.
Qed.

Definition limit (target : name) : nat := if length (bytes target) <=? 8 then 2 else 3.
Definition ascii_name (n : name) : Prop := Forall (fun c => (c < 128)%N) n.

Lemma bytes_size t : length (bytes t) = size t.
Proof.
  unfold bytes, size. induction t as [|c t IH]; cbn; auto. rewrite app_length, IH. f_equal. unfold enc, u8.
  repeat match goal with |- context [if ?b then _ else _] => destruct b end; reflexivity.
Qed.
Lemma ascii_size t : ascii_name t -> size t = length t.
Proof. unfold size. induction 1 as [|c t C F IH]; cbn; auto. rewrite IH. unfold u8. apply N.ltb_lt in C. now rewrite C. Qed.

Lemma method_cases facts target : 3 <= length (bytes target) -> exists r, find_method_suggestion facts target = Some r /\
  nearest target (limit target)
    (filter (fun c => negb (name_eqb c target) && negb (limit target <? abs_diff (size c) (size target))) (method_names facts)) r.
Proof.
  unfold find_method_suggestion, suggestion_threshold, limit. rewrite bytes_size. intros L.
  replace (size target <=? 2) with false by (symmetry; apply Nat.leb_gt; lia).
  destruct (size target <=? 8); cbn [Nat.eqb]; apply closest_nearest.
Qed.

(** A method offered is one of the owner's, is not the one that was called, and is within two or three edits. *)
Theorem C71_method_offered : forall facts target c, find_method_suggestion facts target = Some (Some c) ->
  In c facts /\ c <> target /\ 3 <= length (bytes target) /\ exists n, distance c target n /\ n <= limit target.
Proof.
  intros facts target c E. destruct (Nat.le_gt_cases 3 (length (bytes target))) as [L|L].
  - destruct (method_cases facts target L) as (r & R & N). rewrite E in R. injection R as <-. destruct N as (be & af & n & Q & D & M & _).
    assert (In c (filter (fun c => negb (name_eqb c target) && negb (limit target <? abs_diff (size c) (size target))) (method_names facts))) as I
      by (rewrite Q; apply in_or_app; right; left; reflexivity).
    apply filter_In in I. destruct I as [I F]. apply andb_true_iff in F. destruct F as [F _]. apply negb_true_iff in F.
    split; [now apply names_in|]. split; [|split; eauto]. intros ->. assert (name_eqb target target = true) by now apply name_eqb_iff. congruence.
  - unfold find_method_suggestion, suggestion_threshold in E. rewrite bytes_size in L.
    replace (size target <=? 2) with true in E by (symmetry; apply Nat.leb_le; lia). discriminate.
Qed.

(** Among ASCII names it is the nearest, and of several the alphabetically first, whatever the order in which
    the methods were indexed; nothing is offered only if nothing is near enough. *)
Theorem C71_method_partial : forall facts target, ascii_name target -> Forall ascii_name facts -> 3 <= length (bytes target) ->
  exists r, find_method_suggestion facts target = Some r /\
  match r with
  | Some c => exists n, distance c target n /\
      forall x m, In x facts -> x <> target -> distance x target m -> n < m \/ (n = m /\ name_leb c x = true)
  | None => forall x m, In x facts -> x <> target -> distance x target m -> limit target < m
  end.
Proof.
  intros facts target AT AF L. destruct (method_cases facts target L) as (r & R & N). exists r. split; auto.
  set (l := filter _ _) in N.
  assert (forall x m, In x facts -> x <> target -> distance x target m -> m <= limit target -> In x l) as IN.
  { intros x m I X D M. apply filter_In. split; [now apply names_in|]. apply andb_true_iff. split.
    - apply negb_true_iff. destruct (name_eqb x target) eqn:E; auto. apply name_eqb_iff in E. congruence.
    - apply negb_true_iff, Nat.ltb_ge. rewrite Forall_forall in AF. rewrite !ascii_size by auto. apply distance_d in D.
      pose proof (d_length x target). unfold abs_diff. lia. }
  destruct r as [c|]; cbn in N.
  - destruct N as (be & af & n & Q & D & M & B1 & B2). exists n. split; auto. intros x m I X DX.
    destruct (Nat.le_gt_cases m (limit target)) as [LE|GT]; [|left; lia]. pose proof (IN x m I X DX LE) as J. rewrite Q in J. apply in_app_or in J.
    destruct J as [J|[<-|J]].
    + left. eauto.
    + right. split; [apply distance_d in D, DX; congruence|]. destruct (name_total c c); auto.
    + specialize (B2 _ _ J DX). destruct (Nat.eq_dec n m) as [->|]; [|left; lia]. right. split; auto.
      assert (StronglySorted (le name_leb) l) as S.
      { unfold l. apply filter_sorted. unfold method_names. apply dedup_sorted, sort_sorted; [exact (fun a b => name_total a b)|exact (fun a b c => name_trans a b c)]. }
      exact (sorted_split _ _ S be c af x Q J).
  - intros x m I X D. destruct (Nat.le_gt_cases m (limit target)) as [LE|GT]; auto. eauto.
Qed.

(** The answer does not depend on the order of the facts or on repetitions. *)
Lemma dedup_strict l : StronglySorted (le name_leb) l -> NoDup (dedup l).
Proof.
  induction 1 as [|a l S IH F]; [constructor|]. destruct l as [|b l]; [repeat constructor; auto|]. cbn [dedup].
  destruct (name_eqb a b) eqn:E; auto. constructor; auto. intros I. apply (proj1 (dedup_in (b :: l) a)) in I.
  assert (name_eqb a b = true); [|congruence]. apply name_eqb_iff. destruct I as [->|I]; auto. rewrite Forall_forall in F.
  inversion S as [|? ? S' F']; subst. rewrite Forall_forall in F'. apply name_antisym; [apply F; left; auto|apply F'; auto].
Qed.
Lemma sorted_same l : forall l', StronglySorted (le name_leb) l -> StronglySorted (le name_leb) l' -> NoDup l -> NoDup l' ->
  (forall x, In x l <-> In x l') -> l = l'.
Proof.
  induction l as [|a l IH]; intros [|b l'] S S' N N' Q; auto; [destruct (proj2 (Q b)); left; auto|destruct (proj1 (Q a)); left; auto|].
  inversion S as [|? ? S1 F1]; subst. inversion S' as [|? ? S2 F2]; subst. rewrite Forall_forall in F1, F2.
  inversion N as [|? ? N1 N2]; subst. inversion N' as [|? ? N3 N4]; subst. assert (a = b) as ->.
  { destruct (proj1 (Q a)) as [->|I]; [left; auto|auto|]. destruct (proj2 (Q b)) as [->|J]; [left; auto|auto|].
    apply name_antisym; [apply F1; auto|apply F2; auto]. }
  f_equal. apply IH; auto. intros x. split; intros I.
  - destruct (proj1 (Q x)) as [->|J]; [right; auto|easy|auto].
  - destruct (proj2 (Q x)) as [->|J]; [right; auto|easy|auto].
Qed.
Theorem C71_method_order : forall facts facts' target, (forall x, In x facts <-> In x facts') ->
  find_method_suggestion facts target = find_method_suggestion facts' target.
Proof.
  intros facts facts' target Q. unfold find_method_suggestion. replace (method_names facts') with (method_names facts); auto.
  assert (forall l, StronglySorted (le name_leb) (sort name_leb l)) as S by (intros l; apply sort_sorted; [exact (fun a b => name_total a b)|exact (fun a b c => name_trans a b c)]).
  apply sorted_same; try apply dedup_sorted, S; try apply dedup_strict, S. intros x. rewrite !names_in. apply Q.
Qed.

(** Beyond ASCII the names are first compared by their lengths in bytes: one character too few may hide a method. *)
Theorem C71_method_refuted : exists facts target c, In c facts /\ c <> target /\ distance c target 1 /\ 3 <= length (bytes target) /\
  find_method_suggestion facts target = Some None.
Proof.
  exists [[26085; 26412; 35486]%N], [26085; 26412]%N, [26085; 26412; 35486]%N. split; [left; auto|]. split; [discriminate|].
  split; [exact (d_distance [26085; 26412; 35486]%N [26085; 26412]%N)|]. split; [vm_compute; auto|]. vm_compute. reflexivity.
Qed.

(** nmae is two edits from name, one from nae and two from mean; saet is near set and seat. *)
Example C71_example : let word := List.map N.of_nat in
  levenshtein (word [110; 109; 97; 101]) (word [110; 97; 109; 101]) = Some 2 /\
  closest_keyword (word [110; 109; 97; 101]) [word [110; 97; 109; 101]; word [110; 97; 101]; word [109; 97; 101]] = Some (Some (word [110; 97; 101])) /\
  find_method_suggestion [word [115; 101; 116]; word [115; 97; 116]; word [115; 97; 101; 116]] (word [115; 97; 101; 116]) = Some (Some (word [115; 97; 116])) /\
  ascii_name (word [115; 97; 101; 116]) /\ 3 <= length (bytes (word [115; 97; 101; 116])).
Proof. cbn zeta. repeat (split; [vm_compute; reflexivity|]). split; [repeat constructor|vm_compute; auto]. Qed.

Print Assumptions C71_distance.
Print Assumptions C71_keyword.
Print Assumptions C71_method_offered.
Print Assumptions C71_method_partial.
Print Assumptions C71_method_order.
Print Assumptions C71_method_refuted.
