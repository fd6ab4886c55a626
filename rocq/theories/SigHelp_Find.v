(** Signature help: the call found is the innermost one. *)
From Coq Require Import List Arith NArith Bool Lia.
From Verif Require Import Calls_Model Calls_Spec SigHelp_Model SigHelp_Spec.
Import ListNotations.

Fixpoint tree_rect2 (P : tree -> Prop) (H : forall l c b, Forall P b -> P (Node l c b)) (t : tree) : P t :=
  match t with
  | Node l c b => H l c b ((fix all (b : list tree) : Forall P b :=
      match b with [] => Forall_nil P | x :: r => Forall_cons x (tree_rect2 P H x) (all r) end) b)
  end.

Section Find.
Variable cursor : nat.

Lemma question_holds u c : call_of u = Some c -> (in_question cursor (loc u) c = true <-> holds cursor u c).
Proof.
  intro C. unfold in_question, holds. split.
  - intro Q. destruct (message c) as [m|]; [|discriminate]. apply andb_prop in Q as [A B].
    apply negb_true_iff in A. apply negb_true_iff in B. apply orb_false_elim in A as [A1 A2].
    apply Nat.ltb_ge in A1. apply Nat.ltb_ge in A2. split; auto. split; [exists m; auto|].
    intros b E. rewrite E in B. apply Nat.leb_gt in B. exact B.
  - intros [_ [[m [E [L1 L2]]] B]]. rewrite E. apply andb_true_intro. split; apply negb_true_iff.
    + apply orb_false_intro; apply Nat.ltb_ge; auto.
    + destruct (blk c) as [b|]; auto. apply Nat.leb_gt. now apply B.
Qed.

Definition better (a b : option found) : Prop :=
  forall p s d, a = Some (p, s, d) -> exists p' s' d', b = Some (p', s', d') /\ span_len s' <= span_len s.
Lemma better_refl a : better a a.
Proof. intros p s d E. exists p, s, d. auto. Qed.
Lemma better_trans a b c : better a b -> better b c -> better a c.
Proof. intros A B p s d E. destruct (A p s d E) as [p' [s' [d' [E' L]]]]. destruct (B _ _ _ E') as [p2 [s2 [d2 [E2 L2]]]]. exists p2, s2, d2. split; auto. lia. Qed.

Definition each (path : list nat) : nat -> list tree -> option found -> option found :=
  fix each i l best := match l with [] => best | t :: r => each (S i) r (visit cursor (path ++ [i]) t best) end.

Lemma visit_node path l c b best : visit cursor path (Node l c b) best = each path 0 b (consider cursor path l c best).
Proof. reflexivity. Qed.

Definition good (path : list nat) (t : tree) (best r : option found) : Prop :=
  (r = best \/ exists q u c, at_path t q = Some u /\ holds cursor u c /\ r = Some (path ++ q, loc u, c)) /\
  (forall q u c, at_path t q = Some u -> holds cursor u c -> exists p s d, r = Some (p, s, d) /\ span_len s <= span_len (loc u)) /\
  better best r.

Lemma each_good : forall b, Forall (fun t => forall path best, good path t best (visit cursor path t best)) b ->
  forall path i best, let r := each path i b best in
  (r = best \/ exists j q v u c, nth_error b j = Some v /\ at_path v q = Some u /\ holds cursor u c /\ r = Some (path ++ (i + j) :: q, loc u, c)) /\
  (forall j v q u c, nth_error b j = Some v -> at_path v q = Some u -> holds cursor u c ->
     exists p s d, r = Some (p, s, d) /\ span_len s <= span_len (loc u)) /\
  better best r.
Proof.
  induction 1 as [|t b G F IH]; intros path i best; cbn [each].
  - cbn. repeat split; auto; [|apply better_refl]. intros [|j]; discriminate.
  - set (m := visit cursor (path ++ [i]) t best). destruct (G (path ++ [i]) best) as [A [B C]]. fold m in A, B, C.
    destruct (IH path (S i) m) as [D [E X]]. change (each path (S i) b m) with (each path (S i) b m) in *.
    set (r := each path (S i) b m) in *. cbn zeta in D, E, X. fold r in D, E, X. split; [|split].
    + destruct D as [D|[j [q [v [u [c [D1 [D2 [D3 D4]]]]]]]]].
      * rewrite D. destruct A as [A|[q [u [c [A1 [A2 A3]]]]]]; auto. right. exists 0, q, t, u, c.
        repeat split; auto; try apply A2. rewrite A3, Nat.add_0_r, <- app_assoc. reflexivity.
      * right. exists (S j), q, v, u, c. rewrite Nat.add_succ_r. auto.
    + intros [|j] v q u c Nv Au Hu.
      * cbn in Nv. injection Nv as <-. destruct (B q u c Au Hu) as [p [s [d [Em L]]]].
        destruct (X p s d Em) as [p' [s' [d' [Er L']]]]. exists p', s', d'. split; auto. lia.
      * eapply E; eauto.
    + eapply better_trans; eauto.
Qed.

Lemma visit_good : forall t path best, good path t best (visit cursor path t best).
Proof.
  apply (tree_rect2 (fun t => forall path best, good path t best (visit cursor path t best))).
  intros l oc b F path best. rewrite visit_node.
  set (m := consider cursor path l oc best). destruct (each_good b F path 0 m) as [A [B C]]. cbn zeta in *.
  assert (M : better best m /\ (m = best \/ exists c, oc = Some c /\ in_question cursor l c = true /\ m = Some (path, l, c)) /\
    (forall c, oc = Some c -> in_question cursor l c = true -> exists p s d, m = Some (p, s, d) /\ span_len s <= span_len l)).
  { unfold m, consider. destruct oc as [c|]; [|split; [apply better_refl|split; [auto|discriminate]]].
    destruct (in_question cursor l c) eqn:Q.
    - destruct best as [[[p s] d]|].
      + destruct (Nat.leb_spec (span_len s) (span_len l)).
        * split; [apply better_refl|]. split; auto. intros c' _ _. exists p, s, d. auto.
        * split; [intros p' s' d' E; injection E as <- <- <-; exists path, l, c; split; auto; lia|].
          split; [right; exists c; auto|]. intros c' E _. injection E as <-. exists path, l, c. auto.
      + split; [intros p' s' d' E; discriminate|]. split; [right; exists c; auto|]. intros c' E _. injection E as <-. exists path, l, c. auto.
    - split; [apply better_refl|]. split; auto. intros c' E Q'. injection E as <-. congruence. }
  destruct M as [M1 [M2 M3]]. split; [|split].
  - destruct A as [A|[j [q [v [u [c [A1 [A2 [A3 A4]]]]]]]]].
    + rewrite A. destruct M2 as [M2|[c [E [Q M2]]]]; auto. right. exists [], (Node l oc b), c.
      split; [reflexivity|]. split; [now apply question_holds|]. now rewrite app_nil_r.
    + right. exists (j :: q), u, c. cbn. rewrite A1. auto.
  - intros [|j q] u c Au Hu.
    + cbn in Au. injection Au as <-. assert (Hc := proj1 Hu). cbn in Hc.
      destruct (M3 c Hc (proj2 (question_holds (Node l oc b) c Hc) Hu)) as [p [s [d [E L]]]].
      destruct (C p s d E) as [p' [s' [d' [E' L']]]]. exists p', s', d'. split; auto. cbn. lia.
    + cbn in Au. destruct (nth_error b j) as [v|] eqn:Nv; [|discriminate]. eapply B; eauto.
  - eapply better_trans; eauto.
Qed.

(** Two calls that hold the cursor: one is inside the other. *)
Lemma path_app : forall t a b, at_path t (a ++ b) = match at_path t a with Some u => at_path u b | None => None end.
Proof.
  intros t a. revert t. induction a as [|i a IH]; intros [l c bl] b; [reflexivity|]. cbn. destruct (nth_error bl i); auto.
Qed.
Lemma split_paths : forall a b : list nat, (exists r, b = a ++ r) \/ (exists r, a = b ++ r /\ r <> []) \/
  exists c i j r s, a = c ++ i :: r /\ b = c ++ j :: s /\ i <> j.
Proof.
  induction a as [|i a IH]; intros b; [left; exists b; auto|]. destruct b as [|j b].
  - right. left. exists (i :: a). split; auto. discriminate.
  - destruct (Nat.eq_dec i j) as [->|N]; [|right; right; exists [], i, j, a, b; auto].
    destruct (IH b) as [[r ->]|[[r [-> R]]|[c [x [y [r [s [-> [-> N]]]]]]]]].
    + left. exists r. auto.
    + right. left. exists r. auto.
    + right. right. exists (j :: c), x, y, r, s. auto.
Qed.
Section Tree.
Variable t : tree.
Hypothesis Pt : parsed t.
Lemma below_inside : forall r a u v, at_path t a = Some u -> at_path t (a ++ r) = Some v -> inside (loc v) (loc u).
Proof.
  induction r as [|i r IH]; intros a u v A B.
  - rewrite app_nil_r in B. rewrite A in B. injection B as <-. split; lia.
  - replace (a ++ i :: r) with ((a ++ [i]) ++ r) in B by now rewrite <- app_assoc.
    destruct (at_path t (a ++ [i])) as [w|] eqn:W; [|rewrite path_app, W in B; discriminate].
    destruct (IH _ _ _ W B) as [X1 X2]. destruct (p_inside t Pt a i u w A W) as [Y1 Y2]. split; lia.
Qed.
Lemma apart : forall c i j r s u v d e, i < j -> at_path t (c ++ i :: r) = Some u -> at_path t (c ++ j :: s) = Some v ->
  holds cursor u d -> holds cursor v e -> False.
Proof.
  intros c i j r s u v d e L A B Hu Hv.
  replace (c ++ i :: r) with ((c ++ [i]) ++ r) in A by now rewrite <- app_assoc.
  replace (c ++ j :: s) with ((c ++ [j]) ++ s) in B by now rewrite <- app_assoc.
  destruct (at_path t (c ++ [i])) as [w|] eqn:W; [|rewrite path_app, W in A; discriminate].
  destruct (at_path t (c ++ [j])) as [x|] eqn:X; [|rewrite path_app, X in B; discriminate].
  destruct (below_inside _ _ _ _ W A) as [A1 A2]. destruct (below_inside _ _ _ _ X B) as [B1 B2].
  pose proof (p_order t Pt c i j w x L W X) as O.
  destruct Hu as [_ [[m [_ [_ U]]] _]]. destruct Hv as [Cv [[m' [Em [V _]]] _]].
  destruct (p_name t Pt _ v e m' B Cv Em) as [N1 [N2 N3]]. lia.
Qed.

Lemma find_some path s c : find_call cursor t = Some (path, s, c) ->
  exists u, at_path t path = Some u /\ loc u = s /\ holds cursor u c /\
  forall path' u' c', at_path t path' = Some u' -> holds cursor u' c' -> exists r, path = path' ++ r.
Proof.
  intro E. destruct (visit_good t [] None) as [A [B _]]. fold (find_call cursor t) in A, B. rewrite E in A, B.
  destruct A as [A|[q [u [c0 [A1 [A2 A3]]]]]]; [discriminate|]. injection A3 as -> -> ->.
  exists u. repeat split; auto; try apply A2. intros q' u' c' Q' H'.
  destruct (split_paths q' q) as [R|[[r [-> R]]|[d [i [j [r [s' [-> [-> N]]]]]]]]]; auto; exfalso.
  - destruct (B _ _ _ Q' H') as [p [s [e [F L]]]]. injection F as _ <- _.
    pose proof (p_shorter t Pt q r u u' c0 c' A1 Q' R (proj1 A2) (proj1 H')) as Sh. unfold span_len in L. lia.
  - destruct (lt_dec i j); [exact (apart d i j r s' u' u c' c0 ltac:(lia) Q' A1 H' A2)|].
    exact (apart d j i s' r u u' c0 c' ltac:(lia) A1 Q' A2 H').
Qed.
Lemma find_none : find_call cursor t = None -> forall path u c, at_path t path = Some u -> ~ holds cursor u c.
Proof.
  intros E path u c A H. destruct (visit_good t [] None) as [_ [B _]]. fold (find_call cursor t) in B. rewrite E in B.
  destruct (B _ _ _ A H) as [p [s [d [F _]]]]. discriminate.
Qed.
End Tree.
End Find.
