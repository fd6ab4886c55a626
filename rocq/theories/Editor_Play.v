(** Runs played move by move, for the examples: every move is a step of Editor_Model.v. *)
From Coq Require Import List Bool ZArith String Sorted Lia.
From Verif Require Import Editor_Model Editor_Spec Editor_Core.
Import ListNotations.
Open Scope list_scope.

Lemma run_cons : forall W x e y es z, step W x e y -> run W y es z -> run W x (e :: es) z.
Proof.
  intros W x e y es z St R. induction R.
  - apply (run_snoc W x [] x e). constructor. auto.
  - apply (run_snoc W x (e :: es) y e0); auto.
Qed.
Lemma run_app : forall W x a y b z, run W x a y -> run W y b z -> run W x (a ++ b) z.
Proof.
  intros W x a y b z R1 R2. induction R2.
  - rewrite app_nil_r. auto.
  - rewrite app_assoc. econstructor; eauto.
Qed.

Inductive move :=
| Gets (n : note) | Writes (u : uri) (t : option text)
| Goes (i : nat)                    (* handler i takes its next step *)
| Fails (i : nat)                   (* its analysis fails *)
| Main                              (* the polling task's own work *)
| Ends (i : nat) (us : list uri).   (* handler i ends, these documents are refreshed *)

Definition opened (s : server) (u : uri) : bool := match docs s u with Some _ => true | None => false end.
Definition free (n : note) (l : list handler) : bool :=
  forallb (fun h => match locks (fst h), locks n with Some a, Some b => negb (String.eqb a b) | _, _ => true end) l.
Definition is_deleted (c : change) : bool := match c with Deleted => true | _ => false end.

Section Play.
Variable W : world.
Variable fails : job -> bool.       (* which analyses the world lets fail *)

Definition go (x : state) (n : note) (p : phase) (l1 l2 : list handler) : option state :=
  let s := srv x in
  let no_work := match busy x with [] => true | _ => false end in
  match p with
  | Waiting => if no_work && free n l1 then Some (State (fst (start W s n)) [] (l1 ++ kept n (snd (start W s n)) ++ l2)) else None
  | Analysing (Some j) => Some (State (fst (job_step W s j)) (busy x) (l1 ++ (n, Analysing (snd (job_step W s j))) :: l2))
  | Analysing None =>
      match n with
      | DidChange _ _ _ | DidSave _ => if no_work then Some (State s [] (l1 ++ l2)) else None
      | _ => None
      end
  | Looping ((u, c) :: cs) f =>
      if no_work then
        if negb (inside W u) || opened s u then Some (State s [] (l1 ++ (n, Looping cs f) :: l2))
        else if signature W u then None
        else if is_deleted c || negb (included W u) then
          Some (State (fst (clear_if is_project s u)) []
                      (l1 ++ (n, Looping cs (f || snd (clear_if is_project s u))) :: l2))
        else Some (State s [] (l1 ++ (n, Reading u cs f) :: l2))
      else None
  | Looping [] f => if no_work && negb f then Some (State s [] (l1 ++ l2)) else None
  | Reading u cs f => Some (State s (busy x) (l1 ++ (n, HasRead u (disk s u) cs f) :: l2))
  | HasRead u (Some t) cs f => if no_work then Some (State s [Collect u t CRegister] (l1 ++ (n, Looping cs true) :: l2)) else None
  | HasRead u None cs f =>
      if no_work then Some (State (fst (clear_if is_project s u)) []
                              (l1 ++ (n, Looping cs (f || snd (clear_if is_project s u))) :: l2)) else None
  end.

Definition play (x : state) (m : move) : option (event * state) :=
  match m with
  | Gets n => Some (Arrive n, State (srv x) (busy x) (hs x ++ [(n, first_phase n)]))
  | Writes u t => Some (Wrote u t, State (set_disk (srv x) u t) (busy x) (hs x))
  | Goes i =>
      match nth_error (hs x) i with
      | Some (n, p) => option_map (pair Tau) (go x n p (firstn i (hs x)) (skipn (S i) (hs x)))
      | None => None
      end
  | Fails i =>
      match nth_error (hs x) i with
      | Some (n, Analysing (Some j)) =>
          if failing j && fails j
          then Some (Tau, State (srv x) (busy x) (firstn i (hs x) ++ (n, Analysing None) :: skipn (S i) (hs x))) else None
      | _ => None
      end
  | Main =>
      match busy x with
      | k :: r => Some (Tau, State (fst (task_step W (srv x) k)) (pushed (snd (task_step W (srv x) k)) r) (hs x))
      | [] => None
      end
  | Ends i us =>
      match nth_error (hs x) i, busy x with
      | Some (DidOpen _ _ _, Analysing None), [] | Some (_, Looping [] true), [] =>
          Some (Tau, State (srv x) (refresh (srv x) us) (firstn i (hs x) ++ skipn (S i) (hs x)))
      | _, _ => None
      end
  end.

(** The refreshed documents must be the right ones. *)
Definition due (x : state) (m : move) : Prop :=
  match m with
  | Ends i us =>
      match nth_error (hs x) i with
      | Some (DidOpen u _ _, Analysing None) => enumerates us (others_after_open (srv x) u)
      | Some (_, Looping [] true) => enumerates us (all_after_watch (srv x)) /\ in_order us
      | _ => True
      end
  | _ => True
  end.

Hypothesis fails_ok : forall j, fails j = true -> may_fail W (ju j) (jt j).

Lemma nth_mid : forall (A : Type) (l : list A) i a, nth_error l i = Some a -> l = firstn i l ++ a :: skipn (S i) l.
Proof.
  intros A l. induction l as [|b l IH]; intros [|i] a E; cbn in *; try discriminate.
  - now injection E as ->.
  - now rewrite <- (IH i a E).
Qed.

Lemma free_ok : forall n l, free n l = true -> lock_free n l.
Proof.
  intros n l F h u i o E. unfold free in F. rewrite forallb_forall in F. specialize (F h i). unfold on in o.
  rewrite o, E, String.eqb_refl in F. discriminate.
Qed.
Lemma opened_ok : forall s u, opened s u = true <-> is_open s u.
Proof. intros s u. unfold opened, is_open. destruct (docs s u); split; try congruence; intro X; now try (exfalso; apply X). Qed.

Lemma play_step : forall x m e y, play x m = Some (e, y) -> due x m -> step W x e y.
Proof.
  intros [s b l] m e y P D. destruct m as [n|u t|i|i| |i us]; cbn [play srv busy hs due] in *.
  - injection P as <- <-. constructor.
  - injection P as <- <-. constructor.
  - destruct (nth_error l i) as [[n p]|] eqn:N; [|discriminate]. apply nth_mid in N. rewrite N. rewrite <- N.
    set (l1 := firstn i l) in *. set (l2 := skipn (S i) l) in *. clearbody l1 l2. subst l.
    destruct p as [|[j|]|[|[u c] cs] f|u cs f|u [t|] cs f]; cbn [go srv busy] in P.
    + destruct b; [|discriminate]. cbn in P. destruct (free n l1) eqn:F; [|discriminate]. injection P as <- <-.
      constructor. now apply free_ok.
    + injection P as <- <-. constructor.
    + destruct n; try discriminate; (destruct b; [|discriminate]); injection P as <- <-; constructor.
    + destruct b; [|discriminate]. destruct f; [discriminate|]. injection P as <- <-. constructor.
    + destruct b; [|discriminate].
      destruct (negb (inside W u) || opened s u) eqn:O.
      * injection P as <- <-. constructor. apply orb_true_iff in O. rewrite negb_true_iff, opened_ok in O. auto.
      * apply orb_false_iff in O. destruct O as [O1 O2]. apply negb_false_iff in O1.
        assert (O3 : ~ is_open s u) by (rewrite <- opened_ok; congruence).
        destruct (signature W u) eqn:Sg; [discriminate|].
        destruct (is_deleted c || negb (included W u)) eqn:G.
        -- injection P as <- <-. apply s_gone with (c := c); auto. apply orb_true_iff in G. rewrite negb_true_iff in G.
           destruct G as [G|G]; auto. destruct c; try discriminate. auto.
        -- injection P as <- <-. apply orb_false_iff in G. destruct G as [G1 G2]. apply negb_false_iff in G2.
           apply s_read; auto. intros ->. discriminate.
    + injection P as <- <-. constructor.
    + destruct b; [|discriminate]. injection P as <- <-. constructor.
    + destruct b; [|discriminate]. injection P as <- <-. constructor.
  - destruct (nth_error l i) as [[n p]|] eqn:N; [|discriminate]. destruct p as [|[j|]| | |]; try discriminate.
    destruct (failing j && fails j) eqn:F; [|discriminate]. apply andb_true_iff in F. destruct F as [F1 F2].
    apply nth_mid in N. injection P as <- <-. rewrite N at 1. constructor; auto.
  - destruct b as [|k r]; [discriminate|]. injection P as <- <-. constructor.
  - destruct (nth_error l i) as [[n p]|] eqn:N; [|discriminate]. apply nth_mid in N.
    destruct n as [u v t|u v ts|u|u|cs0]; destruct p as [|[j|]|[|[w c] cs] [|]| |]; destruct b; try discriminate;
      injection P as <- <-; rewrite N at 1; econstructor; try apply D.
Qed.

Fixpoint plays (x : state) (ms : list move) : option (list event * state) :=
  match ms with
  | [] => Some ([], x)
  | m :: r =>
      match play x m with
      | Some (e, y) => match plays y r with Some (es, z) => Some (e :: es, z) | None => None end
      | None => None
      end
  end.
Fixpoint dues (x : state) (ms : list move) : Prop :=
  match ms with
  | [] => True
  | m :: r => due x m /\ match play x m with Some (_, y) => dues y r | None => True end
  end.
Lemma plays_run : forall ms x es y, plays x ms = Some (es, y) -> dues x ms -> run W x es y.
Proof.
  induction ms as [|m r IH]; intros x es y P D; cbn in *.
  - injection P as <- <-. constructor.
  - destruct D as [D1 D2]. destruct (play x m) as [[e z]|] eqn:E; [|discriminate].
    destruct (plays z r) as [[es' w]|] eqn:E2; [|discriminate]. injection P as <- <-.
    eapply run_cons; [eapply play_step; eauto|]. eapply IH; eauto.
Qed.
End Play.
