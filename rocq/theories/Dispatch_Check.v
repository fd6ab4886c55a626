(** Sound checks of the conditions of Dispatch_Spec, for the examples. *)
From Coq Require Import List Arith Bool Lia.
From Verif Require Import Dispatch_Model Dispatch_Spec Dispatch_Proofs.
Import ListNotations.

Fixpoint pairs (R : event -> event -> bool) (l : list event) : bool :=
  match l with [] => true | x :: r => forallb (R x) r && pairs R r end.

Lemma pairs_sound R l : pairs R l = true -> forall l1 x l2 y l3, l = l1 ++ x :: l2 ++ y :: l3 -> R x y = true.
Proof.
  induction l as [|e l IH]; intros H l1 x l2 y l3 E.
  - destruct l1; discriminate.
  - cbn in H. apply andb_true_iff in H as (H1 & H2). destruct l1 as [|z l1]; cbn in E.
    + injection E as -> ->. rewrite forallb_forall in H1. apply H1. apply in_or_app. right. now left.
    + injection E as -> E. eauto.
Qed.

Definition same_def (n : nat) (x y : event) : bool :=
  match x, y with Def o m _ _, Def o' m' _ _ => negb (same o o' && (m =? n) && (m' =? n)) | _, _ => true end.
Definition set_def (n : nat) (x y : event) : bool :=
  match x, y with Set_ o m _ _, Def o' m' _ _ => negb (same o o' && (m =? n) && (m' =? n)) | _, _ => true end.
Definition set_set (n : nat) (x y : event) : bool :=
  match x, y with
  | Set_ o m _ p, Set_ o' m' _ q => negb (same o o' && (m =? n) && (m' =? n)) ||
      (fst p <? fst q) || ((fst p =? fst q) && (snd p <=? snd q))
  | _, _ => true end.

Lemma once_sound n l : pairs (same_def n) l = true -> defined_once n l.
Proof.
  intros H l1 l2 l3 o v p w q E. pose proof (pairs_sound _ _ H _ _ _ _ _ E) as R. cbn in R.
  rewrite same_refl, Nat.eqb_refl in R. discriminate.
Qed.
Lemma first_sound n l : pairs (set_def n) l = true -> defined_first n l.
Proof.
  intros H l1 l2 l3 o v p w q E. pose proof (pairs_sound _ _ H _ _ _ _ _ E) as R. cbn in R.
  rewrite same_refl, Nat.eqb_refl in R. discriminate.
Qed.
Lemma ordered_sound n l : pairs (set_set n) l = true -> ordered n l.
Proof.
  intros H l1 l2 l3 o v p w q E. pose proof (pairs_sound _ _ H _ _ _ _ _ E) as R. unfold set_set in R.
  rewrite same_refl, Nat.eqb_refl in R. cbn [negb andb orb] in R. unfold before.
  apply orb_true_iff in R as [R|R]; [left; now apply Nat.ltb_lt|right].
  apply andb_true_iff in R as (R1 & R2). apply Nat.eqb_eq in R1. apply Nat.leb_le in R2. auto.
Qed.

Fixpoint changes (chain : owner -> list owner) (n : nat) (t : table) (l : list event) : bool :=
  match l with
  | [] => true
  | e :: r =>
      match e with
      | Set_ o m v _ =>
          if m =? n then
            match t o n, find t (chain o) n with
            | None, Some (_, x) => negb (vis_eqb (entry_vis x) v)
            | _, _ => true
            end
          else true
      | Def _ _ _ _ => true
      end &&
      match apply_event chain t e with Some t1 => changes chain n t1 r | None => true end
  end.

Lemma changes_sound chain n l : forall t0, changes chain n t0 l = true ->
  forall l1 o v p l2 t x, l = l1 ++ Set_ o n v p :: l2 -> load chain t0 l1 = Some t ->
    t o n = None -> find t (chain o) n = Some x -> entry_vis (snd x) <> v.
Proof.
  induction l as [|e l IH]; intros t0 H l1 o v p l2 t x E L T F.
  - destruct l1; discriminate.
  - cbn [changes] in H. apply andb_true_iff in H as (H1 & H2). destruct l1 as [|z l1]; cbn in E.
    + injection E as -> ->. cbn in L. injection L as ->. rewrite Nat.eqb_refl, T, F in H1.
      destruct x as [b x]. cbn [snd]. intros <-. destruct (entry_vis x); discriminate.
    + injection E as -> E. cbn [load] in L. destruct (apply_event chain t0 z) as [t1|]; [|discriminate].
      eapply (IH t1); eauto.
Qed.

Lemma settled_sound chain n p :
  ordinary n -> written_plainly n p ->
  pairs (same_def n) (events p) && pairs (set_def n) (events p) && pairs (set_set n) (events p) &&
  changes chain n empty (events p) = true -> settled chain n p.
Proof.
  intros O W H. rewrite !andb_true_iff in H. destruct H as (((H1 & H2) & H3) & H4).
  unfold settled. split; [auto|]. split; [auto|]. split; [now apply once_sound|].
  split; [now apply first_sound|]. split; [|now apply ordered_sound].
  intros l1 o v q l2 t x. now apply changes_sound.
Qed.
