(** What a run can change, read and end with, whatever its types. *)
From Coq Require Import List Bool NArith.
From Verif Require Import Types_Model Types_Spec TypeFlow_Model TypeFlow_Spec.
From Coq Require Import String.
Import ListNotations.
Local Open Scope list_scope.

Scheme node_i := Induction for node Sort Prop
with args_i := Induction for args Sort Prop
with recv_i := Induction for recv Sort Prop
with blk_i := Induction for blk Sort Prop
with stmts_i := Induction for stmts Sort Prop
with tail_i := Induction for tail Sort Prop
with whens_i := Induction for whens Sort Prop
with rescues_i := Induction for rescues Sort Prop.
Combined Scheme tree_ind from node_i, args_i, recv_i, blk_i, stmts_i, tail_i, whens_i, rescues_i.

Definition mods_c (c : code) : list N :=
  match c with
  | IN n => mods n | IV r => mods_v r | IA a => mods_a a | IS s => mods_s s | IT e => mods_t e
  | IW w e => mods_w w ++ mods_t e
  | IC b r e => mods_s b ++ mods_r r ++ mods_t e
  | IR r => mods_r r
  | IK _ _ _ b => mods_b b
  end.
Definition labs_c (c : code) : list N :=
  match c with
  | IN n => labs n | IV r => labs_v r | IA a => labs_a a | IS s => labs_s s | IT e => labs_t e
  | IW w e => labs_w w ++ labs_t e
  | IC b r e => labs_s b ++ labs_r r ++ labs_t e
  | IR r => labs_r r
  | IK _ _ _ b => labs_b b
  end.
Definition any_c (hit : node -> option bool) (blocks : bool) (c : code) : bool :=
  match c with
  | IN n => any hit blocks n | IV r => any_v hit blocks r | IA a => any_a hit blocks a
  | IS s => any_s hit blocks s | IT e => any_t hit blocks e
  | IW w e => any_w hit blocks w || any_t hit blocks e
  | IC b r e => any_s hit blocks b || any_r hit blocks r || any_t hit blocks e
  | IR r => any_r hit blocks r
  | IK _ _ _ b => any_b hit blocks b
  end.

Lemma member_in x l : member x l = true <-> In x l.
Proof.
  unfold member. rewrite existsb_exists. split.
  - intros [y [A B]]. apply N.eqb_eq in B. subst. exact A.
  - intros A. exists x. split; [exact A|apply N.eqb_refl].
Qed.
Lemma member_not x l : member x l = false <-> ~ In x l.
Proof. rewrite <- member_in. destruct (member x l); intuition congruence. Qed.
Lemma in_without x l k : In x (without l k) <-> In x l /\ ~ In x k.
Proof.
  unfold without. rewrite filter_In. split; intros [A B]; split; auto.
  - apply member_not. destruct (member x k); [discriminate|reflexivity].
  - apply member_not in B. rewrite B. reflexivity.
Qed.

Lemma labs_capp a b : labs_a (capp a b) = labs_a a ++ labs_a b.
Proof. induction a as [|n a IH]; cbn; [reflexivity|]. rewrite IH. apply app_assoc. Qed.
Lemma mods_capp a b : mods_a (capp a b) = mods_a a ++ mods_a b.
Proof. induction a as [|n a IH]; cbn; [reflexivity|]. rewrite IH. apply app_assoc. Qed.
Lemma any_capp h k a b : any_a h k (capp a b) = any_a h k a || any_a h k b.
Proof. induction a as [|n a IH]; cbn; [reflexivity|]. rewrite IH. apply orb_assoc. Qed.

Lemma push_abrupt v o : abrupt o -> push v o = o.
Proof. destruct o; cbn; tauto. Qed.
Lemma push_normal v o u : push v o = Normal u -> exists w, o = Normal w.
Proof. destruct o; cbn; intros A; try discriminate. eauto. Qed.
Lemma push_same v o o' : push v o = o' -> abrupt o' -> o = o'.
Proof. destruct o as [[ ]| | | | | |]; cbn; intros <-; cbn; tauto. Qed.

Lemma upd_other s x v y : y <> x -> upd s x v y = s y.
Proof. intros A. unfold upd. apply N.eqb_neq in A. rewrite A. reflexivity. Qed.
Lemma upd_same s x v : upd s x v x = v.
Proof. unfold upd. rewrite N.eqb_refl. reflexivity. Qed.
Lemma upds_other {A} (g : A -> N) (k : A -> val) l x : forall s,
  (forall i, In i l -> g i <> x) -> fold_left (fun s i => upd s (g i) (k i)) l s x = s x.
Proof.
  induction l as [|i l IH]; intros s B; cbn [fold_left]; [reflexivity|].
  rewrite IH by (intros j J; apply B; right; exact J). apply upd_other.
  intros E. apply (B i (or_introl eq_refl)). congruence.
Qed.
Lemma bind_other s ps ls vs x : ~ In x (ps ++ ls) -> bind s ps ls vs x = s x.
Proof.
  intros A. unfold bind. rewrite upds_other.
  - apply (upds_other (fun y => y) (fun _ => vnil)). intros y Y E. subst y. apply A, in_or_app. right. exact Y.
  - intros i J E. apply A, in_or_app. left. rewrite <- E. apply nth_In. apply in_seq in J. apply J.
Qed.

Definition frame (c : code) (s : store) (tr : list (N * val)) (o : outcome) (s' : store) : Prop :=
  (forall x, ~ In x (mods_c c) -> s' x = s x) /\
  (forall l v, In (l, v) tr -> In l (labs_c c)) /\
  (forall v, o = Ret v -> any_c is_return true c = true) /\
  (o = Brk -> any_c is_break false c = true) /\
  (o = Nxt -> any_c is_next false c = true /\ match c with IK _ _ _ _ => False | _ => True end) /\
  (o = Rtr -> any_c is_retry true c = true).

Ltac fr_solve :=
  repeat match goal with
  | H : frame _ _ _ _ _ |- _ => destruct H as (?&?&?&?&?&?)
  end;
  unfold frame; cbn [mods_c labs_c any_c any any_v any_a any_b any_s any_t any_w any_r
    mods mods_v mods_a mods_b mods_s mods_t mods_w mods_r
    labs labs_v labs_a labs_b labs_s labs_t labs_w labs_r is_return is_break is_next is_retry andb] in *;
  rewrite ?labs_capp, ?mods_capp, ?any_capp in *.

Lemma unbind_outside s s1 ps ls body z xs : ~ (In z (mods_s body) /\ ~ In z (ps ++ ls)) ->
  (forall x, ~ In x (mods_s body) -> s1 x = bind s ps ls xs x) -> unbind s s1 (ps ++ ls) z = s z.
Proof.
  intros A B. unfold unbind. destruct (member z (ps ++ ls)) eqn:E; [reflexivity|].
  apply member_not in E. rewrite B by tauto. apply bind_other. exact E.
Qed.

Ltac fr_store :=
  repeat match goal with
  | M : forall x, ~ In x ?l -> ?a x = ?b x |- _ =>
      first [rewrite M by (rewrite ?in_app_iff; cbn [In]; rewrite ?in_without; tauto)|clear M]
  end; try reflexivity.
Theorem exec_frame W c s tr o s' : exec W c s tr o s' -> frame c s tr o s'.
Proof.
  intros X. induction X; fr_solve.
  all: split; [|split; [|split; [|split; [|split]]]].
  (* stores *)
  all: try (match goal with |- forall x, ~ In x _ -> _ => idtac end;
    intros z Z; rewrite ?in_app_iff in Z; cbn [In] in Z; rewrite ?in_without in Z;
    try rewrite upd_other by intuition congruence).
  all: try (match goal with |- unbind _ _ _ ?z = _ => idtac end;
    eapply unbind_outside; [|eassumption]; exact Z).
  all: try (match goal with M : forall x, _ -> ?s2 x = unbind ?s ?s1 ?l x |- ?s2 ?z = ?s ?z => idtac end;
    match goal with M : forall x, _ -> ?s2 x = unbind ?s ?s1 ?l x |- ?s2 ?z = ?s ?z =>
      rewrite M by (rewrite in_without; exact Z) end;
    eapply unbind_outside; [|eassumption]; exact Z).
  all: try (match goal with |- ?a ?z = ?b ?z => idtac end; solve [fr_store]).
  all: try (match goal with |- ?a ?z = ?b ?z => idtac end; destruct x as [x|]; fr_store; apply upd_other; cbn [In] in Z; intuition congruence).
  (* reads *)
  all: try (match goal with |- forall l v, In (l, v) _ -> In l _ => idtac end;
    intros l' v' J; rewrite ?in_app_iff in *; cbn [In] in *;
    repeat match goal with M : forall l v, In (l, v) _ -> _ |- _ => specialize (M l' v') end;
    rewrite ?in_app_iff in *; cbn [In] in *;
    first [tauto | destruct J as [J|[]]; injection J as E1 E2; tauto]).
  (* outcomes *)
  all: try (intros; discriminate).
  all: rewrite ?orb_true_iff in *.
  all: try (intros v' J; try (apply push_same in J; [|exact Logic.I]); subst; cbn [abrupt] in *;
     repeat match goal with M : forall v, Ret _ = Ret v -> _ |- _ => specialize (M _ eq_refl) end;
     rewrite ?orb_true_iff in *; tauto).
  all: try (intros J; try (apply push_same in J; [|exact Logic.I]); subst; cbn [abrupt] in *;
     repeat match goal with M : ?a = ?a -> _ |- _ => specialize (M eq_refl) end;
     rewrite ?orb_true_iff in *; tauto).
Qed.
