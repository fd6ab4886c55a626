(** Which variables may be relied on: the views grow with what is known before, and keep what is
    not a temporary. *)
From Coq Require Import List Bool NArith.
From Verif Require Import Types_Model Types_Spec TypeFlow_Model TypeFlow_Spec TypeFlow_Frame TypeFlow_Tracker.
From Coq Require Import String.
Import ListNotations.
Local Open Scope list_scope.

Definition sub (V V' : N -> bool) : Prop := forall x, V x = true -> V' x = true.
Lemma sub_refl V : sub V V.
Proof. intros x A. exact A. Qed.
Lemma sub_with l V V' : sub V V' -> sub (with_ l V) (with_ l V').
Proof. intros A x B. unfold with_ in *. apply orb_true_iff in B as [B|B]; rewrite ?B; [reflexivity|]. rewrite (A x B). apply orb_true_r. Qed.
Lemma sub_less l V V' : sub V V' -> sub (less l V) (less l V').
Proof. intros A x B. unfold less in *. apply andb_true_iff in B as [B C]. rewrite B, (A x C). reflexivity. Qed.
Lemma sub_both V V' Z Z' : sub V V' -> sub Z Z' -> sub (both V Z) (both V' Z').
Proof. intros A B x C. unfold both in *. apply andb_true_iff in C as [C E]. rewrite (A x C), (B x E). reflexivity. Qed.
Lemma sub_gone g V V' : sub V V' -> sub (unless_gone g V) (unless_gone g V').
Proof. destruct g; cbn; [intros _; apply sub_refl|auto]. Qed.
Lemma sub_lasting K V V' : sub V V' -> sub (lasting K V) (lasting K V').
Proof. intros A x B. unfold lasting in *. apply andb_true_iff in B as [B C]. rewrite (A x B), C. reflexivity. Qed.
Lemma sub_resting K l V V' : sub V V' -> sub (resting K l V) (resting K l V').
Proof. intros A x B. unfold resting in *. apply andb_true_iff in B as [B C]. rewrite (A x B), C. reflexivity. Qed.
Lemma lasting_twice K V : sub (lasting K V) (lasting K (lasting K V)).
Proof. intros x A. unfold lasting in *. apply andb_true_iff in A as [A B]. rewrite A, B. reflexivity. Qed.
Lemma lasting_sub K V : sub (lasting K V) V.
Proof. intros x A. unfold lasting in *. apply andb_true_iff in A as [A B]. exact A. Qed.
Lemma lasting_true K V x : lasting K V x = true <-> V x = true /\ D K x = false.
Proof. unfold lasting. rewrite andb_true_iff, negb_true_iff. reflexivity. Qed.

Ltac subs := repeat first [assumption | apply sub_refl | apply sub_both | apply sub_gone | apply sub_with | apply sub_less | apply sub_lasting | apply sub_resting].

Lemma good_mono K :
  (forall n V V', sub V V' -> sub (good_after K V n) (good_after K V' n)) /\
  (forall a : args, True) /\
  (forall r V V', sub V V' -> sub (good_after_v K V r) (good_after_v K V' r)) /\
  (forall b : blk, True) /\
  (forall s V V', sub V V' -> sub (good_after_s K V s) (good_after_s K V' s)) /\
  (forall e V V', sub V V' -> sub (good_after_t K V e) (good_after_t K V' e)) /\
  (forall w V V', sub V V' -> sub (good_after_w K V w) (good_after_w K V' w)) /\
  (forall r V V', sub V V' -> sub (good_after_r K V r) (good_after_r K V' r)).
Proof.
  apply tree_ind; try (intros; exact Logic.I); cbn [good_after good_after_v good_after_s good_after_t good_after_w good_after_r]; cbv zeta; intros; subs; auto.
  - destruct b; auto.
  - match goal with A : forall V V', sub V V' -> sub (good_after_t K V ?n) _ |- sub (good_after_t K _ ?n) _ => apply A end. subs; auto.
  - match goal with A : forall V V', sub V V' -> sub (good_after K V ?n) _ |- _ => apply A end. subs.
  - destruct (direct n); auto.
Qed.
Lemma ready_mono K :
  (forall n V V', sub V V' -> ready K V n = true -> ready K V' n = true) /\
  (forall a V V', sub V V' -> ready_a K V a = true -> ready_a K V' a = true) /\
  (forall r V V', sub V V' -> ready_v K V r = true -> ready_v K V' r = true) /\
  (forall b ps ls s, b = BBlock ps ls s -> forall V V', sub V V' -> ready_s K V s = true -> ready_s K V' s = true) /\
  (forall s V V', sub V V' -> ready_s K V s = true -> ready_s K V' s = true) /\
  (forall e V V', sub V V' -> ready_t K V e = true -> ready_t K V' e = true) /\
  (forall w V V', sub V V' -> ready_w K V w = true -> ready_w K V' w = true) /\
  (forall r V V', sub V V' -> ready_r K V r = true -> ready_r K V' r = true).
Proof.
  destruct (good_mono K) as (G&_&Gv&_&Gs&Gt&Gw&Gr).
  assert (split2 : forall a b c d : bool, (a = true -> c = true) -> (b = true -> d = true) -> (a && b)%bool = true -> (c && d)%bool = true).
  { intros [ ] [ ] c d A B C; try discriminate C. rewrite A, B; reflexivity. }
  apply tree_ind; try discriminate; cbn [ready ready_v ready_a ready_s ready_t ready_w ready_r]; cbv zeta; auto.
  - intros safe r IHr f a IHa b IHb V V' S. apply split2; [apply IHr; exact S|]. destruct b as [|ps ls s]; [auto|].
    apply split2; [apply IHa; exact S|]. eapply IHb; [reflexivity|]. subs.
  - intros u q IHq s IHs e IHe V V' S. apply split2; [apply IHq; exact S|]. apply split2; [apply IHs|apply IHe]; auto.
  - intros q IHq w IHw e IHe V V' S. apply split2; [apply IHq; exact S|]. apply split2; [apply IHw|apply IHe]; auto.
  - intros or a IHa b IHb V V' S. apply split2; [apply IHa; exact S|]. apply IHb; auto.
  - intros b IHb r IHr e IHe n IHn V V' S. repeat (apply split2); [apply IHb|apply IHe|apply IHr|apply IHn]; subs; auto.
  - intros a IHa b IHb V V' S. apply split2; [apply IHa|apply IHb]; exact S.
  - intros u c IHc b IHb V V' S. apply split2; [apply IHc|apply IHb]; subs. apply G. subs.
  - intros n IHn a IHa V V' S. apply split2; [apply IHn|apply IHa]; exact S.
  - intros n IHn V V' S. destruct (direct n); [apply IHn; exact S|auto].
  - intros ps ls s IH ps' ls' s' E. injection E as _ _ <-. exact IH.
  - intros n IHn s IHs V V' S. apply split2; [apply IHn|apply IHs]; auto.
  - intros a _ s IHs w IHw V V' S. apply split2; [apply IHs|apply IHw]; auto.
  - intros x s IHs r IHr V V' S. apply split2; [apply IHs|apply IHr]; auto.
Qed.

Lemma keeps K x (Dx : D K x = false) :
  (forall n V, V x = true -> good_after K V n x = true) /\
  (forall a : args, True) /\
  (forall r V, V x = true -> good_after_v K V r x = true) /\
  (forall b : blk, True) /\
  (forall s V, V x = true -> good_after_s K V s x = true) /\
  (forall e V, V x = true -> good_after_t K V e x = true) /\
  (forall w V, V x = true -> good_after_w K V w x = true) /\
  (forall r V, V x = true -> good_after_r K V r x = true).
Proof.
  assert (B2 : forall V Z, V x = true -> Z x = true -> both V Z x = true) by (intros V Z A B; unfold both; rewrite A, B; reflexivity).
  assert (G2 : forall g V, V x = true -> unless_gone g V x = true) by (intros [ ] V A; [reflexivity|exact A]).
  apply tree_ind; try (intros; exact Logic.I); cbn [good_after good_after_v good_after_s good_after_t good_after_w good_after_r]; cbv zeta; intros; auto 8.
  - unfold with_. match goal with A : forall V, V x = true -> good_after K V ?n x = true |- _ => rewrite A by assumption end. apply orb_true_r.
  - destruct b; auto.
  - match goal with A : forall V, V x = true -> good_after K V ?n x = true |- good_after K _ ?n x = true => apply A end.
    apply lasting_true. auto.
  - destruct (direct n); auto.
Qed.

(** the programs covered have no [retry] *)
Lemma simple_retry K :
  (forall n p m, simple K p m n = true -> any is_retry true n = false) /\
  (forall a : args, dark_a K a = true -> any_a is_retry true a = false) /\
  (forall r p m, simple_v K p m r = true -> any_v is_retry true r = false) /\
  (forall b ps ls s, b = BBlock ps ls s -> forall p m, simple_s K p m s = true -> any_s is_retry true s = false) /\
  (forall s p m, simple_s K p m s = true -> any_s is_retry true s = false) /\
  (forall e p m, simple_t K p m e = true -> any_t is_retry true e = false) /\
  (forall w p, simple_w K p w = true -> any_w is_retry true w = false) /\
  (forall r p, simple_r K p r = true -> any_r is_retry true r = false).
Proof.
  assert (DA : forall a, dark_a K a = true -> any_a is_retry true a = false) by (intros a A; unfold dark_a, dark_list in A; checks; assumption).
  apply tree_ind; try discriminate; cbn [any any_v any_a any_b any_s any_t any_w any_r is_retry simple simple_v simple_s simple_t simple_w simple_r]; auto.
  - intros x v IH p m A. checks. eauto.
  - intros x v IH p m A. unfold dark, dark_list in A. checks. assumption.
  - intros x f v IH p m A. unfold dark, dark_list in A. checks. assumption.
  - intros safe r IHr f a IHa b IHb p m A. checks. rewrite (IHr p m), DA by assumption. destruct b as [|ps ls s]; [reflexivity|]. checks.
    eapply IHb; [reflexivity|eassumption].
  - intros u q IHq s IHs e IHe p m A. apply andb_true_iff in A as [A _]. checks. rewrite (IHq p m), (IHs p true), (IHe p true) by assumption. reflexivity.
  - intros q IHq w IHw e IHe p m A. checks. rewrite (IHq p m), (IHw p), (IHe p true) by assumption. reflexivity.
  - intros or a IHa b IHb p m A. checks. rewrite (IHa p m), (IHb p true) by assumption. reflexivity.
  - intros b IHb r IHr e IHe n IHn p m A. checks. erewrite IHb, (IHr p), (IHe p true), (IHn p m) by eassumption. reflexivity.
  - intros a IHa b IHb p m A. checks. rewrite (IHa true true), (IHb p true) by assumption. reflexivity.
  - intros u c IHc b IHb p m A. checks. rewrite (IHc p true), (IHb p true) by assumption. reflexivity.
  - intros n _ a _ A. exact (DA _ A).
  - intros n IH p m A. unfold dark, dark_list in A. destruct (direct n); checks; eauto.
  - intros ps ls s IH ps' ls' s' E. injection E as _ _ <-. exact IH.
  - intros n IHn s IHs p m A. checks. rewrite (IHn p m), (IHs p m) by assumption. reflexivity.
  - intros a _ s IHs w IHw p A. checks. rewrite DA, (IHs p true), (IHw p) by assumption. reflexivity.
  - intros x s IHs r IHr p A. checks. rewrite (IHs p true), (IHr p) by assumption. reflexivity.
Qed.
