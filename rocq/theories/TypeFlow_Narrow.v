(** Tests: what a guard tells about a variable, and what a known truth value tells about [and] and
    [or]. *)
From Coq Require Import List Bool NArith.
From Verif Require Import Types_Model Types_Spec Types_Union Types_Props TypeFlow_Model TypeFlow_Spec TypeFlow_Frame TypeFlow_Tracker TypeFlow_Cover TypeFlow_Views TypeFlow_Fits.
From Coq Require Import String.
Import ListNotations.
Local Open Scope string_scope.
Local Open Scope list_scope.

Section Narrow.
Variables (W : world) (T : facts) (K : vision).
Hypothesis Hon : honest W T.
Let dn := den (named W).

Lemma call_alone q f a s tr v s3 : exec W (IN (Call false (RNode q) f a BNone)) s tr (Normal v) s3 ->
  exists t1 w s1 t2 vs us, exec W (IN q) s t1 (Normal w) s1 /\ exec W (IA a) s1 t2 (Normal (VArr vs)) s3 /\ sends W w f vs us v.
Proof.
  intros E. inversion E; subst; try (match goal with A : abrupt (Normal _) |- _ => destruct A end).
  - match goal with A : exec W (IV (RNode q)) _ _ _ _ |- _ => inversion A; subst end.
    match goal with A : exec W (IK _ _ _ BNone) _ _ _ _ |- _ => inversion A; subst end. eauto 10.
  - match goal with A : exec W (IK _ _ _ BNone) _ _ _ _ |- _ => inversion A end.
Qed.
Lemma no_args s tr vs s' : exec W (IA ANil) s tr (Normal (VArr vs)) s' -> vs = [] /\ s' = s.
Proof. intros E. inversion E; subst. auto. Qed.
Lemma const_arg c s tr vs s' : exec W (IA (ACons (Const c) ANil)) s tr (Normal (VArr vs)) s' -> vs = [konst W c] /\ s' = s.
Proof.
  intros E. inversion E; subst; [|match goal with A : abrupt (Normal _) |- _ => destruct A end].
  match goal with A : exec W (IN (Const c)) _ _ _ _ |- _ => inversion A; subst end.
  match goal with A : exec W (IA ANil) _ _ _ _ |- _ => inversion A; subst end; cbn in *;
  match goal with A : _ = Normal _ |- _ => inversion A; subst; auto | A : Normal _ = _ |- _ => inversion A; subst; auto end.
Qed.

Lemma is_vnil_true v : is_vnil v = true -> v = vnil.
Proof. destruct v as [[|n]| | | |]; cbn; try discriminate. reflexivity. Qed.

Lemma told_all x w : (forall q e s tr v s1 truth, exec W (IN q) s tr (Normal v) s1 -> telling q truth = true -> truthy v = truth ->
    In x (about q) -> w = s1 x -> fits1 W K x (e x) w -> fits1 W K x (narrow e q truth x) w) /\
  (forall a : args, True) /\
  (forall r q, r = RNode q -> forall e s tr v s1 truth, exec W (IN q) s tr (Normal v) s1 -> telling q truth = true -> truthy v = truth ->
    In x (about q) -> w = s1 x -> fits1 W K x (e x) w -> fits1 W K x (narrow e q truth x) w) /\
  (forall b : blk, True) /\ (forall s : stmts, True) /\ (forall e : tail, True) /\
  (forall w : whens, True) /\ (forall r : rescues, True).
Proof.
  apply tree_ind; try (intros; exact Logic.I); try (intros; match goal with B : In _ (about _) |- _ => destruct B end); try discriminate.
  2:{ intros q IH q' E. injection E as <-. exact IH. }
  intros safe r IHr f a _ b _ e s tr v s1 truth E TL TV A EW F. cbn [narrow about telling] in *.
  destruct r as [|q]; [destruct A|]. specialize (IHr q eq_refl).
  destruct a as [|n a].
  - destruct (f =? "!") eqn:EF.
    { apply String.eqb_eq in EF. subst f. checks. destruct b; [|discriminate]. checks. destruct safe; [discriminate|].
      apply call_alone in E as (t1&w1&s2&t2&vs&us&E1&E2&SE). apply no_args in E2 as [-> ->].
      eapply IHr; try eassumption. apply (h_not W T Hon) in SE. rewrite SE in TV. rewrite <- TV, negb_involutive. reflexivity. }
    destruct q; try destruct A. destruct (f =? "nil?") eqn:EN; [|destruct A]. apply String.eqb_eq in EN. subst f.
    destruct A as [<-|[]]. checks. destruct b; [|discriminate]. destruct safe; [discriminate|].
    apply call_alone in E as (t1&w1&s2&t2&vs&us&E1&E2&SE). apply no_args in E2 as [-> ->]. inversion E1; subst.
    apply (h_nil_p W T Hon) in SE. destruct (truthy v) eqn:TV.
    + rewrite set_same. cbn. symmetry in SE. apply is_vnil_true in SE. rewrite SE. exact (nil_ok W T Hon).
    + destruct (e _) as [t|] eqn:EE; [|rewrite EE; exact F]. rewrite set_same. cbn in *.
      apply C58_remove_nil_keeps; [exact F|]. intros [g [G1 G2]]. apply (h_nil W T Hon) in G2; [|exact G1]. rewrite G2 in SE. discriminate.
  - destruct n; try destruct A. destruct a; [|destruct A]. destruct q; try destruct A.
    destruct ((f =? "is_a?") || (f =? "kind_of?") || (f =? "instance_of?"))%bool eqn:EF; [|destruct A].
    destruct A as [<-|[]]. checks. destruct b; [|discriminate]. destruct safe; [discriminate|].
    apply call_alone in E as (t1&w1&s2&t2&vs&us&E1&E2&SE). apply const_arg in E2 as [-> ->]. inversion E1; subst.
    assert (G : (In f ["is_a?"; "kind_of?"]) \/ f = "instance_of?").
    { apply orb_true_iff in EF as [EF|EF]; [apply orb_true_iff in EF as [EF|EF]|]; apply String.eqb_eq in EF; subst f; cbn; auto. }
    destruct (truthy v) eqn:TV.
    + rewrite set_same. cbn. destruct G as [G|G]; [apply (h_is_a W T Hon _ _ _ _ _ G SE); exact TV|].
      subst f. apply (h_instance_of W T Hon _ _ _ _ SE TV).
    + destruct (e _) as [t|] eqn:EE; [|rewrite EE; exact F]. rewrite set_same. cbn in *.
      destruct G as [G|G]; [|subst f; discriminate].
      apply C58_subtract_keeps; [exact F|]. cbn. intros X. apply (h_is_a W T Hon _ _ _ _ _ G SE) in X. congruence.
Qed.
Lemma told x q e s tr v s1 truth w : exec W (IN q) s tr (Normal v) s1 -> telling q truth = true -> truthy v = truth ->
  In x (about q) -> w = s1 x -> fits1 W K x (e x) w -> fits1 W K x (narrow e q truth x) w.
Proof. apply (told_all x w). Qed.

(** the guard of a branch whose other side leaves *)
Lemma guarded V p m q truth rest e s tr v s1 s2 : guard K p m q truth rest = true -> exec W (IN q) s tr (Normal v) s1 ->
  truthy v = truth -> (forall x, ~ In x rest -> s2 x = s1 x) -> fits W K V e s2 -> fits W K V (narrow e q truth) s2.
Proof.
  intros G E TV M F x Vx. destruct (in_dec N.eq_dec x (about q)) as [A|A].
  - unfold guard in G. checks. rewrite forallb_forall in G. specialize (G x A). checks.
    eapply told; try eassumption; [|apply F; exact Vx]. apply M. apply member_not. exact G.
  - rewrite narrow_other by exact A. apply F, Vx.
Qed.

Lemma den_members t v : dn t v -> exists m, In m (members t) /\ dn m v.
Proof.
  unfold dn. destruct t; intros A; try (eexists; split; [left; reflexivity|exact A]).
  cbn in A. destruct A as [P [J B]]. apply in_map_iff in J as [m [<- J]]. exists m. auto.
Qed.
Lemma falsy_named m : falsy m = true <-> falsy_class m.
Proof.
  unfold falsy, falsy_class. split.
  - destruct m; try discriminate. intro A. exists f. split; [reflexivity|].
    apply orb_prop in A as [A|A]; apply PeanoNat.Nat.eqb_eq in A; auto.
  - intros [f [-> [A|A]]]; rewrite A; reflexivity.
Qed.
Lemma tells_falsy t m v : tells W t -> t <> TUnknown -> In m (members t) -> dn m v -> truthy v = negb (falsy m).
Proof.
  intros A N J B. specialize (A N m v J B). rewrite <- falsy_named in A.
  destruct (truthy v), (falsy m); auto; destruct A as [A1 A2]; [specialize (A2 eq_refl)|specialize (A1 eq_refl)]; discriminate.
Qed.
Lemma truth_ok t v b : tells W t -> dn t v -> truthiness t = Some b -> truthy v = b.
Proof.
  intros A B C. assert (N : t <> TUnknown) by (intros ->; discriminate).
  destruct (den_members t v B) as [m [J E]]. rewrite (tells_falsy t m v A N J E).
  destruct t; cbn in C, J; try (destruct J as [<-|[]]; injection C as <-; reflexivity); try discriminate.
  destruct (existsb (fun m => negb (falsy m)) l) eqn:E1, (existsb falsy l) eqn:E2; try discriminate; injection C as <-.
  - destruct (falsy m) eqn:F; [|reflexivity]. assert (X : existsb falsy l = true) by (apply existsb_exists; eauto). congruence.
  - destruct (falsy m) eqn:F; [reflexivity|].
    assert (X : existsb (fun m => negb (falsy m)) l = true) by (apply existsb_exists; exists m; rewrite F; auto). congruence.
Qed.
Lemma short_left t r or v : tells W t -> dn t v -> truthiness t = None -> truthy v = or ->
  dn (short_circuit (fun t => Bool.eqb (falsy t) (negb or)) t r) v.
Proof.
  intros A B C E. destruct t; try exact Logic.I; cbn in C; try discriminate.
  cbn [short_circuit]. destruct (den_members _ _ B) as [m [J F]]. apply union_complete. exists m. split; [|exact F].
  apply in_or_app. left. apply filter_In. split; [exact J|].
  rewrite (tells_falsy _ m v A ltac:(discriminate) J F) in E. rewrite <- E, negb_involutive. apply eqb_reflx.
Qed.
Lemma short_right keep t r v : dn r v -> dn (short_circuit keep t r) v.
Proof.
  intros B. destruct t; try exact Logic.I. cbn [short_circuit]. apply union_complete. exists r. split; [|exact B].
  apply in_or_app. right. left. reflexivity.
Qed.
End Narrow.
