(** Proofs about the attributes of class files that contain no attributes. *)
From Coq Require Import String List Arith NArith ZArith Bool Lia.
From Verif Require Import Text_Lib Descriptor_Model Descriptor_Spec Descriptor_Props Classfile_Model Classfile_Spec Classfile_Proofs Classfile_Text.
Import ListNotations.
Local Open Scope N_scope.
Local Open Scope list_scope.

Ltac pb := match goal with
  | |- pure _ (bind (lift _) _) _ => apply pure_bind_lift; intros ? ?
  | |- pure _ (bind (guard _) _) _ => apply pure_bind_guard; intros ?
  | |- pure _ (bind u2 _) _ => apply pure_bind; [apply pure_u2|intros ? ? _ _]
  | |- pure _ (bind u4 _) _ => apply pure_bind; [apply pure_u4|intros ? ? _ _]
  | |- pure _ (bind (take _) _) _ => apply pure_bind; [apply pure_take|intros ? ? _ _]
  | |- pure _ (ret _) _ => apply pure_ret
  | |- pure _ u2 _ => apply pure_u2
  | |- pure _ (lift _) _ => apply pure_lift
  end.

Lemma bind_assoc {A B C} (p : parser A) (q : A -> parser B) (r : B -> parser C) s b : bind (bind p q) r s b = bind p (fun a => bind (q a) r) s b.
Proof. unfold bind. destruct (p s b) as [[[a s1] b1]|]; reflexivity. Qed.
Section Values.
Variables (L : limits) (cp : list entry).

Lemma pure_mono {A} n m (p : parser A) P : pure m p P -> (n <= m)%nat -> pure n p P.
Proof. intros H Le s b a s' r O Lb. apply H; [exact O|lia]. Qed.
Lemma pure_bind_u1 {B} n (q : N -> parser B) Q : (forall t, pure n (q t) (Q t)) -> pure (S n) (bind u1 q) (fun c x => exists t z, t < 256 /\ Q t c z /\ x = t :: z).
Proof.
  intros H seen b c seen' r O Le. unfold bind, u1. destruct b as [|t b].
  - split; [discriminate|]. intros (_ & x & (t & z & _ & _ & ->) & E). discriminate E.
  - inversion O as [|? ? Ot Ob]; subst. cbn [length] in Le. rewrite (H t seen b c seen' r Ob ltac:(lia)). split.
    + intros (-> & z & Z & ->). split; [reflexivity|]. exists (t :: z). split; [exists t, z; auto|reflexivity].
    + intros (-> & x & (t' & z & _ & Z & ->) & E). injection E as <- ->. split; [reflexivity|]. eauto.
Qed.
Lemma field_ok d : is_some (parse_field_descriptor d) = true <-> exists t, field any_name t d.
Proof.
  destruct (parse_field_descriptor d) as [t|] eqn:E; cbn [is_some].
  - apply C47_field in E. split; eauto.
  - split; [discriminate|]. intros (t & F). apply C47_field in F. congruence.
Qed.

(** Annotations *)
Lemma elements_iff depth n x : elements L cp depth n x <->
  exists l : list unit, length l = n /\ sequence (fun _ w => exists s a b, refers (string_index cp) s a /\ value L cp depth b /\ w = a ++ b) l x.
Proof.
  split.
  - revert x. induction n as [|n IH]; intros x E; inversion E as [|? ? s a b c R V E']; subst; [exists []; split; [reflexivity|constructor]|].
    destruct (IH c E') as (l & <- & S). exists (tt :: l). split; [reflexivity|]. rewrite app_assoc. constructor; [|exact S]. exists s, a, b. auto.
  - intros (l & <- & S). induction S as [|[] l w y (s & a & b & R & V & ->) S IH]; [constructor|]. rewrite <- app_assoc. cbn [length]. econstructor; eauto.
Qed.
Lemma values_iff depth n x : values L cp depth n x <-> exists l : list unit, length l = n /\ sequence (fun _ w => value L cp depth w) l x.
Proof.
  split.
  - revert x. induction n as [|n IH]; intros x E; inversion E as [|? ? a b V E']; subst; [exists []; split; [reflexivity|constructor]|].
    destruct (IH b E') as (l & <- & S). exists (tt :: l). split; [reflexivity|]. constructor; auto.
  - intros (l & <- & S). induction S as [|[] l w y V S IH]; [constructor|]. cbn [length]. constructor; auto.
Qed.
Lemma pure_annotation_with n v : (forall depth, pure n (v depth) (fun _ x => value L cp depth x)) -> forall depth, pure n (annotation_with L cp v depth) (annotation L cp depth).
Proof.
  intros V depth. unfold annotation_with. eapply pure_ext.
  { pb. pb. pb. pb. eapply pure_bind; [apply pure_bounded|]. intros k z' _ _. eapply pure_bind; [apply pure_times|intros; pb]. pb. pb. apply V. }
  intros d x _. split.
  - intros (G & i & y & z & T & (d' & E & G2 & (k & y2 & z2 & (KL & TK) & (l & y3 & z3 & (LL & S) & (-> & ->) & ->) & ->)) & ->). apply N.leb_le in G. apply utf8_iff in E. apply field_ok in G2. destruct G2 as (t & G2).
    rewrite app_nil_r. destruct TK as [K6 ->]. apply annotation_ with (t := t); auto; [exists i; auto|]. apply elements_iff. exists l. split; [exact LL|].
    clear - S. induction S as [|a l w y (i & w1 & w2 & T & (s & E & V) & ->) S IH]; constructor; auto. apply utf8_iff in E. exists s, w1, w2. split; [exists i; auto|]. auto.
  - intros A. inversion A as [? ? t y k z G R F K1 K2 E]; subst. split; [apply N.leb_le, G|]. destruct R as (i & I & T). exists i, y, (be2 k ++ z). split; [exact T|]. split; [|reflexivity].
    exists d. split; [apply utf8_iff, I|]. split; [apply field_ok; eauto|]. exists k, (be2 k), z. split; [split; [exact K1|split; [exact K2|reflexivity]]|]. split; [|reflexivity].
    apply elements_iff in E. destruct E as (l & LL & S). exists l, z, []. rewrite app_nil_r. split; [|auto]. split; [exact LL|].
    clear - S. induction S as [|a l w y (s & w1 & w2 & (i & I & T) & V & ->) S IH]; constructor; auto. exists i, w1, w2. split; [exact T|]. split; [|reflexivity]. exists s. split; [apply utf8_iff, I|exact V].
Qed.
Lemma pure_value f : forall depth, pure f (skip_annotation_value L cp f depth) (fun _ x => value L cp depth x).
Proof.
  induction f as [|f IH]; intros depth.
  { cbn [skip_annotation_value]. intros s b a s' r O Le. destruct b; [|cbn in Le; lia]. split; [discriminate|]. intros (_ & x & V & E). destruct x; [inversion V|discriminate E]. }
  cbn [skip_annotation_value]. eapply pure_ext.
  { apply pure_bind_u1 with (Q := fun t _ z => value L cp depth (t :: z)). intros t.
    destruct (existsb (N.eqb t) [66; 67; 68; 70; 73; 74; 83; 90; 115; 99]) eqn:TE.
    - assert (TI : In t [66; 67; 68; 70; 73; 74; 83; 90; 115; 99]). { apply existsb_exists in TE. destruct TE as (t' & I & E). apply N.eqb_eq in E. subst. exact I. }
      eapply pure_ext; [pb; pb|]. intros [] x _. split.
      + intros (i & y & z & T & (_ & ->) & ->). rewrite app_nil_r. apply value_constant; [exact TI|]. exists i. exact T.
      + intros V. inversion V as [? ? ? _ [i T]|? ? ?|? ? ? A|? ? ? K1 K2 VS]; subst; try discriminate TE. exists i, x, []. rewrite app_nil_r. auto.
    - assert (TI : ~ In t [66; 67; 68; 70; 73; 74; 83; 90; 115; 99]). { intros I. assert (E : existsb (N.eqb t) [66; 67; 68; 70; 73; 74; 83; 90; 115; 99] = true) by (apply existsb_exists; exists t; split; [exact I|apply N.eqb_refl]). congruence. }
      clear TE. destruct (N.eqb_spec t 101) as [->|N1].
      + eapply pure_ext; [pb; pb; pb|]. intros [] x _. split.
        * intros (i & y & z & T & (j & y2 & z2 & T2 & (_ & ->) & ->) & ->). rewrite app_nil_r. apply value_enum; eexists; eauto.
        * intros V. inversion V as [? ? ? I _|? y z [i T1] [j T2]|? ? ? A|? ? ? K1 K2 VS]; subst; [contradiction|]. exists i, y, z. split; [exact T1|]. split; [|reflexivity]. exists j, z, []. rewrite app_nil_r. auto.
      + destruct (N.eqb_spec t 64) as [->|N2].
        * eapply pure_ext; [eapply pure_bind; [apply pure_annotation_with; exact IH|intros; pb]|]. intros [] x _. split.
          -- intros (d & y & z & A & (_ & ->) & ->). rewrite app_nil_r. eapply value_annotation. exact A.
          -- intros V. inversion V as [? ? ? I _|? y z [i T1] [j T2]|? d ? A|? ? ? K1 K2 VS]; subst; [contradiction|]. exists d, x, []. rewrite app_nil_r. auto.
        * destruct (N.eqb_spec t 91) as [->|N3].
          -- eapply pure_ext; [eapply pure_bind; [apply pure_bounded|intros ? ? _ _; eapply pure_bind; [apply pure_times, IH|intros; pb]]|]. intros [] x _. split.
             ++ intros (k & y & z & (K1 & K2 & ->) & (l & y2 & z2 & (LL & S) & (_ & ->) & ->) & ->). rewrite app_nil_r. apply value_array; auto. apply values_iff. eauto.
             ++ intros V. inversion V as [? ? ? I _|? y z [i T1] [j T2]|? d ? A|? k y K1 K2 VS]; subst; [contradiction|]. apply values_iff in VS. destruct VS as (l & LL & S).
                exists k, (be2 k), y. split; [split; [exact K1|split; [exact K2|reflexivity]]|]. split; [|reflexivity]. exists l, y, []. rewrite app_nil_r. auto.
          -- eapply pure_ext; [apply pure_fail|]. intros [] x _. split; [intros []|]. intros V. inversion V; subst; contradiction || congruence. }
  intros [] x O. split.
  - intros (t & z & _ & V & ->). exact V.
  - intros V. destruct x as [|t z]; [inversion V|]. inversion O; subst. exists t, z. auto.
Qed.
Lemma pure_annotation n depth : pure n (parse_annotation L cp depth) (annotation L cp depth).
Proof.
  intros s b a s' r O _. unfold parse_annotation. apply (pure_annotation_with (length b) _ (pure_value (length b)) depth s b a s' r O (le_n _)).
Qed.
Lemma pure_annotations n body : octets body -> pure n (parse_annotations L cp body) (fun v x => x = [] /\ annotations_attribute L cp v body).
Proof. intros O. apply pure_within; [exact O|]. apply pure_table, pure_annotation. Qed.

(** Strings, exceptions *)
Lemma pure_string n body : octets body -> pure n (string_attribute cp body) (fun v x => x = [] /\ refers (string_index cp) v body).
Proof. intros O. apply pure_within; [exact O|]. apply pure_refers. intros. apply utf8_iff. Qed.
Lemma pure_exceptions n body : octets body -> pure n (parse_exceptions L cp body) (fun v x => x = [] /\ exceptions_attribute L cp v body).
Proof. intros O. apply pure_within; [exact O|]. apply pure_table, pure_refers. intros. apply class_iff. Qed.
(** Parameters *)
Lemma parameter_list_cons k p l x : parameter_list cp k (p :: l) x <->
  exists a b c, (refers (string_index cp) (param_name p) a \/ two 0 a /\ param_name p = arg k) /\ two (param_flags p) b /\ parameter_list cp (S k) l c /\ x = a ++ b ++ c.
Proof.
  split.
  - intros H. inversion H as [|? s f ? a b c R F P|? f ? a b c R F P]; subst; cbn [param_name param_flags]; exists a, b, c; auto.
  - destruct p as [s f]. cbn [param_name param_flags]. intros (a & b & c & [R|[Z E]] & F & P & ->); [constructor|subst s; apply parameters_unnamed]; auto.
Qed.
Lemma pure_listed n : forall k index, pure n (listed_parameters cp index k) (fun l x => length l = k /\ parameter_list cp index l x).
Proof.
  induction k as [|k IH]; intros index; cbn [listed_parameters].
  - eapply pure_ext; [pb|]. intros l x _. split; [intros [-> ->]; split; [reflexivity|constructor]|]. intros [E P]. destruct l; [|discriminate E]. inversion P. auto.
  - eapply pure_ext.
    { pb. eapply pure_bind with (P := fun s x => x = [] /\ (if a =? 0 then s = arg index else string_index cp s a)).
      - destruct (a =? 0); [eapply pure_ext; [pb|]|eapply pure_ext; [pb|]]; intros s y _; [tauto|]. cbv beta. pose proof (utf8_iff cp a s). tauto.
      - intros s y _ _. pb. eapply pure_bind; [apply IH|intros; pb]. }
    intros l x _. split.
    + intros (i & y & z & T & (s & y2 & z2 & (-> & C) & (f & y3 & z3 & TF & (l' & y4 & z4 & (LL & P) & (-> & ->) & ->) & ->) & ->) & ->). cbn [length app]. split; [congruence|].
      rewrite app_nil_r. apply parameter_list_cons. exists y, y3, y4. cbn [param_name param_flags]. split; [|auto]. destruct (N.eqb_spec i 0) as [->|NZ]; [right; auto|left; exists i; auto].
    + intros [E P]. destruct l as [|p l]; [discriminate E|]. injection E as E. apply parameter_list_cons in P. destruct P as (a & b & c & C & TF & P & ->). destruct p as [s f]. cbn [param_name param_flags] in *.
      assert (CC : exists i, two i a /\ if i =? 0 then s = arg index else string_index cp s i).
      { destruct C as [(i & I & T)|[T ->]]; [exists i; split; [exact T|]; destruct (N.eqb_spec i 0) as [->|]; [destruct (string_nonzero _ _ _ I eq_refl)|exact I]|exists 0; split; [exact T|reflexivity]]. }
      destruct CC as (i & T & CC). exists i, a, (b ++ c). split; [exact T|]. split; [|reflexivity]. exists s, [], (b ++ c). split; [auto|]. split; [|reflexivity].
      exists f, b, c. split; [exact TF|]. split; [|reflexivity]. exists l, c, []. rewrite app_nil_r. auto.
Qed.
Lemma pure_method_parameters n body : octets body -> pure n (parse_method_parameters L cp body) (fun v x => x = [] /\ parameters_attribute L cp v body).
Proof.
  intros O. apply pure_within; [exact O|]. eapply pure_ext.
  { eapply pure_bind; [apply pure_u1|intros k ? _ _]. pb. apply pure_listed. }
  intros l x _. unfold parameters_attribute, len. split.
  - intros (k & y & z & (K & ->) & (G & LL & P) & ->). apply N.leb_le in G. exists z. replace (N.of_nat (length l)) with k by lia. auto.
  - intros (y & K & M & P & ->). exists (N.of_nat (length l)), [N.of_nat (length l)], y. split; [auto|]. split; [|reflexivity]. split; [apply N.leb_le, M|]. split; [lia|exact P].
Qed.

(** Lines and locals *)
Definition least (m : option N) (ls : list N) : Prop := match m with Some n => In n ls /\ forall k, In k ls -> n <= k | None => ls = [] end.
Definition lower (m : option N) (l : N) : option N := Some (match m with Some k => N.min k l | None => l end).
Lemma fold_lower : forall ls m, fold_left lower ls (Some m) = Some (fold_left N.min ls m).
Proof. induction ls as [|l ls IH]; intros m; [reflexivity|]. cbn [fold_left]. exact (IH (N.min m l)). Qed.
Lemma fold_min : forall ls m, In (fold_left N.min ls m) (m :: ls) /\ forall k, In k (m :: ls) -> fold_left N.min ls m <= k.
Proof.
  induction ls as [|l ls IH]; intros m; cbn [fold_left]; [split; [left; reflexivity|intros k [<-|[]]; lia]|].
  destruct (IH (N.min m l)) as [A B]. split.
  - destruct A as [A|A]; [|right; right; exact A]. destruct (N.min_dec m l) as [E|E]; [left|right; left]; congruence.
  - pose proof (B (N.min m l) (or_introl eq_refl)). intros k [<-|[<-|I]]; [lia|lia|apply B; right; exact I].
Qed.
Lemma fold_least ls m : least m ls <-> m = fold_left (fun m l => Some (match m with Some k => N.min k l | None => l end)) ls None.
Proof.
  change (least m ls <-> m = fold_left lower ls None). destruct ls as [|l ls].
  - cbn [fold_left least]. destruct m as [n|]; cbn [least]; [split; [intros [[] _]|discriminate]|tauto].
  - cbn [fold_left]. change (lower None l) with (Some l). rewrite fold_lower. destruct (fold_min ls l) as [A B]. destruct m as [n|]; cbn [least]; [|split; discriminate].
    split.
    + intros [I K]. f_equal. apply N.le_antisymm; [apply K, A|apply B, I].
    + intros E. injection E as ->. auto.
Qed.
Lemma pure_lines n body : octets body -> pure n (parse_first_line L body) (fun v x => x = [] /\ lines_attribute L v body).
Proof.
  intros O. apply pure_within; [exact O|]. eapply pure_eq; [intros s b; symmetry; apply (bind_assoc (bounded (max_members L)) (fun n => times (N.to_nat n) (bind u2 (fun _ => u2))))|].
  eapply pure_ext; [apply pure_map, pure_table; pb; pb|]. intros m x _. unfold lines_attribute. split.
  - intros (ls & T & ->). exists ls. split; [|apply fold_least; reflexivity]. destruct T as (y & A & B & C & S). exists y. repeat split; auto.
    clear - S. induction S as [|a l w y (i & w1 & w2 & T1 & T2 & ->) S IH]; constructor; auto. exists w1, w2. split; [exists i; exact T1|]. auto.
  - intros (ls & T & LE). exists ls. split; [|apply fold_least; exact LE]. destruct T as (y & A & B & C & S). exists y. repeat split; auto.
    clear - S. induction S as [|a l w y (w1 & w2 & [i T1] & T2 & ->) S IH]; constructor; auto. exists i, w1, w2. auto.
Qed.
Lemma pure_locals n body : octets body -> pure n (parse_local_variables L cp body) (fun v x => x = [] /\ locals_attribute L cp v body).
Proof.
  intros O. apply pure_within; [exact O|]. apply pure_table. eapply pure_ext.
  { pb. pb. pb. pb. pb. pb. pb. pb. pb. }
  intros l x _. unfold local_entry. split.
  - intros (a & y & z & T & (b & y2 & z2 & T2 & (i & y3 & z3 & T3 & (s & E & (j & y4 & z4 & T4 & (d & E2 & (G & k & y5 & z5 & T5 & (-> & ->) & ->)) & ->)) & ->) & ->) & ->).
    apply utf8_iff in E, E2. apply field_ok in G. destruct G as (t & F). exists y, y2, y3, y4, y5, d, t. cbn [start_pc slot local_name]. rewrite app_nil_r. split; [exact T|]. split; [exists b; exact T2|]. split; [exists i; auto|]. split; [exists j; auto|]. auto.
  - intros (a & b & c & d & e & ds & t & T & [b' T2] & (i & I & T3) & (j & J & T4) & F & T5 & ->). apply utf8_iff in I, J. destruct l as [s k nm]. cbn [start_pc slot local_name] in *.
    exists s, a, (b ++ c ++ d ++ e). split; [exact T|]. split; [|reflexivity]. exists b', b, (c ++ d ++ e). split; [exact T2|]. split; [|reflexivity]. exists i, c, (d ++ e). split; [exact T3|]. split; [|reflexivity].
    exists nm. split; [exact I|]. exists j, d, e. split; [exact T4|]. split; [|reflexivity]. exists ds. split; [exact J|]. split; [apply field_ok; eauto|]. exists k, e, []. rewrite app_nil_r. auto.
Qed.

(** Inner classes *)
Lemma pure_inner n body : octets body -> pure n (parse_inner_classes L cp body) (fun v x => x = [] /\ table (max_members L) (inner_class_entry cp) v body).
Proof.
  intros O. apply pure_within; [exact O|]. apply pure_table. eapply pure_ext.
  { do 9 pb. }
  intros v x _. unfold inner_class_entry. split.
  - intros (i & y & z & T & (G & o & y2 & z2 & T2 & (m & y3 & z3 & T3 & (a & A & b & B & c & C & f & y4 & z4 & T4 & (-> & ->) & ->) & ->) & ->) & ->).
    exists y, y2, y3, y4. cbn [inner_class_name outer_class inner_name inner_flags]. rewrite app_nil_r. split; [exists i; split; [apply class_iff, A|exact T]|].
    split; [apply (maybe_at (class_at cp) _ (class_iff cp)); [intros ? ?; apply class_nonzero|eauto]|]. split; [apply (maybe_at (utf8 cp) _ (utf8_iff cp)); [intros ? ?; apply string_nonzero|eauto]|]. auto.
  - intros (y & y2 & y3 & y4 & (i & A & T) & B & C & F & ->). destruct v as [a b c f]. cbn [inner_class_name outer_class inner_name inner_flags] in *.
    apply (maybe_at (class_at cp) _ (class_iff cp)) in B; [|intros ? ?; apply class_nonzero]. apply (maybe_at (utf8 cp) _ (utf8_iff cp)) in C; [|intros ? ?; apply string_nonzero].
    destruct B as (o & T2 & B), C as (m & T3 & C). exists i, y, (y2 ++ y3 ++ y4). split; [exact T|]. split; [|reflexivity]. split; [apply negb_true_iff, N.eqb_neq; exact (class_nonzero _ _ _ A)|].
    exists o, y2, (y3 ++ y4). split; [exact T2|]. split; [|reflexivity]. exists m, y3, y4. split; [exact T3|]. split; [|reflexivity].
    exists a. split; [apply class_iff, A|]. exists b. split; [exact B|]. exists c. split; [exact C|]. exists f, y4, []. rewrite app_nil_r. auto.
Qed.

(** Modules *)
Lemma sequence_ext {A} (P Q : A -> list N -> Prop) : (forall a x, P a x -> Q a x) -> forall l x, sequence P l x -> sequence Q l x.
Proof. intros H l x S. induction S; constructor; auto. Qed.
Lemma sequence_forget {A} (P : list N -> Prop) (l : list A) x : sequence (fun _ => P) l x -> exists l' : list unit, length l' = length l /\ sequence (fun _ => P) l' x.
Proof. intros S. induction S as [|a l x y H S (l' & E & IH)]; [exists []; split; [reflexivity|constructor]|]. exists (tt :: l'). split; [cbn; congruence|constructor; auto]. Qed.
Lemma table_any {A} (P : A -> list N -> Prop) (Q : list N -> Prop) : (forall a x, P a x -> Q x) -> forall l x, table (max_members L) P l x -> any_table L Q x.
Proof.
  intros H l x (y & A1 & A2 & -> & S). apply (sequence_ext P (fun _ => Q) H) in S. apply sequence_forget in S. destruct S as (l' & E & S). exists l', y. unfold len in *. rewrite E. auto.
Qed.
Lemma any_table_of {A} (P : A -> list N -> Prop) (Q : list N -> Prop) : (forall x, Q x -> exists a, P a x) -> forall x, any_table L Q x -> exists l, table (max_members L) P l x.
Proof.
  intros H x (l & y & A1 & A2 & -> & S). assert (K : exists m : list A, length m = length l /\ sequence P m y).
  { clear A1 A2. induction S as [|a l w y W S (m & E & IH)]; [exists []; split; [reflexivity|constructor]|]. destruct (H w W) as [b B]. exists (b :: m). split; [cbn; congruence|constructor; auto]. }
  destruct K as (m & E & K). exists m, y. unfold len in *. rewrite E. auto.
Qed.
(** A table whose entries are not kept. *)
Lemma pure_skip {A B} n (p : parser A) (Q : list N -> Prop) (k : parser B) K :
  (exists P, pure n p P /\ forall x, Q x <-> exists a, P a x) -> pure n k K ->
  pure n (bind (bounded (max_members L)) (fun m => bind (times (N.to_nat m) p) (fun _ => k))) (fun c x => exists y z, any_table L Q y /\ K c z /\ x = y ++ z).
Proof.
  intros (P & H & E) HK. eapply pure_eq; [intros s b; symmetry; apply (bind_assoc (bounded (max_members L)) (fun m => times (N.to_nat m) p) (fun _ => k))|].
  eapply pure_ext; [eapply pure_bind with (Q := fun _ => K); [apply pure_table, H|intros; exact HK]|]. intros c x _. split.
  - intros (l & y & z & T & Z & ->). exists y, z. split; [|auto]. apply (table_any P Q) with (l := l); [intros a w W; apply E; eauto|exact T].
  - intros (y & z & T & Z & ->). apply (any_table_of P) in T; [|intros w W; apply E; exact W]. destruct T as (l & T). exists l, y, z. auto.
Qed.
Lemma u2_index n : exists P, pure n u2 P /\ forall x, index x <-> exists a, P a x.
Proof. exists two. split; [apply pure_u2|]. intros x. reflexivity. Qed.
Lemma skip_indices {B} n (k : parser B) K : pure n k K -> pure n (bind (bounded (max_members L)) (fun m => bind (times (N.to_nat m) u2) (fun _ => k))) (fun c x => exists y z, any_table L index y /\ K c z /\ x = y ++ z).
Proof. intros H. apply pure_skip; [apply u2_index|exact H]. Qed.
Lemma indices_table n : exists P, pure n (bind (bounded (max_members L)) (fun m => times (N.to_nat m) u2)) P /\ forall x, any_table L index x <-> exists a, P a x.
Proof.
  exists (table (max_members L) two). split; [apply pure_table, pure_u2|]. intros x. split.
  - intros T. apply (any_table_of two) in T; [exact T|]. intros w [i I]. eauto.
  - intros (l & T). apply (table_any two index) with (l := l); [intros a w W; exists a; exact W|exact T].
Qed.
Lemma exports_ok n : exists P, pure n (bind u2 (fun _ => bind u2 (fun _ => bind (bounded (max_members L)) (fun m => times (N.to_nat m) u2)))) P /\ forall x, exports L x <-> exists a, P a x.
Proof.
  destruct (indices_table n) as (P & H & E). eexists. split; [pb; pb; exact H|]. intros x. unfold exports. split.
  - intros (a & b & c & [i A] & [j B] & C & ->). apply E in C. destruct C as (l & C). exists l, i, a, (b ++ c). split; [exact A|]. split; [|reflexivity]. exists j, b, c. auto.
  - intros (l & i & a & w & A & (j & b & c & B & C & ->) & ->). exists a, b, c. split; [exists i; exact A|]. split; [exists j; exact B|]. split; [apply E; eauto|reflexivity].
Qed.
Lemma provides_ok n : exists P, pure n (bind u2 (fun _ => bind (bounded (max_members L)) (fun m => times (N.to_nat m) u2))) P /\ forall x, provides L x <-> exists a, P a x.
Proof.
  destruct (indices_table n) as (P & H & E). eexists. split; [pb; exact H|]. intros x. unfold provides. split.
  - intros (a & b & [i A] & C & ->). apply E in C. destruct C as (l & C). exists l, i, a, b. auto.
  - intros (l & i & a & b & A & C & ->). exists a, b. split; [exists i; exact A|]. split; [apply E; eauto|reflexivity].
Qed.
Lemma requires_ok n : exists P, pure n (bind u2 (fun _ => bind u2 (fun _ => bind u2 (fun w => bind (lift (optional_at (utf8 cp) w)) (fun _ => ret tt))))) P /\ forall x, requires cp x <-> exists a, P a x.
Proof.
  eexists. split; [do 5 pb|]. intros x. unfold requires. split.
  - intros (a & b & c & o & [i A] & [j B] & C & ->). apply (maybe_at (utf8 cp) _ (utf8_iff cp)) in C; [|intros ? ?; apply string_nonzero]. destruct C as (k & T & C).
    exists tt, i, a, (b ++ c). split; [exact A|]. split; [|reflexivity]. exists j, b, c. split; [exact B|]. split; [|reflexivity]. exists k, c, []. rewrite app_nil_r. split; [exact T|]. split; [|reflexivity]. exists o. auto.
  - intros (u & i & a & w & A & (j & b & w2 & B & (k & c & w3 & C & (o & O & (_ & ->)) & ->) & ->) & ->). rewrite app_nil_r. exists a, b, c, o. split; [exists i; exact A|]. split; [exists j; exact B|]. split; [|reflexivity].
    apply (maybe_at (utf8 cp) _ (utf8_iff cp)); [intros ? ?; apply string_nonzero|]. eauto.
Qed.
Lemma pure_exports n : pure n (parse_module_exports_or_opens L) (fun _ x => any_table L (exports L) x).
Proof.
  unfold parse_module_exports_or_opens. eapply pure_ext; [apply pure_skip; [apply exports_ok|pb]|]. intros [] x _. split.
  - intros (y & z & T & (_ & ->) & ->). rewrite app_nil_r. exact T.
  - intros T. exists x, []. rewrite app_nil_r. auto.
Qed.
Lemma pure_module n body : octets body -> pure n (parse_module_name L cp body) (fun v x => x = [] /\ module_attribute L cp v body).
Proof.
  intros O. apply pure_within; [exact O|]. eapply pure_ext.
  { do 5 pb. apply pure_skip; [apply requires_ok|]. eapply pure_bind with (Q := fun _ => _); [apply pure_exports|intros _ ? _ _]. eapply pure_bind with (Q := fun _ => _); [apply pure_exports|intros _ ? _ _].
    apply skip_indices. apply pure_skip; [apply provides_ok|]. pb. }
  intros s x _. unfold module_attribute. split.
  - intros (i & y & z & T & (nm & A & (j & b & w & B & (k & c & w2 & C & (o & E & (d & w3 & D & (u & e & w4 & EX & (u' & f & w5 & OP & (g & w6 & G & (h & w7 & H & (-> & ->) & ->) & ->) & ->) & ->) & ->)) & ->) & ->)) & ->).
    rewrite app_nil_r. exists y, b, c, o, d, e, f, g, h. split; [exists i; split; [apply module_iff, A|exact T]|]. split; [exists j; exact B|]. split; [apply (maybe_at (utf8 cp) _ (utf8_iff cp)); [intros ? ?; apply string_nonzero|eauto]|]. auto 10.
  - intros (a & b & c & o & d & e & f & g & h & (i & A & T) & [j B] & C & D & EX & OP & G & H & ->).
    apply (maybe_at (utf8 cp) _ (utf8_iff cp)) in C; [|intros ? ?; apply string_nonzero]. destruct C as (k & TC & C).
    exists i, a, (b ++ c ++ d ++ e ++ f ++ g ++ h). split; [exact T|]. split; [|reflexivity]. exists s. split; [apply module_iff, A|]. exists j, b, (c ++ d ++ e ++ f ++ g ++ h). split; [exact B|]. split; [|reflexivity].
    exists k, c, (d ++ e ++ f ++ g ++ h). split; [exact TC|]. split; [|reflexivity]. exists o. split; [exact C|]. exists d, (e ++ f ++ g ++ h). split; [exact D|]. split; [|reflexivity].
    exists tt, e, (f ++ g ++ h). split; [exact EX|]. split; [|reflexivity]. exists tt, f, (g ++ h). split; [exact OP|]. split; [|reflexivity]. exists g, h. split; [exact G|]. split; [|reflexivity]. exists h, []. rewrite app_nil_r. auto.
Qed.
End Values.
