(** C105: the receiver completion reads off the text. *)
From Coq Require Import List Arith NArith Bool Lia.
From Verif Require Import Text_Lib CompRecv_Model CompRecv_Spec.
Import ListNotations.
Open Scope N_scope.

(** ** Pieces of text. *)
Section Cut.
Variable p : N -> bool.
Lemma cut_last_none t : Forall (fun c => p c = false) t -> cut_last p t = None.
Proof. induction 1 as [|c t H _ IH]; auto. cbn [cut_last]. now rewrite IH, H. Qed.
Lemma cut_last_app a c b : p c = true -> Forall (fun c => p c = false) b -> cut_last p (a ++ c :: b) = Some (a, b).
Proof.
  intros Hc Hb. induction a as [|d a IH]; cbn [cut_last app].
  - now rewrite (cut_last_none b Hb), Hc.
  - now rewrite IH.
Qed.
Lemma cut_last_cases t : Forall (fun c => p c = false) t \/
  exists a c b, t = a ++ c :: b /\ p c = true /\ Forall (fun c => p c = false) b.
Proof.
  induction t as [|d t [IH|(a & c & b & -> & H)]]; [now left| |right; exists (d :: a), c, b; auto].
  destruct (p d) eqn:E; [right; exists [], d, t; auto|left; auto].
Qed.
(** What stands after the last such character, and what stands in front of that. *)
Lemma after_last_spec t : exists a, t = a ++ after_last p t /\ Forall (fun c => p c = false) (after_last p t)
  /\ (a = [] \/ exists a' c, a = a' ++ [c] /\ p c = true).
Proof.
  destruct (cut_last_cases t) as [H|(a & c & b & -> & Hc & Hb)]; unfold after_last.
  - rewrite cut_last_none by auto. exists []. auto.
  - rewrite cut_last_app by auto. exists (a ++ [c]). rewrite <- app_assoc. repeat split; auto. right. now exists a, c.
Qed.
Lemma after_last_app a x : Forall (fun c => p c = false) x -> after_last p (a ++ x) = after_last p a ++ x.
Proof.
  intros Hx. unfold after_last. destruct (cut_last_cases a) as [H|(b & c & d & -> & Hc & Hd)].
  - rewrite !cut_last_none; auto. now apply Forall_app.
  - rewrite <- app_assoc. cbn [app]. rewrite !cut_last_app; auto. now apply Forall_app.
Qed.
Lemma after_last_end a c : p c = true -> after_last p (a ++ [c]) = [].
Proof. intros H. unfold after_last. now rewrite cut_last_app. Qed.
End Cut.

Section Trim.
Variable T : tables.
Lemma trim_start_blank s t : Forall (fun c => space T c = true) s -> trim_start T (s ++ t) = trim_start T t.
Proof. induction 1 as [|c s H _ IH]; auto. cbn [trim_start app]. now rewrite H. Qed.
Lemma trim_start_hard c t : space T c = false -> trim_start T (c :: t) = c :: t.
Proof. intros H. cbn [trim_start]. now rewrite H. Qed.
Lemma trim_start_spec t : exists s, t = s ++ trim_start T t /\ Forall (fun c => space T c = true) s.
Proof.
  induction t as [|c t (s & E & H)]; [now exists []|]. cbn [trim_start]. destruct (space T c) eqn:Hc.
  - exists (c :: s). split; auto. cbn [app]. congruence.
  - now exists [].
Qed.
Lemma trim_start_app a c b : space T c = false -> trim_start T (a ++ c :: b) = trim_start T a ++ c :: b.
Proof.
  intros H. induction a as [|d a IH]; cbn [app trim_start]; [now rewrite H|]. destruct (space T d); auto.
Qed.
Lemma trim_end_hard a c b : space T c = false -> trim_end T (a ++ c :: b) = a ++ c :: trim_end T b.
Proof.
  intros H. unfold trim_end. rewrite rev_app_distr. cbn [rev]. rewrite <- app_assoc. cbn [app].
  rewrite trim_start_app by auto. rewrite rev_app_distr. cbn [rev]. now rewrite rev_involutive, <- app_assoc.
Qed.
Lemma trim_end_last a c : space T c = false -> trim_end T (a ++ [c]) = a ++ [c].
Proof. intros H. now rewrite trim_end_hard. Qed.
Lemma trim_end_blank t s : Forall (fun c => space T c = true) s -> trim_end T (t ++ s) = trim_end T t.
Proof.
  intros H. unfold trim_end. rewrite rev_app_distr, trim_start_blank; auto. apply Forall_forall. intros c Hc. apply in_rev in Hc.
  rewrite Forall_forall in H. auto.
Qed.
Lemma trim_end_none s : Forall (fun c => space T c = true) s -> trim_end T s = [].
Proof. intros H. exact (trim_end_blank [] s H). Qed.
Lemma trim_end_cases t : Forall (fun c => space T c = true) t \/ exists a c s, t = a ++ c :: s /\ space T c = false /\ trim_end T t = a ++ [c].
Proof.
  destruct (cut_last_cases (fun c => negb (space T c)) t) as [H|(a & c & b & -> & Hc & Hb)].
  - left. eapply Forall_impl; [|exact H]. cbn. intros c E. now apply negb_false_iff in E.
  - right. exists a, c, b. apply negb_true_iff in Hc. repeat split; auto. rewrite trim_end_hard by auto. rewrite trim_end_none; auto.
    eapply Forall_impl; [|exact Hb]. cbn. intros d E. now apply negb_false_iff in E.
Qed.
Lemma trim_end_idem t : trim_end T (trim_end T t) = trim_end T t.
Proof.
  destruct (trim_end_cases t) as [H|(a & c & s & E & H & ->)]; [now rewrite (trim_end_none t H)|]. now apply trim_end_last.
Qed.
(** A text that begins and ends with something is left alone. *)
Lemma trim_id w : Forall (fun c => space T c = false) w -> trim T w = w.
Proof.
  intros H. unfold trim. destruct w as [|c w]; auto. inversion_clear H as [|? ? Hc Hw]. rewrite trim_start_hard by auto.
  destruct (@exists_last _ (c :: w) ltac:(easy)) as (l & x & E). rewrite E. apply trim_end_last.
  assert (In x (c :: w)) as Hx by (rewrite E; apply in_or_app; right; now left). destruct Hx as [<-|Hx]; auto. rewrite Forall_forall in Hw. auto.
Qed.
End Trim.

Lemma starts_iff c t : starts_with c t = true <-> exists r, t = c :: r.
Proof.
  destruct t as [|d t]; cbn; [split; [easy|intros (r & E); easy]|]. rewrite N.eqb_eq. split; [intros ->; now exists t|intros (r & [= -> _]); auto].
Qed.
Lemma ends_last c a d : ends_with c (a ++ [d]) = N.eqb d c.
Proof. unfold ends_with. now rewrite rev_unit. Qed.
Lemma nonempty_last {A} (w : list A) : w <> [] -> exists a d, w = a ++ [d].
Proof. intros H. destruct (exists_last H) as (a & d & E). now exists a, d. Qed.

Lemma nil_or_last {A} (l : list A) : l = [] \/ exists a d, l = a ++ [d].
Proof. destruct l as [|x l]; [now left|]. right. apply nonempty_last. easy. Qed.

Section C105.
Variable T : tables.
Variable canonical : list ty -> list ty.
Variable E : engine.
Hypothesis L : lawful T.

Lemma wordy_marks c : wordy T c -> forall d, In d [64; 36; 46; 58; 61; 40; 41; 44; 34; 39; 91; 93; 123; 125; 10] -> c <> d.
Proof.
  intros [H| ->] d Hd C.
  - subst d. rewrite (marks_alnum T L c) in H; [easy|]. cbn in *. tauto.
  - subst d. cbn in Hd. intuition discriminate.
Qed.
Lemma wordy_space c : wordy T c -> space T c = false.
Proof. intros [H| ->]; [now apply (alnum_space T L)|apply (marks_space T L); now left]. Qed.
Lemma namy_iff c : receiver_char T c = true <-> namy T c.
Proof. unfold receiver_char, namy, wordy. rewrite !orb_true_iff, !N.eqb_eq. tauto. Qed.
Lemma sep_iff c : sep T c = true <-> separator T c.
Proof. unfold sep, separator. rewrite !orb_true_iff, !N.eqb_eq. tauto. Qed.
Lemma wordy_sep c : wordy T c -> sep T c = false.
Proof.
  intros H. destruct (sep T c) eqn:S0; auto. apply sep_iff in S0. destruct S0 as [S0|[S0|S0]].
  - apply wordy_space in H. congruence.
  - exfalso. apply (wordy_marks c H 40); auto. cbn. tauto.
  - exfalso. apply (wordy_marks c H 44); auto. cbn. tauto.
Qed.

(** ** The text in front of the dot. *)
Lemma front_line before pre w : in_front T before pre w -> Forall (fun c => c <> 10) w ->
  exists pre0 sp partial, let P := after_last (N.eqb 10) pre in
    pre = pre0 ++ P /\ (pre0 = [] \/ exists a, pre0 = a ++ [10])
    /\ after_last (N.eqb 10) before = P ++ w ++ sp ++ 46 :: partial
    /\ (size before - size (after_last (N.eqb 10) before) = size pre0)%nat
    /\ blank T sp /\ cut_last (N.eqb 46) (after_last (N.eqb 10) before) = Some (P ++ w ++ sp, partial).
Proof.
  intros (sp & partial & -> & Hsp & Hp) Hw. destruct (after_last_spec (N.eqb 10) pre) as (pre0 & Ep & Hn & Hl).
  exists pre0, sp, partial. cbn zeta. set (P := after_last (N.eqb 10) pre) in *.
  assert (after_last (N.eqb 10) (pre ++ w ++ sp ++ 46 :: partial) = P ++ w ++ sp ++ 46 :: partial) as El.
  { unfold P. apply after_last_app. apply Forall_app. split; [eapply Forall_impl; [|exact Hw]; intros c H; apply N.eqb_neq; congruence|].
    apply Forall_app. split; [eapply Forall_impl; [|exact Hsp]; intros c (_ & H); apply N.eqb_neq; congruence|].
    constructor; auto. eapply Forall_impl; [|exact Hp]; intros c (H & _); apply N.eqb_neq; congruence. }
  split; [exact Ep|]. split; [|split; [exact El|split; [|split; [exact Hsp|]]]].
  - destruct Hl as [Hl|(a' & c & -> & Hc)]; auto. apply N.eqb_eq in Hc. subst c. right. now exists a'.
  - rewrite El. rewrite Ep at 1. rewrite !size_app. lia.
  - rewrite El. rewrite !app_assoc. apply cut_last_app; [reflexivity|]. eapply Forall_impl; [|exact Hp]; intros c (_ & H); apply N.eqb_neq; congruence.
Qed.
Lemma before_dot P w sp : blank T sp -> w <> [] -> Forall (fun c => space T c = false) w -> trim_end T (P ++ w ++ sp) = P ++ w.
Proof.
  intros Hs Hw Hn. rewrite app_assoc, trim_end_blank.
  - destruct (nonempty_last w Hw) as (a & d & ->). rewrite app_assoc. apply trim_end_last. apply Forall_app in Hn. destruct Hn as (_ & Hn). now inversion Hn.
  - eapply Forall_impl; [|exact Hs]. cbn. tauto.
Qed.
Lemma trim_front P w : w <> [] -> Forall (fun c => space T c = false) w -> trim T (P ++ w) = trim_start T P ++ w.
Proof.
  intros Hw Hn. unfold trim. destruct w as [|c w]; [easy|]. rewrite trim_start_app by now inversion Hn.
  destruct (nonempty_last (c :: w) ltac:(easy)) as (a & d & Ew). rewrite Ew in *. rewrite app_assoc. apply trim_end_last. apply Forall_app in Hn. destruct Hn as (_ & Hn). now inversion Hn.
Qed.

(** The last piece of the line begins with a colon. *)
Lemma colon_piece pre0 P w : (pre0 = [] \/ exists a, pre0 = a ++ [10]) -> w <> [] -> Forall (wordy T) w ->
  (starts_with 58 (match cut_last (sep T) (trim_start T P ++ w) with Some (_, b) => b | None => trim_start T P ++ w end) = true
   <-> after_colon T (pre0 ++ P)).
Proof.
  intros H0 Hw Hn. change (match cut_last (sep T) (trim_start T P ++ w) with Some (_, b) => b | None => trim_start T P ++ w end)
    with (after_last (sep T) (trim_start T P ++ w)).
  assert (Forall (fun c => sep T c = false) w) as Hs by (eapply Forall_impl; [|exact Hn]; apply wordy_sep).
  rewrite after_last_app by auto. destruct (trim_start_spec T P) as (s & Es & Hbs). set (Q := trim_start T P) in *.
  destruct (after_last_spec (sep T) Q) as (q0 & Eq & Hq & Hl). set (q := after_last (sep T) Q) in *.
  destruct w as [|x w]; [easy|]. inversion_clear Hn as [|? ? Hx _].
  assert (x <> 58) as Nx. { intros ->. refine (wordy_marks _ Hx 58 _ eq_refl). cbn. tauto. }
  rewrite starts_iff. split.
  - intros (r & Er). destruct q as [|d q]; [injection Er; intros; congruence|]. injection Er as -> _.
    exists (pre0 ++ s ++ q0), q. split; [rewrite Es, Eq at 1; now rewrite <- !app_assoc|]. split.
    + destruct Hl as [->|(q' & c & -> & Hc)].
      * destruct (nil_or_last s) as [->|(s' & c & ->)].
        -- destruct H0 as [->|(a & ->)]; [now left|]. right. exists a, 10. rewrite !app_nil_r. split; auto. left. apply (newline_space T L).
        -- right. exists (pre0 ++ s'), c. rewrite app_nil_r, app_assoc. split; auto. left. apply Forall_app in Hbs. destruct Hbs as (_ & Hc). now inversion Hc.
      * right. exists (pre0 ++ s ++ q'), c. rewrite <- !app_assoc. split; auto. now apply sep_iff.
    + inversion_clear Hq as [|? ? _ Hq']. eapply Forall_impl; [|exact Hq']. cbn. intros c Hc C. apply sep_iff in C. congruence.
  - intros (a & b & Eab & Ha & Hb).
    assert (exists a0, q = 58 :: b /\ a0 = a) as (a0 & -> & _); [|now eexists].
    exists a. split; auto.
    assert (pre0 ++ P = (pre0 ++ s ++ q0) ++ q) as E2 by (rewrite Es, Eq at 1; now rewrite <- !app_assoc).
    assert (Forall (fun c => sep T c = false) (58 :: b)) as Hb'.
    { constructor. - unfold sep. rewrite (marks_space T L 58) by (cbn; tauto). reflexivity.
      - eapply Forall_impl; [|exact Hb]. cbn. intros c Hc. destruct (sep T c) eqn:E3; auto. now apply sep_iff in E3. }
    assert (after_last (sep T) (pre0 ++ P) = q) as Q1.
    { rewrite E2. rewrite after_last_app by auto. destruct (nil_or_last (pre0 ++ s ++ q0)) as [->|(y & c & Ey)]; auto.
      assert (sep T c = true) as Hc.
      { destruct Hl as [->|(q' & d & -> & Hd)].
        - rewrite app_nil_r in Ey. destruct (nil_or_last s) as [->|(s' & d & ->)].
          + rewrite app_nil_r in Ey. destruct H0 as [->|(z & ->)]; [now destruct y|]. apply app_inj_tail in Ey. destruct Ey as (_ & <-).
            apply sep_iff. left. apply (newline_space T L).
          + rewrite app_assoc in Ey. apply app_inj_tail in Ey. destruct Ey as (_ & <-). apply sep_iff. left. apply Forall_app in Hbs. destruct Hbs as (_ & Hc). now inversion Hc.
        - rewrite !app_assoc in Ey. apply app_inj_tail in Ey. destruct Ey as (_ & <-). auto. }
      rewrite Ey, after_last_end; auto. }
    rewrite <- Q1, Eab. rewrite after_last_app by auto. destruct Ha as [->|(a' & s0 & -> & Hs0)]; auto.
    rewrite after_last_end; auto. now apply sep_iff.
Qed.

Lemma words_marks w d : Forall (wordy T) w -> In d [64; 36; 46; 58; 61; 40; 41; 44; 34; 39; 91; 93; 123; 125; 10] -> ~ In d w.
Proof. intros H Hd C. rewrite Forall_forall in H. apply H in C. now apply (wordy_marks d C d). Qed.
Lemma words_space w : Forall (wordy T) w -> Forall (fun c => space T c = false) w.
Proof. intros H. eapply Forall_impl; [|exact H]. apply wordy_space. Qed.
Lemma words_newline w : Forall (wordy T) w -> Forall (fun c => c <> 10) w.
Proof. intros H. apply Forall_forall. intros c Hc ->. apply (words_marks w 10 H); auto. cbn. tauto. Qed.

Lemma literal_end P w : w <> [] -> Forall (wordy T) w ->
  literal_at_end T canonical (P ++ w)
  = if starts_with 58 (match cut_last (sep T) (trim_start T P ++ w) with Some (_, b) => b | None => trim_start T P ++ w end) then Some Sym else None.
Proof.
  intros Hw Hn. unfold literal_at_end. rewrite (trim_front P w Hw (words_space w Hn)). destruct (nonempty_last w Hw) as (a & d & Ew).
  assert (wordy T d) as Hd by (rewrite Forall_forall in Hn; apply Hn; rewrite Ew; apply in_or_app; right; now left).
  assert (forall x, In x [34; 39; 93; 125] -> ends_with x (trim_start T P ++ w) = false) as X.
  { intros x Hx. rewrite Ew, app_assoc, ends_last. apply N.eqb_neq. apply (wordy_marks d Hd). cbn in *. tauto. }
  rewrite !X by (cbn; tauto). reflexivity.
Qed.

Lemma symbol_reading before after pre w : in_front T before pre w -> w <> [] -> Forall (wordy T) w -> after_colon T pre ->
  receiver_type T canonical E before after = Some Sym.
Proof.
  intros F Hw Hn C. destruct (front_line before pre w F (words_newline w Hn)) as (pre0 & sp & partial & Ep & H0 & El & Es & Hs & Ec).
  unfold receiver_type. rewrite Ec. rewrite (before_dot _ w sp Hs Hw (words_space w Hn)). rewrite (literal_end _ w Hw Hn).
  rewrite Ep in C. apply (colon_piece pre0 _ w H0 Hw Hn) in C. now rewrite C.
Qed.

Lemma name_reading before after pre w : in_front T before pre w -> whole T pre -> w <> [] -> Forall (wordy T) w -> ~ after_colon T pre ->
  receiver_type T canonical E before after =
    match literal T w with
    | Some t => Some t
    | None => match w with
              | [] => None
              | c :: _ => if upper T c && constant T w then Some (Ref [w]) else resolve T E (before ++ after) w (size pre) (size pre + size w)
              end
    end.
Proof.
  intros F W Hw Hn C. destruct (front_line before pre w F (words_newline w Hn)) as (pre0 & sp & partial & Ep & H0 & El & Es & Hs & Ec).
  unfold receiver_type. rewrite Ec. rewrite (before_dot _ w sp Hs Hw (words_space w Hn)). rewrite (literal_end _ w Hw Hn).
  destruct (starts_with 58 _) eqn:Sw.
  { exfalso. apply C. rewrite Ep. now apply (colon_piece pre0 _ w H0 Hw Hn). }
  set (P := after_last (N.eqb 10) pre) in *.
  assert (receiver_text T (P ++ w) = w) as ->.
  { unfold receiver_text. rewrite after_last_app.
    - assert (after_last (fun c => negb (receiver_char T c)) P = []) as ->; [|cbn [app]; now rewrite !(trim_id T w (words_space w Hn))].
      destruct (nil_or_last P) as [->|(y & c & Ey)]; auto. rewrite Ey. apply after_last_end. apply negb_true_iff.
      destruct W as [W|(a & d & -> & Hd)]; [rewrite W in Ep; now destruct pre0; destruct P; try easy; destruct y|].
      rewrite Ey, app_assoc in Ep. apply app_inj_tail in Ep. destruct Ep as (_ & <-). destruct (receiver_char T d) eqn:R; auto. now apply namy_iff in R.
    - eapply Forall_impl; [|exact Hn]. cbn. intros c Hc. apply negb_false_iff. apply namy_iff. now left. }
  rewrite Es. destruct w as [|c r]; [easy|]. destruct (literal T (c :: r)); auto. destruct (upper T c && constant T (c :: r)); auto.
  assert (size pre0 + (size (P ++ c :: r) - size (c :: r)) = size pre)%nat as ->; auto. rewrite Ep, !size_app. lia.
Qed.

Lemma not_literal w : Forall (wordy T) w -> (exists d, In d w /\ d <> 95 /\ digit T d = false) -> literal T w = None.
Proof.
  intros Hn (d & Hd & N5 & Dd). unfold literal. destruct w as [|c r]; [easy|].
  assert (forall x, In x [34; 39; 58; 91; 123] -> starts_with x (c :: r) = false) as X.
  { intros x Hx. cbn [starts_with]. apply N.eqb_neq. inversion_clear Hn as [|? ? Hc _]. apply (wordy_marks c Hc). cbn in *. tauto. }
  rewrite !X by (cbn; tauto). cbn [orb negb andb].
  assert (forallb (fun c => digit T c || (c =? 95)) (c :: r) = false) as ->.
  { destruct (forallb _ _) eqn:F; auto. rewrite forallb_forall in F. apply F in Hd. apply orb_true_iff in Hd. rewrite N.eqb_eq in Hd. destruct Hd; congruence. }
  assert (existsb (N.eqb 46) (c :: r) = false) as ->; auto. destruct (existsb _ _) eqn:F; auto. apply existsb_exists in F. destruct F as (x & Hx & Ex).
  apply N.eqb_eq in Ex. subst x. exfalso. apply (words_marks _ 46 Hn); auto. cbn. tauto.
Qed.
Lemma number_literal w : w <> [] -> Forall (fun d => digit T d = true \/ d = 95) w -> literal T w = Some Int.
Proof.
  intros Hw H. assert (Forall (wordy T) w) as Hn.
  { eapply Forall_impl; [|exact H]. intros d [Hd|Hd]; [left; now apply (digit_alnum T L)|now right]. }
  unfold literal. destruct w as [|c r]; [easy|].
  assert (forall x, In x [34; 39; 58; 91; 123] -> starts_with x (c :: r) = false) as X.
  { intros x Hx. cbn [starts_with]. apply N.eqb_neq. inversion_clear Hn as [|? ? Hc _]. apply (wordy_marks c Hc). cbn in *. tauto. }
  rewrite !X by (cbn; tauto). cbn [orb negb andb].
  assert (forallb (fun c => digit T c || (c =? 95)) (c :: r) = true) as ->; auto.
  apply forallb_forall. intros d Hd. rewrite Forall_forall in H. apply orb_true_iff. rewrite N.eqb_eq. auto.
Qed.

Lemma variable_words w : variable T w -> w <> [] /\ Forall (wordy T) w /\ is_variable T w = true
  /\ (exists c r, w = c :: r /\ upper T c = false) /\ exists d, In d w /\ d <> 95 /\ digit T d = false.
Proof.
  intros (c & r & -> & Hc & Hr & Hd).
  assert (wordy T c) as Wc by (destruct Hc as [Hc|Hc]; [left; now apply (lower_alnum T L)|now right]).
  assert (Forall (wordy T) (c :: r)) as Wcr by now constructor. repeat split; auto; [easy| |].
  - unfold is_variable. apply andb_true_iff. rewrite orb_true_iff, N.eqb_eq. split; auto. apply forallb_forall. intros x Hx.
    rewrite Forall_forall in Wcr. apply Wcr in Hx. apply orb_true_iff. rewrite N.eqb_eq. exact Hx.
  - exists c, r. split; auto. destruct Hc as [Hc| ->]; [now apply (lower_alnum T L)|apply (underscore_case T L)].
Qed.

(** ** Names: the engine is asked about exactly the place where the name stands, and its answer is used. *)
Lemma front_slice before after pre w : in_front T before pre w -> slice (before ++ after) (size pre) (size pre + size w) = Some w.
Proof.
  intros (sp & partial & -> & _). rewrite <- !app_assoc. rewrite <- size_app. apply slice_app.
Qed.
Lemma variable_reading before after pre w : in_front T before pre w -> whole T pre -> variable T w -> ~ after_colon T pre ->
  receiver_type T canonical E before after = resolve T E (before ++ after) w (size pre) (size pre + size w).
Proof.
  intros F W V C. destruct (variable_words w V) as (Hw & Hn & _ & (c & r & Ew & U) & Hd).
  rewrite (name_reading before after pre w F W Hw Hn C), (not_literal w Hn Hd). rewrite Ew at 1. rewrite U. reflexivity.
Qed.

Theorem C105_place : forall before after pre w, in_front T before pre w -> whole T pre -> variable T w -> ~ after_colon T pre ->
  slice (before ++ after) (size pre) (size pre + size w) = Some w
  /\ (forall t, exact E (size pre) (size pre + size w) = Some t ->
        (t <> Unknown -> receiver_type T canonical E before after = Some t)
        /\ (t = Unknown -> receiver_type T canonical E before after = None))
  /\ (forall t, exact E (size pre) (size pre + size w) = None -> scoped E w (size pre) = Some t ->
        (t <> Unknown -> receiver_type T canonical E before after = Some t)
        /\ (t = Unknown -> receiver_type T canonical E before after = None)).
Proof.
  intros before after pre w F W V C. split; [now apply front_slice|]. rewrite (variable_reading before after pre w F W V C).
  destruct (variable_words w V) as (_ & _ & Iv & _). unfold resolve. split.
  - intros t ->. split; [intros Ht; now destruct t|now intros ->].
  - intros t -> Hs. rewrite Iv, Hs. split; [intros Ht; now destruct t|now intros ->].
Qed.

(** ** Constants, numbers, symbols, strings. *)
Theorem C105_constant : forall before after pre w, in_front T before pre w -> whole T pre -> constant_name T w -> ~ after_colon T pre ->
  receiver_type T canonical E before after = Some (Ref [w]).
Proof.
  intros before after pre w F W (c & r & -> & U & Hr & K) C.
  assert (Forall (wordy T) (c :: r)) as Hn by (constructor; auto; left; now apply (upper_alnum T L)).
  rewrite (name_reading before after pre (c :: r) F W ltac:(easy) Hn C), not_literal; auto.
  - now rewrite U, K.
  - exists c. split; [now left|]. split; [|now apply (upper_alnum T L)]. intros ->. destruct (underscore_case T L) as (X & _). congruence.
Qed.
Theorem C105_number : forall before after pre w, in_front T before pre w -> whole T pre -> number T w -> ~ after_colon T pre ->
  receiver_type T canonical E before after = Some Int.
Proof.
  intros before after pre w F W (c & r & -> & D & Hr) C.
  assert (Forall (fun d => digit T d = true \/ d = 95) (c :: r)) as Hd by auto.
  rewrite (name_reading before after pre (c :: r)), number_literal; auto; [easy|easy|].
  eapply Forall_impl; [|exact Hd]. intros d [H|H]; [left; now apply (digit_alnum T L)|now right].
Qed.
Theorem C105_symbol : forall before after pre w, in_front T before (pre ++ [58]) w -> (pre = [] \/ exists a s, pre = a ++ [s] /\ separator T s) ->
  w <> [] -> Forall (wordy T) w -> receiver_type T canonical E before after = Some Sym.
Proof.
  intros before after pre w F Hp Hw Hn. eapply symbol_reading; eauto. exists pre, []. auto.
Qed.
Lemma end_reading before after pre c : in_front T before pre [c] -> space T c = false -> c <> 10 ->
  (c = 34 \/ c = 39 -> receiver_type T canonical E before after = Some Str) /\ (c = 125 -> receiver_type T canonical E before after = Some Hsh)
  /\ (c = 93 -> Forall (fun c => c <> 10) pre -> (exists r, trim_start T pre = 91 :: r) -> exists l, receiver_type T canonical E before after = Some (Arr l)).
Proof.
  intros F Hc Nc. destruct (front_line before pre [c] F) as (pre0 & sp & partial & Ep & H0 & El & Es & Hs & Ec); [now repeat constructor|].
  unfold receiver_type. rewrite Ec. rewrite (before_dot _ [c] sp Hs) by (auto; easy). unfold literal_at_end. rewrite trim_front by (auto; easy).
  rewrite !ends_last. split; [|split].
  - intros [->| ->]; reflexivity.
  - intros ->. reflexivity.
  - intros -> Hp (r & Er). assert (after_last (N.eqb 10) pre = pre) as ->.
    { unfold after_last. rewrite cut_last_none; auto. eapply Forall_impl; [|exact Hp]. intros x Hx. apply N.eqb_neq. congruence. }
    rewrite Er. cbn [app starts_with]. eexists. reflexivity.
Qed.
Theorem C105_string : forall before after pre c, c = 34 \/ c = 39 -> in_front T before pre [c] ->
  receiver_type T canonical E before after = Some Str.
Proof.
  intros before after pre c Hc F. apply (end_reading before after pre c F); auto; destruct Hc as [->| ->]; try easy; apply (marks_space T L); cbn; tauto.
Qed.

(** ** The items of an array literal. *)
Fixpoint comma_joined (l : list text) : text :=
  match l with [] => [] | [a] => a | a :: r => a ++ 44 :: comma_joined r end.
(** An item that begins with [c], blanks aside, and has no comma in it. *)
Definition item (c : N) (i : text) : Prop :=
  exists s r, i = s ++ c :: r /\ Forall (fun d => space T d = true /\ d <> 44 /\ d <> 10) s /\ Forall (fun d => d <> 44 /\ d <> 10) r.
Lemma split_some t : split 44 t <> [].
Proof. induction t as [|d t IH]; [easy|]. cbn [split]. destruct (split 44 t); [easy|]. destruct (N.eqb d 44); easy. Qed.
Lemma split_app a b : Forall (fun d => d <> 44) a -> split 44 (a ++ 44 :: b) = a :: split 44 b.
Proof.
  intros H. induction H as [|d a Hd _ IH]; cbn [split app].
  - pose proof (split_some b). destruct (split 44 b); [easy|reflexivity].
  - rewrite IH. apply N.eqb_neq in Hd. now rewrite Hd.
Qed.
Lemma split_none a : Forall (fun d => d <> 44) a -> split 44 a = [a].
Proof. intros H. induction H as [|d a Hd _ IH]; [reflexivity|]. cbn [split]. rewrite IH. apply N.eqb_neq in Hd. now rewrite Hd. Qed.
Lemma split_joined l : l <> [] -> Forall (Forall (fun d => d <> 44)) l -> split 44 (comma_joined l) = l.
Proof.
  intros N0 H. induction H as [|a l Ha Hl IH]; [easy|]. destruct l as [|b l]; [now apply split_none|].
  change (comma_joined (a :: b :: l)) with (a ++ 44 :: comma_joined (b :: l)). rewrite split_app by exact Ha. f_equal. now apply IH.
Qed.
Lemma item_trim c i : space T c = false -> item c i -> exists r, trim T i = c :: r.
Proof.
  intros Hc (s & r & -> & Hs & _). unfold trim. rewrite trim_start_blank by (eapply Forall_impl; [|exact Hs]; cbn; tauto).
  rewrite trim_start_hard by exact Hc. change (c :: r) with ([] ++ c :: r). rewrite (trim_end_hard T [] c r Hc). cbn [app]. eauto.
Qed.
Lemma add_same t l : l <> [] -> (forall i, In i l -> exists c r, trim T i = c :: r /\ element T (c :: r) = t) -> add_elements T [] l = [t].
Proof.
  intros N0 H. assert (X : forall l, (forall i, In i l -> exists c r, trim T i = c :: r /\ element T (c :: r) = t) -> add_elements T [t] l = [t]).
  { clear l N0 H. intros l H. induction l as [|i l IH]; [reflexivity|]. cbn [add_elements]. destruct (H i (or_introl eq_refl)) as (c & r & -> & ->).
    destruct (in_dec ty_eq_dec t [t]) as [_|X]; [|exfalso; apply X; now left]. apply IH. intros j J. apply H. now right. }
  destruct l as [|i l]; [easy|]. cbn [add_elements]. destruct (H i (or_introl eq_refl)) as (c & r & -> & ->).
  destruct (in_dec ty_eq_dec t []) as [[]|_]. cbn [app]. apply X. intros j J. apply H. now right.
Qed.
(** An array literal at the beginning of a line whose items are all strings, or all symbols, is an
    array of strings, or of symbols. *)
Theorem C105_items : forall before after items t,
  items <> [] -> in_front T before (91 :: comma_joined items) [93] ->
  (t = Str /\ Forall (fun i => item 34 i \/ item 39 i) items) \/ (t = Sym /\ Forall (item 58) items) ->
  receiver_type T canonical E before after = Some (Arr (canonical [t])).
Proof.
  intros before after items t N0 F H.
  assert (M : forall c, In c [34; 39; 58; 91; 93] -> space T c = false) by (intros c I; apply (marks_space T L); cbn in *; tauto).
  assert (H1 : forall i, In i items -> exists c, In c [34; 39; 58] /\ item c i /\ forall r, element T (c :: r) = t).
  { destruct H as [(-> & H)|(-> & H)]; rewrite Forall_forall in H; intros i I; specialize (H i I).
    - destruct H as [H|H]; [exists 34|exists 39]; (split; [cbn; tauto|]); split; auto.
    - exists 58. split; [cbn; tauto|]. split; auto. }
  assert (H2 : Forall (Forall (fun d => d <> 44 /\ d <> 10)) items).
  { apply Forall_forall. intros i I. destruct (H1 i I) as (c & Ic & (s & r & -> & Hs & Hr) & _). apply Forall_app. split.
    - eapply Forall_impl; [|exact Hs]. cbn. tauto.
    - constructor; auto. cbn in Ic. destruct Ic as [<-|[<-|[<-|[]]]]; easy. }
  assert (H3 : Forall (fun c => c <> 10) (91 :: comma_joined items)).
  { constructor; [easy|]. clear - H2. induction H2 as [|a l Ha Hl IH]; [constructor|]. destruct l as [|b l].
    - eapply Forall_impl; [|exact Ha]. cbn. tauto.
    - change (comma_joined (a :: b :: l)) with (a ++ 44 :: comma_joined (b :: l)). apply Forall_app. split.
      + eapply Forall_impl; [|exact Ha]. cbn. tauto.
      + constructor; [easy|exact IH]. }
  destruct (front_line before (91 :: comma_joined items) [93] F) as (pre0 & sp & partial & Ep & H0 & El & Es & Hs & Ec); [now repeat constructor|].
  unfold receiver_type. rewrite Ec. rewrite (before_dot _ [93] sp Hs) by (auto; try easy; repeat constructor; apply M; cbn; tauto).
  unfold literal_at_end. rewrite trim_front by (auto; try easy; repeat constructor; apply M; cbn; tauto).
  rewrite !ends_last. cbn [N.eqb Pos.eqb orb].
  assert (after_last (N.eqb 10) (91 :: comma_joined items) = 91 :: comma_joined items) as ->.
  { unfold after_last. rewrite cut_last_none; auto. eapply Forall_impl; [|exact H3]. intros x Hx. apply N.eqb_neq. congruence. }
  rewrite trim_start_hard by (apply M; cbn; tauto). cbn [app starts_with N.eqb Pos.eqb andb].
  unfold middle. cbn [tl]. rewrite removelast_last. unfold elements. rewrite split_joined; [|exact N0|].
  - rewrite (add_same t); auto. intros i I. destruct (H1 i I) as (c & Ic & X & Y).
    destruct (item_trim c i) as (r & R); [apply M; cbn in *; tauto|exact X|]. exists c, r. auto.
  - eapply Forall_impl; [|exact H2]. intros i Hi. eapply Forall_impl; [|exact Hi]. cbn. tauto.
Qed.

(** ** Assignments of new objects. *)
Lemma strip_app p t : strip p (p ++ t) = Some t.
Proof. induction p as [|c p IH]; auto. cbn. now rewrite N.eqb_refl. Qed.
Lemma strip_some p : forall t r, strip p t = Some r -> t = p ++ r.
Proof.
  induction p as [|c p IH]; intros t r; [now intros [= ->]|]. destruct t as [|d t]; [easy|]. cbn. destruct (N.eqb_spec c d) as [->|]; [|easy].
  intros H. apply IH in H. now subst.
Qed.
Lemma cut_sub_first c q J t : ~ In c J -> cut_sub (c :: q) (J ++ (c :: q) ++ t) = Some (J, t).
Proof.
  induction J as [|d J IH]; intros H.
  - cbn [app]. pose proof (strip_app (c :: q) t) as S0. cbn [app] in S0. unfold cut_sub. rewrite S0. reflexivity.
  - cbn [app] in *. assert (strip (c :: q) (d :: J ++ c :: q ++ t) = None) as S0.
    { cbn. destruct (N.eqb_spec c d) as [->|]; auto. exfalso. apply H. now left. }
    cbn [cut_sub]. rewrite S0. rewrite IH; auto. intros C. apply H. now right.
Qed.
Lemma cut_sub_absent c q t : ~ In c t -> cut_sub (c :: q) t = None.
Proof.
  induction t as [|d t IH]; intros H; auto. assert (strip (c :: q) (d :: t) = None) as S0.
  { cbn. destruct (N.eqb_spec c d) as [->|]; auto. exfalso. apply H. now left. }
  cbn [cut_sub]. rewrite S0, IH; auto. intros C. apply H. now right.
Qed.
Lemma contains_app p a b : contains p (a ++ p ++ b) = true.
Proof.
  unfold contains. induction a as [|c a IH]; cbn [app].
  - pose proof (strip_app p b) as S0. destruct (p ++ b) eqn:X; cbn [cut_sub]; now rewrite S0.
  - cbn [cut_sub]. destruct (strip p (c :: a ++ p ++ b)); auto. destruct (cut_sub p (a ++ p ++ b)) as [[]|]; auto.
Qed.
Lemma ends_app p a : ends p (a ++ p) = true.
Proof. unfold ends. now rewrite rev_app_distr, strip_app. Qed.

Lemma joined_split path : path <> [] -> (forall a, In a path -> ~ In 58 a) -> forall fuel, (length path <= S fuel)%nat ->
  split_colons fuel (joined path) = path.
Proof.
  induction path as [|a [|b r] IH]; intros Ne H fuel Lf; [easy| |].
  - cbn [joined]. destruct fuel; auto. cbn [split_colons]. rewrite cut_sub_absent; auto. apply H. now left.
  - change (joined (a :: b :: r)) with (a ++ [58; 58] ++ joined (b :: r)). destruct fuel as [|fuel]; [cbn in Lf; lia|]. cbn [split_colons].
    rewrite cut_sub_first by (apply H; now left). rewrite IH; auto; [easy| |cbn [length] in *; lia]. intros x Hx. apply H. now right.
Qed.
Lemma joined_length path : (forall a, In a path -> a <> []) -> (length path <= S (length (joined path)))%nat.
Proof.
  induction path as [|a [|b r] IH]; intros H; cbn [length]; [lia|lia|].
  change (joined (a :: b :: r)) with (a ++ [58; 58] ++ joined (b :: r)). rewrite !app_length. cbn [length] in *.
  assert (S (length r) <= S (length (joined (b :: r))))%nat by (apply IH; intros x Hx; apply H; now right). lia.
Qed.
Lemma constant_words a : constant_name T a -> a <> [] /\ Forall (wordy T) a.
Proof. intros (c & r & -> & U & Hr & _). split; [easy|]. constructor; auto. left. now apply (upper_alnum T L). Qed.
Lemma joined_chars path : (forall a, In a path -> Forall (wordy T) a) -> Forall (fun c => wordy T c \/ c = 58) (joined path).
Proof.
  induction path as [|a [|b r] IH]; intros H; cbn [joined]; auto.
  - eapply Forall_impl; [|apply H; now left]. auto.
  - apply Forall_app. split; [eapply Forall_impl; [|apply H; now left]; auto|]. cbn [app]. repeat (constructor; [now right|]).
    apply IH. intros x Hx. apply H. now right.
Qed.

Lemma constructs_line line v path : constructs T line v path -> v <> [] -> Forall (wordy T) v ->
  constructor_line T v line = Some path.
Proof.
  intros (s1 & s2 & s3 & s4 & args & -> & B1 & B2 & B3 & B4 & Ha & Ne & Hp) Hv Wv.
  set (J := joined path). assert (forall s, blank T s -> Forall (fun c => space T c = true) s) as Bl.
  { intros s Hs. eapply Forall_impl; [|exact Hs]. cbn. tauto. }
  assert (Forall (wordy T) v /\ forall a, In a path -> Forall (wordy T) a) as (_ & Wp).
  { split; auto. intros a Hin. apply Hp in Hin. apply constant_words, Hin. }
  assert (Forall (fun c => space T c = false) J) as Js.
  { eapply Forall_impl; [|apply (joined_chars path Wp)]. intros c [Hc| ->]; [now apply wordy_space|apply (marks_space T L); cbn; tauto]. }
  assert (exists c r, J = c :: r /\ upper T c = true) as (cj & rj & EJ & Uj).
  { destruct path as [|a p]; [easy|]. destruct (Hp a) as ((c & r & -> & U & _) & _); [now left|]. unfold J.
    destruct p; cbn [joined app]; eexists _, _; split; eauto. }
  assert (space T 119 = false /\ space T 61 = false) as (Sw & Se) by (split; apply (marks_space T L); cbn; tauto).
  assert (exists tail, trim T (s1 ++ v ++ s2 ++ [61] ++ s3 ++ J ++ [46; 110; 101; 119] ++ args ++ s4)
            = v ++ s2 ++ 61 :: s3 ++ J ++ [46; 110; 101] ++ 119 :: tail /\ trim_end T tail = tail
            /\ (tail = [] \/ exists r, tail = 40 :: r \/ tail = 32 :: r)) as (tail & Et & Ei & Ht).
  { exists (trim_end T (args ++ s4)). split; [|split; [apply trim_end_idem|]].
    - unfold trim. rewrite trim_start_blank by auto. destruct v as [|x v]; [easy|]. cbn [app]. rewrite trim_start_hard by (inversion_clear Wv; now apply wordy_space).
      assert (forall z, x :: v ++ s2 ++ 61 :: s3 ++ J ++ 46 :: 110 :: 101 :: 119 :: z = (x :: v ++ s2 ++ 61 :: s3 ++ J ++ [46; 110; 101]) ++ 119 :: z) as R1.
      { intros z. cbn [app]. repeat (rewrite <- !app_assoc; cbn [app]). reflexivity. }
      rewrite !R1. now apply trim_end_hard.
    - rewrite trim_end_blank by auto. destruct Ha as [->|(r & [->| ->])]; [left; reflexivity| |].
      + right. exists (trim_end T r). left. apply (trim_end_hard T [] 40 r). apply (marks_space T L). cbn. tauto.
      + destruct (trim_end_cases T (32 :: r)) as [Hb|(a & c & s & Er & Hc & Ee)]; [left; now apply trim_end_none|].
        right. rewrite Ee. destruct a as [|y a]; [injection Er as <- _; rewrite (blank_space T L) in Hc; easy|]. injection Er as <- _. eexists. right. reflexivity. }
  unfold constructor_line. rewrite Et, strip_app.
  assert (starts_with 32 (s2 ++ 61 :: s3 ++ J ++ [46; 110; 101] ++ 119 :: tail) || starts_with 9 (s2 ++ 61 :: s3 ++ J ++ [46; 110; 101] ++ 119 :: tail)
          || starts_with 61 (s2 ++ 61 :: s3 ++ J ++ [46; 110; 101] ++ 119 :: tail) = true) as ->.
  { destruct s2 as [|y s2]; [reflexivity|]. inversion_clear B2 as [|? ? Hy _]. destruct Hy as [->| ->]; reflexivity. }
  assert (trim T (s2 ++ 61 :: s3 ++ J ++ [46; 110; 101] ++ 119 :: tail) = 61 :: s3 ++ J ++ [46; 110; 101] ++ 119 :: tail) as ->.
  { unfold trim. rewrite trim_start_blank.
    - rewrite trim_start_hard by auto.
      assert (61 :: s3 ++ J ++ [46; 110; 101] ++ 119 :: tail = (61 :: s3 ++ J ++ [46; 110; 101]) ++ 119 :: tail) as -> by (cbn [app]; now rewrite <- !app_assoc).
      rewrite trim_end_hard by auto. now rewrite Ei.
    - eapply Forall_impl; [|exact B2]. intros c [->| ->]; [apply (blank_space T L)|apply (tab_space T L)]. }
  change (61 :: s3 ++ J ++ [46; 110; 101] ++ 119 :: tail) with ([61] ++ s3 ++ J ++ [46; 110; 101] ++ 119 :: tail). rewrite strip_app.
  assert (trim T (s3 ++ J ++ [46; 110; 101] ++ 119 :: tail) = J ++ dot_new ++ tail) as ->.
  { unfold trim. rewrite trim_start_blank by auto. rewrite EJ. cbn [app]. rewrite trim_start_hard by (rewrite EJ in Js; now inversion Js).
    assert (cj :: rj ++ 46 :: 110 :: 101 :: 119 :: tail = (cj :: rj ++ [46; 110; 101]) ++ 119 :: tail) as -> by (cbn [app]; now rewrite <- !app_assoc).
    rewrite trim_end_hard by auto. rewrite Ei. cbn [app]. now rewrite <- !app_assoc. }
  assert (ends dot_new (J ++ dot_new ++ tail) || contains (dot_new ++ [40]) (J ++ dot_new ++ tail) || contains (dot_new ++ [32]) (J ++ dot_new ++ tail) = true) as ->.
  { destruct Ht as [->|(r & [->| ->])].
    - rewrite app_nil_r, ends_app. reflexivity.
    - pose proof (contains_app (dot_new ++ [40]) J r) as C. rewrite <- app_assoc in C. cbn [app] in C |- *. now rewrite C, orb_true_r.
    - pose proof (contains_app (dot_new ++ [32]) J r) as C. rewrite <- app_assoc in C. cbn [app] in C |- *. now rewrite C, orb_true_r. }
  assert (~ In 46 J) as Nd.
  { intros C. pose proof (joined_chars path Wp) as JC. rewrite Forall_forall in JC. apply JC in C. destruct C as [C|C]; [|discriminate].
    refine (wordy_marks 46 C 46 _ eq_refl). cbn. tauto. }
  unfold dot_new at 1 2. rewrite cut_sub_first by auto. rewrite (trim_id T J Js). rewrite EJ. rewrite Uj. rewrite <- EJ. unfold J at 1 2.
  rewrite joined_split; auto.
  - assert (map (trim T) path = path) as ->.
    { rewrite <- (map_id path) at 2. apply map_ext_in. intros a Hin. apply trim_id, words_space, Wp, Hin. }
    assert (filter (constant T) path = path) as ->.
    { clear - Hp. induction path as [|a p IH]; auto. cbn [filter]. destruct (Hp a) as ((c & r & -> & _ & _ & K) & _); [now left|]. rewrite K, IH; auto.
      intros b Hb. apply Hp. now right. }
    now destruct path.
  - intros a Hin. apply words_marks; [now apply Wp|]. cbn. tauto.
  - apply joined_length. intros a Hin. apply Hp in Hin. apply constant_words, Hin.
Qed.

Lemma other_line v line : Forall (fun c => c <> 10) line -> ~ may_assign T line v -> constructor_line T v line = None.
Proof.
  intros Hl H. unfold constructor_line. destruct (strip v (trim T line)) as [rest|] eqn:S0; auto.
  destruct (starts_with 32 rest || starts_with 9 rest || starts_with 61 rest) eqn:St; auto. exfalso. apply H. apply strip_some in S0.
  destruct rest as [|c rest]; [easy|]. cbn [starts_with] in St. rewrite !orb_true_iff, !N.eqb_eq in St.
  destruct (trim_start_spec T line) as (s & Es & Hs). unfold trim in S0.
  destruct (trim_end_cases T (trim_start T line)) as [B|(a & d & sp & Ea & _ & Ee)].
  - rewrite trim_end_none in S0 by auto. now destruct v.
  - rewrite Ee in S0. exists s, c, (rest ++ sp). split; [|split; [|tauto]].
    + rewrite Es, Ea. change (c :: rest ++ sp) with ((c :: rest) ++ sp). rewrite (app_assoc v), <- S0. now rewrite <- app_assoc.
    + apply Forall_forall. intros x Hx. rewrite Forall_forall in Hs, Hl. split; auto. apply Hl. rewrite Es. apply in_or_app. now left.
Qed.

Lemma split_line l r : Forall (fun c => c <> 10) l -> split 10 (l ++ 10 :: r) = l :: split 10 r.
Proof.
  assert (forall t, exists h q, split 10 t = h :: q) as Ne.
  { induction t as [|d t (h & q & IH)]; cbn [split]; [now exists [], []|]. rewrite IH. destruct (d =? 10); eauto. }
  induction 1 as [|c l Hc _ IH]; cbn [app split].
  - destruct (Ne r) as (h & q & ->). reflexivity.
  - rewrite IH. destruct (N.eqb_spec c 10); [easy|reflexivity].
Qed.
Lemma split_last l : Forall (fun c => c <> 10) l -> split 10 l = [l].
Proof. induction 1 as [|c l Hc _ IH]; auto. cbn [split]. rewrite IH. destruct (N.eqb_spec c 10); [easy|reflexivity]. Qed.
Lemma lines_unlines ls rest : (forall l, In l ls -> is_line l) -> Forall (fun c => c <> 10) rest ->
  exists q, lines (unlines ls ++ rest) = ls ++ q.
Proof.
  intros H Hr. assert (split 10 (unlines ls ++ rest) = ls ++ [rest]) as Es.
  { unfold unlines. induction ls as [|l ls IH]; cbn [map concat app]; [now apply split_last|]. rewrite <- !app_assoc. cbn [app].
    rewrite split_line by (apply H; now left). rewrite IH; auto. intros x Hx. apply H. now right. }
  unfold lines. rewrite Es, rev_app_distr. cbn [rev app].
  assert (map chomp ls = ls) as Em.
  { rewrite <- (map_id ls) at 2. apply map_ext_in. intros l Hl. apply H in Hl. destruct Hl as (_ & Hl). destruct (nil_or_last l) as [->|(a & d & ->)]; auto.
    unfold chomp. rewrite ends_last. destruct (N.eqb_spec d 13) as [->|]; auto. now destruct (Hl a). }
  destruct rest as [|c r].
  - rewrite rev_involutive. exists []. now rewrite app_nil_r.
  - rewrite map_app, Em. eexists. reflexivity.
Qed.
Lemma first_some_app {A B} (f : A -> option B) l1 x l2 y : (forall z, In z l1 -> f z = None) -> f x = Some y -> first_some f (l1 ++ x :: l2) = Some y.
Proof.
  intros H Hx. induction l1 as [|z l1 IH]; cbn [app first_some]; [now rewrite Hx|]. rewrite H by now left. apply IH. intros u Hu. apply H. now right.
Qed.

(** A variable the engine knows nothing about is taken for the object of the first line that assigns it
    a new one. *)
Theorem C105_constructor : forall before after pre w ls1 line ls2 rest path,
  in_front T before pre w -> whole T pre -> variable T w -> ~ after_colon T pre ->
  exact E (size pre) (size pre + size w) = None -> scoped E w (size pre) = None ->
  before ++ after = unlines (ls1 ++ line :: ls2) ++ rest ->
  (forall l, In l (ls1 ++ line :: ls2) -> is_line l) -> Forall (fun c => c <> 10) rest ->
  (forall l, In l ls1 -> ~ may_assign T l w) -> constructs T line w path ->
  receiver_type T canonical E before after = Some (Obj path).
Proof.
  intros before after pre w ls1 line ls2 rest path F W V C Hx Hs Ec Hl Hr H1 Hc. rewrite (variable_reading before after pre w F W V C).
  destruct (variable_words w V) as (Hw & Hn & Iv & _). unfold resolve. rewrite Hx, Iv, Hs. unfold constructed. rewrite Ec.
  destruct (lines_unlines (ls1 ++ line :: ls2) rest Hl Hr) as (q & ->). rewrite <- app_assoc. cbn [app].
  rewrite (first_some_app _ ls1 line (ls2 ++ q) path); auto.
  - intros l Hin. apply other_line; auto. apply Hl. apply in_or_app. now left.
  - now apply constructs_line.
Qed.

(** *** Where it fails. *)
(** A number with a decimal point is offered the methods of an Integer. *)
Theorem C105_float_refuted : forall before after pre n m, number T m ->
  in_front T before (pre ++ n ++ [46]) m -> ~ after_colon T (pre ++ n ++ [46]) ->
  receiver_type T canonical E before after = Some Int.
Proof.
  intros before after pre n m Hm F C. eapply C105_number; eauto. right. exists (pre ++ n), 46. split; [now rewrite <- app_assoc|].
  intros [H|[H|H]]; [|discriminate..]. refine (wordy_marks 46 H 46 _ eq_refl). cbn. tauto.
Qed.
(** Of a path of constants only the last name is looked at, and at the top level. *)
Theorem C105_nested_refuted : forall before after pre a w, constant_name T w ->
  in_front T before (pre ++ a ++ [58; 58]) w -> ~ after_colon T (pre ++ a ++ [58; 58]) ->
  receiver_type T canonical E before after = Some (Ref [w]).
Proof.
  intros before after pre a w Hw F C. eapply C105_constant; eauto. right. exists (pre ++ a ++ [58]), 58. split; [now rewrite <- !app_assoc|].
  intros [H|[H|H]]; [|discriminate..]. refine (wordy_marks 58 H 58 _ eq_refl). cbn. tauto.
Qed.
(** A constant after two leading colons is offered the methods of a Symbol. *)
Theorem C105_top_refuted : forall before after pre w, constant_name T w ->
  in_front T before (pre ++ [58; 58]) w -> (pre = [] \/ exists a s, pre = a ++ [s] /\ separator T s) ->
  receiver_type T canonical E before after = Some Sym.
Proof.
  intros before after pre w Hw F Hp. destruct (constant_words w Hw) as (Ne & Hn). eapply symbol_reading; eauto. exists pre, [58].
  split; auto. split; auto. constructor; auto. intros C. apply sep_iff in C. unfold sep in C. rewrite (marks_space T L 58) in C; [easy|]. cbn. tauto.
Qed.
(** The result of a call with a block in braces is offered the methods of a Hash. *)
Theorem C105_block_refuted : forall before after call, in_front T before (call ++ [123]) [125] \/ (exists body, in_front T before (call ++ [123] ++ body) [125]) ->
  receiver_type T canonical E before after = Some Hsh.
Proof.
  intros before after call [F|(body & F)]; (eapply end_reading; [exact F|apply (marks_space T L); cbn; tauto|easy|easy]).
Qed.
(** An element of a literal array is offered the methods of an Array. *)
Theorem C105_element_refuted : forall before after items i, in_front T before (91 :: items ++ [93; 91] ++ i) [93] ->
  Forall (fun c => c <> 10) items -> Forall (fun c => c <> 10) i -> exists l, receiver_type T canonical E before after = Some (Arr l).
Proof.
  intros before after items i F H1 H2. eapply (end_reading before after _ 93 F); auto; [apply (marks_space T L); cbn; tauto|easy| |].
  - constructor; [easy|]. apply Forall_app. split; auto. cbn [app]. repeat (constructor; [easy|]). auto.
  - eexists. apply trim_start_hard. apply (marks_space T L). cbn. tauto.
Qed.
(** The variable [_] is offered the methods of an Integer. *)
Theorem C105_underscore_refuted : forall before after pre, in_front T before pre [95] -> whole T pre -> ~ after_colon T pre ->
  receiver_type T canonical E before after = Some Int.
Proof.
  intros before after pre F W C. rewrite (name_reading before after pre [95]); auto; [|easy|now repeat constructor].
  rewrite number_literal; auto; easy.
Qed.
(** A method called on something else is taken for a local variable of the same name. *)
Theorem C105_chain_refuted : forall before after pre a w t, variable T w ->
  in_front T before (pre ++ a ++ [46]) w -> ~ after_colon T (pre ++ a ++ [46]) ->
  exact E (size (pre ++ a ++ [46])) (size (pre ++ a ++ [46]) + size w) = None -> scoped E w (size (pre ++ a ++ [46])) = Some t -> t <> Unknown ->
  receiver_type T canonical E before after = Some t.
Proof.
  intros before after pre a w t V F C Hx Hs Ht. apply (proj2 (proj2 (C105_place before after _ w F
    ltac:(right; exists (pre ++ a), 46; split; [now rewrite <- app_assoc|]; intros [H|[H|H]]; [refine (wordy_marks 46 H 46 _ eq_refl); cbn; tauto|discriminate..]) V C)) t Hx Hs). exact Ht.
Qed.
(** It does not matter where the assignment stands: a line below the cursor, in another method, counts
    as well; and what is called on the new object is forgotten. *)
Theorem C105_elsewhere_refuted : forall before after pre w line ls rest class name,
  in_front T before pre w -> whole T pre -> variable T w -> ~ after_colon T pre ->
  exact E (size pre) (size pre + size w) = None -> scoped E w (size pre) = None ->
  constant_name T class -> Forall (fun c => c <> 10) class -> Forall (wordy T) name ->
  line = w ++ [32; 61; 32] ++ class ++ [46; 110; 101; 119; 40; 41; 46] ++ name ->
  before ++ after = unlines (ls ++ [line]) ++ rest ->
  (forall l, In l (ls ++ [line]) -> is_line l) -> Forall (fun c => c <> 10) rest ->
  (forall l, In l ls -> ~ may_assign T l w) ->
  receiver_type T canonical E before after = Some (Obj [class]).
Proof.
  intros before after pre w line ls rest class name F W V C Hx Hs Hc Hc' Hn -> Ec Hl Hr H1.
  eapply (C105_constructor before after pre w ls _ [] rest [class] F W V C Hx Hs Ec Hl Hr H1).
  exists [], [32], [32], [], ([40; 41; 46] ++ name). cbn [joined]. split; [cbn [app]; now rewrite !app_nil_r|].
  split; [constructor|]. split; [repeat constructor|]. split; [repeat constructor; [apply (blank_space T L)|easy]|]. split; [constructor|].
  split; [right; exists ([41; 46] ++ name); now left|]. split; [easy|]. intros a [<-|[]]. auto.
Qed.
End C105.
Print Assumptions C105_place.
Print Assumptions C105_constant.
Print Assumptions C105_number.
Print Assumptions C105_symbol.
Print Assumptions C105_string.
Print Assumptions C105_items.
Print Assumptions C105_constructor.
Print Assumptions C105_float_refuted.
Print Assumptions C105_nested_refuted.
Print Assumptions C105_top_refuted.
Print Assumptions C105_block_refuted.
Print Assumptions C105_element_refuted.
Print Assumptions C105_underscore_refuted.
Print Assumptions C105_chain_refuted.
Print Assumptions C105_elsewhere_refuted.

(** *** Concrete tables: those of ASCII. *)
Definition up (c : N) : bool := (65 <=? c) && (c <=? 90).
Definition low (c : N) : bool := (97 <=? c) && (c <=? 122).
Definition dig (c : N) : bool := (48 <=? c) && (c <=? 57).
Definition ascii : tables := mkTables (fun c => up c || low c || dig c) (fun c => (c =? 32) || (c =? 9) || (c =? 10) || (c =? 13))
  up low dig (fun w => match w with c :: _ => up c | [] => false end) (fun w => forallb dig w) (fun _ => false).
Lemma between lo hi c : (lo <=? c) && (c <=? hi) = true <-> lo <= c <= hi.
Proof. now rewrite andb_true_iff, !N.leb_le. Qed.
Lemma between_not lo hi c : ~ lo <= c <= hi -> (lo <=? c) && (c <=? hi) = false.
Proof. intros H. destruct (_ && _) eqn:E; auto. now apply between in E. Qed.
Lemma ascii_lawful : lawful ascii.
Proof.
  constructor; cbn [alnum space upper lower digit ascii]; unfold up, low, dig; auto.
  - intros c. rewrite !orb_true_iff, !between. intros H. rewrite !orb_false_iff, !N.eqb_neq. lia.
  - intros c H. cbn [In] in H. repeat (destruct H as [<-|H]; [reflexivity|]). easy.
  - intros c H. cbn [In] in H. repeat (destruct H as [<-|H]; [reflexivity|]). easy.
  - intros c. rewrite between. intros H. rewrite (proj2 (between 65 90 c) H). split; auto. split; apply between_not; lia.
  - intros c. rewrite between. intros H. rewrite (proj2 (between 97 122 c) H), orb_true_r. split; auto. split; apply between_not; lia.
  - intros c ->. now rewrite orb_true_r.
Qed.
Definition silent : engine := mkEngine (fun _ _ => None) (fun _ _ => None) (fun _ _ => None) (fun _ => None).
Definition same (l : list ty) : list ty := l.

(** ["a", "b"].u *)
Example C105_items_case : in_front ascii [91; 34; 97; 34; 44; 32; 39; 98; 39; 93; 46; 117] (91 :: comma_joined [[34; 97; 34]; [32; 39; 98; 39]]) [93]
  /\ item ascii 34 [34; 97; 34] /\ item ascii 39 [32; 39; 98; 39].
Proof.
  split; [exists [], [117]; repeat split; repeat constructor; easy|].
  split; [exists [], [97; 34]|exists [32], [98; 39]]; repeat split; repeat constructor; easy.
Qed.
(** An array of [false] counts as one of [true]. *)
Theorem C105_false_refuted : forall canonical E,
  receiver_type ascii canonical E [91; 102; 97; 108; 115; 101; 93; 46] [] = Some (Arr (canonical [True_])).
Proof. reflexivity. Qed.
(** After [x = [1]] nothing is offered at all. *)
Theorem C105_array_refuted : forall canonical E, receiver_type ascii canonical E [120; 32; 61; 32; 91; 49; 93; 46] [] = None.
Proof. reflexivity. Qed.
Print Assumptions C105_false_refuted.
Print Assumptions C105_array_refuted.

(** [foo(bar.u] asks about the four to seven. *)
Example C105_place_case : in_front ascii [102; 111; 111; 40; 98; 97; 114; 46; 117] [102; 111; 111; 40] [98; 97; 114]
  /\ whole ascii [102; 111; 111; 40] /\ variable ascii [98; 97; 114] /\ ~ after_colon ascii [102; 111; 111; 40].
Proof.
  split; [exists [], [117]; repeat split; repeat constructor; easy|]. split; [|split].
  - right. exists [102; 111; 111], 40. split; auto. intros [[H|H]|[H|H]]; discriminate.
  - exists 98, [97; 114]. split; auto. split; [now left|]. split; [repeat constructor|]. exists 98. split; [now left|]. split; [easy|reflexivity].
  - intros (a & b & H & _). assert (In 58 [102; 111; 111; 40]) as Hi by (rewrite H; apply in_or_app; right; now left). cbn in Hi. intuition discriminate.
Qed.
(** The float, the top-level constant and the chain. *)
Example C105_float_case : receiver_type ascii same silent [49; 46; 53; 46] [] = Some Int.
Proof. reflexivity. Qed.
Example C105_top_case : receiver_type ascii same silent [58; 58; 65; 46] [] = Some Sym.
Proof. reflexivity. Qed.
Example C105_nested_case : receiver_type ascii same silent [65; 58; 58; 66; 46] [] = Some (Ref [[66]]).
Proof. reflexivity. Qed.
(** [a.] on the first line, [a = B.new().c] on the second. *)
Example C105_elsewhere_case : receiver_type ascii same silent [97; 46] [10; 97; 32; 61; 32; 66; 46; 110; 101; 119; 40; 41; 46; 99; 10] = Some (Obj [[66]]).
Proof. reflexivity. Qed.
Example C105_constructs_case : constructs ascii [97; 61; 65; 58; 58; 66; 46; 110; 101; 119] [97] [[65]; [66]].
Proof.
  exists [], [], [], [], []. split; [reflexivity|]. do 4 (split; [constructor|]). split; [now left|]. split; [easy|].
  intros a [<-|[<-|[]]]; (split; [eexists _, []; repeat split; constructor|repeat constructor; easy]).
Qed.
