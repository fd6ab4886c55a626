(** The invariant of every run of the server. *)
From Coq Require Import List Bool ZArith String Lia.
From Verif Require Import Editor_Model Editor_Spec Editor_Core Editor_Steps.
Import ListNotations.
Open Scope list_scope.

(** *** Lists of handlers *)
Definition apart (h h' : handler) : Prop := forall u, on u h -> on u h' -> snd h' = Waiting.
Definition excl (l : list handler) : Prop := ForallOrdPairs apart l.

Lemma excl_app : forall l1 l2, excl (l1 ++ l2) <->
  excl l1 /\ excl l2 /\ (forall a b, In a l1 -> In b l2 -> apart a b).
Proof.
  intros l1 l2. unfold excl. induction l1 as [|a l1 IH]; cbn.
  - split; [intro H; repeat split; auto; [constructor|tauto]|tauto].
  - split.
    + intro H. inversion H as [|x y F G]; subst. apply IH in G. destruct G as [G1 [G2 G3]].
      rewrite Forall_forall in F. repeat split; auto.
      * constructor; auto. apply Forall_forall. intros x i. apply F. apply in_or_app. auto.
      * intros x y [->|i] k; auto. apply F. apply in_or_app. auto.
    + intros [H [G K]]. inversion H as [|x y F F2]; subst. constructor.
      * rewrite Forall_forall in *. intros x i. apply in_app_or in i. destruct i; auto.
      * apply IH. auto.
Qed.
Lemma excl_one : forall x, excl [x].
Proof. intro. constructor; constructor. Qed.
Lemma excl_cons : forall x l, excl (x :: l) <-> excl l /\ (forall b, In b l -> apart x b).
Proof.
  intros x l. change (x :: l) with (app [x] l). rewrite excl_app. split.
  - intros [_ [H K]]. split; auto. intros b i. apply K; cbn; auto.
  - intros [H K]. split; [apply excl_one|]. split; auto. intros a b [<-|[]] i. auto.
Qed.
Lemma excl_out : forall l1 x l2, excl (l1 ++ x :: l2) -> excl (l1 ++ l2).
Proof.
  intros l1 x l2 H. apply excl_app in H. destruct H as [A [B C]]. apply excl_cons in B. apply excl_app.
  repeat split; try tauto. intros a b i k. apply C; cbn; auto.
Qed.
Lemma excl_next : forall l1 n p p' l2, excl (l1 ++ (n, p) :: l2) -> p <> Waiting -> excl (l1 ++ (n, p') :: l2).
Proof.
  intros l1 n p p' l2 H W. apply excl_app in H. destruct H as [A [B C]]. apply excl_cons in B. apply excl_app.
  repeat split; auto.
  - apply excl_cons. split; [tauto|]. intros b i u o. apply (proj2 B b i u o).
  - intros a b i [<-|k]; [|apply C; cbn; auto]. intros u o o'. exfalso. apply W.
    apply (C a (n, p) i (or_introl eq_refl) u o o').
Qed.
Lemma excl_start : forall l1 n p l2, excl (l1 ++ (n, Waiting) :: l2) -> lock_free n l1 -> excl (l1 ++ (n, p) :: l2).
Proof.
  intros l1 n p l2 H W. apply excl_app in H. destruct H as [A [B C]]. apply excl_cons in B. apply excl_app.
  repeat split; auto.
  - apply excl_cons. split; [tauto|]. intros b i u o. apply (proj2 B b i u o).
  - intros a b i [<-|k]; [|apply C; cbn; auto]. intros u o o'. exfalso. apply (W a u i o o').
Qed.

(** *** What is under way *)
Definition act (l : list handler) (b : list task) (j : job) : Prop :=
  (exists n, In (n, Analysing (Some j)) l) \/ In (Process j) b.
Definition colof (b : list task) (u : uri) (c : cstage) : Prop := exists t, In (Collect u t c) b.
Definition flag (p : phase) : bool :=
  match p with Looping _ f | Reading _ _ f | HasRead _ _ _ f => f | _ => false end.
Definition flagged (l : list handler) : Prop := exists n p, In (n, p) l /\ flag p = true.
Definition named (p : phase) : list uri :=
  match p with
  | Looping cs _ => map fst cs
  | Reading u cs _ | HasRead u _ cs _ => u :: map fst cs
  | _ => []
  end.
Definition waiting (l : list handler) : list note :=
  flat_map (fun h : handler => match snd h with Waiting => [fst h] | _ => [] end) l.
Definition view (s : server) (g : uri -> bool) (u : uri) : option (Z * text * bool) :=
  match docs s u with Some d => Some (dversion d, dtext d, g u) | None => None end.

Lemma waiting_app : forall a b, waiting (a ++ b) = waiting a ++ waiting b.
Proof. intros. unfold waiting. apply flat_map_app. Qed.
Lemma waiting_cons : forall n p l, waiting ((n, p) :: l) = match p with Waiting => [n] | _ => [] end ++ waiting l.
Proof. reflexivity. Qed.
Lemma waiting_in : forall n l, In n (waiting l) -> In (n, Waiting) l.
Proof.
  intros n l i. apply in_flat_map in i. destruct i as [[m p] [k i]]. destruct p; cbn in i; try tauto. destruct i as [<-|[]]. auto.
Qed.

Lemma upd_other : forall u v n, locks n <> Some u -> upd u v n = v.
Proof.
  intros u v n N. destruct n; cbn in *; auto; destruct (String.eqb_spec u0 u); try congruence; auto.
Qed.
Lemma legal_other : forall u v n, locks n <> Some u -> legal_note u v n.
Proof. intros u v n N. destruct n; cbn in *; auto; congruence. Qed.
Lemma fold_other : forall u ns v, (forall n, In n ns -> locks n <> Some u) -> fold_left (upd u) ns v = v.
Proof.
  intros u ns. induction ns as [|n ns IH]; intros v H; cbn; auto. rewrite upd_other by (apply H; cbn; auto).
  apply IH. intros m i. apply H. cbn; auto.
Qed.
Lemma legal_app : forall u a v b, legal u v (a ++ b) <-> legal u v a /\ legal u (fold_left (upd u) a v) b.
Proof.
  intros u a. induction a as [|n a IH]; intros v b; cbn; [tauto|]. rewrite IH. tauto.
Qed.
Lemma legal_others : forall u ns v, (forall n, In n ns -> locks n <> Some u) -> legal u v ns.
Proof.
  intros u ns. induction ns as [|n ns IH]; intros v H; cbn; auto. split.
  - apply legal_other. apply H. cbn; auto.
  - apply IH. intros m i. apply H. cbn; auto.
Qed.

Lemma notes_app : forall a b, notes (a ++ b) = notes a ++ notes b.
Proof. intros. unfold notes. apply flat_map_app. Qed.

Section Inv.
Variable W : world.

Definition inv (x : state) (es : list event) : Prop :=
  let s := srv x in let b := busy x in let l := hs x in
  let wd := fun u => watched u (notes es) in
  excl l /\
  (forall n j, In (n, Analysing (Some j)) l -> locks n = Some (ju j)) /\
  (forall n p u, In (n, p) l -> In u (named p) -> wd u) /\
  exists g, (forall u, fold_left (upd u) (waiting l) (view s g u) = shown (notes es) u) /\
            (forall u, legal u (view s g u) (waiting l)) /\
            core W s (act l b) (colof b) (flagged l) wd g.


Lemma view_job : forall s A col fl wd g j, core W s A col fl wd g -> A j ->
  forall u, view (fst (job_step W s j)) g u = view s g u.
Proof.
  intros s A col fl wd g j C a u. destruct (c_job _ _ _ _ _ _ _ C j a) as [d [D F]]. unfold view.
  destruct j as [w t fo p v]; destruct p; cbn [job_step jstage fst snd ju jt jforced jver] in *; try reflexivity.
  - cbn. destruct (uri_dec u w) as [->|N]; [|now rewrite set_ne]. rewrite set_eq, D. cbn.
    destruct F as [F1 [F2 F3]]. cbn in F1, F2. rewrite F1, F2 by reflexivity. reflexivity.
  - rewrite D. cbn. destruct (uri_dec u w) as [->|N]; [|now rewrite set_ne]. now rewrite set_eq, D.
Qed.

Lemma job_step_u : forall s j j', snd (job_step W s j) = Some j' -> ju j' = ju j.
Proof.
  intros s [u t fo p v] j'. destruct p; cbn; intro E; try discriminate; injection E as <-; reflexivity.
Qed.

(** What a starting handler does to its document. *)
Definition mode (n : note) (g : uri -> bool) : uri -> bool :=
  match n with
  | DidOpen u _ _ => set g u false
  | DidChange u _ ts => match ts with [] => g | _ => set g u true end
  | _ => g
  end.

Lemma rev_last : forall (ts : list text) t r, rev ts = t :: r -> last ts EmptyString = t /\ ts <> [].
Proof.
  intros ts t r E. assert (ts = app (rev r) [t]).
  { rewrite <- (rev_involutive ts), E. reflexivity. }
  subst ts. split; [apply last_last|]. intro X. destruct (rev r); discriminate.
Qed.
Lemma rev_nil' : forall ts : list text, rev ts = [] -> ts = [].
Proof. intros ts E. rewrite <- (rev_involutive ts), E. reflexivity. Qed.

Lemma view_start : forall s n g u, view (fst (start W s n)) (mode n g) u = upd u (view s g u) n.
Proof.
  intros s n g u. destruct n as [w v t|w v ts|w|w|cs]; cbn [start mode upd].
  - set (s' := fst (start_open W s w v t)).
    assert (P : (forall x, x <> w -> docs s' x = docs s x) /\
                exists i c, docs s' w = Some (Doc t v i c)).
    { unfold s', start_open.
      set (k := match file_kind s w with Some k => k | None => new_kind W w end).
      set (s1 := put_doc (register s w k t) w v t).
      assert (D1 : exists i, docs s1 w = Some (Doc t v i None)).
      { unfold s1. rewrite put_doc_eq. destruct (docs (register s w k t) w); cbn; eexists; reflexivity. }
      assert (O1 : forall x, x <> w -> docs s1 x = docs s x).
      { intros x N. unfold s1. rewrite put_doc_ne by auto. reflexivity. }
      clearbody s1. destruct D1 as [i D1].
      destruct (match file_kind s w with Some k0 => is_dependency k0 | None => false end || matches s w t).
      - rewrite D1. destruct (is_project k), (matches s w t); cbn; rewrite ?D1; cbn; rewrite ?set_eq, ?D1;
          (split; [intros x N; rewrite ?set_ne by auto; auto|eauto]).
      - cbn. split; eauto. }
    unfold view. destruct P as [O [i [c D]]]. destruct (String.eqb_spec w u) as [->|N].
    + rewrite D. cbn. now rewrite set_eq.
    + rewrite O, set_ne by auto. reflexivity.
  - unfold start_change. destruct (rev ts) as [|t r] eqn:E.
    + apply rev_nil' in E. subst ts. cbn. destruct (String.eqb w u); reflexivity.
    + destruct (rev_last _ _ _ E) as [La Ne]. destruct ts as [|t0 ts]; [easy|]. rewrite La. cbn [fst].
      unfold view. destruct (String.eqb_spec w u) as [->|N].
      * rewrite put_doc_eq, set_eq. destruct (docs _ u); reflexivity.
      * rewrite put_doc_ne, set_ne by auto. reflexivity.
  - unfold start_save. destruct (ends_rb w); [destruct (docs s w)|]; reflexivity.
  - unfold start_close. cbn [fst]. unfold view.
    assert (D : docs (fst (clear_if is_excluded (set_docs s w None) w)) = docs (set_docs s w None)).
    { unfold clear_if. destruct (files _ w) as [[k y]|]; [destruct (is_excluded k)|]; reflexivity. }
    rewrite D. cbn. destruct (String.eqb_spec w u) as [->|N]; [now rewrite set_eq|]. now rewrite set_ne by auto.
  - reflexivity.
Qed.

Lemma core_start : forall s A col fl wd g n, core W s A col fl wd g -> (forall w c, ~ col w c) ->
  (forall j u, A j -> locks n = Some u -> ju j <> u) ->
  (forall u, legal_note u (view s g u) n) ->
  core W (fst (start W s n)) (with_job A (snd (start W s n))) col fl wd (mode n g).
Proof.
  intros s A col fl wd g n C Nc Na Le.
  assert (No : forall s' g', core W s' A col fl wd g' -> core W s' (with_job A None) col fl wd g').
  { intros s' g' C'. eapply core_more; eauto. unfold with_job. intro j. split; [intros [a|a]; [auto|discriminate]|auto]. }
  assert (One : forall s' g' u t, core W s' (fun j => A j \/ j = analyse u t) col fl wd g' ->
            core W s' (with_job A (Some (Analysing (Some (analyse u t))))) col fl wd g').
  { intros s' g' u t C'. eapply core_more; eauto. unfold with_job. intro j. split; (intros [a|a]; [auto|right; congruence]). }
  destruct n as [u v t|u v ts|u|u|cs]; cbn [start mode].
  - assert (Dn : docs s u = None).
    { specialize (Le u eq_refl). unfold view in Le. destruct (docs s u); [discriminate|auto]. }
    assert (Na' : forall j, A j -> ju j <> u) by (intros j a; exact (Na j u a eq_refl)).
    unfold start_open.
    set (k := match file_kind s u with Some k => k | None => new_kind W u end).
    destruct (match file_kind s u with Some k0 => is_dependency k0 | None => false end || matches s u t) eqn:Sk.
    + cbn [fst snd]. apply No.
      apply (core_open_skip W s A col fl wd g u v t k (matches s u t)
               (match docs (put_doc (register s u k t) u v t) u with Some d => dscopes d | None => None end) C Nc Na' Dn).
      apply orb_true_iff in Sk. destruct Sk as [Sk|Sk].
      * right. unfold k. destruct (file_kind s u); [auto|discriminate].
      * left. split; auto. unfold matches in Sk. unfold k, file_kind. destruct (files s u) as [[k0 r]|]; [|discriminate].
        destruct (disk s u); [|discriminate]. apply andb_true_iff in Sk. destruct Sk as [Sk1 Sk2].
        apply andb_true_iff in Sk1. apply String.eqb_eq in Sk2. subst r.
        assert (k0 = Project) by (destruct k0; cbn in Sk1; try (destruct Sk1; discriminate); auto). subst k0. auto.
    + cbn [fst snd]. apply One. apply core_new_text; auto. intros d D. congruence.
  - unfold start_change. destruct (rev ts) as [|t r] eqn:E.
    + apply rev_nil' in E. subst ts. apply No. exact C.
    + destruct (rev_last _ _ _ E) as [La Ne].
      assert (Na' : forall j, A j -> ju j <> u) by (intros j a; exact (Na j u a eq_refl)).
      destruct (Le u eq_refl Ne) as [k0 [t0 [f [V Lt]]]]. destruct ts as [|t1 ts]; [easy|].
      cbn [fst snd]. apply One. apply core_new_text; auto. intros d D. unfold view in V. rewrite D in V. injection V as <- _ _. auto.
  - unfold start_save. destruct (ends_rb u); [destruct (docs s u) as [d|] eqn:D|]; try (apply No; exact C).
    cbn [fst snd]. apply One. apply core_save; auto.
  - cbn [start_close snd]. apply No. apply core_close; auto.
  - apply No. exact C.
Qed.

Lemma kept_locks : forall s n j, snd (start W s n) = Some (Analysing (Some j)) -> locks n = Some (ju j).
Proof.
  intros s n j. destruct n as [u v t|u v ts|u|u|cs]; cbn [start locks].
  - unfold start_open. destruct (match file_kind s u with Some k0 => is_dependency k0 | None => false end || matches s u t); cbn; intro E; [discriminate|]. injection E as <-. reflexivity.
  - unfold start_change. destruct (rev ts); cbn; intro E; [discriminate|]. injection E as <-. reflexivity.
  - unfold start_save. destruct (ends_rb u); [destruct (docs s u)|]; cbn; intro E; try discriminate. injection E as <-. reflexivity.
  - discriminate.
  - discriminate.
Qed.
Lemma kept_phase : forall s n p, snd (start W s n) = Some p -> exists j, p = Analysing (Some j).
Proof.
  intros s n p. destruct n as [u v t|u v ts|u|u|cs]; cbn [start].
  - unfold start_open. destruct (match file_kind s u with Some k0 => is_dependency k0 | None => false end || matches s u t); cbn; intro E; [discriminate|]. injection E as <-. eauto.
  - unfold start_change. destruct (rev ts); cbn; intro E; [discriminate|]. injection E as <-. eauto.
  - unfold start_save. destruct (ends_rb u); [destruct (docs s u)|]; cbn; intro E; try discriminate. injection E as <-. eauto.
  - discriminate.
  - discriminate.
Qed.

(** *** Replacing or removing one handler *)
Lemma hs_next : forall l1 n p p' l2 (Q : handler -> Prop),
  (forall h, In h (l1 ++ (n, p) :: l2) -> Q h) -> Q (n, p') -> forall h, In h (l1 ++ (n, p') :: l2) -> Q h.
Proof.
  intros l1 n p p' l2 Q H K h i. apply in_app_or in i. destruct i as [i|[<-|i]]; auto; apply H; apply in_or_app; cbn; auto.
Qed.
Lemma in_mid : forall (A : Type) (x y : A) l1 l2, In y (l1 ++ x :: l2) <-> y = x \/ In y (l1 ++ l2).
Proof. intros. rewrite !in_app_iff. cbn. intuition congruence. Qed.

Lemma act_mid : forall l1 n p l2 b j, act (l1 ++ (n, p) :: l2) b j <->
  act (l1 ++ l2) b j \/ p = Analysing (Some j).
Proof.
  intros l1 n p l2 b j. unfold act. split.
  - intros [[m i]|i]; [|auto]. apply in_mid in i. destruct i as [i|i]; [injection i as -> <-; auto|left; left; eauto].
  - intros [[[m i]|i]|E]; auto.
    + left. exists m. apply in_mid. auto.
    + left. exists n. apply in_mid. subst p. auto.
Qed.
Lemma flagged_mid : forall l1 n p l2, flagged (l1 ++ (n, p) :: l2) <-> flagged (l1 ++ l2) \/ flag p = true.
Proof.
  intros l1 n p l2. unfold flagged. split.
  - intros [m [q [i F]]]. apply in_mid in i. destruct i as [i|i]; [injection i as -> ->; auto|left; eauto].
  - intros [[m [q [i F]]]|F].
    + exists m, q. split; auto. apply in_mid. auto.
    + exists n, p. split; auto. apply in_mid. auto.
Qed.

Lemma lists_next : forall l1 n p (p' : option phase) l2 (wd : uri -> Prop),
  let l := l1 ++ (n, p) :: l2 in let l' := l1 ++ kept n p' ++ l2 in
  p <> Waiting -> p' <> Some Waiting ->
  excl l -> (forall n j, In (n, Analysing (Some j)) l -> locks n = Some (ju j)) ->
  (forall n p u, In (n, p) l -> In u (named p) -> wd u) ->
  (forall j, p' = Some (Analysing (Some j)) -> exists j', p = Analysing (Some j') /\ ju j = ju j') ->
  (forall q u, p' = Some q -> In u (named q) -> In u (named p)) ->
  excl l' /\ (forall n j, In (n, Analysing (Some j)) l' -> locks n = Some (ju j)) /\
  (forall n p u, In (n, p) l' -> In u (named p) -> wd u) /\ waiting l' = waiting l.
Proof.
  intros l1 n p p' l2 wd l l' Nw Nw' Ex Ll Nm Ej En. unfold l, l' in *. clear l l'. destruct p' as [p'|]; cbn [kept app].
  - repeat split.
    + eapply excl_next; eauto.
    + intros m j i. apply in_mid in i. destruct i as [i|i].
      * injection i as -> <-. destruct (Ej j eq_refl) as [j' [-> ->]]. apply (Ll n j'). apply in_mid. auto.
      * apply (Ll m j). apply in_mid. auto.
    + intros m q u i k. apply in_mid in i. destruct i as [i|i].
      * injection i as -> ->. apply (Nm n p u); [apply in_mid; auto|apply (En p'); auto].
      * apply (Nm m q u); auto. apply in_mid. auto.
    + rewrite !waiting_app, !waiting_cons. destruct p, p'; try congruence; reflexivity.
  - repeat split.
    + eapply excl_out; eauto.
    + intros m j i. apply (Ll m j). apply in_mid. auto.
    + intros m q u i k. apply (Nm m q u); auto. apply in_mid. auto.
    + rewrite !waiting_app, !waiting_cons. destruct p; try congruence; reflexivity.
Qed.

End Inv.
