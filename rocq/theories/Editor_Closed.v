(** A file that is not open: what watched-file notifications do to it. *)
From Coq Require Import List Bool ZArith String Lia.
From Verif Require Import Editor_Model Editor_Spec Editor_Core Editor_Steps Editor_Proofs Editor_Run.
Import ListNotations.
Open Scope list_scope.

Section Closed.
Variable W : world.
Variable u : uri.
Variable r : option text.      (* what the disk holds *)
Hypothesis In_u : inside W u = true.
Hypothesis Inc : included W u = true.
Hypothesis Sig : signature W u = false.

Definition agreed (s : server) : Prop :=
  match r with
  | Some t => files s u = Some (Project, t) /\ facts s u = Full t
  | None => forall y, files s u = Some (Project, y) -> facts s u = Nothing
  end.
(** What a phase still has to do for the file, told truly. *)
Definition told (p : phase) : Prop :=
  match p with
  | Looping cs _ | Reading _ cs _ => In (u, Deleted) cs -> r = None
  | HasRead w q cs _ => (w = u -> q = r) /\ (In (u, Deleted) cs -> r = None)
  | _ => True
  end.
Definition owed (x : state) : Prop :=
  (exists n p, In (n, p) (hs x) /\ In u (named p)) \/ (exists c t, In (Collect u t c) (busy x)).

Definition quiet (x : state) (es : list event) : Prop :=
  docs (srv x) u = None /\ disk (srv x) u = r /\
  (forall n p, In (n, p) (hs x) -> locks n <> Some u /\ told p /\ (forall j, p = Analysing (Some j) -> ju j <> u)) /\
  (forall j, In (Process j) (busy x) -> ju j <> u) /\
  (forall t c, In (Collect u t c) (busy x) -> Some t = r /\ (c <> CRegister -> files (srv x) u = Some (Project, t))) /\
  (watched u (notes es) -> agreed (srv x) \/ owed x).

Definition fair (n : note) : Prop :=
  locks n <> Some u /\ forall cs, n = Watched cs -> In (u, Deleted) cs -> r = None.

Lemma job_other : forall s j, ju j <> u ->
  docs (fst (job_step W s j)) u = docs s u /\ files (fst (job_step W s j)) u = files s u /\
  facts (fst (job_step W s j)) u = facts s u /\ disk (fst (job_step W s j)) = disk s.
Proof.
  intros s [w t fo p v] N. cbn in N. destruct p; cbn; rewrite ?set_ne by auto; auto.
  destruct (docs s w); cbn; rewrite ?set_ne by auto; auto.
Qed.

Lemma start_other : forall s n, locks n <> Some u ->
  docs (fst (start W s n)) u = docs s u /\ files (fst (start W s n)) u = files s u /\
  facts (fst (start W s n)) u = facts s u /\ disk (fst (start W s n)) = disk s.
Proof.
  intros s n N. destruct n as [w v t|w v ts|w|w|cs]; cbn [start locks] in *; auto.
  - assert (w <> u) by congruence. unfold start_open.
    set (k := match file_kind s w with Some k => k | None => new_kind W w end).
    destruct (match file_kind s w with Some k0 => is_dependency k0 | None => false end || matches s w t); cbn.
    + rewrite !set_eq. destruct (is_project k), (matches s w t); cbn; rewrite ?set_eq; cbn; rewrite ?set_ne by auto; auto.
    + rewrite !set_ne by auto. auto.
  - assert (w <> u) by congruence. unfold start_change. destruct (rev ts); cbn; auto. rewrite !set_ne by auto. auto.
  - unfold start_save. destruct (ends_rb w); [destruct (docs s w)|]; cbn; auto.
  - assert (w <> u) by congruence. unfold start_close, clear_if. cbn.
    destruct (files s w) as [[k y]|]; [destruct (is_excluded k)|]; cbn; rewrite ?set_ne by auto; auto.
Qed.

Lemma clear_other : forall p s w, w <> u ->
  docs (fst (clear_if p s w)) u = docs s u /\ files (fst (clear_if p s w)) u = files s u /\
  facts (fst (clear_if p s w)) u = facts s u /\ disk (fst (clear_if p s w)) = disk s.
Proof.
  intros p s w N. unfold clear_if. destruct (files s w) as [[k y]|]; [destruct (p k)|]; cbn; rewrite ?set_ne by auto; auto.
Qed.
Lemma clear_docs : forall p s w, docs (fst (clear_if p s w)) = docs s /\ disk (fst (clear_if p s w)) = disk s.
Proof. intros p s w. unfold clear_if. destruct (files s w) as [[k y]|]; [destruct (p k)|]; cbn; auto. Qed.
Lemma clear_agreed : forall s, r = None -> agreed (fst (clear_if is_project s u)).
Proof.
  intros s R. unfold agreed. rewrite R. unfold clear_if. intros y. destruct (files s u) as [[k z]|] eqn:F.
  - destruct (is_project k) eqn:K; cbn; rewrite ?set_eq; auto. rewrite F. intro E. injection E as -> _. discriminate.
  - cbn. rewrite F. discriminate.
Qed.

Lemma agreed_same : forall s s', files s' u = files s u -> facts s' u = facts s u -> agreed s -> agreed s'.
Proof. intros s s' E F. unfold agreed. now rewrite E, F. Qed.

(** The server is untouched at the file, and handlers owe the same. *)
Lemma quiet_same : forall x y es,
  quiet x es ->
  docs (srv y) u = docs (srv x) u -> files (srv y) u = files (srv x) u -> facts (srv y) u = facts (srv x) u ->
  disk (srv y) u = disk (srv x) u ->
  (forall n p, In (n, p) (hs y) -> In (n, p) (hs x) \/
     (locks n <> Some u /\ told p /\ (forall j, p = Analysing (Some j) -> ju j <> u))) ->
  (forall j, In (Process j) (busy y) -> In (Process j) (busy x) \/ ju j <> u) ->
  (forall t c, In (Collect u t c) (busy y) -> In (Collect u t c) (busy x)) ->
  (owed x -> owed y) ->
  quiet y (es ++ [Tau]).
Proof.
  intros x y es [q1 [q2 [q3 [q4 [q5 q6]]]]] E1 E2 E3 E4 Eh Ej Ec Eo. unfold quiet.
  rewrite notes_other by reflexivity. repeat split.
  - congruence.
  - congruence.
  - destruct (Eh n p H) as [i|i]; [apply (q3 n p i)|apply i].
  - destruct (Eh n p H) as [i|i]; [apply (q3 n p i)|apply i].
  - destruct (Eh n p H) as [i|i]; [apply (q3 n p i)|apply i].
  - intros j i. destruct (Ej j i); auto.
  - apply (q5 t c). auto.
  - rewrite E2. apply (q5 t c). auto.
  - intro w. destruct (q6 w) as [a|a]; auto. left. eapply agreed_same; eauto.
Qed.

Ltac here := unfold owed in *; cbn [hs busy srv] in *.

Lemma owed_mid : forall s b l1 n p p' l2 s', owed (State s b (l1 ++ (n, p) :: l2)) ->
  (In u (named p) -> In u (named p')) -> owed (State s' b (l1 ++ (n, p') :: l2)).
Proof.
  intros s b l1 n p p' l2 s' [[m [q [i k]]]|c] E; here; [left|right; auto].
  apply in_mid in i. destruct i as [i|i].
  - injection i as -> ->. exists n, p'. split; [apply in_mid; auto|auto].
  - exists m, q. split; [apply in_mid; auto|auto].
Qed.
Lemma owed_out : forall s b l1 n p l2 s' b', owed (State s b (l1 ++ (n, p) :: l2)) -> ~ In u (named p) ->
  (forall t c, In (Collect u t c) b -> In (Collect u t c) b') -> owed (State s' b' (l1 ++ l2)).
Proof.
  intros s b l1 n p l2 s' b' [[m [q [i k]]]|[c [t i]]] E F; here; [left|right; eauto].
  apply in_mid in i. destruct i as [i|i].
  - injection i as -> ->. tauto.
  - eauto.
Qed.
Lemma mid_old : forall (m n : note) (p q p' : phase) l1 l2, In (m, q) (l1 ++ (n, p') :: l2) ->
  In (m, q) (l1 ++ (n, p) :: l2) \/ (m = n /\ q = p').
Proof.
  intros. apply in_mid in H. destruct H as [H|H]; [right; injection H; auto|left; apply in_mid; auto].
Qed.

Theorem quiet_step : forall x es e y, quiet x es -> step W x e y ->
  (forall n, e = Arrive n -> fair n) -> (forall t, e <> Wrote u t) -> quiet y (es ++ [e]).
Proof.
  intros x es e y Q St Fr Ds. destruct St.
  - (* arrive *)
    destruct (Fr n eq_refl) as [Fl Fc]. destruct Q as [q1 [q2 [q3 [q4 [q5 q6]]]]]. unfold quiet.
    rewrite notes_arrive. cbn [srv busy hs] in *. split; [auto|]. split; [auto|]. split; [|split; [auto|split; [auto|]]].
    + intros m p i. apply in_app_or in i. destruct i as [i|[i|[]]]; [exact (q3 m p i)|]. injection i as <- <-.
      split; auto. split.
      * destruct n; cbn; auto. apply Fc. reflexivity.
      * intros j E. destruct n; discriminate.
    + intros [cs [c [i k]]]. apply in_app_or in i. destruct i as [i|[i|[]]].
      * destruct q6 as [a|[[m [p [i' k']]]|a]]; [exists cs, c; auto|auto| |right; right; auto].
        right; left. exists m, p. split; auto. cbn. apply in_or_app. auto.
      * subst n. right; left. exists (Watched cs), (Looping cs false). cbn. split; [apply in_or_app; cbn; auto|].
        apply in_map_iff. exists (u, c). auto.
  - (* disk *)
    assert (N : u0 <> u) by (intros ->; now apply (Ds t)).
    destruct Q as [q1 [q2 [q3 [q4 [q5 q6]]]]]. unfold quiet. rewrite notes_other by reflexivity. cbn [srv busy hs] in *.
    refine (conj q1 (conj _ (conj q3 (conj q4 (conj q5 q6))))). cbn. now rewrite set_ne by auto.
  - (* start *)
    assert (Nu : locks n <> Some u) by (apply Q with (p := Waiting); apply in_mid; auto).
    destruct (start_other s n Nu) as [E1 [E2 [E3 E4]]].
    eapply quiet_same; [exact Q|cbn; auto..| | | |].
    + now rewrite E4.
    + cbn. intros m p i. rewrite !in_app_iff in *. cbn. destruct i as [i|[i|i]]; [auto| |auto].
      right. destruct (snd (start W s n)) as [q|] eqn:E; [|easy]. destruct i as [i|[]]. injection i as -> ->.
      destruct (kept_phase _ _ _ _ E) as [j ->]. split; [auto|]. split; [exact Logic.I|].
      intros j' Ej. injection Ej as <-. apply kept_locks in E. congruence.
    + cbn. auto.
    + cbn. auto.
    + intros [[m [p [i k]]]|[c [t []]]]. left. cbn in *. apply in_mid in i. destruct i as [i|i]; [injection i as -> ->; easy|].
      exists m, p. split; auto. rewrite !in_app_iff in *. tauto.
  - (* work *)
    assert (Nj : ju j <> u).
    { destruct Q as [_ [_ [q3 _]]]. apply (q3 n (Analysing (Some j))); [cbn; apply in_mid; auto|reflexivity]. }
    assert (Nu : locks n <> Some u) by (apply Q with (p := Analysing (Some j)); apply in_mid; auto).
    destruct (job_other s j Nj) as [E1 [E2 [E3 E4]]].
    eapply quiet_same; [exact Q|cbn; auto..| | | |].
    + now rewrite E4.
    + cbn. intros m p i. apply (mid_old _ _ (Analysing (Some j))) in i. destruct i as [i|[-> ->]]; [auto|right].
      split; [auto|]. split; [exact Logic.I|]. intros j' E. injection E as E. apply job_step_u in E. congruence.
    + cbn. auto.
    + cbn. auto.
    + intro O. eapply owed_mid; eauto.
  - (* fail *)
    assert (Nu : locks n <> Some u) by (apply Q with (p := Analysing (Some j)); apply in_mid; auto).
    eapply quiet_same; [exact Q|cbn; auto..|].
    + cbn. intros m p i. apply (mid_old _ _ (Analysing (Some j))) in i. destruct i as [i|[-> ->]]; [auto|right].
      split; [auto|]. split; [exact Logic.I|]. discriminate.
    + intro O. eapply owed_mid; eauto.
  - (* main *)
    destruct k as [j|w t c].
    + assert (Nj : ju j <> u).
      { destruct Q as [_ [_ [_ [q4 _]]]]. apply q4. cbn. auto. }
      destruct (job_other s j Nj) as [E1 [E2 [E3 E4]]]. cbn [task_step fst snd].
      eapply quiet_same; [exact Q|cbn; auto..| | | |].
      * now rewrite E4.
      * cbn. auto.
      * cbn. intros j' i. destruct (snd (job_step W s j)) as [j2|] eqn:E; cbn in i; [|auto].
        destruct i as [i|i]; [|auto]. injection i as <-. right. apply job_step_u in E. congruence.
      * cbn. intros t c i. destruct (snd (job_step W s j)); cbn in i; [destruct i as [i|i]; [discriminate|]|]; auto.
      * intros [O|[c [t [i|i]]]]; [left; auto|discriminate|right]. exists c, t. cbn.
        destruct (snd (job_step W s j)); cbn; auto.
    + destruct (uri_dec w u) as [->|N].
      * destruct Q as [q1 [q2 [q3 [q4 [q5 q6]]]]]. unfold quiet. rewrite notes_other by reflexivity. cbn [srv busy hs] in *.
        destruct (q5 t c (or_introl eq_refl)) as [Et Fc].
        destruct c; cbn [task_step fst snd pushed].
        -- split; [auto|]. split; [auto|]. split; [auto|]. split; [|split].
           ++ intros j [i|i]; [discriminate|]. apply q4. cbn; auto.
           ++ intros t' c' i. cbn. rewrite set_eq. destruct i as [i|i].
              ** injection i as -> <-. auto.
              ** destruct (q5 t' c') as [E' _]; [cbn; auto|]. split; auto. intros _. congruence.
           ++ intros _. right; right. exists CSeed, t. cbn. auto.
        -- assert (Ft := Fc ltac:(discriminate)).
           split; [auto|]. split; [auto|]. split; [auto|]. split; [|split].
           ++ intros j [i|i]; [discriminate|]. apply q4. cbn; auto.
           ++ intros t' c' i. cbn. destruct i as [i|i].
              ** injection i as -> <-. auto.
              ** apply (q5 t' c'). cbn; auto.
           ++ intros _. right; right. exists CFacts, t. cbn. auto.
        -- assert (Ft := Fc ltac:(discriminate)).
           split; [auto|]. split; [auto|]. split; [auto|]. split; [|split].
           ++ intros j i. apply q4. cbn; auto.
           ++ intros t' c' i. apply (q5 t' c'). cbn; auto.
           ++ intros _. left. unfold agreed. rewrite <- Et. cbn. rewrite set_eq. auto.
      * eapply quiet_same; [exact Q|..].
        -- destruct c; reflexivity.
        -- destruct c; cbn; rewrite ?set_ne by auto; auto.
        -- destruct c; cbn; rewrite ?set_ne by auto; auto.
        -- destruct c; reflexivity.
        -- cbn. auto.
        -- cbn. intros j i. left. destruct c; cbn in i; try (destruct i as [i|i]; [discriminate|]); auto.
        -- cbn. intros t' c' i. destruct c; cbn in i; try (destruct i as [i|i]; [congruence|]); auto.
        -- intros [O|[c' [t' [i|i]]]]; [left; auto|congruence|right]. exists c', t'. destruct c; cbn; auto.
  - (* main fails *)
    eapply quiet_same; [exact Q|cbn; auto..|].
    intros [O|[c [t [i|i]]]]; [left; auto|discriminate|right]. exists c, t. auto.
  - (* opened *)
    eapply quiet_same; [exact Q|cbn; auto..| | | |].
    + cbn. intros m p i. left. apply in_mid. auto.
    + cbn. intros j i. right. apply refresh_in in i. destruct i as [i _]. apply H in i. destruct i as [_ [i _]].
      intros E. destruct Q as [q1 _]. cbn in q1. unfold is_open in i. rewrite E in i. auto.
    + cbn. intros t' c i. exfalso. eapply colof_refresh. exists t'. apply i.
    + intro O. eapply owed_out; eauto. easy.
  - (* changed *)
    eapply quiet_same; [exact Q|cbn; auto..| | | |].
    + cbn. intros m p i. left. apply in_mid. auto.
    + cbn. intros j i. right. apply refresh_in in i. destruct i as [i _].
      assert (i2 : In (ju j) us) by (rewrite <- (firstn_skipn max_refresh us); apply in_or_app; auto).
      apply H in i2. destruct i2 as [_ [i2 _]].
      intros E. destruct Q as [q1 _]. cbn in q1. unfold is_open in i2. rewrite E in i2. auto.
    + cbn. intros t' c i. exfalso. eapply colof_refresh. exists t'. apply i.
    + intro O. eapply owed_out; eauto. easy.
  - (* unchanged *)
    eapply quiet_same; [exact Q|cbn; auto..|].
    + cbn. intros m p i. left. apply in_mid. auto.
    + intro O. eapply owed_out; eauto.
  - (* saved *)
    eapply quiet_same; [exact Q|cbn; auto..|].
    + cbn. intros m p i. left. apply in_mid. auto.
    + intro O. eapply owed_out; eauto.
  - (* skip *)
    assert (X : locks n <> Some u /\ told (Looping ((u0, c) :: cs) f)).
    { destruct Q as [_ [_ [q3 _]]]. destruct (q3 n (Looping ((u0, c) :: cs) f)) as [A [B _]]; [cbn; apply in_mid; auto|auto]. }
    assert (N : u0 <> u).
    { intros ->. destruct H as [H|H]; [congruence|]. destruct Q as [q1 _]. cbn in q1. auto. }
    eapply quiet_same; [exact Q|cbn; auto..|].
    + cbn. intros m p i. apply (mid_old _ _ (Looping ((u0, c) :: cs) f)) in i. destruct i as [i|[-> ->]]; [auto|right].
      split; [apply X|]. split; [|discriminate]. cbn. intro k. apply X. cbn; auto.
    + intro O. eapply owed_mid; eauto. cbn. intuition congruence.
  - (* rbs *)
    assert (X : locks n <> Some u /\ told (Looping ((u0, c) :: cs) f)).
    { destruct Q as [_ [_ [q3 _]]]. destruct (q3 n (Looping ((u0, c) :: cs) f)) as [A [B _]]; [cbn; apply in_mid; auto|auto]. }
    assert (N : u0 <> u) by (intros ->; congruence).
    eapply quiet_same; [exact Q|cbn; rewrite ?set_ne by auto; auto..|].
    + cbn. intros m p i. apply (mid_old _ _ (Looping ((u0, c) :: cs) f)) in i. destruct i as [i|[-> ->]]; [auto|right].
      split; [apply X|]. split; [|discriminate]. cbn. intro k. apply X. cbn; auto.
    + intro O. eapply owed_mid; eauto. cbn. intuition congruence.
  - (* gone *)
    assert (X : locks n <> Some u /\ told (Looping ((u0, c) :: cs) f)).
    { destruct Q as [_ [_ [q3 _]]]. destruct (q3 n (Looping ((u0, c) :: cs) f)) as [A [B _]]; [cbn; apply in_mid; auto|auto]. }
    destruct (uri_dec u0 u) as [->|N].
    + destruct H2 as [->|H2]; [|congruence].
      assert (Rn : r = None) by (apply X; cbn; auto).
      destruct (clear_docs is_project s u) as [D1 D2]. destruct Q as [q1 [q2 [q3 [q4 [q5 q6]]]]].
      unfold quiet. rewrite notes_other by reflexivity. cbn [srv busy hs] in *. rewrite D1, D2.
      split; [auto|]. split; [auto|]. split; [|split; [auto|split; [easy|]]].
      * intros m p i. apply (mid_old _ _ (Looping ((u, Deleted) :: cs) f)) in i. destruct i as [i|[-> ->]]; [auto|].
        split; [apply X|]. split; [|discriminate]. cbn. auto.
      * intros _. left. now apply clear_agreed.
    + destruct (clear_other is_project s u0 N) as [E1 [E2 [E3 E4]]].
      eapply quiet_same; [exact Q|cbn; auto..| | | |].
      * now rewrite E4.
      * cbn. intros m p i. apply (mid_old _ _ (Looping ((u0, c) :: cs) f)) in i. destruct i as [i|[-> ->]]; [auto|right].
        split; [apply X|]. split; [|discriminate]. cbn. intro k. apply X. cbn; auto.
      * cbn. auto.
      * cbn. auto.
      * intro O. eapply owed_mid; eauto. cbn. intuition congruence.
  - (* read *)
    assert (X : locks n <> Some u /\ told (Looping ((u0, c) :: cs) f)).
    { destruct Q as [_ [_ [q3 _]]]. destruct (q3 n (Looping ((u0, c) :: cs) f)) as [A [B _]]; [cbn; apply in_mid; auto|auto]. }
    eapply quiet_same; [exact Q|cbn; auto..|].
    + cbn. intros m p i. apply (mid_old _ _ (Looping ((u0, c) :: cs) f)) in i. destruct i as [i|[-> ->]]; [auto|right].
      split; [apply X|]. split; [|discriminate]. cbn. intro k. apply X. cbn; auto.
    + intro O. eapply owed_mid; eauto.
  - (* bytes *)
    assert (X : locks n <> Some u /\ told (Reading u0 cs f)).
    { destruct Q as [_ [_ [q3 _]]]. destruct (q3 n (Reading u0 cs f)) as [A [B _]]; [cbn; apply in_mid; auto|auto]. }
    eapply quiet_same; [exact Q|cbn; auto..|].
    + cbn. intros m p i. apply (mid_old _ _ (Reading u0 cs f)) in i. destruct i as [i|[-> ->]]; [auto|right].
      split; [apply X|]. split; [|discriminate]. cbn. split; [|apply X]. intros ->. apply Q.
    + intro O. eapply owed_mid; eauto.
  - (* collect *)
    assert (X : locks n <> Some u /\ told (HasRead u0 (Some t) cs f)).
    { destruct Q as [_ [_ [q3 _]]]. destruct (q3 n (HasRead u0 (Some t) cs f)) as [A [B _]]; [cbn; apply in_mid; auto|auto]. }
    destruct (uri_dec u0 u) as [->|N].
    + destruct Q as [q1 [q2 [q3 [q4 [q5 q6]]]]]. unfold quiet. rewrite notes_other by reflexivity. cbn [srv busy hs] in *.
      split; [auto|]. split; [auto|]. split; [|split; [|split]].
      * intros m p i. apply (mid_old _ _ (HasRead u (Some t) cs f)) in i. destruct i as [i|[-> ->]]; [auto|].
        split; [apply X|]. split; [|discriminate]. cbn. apply X.
      * intros j [i|[]]. discriminate.
      * intros t' c' [i|[]]. injection i as <- <-. split; [symmetry; symmetry; apply X; auto|congruence].
      * intros _. right; right. exists CRegister, t. cbn. auto.
    + eapply quiet_same; [exact Q|cbn; auto..| | | |].
      * cbn. intros m p i. apply (mid_old _ _ (HasRead u0 (Some t) cs f)) in i. destruct i as [i|[-> ->]]; [auto|right].
        split; [apply X|]. split; [|discriminate]. cbn. apply X.
      * cbn. intros j [i|[]]. discriminate.
      * cbn. intros t' c' [i|[]]. congruence.
      * intro O. assert (O' : owed (State s [] (l1 ++ (n, Looping cs true) :: l2))).
        { eapply owed_mid; eauto. cbn. intuition congruence. }
        destruct O' as [O'|[c' [t' []]]]. left. exact O'.
  - (* missing *)
    assert (X : locks n <> Some u /\ told (HasRead u0 None cs f)).
    { destruct Q as [_ [_ [q3 _]]]. destruct (q3 n (HasRead u0 None cs f)) as [A [B _]]; [cbn; apply in_mid; auto|auto]. }
    destruct (uri_dec u0 u) as [->|N].
    + assert (Rn : r = None) by (symmetry; apply X; auto).
      destruct (clear_docs is_project s u) as [D1 D2]. destruct Q as [q1 [q2 [q3 [q4 [q5 q6]]]]].
      unfold quiet. rewrite notes_other by reflexivity. cbn [srv busy hs] in *. rewrite D1, D2.
      split; [auto|]. split; [auto|]. split; [|split; [auto|split; [easy|]]].
      * intros m p i. apply (mid_old _ _ (HasRead u None cs f)) in i. destruct i as [i|[-> ->]]; [auto|].
        split; [apply X|]. split; [|discriminate]. cbn. auto.
      * intros _. left. now apply clear_agreed.
    + destruct (clear_other is_project s u0 N) as [E1 [E2 [E3 E4]]].
      eapply quiet_same; [exact Q|cbn; auto..| | | |].
      * now rewrite E4.
      * cbn. intros m p i. apply (mid_old _ _ (HasRead u0 None cs f)) in i. destruct i as [i|[-> ->]]; [auto|right].
        split; [apply X|]. split; [|discriminate]. cbn. intro k. apply X. cbn; auto.
      * cbn. auto.
      * cbn. auto.
      * intro O. eapply owed_mid; eauto. cbn. intuition congruence.
  - (* watched *)
    eapply quiet_same; [exact Q|cbn; auto..| | | |].
    + cbn. intros m p i. left. apply in_mid. auto.
    + cbn. intros j i. right. apply refresh_in in i. destruct i as [i _]. apply H in i. destruct i as [i _].
      intros E. destruct Q as [q1 _]. cbn in q1. unfold is_open in i. rewrite E in i. auto.
    + cbn. intros t' c i. exfalso. eapply colof_refresh. exists t'. apply i.
    + intro O. eapply owed_out; eauto. easy.
  - (* watched nothing *)
    eapply quiet_same; [exact Q|cbn; auto..|].
    + cbn. intros m p i. left. apply in_mid. auto.
    + intro O. eapply owed_out; eauto.
Qed.

Theorem quiet_run : forall x es y, at_rest x -> docs (srv x) u = None -> disk (srv x) u = r -> run W x es y ->
  (forall n, In (Arrive n) es -> fair n) -> (forall t, ~ In (Wrote u t) es) -> quiet y es.
Proof.
  intros x es y [Rb Rh] Dn Dk R. induction R; intros Fr Ds.
  - destruct x as [s b l]. cbn in *. subst b l. unfold quiet. cbn. repeat split; try easy; auto.
    intros [cs [c [[] _]]].
  - eapply quiet_step; eauto.
    + apply IHR; auto.
      * intros n i. apply Fr. apply in_or_app. auto.
      * intros t i. apply (Ds t). apply in_or_app. auto.
    + intros n ->. apply Fr. apply in_or_app. cbn; auto.
    + intros t ->. apply (Ds t). apply in_or_app. cbn; auto.
Qed.
End Closed.
