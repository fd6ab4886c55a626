(** C95 Folders, projects and documents. *)
From Coq Require Import List Bool Arith Lia.
From Verif Require Import Sort_Lib Projects_Model Projects_Spec Projects_Proofs Projects_Props Folders_Proofs.
Import ListNotations.

(** A project is registered exactly while an open folder holds it. *)
Theorem C95_registered h r :
  (exists p, In p (projects (run h)) /\ proot p = r) <-> exists f, held h f r.
Proof.
  split.
  - intros (p & Hp & <-). pose proof (sd_folders _ (run_sound h) p Hp) as N.
    destruct (pfolders p) as [|f l] eqn:E; [congruence|]. exists f. apply has_held. exists p. rewrite E. cbn. auto.
  - intros [f H]. apply has_held in H as (p & Hp & Hr & _). eauto.
Qed.
Print Assumptions C95_registered.

(** Projects are registered once, and no two share an engine. *)
Theorem C95_isolated h p q : In p (projects (run h)) -> In q (projects (run h)) ->
  proot p = proot q \/ pengine p = pengine q -> p = q.
Proof.
  pose proof (run_sound h) as [_ H1 H2 _]. revert H1 H2. generalize (projects (run h)). intros l.
  induction l as [|x l IH]; intros H1 H2 Hp Hq E; [contradiction|].
  inversion H1 as [|? ? N1 H1']; subst. inversion H2 as [|? ? N2 H2']; subst.
  destruct Hp as [<-|Hp]; destruct Hq as [<-|Hq]; auto; exfalso; destruct E as [E|E].
  - apply N1. rewrite E. now apply in_map.
  - apply N2. rewrite E. now apply in_map.
  - apply N1. rewrite <- E. now apply in_map.
  - apply N2. rewrite <- E. now apply in_map.
Qed.
Print Assumptions C95_isolated.

(** A document belongs to the innermost registered project around it. *)
Theorem C95_nearest h doc :
  (forall p, workspace_for (run h) doc = Some p <-> nearest (projects (run h)) doc p) /\
  (workspace_for (run h) doc = None <-> forall p, In p (projects (run h)) -> ~ inside doc (proot p)).
Proof.
  split; [intros p; apply workspace_some; apply run_sound|apply workspace_none].
Qed.
Print Assumptions C95_nearest.

(** ** Engines *)
(** What is there now was there before, or has a new engine. *)
Definition grown (s s' : server) : Prop :=
  next_engine s <= next_engine s' /\
  forall p', In p' (projects s') ->
    (exists p, In p (projects s) /\ proot p = proot p' /\ pengine p = pengine p') \/ next_engine s <= pengine p'.
Lemma grown_refl s : grown s s.
Proof. split; [lia|]. intros p Hp. left. eauto. Qed.
Lemma grown_trans a b c : grown a b -> grown b c -> grown a c.
Proof.
  intros [L1 H1] [L2 H2]. split; [lia|]. intros p Hp. destruct (H2 p Hp) as [(q & Hq & E1 & E2)|L]; [|right; lia].
  destruct (H1 q Hq) as [(q' & Hq' & E1' & E2')|L]; [left; exists q'; split; [exact Hq'|split; congruence]|right; lia].
Qed.
Lemma add_project_grown f s r : grown s (add_project f s r).
Proof.
  unfold add_project. destruct (existsb _ (projects s)); split; cbn [projects next_engine]; try lia; intros p Hp.
  - apply own_in in Hp as [Hp|(q & Hq & _ & ->)]; left; [eauto|exists q; auto].
  - apply in_app_iff in Hp as [Hp|[<-|[]]]; [left; eauto|right; cbn; lia].
Qed.
Lemma apply_grown s e : grown s (apply s e).
Proof.
  destruct (about_folders e) eqn:A.
  - destruct e; try discriminate; cbn [apply].
    + unfold add_folder. destruct found as [l|]; [|apply grown_refl]. clear A. revert s.
      induction l as [|r l IH]; intros s; [apply grown_refl|]. cbn [fold_left].
      eapply grown_trans; [apply add_project_grown|apply IH].
    + split; cbn; [lia|]. intros p Hp. apply filter_In in Hp as [Hp _]. apply in_map_iff in Hp as (q & <- & Hq). left. eauto.
  - destruct (apply_projects s e A) as [E1 E2]. split; rewrite ?E1, ?E2; [lia|]. intros p Hp. left. eauto.
Qed.
Lemma run_grown h h' : grown (run h) (run (h ++ h')).
Proof.
  induction h' as [|e h' IH] using rev_ind; [rewrite app_nil_r; apply grown_refl|].
  rewrite app_assoc, run_snoc. eapply grown_trans; [exact IH|apply apply_grown].
Qed.
Lemma same_after (h : list event) e r p p' : In p (projects (run h)) -> proot p = r ->
  In p' (projects (run (h ++ [e]))) -> proot p' = r -> pengine p' = pengine p.
Proof.
  intros Hp Hr Hp' Hr'. rewrite run_snoc in Hp'. destruct (about_folders e) eqn:A.
  - pose proof (run_sound h) as Hs. remember (run h) as s eqn:Es. clear Es.
    assert (Huniq : forall q, In q (projects s) -> proot q = r -> q = p).
    { intros q Hq Eq. destruct Hs as [_ ND _ _]. revert ND Hp Hq. generalize (projects s). intros l.
      induction l as [|x l IH]; intros ND Hp Hq; [contradiction|]. inversion ND as [|? ? N ND']; subst.
      destruct Hp as [<-|Hp]; destruct Hq as [<-|Hq]; auto; exfalso; apply N.
      - rewrite <- Eq. now apply in_map.
      - rewrite Eq. now apply in_map. }
    assert (Hkeep : forall f l s', (forall q, In q (projects s') -> proot q = r -> pengine q = pengine p) ->
               (exists q, In q (projects s') /\ proot q = r) ->
               forall q, In q (projects (fold_left (add_project f) l s')) -> proot q = r -> pengine q = pengine p).
    { intros f l. induction l as [|x l IH]; intros s' H1 H2 q Hq Eq; [now apply H1|]. cbn [fold_left] in Hq.
      revert q Hq Eq. apply IH.
      - intros q Hq Eq. unfold add_project in Hq. destruct (existsb (fun p => path_eqb (proot p) x) (projects s')) eqn:X; cbn [projects] in Hq.
        + apply own_in in Hq as [Hq|(q' & Hq' & _ & ->)]; [now apply H1|]. cbn in *. now apply H1.
        + apply in_app_iff in Hq as [Hq|[<-|[]]]; [now apply H1|]. cbn in Eq. subst x. exfalso.
          destruct H2 as (q' & Hq' & Eq'). enough (existsb (fun p => path_eqb (proot p) r) (projects s') = true) by congruence.
          apply existsb_exists. exists q'. split; [exact Hq'|now apply path_eqb_spec].
      - destruct H2 as (q' & Hq' & Eq').
        assert (HI : In r (map proot (projects (add_project f s' x)))).
        { unfold add_project. destruct (existsb _ (projects s')); cbn [projects].
          - rewrite own_roots. rewrite <- Eq'. now apply in_map.
          - rewrite map_app. apply in_app_iff. left. rewrite <- Eq'. now apply in_map. }
        apply in_map_iff in HI as (z & Ez & Hz). eauto. }
    destruct e; try discriminate; cbn [apply] in Hp'.
    + unfold add_folder in Hp'. destruct found as [l|].
      * apply (Hkeep f l s); [|exists p; auto|exact Hp'|exact Hr']. intros q Hq Eq. now rewrite (Huniq q Hq Eq).
      * now rewrite (Huniq p' Hp' Hr').
    + unfold remove_folder in Hp'. cbn [projects] in Hp'. apply filter_In in Hp' as [Hp' _].
      apply in_map_iff in Hp' as (q & <- & Hq). cbn [proot pengine] in *. now rewrite (Huniq q Hq Hr').
  - rewrite (proj1 (apply_projects (run h) e A)) in Hp'.
    pose proof (C95_isolated h p p' Hp Hp' (or_introl (eq_trans Hr (eq_sym Hr')))) as ->. reflexivity.
Qed.

(** A project keeps its engine, with everything indexed in it, as long as some open folder holds it: opening
    and closing other folders around it changes nothing. *)
Theorem C95_engine_kept h h' p : In p (projects (run h)) ->
  (forall h1 h2, h' = h1 ++ h2 -> exists f, held (h ++ h1) f (proot p)) ->
  exists p', In p' (projects (run (h ++ h'))) /\ proot p' = proot p /\ pengine p' = pengine p.
Proof.
  intros Hp. induction h' as [|e h' IH] using rev_ind; intros Hh; [rewrite app_nil_r; eauto|].
  destruct IH as (q & Hq & Er & Ee); [intros h1 h2 ->; apply (Hh h1 (h2 ++ [e])); now rewrite app_assoc|].
  destruct (proj2 (C95_registered (h ++ h' ++ [e]) (proot p))) as (p' & Hp' & Er'); [apply (Hh (h' ++ [e]) []); now rewrite app_nil_r|].
  exists p'. split; [exact Hp'|]. split; [exact Er'|]. rewrite <- Ee. rewrite app_assoc in Hp'.
  eapply same_after; eauto.
Qed.
Print Assumptions C95_engine_kept.

(** Once no open folder holds it any more its engine is gone for good. *)
Theorem C95_engine_dropped h h1 h2 p p' : In p (projects (run h)) -> ~ (exists f, held (h ++ h1) f (proot p)) ->
  In p' (projects (run (h ++ h1 ++ h2))) -> pengine p' <> pengine p.
Proof.
  intros Hp Hn Hp'. rewrite app_assoc in Hp'. destruct (run_grown (h ++ h1) h2) as [_ H].
  pose proof (run_grown h h1) as [L HG]. pose proof (sd_next _ (run_sound h) p Hp) as Lp.
  destruct (H p' Hp') as [(q & Hq & Er & Ee)|Hl]; [|lia].
  intros E. rewrite <- C95_registered in Hn. apply Hn.
  destruct (HG q Hq) as [(q0 & Hq0 & E1 & E2)|Hl]; [|lia].
  assert (q0 = p) as -> by (apply (C95_isolated h); auto; right; congruence).
  exists q. split; [exact Hq|congruence].
Qed.
Print Assumptions C95_engine_dropped.

(** ** Open documents follow their folder *)
Lemma folders_inside h : Forall found_inside h -> forall p f, In p (projects (run h)) -> In f (pfolders p) -> inside (proot p) f.
Proof.
  intros Hf p f Hp Hi. assert (H : held h f (proot p)) by (apply has_held; exists p; auto).
  destruct H as (h1 & l & h2 & -> & Hr & _). apply Forall_app in Hf as [_ Hf]. inversion Hf as [|? ? H _]; subst.
  cbn in H. exact (proj1 (Forall_forall _ _) H _ Hr).
Qed.
Lemma own_around doc r f l : ~ inside doc r -> filter (around doc) (own r f l) = filter (around doc) l.
Proof.
  intros N. induction l as [|q l IH]; [reflexivity|]. cbn [own]. destruct (path_eqb (proot q) r) eqn:E.
  - apply path_eqb_spec in E. cbn [filter].
    assert (A : starts_with doc (proot q) = false) by (rewrite E; now apply starts_with_false).
    unfold around. cbn [proot]. now rewrite A.
  - cbn [filter]. now rewrite IH.
Qed.
Lemma add_around doc f l : forall s, Forall (fun r => inside r f) l -> ~ inside doc f ->
  filter (around doc) (projects (fold_left (add_project f) l s)) = filter (around doc) (projects s).
Proof.
  induction l as [|r l IH]; intros s Hl N; [reflexivity|]. inversion Hl as [|? ? Hr Hl']; subst. cbn [fold_left].
  rewrite IH; auto. assert (N' : ~ inside doc r) by (intros X; apply N; eapply inside_trans; eauto).
  unfold add_project. destruct (existsb _ (projects s)); cbn [projects]; [now apply own_around|].
  rewrite filter_app. cbn [filter]. unfold around at 2. cbn [proot]. apply starts_with_false in N'. rewrite N'. apply app_nil_r.
Qed.
Lemma remove_around doc f s : (forall p g, In p (projects s) -> In g (pfolders p) -> inside (proot p) g) ->
  (forall p, In p (projects s) -> pfolders p <> []) -> ~ inside doc f ->
  filter (around doc) (projects (remove_folder s f)) = filter (around doc) (projects s).
Proof.
  intros HF HN N. unfold remove_folder. cbn [projects]. revert HF HN. generalize (projects s). intros l.
  induction l as [|p l IH]; intros HF HN; [reflexivity|].
  specialize (IH (fun q g Hq => HF q g (or_intror Hq)) (fun q Hq => HN q (or_intror Hq))).
  assert (HP : around doc p = true -> remove_folder_from f (pfolders p) = pfolders p).
  { intros Ha. apply starts_with_inside in Ha. unfold remove_folder_from. 
    assert (HG : forall g, In g (pfolders p) -> negb (path_eqb f g) = true).
    { intros g Hg. apply negb_true_iff, path_eqb_false. intros ->. apply N. eapply inside_trans; [exact Ha|]. apply HF; [now left|exact Hg]. }
    revert HG. generalize (pfolders p). intros fs. induction fs as [|g fs IHf]; intros HG; [reflexivity|]. cbn [filter].
    rewrite (HG g (or_introl eq_refl)). f_equal. apply IHf. intros g' Hg'. apply HG. now right. }
  cbn [map filter]. destruct (around doc p) eqn:A.
  - rewrite (HP eq_refl). specialize (HN p (or_introl eq_refl)).
    replace (mkProject (proot p) (pengine p) (pfolders p)) with p by now destruct p.
    destruct (pfolders p) eqn:E; [congruence|]. cbn [filter]. rewrite A. f_equal. exact IH.
  - cbn [pfolders]. destruct (remove_folder_from f (pfolders p)); [exact IH|]. cbn [filter]. unfold around at 1. cbn [proot].
    unfold around in A. rewrite A. exact IH.
Qed.
Lemma event_around doc h e : Forall found_inside (h ++ [e]) ->
  (forall f found, e = Add f found -> ~ inside doc f) -> (forall f, e = Remove f -> ~ inside doc f) ->
  filter (around doc) (projects (run (h ++ [e]))) = filter (around doc) (projects (run h)).
Proof.
  intros Hf Ha Hr. rewrite run_snoc. apply Forall_app in Hf as [Hf He]. inversion He as [|? ? He' _]; subst.
  destruct (about_folders e) eqn:A; [|now rewrite (proj1 (apply_projects (run h) e A))].
  destruct e; try discriminate; cbn [apply].
  - unfold add_folder. destruct found as [l|]; [|reflexivity]. apply add_around; [exact He'|eapply Ha; reflexivity].
  - apply remove_around; [now apply folders_inside|apply run_sound|now apply Hr].
Qed.
Lemma change_is_run h removed added :
  change_folders (run h) removed added = run (h ++ map Remove removed ++ map (fun e => Add (fst e) (snd e)) added).
Proof.
  unfold change_folders. rewrite app_assoc, !run_app.
  assert (E1 : forall l s, fold_left remove_folder l s = fold_left apply (map Remove l) s)
    by (intros l; induction l as [|x l IH]; intros s; [reflexivity|]; cbn; apply IH).
  assert (E2 : forall l s, fold_left (fun s' e => add_folder s' (fst e) (snd e)) l s =
                           fold_left apply (map (fun e => Add (fst e) (snd e)) l) s)
    by (intros l; induction l as [|x l IH]; intros s; [reflexivity|]; cbn; apply IH).
  now rewrite E1, E2.
Qed.

(** When folders change, exactly the open documents in them are opened anew; every other document keeps its
    project and engine. *)
Theorem C95_rehome h removed added docs doc :
  Forall found_inside h -> Forall (fun e => found_inside (Add (fst e) (snd e))) added -> In doc docs ->
  ~ In doc (to_rehome docs removed added) ->
  workspace_for (change_folders (run h) removed added) doc = workspace_for (run h) doc.
Proof.
  intros Hf Hadd Hd Hn.
  assert (Hno : forall f, In f (removed ++ map fst added) -> ~ inside doc f).
  { intros f Hin Hi. apply Hn. unfold to_rehome. apply filter_In. split; [exact Hd|]. apply existsb_exists.
    exists f. split; [exact Hin|now apply starts_with_inside]. }
  rewrite change_is_run. set (es := map Remove removed ++ map (fun e => Add (fst e) (snd e)) added).
  assert (Hes : forall e, In e es -> found_inside e /\ (forall f found, e = Add f found -> ~ inside doc f) /\ (forall f, e = Remove f -> ~ inside doc f)).
  { intros e He. apply in_app_iff in He as [He|He]; apply in_map_iff in He as (x & <- & Hx).
    - split; [exact Logic.I|]. split; [intros; discriminate|]. intros f E. injection E as <-. apply Hno, in_app_iff. now left.
    - split; [exact (proj1 (Forall_forall _ _) Hadd x Hx)|]. split; [|intros; discriminate].
      intros f found E. injection E as <- _. apply Hno, in_app_iff. right. now apply in_map. }
  clearbody es. unfold workspace_for. rewrite scan_filter, (scan_filter doc (projects (run h))). f_equal.
  induction es as [|e es IH] using rev_ind; [now rewrite app_nil_r|].
  assert (IH' : filter (around doc) (projects (run (h ++ es))) = filter (around doc) (projects (run h)))
    by (apply IH; intros x Hx; apply Hes, in_app_iff; now left).
  rewrite app_assoc, <- IH'. apply event_around.
  - apply Forall_app. split; [apply Forall_app; split; [exact Hf|]|].
    + apply Forall_forall. intros x Hx. apply Hes, in_app_iff. now left.
    + constructor; [apply Hes, in_app_iff; right; now left|constructor].
  - apply Hes, in_app_iff. right. now left.
  - apply Hes, in_app_iff. right. now left.
Qed.
Print Assumptions C95_rehome.
(** What the search finds lies in the folder, so without configured roots the condition holds. *)
Theorem C95_found_inside f t : found_inside (Add f (discover f t)).
Proof. cbn. destruct (discover f t) eqn:E; [|exact Logic.I]. now apply C94_inside in E. Qed.
Print Assumptions C95_found_inside.

(** ** Documents outside of all projects *)
Lemma lookup_forget doc d l : lookup doc (forget d l) = if path_eqb d doc then None else lookup doc l.
Proof.
  induction l as [|[x r] l IH]; cbn [forget filter lookup]; [now destruct (path_eqb d doc)|]. fold (forget d l). cbn [fst].
  destruct (path_eqb x d) eqn:E; cbn [negb].
  - apply path_eqb_spec in E as ->. rewrite IH. now destruct (path_eqb d doc).
  - cbn [lookup]. rewrite IH. destruct (path_eqb x doc) eqn:E2; [|reflexivity].
    apply path_eqb_spec in E2 as ->. destruct (path_eqb d doc) eqn:E3; [|reflexivity].
    apply path_eqb_spec in E3 as ->. now rewrite path_eqb_refl in E.
Qed.
Lemma lookup_filter doc root l r : lookup doc l = Some r -> r <> root ->
  lookup doc (filter (fun e => negb (path_eqb (snd e) root)) l) = Some r.
Proof.
  induction l as [|[x y] l IH]; cbn [lookup filter snd]; [discriminate|]. intros H N.
  destruct (path_eqb x doc) eqn:E.
  - injection H as ->. apply path_eqb_false in N. rewrite N. cbn [negb lookup]. now rewrite E.
  - destruct (negb (path_eqb y root)); [cbn [lookup]; rewrite E|]; auto.
Qed.
Lemma find_root h r : (exists p, In p (projects (run h)) /\ proot p = r) ->
  exists p, find (fun p => path_eqb (proot p) r) (projects (run h)) = Some p /\ In p (projects (run h)) /\ proot p = r.
Proof.
  intros (p & Hp & Er). destruct (find (fun p => path_eqb (proot p) r) (projects (run h))) as [q|] eqn:F.
  - exists q. apply find_some in F as [F1 F2]. apply path_eqb_spec in F2. auto.
  - exfalso. pose proof (find_none _ _ F p Hp) as N. cbn in N. rewrite Er, path_eqb_refl in N. discriminate.
Qed.
Lemma keeps_lookup h e doc from : keeps doc from e -> (exists p, In p (projects (run h)) /\ proot p = from) ->
  lookup doc (retained (run h)) = Some from -> lookup doc (retained (run (h ++ [e]))) = Some from.
Proof.
  intros Hk Hreg HL. rewrite run_snoc. destruct e; cbn [apply keeps] in *.
  - unfold add_folder. destruct found as [l|]; [|exact HL].
    assert (E : forall l s, retained (fold_left (add_project f) l s) = retained s); [|now rewrite E].
    clear. induction l as [|r l IH]; intros s; [reflexivity|]. cbn [fold_left]. rewrite IH. unfold add_project. now destruct (existsb _ _).
  - exact HL.
  - unfold context_for. destruct (workspace_for (run h) doc0); [exact HL|].
    destruct (lookup doc0 (retained (run h))) as [root|] eqn:L0; [|exact HL].
    destruct (find _ (projects (run h))) eqn:F; [exact HL|]. cbn [snd retained]. rewrite lookup_forget.
    destruct (path_eqb doc0 doc) eqn:E; [|exact HL]. apply path_eqb_spec in E as ->. exfalso.
    rewrite HL in L0. injection L0 as <-. destruct (find_root h from Hreg) as (p & F' & _). congruence.
  - destruct (find _ (projects (run h))); [|exact HL]. unfold retain. destruct (workspace_for (run h) doc0); [exact HL|].
    cbn [retained lookup]. rewrite lookup_forget. apply path_eqb_false in Hk. now rewrite Hk.
  - cbn [release retained]. rewrite lookup_forget. apply path_eqb_false in Hk. now rewrite Hk.
  - cbn [release_project retained]. apply lookup_filter; [exact HL|congruence].
Qed.

(** A document outside of all projects is shown with the project it was last reached from, as long as that
    project stays registered and is not rebuilt. *)
Theorem C95_reached_from h doc from h' knows : workspace_for (run h) doc = None ->
  (exists p, In p (projects (run h)) /\ proot p = from) ->
  Forall (keeps doc from) h' ->
  (forall h1 h2, h' = h1 ++ h2 -> exists f, held (h ++ Navigate doc from :: h1) f from) ->
  workspace_for (run (h ++ Navigate doc from :: h')) doc = None ->
  exists p, fst (context_for knows (run (h ++ Navigate doc from :: h')) doc) = Some p /\ proot p = from.
Proof.
  intros Hw Hreg Hk Hh Hw'.
  assert (HL : lookup doc (retained (run (h ++ Navigate doc from :: h'))) = Some from).
  { clear Hw'. induction h' as [|e h' IH] using rev_ind.
    - rewrite run_snoc. cbn [apply]. destruct (find_root h from Hreg) as (p & -> & _ & <-). unfold retain. rewrite Hw.
      cbn [retained lookup]. now rewrite path_eqb_refl.
    - apply Forall_app in Hk as [Hk He]. inversion He as [|? ? He' _]; subst.
      rewrite app_comm_cons, app_assoc. apply keeps_lookup; [exact He'| |].
      + apply C95_registered. apply (Hh h' [e]). reflexivity.
      + apply IH; [exact Hk|]. intros h1 h2 ->. apply (Hh h1 (h2 ++ [e])). now rewrite app_assoc. }
  unfold context_for. rewrite Hw', HL.
  destruct (find_root (h ++ Navigate doc from :: h') from) as (p & -> & _ & Er).
  - apply C95_registered. apply (Hh h' []). now rewrite app_nil_r.
  - exists p. now split.
Qed.
Print Assumptions C95_reached_from.

Lemma not_reached_lookup h doc : not_reached h doc -> lookup doc (retained (run h)) = None.
Proof.
  intros (h1 & h2 & Hh & Hn).
  assert (HS : forall l s, (forall from, ~ In (Navigate doc from) l) -> lookup doc (retained s) = None ->
             lookup doc (retained (fold_left apply l s)) = None).
  { induction l as [|e l IH]; intros s N HL; [exact HL|]. cbn [fold_left]. apply IH; [intros from X; apply (N from); now right|].
    destruct e; cbn [apply].
    - unfold add_folder. destruct found as [rs|]; [|exact HL].
      assert (E : forall rs s, retained (fold_left (add_project f) rs s) = retained s); [|now rewrite E].
      clear. induction rs as [|r l IH]; intros s; [reflexivity|]. cbn [fold_left]. rewrite IH. unfold add_project. now destruct (existsb _ _).
    - exact HL.
    - unfold context_for. destruct (workspace_for s doc0); [exact HL|]. destruct (lookup doc0 (retained s)); [|exact HL].
      destruct (find _ (projects s)); [exact HL|]. cbn [snd retained]. rewrite lookup_forget. now destruct (path_eqb doc0 doc).
    - destruct (find _ (projects s)); [|exact HL]. unfold retain. destruct (workspace_for s doc0); [exact HL|].
      cbn [retained lookup]. rewrite lookup_forget. destruct (path_eqb doc0 doc) eqn:E; [|exact HL].
      exfalso. apply path_eqb_spec in E as ->. apply (N from). now left.
    - cbn [release retained]. rewrite lookup_forget. now destruct (path_eqb doc0 doc).
    - cbn [release_project retained]. revert HL. generalize (retained s). intros r. induction r as [|[x y] r IHr]; [auto|].
      cbn [lookup filter snd]. destruct (path_eqb x doc) eqn:E; [discriminate|]. intros HL.
      destruct (negb (path_eqb y root)); [cbn [lookup]; rewrite E|]; auto. }
  destruct Hh as [->| ->].
  - unfold run. apply HS; [exact Hn|reflexivity].
  - rewrite run_app. cbn [fold_left]. apply HS; [exact Hn|]. cbn [apply release retained]. now rewrite lookup_forget, path_eqb_refl.
Qed.
Lemma only_owner_some knows doc l : forall o p, only_owner knows doc o l = Some p <->
  (o = Some p /\ forall q, In q l -> knows (pengine q) doc = false) \/
  (o = None /\ exists l1 l2, l = l1 ++ p :: l2 /\ knows (pengine p) doc = true /\
     forall q, In q (l1 ++ l2) -> knows (pengine q) doc = false).
Proof.
  induction l as [|x l IH]; intros o p; cbn [only_owner].
  - split; [intros ->; left; split; [reflexivity|intros q []]|].
    intros [[-> _]|[_ (l1 & l2 & E & _)]]; [reflexivity|destruct l1; discriminate].
  - destruct (knows (pengine x) doc) eqn:K; cbn [negb].
    + destruct o as [o|].
      * split; [discriminate|]. intros [[_ H]|[E _]]; [|discriminate]. rewrite (H x (or_introl eq_refl)) in K. discriminate.
      * rewrite IH. split.
        -- intros [[E H]|[E _]]; [|discriminate]. injection E as ->. right. split; [reflexivity|]. exists [], l. auto.
        -- intros [[E _]|[_ (l1 & l2 & E & Kp & H)]]; [discriminate|]. left. destruct l1 as [|y l1]; injection E as -> ->.
           ++ split; [reflexivity|exact H].
           ++ exfalso. rewrite (H y (or_introl eq_refl)) in K. discriminate.
    + rewrite IH. split.
      * intros [[-> H]|[-> (l1 & l2 & -> & Kp & H)]].
        -- left. split; [reflexivity|]. intros q [<-|Hq]; auto.
        -- right. split; [reflexivity|]. exists (x :: l1), l2. split; [reflexivity|]. split; [exact Kp|]. intros q [<-|Hq]; auto.
      * intros [[-> H]|[-> (l1 & l2 & E & Kp & H)]].
        -- left. split; [reflexivity|]. intros q Hq. apply H. now right.
        -- right. split; [reflexivity|]. destruct l1 as [|y l1]; injection E as -> ->; [congruence|].
           exists l1, l2. split; [reflexivity|]. split; [exact Kp|]. intros q Hq. apply H. now right.
Qed.

(** Otherwise it is shown with the only project that has indexed it, and with none if there are several. *)
Theorem C95_only_project h doc knows p : workspace_for (run h) doc = None -> not_reached h doc ->
  (fst (context_for knows (run h) doc) = Some p <->
   In p (projects (run h)) /\ knows (pengine p) doc = true /\
   forall q, In q (projects (run h)) -> knows (pengine q) doc = true -> q = p).
Proof.
  intros Hw Hn. unfold context_for. rewrite Hw, (not_reached_lookup h doc Hn). cbn [fst]. rewrite only_owner_some. split.
  - intros [[E _]|[_ (l1 & l2 & E & Kp & H)]]; [discriminate|]. rewrite E. split; [apply in_app_iff; right; now left|].
    split; [exact Kp|]. intros q Hq Kq. apply in_app_iff in Hq as [Hq|[<-|Hq]]; [|reflexivity|];
      rewrite (H q) in Kq; try discriminate; apply in_app_iff; auto.
  - intros (Hp & Kp & H). right. split; [reflexivity|]. apply in_split in Hp as (l1 & l2 & E). exists l1, l2.
    split; [exact E|]. split; [exact Kp|]. intros q Hq. destruct (knows (pengine q) doc) eqn:K; [|reflexivity]. exfalso.
    assert (Hq' : In q (projects (run h))) by (rewrite E; apply in_app_iff in Hq as [Hq|Hq]; apply in_app_iff; [now left|right; now right]).
    pose proof (H q Hq' K) as ->. pose proof (sd_roots _ (run_sound h)) as ND. rewrite E, map_app in ND. cbn [map] in ND.
    apply NoDup_remove_2 in ND. apply ND. rewrite <- map_app. now apply in_map.
Qed.
Print Assumptions C95_only_project.
(** A document in a project is shown with that project, wherever it was reached from. *)
Theorem C95_own_project h doc knows p : workspace_for (run h) doc = Some p ->
  context_for knows (run h) doc = (Some p, run h).
Proof. intros H. unfold context_for. now rewrite H. Qed.
Print Assumptions C95_own_project.

(** ** Example: folder [w] holds two projects; [w/x] is opened as well, then [w] is closed. *)
Definition gem_file : path := [[103]; [109]].
Definition pb : path := ws ++ [n_b]. Definition px : path := ws ++ [n_x; n_a].
Definition story : list event :=
  [Add ws (discover ws container); Add (ws ++ [n_x]) (discover (ws ++ [n_x]) (plain [(n_a, gem [])]));
   Navigate gem_file px; Remove ws].
Example C95_case :
  Forall found_inside story /\
  projects (run (firstn 2 story)) = [mkProject pb 0 [ws]; mkProject px 1 [ws; ws ++ [n_x]]] /\
  projects (run story) = [mkProject px 1 [ws ++ [n_x]]] /\
  held story (ws ++ [n_x]) px /\ ~ held story ws pb /\
  nearest (projects (run story)) (px ++ [[102]]) (mkProject px 1 [ws ++ [n_x]]) /\
  keeps gem_file px (Remove ws) /\
  fst (context_for (fun _ _ => false) (run story) gem_file) = Some (mkProject px 1 [ws ++ [n_x]]) /\
  not_reached (firstn 2 story) gem_file /\
  to_rehome [px ++ [[102]]; gem_file] [ws] [] = [px ++ [[102]]].
Proof.
  split; [repeat constructor; try (now exists [n_b]); try (now exists [n_x; n_a]); now exists [n_a]|].
  split; [reflexivity|]. split; [reflexivity|]. split.
  { exists [Add ws (discover ws container)], [px], [Navigate gem_file px; Remove ws]. split; [reflexivity|]. split; [now left|].
    cbn. intuition discriminate. }
  split.
  { intros H. apply has_held in H as (p & Hp & Er & _). cbn in Hp. destruct Hp as [<-|[]]. discriminate. }
  split; [apply workspace_some; [apply (run_sound story)|reflexivity]|].
  split; [exact Logic.I|]. split; [reflexivity|]. split; [|reflexivity].
  exists [], (firstn 2 story). split; [now left|]. intros from. cbn. intuition discriminate.
Qed.

(** ** Refuted: every open document whose project changes is opened anew.  A gem's file, reached from a
    project whose folder is closed, is left without project but not opened anew; so it has no facts left. *)
Theorem C95_rehome_external_refuted : exists h removed docs doc p, Forall found_inside h /\ In doc docs /\
  fst (context_for (fun _ _ => false) (run h) doc) = Some p /\
  fst (context_for (fun _ _ => false) (change_folders (run h) removed []) doc) = None /\
  ~ In doc (to_rehome docs removed []).
Proof.
  exists [Add ws (discover ws (gem [])); Navigate gem_file ws], [ws], [gem_file], gem_file, (mkProject ws 0 [ws]).
  split; [repeat constructor; apply inside_refl|]. split; [now left|]. split; [reflexivity|]. split; [reflexivity|].
  cbn. intros [].
Qed.
Print Assumptions C95_rehome_external_refuted.
(** Nor is a document in a configured project of a folder that was opened through a link. *)
Theorem C95_rehome_link_refuted : exists d f t configured docs doc p, In doc docs /\
  let added := [(f, discover_with d f t configured)] in
  workspace_for (run []) doc = None /\
  workspace_for (change_folders (run []) [] added) doc = Some p /\ ~ In doc (to_rehome docs [] added).
Proof.
  exists (mkDisk (fun p => Some (match p with [119] :: q => [114] :: q | _ => p end)) (fun _ => true)), ws, container, [[98]],
    [[[114]; n_b; [102]]], [[114]; n_b; [102]], (mkProject [[114]; n_b] 0 [ws]).
  split; [now left|]. split; [reflexivity|]. split; [reflexivity|]. cbn. intros [].
Qed.
Print Assumptions C95_rehome_link_refuted.
(** ** Refuted: a document outside of all projects keeps the project it was reached from.  Rebuilding the
    project, as a change of its Gemfile does, forgets it; if two projects use the gem it is left with none. *)
Theorem C95_rebuild_refuted : exists h doc root knows p, 
  fst (context_for knows (run h) doc) = Some p /\ proot p = root /\
  (exists f, held (h ++ [Rebuild root]) f root) /\
  fst (context_for knows (run (h ++ [Rebuild root])) doc) = None.
Proof.
  exists [Add ws (discover ws container); Navigate gem_file px], gem_file, px, (fun _ _ => true), (mkProject px 1 [ws]).
  split; [reflexivity|]. split; [reflexivity|]. split; [|reflexivity]. exists ws. apply has_held.
  exists (mkProject px 1 [ws]). split; [right; now left|]. split; [reflexivity|now left].
Qed.
Print Assumptions C95_rebuild_refuted.
