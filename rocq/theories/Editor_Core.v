(** What holds of the server, whatever is being analysed. *)
From Coq Require Import List Bool ZArith String Lia.
From Verif Require Import Editor_Model Editor_Spec.
Import ListNotations.

Lemma set_eq : forall A (f : uri -> A) u a, set f u a u = a.
Proof. intros. unfold set. now rewrite String.eqb_refl. Qed.
Lemma set_ne : forall A (f : uri -> A) u a w, w <> u -> set f u a w = f w.
Proof. intros A f u a w N. unfold set. destruct (String.eqb_spec w u); congruence. Qed.
Lemma uri_dec : forall a b : uri, a = b \/ a <> b.
Proof. intros a b. destruct (String.eqb_spec a b); auto. Qed.

Definition late (j : job) : bool :=
  match jstage j with PEmpty | PSeed | PFacts | PInsert | PMark => true | _ => false end.
Definition writes (j : job) : bool :=
  match jstage j with PRegister | PVersion | PEmpty | PSeed | PFacts => true | PCheck => jforced j | _ => false end.
Definition after (j : job) : bool := match jstage j with PInsert | PMark => true | _ => false end.
Definition fills (j : job) : bool :=
  match jstage j with PRegister | PVersion | PSeed | PFacts | PInsert => true | PCheck => jforced j | _ => false end.
Definition fits (W : world) (j : job) (d : doc) : Prop :=
  jt j = dtext d /\ (late j = true -> jver j = dversion d) /\ (jstage j = PMark -> dscopes d = Some (dtext d)) /\
  (jstage j = PEmpty -> broken W (jt j) = true) /\
  (jstage j = PSeed \/ jstage j = PFacts \/ after j = true -> broken W (jt j) = false).

Section Core.
Variable W : world.
Definition wanted (t : text) : held := if broken W t then Nothing else Full t.

Definition repaired (s : server) (A : job -> Prop) (fl : Prop) (wd : uri -> Prop) (u : uri) (t : text) : Prop :=
  facts s u = wanted t \/ (exists j, A j /\ ju j = u /\ writes j = true) \/ (fl /\ wd u /\ file_kind s u = Some Project).
Definition to_check (s : server) (A : job -> Prop) (u : uri) : Prop :=
  current s u = false /\ exists j, A j /\ ju j = u /\ jstage j = PCheck.
Definition relied (wd : uri -> Prop) (g : uri -> bool) (u : uri) (t : text) : Prop :=
  g u = true \/ (~ wd u /\ broken W t = false).

Record core (s : server) (A : job -> Prop) (col : uri -> cstage -> Prop) (fl : Prop) (wd : uri -> Prop)
  (g : uri -> bool) : Prop := Core {
  c_job : forall j, A j -> exists d, docs s (ju j) = Some d /\ fits W j d;
  c_ver : forall u d w, docs s u = Some d -> dindexed d = Some w -> (w <= dversion d)%Z;
  c_col : forall u c, col u c -> fl /\ wd u /\ (c <> CRegister -> file_kind s u = Some Project);
  c_facts : forall u d, docs s u = Some d -> ~ may_fail W u (dtext d) -> is_dependency (source_kind s u) = false ->
    relied wd g u (dtext d) ->
    repaired s A fl wd u (dtext d) \/
    (to_check s A u /\ forall j, A j -> ju j = u -> after j = false);
  c_reg : forall u d, docs s u = Some d -> ~ wd u -> exists k, files s u = Some (k, dtext d);
  c_closed : forall u t, docs s u = None -> ~ wd u -> files s u = Some (Project, t) -> ~ may_fail W u t ->
    broken W t = false -> facts s u = Full t;
  c_scope : forall u d, docs s u = Some d -> ~ may_fail W u (dtext d) -> g u = true -> broken W (dtext d) = false ->
    dscopes d = Some (dtext d) \/ (exists j, A j /\ ju j = u /\ fills j = true) \/ to_check s A u }.

(** *** Nothing but the set of analyses, the flag or the history changes *)
Lemma core_more : forall s A col fl wd g (A' : job -> Prop) (col' : uri -> cstage -> Prop) (fl' : Prop) (wd' : uri -> Prop),
  core s A col fl wd g ->
  (forall j, A' j <-> A j) -> (forall u c, col' u c -> col u c) -> (fl -> fl') -> (forall u, wd u -> wd' u) ->
  core s A' col' fl' wd' g.
Proof.
  intros s A col fl wd g A' col' fl' wd' C EA EC EF EW.
  constructor.
  - intros j a. apply (c_job _ _ _ _ _ _ C). now apply EA.
  - apply (c_ver _ _ _ _ _ _ C).
  - intros u c K. destruct (c_col _ _ _ _ _ _ C u c (EC _ _ K)) as [F [w P]]. auto.
  - intros u d D M K R.
    assert (R' : relied wd g u (dtext d)).
    { destruct R as [R|[R1 R2]]; [now left|right; split; auto]. }
    destruct (c_facts _ _ _ _ _ _ C u d D M K R') as [[P|[[j [a P]]|[F [w P]]]]|[[Cu [j [a P]]] N]].
    + left; left; auto.
    + left; right; left. exists j. split; [now apply EA|auto].
    + left; right; right. auto.
    + right. split; [split; auto; exists j; split; [now apply EA|auto]|].
      intros j' a' E. apply N; auto. now apply EA.
  - intros u d D w. apply (c_reg _ _ _ _ _ _ C u d D). intro w'. auto.
  - intros u t D w. apply (c_closed _ _ _ _ _ _ C u t D). intro w'. auto.
  - intros u d D M gu B. destruct (c_scope _ _ _ _ _ _ C u d D M gu B) as [P|[[j [a P]]|[Cu [j [a P]]]]].
    + now left.
    + right; left. exists j. split; [now apply EA|auto].
    + right; right. split; auto. exists j. split; [now apply EA|auto].
Qed.

Lemma core_disk : forall s A col fl wd g u t, core s A col fl wd g -> core (set_disk s u t) A col fl wd g.
Proof. intros s A col fl wd g u t [c1 c2 c3 c4 c5 c6 c7]. constructor; auto. Qed.

(** *** An analysis moves on *)
Lemma kind_register : forall s u t w, source_kind (register s u (source_kind s u) t) w = source_kind s w.
Proof.
  intros s u t w. unfold source_kind at 1, file_kind, register, set_files. cbn. unfold set.
  destruct (String.eqb_spec w u) as [->|N]; cbn; auto.
Qed.
Lemma project_register : forall s u t w, file_kind s w = Some Project ->
  file_kind (register s u (source_kind s u) t) w = Some Project.
Proof.
  intros s u t w K. unfold file_kind, register, set_files. cbn. unfold set.
  destruct (String.eqb_spec w u) as [->|N]; cbn; auto. unfold source_kind. now rewrite K.
Qed.

Lemma core_register : forall s A col fl wd g u t d, core s A col fl wd g -> docs s u = Some d -> t = dtext d ->
  core (register s u (source_kind s u) t) A col fl wd g.
Proof.
  intros s A col fl wd g u t d C D E. destruct C as [c1 c2 c3 c4 c5 c6 c7]. constructor.
  - apply c1.
  - apply c2.
  - intros w c K. destruct (c3 w c K) as [F [Q P]]. split; [auto|split;[auto|]]. intro N. apply project_register; auto.
  - intros w e De M K R. rewrite kind_register in K.
    destruct (c4 w e De M K R) as [[P|[P|[F [Q P]]]]|P].
    + left; left; auto.
    + left; right; left; auto.
    + left; right; right. split; [auto|split;[auto|]]. apply project_register; auto.
    + right. exact P.
  - intros w e De Q. cbn. unfold set. destruct (String.eqb_spec w u) as [->|N].
    + cbn in De. rewrite D in De. injection De as <-. subst t. eexists. reflexivity.
    + apply c5; auto.
  - intros w x Dn Q Fi. cbn in Dn. cbn in Fi. unfold set in Fi. destruct (String.eqb_spec w u) as [->|N]; [congruence|].
    apply c6; auto.
  - apply c7.
Qed.

(** Replace the analysis [j] by its next stage. *)
Definition next (A : job -> Prop) (j : job) (o : option job) (A' : job -> Prop) : Prop :=
  (forall j', A' j' -> A j' \/ o = Some j') /\ (forall j', A j' -> A' j' \/ j' = j) /\ (forall j', o = Some j' -> A' j').

Lemma current_docs : forall s s' u, docs s u = docs s' u -> current s u = current s' u.
Proof. intros s s' u E. unfold current. now rewrite E. Qed.

Ltac stages := unfold fits, late, writes, after, fills in *; cbn [jstage jt jforced jver ju at_stage] in *.

Lemma core_job : forall s A col fl wd g j A', core s A col fl wd g -> A j ->
  next A j (snd (job_step W s j)) A' -> core (fst (job_step W s j)) A' col fl wd g.
Proof.
  intros s A col fl wd g j A' C a [X1 [X2 X3]].
  destruct (c_job _ _ _ _ _ _ C j a) as [d [D F]].
  destruct j as [u t fo p v]. cbn in D. cbn in X1, X2, X3.
  destruct p; cbn [job_step jstage fst snd ju jt jforced jver] in *.
  - (* PCheck *)
    assert (Z : forall j', A' j' -> A j' \/ at_stage (Job u t fo PCheck v) (if negb fo && current s u then PTouch else PRegister) = j').
    { intros j' a'. destruct (X1 j' a') as [y|y]; [auto|right; congruence]. }
    destruct C as [c1 c2 c3 c4 c5 c6 c7]. constructor; auto.
    + intros j' a'. destruct (Z j' a') as [y|<-]; [exact (c1 j' y)|]. cbn. exists d. split; auto.
      destruct (negb fo && current s u); stages; intuition congruence.
    + intros w e De M K R. destruct (c4 w e De M K R) as [[P|[[j' [aj [U Wj]]]|P]]|[[Cu [j' [aj [U St]]]] Af]].
      * left; left; auto.
      * left; right; left. destruct (X2 j' aj) as [y|y]; [exists j'; auto|].
        subst j'. exists (at_stage (Job u t fo PCheck v) PRegister). stages. subst fo w.
        split; [apply X3; reflexivity|auto].
      * left; right; right; auto.
      * destruct (X2 j' aj) as [y|y].
        -- right. split; [split; auto; exists j'; auto|]. intros j2 a2 U2.
           destruct (Z j2 a2) as [y2|<-]; [apply Af; auto|]. destruct (negb fo && current s u); reflexivity.
        -- subst j'. stages. subst w. rewrite Cu, andb_false_r in *. left; right; left.
           exists (at_stage (Job u t fo PCheck v) PRegister). stages. auto.
    + intros w e De M gu B. destruct (c7 w e De M gu B) as [P|[[j' [aj [U Wj]]]|[Cu [j' [aj [U St]]]]]].
      * now left.
      * destruct (X2 j' aj) as [y|y]; [right; left; exists j'; auto|].
        subst j'. right; left. exists (at_stage (Job u t fo PCheck v) PRegister). stages. subst fo w.
        split; [apply X3; reflexivity|auto].
      * destruct (X2 j' aj) as [y|y]; [right; right; split; auto; exists j'; auto|].
        subst j'. stages. subst w. rewrite Cu, andb_false_r in *. right; left.
        exists (at_stage (Job u t fo PCheck v) PRegister). stages. auto.
  - (* PTouch *)
    assert (C' := core_register s A col fl wd g u t d C D (proj1 F)).
    assert (C2 : core (register s u (source_kind s u) t) A' col fl wd g).
    { clear C. destruct C' as [c1 c2 c3 c4 c5 c6 c7]. constructor; auto.
      + intros j' a'. destruct (X1 j' a') as [y|y]; [auto|discriminate].
      + intros w e De M K R. destruct (c4 w e De M K R) as [[P|[[j' [aj [U Wj]]]|P]]|[[Cu [j' [aj [U St]]]] Af]].
        * left; left; auto.
        * left; right; left. destruct (X2 j' aj) as [y|y]; [exists j'; auto|subst j'; discriminate].
        * left; right; right; auto.
        * right. destruct (X2 j' aj) as [y|y]; [|subst j'; discriminate].
          split; [split; auto; exists j'; auto|]. intros j2 a2 U2. destruct (X1 j2 a2); [auto|discriminate].
      + intros w e De M gu B. destruct (c7 w e De M gu B) as [P|[[j' [aj [U Wj]]]|[Cu [j' [aj [U St]]]]]].
        * now left.
        * right; left. destruct (X2 j' aj) as [y|y]; [exists j'; auto|subst j'; discriminate].
        * right; right. split; auto. destruct (X2 j' aj) as [y|y]; [exists j'; auto|subst j'; discriminate]. }
    destruct C2 as [c1 c2 c3 c4 c5 c6 c7]. constructor; auto.
  - (* PRegister *)
    assert (C' := core_register s A col fl wd g u t d C D (proj1 F)).
    assert (Z : forall j', A' j' -> A j' \/ Job u t fo PVersion v = j').
    { intros j' a'. destruct (X1 j' a') as [y|y]; [auto|right; now injection y]. }
    assert (Z3 : A' (Job u t fo PVersion v)) by (apply X3; reflexivity).
    clear C. destruct C' as [c1 c2 c3 c4 c5 c6 c7]. constructor; auto.
    + intros j' a'. destruct (Z j' a') as [y|<-]; [exact (c1 j' y)|]. exists d. split; auto. stages. intuition congruence.
    + intros w e De M K R. destruct (c4 w e De M K R) as [[P|[[j' [aj [U Wj]]]|P]]|[[Cu [j' [aj [U St]]]] Af]].
      * left; left; auto.
      * left; right; left. destruct (X2 j' aj) as [y|y]; [exists j'; auto|]. subst j'. eexists; split; [apply Z3|auto].
      * left; right; right; auto.
      * right. destruct (X2 j' aj) as [y|y]; [|subst j'; discriminate].
        split; [split; auto; exists j'; auto|]. intros j2 a2 U2. destruct (Z j2 a2) as [|<-]; [auto|reflexivity].
    + intros w e De M gu B. destruct (c7 w e De M gu B) as [P|[[j' [aj [U Wj]]]|[Cu [j' [aj [U St]]]]]].
      * now left.
      * right; left. destruct (X2 j' aj) as [y|y]; [exists j'; auto|]. subst j'. eexists; split; [apply Z3|auto].
      * right; right. split; auto. destruct (X2 j' aj) as [y|y]; [exists j'; auto|subst j'; discriminate].
  - (* PVersion *)
    rewrite D in *.
    set (j2 := Job u t fo (if broken W t then PEmpty else PSeed) (dversion d)) in *.
    assert (Z : forall j', A' j' -> A j' \/ j2 = j').
    { intros j' a'. destruct (X1 j' a') as [y|y]; [auto|right; now injection y]. }
    assert (Z3 : A' j2) by (apply X3; reflexivity).
    assert (Wr : writes j2 = true) by (unfold writes, j2; cbn; destruct (broken W t); reflexivity).
    destruct C as [c1 c2 c3 c4 c5 c6 c7]. constructor; auto.
    + intros j' a'. destruct (Z j' a') as [y|<-]; [exact (c1 j' y)|]. exists d. split; auto. unfold j2. stages.
      destruct F as [F1 F2]. split; auto. split; auto. destruct (broken W t) eqn:B; intuition congruence.
    + intros w e De M K R. destruct (c4 w e De M K R) as [[P|[[j' [aj [U Wj]]]|P]]|[[Cu [j' [aj [U St]]]] Af]].
      * left; left; auto.
      * left; right; left. destruct (X2 j' aj) as [y|y]; [exists j'; auto|]. subst j'. exists j2; auto.
      * left; right; right; auto.
      * right. destruct (X2 j' aj) as [y|y]; [|subst j'; discriminate].
        split; [split; auto; exists j'; auto|]. intros j3 a3 U3. destruct (Z j3 a3) as [|<-]; [auto|].
        unfold after, j2; cbn. destruct (broken W t); reflexivity.
    + intros w e De M gu B. destruct (c7 w e De M gu B) as [P|[[j' [aj [U Wj]]]|[Cu [j' [aj [U St]]]]]].
      * now left.
      * right; left. destruct (X2 j' aj) as [y|y]; [exists j'; auto|]. subst j'. exists j2. split; [auto|]. split; [auto|].
        cbn in U. subst w. cbn in De. rewrite D in De. injection De as <-. unfold fills, j2; cbn.
        rewrite (proj1 F : t = dtext d) in *. now rewrite B.
      * right; right. split; auto. destruct (X2 j' aj) as [y|y]; [exists j'; auto|subst j'; discriminate].
  - (* PEmpty *)
    assert (Bt : broken W t = true) by (apply F; reflexivity).
    assert (Et : t = dtext d) by apply F.
    assert (Z : forall j', A' j' -> A j') by (intros j' a'; destruct (X1 j' a'); [auto|discriminate]).
    destruct C as [c1 c2 c3 c4 c5 c6 c7]. constructor; auto.
    + intros j' a'. exact (c1 j' (Z j' a')).
    + intros w e De M K R. cbn in De. destruct (uri_dec w u) as [->|N].
      * left; left. unfold wanted. cbn. rewrite set_eq. rewrite D in De. injection De as <-. now rewrite <- Et, Bt.
      * destruct (c4 w e De M K R) as [[P|[[j' [aj [U Wj]]]|P]]|[[Cu [j' [aj [U St]]]] Af]].
        -- left; left. cbn. now rewrite set_ne.
        -- left; right; left. destruct (X2 j' aj) as [y|y]; [exists j'; auto|]. subst j'. cbn in U. congruence.
        -- left; right; right; auto.
        -- right. destruct (X2 j' aj) as [y|y]; [|subst j'; discriminate]. split; [split; auto; exists j'; auto|auto].
    + intros w x Dn Q Fi Mf B. cbn in Dn. assert (w <> u) by congruence. cbn. rewrite set_ne by auto. apply c6; auto.
    + intros w e De M gu B. destruct (c7 w e De M gu B) as [P|[[j' [aj [U Wj]]]|[Cu [j' [aj [U St]]]]]].
      * now left.
      * right; left. destruct (X2 j' aj) as [y|y]; [exists j'; auto|]. subst j'. discriminate.
      * right; right. split; auto. destruct (X2 j' aj) as [y|y]; [exists j'; auto|subst j'; discriminate].
  - (* PSeed *)
    assert (Z : forall j', A' j' -> A j' \/ Job u t fo PFacts v = j').
    { intros j' a'. destruct (X1 j' a') as [y|y]; [auto|right; now injection y]. }
    assert (Z3 : A' (Job u t fo PFacts v)) by (apply X3; reflexivity).
    destruct C as [c1 c2 c3 c4 c5 c6 c7]. constructor; auto.
    + intros j' a'. destruct (Z j' a') as [y|<-]; [exact (c1 j' y)|]. exists d. split; auto. stages. intuition congruence.
    + intros w e De M K R. cbn in De. destruct (uri_dec w u) as [->|N].
      * left; right; left. exists (Job u t fo PFacts v). auto.
      * destruct (c4 w e De M K R) as [[P|[[j' [aj [U Wj]]]|P]]|[[Cu [j' [aj [U St]]]] Af]].
        -- left; left. cbn. now rewrite set_ne.
        -- left; right; left. destruct (X2 j' aj) as [y|y]; [exists j'; auto|]. subst j'. cbn in U. congruence.
        -- left; right; right; auto.
        -- right. destruct (X2 j' aj) as [y|y]; [|subst j'; discriminate]. split; [split; auto; exists j'; auto|].
           intros j2 a2 U2. destruct (Z j2 a2) as [|<-]; [auto|reflexivity].
    + intros w x Dn Q Fi Mf B. cbn in Dn. assert (w <> u) by congruence. cbn. rewrite set_ne by auto. apply c6; auto.
    + intros w e De M gu B. destruct (c7 w e De M gu B) as [P|[[j' [aj [U Wj]]]|[Cu [j' [aj [U St]]]]]].
      * now left.
      * right; left. destruct (X2 j' aj) as [y|y]; [exists j'; auto|]. subst j'. eexists; split; [apply Z3|auto].
      * right; right. split; auto. destruct (X2 j' aj) as [y|y]; [exists j'; auto|subst j'; discriminate].
  - (* PFacts *)
    assert (Bt : broken W t = false) by (apply F; auto).
    assert (Et : t = dtext d) by apply F.
    assert (Z : forall j', A' j' -> A j' \/ Job u t fo PInsert v = j').
    { intros j' a'. destruct (X1 j' a') as [y|y]; [auto|right; now injection y]. }
    assert (Z3 : A' (Job u t fo PInsert v)) by (apply X3; reflexivity).
    destruct C as [c1 c2 c3 c4 c5 c6 c7]. constructor; auto.
    + intros j' a'. destruct (Z j' a') as [y|<-]; [exact (c1 j' y)|]. exists d. split; auto. stages. intuition congruence.
    + intros w e De M K R. cbn in De. destruct (uri_dec w u) as [->|N].
      * left; left. unfold wanted. cbn. rewrite set_eq. rewrite D in De. injection De as <-. now rewrite <- Et, Bt.
      * destruct (c4 w e De M K R) as [[P|[[j' [aj [U Wj]]]|P]]|[[Cu [j' [aj [U St]]]] Af]].
        -- left; left. cbn. now rewrite set_ne.
        -- left; right; left. destruct (X2 j' aj) as [y|y]; [exists j'; auto|]. subst j'. cbn in U. congruence.
        -- left; right; right; auto.
        -- right. destruct (X2 j' aj) as [y|y]; [|subst j'; discriminate]. split; [split; auto; exists j'; auto|].
           intros j2 a2 U2. destruct (Z j2 a2) as [|<-]; [auto|]. cbn in U2. congruence.
    + intros w x Dn Q Fi Mf B. cbn in Dn. assert (w <> u) by congruence. cbn. rewrite set_ne by auto. apply c6; auto.
    + intros w e De M gu B. destruct (c7 w e De M gu B) as [P|[[j' [aj [U Wj]]]|[Cu [j' [aj [U St]]]]]].
      * now left.
      * right; left. destruct (X2 j' aj) as [y|y]; [exists j'; auto|]. subst j'. eexists; split; [apply Z3|auto].
      * right; right. split; auto. destruct (X2 j' aj) as [y|y]; [exists j'; auto|subst j'; discriminate].
  - (* PInsert *)
    assert (Et : t = dtext d) by apply F.
    assert (Ev : v = dversion d) by (apply F; reflexivity).
    assert (Bt : broken W t = false) by (apply F; auto).
    assert (Z : forall j', A' j' -> A j' \/ Job u t fo PMark v = j').
    { intros j' a'. destruct (X1 j' a') as [y|y]; [auto|right; now injection y]. }
    assert (Z3 : A' (Job u t fo PMark v)) by (apply X3; reflexivity).
    set (n := Doc t v None (Some t)).
    assert (Du : docs (set_docs s u (Some n)) u = Some n) by (cbn; apply set_eq).
    assert (Dw : forall w, w <> u -> docs (set_docs s u (Some n)) w = docs s w) by (intros; cbn; now apply set_ne).
    destruct C as [c1 c2 c3 c4 c5 c6 c7]. constructor; auto.
    + intros j' a'. destruct (Z j' a') as [y|<-].
      * destruct (c1 j' y) as [e [De Fe]]. destruct (uri_dec (ju j') u) as [E|N].
        -- exists n. split; [rewrite E; apply Du|]. rewrite E, D in De. injection De as <-.
           destruct Fe as [f1 [f2 [f3 [f4 f5]]]]. unfold n; stages. subst t v. intuition congruence.
        -- exists e. split; [rewrite Dw; auto|auto].
      * exists n. split; [apply Du|]. unfold n; stages. intuition congruence.
    + intros w e x De I1. destruct (uri_dec w u) as [->|N].
      * rewrite Du in De. injection De as <-. discriminate.
      * rewrite Dw in De by auto. eapply c2; eauto.
    + intros w e De M K R. destruct (uri_dec w u) as [->|N].
      * rewrite Du in De. injection De as <-. cbn in M, R. rewrite Et in M, R.
        destruct (c4 u d D M K R) as [[P|[[j' [aj [U Wj]]]|P]]|[_ Af]].
        -- left; left. cbn. congruence.
        -- left; right; left. destruct (X2 j' aj) as [y|y]; [exists j'; auto|]. subst j'. discriminate.
        -- left; right; right; auto.
        -- specialize (Af _ a eq_refl). discriminate.
      * rewrite Dw in De by auto. destruct (c4 w e De M K R) as [[P|[[j' [aj [U Wj]]]|P]]|[[Cu [j' [aj [U St]]]] Af]].
        -- left; left. auto.
        -- left; right; left. destruct (X2 j' aj) as [y|y]; [exists j'; auto|]. subst j'. cbn in U. congruence.
        -- left; right; right; auto.
        -- right. destruct (X2 j' aj) as [y|y]; [|subst j'; discriminate].
           split; [split; [rewrite <- Cu; apply current_docs; auto|exists j'; auto]|].
           intros j2 a2 U2. destruct (Z j2 a2) as [|<-]; [auto|]. cbn in U2. congruence.
    + intros w e De Q. destruct (uri_dec w u) as [->|N].
      * rewrite Du in De. injection De as <-. cbn. rewrite Et. apply c5; auto.
      * rewrite Dw in De by auto. apply c5; auto.
    + intros w x Dn Q Fi. assert (w <> u) by congruence. rewrite Dw in Dn by auto. cbn in Fi. apply c6; auto.
    + intros w e De M gu B. destruct (uri_dec w u) as [->|N].
      * rewrite Du in De. injection De as <-. now left.
      * rewrite Dw in De by auto. destruct (c7 w e De M gu B) as [P|[[j' [aj [U Wj]]]|[Cu [j' [aj [U St]]]]]].
        -- now left.
        -- right; left. destruct (X2 j' aj) as [y|y]; [exists j'; auto|]. subst j'. cbn in U. congruence.
        -- right; right. split; [rewrite <- Cu; apply current_docs; auto|].
           destruct (X2 j' aj) as [y|y]; [exists j'; auto|subst j'; discriminate].
  - (* PMark *)
    rewrite D.
    assert (Sc : dscopes d = Some (dtext d)) by (apply F; reflexivity).
    assert (Et : t = dtext d) by apply F.
    assert (Z : forall j', A' j' -> A j') by (intros j' a'; destruct (X1 j' a'); [auto|discriminate]).
    set (n := Doc (dtext d) (dversion d) (Some (dversion d)) (dscopes d)).
    assert (Du : docs (set_docs s u (Some n)) u = Some n) by (cbn; apply set_eq).
    assert (Dw : forall w, w <> u -> docs (set_docs s u (Some n)) w = docs s w) by (intros; cbn; now apply set_ne).
    destruct C as [c1 c2 c3 c4 c5 c6 c7]. constructor; auto.
    + intros j' a'. destruct (c1 j' (Z j' a')) as [e [De Fe]]. destruct (uri_dec (ju j') u) as [E|N].
      * exists n. split; [rewrite E; apply Du|]. rewrite E, D in De. injection De as <-. exact Fe.
      * exists e. split; [rewrite Dw; auto|auto].
    + intros w e x De I1. destruct (uri_dec w u) as [->|N].
      * rewrite Du in De. injection De as <-. cbn in I1. injection I1 as <-. cbn. lia.
      * rewrite Dw in De by auto. eapply c2; eauto.
    + intros w e De M K R. destruct (uri_dec w u) as [->|N].
      * rewrite Du in De. injection De as <-. cbn in M, R.
        destruct (c4 u d D M K R) as [[P|[[j' [aj [U Wj]]]|P]]|[_ Af]].
        -- left; left. auto.
        -- left; right; left. destruct (X2 j' aj) as [y|y]; [exists j'; auto|]. subst j'. discriminate.
        -- left; right; right; auto.
        -- specialize (Af _ a eq_refl). discriminate.
      * rewrite Dw in De by auto. destruct (c4 w e De M K R) as [[P|[[j' [aj [U Wj]]]|P]]|[[Cu [j' [aj [U St]]]] Af]].
        -- left; left. auto.
        -- left; right; left. destruct (X2 j' aj) as [y|y]; [exists j'; auto|]. subst j'. cbn in U. congruence.
        -- left; right; right; auto.
        -- right. destruct (X2 j' aj) as [y|y]; [|subst j'; discriminate].
           split; [split; [rewrite <- Cu; apply current_docs; auto|exists j'; auto]|auto].
    + intros w e De Q. destruct (uri_dec w u) as [->|N].
      * rewrite Du in De. injection De as <-. cbn. apply c5; auto.
      * rewrite Dw in De by auto. apply c5; auto.
    + intros w x Dn Q Fi. assert (w <> u) by congruence. rewrite Dw in Dn by auto. cbn in Fi. apply c6; auto.
    + intros w e De M gu B. destruct (uri_dec w u) as [->|N].
      * rewrite Du in De. injection De as <-. now left.
      * rewrite Dw in De by auto. destruct (c7 w e De M gu B) as [P|[[j' [aj [U Wj]]]|[Cu [j' [aj [U St]]]]]].
        -- now left.
        -- right; left. destruct (X2 j' aj) as [y|y]; [exists j'; auto|]. subst j'. cbn in U. congruence.
        -- right; right. split; [rewrite <- Cu; apply current_docs; auto|].
           destruct (X2 j' aj) as [y|y]; [exists j'; auto|subst j'; discriminate].
Qed.

End Core.
