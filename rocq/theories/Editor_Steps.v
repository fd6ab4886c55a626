(** The invariant of Editor_Core.v is kept by failures, watched files, refresh passes and the start of handlers. *)
From Coq Require Import List Bool ZArith String Lia.
From Verif Require Import Editor_Model Editor_Spec Editor_Core.
Import ListNotations.

Section Steps.
Variable W : world.

Lemma core_fail : forall s A col fl wd g j (A' : job -> Prop), core W s A col fl wd g -> A j ->
  may_fail W (ju j) (jt j) -> (forall j', A' j' -> A j') -> (forall j', A j' -> A' j' \/ j' = j) ->
  core W s A' col fl wd g.
Proof.
  intros s A col fl wd g j A' C a Mf X1 X2.
  destruct (c_job _ _ _ _ _ _ _ C j a) as [d [D F]].
  destruct C as [c1 c2 c3 c4 c5 c6 c7]. constructor; auto.
  - intros w e De M K R. destruct (c4 w e De M K R) as [[P|[[j' [aj [U Wj]]]|P]]|[[Cu [j' [aj [U St]]]] Af]].
    + left; left; auto.
    + left; right; left. destruct (X2 j' aj) as [y|y]; [exists j'; auto|]. exfalso. subst j' w.
      rewrite D in De. injection De as <-. rewrite (proj1 F) in Mf. auto.
    + left; right; right; auto.
    + right. destruct (X2 j' aj) as [y|y]; [split; [split; auto; exists j'; auto|auto]|]. exfalso. subst j' w.
      rewrite D in De. injection De as <-. rewrite (proj1 F) in Mf. auto.
  - intros w e De M gu B. destruct (c7 w e De M gu B) as [P|[[j' [aj [U Wj]]]|[Cu [j' [aj [U St]]]]]].
    + now left.
    + right; left. destruct (X2 j' aj) as [y|y]; [exists j'; auto|]. exfalso. subst j' w.
      rewrite D in De. injection De as <-. rewrite (proj1 F) in Mf. auto.
    + right; right. split; auto. destruct (X2 j' aj) as [y|y]; [exists j'; auto|]. exfalso. subst j' w.
      rewrite D in De. injection De as <-. rewrite (proj1 F) in Mf. auto.
Qed.

(** *** Facts or registration of one file change, while a refresh of it is due *)
Definition elsewhere (s s' : server) (u : uri) : Prop :=
  docs s' = docs s /\ (forall w, w <> u -> files s' w = files s w /\ facts s' w = facts s w).

Lemma core_spoil : forall s s' A col fl wd g (col' : uri -> cstage -> Prop) (fl' : Prop) u,
  core W s A col fl wd g -> elsewhere s s' u -> wd u -> (fl -> fl') ->
  (forall d, docs s u = Some d -> fl' /\ file_kind s' u = Some Project) ->
  (forall w c, col' w c -> (w <> u /\ col w c) \/ (w = u /\ fl' /\ (c <> CRegister -> file_kind s' u = Some Project))) ->
  core W s' A col' fl' wd g.
Proof.
  intros s s' A col fl wd g col' fl' u C [Ed Eo] Wu Ef Op Ec.
  assert (Ek : forall w, w <> u -> file_kind s' w = file_kind s w).
  { intros w N. unfold file_kind. now rewrite (proj1 (Eo w N)). }
  assert (Es : forall w, w <> u -> source_kind s' w = source_kind s w).
  { intros w N. unfold source_kind. now rewrite Ek. }
  assert (Ecu : forall w, current s' w = current s w).
  { intros w. apply current_docs. now rewrite Ed. }
  destruct C as [c1 c2 c3 c4 c5 c6 c7]. constructor; rewrite ?Ed; auto.
  - intros w c K. destruct (Ec w c K) as [[N K']|[-> [F P]]]; [|auto].
    destruct (c3 w c K') as [F [Q P]]. split; [auto|split; [auto|]]. intro. rewrite Ek; auto.
  - intros w e De M K R. destruct (uri_dec w u) as [->|N].
    + destruct (Op e De) as [F P]. left; right; right. auto.
    + rewrite Es in K by auto. destruct (c4 w e De M K R) as [[P|[P|[F [Q P]]]]|[[Cu P] Af]].
      * left; left. now rewrite (proj2 (Eo w N)).
      * left; right; left; auto.
      * left; right; right. split; [auto|split; [auto|]]. rewrite Ek; auto.
      * right. split; [split; [rewrite Ecu; auto|auto]|auto].
  - intros w e De Q. assert (N : w <> u) by (intros ->; auto). rewrite (proj1 (Eo w N)). auto.
  - intros w x Dn Q Fi. assert (N : w <> u) by (intros ->; auto). rewrite (proj2 (Eo w N)).
    rewrite (proj1 (Eo w N)) in Fi. auto.
  - intros w e De M gu B. destruct (c7 w e De M gu B) as [P|[P|[Cu P]]]; auto.
    right; right. split; [rewrite Ecu; auto|auto].
Qed.

Lemma core_clear : forall s A fl wd g (col : uri -> cstage -> Prop) u (fl' : Prop),
  core W s A col fl wd g -> wd u -> (forall w c, ~ col w c) -> (fl -> fl') ->
  (snd (clear_if is_project s u) = true -> fl') ->
  core W (fst (clear_if is_project s u)) A col fl' wd g.
Proof.
  intros s A fl wd g col u fl' C Wu Nc Ef Er. unfold clear_if in *. destruct (files s u) as [[k x]|] eqn:Fu.
  - destruct (is_project k) eqn:K; cbn in *.
    + assert (k = Project) by (destruct k; try discriminate; auto). subst k.
      eapply core_spoil; eauto.
      * split; [reflexivity|]. intros w N. cbn. now rewrite !set_ne by auto.
      * intros d _. split; auto. unfold file_kind; cbn. now rewrite set_eq.
      * intros w c Q. now apply Nc in Q.
    + eapply core_more; eauto; tauto.
  - cbn. eapply core_more; eauto; tauto.
Qed.

(** *** Refresh passes *)
Lemma core_refresh : forall s A (A' : job -> Prop) col fl wd g (fl' : Prop),
  core W s A col fl wd g -> (forall w c, ~ col w c) ->
  (forall j, A j -> A' j) ->
  (forall j, A' j -> A j \/ (jstage j = PCheck /\ exists d, docs s (ju j) = Some d /\ jt j = dtext d)) ->
  ((fl -> fl') \/ (forall u d, docs s u = Some d -> file_kind s u = Some Project ->
                     exists j, A' j /\ ju j = u /\ jstage j = PCheck /\ jforced j = true)) ->
  core W s A' col fl' wd g.
Proof.
  intros s A A' col fl wd g fl' C Nc X1 X2 E. destruct C as [c1 c2 c3 c4 c5 c6 c7]. constructor; auto.
  - intros j a. destruct (X2 j a) as [y|[St [d [D T]]]]; [auto|]. exists d. split; auto.
    unfold fits, late, after. rewrite St. intuition congruence.
  - intros w c Q. now apply Nc in Q.
  - intros w e De M K R. destruct (c4 w e De M K R) as [[P|[[j [a P]]|[F [Q P]]]]|[[Cu [j [a P]]] Af]].
    + left; left; auto.
    + left; right; left. exists j. auto.
    + destruct E as [E|E]; [left; right; right; auto|]. left; right; left.
      destruct (E w e De P) as [j [a [U [St Fo]]]]. exists j. unfold writes. rewrite St. auto.
    + right. split; [split; auto; exists j; auto|]. intros j2 a2 U2. destruct (X2 j2 a2) as [y|[St _]]; [auto|].
      unfold after. now rewrite St.
  - intros w e De M gu B. destruct (c7 w e De M gu B) as [P|[[j [a P]]|[Cu [j [a P]]]]]; auto.
    + right; left. exists j. auto.
    + right; right. split; auto. exists j. auto.
Qed.

(** *** Handlers start *)
Definition with_job (A : job -> Prop) (o : option phase) : job -> Prop :=
  fun j => A j \/ o = Some (Analysing (Some j)).

Lemma put_doc_eq : forall s u v t, docs (put_doc s u v t) u =
  Some match docs s u with Some d => update d t v | None => fresh t v end.
Proof. intros. unfold put_doc. cbn. now rewrite set_eq. Qed.
Lemma put_doc_ne : forall s u v t w, w <> u -> docs (put_doc s u v t) w = docs s w.
Proof. intros. unfold put_doc. cbn. now rewrite set_ne. Qed.

(** A document gets a new text, and an analysis. *)
Lemma core_new_text : forall s A col fl wd g u v t k b,
  core W s A col fl wd g -> (forall w c, ~ col w c) -> (forall j, A j -> ju j <> u) ->
  (forall d, docs s u = Some d -> (dversion d < v)%Z) ->
  core W (put_doc (register s u k t) u v t) (fun j => A j \/ j = analyse u t) col fl wd (set g u b).
Proof.
  intros s A col fl wd g u v t k b C Nc Na Lt.
  set (s' := put_doc (register s u k t) u v t).
  assert (Du : docs s' u = Some match docs s u with Some d => update d t v | None => fresh t v end).
  { unfold s'. apply (put_doc_eq (register s u k t)). }
  assert (Dw : forall w, w <> u -> docs s' w = docs s w).
  { intros w N. unfold s'. rewrite put_doc_ne by auto. reflexivity. }
  assert (Fu : files s' u = Some (k, t)) by (unfold s', put_doc; cbn; apply set_eq).
  assert (Fw : forall w, w <> u -> files s' w = files s w) by (intros; unfold s', put_doc; cbn; now apply set_ne).
  assert (Tx : forall e, docs s' u = Some e -> dtext e = t).
  { intros e E. rewrite Du in E. injection E as <-. destruct (docs s u); reflexivity. }
  assert (Cu : current s' u = false).
  { unfold current. rewrite Du. destruct (docs s u) as [d|] eqn:D; cbn; auto.
    destruct (dindexed d) as [w|] eqn:Iw; auto. pose proof (c_ver _ _ _ _ _ _ _ C u d w D Iw).
    specialize (Lt d eq_refl). apply Z.eqb_neq. lia. }
  assert (Cw : forall w, w <> u -> current s' w = current s w) by (intros; apply current_docs; auto).
  assert (Kw : forall w, w <> u -> file_kind s' w = file_kind s w) by (intros; unfold file_kind; now rewrite Fw).
  assert (Sw : forall w, w <> u -> source_kind s' w = source_kind s w) by (intros; unfold source_kind; now rewrite Kw).
  destruct C as [c1 c2 c3 c4 c5 c6 c7]. constructor.
  - intros j [a| ->].
    + destruct (c1 j a) as [d P]. exists d. rewrite Dw; auto.
    + eexists. split; [apply Du|]. unfold fits; cbn. split; [destruct (docs s u); reflexivity|].
      intuition congruence.
  - intros w d x D Ix. destruct (uri_dec w u) as [->|N]; [|rewrite Dw in D by auto; eapply c2; eauto].
    rewrite Du in D. injection D as <-. destruct (docs s u) as [d|] eqn:D; [|discriminate]. cbn in *.
    specialize (c2 u d x D Ix). specialize (Lt d eq_refl). lia.
  - intros w c Q. now apply Nc in Q.
  - intros w e De M K R. destruct (uri_dec w u) as [->|N].
    + right. split; [split; [auto|exists (analyse u t); auto]|]. intros j [a| ->] U; [now apply Na in a|reflexivity].
    + rewrite Dw in De by auto. rewrite Sw in K by auto.
      assert (R' : relied W wd g w (dtext e)) by (unfold relied in *; rewrite set_ne in R; auto).
      destruct (c4 w e De M K R') as [[P|[[j [a P]]|P]]|[[Cu' [j [a P]]] Af]].
      * left; left; auto.
      * left; right; left. exists j. auto.
      * left; right; right. rewrite Kw by auto. auto.
      * right. split; [split; [rewrite Cw; auto|exists j; auto]|]. intros j2 [a2| ->] U2; [auto|]. cbn in U2. congruence.
  - intros w e De Q. destruct (uri_dec w u) as [->|N].
    + rewrite (Tx e De). eauto.
    + rewrite Dw in De by auto. rewrite Fw by auto. auto.
  - intros w x Dn Q Fi. assert (N : w <> u) by congruence. rewrite Dw in Dn by auto. rewrite Fw in Fi by auto. exact (c6 w x Dn Q Fi).
  - intros w e De M gu B. destruct (uri_dec w u) as [->|N].
    + right; right. split; auto. exists (analyse u t). auto.
    + rewrite Dw in De by auto. rewrite set_ne in gu by auto. destruct (c7 w e De M gu B) as [P|[[j [a P]]|[Cu' [j [a P]]]]].
      * now left.
      * right; left. exists j. auto.
      * right; right. split; [rewrite Cw; auto|exists j; auto].
Qed.

Lemma core_open_skip : forall s A col fl wd g u v t k b x,
  core W s A col fl wd g -> (forall w c, ~ col w c) -> (forall j, A j -> ju j <> u) -> docs s u = None ->
  (b = true /\ files s u = Some (Project, t) /\ k = Project) \/ is_dependency k = true ->
  core W (let s1 := put_doc (register s u k t) u v t in
          let s2 := if is_project k then say s1 u x else s1 in
          if b then match docs s2 u with
                    | Some d => set_docs s2 u (Some (Doc (dtext d) (dversion d) (Some v) (dscopes d)))
                    | None => s2 end
          else s2) A col fl wd (set g u false).
Proof.
  intros s A col fl wd g u v t k b x C Nc Na Dn Why.
  pose (s1 := put_doc (register s u k t) u v t). pose (s2 := if is_project k then say s1 u x else s1).
  change (core W (if b then match docs s2 u with
                    | Some d => set_docs s2 u (Some (Doc (dtext d) (dversion d) (Some v) (dscopes d)))
                    | None => s2 end else s2) A col fl wd (set g u false)).
  assert (D2 : docs s2 = docs s1) by (unfold s2; destruct (is_project k); reflexivity).
  assert (D1 : docs s1 u = Some (fresh t v)).
  { unfold s1. rewrite (put_doc_eq (register s u k t)). cbn. now rewrite Dn. }
  rewrite D2, D1.
  set (s' := if b then _ else s2).
  assert (Du : exists i, docs s' u = Some (Doc t v i None) /\ (i = None \/ i = Some v)).
  { unfold s'. destruct b.
    - exists (Some v). split; auto. cbn. rewrite set_eq. reflexivity.
    - exists None. rewrite D2, D1. auto. }
  destruct Du as [i [Du Hi]].
  assert (Dw : forall w, w <> u -> docs s' w = docs s w).
  { intros w N. assert (Q : docs s2 w = docs s w).
    { rewrite D2. unfold s1. rewrite put_doc_ne by auto. reflexivity. }
    unfold s'. destruct b; [cbn; now rewrite set_ne|auto]. }
  assert (F2 : files s' = files s1).
  { unfold s', s2. destruct b, (is_project k); reflexivity. }
  assert (Q2 : facts s' = facts s).
  { unfold s', s2. destruct b, (is_project k); reflexivity. }
  assert (Fu : files s' u = Some (k, t)) by (rewrite F2; unfold s1, put_doc; cbn; apply set_eq).
  assert (Fw : forall w, w <> u -> files s' w = files s w).
  { intros w N. rewrite F2. unfold s1, put_doc; cbn; now apply set_ne. }
  assert (Cw : forall w, w <> u -> current s' w = current s w) by (intros; apply current_docs; auto).
  assert (Kw : forall w, w <> u -> file_kind s' w = file_kind s w) by (intros; unfold file_kind; now rewrite Fw).
  assert (Sw : forall w, w <> u -> source_kind s' w = source_kind s w) by (intros; unfold source_kind; now rewrite Kw).
  clearbody s'. destruct C as [c1 c2 c3 c4 c5 c6 c7]. constructor.
  - intros j a. destruct (c1 j a) as [d P]. exists d. rewrite Dw; auto.
  - intros w d y D Iy. destruct (uri_dec w u) as [->|N]; [|rewrite Dw in D by auto; eapply c2; eauto].
    rewrite Du in D. injection D as <-. cbn in *. destruct Hi; subst; [discriminate|]. injection Iy as <-. lia.
  - intros w c Q. now apply Nc in Q.
  - intros w e De M K R. destruct (uri_dec w u) as [->|N].
    + rewrite Du in De. injection De as <-. cbn in M, R.
      assert (Ku : source_kind s' u = k) by (unfold source_kind, file_kind; now rewrite Fu). rewrite Ku in K.
      destruct Why as [[_ [Fi Ek]]|Dep]; [|congruence].
      destruct R as [R|[R1 R2]]; [rewrite set_eq in R; discriminate|].
      left; left. cbn. unfold wanted. rewrite R2, Q2. apply c6; auto.
    + rewrite Dw in De by auto. rewrite Sw in K by auto.
      assert (R' : relied W wd g w (dtext e)) by (unfold relied in *; rewrite set_ne in R; auto).
      destruct (c4 w e De M K R') as [[P|[[j [a P]]|P]]|[[Cu' [j [a P]]] Af]].
      * left; left. rewrite Q2; auto.
      * left; right; left. exists j. auto.
      * left; right; right. rewrite Kw by auto. auto.
      * right. split; [split; [rewrite Cw; auto|exists j; auto]|]. auto.
  - intros w e De Q. destruct (uri_dec w u) as [->|N].
    + rewrite Du in De. injection De as <-. cbn. eauto.
    + rewrite Dw in De by auto. rewrite Fw by auto. auto.
  - intros w y Dy Q Fi. assert (N : w <> u) by congruence. rewrite Dw in Dy by auto. rewrite Fw in Fi by auto. rewrite Q2. auto.
  - intros w e De M gu B. destruct (uri_dec w u) as [->|N].
    + rewrite set_eq in gu. discriminate.
    + rewrite Dw in De by auto. rewrite set_ne in gu by auto. destruct (c7 w e De M gu B) as [P|[[j [a P]]|[Cu' [j [a P]]]]].
      * now left.
      * right; left. exists j. auto.
      * right; right. split; [rewrite Cw; auto|exists j; auto].
Qed.

Lemma core_save : forall s A col fl wd g u d,
  core W s A col fl wd g -> (forall j, A j -> ju j <> u) -> docs s u = Some d ->
  core W s (fun j => A j \/ j = analyse u (dtext d)) col fl wd g.
Proof.
  intros s A col fl wd g u d C Na D. destruct C as [c1 c2 c3 c4 c5 c6 c7]. constructor; auto.
  - intros j [a| ->]; [auto|]. exists d. split; auto. unfold fits; cbn. intuition congruence.
  - intros w e De M K R. destruct (c4 w e De M K R) as [[P|[[j [a P]]|P]]|[[Cu [j [a P]]] Af]].
    + left; left; auto.
    + left; right; left. exists j. auto.
    + left; right; right. auto.
    + right. split; [split; auto; exists j; auto|]. intros j2 [a2| ->] U2; [auto|]. reflexivity.
  - intros w e De M gu B. destruct (c7 w e De M gu B) as [P|[[j [a P]]|[Cu [j [a P]]]]]; auto.
    + right; left. exists j. auto.
    + right; right. split; auto. exists j. auto.
Qed.

Lemma core_close : forall s A col fl wd g u,
  core W s A col fl wd g -> (forall w c, ~ col w c) -> (forall j, A j -> ju j <> u) ->
  core W (fst (start_close s u)) A col fl wd g.
Proof.
  intros s A col fl wd g u C Nc Na. unfold start_close; cbn [fst].
  set (s1 := set_docs s u None). set (s' := fst (clear_if is_excluded s1 u)).
  assert (Du : docs s' = docs s1).
  { unfold s', clear_if. destruct (files s1 u) as [[k y]|]; [destruct (is_excluded k)|]; reflexivity. }
  assert (Dn : docs s' u = None) by (rewrite Du; cbn; apply set_eq).
  assert (Dw : forall w, w <> u -> docs s' w = docs s w) by (intros; rewrite Du; cbn; now apply set_ne).
  assert (Ow : forall w, w <> u -> files s' w = files s w /\ facts s' w = facts s w).
  { intros w N. unfold s', clear_if. destruct (files s1 u) as [[k y]|]; [destruct (is_excluded k)|]; cbn; auto.
    now rewrite !set_ne by auto. }
  assert (Ou : forall y, files s' u = Some (Project, y) -> files s u = Some (Project, y) /\ facts s' u = facts s u).
  { intros y. unfold s', clear_if. change (files s1 u) with (files s u).
    destruct (files s u) as [[k z]|] eqn:Fu; [destruct (is_excluded k) eqn:Ex|]; cbn; rewrite ?Fu; auto.
    rewrite set_eq. intro E. injection E as -> <-. discriminate. }
  assert (Cw : forall w, w <> u -> current s' w = current s w) by (intros; apply current_docs; auto).
  assert (Kw : forall w, w <> u -> file_kind s' w = file_kind s w).
  { intros w N. unfold file_kind. now rewrite (proj1 (Ow w N)). }
  assert (Sw : forall w, w <> u -> source_kind s' w = source_kind s w) by (intros; unfold source_kind; now rewrite Kw).
  assert (Nw : forall w e, docs s' w = Some e -> w <> u) by congruence.
  clearbody s'. destruct C as [c1 c2 c3 c4 c5 c6 c7]. constructor.
  - intros j a. destruct (c1 j a) as [d P]. exists d. rewrite Dw; auto.
  - intros w d y D Iy. rewrite Dw in D by eauto. eapply c2; eauto.
  - intros w c Q. now apply Nc in Q.
  - intros w e De M K R. assert (N := Nw _ _ De). rewrite Dw in De by auto. rewrite Sw in K by auto.
    destruct (c4 w e De M K R) as [[P|[[j [a P]]|P]]|[[Cu' [j [a P]]] Af]].
    * left; left. rewrite (proj2 (Ow w N)); auto.
    * left; right; left. exists j. auto.
    * left; right; right. rewrite Kw by auto. auto.
    * right. split; [split; [rewrite Cw; auto|exists j; auto]|]. auto.
  - intros w e De Q. assert (N := Nw _ _ De). rewrite Dw in De by auto. rewrite (proj1 (Ow w N)). auto.
  - intros w y Dy Q Fi M B. destruct (uri_dec w u) as [->|N].
    + destruct (Ou y Fi) as [Fi' Eq]. rewrite Eq. destruct (docs s u) as [d|] eqn:D; [|auto].
      destruct (c5 u d D Q) as [k Fk]. rewrite Fi' in Fk. injection Fk as <- ->.
      assert (K : is_dependency (source_kind s u) = false) by (unfold source_kind, file_kind; now rewrite Fi').
      destruct (c4 u d D M K (or_intror (conj Q B))) as [[P|[[j [a [U P]]]|P]]|[[Cu' [j [a [U P]]]] Af]].
      * rewrite P. unfold wanted. now rewrite B.
      * now apply Na in a.
      * tauto.
      * now apply Na in a.
    + rewrite Dw in Dy by auto. rewrite (proj1 (Ow w N)) in Fi. rewrite (proj2 (Ow w N)). auto.
  - intros w e De M gu B. assert (N := Nw _ _ De). rewrite Dw in De by auto.
    destruct (c7 w e De M gu B) as [P|[[j [a P]]|[Cu' [j [a P]]]]].
    * now left.
    * right; left. exists j. auto.
    * right; right. split; [rewrite Cw; auto|exists j; auto].
Qed.

End Steps.
