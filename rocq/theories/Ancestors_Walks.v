(** The searches downwards: descendants, implementors, includers; and constant lookup. *)
From Coq Require Import List Arith Lia Bool Relations Permutation Sorted.
From Verif Require Import Sort_Lib Ancestors_Model Ancestors_Spec Ancestors_Proofs.
Import ListNotations.

Lemma fresh_in l x : forall seen, In x (fresh seen l) <-> In x l /\ ~ In x seen.
Proof.
  induction l as [|y l IH]; intros seen; [cbn; tauto|]. cbn [fresh]. destruct (mem y seen) eqn:E.
  - apply mem_in in E. rewrite IH. cbn [In]. split; [tauto|]. intros [[<-|?] ?]; tauto.
  - apply mem_false in E. cbn [In]. rewrite IH. cbn [In]. split.
    + intros [<-|[? ?]]; tauto.
    + intros [[<-|?] ?]; auto. destruct (ns_eq_dec y x); auto. right. tauto.
Qed.
Lemma fresh_nodup l : forall seen, NoDup (fresh seen l).
Proof.
  induction l as [|y l IH]; intros seen; [constructor|]. cbn [fresh]. destruct (mem y seen) eqn:E; auto.
  constructor; auto. rewrite fresh_in. cbn [In]. tauto.
Qed.

Lemma room_app U new : forall v, NoDup new -> incl new U -> (forall x, In x new -> ~ In x v) ->
  room U (new ++ v) + length new <= room U v.
Proof.
  induction new as [|x new IH]; intros v N I D; cbn [List.app length]; [lia|]. inversion N; subst.
  assert (room U (x :: new ++ v) < room U (new ++ v)).
  { apply room_cons; [apply I; now left|]. rewrite in_app_iff. intros [H|H]; [easy|]. apply (D x); [now left|auto]. }
  assert (room U (new ++ v) + length new <= room U v); [|lia].
  apply IH; auto; intros y Hy; [apply I|apply D]; now right.
Qed.

(** ** Descendants *)

Definition subclass_of (w : world) (f x : ns) : Prop :=
  exists e, In e (edges w) /\ kind e = Superclass /\ target e = f /\ source e = x.
Lemma subclasses_in w f x : In x (subclasses w f) <-> subclass_of w f x.
Proof.
  unfold subclasses, edges_in, subclass_of. rewrite in_map_iff. split.
  - intros (e & <- & H). rewrite !filter_In, same_eq, same_kind_eq in H. exists e. tauto.
  - intros (e & H1 & H2 & H3 & <-). exists e. rewrite !filter_In, same_eq, same_kind_eq. auto.
Qed.
Lemma rt_snoc {A} (R : A -> A -> Prop) a b c : clos_refl_trans_1n A R a b -> R b c -> clos_refl_trans_1n A R a c.
Proof.
  intros H1 H2. apply clos_rt_rt1n. eapply rt_trans; [apply clos_rt1n_rt; eauto|]. now apply rt_step.
Qed.
Lemma rt_closed {A} (R : A -> A -> Prop) (P : A -> Prop) a b : clos_refl_trans_1n A R a b ->
  (forall x y, P x -> R x y -> P y) -> P a -> P b.
Proof. intros H HP. induction H; auto. intros Ha. apply IHclos_refl_trans_1n. eauto. Qed.

Definition sources (w : world) : list ns := map source (edges w).
Lemma room_sources w v : room (sources w) v <= length (edges w).
Proof. pose proof (room_le_length (sources w) v) as H. unfold sources in *. now rewrite map_length in H. Qed.

Lemma descend_ok w f n : forall queue seen result,
  length queue + room (sources w) seen < n ->
  (forall x, In x seen <-> x = f \/ In x result) -> ~ In f result -> NoDup result ->
  (forall x, In x seen -> clos_refl_trans_1n ns (subclass_of w) f x) ->
  incl queue seen ->
  (forall x y, In x seen -> subclass_of w x y -> In x queue \/ In y seen) ->
  exists r, descend n w queue seen result = Some r /\ NoDup r /\
    forall x, In x r <-> x <> f /\ clos_refl_trans_1n ns (subclass_of w) f x.
Proof.
  induction n as [|n IH]; intros queue seen result Hr HS HF HN HD HQ HC; [lia|]. cbn [descend].
  destruct queue as [|x q].
  - exists result. split; auto. split; auto. intros x. split.
    + intros H. split; [intros ->; easy|]. apply HD, HS. auto.
    + intros [N H]. assert (In x seen) as Hx.
      { apply (rt_closed (subclass_of w) (fun y => In y seen) f x H).
        - intros y z Hy Hz. destruct (HC y z Hy Hz) as [[]|]; auto.
        - apply HS. auto. }
      apply HS in Hx. tauto.
  - set (new := fresh seen (subclasses w x)).
    assert (forall y, In y new <-> subclass_of w x y /\ ~ In y seen) as Hnew.
    { intros y. unfold new. now rewrite fresh_in, subclasses_in. }
    apply IH.
    + assert (room (sources w) (new ++ seen) + length new <= room (sources w) seen).
      { apply room_app; [apply fresh_nodup| |].
        - intros y Hy. apply Hnew in Hy. destruct Hy as [(e & H1 & _ & _ & <-) _]. now apply in_map.
        - intros y Hy. now apply Hnew in Hy. }
      cbn [length] in Hr. rewrite app_length. lia.
    + intros y. rewrite !in_app_iff, HS. tauto.
    + rewrite in_app_iff. intros [H|H]; auto. apply Hnew in H. destruct H as [_ H]. apply H, HS. auto.
    + apply nodup_app; auto; [apply fresh_nodup|]. intros y Hy Hn. apply Hnew in Hn. destruct Hn as [_ Hn].
      apply Hn, HS. auto.
    + intros y Hy. apply in_app_or in Hy. destruct Hy as [Hy|Hy]; auto. apply Hnew in Hy.
      apply rt_snoc with x; [|apply Hy]. apply HD, HQ. now left.
    + intros y Hy. apply in_app_or in Hy. apply in_or_app. destruct Hy as [Hy|Hy]; auto. right. apply HQ. now right.
    + intros y z Hy Hz. apply in_app_or in Hy. rewrite !in_app_iff. destruct Hy as [Hy|Hy]; auto.
      destruct (HC y z Hy Hz) as [[<-|H]|H]; auto.
      right. destruct (in_dec ns_eq_dec z seen); auto. left. now apply Hnew.
Qed.

Lemma descendants_ok w f : exists r, descendants w f = Some r /\ NoDup r /\
  forall x, In x r <-> x <> f /\ clos_refl_trans_1n ns (subclass_of w) f x.
Proof.
  apply descend_ok.
  - pose proof (room_sources w [f]). cbn [length]. lia.
  - intros x. cbn. intuition.
  - easy.
  - constructor.
  - intros x [<-|[]]. constructor.
  - intros x H. auto.
  - intros x y [<-|[]] _. left. now left.
Qed.

(** ** Implementors *)

Section Shown.
  Variable show : ns -> list nat.

  Lemma dedup_in l x : In x (dedup l) <-> In x l.
  Proof.
    induction l as [|y l IH]; [tauto|]. cbn [dedup]. destruct l as [|z l]; [tauto|].
    destruct (same y z) eqn:E.
    - apply same_eq in E. subst. rewrite IH. cbn [In]. tauto.
    - cbn [In] in *. rewrite IH. tauto.
  Qed.

  Definition mixed_into (w : world) (f x : ns) : Prop :=
    exists e, In e (edges w) /\ (kind e = Extend \/ ((kind e = Include \/ kind e = Prepend) /\ singleton (source e) = false)) /\
      target e = f /\ source e = x.
  Lemma mixers_in w f x : In x (mixers show w f) <-> mixed_into w f x.
  Proof.
    unfold mixers, edges_in, mixed_into. rewrite dedup_in, sort_in, in_map_iff. split.
    - intros (e & <- & H). rewrite !filter_In, same_eq in H. destruct H as [[H1 H2] H3]. exists e.
      repeat split; auto. unfold mixes in H3. destruct (kind e); try easy; auto; right; split; auto; now apply negb_true_iff.
    - intros (e & H1 & H2 & H3 & <-). exists e. rewrite !filter_In, same_eq. repeat split; auto. unfold mixes.
      destruct H2 as [->|[[->| ->] H2]]; auto; now rewrite H2.
  Qed.
  Lemma implements_cases w f x : implements w f x <-> subclass_of w f x \/ mixed_into w f x.
  Proof.
    unfold subclass_of, mixed_into. split.
    - intros H. destruct H; [left|right]; eauto 8.
    - intros [(e & H1 & H2 & <- & <-)|(e & H1 & H2 & <- & <-)]; [now apply subclass|now apply mixer].
  Qed.

  Lemma sub_implements w f x : clos_refl_trans_1n ns (subclass_of w) f x -> clos_refl_trans_1n ns (implements w) f x.
  Proof. intros H. induction H; [constructor|]. econstructor; eauto. apply implements_cases. auto. Qed.

  Lemma implement_ok w f n : forall queue visited result,
    length queue + room (sources w) visited < n ->
    (forall x, In x visited <-> x = f \/ In x result) -> ~ In f result -> NoDup result ->
    (forall x, In x visited -> clos_refl_trans_1n ns (implements w) f x) ->
    incl queue visited ->
    (classes_not_mixed_in w -> forall x y, In x visited -> implements w x y -> In x queue \/ In y visited) ->
    exists r, implement show n w queue visited result = Some r /\ NoDup r /\ StronglySorted (le (key_leb show)) r /\
      (forall x, In x r -> x <> f /\ clos_refl_trans_1n ns (implements w) f x) /\
      (classes_not_mixed_in w -> forall x, x <> f -> clos_refl_trans_1n ns (implements w) f x -> In x r).
  Proof.
    induction n as [|n IH]; intros queue visited result Hr HS HF HN HD HQ HC; [lia|]. cbn [implement].
    destruct queue as [|x q].
    - exists (sort (key_leb show) result). split; auto. split; [|split; [|split]].
      + eapply Permutation_NoDup; [apply sort_perm|auto].
      + apply sort_sorted; [apply key_total|apply key_trans].
      + intros x H. rewrite sort_in in H. split; [intros ->; easy|]. apply HD, HS. auto.
      + intros HW x N H. rewrite sort_in. assert (In x visited) as Hx.
        { apply (rt_closed (implements w) (fun y => In y visited) f x H).
          - intros y z Hy Hz. destruct (HC HW y z Hy Hz) as [[]|]; auto.
          - apply HS. auto. }
        apply HS in Hx. tauto.
    - destruct (descendants_ok w x) as (ds & -> & Nds & Hds).
      set (d := fresh visited ds). set (m := fresh (d ++ visited) (mixers show w x)).
      assert (forall y, In y d <-> In y ds /\ ~ In y visited) as Hd by (intros y; apply fresh_in).
      assert (forall y, In y m <-> mixed_into w x y /\ ~ In y (d ++ visited)) as Hm.
      { intros y. unfold m. now rewrite fresh_in, mixers_in. }
      assert (clos_refl_trans_1n ns (implements w) f x) as Hfx by (apply HD, HQ; now left).
      assert (NoDup d) as Nd by apply fresh_nodup. assert (NoDup m) as Nm by apply fresh_nodup.
      assert (forall y, In y ds -> exists g, subclass_of w g y) as Hsub.
      { intros y Hy. apply Hds in Hy. destruct Hy as [Ny Hy]. apply clos_rt1n_rt, clos_rt_rtn1 in Hy.
        destruct Hy as [|g y Hg _]; [easy|eauto]. }
      apply IH.
      + assert (room (sources w) (d ++ visited) + length d <= room (sources w) visited).
        { apply room_app; auto.
          - intros y Hy. apply Hd in Hy. destruct Hy as [Hy _]. destruct (Hsub y Hy) as (g & e & H1 & _ & _ & <-). now apply in_map.
          - intros y Hy. now apply Hd in Hy. }
        assert (room (sources w) (m ++ d ++ visited) + length m <= room (sources w) (d ++ visited)).
        { apply room_app; auto.
          - intros y Hy. apply Hm in Hy. destruct Hy as [(e & H1 & _ & _ & <-) _]. now apply in_map.
          - intros y Hy. now apply Hm in Hy. }
        cbn [length] in Hr. rewrite app_length, rev_length. lia.
      + intros y. rewrite !in_app_iff, HS. tauto.
      + rewrite !in_app_iff. intros [H|[H|H]]; auto.
        * apply Hd in H. destruct H as [_ H]. apply H, HS. auto.
        * apply Hm in H. destruct H as [_ H]. apply H, in_or_app. right. apply HS. auto.
      + apply nodup_app; auto; [apply nodup_app; auto|].
        * intros y Hy Hn. apply Hm in Hn. apply Hn, in_or_app. auto.
        * intros y Hy Hn. apply in_app_or in Hn. destruct Hn as [Hn|Hn].
          -- apply Hd in Hn. apply Hn, HS. auto.
          -- apply Hm in Hn. apply Hn, in_or_app. right. apply HS. auto.
      + intros y Hy. apply in_app_or in Hy. destruct Hy as [Hy|Hy].
        * apply Hm in Hy. apply rt_snoc with x; auto. apply implements_cases. tauto.
        * apply in_app_or in Hy. destruct Hy as [Hy|Hy]; auto. apply Hd in Hy. destruct Hy as [Hy _].
          apply Hds in Hy. destruct Hy as [_ Hy]. apply clos_rt_rt1n. eapply rt_trans; apply clos_rt1n_rt; eauto.
          now apply sub_implements.
      + intros y Hy. apply in_app_or in Hy. rewrite !in_app_iff. destruct Hy as [Hy|Hy].
        * apply in_rev in Hy. auto.
        * right. right. apply HQ. now right.
      + intros HW y z Hy Hz. rewrite !in_app_iff.
        assert (forall z, subclass_of w x z \/ In z ds -> In z m \/ In z d \/ In z visited) as Hsubs.
        { intros z' Hz'. destruct (in_dec ns_eq_dec z' visited); auto. right. left. apply Hd. split; auto.
          destruct Hz' as [Hz'|]; auto. apply Hds. split.
          - intros ->. apply n0, HQ. now left.
          - apply rt_snoc with x; auto. constructor. }
        apply in_app_or in Hy. destruct Hy as [Hy|Hy]; [left; left; now rewrite <- in_rev|].
        apply in_app_or in Hy. destruct Hy as [Hy|Hy].
        * right. apply Hd in Hy. destruct Hy as [Hy _]. apply implements_cases in Hz. destruct Hz as [Hz|Hz].
          -- destruct (ns_eq_dec z x) as [->|N]; [right; right; apply HQ; now left|]. apply Hsubs. right. apply Hds.
             split; auto. apply Hds in Hy. apply rt_snoc with y; tauto.
          -- exfalso. destruct (Hsub y Hy) as (g & e & H1 & H2 & _ & H3). destruct Hz as (e' & K1 & K2 & K3 & _).
             apply (HW e e' H1 H2 K1); [tauto|congruence].
        * destruct (HC HW y z Hy Hz) as [[<-|H]|H]; auto. right. apply implements_cases in Hz. destruct Hz as [Hz|Hz]; auto.
          destruct (in_dec ns_eq_dec z (d ++ visited)) as [H|H]; [apply in_app_or in H; tauto|]. left. now apply Hm.
  Qed.

  Lemma implementors_ok w f : exists r, implementors show w f = Some r /\ NoDup r /\ StronglySorted (le (key_leb show)) r /\
    (forall x, In x r -> x <> f /\ clos_refl_trans_1n ns (implements w) f x) /\
    (classes_not_mixed_in w -> forall x, x <> f -> clos_refl_trans_1n ns (implements w) f x -> In x r).
  Proof.
    apply implement_ok.
    - pose proof (room_sources w [f]). cbn [length]. lia.
    - intros x. cbn. intuition.
    - easy.
    - constructor.
    - intros x [<-|[]]. constructor.
    - intros x H. auto.
    - intros _ x y [<-|[]] _. left. now left.
  Qed.

  (** ** Includers *)

  Definition mixes_in (w : world) (f x : ns) : Prop :=
    exists e, In e (edges w) /\ (kind e = Include \/ kind e = Prepend) /\ target e = f /\ source e = x.
  Lemma includers_in w f x : In x (includers w f) <-> mixes_in w f x.
  Proof.
    unfold includers, edges_in, mixes_in. rewrite in_map_iff. split.
    - intros (e & <- & H). rewrite !filter_In, same_eq in H. destruct H as [[H1 H2] H3]. exists e.
      repeat split; auto. destruct (kind e); auto; easy.
    - intros (e & H1 & H2 & H3 & <-). exists e. rewrite !filter_In, same_eq. repeat split; auto.
      destruct H2 as [->| ->]; auto.
  Qed.

  Lemma include_loop_ok w f n : forall queue visited result,
    length queue + room (sources w) visited < n ->
    (forall x, In x visited -> includes w f x) ->
    (forall x, In x (includers w f) -> In x visited) ->
    incl queue visited -> NoDup (queue ++ result) ->
    (forall x, In x result -> In x visited /\ first_kind w x = Some Class) ->
    (forall x, In x visited -> first_kind w x = Some Class -> In x queue \/ In x result) ->
    (forall x y, In x visited -> first_kind w x = Some Module -> mixes_in w x y -> In x queue \/ In y visited) ->
    exists r, include_loop show n w queue visited result = Some r /\ NoDup r /\ StronglySorted (le (key_leb show)) r /\
      (forall x, In x r <-> includes w f x /\ first_kind w x = Some Class).
  Proof.
    induction n as [|n IH]; intros queue visited result Hr HD HF HQ HN HR1 HR2 HC; [lia|]. cbn [include_loop].
    destruct queue as [|x q].
    - exists (sort (key_leb show) result). split; auto. split; [|split].
      + eapply Permutation_NoDup; [apply sort_perm|auto].
      + apply sort_sorted; [apply key_total|apply key_trans].
      + assert (forall y, includes w f y -> In y visited) as HV.
        { intros y H. induction H as [e H1 H2 H3|x e H IH' K H1 H2 H3].
          - apply HF, includers_in. exists e. auto.
          - destruct (HC x (source e) IH' K) as [[]|]; auto. exists e. auto. }
        intros x. rewrite sort_in. split.
        * intros H. destruct (HR1 x H). auto.
        * intros [H K]. destruct (HR2 x (HV x H) K) as [[]|]; auto.
    - cbn [List.app] in HN. inversion HN as [|x' l Hx HN']; subst. rewrite in_app_iff in Hx.
      assert (In x visited) as Hxv by (apply HQ; now left).
      assert (forall y, In y q -> In y visited) as Hqv by (intros y Hy; apply HQ; now right).
      destruct (first_kind w x) as [[|]|] eqn:K.
      + apply IH; auto.
        * cbn in Hr. lia.
        * apply Permutation_NoDup with (x :: q ++ result); auto. rewrite app_assoc.
          apply Permutation_cons_append.
        * intros y Hy. apply in_app_or in Hy. destruct Hy as [Hy|[<-|[]]]; auto.
        * intros y Hy Ky. rewrite in_app_iff. cbn [In]. destruct (HR2 y Hy Ky) as [[<-|H]|H]; auto.
        * intros y z Hy Ky Hz. destruct (HC y z Hy Ky Hz) as [[<-|H]|H]; auto. congruence.
      + set (new := fresh visited (includers w x)).
        assert (forall y, In y new <-> mixes_in w x y /\ ~ In y visited) as Hnew.
        { intros y. unfold new. now rewrite fresh_in, includers_in. }
        apply IH.
        * assert (room (sources w) (new ++ visited) + length new <= room (sources w) visited).
          { apply room_app; [apply fresh_nodup| |].
            - intros y Hy. apply Hnew in Hy. destruct Hy as [(e & H1 & _ & _ & <-) _]. now apply in_map.
            - intros y Hy. now apply Hnew in Hy. }
          cbn [length] in Hr. rewrite app_length. lia.
        * intros y Hy. apply in_app_or in Hy. destruct Hy as [Hy|Hy]; auto. apply Hnew in Hy.
          destruct Hy as [(e & H1 & H2 & H3 & <-) _]. apply through with x; auto.
        * intros y Hy. apply in_or_app. auto.
        * intros y Hy. apply in_app_or in Hy. apply in_or_app. destruct Hy; auto.
        * apply nodup_app.
          -- apply nodup_app; [|apply fresh_nodup|].
             ++ clear - HN'. induction q as [|a q IHq]; [constructor|]. cbn in HN'. inversion HN'; subst. constructor; auto.
                intros H. apply H1, in_or_app. auto.
             ++ intros y Hy Hn. apply Hnew in Hn. now apply Hn, Hqv.
          -- clear - HN'. induction q as [|a q IHq]; auto. cbn in HN'. inversion HN'; auto.
          -- intros y Hy Hres. apply in_app_or in Hy. destruct Hy as [Hy|Hy].
             ++ clear - HN' Hy Hres. induction q as [|a q IHq]; [easy|]. cbn in HN'. inversion HN'; subst.
                destruct Hy as [<-|Hy]; auto. apply H1, in_or_app. auto.
             ++ apply Hnew in Hy. apply Hy. now apply HR1.
        * intros y Hy. destruct (HR1 y Hy). split; auto. apply in_or_app. auto.
        * intros y Hy Ky. apply in_app_or in Hy. rewrite in_app_iff. destruct Hy as [Hy|Hy]; auto.
          destruct (HR2 y Hy Ky) as [[<-|H]|H]; auto. congruence.
        * intros y z Hy Ky Hz. apply in_app_or in Hy. rewrite !in_app_iff. destruct Hy as [Hy|Hy]; auto.
          destruct (HC y z Hy Ky Hz) as [[<-|H]|H]; auto.
          right. destruct (in_dec ns_eq_dec z visited); auto. left. now apply Hnew.
      + apply IH; auto.
        * cbn in Hr. lia.
        * intros y Hy Ky. destruct (HR2 y Hy Ky) as [[<-|H]|H]; auto. congruence.
        * intros y z Hy Ky Hz. destruct (HC y z Hy Ky Hz) as [[<-|H]|H]; auto. congruence.
  Qed.

  Lemma module_includers_ok w f : exists r, module_includers show w f = Some r /\ NoDup r /\
    StronglySorted (le (key_leb show)) r /\
    (forall x, In x r <-> includes w f x /\ first_kind w x = Some Class).
  Proof.
    unfold module_includers. set (q := fresh [] (includers w f)).
    assert (forall y, In y q <-> mixes_in w f y) as Hq.
    { intros y. unfold q. rewrite fresh_in, includers_in. cbn. tauto. }
    apply include_loop_ok.
    - assert (room (sources w) (q ++ []) + length q <= room (sources w) []) as H.
      { apply room_app; [apply fresh_nodup| |intros x _ []].
        intros y Hy. apply Hq in Hy. destruct Hy as (e & H1 & _ & _ & <-). now apply in_map. }
      rewrite app_nil_r in H. pose proof (room_sources w []). lia.
    - intros y Hy. apply Hq in Hy. destruct Hy as (e & H1 & H2 & H3 & <-). now apply directly.
    - intros y Hy. apply Hq. now apply includers_in.
    - intros y Hy. auto.
    - rewrite app_nil_r. apply fresh_nodup.
    - easy.
    - auto.
    - auto.
  Qed.
End Shown.

(** ** Constant lookup *)

Lemma firstn_all' {A} (l : list A) : firstn (length l) l = l.
Proof. induction l; cbn; congruence. Qed.

Lemma lexical_innermost {A} (probe : list nat -> option A) parts context :
  innermost probe parts context (lexical probe parts (rev context)).
Proof.
  rewrite <- (rev_involutive context) at 1. generalize (rev context). clear context. intros space.
  induction space as [|a space IH].
  - cbn. destruct (probe parts) eqn:E.
    + exists 0. repeat split; auto. cbn. lia.
    + intros n _. now rewrite firstn_nil.
  - cbn [lexical]. destruct (probe (rev (a :: space) ++ parts)) as [r|] eqn:E.
    + exists (length (rev (a :: space))). rewrite firstn_all'. repeat split; auto. lia.
    + assert (length (rev (a :: space)) = S (length (rev space))) as L.
      { cbn [rev]. rewrite app_length. cbn. lia. }
      assert (forall n, n <= length (rev space) -> firstn n (rev (a :: space)) = firstn n (rev space)) as HF.
      { intros n Hn. cbn [rev]. rewrite firstn_app. replace (n - length (rev space)) with 0 by lia. cbn. apply app_nil_r. }
      unfold innermost in *. rewrite L. destruct (lexical probe parts space) as [r|].
      * destruct IH as (n & H1 & H2 & H3). exists n. split; [lia|]. rewrite HF by auto. split; auto.
        intros m Hm. destruct (Nat.eq_dec m (S (length (rev space)))) as [->|N].
        -- rewrite <- L, firstn_all'. exact E.
        -- rewrite HF by lia. apply H3. lia.
      * intros n Hn. destruct (Nat.eq_dec n (S (length (rev space)))) as [->|N].
        -- rewrite <- L, firstn_all'. exact E.
        -- rewrite HF by lia. apply IH. lia.
Qed.
