(** C104: the methods offered after a dot are the ones the receiver has. *)
From Coq Require Import List Arith Bool Lia Permutation Sorted.
From Verif Require Import Sort_Lib CompConst_Model CompConst_Props CompMeth_Model CompMeth_Spec.
Import ListNotations.

Lemma same_name_iff a b : same_name a b = true <-> a = b.
Proof. unfold same_name. destruct (list_eq_dec _ _ _); split; easy. Qed.
Lemma same_name_refl a : same_name a a = true.
Proof. now apply same_name_iff. Qed.

(** ** The first element with a property. *)
Lemma find_iff {A} (p : A -> bool) l x : find p l = Some x <->
  exists l1 l2, l = l1 ++ x :: l2 /\ p x = true /\ forall y, In y l1 -> p y = false.
Proof.
  split.
  - induction l as [|y l IH]; [easy|]. cbn [find]. destruct (p y) eqn:E.
    + intros [= ->]. exists [], l. repeat split; auto. easy.
    + intros H. destruct (IH H) as (l1 & l2 & -> & Hx & H1). exists (y :: l1), l2. repeat split; auto.
      intros z [<-|Hz]; auto.
  - intros (l1 & l2 & -> & Hx & H1). induction l1 as [|y l1 IH]; cbn [app find]; [now rewrite Hx|].
    rewrite H1 by now left. apply IH. intros z Hz. apply H1. now right.
Qed.
Lemma find_app {A} (p : A -> bool) l m : find p (l ++ m) = match find p l with Some x => Some x | None => find p m end.
Proof. induction l as [|y l IH]; cbn [app find]; auto. now destruct (p y). Qed.
Lemma find_filter {A} (p q : A -> bool) l : find p (filter q l) = find (fun x => q x && p x) l.
Proof. induction l as [|y l IH]; cbn [filter find]; auto. destruct (q y); cbn [find andb]; [|auto]. now destruct (p y). Qed.
Lemma find_flat_map {A B} (p : B -> bool) (h : A -> list B) l x : find p (flat_map h l) = Some x <->
  exists l1 a l2, l = l1 ++ a :: l2 /\ (forall b, In b l1 -> find p (h b) = None) /\ find p (h a) = Some x.
Proof.
  split.
  - induction l as [|a l IH]; [easy|]. cbn [flat_map]. rewrite find_app. destruct (find p (h a)) as [y|] eqn:E.
    + intros [= ->]. exists [], a, l. repeat split; auto. easy.
    + intros H. destruct (IH H) as (l1 & b & l2 & -> & H1 & H2). exists (a :: l1), b, l2. repeat split; auto.
      intros z [<-|Hz]; auto.
  - intros (l1 & a & l2 & -> & H1 & H2). induction l1 as [|b l1 IH]; cbn [app flat_map]; rewrite find_app.
    + now rewrite H2.
    + rewrite H1 by now left. apply IH. intros z Hz. apply H1. now right.
Qed.
Lemma find_none_iff {A} (p : A -> bool) l : find p l = None <-> forall x, In x l -> p x = false.
Proof.
  split; [apply find_none|]. induction l as [|y l IH]; cbn [find]; auto. intros H. rewrite H by now left.
  apply IH. intros x Hx. apply H. now right.
Qed.
Lemma firsts_find {A} (key : A -> name) (same : A -> A -> bool) (same_iff : forall x y, same x y = true <-> key x = key y) l x :
  In x (firsts same [] l) <-> find (fun y => same_name (key y) (key x)) l = Some x.
Proof.
  assert (forall seen, ~ In (key x) (map key seen) -> In x (firsts same seen l) <-> find (fun y => same_name (key y) (key x)) l = Some x) as H.
  { induction l as [|y l IH]; intros seen Ns; cbn [firsts find]; [easy|].
    destruct (existsb (same y) seen) eqn:E.
    - rewrite IH by auto. destruct (same_name (key y) (key x)) eqn:Ey; [|easy]. apply same_name_iff in Ey.
      apply existsb_exists in E. destruct E as (z & Iz & Ez). apply same_iff in Ez. exfalso. apply Ns. rewrite <- Ey, Ez. now apply in_map.
    - destruct (same_name (key y) (key x)) eqn:Ey.
      + apply same_name_iff in Ey. split; [|intros [= ->]; now left]. intros [->|H]; auto.
        apply (firsts_in key _ same_iff) in H. exfalso. apply (proj2 H). left. exact Ey.
      + assert (key y <> key x) as Ne by (intros C; apply same_name_iff in C; congruence). rewrite <- (IH (y :: seen)).
        * split; [intros [->|H]; [easy|auto]|now right].
        * intros [C|C]; auto. }
  apply H. easy.
Qed.

Section C104.
Variable R : Type.
Variable unite : R -> R -> option R.
Variable w : world R.
Notation mfact := (mfact R).
Notation cand := (cand R).
Notation mname := (mname R).
Notation cname := (cname R).
Notation mavail := (mavail R).
Notation facts_of := (facts_of R w).
Notation chain := (chain R w).

Lemma same_cname_iff (a b : cand) : same_cname R a b = true <-> cname a = cname b.
Proof. apply same_name_iff. Qed.

Definition usableb (l : list mfact) (f : mfact) : bool :=
    if existsb (fun g => is_absent R g && same_name (mname g) (mname f)) l then false
    else if existsb (fun g => is_unavailable R g && same_name (mname g) (mname f)) l then is_unavailable R f
    else true.
Lemma existsb_kind (q : mfact -> bool) (a : availability) l f : (forall g, q g = true <-> mavail g = a) ->
  existsb (fun g => q g && same_name (mname g) (mname f)) l = false <-> forall g, In g l -> mname g = mname f -> mavail g <> a.
Proof.
  intros Q. split.
  - intros H g Hg En Ea. assert (existsb (fun g => q g && same_name (mname g) (mname f)) l = true); [|congruence].
    apply existsb_exists. exists g. split; auto. apply andb_true_iff. split; [now apply Q|now apply same_name_iff].
  - intros H. destruct (existsb _ l) eqn:E; auto. apply existsb_exists in E. destruct E as (g & Hg & Eg).
    apply andb_true_iff in Eg. destruct Eg as (E1 & E2). apply Q in E1. apply same_name_iff in E2. now apply (H g) in E2.
Qed.
Lemma is_absent_iff g : is_absent R g = true <-> mavail g = Absent.
Proof. unfold is_absent. destruct (CompMeth_Model.mavail R g); split; easy. Qed.
Lemma is_unavailable_iff g : is_unavailable R g = true <-> mavail g = Unavailable.
Proof. unfold is_unavailable. destruct (CompMeth_Model.mavail R g); split; easy. Qed.
Lemma usable_iff l f : In f l -> (usableb l f = true <-> usable R l f).
Proof.
  intros If. unfold usableb, usable. pose proof (existsb_kind (is_absent R) Absent l f is_absent_iff) as EA.
  pose proof (existsb_kind (is_unavailable R) Unavailable l f is_unavailable_iff) as EU.
  destruct (existsb (fun g => is_absent R g && same_name (mname g) (mname f)) l) eqn:E1.
  - split; [easy|]. intros (_ & H & _). apply EA in H. congruence.
  - destruct (existsb (fun g => is_unavailable R g && same_name (mname g) (mname f)) l) eqn:E2.
    + rewrite is_unavailable_iff. split; [intros H; repeat split; auto; now apply EA|].
      intros (_ & _ & [H|H]); auto. apply EU in H. congruence.
    + split; auto. intros _. repeat split; auto; [now apply EA|]. right. now apply EU.
Qed.
Lemma effective_partial partial l :
  effective R (filter (fun f => starts partial (mname f)) l) = filter (fun f => starts partial (mname f)) (effective R l).
Proof.
  assert (forall (q : mfact -> bool) f, starts partial (mname f) = true ->
    existsb (fun g => q g && same_name (mname g) (mname f)) (filter (fun f => starts partial (mname f)) l)
    = existsb (fun g => q g && same_name (mname g) (mname f)) l) as E.
  { intros q f Hf. induction l as [|g l IH]; cbn [filter existsb]; auto. destruct (starts partial (mname g)) eqn:Eg.
    - cbn [existsb]. now rewrite IH.
    - rewrite IH. destruct (same_name (mname g) (mname f)) eqn:En; [|now rewrite andb_false_r].
      apply same_name_iff in En. congruence. }
  set (st := fun f => starts partial (mname f)) in *.
  change (filter (usableb (filter st l)) (filter st l) = filter st (filter (usableb l) l)). rewrite (filter_comm st (usableb l)).
  generalize l at 2 4. intros m. induction m as [|g m IH]; auto. cbn [filter]. destruct (st g) eqn:Eg; auto. cbn [filter]. rewrite IH.
  assert (usableb (filter st l) g = usableb l g) as ->; auto. unfold usableb. now rewrite !E.
Qed.

(** ** Methods of the project. *)
Lemma find_usable l n f : find (fun g => same_name (mname g) n) (effective R l) = Some f <->
  exists l1 l2, l = l1 ++ f :: l2 /\ mname f = n /\ usable R l f /\ forall g, In g l1 -> usable R l g -> mname g <> n.
Proof.
  change (effective R l) with (filter (usableb l) l). rewrite find_filter, find_iff. split; intros (l1 & l2 & El & H).
  - destruct H as (Hf & H). apply andb_true_iff in Hf. destruct Hf as (Hu & Hn). apply same_name_iff in Hn.
    assert (In f l) as If by (rewrite El; apply in_elt).
    exists l1, l2. repeat split; auto; try (now apply (usable_iff l f If)).
    intros g Hg Ug C. assert (In g l) as Ig by (rewrite El; apply in_or_app; now left).
    specialize (H g Hg). apply (usable_iff l g Ig) in Ug. rewrite Ug in H. cbn in H. apply same_name_iff in C. congruence.
  - destruct H as (Hn & Hu & H). assert (In f l) as If by (rewrite El; apply in_elt).
    exists l1, l2. repeat split; auto.
    + apply andb_true_iff. split; [now apply usable_iff|now apply same_name_iff].
    + intros g Hg. assert (In g l) as Ig by (rewrite El; apply in_or_app; now left).
      destruct (usableb l g) eqn:Eu; auto. cbn. destruct (same_name (mname g) n) eqn:En; auto.
      apply same_name_iff in En. apply (usable_iff l g Ig) in Eu. now apply H in En.
Qed.
Lemma find_calls ns n f : find (fun g => same_name (mname g) n) (flat_map (fun a => effective R (facts_of a)) (chain ns)) = Some f
  <-> calls R w ns n f.
Proof.
  rewrite find_flat_map. unfold calls. split; intros (l1 & a & l2 & E & H1 & H2); exists l1, a, l2; (split; [exact E|]); split.
  - intros b g Hb Hg C. specialize (H1 b Hb). rewrite find_none_iff in H1. assert (In g (effective R (facts_of b))) as Ig.
    { apply filter_In. split; [apply Hg|]. apply usable_iff; [apply Hg|auto]. }
    apply H1 in Ig. apply same_name_iff in C. congruence.
  - now apply find_usable.
  - intros b Hb. apply find_none_iff. intros g Hg. apply filter_In in Hg. destruct Hg as (Ig & Ug).
    apply (usable_iff (facts_of b) g Ig) in Ug. specialize (H1 b g Hb Ug). destruct (same_name (mname g) n) eqn:En; auto.
    now apply same_name_iff in En.
  - now apply find_usable.
Qed.
Lemma facts_matching_iff ns partial f : In f (facts_matching R w ns partial) <->
  exists_ns R w ns = true /\ starts partial (mname f) = true /\ calls R w ns (mname f) f.
Proof.
  unfold facts_matching. destruct (exists_ns R w ns); [|split; [easy|intros (H & _); easy]].
  rewrite sort_in. rewrite (firsts_find mname); [|intros; apply same_name_iff].
  assert (forall l, flat_map (fun a => effective R (filter (fun f => starts partial (mname f)) (facts_of a))) l
            = filter (fun f => starts partial (mname f)) (flat_map (fun a => effective R (facts_of a)) l)) as ->.
  { intros l. induction l as [|a l IH]; auto. cbn [flat_map]. rewrite IH, effective_partial.
    now rewrite filter_app. }
  rewrite find_filter. rewrite <- find_calls. split.
  - intros H. pose proof H as H'. apply find_some in H'. destruct H' as (_ & H'). apply andb_true_iff in H'. destruct H' as (Hs & _).
    repeat split; auto. rewrite <- H. clear H. induction (flat_map _ (chain ns)) as [|g l IH]; auto. cbn [find]. rewrite <- IH.
    destruct (same_name (mname g) (mname f)) eqn:E; [|now rewrite andb_false_r]. apply same_name_iff in E. rewrite E, Hs. auto.
  - intros (_ & Hs & H). rewrite <- H. clear H. induction (flat_map _ (chain ns)) as [|g l IH]; auto. cbn [find]. rewrite IH.
    destruct (same_name (mname g) (mname f)) eqn:E; [|now rewrite andb_false_r]. apply same_name_iff in E. rewrite E, Hs. auto.
Qed.
Lemma facts_matching_nodup ns partial : NoDup (map mname (facts_matching R w ns partial)).
Proof.
  unfold facts_matching. destruct (exists_ns R w ns); [|constructor].
  eapply Permutation_NoDup; [apply Permutation_map, sort_perm|]. apply firsts_nodup. intros; apply same_name_iff.
Qed.
Lemma namespaces_home s k : namespaces s k = match home s with Some p => [(p, k)] | None => [] end.
Proof. destruct s; reflexivity. Qed.
Lemma engine_iff partial k s c : In c (engine_single R w partial k s) <-> starts partial (cname c) = true /\ declared R w k s c.
Proof.
  unfold engine_single, declared. rewrite namespaces_home. destruct (home s) as [p|].
  2:{ cbn. split; [easy|]. intros (_ & p & f & H & _). easy. }
  cbn [flat_map]. rewrite app_nil_r, in_map_iff. split.
  - intros (f & <- & H). apply facts_matching_iff in H. destruct H as (H1 & H2 & H3). split; [exact H2|].
    exists p, f. repeat split; auto.
  - intros (Hs & p' & f & [= <-] & He & Hc & Hr & Hp). assert (mname f = cname c) as En.
    { destruct Hc as (? & ? & ? & _ & _ & ? & ? & _ & En & _). exact En. }
    exists f. split.
    + unfold as_cand. destruct c as [cn cp cr]. cbn in *. congruence.
    + apply facts_matching_iff. rewrite En. auto.
Qed.
Lemma engine_nodup partial k s : NoDup (map cname (engine_single R w partial k s)).
Proof.
  unfold engine_single. rewrite namespaces_home. destruct (home s); cbn [flat_map]; [|constructor]. rewrite app_nil_r, map_map.
  apply facts_matching_nodup.
Qed.

(** ** Core signatures. *)
Lemma signatures_eq k s : signatures R w k s =
  flat_map (fun n => rbs R w n k) (class_names s)
  ++ match k with Singleton => flat_map (fun n => rbs R w n Instance) [class_name; module_name] | Instance => [] end.
Proof. unfold signatures. rewrite flat_map_concat_map. destruct k; auto. cbn [flat_map]. now rewrite app_nil_r. Qed.
Lemma rbs_iff partial k s c : In c (rbs_single R w partial k s) <-> starts partial (cname c) = true /\ core R w k s c.
Proof.
  unfold rbs_single, core. rewrite signatures_eq. set (l := flat_map _ _ ++ _). rewrite sort_in, (firsts_find cname) by apply same_cname_iff.
  rewrite find_filter. unfold first_of. assert ((exists l1 l2, l = l1 ++ c :: l2 /\ forall d, In d l1 -> cname d <> cname c)
    <-> find (fun d => same_name (cname d) (cname c)) l = Some c) as ->.
  { rewrite find_iff. split; intros (l1 & l2 & E & H); exists l1, l2.
    - repeat split; auto; [apply same_name_refl|]. intros y Hy. specialize (H y Hy). destruct (same_name _ _) eqn:E'; auto. now apply same_name_iff in E'.
    - split; auto. intros d Hd C. apply same_name_iff in C. destruct H as (_ & H). rewrite H in C by auto. easy. }
  split.
  - intros H. pose proof H as H'. apply find_some in H'. destruct H' as (_ & H'). apply andb_true_iff in H'. destruct H' as (Hs & _).
    split; auto. rewrite <- H. clear H. induction l as [|g l IH]; auto. cbn [find]. rewrite <- IH.
    destruct (same_name (cname g) (cname c)) eqn:E; [|now rewrite andb_false_r]. apply same_name_iff in E. rewrite E, Hs. auto.
  - intros (Hs & H). rewrite <- H. clear H. induction l as [|g l IH]; auto. cbn [find]. rewrite IH.
    destruct (same_name (cname g) (cname c)) eqn:E; [|now rewrite andb_false_r]. apply same_name_iff in E. rewrite E, Hs. auto.
Qed.
Lemma rbs_nodup partial k s : NoDup (map cname (rbs_single R w partial k s)).
Proof.
  unfold rbs_single. eapply Permutation_NoDup; [apply Permutation_map, sort_perm|]. apply firsts_nodup. apply same_cname_iff.
Qed.

(** ** Unions. *)
Lemma nodup_find (l : list cand) c : NoDup (map cname l) -> In c l -> find (fun d => same_name (cname d) (cname c)) l = Some c.
Proof.
  induction l as [|d l IH]; [easy|]. cbn [map]. intros N0 H. inversion_clear N0. cbn [find]. destruct H as [->|H].
  - now rewrite same_name_refl.
  - destruct (same_name (cname d) (cname c)) eqn:E; auto. apply same_name_iff in E. exfalso. apply H0. rewrite E. now apply in_map.
Qed.
Lemma to_map_in l c : NoDup (map cname l) -> (In c (to_map R l) <-> In c l).
Proof.
  intros N0. unfold to_map. rewrite sort_in, (firsts_find cname) by apply same_cname_iff. split.
  - intros H. apply find_some in H. now apply in_rev.
  - intros H. apply nodup_find; [|now apply in_rev in H]. rewrite map_rev. apply NoDup_rev, N0.
Qed.
Lemma to_map_nodup l : NoDup (map cname (to_map R l)).
Proof. unfold to_map. eapply Permutation_NoDup; [apply Permutation_map, sort_perm|]. apply firsts_nodup, same_cname_iff. Qed.
Lemma meet_iff m c d : NoDup (map cname m) -> (In d (meet R unite m c) <->
  exists e, In e m /\ cname e = cname c /\ cparams R e = cparams R c /\ d = mkC R (cname c) (cparams R c) (join R unite (cret R c) (cret R e))).
Proof.
  intros N0. unfold meet. destruct (find _ m) as [e|] eqn:E.
  - apply find_some in E. destruct E as (Ie & Ee). apply same_name_iff in Ee.
    destruct (path_eqb (cparams R c) (cparams R e)) eqn:P.
    + apply path_eqb_iff in P. cbn [In]. split.
      * intros [<-|[]]. exists e. auto.
      * intros (e' & Ie' & Ee' & _ & ->). left. pose proof (nodup_find m e N0 Ie) as F. pose proof (nodup_find m e' N0 Ie') as F'.
        rewrite Ee' in F'. rewrite Ee in F. rewrite F in F'. injection F' as <-. reflexivity.
    + cbn [In]. split; [easy|]. intros (e' & Ie' & Ee' & Pe & ->). pose proof (nodup_find m e N0 Ie) as F. pose proof (nodup_find m e' N0 Ie') as F'.
      rewrite Ee' in F'. rewrite Ee in F. rewrite F in F'. injection F' as <-. symmetry in Pe. apply path_eqb_iff in Pe. congruence.
  - rewrite find_none_iff in E. cbn [In]. split; [easy|]. intros (e & Ie & Ee & _). apply E in Ie. apply same_name_iff in Ee. congruence.
Qed.

Section Common.
Variable f : single -> list cand.
Hypothesis unique : forall s, NoDup (map cname (f s)).

(** [c] is [a] with the methods of the same name and parameters of all the others joined in. *)
Fixpoint agree (a : cand) (rest : list single) (c : cand) : Prop :=
  match rest with
  | [] => c = a
  | s :: r => exists d, In d (f s) /\ cname d = cname a /\ cparams R d = cparams R a
                /\ agree (mkC R (cname a) (cparams R a) (join R unite (cret R a) (cret R d))) r c
  end.
Lemma fold_agree rest : forall acc c,
  In c (fold_left (fun acc s => flat_map (meet R unite (to_map R (f s))) acc) rest acc) <-> exists a, In a acc /\ agree a rest c.
Proof.
  induction rest as [|s rest IH]; intros acc c; cbn [fold_left agree].
  - split; [intros H; now exists c|intros (a & H & ->); auto].
  - rewrite IH. split.
    + intros (b & Ib & Hb). apply in_flat_map in Ib. destruct Ib as (a & Ia & Ib). apply meet_iff in Ib; [|apply to_map_nodup].
      destruct Ib as (d & Id & En & Ep & ->). apply (proj1 (to_map_in _ _ (unique s))) in Id. exists a. split; auto. exists d. auto.
    + intros (a & Ia & d & Id & En & Ep & Hc). eexists. split; [|exact Hc]. apply in_flat_map. exists a. split; auto.
      apply meet_iff; [apply to_map_nodup|]. exists d. repeat split; auto. now apply to_map_in.
Qed.
Lemma common_iff s rest c : In c (common R unite f s rest) <-> exists a, In a (f s) /\ agree a rest c.
Proof.
  unfold common. rewrite fold_agree. split; intros (a & Ia & H); exists a; (split; [|exact H]); now apply (to_map_in (f s) a (unique s)).
Qed.
Lemma agree_exists rest : forall a, (exists c, agree a rest c) <-> (forall m, In m rest -> exists d, In d (f m) /\ cname d = cname a /\ cparams R d = cparams R a).
Proof.
  induction rest as [|s rest IH]; intros a; cbn [agree].
  - split; [easy|]. intros _. now exists a.
  - split.
    + intros (c & d & Id & En & Ep & H) m [<-|Hm]; [now exists d|].
      destruct (proj1 (IH _) (ex_intro _ c H) m Hm) as (e & H1 & H2 & H3). exists e. auto.
    + intros H. destruct (H s (or_introl eq_refl)) as (d & Id & En & Ep).
      destruct (proj2 (IH (mkC R (cname a) (cparams R a) (join R unite (cret R a) (cret R d))))) as (c & Hc).
      { intros m Hm. apply H. now right. }
      exists c, d. auto.
Qed.
Lemma agree_name rest : forall a c, agree a rest c -> cname c = cname a /\ cparams R c = cparams R a.
Proof.
  induction rest as [|s rest IH]; intros a c; cbn [agree]; [now intros ->|].
  intros (d & _ & _ & _ & H). apply IH in H. exact H.
Qed.
(** A return type that is shown takes in the one of every member. *)
Lemma agree_return (covers : R -> R -> Prop) : (forall r, covers r r) -> (forall a b c, covers a b -> covers b c -> covers a c) ->
  (forall a b c, unite a b = Some c -> covers c a /\ covers c b) ->
  forall rest a c r, agree a rest c -> cret R c = Some r ->
  (exists ra, cret R a = Some ra /\ covers r ra) /\
  forall m, In m rest -> exists d rd, In d (f m) /\ cname d = cname a /\ cparams R d = cparams R a /\ cret R d = Some rd /\ covers r rd.
Proof.
  intros Rf Tr Un. induction rest as [|s rest IH]; intros a c r; cbn [agree].
  - intros -> Er. split; [eauto|easy].
  - intros (d & Id & En & Ep & H) Er. destruct (IH _ _ _ H Er) as ((ra & Ea & Ca) & Hm). cbn in Ea.
    unfold join in Ea. destruct (cret R a) as [x|]; [|easy]. destruct (cret R d) as [y|] eqn:Ed; [|easy].
    destruct (Un _ _ _ Ea) as (U1 & U2). split; [exists x; split; eauto|].
    intros m [<-|Im]; [exists d, y; eauto 6|]. destruct (Hm m Im) as (e & re & H1 & H2 & H3 & H4). exists e, re. auto.
Qed.
End Common.

(** ** C104 *)
Lemma methods_some r partial l : methods R unite w r partial = Some l ->
  exists e b, for_receiver R unite (engine_single R w partial (side_of r)) r = Some e
    /\ for_receiver R unite (rbs_single R w partial (side_of r)) r = Some b /\ l = firsts (same_cname R) [] (e ++ b).
Proof.
  unfold methods. destruct r as [s|[|s rest]]; cbn [for_receiver]; intros [= <-]; eauto.
Qed.

(** No name is offered twice. *)
Theorem C104_once : forall r partial l, methods R unite w r partial = Some l -> NoDup (map cname l).
Proof.
  intros r partial l H. apply methods_some in H. destruct H as (e & b & _ & _ & ->). apply firsts_nodup, same_cname_iff.
Qed.

(** The request is answered for every type but the union of nothing. *)
Theorem C104_answered : forall r partial, r <> Union [] -> exists l, methods R unite w r partial = Some l.
Proof. intros [s|[|s rest]] partial H; [| |]; try easy; unfold methods; cbn [for_receiver]; eauto. Qed.

(** After a receiver of one type: a name is offered exactly if it starts as typed and the code of the
    project or the core signatures give it to the receiver; the entry shows the method that would be
    called, and a core signature only where the project has none. *)
Definition is_class_object (s : single) : Prop := exists p, s = ClassItself p \/ s = ModuleItself p.
Theorem C104_single : forall s k partial l, methods R unite w (One s) partial = Some l ->
  (k = Singleton /\ is_class_object s \/ k = Instance /\ ~ is_class_object s) ->
  (forall c, In c l -> starts partial (cname c) = true
     /\ (declared R w k s c \/ core R w k s c /\ forall d, declared R w k s d -> cname d <> cname c))
  /\ (forall c, declared R w k s c -> (exists r, cname c = partial ++ r) -> In c l)
  /\ (forall c, core R w k s c -> (exists r, cname c = partial ++ r) -> (forall d, declared R w k s d -> cname d <> cname c) -> In c l).
Proof.
  intros s k partial l H K.
  assert (side_of (One s) = k) as Es.
  { destruct K as [(-> & p & [->| ->])|(-> & N0)]; auto. destruct s; auto; exfalso; apply N0; eexists; eauto. }
  apply methods_some in H. rewrite Es in H. destruct H as (e & b & [= <-] & [= <-] & ->). split; [|split].
  - intros c Hc. apply (firsts_find cname _ same_cname_iff) in Hc. rewrite find_app in Hc.
    destruct (find _ (engine_single R w partial k s)) as [x|] eqn:E.
    + injection Hc as ->. apply find_some in E. destruct E as (E & _). apply engine_iff in E. tauto.
    + apply find_some in Hc. destruct Hc as (Hc & _). apply rbs_iff in Hc. destruct Hc as (H1 & H2). split; auto. right. split; auto.
      intros d Hd C. rewrite find_none_iff in E. assert (In d (engine_single R w partial k s)) as Id by (apply engine_iff; rewrite C; auto).
      apply E in Id. apply same_name_iff in C. congruence.
  - intros c Hd Hs. apply starts_iff in Hs. apply (firsts_find cname _ same_cname_iff). rewrite find_app.
    rewrite nodup_find; [easy|apply engine_nodup|now apply engine_iff].
  - intros c Hd Hs Hn. apply starts_iff in Hs. apply (firsts_find cname _ same_cname_iff). rewrite find_app.
    destruct (find _ (engine_single R w partial k s)) as [x|] eqn:E.
    + apply find_some in E. destruct E as (E & En). apply engine_iff in E. destruct E as (_ & E). apply same_name_iff in En. now apply Hn in E.
    + apply nodup_find; [apply rbs_nodup|now apply rbs_iff].
Qed.

(** After a receiver of several types: a name is offered exactly if the code of the project gives it to
    all of them with the same parameters, or the core signatures do. *)
Theorem C104_union : forall s rest partial l, methods R unite w (Union (s :: rest)) partial = Some l ->
  forall n, (exists c, In c l /\ cname c = n) <->
    (exists t, n = partial ++ t) /\
    ((exists ps, forall m, In m (s :: rest) -> exists c, declared R w Instance m c /\ cname c = n /\ cparams R c = ps)
     \/ (exists ps, forall m, In m (s :: rest) -> exists c, core R w Instance m c /\ cname c = n /\ cparams R c = ps)).
Proof.
  intros s rest partial l H n. apply methods_some in H. cbn [side_of] in H. destruct H as (e & b & [= <-] & [= <-] & ->).
  assert (forall f (P : single -> cand -> Prop), (forall m, NoDup (map cname (f m))) ->
     (forall m c, In c (f m) <-> starts partial (cname c) = true /\ P m c) ->
     ((exists c, In c (common R unite f s rest) /\ cname c = n) <->
       (exists t, n = partial ++ t) /\ exists ps, forall m, In m (s :: rest) -> exists c, P m c /\ cname c = n /\ cparams R c = ps)) as Key.
  { intros f P U I. split.
    - intros (c & Ic & <-). apply common_iff in Ic; auto. destruct Ic as (a & Ia & Ha). pose proof (agree_name f rest a c Ha) as (En & Ep).
      rewrite En. split; [apply starts_iff; apply (I s a), Ia|]. exists (cparams R a). intros m [<-|Hm].
      + exists a. apply I in Ia. tauto.
      + destruct (proj1 (agree_exists f rest a) (ex_intro _ c Ha) m Hm) as (d & Id & H1 & H2). exists d. apply I in Id. tauto.
    - intros (Hs & ps & H). apply starts_iff in Hs. destruct (H s (or_introl eq_refl)) as (a & Pa & En & Ep).
      destruct (proj2 (agree_exists f rest a)) as (c & Hc).
      { intros m Hm. destruct (H m (or_intror Hm)) as (d & Pd & H1 & H2). exists d. repeat split; try congruence. apply I. rewrite H1. auto. }
      exists c. split; [|apply agree_name in Hc; now destruct Hc as (-> & _)].
      apply common_iff; auto. exists a. split; auto. apply I. rewrite En. auto. }
  pose proof (Key _ _ (engine_nodup partial Instance) (engine_iff partial Instance)) as K1.
  pose proof (Key _ _ (rbs_nodup partial Instance) (rbs_iff partial Instance)) as K2. clear Key.
  split.
  - intros (c & Hc & En). apply (firsts_in cname _ same_cname_iff) in Hc. destruct Hc as (Hc & _). apply in_app_or in Hc. destruct Hc as [Hc|Hc].
    + destruct (proj1 K1 (ex_intro _ c (conj Hc En))) as (Hs & H). auto.
    + destruct (proj1 K2 (ex_intro _ c (conj Hc En))) as (Hs & H). auto.
  - intros (Hs & H). assert (exists c, In c (common R unite (engine_single R w partial Instance) s rest ++ common R unite (rbs_single R w partial Instance) s rest) /\ cname c = n) as (c & Ic & <-).
    { destruct H as [H|H].
      - destruct (proj2 K1 (conj Hs H)) as (c & Ic & En). exists c. split; auto. apply in_or_app. now left.
      - destruct (proj2 K2 (conj Hs H)) as (c & Ic & En). exists c. split; auto. apply in_or_app. now right. }
    destruct (firsts_has cname _ same_cname_iff _ [] c Ic) as (d & Id & Ed); [easy|]. now exists d.
Qed.

(** The return type shown after several types takes in the one of each of them. *)
Theorem C104_return : forall (covers : R -> R -> Prop),
  (forall r, covers r r) -> (forall a b c, covers a b -> covers b c -> covers a c) ->
  (forall a b c, unite a b = Some c -> covers c a /\ covers c b) ->
  forall s rest partial l c r, methods R unite w (Union (s :: rest)) partial = Some l -> In c l -> cret R c = Some r ->
  forall m, In m (s :: rest) -> exists d rd, (declared R w Instance m d \/ core R w Instance m d)
    /\ cname d = cname c /\ cparams R d = cparams R c /\ cret R d = Some rd /\ covers r rd.
Proof.
  intros covers Rf Tr Un s rest partial l c r H Hc Er m Hm. apply methods_some in H. cbn [side_of] in H. destruct H as (e & b & [= <-] & [= <-] & ->).
  apply (firsts_in cname _ same_cname_iff) in Hc. destruct Hc as (Hc & _). apply in_app_or in Hc.
  destruct Hc as [Hc|Hc]; apply common_iff in Hc; auto using engine_nodup, rbs_nodup; destruct Hc as (a & Ia & Ha);
    pose proof (agree_name _ _ _ _ Ha) as (En & Ep); rewrite En, Ep;
    destruct (agree_return _ covers Rf Tr Un _ _ _ _ Ha Er) as ((ra & Ea & Ca) & Hr).
  - destruct Hm as [<-|Hm]; [exists a, ra; apply engine_iff in Ia; tauto|]. destruct (Hr m Hm) as (d & rd & Id & H). exists d, rd. apply engine_iff in Id. tauto.
  - destruct Hm as [<-|Hm]; [exists a, ra; apply rbs_iff in Ia; tauto|]. destruct (Hr m Hm) as (d & rd & Id & H). exists d, rd. apply rbs_iff in Id. tauto.
Qed.

(** *** Where it fails. *)
(** A method that one member has from the project and another from the core signatures is not offered,
    though both have it. *)
Theorem C104_mixed_refuted : forall a b n partial l,
  methods R unite w (Union [a; b]) partial = Some l ->
  (forall c, declared R w Instance b c -> cname c <> n) -> (forall c, core R w Instance a c -> cname c <> n) ->
  forall c, In c l -> cname c <> n.
Proof.
  intros a b n partial l H Hb Ha c Hc En. destruct (proj1 (C104_union a [b] partial l H n) (ex_intro _ c (conj Hc En))) as (_ & [(ps & P)|(ps & P)]).
  - destruct (P b) as (d & Hd & Ed & _); [right; now left|]. now apply Hb in Hd.
  - destruct (P a) as (d & Hd & Ed & _); [now left|]. now apply Ha in Hd.
Qed.
End C104.
Print Assumptions C104_once.
Print Assumptions C104_answered.
Print Assumptions C104_single.
Print Assumptions C104_union.
Print Assumptions C104_return.
Print Assumptions C104_mixed_refuted.

(** *** Concrete worlds. *)
Definition p_a : path := [[65]].
Definition p_b : path := [[66]].
Definition p_str : path := [[77]; [83]].
Definition meth (o : path) (n : name) (ps : list name) (v : visibility) : mfact nat := mkM nat n o ps (Some 1) Available v.
(** Classes [A] and [B] and [M::S]; [A#go(x)], [B#go(y)], [A#run] private, [B#run], [A.make]; a core class [S] with [up]. *)
Definition decls (ns : path * side) : list (mfact nat) :=
  match ns with
  | ([[65]], Instance) => [meth p_a [103; 111] [[120]] Public; meth p_a [114] [] Private]
  | ([[66]], Instance) => [meth p_b [103; 111] [[121]] Public; meth p_b [114] [] Public]
  | ([[65]], Singleton) | ([[66]], Singleton) => [meth (fst ns) [109] [] Public]
  | _ => []
  end.
Definition sample_world : world nat :=
  mkWorld nat (fun ns => [ns]) decls (fun _ => true)
    (fun n k => match n, k with [83], Instance => [mkC nat [117; 112] [] (Some 2)] | _, _ => [] end).
Definition pick (a b : nat) : option nat := Some (Nat.max a b).

(** Parameters of different names keep a method all members have from being offered; one of the same
    parameters is. *)
Theorem C104_parameters_refuted :
  methods nat pick sample_world (Union [ClassOf p_a; ClassOf p_b]) [] = Some [mkC nat [114] [] (Some 1)].
Proof. reflexivity. Qed.
(** Private methods are offered after an explicit receiver. *)
Theorem C104_private_refuted : methods nat pick sample_world (One (ClassOf p_a)) [114] = Some [mkC nat [114] [] (Some 1)]
  /\ In (meth p_a [114] [] Private) (decls (p_a, Instance)).
Proof. split; [reflexivity|]. right. now left. Qed.
(** After a value that is one of two classes the instance methods are offered, and not the methods of the
    classes themselves, though each class alone offers those. *)
Theorem C104_class_objects_refuted :
  methods nat pick sample_world (Union [ClassItself p_a; ClassItself p_b]) [] = Some [mkC nat [114] [] (Some 1)]
  /\ methods nat pick sample_world (One (ClassItself p_a)) [] = Some [mkC nat [109] [] (Some 1)]
  /\ methods nat pick sample_world (One (ClassItself p_b)) [] = Some [mkC nat [109] [] (Some 1)].
Proof. repeat split. Qed.
(** A class of the project called like a core class in another namespace is offered the core methods. *)
Theorem C104_namesake_refuted : methods nat pick sample_world (One (ClassOf p_str)) [] = Some [mkC nat [117; 112] [] (Some 2)]
  /\ rbs nat sample_world [77; 58; 58; 83] Instance = [].
Proof. repeat split. Qed.
Print Assumptions C104_parameters_refuted.
Print Assumptions C104_private_refuted.
Print Assumptions C104_class_objects_refuted.
Print Assumptions C104_namesake_refuted.
Example C104_declared : declared nat sample_world Instance (ClassOf p_a) (mkC nat [103; 111] [[120]] (Some 1)).
Proof.
  exists p_a, (meth p_a [103; 111] [[120]] Public). split; [reflexivity|]. split; [reflexivity|]. split; [|split; reflexivity].
  exists [], (p_a, Instance), []. split; [reflexivity|]. split; [easy|]. exists [], [meth p_a [114] [] Private].
  split; [reflexivity|]. split; [reflexivity|]. split; [|easy]. split; [now left|].
  split; [|right]; intros g [<-|[<-|[]]] _; discriminate.
Qed.
