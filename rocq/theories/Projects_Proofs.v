From Coq Require Import List Bool Arith Lia Sorted Permutation.
From Verif Require Import Sort_Lib Projects_Model Projects_Spec.
Import ListNotations.

Lemma name_eqb_spec a b : name_eqb a b = true <-> a = b.
Proof. unfold name_eqb. destruct list_eq_dec; split; congruence. Qed.
Lemma path_eqb_spec a b : path_eqb a b = true <-> a = b.
Proof. unfold path_eqb. destruct list_eq_dec; split; congruence. Qed.
Lemma path_eqb_refl a : path_eqb a a = true.
Proof. now apply path_eqb_spec. Qed.
Lemma path_eqb_false a b : path_eqb a b = false <-> a <> b.
Proof. unfold path_eqb. destruct list_eq_dec; split; congruence. Qed.
Lemma starts_with_inside root : forall p, starts_with p root = true <-> inside p root.
Proof.
  unfold inside. induction root as [|r root IH]; intros p.
  - split; intros _; [exists p; reflexivity|now destruct p].
  - destruct p as [|n p]; [split; [discriminate|intros [q E]; discriminate]|].
    cbn [starts_with]. rewrite andb_true_iff, name_eqb_spec, IH. split.
    + intros [<- [q ->]]. exists q. reflexivity.
    + intros [q E]. injection E as -> ->. split; [reflexivity|]. now exists q.
Qed.
Lemma starts_with_false p root : starts_with p root = false <-> ~ inside p root.
Proof. rewrite <- starts_with_inside. destruct (starts_with p root); split; congruence. Qed.
Lemma inside_refl p : inside p p.
Proof. exists []. now rewrite app_nil_r. Qed.
Lemma inside_trans a b c : inside a b -> inside b c -> inside a c.
Proof. intros [q ->] [r ->]. exists (r ++ q). now rewrite app_assoc. Qed.

(** Order. *)
Lemma path_total a : forall b, path_leb a b = true \/ path_leb b a = true.
Proof.
  induction a as [|x a IH]; intros [|y b]; cbn [path_leb]; auto.
  destruct (list_eq_dec Nat.eq_dec x y) as [->|N1].
  - destruct (list_eq_dec Nat.eq_dec y y); [apply IH|congruence].
  - destruct (list_eq_dec Nat.eq_dec y x); [congruence|]. apply lexb_total.
Qed.
Lemma path_trans a : forall b c, path_leb a b = true -> path_leb b c = true -> path_leb a c = true.
Proof.
  induction a as [|x a IH]; intros [|y b] [|z c]; cbn [path_leb]; auto; try discriminate.
  destruct (list_eq_dec Nat.eq_dec x y) as [->|N1].
  - destruct (list_eq_dec Nat.eq_dec y z) as [->|N2]; [apply IH|auto].
  - destruct (list_eq_dec Nat.eq_dec y z) as [->|N2].
    + destruct (list_eq_dec Nat.eq_dec x z); [congruence|]. auto.
    + destruct (list_eq_dec Nat.eq_dec x z) as [->|N3].
      * intros H1 H2. exfalso. apply N1. now apply lexb_antisym.
      * apply lexb_trans.
Qed.
Lemma path_antisym a : forall b, path_leb a b = true -> path_leb b a = true -> a = b.
Proof.
  induction a as [|x a IH]; intros [|y b]; cbn [path_leb]; auto; try discriminate.
  destruct (list_eq_dec Nat.eq_dec x y) as [->|N1].
  - destruct (list_eq_dec Nat.eq_dec y y); [|congruence]. intros H1 H2. f_equal. now apply IH.
  - destruct (list_eq_dec Nat.eq_dec y x); [congruence|]. intros H1 H2. exfalso. apply N1. now apply lexb_antisym.
Qed.

(** Between a directory and something inside it there is only what is inside it. *)
Lemma between a : forall b q, path_leb a b = true -> path_leb b (a ++ q) = true -> inside b a.
Proof.
  induction a as [|x a IH]; intros b q; [intros _ _; exists b; reflexivity|].
  destruct b as [|y b]; cbn [path_leb app]; [discriminate|].
  destruct (list_eq_dec Nat.eq_dec x y) as [->|N1].
  - destruct (list_eq_dec Nat.eq_dec y y); [|congruence]. intros H1 H2.
    destruct (IH b q H1 H2) as [r ->]. now exists r.
  - destruct (list_eq_dec Nat.eq_dec y x); [congruence|]. intros H1 H2. exfalso. apply N1. now apply lexb_antisym.
Qed.
Lemma inside_leb p r : inside p r -> path_leb r p = true.
Proof.
  intros [q ->]. induction r as [|x r IH]; [reflexivity|]. cbn [app path_leb].
  destruct (list_eq_dec Nat.eq_dec x x); [exact IH|congruence].
Qed.

Lemma dedup_in l : forall x, In x (dedup l) <-> In x l.
Proof.
  induction l as [|a l IH]; intros x; [reflexivity|]. cbn [dedup].
  destruct (dedup l) as [|y t] eqn:E.
  - cbn. rewrite <- (IH x). cbn. tauto.
  - destruct (path_eqb a y) eqn:Q; cbn; rewrite <- (IH x); cbn; [apply path_eqb_spec in Q as ->|]; tauto.
Qed.
Lemma dedup_ascending l : StronglySorted (Sort_Lib.le path_leb) l -> ascending (dedup l).
Proof.
  induction l as [|a l IH]; intros H; [exact Logic.I|]. inversion H as [|? ? H1 H2]; subst.
  specialize (IH H1). cbn [dedup].
  assert (HA : forall y, In y (dedup l) -> path_leb a y = true)
    by (intros y Hy; apply (proj1 (Forall_forall _ _) H2); now apply dedup_in).
  destruct (dedup l) as [|y t] eqn:E; [repeat constructor|].
  destruct (path_eqb a y) eqn:Q; [exact IH|].
  split; [|exact IH]. apply path_eqb_false in Q. destruct IH as [IH1 IH2].
  constructor; [split; [apply HA; now left|exact Q]|].
  apply Forall_forall. intros z Hz. split; [apply HA; now right|]. intros ->.
  apply (proj1 (Forall_forall _ _) IH1) in Hz as [Hz _]. apply Q. apply path_antisym; [apply HA; now left|exact Hz].
Qed.
Lemma ascending_nodup l : ascending l -> NoDup l.
Proof.
  induction l as [|a l IH]; intros H; [constructor|]. destruct H as [H1 H2]. constructor; [|auto].
  intros Hi. apply (proj1 (Forall_forall _ _) H1) in Hi as [_ Hi]. congruence.
Qed.
Lemma path_sort_sorted l : StronglySorted (Sort_Lib.le path_leb) (sort path_leb l).
Proof. apply sort_sorted; [intros x y; apply path_total|intros x y z; apply path_trans]. Qed.

Lemma ascending_unique l1 : forall l2, ascending l1 -> ascending l2 -> (forall x, In x l1 <-> In x l2) -> l1 = l2.
Proof.
  induction l1 as [|a l1 IH]; intros [|b l2] H1 H2 H; auto.
  - exfalso. apply (proj2 (H b)). now left.
  - exfalso. apply (proj1 (H a)). now left.
  - pose proof (ascending_nodup _ H1) as N1. pose proof (ascending_nodup _ H2) as N2.
    destruct H1 as [H1 H1']. destruct H2 as [H2 H2'].
    assert (a = b) as ->.
    { destruct (proj1 (H a) (or_introl eq_refl)) as [E|Ha]; [now symmetry|].
      destruct (proj2 (H b) (or_introl eq_refl)) as [E|Hb]; [exact E|].
      apply (proj1 (Forall_forall _ _) H2) in Ha as [Ha _]. apply (proj1 (Forall_forall _ _) H1) in Hb as [Hb _].
      now apply path_antisym. }
    f_equal. apply IH; auto. intros x. inversion N1; inversion N2; subst.
    split; intros Hx; assert (Hx' := Hx).
    + destruct (proj1 (H x) (or_intror Hx)) as [<-|Hy]; [contradiction|exact Hy].
    + destruct (proj2 (H x) (or_intror Hx)) as [<-|Hy]; [contradiction|exact Hy].
Qed.
(** Looking at neighbours suffices. *)
Lemma no_overlap_disjoint l : ascending l -> (no_overlap l = true <-> disjoint l).
Proof.
  unfold disjoint. induction l as [|a l IH]; intros H; [split; [intros _ x y []|reflexivity]|].
  destruct l as [|b t].
  - split; [|reflexivity]. intros _ x y [<-|[]] [<-|[]]. reflexivity.
  - change (no_overlap (a :: b :: t)) with (negb (starts_with b a) && no_overlap (b :: t)).
    destruct H as [H1 H2]. rewrite andb_true_iff, negb_true_iff, starts_with_false, (IH H2). split.
    + intros [Hn Hd] x y Hx Hy Hi.
      destruct Hx as [<-|Hx]; destruct Hy as [<-|Hy]; auto.
      * exfalso. apply inside_leb in Hi. apply (proj1 (Forall_forall _ _) H1) in Hy as [Hy N].
        apply N. now apply path_antisym.
      * exfalso. apply Hn. destruct Hi as [q ->].
        destruct Hx as [Hx|Hx]; [exists q; exact Hx|].
        apply (between a b q); [apply (proj1 (Forall_forall _ _) H1); now left|].
        destruct H2 as [H2 _]. now apply (proj1 (Forall_forall _ _) H2) in Hx as [Hx _].
    + intros Hd. split; [|intros x y Hx Hy; apply Hd; now right].
      intros Hi. apply (proj1 (Forall_forall _ _) H1 b); [now left|]. symmetry. apply Hd; auto; [now right; left|now left].
Qed.

(** * Discovery *)
Section TreeInd.
  Variable P : tree -> Prop.
  Hypothesis Hf : P TFile.
  Hypothesis Hl : P TLink.
  Hypothesis Hu : P TUnknown.
  Hypothesis Hd : forall r g l, Forall (fun e => P (snd e)) l -> P (TDir r g l).
  Fixpoint dir_ind (t : tree) : P t :=
    match t with
    | TFile => Hf | TLink => Hl | TUnknown => Hu
    | TDir r g l => Hd r g l ((fix go l : Forall (fun e => P (snd e)) l :=
        match l with [] => Forall_nil _ | e :: l' => Forall_cons e (dir_ind (snd e)) (go l') end) l)
    end.
End TreeInd.

Lemma pruned_spec n : pruned n = true <-> In n never_searched.
Proof.
  unfold pruned. rewrite existsb_exists. split.
  - intros (m & Hm & E). apply name_eqb_spec in E as ->. exact Hm.
  - intros H. exists n. split; [exact H|]. now apply name_eqb_spec.
Qed.

Lemma collect_none l : collect l = None <-> exists n, In (n, None) l.
Proof.
  induction l as [|[n [a|]] l IH]; cbn [collect].
  - split; [discriminate|intros [n []]].
  - destruct (collect l) eqn:E.
    + split; [discriminate|]. intros [m [Hm|Hm]]; [discriminate|]. assert (None = None :> option (list path)) by reflexivity.
      exfalso. enough (Some l0 = None) by discriminate. apply IH. now exists m.
    + split; [|reflexivity]. intros _. destruct (proj1 IH eq_refl) as [m Hm]. exists m. now right.
  - split; [|reflexivity]. intros _. exists n. now left.
Qed.
Lemma collect_some l r : collect l = Some r ->
  forall x, In x r <-> exists n a, In (n, Some a) l /\ In x a.
Proof.
  revert r. induction l as [|[n [a|]] l IH]; intros r; cbn [collect].
  - intros E. injection E as <-. intros x. split; [intros []|intros (n & a & [] & _)].
  - destruct (collect l) as [b|]; [|discriminate]. intros E. injection E as <-. intros x.
    rewrite in_app_iff, (IH b eq_refl x). split.
    + intros [H|(m & c & H1 & H2)]; [exists n, a; split; [now left|exact H]|exists m, c; split; [now right|exact H2]].
    + intros (m & c & [H1|H1] & H2); [injection H1 as <- <-; now left|right; eauto].
  - discriminate.
Qed.

Definition visit (p : path) (e : name * tree) : option (list path) :=
  match snd e with
  | TUnknown => None
  | TFile | TLink => Some []
  | TDir _ gemfile _ => if pruned (fst e) then Some [] else if gemfile then Some [p ++ [fst e]] else nested (p ++ [fst e]) (snd e)
  end.
Lemma nested_dir p g l : nested p (TDir true g l) = collect (sort by_name (map (fun e => (fst e, visit p e)) l)).
Proof. reflexivity. Qed.

Lemma gemfile_dec t : has_gemfile t = true <-> gemfile_in t.
Proof.
  unfold gemfile_in. destruct t as [| | |r g l]; cbn; try (split; [discriminate|intros (a & b & E); discriminate]).
  split; [intros ->; eauto|intros (a & b & E); congruence].
Qed.

(** The search gives up exactly on a directory that cannot be read. *)
Lemma nested_none t : forall p, has_gemfile t = false -> (nested p t = None <-> blocked t).
Proof.
  unfold blocked. induction t as [| | |r g l IH] using dir_ind; intros p Hg.
  - split; [intros _; exists [], TFile|reflexivity]. split; [constructor|]. split; [intros (a & b & E); discriminate|]. right. left. split; [reflexivity|]. intros; discriminate.
  - split; [intros _; exists [], TLink|reflexivity]. split; [constructor|]. split; [intros (a & b & E); discriminate|]. right. left. split; [reflexivity|]. intros; discriminate.
  - split; [intros _; exists [], TUnknown|reflexivity]. split; [constructor|]. split; [intros (a & b & E); discriminate|]. right. left. split; [reflexivity|]. intros; discriminate.
  - cbn in Hg. subst g. destruct r.
    + rewrite nested_dir, collect_none. split.
      * intros [n H]. apply sort_in in H. apply in_map_iff in H as ([m t] & E & Hin). cbn [fst snd] in E.
        injection E as -> E. unfold visit in E. cbn [fst snd] in E.
        destruct t as [| | |r g l']; try discriminate.
        -- exists [], (TDir true false l). split; [constructor|]. split; [intros (a & b & E'); discriminate|].
           right. right. exists true, l, n. auto.
        -- destruct (pruned n) eqn:Ep; [discriminate|]. destruct g; [discriminate|].
           pose proof (proj1 (Forall_forall _ _) IH _ Hin) as IHt. cbn [snd] in IHt.
           apply (IHt (p ++ [n]) eq_refl) in E as (q & d & Hs & Hn & Hb).
           exists (n :: q), d. split; [econstructor; [exact Hin| |exact Hs]; rewrite <- pruned_spec; congruence|].
           split; [exact Hn|]. destruct Hb as [Hb|[[-> Hb]|Hb]]; [now left| |now right; right].
           inversion Hs; subst. now destruct (Hb r false l').
      * intros (q & d & Hs & Hn & Hb). inversion Hs as [|r0 l0 n t q' d' Hin Hp Hs']; subst.
        -- destruct Hb as [[l' E]|[[_ Hb]|(r' & l' & n & E & Hin)]]; [discriminate|now destruct (Hb true false l)|].
           injection E as <- <-. exists n. apply sort_in. apply in_map_iff. now exists (n, TUnknown).
        -- exists n. apply sort_in. apply in_map_iff. exists (n, t). split; [|exact Hin]. cbn [fst]. f_equal.
           unfold visit. cbn [fst snd]. rewrite <- pruned_spec in Hp.
           assert (Hg : has_gemfile t = false).
           { destruct (has_gemfile t) eqn:G; [|reflexivity]. exfalso. apply gemfile_dec in G as (a & b & ->).
             inversion Hs'; subst. apply Hn. now exists a, b. }
           pose proof (proj1 (Forall_forall _ _) IH _ Hin) as IHt. cbn [snd] in IHt.
           destruct t as [| | |r g l'].
           ++ exfalso. inversion Hs'; subst. destruct Hb as [[l' E]|[[E _]|(r' & l' & m & E & _)]]; discriminate.
           ++ exfalso. inversion Hs'; subst. destruct Hb as [[l' E]|[[E _]|(r' & l' & m & E & _)]]; discriminate.
           ++ reflexivity.
           ++ destruct (pruned n); [congruence|]. cbn in Hg. subst g. apply (proj2 (IHt (p ++ [n]) eq_refl)).
              exists q', d. split; [exact Hs'|]. split; [exact Hn|].
              destruct Hb as [Hb|[[E _]|Hb]]; [now left|discriminate|now right; right].
    + split; [|reflexivity]. intros _. exists [], (TDir false false l). split; [constructor|].
      split; [intros (a & b & E); discriminate|]. left. now exists l.
Qed.

Lemma searched_gemfile t q d : searched t q d -> gemfile_in t -> q = [].
Proof. intros H (r & l & ->). inversion H; reflexivity. Qed.

Lemma nested_some t : forall p roots, has_gemfile t = false -> nested p t = Some roots ->
  forall x, In x roots <-> exists q, x = p ++ q /\ project_at t q.
Proof.
  unfold project_at. induction t as [| | |r g l IH] using dir_ind; intros p roots Hg; try discriminate.
  cbn in Hg. subst g. destruct r; [|discriminate]. rewrite nested_dir. intros H x.
  rewrite (collect_some _ _ H x). assert (HH := H). split.
  - intros (n & a & Hin & Hx). apply sort_in in Hin. apply in_map_iff in Hin as ([m t] & E & Hin).
    cbn [fst] in E. injection E as -> E. unfold visit in E. cbn [fst snd] in E.
    destruct t as [| | |r g l']; try discriminate; try (injection E as <-; contradiction).
    destruct (pruned n) eqn:Ep; [injection E as <-; contradiction|].
    assert (Hp : ~ In n never_searched) by (rewrite <- pruned_spec; congruence).
    destruct g.
    + injection E as <-. destruct Hx as [<-|[]]. exists [n]. split; [reflexivity|]. exists (TDir r true l').
      split; [econstructor; [exact Hin|exact Hp|constructor]|]. now exists r, l'.
    + pose proof (proj1 (Forall_forall _ _) IH _ Hin) as IHt. cbn [snd] in IHt.
      apply (IHt (p ++ [n]) a eq_refl E x) in Hx as (q & -> & d & Hs & Hgm).
      exists (n :: q). split; [now rewrite <- app_assoc|]. exists d. split; [econstructor; eauto|exact Hgm].
  - intros (q & -> & d & Hs & Hgm). inversion Hs as [|r0 l0 n t q' d' Hin Hp Hs']; subst.
    + destruct Hgm as (a & b & E). discriminate.
    + rewrite <- pruned_spec in Hp.
      assert (Hv : exists a, visit p (n, t) = Some a).
      { destruct (visit p (n, t)) as [a|] eqn:Ev; [now exists a|]. exfalso.
        enough (collect (sort by_name (map (fun e => (fst e, visit p e)) l)) = None) by congruence.
        apply collect_none. exists n. apply sort_in. apply in_map_iff. exists (n, t). now rewrite Ev. }
      destruct Hv as [a Ev]. exists n, a. split.
      { apply sort_in. apply in_map_iff. exists (n, t). now rewrite Ev. }
      unfold visit in Ev. cbn [fst snd] in Ev. destruct t as [| | |r g l'];
        try (inversion Hs'; subst; destruct Hgm as (x1 & x2 & E); discriminate).
      destruct (pruned n); [congruence|]. destruct g.
      * assert (q' = []) as -> by (eapply searched_gemfile; [exact Hs'|now exists r, l']).
        injection Ev as <-. now left.
      * pose proof (proj1 (Forall_forall _ _) IH _ Hin) as IHt. cbn [snd] in IHt.
        apply (IHt (p ++ [n]) a eq_refl Ev). exists q'. split; [now rewrite <- app_assoc|]. now exists d.
Qed.
