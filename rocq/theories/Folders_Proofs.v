From Coq Require Import List Bool Arith Lia.
From Verif Require Import Sort_Lib Projects_Model Projects_Spec Projects_Proofs.
Import ListNotations.

Lemma run_snoc h e : run (h ++ [e]) = apply (run h) e.
Proof. unfold run. now rewrite fold_left_app. Qed.
Lemma run_app h h' : run (h ++ h') = fold_left apply h' (run h).
Proof. unfold run. now rewrite fold_left_app. Qed.

(** Asking, reaching, closing and rebuilding leave the projects alone. *)
Definition about_folders (e : event) : bool := match e with Add _ _ | Remove _ => true | _ => false end.
Lemma apply_projects s e : about_folders e = false -> projects (apply s e) = projects s /\ next_engine (apply s e) = next_engine s.
Proof.
  destruct e; try discriminate; intros _; cbn [apply].
  - unfold context_for. destruct (workspace_for s doc); [now split|].
    destruct (lookup doc (retained s)); [|now split]. destruct (find _ (projects s)); now split.
  - destruct (find _ (projects s)); [|now split]. unfold retain. destruct (workspace_for s doc); now split.
  - now split.
  - now split.
Qed.

(** ** The folders a project was found in *)
Definition has (l : list project) (f r : path) : Prop := exists p, In p l /\ proot p = r /\ In f (pfolders p).
Lemma insert_folder_in f l g : In g (insert_folder f l) <-> g = f \/ In g l.
Proof.
  unfold insert_folder. destruct (existsb (path_eqb f) l) eqn:E.
  - apply existsb_exists in E as (x & Hx & Ex). apply path_eqb_spec in Ex as ->. split; [auto|]. intros [->|H]; auto.
  - rewrite in_app_iff. cbn. split; [intros [H|[H|[]]]; auto|intros [H|H]; auto].
Qed.
Lemma own_in r f l : forall p, In p (own r f l) ->
  In p l \/ exists q, In q l /\ proot q = r /\ p = mkProject (proot q) (pengine q) (insert_folder f (pfolders q)).
Proof.
  induction l as [|q l IH]; intros p H; cbn [own] in H; [contradiction|].
  destruct (path_eqb (proot q) r) eqn:E.
  - apply path_eqb_spec in E. destruct H as [<-|H]; [right; exists q; split; [now left|auto]|left; now right].
  - destruct H as [<-|H]; [left; now left|]. destruct (IH p H) as [H'|(q' & H1 & H2)]; [left; now right|right; exists q'; split; [now right|exact H2]].
Qed.
Lemma own_roots r f l : map proot (own r f l) = map proot l.
Proof. induction l as [|q l IH]; cbn [own]; [reflexivity|]. destruct (path_eqb (proot q) r); cbn; congruence. Qed.
Lemma own_engines r f l : map pengine (own r f l) = map pengine l.
Proof. induction l as [|q l IH]; cbn [own]; [reflexivity|]. destruct (path_eqb (proot q) r); cbn; congruence. Qed.
Lemma own_has r f l g r0 : existsb (fun p => path_eqb (proot p) r) l = true ->
  (has (own r f l) g r0 <-> (g = f /\ r0 = r) \/ has l g r0).
Proof.
  unfold has. induction l as [|q l IH]; intros E; [discriminate|]. cbn [own existsb] in *.
  destruct (path_eqb (proot q) r) eqn:Q.
  - apply path_eqb_spec in Q. split.
    + intros (p & [<-|Hp] & Hr & Hg); cbn [proot pfolders] in *.
      * apply insert_folder_in in Hg as [->|Hg]; [left; split; congruence|]. right. exists q. cbn; auto.
      * right. exists p. cbn; auto.
    + intros [[-> ->]|(p & [<-|Hp] & Hr & Hg)].
      * eexists. split; [now left|]. cbn. split; [exact Q|]. apply insert_folder_in. now left.
      * eexists. split; [now left|]. cbn. split; [exact Hr|]. apply insert_folder_in. now right.
      * exists p. cbn; auto.
  - cbn [orb] in E. specialize (IH E). split.
    + intros (p & [<-|Hp] & Hr & Hg); [right; exists q; cbn; auto|].
      destruct (proj1 IH) as [H|(p' & H1 & H2)]; [exists p; auto|now left|right; exists p'; cbn; auto].
    + intros H. assert (H' : ((g = f /\ r0 = r) \/ exists p, In p l /\ proot p = r0 /\ In g (pfolders p)) \/ (proot q = r0 /\ In g (pfolders q))).
      { destruct H as [H|(p & [<-|Hp] & H2)]; [left; now left|now right|left; right; exists p; auto]. }
      destruct H' as [H'|H']; [|exists q; cbn; auto].
      destruct (proj2 IH H') as (p & H1 & H2). exists p. cbn; auto.
Qed.
Lemma add_project_has f s r g r0 :
  has (projects (add_project f s r)) g r0 <-> (g = f /\ r0 = r) \/ has (projects s) g r0.
Proof.
  unfold add_project. destruct (existsb (fun p => path_eqb (proot p) r) (projects s)) eqn:E; cbn [projects].
  - now apply own_has.
  - unfold has. split.
    + intros (p & Hp & Hr & Hg). apply in_app_iff in Hp as [Hp|[<-|[]]]; [right; exists p; auto|].
      cbn in *. destruct Hg as [<-|[]]. left. auto.
    + intros [[-> ->]|(p & Hp & H)].
      * eexists. split; [apply in_app_iff; right; now left|]. cbn. auto.
      * exists p. split; [apply in_app_iff; now left|exact H].
Qed.
Lemma add_folder_has l f : forall s g r0,
  has (projects (fold_left (add_project f) l s)) g r0 <-> (g = f /\ In r0 l) \/ has (projects s) g r0.
Proof.
  induction l as [|r l IH]; intros s g r0; cbn [fold_left]; [cbn; tauto|].
  rewrite IH, add_project_has. cbn [In]. split; [intros [[-> H]|[[-> ->]|H]]; auto|intros [[-> [<-|H]]|H]; auto].
Qed.
Lemma remove_folder_in f l g : In g (remove_folder_from f l) <-> In g l /\ g <> f.
Proof.
  unfold remove_folder_from. rewrite filter_In, negb_true_iff, path_eqb_false. split; intros [H1 H2]; split; congruence.
Qed.
Lemma remove_has s f g r0 : has (projects (remove_folder s f)) g r0 <-> g <> f /\ has (projects s) g r0.
Proof.
  unfold has, remove_folder. cbn [projects]. split.
  - intros (p & Hp & Hr & Hg). apply filter_In in Hp as [Hp _]. apply in_map_iff in Hp as (q & <- & Hq).
    cbn [proot pfolders] in *. apply remove_folder_in in Hg as [Hg Hn]. split; [exact Hn|]. exists q. auto.
  - intros (Hn & q & Hq & Hr & Hg).
    exists (mkProject (proot q) (pengine q) (remove_folder_from f (pfolders q))). cbn [proot pfolders].
    assert (HF : In g (remove_folder_from f (pfolders q))) by (apply remove_folder_in; auto).
    split; [|auto]. apply filter_In. split; [apply in_map_iff; now exists q|]. cbn [pfolders].
    destruct (remove_folder_from f (pfolders q)); [contradiction|reflexivity].
Qed.

Lemma held_snoc h e f r : held (h ++ [e]) f r <->
  (exists l, e = Add f (Some l) /\ In r l) \/ (held h f r /\ e <> Remove f).
Proof.
  unfold held. split.
  - intros (h1 & l & h2 & E & Hr & Hn). destruct h2 as [|x h2] using rev_ind.
    + apply app_inj_tail in E as [_ ->]. left. now exists l.
    + clear IHh2. rewrite app_comm_cons, app_assoc in E. apply app_inj_tail in E as [-> ->].
      right. split; [|intros ->; apply Hn; apply in_app_iff; right; now left].
      exists h1, l, h2. split; [reflexivity|]. split; [exact Hr|]. intros H. apply Hn. apply in_app_iff. now left.
  - intros [(l & -> & Hr)|[(h1 & l & h2 & -> & Hr & Hn) He]].
    + exists h, l, []. auto.
    + exists h1, l, (h2 ++ [e]). split; [now rewrite <- app_assoc|]. split; [exact Hr|].
      intros H. apply in_app_iff in H as [H|[H|[]]]; auto.
Qed.
Lemma has_held h f r : has (projects (run h)) f r <-> held h f r.
Proof.
  revert f r. induction h as [|e h IH] using rev_ind; intros f r.
  - split; [intros (p & [] & _)|]. intros (h1 & l & h2 & E & _). destruct h1; discriminate.
  - rewrite run_snoc, held_snoc. destruct (about_folders e) eqn:A.
    + destruct e; try discriminate; cbn [apply].
      * unfold add_folder. destruct found as [l|].
        -- rewrite add_folder_has, IH. split.
           ++ intros [[-> H]|H]; [left; now exists l|right; split; [exact H|discriminate]].
           ++ intros [(l' & E & H)|[H _]]; [injection E as -> ->; now left|now right].
        -- rewrite IH. split; [intros H; right; split; [exact H|discriminate]|].
           intros [(l' & E & _)|[H _]]; [discriminate|exact H].
      * rewrite remove_has, IH. split.
        -- intros [Hn H]. right. split; [exact H|congruence].
        -- intros [(l' & E & _)|[H Hn]]; [discriminate|]. split; [congruence|exact H].
    + rewrite (proj1 (apply_projects (run h) e A)), IH. split.
      * intros H. right. split; [exact H|]. intros ->. discriminate.
      * intros [(l' & -> & _)|[H _]]; [discriminate|exact H].
Qed.

(** ** Every project was found somewhere, once, and has an engine of its own. *)
Record sound (s : server) : Prop := {
  sd_folders : forall p, In p (projects s) -> pfolders p <> [];
  sd_roots : NoDup (map proot (projects s));
  sd_engines : NoDup (map pengine (projects s));
  sd_next : forall p, In p (projects s) -> pengine p < next_engine s }.
Lemma insert_nonnil f l : insert_folder f l <> [].
Proof.
  intros E. assert (H : In f (insert_folder f l)) by (apply insert_folder_in; now left). rewrite E in H. exact H.
Qed.
Lemma nodup_snoc {A} (l : list A) x : NoDup l -> ~ In x l -> NoDup (l ++ [x]).
Proof.
  intros H N. apply NoDup_rev in H. apply (NoDup_cons x) in H; [|now rewrite <- in_rev].
  apply NoDup_rev in H. cbn in H. now rewrite rev_involutive in H.
Qed.
Lemma add_project_sound f s r : sound s -> sound (add_project f s r).
Proof.
  intros [H1 H2 H3 H4]. unfold add_project.
  destruct (existsb (fun p => path_eqb (proot p) r) (projects s)) eqn:E; constructor; cbn [projects next_engine].
  - intros p Hp. apply own_in in Hp as [Hp|(q & _ & _ & ->)]; [auto|apply insert_nonnil].
  - now rewrite own_roots.
  - now rewrite own_engines.
  - intros p Hp. apply own_in in Hp as [Hp|(q & Hq & _ & ->)]; [auto|cbn; auto].
  - intros p Hp. apply in_app_iff in Hp as [Hp|[<-|[]]]; [auto|discriminate].
  - rewrite map_app. apply nodup_snoc; [exact H2|]. cbn. intros Hi. apply in_map_iff in Hi as (p & Ep & Hp).
    enough (existsb (fun p => path_eqb (proot p) r) (projects s) = true) by congruence.
    apply existsb_exists. exists p. split; [exact Hp|now apply path_eqb_spec].
  - rewrite map_app. apply nodup_snoc; [exact H3|]. cbn. intros Hi. apply in_map_iff in Hi as (p & Ep & Hp).
    apply H4 in Hp. lia.
  - intros p Hp. apply in_app_iff in Hp as [Hp|[<-|[]]]; [apply H4 in Hp; lia|cbn; lia].
Qed.
Lemma nodup_filter {A B} (g : A -> B) (p : A -> bool) l : NoDup (map g l) -> NoDup (map g (filter p l)).
Proof.
  induction l as [|a l IH]; cbn; intros H; [constructor|]. inversion H as [|? ? N H']; subst. specialize (IH H').
  destruct (p a); [|exact IH]. cbn. constructor; [|exact IH].
  intros Hi. apply N. apply in_map_iff in Hi as (x & E & Hx). apply filter_In in Hx as [Hx _]. apply in_map_iff. eauto.
Qed.
Lemma remove_sound f s : sound s -> sound (remove_folder s f).
Proof.
  intros [H1 H2 H3 H4]. unfold remove_folder. constructor; cbn [projects next_engine].
  - intros p Hp. apply filter_In in Hp as [_ Hp]. intros E. rewrite E in Hp. discriminate.
  - apply nodup_filter. rewrite map_map. exact H2.
  - apply nodup_filter. rewrite map_map. exact H3.
  - intros p Hp. apply filter_In in Hp as [Hp _]. apply in_map_iff in Hp as (q & <- & Hq). cbn. auto.
Qed.
Lemma apply_sound s e : sound s -> sound (apply s e).
Proof.
  intros H. destruct (about_folders e) eqn:A.
  - destruct e; try discriminate; cbn [apply].
    + unfold add_folder. destruct found as [l|]; [|exact H]. clear A. revert s H. induction l as [|r l IH]; intros s H; [exact H|].
      cbn [fold_left]. apply IH. now apply add_project_sound.
    + now apply remove_sound.
  - destruct (apply_projects s e A) as [E1 E2]. destruct H as [H1 H2 H3 H4]. constructor; rewrite ?E1, ?E2; auto.
Qed.
Lemma run_sound h : sound (run h).
Proof.
  induction h as [|e h IH] using rev_ind; [|rewrite run_snoc; now apply apply_sound].
  constructor; cbn; try constructor; intros p [].
Qed.

(** ** Routing *)
Lemma text_length_app a b : text_length (a ++ b) = text_length a + list_sum (map (fun n => S (length n)) b).
Proof. unfold text_length. rewrite map_app, list_sum_app. reflexivity. Qed.
Lemma text_length_inside a b : inside a b -> text_length b <= text_length a /\ (text_length a = text_length b -> a = b).
Proof.
  intros [q ->]. rewrite text_length_app. split; [lia|]. destruct q as [|n q]; [now rewrite app_nil_r|].
  intros E. exfalso. cbn [map] in E. change (list_sum (?a :: ?l)) with (a + list_sum l) in E. lia.
Qed.
Lemma comparable a : forall b doc, inside doc a -> inside doc b -> inside a b \/ inside b a.
Proof.
  induction a as [|x a IH]; intros b doc [q Ha] [r Hb]; [right; now exists b|].
  destruct b as [|y b]; [left; now exists (x :: a)|]. subst doc. cbn in Hb. injection Hb as <- Hb.
  destruct (IH b (a ++ q)) as [[z ->]|[z ->]]; [now exists q|now exists r|left; now exists z|right; now exists z].
Qed.
Definition around (doc : path) (p : project) : bool := starts_with doc (proot p).
Lemma scan_filter doc l : forall best n, scan doc best n l = scan doc best n (filter (around doc) l).
Proof.
  induction l as [|p l IH]; intros best n; [reflexivity|]. cbn [scan filter]. unfold around at 1.
  destruct (starts_with doc (proot p)) eqn:E; [|apply IH]. cbn [scan]. rewrite E.
  destruct (n <=? text_length (proot p)); apply IH.
Qed.
Lemma scan_spec doc l : forall best n,
  (forall b, best = Some b -> inside doc (proot b) /\ n = text_length (proot b)) -> (best = None -> n = 0) ->
  match scan doc best n l with
  | Some p => (best = Some p \/ In p l) /\ inside doc (proot p) /\
      (forall b, best = Some b -> text_length (proot b) <= text_length (proot p)) /\
      (forall q, In q l -> inside doc (proot q) -> text_length (proot q) <= text_length (proot p))
  | None => best = None /\ forall q, In q l -> ~ inside doc (proot q)
  end.
Proof.
  induction l as [|p l IH]; intros best n Hb Hn; cbn [scan].
  - destruct best as [b|]; [|split; [reflexivity|intros q []]].
    destruct (Hb b eq_refl) as [H1 H2]. split; [now left|]. split; [exact H1|]. split; [|intros q []].
    intros b' E. injection E as ->. lia.
  - destruct (starts_with doc (proot p)) eqn:E.
    + apply starts_with_inside in E. destruct (n <=? text_length (proot p)) eqn:L.
      * apply Nat.leb_le in L.
        specialize (IH (Some p) (text_length (proot p))).
        destruct (scan doc (Some p) (text_length (proot p)) l) as [w|].
        -- destruct IH as (H1 & H2 & H3 & H4); [intros b X; injection X as <-; auto|discriminate|].
           specialize (H3 p eq_refl).
           split; [right; destruct H1 as [X|H1]; [injection X as ->; now left|now right]|]. split; [exact H2|].
           split; [intros b ->; destruct (Hb b eq_refl) as [_ ->]; lia|].
           intros q [<-|Hq] Hi; [exact H3|auto].
        -- destruct IH as [X _]; [intros b X; injection X as <-; auto|discriminate|discriminate].
      * apply Nat.leb_gt in L. specialize (IH best n Hb Hn). destruct (scan doc best n l) as [w|].
        -- destruct IH as (H1 & H2 & H3 & H4). split; [destruct H1; auto; right; now right|]. split; [exact H2|].
           split; [exact H3|]. intros q [<-|Hq] Hi; [|auto].
           destruct best as [b|]; [|specialize (Hn eq_refl); lia]. specialize (H3 b eq_refl). destruct (Hb b eq_refl) as [_ ->]. lia.
        -- destruct IH as [-> H]. specialize (Hn eq_refl). lia.
    + apply starts_with_false in E. specialize (IH best n Hb Hn). destruct (scan doc best n l) as [w|].
      * destruct IH as (H1 & H2 & H3 & H4). split; [destruct H1; auto; right; now right|]. split; [exact H2|]. split; [exact H3|].
        intros q [<-|Hq] Hi; [contradiction|auto].
      * destruct IH as [H1 H2]. split; [exact H1|]. intros q [<-|Hq]; auto.
Qed.
Lemma workspace_none s doc : workspace_for s doc = None <-> forall q, In q (projects s) -> ~ inside doc (proot q).
Proof.
  unfold workspace_for. pose proof (scan_spec doc (projects s) None 0) as H.
  destruct (scan doc None 0 (projects s)) as [p|].
  - destruct H as ([H|H] & H2 & _); [discriminate|auto|discriminate|]. split; [discriminate|]. intros N. now destruct (N p H).
  - destruct H as [_ H]; [discriminate|auto|]. split; auto.
Qed.
Lemma workspace_some s doc p : NoDup (map proot (projects s)) ->
  (workspace_for s doc = Some p <-> nearest (projects s) doc p).
Proof.
  intros ND. unfold nearest.
  assert (Huniq : forall a b, In a (projects s) -> In b (projects s) -> proot a = proot b -> a = b).
  { revert ND. generalize (projects s). intros l. induction l as [|x l IH]; intros ND a b Ha Hb E; [contradiction|].
    inversion ND as [|? ? N ND']; subst. destruct Ha as [<-|Ha]; destruct Hb as [<-|Hb]; auto.
    - exfalso. apply N. rewrite E. now apply in_map.
    - exfalso. apply N. rewrite <- E. now apply in_map. }
  assert (HS : forall w, workspace_for s doc = Some w -> nearest (projects s) doc w).
  { unfold workspace_for, nearest. intros w Hw. pose proof (scan_spec doc (projects s) None 0) as H. rewrite Hw in H.
    destruct H as ([H|H] & H2 & _ & H4); [discriminate|auto|discriminate|]. split; [exact H|]. split; [exact H2|].
    intros q Hq Hi. destruct (comparable (proot w) (proot q) doc H2 Hi) as [X|X]; [exact X|].
    destruct (text_length_inside _ _ X) as [L1 L2]. specialize (H4 q Hq Hi). rewrite (L2 ltac:(lia)). apply inside_refl. }
  split; [apply HS|]. intros (H1 & H2 & H3). destruct (workspace_for s doc) as [w|] eqn:W.
  - f_equal. destruct (HS w eq_refl) as (W1 & W2 & W3). apply Huniq; auto.
    pose proof (H3 w W1 W2) as A. pose proof (W3 p H1 H2) as B.
    destruct (text_length_inside _ _ A) as [A1 A2]. destruct (text_length_inside _ _ B) as [B1 B2]. apply B2. lia.
  - exfalso. now apply (proj1 (workspace_none s doc) W p).
Qed.
