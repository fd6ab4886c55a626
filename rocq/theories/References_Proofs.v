From Coq Require Import List Arith Lia Bool Permutation Sorted.
From Verif Require Import Sort_Lib Index_Lib References_Model References_Spec.
Import ListNotations.

Notation srt := (sort (key_leb key)).

Lemma nat_total x y : Nat.leb x y = true \/ Nat.leb y x = true.
Proof. rewrite !Nat.leb_le. lia. Qed.
Lemma nat_trans x y z : Nat.leb x y = true -> Nat.leb y z = true -> Nat.leb x z = true.
Proof. rewrite !Nat.leb_le. lia. Qed.

Lemma dedup_in l x : In x (dedup l) <-> In x l.
Proof.
  induction l as [|a [|b l] IH]; [reflexivity..|].
  change (dedup (a :: b :: l)) with (if a =? b then dedup (b :: l) else a :: dedup (b :: l)).
  destruct (Nat.eqb_spec a b) as [->|N].
  - rewrite IH. simpl. tauto.
  - cbn [In] in *. rewrite IH. tauto.
Qed.

Lemma dedup_sorted l : StronglySorted (Sort_Lib.le Nat.leb) l -> StronglySorted lt (dedup l).
Proof.
  induction l as [|a [|b l] IH]; intros H; [constructor|repeat constructor|].
  change (dedup (a :: b :: l)) with (if a =? b then dedup (b :: l) else a :: dedup (b :: l)).
  inversion H as [|? ? H2 H3]; subst. specialize (IH H2). destruct (Nat.eqb_spec a b) as [->|N]; auto.
  constructor; auto. apply Forall_forall. intros x Hx. rewrite dedup_in in Hx.
  assert (a <= b) as Lb. { inversion H3; subst. now apply Nat.leb_le. }
  destruct Hx as [<-|Hx]; [lia|]. inversion H2 as [|? ? H4 H5]; subst. rewrite Forall_forall in H5.
  specialize (H5 x Hx). unfold Sort_Lib.le in H5. apply Nat.leb_le in H5. lia.
Qed.

Record ok (s : store) (L : list (nat * reference)) (b : bool) : Prop := {
  ok_keys : NoDup (map fst (facts s));
  ok_facts : forall t, srt (getd Nat.eqb (facts s) t) = srt (refs_to t L);
  ok_sorted : b = true -> forall t, getd Nat.eqb (facts s) t = srt (refs_to t L);
  ok_targets : forall n t, In t (getd Nat.eqb (targets_by_file s) n) <->
                           exists x, In (t, x) L /\ file_id (range x) = n;
  ok_strict : b = true -> forall n, StronglySorted lt (getd Nat.eqb (targets_by_file s) n)
}.

Lemma ok_new : ok new [] true.
Proof.
  split; try (intros; reflexivity).
  - constructor.
  - intros n t. split; [easy|]. intros (x & [] & _).
  - intros; constructor.
Qed.

Lemma getd_map {V W} (f : list V -> list W) (m : list (nat * list V)) k : f [] = [] ->
  getd Nat.eqb (map (fun e => (fst e, f (snd e))) m) k = f (getd Nat.eqb m k).
Proof.
  intros E. unfold getd. induction m as [|[a v] m IH]; simpl; auto. destruct (a =? k); auto.
Qed.

Lemma refs_app t L M : refs_to t (L ++ M) = refs_to t L ++ refs_to t M.
Proof. unfold refs_to. now rewrite filter_app, map_app. Qed.

Lemma srt_srt l : srt (srt l) = srt l.
Proof. apply sort_id; [apply key_total|apply key_trans|]. apply sort_sorted; [apply key_total|apply key_trans]. Qed.

Lemma sort_all_ok s L b : ok s L b -> ok (sort_all s) L true.
Proof.
  intros [K F _ T _]. unfold sort_all. split; cbn [facts targets_by_file].
  - rewrite map_map. exact K.
  - intros t. rewrite getd_map by auto. now rewrite srt_srt.
  - intros _ t. rewrite getd_map by auto. apply F.
  - intros n t. rewrite (getd_map (fun l => dedup (sort Nat.leb l))) by auto.
    rewrite dedup_in, sort_in. apply T.
  - intros _ n. rewrite (getd_map (fun l => dedup (sort Nat.leb l))) by auto.
    apply dedup_sorted, sort_sorted; [apply nat_total|apply nat_trans].
Qed.

Lemma add_ok s L b t x : ok s L b -> ok (add s t x) (L ++ [(t, x)]) false.
Proof.
  intros [K F _ T _]. unfold add. split; cbn [facts targets_by_file]; try discriminate.
  - apply put_keys; auto. apply Nat.eqb_eq.
  - intros t'. rewrite getd_push by apply Nat.eqb_eq. rewrite refs_app.
    unfold refs_to at 2. cbn [filter fst]. destruct (Nat.eqb_spec t t') as [<-|N]; cbn [map snd].
    + rewrite <- sort_sort_app, F, sort_sort_app; auto; try apply key_total; apply key_trans.
    + rewrite app_nil_r. apply F.
  - intros n t'. rewrite getd_push by apply Nat.eqb_eq. destruct (Nat.eqb_spec (ref_file x) n) as [<-|N].
    + rewrite in_app_iff, T. split.
      * intros [(y & Hy & E)|[<-|[]]].
        -- exists y. split; auto. apply in_or_app. now left.
        -- exists x. split; auto. apply in_or_app. right. now left.
      * intros (y & Hy & E). apply in_app_or in Hy. destruct Hy as [Hy|[Hy|[]]]; [left; eauto|].
        injection Hy as -> ->. right. now left.
    + rewrite T. split.
      * intros (y & Hy & E). exists y. split; auto. apply in_or_app. now left.
      * intros (y & Hy & E). apply in_app_or in Hy. destruct Hy as [Hy|[Hy|[]]]; [eauto|].
        injection Hy as -> ->. contradiction.
Qed.

Lemma retain_keys {V} (m : list (nat * list V)) k p : NoDup (map fst m) ->
  NoDup (map fst (retain Nat.eqb m k p)).
Proof.
  intros H. unfold retain. destruct (get Nat.eqb m k) as [v|]; auto.
  destruct (filter p v); [now apply del_keys|]. apply put_keys; auto. apply Nat.eqb_eq.
Qed.

Lemma retain_all p stale : forall m : list (nat * list reference),
  (NoDup (map fst m) -> NoDup (map fst (fold_left (fun m t => retain Nat.eqb m t p) stale m))) /\
  forall t, getd Nat.eqb (fold_left (fun m t => retain Nat.eqb m t p) stale m) t =
            if existsb (Nat.eqb t) stale then filter p (getd Nat.eqb m t) else getd Nat.eqb m t.
Proof.
  induction stale as [|a stale IH]; intros m; cbn [fold_left existsb]; auto.
  destruct (IH (retain Nat.eqb m a p)) as [I1 I2]. split.
  - intros H. apply I1. now apply retain_keys.
  - intros t. rewrite I2, getd_retain by apply Nat.eqb_eq. rewrite (Nat.eqb_sym a t).
    destruct (t =? a); cbn [orb]; auto. destruct (existsb (Nat.eqb t) stale); auto.
    apply filter_all. intros x Hx. now apply filter_In in Hx.
Qed.

Definition out (n : nat) (x : reference) : bool := negb (ref_file x =? n).

Lemma refs_out t n L : refs_to t (filter (fun e => negb (in_file n e)) L) = filter (out n) (refs_to t L).
Proof.
  unfold refs_to. induction L as [|[a x] L IH]; auto. simpl.
  assert (in_file n (a, x) = (ref_file x =? n)) as -> by reflexivity.
  destruct (Nat.eqb_spec a t) as [->|N]; simpl.
  - assert (out n x = negb (ref_file x =? n)) as -> by reflexivity.
    destruct (ref_file x =? n); simpl; [exact IH|]. rewrite Nat.eqb_refl. simpl. now rewrite IH.
  - destruct (ref_file x =? n); simpl; auto. apply Nat.eqb_neq in N. rewrite N. exact IH.
Qed.

Lemma srt_filter p l : srt (filter p l) = filter p (srt l).
Proof. symmetry. apply sort_filter; [apply key_total|apply key_trans]. Qed.

Lemma in_refs t x L : In x (refs_to t L) <-> In (t, x) L.
Proof.
  unfold refs_to. rewrite in_map_iff. split.
  - intros ([a y] & E & H). simpl in E. subst y. apply filter_In in H. destruct H as [H E].
    apply Nat.eqb_eq in E. simpl in E. now subst a.
  - intros H. exists (t, x). split; auto. apply filter_In. split; auto. apply Nat.eqb_refl.
Qed.

Lemma remove_ok s L b n : ok s L b -> ok (remove_file s n) (filter (fun e => negb (in_file n e)) L) b.
Proof.
  intros [K F G T S]. unfold remove_file.
  assert (forall t y, In (t, y) L -> file_id (range y) = n -> In t (getd Nat.eqb (targets_by_file s) n)) as HT.
  { intros t y H E. apply T. eauto. }
  assert (forall t y, ~ In t (getd Nat.eqb (targets_by_file s) n) -> In y (refs_to t L) -> out n y = true) as HO.
  { intros t y Ht Hy. apply in_refs in Hy. unfold out, ref_file. apply negb_true_iff, Nat.eqb_neq.
    intros E. apply Ht. eapply HT; eauto. }
  assert (forall t, existsb (Nat.eqb t) (getd Nat.eqb (targets_by_file s) n) = false ->
            filter (out n) (refs_to t L) = refs_to t L) as HN.
  { intros t Ht. apply filter_all. intros y Hy. apply (HO t); auto. intros Hin.
    assert (existsb (Nat.eqb t) (getd Nat.eqb (targets_by_file s) n) = true); [|congruence].
    apply existsb_exists. exists t. split; auto. apply Nat.eqb_refl. }
  destruct (get Nat.eqb (targets_by_file s) n) as [stale|] eqn:EG.
  - assert (getd Nat.eqb (targets_by_file s) n = stale) as ES by (unfold getd; now rewrite EG).
    rewrite ES in HN. destruct (retain_all (out n) stale (facts s)) as [R1 R2].
    split; cbn [facts targets_by_file].
    + now apply R1.
    + intros t. change (fun x => negb (ref_file x =? n)) with (out n). rewrite R2, refs_out.
      destruct (existsb (Nat.eqb t) stale) eqn:E.
      * now rewrite !srt_filter, F.
      * rewrite (HN t) by exact E. apply F.
    + intros Hb t. change (fun x => negb (ref_file x =? n)) with (out n). rewrite R2, refs_out.
      destruct (existsb (Nat.eqb t) stale) eqn:E.
      * rewrite srt_filter. now rewrite G.
      * rewrite (HN t) by exact E. now apply G.
    + intros m t. rewrite getd_del by apply Nat.eqb_eq. destruct (Nat.eqb_spec n m) as [<-|N].
      * split; [easy|]. intros (x & H & E). apply filter_In in H. destruct H as [_ H].
        unfold in_file in H. simpl in H. apply negb_true_iff, Nat.eqb_neq in H. contradiction.
      * rewrite T. split; intros (x & H & E); exists x; split; auto.
        -- apply filter_In. split; auto. unfold in_file. simpl. apply negb_true_iff, Nat.eqb_neq. congruence.
        -- now apply filter_In in H.
    + intros Hb m. rewrite getd_del by apply Nat.eqb_eq. destruct (n =? m); [constructor|auto].
  - assert (filter (fun e => negb (in_file n e)) L = L) as ->; [|now split].
    apply filter_all. intros [t x] H. apply negb_true_iff. destruct (in_file n (t, x)) eqn:E; auto.
    apply Nat.eqb_eq in E. specialize (HT t x H E). unfold getd in HT. rewrite EG in HT. easy.
Qed.

Lemma add_all_ok n xs : forall s L b, ok s L b -> (forall e, In e xs -> file_id (range (snd e)) = n) ->
  exists s' b', add_all n s xs = Some s' /\ ok s' (L ++ xs) b'.
Proof.
  induction xs as [|[t x] xs IH]; intros s L b H HX.
  - exists s, b. rewrite app_nil_r. auto.
  - cbn [add_all]. assert (ref_file x = n) as -> by (apply (HX (t, x)); now left). rewrite Nat.eqb_refl.
    destruct (IH (add s t x) (L ++ [(t, x)]) false) as (s' & b' & E & H').
    + eapply add_ok; eauto.
    + intros e He. apply HX. now right.
    + exists s', b'. rewrite <- app_assoc in H'. auto.
Qed.

Lemma add_all_panics n xs : forall s, (exists e, In e xs /\ file_id (range (snd e)) <> n) -> add_all n s xs = None.
Proof.
  induction xs as [|[t x] xs IH]; intros s (e & He & N); [easy|]. cbn [add_all].
  destruct (Nat.eqb_spec (ref_file x) n) as [E|E]; auto. destruct He as [<-|He]; [contradiction|eauto].
Qed.

Lemma run_ok h : forall s L b, ok s L b ->
  (forall n xs e, In (ReplaceFile n xs) h -> In e xs -> file_id (range (snd e)) = n) ->
  exists s', run_from s h = Some s' /\ ok s' (in_force L h) (tidy_from b h).
Proof.
  induction h as [|o h IH]; intros s L b H HW; [exists s; auto|].
  assert (forall n xs e, In (ReplaceFile n xs) h -> In e xs -> file_id (range (snd e)) = n) as HW'.
  { intros n xs e Hi. apply HW. now right. }
  cbn [run_from]. destruct o as [t x|t x| |n| |n xs]; cbn [step in_force tidy_from]; try (apply IH; auto).
  - eapply add_ok; eauto.
  - eapply sort_all_ok, add_ok; eauto.
  - eapply sort_all_ok; eauto.
  - now apply remove_ok.
  - apply ok_new.
  - unfold replace_file.
    destruct (add_all_ok n xs (remove_file s n) _ b (remove_ok s L b n H)) as (s' & b' & -> & H').
    { intros e He. eapply HW; eauto. now left. }
    apply IH; auto. eapply sort_all_ok; eauto.
Qed.

(** ** Reading *)

Lemma flat_map_ext' {A B} (f g : A -> list B) l : (forall x, In x l -> f x = g x) -> flat_map f l = flat_map g l.
Proof.
  induction l as [|x l IH]; intros H; auto. simpl. rewrite H by now left.
  rewrite IH; auto. intros; apply H; now right.
Qed.


Lemma perm_of_sort (l m : list reference) : srt l = srt m -> Permutation l m.
Proof.
  intros E. eapply perm_trans; [apply (sort_perm (key_leb key))|]. rewrite E. symmetry. apply sort_perm.
Qed.

Lemma with_targets_ok s L b : ok s L b -> Permutation (facts_with_targets s) L.
Proof.
  intros [K F _ _ _]. apply (perm_of_buckets Nat.eqb Nat.eqb_eq); auto. intros t.
  apply perm_of_sort. apply F.
Qed.

Lemma values_of m : flat_map snd m =
  map snd (flat_map (fun e : nat * list reference => map (pair (fst e)) (snd e)) m).
Proof.
  induction m as [|[t l] m IH]; auto. simpl. rewrite map_app, map_map. simpl. now rewrite map_id, IH.
Qed.

Lemma all_ok s L b : ok s L b -> Permutation (flat_map snd (facts s)) (map snd L).
Proof. intros H. rewrite values_of. apply Permutation_map. eapply with_targets_ok; eauto. Qed.

(** The references of one file, target by target. *)
Lemma by_target (R : list (nat * reference)) T :
  StronglySorted lt T -> (forall e, In e R -> In (fst e) T) ->
  sort (key_leb target_position) R = flat_map (fun t => map (pair t) (srt (refs_to t R))) T.
Proof.
  revert R. induction T as [|t T IH]; intros R ST HR.
  - destruct R as [|e R]; auto. destruct (HR e). now left.
  - inversion ST; subst. rewrite Forall_forall in H2. cbn [flat_map].
    rewrite <- (sort_partition (key_leb target_position) (fun e => fst e =? t)).
    + rewrite sort_app_lt.
      * f_equal.
        -- rewrite <- (sort_ext (fun a b => key_leb key (snd a) (snd b)) (key_leb target_position)).
           ++ assert (forall q, (forall e : nat * reference, In e q -> fst e = t) -> q = map (pair t) (map snd q)) as E.
              { induction q as [|[a x] q IHq]; intros Hq; auto. simpl.
                rewrite <- IHq by (intros; apply Hq; now right). f_equal. f_equal. apply (Hq (a, x)). now left. }
              rewrite (E (sort _ _)).
              ** rewrite (sort_map snd (key_leb key)). reflexivity.
              ** intros e He. rewrite sort_in in He. apply filter_In in He. now apply Nat.eqb_eq.
           ++ intros [a x] [b y] Ha Hb. apply filter_In in Ha, Hb. destruct Ha as [_ Ha], Hb as [_ Hb].
              apply Nat.eqb_eq in Ha, Hb. simpl in Ha, Hb. subst. unfold key_leb, target_position. cbn [fst snd lexb].
              rewrite Nat.ltb_irrefl, Nat.eqb_refl. reflexivity.
        -- rewrite IH; auto.
           ++ apply flat_map_ext'. intros t' Ht'. f_equal. f_equal. unfold refs_to. f_equal.
              rewrite filter_comm. apply filter_all. intros e He. apply filter_In in He. destruct He as [_ He].
              apply Nat.eqb_eq in He. apply negb_true_iff, Nat.eqb_neq. specialize (H2 _ Ht'). lia.
           ++ intros e He. apply filter_In in He. destruct He as [He N]. destruct (HR e He); auto.
              subst t. rewrite Nat.eqb_refl in N. discriminate.
      * apply key_total.
      * apply key_trans.
      * intros [a x] [b y] Ha Hb. apply filter_In in Ha, Hb. destruct Ha as [_ Ha], Hb as [Hb Nb].
        apply Nat.eqb_eq in Ha. simpl in Ha. subst a. destruct (HR _ Hb) as [E|Hin].
        -- simpl in E, Nb. subst b. rewrite Nat.eqb_refl in Nb. discriminate.
        -- specialize (H2 _ Hin). simpl in H2. unfold key_leb, target_position. cbn [fst snd lexb].
           apply Nat.ltb_lt in H2. now rewrite H2.
    + apply key_total.
    + apply key_trans.
    + intros x y E. apply key_eqv in E. unfold target_position in E. injection E as E _. now rewrite E.
Qed.

Lemma flat_map_filter {A B} (p : B -> bool) (f : A -> list B) l :
  filter p (flat_map f l) = flat_map (fun x => filter p (f x)) l.
Proof. induction l as [|x l IH]; auto. simpl. now rewrite filter_app, IH. Qed.

Lemma refs_in t n L : refs_to t (filter (in_file n) L) = filter (fun x => ref_file x =? n) (refs_to t L).
Proof.
  unfold refs_to. induction L as [|[a x] L IH]; auto. simpl.
  assert (in_file n (a, x) = (ref_file x =? n)) as -> by reflexivity.
  destruct (Nat.eqb_spec a t) as [->|N]; simpl.
  - destruct (ref_file x =? n); simpl; [|exact IH]. rewrite Nat.eqb_refl. simpl. now rewrite IH.
  - destruct (ref_file x =? n); simpl; auto. apply Nat.eqb_neq in N. rewrite N. exact IH.
Qed.

Lemma in_file_ok s L n : ok s L true ->
  facts_in_file s n = map snd (sort (key_leb target_position) (filter (in_file n) L)).
Proof.
  intros [K F G T S]. specialize (G eq_refl). specialize (S eq_refl). unfold facts_in_file.
  rewrite (by_target _ (getd Nat.eqb (targets_by_file s) n)); auto.
  - unfold getd at 1. destruct (get Nat.eqb (targets_by_file s) n) as [ts|]; auto.
    rewrite flat_map_filter. induction ts as [|t ts IH]; auto. cbn [flat_map]. rewrite map_app, map_map.
    cbn [snd]. rewrite map_id, IH. f_equal. fold (getd Nat.eqb (facts s) t). rewrite G, refs_in. 
    symmetry. apply srt_filter.
  - intros [t x] H. apply filter_In in H. destruct H as [H E]. apply T. exists x. split; auto.
    now apply Nat.eqb_eq.
Qed.

Lemma in_bucket s L b t x : ok s L b -> (In x (getd Nat.eqb (facts s) t) <-> In (t, x) L).
Proof.
  intros [K F _ _ _]. rewrite <- in_refs. specialize (F t). apply perm_of_sort in F.
  split; apply Permutation_in; [exact F|now symmetry].
Qed.

Lemma range_eqb_eq a b : range_eqb a b = true <-> a = b.
Proof.
  destruct a, b. unfold range_eqb. simpl. rewrite !andb_true_iff, !Nat.eqb_eq.
  split; [intros [[-> ->] ->]; auto|intros H; injection H; auto].
Qed.

Lemma exact_range_ok s L b r t : ok s L b ->
  (In t (targets_for_exact_range s r) <-> exists x, In (t, x) L /\ range x = r).
Proof.
  intros H. pose proof (ok_targets _ _ _ H (file_id r) t) as T. unfold targets_for_exact_range.
  unfold getd in T. pose proof (fun x => in_bucket s L b t x H) as B. unfold getd in B.
  destruct (get Nat.eqb (targets_by_file s) (file_id r)) as [ts|].
  - rewrite filter_In, T. split.
    + intros [_ E]. destruct (get Nat.eqb (facts s) t) as [l|]; [|discriminate].
      apply existsb_exists in E. destruct E as (x & Hx & E). apply range_eqb_eq in E. exists x.
      split; auto. now apply B.
    + intros (x & Hx & <-). split; [eauto|]. pose proof (proj2 (B x) Hx) as Hin.
      destruct (get Nat.eqb (facts s) t) as [l|]; [|easy]. apply existsb_exists. exists x. split; auto.
      now apply range_eqb_eq.
  - split; [easy|]. intros (x & Hx & <-). apply T. eauto.
Qed.

Lemma sorted_filter_lt p l : StronglySorted lt l -> StronglySorted lt (filter p l).
Proof.
  induction 1 as [|x l S IH F]; simpl; [constructor|]. destruct (p x); auto. constructor; auto.
  apply Forall_forall. intros y Hy. apply filter_In in Hy. rewrite Forall_forall in F. now apply F.
Qed.
