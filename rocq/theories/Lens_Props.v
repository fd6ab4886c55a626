(** C113: the lenses above modules. *)
From Coq Require Import List Arith Lia Bool Sorted Permutation.
From Verif Require Import Sort_Lib Lens_Model Lens_Spec.
Import ListNotations.

(** ** The names of the modules of a file *)
Lemma item_ind' (P : item -> Prop) :
  (forall b n s e l, (forall i, In i l -> P i) -> P (AModule b n s e l)) ->
  (forall b n l, (forall i, In i l -> P i) -> P (Class b n l)) ->
  (forall l, (forall i, In i l -> P i) -> P (Other l)) ->
  forall i, P i.
Proof.
  intros M C O. fix F 1.
  intros [b n s e l|b n l|l]; [apply M|apply C|apply O]; intros i I;
    (induction l as [|x r IH]; [destruct I | destruct I as [<-|I]; [apply F | apply IH; exact I]]).
Qed.

Section Collected.
Variable valid : nat -> bool.

Lemma collect_module st b n s e l :
  collect valid st (AModule b n s e l) =
  (match n with
   | [] => []
   | _ => match compute_fqn valid st n with Some f => [(f, (s, e))] | None => [] end
   end) ++ flat_map (collect valid (pushed st n)) l.
Proof. reflexivity. Qed.

Lemma collect_class st b n l :
  collect valid st (Class b n l) = flat_map (collect valid (pushed st n)) l.
Proof. reflexivity. Qed.

Lemma collect_other st l : collect valid st (Other l) = flat_map (collect valid st) l.
Proof. reflexivity. Qed.

Lemma no_module_collect i : no_module i -> forall st, collect valid st i = [].
Proof.
  induction i as [b n s e l IH|b n l IH|l IH] using item_ind'; intros H st; inversion H; subst.
  - rewrite collect_class. clear H. induction l as [|x r IHr]; [reflexivity|]. cbn [flat_map].
    rewrite (IH x), IHr; auto with datatypes.
  - rewrite collect_other. clear H. induction l as [|x r IHr]; [reflexivity|]. cbn [flat_map].
    rewrite (IH x), IHr; auto with datatypes.
Qed.

Lemma no_module_declares i : no_module i -> forall c f s e, ~ declares c i f s e.
Proof.
  induction i as [b n s e l IH|b n l IH|l IH] using item_ind'; intros H c f s' e' D;
    inversion H; subst; inversion D; subst; eapply IH; eauto.
Qed.

Lemma compute_ok st n : forallb valid (st ++ n) = true -> compute_fqn valid st n = Some (st ++ n).
Proof. intros V. unfold compute_fqn. now rewrite V. Qed.

Lemma ordinary_collect i : ordinary valid i -> forall st f s e,
  forallb valid st = true ->
  (In (f, (s, e)) (collect valid st i) <-> declares st i f s e).
Proof.
  induction i as [b n s0 e0 l IH|b n l IH|l IH] using item_ind'; intros H st f s e V;
    inversion H as [? ? ? ? Vn HB|? ? ? ? NE Vn HB|? ? Vn HB|? HB]; subst.
  - rewrite collect_module, in_app_iff, in_flat_map.
    rewrite compute_ok by (rewrite forallb_app, V; cbn; now rewrite Vn).
    assert (V' : forallb valid (st ++ [n0]) = true) by (rewrite forallb_app, V; cbn; now rewrite Vn).
    cbn [pushed last]. split.
    + intros [[X|[]]|(i & I & X)].
      * injection X as <- <- <-. now constructor.
      * apply (IH i I (HB i I) _ _ _ _ V') in X. now apply D_module with (st ++ [n0]) i.
    + intros D. inversion D as [? ? ? ? ? ? ? F|? ? ? ? ? ? c i ? ? ? F I X| |]; subst.
      * injection F as <-. left. now left.
      * injection F as <-. right. exists i. split; [exact I|].
        now apply (IH i I (HB i I) _ _ _ _ V').
  - rewrite collect_module, in_app_iff, in_flat_map.
    assert (V' : forallb valid (st ++ n) = true).
    { rewrite forallb_app, V. cbn. now apply forallb_forall. }
    rewrite compute_ok by exact V'. destruct n as [|n0 n']; [congruence|]. split.
    + intros [[X|[]]|(i & I & X)].
      * injection X as <- <- <-. now constructor.
      * rewrite no_module_collect in X by auto. destruct X.
    + intros D. inversion D as [? ? ? ? ? ? ? F|? ? ? ? ? ? c i ? ? ? F I X| |]; subst.
      * injection F as <-. left. now left.
      * exfalso. eapply no_module_declares; eauto.
  - rewrite collect_class, in_flat_map.
    assert (V' : forallb valid (st ++ [n0]) = true) by (rewrite forallb_app, V; cbn; now rewrite Vn).
    cbn [pushed last]. split.
    + intros (i & I & X). apply (IH i I (HB i I) _ _ _ _ V') in X.
      now apply D_class with (st ++ [n0]) i.
    + intros D. inversion D as [| |? ? ? ? c i ? ? ? F I X|]; subst. injection F as <-.
      exists i. split; [exact I|]. now apply (IH i I (HB i I) _ _ _ _ V').
  - rewrite collect_other, in_flat_map. split.
    + intros (i & I & X). apply (IH i I (HB i I) _ _ _ _ V) in X. now apply D_other with i.
    + intros D. inversion D as [| | |? ? i ? ? ? I X]; subst.
      exists i. split; [exact I|]. now apply (IH i I (HB i I) _ _ _ _ V).
Qed.
End Collected.

(** In a file whose heads are ordinary, the modules that get lenses are exactly those
    declared, with their full names and the range of their head. *)
Theorem C113_names_partial valid root f s e :
  ordinary valid root -> (In (f, (s, e)) (collect valid [] root) <-> declares [] root f s e).
Proof. intros H. now apply ordinary_collect. Qed.
Print Assumptions C113_names_partial.

(** ** Graph helpers *)
Lemma same_names_iff a b : same_names a b = true <-> a = b.
Proof.
  revert b. induction a as [|x a IH]; intros [|y b]; cbn [same_names]; try (split; congruence).
  rewrite andb_true_iff, Nat.eqb_eq, IH. split; [intros [-> ->]; reflexivity | intros X; injection X; auto].
Qed.

Lemma same_ns_iff a b : same_ns a b = true <-> a = b.
Proof.
  destruct a as [p x], b as [q y]. unfold same_ns. cbn [fst snd].
  rewrite andb_true_iff, same_names_iff, eqb_true_iff. split; [intros [-> ->]; reflexivity | intros X; injection X; auto].
Qed.

Lemma mem_iff x l : mem x l = true <-> In x l.
Proof.
  unfold mem. rewrite existsb_exists. split.
  - intros (y & I & E). apply same_ns_iff in E. now subst.
  - intros I. exists x. split; [exact I | now apply same_ns_iff].
Qed.

Definition step (w : world) (t : list nat) (f : ns) : Prop := takes w t f \/ extends w t f.

Lemma mixes_iff m e :
  (exists k, mixes m k e) <->
  fst (target e) = m /\ (exists k, usage_kind (kind e) = Some k) /\ skipped e = false.
Proof.
  unfold mixes, skipped. split.
  - intros (k & T & K & X). subst k. split; [exact T|].
    destruct (kind e); try (now destruct X); (split; [eexists; reflexivity | auto]).
  - intros (T & (k & K) & X). exists (kind e). split; [exact T|]. split; [reflexivity|].
    destruct (kind e); cbn in *; try discriminate; auto.
Qed.

Lemma into_iff w t e : In e (into w t) <-> In e (edges w) /\ exists k, mixes (fst t) k e.
Proof.
  unfold into. rewrite filter_In, mixes_iff, !andb_true_iff, negb_true_iff, same_names_iff.
  split; intros (I & X); (split; [exact I|]).
  - destruct X as ((U & K) & T). split; [exact T|]. split; [|exact K].
    destruct (usage_kind (kind e)) as [k|]; [now exists k | discriminate].
  - destruct X as (T & (k & U) & K). rewrite U. auto.
Qed.

Lemma step_iff w t f : step w (fst t) f <-> exists e, In e (into w t) /\ source e = f.
Proof.
  unfold step, takes, extends. split.
  - intros [(e & k & I & E & _ & X)|(e & I & E & X)]; exists e; split; auto; apply into_iff; eauto.
  - intros (e & I & E). apply into_iff in I. destruct I as (I & k & X).
    assert (K := X). destruct K as (_ & _ & K). destruct k; try (now destruct K).
    + left. exists e, Include. auto.
    + left. exists e, Prepend. auto.
    + right. exists e. auto.
Qed.

Lemma nodes_for_iff w f k r : In (k, r) (nodes_for w f) <-> has w k f r.
Proof.
  unfold nodes_for, has. rewrite in_map_iff. split.
  - intros ([g x] & E & I). apply filter_In in I. destruct I as [I S1].
    apply same_ns_iff in S1. cbn in *. now subst.
  - intros I. exists (f, (k, r)). split; [reflexivity|]. apply filter_In. split; [exact I|].
    now apply same_ns_iff.
Qed.

Lemma class_iff w f : existsb is_class (nodes_for w f) = true <-> a_class w f.
Proof.
  rewrite existsb_exists. split.
  - intros ([[] r] & I & X); [|discriminate]. exists r. now apply nodes_for_iff.
  - intros (r & R). exists (NClass, r). split; [now apply nodes_for_iff | reflexivity].
Qed.

Lemma module_iff w f : existsb is_module (nodes_for w f) = true <-> exists r, has w NModule f r.
Proof.
  rewrite existsb_exists. split.
  - intros ([[] r] & I & X); [discriminate|]. exists r. now apply nodes_for_iff.
  - intros (r & R). exists (NModule, r). split; [now apply nodes_for_iff | reflexivity].
Qed.

Lemma found_iff w e r : In r (found w e) <-> has w NClass (source e) r.
Proof.
  unfold found. destruct (existsb is_class (nodes_for w (source e))) eqn:C.
  - rewrite in_map_iff. split.
    + intros ([k x] & <- & I). apply filter_In in I. destruct I as [I X].
      destruct k; [|discriminate]. now apply nodes_for_iff.
    + intros H. exists (NClass, r). split; [reflexivity|]. apply filter_In.
      split; [now apply nodes_for_iff | reflexivity].
  - split; [intros [] | intros H]. assert (X : a_class w (source e)) by now exists r.
    apply class_iff in X. congruence.
Qed.

Lemma queued_iff w e f : In f (queued w e) <-> f = source e /\ a_module w f.
Proof.
  unfold queued, a_module. destruct (existsb is_class (nodes_for w (source e))) eqn:C.
  - apply class_iff in C. split; [intros [] | intros (-> & _ & X); contradiction].
  - assert (N : ~ a_class w (source e)) by (intros X; apply class_iff in X; congruence).
    destruct (existsb is_module (nodes_for w (source e))) eqn:M.
    + apply module_iff in M. split; [intros [<-|[]]; auto | intros (-> & _); now left].
    + split; [intros [] | intros (-> & X & _)]. apply module_iff in X. congruence.
Qed.

(** ** The search *)
Definition room (U v : list ns) : nat := length (filter (fun x => negb (mem x v)) U).

Lemma room_le U v : room U v <= length U.
Proof. unfold room. induction U as [|x U IH]; cbn; [lia|]. destruct (negb (mem x v)); cbn [negb orb length]; lia. Qed.

Lemma room_more U x v : room U (x :: v) <= room U v.
Proof.
  unfold room. induction U as [|y U IH]; cbn [filter]; [lia|].
  assert (E : mem y (x :: v) = same_ns y x || mem y v) by reflexivity. rewrite E.
  destruct (same_ns y x), (mem y v); cbn [negb orb length]; lia.
Qed.

Lemma room_less U x v : In x U -> ~ In x v -> room U (x :: v) < room U v.
Proof.
  intros I N. induction U as [|y U IH]; [destruct I|].
  assert (M := room_more U x v). unfold room in *. cbn [filter].
  assert (E : mem y (x :: v) = same_ns y x || mem y v) by reflexivity. rewrite E.
  destruct I as [->|I].
  - assert (S1 : same_ns x x = true) by now apply same_ns_iff. rewrite S1.
    destruct (mem x v) eqn:V; [apply mem_iff in V; contradiction|]. cbn [negb orb length]. lia.
  - apply IH in I. destruct (same_ns y x), (mem y v); cbn [negb orb length]; lia.
Qed.

Lemma queued_one w e : length (queued w e) <= 1.
Proof.
  unfold queued. destruct (existsb is_class _); [apply Nat.le_0_l|].
  destruct (existsb is_module _); [apply Nat.le_refl | apply Nat.le_0_l].
Qed.

Lemma queued_length w l : length (flat_map (queued w) l) <= length l.
Proof.
  induction l as [|e l IH]; cbn [flat_map]; [apply Nat.le_refl|]. rewrite app_length.
  cbn [length]. assert (X := queued_one w e). lia.
Qed.

Lemma filter_le {A} (p : A -> bool) l : length (filter p l) <= length l.
Proof. induction l as [|x l IH]; cbn; [lia|]. destruct (p x); cbn; lia. Qed.

Definition goal (w : world) (m : list nat) (r : range) : Prop :=
  exists t f, chained w m t /\ step w t f /\ has w NClass f r.

Section Search.
Variables (w : world) (m : list nat).
Let U := (m, false) :: map source (edges w).

Lemma search_ok n : forall queue visited result,
  length queue + room U visited * S (length (edges w)) < n ->
  (forall t, In t queue -> In t U /\ chained w m (fst t)) ->
  (forall r, In r result -> goal w m r) ->
  (forall t f, In t visited -> step w (fst t) f ->
     (forall r, has w NClass f r -> In r result) /\
     (a_module w f -> In f visited \/ In f queue)) ->
  In (m, false) visited \/ In (m, false) queue ->
  exists l, search n w queue visited result = Some (dedup (sort (key_leb range_key) l)) /\
    forall r, In r l <-> goal w m r.
Proof.
  induction n as [|n IH]; intros queue visited result F Q R V S0; [lia|].
  cbn [search]. destruct queue as [|t q].
  - exists result. split; [reflexivity|]. intros r. split; [apply R|].
    intros (t & f & C & S1 & H).
    assert (X : exists v, In v visited /\ fst v = t).
    { clear - C V S0. induction C as [|t f C (v & Iv & Ev) S1 M].
      - destruct S0 as [X|[]]. now exists (m, false).
      - subst t. destruct (V v f Iv S1) as [_ X]. destruct (X M) as [Y|[]]. now exists f. }
    destruct X as (v & Iv & <-). destruct (V v f Iv S1) as [X _]. now apply X.
  - destruct (mem t visited) eqn:T.
    + apply mem_iff in T. apply IH.
      * cbn [length] in F. lia.
      * intros x X. apply Q. now right.
      * exact R.
      * intros x f X S1. destruct (V x f X S1) as [A B]. split; [exact A|]. intros M.
        destruct (B M) as [Y|[<-|Y]]; auto.
      * destruct S0 as [X|[<-|X]]; auto.
    + assert (N : ~ In t visited) by (intros X; apply mem_iff in X; congruence).
      destruct (Q t (or_introl eq_refl)) as [Ut Ct]. apply IH.
      * rewrite app_length, rev_length.
        assert (L := queued_length w (into w t)).
        assert (L2 : length (into w t) <= length (edges w)) by apply filter_le.
        assert (L3 := room_less U t visited Ut N). 
        assert (L4 := Nat.mul_le_mono_r _ _ (S (length (edges w))) L3).
        rewrite Nat.mul_succ_l in L4. cbn [length] in F. unfold ns in *. lia.
      * intros x X. apply in_app_or in X. destruct X as [X|X]; [|apply Q; now right].
        apply in_rev, in_flat_map in X. destruct X as (e & E & X). apply queued_iff in X.
        destruct X as [-> M]. split.
        -- right. apply in_map. now apply into_iff in E.
        -- apply C_more with (fst t); [exact Ct| |exact M].
           apply (proj2 (step_iff w t _)). now exists e.
      * intros r X. apply in_app_or in X. destruct X as [X|X]; [now apply R|].
        apply in_flat_map in X. destruct X as (e & E & X). apply found_iff in X.
        exists (fst t), (source e). split; [exact Ct|]. split; [|exact X].
        apply step_iff. now exists e.
      * intros x f [<-|X] S1.
        -- apply step_iff in S1. destruct S1 as (e & E & <-). split.
           ++ intros r H. apply in_or_app. right. apply in_flat_map. exists e.
              split; [exact E | now apply found_iff].
           ++ intros M. right. apply in_or_app. left. apply in_rev. rewrite rev_involutive.
              apply in_flat_map. exists e. split; [exact E | now apply queued_iff].
        -- destruct (V x f X S1) as [A B]. split.
           ++ intros r H. apply in_or_app. left. now apply A.
           ++ intros M. destruct (B M) as [Y|[<-|Y]].
              ** left. now right.
              ** left. now left.
              ** right. apply in_or_app. now right.
      * destruct S0 as [X|[<-|X]]; [left; now right | left; now left | right; apply in_or_app; now right].
Qed.

Lemma classes_ok : exists l, classes w m = Some (dedup (sort (key_leb range_key) l)) /\
  forall r, In r l <-> goal w m r.
Proof.
  apply search_ok.
  - cbn [length]. assert (L := room_le U []). unfold U in L. cbn [length] in L.
    rewrite map_length in L. 
    assert (L4 := Nat.mul_le_mono_r _ _ (S (length (edges w))) L).
    unfold enough, U, ns in *. lia.
  - intros t [<-|[]]. split; [now left | constructor].
  - intros r [].
  - intros t f [].
  - right. now left.
Qed.
End Search.

Lemma same_range_iff (x y : range) :
  (fst x =? fst y) && (fst (snd x) =? fst (snd y)) && (snd (snd x) =? snd (snd y)) = true <-> x = y.
Proof.
  destruct x as [a [b c]], y as [a' [b' c']]. cbn [fst snd].
  rewrite !andb_true_iff, !Nat.eqb_eq. split; [intros [[-> ->] ->]; reflexivity | intros X; injection X; auto].
Qed.

Lemma dedup_in l x : In x (dedup l) <-> In x l.
Proof.
  induction l as [|y l IH]; [reflexivity|]. cbn [dedup]. destruct l as [|z r]; [reflexivity|].
  destruct (_ && _ && _) eqn:E.
  - apply same_range_iff in E. subst y. rewrite IH. cbn [In]. tauto.
  - cbn [In] in *. rewrite IH. tauto.
Qed.

Lemma range_key_inj a b : range_key a = range_key b -> a = b.
Proof. destruct a as [a [b1 c]], b as [a' [b' c']]. cbn. intros X. injection X. congruence. Qed.

Lemma dedup_more x y r : dedup (x :: y :: r) =
  if (fst x =? fst y) && (fst (snd x) =? fst (snd y)) && (snd (snd x) =? snd (snd y))
  then dedup (y :: r) else x :: dedup (y :: r).
Proof. reflexivity. Qed.

Lemma dedup_sorted l : StronglySorted (le (key_leb range_key)) l ->
  StronglySorted (le (key_leb range_key)) (dedup l) /\ NoDup (dedup l).
Proof.
  induction 1 as [|x l S1 [IH1 IH2] F]; [split; constructor|].
  destruct l as [|y r]; [split; repeat constructor; intros []|]. rewrite dedup_more.
  destruct (_ && _ && _) eqn:E; [now split|].
  assert (NE : x <> y) by (intros X; apply same_range_iff in X; congruence).
  rewrite Forall_forall in F. split; constructor; auto.
  - rewrite Forall_forall. intros z Z. apply (proj1 (dedup_in _ _)) in Z. now apply F.
  - intros I. apply (proj1 (dedup_in _ _)) in I. destruct I as [->|I]; [congruence|].
    apply NE. apply range_key_inj. apply lexb_antisym; [apply (F y); now left|].
    inversion S1 as [|? ? _ G]; subst. rewrite Forall_forall in G. exact (G x I).
Qed.

(** ** The lenses of a module *)
Definition chosen (known : nat -> bool) (m : list nat) (k : ekind) (e : edge) : bool :=
  same_names (fst (target e)) m && negb (skipped e)
  && match usage_kind (kind e) with Some k' => kind_key k =? kind_key k' | None => false end
  && known (fst (at_ e)).

Definition mixin (k : ekind) : Prop := k = Include \/ k = Prepend \/ k = Extend.

Lemma chosen_iff known m k e : mixin k ->
  (chosen known m k e = true <-> mixes m k e /\ known (fst (at_ e)) = true).
Proof.
  intros K. unfold chosen, mixes, skipped.
  rewrite !andb_true_iff, negb_true_iff, same_names_iff.
  destruct K as [->|[->| ->]]; destruct (kind e); cbn; try (split; intuition congruence).
Qed.

Lemma usages_perm known w m k : mixin k ->
  Permutation (map snd (filter (same_use k) (filter (fun u => known (fst (snd u))) (usages w m))))
              (map at_ (filter (chosen known m k) (edges w))).
Proof.
  intros K. unfold usages.
  rewrite !(sort_filter (key_leb usage_key) (key_total usage_key) (key_trans usage_key)).
  eapply perm_trans.
  { apply Permutation_map. apply Permutation_sym, sort_perm. }
  match goal with |- Permutation ?a ?b => enough (E : a = b) by (rewrite E; apply Permutation_refl) end.
  induction (edges w) as [|e l IH]; [reflexivity|].
  cbn [flat_map filter]. rewrite !filter_app, map_app, IH. unfold chosen at 2.
  destruct (same_names (fst (target e)) m); cbn [negb andb]; [|reflexivity].
  destruct (skipped e); cbn [negb andb]; [reflexivity|].
  destruct (usage_kind (kind e)) as [k'|]; cbn [andb filter app map]; [|reflexivity].
  cbn [snd fst]. destruct (known (fst (at_ e))); cbn [filter same_use fst andb map app].
  - unfold same_use. cbn [fst]. rewrite andb_true_r.
    destruct (kind_key k =? kind_key k'); reflexivity.
  - rewrite andb_false_r. reflexivity.
Qed.

Definition kind_lens (p : nat * nat) (k : ekind) (l : list range) : list lens :=
  match l with [] => [] | r :: l' => [Mixed p k (length (r :: l')) (r :: l')] end.

Lemma lenses_eq known w f p : exists l,
  lenses_of known w (f, p) = Some l /\
  (forall k, mixin k -> forall q c x, In (Mixed q k c x) l <->
     In (Mixed q k c x) (kind_lens p k
       (map snd (filter (same_use k) (filter (fun u => known (fst (snd u))) (usages w f)))))) /\
  (forall k, ~ mixin k -> forall q c x, ~ In (Mixed q k c x) l) /\
  (exists cs, NoDup cs /\ (forall r, In r cs <-> goal w f r /\ known (fst r) = true) /\
     forall q c x, In (Classes q c x) l <-> cs <> [] /\ q = p /\ c = length cs /\ x = cs).
Proof.
  destruct (classes_ok w f) as (l0 & C & G). unfold lenses_of. cbn [fst snd]. rewrite C.
  set (us := filter (fun u => known (fst (snd u))) (usages w f)).
  set (cs := filter (fun r => known (fst r)) (dedup (sort (key_leb range_key) l0))).
  exists (kind_lens p Include (map snd (filter (same_use Include) us))
    ++ kind_lens p Prepend (map snd (filter (same_use Prepend) us))
    ++ kind_lens p Extend (map snd (filter (same_use Extend) us))
    ++ match cs with [] => [] | _ => [Classes p (length cs) cs] end).
  split; [reflexivity|].
  assert (A : forall k k' q c x l, In (Mixed q k c x) (kind_lens p k' l) -> k = k').
  { intros k k' q c x [|r l] X; [destruct X|]. destruct X as [X|[]]. now injection X. }
  assert (B : forall k' q c x l, ~ In (Classes q c x) (kind_lens p k' l)).
  { intros k' q c x [|r l] X; [destruct X|]. destruct X as [X|[]]. discriminate. }
  assert (D : forall k q c x, ~ In (Mixed q k c x)
    (match cs with [] => [] | _ => [Classes p (length cs) cs] end)).
  { intros k q c x X. destruct cs; [destruct X|]. destruct X as [X|[]]. discriminate. }
  split; [|split].
  - intros k K q c x. rewrite !in_app_iff. split.
    + intros [X|[X|[X|X]]]; try (assert (E := A _ _ _ _ _ _ X); subst k; exact X).
      now apply D in X.
    + intros X. destruct K as [->|[->| ->]]; auto.
  - intros k K q c x. rewrite !in_app_iff. unfold mixin in K.
    intros [X|[X|[X|X]]]; try (apply A in X; subst k; tauto). now apply D in X.
  - exists cs. split; [|split].
    + apply NoDup_filter. apply dedup_sorted. apply sort_sorted; [apply key_total | apply key_trans].
    + intros r. unfold cs. rewrite filter_In, dedup_in, sort_in, G. reflexivity.
    + intros q c x. rewrite !in_app_iff. split.
      * intros [X|[X|[X|X]]]; try (now apply B in X). destruct cs as [|r cs']; [destruct X|].
        destruct X as [X|[]]. injection X as <- <- <-. repeat split. discriminate.
      * intros (N & -> & -> & ->). right. right. right. destruct cs; [now elim N|]. now left.
Qed.

(** How often and where a module is included, prepended and extended: for every graph,
    module and known files, the lens of each kind counts and lists exactly the statements
    that mix the module in that way, each once, and is left out if there are none. *)
Theorem C113_mixins known w f p k : mixin k ->
  exists l d, lenses_of known w (f, p) = Some l /\
  (forall e, d e = true <-> mixes f k e /\ known (fst (at_ e)) = true) /\
  (forall q c x, In (Mixed q k c x) l ->
     q = p /\ c = length x /\ x <> [] /\ Permutation x (map at_ (filter d (edges w)))) /\
  (filter d (edges w) <> [] -> exists x, In (Mixed p k (length x) x) l).
Proof.
  intros K. destruct (lenses_eq known w f p) as (l & L & M & _ & _).
  exists l, (chosen known f k). split; [exact L|]. split; [intros; now apply chosen_iff|].
  assert (P := usages_perm known w f k K).
  specialize (M k K). set (x0 := map snd _) in *. split.
  - intros q c x X. apply M in X. destruct x0 as [|r x0']; [destruct X|].
    destruct X as [X|[]]. injection X as <- <- <-. repeat split; [discriminate | exact P].
  - intros N. exists x0. apply M. destruct x0 as [|r x0']; [|now left].
    exfalso. apply Permutation_nil in P. now destruct (filter _ (edges w)).
Qed.
Print Assumptions C113_mixins.

(** The search always ends; the lens of the classes lists the definitions of exactly the
    classes the search is meant to find, each once, and counts them. *)
Theorem C113_classes known w f p : exists l,
  lenses_of known w (f, p) = Some l /\
  (forall q c x, In (Classes q c x) l -> q = p /\ c = length x /\ x <> [] /\ NoDup x) /\
  (forall r, (exists q c x, In (Classes q c x) l /\ In r x) <->
     known (fst r) = true /\
     exists t g, chained w f t /\ (takes w t g \/ extends w t g) /\ has w NClass g r).
Proof.
  destruct (lenses_eq known w f p) as (l & L & _ & _ & cs & N & G & C).
  exists l. split; [exact L|]. split.
  - intros q c x X. apply C in X. destruct X as (E & -> & -> & ->). auto.
  - intros r. split.
    + intros (q & c & x & X & I). apply C in X. destruct X as (_ & _ & _ & ->).
      apply G in I. tauto.
    + intros [K X]. assert (I : In r cs) by (apply G; split; [exact X | exact K]).
      exists p, (length cs), cs. split; [|exact I]. apply C. repeat split; auto.
      intros E. rewrite E in I. destruct I.
Qed.
Print Assumptions C113_classes.

Lemma chained_brings w m t : no_extending_module w -> chained w m t -> brings w m t.
Proof.
  intros H C. induction C as [|t f C IH [S1|S1] M]; [constructor| |].
  - now apply R_more with t.
  - exfalso. now apply (H t f).
Qed.

Lemma brings_chained w m t : brings w m t -> chained w m t.
Proof. induction 1 as [|t f B IH S1 M]; [constructor|]. apply C_more with t; auto. Qed.

(** If no module extends a module, these are exactly the classes that use the module. *)
Theorem C113_users_partial known w f p : no_extending_module w -> exists l,
  lenses_of known w (f, p) = Some l /\
  forall r, (exists q c x, In (Classes q c x) l /\ In r x) <->
    known (fst r) = true /\ exists g, uses w f g /\ has w NClass g r.
Proof.
  intros H. destruct (C113_classes known w f p) as (l & L & _ & G). exists l.
  split; [exact L|]. intros r. rewrite G. split; intros (K & X); (split; [exact K|]).
  - destruct X as (t & g & C & S1 & R). exists g. split; [|exact R].
    split; [now exists r|]. exists t. split; [now apply chained_brings | exact S1].
  - destruct X as (g & (_ & t & B & S1) & R). exists t, g.
    split; [now apply brings_chained | auto].
Qed.
Print Assumptions C113_users_partial.

(** Every user is shown, whatever the graph. *)
Theorem C113_users_shown known w f p g r :
  uses w f g -> has w NClass g r -> known (fst r) = true ->
  exists l q c x, lenses_of known w (f, p) = Some l /\ In (Classes q c x) l /\ In r x.
Proof.
  intros (_ & t & B & S1) R K. destruct (C113_classes known w f p) as (l & L & _ & G).
  destruct (proj2 (G r)) as (q & c & x & X & I).
  - split; [exact K|]. exists t, g. split; [now apply brings_chained | auto].
  - now exists l, q, c, x.
Qed.
Print Assumptions C113_users_shown.

(** ** Examples *)
Definition yes (_ : nat) : bool := true.
(** module 1; class 9; module 2::3; end; end; end *)
Definition ex_tree : item :=
  Other [AModule Lexical [1] 0 8 [Class Lexical [9] [AModule Lexical [2; 3] 20 28 []]]].
Example ex_ordinary : ordinary yes ex_tree.
Proof.
  constructor. intros i [<-|[]]. constructor; [reflexivity|]. intros i [<-|[]].
  constructor; [reflexivity|]. intros i [<-|[]]. apply O_last_module; [discriminate | reflexivity | intros i []].
Qed.
Example ex_collect : collect yes [] ex_tree = [([1], (0, 8)); ([1; 9; 2; 3], (20, 28))].
Proof. reflexivity. Qed.

(** module M(1); module N(2) includes M; class C(3) includes N; class D(4) extends M;
    M and N include each other. *)
Definition rg (n : nat) : range := (0, (n, n + 1)).
Definition ex_world : world :=
  {| edges := [ {| kind := Include; source := ([2], false); target := ([1], false); at_ := rg 10 |};
                {| kind := Include; source := ([1], false); target := ([2], false); at_ := rg 20 |};
                {| kind := Prepend; source := ([3], false); target := ([2], false); at_ := rg 30 |};
                {| kind := Extend; source := ([4], false); target := ([1], false); at_ := rg 40 |};
                {| kind := Include; source := ([4], true); target := ([1], false); at_ := rg 40 |} ];
     nodes := [(([1], false), (NModule, rg 1)); (([2], false), (NModule, rg 2));
               (([3], false), (NClass, rg 3)); (([4], false), (NClass, rg 4))] |}.
Example ex_lenses : lenses_of yes ex_world ([1], (0, 8)) =
  Some [Mixed (0, 8) Include 1 [rg 10]; Mixed (0, 8) Extend 1 [rg 40]; Classes (0, 8) 2 [rg 3; rg 4]].
Proof. reflexivity. Qed.
Example ex_no_extending : no_extending_module ex_world.
Proof.
  intros t f (e & I & S1 & M) (_ & N). apply N.
  destruct I as [<-|[<-|[<-|[<-|[<-|[]]]]]]; destruct M as (_ & K & _); try discriminate.
  cbn in S1. subst f. exists (rg 4). right. right. right. now left.
Qed.
Example ex_uses : uses ex_world [1] ([3], false).
Proof.
  split; [exists (rg 3); right; right; now left|]. exists [2]. split.
  - apply (R_more ex_world [1] [1] ([2], false)); [constructor| |].
    + eexists _, Include. split; [now left|]. split; [reflexivity|]. split; [now left|]. now split.
    + split; [exists (rg 2); right; now left|]. intros (r & R).
      destruct R as [R|[R|[R|[R|[]]]]]; discriminate.
  - left. eexists _, Prepend. split; [right; right; now left|]. split; [reflexivity|].
    split; [now right|]. now split.
Qed.

(** ** Corners *)
(** module A::B; module C; end; end: the lenses of the inner module are those of B::C. *)
Theorem C113_path_refuted : exists root f s e,
  declares [] root f s e /\ forall g, In (g, (s, e)) (collect yes [] root) -> g <> f.
Proof.
  exists (AModule Lexical [1; 2] 0 5 [AModule Lexical [3] 10 15 []]), [1; 2; 3], 10, 15. split.
  - apply D_module with [1; 2] (AModule Lexical [3] 10 15 []); [reflexivity | now left|].
    now constructor.
  - intros g [X|[X|[]]]; injection X; intros; subst; discriminate.
Qed.
Print Assumptions C113_path_refuted.

(** module B; module ::A; end; end: the lenses of the inner module are those of B::A. *)
Theorem C113_root_refuted : exists root f s e,
  declares [] root f s e /\ forall g, In (g, (s, e)) (collect yes [] root) -> g <> f.
Proof.
  exists (AModule Lexical [2] 0 5 [AModule Root [1] 10 15 []]), [1], 10, 15. split.
  - apply D_module with [2] (AModule Root [1] 10 15 []); [reflexivity | now left|].
    now constructor.
  - intros g [X|[X|[]]]; injection X; intros; subst; discriminate.
Qed.
Print Assumptions C113_root_refuted.

(** module N; extend M; end; class C; include N; end: C is counted among the classes of
    M, though neither C nor its singleton class has M among its ancestors. *)
Definition ext_world : world :=
  {| edges := [ {| kind := Extend; source := ([2], false); target := ([1], false); at_ := rg 10 |};
                {| kind := Include; source := ([2], true); target := ([1], false); at_ := rg 10 |};
                {| kind := Include; source := ([3], false); target := ([2], false); at_ := rg 20 |} ];
     nodes := [(([1], false), (NModule, rg 1)); (([2], false), (NModule, rg 2));
               (([3], false), (NClass, rg 3))] |}.
Theorem C113_extend_refuted : exists w f p l q c x r,
  lenses_of yes w (f, p) = Some l /\ In (Classes q c x) l /\ In r x /\
  forall g, uses w f g -> ~ has w NClass g r.
Proof.
  exists ext_world, [1], (0, 8), [Mixed (0, 8) Extend 1 [rg 10]; Classes (0, 8) 1 [rg 3]],
    (0, 8), 1, [rg 3], (rg 3).
  split; [reflexivity|]. split; [right; now left|]. split; [now left|].
  assert (T : forall f, ~ takes ext_world [1] f).
  { intros f (e & k & I & _ & D & T & K & X).
    destruct I as [<-|[<-|[<-|[]]]]; cbn in T, K; subst k; cbn in X; try discriminate.
    destruct D; discriminate. }
  assert (B : forall t, brings ext_world [1] t -> t = [1]).
  { intros t X. induction X as [|t f _ IH S1 _]; [reflexivity|]. subst t. now apply T in S1. }
  intros g (C & t & X & S1) R. apply B in X. subst t.
  destruct R as [R|[R|[R|[]]]]; try discriminate. injection R as <-.
  destruct S1 as [S1|(e & I & E & M)]; [now apply T in S1|].
  destruct I as [<-|[<-|[<-|[]]]]; cbn in E; try discriminate.
  destruct M as (_ & K & _). discriminate.
Qed.
Print Assumptions C113_extend_refuted.

(** class C; class << self; include M; end; end: the same as [extend M], but shown
    neither as a mixin nor as a class. *)
Theorem C113_singleton_refuted : exists w f p e,
  In e (edges w) /\ fst (target e) = f /\ kind e = Include /\ a_class w (fst (source e), false) /\
  lenses_of yes w (f, p) = Some [].
Proof.
  exists {| edges := [{| kind := Include; source := ([3], true); target := ([1], false); at_ := rg 10 |}];
            nodes := [(([1], false), (NModule, rg 1)); (([3], false), (NClass, rg 3))] |},
    [1], (0, 8), {| kind := Include; source := ([3], true); target := ([1], false); at_ := rg 10 |}.
  split; [now left|]. split; [reflexivity|]. split; [reflexivity|].
  split; [exists (rg 3); right; now left | reflexivity].
Qed.
Print Assumptions C113_singleton_refuted.
