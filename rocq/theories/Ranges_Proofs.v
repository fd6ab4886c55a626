(** Proofs about selection and folding ranges. *)
From Coq Require Import List Arith NArith Bool Lia Sorted Permutation.
From Verif Require Import Text_Lib Position_Model Position_Spec Position_Proofs Position_Props Sort_Lib Ranges_Model Ranges_Spec.
Import ListNotations.

Definition around (o : nat) (r : range) : bool := (fst r <=? o) && (o <? snd r).
Lemma around_iff o r : around o r = true <-> covers r o.
Proof. unfold around, covers. rewrite andb_true_iff, Nat.leb_le, Nat.ltb_lt. tauto. Qed.

Definition gather (ls : list range) (q : nat * list range) : nat * list range := (fst q, snd q ++ filter (around (fst q)) ls).

Lemma u32_below n m : (N.of_nat n <= 4294967295)%N -> m <= n -> u32 m = Some m.
Proof. intros H L. unfold u32. destruct (N.leb_spec (N.of_nat m) 4294967295); auto. lia. Qed.

Lemma collect_location_eq n c l : (N.of_nat n <= 4294967295)%N -> fst l <= snd l <= n -> collect_location c l = Some (map (gather [l]) c).
Proof.
  intros H [L1 L2]. unfold collect_location. rewrite (u32_below n (fst l)), (u32_below n (snd l)) by (auto; lia).
  destruct (Nat.eqb_spec (fst l) (snd l)) as [E|E]; f_equal.
  - rewrite <- (map_id c) at 1. apply map_ext. intros [o rs]. unfold gather. cbn. unfold around. rewrite E.
    destruct (Nat.leb_spec (snd l) o), (Nat.ltb_spec o (snd l)); cbn; try lia; now rewrite app_nil_r.
  - apply map_ext. intros [o rs]. unfold gather. cbn. unfold around. destruct l as [s e]. cbn. destruct (_ && _); auto. now rewrite app_nil_r.
Qed.

Lemma gather_app a b q : gather b (gather a q) = gather (a ++ b) q.
Proof. unfold gather. cbn. now rewrite filter_app, app_assoc. Qed.
Lemma gather_nil c : map (gather []) c = c.
Proof. rewrite <- (map_id c) at 2. apply map_ext. intros [o rs]. unfold gather. cbn. now rewrite app_nil_r. Qed.

Lemma collect_all_eq n ls : forall c, (N.of_nat n <= 4294967295)%N -> (forall l, In l ls -> fst l <= snd l <= n) -> collect_all c ls = Some (map (gather ls) c).
Proof.
  induction ls as [|l ls IH]; intros c H L; cbn [collect_all]; [now rewrite gather_nil|].
  rewrite (collect_location_eq n) by (auto; apply L; left; auto). rewrite IH by (auto; intros; apply L; right; auto).
  rewrite map_map. f_equal. apply map_ext. intros q. now rewrite gather_app.
Qed.

Lemma visit_eq n f : forall c, (N.of_nat n <= 4294967295)%N -> located n f -> visit c f = Some (map (gather (locations f)) c).
Proof.
  induction f as [|k l names inside IH1 after IH2]; intros c H L; cbn [visit locations]; [now rewrite gather_nil|].
  assert (located n inside) as LI by (intros r I; apply L; cbn; rewrite !in_app_iff; auto).
  assert (located n after) as LA by (intros r I; apply L; cbn; rewrite !in_app_iff; auto).
  rewrite (collect_all_eq n); auto.
  - rewrite IH1, IH2 by auto. rewrite !map_map. f_equal. apply map_ext. intros q. rewrite !gather_app. repeat rewrite <- ?app_assoc. reflexivity.
  - intros r I. apply L. cbn in *. rewrite in_app_iff. tauto.
Qed.

(** ** The chain *)
Lemma key_iff a b : key_leb a b = true <-> snd a - fst a < snd b - fst b \/ (snd a - fst a = snd b - fst b /\ (fst b < fst a \/ (fst a = fst b /\ snd a <= snd b))).
Proof. unfold key_leb. cbv zeta. rewrite !orb_true_iff, !andb_true_iff, !orb_true_iff, !andb_true_iff, !Nat.ltb_lt, !Nat.eqb_eq, !Nat.leb_le. tauto. Qed.
Lemma key_total a b : key_leb a b = true \/ key_leb b a = true.
Proof. rewrite !key_iff. lia. Qed.
Lemma key_trans a b c : key_leb a b = true -> key_leb b c = true -> key_leb a c = true.
Proof. rewrite !key_iff. lia. Qed.

Definition lower (a b : range) : Prop := key_leb a b = true /\ a <> b.
Lemma same_range_iff a b : same_range a b = true <-> a = b.
Proof. destruct a, b. unfold same_range. cbn. rewrite andb_true_iff, !Nat.eqb_eq. split; [intros [-> ->]; auto|]. intros E. injection E as -> ->. auto. Qed.
Lemma dedup_in l r : In r (dedup l) <-> In r l.
Proof.
  induction l as [|x l IH]; [easy|]. destruct l as [|y l]; [reflexivity|]. cbn [dedup]. destruct (same_range x y) eqn:E.
  - apply same_range_iff in E. subst y. rewrite IH. cbn. tauto.
  - cbn [In] in *. rewrite IH. tauto.
Qed.
Lemma key_antisym a b : key_leb a b = true -> key_leb b a = true -> a = b.
Proof. rewrite !key_iff. destruct a as [a1 a2], b as [b1 b2]. cbn. intros H1 H2. f_equal; lia. Qed.
Lemma dedup_lower l : StronglySorted (le key_leb) l -> StronglySorted lower (dedup l).
Proof.
  induction l as [|x l IH]; intros H; [constructor|]. inversion H as [|? ? S F]; subst. destruct l as [|y l]; [constructor; constructor|].
  change (dedup (x :: y :: l)) with (if same_range x y then dedup (y :: l) else x :: dedup (y :: l)). destruct (same_range x y) eqn:E; [auto|]. constructor; auto. apply Forall_forall. intros z I. apply (proj1 (dedup_in _ _)) in I.
  rewrite Forall_forall in F. split; [exact (F z I)|]. intros <-.
  assert (x <> y) as NE by (intros Q; apply same_range_iff in Q; congruence). apply NE. apply key_antisym; [exact (F y (or_introl eq_refl))|].
  inversion S as [|? ? S' F']; subst. destruct I as [->|I]; [apply F; left; auto|]. rewrite Forall_forall in F'. exact (F' x I).
Qed.

Lemma chain_in l : forall inner r, In r (chain_from inner l) -> In r l.
Proof. induction l as [|x l IH]; intros inner r; cbn; auto. destruct (_ && _); cbn; [intros [H|H]|intros H]; eauto. Qed.
Lemma chain_nested l : forall inner, StronglySorted lower (inner :: l) -> inside_out (inner :: chain_from inner l).
Proof.
  induction l as [|x l IH]; intros inner S; cbn; [constructor|]. inversion S as [|? ? S1 F]; subst. inversion S1 as [|? ? S2 F2]; subst. inversion F as [|? ? F3 F4]; subst.
  destruct ((fst x <=? fst inner) && (snd inner <=? snd x)) eqn:E.
  - apply andb_true_iff in E. rewrite !Nat.leb_le in E. constructor; [split; tauto|apply F3|]. now apply IH.
  - apply IH. constructor; auto.
Qed.
Lemma chain_maximal o l : forall inner, StronglySorted lower (inner :: l) -> (forall r, In r (inner :: l) -> covers r o) ->
  forall r, In r (inner :: l) -> (forall s, In s (inner :: chain_from inner l) -> within r s \/ within s r) -> In r (inner :: chain_from inner l).
Proof.
  induction l as [|x l IH]; intros inner S C r I W; [exact I|]. inversion S as [|? ? S1 F]; subst. inversion S1 as [|? ? S2 F2]; subst. inversion F as [|? ? F3 F4]; subst.
  destruct I as [<-|I]; [left; auto|]. cbn in W |- *. destruct ((fst x <=? fst inner) && (snd inner <=? snd x)) eqn:E.
  - right. apply IH; auto. intros r' I'. apply C. right. auto.
  - destruct I as [<-|I].
    + exfalso. destruct F3 as [K D]. apply andb_false_iff in E. rewrite !Nat.leb_gt in E. apply key_iff in K.
      pose proof (C x (or_intror (or_introl eq_refl))) as [C1 C2]. pose proof (C inner (or_introl eq_refl)) as [C3 C4].
      destruct (W inner (or_introl eq_refl)) as [[W1 W2]|[W1 W2]]; [|lia]. apply D. destruct x, inner. cbn in *. f_equal; lia.
    + apply IH; auto; [constructor; auto|intros r' I'; apply C; destruct I' as [I'|I']; [left|right; right]; auto|right; auto].
Qed.

Lemma finish_eq f o : (exists r, In r (locations f) /\ covers r o) -> selects f o (finish (gather (locations f) (o, []))).
Proof.
  intros (r0 & I0 & C0). unfold finish. cbn [fst snd gather app]. set (cand := filter (around o) (locations f)).
  assert (forall r, In r (dedup (sort key_leb cand)) <-> In r (locations f) /\ covers r o) as M.
  { intros r. rewrite dedup_in, sort_in. unfold cand. rewrite filter_In, around_iff. tauto. }
  pose proof (dedup_lower (sort key_leb cand) (sort_sorted key_leb key_total key_trans cand)) as S.
  destruct (dedup (sort key_leb cand)) as [|x l] eqn:E; [exfalso; apply (M r0); auto|]. unfold chain.
  assert (forall r, In r (x :: chain_from x l) -> In r (x :: l)) as IN by (intros r [<-|I]; [left; auto|right; eapply chain_in; eauto]).
  split; [|split; [|split]].
  - now apply chain_nested.
  - intros r I. apply M. auto.
  - intros r s I C H. injection H as <-. assert (In r (x :: l)) as J by (apply M; auto). destruct J as [<-|J]; [lia|].
    inversion S as [|? ? S1 F]; subst. rewrite Forall_forall in F. destruct (F r J) as [K _]. apply key_iff in K. lia.
  - intros r I C W. apply (chain_maximal o); auto; [|apply M; auto]. intros s J. apply M in J. tauto.
Qed.

Lemma finish_none f o : (forall r, In r (locations f) -> ~ covers r o) -> finish (gather (locations f) (o, [])) = [(o, o)].
Proof.
  intros H. unfold finish. cbn [fst snd gather app].
  assert (filter (around o) (locations f) = []) as ->; [|reflexivity].
  induction (locations f) as [|r l IH]; auto. cbn. destruct (around o r) eqn:E; [apply around_iff in E; exfalso; eapply H; [left; auto|exact E]|].
  apply IH. intros q I. apply H. right. auto.
Qed.
Lemma covered_or f o : (exists r, In r (locations f) /\ covers r o) \/ forall r, In r (locations f) -> ~ covers r o.
Proof.
  destruct (existsb (around o) (locations f)) eqn:E.
  - left. apply existsb_exists in E. destruct E as (r & I & A). apply around_iff in A. eauto.
  - right. intros r I C. apply around_iff in C. assert (existsb (around o) (locations f) = true) as X by (apply existsb_exists; eauto). congruence.
Qed.

(** ** Well placed trees *)
Lemma within_trans a b c : within a b -> within b c -> within a c. Proof. unfold within. lia. Qed.
Lemma in_root f : well_placed f -> forall a, In a (locations f) -> exists r, In r (roots f) /\ within a r.
Proof.
  induction f as [|k l names inside IH1 after IH2]; [easy|]. intros (W1 & W2 & W3 & W4 & W5) a I. cbn [locations roots] in *.
  destruct I as [<-|I]; [exists l; split; [left; auto|unfold within; lia]|]. apply in_app_or in I. destruct I as [I|I].
  - exists l. split; [left; auto|]. apply W1. apply in_or_app. auto.
  - apply in_app_or in I. destruct I as [I|I].
    + destruct (IH1 W4 a I) as (r & J & K). exists l. split; [left; auto|]. eapply within_trans; [exact K|]. apply W1. apply in_or_app. auto.
    + destruct (IH2 W5 a I) as (r & J & K). exists r. split; [right; auto|auto].
Qed.
Lemma side_apart l : side_by_side l -> forall a b, In a l -> In b l -> a = b \/ apart a b.
Proof.
  induction 1 as [|r l H S IH]; [easy|]. intros a b [<-|I] [<-|J]; auto. right. destruct (H a I); unfold apart; lia.
Qed.
Lemma side_split a b : side_by_side (a ++ b) -> forall x y, In x a -> In y b -> apart x y.
Proof.
  induction a as [|r a IH]; [easy|]. intros S x y. inversion S; subst. intros [<-|I] J; [apply H1, in_or_app; auto|eauto].
Qed.
Lemma side_left a b : side_by_side (a ++ b) -> side_by_side a.
Proof. induction a as [|r a IH]; intros S; constructor; inversion S; subst; auto. intros q I. apply H1, in_or_app. auto. Qed.

Lemma well_nested f : well_placed f -> forall o, nested_at o f.
Proof.
  induction f as [|k l names inside IH1 after IH2]; [easy|]. intros (W1 & W2 & W3 & W4 & W5) o.
  assert (forall a, In a (names ++ locations inside) -> within a l) as IN.
  { intros a I. apply in_app_or in I. destruct I as [I|I]; [apply W1, in_or_app; auto|]. destruct (in_root inside W4 a I) as (r & J & K).
    eapply within_trans; [exact K|]. apply W1, in_or_app. auto. }
  assert (forall a b, (a = l \/ In a (names ++ locations inside)) -> In b (locations after) -> covers a o -> covers b o -> False) as OUT.
  { intros a b I J A B. destruct (in_root after W5 b J) as (r & R & K). assert (within a l) as WA by (destruct I as [->|I]; [unfold within; lia|auto]).
    pose proof (W3 r R). unfold apart, within, covers in *. lia. }
  assert (forall a b, In a names -> In b (locations inside) -> covers a o -> covers b o -> False) as NI.
  { intros a b I J A B. destruct (in_root inside W4 b J) as (r & R & K). pose proof (side_split _ _ W2 a r I R). unfold apart, within, covers in *. lia. }
  intros a b I J A B. cbn [locations] in I, J. rewrite app_assoc in I, J.
  assert (forall z, In z (l :: (names ++ locations inside) ++ locations after) -> z = l \/ In z (names ++ locations inside) \/ In z (locations after)) as SP.
  { intros z [<-|H]; auto. apply in_app_or in H. tauto. }
  apply SP in I. apply SP in J. destruct I as [->|[I|I]], J as [->|[J|J]]; auto.
  - left. unfold within. lia.
  - exfalso. eapply OUT; eauto.
  - apply in_app_or in I. apply in_app_or in J. destruct I as [I|I], J as [J|J].
    + destruct (side_apart _ (side_left _ _ W2) a b I J) as [->|H]; [left; unfold within; lia|]. unfold apart, covers in *. lia.
    + exfalso. eapply NI; eauto.
    + exfalso. eapply NI; [exact J|exact I|auto|auto].
    + exact (IH1 W4 o a b I J A B).
  - exfalso. eapply OUT; [right; exact I|exact J|auto|auto].
  - exfalso. eapply OUT; [left; reflexivity|exact I|auto|auto].
  - exfalso. eapply OUT; [right; exact J|exact I|auto|auto].
  - exact (IH2 W5 o a b I J A B).
Qed.

(** ** Replies *)
Lemma every_forall {A B} (f : A -> option B) (P : A -> B -> Prop) l : (forall x, In x l -> exists y, f x = Some y /\ P x y) -> exists r, every f l = Some r /\ Forall2 P l r.
Proof.
  induction l as [|x l IH]; intros H; cbn; [eauto|]. destruct (H x (or_introl eq_refl)) as (y & -> & Q).
  destruct IH as (r & -> & F); [intros; apply H; right; auto|]. eauto.
Qed.
Lemma offset_position t o : short t -> exists p, offset_to_line_character t o = Some p.
Proof. intros S. destruct (C40_any_offset t o S) as (_ & _ & _ & _ & _ & p & E & _). eauto. Qed.

Definition shows (t : text) (r : range) (q : (nat * nat) * (nat * nat)) : Prop :=
  offset_to_line_character t (fst r) = Some (fst q) /\ offset_to_line_character t (snd r) = Some (snd q).
Lemma from_chain t l : short t -> l <> [] -> exists s, selection_range_from_chain t l = Some s /\ Forall2 (shows t) l (reply s).
Proof.
  intros H. induction l as [|r l IH]; [easy|]. intros _. cbn [selection_range_from_chain].
  destruct (offset_position t (fst r) H) as (a & Ea), (offset_position t (snd r) H) as (b & Eb). rewrite Ea, Eb.
  destruct l as [|r' l]; [eexists; split; [reflexivity|]; repeat constructor; auto|].
  destruct IH as (s & -> & F); [discriminate|]. eexists. split; [reflexivity|]. cbn [reply]. constructor; [split; auto|exact F].
Qed.

(** ** Folding *)
Lemma end_position a b : short (a ++ b) -> b <> [] -> exists c, offset_to_line_character (a ++ b) (size a) = Some (breaks a, c).
Proof.
  intros H NE. destruct (last_line_exists a) as (m & M). exists (units m). apply position_at; auto. left. split; auto. exists m. auto.
Qed.
