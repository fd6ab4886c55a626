(** Invariants of the two queues. *)
From Coq Require Import List Bool NArith String Ascii Sorted Lia.
From Verif Require Import Queues_Model Queues_Spec.
Import ListNotations.
Open Scope list_scope.

(** *** Maps *)
Lemma ascii_lt_trans : forall a b c, Ascii.compare a b = Lt -> Ascii.compare b c = Lt -> Ascii.compare a c = Lt.
Proof. unfold Ascii.compare. intros a b c. rewrite !N.compare_lt_iff. lia. Qed.
Lemma lt_trans : forall a b c, String.compare a b = Lt -> String.compare b c = Lt -> String.compare a c = Lt.
Proof.
  induction a as [|x a IH]; intros [|y b] [|z c]; cbn; try discriminate; auto.
  destruct (Ascii.compare x y) eqn:E1, (Ascii.compare y z) eqn:E2; intros H1 H2; try discriminate.
  - apply Ascii.compare_eq_iff in E1, E2. subst. destruct (Ascii.compare z z) eqn:E; eauto.
    + unfold Ascii.compare in E. rewrite N.compare_refl in E. discriminate.
  - apply Ascii.compare_eq_iff in E1. subst. now rewrite E2.
  - apply Ascii.compare_eq_iff in E2. subst. now rewrite E1.
  - now rewrite (ascii_lt_trans _ _ _ E1 E2).
Qed.
Lemma compare_refl : forall a, String.compare a a = Eq.
Proof.
  induction a as [|x a IH]; cbn; auto. unfold Ascii.compare. now rewrite N.compare_refl.
Qed.
Lemma lt_irrefl : forall a, String.compare a a <> Lt.
Proof. intros a E. rewrite compare_refl in E. discriminate. Qed.

Section Maps.
Context {A : Type}.
Definition before (p q : string * A) : Prop := String.compare (fst p) (fst q) = Lt.
Definition sorted (m : list (string * A)) : Prop := StronglySorted before m.

Lemma in_put : forall m k a w b, sorted m ->
  (In (w, b) (put m k a) <-> (w = k /\ b = a) \/ (w <> k /\ In (w, b) m)).
Proof.
  intros m k a w b. induction m as [|[x c] m IH]; intro So; cbn.
  - intuition congruence.
  - inversion So as [|y z S1 S2]; subst. rewrite Forall_forall in S2.
    destruct (String.compare k x) eqn:E; cbn.
    + apply String.compare_eq_iff in E. subst x. split.
      * intros [X|i]; [left; split; congruence|]. right. split; [|auto]. intros ->. specialize (S2 _ i). now apply lt_irrefl in S2.
      * intros [[-> ->]|[N [X|i]]]; [auto|congruence|auto].
    + split.
      * intros [X|[X|i]]; [left; split; congruence| |].
        -- injection X as <- <-. right. split; auto. intros ->. now apply lt_irrefl in E.
        -- right. split; auto. intros ->. specialize (S2 _ i). unfold before in S2. cbn in S2.
           apply (lt_irrefl k). eapply lt_trans; eauto.
      * intros [[-> ->]|[N X]]; auto.
    + assert (N : x <> k) by (intros ->; rewrite compare_refl in E; discriminate).
      rewrite (IH S1). intuition congruence.
Qed.
Lemma sorted_put : forall m k a, sorted m -> sorted (put m k a).
Proof.
  intros m k a. induction m as [|[x c] m IH]; intro So; cbn.
  - repeat constructor.
  - inversion So as [|y z S1 S2]; subst. destruct (String.compare k x) eqn:E.
    + apply String.compare_eq_iff in E. subst x. constructor; auto.
    + constructor; auto. constructor; auto. rewrite Forall_forall in S2. apply Forall_forall. intros q i. eapply lt_trans; [exact E|]. apply (S2 q i).
    + constructor; [exact (IH S1)|]. rewrite Forall_forall in S2. apply Forall_forall. intros [w b] i. apply in_put in i; auto.
      destruct i as [[-> ->]|[_ i]]; [|now apply S2]. red. cbn. rewrite String.compare_antisym, E. reflexivity.
Qed.
Lemma sorted_once : forall m w b c, sorted m -> In (w, b) m -> In (w, c) m -> b = c.
Proof.
  intros m w b c. induction m as [|[x d] m IH]; intro So; cbn; [tauto|]. inversion So as [|y z S1 S2]; subst.
  rewrite Forall_forall in S2. intros [X|i] [Y|j].
  - congruence.
  - injection X as -> ->. specialize (S2 _ j). now apply lt_irrefl in S2.
  - injection Y as -> ->. specialize (S2 _ i). now apply lt_irrefl in S2.
  - auto.
Qed.
Lemma sorted_keys : forall m, sorted m -> NoDup (map fst m).
Proof.
  induction m as [|[x d] m IH]; intro So; cbn; constructor; inversion So as [|y z S1 S2]; subst; auto.
  intro i. apply in_map_iff in i. destruct i as [[w b] [E i]]. cbn in E. subst w. rewrite Forall_forall in S2.
  specialize (S2 _ i). now apply lt_irrefl in S2.
Qed.
Lemma puts_spec : forall l m, sorted m -> sorted (puts m l) /\
  forall w b, In (w, b) (puts m l) <->
    fold_left (fun v p => if String.eqb (fst p) w then Some (snd p) else v) l None = Some b \/
    (fold_left (fun v p => if String.eqb (fst p) w then Some (snd p) else v) l (@None A) = None /\ In (w, b) m).
Proof.
  intro l. induction l as [|[k a] l IH] using rev_ind; intros m So; unfold puts in *.
  - cbn. split; auto. intros w b. intuition congruence.
  - rewrite fold_left_app. cbn. destruct (IH m So) as [S1 S2]. split; [now apply sorted_put|].
    intros w b. rewrite fold_left_app. cbn. rewrite in_put by auto. rewrite S2. destruct (String.eqb_spec k w) as [->|N].
    + intuition congruence.
    + intuition congruence.
Qed.
End Maps.

(** *** Watched files *)
Definition exact (tr : list wobs) : Prop := forall a i ds b, tr = a ++ Handed i ds :: b ->
  (forall u k, In (u, k) ds <-> owed a u = Some k) /\ NoDup (map fst ds) /\ newest a = Some i /\ ds <> [].

Definition wok (tr : list wobs) (x : wstate) : Prop :=
  sorted (pending (held x)) /\
  (forall u k, In (u, k) (pending (held x)) <-> owed tr u = Some k) /\
  (forall i g, In (i, g) (asleep x) -> (g <= generation (held x))%N /\ (g = generation (held x) -> newest tr = Some i)) /\
  (pending (held x) <> [] -> exists i, In (i, generation (held x)) (asleep x)) /\
  exact tr.

Lemma exact_more : forall tr o, exact tr -> (forall i ds, o = Handed i ds ->
  (forall u k, In (u, k) ds <-> owed tr u = Some k) /\ NoDup (map fst ds) /\ newest tr = Some i /\ ds <> []) ->
  exact (tr ++ [o]).
Proof.
  intros tr o E H a i ds b Eq. destruct b as [|o' b] using rev_ind.
  - apply app_inj_tail in Eq. destruct Eq as [<- ->]. auto.
  - clear IHb. rewrite app_comm_cons, app_assoc in Eq. apply app_inj_tail in Eq. destruct Eq as [Eq _].
    apply (E a i ds b Eq).
Qed.

Lemma told_in : forall cs u, NoDup (map fst cs) -> forall k, In (u, k) cs <-> told cs u = Some k.
Proof.
  intros cs u. unfold told. induction cs as [|[w c] cs IH] using rev_ind; intros Nd k; cbn.
  - split; [tauto|discriminate].
  - rewrite map_app in Nd. cbn in Nd. rewrite fold_left_app, in_app_iff. cbn.
    apply NoDup_remove in Nd. rewrite app_nil_r in Nd. destruct Nd as [Nd Ni]. rewrite (IH Nd).
    destruct (String.eqb_spec w u) as [->|N]; [|intuition congruence]. split.
    + intros [X|[X|[]]]; [|congruence]. exfalso. apply Ni. apply (IH Nd) in X. apply in_map_iff. exists (u, k). auto.
    + intro X. right; left. congruence.
Qed.

Theorem wok_run : forall tr x, wrun tr x -> wok tr x.
Proof.
  intros tr x R. induction R as [|tr x o y R IH St].
  - unfold wok. cbn. repeat split; try tauto; try discriminate; try (constructor).
    + destruct a; discriminate.
    + destruct a; discriminate.
    + destruct a; discriminate.
    + destruct a; discriminate.
    + destruct a; discriminate.
  - destruct IH as [h1 [h2 [h3 [h4 h5]]]]. destruct St; cbn [held asleep] in *.
    + unfold wok. cbn [held asleep queue pending generation]. destruct (puts_spec cs _ h1) as [S1 S2].
      split; [auto|]. split; [|split; [|split]].
      * intros u k. rewrite S2. unfold owed. rewrite fold_left_app. cbn. fold (owed tr u). fold (told cs u).
        rewrite h2. destruct (told cs u); intuition congruence.
      * intros i g i0. apply in_app_or in i0. unfold newest. rewrite fold_left_app. cbn.
        destruct i0 as [i0|[i0|[]]].
        -- destruct (h3 i g i0) as [H1 _]. split; [lia|intros ->; lia].
        -- injection i0 as <- <-. split; [lia|auto].
      * intros _. exists n. apply in_or_app. cbn; auto.
      * apply exact_more; auto. discriminate.
    + unfold take. destruct (negb (g =? generation b)%N || match pending b with [] => true | _ => false end) eqn:T; cbn [fst snd].
      * rewrite app_nil_r. unfold wok. cbn [held asleep]. split; [auto|]. split; [auto|]. split; [|split; [|auto]].
        -- intros i' g' k. apply h3. rewrite in_app_iff in *. cbn. tauto.
        -- intro Ne. destruct (h4 Ne) as [i' k]. exists i'. rewrite in_app_iff in *. cbn in k.
           destruct k as [k|[k|k]]; auto. injection k as -> ->. rewrite N.eqb_refl in T. cbn in T.
           destruct (pending b); [now destruct Ne|discriminate].
      * apply orb_false_iff in T. destruct T as [T1 T2]. apply negb_false_iff, N.eqb_eq in T1. subst g.
        assert (Nd := sorted_keys _ h1). assert (Ne : pending b <> []) by (destruct (pending b); [discriminate|discriminate]).
        destruct (h3 i (generation b)) as [_ Nw]; [apply in_or_app; cbn; auto|]. specialize (Nw eq_refl).
        unfold wok. cbn [held asleep pending generation]. split; [constructor|]. split; [|split; [|split]].
        -- intros u k. cbn. split; [tauto|]. unfold owed. rewrite fold_left_app. cbn. fold (owed tr u).
           destruct (told (pending b) u) eqn:E; [discriminate|]. intro O. apply h2 in O. apply (told_in _ u Nd) in O. congruence.
        -- intros i' g' k. unfold newest. rewrite fold_left_app. cbn. apply h3. rewrite in_app_iff in *. cbn. tauto.
        -- congruence.
        -- apply exact_more; auto. intros i' ds E. injection E as <- <-. auto.
    + unfold wok. cbn [held asleep cancel pending generation]. split; [constructor|]. split; [|split; [|split]].
      * intros u k. unfold owed. rewrite fold_left_app. cbn. intuition congruence.
      * intros i g k. destruct (h3 i g k) as [H1 _]. split; [lia|intros ->; lia].
      * congruence.
      * apply exact_more; auto. discriminate.
Qed.

(** *** Diagnostics *)
Section Diag.
Context {D : Type}.
Implicit Types tr : list (pobs D).


Definition flight (x : pstate D) (u : string) : list D :=
  match senders x with [Some (w, d)] => if String.eqb w u then [d] else [] | _ => [] end.
Definition queued (m : list (string * D)) (u : string) (l : list D) : Prop :=
  (l = [] /\ forall d, ~ In (u, d) m) \/ (exists d, l = [d] /\ In (u, d) m).

Definition pok tr (x : pstate D) : Prop :=
  sorted (waits (pub x)) /\
  (senders x = [] /\ waits (pub x) = [] /\ scheduled (pub x) = false \/
   exists o, senders x = [o] /\ scheduled (pub x) = true) /\
  (forall u, exists l, queued (waits (pub x)) u l /\ part_of (ins tr u ++ flight x u ++ l) (outs tr u) /\
     last (map Some (ins tr u ++ flight x u ++ l)) None = last (map Some (outs tr u)) None).

Lemma part_app : forall (a b : list D) d, part_of a b -> part_of (a ++ [d]) (b ++ [d]).
Proof. intros a b d P. induction P; cbn; repeat constructor; auto. Qed.
Lemma part_more : forall (a b : list D) d, part_of a b -> part_of a (b ++ [d]).
Proof. intros a b d P. induction P; cbn; repeat constructor; auto. Qed.
Lemma part_nil : forall b : list D, part_of [] b.
Proof. induction b; constructor; auto. Qed.
Lemma part_less : forall (a b : list D) d, part_of (a ++ [d]) b -> part_of a b.
Proof.
  intros a b d P. remember (a ++ [d]) as c eqn:E. revert a E. induction P as [|x c b P IH|x c b P IH]; intros a E.
  - destruct a; discriminate.
  - destruct a as [|y a]; cbn in E; [apply part_nil|]. injection E as <- E. constructor. auto.
  - constructor. auto.
Qed.

Lemma last_some : forall (l : list D) d, last (map Some (l ++ [d])) None = Some d.
Proof. intros. rewrite map_app. cbn. apply last_last. Qed.
Lemma queued_of : forall m u, sorted m -> exists l, queued m u l.
Proof.
  intros m u So. destruct (find (fun p => String.eqb (fst p) u) m) as [[w d]|] eqn:F.
  - apply find_some in F. destruct F as [i E]. cbn in E. apply String.eqb_eq in E. subst w. exists [d]. right. eauto.
  - exists []. left. split; auto. intros d i. eapply find_none in F; eauto. cbn in F. now rewrite String.eqb_refl in F.
Qed.

Theorem pok_run : forall tr x, prun tr x -> pok tr x.
Proof.
  intros tr x R. induction R as [|tr x o y R IH St].
  - unfold pok. cbn. split; [constructor|]. split; [auto|]. intro u. exists []. split; [left; auto|]. split; [apply po_nil|reflexivity].
  - destruct IH as [h1 [h2 h3]]. destruct St.
    + (* publish *)
      unfold pok. cbn [pub senders offer fst snd waits scheduled] in *. split; [now apply sorted_put|]. split.
      * right. destruct h2 as [[-> [_ ->]]|[o [-> ->]]]; cbn; eauto.
      * intro w. destruct (h3 w) as [k [Qk [P L]]].
        assert (Fl : flight (PState (Publication (put (waits p) u d) true) (l ++ (if negb (scheduled p) then [None] else []))) w =
                     flight (PState p l) w).
        { unfold flight; cbn. destruct h2 as [[-> [_ ->]]|[o [-> ->]]]; reflexivity. }
        rewrite Fl. unfold ins, outs. rewrite !flat_map_app. cbn. fold (ins tr w). fold (outs tr w). rewrite !app_nil_r.
        destruct (String.eqb_spec u w) as [->|N].
        -- exists [d]. split; [right; exists d; split; auto; apply in_put; auto|].
           rewrite !app_assoc, !last_some. split; auto. apply part_app.
           destruct Qk as [[-> _]|[d0 [-> _]]]; [now rewrite app_nil_r, <- ?app_assoc in P|].
           rewrite app_assoc in P. now apply part_less in P.
        -- rewrite !app_nil_r. exists k. split; [|auto]. destruct Qk as [[-> Qk]|[d0 [-> Qk]]].
           ++ left. split; auto. intros d0 i. apply in_put in i; auto. destruct i as [[-> _]|[_ i]]; [congruence|exact (Qk d0 i)].
           ++ right. exists d0. split; auto. apply in_put; auto.
    + (* take *)
      rewrite app_nil_r. destruct h2 as [[E _]|[o [E Sc]]]; [destruct l1; discriminate|].
      cbn [senders pub] in *. destruct l1 as [|y l1]; [|destruct l1; discriminate]. injection E as <- E. subst l2.
      destruct p as [m f]. cbn [waits scheduled] in *. destruct m as [|[w d] m]; cbn [take_next fst snd waits].
      * unfold pok. cbn. split; [constructor|]. split; [left; auto|]. intro u. destruct (h3 u) as [k [Qk P]]. exists k. auto.
      * unfold pok. cbn [pub senders waits scheduled app]. inversion h1 as [|q z S1 S2]; subst. split; [auto|]. split; [eauto|].
        intro u. destruct (h3 u) as [k [Qk P]]. unfold flight in *. cbn [senders app] in *. rewrite Forall_forall in S2.
        destruct (String.eqb_spec w u) as [->|N].
        -- exists []. split; [left; split; auto; intros d0 i; specialize (S2 _ i); now apply lt_irrefl in S2|].
           destruct Qk as [[-> Qk]|[d0 [-> Qk]]]; [exfalso; apply (Qk d); cbn; auto|].
           assert (d0 = d) by (eapply sorted_once; [exact h1|exact Qk|cbn; auto]). subst d0. cbn [app] in *. auto.
        -- exists k. split; [|auto]. destruct Qk as [[-> Qk]|[d0 [-> Qk]]].
           ++ left. split; auto. intros d0 i. apply (Qk d0). cbn; auto.
           ++ right. exists d0. split; auto. cbn in Qk. destruct Qk as [X|]; [congruence|auto].
    + (* sent *)
      destruct h2 as [[E _]|[o [E Sc]]]; [destruct l1; discriminate|]. cbn [senders pub] in *.
      destruct l1 as [|y l1]; [|destruct l1; discriminate]. injection E as <- E. subst l2.
      unfold pok. cbn [pub senders app]. split; [auto|]. split; [eauto|]. intro w. destruct (h3 w) as [k [Qk [P L]]].
      exists k. split; [auto|]. unfold flight in *. cbn [senders app] in *.
      unfold ins, outs. rewrite !flat_map_app. cbn. fold (ins tr w). fold (outs tr w). rewrite !app_nil_r.
      destruct (String.eqb u w); cbn [app] in *; rewrite <- ?app_assoc, ?app_nil_r; auto.
Qed.

Lemma published_last : forall tr u, published tr u = last (map Some (outs tr u)) None.
Proof.
  intros tr u. unfold published, outs. induction tr as [|o tr IH] using rev_ind; auto.
  rewrite fold_left_app, flat_map_app. cbn. rewrite IH. destruct o; cbn; rewrite ?app_nil_r; auto.
  destruct (String.eqb u0 u); cbn; rewrite ?app_nil_r; auto. now rewrite last_some.
Qed.
Lemma received_last : forall tr u, received tr u = last (map Some (ins tr u)) None.
Proof.
  intros tr u. unfold received, ins. induction tr as [|o tr IH] using rev_ind; auto.
  rewrite fold_left_app, flat_map_app. cbn. rewrite IH. destruct o; cbn; rewrite ?app_nil_r; auto.
  destruct (String.eqb u0 u); cbn; rewrite ?app_nil_r; auto. now rewrite last_some.
Qed.
End Diag.
