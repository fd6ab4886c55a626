(** Proofs for C20, C21 and C53 (navigation demand). *)
From Coq Require Import List Arith Lia Bool Sorted.
From Verif Require Import Lib Navigation_Model.
Import ListNotations.

(** * Ordered sets of keys *)
Lemma kcmp_eq a : forall b, kcmp a b = Eq <-> a = b.
Proof.
  induction a as [|x a IH]; intros [|y b]; simpl; try (split; discriminate || easy).
  destruct (Nat.compare_spec x y) as [->|H|H].
  - rewrite IH. split; congruence.
  - split; [discriminate|]. intros E. injection E as -> _. lia.
  - split; [discriminate|]. intros E. injection E as -> _. lia.
Qed.
Lemma kcmp_antisym a : forall b, kcmp b a = CompOpp (kcmp a b).
Proof.
  induction a as [|x a IH]; intros [|y b]; simpl; auto.
  rewrite (Nat.compare_antisym x y). destruct (Nat.compare x y); simpl; auto.
Qed.
Lemma kcmp_trans a : forall b c, kcmp a b = Lt -> kcmp b c = Lt -> kcmp a c = Lt.
Proof.
  induction a as [|x a IH]; intros [|y b] [|z c]; simpl; try discriminate; auto.
  intros H1 H2. destruct (Nat.compare_spec x y) as [Hxy|Hxy|Hxy]; try discriminate;
    destruct (Nat.compare_spec y z) as [Hyz|Hyz|Hyz]; try discriminate;
    destruct (Nat.compare_spec x z) as [Hxz|Hxz|Hxz]; try lia; auto. eauto.
Qed.
Definition klt a b := kcmp a b = Lt.
Definition ordered (s : list key) := StronglySorted klt s.

Lemma keq_true a b : keq a b = true <-> a = b.
Proof. unfold keq. rewrite <- kcmp_eq. destruct (kcmp a b); split; congruence. Qed.
Lemma mem_in k s : mem k s = true <-> In k s.
Proof.
  unfold mem. rewrite existsb_exists. split.
  - intros (x & Hx & E). apply keq_true in E. now subst.
  - intros H. exists k. split; auto. now apply keq_true.
Qed.
Lemma mem_out k s : mem k s = false <-> ~ In k s.
Proof. rewrite <- mem_in. destruct (mem k s); split; congruence. Qed.
Lemma in_ins k s x : In x (ins k s) <-> x = k \/ In x s.
Proof.
  induction s as [|y s IH]; simpl; [intuition|].
  destruct (kcmp k y) eqn:E; simpl.
  - apply kcmp_eq in E. subst. intuition.
  - intuition.
  - rewrite IH. intuition.
Qed.
Lemma in_del k s x : In x (del k s) <-> In x s /\ x <> k.
Proof.
  unfold del. rewrite filter_In. rewrite negb_true_iff.
  split; intros [H1 H2]; split; auto.
  - intros ->. assert (keq k k = true) by now apply keq_true. congruence.
  - destruct (keq k x) eqn:E; auto. apply keq_true in E. congruence.
Qed.
Lemma ordered_ins k s : ordered s -> ordered (ins k s).
Proof.
  unfold ordered. induction s as [|y s IH]; intros H; simpl.
  - repeat constructor.
  - inversion H as [|? ? Hs Hf]; subst. destruct (kcmp k y) eqn:E; auto.
    + constructor; auto. constructor; auto. eapply Forall_impl; [|exact Hf].
      intros z Hz. eapply kcmp_trans; eauto.
    + constructor; auto. apply Forall_forall. intros z Hz. apply in_ins in Hz as [->|Hz].
      * unfold klt. rewrite kcmp_antisym, E. reflexivity.
      * eapply Forall_forall in Hf; eauto.
Qed.
Lemma ordered_del k s : ordered s -> ordered (del k s).
Proof.
  unfold ordered, del. induction s as [|y s IH]; intros H; simpl; [constructor|].
  inversion H as [|? ? Hs Hf]; subst. destruct (negb (keq k y)); auto.
  constructor; auto. apply Forall_forall. intros z Hz. apply filter_In in Hz as [Hz _].
  eapply Forall_forall in Hf; eauto.
Qed.
Lemma ordered_nodup s : ordered s -> NoDup s.
Proof.
  induction s as [|y s IH]; intros H; [constructor|].
  inversion H as [|? ? Hs Hf]; subst. constructor; auto. intros Hy.
  eapply Forall_forall in Hf; eauto. unfold klt in Hf.
  assert (kcmp y y = Eq) by now apply kcmp_eq. congruence.
Qed.
Lemma length_ins k s : ~ In k s -> length (ins k s) = S (length s).
Proof.
  induction s as [|y s IH]; intros H; simpl; auto.
  destruct (kcmp k y) eqn:E; simpl; auto.
  - apply kcmp_eq in E. subst. exfalso. apply H. now left.
  - rewrite IH; auto. intros Hk. apply H. now right.
Qed.
Lemma del_notin k s : ~ In k s -> del k s = s.
Proof.
  induction s as [|y s IH]; intros H; simpl; auto. unfold del in *. simpl.
  destruct (keq k y) eqn:E; simpl.
  - apply keq_true in E. subst. exfalso. apply H. now left.
  - f_equal. apply IH. intros Hk. apply H. now right.
Qed.
Lemma length_del k s : NoDup s -> In k s -> S (length (del k s)) = length s.
Proof.
  induction s as [|y s IH]; intros N H; simpl; [destruct H|].
  inversion N; subst. unfold del. simpl. destruct (keq k y) eqn:E; simpl.
  - apply keq_true in E. subst. fold (del y s). rewrite del_notin; auto.
  - fold (del k s). rewrite IH; auto. destruct H as [->|H]; auto.
    assert (keq k k = true) by now apply keq_true. congruence.
Qed.
Lemma drain_ok ks : forall fl, NoDup ks -> ordered fl -> (forall k, In k ks -> ~ In k fl) ->
  exists fl', drain_loop ks fl = Some fl' /\ ordered fl' /\
    length fl' = length ks + length fl /\ (forall k, In k fl' <-> In k ks \/ In k fl).
Proof.
  induction ks as [|k ks IH]; intros fl N O D; simpl.
  - exists fl. intuition.
  - inversion N as [|? ? Nk Nks]; subst.
    assert (Hk : mem k fl = false) by (apply mem_out, D; now left). rewrite Hk.
    destruct (IH (ins k fl)) as (fl' & E & O' & L & I); auto using ordered_ins.
    { intros z Hz Hi. apply in_ins in Hi as [->|Hi]; auto. eapply D; eauto. now right. }
    exists fl'. split; auto. split; auto. split.
    + rewrite L, length_ins; [lia|]. now apply mem_out.
    + intros z. rewrite I, in_ins. intuition (subst; auto).
Qed.

(** * One stage *)
Record SInv (x : sstate) : Prop := {
  s_op : ordered (pending x); s_of : ordered (in_flight x); s_od : ordered (processed x);
  s_pf : forall k, In k (pending x) -> ~ In k (in_flight x);
  s_pd : forall k, In k (pending x) -> ~ In k (processed x);
  s_fd : forall k, In k (in_flight x) -> ~ In k (processed x);
  s_cap : length (pending x) + length (in_flight x) <= max_keys;
  s_complete : complete x = true -> pending x = [] /\ in_flight x = [] }.

Lemma sinv_s0 : SInv s0.
Proof. constructor; simpl; try easy; try apply SSorted_nil. unfold max_keys; lia. Qed.

Lemma sinv_insert x k : SInv x -> complete x = false ->
  ~ In k (processed x) -> ~ In k (pending x) -> ~ In k (in_flight x) ->
  length (pending x) + length (in_flight x) < max_keys ->
  SInv (mkS (ins k (pending x)) (in_flight x) (processed x) (complete x)).
Proof.
  intros [] C D P F L. constructor; simpl; auto using ordered_ins.
  - intros z Hz. apply in_ins in Hz as [->|Hz]; auto.
  - intros z Hz. apply in_ins in Hz as [->|Hz]; auto.
  - rewrite length_ins by auto. simpl. lia.
  - congruence.
Qed.

Lemma sinv_drain x : SInv x -> complete x = false -> exists fl,
  drain_loop (pending x) (in_flight x) = Some fl /\
  SInv (mkS [] fl (processed x) (complete x)) /\
  (forall k, In k fl <-> In k (pending x) \/ In k (in_flight x)).
Proof.
  intros [] C. destruct (drain_ok (pending x) (in_flight x)) as (fl & E & O & L & I);
    auto using ordered_nodup.
  exists fl. split; auto. split; auto. constructor; simpl; auto; try easy; try congruence; try lia.
  - constructor.
  - intros z Hz. apply I in Hz as [Hz|Hz]; auto.
Qed.

Lemma sinv_claim x k : SInv x -> complete x = false -> In k (pending x) ->
  SInv (mkS (del k (pending x)) (ins k (in_flight x)) (processed x) (complete x)).
Proof.
  intros [] C P. constructor; simpl; auto using ordered_ins, ordered_del.
  - intros z Hz Hi. apply in_del in Hz as [Hz N]. apply in_ins in Hi as [->|Hi]; auto;
      try (eapply s_pf0; eauto).
  - intros z Hz. apply in_del in Hz as [Hz N]. auto.
  - intros z Hz. apply in_ins in Hz as [->|Hz]; auto.
  - rewrite length_ins; [|auto].
    pose proof (length_del k (pending x) (ordered_nodup _ s_op0) P). lia.
  - congruence.
Qed.

Lemma sinv_done x k : SInv x -> In k (in_flight x) ->
  SInv (mkS (pending x) (del k (in_flight x)) (ins k (processed x)) (complete x)).
Proof.
  intros [] F. constructor; simpl; auto using ordered_ins, ordered_del.
  - intros z Hz Hi. apply in_del in Hi as [Hi N]. eapply s_pf0; eauto.
  - intros z Hz Hi. apply in_ins in Hi as [->|Hi]; [eapply s_pf0; eauto|eapply s_pd0; eauto].
  - intros z Hz Hi. apply in_del in Hz as [Hz N]. apply in_ins in Hi as [->|Hi]; auto;
      try (eapply s_fd0; eauto).
  - pose proof (length_del k (in_flight x) (ordered_nodup _ s_of0) F). lia.
  - intros C. destruct (s_complete0 C) as [P E]. rewrite E in F. destruct F.
Qed.

(** What [complete_keys] does to one stage, whether or not it fails half way. *)
Lemma complete_loop_spec ks : forall x c x' r, SInv x -> complete_loop x ks c = (x', r) ->
  SInv x' /\ pending x' = pending x /\ complete x' = complete x /\
  (forall k, In k (processed x) -> In k (processed x')) /\
  (forall k, In k (in_flight x') -> In k (in_flight x)) /\
  (forall k, In k (in_flight x) -> In k (in_flight x') \/ In k (processed x')) /\
  (forall k, In k (processed x') -> In k (processed x) \/ (In k ks /\ In k (in_flight x))) /\
  (forall k, In k (in_flight x) -> ~ In k ks -> In k (in_flight x')) /\
  (r = Some false -> c = false /\ ks = []) /\
  (r <> None -> forall k, In k ks -> In k (processed x')).
Proof.
  induction ks as [|k ks IH]; intros x c x' r I E; simpl in E.
  - injection E as <- <-. repeat (split; [solve [auto; easy]|]). split; [|easy]. intros H. injection H as ->. auto.
  - destruct (mem k (in_flight x)) eqn:M.
    + apply mem_in in M. pose proof (sinv_done x k I M) as I'.
      assert (Mp : mem k (processed x) = false) by (apply mem_out; now apply (s_fd x I)).
      rewrite Mp, orb_true_r in E.
      destruct (IH _ _ _ _ I' E) as (A1 & A2 & A3 & A4 & A5 & A6 & A7 & A8 & A9 & A10). simpl in *.
      split; auto. split; auto. split; auto.
      split. { intros z Hz. apply A4. apply in_ins. auto. }
      split. { intros z Hz. apply A5 in Hz. apply in_del in Hz. tauto. }
      split. { intros z Hz. destruct (keq z k) eqn:Ez.
        - apply keq_true in Ez. subst. right. apply A4. apply in_ins. auto.
        - apply A6. apply in_del. split; auto. intros ->.
          assert (keq k k = true) by now apply keq_true. congruence. }
      split. { intros z Hz. apply A7 in Hz as [Hz|[Hz1 Hz2]].
        - apply in_ins in Hz as [->|Hz]; auto.
        - apply in_del in Hz2. tauto. }
      split. { intros z Hz N. apply A8; [|tauto]. apply in_del. split; [exact Hz|]. intros Ez. apply N. now left. }
      split. { intros H. apply A9 in H as [H _]. discriminate. }
      intros H z [<-|Hz].
      { apply A4. apply in_ins. auto. }
      { auto. }
    + injection E as <- <-. repeat (split; [solve [auto; easy]|]). intros H. now elim H.
Qed.

Section Unicode.
Variable alnum : nat -> bool.
Local Notation step := (step alnum).
Local Notation run := (run alnum).
Local Notation outputs := (outputs alnum).

Lemma run_app h1 : forall s h2, run s (h1 ++ h2) = run (run s h1) h2.
Proof. induction h1; simpl; auto. Qed.
Lemma outputs_app h1 : forall s h2, outputs s (h1 ++ h2) = outputs s h1 ++ outputs (run s h1) h2.
Proof. induction h1; simpl; auto. intros. now rewrite IHh1. Qed.
Lemma outputs_length h : forall s, length (outputs s h) = length h.
Proof. induction h; simpl; auto. Qed.

(** * The controller *)
Record Inv (s : state) : Prop := {
  i_stage : forall st, SInv (get s st);
  i_term : terminal s <> None -> terminal s = Some Cancelled /\
             forall st, pending (get s st) = [] /\ in_flight (get s st) = [] }.

Lemma get_put s st x st' : get (put s st x) st' =
  match st, st' with Project, Project | Dependency, Dependency => x | _, _ => get s st' end.
Proof. destruct st, st'; reflexivity. Qed.
Lemma get_put_same s st x : get (put s st x) st = x.
Proof. destruct st; reflexivity. Qed.
Lemma get_owe b s st : get (owe b s) st = get s st.
Proof. destruct b; reflexivity. Qed.
Lemma term_put s st x : terminal (put s st x) = terminal s. Proof. destruct st; reflexivity. Qed.
Lemma gen_put s st x : generation (put s st x) = generation s. Proof. destruct st; reflexivity. Qed.
Lemma term_owe s b : terminal (owe b s) = terminal s. Proof. destruct b; reflexivity. Qed.
Lemma gen_owe s b : generation (owe b s) = generation s. Proof. destruct b; reflexivity. Qed.
Lemma pan_put s st x : panicked (put s st x) = panicked s. Proof. destruct st; reflexivity. Qed.
Lemma pan_owe s b : panicked (owe b s) = panicked s. Proof. destruct b; reflexivity. Qed.
Lemma tk_put s st x : tickets (put s st x) = tickets s. Proof. destruct st; reflexivity. Qed.
Lemma tk_owe s b : tickets (owe b s) = tickets s. Proof. destruct b; reflexivity. Qed.
Lemma rev_put s st x : revision (put s st x) = revision s. Proof. destruct st; reflexivity. Qed.
Lemma rev_owe s b : revision (owe b s) = revision s. Proof. destruct b; reflexivity. Qed.
Lemma owed_put s st x : owed (put s st x) = owed s. Proof. destruct st; reflexivity. Qed.

(** Same stages, generation and terminal state. *)
Definition same (s s' : state) : Prop :=
  generation s' = generation s /\ terminal s' = terminal s /\ forall st, get s' st = get s st.
Lemma same_refl s : same s s. Proof. repeat split. Qed.
Lemma inv_same s s' : same s s' -> Inv s -> Inv s'.
Proof.
  intros (G & T & S) []. constructor.
  - intros st. rewrite S. auto.
  - rewrite T. intros H. destruct (i_term0 H) as [E F]. split; auto. intros st. rewrite S. auto.
Qed.

Lemma live_spec s g : live s g = true <-> generation s = Some g /\ terminal s = None.
Proof.
  unfold live, is_gen, is_none. destruct (generation s) as [p|], (terminal s); simpl;
    rewrite ?andb_false_r, ?andb_true_r; split; try easy; try (intros [H1 H2]; discriminate).
  - intros H. apply Nat.eqb_eq in H. subst. auto.
  - intros [H _]. injection H as ->. apply Nat.eqb_refl.
Qed.

(** The shape of one step. *)
Inductive effect (s : state) (o : op) (s' : state) (r : out) : Prop :=
| e_none : same s s' ->
    (forall g, o <> OBegin g \/ r = Panic) ->
    (forall g st ks, o = ODrain g st -> r = Keys ks -> ks = []) ->
    (forall g st ks, o = OComplete g st ks -> live s g = false) ->
    (forall g st, o = OCompleteStage g st -> live s g = true -> complete (get s st) = true) ->
    (forall g, o = OCancel g -> live s g = false) ->
    effect s o s' r
| e_begin g : o = OBegin g -> r = Done -> g <> 0 -> (forall p, generation s = Some p -> p < g) ->
    generation s' = Some g -> terminal s' = None -> (forall st, get s' st = s0) -> effect s o s' r
| e_stage g st x : generation s = Some g -> terminal s = None -> generation s' = Some g -> terminal s' = None ->
    get s' st = x -> (forall st', st' <> st -> get s' st' = get s st') ->
    match o with
    | ORequest g' st' k => g' = g /\ st' = st /\ complete (get s st) = false /\
        ~ In k (processed (get s st)) /\ ~ In k (pending (get s st)) /\ ~ In k (in_flight (get s st)) /\
        length (pending (get s st)) + length (in_flight (get s st)) < max_keys /\
        r = Ticket (length (tickets s)) None /\
        x = mkS (ins k (pending (get s st))) (in_flight (get s st)) (processed (get s st)) (complete (get s st))
    | ODrain g' st' => g' = g /\ st' = st /\ complete (get s st) = false /\ r = Keys (pending (get s st)) /\
        exists fl, drain_loop (pending (get s st)) (in_flight (get s st)) = Some fl /\
        x = mkS [] fl (processed (get s st)) (complete (get s st))
    | OClaim g' st' k => g' = g /\ st' = st /\ complete (get s st) = false /\ In k (pending (get s st)) /\
        r = Bool true /\
        x = mkS (del k (pending (get s st))) (ins k (in_flight (get s st))) (processed (get s st)) (complete (get s st))
    | OComplete g' st' ks => g' = g /\ st' = st /\
        exists c, complete_loop (get s st) ks false = (x, c) /\ (c = None <-> r = Panic)
    | OCompleteStage g' st' => g' = g /\ st' = st /\ complete (get s st) = false /\
        x = mkS [] [] (processed (get s st)) true
    | _ => False
    end -> effect s o s' r
| e_cancel g : o = OCancel g -> generation s = Some g -> terminal s = None ->
    generation s' = Some g -> terminal s' = Some Cancelled ->
    (forall st, get s' st = mkS [] [] (processed (get s st)) (complete (get s st))) -> effect s o s' r.

Lemma same_owe s b : same s (owe b s).
Proof. destruct b; repeat split. Qed.
Lemma same_tickets s t : same s (with_tickets s t).
Proof. repeat split. Qed.
Lemma same_panic s : same s (panic s).
Proof. repeat split; destruct st; reflexivity. Qed.

Lemma stage_dec (a b : stage) : {a = b} + {a <> b}. Proof. decide equality. Qed.
Lemma get_put_other s st x st' : st' <> st -> get (put s st x) st' = get s st'.
Proof. destruct st, st'; simpl; congruence. Qed.

Ltac nothing := apply e_none; [try apply same_refl; try apply same_panic; try apply same_tickets
  | try (intros; left; discriminate); try (intros; now right)
  | try discriminate | try discriminate | try discriminate | try discriminate].

Lemma step_effect s o : Inv s -> effect s o (fst (step s o)) (snd (step s o)).
Proof.
  intros I. destruct o as [g|g st k|g st|g st k|g st ks|g st|g| |i]; cbn [step fst snd].
  - (* begin *) destruct (Nat.eqb_spec g 0) as [->|N]; [nothing|].
    destruct (generation s) as [p|] eqn:G.
    + destruct (Nat.leb_spec g p); cbn [fst snd]; [nothing|].
      eapply e_begin; auto; try (destruct st; reflexivity). intros q Hq. congruence.
    + eapply e_begin; auto; try (destruct st; reflexivity). intros q Hq. congruence.
  - (* request *) destruct (valid_key alnum k); cbn [negb]; [|nothing].
    unfold accept_request. destruct (is_gen s g) eqn:G; cbn [negb]; [|nothing].
    destruct (terminal s) eqn:T; [nothing|].
    assert (Gs : generation s = Some g).
    { unfold is_gen in G. destruct (generation s); [|discriminate]. apply Nat.eqb_eq in G. now subst. }
    destruct (mem k (processed (get s st))) eqn:Mp; [nothing|].
    destruct (complete (get s st)) eqn:C; [nothing|].
    destruct (mem k (pending (get s st)) || mem k (in_flight (get s st))) eqn:M; [nothing|].
    destruct (Nat.leb max_keys (outstanding_len (get s st))) eqn:L; [nothing|].
    apply orb_false_iff in M as [M1 M2]. apply mem_out in M1, M2, Mp. apply Nat.leb_gt in L.
    cbn [fst snd]. eapply (e_stage _ _ _ _ g st); eauto.
    + cbn. now rewrite gen_put.
    + cbn. now rewrite term_put.
    + intros st' N. destruct st, st'; simpl; congruence.
    + split; auto. split; auto. split; auto. split; auto. split; auto. split; auto. split; auto. split; auto.
      rewrite <- C. destruct st; reflexivity.
  - (* drain *) destruct (live s g) eqn:Lv; cbn [negb fst snd].
    2:{ apply e_none; [apply same_refl|left; discriminate|intros ? ? ? _ E; now injection E as <-| | |]; try discriminate. }
    destruct (complete (get s st)) eqn:C; cbn [fst snd].
    { apply e_none; [apply same_refl|left; discriminate|intros ? ? ? _ E; now injection E as <-| | |]; try discriminate. }
    apply live_spec in Lv as [G T].
    destruct (sinv_drain (get s st) (i_stage s I st) C) as (fl & E & _ & _). rewrite E. cbn [fst snd].
    eapply (e_stage _ _ _ _ g st); eauto.
    + now rewrite gen_owe, gen_put.
    + now rewrite term_owe, term_put.
    + intros st' N. rewrite get_owe. now apply get_put_other.
    + split; auto. split; auto. split; auto. split; auto. exists fl. split; auto.
      rewrite get_owe, get_put_same. congruence.
  - (* claim *) destruct (valid_key alnum k); cbn [negb]; [|nothing].
    destruct (live s g) eqn:Lv; cbn [negb fst snd]; [|nothing].
    destruct (complete (get s st)) eqn:C; cbn [orb fst snd]; [nothing|].
    destruct (mem k (processed (get s st))) eqn:Mp; cbn [fst snd]; [nothing|].
    destruct (mem k (in_flight (get s st))) eqn:Mf; cbn [fst snd]; [nothing|].
    destruct (mem k (pending (get s st))) eqn:M; cbn [fst snd]; [|nothing].
    apply live_spec in Lv as [G T].
    eapply (e_stage _ _ _ _ g st); eauto.
    + now rewrite gen_owe, gen_put.
    + now rewrite term_owe, term_put.
    + intros st' N. rewrite get_owe. now apply get_put_other.
    + split; auto. split; auto. split; auto. split; [now apply mem_in|]. split; auto.
      rewrite get_owe, get_put_same. congruence.
  - (* complete *) destruct (live s g) eqn:Lv; cbn [negb fst snd].
    2:{ nothing. intros ? ? ? E. now injection E as <- _ _. }
    apply live_spec in Lv as [G T].
    destruct (complete_loop (get s st) ks false) as [x [c|]] eqn:E; cbn [fst snd].
    + eapply (e_stage _ _ _ _ g st); eauto.
      * now rewrite gen_owe, gen_put.
      * now rewrite term_owe, term_put.
      * intros st' N. rewrite get_owe. now apply get_put_other.
      * split; auto. split; auto. rewrite get_owe, get_put_same. exists (Some c). split; auto. split; discriminate.
    + eapply (e_stage _ _ _ _ g st); eauto.
      * cbn. now rewrite gen_put.
      * cbn. now rewrite term_put.
      * intros st' N. destruct st, st'; simpl; congruence.
      * split; auto. split; auto. exists None. split; [|split; auto].
        rewrite E. f_equal. destruct st; reflexivity.
  - (* complete stage *) destruct (live s g) eqn:Lv; cbn [negb fst snd].
    2:{ nothing. intros ? ? E. injection E as <- _. congruence. }
    destruct (complete (get s st)) eqn:C; cbn [fst snd].
    { nothing. intros ? ? E. injection E as <- <-. auto. }
    apply live_spec in Lv as [G T].
    eapply (e_stage _ _ _ _ g st); eauto.
    + now rewrite gen_owe, gen_put.
    + now rewrite term_owe, term_put.
    + intros st' N. rewrite get_owe. now apply get_put_other.
    + split; auto. split; auto. split; auto. now rewrite get_owe, get_put_same.
  - (* cancel *) destruct (live s g) eqn:Lv; cbn [negb fst snd].
    2:{ nothing. intros ? E. now injection E as <-. }
    apply live_spec in Lv as [G T].
    eapply (e_cancel _ _ _ _ g); eauto. destruct st; reflexivity.
  - (* notify *) destruct (owed s); cbn [fst snd]; nothing; repeat split; destruct st; reflexivity.
  - (* ticket *) destruct (nth_error (tickets s) i) as [t|]; [|nothing].
    destruct (t_phase t) as [[]| | |]; cbn [fst snd]; try (destruct (Nat.eqb (revision s) seen)); cbn [fst snd]; nothing; repeat split; destruct st; reflexivity.
Qed.

Lemma inv_step s o : Inv s -> Inv (fst (step s o)).
Proof.
  intros I. destruct (step_effect s o I) as
    [S _ _ _ _ _|g _ _ _ _ G T E|g st x G T G' T' E Eo W|g _ G T G' T' E].
  - eapply inv_same; eauto.
  - constructor; [intros st; rewrite E; apply sinv_s0|congruence].
  - constructor; [|congruence]. intros st'. destruct (stage_dec st' st) as [->|N].
    + rewrite E. pose proof (i_stage s I st) as Is.
      destruct o; try contradiction.
      * destruct W as (_ & _ & C & A & B & D & L & _ & ->). apply sinv_insert; auto.
      * destruct W as (_ & _ & C & _ & fl & Ed & ->).
        destruct (sinv_drain _ Is C) as (fl' & Ed' & If & _). rewrite Ed in Ed'. injection Ed' as <-. auto.
      * destruct W as (_ & _ & C & P & _ & ->). apply sinv_claim; auto.
      * destruct W as (_ & _ & c & El & _). eapply complete_loop_spec; eauto.
      * destruct W as (_ & _ & C & ->). destruct Is. constructor; simpl; auto; try easy; try apply SSorted_nil; unfold max_keys; lia.
    + rewrite Eo; auto. apply I.
  - constructor.
    + intros st. rewrite E. destruct (i_stage s I st). constructor; simpl; auto; try easy; try apply SSorted_nil; unfold max_keys; lia.
    + intros _. split; auto. intros st. rewrite E. auto.
Qed.

Lemma inv_init : Inv init.
Proof. constructor; [intros []; apply sinv_s0|]. intros H. now elim H. Qed.
Lemma inv_run h : forall s, Inv s -> Inv (run s h).
Proof. induction h; simpl; auto using inv_step. Qed.
Lemma inv_reach h : Inv (run init h).
Proof. apply inv_run, inv_init. Qed.
End Unicode.
