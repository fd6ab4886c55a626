(** What the tracker hands out and which variables it touches. *)
From Coq Require Import List Bool NArith.
From Verif Require Import Types_Model Types_Spec TypeFlow_Model TypeFlow_Spec TypeFlow_Frame.
From Coq Require Import String.
Import ListNotations.
Local Open Scope list_scope.

Definition look (T : facts) (p d : bool) (r : recv) (st : state) : res :=
  match r with
  | RNone => just TUnknown st
  | RNode n => if direct n then track T p d n st else just TUnknown st
  end.
Lemma track_call T p d safe r f a b st : track T p d (Call safe r f a b) st =
  match b with
  | BNone => plain_call T r f (look T p d r) st
  | BBlock ps _ s =>
      if bang f then plain_call T r f (look T p d r) st
      else block_call T r f ps (jumps_s s) (look T p d r) (track_a T p d a) (track_s T p d s) st
  end.
Proof. reflexivity. Qed.
Definition else_of (T : facts) (p d : bool) (e : tail) (k : res) : res :=
  match e with
  | NoTail => just (rt k) (rs k)
  | Else s => match s with SNil => just (rt k) (rs k) | _ => track_s T p d s (rs k) end
  end.
Definition protected (r : rescues) : bool := match r with RNil => false | RCons _ _ _ => true end.
Lemma track_begin T p d b r e n st : track T p d (Begin b r e n) st =
  let st := flowing st in
  let k := track_s T (p || protected r) d b st in
  let m := else_of T p d e k in
  let '(l, st1, o) := track_r T p d r (at_ (entry (vars st) (obs (ro k))) (rs m)) in
  let l := arm_of m (leaves_s b || leaves_t e) :: l in
  let z := track_t T p d n (at_ (join_envs (vars st) l) st1) in
  {| rt := join_types l; rs := rs z; ro := plus (ro k) (plus (ro m) (plus o (ro z))) |}.
Proof. reflexivity. Qed.
Lemma track_seq T p d n s st : s <> SNil -> track_s T p d (SCons n s) st =
  also (ro (track T p d n st)) (track_s T p d s (rs (track T p d n st))).
Proof. destruct s; [congruence|reflexivity]. Qed.

(** Where outputs come from. *)
Section Sources.
Context {A : Type} (pi : out -> list A).
Hypothesis Pplus : forall a b, pi (plus a b) = pi a ++ pi b.
Hypothesis Pnothing : pi nothing = [].
Hypothesis Punret : forall o, pi (unreturned o) = pi o.

Lemma from_plain T r f rc st x : In x (pi (ro (plain_call T r f rc st))) -> exists st', In x (pi (ro (rc st'))).
Proof.
  unfold plain_call. destruct (is_new r f); cbn; [rewrite Pnothing; intros []|].
  destruct r; cbn; [rewrite Pnothing; intros []|]. eauto.
Qed.
Lemma from_block T r f ps j rc ar bl st x : In x (pi (ro (block_call T r f ps j rc ar bl st))) ->
  (exists st', In x (pi (ro (rc st')))) \/ (exists st', In x (pi (snd (ar st')))) \/ (exists st', In x (pi (ro (bl st')))).
Proof.
  unfold block_call.
  assert (E : forall o r', In x (pi (ro (also o r'))) -> In x (pi o) \/ In x (pi (ro r'))).
  { intros o r'. cbn. rewrite Pplus. apply in_app_or. }
  match goal with |- context [if ?c then _ else _] => destruct c end.
  { intros B. apply E in B as [B|B]; [eauto|]. apply from_plain in B. eauto. }
  destruct (ar (rs (rc st))) as [[ts st1] o] eqn:EA.
  assert (F : In x (pi (plus (ro (rc st)) o)) -> (exists st', In x (pi (ro (rc st')))) \/ (exists st', In x (pi (snd (ar st'))))).
  { rewrite Pplus. intros B. apply in_app_or in B as [B|B]; [eauto|]. right. exists (rs (rc st)). rewrite EA. exact B. }
  destruct (hof T f _ ts) as [[params result]|].
  2:{ intros B. apply E in B as [B|B]; [tauto|]. apply from_plain in B. eauto. }
  destruct j.
  { intros B. apply E in B as [B|B]; [tauto|]. apply from_plain in B. eauto. }
  match goal with |- context [unreturned (ro ?k)] => set (kk := k) end.
  assert (G : In x (pi (plus (plus (ro (rc st)) o) (unreturned (ro kk)))) -> (exists st', In x (pi (ro (rc st')))) \/ (exists st', In x (pi (snd (ar st')))) \/ (exists st', In x (pi (ro (bl st'))))).
  { rewrite (Pplus (plus _ _)), Punret. intros B. apply in_app_or in B as [B|B]; [tauto|]. right. right. eexists. exact B. }
  destruct (result (rt kk)); [exact G|].
  intros B. apply E in B as [B|B]; [tauto|]. apply from_plain in B. eauto.
Qed.
Lemma from_again (Ppass : forall a b, pi (passed a b) = []) k f x : forall last st,
  In x (pi (ro (again k f last st))) -> exists st', In x (pi (ro (f st'))).
Proof.
  induction k as [|k IH]; intros last st; cbn [again].
  - cbn. rewrite Pnothing. intros [].
  - cbn [also ro]. rewrite !Pplus, Ppass, app_nil_r. intros B. apply in_app_or in B as [B|B]; eauto.
Qed.
End Sources.

Lemma records_in T :
  (forall n p d st l t, In (l, t) (reads (ro (track T p d n st))) -> In l (labs n)) /\
  (forall a p d st l t, In (l, t) (reads (snd (track_a T p d a st))) -> In l (labs_a a)) /\
  (forall r p d st l t, In (l, t) (reads (ro (look T p d r st))) -> In l (labs_v r)) /\
  (forall b ps ls s, b = BBlock ps ls s -> forall p d st l t, In (l, t) (reads (ro (track_s T p d s st))) -> In l (labs_s s)) /\
  (forall s p d st l t, In (l, t) (reads (ro (track_s T p d s st))) -> In l (labs_s s)) /\
  (forall e p d st l t, In (l, t) (reads (ro (track_t T p d e st))) -> In l (labs_t e)) /\
  (forall w p d st l t, In (l, t) (reads (snd (track_w T p d w st))) -> In l (labs_w w)) /\
  (forall r p d st l t, In (l, t) (reads (snd (track_r T p d r st))) -> In l (labs_r r)).
Proof.
  apply tree_ind; try (intros; match goal with B : In _ _ |- _ => destruct B end).
  - (* Read *) intros l x p d st l' t B. cbn in B. destruct (flow st); cbn in B; [|contradiction].
    destruct B as [B|[]]. injection B as E _. left. exact E.
  - (* Write *) intros x v IH p d st l t B. cbn in B. destruct p; cbn in B; [rewrite app_nil_r in B|]; eauto.
  - (* Call *) intros safe r IHr f a IHa b IHb p d st l t B. rewrite track_call in B. cbn [labs].
    rewrite !in_app_iff. destruct b as [|ps ls s].
    { apply (from_plain reads) in B as [st' B]; [|reflexivity]. eauto. }
    destruct (bang f).
    { apply (from_plain reads) in B as [st' B]; [|reflexivity]. eauto. }
    apply (from_block reads) in B as [[st' B]|[[st' B]|[st' B]]]; try reflexivity; eauto 6.
  - (* If *) intros u q IHq s IHs e IHe p d st l t B. cbn in B. cbn [labs]. rewrite !in_app_iff in *. intuition eauto.
  - (* Case *) intros q IHq w IHw e IHe p d st l t B. cbn [track] in B. cbn [labs].
    destruct (track_w T p d w (rs (track T p d q (flowing st)))) as [[k st1] o] eqn:E.
    cbn in B. rewrite !in_app_iff in *. destruct B as [B|[B|B]]; eauto. right. left.
    eapply (IHw p d _ l t). rewrite E. exact B.
  - (* Logic *) intros or a IHa b IHb p d st l t B. cbn [track] in B. cbn [labs].
    rewrite in_app_iff. destruct (truthiness _) as [c|].
    + destruct (Bool.eqb c or); cbn in B; rewrite app_nil_r in B; [eauto|]. apply in_app_or in B as [B|B]; eauto.
    + cbn in B; rewrite app_nil_r in B. apply in_app_or in B as [B|B]; eauto.
  - (* Begin *) intros b IHb r IHr e IHe n IHn p d st l t B. rewrite track_begin in B. cbv zeta in B. cbn [labs].
    set (k := track_s T (p || protected r) d b (flowing st)) in *.
    destruct (track_r T p d r _) as [[arms st1] o] eqn:E.
    cbn [ro plus reads] in B. rewrite !in_app_iff in *. destruct B as [B|[B|[B|B]]]; eauto.
    + right. right. left. destruct e as [|s]; cbn in B; [contradiction|]. destruct s; [destruct B|].
      eapply (IHe p d (rs k)). cbn [track_t]. exact B.
    + right. left. eapply (IHr p d _ l t). rewrite E. exact B.
  - (* RescueMod *) intros a IHa b IHb p d st l t B. cbn in B. cbn [labs]. rewrite in_app_iff in *. intuition eauto.
  - (* While *) intros u c IHc s IHs p d st l t B. cbn [track] in B. cbn [labs ro plus passed reads] in *.
    rewrite app_nil_r in B. rewrite in_app_iff in *. destruct B as [B|B]; [eauto|].
    apply (from_again reads) in B as [st' B]; try reflexivity. eauto.
  - (* Return *) intros v IH p d st l t B. cbn [labs]. destruct v as [|n]; cbn in B; [destruct B|].
    rewrite app_nil_r in B. eapply (IH p d st). exact B.
  - intros s IH p d st l t B. apply (IH p d st l t B).
  - intros s IH p d st l t B. apply (IH p d st l t B).
  - (* args *) intros n IHn a IHa p d st l t B. cbn [track_a] in B.
    destruct (track_a T p d a (rs (track T p d n st))) as [[ts st1] o] eqn:E. cbn [snd plus reads labs_a] in *.
    rewrite in_app_iff in *. destruct B as [B|B]; [eauto|]. right. eapply (IHa p d _ l t). rewrite E. exact B.
  - (* recv *) intros n IH p d st l t B. cbn in B. destruct (direct n); [eapply IH; exact B|destruct B].
  - (* blk *) intros ps ls E. discriminate.
  - intros ps ls s IH ps' ls' s' E. injection E as _ _ E. subst s'. exact IH.
  - (* stmts *) intros n IHn s IHs p d st l t B. cbn [labs_s]. rewrite in_app_iff.
    destruct s as [|n' s]; [left; eapply IHn; exact B|]. rewrite track_seq in B by discriminate.
    cbn [also ro plus reads] in B. apply in_app_or in B as [B|B]; eauto.
  - (* tail *) intros s IH p d st l t B. apply (IH p d st l t B).
  - (* whens *) intros a IHa s IHs w IHw p d st l t B. cbn [track_w] in B.
    destruct (track_w T p d w _) as [[k st1] o] eqn:E. cbn [snd plus reads labs_w] in *.
    rewrite !in_app_iff in *. destruct B as [B|B]; [eauto|]. right. right. eapply (IHw p d _ l t). rewrite E. exact B.
  - (* rescues *) intros x s IHs r IHr p d st l t B. cbn [track_r] in B.
    destruct (track_r T p d r _) as [[k st1] o] eqn:E. cbn [snd plus reads labs_r] in *.
    rewrite !in_app_iff in *. destruct B as [B|B]; [eauto|]. right. eapply (IHr p d _ l t). rewrite E. exact B.
Qed.

(** ** Checks taken apart *)
Ltac checks := repeat match goal with
  | B : _ && _ = true |- _ => let CK := fresh "CK" in apply andb_true_iff in B as [CK B]
  | B : negb _ = true |- _ => apply negb_true_iff in B
  | B : true = true |- _ => clear B
  | B : false = true |- _ => discriminate B
  end.

Definition keys {A} (l : list (N * A)) : list N := List.map fst l.
Lemma in_keys {A} x (l : list (N * A)) : In x (keys l) <-> exists t, In (x, t) l.
Proof.
  unfold keys. rewrite in_map_iff. split.
  - intros [[y t] [E B]]. cbn in E. subst y. eauto.
  - intros [t B]. exists (x, t). auto.
Qed.

Lemma obs_assigned T l x : member x l = true ->
  (forall n p d st t, In (x, t) (obs (ro (track T p d n st))) -> any (assigns l) true n = true) /\
  (forall a p d st t, In (x, t) (obs (snd (track_a T p d a st))) -> any_a (assigns l) true a = true) /\
  (forall r p d st t, In (x, t) (obs (ro (look T p d r st))) -> any_v (assigns l) true r = true) /\
  (forall b ps ls s, b = BBlock ps ls s -> forall p d st t, In (x, t) (obs (ro (track_s T p d s st))) -> any_s (assigns l) true s = true) /\
  (forall s p d st t, In (x, t) (obs (ro (track_s T p d s st))) -> any_s (assigns l) true s = true) /\
  (forall e p d st t, In (x, t) (obs (ro (track_t T p d e st))) -> any_t (assigns l) true e = true) /\
  (forall w p d st t, In (x, t) (obs (snd (track_w T p d w st))) -> any_w (assigns l) true w = true) /\
  (forall r p d st t, In (x, t) (obs (snd (track_r T p d r st))) -> any_r (assigns l) true r = true).
Proof.
  intros M. apply tree_ind; try (intros; match goal with B : In _ _ |- _ => destruct B end).
  - (* Read *) intros l' y p d st t B. cbn in B. destruct (flow st); destruct B.
  - (* Write *) intros y v IH p d st t B. cbn [any assigns]. destruct (member y l) eqn:E; [reflexivity|].
    cbn in B. destruct p; cbn in B; [|eauto].
    destruct B as [B|B]; [injection B as B _; congruence|]. apply in_app_or in B as [B|B]; [eauto|].
    destruct B as [B|[]]. injection B as B _. congruence.
  - (* Call *) intros safe r IHr f a IHa b IHb p d st t B. rewrite track_call in B. cbn [any assigns andb].
    rewrite !orb_true_iff. destruct b as [|ps ls s].
    { apply (from_plain obs) in B as [st' B]; [|reflexivity]. eauto. }
    destruct (bang f).
    { apply (from_plain obs) in B as [st' B]; [|reflexivity]. eauto. }
    apply (from_block obs) in B as [[st' B]|[[st' B]|[st' B]]]; try reflexivity; eauto 6.
  - (* If *) intros u q IHq s IHs e IHe p d st t B. cbn in B. cbn [any assigns]. rewrite !orb_true_iff. rewrite !in_app_iff in B. intuition eauto.
  - (* Case *) intros q IHq w IHw e IHe p d st t B. cbn [track] in B. cbn [any assigns]. rewrite !orb_true_iff.
    destruct (track_w T p d w (rs (track T p d q (flowing st)))) as [[k st1] o] eqn:E.
    cbn in B. rewrite !in_app_iff in *. destruct B as [B|[B|B]]; eauto. left. right.
    eapply (IHw p d _ t). rewrite E. exact B.
  - (* Logic *) intros or a IHa b IHb p d st t B. cbn [track] in B. cbn [any assigns]. rewrite !orb_true_iff.
    destruct (truthiness _) as [c|].
    + destruct (Bool.eqb c or); cbn in B; rewrite app_nil_r in B; [eauto|]. apply in_app_or in B as [B|B]; eauto.
    + cbn in B; rewrite app_nil_r in B. apply in_app_or in B as [B|B]; eauto.
  - (* Begin *) intros b IHb r IHr e IHe n IHn p d st t B. rewrite track_begin in B. cbv zeta in B. cbn [any assigns]. rewrite !orb_true_iff.
    set (k := track_s T (p || protected r) d b (flowing st)) in *.
    destruct (track_r T p d r _) as [[arms st1] o] eqn:E.
    cbn [ro plus obs] in B. rewrite !in_app_iff in *. destruct B as [B|[B|[B|B]]].
    + left. left. left. eapply IHb. exact B.
    + left. right. destruct e as [|s]; cbn in B; [contradiction|]. destruct s; [destruct B|].
      eapply (IHe p d (rs k)). cbn [track_t]. exact B.
    + left. left. right. eapply (IHr p d _ t). rewrite E. exact B.
    + eauto.
  - (* RescueMod *) intros a IHa b IHb p d st t B. cbn in B. cbn [any assigns]. rewrite orb_true_iff. rewrite in_app_iff in B. intuition eauto.
  - (* While *) intros u c IHc s IHs p d st t B. cbn [track] in B. cbn [any assigns ro plus passed obs] in *. rewrite orb_true_iff.
    rewrite app_nil_r in B. rewrite in_app_iff in *. destruct B as [B|B]; [eauto|].
    apply (from_again obs) in B as [st' B]; try reflexivity. eauto.
  - (* Return *) intros v IH p d st t B. cbn [any assigns]. destruct v as [|n]; cbn in B; [destruct B|].
    rewrite app_nil_r in B. eapply (IH p d st). exact B.
  - intros s IH p d st t B. apply (IH p d st t B).
  - intros s IH p d st t B. apply (IH p d st t B).
  - (* args *) intros n IHn a IHa p d st t B. cbn [track_a] in B.
    destruct (track_a T p d a (rs (track T p d n st))) as [[ts st1] o] eqn:E. cbn [snd plus obs any_a] in *.
    rewrite orb_true_iff. rewrite in_app_iff in *. destruct B as [B|B]; [eauto|]. right. eapply (IHa p d _ t). rewrite E. exact B.
  - (* recv *) intros n IH p d st t B. cbn in B. destruct (direct n); [eapply IH; exact B|destruct B].
  - (* blk *) intros ps ls E. discriminate.
  - intros ps ls s IH ps' ls' s' E. injection E as _ _ E. subst s'. exact IH.
  - (* stmts *) intros n IHn s IHs p d st t B. cbn [any_s]. rewrite orb_true_iff.
    destruct s as [|n' s]; [left; eapply IHn; exact B|]. rewrite track_seq in B by discriminate.
    cbn [also ro plus obs] in B. apply in_app_or in B as [B|B]; eauto.
  - (* tail *) intros s IH p d st t B. apply (IH p d st t B).
  - (* whens *) intros a IHa s IHs w IHw p d st t B. cbn [track_w] in B.
    destruct (track_w T p d w _) as [[k st1] o] eqn:E. cbn [snd plus obs any_w] in *.
    rewrite !orb_true_iff. rewrite !in_app_iff in *. destruct B as [B|B]; [eauto|]. right. eapply (IHw p d _ t). rewrite E. exact B.
  - (* rescues *) intros y s IHs r IHr p d st t B. cbn [track_r] in B.
    destruct (track_r T p d r _) as [[k st1] o] eqn:E. cbn [snd plus obs any_r] in *.
    rewrite orb_true_iff. rewrite !in_app_iff in *. destruct B as [B|B]; [eauto|]. right. eapply (IHr p d _ t). rewrite E. exact B.
Qed.

(** the tracker observes only variables it has types for *)
Lemma obs_tracked T K x :
  (forall n p m d st t, simple K p m n = true -> In (x, t) (obs (ro (track T p d n st))) -> U K x = false) /\
  (forall a p m d st t, simple_a K p m a = true -> In (x, t) (obs (snd (track_a T p d a st))) -> U K x = false) /\
  (forall r p m d st t, simple_v K p m r = true -> In (x, t) (obs (ro (look T p d r st))) -> U K x = false) /\
  (forall b ps ls s, b = BBlock ps ls s -> forall p m d st t, simple_s K p m s = true -> In (x, t) (obs (ro (track_s T p d s st))) -> U K x = false) /\
  (forall s p m d st t, simple_s K p m s = true -> In (x, t) (obs (ro (track_s T p d s st))) -> U K x = false) /\
  (forall e p m d st t, simple_t K p m e = true -> In (x, t) (obs (ro (track_t T p d e st))) -> U K x = false) /\
  (forall w p d st t, simple_w K p w = true -> In (x, t) (obs (snd (track_w T p d w st))) -> U K x = false) /\
  (forall r p d st t, simple_r K p r = true -> In (x, t) (obs (snd (track_r T p d r st))) -> U K x = false).
Proof.
  apply tree_ind; try (intros; match goal with B : In _ _ |- _ => destruct B end).
  - (* Read *) intros l' y p m d st t C B. cbn in B. destruct (flow st); destruct B.
  - (* Write *) intros y v IH p m d st t C B. cbn [simple] in C. checks.
    cbn in B. destruct p; cbn in B; [|eauto].
    destruct B as [B|B]; [injection B as B _; congruence|]. apply in_app_or in B as [B|B]; [eauto|].
    destruct B as [B|[]]. injection B as B _. congruence.
  - (* Call *) intros safe r IHr f a IHa b IHb p m d st t C B. rewrite track_call in B. cbn [simple] in C.
    destruct b as [|ps ls s]; checks.
    { apply (from_plain obs) in B as [st' B]; [|reflexivity]. eauto. }
    destruct (bang f).
    { apply (from_plain obs) in B as [st' B]; [|reflexivity]. eauto. }
    apply (from_block obs) in B as [[st' B]|[[st' B]|[st' B]]]; try reflexivity; eauto 6.
  - (* If *) intros u q IHq s IHs e IHe p m d st t C B. cbn in B. cbn [simple] in C. apply andb_true_iff in C as [C _]. checks.
    rewrite !in_app_iff in B. destruct B as [B|[B|B]]; eauto.
  - (* Case *) intros q IHq w IHw e IHe p m d st t C B. cbn [track] in B. cbn [simple] in C. checks.
    destruct (track_w T p d w (rs (track T p d q (flowing st)))) as [[k st1] o] eqn:E.
    cbn in B. rewrite !in_app_iff in *. destruct B as [B|[B|B]]; eauto.
    eapply (IHw p d _ t); [assumption|]. rewrite E. exact B.
  - (* Logic *) intros or a IHa b IHb p m d st t C B. cbn [track] in B. cbn [simple] in C. checks.
    destruct (truthiness _) as [c|].
    + destruct (Bool.eqb c or); cbn in B; rewrite app_nil_r in B; [eauto|]. apply in_app_or in B as [B|B]; eauto.
    + cbn in B; rewrite app_nil_r in B. apply in_app_or in B as [B|B]; eauto.
  - (* Begin *) intros b IHb r IHr e IHe n IHn p m d st t C B. rewrite track_begin in B. cbv zeta in B. cbn [simple] in C. fold (protected r) in C. checks.
    set (k := track_s T (p || protected r) d b (flowing st)) in *.
    destruct (track_r T p d r _) as [[arms st1] o] eqn:E.
    cbn [ro plus obs] in B. rewrite !in_app_iff in *. destruct B as [B|[B|[B|B]]]; eauto.
    + destruct e as [|s]; cbn in B; [contradiction|]. destruct s; [destruct B|].
      eapply (IHe p true d (rs k)); [eassumption|]. cbn [track_t]. exact B.
    + eapply (IHr p d _ t); [assumption|]. rewrite E. exact B.
  - (* RescueMod *) intros a IHa b IHb p m d st t C B. cbn in B. cbn [simple] in C. checks. rewrite in_app_iff in B. destruct B as [B|B]; eauto.
  - (* While *) intros u c IHc s IHs p m d st t C B. cbn [track] in B. cbn [simple ro plus passed obs] in *. checks.
    rewrite app_nil_r in B. rewrite in_app_iff in *. destruct B as [B|B]; [eauto|].
    apply (from_again obs) in B as [st' B]; try reflexivity. eauto.
  - (* Return *) intros v IH p m d st t C B. cbn [simple] in C. destruct v as [|n]; cbn in B; [destruct B|].
    rewrite app_nil_r in B. eapply (IH p m d st); [exact C|]. exact B.
  - intros s IH p m d st t C B. apply (IH p m d st t C B).
  - intros s IH p m d st t C B. apply (IH p m d st t C B).
  - (* args *) intros n IHn a IHa p m d st t C B. cbn [track_a] in B. cbn [simple_a] in C. checks.
    destruct (track_a T p d a (rs (track T p d n st))) as [[ts st1] o] eqn:E. cbn [snd plus obs] in *.
    rewrite in_app_iff in *. destruct B as [B|B]; [eauto|]. eapply (IHa p m d _ t); [assumption|]. rewrite E. exact B.
  - (* recv *) intros n IH p m d st t C B. cbn in B. cbn [simple_v] in C. destruct (direct n); [|destruct B]. checks. eapply IH; [|exact B]. eassumption.
  - (* blk *) intros ps ls E. discriminate.
  - intros ps ls s IH ps' ls' s' E. injection E as _ _ E. subst s'. exact IH.
  - (* stmts *) intros n IHn s IHs p m d st t C B. cbn [simple_s] in C. checks.
    destruct s as [|n' s]; [eapply IHn; [|exact B]; eassumption|]. rewrite track_seq in B by discriminate.
    cbn [also ro plus obs] in B. apply in_app_or in B as [B|B]; eauto.
  - (* tail *) intros s IH p m d st t C B. apply (IH p m d st t C B).
  - (* whens *) intros a IHa s IHs w IHw p d st t C B. cbn [track_w] in B. cbn [simple_w] in C. checks.
    destruct (track_w T p d w _) as [[k st1] o] eqn:E. cbn [snd plus obs] in *.
    rewrite !in_app_iff in *. destruct B as [B|B]; [eauto|]. eapply (IHw p d _ t); [assumption|]. rewrite E. exact B.
  - (* rescues *) intros y s IHs r IHr p d st t C B. cbn [track_r] in B. cbn [simple_r] in C. checks.
    destruct (track_r T p d r _) as [[k st1] o] eqn:E. cbn [snd plus obs] in *.
    rewrite !in_app_iff in *. destruct B as [B|B]; [eauto|]. eapply (IHr p d _ t); [assumption|]. rewrite E. exact B.
Qed.

(** ** Calls and the environment *)
Definition st_of (p : list ty * state * out) : state := snd (fst p).
Lemma plain_vars (R : env -> env -> Prop) T r f rc st :
  (forall e, R e e) -> (forall st, R (vars st) (vars (rs (rc st)))) -> R (vars st) (vars (rs (plain_call T r f rc st))).
Proof.
  intros F A. unfold plain_call. destruct (is_new r f); cbn; [apply F|]. destruct r; cbn; [apply F|apply A].
Qed.
Lemma block_vars (R : env -> env -> Prop) T r f ps j rc ar bl st :
  (forall e, R e e) -> (forall a b c, R a b -> R b c -> R a c) ->
  (forall st, R (vars st) (vars (rs (rc st)))) -> (forall st, R (vars st) (vars (st_of (ar st)))) ->
  R (vars st) (vars (rs (block_call T r f ps j rc ar bl st))).
Proof.
  intros F G A B. unfold block_call.
  match goal with |- context [if ?c then _ else _] => destruct c end.
  { cbn. apply G with (vars (rs (rc st))); [apply A|]. apply plain_vars; auto. }
  pose proof (B (rs (rc st))) as B1.
  destruct (ar (rs (rc st))) as [[ts st1] o]. cbn in B1.
  assert (C : R (vars st) (vars st1)) by (apply G with (vars (rs (rc st))); auto).
  assert (P : forall k, vars k = vars st1 -> R (vars st) (vars (rs (plain_call T r f rc k)))).
  { intros k E. apply G with (vars st1); [exact C|]. rewrite <- E. apply plain_vars; auto. }
  destruct (hof T f _ ts) as [[params result]|]; [|apply P; reflexivity].
  destruct j; [apply P; reflexivity|].
  destruct (result _); cbn; [exact C|apply P; reflexivity].
Qed.

Lemma still_vars T :
  (forall n, still n = true -> forall p d st, vars (rs (track T p d n st)) = vars st) /\
  (forall a, still_a a = true -> forall p d st, vars (st_of (track_a T p d a st)) = vars st) /\
  (forall r, still_v r = true -> forall p d st, vars (rs (look T p d r st)) = vars st) /\
  (forall b : blk, True) /\ (forall s : stmts, True) /\ (forall e : tail, True) /\
  (forall w : whens, True) /\ (forall r : rescues, True).
Proof.
  apply tree_ind; try exact (fun _ => Logic.I); try (intros; exact Logic.I); try reflexivity;
    try (intros; match goal with B : still _ = true |- _ => discriminate B end).
  - intros safe r IHr f a IHa b _ C p d st. rewrite track_call. cbn [still] in C. checks.
    assert (A : forall st, vars st = vars (rs (look T p d r st))) by (intros; symmetry; apply IHr; assumption).
    destruct b as [|ps ls s].
    { symmetry. apply (plain_vars eq); auto. }
    destruct (bang f); [symmetry; apply (plain_vars eq); auto|].
    symmetry. apply (block_vars eq); auto.
    + intros x y z -> ->. reflexivity.
    + intros; symmetry; apply IHa; assumption.
  - intros n IHn a IHa C p d st. cbn [still_a] in C. checks. cbn [track_a].
    specialize (IHa C p d (rs (track T p d n st))).
    destruct (track_a T p d a (rs (track T p d n st))) as [[ts st1] o]. cbn in *. rewrite IHa. apply IHn. assumption.
  - intros n IH C p d st. cbn. cbn [still_v] in C. destruct (direct n); [apply IH; exact C|reflexivity].
Qed.

(** ** Which variables have a type at all *)
Definition same_dom (x : N) (a b : env) : Prop := a x = None <-> b x = None.
Lemma same_dom_refl x a : same_dom x a a.
Proof. unfold same_dom. tauto. Qed.
Lemma same_dom_trans x a b c : same_dom x a b -> same_dom x b c -> same_dom x a c.
Proof. unfold same_dom. tauto. Qed.
Lemma merge_none a b x : merge a b x = None <-> a x = None /\ b x = None.
Proof. unfold merge. destruct (a x), (b x); intuition discriminate. Qed.
Lemma merge_dom x e a b : same_dom x e a -> same_dom x e b -> same_dom x e (merge a b).
Proof. unfold same_dom. rewrite merge_none. tauto. Qed.
Lemma fold_merge_dom x e l : forall a, same_dom x e a -> (forall b, In b l -> same_dom x e (a_env b)) ->
  same_dom x e (fold_left (fun e b => merge e (a_env b)) l a).
Proof.
  induction l as [|b l IH]; intros a A B; cbn [fold_left]; [exact A|].
  apply IH; [apply merge_dom; auto; apply B; left; reflexivity|]. intros c J. apply B. right. exact J.
Qed.
Lemma staying_in a l : In a (staying l) <-> In a l /\ a_gone a = false.
Proof. unfold staying. rewrite filter_In, negb_true_iff. tauto. Qed.
Lemma join_dom x e l : (forall b, In b l -> same_dom x e (a_env b)) -> same_dom x e (join_envs e l).
Proof.
  intros A. unfold join_envs. destruct (staying l) as [|a k] eqn:E; [apply same_dom_refl|].
  assert (B : forall b, In b (a :: k) -> same_dom x e (a_env b)).
  { intros b J. apply A. rewrite <- E in J. apply staying_in in J. apply J. }
  apply fold_merge_dom; [apply B; left; reflexivity|]. intros b J. apply B. right. exact J.
Qed.
Lemma set_other e y t x : x <> y -> set e y t x = e x.
Proof. intros B. unfold set. apply N.eqb_neq in B. rewrite B. reflexivity. Qed.
Lemma set_same e y t : set e y t y = Some t.
Proof. unfold set. rewrite N.eqb_refl. reflexivity. Qed.
Lemma narrow_other_v x : (forall q e truth, ~ In x (about q) -> narrow e q truth x = e x) /\
  (forall a : args, True) /\
  (forall r q, r = RNode q -> forall e truth, ~ In x (about q) -> narrow e q truth x = e x) /\
  (forall b : blk, True) /\ (forall s : stmts, True) /\ (forall e : tail, True) /\
  (forall w : whens, True) /\ (forall r : rescues, True).
Proof.
  apply tree_ind; try (intros; exact Logic.I); try reflexivity.
  - intros safe r IHr f a _ b _ e truth A. cbn [narrow about] in *.
    destruct r as [|q]; [reflexivity|]. specialize (IHr q eq_refl).
    assert (R : forall g h, (forall l y, q = Read l y -> ~ In x (g l y) -> h l y x = e x) ->
      ~ In x (match q with Read l y => g l y | _ => [] end) ->
      (match q with Read l y => h l y | _ => e end) x = e x).
    { intros g h B C. destruct q; try reflexivity. apply B; auto. }
    destruct a as [|n a].
    + destruct (f =? "!")%string; [apply IHr; exact A|].
      revert A. apply R. intros l y _ B. destruct (f =? "nil?")%string; [|reflexivity].
      assert (x <> y) by (cbn in B; intuition congruence).
      destruct truth; [apply set_other; auto|]. destruct (e y); [apply set_other; auto|reflexivity].
    + destruct n; try reflexivity. destruct a; [|reflexivity].
      revert A. apply R. intros l y _ B. destruct (_ || _ || _); [|reflexivity].
      assert (x <> y) by (cbn in B; intuition congruence).
      destruct truth; [apply set_other; auto|]. destruct (e y); [apply set_other; auto|reflexivity].
  - intros n E. discriminate.
  - intros n IH q E. injection E as ->. exact IH.
Qed.
Lemma narrow_other x q e truth : ~ In x (about q) -> narrow e q truth x = e x.
Proof. apply (narrow_other_v x). Qed.

Lemma entry_type_keys l x : entry_type l x = None <-> ~ In x (keys l).
Proof.
  unfold entry_type.
  assert (G : forall o, fold_left (fun o b => if N.eqb (fst b) x then Some (match o with Some t => union [t; snd b] | None => snd b end) else o) l o = None
    <-> o = None /\ ~ In x (keys l)).
  { induction l as [|[y t] l IH]; intros o; cbn [fold_left keys List.map fst snd In]; [tauto|].
    rewrite IH. fold (keys l). destruct (N.eqb_spec y x); [subst|]; intuition discriminate. }
  rewrite G. tauto.
Qed.

Section Dom.
Variables (T : facts) (K : vision) (x : N).
Hypothesis HU : forall x, H K x = true -> U K x = true.
Hypothesis Ux : U K x = true.

Lemma guard_dom p m q truth rest e : guard K p m q truth rest = true -> m = true \/ H K x = true ->
  narrow e q truth x = e x.
Proof.
  unfold guard. intros G M. checks. apply narrow_other. intros A. rewrite forallb_forall in G. specialize (G x A).
  checks. rewrite Ux in *. destruct M as [->|M]; [discriminate|congruence].
Qed.
Lemma entry_dom T' p m d s st : simple_s K p m s = true ->
  entry (vars st) (obs (ro (track_s T' p d s st))) x = vars st x.
Proof.
  intros C. unfold entry. destruct (entry_type _ x) eqn:E; [|reflexivity]. exfalso.
  assert (A : In x (keys (obs (ro (track_s T' p d s st))))).
  { destruct (in_dec N.eq_dec x (keys (obs (ro (track_s T' p d s st))))) as [A|A]; [exact A|].
    apply entry_type_keys in A. congruence. }
  apply in_keys in A as [u A].
  destruct (obs_tracked T' K x) as (_&_&_&_&O&_). rewrite (O _ _ _ _ _ _ C A) in Ux. discriminate.
Qed.
Lemma again_dom k f : (forall st, same_dom x (vars st) (vars (rs (f st)))) ->
  forall last st, same_dom x (vars st) (vars (rs (again k f last st))).
Proof.
  intros A. induction k as [|k IH]; intros last st; cbn [again]; [apply same_dom_refl|].
  cbn [also rs]. eapply same_dom_trans; [apply A|apply IH].
Qed.

Lemma track_dom :
  (forall n p m d st, simple K p m n = true -> m = true \/ H K x = true -> same_dom x (vars st) (vars (rs (track T p d n st)))) /\
  (forall a p m d st, simple_a K p m a = true -> m = true \/ H K x = true -> same_dom x (vars st) (vars (st_of (track_a T p d a st)))) /\
  (forall r p m d st, simple_v K p m r = true -> m = true \/ H K x = true -> same_dom x (vars st) (vars (rs (look T p d r st)))) /\
  (forall b : blk, True) /\
  (forall s p m d st, simple_s K p m s = true -> m = true \/ H K x = true -> same_dom x (vars st) (vars (rs (track_s T p d s st)))) /\
  (forall e p m d st, simple_t K p m e = true -> m = true \/ H K x = true -> same_dom x (vars st) (vars (rs (track_t T p d e st)))) /\
  (forall w p d st, simple_w K p w = true -> forall a, In a (fst (fst (track_w T p d w st))) -> same_dom x (vars st) (a_env a)) /\
  (forall r p d st, simple_r K p r = true -> forall a, In a (fst (fst (track_r T p d r st))) -> same_dom x (vars st) (a_env a)).
Proof.
  apply tree_ind; try (intros; exact Logic.I); try (intros; apply same_dom_refl).
  - (* Write *) intros y v IH p m d st C M. cbn [simple] in C. checks.
    eapply same_dom_trans; [apply (IH p m d st); assumption|]. cbn [track rs at_ vars]. unfold same_dom. rewrite set_other; [tauto|]. congruence.
  - (* Call *) intros safe r IHr f a IHa b _ p m d st C M. rewrite track_call. cbn [simple] in C.
    destruct b as [|ps ls s]; checks.
    { apply (plain_vars (same_dom x)); [apply same_dom_refl|]. intros; eapply IHr; eassumption. }
    destruct (bang f).
    { apply (plain_vars (same_dom x)); [apply same_dom_refl|]. intros; eapply IHr; eassumption. }
    apply (block_vars (same_dom x)); [apply same_dom_refl|apply same_dom_trans| |]; intros; [eapply IHr|eapply IHa]; eassumption.
  - (* If *) intros u q IHq s IHs e IHe p m d st C M. cbn [simple] in C. apply andb_true_iff in C as [C G]. checks.
    cbn [track rs at_ vars]. set (r := track T p d q (flowing st)). set (k := track_s T p d s (rs r)).
    set (z := track_t T p d e (at_ (vars (rs r)) (rs k))).
    assert (A : same_dom x (vars st) (vars (rs r))) by (eapply (IHq p m d (flowing st)); eassumption).
    eapply same_dom_trans; [exact A|].
    assert (B : same_dom x (vars (rs r)) (vars (rs k))) by (eapply IHs; [eassumption|left; reflexivity]).
    assert (E : same_dom x (vars (rs r)) (vars (rs z))) by (eapply (IHe p true d (at_ (vars (rs r)) (rs k))); [eassumption|left; reflexivity]).
    unfold join_if. cbn [a_gone arm_of a_env].
    destruct (leaves_s s), (leaves_t e).
    + apply same_dom_refl.
    + unfold same_dom in *. erewrite guard_dom by eassumption. exact E.
    + unfold same_dom in *. erewrite guard_dom by eassumption. exact B.
    + apply merge_dom; assumption.
  - (* Case *) intros q IHq w IHw e IHe p m d st C M. cbn [simple] in C. checks. cbn [track].
    set (r := track T p d q (flowing st)).
    pose proof (IHw p d (rs r) ltac:(assumption)) as W.
    destruct (track_w T p d w (rs r)) as [[l st1] o]. cbn [fst] in W. cbn [rs at_ vars].
    eapply same_dom_trans; [eapply (IHq p m d (flowing st)); eassumption|]. fold r.
    apply join_dom. intros b J. apply in_app_or in J as [J|[<-|[]]]; [apply W; exact J|]. cbn [arm_of a_env].
    eapply (IHe p true d (at_ (vars (rs r)) st1)); [eassumption|left; reflexivity].
  - (* Logic *) intros or a IHa b IHb p m d st C M. cbn [simple] in C. checks. cbn [track].
    set (r := track T p d a (flowing st)).
    assert (A : same_dom x (vars st) (vars (rs r))) by (eapply (IHa p m d (flowing st)); eassumption).
    assert (B : same_dom x (vars (rs r)) (vars (rs (track T p d b (rs r))))) by (eapply IHb; [eassumption|left; reflexivity]).
    destruct (truthiness (rt r)) as [c|]; [destruct (Bool.eqb c or)|]; cbn [rs also at_ vars].
    + exact A.
    + eapply same_dom_trans; eassumption.
    + eapply same_dom_trans; [exact A|]. apply merge_dom; [apply same_dom_refl|exact B].
  - (* Begin *) intros b IHb r IHr e IHe n IHn p m d st C M. rewrite track_begin. cbv zeta. cbn [simple] in C. fold (protected r) in C. checks.
    set (k := track_s T (p || protected r) d b (flowing st)).
    set (z := else_of T p d e k).
    pose proof (IHr p d (at_ (entry (vars (flowing st)) (obs (ro k))) (rs z)) ltac:(assumption)) as R.
    destruct (track_r T p d r _) as [[l st1] o]. cbn [fst at_ vars] in R. cbn [rs].
    assert (B : same_dom x (vars st) (vars (rs k))) by (eapply (IHb (p || protected r) true d (flowing st)); [eassumption|left; reflexivity]).
    eapply same_dom_trans; [|eapply IHn; eassumption]. cbn [at_ vars].
    apply join_dom. intros c [<-|J]; cbn [arm_of a_env].
    + eapply same_dom_trans; [exact B|]. unfold z, else_of. destruct e as [|s]; [apply same_dom_refl|].
      destruct s as [|n' s]; [apply same_dom_refl|].
      eapply (IHe p true d (rs k)); [eassumption|left; reflexivity].
    + eapply same_dom_trans; [|apply R; exact J]. unfold same_dom, k. erewrite entry_dom by eassumption. tauto.
  - (* RescueMod *) intros a IHa b IHb p m d st C M. cbn [simple] in C. checks. cbn [track rs at_ vars].
    apply merge_dom; [eapply (IHa true true d (flowing st)); [eassumption|left; reflexivity]|].
    set (k := track T true d a (flowing st)).
    eapply same_dom_trans; [|eapply (IHb p true d); [eassumption|left; reflexivity]]. cbn [at_ vars].
    unfold same_dom, entry. destruct (entry_type _ x) eqn:E; [|cbn; tauto]. exfalso.
    assert (A : In x (keys (obs (ro k)))).
    { destruct (in_dec N.eq_dec x (keys (obs (ro k)))) as [A|A]; [exact A|]. apply entry_type_keys in A. congruence. }
    apply in_keys in A as [u A]. apply (obs_tracked T K x) with (m := true) in A; [congruence|assumption].
  - (* While *) intros u c IHc s IHs p m d st C M. cbn [simple] in C. checks. cbn [track rs at_ vars].
    assert (A : same_dom x (vars st) (vars (rs (track T p d c (flowing st))))) by (eapply (IHc p true d (flowing st)); [eassumption|left; reflexivity]).
    apply merge_dom; [exact A|]. eapply same_dom_trans; [exact A|].
    apply again_dom. intros st'. eapply IHs; [eassumption|left; reflexivity].
  - (* Return *) intros v IH p m d st C M. cbn [simple] in C. destruct v as [|n]; [apply same_dom_refl|].
    apply (IH p m d st C M).
  - intros s IH p m d st C M. apply (IH p m d st C M).
  - intros s IH p m d st C M. apply (IH p m d st C M).
  - (* args *) intros n IHn a IHa p m d st C M. cbn [simple_a] in C. checks. cbn [track_a].
    pose proof (IHa p m d (rs (track T p d n st)) C M) as A.
    destruct (track_a T p d a (rs (track T p d n st))) as [[ts st1] o]. cbn in *.
    eapply same_dom_trans; [eapply IHn; eassumption|exact A].
  - (* recv *) intros n IH p m d st C M. cbn [simple_v look] in *. destruct (direct n); [|apply same_dom_refl].
    checks. eapply IH; eassumption.
  - (* stmts *) intros n IHn s IHs p m d st C M. cbn [simple_s] in C. checks.
    destruct s as [|n' s]; [eapply IHn; eassumption|]. rewrite track_seq by discriminate. cbn [also rs].
    eapply same_dom_trans; [eapply IHn; eassumption|eapply IHs; eassumption].
  - intros s IH p m d st C M. apply (IH p m d st C M).
  - intros p d st C a [].
  - (* whens *) intros a _ s IHs w IHw p d st C b J. cbn [simple_w] in C. checks. cbn [track_w] in J.
    pose proof (IHw p d (at_ (vars st) (rs (track_s T p d s st))) C) as W.
    destruct (track_w T p d w _) as [[l st1] o]. cbn in J, W. destruct J as [<-|J]; [|apply W; exact J].
    cbn. eapply IHs; [eassumption|left; reflexivity].
  - intros p d st C a [].
  - (* rescues *) intros y s IHs r IHr p d st C b J. cbn [simple_r] in C. checks. cbn [track_r] in J.
    pose proof (IHr p d (at_ (vars st) (rs (track_s T p d s st))) C) as W.
    destruct (track_r T p d r _) as [[l st1] o]. cbn in J, W. destruct J as [<-|J]; [|apply W; exact J].
    cbn. eapply IHs; [eassumption|left; reflexivity].
Qed.
End Dom.
