(** What happens to the type of a variable which is not assigned, and what a rescue clause is told
    about one which is. *)
From Coq Require Import List Bool NArith.
From Verif Require Import Types_Model Types_Spec Types_Union TypeFlow_Model TypeFlow_Spec TypeFlow_Frame TypeFlow_Tracker.
From Coq Require Import String.
Import ListNotations.
Local Open Scope list_scope.

Section Cover.
Variables (nm : meaning) (T : facts) (K : vision) (x : N).
Hypothesis Hnil : den nm nil_class vnil.

(** the values a variable without a type can have are nil alone *)
Definition den_e (o : option ty) (v : val) : Prop := match o with Some t => den nm t v | None => v = vnil end.
Definition cov (a b : option ty) : Prop := forall v, den_e a v -> den_e b v.
Lemma cov_refl a : cov a a.
Proof. intros v A. exact A. Qed.
Lemma cov_trans a b c : cov a b -> cov b c -> cov a c.
Proof. intros A B v C. auto. Qed.

Lemma union_l t u v : den nm t v -> den nm (union [t; u]) v.
Proof. intros A. apply union_complete. exists t. split; [left; reflexivity|exact A]. Qed.
Lemma union_r t u v : den nm u v -> den nm (union [t; u]) v.
Proof. intros A. apply union_complete. exists u. split; [right; left; reflexivity|exact A]. Qed.

Lemma merge_cov_l a b : cov (a x) (merge a b x).
Proof.
  intros v A. unfold merge. destruct (a x) as [t|], (b x) as [u|]; cbn in *; auto.
  - destruct (Types_Model.eqb t u); [exact A|apply union_l; exact A].
  - apply union_l. exact A.
  - apply union_r. subst v. exact Hnil.
Qed.
Lemma eqb_same t u : Types_Model.eqb t u = true -> t = u.
Proof. unfold Types_Model.eqb. destruct (cmp t u) eqn:E; try discriminate. intros _. apply Types_Order.cmp_eq. exact E. Qed.
Lemma merge_cov_r a b : cov (b x) (merge a b x).
Proof.
  intros v A. unfold merge. destruct (a x) as [t|], (b x) as [u|]; cbn in *; auto.
  - destruct (Types_Model.eqb t u) eqn:E; [apply eqb_same in E; subst; exact A|apply union_r; exact A].
  - apply union_r. subst v. exact Hnil.
  - apply union_l. exact A.
Qed.
Lemma fold_merge_first l : forall a, cov (a x) (fold_left (fun e b => merge e (a_env b)) l a x).
Proof.
  induction l as [|b l IH]; intros a; cbn [fold_left]; [apply cov_refl|].
  eapply cov_trans; [|apply IH]. apply merge_cov_l.
Qed.
Lemma join_cov e l : (forall b, In b l -> cov (e x) (a_env b x)) -> cov (e x) (join_envs e l x).
Proof.
  intros A. unfold join_envs. destruct (staying l) as [|a k] eqn:E; [apply cov_refl|].
  eapply cov_trans; [|apply fold_merge_first]. apply A.
  assert (B : In a (staying l)) by (rewrite E; left; reflexivity). apply staying_in in B. apply B.
Qed.

(** [step]: from the environment [e] to [e'], observing [ob]; [ms] are the variables assigned. *)
Definition covered (e : env) (ob : list (N * ty)) : Prop :=
  In x (keys ob) -> forall v, den_e (e x) v -> exists t, In (x, t) ob /\ den nm t v.
Definition step (p : bool) (ms : list N) (e : env) (ob : list (N * ty)) (e' : env) : Prop :=
  ((~ In x ms \/ (p = true /\ ~ In x (keys ob))) -> cov (e x) (e' x)) /\ (p = true -> covered e ob).
Lemma keys_app (a b : list (N * ty)) : keys (a ++ b) = keys a ++ keys b.
Proof. apply map_app. Qed.
Lemma step_refl p ms e : step p ms e [] e.
Proof. split; [intros _; apply cov_refl|]. intros _ []. Qed.
Lemma step_seq p m1 m2 e o1 e1 o2 e2 : step p m1 e o1 e1 -> step p m2 e1 o2 e2 -> step p (m1 ++ m2) e (o1 ++ o2) e2.
Proof.
  intros [A1 B1] [A2 B2]. split.
  - intros C. rewrite keys_app, !in_app_iff in C. eapply cov_trans; [apply A1|apply A2]; tauto.
  - intros P J v V. rewrite keys_app, in_app_iff in J.
    destruct (in_dec N.eq_dec x (keys o1)) as [L|L].
    + destruct (B1 P L v V) as [t [F G]]. exists t. rewrite in_app_iff. auto.
    + assert (R : In x (keys o2)) by tauto.
      destruct (B2 P R v) as [t [F G]]; [apply A1; tauto|]. exists t. rewrite in_app_iff. auto.
Qed.
Lemma step_par p m1 m2 e o1 e1 o2 e2 e' : step p m1 e o1 e1 -> step p m2 e o2 e2 ->
  (cov (e1 x) (e' x) \/ cov (e2 x) (e' x) \/ cov (e x) (e' x)) -> step p (m1 ++ m2) e (o1 ++ o2) e'.
Proof.
  intros [A1 B1] [A2 B2] C. split.
  - intros D. rewrite keys_app, !in_app_iff in D.
    destruct C as [C|[C|C]]; [eapply cov_trans; [apply A1; tauto|exact C]|eapply cov_trans; [apply A2; tauto|exact C]|exact C].
  - intros P J v V. rewrite keys_app, in_app_iff in J. destruct J as [J|J].
    + destruct (B1 P J v V) as [t [F G]]. exists t. rewrite in_app_iff. auto.
    + destruct (B2 P J v V) as [t [F G]]. exists t. rewrite in_app_iff. auto.
Qed.
Lemma step_weaken p m m' e o e' e'' : step p m e o e' -> (forall y, In y m -> In y m') -> cov (e' x) (e'' x) -> step p m' e o e''.
Proof.
  intros [A B] M C. split; [|exact B]. intros D. eapply cov_trans; [apply A|exact C]. destruct D as [D|D]; [|tauto]. left. auto.
Qed.
Lemma covered_app e a b : covered e a -> covered e b -> covered e (a ++ b).
Proof.
  intros A B J v V. rewrite keys_app, in_app_iff in J. destruct J as [J|J].
  - destruct (A J v V) as [t [F G]]. exists t. rewrite in_app_iff. auto.
  - destruct (B J v V) as [t [F G]]. exists t. rewrite in_app_iff. auto.
Qed.

(** what a rescue clause starts from *)
Lemma entry_type_in l t v : In (x, t) l -> den nm t v -> exists u, entry_type l x = Some u /\ den nm u v.
Proof.
  unfold entry_type. intros A B.
  assert (G : forall k o, (exists u, o = Some u /\ den nm u v) ->
    exists u, fold_left (fun o b => if N.eqb (fst b) x then Some (match o with Some t => union [t; snd b] | None => snd b end) else o) k o = Some u /\ den nm u v).
  { induction k as [|[y w] k IH]; intros o [u [-> C]]; cbn [fold_left fst snd]; [eauto|].
    apply IH. destruct (N.eqb y x); eauto using union_l. }
  assert (F : forall k o, In (x, t) k ->
    exists u, fold_left (fun o b => if N.eqb (fst b) x then Some (match o with Some t => union [t; snd b] | None => snd b end) else o) k o = Some u /\ den nm u v).
  { induction k as [|[y w] k IH]; intros o J; [destruct J|]. destruct J as [J|J]; cbn [fold_left fst snd].
    - injection J as -> ->. apply G. rewrite N.eqb_refl. destruct o; eauto using union_r.
    - apply IH. exact J. }
  apply F. exact A.
Qed.
Lemma entry_cov e l : covered e l -> cov (e x) (entry e l x).
Proof.
  intros A v V. unfold entry. destruct (in_dec N.eq_dec x (keys l)) as [L|L].
  - destruct (A L v V) as [t [F G]]. destruct (entry_type_in l t v F G) as [u [E B]]. rewrite E. exact B.
  - rewrite (proj2 (entry_type_keys l x) L). exact V.
Qed.

Lemma sets_other l y : forall e, ~ In y (keys l) -> sets e l y = e y.
Proof.
  unfold sets. induction l as [|[z t] l IH]; intros e A; cbn [fold_left fst snd]; [reflexivity|].
  cbn [keys List.map fst In] in A. rewrite IH by tauto. apply set_other. intuition congruence.
Qed.
Lemma parameters_keys ps ts y : In y (keys (parameters ps ts)) -> In y ps.
Proof.
  unfold keys, parameters. rewrite map_map, in_map_iff. intros [i [E J]]. cbn in E. subst y.
  apply nth_In. apply in_seq in J. apply J.
Qed.

Lemma plain_step p r f rc st ms : (forall st, step p ms (vars st) (obs (ro (rc st))) (vars (rs (rc st)))) ->
  step p ms (vars st) (obs (ro (plain_call T r f rc st))) (vars (rs (plain_call T r f rc st))).
Proof.
  intros A. unfold plain_call. destruct (is_new r f); cbn; [apply step_refl|]. destruct r; cbn; [apply step_refl|apply A].
Qed.
Lemma block_covered r f ps j rc ar bl st :
  (forall st, vars (rs (rc st)) = vars st) -> (forall st, vars (st_of (ar st)) = vars st) ->
  (forall st, covered (vars st) (obs (ro (rc st)))) -> (forall st, covered (vars st) (obs (snd (ar st)))) ->
  (forall st, (~ In x ps -> covered (vars st) (obs (ro (bl st)))) /\ (In x ps -> ~ In x (keys (obs (ro (bl st)))))) ->
  covered (vars st) (obs (ro (block_call T r f ps j rc ar bl st))).
Proof.
  intros S1 S2 A B C. unfold block_call.
  assert (P : forall k, vars k = vars st -> covered (vars st) (obs (ro (plain_call T r f rc k)))).
  { intros k <-. unfold plain_call. destruct (is_new r f); cbn; [intros []|]. destruct r; cbn; [intros []|apply A]. }
  match goal with |- context [if ?c then _ else _] => destruct c end.
  { cbn [also ro plus obs]. apply covered_app; [apply A|]. apply P, S1. }
  pose proof (S2 (rs (rc st))) as S3. pose proof (B (rs (rc st))) as B1. rewrite S1 in S3, B1.
  destruct (ar (rs (rc st))) as [[ts st1] o]. cbn [snd st_of fst] in *.
  assert (O : covered (vars st) (obs (plus (ro (rc st)) o))) by (apply covered_app; auto).
  destruct (hof T f _ ts) as [[params result]|]; [|cbn [also ro]; apply covered_app; auto].
  destruct j; [cbn [also ro]; apply covered_app; auto|].
  set (k := bl _).
  assert (L : covered (vars st) (obs (ro k))).
  { unfold k. match goal with |- context [bl ?z] => specialize (C z) end. destruct C as [C1 C2].
    destruct (in_dec N.eq_dec x ps) as [I|I].
    - intros J. destruct (C2 I J).
    - specialize (C1 I). intros J v V. apply C1; [exact J|]. cbn [at_ vars]. rewrite sets_other, S3; [exact V|].
      intros J'. apply I. eapply parameters_keys. exact J'. }
  assert (O2 : covered (vars st) (obs (plus (plus (ro (rc st)) o) (unreturned (ro k))))) by (apply covered_app; auto).
  destruct (result (rt k)); [exact O2|]. cbn [also ro]. apply covered_app; [exact O2|]. apply P. exact S3.
Qed.
Lemma again_step p ms k f : (forall st, step p ms (vars st) (obs (ro (f st))) (vars (rs (f st)))) ->
  forall last st, step p ms (vars st) (obs (ro (again k f last st))) (vars (rs (again k f last st))).
Proof.
  intros A. induction k as [|k IH]; intros last st; cbn [again]; [apply step_refl|].
  cbn [also rs ro plus obs passed]. rewrite app_nil_r.
  eapply step_weaken; [eapply step_seq; [apply A|apply IH]| |apply cov_refl].
  intros y. rewrite in_app_iff. tauto.
Qed.
Lemma guard_cov p m q truth rest e : guard K p m q truth rest = true -> p = true \/ ~ In x (about q) ->
  narrow e q truth x = e x.
Proof.
  unfold guard. intros G M. checks. apply narrow_other. intros A. destruct M as [->|M]; [|contradiction].
  rewrite forallb_forall in G. specialize (G x A). discriminate.
Qed.

Lemma track_step :
  (forall n p m d st, simple K p m n = true -> p = true \/ ~ In x (guards n) ->
     step p (mods n) (vars st) (obs (ro (track T p d n st))) (vars (rs (track T p d n st)))) /\
  (forall a p m d st, simple_a K p m a = true -> p = true ->
     step p (mods_a a) (vars st) (obs (snd (track_a T p d a st))) (vars (st_of (track_a T p d a st)))) /\
  (forall r p m d st, simple_v K p m r = true -> p = true \/ ~ In x (guards_v r) ->
     step p (mods_v r) (vars st) (obs (ro (look T p d r st))) (vars (rs (look T p d r st)))) /\
  (forall b ps ls s, b = BBlock ps ls s -> forall p m d st, simple_s K p m s = true -> p = true \/ ~ In x (guards_s s) ->
     step p (mods_s s) (vars st) (obs (ro (track_s T p d s st))) (vars (rs (track_s T p d s st)))) /\
  (forall s p m d st, simple_s K p m s = true -> p = true \/ ~ In x (guards_s s) ->
     step p (mods_s s) (vars st) (obs (ro (track_s T p d s st))) (vars (rs (track_s T p d s st)))) /\
  (forall e p m d st, simple_t K p m e = true -> p = true \/ ~ In x (guards_t e) ->
     step p (mods_t e) (vars st) (obs (ro (track_t T p d e st))) (vars (rs (track_t T p d e st)))) /\
  (forall w p d st, simple_w K p w = true -> p = true \/ ~ In x (guards_w w) ->
     let '(l, _, o) := track_w T p d w st in
     (forall a, In a l -> (~ In x (mods_w w) \/ (p = true /\ ~ In x (keys (obs o)))) -> cov (vars st x) (a_env a x)) /\
     (p = true -> covered (vars st) (obs o))) /\
  (forall r p d st, simple_r K p r = true -> p = true \/ ~ In x (guards_r r) ->
     let '(l, _, o) := track_r T p d r st in
     (forall a, In a l -> (~ In x (mods_r r) \/ (p = true /\ ~ In x (keys (obs o)))) -> cov (vars st x) (a_env a x)) /\
     (p = true -> covered (vars st) (obs o))).
Proof.
  apply tree_ind; try (intros; apply step_refl).
  - (* Read *) intros l y p m d st C G. cbn [track ro rs]. destruct (flow st); apply step_refl.
  - (* Write *) intros y v IH p m d st C G. cbn [simple guards mods] in *. checks.
    pose proof (IH p m d st ltac:(eassumption) G) as [A B]. clear IH. cbn [track ro rs at_ vars].
    set (r := track T p d v st) in *.
    destruct (N.eqb_spec x y) as [E|E].
    + subst y. split.
      * intros [D|[-> D]]; exfalso; apply D; [left; reflexivity|]. cbn [plus obs observed]. left. reflexivity.
      * intros -> J w V. cbn [plus obs observed]. destruct (vars st x) as [t|] eqn:F; cbn in V.
        -- exists t. split; [left; reflexivity|exact V].
        -- exists nil_class. split; [left; reflexivity|]. subst w. exact Hnil.
    + assert (KE : p = true -> (In x (keys (obs (plus (observed y (match vars st y with Some t => t | None => nil_class end)) (plus (ro r) (observed y (rt r)))))) <-> In x (keys (obs (ro r))))).
      { intros _. cbn [plus obs observed]. rewrite !keys_app, !in_app_iff. cbn. intuition congruence. }
      split.
      * intros D. unfold cov. rewrite set_other by exact E. apply A. destruct D as [D|[-> D]].
        -- left. intros J. apply D. right. exact J.
        -- right. split; [reflexivity|]. intros J. apply D. apply KE; auto.
      * intros -> J w V. apply KE in J; [|reflexivity]. destruct (B eq_refl J w V) as [t [F1 F2]]. exists t.
        split; [|exact F2]. cbn [plus obs observed]. rewrite !in_app_iff. auto.
  - (* Call *) intros safe r IHr f a IHa b IHb p m d st C G. rewrite track_call. cbn [simple guards mods] in *.
    destruct b as [|ps ls s]; checks.
    { eapply step_weaken; [apply plain_step; intros; eapply IHr; eassumption| |apply cov_refl].
      intros y. rewrite !in_app_iff. tauto. }
    destruct (bang f).
    { eapply step_weaken; [apply plain_step; intros; eapply IHr; eassumption| |apply cov_refl].
      intros y. rewrite !in_app_iff. tauto. }
    destruct (still_vars T) as (_&SA&SV&_).
    split.
    { intros _. assert (E : vars st = vars (rs (block_call T r f ps (jumps_s s) (look T p d r) (track_a T p d a) (track_s T p d s) st))).
      { apply (block_vars eq); [reflexivity|intros ? ? ? -> ->; reflexivity| |]; intros; symmetry; [apply SV|apply SA]; assumption. }
      rewrite <- E. apply cov_refl. }
    intros ->. apply block_covered; try (intros; first [apply SV|apply SA]; assumption).
    + intros st'. eapply (IHr true m d st'); [eassumption|left; reflexivity|reflexivity].
    + intros st'. eapply (IHa true m d st'); [eassumption|reflexivity|reflexivity].
    + intros st'. split.
      * intros _. eapply (IHb ps ls s eq_refl true false d st'); [eassumption|left; reflexivity|reflexivity].
      * intros I J. apply in_keys in J as [t J]. destruct (obs_assigned T ps x) as (_&_&_&_&O&_); [apply member_in; exact I|].
        apply O in J. congruence.
  - (* If *) intros u q IHq s IHs e IHe p m d st C G. cbn [simple guards mods] in *. apply andb_true_iff in C as [C GD]. checks.
    rewrite !in_app_iff in G.
    cbn [track rs ro at_ vars plus obs]. set (r := track T p d q (flowing st)). set (k := track_s T p d s (rs r)).
    set (z := track_t T p d e (at_ (vars (rs r)) (rs k))).
    eapply step_seq; [eapply (IHq p m d (flowing st)); [eassumption|tauto]|]. fold r.
    eapply step_par; [eapply (IHs p true d (rs r)); [eassumption|tauto]|eapply (IHe p true d (at_ (vars (rs r)) (rs k))); [eassumption|tauto]|].
    fold k. fold z. unfold join_if. cbn [a_gone arm_of a_env].
    destruct (leaves_s s), (leaves_t e); cbn [xorb] in G.
    + right. right. apply cov_refl.
    + right. left. unfold cov. erewrite guard_cov by (try eassumption; tauto). intros v V. exact V.
    + left. unfold cov. erewrite guard_cov by (try eassumption; tauto). intros v V. exact V.
    + left. apply merge_cov_l.
  - (* Case *) intros q IHq w IHw e IHe p m d st C G. cbn [simple guards mods] in *. checks. rewrite !in_app_iff in G. cbn [track].
    set (r := track T p d q (flowing st)).
    pose proof (IHw p d (rs r) ltac:(assumption) ltac:(tauto)) as W.
    destruct (track_w T p d w (rs r)) as [[l st1] o]. destruct W as [W1 W2]. cbn [rs ro at_ vars plus obs].
    eapply step_seq; [eapply (IHq p m d (flowing st)); [eassumption|tauto]|]. fold r.
    pose proof (IHe p true d (at_ (vars (rs r)) st1) ltac:(eassumption) ltac:(tauto)) as [E1 E2].
    split.
    + intros D. rewrite keys_app, !in_app_iff in D. apply join_cov. intros b J. apply in_app_or in J as [J|[<-|[]]].
      * apply W1; [exact J|tauto].
      * apply E1. tauto.
    + intros P. apply covered_app; [apply W2; exact P|apply E2; exact P].
  - (* Logic *) intros or a IHa b IHb p m d st C G. cbn [simple guards mods] in *. checks. rewrite !in_app_iff in G. cbn [track].
    pose proof (IHa p m d (flowing st) ltac:(eassumption) ltac:(tauto)) as A.
    set (r := track T p d a (flowing st)) in *.
    pose proof (IHb p true d (rs r) ltac:(eassumption) ltac:(tauto)) as B.
    destruct (truthiness (rt r)) as [c|]; [destruct (Bool.eqb c or)|]; cbn [rs ro also at_ vars plus obs tested]; rewrite app_nil_r.
    + eapply step_weaken; [exact A| |apply cov_refl]. intros y. rewrite in_app_iff. tauto.
    + eapply step_seq; [exact A|exact B].
    + eapply step_seq; [exact A|]. eapply step_weaken; [exact B|auto|]. apply merge_cov_r.
  - (* Begin *) intros b IHb r IHr e IHe n IHn p m d st C G. rewrite track_begin. cbv zeta. cbn [simple guards mods] in *. fold (protected r) in C. checks.
    rewrite !in_app_iff in G.
    assert (GB : (p || protected r)%bool = true \/ ~ In x (guards_s b)) by (destruct G as [G|G]; [left; rewrite G; reflexivity|right; tauto]).
    pose proof (IHb (p || protected r)%bool true d (flowing st) ltac:(eassumption) GB) as B.
    set (k := track_s T (p || protected r) d b (flowing st)) in *.
    assert (EL : step p (mods_t e) (vars (rs k)) (obs (ro (else_of T p d e k))) (vars (rs (else_of T p d e k)))).
    { unfold else_of. destruct e as [|s]; [apply step_refl|]. destruct s as [|n' s]; [apply step_refl|].
      eapply (IHe p true d (rs k)); [eassumption|tauto]. }
    set (z := else_of T p d e k) in *.
    pose proof (IHr p d (at_ (entry (vars (flowing st)) (obs (ro k))) (rs z)) ltac:(assumption) ltac:(tauto)) as R.
    assert (RN : r = RNil -> track_r T p d r (at_ (entry (vars (flowing st)) (obs (ro k))) (rs z)) = ([], at_ (entry (vars (flowing st)) (obs (ro k))) (rs z), nothing)) by (intros ->; reflexivity).
    destruct (track_r T p d r _) as [[l st1] o]. destruct R as [R1 R2]. cbn [at_ vars] in R1, R2.
    cbn [rs ro plus obs].
    set (l' := arm_of z (leaves_s b || leaves_t e) :: l).
    pose proof (IHn p m d (at_ (join_envs (vars (flowing st)) l') st1) ltac:(eassumption) ltac:(tauto)) as N1. cbn [at_ vars] in N1.
    set (y := track_t T p d n _) in *.
    replace (obs (ro k) ++ obs (ro z) ++ obs o ++ obs (ro y)) with ((obs (ro k) ++ obs (ro z) ++ obs o) ++ obs (ro y)) by (rewrite !app_assoc; reflexivity).
    replace (mods_s b ++ mods_r r ++ mods_t e ++ mods_t n) with ((mods_s b ++ mods_r r ++ mods_t e) ++ mods_t n) by (rewrite <- !app_assoc; reflexivity).
    eapply step_seq; [|exact N1].
    destruct B as [B1 B2]. destruct EL as [E1 E2]. cbn [flowing vars] in *.
    assert (EC : (protected r = true) -> cov (vars st x) (entry (vars st) (obs (ro k)) x)).
    { intros P. apply entry_cov. apply B2. rewrite P. apply orb_true_r. }
    split.
    + intros D. rewrite !keys_app, !in_app_iff in D. apply join_cov. intros c [<-|J]; cbn [arm_of a_env].
      * eapply cov_trans; [apply B1|apply E1]; [|tauto]. destruct D as [D|[-> D]]; [left; tauto|right; split; [reflexivity|tauto]].
      * eapply cov_trans; [apply EC|apply R1; [exact J|tauto]]. destruct r; [|reflexivity].
        specialize (RN eq_refl). injection RN as -> _ _. destruct J.
    + intros ->. cbn [orb] in *. intros J v V. rewrite !keys_app, !in_app_iff in J.
      destruct (in_dec N.eq_dec x (keys (obs (ro k)))) as [L|L].
      { destruct (B2 eq_refl L v V) as [t [F1 F2]]. exists t. rewrite !in_app_iff. auto. }
      destruct (in_dec N.eq_dec x (keys (obs (ro z)))) as [L2|L2].
      { destruct (E2 eq_refl L2 v) as [t [F1 F2]]; [apply B1; tauto|]. exists t. rewrite !in_app_iff. auto. }
      assert (L3 : In x (keys (obs o))) by tauto.
      destruct r as [|xx ss rr].
      { specialize (RN eq_refl). injection RN as _ _ ->. destruct L3. }
      destruct (R2 eq_refl L3 v) as [t [F1 F2]]; [apply EC; [reflexivity|exact V]|]. exists t. rewrite !in_app_iff. auto.
  - (* RescueMod *) intros a IHa b IHb p m d st C G. cbn [simple guards mods] in *. checks. rewrite !in_app_iff in G. cbn [track rs ro at_ vars plus obs].
    pose proof (IHa true true d (flowing st) ltac:(eassumption) ltac:(tauto)) as [A1 A2].
    set (k := track T true d a (flowing st)) in *.
    pose proof (IHb p true d (at_ (entry (vars (flowing st)) (obs (ro k))) (rs k)) ltac:(eassumption) ltac:(tauto)) as [B1 B2].
    set (z := track T p d b _) in *. cbn [at_ vars flowing] in *.
    assert (EC : cov (vars st x) (entry (vars st) (obs (ro k)) x)) by (apply entry_cov, A2; reflexivity).
    split.
    + intros D. rewrite keys_app, !in_app_iff in D. eapply cov_trans; [|apply merge_cov_l]. apply A1. tauto.
    + intros P J v V. rewrite keys_app, in_app_iff in J. destruct J as [J|J].
      * destruct (A2 eq_refl J v V) as [t [F1 F2]]. exists t. rewrite in_app_iff. auto.
      * destruct (B2 P J v) as [t [F1 F2]]; [apply EC; exact V|]. exists t. rewrite in_app_iff. auto.
  - (* While *) intros u c IHc s IHs p m d st C G. cbn [simple guards mods] in *. checks. rewrite !in_app_iff in G. cbn [track rs ro at_ vars plus obs passed].
    rewrite app_nil_r.
    pose proof (IHc p true d (flowing st) ltac:(eassumption) ltac:(tauto)) as A.
    eapply step_weaken with (m := mods c ++ mods_s s); [eapply step_seq; [exact A|]|auto|apply merge_cov_r].
    apply again_step. intros st'. eapply (IHs p true true st'); [eassumption|tauto].
  - (* Return *) intros v IH p m d st C G. cbn [simple guards mods] in *. destruct v as [|n]; [apply step_refl|].
    pose proof (IH p m d st C G) as A. cbn [track ro rs look plus obs returned] in *. rewrite app_nil_r. exact A.
  - intros s IH p m d st C G. apply (IH p m d st C G).
  - intros s IH p m d st C G. apply (IH p m d st C G).
  - (* args *) intros n IHn a IHa p m d st C G. cbn [simple_a mods_a] in *. checks. cbn [track_a].
    pose proof (IHa p m d (rs (track T p d n st)) C G) as A.
    destruct (track_a T p d a (rs (track T p d n st))) as [[ts st1] o]. cbn [st_of fst snd plus obs] in *.
    eapply step_seq; [eapply IHn; [eassumption|left; exact G]|exact A].
  - (* recv *) intros n IH p m d st C G. cbn [simple_v look guards_v mods_v] in *. destruct (direct n); [|apply step_refl].
    checks. eapply IH; eassumption.
  - (* blk *) intros ps ls s E. discriminate.
  - intros ps ls s IH ps' ls' s' E. injection E as _ _ E. subst s'. exact IH.
  - (* stmts *) intros n IHn s IHs p m d st C G. cbn [simple_s guards_s mods_s] in *. checks. rewrite in_app_iff in G.
    destruct s as [|n' s].
    { cbn [mods_s]. rewrite app_nil_r. eapply IHn; [eassumption|tauto]. }
    rewrite track_seq by discriminate. cbn [also rs ro plus obs].
    eapply step_seq; [eapply IHn; [eassumption|tauto]|eapply IHs; [eassumption|tauto]].
  - intros s IH p m d st C G. apply (IH p m d st C G).
  - intros p d st C G. cbn. split; [intros a []|intros _ []].
  - (* whens *) intros a _ s IHs w IHw p d st C G. cbn [simple_w guards_w mods_w] in *. checks. rewrite in_app_iff in G. cbn [track_w].
    pose proof (IHs p true d st ltac:(eassumption) ltac:(tauto)) as [A1 A2].
    pose proof (IHw p d (at_ (vars st) (rs (track_s T p d s st))) C ltac:(tauto)) as W.
    destruct (track_w T p d w _) as [[l st1] o]. destruct W as [W1 W2]. cbn [at_ vars plus obs] in *. split.
    + intros b J D. rewrite keys_app, !in_app_iff in D. destruct J as [<-|J]; [apply A1; tauto|]. apply W1; [exact J|tauto].
    + intros P. apply covered_app; auto.
  - intros p d st C G. cbn. split; [intros a []|intros _ []].
  - (* rescues *) intros y s IHs r IHr p d st C G. cbn [simple_r guards_r mods_r] in *. checks. rewrite in_app_iff in G. cbn [track_r].
    pose proof (IHs p true d st ltac:(eassumption) ltac:(tauto)) as [A1 A2].
    pose proof (IHr p d (at_ (vars st) (rs (track_s T p d s st))) C ltac:(tauto)) as W.
    destruct (track_r T p d r _) as [[l st1] o]. destruct W as [W1 W2]. cbn [at_ vars plus obs] in *. split.
    + intros b J D. rewrite keys_app, !in_app_iff in D. destruct J as [<-|J]; [apply A1; tauto|]. apply W1; [exact J|tauto].
    + intros P. apply covered_app; auto.
Qed.
End Cover.
