(** C72: renaming a local variable renames that variable and nothing else. *)
From Coq Require Import List Arith NArith Bool Lia.
From Verif Require Import Rename_Model Rename_Spec Rename_Proofs.
Import ListNotations.

Definition span_at (o : occurrence) : span := fst (fst o).
Definition variable_at (o : occurrence) : variable := snd (fst o).
Definition same_variable (v w : variable) : bool := (fst v =? fst w)%N && (snd v =? snd w).
Lemma same_iff v w : same_variable v w = true <-> v = w.
Proof.
  destruct v as [x k], w as [y l]. unfold same_variable. cbn. rewrite andb_true_iff, N.eqb_eq, Nat.eqb_eq. split; [intros [-> ->]; auto|].
  intros E. injection E as -> ->. auto.
Qed.

(** All occurrences of the variable [v], in order. *)
Definition places (v : variable) (p : source) : list span := map span_at (filter (fun o => same_variable (variable_at o) v) (occurrences p)).

Lemma unique_left {A B} (l : list (A * B)) : NoDup (map fst l) -> forall a b c, In (a, b) l -> In (a, c) l -> b = c.
Proof.
  induction l as [|[x y] l IH]; cbn; [easy|]. intros N a b c I J. inversion N as [|? ? N1 N2]; subst.
  destruct I as [I|I], J as [J|J]; try congruence; eauto.
  - injection I as -> ->. exfalso. apply N1. apply in_map_iff. exists (a, c). auto.
  - injection J as -> ->. exfalso. apply N1. apply in_map_iff. exists (a, b). auto.
Qed.
Lemma unique_right {A B} (l : list (A * B)) : NoDup (map snd l) -> forall a b c, In (a, c) l -> In (b, c) l -> a = b.
Proof.
  induction l as [|[x y] l IH]; cbn; [easy|]. intros N a b c I J. inversion N as [|? ? N1 N2]; subst.
  destruct I as [I|I], J as [J|J]; try congruence; eauto.
  - injection I as -> ->. exfalso. apply N1. apply in_map_iff. exists (b, c). auto.
  - injection J as -> ->. exfalso. apply N1. apply in_map_iff. exists (a, c). auto.
Qed.

Lemma seen_exact p c o : labelled p -> plain_heads (program p) -> cursor_on c o p -> seen o = true ->
  find_rename_targets c (program p) = map span_at (filter (fun o' => same_variable (variable_at o') (variable_at o)) (filter seen (occurrences p))).
Proof.
  intros LB PH (I & ON & U) SN. rewrite targets_events. pose proof (events_match p top [0] 1 ltac:(discriminate) eq_refl PH) as F.
  fold (program p) in F. fold (occurrences p) in F. cbn [map top label combine app] in F. set (evs := events [0] 1 (program p)) in *. set (occ := filter seen (occurrences p)) in *.
  set (pairs := (0, 0) :: assigned 1 p) in *.
  assert (NoDup (map fst pairs)) as N1 by (cbn; rewrite assigned_labels; exact LB).
  assert (NoDup (map snd pairs)) as N2 by (cbn; rewrite assigned_ids; change (NoDup (seq 0 (S (length (labels p))))); apply seq_NoDup).
  assert (In o occ) as IO by (apply filter_In; auto).
  assert (forall o', In o' occ -> on c (span_at o') -> o' = o) as U' by (intros o' J K; apply filter_In in J; apply U; tauto).
  assert (exists x i s, find (hit c) evs = Some (x, Some i, s) /\ x = fst (variable_at o) /\ In (snd (variable_at o), i) pairs) as (x & i & s & E & EX & EI).
  { clear I U. clearbody occ evs. induction F as [|o1 ev occ evs M F IH]; [easy|]. destruct o1 as [[s1 [x1 k1]] kd], ev as [[x2 id] s2].
    pose proof M as (-> & -> & i & -> & J). cbn [find hit]. destruct ((fst s2 <=? c) && (c <? snd s2)) eqn:H.
    - exists x2, i, s2. split; auto. apply andb_true_iff in H. destruct H as [H1 H2]. apply Nat.leb_le in H1. apply Nat.ltb_lt in H2.
      assert ((s2, (x2, k1), kd) = o) as <- by (apply U'; [left; auto|split; auto]). auto.
    - destruct IO as [<-|IO].
      + exfalso. destruct ON as [H1 H2]. cbn in H1, H2. apply Nat.leb_le in H1. apply Nat.ltb_lt in H2. rewrite H1, H2 in H. discriminate.
      + apply IH; auto. intros o' K. apply U'. right. auto. }
  rewrite E. subst x. clear E ON U U' I IO. clearbody occ evs. induction F as [|o1 ev occ evs M F IH]; auto.
  destruct o1 as [[s1 [x1 k1]] kd], ev as [[x2 id] s2]. destruct M as (-> & -> & j & -> & J). cbn [filter chosen]. unfold same_variable at 1. cbn [variable_at fst snd].
  assert ((j =? i) = (k1 =? snd (variable_at o))) as ->.
  { apply eq_true_iff_eq. rewrite !Nat.eqb_eq. split; intros ->; [eapply (unique_right pairs); eauto|eapply (unique_left pairs); eauto]. }
  destruct (_ && _); cbn [map]; rewrite IH; reflexivity.
Qed.

(** The edits are exactly the occurrences of the variable under the cursor, each once, in order.  Partial:
    variables used in the head of a class or definition, keyword parameters and block locals are missed, as
    refuted below. *)
Theorem C72_exact_partial : forall p c o, labelled p -> plain_heads (program p) -> cursor_on c o p ->
  (forall o', In o' (occurrences p) -> variable_at o' = variable_at o -> snd o' = Ordinary \/ snd o' = Shorthand) ->
  find_rename_targets c (program p) = places (variable_at o) p.
Proof.
  intros p c o LB PH CO K. assert (seen o = true) as SN by (destruct CO as (I & _); unfold seen; destruct (K o I eq_refl) as [-> | ->]; auto).
  rewrite (seen_exact p c o); auto. unfold places. f_equal. clear CO SN. induction (occurrences p) as [|a l IH]; auto. cbn [filter].
  destruct (seen a) eqn:S; cbn [filter]; rewrite IH by (intros; apply K; auto; right; auto); auto.
  destruct (same_variable (variable_at a) (variable_at o)) eqn:E; auto. exfalso. apply same_iff in E. unfold seen in S.
  destruct (K a (or_introl eq_refl) E) as [Q|Q]; rewrite Q in S; discriminate.
Qed.

(** With the cursor elsewhere nothing is renamed. *)
Theorem C72_nothing : forall p c, plain_heads (program p) -> (forall o, In o (occurrences p) -> ~ on c (span_at o)) -> find_rename_targets c (program p) = [].
Proof.
  intros p c PH NO. rewrite targets_events. pose proof (events_match p top [0] 1 ltac:(discriminate) eq_refl PH) as F. fold (program p) in F. fold (occurrences p) in F.
  assert (find (hit c) (events [0] 1 (program p)) = None) as ->; auto.
  assert (forall o, In o (filter seen (occurrences p)) -> ~ on c (span_at o)) as NO' by (intros o I; apply filter_In in I; apply NO; tauto).
  clear NO. induction F as [|o1 ev occ evs M F IH]; auto. destruct o1 as [[s1 [x1 k1]] kd], ev as [[x2 id] s2]. destruct M as (-> & -> & j & -> & J).
  cbn [find hit]. destruct ((fst s2 <=? c) && (c <? snd s2)) eqn:H; [|apply IH; intros o K; apply NO'; right; auto].
  exfalso. apply (NO' _ (or_introl eq_refl)). apply andb_true_iff in H. destruct H as [H1 H2]. apply Nat.leb_le in H1. apply Nat.ltb_lt in H2. split; auto.
Qed.

(** ** Binding *)
Lemma nodup_left {A} (a b : list A) : NoDup (a ++ b) -> NoDup a.
Proof. induction a as [|z a IH]; cbn; intros N; constructor; inversion N; subst; auto. rewrite in_app_iff in *. tauto. Qed.
Lemma nodup_right {A} (a b : list A) : NoDup (a ++ b) -> NoDup b.
Proof. induction a as [|z a IH]; cbn; intros N; auto. inversion N; auto. Qed.

Section Alpha.
Variable v : variable.
Variable y : ident.
Let x := fst v.
Let l := snd v.
Definition in_scope' (s : scope) : scope :=
  InScope (hard s) (label s) (if label s =? l then map (fun z => if (z =? x)%N then y else z) (names s) else names s).
Definition renv (e : scopes) : scopes := map in_scope' e.
Definition fresh (e : scopes) : Prop := Forall (fun s => ~ In y (names s)) e.
Definition retarget (w : variable) : variable := if same_variable w v then (y, snd w) else w.
Definition renamed (o : occurrence) : occurrence := (span_at o, retarget (variable_at o), snd o).
Definition name_for (w : variable) : ident := fst (retarget w).

Lemma declared_iff z s : declared z s = true <-> In z (names s).
Proof. unfold declared. rewrite existsb_exists. split; [intros (w & I & E); apply N.eqb_eq in E; now subst|]. intros I. exists z. split; auto. apply N.eqb_refl. Qed.

Lemma declared_old z s : z <> y -> (z, label s) <> v -> declared z (in_scope' s) = declared z s.
Proof.
  intros Z NV. apply eq_true_iff_eq. rewrite !declared_iff. unfold in_scope'. cbn. destruct (Nat.eqb_spec (label s) l) as [L|L]; [|tauto].
  rewrite in_map_iff. split.
  - intros (w & E & I). revert E. destruct (N.eqb_spec w x); intros E; subst; auto; try contradiction; congruence.
  - intros I. exists z. split; auto. destruct (N.eqb_spec z x); auto. exfalso. apply NV. destruct v as [x0 l0]. unfold x, l in *. cbn in *. congruence.
Qed.
Lemma declared_new s : ~ In y (names s) -> label s = l -> declared y (in_scope' s) = declared x s.
Proof.
  intros F L. apply eq_true_iff_eq. rewrite !declared_iff. unfold in_scope'. cbn. rewrite L, Nat.eqb_refl, in_map_iff. split.
  - intros (w & E & I). revert E. destruct (N.eqb_spec w x); intros E; subst; auto; try contradiction; congruence.
  - intros I. exists x. now rewrite N.eqb_refl.
Qed.
Lemma declared_other s : ~ In y (names s) -> label s <> l -> declared y (in_scope' s) = false.
Proof.
  intros F L. apply not_true_is_false. rewrite declared_iff. unfold in_scope'. cbn. destruct (Nat.eqb_spec (label s) l); auto.
Qed.

Lemma visible_name z e : z <> y -> fresh e ->
  match visible z e with
  | Some (d, t) => visible (name_for (z, label t)) (renv e) = Some (d, in_scope' t)
  | None => visible z (renv e) = None /\ visible (if (z =? x)%N then y else z) (renv e) = None
  end.
Proof.
  intros Z. induction e as [|s e IH]; intros F; [cbn; auto|]. inversion F as [|? ? F1 F2]; subst. specialize (IH F2). cbn [visible renv map]. fold (renv e).
  destruct (declared z s) eqn:D.
  - unfold name_for, retarget. destruct (same_variable (z, label s) v) eqn:SV.
    + cbn [fst]. apply same_iff in SV. rewrite declared_new; [|auto|unfold l; now rewrite <- SV]. assert (x = z) as -> by (unfold x; now rewrite <- SV). now rewrite D.
    + cbn [fst]. rewrite declared_old, D; auto. intros E. apply same_iff in E. congruence.
  - assert (declared z (in_scope' s) = false) as DZ.
    { destruct (same_variable (z, label s) v) eqn:SV; [|rewrite declared_old; auto; intros E; apply same_iff in E; congruence].
      apply same_iff in SV. apply not_true_is_false. rewrite declared_iff. unfold in_scope'. cbn. destruct (_ =? _).
      - rewrite in_map_iff. intros (w & E & I). revert E. destruct (N.eqb_spec w x) as [|n]; [congruence|]. intros ->. apply n. unfold x. now rewrite <- SV.
      - rewrite <- declared_iff. congruence. }
    assert (z = x -> declared y (in_scope' s) = false) as DY.
    { intros ZX. destruct (Nat.eq_dec (label s) l); [rewrite declared_new by auto; now subst z|now apply declared_other]. }
    change (hard (in_scope' s)) with (hard s). destruct (hard s).
    + split; [now rewrite DZ|]. destruct (N.eqb_spec z x); [now rewrite DY|now rewrite DZ].
    + destruct (visible z e) as [[d t]|].
      * assert (declared (name_for (z, label t)) (in_scope' s) = false) as ->.
        { unfold name_for, retarget. destruct (same_variable (z, label t) v) eqn:SV; auto. cbn. apply DY. apply same_iff in SV. unfold x. now rewrite <- SV. }
        now rewrite IH.
      * destruct IH as [I1 I2]. split; [now rewrite DZ, I1|]. destruct (N.eqb_spec z x); [now rewrite DY, I2|now rewrite DZ, I2].
Qed.

Lemma declare_name z s e : z <> y -> renv (declare z (s :: e)) = declare (name_for (z, label s)) (renv (s :: e)).
Proof.
  intros Z. cbn. f_equal. unfold in_scope'. cbn. f_equal. unfold name_for, retarget, same_variable. cbn. fold l x.
  destruct (Nat.eqb_spec (label s) l); cbn; [|now rewrite andb_false_r]. rewrite andb_true_r. destruct (N.eqb_spec z x); auto.
Qed.
Lemma fresh_declare z e : z <> y -> fresh e -> fresh (declare z e).
Proof. intros Z F. destruct F as [|s e F1 F2]; constructor; auto. cbn. intros [E|I]; auto. Qed.
Lemma fresh_assign z e : z <> y -> fresh e -> fresh (assign z e).
Proof. intros Z F. unfold assign. destruct (visible z e); auto. now apply fresh_declare. Qed.

(** The variable a name denotes where it is assigned or declared. *)
Lemma assign_name z e d t : z <> y -> fresh e -> e <> [] -> visible z (assign z e) = Some (d, t) -> renv (assign z e) = assign (name_for (z, label t)) (renv e).
Proof.
  intros Z F NE V. pose proof (visible_name z e Z F) as VN. unfold assign in V |- * at 1. destruct (visible z e) as [[d' t']|] eqn:Q.
  - rewrite Q in V. injection V as -> ->. unfold assign. now rewrite VN.
  - destruct e as [|s e]; [easy|]. destruct (visible_declare z s e) as (t0 & V0 & L0). rewrite V in V0. injection V0 as -> ->. rewrite L0.
    rewrite declare_name by auto. unfold assign. destruct VN as [N1 N2].
    assert (visible (name_for (z, label s)) (renv (s :: e)) = None) as ->; auto.
    unfold name_for, retarget. destruct (same_variable (z, label s) v) eqn:SV; auto. cbn [fst]. apply same_iff in SV.
    assert ((z =? x)%N = true) as ZX by (apply N.eqb_eq; unfold x; now rewrite <- SV). now rewrite ZX in N2.
Qed.

Lemma here_name k z s e : z <> y -> fresh e -> forall n, match visible z e with Some (_, t) => n = name_for (z, label t) | None => n = z end ->
  here k n s (renv e) = map renamed (here k z s e).
Proof.
  intros Z F n N. pose proof (visible_name z e Z F) as V. unfold here. destruct (visible z e) as [[d t]|]; subst n.
  - rewrite V. cbn. unfold renamed, name_for, retarget. cbn. destruct (same_variable (z, label t) v); reflexivity.
  - now rewrite (proj1 V).
Qed.

Variable places' : list span.
Lemma put_iff z s : put places' y z s = if existsb (fun t => (fst t =? fst s) && (snd t =? snd s)) places' then y else z.
Proof. reflexivity. Qed.
Lemma listed_span s : existsb (fun t => (fst t =? fst s) && (snd t =? snd s)) places' = true <-> In s places'.
Proof.
  rewrite existsb_exists. split.
  - intros ([a b] & I & E). cbn in E. apply andb_true_iff in E. rewrite !Nat.eqb_eq in E. destruct s. cbn in E. destruct E. now subst.
  - intros I. exists s. rewrite !Nat.eqb_refl. auto.
Qed.

Lemma resolve_spans p : forall e o, In o (fst (resolve p e)) -> In (span_at o) (map snd (written p)).
Proof.
  assert (forall k z s e o, In o (here k z s e) -> span_at o = s) as H.
  { intros k z s e o. unfold here. destruct (visible z e) as [[d t]|]; [|easy]. intros [<-|[]]. reflexivity. }
  induction p; intros e o; cbn [resolve written map snd]; try (intros I; left; symmetry; exact (H _ _ _ _ _ I)); try easy.
  - specialize (IHp1 e o). destruct (resolve p1 e) as [l1 e1]. specialize (IHp2 e1 o). destruct (resolve p2 e1) as [l2 e2]. cbn in *.
    rewrite map_app, !in_app_iff. intros [I|I]; auto.
  - specialize (IHp (assign x0 e) o). destruct (resolve p (assign x0 e)) as [l1 e1]. cbn in *. rewrite in_app_iff. intros [I|I]; auto. left. symmetry. exact (H _ _ _ _ _ I).
  - specialize (IHp (declare x0 e) o). destruct (resolve p (declare x0 e)) as [l1 e1]. cbn in *. rewrite in_app_iff. intros [I|I]; auto. left. symmetry. exact (H _ _ _ _ _ I).
  - specialize (IHp (declare x0 e) o). destruct (resolve p (declare x0 e)) as [l1 e1]. cbn in *. rewrite in_app_iff. intros [I|I]; auto. left. symmetry. exact (H _ _ _ _ _ I).
  - specialize (IHp1 e o). destruct (resolve p1 e) as [l1 e1]. specialize (IHp2 (InScope hard label [] :: e1) o). destruct (resolve p2 _) as [l2 e2]. cbn in *.
    rewrite map_app, !in_app_iff. intros [I|I]; auto.
Qed.

Definition chosen_places (p : source) (occ : list occurrence) : Prop :=
  forall s, In s (map snd (written p)) -> (In s places' <-> exists o, In o occ /\ span_at o = s /\ variable_at o = v).

Lemma put_here k z s e others : (forall o, In o others -> span_at o <> s) ->
  (In s places' <-> exists o, In o (here k z s e ++ others) /\ span_at o = s /\ variable_at o = v) ->
  put places' y z s = match visible z e with Some (_, t) => name_for (z, label t) | None => z end.
Proof.
  intros D C. assert (In s places' <-> exists o, In o (here k z s e) /\ variable_at o = v) as C'.
  { rewrite C. split.
    - intros (o & I & A & B). apply in_app_or in I. destruct I as [I|I]; [eauto|]. exfalso. eapply D; eauto.
    - intros (o & I & B). exists o. split; [apply in_or_app; auto|]. split; auto. unfold here in I. destruct (visible z e) as [[d t]|]; [|easy].
      destruct I as [<-|[]]. reflexivity. }
  clear C. unfold here in C'. unfold put. destruct (visible z e) as [[d t]|].
  - unfold name_for, retarget. destruct (same_variable (z, label t) v) eqn:SV.
    + apply same_iff in SV. rewrite (proj2 (listed_span s)); auto. apply C'. eexists. split; [left; reflexivity|]. exact SV.
    + destruct (existsb _ _) eqn:X; auto. apply listed_span in X. apply C' in X. destruct X as (o & [<-|[]] & V). cbn in V. apply same_iff in V. congruence.
  - destruct (existsb _ _) eqn:X; auto. apply listed_span in X. apply C' in X. destruct X as (o & [] & V).
Qed.

Lemma split_places a b la lb : NoDup (map snd (written a ++ written b)) ->
  (forall o, In o la -> In (span_at o) (map snd (written a))) -> (forall o, In o lb -> In (span_at o) (map snd (written b))) ->
  (forall s, In s (map snd (written a ++ written b)) -> (In s places' <-> exists o, In o (la ++ lb) /\ span_at o = s /\ variable_at o = v)) ->
  chosen_places a la /\ chosen_places b lb.
Proof.
  intros N A B C. rewrite map_app in N. assert (forall s, In s (map snd (written a)) -> In s (map snd (written b)) -> False) as DJ.
  { intros s I J. apply in_split in I. destruct I as (u & w & E). rewrite E, <- app_assoc in N. apply NoDup_remove_2 in N. apply N. rewrite !in_app_iff. auto. }
  split; intros s I; rewrite C by (rewrite map_app, in_app_iff; auto); split.
  - intros (o & J & K & L). apply in_app_or in J. destruct J as [J|J]; [eauto|]. exfalso. apply (DJ s); auto. rewrite <- K. auto.
  - intros (o & J & K & L). exists o. rewrite in_app_iff. auto.
  - intros (o & J & K & L). apply in_app_or in J. destruct J as [J|J]; [|eauto]. exfalso. apply (DJ s); auto. rewrite <- K. auto.
  - intros (o & J & K & L). exists o. rewrite in_app_iff. auto.
Qed.

Lemma tail_places z s a lh la : NoDup (s :: map snd (written a)) -> (forall o, In o la -> In (span_at o) (map snd (written a))) ->
  (forall o, In o lh -> span_at o = s) ->
  (forall r, In r (map snd ((z, s) :: written a)) -> (In r places' <-> exists o, In o (lh ++ la) /\ span_at o = r /\ variable_at o = v)) ->
  chosen_places a la /\ (forall o, In o la -> span_at o <> s).
Proof.
  intros N A H C. inversion N as [|? ? N1 N2]; subst. split.
  - intros r I. rewrite C by (right; auto). split.
    + intros (o & J & K & L). apply in_app_or in J. destruct J as [J|J]; [|eauto]. exfalso. apply N1. rewrite <- (H _ J), K. exact I.
    + intros (o & J & K & L). exists o. rewrite in_app_iff. auto.
  - intros o I E. apply N1. rewrite <- E. auto.
Qed.

Lemma here_span k z s e o : In o (here k z s e) -> span_at o = s.
Proof. unfold here. destruct (visible z e) as [[d t]|]; [|easy]. intros [<-|[]]. reflexivity. Qed.

Lemma alpha p : forall e, e <> [] -> NoDup (map snd (written p)) -> (forall z s, In (z, s) (written p) -> z <> y) -> fresh e ->
  chosen_places p (fst (resolve p e)) ->
  resolve (rewritten places' y p) (renv e) = (map renamed (fst (resolve p e)), renv (snd (resolve p e))) /\ fresh (snd (resolve p e)).
Proof.
  induction p; intros e NE ND NY F C; cbn [resolve rewritten].
  - cbn. auto.
  - pose proof (resolve_spans p1 e) as S1. pose proof (resolve_labels p1 e) as RL. specialize (IHp1 e NE). cbn [written resolve] in *. destruct (resolve p1 e) as [l1 e1]. cbn [fst snd] in *.
    pose proof (resolve_spans p2 e1) as S2. specialize (IHp2 e1). destruct (resolve p2 e1) as [l2 e2]. cbn [fst snd] in *.
    destruct (split_places p1 p2 l1 l2 ND S1 S2 C) as [C1 C2]. rewrite map_app in ND.
    destruct IHp1 as [I1 F1]; auto; [exact (nodup_left _ _ ND)|intros; eapply NY; apply in_or_app; eauto|].
    destruct IHp2 as [I2 F2]; auto; [intros ->; destruct e; [easy|discriminate]|exact (nodup_right _ _ ND)|intros; eapply NY; apply in_or_app; eauto|].
    rewrite I1, I2, map_app. auto.
  - assert (x0 <> y) as Z by (eapply NY; left; eauto). split; auto. cbn. f_equal. apply here_name; auto.
    rewrite (put_here Ordinary x0 at_ e []); [destruct (visible x0 e) as [[d t]|]; auto|easy|]. rewrite app_nil_r. apply C. left. auto.
  - assert (x0 <> y) as Z by (eapply NY; left; eauto). split; auto. cbn. f_equal. apply here_name; auto.
    rewrite (put_here Shorthand x0 at_ e []); [destruct (visible x0 e) as [[d t]|]; auto|easy|]. rewrite app_nil_r. apply C. left. auto.
  - assert (x0 <> y) as Z by (eapply NY; left; eauto). destruct (visible_assign x0 e NE) as (d & t & V).
    pose proof (resolve_spans p (assign x0 e)) as S1. specialize (IHp (assign x0 e) (assign_nonempty x0 e NE)). cbn [written resolve map snd] in *.
    destruct (resolve p (assign x0 e)) as [l1 e1]. cbn [fst snd] in *.
    destruct (tail_places x0 at_ p (here Ordinary x0 at_ (assign x0 e)) l1 ND S1 (here_span _ _ _ _) C) as [C1 D1].
    assert (put places' y x0 at_ = name_for (x0, label t)) as P.
    { rewrite (put_here Ordinary x0 at_ (assign x0 e) l1); auto; [now rewrite V|]. apply C. left. auto. }
    inversion ND; subst. destruct IHp as [I1 F1]; auto; [intros; eapply NY; right; eauto|now apply fresh_assign|].
    rewrite P, <- (assign_name x0 e d t), I1 by auto. split; auto. cbn [fst snd]. rewrite map_app. f_equal. f_equal. apply here_name; auto; [now apply fresh_assign|now rewrite V].
  - assert (x0 <> y) as Z by (eapply NY; left; eauto). destruct (visible_assign x0 e NE) as (d & t & V).
    assert (put places' y x0 at_ = name_for (x0, label t)) as P.
    { rewrite (put_here Ordinary x0 at_ (assign x0 e) []); [now rewrite V|easy|]. rewrite app_nil_r. apply C. left. auto. }
    rewrite P, <- (assign_name x0 e d t) by auto. cbn [fst snd]. split; [|now apply fresh_assign]. f_equal. apply here_name; auto; [now apply fresh_assign|now rewrite V].
  - assert (x0 <> y) as Z by (eapply NY; left; eauto). destruct e as [|s0 e]; [easy|]. destruct (visible_declare x0 s0 e) as (t & V & L).
    assert (put places' y x0 at_ = name_for (x0, label s0)) as P.
    { rewrite (put_here Ordinary x0 at_ (declare x0 (s0 :: e)) []); [now rewrite V, L|easy|]. rewrite app_nil_r. apply C. left. auto. }
    rewrite P, <- declare_name by auto. cbn [fst snd]. split; [|now apply fresh_declare]. f_equal. apply here_name; auto; [now apply fresh_declare|now rewrite V, L].
  - assert (x0 <> y) as Z by (eapply NY; left; eauto). destruct e as [|s0 e]; [easy|]. destruct (visible_declare x0 s0 e) as (t & V & L).
    pose proof (resolve_spans p (declare x0 (s0 :: e))) as S1. assert (declare x0 (s0 :: e) <> []) as NE1 by (cbn; discriminate). specialize (IHp (declare x0 (s0 :: e)) NE1).
    cbn [written resolve map snd] in *. destruct (resolve p (declare x0 (s0 :: e))) as [l1 e1]. cbn [fst snd] in *.
    destruct (tail_places x0 at_ p (here Ordinary x0 at_ (declare x0 (s0 :: e))) l1 ND S1 (here_span _ _ _ _) C) as [C1 D1].
    assert (put places' y x0 at_ = name_for (x0, label s0)) as P.
    { rewrite (put_here Ordinary x0 at_ (declare x0 (s0 :: e)) l1); auto; [now rewrite V, L|]. apply C. left. auto. }
    inversion ND; subst. destruct IHp as [I1 F1]; auto; [intros; eapply NY; right; eauto|now apply fresh_declare|].
    rewrite P, <- declare_name, I1 by auto. split; auto. cbn [fst snd]. rewrite map_app. f_equal. f_equal. apply here_name; auto; [now apply fresh_declare|now rewrite V, L].
  - assert (x0 <> y) as Z by (eapply NY; left; eauto). destruct e as [|s0 e]; [easy|]. destruct (visible_declare x0 s0 e) as (t & V & L).
    assert (put places' y x0 at_ = name_for (x0, label s0)) as P.
    { rewrite (put_here Keyword x0 at_ (declare x0 (s0 :: e)) []); [now rewrite V, L|easy|]. rewrite app_nil_r. apply C. left. auto. }
    rewrite P, <- declare_name by auto. cbn [fst snd]. split; [|now apply fresh_declare]. f_equal. apply here_name; auto; [now apply fresh_declare|now rewrite V, L].
  - assert (x0 <> y) as Z by (eapply NY; left; eauto). destruct e as [|s0 e]; [easy|]. destruct (visible_declare x0 s0 e) as (t & V & L).
    pose proof (resolve_spans p (declare x0 (s0 :: e))) as S1. assert (declare x0 (s0 :: e) <> []) as NE1 by (cbn; discriminate). specialize (IHp (declare x0 (s0 :: e)) NE1).
    cbn [written resolve map snd] in *. destruct (resolve p (declare x0 (s0 :: e))) as [l1 e1]. cbn [fst snd] in *.
    destruct (tail_places x0 at_ p (here Keyword x0 at_ (declare x0 (s0 :: e))) l1 ND S1 (here_span _ _ _ _) C) as [C1 D1].
    assert (put places' y x0 at_ = name_for (x0, label s0)) as P.
    { rewrite (put_here Keyword x0 at_ (declare x0 (s0 :: e)) l1); auto; [now rewrite V, L|]. apply C. left. auto. }
    inversion ND; subst. destruct IHp as [I1 F1]; auto; [intros; eapply NY; right; eauto|now apply fresh_declare|].
    rewrite P, <- declare_name, I1 by auto. split; auto. cbn [fst snd]. rewrite map_app. f_equal. f_equal. apply here_name; auto; [now apply fresh_declare|now rewrite V, L].
  - assert (x0 <> y) as Z by (eapply NY; left; eauto). destruct e as [|s0 e]; [easy|]. destruct (visible_declare x0 s0 e) as (t & V & L).
    assert (put places' y x0 at_ = name_for (x0, label s0)) as P.
    { rewrite (put_here Local x0 at_ (declare x0 (s0 :: e)) []); [now rewrite V, L|easy|]. rewrite app_nil_r. apply C. left. auto. }
    rewrite P, <- declare_name by auto. cbn [fst snd]. split; [|now apply fresh_declare]. f_equal. apply here_name; auto; [now apply fresh_declare|now rewrite V, L].
  - pose proof (resolve_spans p1 e) as S1. pose proof (resolve_labels p1 e) as RL. specialize (IHp1 e NE). cbn [written resolve] in *. destruct (resolve p1 e) as [l1 e1]. cbn [fst snd] in *.
    pose proof (resolve_spans p2 (InScope hard label [] :: e1)) as S2. specialize (IHp2 (InScope hard label [] :: e1)). destruct (resolve p2 (InScope hard label [] :: e1)) as [l2 e2]. cbn [fst snd] in *.
    destruct (split_places p1 p2 l1 l2 ND S1 S2 C) as [C1 C2]. rewrite map_app in ND.
    destruct IHp1 as [I1 F1]; auto; [exact (nodup_left _ _ ND)|intros; eapply NY; apply in_or_app; eauto|].
    destruct IHp2 as [I2 F2]; auto; [discriminate|exact (nodup_right _ _ ND)|intros; eapply NY; apply in_or_app; eauto|constructor; auto|].
    rewrite I1. assert (InScope hard label [] :: renv e1 = renv (InScope hard label [] :: e1)) as -> by (cbn; unfold in_scope'; cbn; destruct (_ =? _); reflexivity).
    rewrite I2, map_app. split; [|destruct F2; auto; constructor]. cbn [fst snd]. f_equal. destruct e2; reflexivity.
Qed.
End Alpha.

Fixpoint keyed (p : source) : list (ident * span) :=
  match p with
  | SSeq a b | SScope _ _ a b => keyed a ++ keyed b
  | SImplicit x s | SKeyParam x s => [(x, s)]
  | SAssign _ _ v | SOptParam _ _ v => keyed v
  | SOptKeyParam x s v => (x, s) :: keyed v
  | _ => []
  end.
Lemma keys_keyed l y p : keys (rewritten l y p) = map (fun q => put l y (fst q) (snd q)) (keyed p).
Proof. induction p; cbn; auto; rewrite ?map_app; congruence. Qed.
Lemma keys_plain p : keys p = map fst (keyed p).
Proof. induction p; cbn; auto; rewrite ?map_app; congruence. Qed.
Lemma keyed_written p q : In q (keyed p) -> In (snd q) (map snd (written p)).
Proof.
  induction p; cbn; try easy; rewrite ?map_app, ?in_app_iff; try tauto.
  all: intros [<-|I]; auto; contradiction.
Qed.
Lemma disjoint {A} (a b : list A) z : NoDup (a ++ b) -> In z a -> In z b -> False.
Proof. intros N I J. apply in_split in I. destruct I as (u & w & ->). rewrite <- app_assoc in N. apply NoDup_remove_2 in N. apply N. rewrite !in_app_iff. auto. Qed.
Lemma here_kind k x s e o : In o (here k x s e) -> snd o = k.
Proof. unfold here. destruct (visible x e) as [[d t]|]; [|easy]. intros [<-|[]]. reflexivity. Qed.

Lemma keyed_kind p : forall e, NoDup (map snd (written p)) -> forall q o, In q (keyed p) -> In o (fst (resolve p e)) -> span_at o = snd q -> snd o <> Ordinary.
Proof.
  induction p; intros e ND q o K I E; cbn [keyed resolve written map snd fst] in *; try contradiction.
  - pose proof (resolve_spans p1 e o) as S1. specialize (IHp1 e). destruct (resolve p1 e) as [l1 e1]. pose proof (resolve_spans p2 e1 o) as S2. specialize (IHp2 e1). destruct (resolve p2 e1) as [l2 e2].
    cbn [fst] in *. rewrite map_app in ND. apply in_app_or in K. apply in_app_or in I. destruct K as [K|K], I as [I|I].
    + eapply IHp1; eauto. exact (nodup_left _ _ ND).
    + exfalso. eapply disjoint; [exact ND|apply keyed_written; exact K|]. rewrite <- E. auto.
    + exfalso. eapply disjoint; [exact ND| |apply keyed_written; exact K]. rewrite <- E. auto.
    + eapply IHp2; eauto. exact (nodup_right _ _ ND).
  - apply here_kind in I. congruence.
  - inversion ND as [|? ? N1 N2]; subst. specialize (IHp (assign x e)). destruct (resolve p (assign x e)) as [l1 e1]. cbn [fst] in *. apply in_app_or in I. destruct I as [I|I]; [|eauto].
    exfalso. apply N1. apply here_span in I. rewrite <- I, E. now apply keyed_written.
  - inversion ND as [|? ? N1 N2]; subst. specialize (IHp (declare x e)). destruct (resolve p (declare x e)) as [l1 e1]. cbn [fst] in *. apply in_app_or in I. destruct I as [I|I]; [|eauto].
    exfalso. apply N1. apply here_span in I. rewrite <- I, E. now apply keyed_written.
  - apply here_kind in I. congruence.
  - inversion ND as [|? ? N1 N2]; subst. pose proof (resolve_spans p (declare x e) o) as S1. specialize (IHp (declare x e)). destruct (resolve p (declare x e)) as [l1 e1]. cbn [fst] in *.
    apply in_app_or in I. destruct I as [I|I]; [apply here_kind in I; congruence|]. destruct K as [<-|K]; [|eauto].
    exfalso. apply N1. cbn in E. rewrite <- E. auto.
  - pose proof (resolve_spans p1 e o) as S1. specialize (IHp1 e). destruct (resolve p1 e) as [l1 e1]. pose proof (resolve_spans p2 (InScope hard label [] :: e1) o) as S2.
    specialize (IHp2 (InScope hard label [] :: e1)). destruct (resolve p2 _) as [l2 e2].
    cbn [fst] in *. rewrite map_app in ND. apply in_app_or in K. apply in_app_or in I. destruct K as [K|K], I as [I|I].
    + eapply IHp1; eauto. exact (nodup_left _ _ ND).
    + exfalso. eapply disjoint; [exact ND|apply keyed_written; exact K|]. rewrite <- E. auto.
    + exfalso. eapply disjoint; [exact ND| |apply keyed_written; exact K]. rewrite <- E. auto.
    + eapply IHp2; eauto. exact (nodup_right _ _ ND).
Qed.

(** Renaming to a name the program does not use keeps every name bound to the same variable: afterwards the
    same places are occurrences of the same variables, except that this one has its new name.  Partial: the
    new name is not checked, so it may be in use; see [C72_capture_refuted]. *)
Theorem C72_meaning_partial : forall p c o y, labelled p -> plain_heads (program p) -> cursor_on c o p ->
  (forall o', In o' (occurrences p) -> variable_at o' = variable_at o -> snd o' = Ordinary \/ snd o' = Shorthand) ->
  NoDup (map snd (written p)) -> ~ In y (map fst (written p)) ->
  occurrences (rewritten (find_rename_targets c (program p)) y p) = map (renamed (variable_at o) y) (occurrences p).
Proof.
  intros p c o y LB PH CO K ND NY. rewrite (C72_exact_partial p c o); auto.
  assert (chosen_places (variable_at o) (places (variable_at o) p) p (fst (resolve p top))) as CP.
  { intros s I. unfold places. rewrite in_map_iff. split.
    - intros (o' & E & J). apply filter_In in J. destruct J as [J V]. apply same_iff in V. eauto.
    - intros (o' & J & E & V). exists o'. split; auto. apply filter_In. split; auto. now apply same_iff. }
  destruct (alpha (variable_at o) y (places (variable_at o) p) p top) as [A _]; auto.
  - discriminate.
  - intros z s I ->. apply NY. apply in_map_iff. exists (y, s). auto.
  - constructor; auto.
  - assert (renv (variable_at o) y top = top) as T by (cbn; unfold in_scope'; cbn; destruct (snd (variable_at o)); reflexivity).
    unfold occurrences at 1. rewrite T in A. now rewrite A.
Qed.

(** A variable that is never used in a [{x:}] leaves the keys of hashes and the keywords of methods alone. *)
Theorem C72_keys_partial : forall p c o y, labelled p -> plain_heads (program p) -> cursor_on c o p ->
  (forall o', In o' (occurrences p) -> variable_at o' = variable_at o -> snd o' = Ordinary) -> NoDup (map snd (written p)) ->
  keys (rewritten (find_rename_targets c (program p)) y p) = keys p.
Proof.
  intros p c o y LB PH CO K ND. rewrite (C72_exact_partial p c o); auto. rewrite keys_keyed, keys_plain. apply map_ext_in. intros q I.
  unfold put. destruct (existsb _ _) eqn:E; auto. exfalso. apply listed_span in E. unfold places in E. apply in_map_iff in E.
  destruct E as (o' & E & J). apply filter_In in J. destruct J as [J V]. apply same_iff in V.
  apply (keyed_kind p top ND q o' I J E). auto.
Qed.

(** ** What is false *)
Definition after (p : source) (c : nat) (y : ident) : source := rewritten (find_rename_targets c (program p)) y p.

(** [x = Base; class A < x; end]: the superclass is not renamed, and now denotes a method. *)
Definition heads : source := SSeq (SAssign 1%N (0, 1) SLeaf) (SScope true 1 (SName 1%N (10, 11)) SLeaf).
Theorem C72_head_refuted : exists p c o y, labelled p /\ cursor_on c o p /\ (forall o', In o' (occurrences p) -> snd o' = Ordinary) /\
  NoDup (map snd (written p)) /\ ~ In y (map fst (written p)) /\ find_rename_targets c (program p) <> places (variable_at o) p /\
  length (occurrences (after p c y)) < length (occurrences p).
Proof.
  exists heads, 0, ((0, 1), (1%N, 0), Ordinary), 2%N. repeat split; cbn.
  - repeat constructor; cbn; intuition discriminate.
  - auto.
  - lia.
  - lia.
  - intros o' [<-|[<-|[]]]; auto. intros [A B]. cbn in A, B. lia.
  - intros o' [<-|[<-|[]]]; auto.
  - repeat constructor; cbn; intuition discriminate.
  - intuition discriminate.
  - discriminate.
  - lia.
Qed.

(** [def f(x:) x end]: the parameter is not renamed, so its use becomes a call. *)
Definition keyword : source := SScope true 1 SLeaf (SSeq (SKeyParam 1%N (6, 8)) (SName 1%N (10, 11))).
Theorem C72_keyword_refuted : exists p c o y, labelled p /\ plain_heads (program p) /\ cursor_on c o p /\
  NoDup (map snd (written p)) /\ ~ In y (map fst (written p)) /\ find_rename_targets c (program p) <> [] /\
  find_rename_targets c (program p) <> places (variable_at o) p /\ length (occurrences (after p c y)) < length (occurrences p).
Proof.
  exists keyword, 10, ((10, 11), (1%N, 1), Ordinary), 2%N. repeat split; cbn.
  - repeat constructor; cbn; intuition discriminate.
  - auto.
  - lia.
  - lia.
  - intros o' [<-|[<-|[]]]; auto. intros [A B]. cbn in A, B. lia.
  - repeat constructor; cbn; intuition discriminate.
  - intuition discriminate.
  - discriminate.
  - discriminate.
  - lia.
Qed.

(** [x = 1; f { |a; x| x = 2 }]: the declaration of the block's own [x] is not renamed. *)
Definition block_local : source := SScope false 1 SLeaf (SSeq (SBlockLocal 1%N (6, 7)) (SSeq (SAssign 1%N (9, 10) SLeaf) (SName 1%N (20, 21)))).
Theorem C72_block_local_refuted : exists p c o, labelled p /\ plain_heads (program p) /\ cursor_on c o p /\
  find_rename_targets c (program p) <> [] /\ find_rename_targets c (program p) <> places (variable_at o) p.
Proof.
  exists block_local, 9, ((9, 10), (1%N, 1), Ordinary). repeat split; cbn.
  - repeat constructor; cbn; intuition discriminate.
  - auto.
  - lia.
  - lia.
  - intros o' [<-|[<-|[<-|[]]]]; auto; intros [A B]; cbn in A, B; lia.
  - discriminate.
  - discriminate.
Qed.

(** [x = 1; {x:}]: the key of the hash changes along with the variable. *)
Definition shorthand : source := SSeq (SAssign 1%N (0, 1) SLeaf) (SImplicit 1%N (8, 9)).
Theorem C72_shorthand_refuted : exists p c o y, labelled p /\ plain_heads (program p) /\ cursor_on c o p /\
  NoDup (map snd (written p)) /\ ~ In y (map fst (written p)) /\ keys (after p c y) <> keys p.
Proof.
  exists shorthand, 0, ((0, 1), (1%N, 0), Ordinary), 2%N. repeat split; cbn.
  - repeat constructor; cbn; intuition discriminate.
  - auto.
  - lia.
  - lia.
  - intros o' [<-|[<-|[]]]; auto; intros [A B]; cbn in A, B; lia.
  - repeat constructor; cbn; intuition discriminate.
  - intuition discriminate.
  - discriminate.
Qed.

(** [x = 1; y = 2; x]: renaming [x] to [y] is offered and merges the two variables. *)
Definition collision : source := SSeq (SAssign 1%N (0, 1) SLeaf) (SSeq (SAssign 2%N (7, 8) SLeaf) (SName 1%N (14, 15))).
Theorem C72_capture_refuted : exists p c o y, labelled p /\ plain_heads (program p) /\ cursor_on c o p /\
  (forall o', In o' (occurrences p) -> snd o' = Ordinary) /\ NoDup (map snd (written p)) /\ find_rename_targets c (program p) <> [] /\
  exists o1 o2, In o1 (occurrences p) /\ In o2 (occurrences p) /\ variable_at o1 <> variable_at o2 /\
    exists o1' o2', In o1' (occurrences (after p c y)) /\ In o2' (occurrences (after p c y)) /\ span_at o1' = span_at o1 /\ span_at o2' = span_at o2 /\
      variable_at o1' = variable_at o2'.
Proof.
  exists collision, 0, ((0, 1), (1%N, 0), Ordinary), 2%N. split; [|split; [|split; [|split; [|split; [|split]]]]].
  - repeat constructor; cbn; intuition discriminate.
  - cbn. auto.
  - split; [cbn; auto|]. split; [split; cbn; lia|]. intros o' [<-|[<-|[<-|[]]]]; auto; intros [A B]; cbn in A, B; lia.
  - cbn. intros o' [<-|[<-|[<-|[]]]]; auto.
  - repeat constructor; cbn; intuition discriminate.
  - cbn. discriminate.
  - exists ((0, 1), (1%N, 0), Ordinary), ((7, 8), (2%N, 0), Ordinary). split; [cbn; auto|]. split; [cbn; auto|]. split; [cbn; discriminate|].
    exists ((0, 1), (2%N, 0), Ordinary), ((7, 8), (2%N, 0), Ordinary). cbn. auto 10.
Qed.

(** [x = 1; f { |a| x; a; x = a }; def g(x) x end; x] with the cursor on the last [x], and on the inner one of the
    definition. *)
Definition sample : source :=
  SSeq (SAssign 1%N (0, 1) SLeaf)
  (SSeq (SScope false 1 SLeaf (SSeq (SParam 3%N (12, 13)) (SSeq (SName 1%N (15, 16)) (SSeq (SName 3%N (18, 19)) (SAssign 1%N (21, 22) (SName 3%N (25, 26)))))))
  (SSeq (SScope true 2 SLeaf (SSeq (SParam 1%N (36, 37)) (SName 1%N (39, 40))))
        (SName 1%N (47, 48)))).
Example C72_example :
  labelled sample /\ plain_heads (program sample) /\ NoDup (map snd (written sample)) /\ cursor_on 47 ((47, 48), (1%N, 0), Ordinary) sample /\
  find_rename_targets 47 (program sample) = [(0, 1); (15, 16); (21, 22); (47, 48)] /\
  find_rename_targets 39 (program sample) = [(36, 37); (39, 40)] /\ find_rename_targets 30 (program sample) = [].
Proof.
  split; [|split; [|split; [|split]]].
  - repeat constructor; cbn; intuition discriminate.
  - cbn. auto 10.
  - repeat constructor; cbn; intuition discriminate.
  - split; [cbn; tauto|]. split; [split; cbn; lia|]. intros o' I [A B]. cbn in I.
    repeat (destruct I as [<-|I]; [cbn in A, B; try lia; reflexivity|]). destruct I.
  - repeat split; reflexivity.
Qed.

Print Assumptions C72_exact_partial.
Print Assumptions C72_nothing.
Print Assumptions C72_meaning_partial.
Print Assumptions C72_keys_partial.
Print Assumptions C72_head_refuted.
Print Assumptions C72_keyword_refuted.
Print Assumptions C72_block_local_refuted.
Print Assumptions C72_shorthand_refuted.
Print Assumptions C72_capture_refuted.
