(** The statement proved by induction on a run, and its case for calls. *)
From Coq Require Import List Bool NArith.
From Verif Require Import Types_Model Types_Spec Types_Union TypeFlow_Model TypeFlow_Spec TypeFlow_Frame TypeFlow_Tracker TypeFlow_Cover TypeFlow_Views TypeFlow_Fits TypeFlow_Narrow.
From Coq Require Import String.
Import ListNotations.
Local Open Scope list_scope.

Section Calls.
Variables (W : world) (T : facts) (K : vision).
Hypothesis Hon : honest W T.
Hypothesis HU : forall x, H K x = true -> U K x = true.
Notation dn := (den (named W)).
Notation fits := (fits W K).
Notation hides := (hides K).
Notation moved := (moved K).
Notation post := (post W K).
Notation quiet := (quiet W K).

Definition ends (V : N -> bool) (gone wh : bool) (e : env) (t : ty) (o : outcome) (s : store) : Prop :=
  forall v, o = Normal v -> gone = false /\ fits V e s /\ (wh = true -> dn t v).
Definition sound_at (r : res) (st : state) (V V' : N -> bool) (L : list N) (gone wh p : bool) s tr o s' : Prop :=
  quiet (ro r) -> fits V (vars st) s -> hides (vars st) ->
  ends V' gone wh (vars (rs r)) (rt r) o s' /\ post L p s tr o s' (ro r).
(** one of the arms which stay *)
Definition arm_ends (V : N -> bool) (wh : bool) (l : list arm) (o : outcome) (s : store) : Prop :=
  forall v, o = Normal v -> exists a, In a l /\ a_gone a = false /\ fits V (a_env a) s /\ (wh = true -> dn (a_type a) v).

(** the conditions on a block *)
Definition block_ok (p : bool) (ps ls : list N) (body : stmts) : bool :=
  simple_s K p false body && forallb (fun x => negb (U K x)) ps &&
  forallb (fun x => negb (member x ps) && (H K x || member x ls)) (mods_s body) &&
  (negb (Q K) || negb (any_s is_return true body)).

Definition spec (c : code) (s : store) (tr : list (N * val)) (o : outcome) (s' : store) : Prop :=
  match c with
  | IN n => forall p m d st V, simple K p m n = true -> ready K V n = true -> NoDup (labs n) ->
      sound_at (track T p d n st) st V (good_after K V n) (labs n) (leaves n) (worth n) p s tr o s'
  | IV r => forall p m d st V, simple_v K p m r = true -> ready_v K V r = true -> NoDup (labs_v r) ->
      sound_at (look T p d r st) st V (good_after_v K V r) (labs_v r) false true p s tr o s' /\
      (forall v, o = Normal v -> match r with RNone => v = self W | RNode (Const c) => v = konst W c | _ => True end)
  | IA a => forall p m d st V, simple_a K p m a = true -> still_a a = true -> dark_a K a = true -> ready_a K V a = true -> NoDup (labs_a a) ->
      quiet (snd (track_a T p d a st)) -> fits V (vars st) s -> hides (vars st) ->
      (forall v, o = Normal v -> exists vs, v = VArr vs /\ Forall2 dn (fst (fst (track_a T p d a st))) vs) /\
      post (labs_a a) p s tr o s' (snd (track_a T p d a st))
  | IS b => forall p m d st V, simple_s K p m b = true -> ready_s K V b = true -> NoDup (labs_s b) ->
      sound_at (track_s T p d b st) st V (good_after_s K V b) (labs_s b) (leaves_s b) (worth_s b) p s tr o s'
  | IT e => forall p m d st V, simple_t K p m e = true -> ready_t K V e = true -> NoDup (labs_t e) ->
      sound_at (track_t T p d e st) st V (good_after_t K V e) (labs_t e) (leaves_t e) (worth_t e) p s tr o s'
  | IW w e => forall p d st V, simple_w K p w = true -> simple_t K p true e = true -> ready_w K V w = true -> ready_t K V e = true ->
      NoDup (labs_w w ++ labs_t e) ->
      let '(l, st1, o1) := track_w T p d w st in
      let m := track_t T p d e (at_ (vars st) st1) in
      quiet (plus o1 (ro m)) -> fits V (vars st) s -> hides (vars st) ->
      arm_ends (both (good_after_w K V w) (unless_gone (leaves_t e) (good_after_t K V e))) (worth_w w && worth_t e)
        (l ++ [arm_of m (leaves_t e)]) o s' /\
      post (labs_w w ++ labs_t e) p s tr o s' (plus o1 (ro m))
  | IC b r e => forall p d st V, simple_s K (p || protected r) true b = true -> simple_r K p r = true -> simple_t K p true e = true ->
      ready_s K V b = true -> ready_t K (good_after_s K V b) e = true -> ready_r K V r = true ->
      NoDup (labs_s b ++ labs_r r ++ labs_t e) ->
      let k := track_s T (p || protected r) d b st in
      let z := else_of T p d e k in
      let '(l, st1, o1) := track_r T p d r (at_ (entry (vars st) (obs (ro k))) (rs z)) in
      quiet (plus (ro k) (plus (ro z) o1)) -> fits V (vars st) s -> hides (vars st) ->
      arm_ends (both (unless_gone (leaves_s b || leaves_t e) (good_after_t K (good_after_s K V b) e)) (good_after_r K V r))
        (worth (Begin b r e NoTail)) (arm_of z (leaves_s b || leaves_t e) :: l) o s' /\
      post (labs_s b ++ labs_r r ++ labs_t e) p s tr o s' (plus (ro k) (plus (ro z) o1))
  | IR r => forall p d st V, simple_r K p r = true -> ready_r K V r = true -> NoDup (labs_r r) ->
      let '(l, st1, o1) := track_r T p d r st in
      quiet o1 -> fits V (vars st) s -> hides (vars st) ->
      arm_ends (good_after_r K V r) (worth_r r) l o s' /\ post (labs_r r) p s tr o s' o1
  | IK w f vs b => forall ps ls body, b = BBlock ps ls body -> forall p d e st V params,
      block_ok p ps ls body = true -> ready_s K (with_ ps (less ls V)) body = true -> NoDup (labs_s body) ->
      (forall xs i, yields W w f vs xs -> dn (nth i params nil_class) (nth i xs vnil)) ->
      let k := track_s T p d body (at_ (sets e (parameters ps params)) st) in
      quiet (ro k) -> fits V e s -> hides e ->
      (forall v, o = Normal v -> exists us, v = VArr us /\
         (worth_s body = true -> any_s is_next false body = false -> Forall (dn (rt k)) us)) /\
      post (labs_s body) p s tr o s' (unreturned (ro k))
  end.

Lemma ends_abrupt V g wh e t o s : abrupt o -> ends V g wh e t o s.
Proof. intros A v ->. destruct A. Qed.
Lemma arm_ends_abrupt V wh l o s : abrupt o -> arm_ends V wh l o s.
Proof. intros A v ->. destruct A. Qed.

(** environments which agree give the same answer *)
Lemma hides_track p m d n st : simple K p m n = true -> hides (vars st) -> hides (vars (rs (track T p d n st))).
Proof.
  intros A B. eapply (hides_dom K (vars st)); [|exact B]. intros x Hx. destruct (track_dom T K x (HU x Hx)) as (X&_).
  apply (X n p m d st A). right. exact Hx.
Qed.
Lemma hides_track_s p m d n st : simple_s K p m n = true -> hides (vars st) -> hides (vars (rs (track_s T p d n st))).
Proof.
  intros A B. eapply (hides_dom K (vars st)); [|exact B]. intros x Hx. destruct (track_dom T K x (HU x Hx)) as (_&_&_&_&X&_).
  apply (X n p m d st A). right. exact Hx.
Qed.
Lemma hides_track_t p m d n st : simple_t K p m n = true -> hides (vars st) -> hides (vars (rs (track_t T p d n st))).
Proof.
  intros A B. eapply (hides_dom K (vars st)); [|exact B]. intros x Hx. destruct (track_dom T K x (HU x Hx)) as (_&_&_&_&_&X&_).
  apply (X n p m d st A). right. exact Hx.
Qed.
Lemma hides_look p m d r st : simple_v K p m r = true -> hides (vars st) -> hides (vars (rs (look T p d r st))).
Proof.
  intros A B. eapply (hides_dom K (vars st)); [|exact B]. intros x Hx. destruct (track_dom T K x (HU x Hx)) as (_&_&X&_).
  apply (X r p m d st A). right. exact Hx.
Qed.

(** ** Blocks *)
Lemma block_mods p ps ls body x : block_ok p ps ls body = true -> In x (mods_b (BBlock ps ls body)) -> H K x = true.
Proof.
  unfold block_ok. intros A J. checks. cbn [mods_b] in J. apply in_without in J as [J N].
  match goal with B : forallb _ (mods_s body) = true |- _ => rewrite forallb_forall in B; specialize (B x J) end. checks.
  rewrite in_app_iff in N. destruct (H K x) eqn:E; [reflexivity|]. cbn in *.
  match goal with B : member x ls = true |- _ => apply member_in in B; tauto | B : (_ || member x ls)%bool = true |- _ => apply orb_true_iff in B as [B|B]; [discriminate|apply member_in in B; tauto] end.
Qed.
Lemma block_run w f vs ps ls body s tr o s' p : block_ok p ps ls body = true -> exec W (IK w f vs (BBlock ps ls body)) s tr o s' ->
  moved s s' /\ (Q K = true -> forall v, o <> Ret v) /\ forall l v, In (l, v) tr -> In l (labs_s body).
Proof.
  intros A E. pose proof (frame_moved W K _ _ _ _ _ E) as M. cbn [mods_c] in M. split; [|split].
  - apply M. intros x. apply block_mods with p. exact A.
  - intros q v O. destruct (exec_frame W _ _ _ _ _ E) as (_&_&R&_). specialize (R v O). cbn in R. unfold block_ok in A. checks.
    rewrite q, R in A. discriminate.
  - destruct (exec_frame W _ _ _ _ _ E) as (_&L&_). exact L.
Qed.
Lemma bind_fits V e ps ls xs s (params : list ty) :
  fits V e s -> (forall i, dn (nth i params nil_class) (nth i xs vnil)) ->
  fits (with_ ps (less ls V)) (sets e (parameters ps params)) (bind s ps ls xs).
Proof.
  intros F P x Vx.
  assert (G : forall n, (In x (firstn n ps) \/ (~ In x ps /\ less ls V x = true) \/ ~ In x ps /\ ~ In x ls /\ V x = true) -> n <= List.length ps ->
    fits1 W K x (fold_left (fun e b => set e (fst b) (snd b)) (List.map (fun i => (nth i ps 0%N, nth i params nil_class)) (seq 0 n)) e x)
      (fold_left (fun s i => upd s (nth i ps 0%N) (nth i xs vnil)) (seq 0 n) (fold_left (fun s x => upd s x vnil) ls s) x)).
  { induction n as [|n IH]; intros C L.
    - cbn. destruct C as [[]|C]. assert (D1 : ~ In x ls /\ V x = true).
      { destruct C as [[_ C]|[_ C]]; [|exact C]. unfold less in C. checks. split; [apply member_not; assumption|exact C]. }
      rewrite (upds_other (fun y => y) (fun _ => vnil)); [apply F; apply D1|]. intros y J E. subst y. tauto.
    - rewrite seq_S, map_app, !fold_left_app. cbn [List.map fold_left fst snd plus Nat.add].
      destruct (N.eq_dec x (nth n ps 0%N)) as [E|E].
      + rewrite E, set_same, upd_same. apply P.
      + rewrite set_other, upd_other by exact E. apply IH; [|auto with arith]. destruct C as [C|C]; [|right; exact C]. left.
        assert (FN : firstn (S n) ps = firstn n ps ++ [nth n ps 0%N]).
        { clear - L. revert n L. induction ps as [|y ps IH]; intros [|n] L; cbn in *; try (exfalso; inversion L; fail); [reflexivity|].
          rewrite <- IH by auto with arith. reflexivity. }
        rewrite FN in C. apply in_app_or in C as [C|[C|[]]]; [exact C|congruence]. }
  unfold sets, parameters, bind. apply G; [|apply le_n]. rewrite firstn_all.
  unfold with_ in Vx. destruct (in_dec N.eq_dec x ps) as [I|I]; [left; exact I|]. right. left. split; [exact I|].
  apply member_not in I. rewrite I in Vx. exact Vx.
Qed.
Lemma sets_hides p ps ls body e params : block_ok p ps ls body = true -> hides e -> hides (sets e (parameters ps params)).
Proof.
  intros A B x Hx. rewrite sets_other; [auto|]. intros J. apply parameters_keys in J. unfold block_ok in A. checks.
  match goal with C : forallb _ ps = true |- _ => rewrite forallb_forall in C; specialize (C x J) end. checks.
  rewrite HU in * by exact Hx. discriminate.
Qed.

(** ** Calls *)
Lemma new_const r f c : is_new r f = Some c -> r = RNode (Const c) /\ f = "new"%string.
Proof.
  unfold is_new. destruct r as [|n]; [discriminate|]. destruct n; try discriminate. destruct (String.eqb_spec f "new"); [|discriminate].
  intros E. injection E as ->. auto.
Qed.
Lemma quiet_look p d r f st : quiet (ro (plain_call T r f (look T p d r) st)) -> is_new r f = None -> quiet (ro (look T p d r st)).
Proof. unfold plain_call. intros A B. rewrite B in A. destruct r; [apply quiet_nothing|exact A]. Qed.
Lemma plain_post p m d r f st s tr o s' V : exec W (IV r) s tr o s' -> spec (IV r) s tr o s' ->
  simple_v K p m r = true -> ready_v K V r = true -> NoDup (labs_v r) ->
  quiet (ro (plain_call T r f (look T p d r) st)) -> fits V (vars st) s -> hides (vars st) ->
  post (labs_v r) p s tr o s' (ro (plain_call T r f (look T p d r) st)).
Proof.
  intros E I C R N1 Qt F HI.
  assert (D0 : mods_v r = [] -> any_v is_retry true r = false -> any_v is_return true r = false -> post (labs_v r) p s tr o s' nothing).
  { intros A B G. apply (dark_run W K (IV r)); [exact E|]. cbn. rewrite A, B, G. unfold dark_list. cbn. destruct (Q K); reflexivity. }
  unfold plain_call in *. destruct (is_new r f) as [c|] eqn:X.
  { apply new_const in X as [-> _]. apply D0; reflexivity. }
  destruct r as [|n]; [apply D0; reflexivity|]. cbn [ro] in *.
  destruct (I p m d st V C R N1) as [A _]. apply A; assumption.
Qed.
Lemma plain_type p m d r f st s tr w s' V vs us v : spec (IV r) s tr (Normal w) s' ->
  simple_v K p m r = true -> ready_v K V r = true -> NoDup (labs_v r) ->
  quiet (ro (plain_call T r f (look T p d r) st)) -> fits V (vars st) s -> hides (vars st) ->
  sends W w f vs us v -> dn (rt (plain_call T r f (look T p d r) st)) v.
Proof.
  intros I C R N1 Qt F HI SE. destruct (I p m d st V C R N1) as [A B]. specialize (B w eq_refl).
  destruct (is_new r f) as [c|] eqn:X.
  { unfold plain_call. rewrite X. apply new_const in X as [-> ->]. subst w. cbn. apply (h_new W T Hon _ _ _ _ SE). }
  pose proof (quiet_look _ _ _ _ _ Qt X) as QL. destruct (A QL F HI) as [A1 _]. destruct (A1 w eq_refl) as (_&_&A2). specialize (A2 eq_refl).
  unfold plain_call. rewrite X. destruct r as [|n]; cbn [rt].
  - subst w. apply (h_self W T Hon _ _ _ _ SE).
  - destruct (is_unknown _); [exact Logic.I|]. eapply (h_ret W T Hon); eassumption.
Qed.
Lemma plain_fits p m d r f st s tr w s' V : exec W (IV r) s tr (Normal w) s' -> spec (IV r) s tr (Normal w) s' ->
  simple_v K p m r = true -> ready_v K V r = true -> NoDup (labs_v r) ->
  quiet (ro (plain_call T r f (look T p d r) st)) -> fits V (vars st) s -> hides (vars st) ->
  fits (good_after_v K V r) (vars (rs (plain_call T r f (look T p d r) st))) s' /\
  hides (vars (rs (plain_call T r f (look T p d r) st))).
Proof.
  intros E I C R N1 Qt F HI. destruct (I p m d st V C R N1) as [A B].
  destruct (is_new r f) as [c|] eqn:X.
  { unfold plain_call. rewrite X. apply new_const in X as [-> ->]. cbn. inversion E; subst.
    match goal with Y : exec W (IN (Const c)) _ _ _ _ |- _ => inversion Y; subst end. auto. }
  pose proof (quiet_look _ _ _ _ _ Qt X) as QL. destruct (A QL F HI) as [A1 _]. destruct (A1 w eq_refl) as (_&A2&_).
  unfold plain_call. rewrite X. destruct r as [|n]; cbn [rs].
  - cbn [just rs] in *. cbn [look just rs] in A2. auto.
  - split; [exact A2|]. apply hides_look with m; assumption.
Qed.

Lemma still_good : (forall n, still n = true -> forall V, good_after K V n = V) /\ (forall a : args, True) /\
  (forall r, still_v r = true -> forall V, good_after_v K V r = V) /\ (forall b : blk, True) /\ (forall s : stmts, True) /\ (forall e : tail, True) /\
  (forall w : whens, True) /\ (forall r : rescues, True).
Proof.
  apply tree_ind; try (intros; exact Logic.I); try reflexivity; try discriminate.
  - intros safe r IHr f a _ b _ C V. cbn [still good_after] in *. checks. destruct b; [apply IHr; assumption|reflexivity].
  - intros n IH C V. cbn [still_v good_after_v] in *. destruct (direct n); [apply IH; exact C|reflexivity].
Qed.

Section Call.
Variables (p m d : bool) (safe : bool) (r : recv) (f : string) (a : args) (b : blk) (st : state) (V : N -> bool).
Hypothesis C : simple K p m (Call safe r f a b) = true.
Hypothesis R : ready K V (Call safe r f a b) = true.
Hypothesis ND : NoDup (labs (Call safe r f a b)).
Let c := track T p d (Call safe r f a b) st.
Hypothesis Qt : quiet (ro c).
Hypothesis HI : hides (vars st).

Lemma call_simple : simple_v K p m r = true /\ endless r f b = false /\ dark_a K a = true /\
  (terminating r f = true -> safe = false /\ b = BNone) /\
  forall ps ls body, b = BBlock ps ls body -> still_v r = true /\ still_a a = true /\ simple_a K p m a = true /\ block_ok p ps ls body = true.
Proof.
  cbn [simple] in C. apply andb_true_iff in C as [C1 C2]. checks.
  split; [assumption|split; [assumption|split; [assumption|split]]].
  - intros E. rewrite E in C1. cbn [negb orb] in C1. checks. destruct b; [auto|discriminate].
  - intros ps ls body E. subst b. checks. unfold block_ok. repeat rewrite andb_true_iff. auto 10.
Qed.
Lemma call_ready : ready_v K V r = true /\ forall ps ls body, b = BBlock ps ls body -> ready_a K V a = true /\ ready_s K (with_ ps (less ls V)) body = true.
Proof. cbn [ready] in R. checks. split; [assumption|]. intros ps ls body ->. checks. auto. Qed.
Lemma call_nodup : NoDup (labs_v r) /\ NoDup (labs_a a) /\ NoDup (labs_b b) /\ apart (labs_v r) (labs_a a ++ labs_b b) /\ apart (labs_a a) (labs_b b).
Proof. cbn [labs] in ND. apply nodup_apart in ND as (A&B&E). apply nodup_apart in B as (B&F&G). auto. Qed.

(** what is looked at, in the order of evaluation: the receiver, the arguments and the block *)
Definition known (w : val) : Prop := exists s t s', exec W (IV r) s t (Normal w) s' /\ spec (IV r) s t (Normal w) s' /\ fits V (vars st) s.
Definition given (b : blk) (vs : list val) : Prop := exists s t s', spec (IA a) s t (Normal (VArr vs)) s' /\ (b <> BNone -> fits V (vars st) s).
Definition gave (b : blk) (w : val) (vs us : list val) : Prop :=
  exists s t s', spec (IK w f vs b) s t (Normal (VArr us)) s' /\ (b <> BNone -> fits V (vars st) s).
Lemma call_out : exists R A B,
  ((forall x, In x (reads (ro c)) -> In x (reads (plus R (plus A B)))) /\
   (forall x, In x (obs (plus R (plus A B))) -> In x (obs (ro c))) /\
   (forall x, In x (rets (plus R (plus A B))) -> In x (rets (ro c)))) /\
  (forall s t o s', exec W (IV r) s t o s' -> spec (IV r) s t o s' -> fits V (vars st) s -> post (labs_v r) p s t o s' R) /\
  (idle (labs_a a) A /\ forall s t o s', exec W (IA a) s t o s' -> spec (IA a) s t o s' -> (b <> BNone -> fits V (vars st) s) ->
     post (labs_a a) p s t o s' A) /\
  (idle (labs_b b) B /\ forall w vs s t o s', known w -> given b vs -> exec W (IK w f vs b) s t o s' -> spec (IK w f vs b) s t o s' ->
     (b <> BNone -> fits V (vars st) s) -> post (labs_b b) p s t o s' B) /\
  (forall w vs us v, known w -> given b vs -> gave b w vs us -> worth (Call safe r f a b) = true -> sends W w f vs us v -> dn (rt c) v).
Proof.
  destruct call_simple as (C1&_&DA&_&C2). destruct call_ready as (R1&R2). destruct call_nodup as (N1&N2&N3&N4&N5).
  unfold c in *. rewrite track_call in *.
  assert (PL : forall st', vars st' = vars st -> quiet (ro (plain_call T r f (look T p d r) st')) ->
     forall s t o s', exec W (IV r) s t o s' -> spec (IV r) s t o s' -> fits V (vars st) s ->
     post (labs_v r) p s t o s' (ro (plain_call T r f (look T p d r) st'))).
  { intros st' E' Q' s t o s' E I F. apply plain_post with m V; auto; rewrite E'; assumption. }
  assert (PT : forall st', vars st' = vars st -> quiet (ro (plain_call T r f (look T p d r) st')) ->
     forall w vs us v, known w -> sends W w f vs us v -> dn (rt (plain_call T r f (look T p d r) st')) v).
  { intros st' E' Q' w vs us v (s&t&s'&E&I&F) SE. eapply plain_type; eauto; rewrite E'; assumption. }
  assert (DR : forall s t o s', exec W (IA a) s t o s' -> post (labs_a a) p s t o s' nothing).
  { intros s t o s' E. apply (dark_run W K (IA a)); assumption. }
  assert (DB : forall w vs s t o s', exec W (IK w f vs b) s t o s' -> post (labs_b b) p s t o s' nothing).
  { intros w vs s t o s' E. destruct b as [|ps ls body].
    - apply (dark_run W K (IK w f vs BNone)); [exact E|]. unfold dark_list. cbn. destruct (Q K); reflexivity.
    - destruct (C2 ps ls body eq_refl) as (_&_&_&S4). destruct (block_run _ _ _ _ _ _ _ _ _ _ _ S4 E) as (M&NR&L).
      apply post_hidden; [exact L|intros ? ? []|intros ? ? ? _ []|exact M|exact NR]. }
  assert (SIMPLE : quiet (ro (plain_call T r f (look T p d r) st)) -> forall c', c' = plain_call T r f (look T p d r) st -> exists R A B,
    ((forall x, In x (reads (ro c')) -> In x (reads (plus R (plus A B)))) /\
     (forall x, In x (obs (plus R (plus A B))) -> In x (obs (ro c'))) /\
     (forall x, In x (rets (plus R (plus A B))) -> In x (rets (ro c')))) /\
    (forall s t o s', exec W (IV r) s t o s' -> spec (IV r) s t o s' -> fits V (vars st) s -> post (labs_v r) p s t o s' R) /\
    (idle (labs_a a) A /\ forall s t o s', exec W (IA a) s t o s' -> spec (IA a) s t o s' -> (b <> BNone -> fits V (vars st) s) ->
       post (labs_a a) p s t o s' A) /\
    (idle (labs_b b) B /\ forall w vs s t o s', known w -> given b vs -> exec W (IK w f vs b) s t o s' -> spec (IK w f vs b) s t o s' ->
       (b <> BNone -> fits V (vars st) s) -> post (labs_b b) p s t o s' B) /\
    (forall w vs us v, known w -> given b vs -> gave b w vs us -> worth (Call safe r f a b) = true -> sends W w f vs us v -> dn (rt c') v)).
  { intros Q' c' ->. exists (ro (plain_call T r f (look T p d r) st)), nothing, nothing. split; [|split; [|split; [|split]]].
    - cbn [plus nothing reads obs rets]. rewrite !app_nil_r. auto.
    - apply PL; auto.
    - split; [intros ? ? []|]. intros; apply DR; assumption.
    - split; [intros ? ? []|]. intros; eapply DB; eassumption.
    - intros w vs us v KN _ _ _ SE. eapply PT; eauto. }
  destruct b as [|ps ls body]; [apply SIMPLE; auto|].
  destruct (bang f); [apply SIMPLE; auto|]. clear SIMPLE.
  assert (NB : BBlock ps ls body <> BNone) by discriminate.
  destruct (C2 ps ls body eq_refl) as (S1&S2&S3&S4). destruct (R2 ps ls body eq_refl) as (R3&R4).
  destruct (still_vars T) as (_&SA&SV&_). specialize (SA a S2 p d). specialize (SV r S1 p d).
  assert (LK : forall st', vars st' = vars st -> quiet (ro (look T p d r st')) ->
     forall s t o s', spec (IV r) s t o s' -> fits V (vars st) s -> post (labs_v r) p s t o s' (ro (look T p d r st'))).
  { intros st' E' Q' s t o s' I F. destruct (I p m d st' V C1 R1 N1) as [A _]. apply A; [exact Q'| |]; rewrite E'; assumption. }
  destruct (records_in T) as (_&RA&_&_&RS&_).
  unfold block_call in *.
  destruct (match match r with RNone => None | RNode _ => Some (rt (look T p d r st)) end with Some t => contains_unknown t | None => false end) eqn:CU.
  { cbn [also ro rt] in *. apply quiet_plus in Qt as [Q1 Q2].
    exists (plus (ro (look T p d r st)) (ro (plain_call T r f (look T p d r) (rs (look T p d r st))))), nothing, nothing.
    split; [|split; [|split; [|split]]].
    - cbn [plus nothing reads obs rets]. rewrite !app_nil_r. auto.
    - intros s t o s' E I F. apply post_two; [apply LK; auto|apply PL; auto].
    - split; [intros ? ? []|]. intros; apply DR; assumption.
    - split; [intros ? ? []|]. intros; eapply DB; eassumption.
    - intros w vs us v KN _ _ _ SE. eapply PT; eauto. }
  pose proof (SA (rs (look T p d r st))) as SA1. rewrite SV in SA1.
  set (q := look T p d r st) in *.
  assert (RA1 : idle (labs_a a) (snd (track_a T p d a (rs q)))) by (intros l t; apply RA).
  assert (AS : quiet (snd (track_a T p d a (rs q))) -> forall s t o s', spec (IA a) s t o s' -> fits V (vars st) s ->
    (forall v, o = Normal v -> exists vs, v = VArr vs /\ Forall2 dn (fst (fst (track_a T p d a (rs q)))) vs) /\
    post (labs_a a) p s t o s' (snd (track_a T p d a (rs q)))).
  { intros Q' s t o s' I F. apply (I p m d (rs q) V); auto; unfold q; rewrite SV; assumption. }
  destruct (track_a T p d a (rs q)) as [[ts st1] oa]. cbn [st_of fst snd] in *.
  destruct (hof T f _ ts) as [[params result]|] eqn:HF.
  2:{ cbn [also ro rt] in *. apply quiet_plus in Qt as [Q1 Q2]. apply quiet_plus in Q1 as [Q1 Q3].
    exists (plus (ro q) (ro (plain_call T r f (look T p d r) st1))), oa, nothing. split; [|split; [|split; [|split]]].
    - cbn [plus nothing reads obs rets]. repeat split; intros x; rewrite !in_app_iff; cbn; tauto.
    - intros s t o s' E I F. apply post_two; [apply LK; auto|apply PL; auto].
    - split; [exact RA1|]. intros s t o s' E I F. apply AS; auto.
    - split; [intros ? ? []|]. intros; eapply DB; eassumption.
    - intros w vs us v KN _ _ _ SE. eapply PT; eauto. }
  destruct (jumps_s body).
  { cbn [also ro rt] in *. apply quiet_plus in Qt as [Q1 Q2]. apply quiet_plus in Q1 as [Q1 Q3].
    exists (plus (ro q) (ro (plain_call T r f (look T p d r) st1))), oa, nothing. split; [|split; [|split; [|split]]].
    - cbn [plus nothing reads obs rets]. repeat split; intros x; rewrite !in_app_iff; cbn; tauto.
    - intros s t o s' E I F. apply post_two; [apply LK; auto|apply PL; auto].
    - split; [exact RA1|]. intros s t o s' E I F. apply AS; auto.
    - split; [intros ? ? []|]. intros; eapply DB; eassumption.
    - intros w vs us v KN _ _ _ SE. eapply PT; eauto. }
  set (k := track_s T p d body _) in *.
  assert (RK : idle (labs_s body) (unreturned (ro k))) by (intros l t J; eapply RS; exact J).
  assert (HO : quiet (ro q) -> quiet oa -> forall w vs, known w -> given (BBlock ps ls body) vs ->
    match match r with RNone => None | RNode _ => Some (rt q) end with Some t => dn t w | None => w = self W end /\ Forall2 dn ts vs).
  { intros Q1 Q3 w vs (s&t&s'&E&I&F) (s2&t2&s3&I2&F2). split.
    - destruct (I p m d st V C1 R1 N1) as [A A']. destruct (A Q1 F HI) as [A1 _]. destruct (A1 w eq_refl) as (_&_&A2).
      specialize (A' w eq_refl). destruct r; [exact A'|]. apply A2. reflexivity.
    - destruct (AS Q3 _ _ _ _ I2 (F2 NB)) as [A _]. destruct (A _ eq_refl) as [vs' [E1 E2]]. injection E1 as ->. exact E2. }
  assert (BS : quiet (ro q) -> quiet oa -> quiet (ro k) -> forall w vs s t o s', known w -> given (BBlock ps ls body) vs -> spec (IK w f vs (BBlock ps ls body)) s t o s' -> fits V (vars st) s ->
    (forall v, o = Normal v -> exists us, v = VArr us /\
         (worth_s body = true -> any_s is_next false body = false -> Forall (dn (rt k)) us)) /\
      post (labs_s body) p s t o s' (unreturned (ro k))).
  { intros Q1 Q3 Q4 w vs s t o s' KN GV I F. destruct (HO Q1 Q3 w vs KN GV) as [H1 H2].
    destruct (h_hof W T Hon _ _ _ _ _ w vs HF H1 H2) as [H3 _].
    apply (I ps ls body eq_refl p d (vars st1) st1 V params S4 R4 N3 H3 Q4); rewrite SA1; assumption. }
  destruct (result (rt k)) as [t0|] eqn:RE.
  { cbn [ro rt] in *. apply quiet_plus in Qt as [Q1 Q2]. apply quiet_plus in Q1 as [Q1 Q3].
    exists (ro q), oa, (unreturned (ro k)). split; [|split; [|split; [|split]]].
    - cbn [plus nothing reads obs rets]. repeat split; intros x; rewrite !in_app_iff; cbn; tauto.
    - intros s t o s' E I F. apply LK; auto.
    - split; [exact RA1|]. intros s t o s' E I F. apply AS; auto.
    - split; [exact RK|]. intros w vs s t o s' KN GV E I F. eapply BS; eauto.
    - intros w vs us v KN GV (s&t&s'&I&F) WO SE. destruct (HO Q1 Q3 w vs KN GV) as [H1 H2].
      destruct (h_hof W T Hon _ _ _ _ _ w vs HF H1 H2) as [_ H4].
      destruct (BS Q1 Q3 Q2 w vs _ _ _ _ KN GV I (F NB)) as [B1 _]. destruct (B1 _ eq_refl) as [us' [E1 E2]]. injection E1 as <-.
      cbn [worth] in WO. checks. eapply H4; [exact RE|apply E2; assumption|exact SE]. }
  cbn [also ro rt] in *. apply quiet_plus in Qt as [Q1 Q2]. apply quiet_plus in Q1 as [Q1 Q3]. apply quiet_plus in Q1 as [Q1 Q4].
  exists (plus (ro q) (ro (plain_call T r f (look T p d r) (at_ (vars st1) (rs k))))), oa, (unreturned (ro k)). split; [|split; [|split; [|split]]].
  - cbn [plus nothing reads obs rets]. repeat split; intros x; rewrite !in_app_iff; cbn; tauto.
  - intros s t o s' E I F. apply post_two; [apply LK; auto|apply PL; auto].
  - split; [exact RA1|]. intros s t o s' E I F. apply AS; auto.
  - split; [exact RK|]. intros w vs s t o s' KN GV E I F. eapply BS; eauto.
  - intros w vs us v KN _ _ _ SE. eapply PT; eauto.
Qed.

(** the variables after the receiver, and from then on *)
Lemma call_fits s t1 w s1 : exec W (IV r) s t1 (Normal w) s1 -> spec (IV r) s t1 (Normal w) s1 -> fits V (vars st) s ->
  fits (good_after K V (Call safe r f a b)) (vars (rs c)) s1 /\ hides (vars (rs c)) /\ (b <> BNone -> fits V (vars st) s1).
Proof.
  intros E I F. destruct call_simple as (C1&_&DA&_&C2). destruct call_ready as (R1&R2). destruct call_nodup as (N1&N2&N3&N4&N5).
  destruct (I p m d st V C1 R1 N1) as [A _].
  unfold c in *. rewrite track_call in *. cbn [good_after].
  destruct b as [|ps ls body].
  { destruct (plain_fits p m d r f st s t1 w s1 V E I C1 R1 N1 Qt F HI) as [X1 X2]. split; [exact X1|split; [exact X2|congruence]]. }
  destruct (C2 ps ls body eq_refl) as (S1&S2&S3&S4).
  destruct (still_vars T) as (_&SA&SV&_). specialize (SA a S2 p d). specialize (SV r S1 p d).
  destruct still_good as (_&_&SG&_). specialize (SG r S1 V).
  destruct (bang f).
  { destruct (plain_fits p m d r f st s t1 w s1 V E I C1 R1 N1 Qt F HI) as [X1 X2]. rewrite SG in X1.
    assert (EV : vars st = vars (rs (plain_call T r f (look T p d r) st))) by (apply (plain_vars eq); [reflexivity|intros; symmetry; apply SV]).
    rewrite <- EV in *. auto. }
  assert (EV : vars st = vars (rs (block_call T r f ps (jumps_s body) (look T p d r) (track_a T p d a) (track_s T p d body) st))).
  { apply (block_vars eq); [reflexivity|intros ? ? ? -> ->; reflexivity| |]; intros; symmetry; auto. }
  rewrite <- EV.
  assert (QL : quiet (ro (look T p d r st))).
  { clear - Qt. unfold block_call in Qt.
    match type of Qt with context [if ?x then _ else _] => destruct x end.
    { cbn [also ro] in Qt. apply quiet_plus in Qt. apply Qt. }
    destruct (track_a _ _ _ _ _) as [[ts st1] oa].
    destruct (hof _ _ _ _) as [[params result]|].
    2:{ cbn [also ro] in Qt. apply quiet_plus in Qt as [Qt _]. apply quiet_plus in Qt. apply Qt. }
    destruct (jumps_s body).
    { cbn [also ro] in Qt. apply quiet_plus in Qt as [Qt _]. apply quiet_plus in Qt. apply Qt. }
    destruct (result _); cbn [also ro] in Qt; apply quiet_plus in Qt as [Qt _]; apply quiet_plus in Qt as [Qt Q2]; [exact Qt|].
    apply quiet_plus in Qt. apply Qt. }
  destruct (A QL F HI) as [A1 _]. destruct (A1 w eq_refl) as (_&A2&_). rewrite SV, SG in A2. auto.
Qed.
End Call.
End Calls.
