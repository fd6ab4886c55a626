(** Proofs for Flow_Props: the reachability analysis against the way Ruby runs programs. *)
From Coq Require Import String List Bool NArith.
Import ListNotations.
From Verif Require Import Flow_Model Flow_Spec.
Local Open Scope string_scope.

Scheme node_mut := Induction for node Sort Prop
  with args_mut := Induction for args Sort Prop
  with recv_mut := Induction for recv Sort Prop
  with blk_mut := Induction for blk Sort Prop
  with stmts_mut := Induction for stmts Sort Prop
  with tail_mut := Induction for tail Sort Prop
  with whens_mut := Induction for whens Sort Prop
  with rescues_mut := Induction for rescues Sort Prop.
Combined Scheme syntax_ind from node_mut, args_mut, recv_mut, blk_mut, stmts_mut, tail_mut,
  whens_mut, rescues_mut.

Ltac andb := repeat match goal with
  | H : _ && _ = true |- _ => apply andb_true_iff in H; destruct H
  | H : _ || _ = false |- _ => apply orb_false_iff in H; destruct H
  end.

(** ** Code at some point of its execution *)

Fixpoint every_c (ok : node -> bool) (i : code) : bool :=
  match i with
  | IN n => every ok n | IA a => every_a ok a | IV r => every_r ok r | IP b => every_b ok b
  | IS s => every_s ok s | IT e => every_t ok e
  | ISeq i j => every_c ok i && every_c ok j
  | IW _ w e => every_w ok w && every_t ok e
  | IBody b r e => every_s ok b && every_rs ok r && every_t ok e
  | IR _ r => every_rs ok r
  | IWBody c b => every ok c && every_s ok b
  | IEach _ i => every_c ok i
  | ILoop i => ok (Call RNone "loop" ANil (BBlock Lit)) && every_c ok i
  | IDo r f b => ok (Call r f ANil b) && every_b ok b
  end.

Fixpoint breaks_c (i : code) : bool :=
  match i with
  | IN n => breaks n | IA a => breaks_a a | IV r => breaks_r r | IP b => breaks_b b
  | IS s => breaks_s s | IT e => breaks_t e
  | ISeq i j => breaks_c i || breaks_c j
  | IW _ w e => breaks_w w || breaks_t e
  | IBody b r e => breaks_s b || breaks_rs r || breaks_t e
  | IR _ r => breaks_rs r
  | IWBody _ _ | IEach _ _ | ILoop _ | IDo _ _ _ => false
  end.

Lemma no_break_word :
  (forall n, every not_break n = true -> breaks n = false) /\
  (forall a, every_a not_break a = true -> breaks_a a = false) /\
  (forall r, every_r not_break r = true -> breaks_r r = false) /\
  (forall b, every_b not_break b = true -> breaks_b b = false) /\
  (forall s, every_s not_break s = true -> breaks_s s = false) /\
  (forall e, every_t not_break e = true -> breaks_t e = false) /\
  (forall w, every_w not_break w = true -> breaks_w w = false) /\
  (forall r, every_rs not_break r = true -> breaks_rs r = false).
Proof.
  apply syntax_ind;
    cbn [every every_a every_r every_b every_s every_t every_w every_rs
         breaks breaks_a breaks_r breaks_b breaks_s breaks_t breaks_w breaks_rs not_break];
    intros; andb; try reflexivity; try discriminate;
    repeat match goal with H : ?P -> _ = false |- _ => specialize (H ltac:(assumption)) end;
    repeat match goal with H : _ = false |- _ => rewrite H end; reflexivity.
Qed.

Ltac codes :=
  cbn [every_c breaks_c every every_a every_r every_b every_s every_t every_w every_rs
       breaks breaks_a breaks_r breaks_b breaks_s breaks_t breaks_w breaks_rs
       for_plain not_loop] in *.


Ltac sides := codes; repeat (apply andb_true_iff; split); repeat (apply orb_false_iff; split);
  auto; try reflexivity.

Lemma no_break : forall W i t o, exec W i t o ->
  every_c for_plain i = true -> breaks_c i = false -> o <> OBreak.
Proof.
  intros W i t o X. induction X; intros E B; codes; andb; try discriminate; try congruence;
    try (apply IHX; sides; fail); try (apply IHX1; sides; fail);
    try (apply IHX2; sides; fail); try (apply IHX3; sides; fail);
    try (intros ->; cbn in *; tauto).
  - (* for *) apply IHX; sides. apply (proj1 no_break_word). assumption.
  - (* calls of methods *) destruct H0 as [->|[[k [_ ->]]| ->]]; discriminate.
Qed.

(** ** StopIteration comes from somewhere *)

Fixpoint nostop (W : world) (i : code) : Prop :=
  match i with
  | ISeq i j => nostop W i /\ nostop W j
  | IR k _ => k = true -> stops W
  | IEach _ i | ILoop i => nostop W i
  | _ => True
  end.

Lemma no_stop : forall W i t o, exec W i t o -> nostop W i -> o = Raise true -> stops W.
Proof.
  intros W i t o X. induction X; intros E B; cbn [nostop] in *; try discriminate;
    repeat match goal with H : _ /\ _ |- _ => destruct H end;
    try (apply IHX; cbn [nostop]; auto; fail); try (apply IHX2; cbn [nostop]; auto; fail);
    try (apply IHX1; cbn [nostop]; auto; fail); try (apply IHX3; cbn [nostop]; auto; fail);
    try (injection B as ->; auto; fail);
    try (subst; exfalso; cbn in *; tauto).
  - (* rescue *) apply IHX2; [|assumption]. intros ->. apply IHX1; [exact Logic.I|reflexivity].
  - destruct H0 as [->|[[k [C ->]]| ->]]; try discriminate. injection B as ->. apply C. reflexivity.
Qed.

(** ** Code the analysis calls diverging does not complete *)

Definition some {A} (o : option A) : bool := match o with Some _ => true | None => false end.

Fixpoint dead_rs (r : rescues) : bool :=
  match r with RNil => true | RCons _ s r => some (analyze_s s) && dead_rs r end.

Fixpoint dead (i : code) : bool :=
  match i with
  | IN n => diverges n
  | IS s => some (analyze_s s)
  | IT e => some (analyze_t e)
  | ISeq i j => dead i || dead j
  | IW _ w e => some (analyze_w w) && some (analyze_t e)
  | IBody b r e => (some (analyze_s b) || some (analyze_t e)) && dead_rs r
  | IR _ r => dead_rs r
  | IDo r f b => terminating r f || diverging_loop r f b
  | ILoop (IN n) => negb (breaks n)
  | _ => false
  end.

Lemma some_join : forall a b, some (join a b) = some a && some b.
Proof. intros [x|] [y|]; reflexivity. Qed.

Lemma dead_rescues : forall a s r, some (analyze_rs (RCons a s r)) = dead_rs (RCons a s r).
Proof.
  intros a s r. revert a s. induction r as [|a' s' r IH]; intros a s.
  - cbn [dead_rs analyze_rs]. rewrite andb_true_r. reflexivity.
  - cbn [dead_rs]. change (analyze_rs (RCons a s (RCons a' s' r)))
      with (join (analyze_s s) (analyze_rs (RCons a' s' r))).
    rewrite some_join, IH. reflexivity.
Qed.

Lemma dead_branch : forall p s e,
  diverges (If p s e) = some (analyze_s s) && some (analyze_t e) /\
  diverges (Unless p s e) = some (analyze_s s) && some (analyze_t e) /\
  some (analyze_t (Elsif p s e)) = some (analyze_s s) && some (analyze_t e).
Proof.
  intros p s e.
  assert (F : some (match e with NoTail => None | _ => join (analyze_s s) (analyze_t e) end) =
              some (analyze_s s) && some (analyze_t e)).
  { destruct e; [cbn; rewrite andb_false_r; reflexivity|..]; apply some_join. }
  split; [exact F|split; exact F].
Qed.

Lemma dead_case : forall p w e,
  diverges (Case p w e) = some (analyze_w w) && some (analyze_t e) /\
  diverges (CaseIn p w e) = some (analyze_w w) && some (analyze_t e).
Proof.
  intros p w e.
  assert (F : some (match e with NoTail => None | _ => join (analyze_w w) (analyze_t e) end) =
              some (analyze_w w) && some (analyze_t e)).
  { destruct e; [cbn; rewrite andb_false_r; reflexivity|..]; apply some_join. }
  split; exact F.
Qed.

Lemma dead_begin : forall b r e n, diverges (Begin b r e n) = true ->
  some (analyze_t n) = true \/ dead (IBody b r e) = true.
Proof.
  intros b r e n D. unfold diverges in D. cbn [analyze] in D.
  destruct (analyze_t n) as [x|]; [left; reflexivity|right].
  cbv zeta in D.
  assert (H : forall x : reach, x = match analyze_s b with Some es => Some es | None => analyze_t e end ->
     some x = some (analyze_s b) || some (analyze_t e)).
  { intros x ->. destruct (analyze_s b); reflexivity. }
  cbn [dead]. destruct r as [|a s r].
  - cbn [dead_rs]. rewrite andb_true_r. rewrite <- (H _ eq_refl). exact D.
  - change (some (join (match analyze_s b with Some es => Some es | None => analyze_t e end)
                       (analyze_rs (RCons a s r))) = true) in D.
    rewrite some_join, dead_rescues, (H _ eq_refl) in D. exact D.
Qed.

Lemma dead_list : forall l n s, some (analyze_s (SCons l n s)) =
  match s with SNil => diverges n | _ => some (analyze_s s) end.
Proof. intros l n [|m x s]; reflexivity. Qed.

Lemma terminating_spec : forall r f, terminating r f = true ->
  exists c, match r with RNone => c = None | RConst k => c = Some k | RNode _ => False end /\
            never_returns c f.
Proof.
  intros r f T. unfold never_returns.
  assert (M : existsb (String.eqb f) terminators = true ->
              In f ["raise"; "fail"; "throw"; "exit"; "exit!"; "abort"]).
  { intros E. apply existsb_exists in E. destruct E as [x [J E]]. apply String.eqb_eq in E.
    subst x. exact J. }
  destruct r as [|c|n]; cbn [terminating] in T.
  - exists None. split; [reflexivity|split; [auto|left; reflexivity]].
  - apply andb_true_iff in T. destruct T as [C T]. apply orb_true_iff in C.
    exists (Some c). split; [reflexivity|split; [auto|right]].
    destruct C as [C|C]; apply String.eqb_eq in C; subst c; [left|right]; reflexivity.
  - discriminate.
Qed.

Lemma do_dead : forall W r f b, keeps_builtins W -> terminating r f || diverging_loop r f b = true ->
  exists c, builtin r f b c /\ ~ own W c f.
Proof.
  intros W r f b K D. apply orb_true_iff in D. destruct D as [D|D].
  - destruct (terminating_spec r f D) as [c [Q R]]. exists c. split.
    + split; [exact Q|left; exact R].
    + apply K. left. exact R.
  - destruct r as [|c|n]; try discriminate. destruct b as [|n|b]; try discriminate.
    cbn [diverging_loop] in D. apply andb_true_iff in D. destruct D as [D _].
    apply String.eqb_eq in D. exists None. split.
    + split; [reflexivity|right; repeat split; eauto].
    + apply K. right. auto.
Qed.

Ltac loops := let Q := fresh in intros Q;
  repeat match goal with H : stops _ -> _ = true |- _ => specialize (H Q) end; codes; andb; sides.

Lemma dead_end : forall W i t o, exec W i t o -> keeps_builtins W ->
  every_c for_plain i = true -> (stops W -> every_c not_loop i = true) ->
  dead i = true -> o <> Normal.
Proof.
  intros W i t o X K. induction X; intros E L B; cbn [dead] in *; try discriminate; try congruence;
    try (apply IHX; [codes; andb; sides|loops|auto]; fail).
  - (* seq *) apply orb_true_iff in B. codes. andb. destruct B as [B|B].
    + exfalso. apply IHX1; auto. loops.
    + apply IHX2; auto. loops.
  - (* stmt *) codes. andb. rewrite dead_list in B. destruct s as [|m x s].
    + exfalso. apply IHX1; auto. loops.
    + apply IHX2; auto. loops.
  Ltac pass IHX := apply IHX; [codes; andb; sides|loops|].
  - (* then *) pass IHX. rewrite (proj1 (dead_branch p s e)) in B. andb. cbn [dead].
    rewrite H. apply orb_true_r.
  - pass IHX. rewrite (proj1 (dead_branch p s e)) in B. andb. cbn [dead].
    rewrite H0. apply orb_true_r.
  - pass IHX. rewrite (proj1 (proj2 (dead_branch p s e))) in B. andb. cbn [dead].
    rewrite H. apply orb_true_r.
  - pass IHX. rewrite (proj1 (proj2 (dead_branch p s e))) in B. andb. cbn [dead].
    rewrite H0. apply orb_true_r.
  - (* case *) pass IHX. rewrite (proj1 (dead_case p w e)) in B. cbn [dead]. rewrite B.
    apply orb_true_r.
  - pass IHX. rewrite (proj2 (dead_case p w e)) in B. cbn [dead]. rewrite B. apply orb_true_r.
  - (* when *) pass IHX. cbn [analyze_w] in B. rewrite some_join in B. andb. rewrite H.
    apply orb_true_r.
  - pass IHX. cbn [analyze_w] in B. rewrite some_join in B. andb. rewrite H1, H0.
    apply orb_true_r.
  - (* begin *) apply dead_begin in B. codes. andb. destruct B as [B|B].
    + exfalso. apply IHX2; auto. loops.
    + apply IHX1; [sides|loops|exact B].
  - (* body *) codes. andb. apply orb_true_iff in H. destruct H as [H|H].
    + exfalso. apply IHX1; auto. loops.
    + apply IHX2; auto. loops.
  - (* rescued *) codes. andb. apply IHX2; [sides|loops|assumption].
  - (* retried *) apply IHX3; auto.
  - (* rescue *) pass IHX. cbn [dead_rs] in B. andb. rewrite H. apply orb_true_r.
  - pass IHX. cbn [dead_rs] in B. andb. rewrite H0. apply orb_true_r.
  - (* loop *) apply IHX2; auto.
  - (* break out of it *) exfalso. destruct i; try discriminate. apply negb_true_iff in B.
    apply (no_break _ _ _ _ X); [codes; andb; assumption|exact B|reflexivity].
  - (* StopIteration *) exfalso. destruct i; try discriminate.
    assert (Q : stops W) by (apply (no_stop _ _ _ _ X); [exact Logic.I|reflexivity]).
    specialize (L Q). codes. discriminate.
  - (* any way out of the block *) destruct i; try discriminate. intros ->. apply H. left. reflexivity.
  - (* call *) pass IHX. unfold diverges in B. cbn [analyze] in B.
    destruct (terminating r f); [rewrite !orb_true_r; reflexivity|].
    destruct (diverging_loop r f b); [rewrite !orb_true_r; reflexivity|discriminate].
  - (* own method *) exfalso. destruct (do_dead W r f _ K B) as [c [Q N]]. apply N, H, Q.
  - exfalso. destruct (do_dead W r f _ K B) as [c [Q N]]. apply N, H, Q.
Qed.

(** ** Reported statements are not started *)

Fixpoint clean (F : list N) (n : node) : Prop :=
  match n with
  | Lit | Redo | Retry => True
  | Return a | Break a | Next a | Group a => clean_a F a
  | Call r _ a b => clean_r F r /\ clean_a F a /\ clean_b F b
  | If p t e | Unless p t e => clean F p /\ clean_s F t /\ clean_t F e
  | Case p w e | CaseIn p w e => clean F p /\ clean_w F w /\ clean_t F e
  | Begin b r e n => clean_s F b /\ clean_rs F r /\ clean_t F e /\ clean_t F n
  | While _ c b | For c b => clean F c /\ clean_s F b
  | Paren s | Stmts s => clean_s F s
  | And a b | Or a b | RescueMod a b => clean F a /\ clean F b
  | Lambda b | Def b => clean F b
  end
with clean_a (F : list N) (a : args) : Prop :=
  match a with ANil => True | ACons n a => clean F n /\ clean_a F a end
with clean_r (F : list N) (r : recv) : Prop :=
  match r with RNode n => clean F n | RNone | RConst _ => True end
with clean_b (F : list N) (b : blk) : Prop :=
  match b with BPass n | BBlock n => clean F n | BNone => True end
with clean_s (F : list N) (s : stmts) : Prop :=
  match s with
  | SNil => True
  | SCons l n s => ~ In l F /\ clean F n /\ (diverges n = true \/ clean_s F s)
  end
with clean_t (F : list N) (e : tail) : Prop :=
  match e with
  | NoTail => True
  | Else s => clean_s F s
  | Elsif p t e => clean F p /\ clean_s F t /\ clean_t F e
  end
with clean_w (F : list N) (w : whens) : Prop :=
  match w with WNil => True | WCons a s w => clean_a F a /\ clean_s F s /\ clean_w F w end
with clean_rs (F : list N) (r : rescues) : Prop :=
  match r with RNil => True | RCons a s r => clean_a F a /\ clean_s F s /\ clean_rs F r end.

Fixpoint clean_c (F : list N) (i : code) : Prop :=
  match i with
  | IN n => clean F n | IA a => clean_a F a | IV r => clean_r F r | IP b => clean_b F b
  | IS s => clean_s F s | IT e => clean_t F e
  | ISeq i j => clean_c F i /\ clean_c F j
  | IW _ w e => clean_w F w /\ clean_t F e
  | IBody b r e => clean_s F b /\ clean_rs F r /\ clean_t F e
  | IR _ r => clean_rs F r
  | IWBody c b => clean F c /\ clean_s F b
  | IEach _ i | ILoop i => clean_c F i
  | IDo r f b => clean_b F b
  end.
Ltac cleans := cbn [clean_c clean clean_a clean_r clean_b clean_s clean_t clean_w clean_rs] in *.
Ltac conj := repeat match goal with H : _ /\ _ |- _ => destruct H end.

Lemma not_started : forall F W i t o, exec W i t o -> keeps_builtins W ->
  every_c for_plain i = true -> (stops W -> every_c not_loop i = true) ->
  clean_c F i -> forall l, In l t -> ~ In l F.
Proof.
  intros F W i t o X K. induction X; intros E L C x J; cleans; conj;
    try (destruct J; fail);
    repeat match goal with J : In _ (_ ++ _) |- _ => apply in_app_iff in J; destruct J as [J|J] end;
    try (apply IHX; [codes; andb; sides|loops|cleans; tauto|assumption]; fail);
    try (apply IHX1; [codes; andb; sides|loops|cleans; tauto|assumption]; fail);
    try (apply IHX2; [codes; andb; sides|loops|cleans; tauto|assumption]; fail);
    try (apply IHX3; [codes; andb; sides|loops|cleans; tauto|assumption]; fail).
  - (* a statement passed *) destruct J as [<-|J]; [assumption|]. apply in_app_iff in J.
    destruct J as [J|J].
    + apply IHX1; [codes; andb; sides|loops|cleans; tauto|assumption].
    + apply IHX2; [codes; andb; sides|loops|cleans|assumption].
      destruct H1 as [D|D]; [exfalso|exact D].
      apply (dead_end _ _ _ _ X1 K); [codes; andb; sides|loops|exact D|reflexivity].
  - destruct J as [<-|J]; [assumption|].
    apply IHX; [codes; andb; sides|loops|cleans; tauto|assumption].
Qed.

Lemma report_heads : forall s b l, In l (report b s) -> In l (map fst (elems s)).
Proof.
  induction s as [|m n s IH]; intros b l H; cbn [report elems map fst] in *; [destruct H|].
  apply in_app_iff in H. destruct H as [H|H].
  - destruct b; [destruct H as [<-|[]]; left; reflexivity|destruct H].
  - right. apply (IH _ _ H).
Qed.

Lemma heads_locs : forall s l, In l (map fst (elems s)) -> In l (locs_s s).
Proof.
  induction s as [|m n s IH]; intros l H; cbn [elems map fst locs_s] in *; [destruct H|].
  destruct H as [<-|H]; [left; reflexivity|right]. apply in_app_iff. right. auto.
Qed.

Ltac walks :=
  cbn [walk walk_a walk_r walk_b walk_s walk_t walk_w walk_rs
       locs locs_a locs_r locs_b locs_s locs_t locs_w locs_rs] in *.

Ltac apps := repeat match goal with
  | H : In _ (_ ++ _) |- _ => apply in_app_iff in H; destruct H as [H|H]
  end.

Lemma report_locs : forall s l, In l (report false s) -> In l (locs_s s).
Proof. intros s l H. apply heads_locs, (report_heads _ _ _ H). Qed.

Ltac put := repeat (rewrite in_app_iff || cbn [In]); auto 8 using report_locs.

Lemma walk_locs :
  (forall n l, In l (walk n) -> In l (locs n)) /\
  (forall a l, In l (walk_a a) -> In l (locs_a a)) /\
  (forall r l, In l (walk_r r) -> In l (locs_r r)) /\
  (forall b l, In l (walk_b b) -> In l (locs_b b)) /\
  (forall s l, In l (walk_s s) -> In l (locs_s s)) /\
  (forall e l, In l (walk_t e) -> In l (locs_t e)) /\
  (forall w l, In l (walk_w w) -> In l (locs_w w)) /\
  (forall r l, In l (walk_rs r) -> In l (locs_rs r)).
Proof.
  apply syntax_ind; intros; walks; auto; apps; put.
Qed.

Definition walk_n := proj1 walk_locs.
Definition walk_l := proj1 (proj2 (proj2 (proj2 (proj2 walk_locs)))).

Lemma nodup_app : forall {A} (a b : list A), NoDup (a ++ b) ->
  NoDup a /\ NoDup b /\ (forall x, In x a -> In x b -> False).
Proof.
  induction a as [|x a IH]; intros b H; cbn in *.
  - split; [constructor|split; [exact H|intros y []]].
  - apply NoDup_cons_iff in H. destruct H as [N H]. destruct (IH _ H) as [P [Q R]].
    rewrite in_app_iff in N. split; [constructor; tauto|split; [exact Q|]].
    intros y [<-|J] K; [tauto|eauto].
Qed.

Lemma report_seen : forall s l, In l (map fst (elems s)) -> In l (report true s).
Proof.
  induction s as [|m n s IH]; intros l H; cbn [report elems map fst] in *; [exact H|].
  destruct H as [<-|H]; [left; reflexivity|right]. cbn [orb]. auto.
Qed.

(** What [F] marks inside a piece of syntax is what the walk of that piece marks. *)
Definition within (F here marked : list N) : Prop :=
  forall l, In l here -> In l F -> In l marked.

Ltac nodups := repeat match goal with
  | H : NoDup (_ ++ _) |- _ => apply nodup_app in H; destruct H as [? [? ?]]
  end.

(** [within] passes to a part when the parts are disjoint. *)
Lemma clean_walk : forall F,
  (forall n, NoDup (locs n) -> within F (locs n) (walk n) -> clean F n) /\
  (forall a, NoDup (locs_a a) -> within F (locs_a a) (walk_a a) -> clean_a F a) /\
  (forall r, NoDup (locs_r r) -> within F (locs_r r) (walk_r r) -> clean_r F r) /\
  (forall b, NoDup (locs_b b) -> within F (locs_b b) (walk_b b) -> clean_b F b) /\
  (forall s, NoDup (locs_s s) -> within F (locs_s s) (report false s ++ walk_s s) ->
     clean_s F s) /\
  (forall e, NoDup (locs_t e) -> within F (locs_t e) (walk_t e) -> clean_t F e) /\
  (forall w, NoDup (locs_w w) -> within F (locs_w w) (walk_w w) -> clean_w F w) /\
  (forall r, NoDup (locs_rs r) -> within F (locs_rs r) (walk_rs r) -> clean_rs F r).
Proof.
  intros F.
  destruct walk_locs as [w1 [w2 [w3 [w4 [w5 [w6 [w7 w8]]]]]]].
  apply syntax_ind; intros; walks; cleans; auto; nodups;
    try (repeat split;
      match goal with
      | IH : NoDup _ -> within _ _ _ -> ?G |- ?G => apply IH; [assumption|]
      end;
      intros x J K;
      match goal with W : within _ _ _ |- _ =>
        let P := fresh in
        assert (P := W x ltac:(put) K); apps; auto; try (apply in_app_iff; tauto); exfalso;
        match goal with P : In x _ |- _ =>
          first [apply w1 in P|apply w2 in P|apply w3 in P|apply w4 in P|apply w5 in P|apply w6 in P
                |apply w7 in P|apply w8 in P|apply report_locs in P] end;
        match goal with D : forall x, In x _ -> In x _ -> False |- _ =>
          apply (D x); repeat rewrite in_app_iff; tauto end
      end; fail).
  (* a statement list *)
  cbn [report app orb] in H2. apply NoDup_cons_iff in H1. destruct H1 as [N D].
  apply nodup_app in D. destruct D as [D1 [D2 D3]]. rewrite in_app_iff in N.
  assert (R : forall x, In x (report (diverges n) s) -> In x (locs_s s)).
  { intros x J. apply heads_locs, (report_heads _ _ _ J). }
  split; [|split].
  - intros J. apply N. specialize (H2 l (or_introl eq_refl) J). apps; auto.
  - apply H; [exact D1|]. intros x J K.
    assert (P := H2 x ltac:(put) K). apps; auto; exfalso; apply (D3 x); auto.
  - destruct (diverges n) eqn:V; [left; reflexivity|right]. apply H0; [exact D2|].
    intros x J K. assert (P := H2 x ltac:(put) K). apply in_app_iff. apps; auto.
    exfalso. apply (D3 x); auto.
Qed.

(** ** Everything after a plain exit is reported *)

Scheme leaves_mut := Induction for leaves Sort Prop
  with ends_mut := Induction for ends Sort Prop
  with arms_mut := Induction for arms Sort Prop.
Combined Scheme leaves_ind' from leaves_mut, ends_mut, arms_mut.

Lemma never_terminating : forall c f, never_returns c f ->
  existsb (String.eqb f) terminators = true /\
  match c with None => True | Some k => (k =? "Process") || (k =? "Kernel") = true end.
Proof.
  intros c f [J C]. split.
  - apply existsb_exists. exists f. split; [exact J|apply String.eqb_refl].
  - destruct C as [->|[->| ->]]; [exact Logic.I|reflexivity..].
Qed.

Lemma leaves_diverge :
  (forall n, leaves n -> diverges n = true) /\
  (forall s, ends s -> some (analyze_s s) = true) /\
  (forall e, arms e -> some (analyze_t e) = true).
Proof.
  apply leaves_ind'; intros; try reflexivity.
  - apply never_terminating in n. destruct n as [E _]. unfold diverges. cbn [analyze terminating].
    rewrite E. reflexivity.
  - apply never_terminating in n. destruct n as [E C]. unfold diverges. cbn [analyze terminating].
    rewrite C, E. reflexivity.
  - rewrite (proj1 (dead_branch p s e)), H, H0. reflexivity.
  - rewrite (proj1 (proj2 (dead_branch p s e))), H, H0. reflexivity.
  - exact H.
  - rewrite dead_list. destruct s; [discriminate|exact H].
  - exact H.
  - rewrite (proj2 (proj2 (dead_branch p s e))), H, H0. reflexivity.
Qed.

Lemma reported : forall s b before m n after l, elems s = (before ++ (m, n) :: after)%list ->
  diverges n = true -> In l (map fst after) -> In l (report b s).
Proof.
  induction s as [|k x s IH]; intros b before m n after l E D J; cbn [elems] in E.
  - destruct before; discriminate.
  - cbn [report]. apply in_app_iff. right. destruct before as [|y before]; cbn [app] in E.
    + injection E as <- <- E. rewrite D, orb_true_r. apply report_seen. rewrite E. exact J.
    + injection E as _ E. apply (IH _ _ _ _ _ _ E D J).
Qed.

Ltac lists := cbn [lists lists_a lists_r lists_b lists_s lists_t lists_w lists_rs] in *.

Lemma walked :
  (forall n s, In s (lists n) -> incl (report false s) (walk n)) /\
  (forall a s, In s (lists_a a) -> incl (report false s) (walk_a a)) /\
  (forall r s, In s (lists_r r) -> incl (report false s) (walk_r r)) /\
  (forall b s, In s (lists_b b) -> incl (report false s) (walk_b b)) /\
  (forall t s, In s (lists_s t) -> incl (report false s) (walk_s t)) /\
  (forall e s, In s (lists_t e) -> incl (report false s) (walk_t e)) /\
  (forall w s, In s (lists_w w) -> incl (report false s) (walk_w w)) /\
  (forall r s, In s (lists_rs r) -> incl (report false s) (walk_rs r)).
Proof.
  apply syntax_ind; intros; lists; walks; try (intros x []; fail);
    repeat match goal with
    | J : False |- _ => destruct J
    | J : In _ (_ ++ _) |- _ => apply in_app_iff in J; destruct J as [J|J]
    | J : In _ (_ :: _) |- _ => destruct J as [<-|J]
    end;
    intros x K; repeat rewrite in_app_iff; auto 8;
    repeat match goal with IH : forall s, In s _ -> incl _ _, J : In ?s _ |- _ =>
      let P := fresh in assert (P := IH _ J _ K); clear J end; auto 8.
  all: tauto.
Qed.
