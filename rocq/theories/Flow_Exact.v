(** On structured programs the analysis misses nothing: if no statement is marked, every
    statement can run. *)
From Coq Require Import String List Bool NArith.
Import ListNotations.
From Verif Require Import Flow_Model Flow_Spec Flow_Proofs.
Local Open Scope string_scope.

Lemma terminating_ending : forall r f, terminating r f = ending r f.
Proof.
  intros [|c|n] f; unfold terminating, ending, terminators.
  - rewrite andb_true_r. reflexivity.
  - apply andb_comm.
  - rewrite andb_false_r. reflexivity.
Qed.

Lemma free : forall W r f b, ending r f = false -> looping r f b = false ->
  forall c, builtin r f b c -> own W c f.
Proof.
  intros W r f b E L c [C B]. exfalso. destruct B as [B|[-> [-> [body ->]]]].
  - assert (T : ending r f = true); [|congruence].
    destruct (never_terminating _ _ B) as [T P]. unfold ending. fold terminators. rewrite T.
    destruct r as [|k|n]; [reflexivity| |destruct C]. subst c. exact P.
  - destruct r; [|discriminate|destruct C]. discriminate.
Qed.

Lemma expression_falls : forall n, expression n = true -> diverges n = false.
Proof.
  intros [] E; try reflexivity; try discriminate. unfold diverges. cbn [analyze].
  cbn [expression] in E. andb. rewrite terminating_ending.
  apply negb_true_iff in H, H0. rewrite H.
  destruct r; try reflexivity. destruct b; try reflexivity. cbn [looping] in H0.
  cbn [diverging_loop]. rewrite H0. reflexivity.
Qed.

Section Runs.
Variable W : world.

Definition completes (i : code) : Prop := exists t, exec W i t Normal.
Definition reaches (i : code) (ls : list N) : Prop :=
  forall l, In l ls -> exists t o, exec W i t o /\ In l t.

Lemma seq_completes : forall i j, completes i -> completes j -> completes (ISeq i j).
Proof. intros i j [t X] [u Y]. exists (t ++ u)%list. apply e_seq; assumption. Qed.

Lemma reaches_first : forall i j ls, reaches i ls -> reaches (ISeq i j) ls.
Proof.
  intros i j ls R l J. destruct (R l J) as [t [o [X K]]]. destruct o eqn:O;
    try (exists t, o; subst o; split; [apply e_seq_out; [exact X|discriminate]|exact K]).
  exists (t ++ [])%list, Cut. split; [apply e_seq; [exact X|apply e_cut]|]. apply in_app_iff. auto.
Qed.

Lemma reaches_second : forall i j ls, completes i -> reaches j ls -> reaches (ISeq i j) ls.
Proof.
  intros i j ls [t X] R l J. destruct (R l J) as [u [o [Y K]]]. exists (t ++ u)%list, o.
  split; [apply e_seq; assumption|apply in_app_iff; auto].
Qed.

Lemma reaches_app : forall i a b, reaches i a -> reaches i b -> reaches i (a ++ b).
Proof. intros i a b A B l J. apply in_app_iff in J. destruct J; auto. Qed.

Lemma reaches_map : forall i j ls, (forall t o, exec W i t o -> exec W j t o) ->
  reaches i ls -> reaches j ls.
Proof. intros i j ls M R l J. destruct (R l J) as [t [o [X K]]]. eauto. Qed.

Lemma completes_map : forall i j, (forall t o, exec W i t o -> exec W j t o) ->
  completes i -> completes j.
Proof. intros i j M [t X]. exists t. auto. Qed.

Lemma reaches_nil : forall i, reaches i [].
Proof. intros i l []. Qed.

(** a body run by a method, a loop or later *)
Lemma reaches_each : forall q i ls, reaches i ls -> reaches (IEach q i) ls.
Proof.
  intros q i ls R l J. destruct (R l J) as [t [o [X K]]].
  assert (A : In o [Normal; ONext; ORedo] -> exists t o, exec W (IEach q i) t o /\ In l t).
  { intros O. exists (t ++ [])%list, Cut. split; [apply (e_each _ _ _ _ _ o); auto; apply e_cut|].
    apply in_app_iff; auto. }
  destruct o eqn:O; try (apply A; cbn; tauto);
    try (exists t, o; subst o; split; [apply e_each_out; [exact X|]|exact K];
         cbn; intuition discriminate).
  exists t, Normal. split; [apply e_each_break; exact X|exact K].
Qed.

Lemma reaches_wbody : forall c b ls, reaches (IS b) ls -> reaches (IWBody c b) ls.
Proof.
  intros c b ls R l J. destruct (R l J) as [t [o [X K]]].
  assert (P : forall u, In l (t ++ u)) by (intros u; apply in_app_iff; auto).
  destruct o eqn:O;
    try (exists t, o; subst o; split; [apply e_wbody_out; [exact X|]|exact K];
         cbn; intuition discriminate).
  - exists (t ++ [])%list, Cut. split; [apply (e_wbody _ _ _ _ _ Normal); auto; apply e_cut|apply P].
  - exists t, Normal. split; [apply e_wbody_break; exact X|exact K].
  - exists (t ++ [])%list, Cut. split; [apply (e_wbody _ _ _ _ _ ONext); auto; apply e_cut|apply P].
  - exists (t ++ [])%list, Cut. split; [apply e_wbody_redo; auto; apply e_cut|apply P].
Qed.

Lemma while_wbody : forall c b t o, exec W (IWBody c b) t o ->
  o <> OBreak /\ o <> ONext /\ o <> ORedo.
Proof.
  assert (G : forall i t o, exec W i t o ->
    match i with IWBody _ _ => True | IN (While _ _ _) => True | _ => False end ->
    o <> OBreak /\ o <> ONext /\ o <> ORedo).
  { intros i t o X. induction X; intros G; try (destruct G; fail); auto;
      try (repeat split; discriminate).
    repeat split; intros ->; apply H; cbn; tauto. }
  intros c b t o X. apply (G _ _ _ X Logic.I).
Qed.

Lemma reaches_return : forall (f : args -> node) a out ls,
  (forall t, exec W (IA a) t Normal -> exec W (IN (f a)) t out) ->
  (forall t o, exec W (IA a) t o -> o <> Normal -> exec W (IN (f a)) t o) ->
  reaches (IA a) ls -> reaches (IN (f a)) ls.
Proof.
  intros f a out ls A B R l J. destruct (R l J) as [t [o [X K]]].
  destruct o eqn:O; try (exists t, o; subst o; split; [apply B; [exact X|discriminate]|exact K]).
  eauto.
Qed.

Ltac splits H := repeat match goal with H : (_ ++ _)%list = [] |- _ =>
  apply app_eq_nil in H; destruct H end.

Ltac negs := repeat match goal with H : negb _ = true |- _ => apply negb_true_iff in H end.

Ltac nils := repeat match goal with E : _ = [] |- _ => rewrite E end; reflexivity.
Ltac use H C R := destruct H as [C R]; [nils|sides|].
Ltac expr C := match type of C with diverges ?n = false -> _ =>
  specialize (C (expression_falls n ltac:(assumption))) end.

(** what is known of a piece of syntax none of whose statements is marked *)
Definition fine (here : list N) (marked : list N) (ok stays : bool) (i : code) : Prop :=
  marked = [] -> ok = true -> (stays = false -> completes i) /\ reaches i here.

Lemma report_true : forall s, report true s = [] -> s = SNil.
Proof. intros [|l n s] H; [reflexivity|discriminate]. Qed.

Lemma all_fine :
  (forall n, fine (locs n) (walk n) (every structured n) (diverges n) (IN n)) /\
  (forall a, fine (locs_a a) (walk_a a) (every_a structured a && expressions a) false (IA a)) /\
  (forall r, fine (locs_r r) (walk_r r)
     (every_r structured r && match r with RNode n => expression n | _ => true end) false (IV r)) /\
  (forall b, walk_b b = [] -> every_b structured b = true ->
     match b with
     | BNone => True
     | BPass n => expression n = true -> completes (IP b) /\ reaches (IP b) (locs_b b)
     | BBlock n => reaches (IN n) (locs_b b)
     end) /\
  (forall s, fine (locs_s s) (report false s ++ walk_s s) (every_s structured s)
     (some (analyze_s s)) (IS s)) /\
  (forall e, fine (locs_t e) (walk_t e) (every_t structured e && tests e)
     (some (analyze_t e)) (IT e)) /\
  (forall w e,
     fine (locs_t e) (walk_t e) (every_t structured e && tests e) (some (analyze_t e)) (IT e) ->
     fine (locs_w w ++ locs_t e) (walk_w w ++ walk_t e)
       (every_w structured w && patterns w && (every_t structured e && tests e))
       (some (analyze_w w) && some (analyze_t e)) (IW false w e)) /\
  (forall r : rescues, True).
Proof.
  apply syntax_ind; unfold fine; intros; walks;
    cbn [every every_a every_r every_b every_s every_t every_w every_rs structured] in *;
    splits H; andb; try exact Logic.I.
  (* Lit *)
  - split; [intros _; exists []; apply e_lit|apply reaches_nil].
  - split; [discriminate|]. use H C R.
    apply (reaches_return Return a ORet); [apply e_return|apply e_return_out|exact R].
  - split; [discriminate|]. use H C R.
    apply (reaches_return Break a OBreak); [apply e_break|apply e_break_out|exact R].
  - split; [discriminate|]. use H C R.
    apply (reaches_return Next a ONext); [apply e_next|apply e_next_out|exact R].
  - split; [discriminate|apply reaches_nil].
  - split; [discriminate|apply reaches_nil].
  - (* Call *)
    use H CR RR. use H0 CA RA.
    specialize (H1 H5 H7). specialize (CR eq_refl). specialize (CA eq_refl).
    assert (CP : completes (IP b) /\ (forall l, In l (locs_b b) ->
                   reaches (IP b) [l] \/ (completes (IP b) /\ reaches (IDo r f b) [l]))).
    { destruct b as [|n|n].
      - split; [exists []; apply e_pnone|intros l []].
      - destruct (H1 H9) as [A B]. split; [exact A|]. intros l J. left. intros x [<-|[]]. auto.
      - assert (A : completes (IP (BBlock n))) by (exists []; apply e_pblock). split; [exact A|].
        intros l J. right. split; [exact A|]. intros x [<-|[]]. andb.
        negs.
        assert (R : reaches (IEach true (IN n)) (locs_b (BBlock n))) by (apply reaches_each; exact H1).
        destruct (R l J) as [t [o [X K]]]. exists t, o. split; [|exact K].
        apply e_do_block; [|exact X]. apply free; assumption. }
    destruct CP as [CP RP]. split.
    + intros D. apply (completes_map _ _ (fun t o => e_call W r f a b t o)).
      repeat apply seq_completes; auto.
      exists []. apply e_do; [|left; reflexivity]. unfold diverges in D. cbn [analyze] in D.
      rewrite terminating_ending in D. destruct (ending r f) eqn:T; [discriminate|].
      apply free; [exact T|]. destruct b as [|n|n]; [destruct r; reflexivity..|].
      andb. negs. assumption.
    + apply (reaches_map _ _ _ (fun t o => e_call W r f a b t o)).
      apply reaches_app; [apply reaches_first; exact RR|].
      apply reaches_second; [exact CR|].
      apply reaches_app; [apply reaches_first; exact RA|].
      apply reaches_second; [exact CA|].
      intros l J. destruct (RP l J) as [R|[C R]].
      * apply (reaches_first _ _ _ R l). left. reflexivity.
      * apply (reaches_second _ _ _ C R l). left. reflexivity.
  - (* If *)
    use H CP RP. use H0 CS RS.
    use H1 CE RE. expr CP.
    rewrite (proj1 (dead_branch p t e)). split.
    + intros D. apply andb_false_iff in D. destruct D as [D|D].
      * apply (completes_map _ _ (fun u o => e_then W p t e u o)). apply seq_completes; auto.
      * apply (completes_map _ _ (fun u o => e_else W p t e u o)). apply seq_completes; auto.
    + apply reaches_app; [|apply reaches_app].
      * apply (reaches_map _ _ _ (fun u o => e_then W p t e u o)). apply reaches_first; auto.
      * apply (reaches_map _ _ _ (fun u o => e_then W p t e u o)). apply reaches_second; auto.
      * apply (reaches_map _ _ _ (fun u o => e_else W p t e u o)). apply reaches_second; auto.
  - (* Unless *)
    use H CP RP. use H0 CS RS.
    use H1 CE RE. expr CP.
    rewrite (proj1 (proj2 (dead_branch p t e))). split.
    + intros D. apply andb_false_iff in D. destruct D as [D|D].
      * apply (completes_map _ _ (fun u o => e_unless W p t e u o)). apply seq_completes; auto.
      * apply (completes_map _ _ (fun u o => e_unless_else W p t e u o)). apply seq_completes; auto.
    + apply reaches_app; [|apply reaches_app].
      * apply (reaches_map _ _ _ (fun u o => e_unless W p t e u o)). apply reaches_first; auto.
      * apply (reaches_map _ _ _ (fun u o => e_unless W p t e u o)). apply reaches_second; auto.
      * apply (reaches_map _ _ _ (fun u o => e_unless_else W p t e u o)). apply reaches_second; auto.
  - (* Case *)
    use H CP RP. expr CP.
    destruct (H0 e H1) as [CW RW]; [nils|sides|]. rewrite (proj1 (dead_case p w e)). split.
    + intros D. apply (completes_map _ _ (fun u o => e_case W p w e u o)).
      apply seq_completes; auto.
    + apply (reaches_map _ _ _ (fun u o => e_case W p w e u o)).
      apply reaches_app; [apply reaches_first; exact RP|apply reaches_second; auto].
  - discriminate.
  - discriminate.
  - (* While *)
    use H CP RP. expr CP. use H0 CS RS. split.
    + intros _. destruct CP as [t X]. exists t. apply e_while_end, X.
    + apply reaches_app.
      * intros l J. destruct (RP l J) as [t [o [X K]]].
        destruct o eqn:O;
          try (exists t, o; subst o; split; [apply e_while; [apply e_seq_out; [exact X|discriminate]|..]; discriminate|exact K]).
        -- exists t, Normal. split; [apply e_while_end, X|exact K].
        -- exists t, Normal. split; [apply e_while_break, X|exact K].
        -- exists (t ++ [])%list, Cut. split; [apply e_while_next; [exact X|apply e_cut]|].
           apply in_app_iff; auto.
        -- exists (t ++ [])%list, Cut. split; [apply e_while_redo; [exact X|apply e_cut]|].
           apply in_app_iff; auto.
      * intros l J. destruct CP as [t X].
        destruct (reaches_wbody c b _ RS l J) as [u [o [Y K]]].
        destruct (while_wbody _ _ _ _ Y) as [N1 [N2 N3]].
        exists (t ++ u)%list, o. split; [|apply in_app_iff; auto].
        apply e_while; auto. apply e_seq; assumption.
  - (* For *)
    use H CP RP. expr CP. use H0 CS RS. split.
    + intros _. apply (completes_map _ _ (fun u o => e_for W c b u o)). apply seq_completes; auto.
      exists []. apply e_each_done.
    + apply (reaches_map _ _ _ (fun u o => e_for W c b u o)).
      apply reaches_app; [apply reaches_first; exact RP|apply reaches_second; auto].
      apply reaches_each. exact RS.
  - (* Group *) use H C R. split.
    + intros _. apply (completes_map _ _ (fun u o => e_group W a u o)). auto.
    + apply (reaches_map _ _ _ (fun u o => e_group W a u o)). auto.
  - discriminate.
  - (* Stmts *) use H C R. split.
    + intros D. apply (completes_map _ _ (fun u o => e_stmts W s u o)). auto.
    + apply (reaches_map _ _ _ (fun u o => e_stmts W s u o)). auto.
  - (* And *) use H CP RP. expr CP. use H0 CS RS. split.
    + intros _. destruct CP as [t X]. exists t. apply e_and, X.
    + apply (reaches_map _ _ _ (fun u o => e_and_both W a b u o)).
      apply reaches_app; [apply reaches_first; exact RP|apply reaches_second; auto].
  - (* Or *) use H CP RP. expr CP. use H0 CS RS. split.
    + intros _. destruct CP as [t X]. exists t. apply e_or, X.
    + apply (reaches_map _ _ _ (fun u o => e_or_both W a b u o)).
      apply reaches_app; [apply reaches_first; exact RP|apply reaches_second; auto].
  - discriminate.
  - (* Lambda *) use H C R. split; [intros _; exists []; apply e_lambda|].
    intros l J. destruct (R l J) as [t [o [X K]]]. exists t, Normal.
    split; [apply (e_lambda_later _ _ _ _ X)|exact K].
  - (* Def *) use H C R. split; [intros _; exists []; apply e_def|].
    intros l J. destruct (R l J) as [t [o [X K]]]. exists t, Normal.
    split; [apply (e_def_later _ _ _ _ X)|exact K].
  - (* operands *) split; [intros _; exists []; apply e_anil|apply reaches_nil].
  - cbn [expressions] in *. andb. use H CP RP. expr CP. use H0 CS RS. split.
    + intros _. apply (completes_map _ _ (fun u o => e_acons W n a u o)). apply seq_completes; auto.
    + apply (reaches_map _ _ _ (fun u o => e_acons W n a u o)).
      apply reaches_app; [apply reaches_first; exact RP|apply reaches_second; auto].
  - split; [intros _; exists []; apply e_vnone|apply reaches_nil].
  - split; [intros _; exists []; apply e_vconst|apply reaches_nil].
  - use H CP RP. expr CP. split.
    + intros _. apply (completes_map _ _ (fun u o => e_vnode W n u o)). auto.
    + apply (reaches_map _ _ _ (fun u o => e_vnode W n u o)). auto.
  - use H CP RP. expr CP. split.
    + apply (completes_map _ _ (fun u o => e_ppass W n u o)). auto.
    + apply (reaches_map _ _ _ (fun u o => e_ppass W n u o)). auto.
  - use H CP RP. exact RP.
  - (* no statements *) split; [intros _; exists []; apply e_nil|apply reaches_nil].
  - (* a statement *)
    cbn [report app orb] in H1. use H CN RN.
    assert (Q : diverges n = true -> s = SNil).
    { intros D. rewrite D in H1. apply report_true, H1. }
    assert (M : diverges n = false -> (some (analyze_s s) = false -> completes (IS s)) /\
                                      reaches (IS s) (locs_s s)).
    { intros D. rewrite D in H1. apply H0; [nils|assumption]. }
    rewrite dead_list. split.
    + intros D. assert (F : diverges n = false).
      { destruct (diverges n) eqn:V; [|reflexivity]. rewrite (Q eq_refl) in D. exact D. }
      destruct (M F) as [CS _]. destruct (CN F) as [t X].
      destruct CS as [u Y]; [destruct s; [reflexivity|exact D]|].
      exists (l :: t ++ u). apply e_stmt; assumption.
    + intros x [<-|J].
      * exists [l], Cut. split; [apply e_stmt_out; [apply e_cut|discriminate]|left; reflexivity].
      * apply in_app_iff in J. destruct J as [J|J].
        -- destruct (RN x J) as [t [o [X K]]].
           destruct o eqn:O; try (exists (l :: t), o; subst o; split; [apply e_stmt_out; [exact X|discriminate]|right; exact K]).
           exists (l :: t ++ []), Cut. split; [apply e_stmt; [exact X|apply e_cut]|].
           right. apply in_app_iff. auto.
        -- destruct (diverges n) eqn:V.
           { rewrite (Q eq_refl) in J. destruct J. }
           destruct (M eq_refl) as [_ RS]. destruct (CN eq_refl) as [t X].
           destruct (RS x J) as [u [o [Y K]]]. exists (l :: t ++ u), o.
           split; [apply e_stmt; assumption|right; apply in_app_iff; auto].
  - (* no else *) split; [intros _; exists []; apply e_notail|apply reaches_nil].
  - use H C R. split.
    + intros D. apply (completes_map _ _ (fun u o => e_elses W s u o)). auto.
    + apply (reaches_map _ _ _ (fun u o => e_elses W s u o)). auto.
  - (* elsif *) cbn [tests] in *. andb.
    use H CP RP. use H0 CS RS. use H1 CE RE. expr CP.
    rewrite (proj2 (proj2 (dead_branch p t e))).
    assert (V1 : forall u o, exec W (ISeq (IN p) (IS t)) u o -> exec W (IT (Elsif p t e)) u o)
      by (intros u o X; apply e_elsif, e_then, X).
    assert (V2 : forall u o, exec W (ISeq (IN p) (IT e)) u o -> exec W (IT (Elsif p t e)) u o)
      by (intros u o X; apply e_elsif, e_else, X).
    split.
    + intros D. apply andb_false_iff in D. destruct D as [D|D].
      * apply (completes_map _ _ V1). apply seq_completes; auto.
      * apply (completes_map _ _ V2). apply seq_completes; auto.
    + apply reaches_app; [|apply reaches_app].
      * apply (reaches_map _ _ _ V1). apply reaches_first; auto.
      * apply (reaches_map _ _ _ V1). apply reaches_second; auto.
      * apply (reaches_map _ _ _ V2). apply reaches_second; auto.
  - (* no when *) use H C R.
    assert (V : forall u o, exec W (IT e) u o -> exec W (IW false WNil e) u o)
      by (intros u o X; apply e_when_else; [discriminate|exact X]).
    split; [intros D|]; [apply (completes_map _ _ V); auto|apply (reaches_map _ _ _ V); auto].
  - (* when *) cbn [patterns] in *. andb. use H CA RA. specialize (CA eq_refl). use H0 CS RS.
    destruct (H1 e H2) as [CW RW]; [nils|sides|].
    assert (V1 : forall u o, exec W (ISeq (IA pats) (IS s)) u o -> exec W (IW false (WCons pats s w) e) u o)
      by (intros u o X; apply e_when, X).
    assert (V2 : forall u o, exec W (ISeq (IA pats) (IW false w e)) u o -> exec W (IW false (WCons pats s w) e) u o)
      by (intros u o X; apply e_when_next, X).
    cbn [analyze_w]. rewrite some_join. split.
    + intros D. rewrite <- andb_assoc in D. apply andb_false_iff in D. destruct D as [D|D].
      * apply (completes_map _ _ V1). apply seq_completes; auto.
      * apply (completes_map _ _ V2). apply seq_completes; auto.
    + rewrite <- !app_assoc. apply reaches_app; [|apply reaches_app].
      * apply (reaches_map _ _ _ V1). apply reaches_first; auto.
      * apply (reaches_map _ _ _ V1). apply reaches_second; auto.
      * apply (reaches_map _ _ _ V2). apply reaches_second; auto.
Qed.
End Runs.
