(** Proofs about method calls, continued: the query against the method table. *)
From Coq Require Import List Arith Bool Lia.
From Verif Require Import Sort_Lib Dispatch_Model Dispatch_Spec Dispatch_Proofs.
Import ListNotations.

Lemma find_body_in t l n a p : find_body t l n = Some (a, p) -> In a l /\ exists v, t a n = Some (Body p v).
Proof.
  induction l as [|c l IH]; cbn; [discriminate|]. destruct (t c n) as [[q v|v]|] eqn:E.
  - intros H. injection H as -> ->. eauto.
  - intros H. destruct (IH H). auto.
  - intros H. destruct (IH H). auto.
Qed.

Lemma find_none_body t l n : find t l n = None -> find_body t l n = None.
Proof.
  induction l as [|c l IH]; cbn; auto. destruct (t c n) as [[q v|v]|]; [discriminate| discriminate |auto].
Qed.

Lemma find_body_none t l n : find_body t l n = None -> forall c p v, In c l -> t c n <> Some (Body p v).
Proof.
  induction l as [|c l IH]; cbn; [easy|]. intros H b p v [<-|J].
  - destruct (t c n) as [[q w|w]|]; congruence.
  - destruct (t c n) as [[q w|w]|]; try discriminate; eauto.
Qed.

Section Calls.
  Variable is_signature : nat -> bool.
  Variable is_library_stub : nat -> bool.
  Variable chain : owner -> list owner.
  Variable basic_object : owner.
  Variable d : db.
  Variable n : nat.
  Variable l : list event.
  Variable t : table.
  Hypothesis AG : agrees n d l.
  Hypothesis OR : ordered n l.
  Hypothesis ONCE : defined_once n l.
  Hypothesis TAB : forall a, t a n = entry_of a n l.

  Lemma one_fact (v : vis) (p : place) fs (Q : Prop) :
    Forall2 (fun f e => f_at f = snd e /\ (Q -> f_vis f = fst e)) fs [(v, p)] ->
    exists f, fs = [f] /\ f_at f = p /\ (Q -> f_vis f = v).
  Proof.
    intros F. inversion F as [|f e fs' es (A1 & A2) F2]; subst. inversion F2; subst. eauto.
  Qed.

  Lemma one_owner a f : facts_of d a n = [f] -> f_owner f = a.
  Proof.
    intros E. assert (J : In f (facts_of d a n)) by (rewrite E; now left).
    unfold facts_of in J. apply filter_In in J as (_ & J). apply andb_true_iff in J as (J & _). now apply same_spec.
  Qed.

  (** What the facts say about one class. *)
  Lemma facts_at a :
    match t a n with
    | Some (Body p v) =>
        exists f, facts_of d a n = [f] /\ f_at f = p /\ f_owner f = a /\
          match last_override (overrides_of d a n) with
          | Some x => o_vis x = v /\ o_owner x = a
          | None => f_vis f = v
          end
    | Some (Forward v) =>
        facts_of d a n = [] /\ exists x, last_override (overrides_of d a n) = Some x /\ o_vis x = v /\ o_owner x = a
    | None => facts_of d a n = [] /\ last_override (overrides_of d a n) = None
    end.
  Proof.
    pose proof (picked n d l a AG OR) as P. destruct AG as (F & S0). specialize (F a). specialize (S0 a).
    pose proof (defs_short n l a ONCE) as SH. rewrite TAB. unfold entry_of.
    destruct (last_override (overrides_of d a n)) as [x|] eqn:LO.
    - destruct P as (P & PO). rewrite P. destruct (defs_of a n l) as [|[v p] r].
      + split; [|exists x; auto]. inversion F. reflexivity.
      + destruct r; [|cbn in SH; lia]. destruct (one_fact _ _ _ _ F) as (f & E & A1 & A2).
        exists f. rewrite E. auto using one_owner.
    - rewrite P. cbn. destruct (defs_of a n l) as [|[v p] r].
      + split; [|reflexivity]. inversion F. reflexivity.
      + destruct r; [|cbn in SH; lia]. destruct (one_fact _ _ _ _ F) as (f & E & A1 & A2).
        exists f. rewrite E. split; auto. split; auto. split; [now apply one_owner|].
        apply A2. rewrite P in S0. now apply map_eq_nil in S0.
  Qed.

  (** The visibility the query uses for the body found is that of the first entry. *)
  Lemma visibility_found L b e a p f :
    find t L n = Some (b, e) -> find_body t L n = Some (a, p) -> facts_of d a n = [f] -> f_owner f = a ->
    effective d L f n = (entry_vis e, b).
  Proof.
    intros H1 H2 H3 H4. unfold effective. rewrite H4.
    induction L as [|c L IH]; [discriminate|]. cbn [find find_body override_in] in *.
    pose proof (facts_at c) as FC. destruct (t c n) as [[q v|v]|] eqn:T.
    - injection H1 as <- <-. injection H2 as <- <-. destruct FC as (f' & E & A1 & A2 & A3).
      destruct (last_override (overrides_of d c n)) as [x|].
      + destruct A3 as (-> & ->). reflexivity.
      + rewrite same_refl. cbn. rewrite H3 in E. injection E as ->. congruence.
    - injection H1 as <- <-. destruct FC as (E & x & X & X1 & X2). rewrite X. cbn. congruence.
    - destruct FC as (E & X). rewrite X. rewrite same_neq; [auto|].
      intros ->. rewrite E in H3. discriminate.
  Qed.

  Lemma in_chain_in L a : In a L -> in_chain L a = true.
  Proof. intros J. apply existsb_exists. exists a. split; auto. apply same_refl. Qed.

  Lemma remaining_none L ap caller a : facts_of d a n = [] -> remaining is_signature chain d L n ap caller a = [].
  Proof. intros E. unfold remaining. rewrite E. reflexivity. Qed.

  Lemma remaining_one L ap caller a f : In a L -> facts_of d a n = [f] -> f_owner f = a ->
    remaining is_signature chain d L n ap caller a =
    if allowed chain (fst (effective d L f n)) (snd (effective d L f n)) ap caller then [f] else [].
  Proof.
    intros J E O. unfold remaining. rewrite E. cbn [filter]. rewrite O, (in_chain_in _ _ J). cbn [andb].
    destruct (effective d L f n) as [v o]. cbn [fst snd].
    destruct (allowed chain v o ap caller); cbn [existsb filter]; [|reflexivity].
    destruct (is_signature (fst (f_at f))) eqn:G; cbn; try rewrite G; reflexivity.
  Qed.

  Lemma facts_none a : (forall p v, t a n <> Some (Body p v)) -> facts_of d a n = [].
  Proof.
    intros H. pose proof (facts_at a) as F. destruct (t a n) as [[p v|v]|].
    - now destruct (H p v).
    - apply F.
    - apply F.
  Qed.

  (** The call succeeds. *)
  Lemma callee_found L res ap caller b e a p :
    find t L n = Some (b, e) -> find_body t L n = Some (a, p) ->
    allowed chain (entry_vis e) b ap caller = true ->
    callee_in is_signature chain d L n res ap caller = Some (mkCallee a n res [p]).
  Proof.
    intros H1 H2 H3. unfold callee_in.
    destruct (find_body_in _ _ _ _ _ H2) as (J & v & T).
    pose proof (facts_at a) as FA. rewrite T in FA. destruct FA as (f & E & A1 & A2 & _).
    assert (R : remaining is_signature chain d L n ap caller a = [f]).
    { rewrite (remaining_one _ _ _ _ f J E A2). rewrite (visibility_found L b e a p f H1 H2 E A2). cbn.
      now rewrite H3. }
    assert (G : forall rest, find_body t rest n = Some (a, p) ->
              facts_in is_signature chain d L rest n ap caller = Some (a, [f])).
    { induction rest as [|c rest IH]; cbn [find_body facts_in]; [discriminate|]. intros Z.
      destruct (t c n) as [[q w|w]|] eqn:TC.
      - injection Z as -> ->. now rewrite R.
      - rewrite remaining_none; auto. apply facts_none. intros q w'. congruence.
      - rewrite remaining_none; auto. apply facts_none. intros q w'. congruence. }
    rewrite (G L H2). cbn. now rewrite A1.
  Qed.

  Lemma callee_none L res ap caller : (forall a, In a L -> remaining is_signature chain d L n ap caller a = []) ->
    callee_in is_signature chain d L n res ap caller = None.
  Proof.
    intros H. unfold callee_in.
    assert (G : forall rest, (forall a, In a rest -> In a L) -> facts_in is_signature chain d L rest n ap caller = None).
    { induction rest as [|c rest IH]; intros I; cbn [facts_in]; auto.
      rewrite (H c (I c (or_introl eq_refl))). apply IH. intros; apply I; now right. }
    rewrite G; auto.
  Qed.

  (** A visibility statement decides for all definitions behind it. *)
  Lemma override_decides L b e c : find t L n = Some (b, e) -> sets_of b n l <> [] -> In c L ->
    (exists p v, t c n = Some (Body p v)) ->
    exists x, override_in d L c n = Some x /\ o_vis x = entry_vis e /\ o_owner x = b.
  Proof.
    intros H1 H2 H3 (p & v & H4). induction L as [|a L IH]; [discriminate|].
    cbn [find override_in] in *. pose proof (facts_at a) as FA. destruct (t a n) as [[q w|w]|] eqn:T.
    - injection H1 as <- <-. destruct FA as (f & _ & _ & _ & FA).
      destruct (last_override (overrides_of d a n)) as [x|] eqn:LO.
      + exists x. cbn. tauto.
      + exfalso. pose proof (picked n d l a AG OR) as P. rewrite LO in P. contradiction.
    - injection H1 as <- <-. destruct FA as (_ & x & -> & X). exists x. cbn. tauto.
    - destruct FA as (_ & ->). rewrite same_neq by congruence. apply IH; auto.
      destruct H3 as [->|]; [congruence|auto].
  Qed.

  (** The call is denied. *)
  Lemma callee_denied L res ap caller b e :
    find t L n = Some (b, e) -> allowed chain (entry_vis e) b ap caller = false ->
    (sets_of b n l <> [] \/ forall c p v, In c L -> t c n = Some (Body p v) -> c = b) ->
    callee_in is_signature chain d L n res ap caller = None.
  Proof.
    intros H1 H2 H3. apply callee_none. intros a J.
    pose proof (facts_at a) as FA. destruct (t a n) as [[p v|v]|] eqn:T;
      [|apply remaining_none; apply FA|apply remaining_none; apply FA].
    destruct FA as (f & E & A1 & A2 & A3). rewrite (remaining_one _ _ _ _ f J E A2).
    enough (Q : effective d L f n = (entry_vis e, b)) by (rewrite Q; cbn; now rewrite H2).
    destruct H3 as [H3|H3].
    - destruct (override_decides L b e a H1 H3 J) as (x & X & X1 & X2); eauto.
      unfold effective. rewrite A2, X. congruence.
    - pose proof (H3 a p v J T). subst b.
      assert (B : find_body t L n = Some (a, p)).
      { clear - H1 T. induction L as [|c L IH]; [discriminate|]. cbn [find find_body] in *.
        destruct (t c n) as [[q w|w]|] eqn:TC.
        - injection H1 as E1 _. subst c. congruence.
        - injection H1 as E1 _. subst c. congruence.
        - auto. }
      exact (visibility_found L a e a p f H1 B E A2).
  Qed.

  Lemma hidden_found L b e a p : find t L n = Some (b, e) -> find_body t L n = Some (a, p) ->
    entry_vis e <> Public -> hidden_in d L n = true.
  Proof.
    intros H1 H2 H3. destruct (find_body_in _ _ _ _ _ H2) as (J & v & T).
    pose proof (facts_at a) as FA. rewrite T in FA. destruct FA as (f & E & A1 & A2 & _).
    apply existsb_exists. exists a. split; auto. apply existsb_exists. exists f. rewrite E. split; [now left|].
    rewrite A2, (in_chain_in _ _ J), (visibility_found L b e a p f H1 H2 E A2). cbn.
    destruct (entry_vis e); auto.
  Qed.

  Lemma hidden_none L : find_body t L n = None -> hidden_in d L n = false.
  Proof.
    intros H. destruct (hidden_in d L n) eqn:E; auto. exfalso. apply existsb_exists in E as (a & J & E).
    rewrite (facts_none a) in E; [discriminate|]. intros p v. now apply (find_body_none t L n H).
  Qed.

  Lemma callee_undefined L res ap caller : find_body t L n = None ->
    callee_in is_signature chain d L n res ap caller = None.
  Proof.
    intros H. apply callee_none. intros a J. apply remaining_none, facts_none. intros p v.
    now apply (find_body_none t L n H).
  Qed.

  (** Every ancestor on its own, for [super]. *)
  Lemma alone_body a p v : t a n = Some (Body p v) ->
    callee_in is_signature chain d [a] n Exact true None = Some (mkCallee a n Exact [p]).
  Proof.
    intros T. apply (callee_found [a] Exact true None a (Body p v)); cbn [find find_body]; rewrite ?T; auto.
    cbn. now destruct v.
  Qed.

  Lemma first_of_body L : first_of is_signature chain d L n =
    match find_body t L n with Some (a, p) => Some (mkCallee a n Exact [p]) | None => None end.
  Proof.
    induction L as [|a L IH]; auto. cbn [first_of find_body]. destruct (t a n) as [[p v|v]|] eqn:T.
    - now rewrite (alone_body a p v T).
    - rewrite callee_undefined; auto. cbn [find_body]. now rewrite T.
    - rewrite callee_undefined; auto. cbn [find_body]. now rewrite T.
  Qed.
End Calls.

Lemma allowed_spec chain v o caller : allowed chain v o false caller = true <-> permitted chain OnOther caller o v.
Proof.
  unfold allowed, permitted. destruct v; cbn [orb]; [now split| |now split].
  destruct caller as [c|].
  - unfold visible_from. rewrite existsb_exists. split.
    + intros (a & J & E). apply same_spec in E as ->. eauto.
    + intros (c' & E & J). injection E as <-. exists o. split; auto. apply same_refl.
  - split; [discriminate|]. intros (c & E & _). discriminate.
Qed.

Lemma allowed_private chain v o caller : allowed chain v o true caller = true.
Proof. now destruct v. Qed.

Lemma after_beyond o L : after o L = beyond o L.
Proof.
  induction L as [|a L IH]; auto. cbn. destruct (owner_eq_dec a o) as [->|H].
  - now rewrite same_refl.
  - now rewrite (same_neq _ _ H).
Qed.
