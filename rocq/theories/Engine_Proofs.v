(** Proofs about the engine around the ancestry graph. *)
From Coq Require Import List Arith Lia Bool Permutation Sorted.
From Verif Require Import Sort_Lib Index_Lib Ancestors_Model Ancestors_Spec Ancestors_Proofs Engine_Model Engine_Spec.
Import ListNotations.

Section Engine.
  Variables (id : ns -> nat) (stub : nat -> bool).
  Notation view := (view id stub).
  Notation run := (run id stub).
  Notation step := (step id stub).
  Notation retry := (retry id stub).
  Notation lookup := (lookup id stub).

  (** ** Resolution looks at the definitions only *)

  Lemma view_node s x k : In (x, k) (nodes (view s)) <-> exists n, In n (enodes s) /\ fact n = (x, k).
  Proof.
    cbn. rewrite in_map_iff. split; intros (n & H1 & H2); exists n; [|rewrite sort_in; auto].
    rewrite sort_in in H2. auto.
  Qed.
  Lemma nodes_in_view w x k : In k (nodes_for w x) <-> In (x, k) (nodes w).
  Proof.
    unfold nodes_for. rewrite in_map_iff. split.
    - intros ([y k'] & <- & H). apply filter_In in H. destruct H as [H E]. apply same_eq in E. cbn in *. now subst.
    - intros H. exists (x, k). split; auto. apply filter_In. split; auto. now apply same_eq.
  Qed.

  Definition same_nodes (s1 s2 : engine) : Prop := forall n, In n (enodes s1) <-> In n (enodes s2).
  Lemma same_nodes_kind s1 s2 x k : same_nodes s1 s2 -> In k (nodes_for (view s1) x) <-> In k (nodes_for (view s2) x).
  Proof.
    intros H. rewrite !nodes_in_view, !view_node. split; intros (n & H1 & H2); exists n; split; auto; now apply H.
  Qed.
  Lemma is_nil_ext {A} (l1 l2 : list A) : (forall x, In x l1 <-> In x l2) -> is_nil l1 = is_nil l2.
  Proof.
    intros H. destruct l1 as [|a l1], l2 as [|b l2]; auto; exfalso.
    - destruct (proj2 (H b)). now left.
    - destruct (proj1 (H a)). now left.
  Qed.
  Lemma existsb_ext' {A} (p : A -> bool) l1 l2 : (forall x, In x l1 <-> In x l2) -> existsb p l1 = existsb p l2.
  Proof.
    intros H. apply eq_iff_eq_true. rewrite !existsb_exists. split; intros (x & H1 & H2); exists x; split; auto; now apply H.
  Qed.
  Lemma lexical_ext {A} (p q : list nat -> option A) parts : (forall c, p c = q c) ->
    forall space, lexical p parts space = lexical q parts space.
  Proof. intros H space. induction space as [|a space IH]; cbn [lexical]; rewrite H; destruct (q _); auto. Qed.

  Lemma resolution_same s1 s2 d : same_nodes s1 s2 -> resolution (view s1) d = resolution (view s2) d.
  Proof.
    intros H. unfold resolution, resolve_graph_target.
    rewrite (lexical_ext (probe_graph (view s1)) (probe_graph (view s2))).
    - destruct (lexical _ _ _) as [p|]; auto. f_equal. f_equal. unfold companion, is_class.
      rewrite !(existsb_ext' _ (nodes_for (view s1) _) (nodes_for (view s2) _)) by (intros k; now apply same_nodes_kind).
      reflexivity.
    - intros c. unfold probe_graph, defined_namespace.
      rewrite (is_nil_ext (nodes_for (view s1) _) (nodes_for (view s2) (mkNs c false))); auto.
      intros k. now apply same_nodes_kind.
  Qed.

  (** ** The retry in one step *)

  Definition emit (w : world) (d : located decl) : list (located link) :=
    match resolution w (fact d) with
    | Some ls => map (fun l => mkAt (file d) (start d) (stop d) l) ls
    | None => []
    end.
  Definition stays (w : world) (d : located decl) : bool :=
    match resolution w (fact d) with Some _ => false | None => true end.

  Lemma retry_fold ds : forall s, fold_left (retry_one id stub) ds s =
    mkEngine (enodes s) (elinks s ++ flat_map (emit (view s)) ds) (edecls s ++ filter (stays (view s)) ds)
             (top_cache s) (universal_cache s).
  Proof.
    induction ds as [|d ds IH]; intros s.
    - cbn. rewrite !app_nil_r. now destruct s.
    - cbn [fold_left flat_map filter]. rewrite IH.
      assert (same_nodes (retry_one id stub s d) s) as SN.
      { unfold retry_one. destruct (resolution _ _); intros n; reflexivity. }
      assert (forall x, emit (view (retry_one id stub s d)) x = emit (view s) x) as E1.
      { intros x. unfold emit. now rewrite (resolution_same _ _ _ SN). }
      assert (forall x, stays (view (retry_one id stub s d)) x = stays (view s) x) as E2.
      { intros x. unfold stays. now rewrite (resolution_same _ _ _ SN). }
      rewrite (flat_map_ext _ _ E1), (filter_ext _ _ E2).
      assert (emit (view s) d = match resolution (view s) (fact d) with
                | Some ls => map (fun l => mkAt (file d) (start d) (stop d) l) ls | None => [] end) as -> by reflexivity.
      assert (stays (view s) d = match resolution (view s) (fact d) with Some _ => false | None => true end) as -> by reflexivity.
      unfold retry_one. destruct (resolution (view s) (fact d)) as [ls|];
        cbn [enodes elinks edecls top_cache universal_cache app]; rewrite <- ?app_assoc; reflexivity.
  Qed.

  Lemma retry_eq s : retry s =
    mkEngine (enodes s) (elinks s ++ flat_map (emit (view s)) (edecls s)) (filter (stays (view s)) (edecls s))
             (top_cache s) (universal_cache s).
  Proof.
    unfold Engine_Model.retry. destruct (edecls s) as [|d ds] eqn:E.
    - cbn. rewrite app_nil_r. destruct s; cbn in *; now subst.
    - rewrite retry_fold. cbn [enodes elinks edecls top_cache universal_cache app].
      reflexivity.
  Qed.

  (** Resolving twice in a row changes nothing more. *)
  Lemma retry_twice s : retry (retry s) = retry s.
  Proof.
    assert (same_nodes (retry s) s) as SN by (intros n; now rewrite retry_eq).
    rewrite (retry_eq (retry s)).
    assert (edecls (retry s) = filter (stays (view s)) (edecls s)) as D by now rewrite retry_eq.
    assert (flat_map (emit (view (retry s))) (edecls (retry s)) = []) as ->.
    { rewrite D. generalize (edecls s). intros l. induction l as [|d l IH]; auto. cbn [filter].
      destruct (stays (view s) d) eqn:E; auto. cbn [flat_map]. rewrite IH. unfold emit.
      rewrite (resolution_same _ _ _ SN). unfold stays in E. destruct (resolution _ _); easy. }
    assert (filter (stays (view (retry s))) (edecls (retry s)) = edecls (retry s)) as ->.
    { rewrite D. generalize (edecls s). intros l. induction l as [|d l IH]; auto. cbn [filter].
      destruct (stays (view s) d) eqn:E; auto. cbn [filter].
      assert (stays (view (retry s)) d = true) as ->; [|now rewrite IH].
      unfold stays in *. now rewrite (resolution_same _ _ _ SN). }
    rewrite app_nil_r. now destruct (retry s).
  Qed.

  (** ** The files' facts alone *)

  Definition given (h : list op) : engine :=
    fold_left (fun s o => match o with Replace f c => replace s f c | _ => s end) h fresh_engine.

  Lemma run_snoc h o : run (h ++ [o]) = step (run h) o.
  Proof. unfold Engine_Model.run. now rewrite fold_left_app. Qed.
  Lemma given_snoc h o : given (h ++ [o]) = match o with Replace f c => replace (given h) f c | _ => given h end.
  Proof. unfold given. now rewrite fold_left_app. Qed.

  Lemma latest_snoc f h o : latest f (h ++ [o]) =
    match o with Replace g c => if g =? f then c else latest f h | _ => latest f h end.
  Proof.
    induction h as [|a h IH].
    - cbn. destruct o as [g c| |x]; auto.
    - cbn [app latest]. rewrite existsb_app. cbn [existsb]. rewrite orb_false_r, IH.
      destruct o as [g c| |x]; rewrite ?orb_false_r; auto. destruct (g =? f); rewrite ?orb_false_r, ?orb_true_r; auto.
  Qed.

  Definition of_file {A} (f : nat) (l : list (located A)) : list (located A) := filter (fun x => file x =? f) l.
  Lemma of_file_replaced {A} f g (l : list (located A)) (c : list (nat * nat * A)) :
    of_file f (elsewhere g l ++ map (locate g) c) = if g =? f then map (locate f) c else of_file f l.
  Proof.
    unfold of_file, elsewhere. rewrite filter_app. destruct (Nat.eqb_spec g f) as [->|N].
    - assert (filter (fun x => file x =? f) (filter (fun x => negb (file x =? f)) l) = []) as ->.
      { induction l as [|x l IH]; auto. cbn. destruct (file x =? f) eqn:E; cbn; rewrite ?E; auto. }
      cbn [app]. induction c as [|x c IH]; auto. cbn. rewrite Nat.eqb_refl. now rewrite IH.
    - assert (filter (fun x => file x =? f) (map (locate g) c) = []) as ->.
      { induction c as [|x c IH]; auto. cbn. apply Nat.eqb_neq in N. now rewrite N. }
      rewrite app_nil_r. induction l as [|x l IH]; auto. cbn [filter]. destruct (Nat.eqb_spec (file x) g) as [E|E]; cbn [negb].
      + rewrite IH. destruct (Nat.eqb_spec (file x) f); auto. congruence.
      + cbn [filter]. now rewrite IH.
  Qed.

  Lemma given_files h f :
    of_file f (enodes (given h)) = map (locate f) (cnodes (latest f h)) /\
    of_file f (elinks (given h)) = map (locate f) (clinks (latest f h)) /\
    of_file f (edecls (given h)) = map (locate f) (cdecls (latest f h)).
  Proof.
    induction h as [|o h IH] using rev_ind; [auto|]. rewrite given_snoc, latest_snoc.
    destruct o as [g c| |x]; auto. cbn [replace enodes elinks edecls]. rewrite !of_file_replaced.
    destruct (g =? f); auto.
  Qed.

  Lemma perm_by_file {A} (l1 : list (located A)) : forall l2, (forall f, of_file f l1 = of_file f l2) -> Permutation l1 l2.
  Proof.
    induction l1 as [|x l1 IH]; intros l2 H.
    - destruct l2 as [|y l2]; auto. specialize (H (file y)). cbn in H. rewrite Nat.eqb_refl in H. easy.
    - assert (In x l2) as Hx.
      { specialize (H (file x)). cbn in H. rewrite Nat.eqb_refl in H.
        assert (In x (of_file (file x) l2)) as Hi by (rewrite <- H; now left). now apply filter_In in Hi. }
      (* the first fact of the file *)
      assert (exists a b, l2 = a ++ x :: b /\ forall y, In y a -> file y <> file x) as (a & b & -> & Ha).
      { specialize (H (file x)). cbn in H. rewrite Nat.eqb_refl in H. clear - H. unfold of_file in H.
        induction l2 as [|y l2 IH]; [easy|]. cbn in H. destruct (Nat.eqb_spec (file y) (file x)) as [E|E].
        - injection H as <- H. exists [], l2. split; [reflexivity|intros z []].
        - destruct (IH H) as (a & b & -> & Ha). exists (y :: a), b. split; [reflexivity|]. intros z [<-|Hz]; [exact E|now apply Ha]. }
      apply Permutation_cons_app, IH. intros f. specialize (H f). unfold of_file in *. rewrite filter_app in *.
      cbn [filter] in H. destruct (Nat.eqb_spec (file x) f) as [E|E]; auto.
      assert (filter (fun y => file y =? f) a = []) as Ea.
      { clear - Ha E. induction a as [|y a IHa]; auto. cbn. destruct (Nat.eqb_spec (file y) f) as [E'|E'].
        - exfalso. apply (Ha y); [now left|congruence].
        - apply IHa. intros z Hz. apply Ha. now right. }
      rewrite Ea in *. cbn in *. congruence.
  Qed.

  Lemma same_files_given h1 h2 : same_files h1 h2 -> same_graph (given h1) (given h2).
  Proof.
    intros H. repeat split; apply perm_by_file; intros f; specialize (H f);
      destruct (given_files h1 f) as (A1 & A2 & A3), (given_files h2 f) as (B1 & B2 & B3); congruence.
  Qed.

  Lemma run_nodes h : enodes (run h) = enodes (given h).
  Proof.
    induction h as [|o h IH] using rev_ind; auto. rewrite run_snoc, given_snoc.
    destruct o as [g c| |x]; cbn [Engine_Model.step]; auto.
    - cbn [replace enodes]. now rewrite IH.
    - rewrite retry_eq. cbn [enodes]. exact IH.
  Qed.

  (** ** The invariant *)

  (** [R] are the names resolved so far, with the edges they became. *)
  Definition made (r : located decl * list link) : list (located link) :=
    map (fun l => mkAt (file (fst r)) (start (fst r)) (stop (fst r)) l) (snd r).
  Definition accounts (G s : engine) (good : decl -> list link -> Prop) : Prop :=
    exists R U, Permutation (edecls G) (map fst R ++ U) /\ Permutation (elinks s) (elinks G ++ flat_map made R) /\
      Permutation (edecls s) U /\ forall r, In r R -> good (fact (fst r)) (snd r).

  Lemma perm_filter {A} (p : A -> bool) l1 l2 : Permutation l1 l2 -> Permutation (filter p l1) (filter p l2).
  Proof.
    intros H. induction H; cbn; auto.
    - destruct (p x); auto.
    - destruct (p x), (p y); auto. constructor.
    - eapply perm_trans; eauto.
  Qed.
  Lemma elsewhere_made f R : elsewhere f (flat_map made R) =
    flat_map made (filter (fun r => negb (file (fst r) =? f)) R).
  Proof.
    unfold elsewhere. induction R as [|r R IH]; auto. cbn [flat_map filter]. rewrite filter_app, IH.
    assert (filter (fun x : located link => negb (file x =? f)) (made r) = if negb (file (fst r) =? f) then made r else []) as ->.
    { unfold made. destruct (negb (file (fst r) =? f)) eqn:E; induction (snd r) as [|l ls IHl]; auto; cbn; rewrite E; auto.
      now rewrite IHl. }
    destruct (negb (file (fst r) =? f)); auto.
  Qed.
  Lemma elsewhere_fst f (R : list (located decl * list link)) :
    elsewhere f (map fst R) = map fst (filter (fun r => negb (file (fst r) =? f)) R).
  Proof. unfold elsewhere. induction R as [|r R IH]; auto. cbn. destruct (negb _); cbn; now rewrite IH. Qed.
  Lemma elsewhere_app {A} f (l m : list (located A)) : elsewhere f (l ++ m) = elsewhere f l ++ elsewhere f m.
  Proof. apply filter_app. Qed.

  Lemma accounts_replace G s good f c : accounts G s good -> accounts (replace G f c) (replace s f c) good.
  Proof.
    intros (R & U & P1 & P2 & P3 & HG).
    exists (filter (fun r => negb (file (fst r) =? f)) R), (elsewhere f U ++ map (locate f) (cdecls c)).
    cbn [replace edecls elinks]. split; [|split; [|split]].
    - rewrite app_assoc. apply Permutation_app_tail. rewrite <- elsewhere_fst, <- elsewhere_app. now apply perm_filter.
    - apply perm_filter with (p := fun x : located link => negb (file x =? f)) in P2. fold (elsewhere f (elinks s)) in P2.
      fold (elsewhere f (elinks G ++ flat_map made R)) in P2. rewrite elsewhere_app, elsewhere_made in P2.
      eapply perm_trans; [apply Permutation_app_tail, P2|]. rewrite <- !app_assoc. apply Permutation_app_head, Permutation_app_comm.
    - apply Permutation_app_tail. now apply perm_filter.
    - intros r Hr. apply filter_In in Hr. apply HG, Hr.
  Qed.

  Lemma accounts_retry G s (good : decl -> list link -> Prop) : accounts G s good ->
    (forall d ls, In d (edecls G) -> resolution (view s) (fact d) = Some ls -> good (fact d) ls) ->
    accounts G (retry s) good.
  Proof.
    intros (R & U & P1 & P2 & P3 & HG) HR. rewrite retry_eq.
    set (D := edecls s) in *.
    set (R' := flat_map (fun d => match resolution (view s) (fact d) with Some ls => [(d, ls)] | None => [] end) D).
    exists (R ++ R'), (filter (stays (view s)) D). cbn [edecls elinks].
    assert (Permutation D (map fst R' ++ filter (stays (view s)) D)) as PD.
    { unfold R'. clear. induction D as [|d D IH]; auto. cbn [flat_map filter]. unfold stays at 1.
      destruct (resolution (view s) (fact d)); cbn [app map fst].
      - now apply perm_skip.
      - now apply Permutation_cons_app. }
    split; [|split; [|split]]; auto.
    - rewrite map_app, <- app_assoc. eapply perm_trans; [exact P1|]. apply Permutation_app_head.
      eapply perm_trans; [symmetry; exact P3|exact PD].
    - assert (flat_map made R' = flat_map (emit (view s)) D) as E.
      { unfold R'. clear. induction D as [|d D IH]; auto. cbn [flat_map]. rewrite flat_map_app, IH. f_equal.
        unfold emit. destruct (resolution (view s) (fact d)); auto. cbn. now rewrite app_nil_r. }
      rewrite flat_map_app, E, app_assoc. apply Permutation_app_tail. exact P2.
    - intros r Hr. apply in_app_or in Hr. destruct Hr as [Hr|Hr]; auto. unfold R' in Hr. apply in_flat_map in Hr.
      destruct Hr as (d & Hd & Hr). destruct (resolution (view s) (fact d)) as [ls|] eqn:E; [|easy]. destruct Hr as [<-|[]].
      apply HR; auto. apply Permutation_in with (map fst R ++ U); [now symmetry|]. apply in_or_app. right.
      apply Permutation_in with D; auto.
  Qed.

  Lemma accounts_lookup G s good x : accounts G s good -> accounts G (snd (lookup s x)) good.
  Proof. intros H. exact H. Qed.

  Lemma decl_final h d : In d (edecls (given h)) -> final_decl h (fact d).
  Proof.
    intros H. destruct (given_files h (file d)) as (_ & _ & E).
    assert (In d (of_file (file d) (edecls (given h)))) as Hi by (apply filter_In; split; auto; apply Nat.eqb_refl).
    rewrite E in Hi. apply in_map_iff in Hi. destruct Hi as (x & <- & Hx). exists (file (locate (file d) x)), x. auto.
  Qed.

  (** What a name of the final files became is what the final definitions make of it. *)
  Definition right (h : list op) (d : decl) (ls : list link) : Prop :=
    final_decl h d -> resolution (view (run h)) d = Some ls.

  Lemma run_accounts h : steady id stub h -> forall h1 h2, h = h1 ++ h2 -> accounts (given h1) (run h1) (right h).
  Proof.
    intros ST h1. induction h1 as [|o h1 IH] using rev_ind; intros h2 E.
    - exists [], []. cbn. repeat split; auto. intros r [].
    - rewrite run_snoc, given_snoc. rewrite <- app_assoc in E. cbn [app] in E. specialize (IH _ E).
      destruct o as [f c| |x]; cbn [Engine_Model.step].
      + now apply accounts_replace.
      + apply accounts_retry; auto. intros d ls Hd HR F. destruct (ST h1 h2 E (fact d) F) as [N|N]; congruence.
      + exact IH.
  Qed.

  (** The edges after a closing resolve call: those declared and those the final definitions make
      of the names. *)
  Lemma final_links h : steady id stub h ->
    Permutation (elinks (retry (run h))) (elinks (given h) ++ flat_map (emit (view (given h))) (edecls (given h))) /\
    Permutation (edecls (retry (run h))) (filter (stays (view (given h))) (edecls (given h))).
  Proof.
    intros ST. destruct (run_accounts h ST h []) as (R & U & P1 & P2 & P3 & HG); [now rewrite app_nil_r|].
    assert (same_nodes (run h) (given h)) as SN by (intros n; now rewrite run_nodes).
    assert (forall r, In r R -> resolution (view (given h)) (fact (fst r)) = Some (snd r)) as HR.
    { intros r Hr. rewrite <- (resolution_same _ _ _ SN). apply (HG r Hr). apply decl_final.
      apply Permutation_in with (map fst R ++ U); [now symmetry|]. apply in_or_app. left. now apply in_map. }
    rewrite retry_eq. cbn [elinks edecls].
    assert (forall d, emit (view (run h)) d = emit (view (given h)) d) as E1.
    { intros d. unfold emit. now rewrite (resolution_same _ _ _ SN). }
    assert (forall d, stays (view (run h)) d = stays (view (given h)) d) as E2.
    { intros d. unfold stays. now rewrite (resolution_same _ _ _ SN). }
    rewrite (flat_map_ext _ _ E1), (filter_ext _ _ E2).
    assert (flat_map (emit (view (given h))) (map fst R) = flat_map made R) as E3.
    { clear - HR. induction R as [|r R IH]; auto. cbn [map flat_map]. rewrite IH by (intros; apply HR; now right).
      f_equal. unfold emit. rewrite (HR r) by now left. reflexivity. }
    assert (filter (stays (view (given h))) (map fst R) = []) as E4.
    { clear - HR. induction R as [|r R IH]; auto. cbn [map filter]. unfold stays at 1.
      rewrite (HR r) by now left. apply IH. intros; apply HR; now right. }
    split.
    - eapply perm_trans; [apply Permutation_app; [exact P2|apply Permutation_flat_map; exact P3]|].
      rewrite <- app_assoc. apply Permutation_app_head. rewrite <- E3, <- flat_map_app.
      apply Permutation_flat_map. now symmetry.
    - eapply perm_trans; [apply perm_filter; exact P3|].
      rewrite (perm_filter (stays (view (given h))) _ _ P1), filter_app, E4. reflexivity.
  Qed.

  (** ** Lookups depend on what the pending names say, not on their order *)

  Definition alike (w1 w2 : world) : Prop :=
    nodes w1 = nodes w2 /\ length (edges w1) = length (edges w2) /\ (forall x, edges_out w1 x = edges_out w2 x) /\
    forall u, In u (unresolved w1) <-> In u (unresolved w2).

  Section Alike.
    Variables w1 w2 : world.
    Hypothesis H : alike w1 w2.

    Lemma alike_nodes x : nodes_for w1 x = nodes_for w2 x.
    Proof. unfold nodes_for. now rewrite (proj1 H). Qed.
    Lemma alike_from x k : edges_from w1 x k = edges_from w2 x k.
    Proof. unfold edges_from. now rewrite (proj1 (proj2 (proj2 H))). Qed.
    Lemma alike_resolution x : superclass_resolution w1 x = superclass_resolution w2 x.
    Proof. unfold superclass_resolution, superclass_edges. now rewrite alike_from. Qed.
    Lemma alike_proven x : proven_superclass w1 x = proven_superclass w2 x.
    Proof.
      unfold proven_superclass, superclass_pending. rewrite alike_resolution.
      rewrite (existsb_ext' _ (unresolved w1) (unresolved w2)); [reflexivity|apply H].
    Qed.
    Lemma alike_before allow x : before w1 allow x = before w2 allow x.
    Proof. unfold before. now rewrite alike_from. Qed.
    Lemma alike_after allow x : after w1 allow x = after w2 allow x.
    Proof.
      unfold after, hook_edges. rewrite alike_proven, !alike_from. do 2 f_equal. f_equal. do 2 f_equal.
      destruct (singleton x); auto. apply flat_map_ext. intros e. now rewrite alike_from.
    Qed.
    Lemma visit_all_ext (f g : ns -> list ns * list ns -> option (list ns * list ns)) : (forall x st, f x st = g x st) ->
      forall l st, visit_all f l st = visit_all g l st.
    Proof. intros E l. induction l as [|x l IH]; intros st; auto. cbn. rewrite E. destruct (g x st); auto. Qed.
    Lemma alike_build n : forall allow x st, build_mro n w1 allow x st = build_mro n w2 allow x st.
    Proof.
      induction n as [|n IH]; intros allow x st; auto. cbn [build_mro]. destruct (mem x (snd st)); auto.
      rewrite alike_before, alike_after. rewrite (visit_all_ext _ _ (IH allow)). destruct (visit_all _ _ _) as [[c v]|]; auto.
      apply visit_all_ext. apply IH.
    Qed.
    Lemma alike_mro allow x st : mro w1 allow x st = mro w2 allow x st.
    Proof. unfold mro, mro_fuel. rewrite (proj1 (proj2 H)). apply alike_build. Qed.
    Lemma alike_blocked_loop n : forall stack v, blocked_loop n w1 stack v = blocked_loop n w2 stack v.
    Proof.
      induction n as [|n IH]; intros stack v; auto. cbn [blocked_loop]. destruct stack as [|x r]; auto.
      unfold superclass_ambiguous. rewrite alike_resolution.
      assert (has_pending w1 x = has_pending w2 x) as -> by (unfold has_pending; apply existsb_ext', H).
      assert (successors w1 x = successors w2 x) as ->. { unfold successors. now rewrite (proj1 (proj2 (proj2 H))). }
      now rewrite !IH.
    Qed.
    Lemma alike_blocked x : blocked w1 x = blocked w2 x.
    Proof. unfold blocked. rewrite (proj1 (proj2 H)). apply alike_blocked_loop. Qed.
    Lemma alike_lookup x : method_lookup_chain w1 x = method_lookup_chain w2 x.
    Proof.
      unfold method_lookup_chain, top_level_fallback, universal_fallback, method_lookup_chain_with, chain_without_metaclass.
      rewrite !alike_mro, !alike_nodes, alike_blocked.
      assert (metaclass w1 x = metaclass w2 x) as ->.
      { unfold metaclass, first_kind. rewrite alike_nodes. destruct (singleton x); auto. destruct (nodes_for w2 x); auto.
        now rewrite alike_nodes. }
      assert (is_module w1 x = is_module w2 x) as -> by (unfold is_module; now rewrite alike_nodes).
      destruct (mro w2 true root ([], [])) as [st|]; auto.
      assert ((if is_nil (nodes_for w2 object) then Some (fst st) else option_map fst (mro w1 true object st)) =
              (if is_nil (nodes_for w2 object) then Some (fst st) else option_map fst (mro w2 true object st))) as ->.
      { now rewrite alike_mro. }
      destruct (if is_nil (nodes_for w2 object) then Some (fst st) else option_map fst (mro w2 true object st)); auto.
      destruct (if is_nil (nodes_for w2 object) then Some [] else option_map fst (mro w2 false object ([], []))); auto.
      destruct (blocked w2 x); auto.
      destruct (if is_nil (nodes_for w2 x) then _ else _); auto. destruct (metaclass w2 x); auto. now rewrite alike_mro.
    Qed.
  End Alike.

  (** ** The caches *)

  (** A cached chain is what would be computed. *)
  Definition current (s : engine) : Prop :=
    (top_cache s = None \/ top_cache s = top_level_fallback (view s)) /\
    (universal_cache s = None \/ universal_cache s = universal_fallback (view s)).

  Lemma lookup_current s x : current s ->
    fst (lookup s x) = method_lookup_chain (view s) x /\ current (snd (lookup s x)).
  Proof.
    intros [H1 H2]. unfold Engine_Model.lookup, method_lookup_chain. cbn [fst snd].
    assert (or_else (top_cache s) (top_level_fallback (view s)) = top_level_fallback (view s)) as E1.
    { destruct H1 as [->| ->]; auto. destruct (top_level_fallback (view s)); auto. }
    assert (or_else (universal_cache s) (universal_fallback (view s)) = universal_fallback (view s)) as E2.
    { destruct H2 as [->| ->]; auto. destruct (universal_fallback (view s)); auto. }
    rewrite E1, E2. split; auto. split; cbn [top_cache universal_cache].
    - change (top_level_fallback (view (mkEngine _ _ _ _ _))) with (top_level_fallback (view s)).
      destruct (needs_top (view s) x); auto.
    - change (universal_fallback (view (mkEngine _ _ _ _ _))) with (universal_fallback (view s)).
      destruct (needs_universal (view s) x); auto.
  Qed.

  (** Nothing resolves any more: no call of resolve would change the graph. *)
  Definition resolved (s : engine) : Prop := retry s = s.
  Lemma retry_empty s : top_cache s = None -> universal_cache s = None -> current (retry s).
  Proof. intros H1 H2. rewrite retry_eq. split; cbn; auto. Qed.
  Lemma retry_caches s : top_cache (retry s) = top_cache s /\ universal_cache (retry s) = universal_cache s.
  Proof. rewrite retry_eq. auto. Qed.

  Lemma lookup_resolved s x : resolved s -> resolved (snd (lookup s x)).
  Proof.
    unfold resolved. intros E. rewrite retry_eq in *.
    pose proof (f_equal elinks E) as L. pose proof (f_equal edecls E) as D. cbn [elinks edecls] in L, D.
    unfold Engine_Model.lookup. cbn [snd enodes elinks edecls top_cache universal_cache].
    f_equal; [exact L|exact D].
  Qed.

  (** The state after the steps so far, by whether a replacement waits for its resolve. *)
  Definition tidy (dirty : bool) (s : engine) : Prop :=
    if dirty then top_cache s = None /\ universal_cache s = None else current s /\ resolved s.

  Lemma tidy_step dirty s o : tidy dirty s ->
    match o with
    | Replace _ _ => tidy true (step s o)
    | Resolve => tidy false (step s o)
    | Lookup x => dirty = false -> tidy false (step s o)
    end.
  Proof.
    intros T. destruct o as [f c| |x]; cbn [Engine_Model.step].
    - split; reflexivity.
    - split; [|apply retry_twice]. destruct dirty; [apply retry_empty; apply T|]. destruct T as [T1 T2].
      unfold resolved in T2. now rewrite T2.
    - intros ->. destruct T as [T1 T2]. split; [apply lookup_current, T1|now apply lookup_resolved].
  Qed.
End Engine.
