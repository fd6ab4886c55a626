(** C36 and C66: incremental indexing ends where indexing from scratch does; cached chains. *)
From Coq Require Import List Arith Lia Bool Permutation.
From Coq Require Arith.Cantor.
From Verif Require Ancestors_Proofs.
From Verif Require Import Sort_Lib Graph_Props Ancestors_Model Ancestors_Props Engine_Model Engine_Spec Engine_Proofs.
Import ListNotations.

(** ** C36 *)

(** However the files were loaded, reloaded and edited on the way: when no name of the final files
    was resolved to something else than the final definitions make of it, resolving at the end
    leaves the same facts.  The numbering of names may differ between the two. *)
Theorem C36_same_graph_partial : forall id1 id2 stub h1 h2, same_files h1 h2 ->
  steady id1 stub h1 -> steady id2 stub h2 ->
  same_graph (run id1 stub (h1 ++ [Resolve])) (run id2 stub (h2 ++ [Resolve])).
Proof.
  intros id1 id2 stub h1 h2 F S1 S2. rewrite !run_snoc. cbn [step].
  destruct (same_files_given h1 h2 F) as (G1 & G2 & G3).
  destruct (final_links id1 stub h1 S1) as [L1 D1], (final_links id2 stub h2 S2) as [L2 D2].
  assert (same_nodes (given h1) (given h2)) as SN.
  { intros n. split; apply Permutation_in; [exact G1|now symmetry]. }
  assert (forall d, resolution (view id1 stub (given h1)) d = resolution (view id2 stub (given h2)) d) as R.
  { intros d. rewrite (resolution_same id1 stub _ _ d SN). reflexivity. }
  split; [|split].
  - rewrite !retry_eq. cbn [enodes]. rewrite !run_nodes. exact G1.
  - rewrite L1, L2. rewrite (flat_map_ext (emit (view id1 stub (given h1))) (emit (view id2 stub (given h2)))).
    + apply Permutation_app; [exact G2|]. now apply Permutation_flat_map.
    + intros d. unfold emit. now rewrite R.
  - rewrite D1, D2. rewrite (filter_ext (stays (view id1 stub (given h1))) (stays (view id2 stub (given h2)))).
    + now apply perm_filter.
    + intros d. unfold stays. now rewrite R.
Qed.
Print Assumptions C36_same_graph_partial.

(** Two edges that only their targets tell apart: the mixins of one call. *)
Definition tied (l m : located link) : Prop :=
  file l = file m /\ start l = start m /\ stop l = stop m /\
  lsource (fact l) = lsource (fact m) /\ lkind (fact l) = lkind (fact m) /\ lexplicit (fact l) = lexplicit (fact m).
(** The two numberings put the targets of such edges in the same order. *)
Definition order_alike (id1 id2 : ns -> nat) (s : engine) : Prop :=
  forall l m, In l (elinks s) -> In m (elinks s) -> tied l m ->
    (id1 (ltarget (fact l)) <=? id1 (ltarget (fact m))) = (id2 (ltarget (fact l)) <=? id2 (ltarget (fact m))).
Definition numbering (id : ns -> nat) : Prop := forall x y, id x = id y -> x = y.

Lemma lexb_cons x a y b : lexb (x :: a) (y :: b) = (x <? y) || ((x =? y) && lexb a b).
Proof. reflexivity. Qed.
Lemma lexb_last x y : (x <? y) || ((x =? y) && lexb [] []) = (x <=? y).
Proof.
  cbn [lexb]. rewrite andb_true_r. apply eq_iff_eq_true. rewrite orb_true_iff, Nat.ltb_lt, Nat.eqb_eq, Nat.leb_le. lia.
Qed.
Lemma kind_rank_inj k k' : kind_rank k = kind_rank k' -> k = k'.
Proof. destruct k, k'; easy. Qed.

Lemma tied_keys id1 id2 l m : lsource (fact l) = lsource (fact m) ->
  (tied l m -> (id1 (ltarget (fact l)) <=? id1 (ltarget (fact m))) = (id2 (ltarget (fact l)) <=? id2 (ltarget (fact m)))) ->
  key_leb (link_key id1) l m = key_leb (link_key id2) l m.
Proof.
  intros HS HT. unfold key_leb, link_key. rewrite !lexb_cons, !lexb_last, HS, !Nat.eqb_refl, !Nat.ltb_irrefl. cbn [orb andb].
  destruct (file l <? file m); [reflexivity|]. destruct (Nat.eqb_spec (file l) (file m)) as [F|]; [|reflexivity].
  destruct (start l <? start m); [reflexivity|]. destruct (Nat.eqb_spec (start l) (start m)) as [B|]; [|reflexivity].
  destruct (stop l <? stop m); [reflexivity|]. destruct (Nat.eqb_spec (stop l) (stop m)) as [E|]; [|reflexivity].
  cbn [orb andb].
  destruct (kind_rank (lkind (fact l)) <? kind_rank (lkind (fact m))); [reflexivity|].
  destruct (Nat.eqb_spec (kind_rank (lkind (fact l))) (kind_rank (lkind (fact m)))) as [K|]; [|reflexivity].
  cbn [orb andb]. apply kind_rank_inj in K.
  destruct (lexplicit (fact l)) eqn:X, (lexplicit (fact m)) eqn:Y; try reflexivity; rewrite ?Nat.ltb_irrefl, ?Nat.eqb_refl; cbn [orb andb];
    apply HT; unfold tied; repeat split; congruence.
Qed.

Lemma link_eq l m id : numbering id -> link_key id l = link_key id m -> l = m.
Proof.
  intros N E. unfold link_key in E. injection E as E1 E2 E3 E4 E5 E6 E7. apply N in E1, E7. apply kind_rank_inj in E5.
  destruct l as [lf ls le [a b c d]], m as [mf ms me [a' b' c' d']]. cbn in *. subst.
  assert (d = d') as -> by (destruct d, d'; easy). reflexivity.
Qed.

Lemma perm_same_graph_view id1 id2 stub s1 s2 : numbering id1 ->
  same_graph s1 s2 -> order_alike id1 id2 s1 -> (forall f, of_file f (enodes s1) = of_file f (enodes s2)) ->
  alike (view id1 stub s1) (view id2 stub s2).
Proof.
  intros N (P1 & P2 & P3) O HN. split; [|split; [|split]].
  - cbn. f_equal. eapply (in_order_eq node_key); [apply sort_in_order|apply sort_in_order|].
    intros p. pose proof (same_at file node_key (fun _ => true) (enodes s1) (enodes s2)) as H.
    rewrite <- (Index_Lib.filter_all (fun _ => true) (enodes s1)), <- (Index_Lib.filter_all (fun _ => true) (enodes s2)) by auto.
    apply H; [|exact HN]. intros x y E. unfold node_key in E. congruence.
  - cbn. rewrite !map_length, !sort_length. now apply Permutation_length.
  - intros x. unfold edges_out. cbn [edges view].
    assert (forall (L : list (located link)), filter (fun e => same (source e) x) (map (edge_of stub) L) =
              map (edge_of stub) (filter (fun l => same (lsource (fact l)) x) L)) as FM.
    { induction L as [|l L IH]; auto. cbn [map filter]. cbn [edge_of source]. destruct (same _ _); cbn [map]; now rewrite IH. }
    rewrite !FM. f_equal.
    rewrite !(sort_filter _ (key_total _) (key_trans _)).
    set (p := fun l : located link => same (lsource (fact l)) x).
    assert (forall l m, In l (filter p (elinks s1)) -> In m (filter p (elinks s1)) ->
              key_leb (link_key id1) l m = key_leb (link_key id2) l m) as K.
    { intros l m Hl Hm. apply filter_In in Hl, Hm. destruct Hl as [Hl El], Hm as [Hm Em].
      unfold p in El, Em. apply Ancestors_Proofs.same_eq in El, Em. apply tied_keys; [congruence|]. intros T. now apply O. }
    transitivity (sort (key_leb (link_key id1)) (filter p (elinks s2))).
    + apply sort_perm_eq.
      * apply key_total.
      * apply key_trans.
      * intros l m _ _ E. apply key_eqv in E. now apply link_eq in E.
      * now apply perm_filter.
    + apply sort_ext. intros l m Hl Hm. assert (Permutation (filter p (elinks s2)) (filter p (elinks s1))) as PF.
      { apply perm_filter. now symmetry. }
      apply K; eapply Permutation_in; eauto.
  - intros u. cbn. split; apply Permutation_in, Permutation_map; [exact P3|now symmetry].
Qed.

(** And with the numberings agreeing on the mixins of one call, every namespace has the same lookup
    chain. *)
Theorem C36_same_answers_partial : forall id1 id2 stub h1 h2, same_files h1 h2 ->
  steady id1 stub h1 -> steady id2 stub h2 -> numbering id1 ->
  order_alike id1 id2 (run id1 stub (h1 ++ [Resolve])) ->
  forall x, method_lookup_chain (view id1 stub (run id1 stub (h1 ++ [Resolve]))) x =
            method_lookup_chain (view id2 stub (run id2 stub (h2 ++ [Resolve]))) x.
Proof.
  intros id1 id2 stub h1 h2 F S1 S2 N O x. apply alike_lookup. apply perm_same_graph_view; auto.
  - now apply C36_same_graph_partial.
  - intros f. rewrite !run_snoc. cbn [step]. rewrite !retry_eq. cbn [enodes]. rewrite !run_nodes.
    destruct (given_files h1 f) as (A & _), (given_files h2 f) as (B & _). rewrite A, B. now rewrite (F f).
Qed.
Print Assumptions C36_same_answers_partial.

(** What a resolve call adds: for every pending name that resolves, the edge it declares, of its kind and
    provenance, at its place; and for a superclass of a class that is a class, the same between their
    singleton classes. Names that resolve to nothing stay pending. *)
Definition class_node (id : ns -> nat) (stub : nat -> bool) (s : engine) (x : ns) : Prop := In (x, Class) (nodes (view id stub s)).
Inductive adds (id : ns -> nat) (stub : nat -> bool) (s : engine) (d : decl) (p : list nat) : link -> Prop :=
| adds_edge : adds id stub s d p (mkLink (dsource d) (mkNs p false) (dkind d) (dexplicit d))
| adds_singleton : dkind d = Superclass -> singleton (dsource d) = false -> class_node id stub s (dsource d) ->
    class_node id stub s (mkNs p false) ->
    adds id stub s d p (mkLink (mkNs (path (dsource d)) true) (mkNs p true) Superclass (dexplicit d)).
Lemma is_class_iff w x : is_class w x = true <-> In (x, Class) (nodes w).
Proof.
  unfold is_class, nodes_for. rewrite existsb_exists. split.
  - intros ([|] & H & E); [|discriminate]. apply in_map_iff in H. destruct H as ([y k] & Ek & H). apply filter_In in H. destruct H as [H S].
    cbn in *. apply Ancestors_Proofs.same_eq in S. now subst.
  - intros H. exists Class. split; auto. apply in_map_iff. exists (x, Class). split; auto. apply filter_In. split; auto. now apply Ancestors_Proofs.same_eq.
Qed.
Theorem C36_resolved_edges : forall id stub s,
  (forall l, In l (elinks (retry id stub s)) <-> In l (elinks s) \/
     exists d p, In d (edecls s) /\ resolve_graph_target (view id stub s) (parts (fact d)) (absolute (fact d)) (context (fact d)) = Some p /\
       file l = file d /\ start l = start d /\ stop l = stop d /\ adds id stub s (fact d) p (fact l)) /\
  (forall d, In d (edecls (retry id stub s)) <-> In d (edecls s) /\
     resolve_graph_target (view id stub s) (parts (fact d)) (absolute (fact d)) (context (fact d)) = None) /\
  enodes (retry id stub s) = enodes s.
Proof.
  intros id stub s. rewrite retry_eq. cbn [elinks edecls enodes]. split; [|split]; [| |reflexivity].
  - intros l. rewrite in_app_iff, in_flat_map. apply or_iff_compat_l. unfold emit, resolution.
    assert (forall d p, In (fact l) (mkLink (dsource d) (mkNs p false) (dkind d) (dexplicit d) :: companion (view id stub s) d (mkNs p false)) <->
              adds id stub s d p (fact l)) as A.
    { intros d p. cbn [In]. unfold companion. cbn [singleton negb path]. split.
      - intros [<-|H]; [constructor|].
        destruct (same_kind (dkind d) Superclass) eqn:K; [|destruct H]. cbn [andb] in H. unfold same_kind in K.
        destruct (kind_eq_dec (dkind d) Superclass) as [EK|]; [|discriminate].
        destruct (singleton (dsource d)) eqn:SG; [destruct H|]. cbn [negb andb] in H.
        destruct (is_class (view id stub s) (dsource d)) eqn:C1; [|destruct H]. cbn [andb] in H.
        destruct (is_class (view id stub s) (mkNs p false)) eqn:C2; [|destruct H]. apply is_class_iff in C1, C2.
        destruct H as [<-|[]]. now apply adds_singleton.
      - intros [|EK SG C1 C2]; [now left|right]. apply is_class_iff in C1, C2. rewrite EK, SG, C1, C2. cbn. auto. }
    split.
    + intros (d & Hd & Hl). destruct (resolve_graph_target _ _ _ _) as [p|] eqn:R; [|destruct Hl].
      apply in_map_iff in Hl. destruct Hl as (k & <- & Hk). exists d, p. cbn [file start stop fact] in *.
      do 5 (split; [solve [auto]|]). apply A. exact Hk.
    + intros (d & p & Hd & R & E1 & E2 & E3 & HA). exists d. split; auto. rewrite R. apply in_map_iff. exists (fact l).
      split; [destruct l; cbn in *; congruence|]. now apply A.
  - intros d. rewrite filter_In. apply and_iff_compat_l. unfold stays, resolution. destruct (resolve_graph_target _ _ _ _); split; easy.
Qed.
Print Assumptions C36_resolved_edges.

(** Loading files without resolving in between is always steady: the order in which files are
    loaded, and how often, does not matter. *)
Theorem C36_bulk_load : forall id stub h1 h2, same_files h1 h2 -> numbering id ->
  ~ In Resolve h1 -> ~ In Resolve h2 ->
  same_graph (run id stub (h1 ++ [Resolve])) (run id stub (h2 ++ [Resolve])) /\
  forall x, method_lookup_chain (view id stub (run id stub (h1 ++ [Resolve]))) x =
            method_lookup_chain (view id stub (run id stub (h2 ++ [Resolve]))) x.
Proof.
  intros id stub h1 h2 F N N1 N2.
  assert (forall h, ~ In Resolve h -> steady id stub h) as S.
  { intros h Hn a b E. exfalso. apply Hn. rewrite E. apply in_or_app. right. now left. }
  split; [apply C36_same_graph_partial; auto|]. apply C36_same_answers_partial; auto. intros l m _ _ _. reflexivity.
Qed.
Print Assumptions C36_bulk_load.

(** When the definitions are loaded first and then only files without definitions change, it does
    not matter when names were resolved. *)
Theorem C36_settled_definitions : forall id stub h0 h h2, numbering id ->
  ~ In Resolve h0 -> (forall f c, In (Replace f c) h -> cnodes c = [] /\ cnodes (latest f h0) = []) ->
  same_files (h0 ++ h) h2 -> ~ In Resolve h2 ->
  forall x, method_lookup_chain (view id stub (run id stub ((h0 ++ h) ++ [Resolve]))) x =
            method_lookup_chain (view id stub (run id stub (h2 ++ [Resolve]))) x.
Proof.
  intros id stub h0 h h2 N N0 HC F N2.
  assert (forall h', (forall f c, In (Replace f c) h' -> cnodes c = [] /\ cnodes (latest f h0) = []) ->
            forall f, of_file f (enodes (given (h0 ++ h'))) = of_file f (enodes (given h0))) as SN.
  { intros h' Hh f. rewrite (proj1 (given_files (h0 ++ h') f)), (proj1 (given_files h0 f)). f_equal.
    induction h' as [|o h' IH] using rev_ind; [now rewrite app_nil_r|].
    rewrite app_assoc, latest_snoc. destruct o as [g c| |y]; try (apply IH; intros; apply Hh; apply in_or_app; now left).
    destruct (Nat.eqb_spec g f) as [->|]; [|apply IH; intros; apply Hh; apply in_or_app; now left].
    destruct (Hh f c) as [-> ->]; [apply in_or_app; right; now left|reflexivity]. }
  apply C36_same_answers_partial; auto.
  - intros h1 h3 E d _. right.
    assert (exists h1', h1 = h0 ++ h1' /\ forall f c, In (Replace f c) h1' -> In (Replace f c) h) as (h1' & -> & Hs).
    { clear - N0 E. revert h1 E. induction h0 as [|o h0 IH]; intros h1 E.
      - exists h1. split; auto. cbn in E. intros f c Hi. rewrite E. apply in_or_app. now left.
      - destruct h1 as [|o' h1]; cbn in E.
        + exfalso. apply N0. left. congruence.
        + injection E as <- E. destruct (IH ltac:(intros Hn; apply N0; now right) h1 E) as (h1' & -> & Hs).
          exists h1'. auto. }
    apply resolution_same. intros n.
    assert (Permutation (enodes (given (h0 ++ h1'))) (enodes (given (h0 ++ h)))) as P.
    { apply perm_by_file. intros f. rewrite (SN h HC). apply SN. intros g c Hi. apply HC. now apply Hs. }
    rewrite !run_nodes. split; apply Permutation_in; [exact P|now symmetry].
  - intros a b E. exfalso. apply N2. rewrite E. apply in_or_app. right. now left.
  - intros l m _ _ _. reflexivity.
Qed.
Print Assumptions C36_settled_definitions.

(** ** Where it fails *)

(** A numbering of the names used in the examples. *)
Fixpoint code_path (p : list nat) : nat := match p with [] => 0 | a :: r => S (Cantor.to_nat (a, code_path r)) end.
Definition code (x : ns) : nat := 2 * code_path (path x) + if singleton x then 1 else 0.
Lemma code_numbering : numbering code.
Proof.
  assert (forall p q, code_path p = code_path q -> p = q) as H.
  { induction p as [|a p IH]; intros [|b q] E; cbn [code_path] in E; try easy. apply Nat.succ_inj in E.
    apply (f_equal Cantor.of_nat) in E. rewrite !Cantor.cancel_of_to in E. injection E as -> E. f_equal. now apply IH. }
  intros [p k] [q l] E. unfold code in E. cbn [path singleton] in E.
  assert (code_path p = code_path q /\ k = l) as [E1 ->] by (destruct k, l; split; lia). f_equal. now apply H.
Qed.

(** [class Out::B < A] is indexed while only the outer A exists; then Out::A appears.  The edge stays
    on the outer A, where a fresh load finds Out::A. *)
Definition Out := 5. Definition IA := 6. Definition IB := 7.
Definition n1 (x : ns) (k : node_kind) : nat * nat * (ns * node_kind) := (0, 9, (x, k)).
Definition file_outer := mkContent [n1 (mkNs [IA] false) Class] [] [].
Definition file_b := mkContent [n1 (mkNs [Out] false) Module; n1 (mkNs [Out; IB] false) Class] []
  [(4, 5, mkDecl (mkNs [Out; IB] false) [IA] false [Out; IB] Superclass true)].
Definition file_inner := mkContent [n1 (mkNs [Out; IA] false) Class] [] [].
Definition incremental := [Replace 1 file_outer; Replace 2 file_b; Resolve; Replace 3 file_inner].
Definition scratch := [Replace 1 file_outer; Replace 2 file_b; Replace 3 file_inner].

Theorem C36_never_re_resolved_refuted : exists id stub h1 h2 x, numbering id /\ same_files h1 h2 /\
  method_lookup_chain (view id stub (run id stub (h1 ++ [Resolve]))) x <>
  method_lookup_chain (view id stub (run id stub (h2 ++ [Resolve]))) x.
Proof.
  exists code, (fun _ => false), incremental, scratch, (mkNs [Out; IB] false). split; [|split].
  - exact code_numbering.
  - intros f. cbn. destruct f as [|[|[|[|f]]]]; reflexivity.
  - intros E. vm_compute in E. discriminate.
Qed.
Print Assumptions C36_never_re_resolved_refuted.

(** [include M, N] in one call: both edges carry the range of the call, so the numbering of the two
    modules, and with it the order in which files were loaded, decides which comes first. *)
Definition XM := 8. Definition XN := 9. Definition XC := 10.
Definition file_c := mkContent [n1 (mkNs [XC] false) Class] []
  [(4, 20, mkDecl (mkNs [XC] false) [XM] false [XC] Include true);
   (4, 20, mkDecl (mkNs [XC] false) [XN] false [XC] Include true)].
Definition file_m := mkContent [n1 (mkNs [XM] false) Module] [] [].
Definition file_n := mkContent [n1 (mkNs [XN] false) Module] [] [].
(** Names are numbered as they are first mentioned (NameTables::intern_fqn, state.rs 1256; node facts
    are interned in the order of the file, state.rs 3585-3596). *)
Definition mentioned (h : list op) : list ns :=
  flat_map (fun o => match o with Replace _ c => map (fun n => fst (snd n)) (cnodes c) | _ => [] end) h.
Fixpoint position (l : list ns) (x : ns) : nat :=
  match l with [] => code x | y :: r => if same y x then 0 else S (position r x) end.

Theorem C36_one_call_mixins_refuted : exists stub h1 h2 x, same_files h1 h2 /\
  ~ In Resolve h1 /\ ~ In Resolve h2 /\ NoDup (mentioned h1) /\ NoDup (mentioned h2) /\
  method_lookup_chain (view (position (mentioned h1)) stub (run (position (mentioned h1)) stub (h1 ++ [Resolve]))) x <>
  method_lookup_chain (view (position (mentioned h2)) stub (run (position (mentioned h2)) stub (h2 ++ [Resolve]))) x.
Proof.
  exists (fun _ => false), [Replace 1 file_m; Replace 2 file_n; Replace 3 file_c], [Replace 2 file_n; Replace 1 file_m; Replace 3 file_c], (mkNs [XC] false).
  split; [|split; [|split; [|split; [|split]]]].
  - intros f. cbn. destruct f as [|[|[|[|f]]]]; reflexivity.
  - cbn. intuition discriminate.
  - cbn. intuition discriminate.
  - vm_compute. repeat constructor; cbn; intuition discriminate.
  - vm_compute. repeat constructor; cbn; intuition discriminate.
  - intros E. vm_compute in E. discriminate.
Qed.
Print Assumptions C36_one_call_mixins_refuted.
(** Loaded in the order of their definition, the modules end up in the opposite of Ruby's order, in
    which the first module named comes first. *)
Example C36_one_call_order :
  let h := [Replace 1 file_m; Replace 2 file_n; Replace 3 file_c] in
  method_lookup_chain (view (position (mentioned h)) (fun _ => false) (run (position (mentioned h)) (fun _ => false) (h ++ [Resolve]))) (mkNs [XC] false)
  = Some [mkNs [XC] false; mkNs [XN] false; mkNs [XM] false].
Proof. vm_compute. reflexivity. Qed.

(** Non-vacuity of the positive theorems: a bulk load with a name to resolve, in two orders and with
    a file loaded twice; an edit of a file without definitions between resolves. *)
Definition file_use := mkContent [] [] [(4, 5, mkDecl (mkNs [Out; IB] false) [IA] false [Out; IB] Superclass true)].
Definition file_defs := mkContent [n1 (mkNs [Out] false) Module; n1 (mkNs [Out; IB] false) Class] [] [].
Example C36_example :
  same_files scratch [Replace 3 file_outer; Replace 2 file_b; Replace 3 file_inner; Replace 1 file_outer] /\
  method_lookup_chain (view code (fun _ => false) (run code (fun _ => false) (scratch ++ [Resolve]))) (mkNs [Out; IB] false)
    = Some [mkNs [Out; IB] false; mkNs [Out; IA] false] /\
  same_files ([Replace 1 file_outer; Replace 2 file_defs] ++ [Replace 4 file_use; Resolve; Replace 4 nothing; Resolve; Replace 4 file_use])
             [Replace 2 file_defs; Replace 4 file_use; Replace 1 file_outer].
Proof.
  split; [|split].
  - intros f. cbn. destruct f as [|[|[|[|f]]]]; reflexivity.
  - vm_compute. reflexivity.
  - intros f. cbn. destruct f as [|[|[|[|[|f]]]]]; reflexivity.
Qed.

(** ** C66 *)

(** When every replacement is followed by a resolve call before the next lookup, a lookup answers
    with the chain of the current graph, whatever was cached before. *)
Theorem C66_cached_chains_partial : forall id stub h x, quiet true (h ++ [Lookup x]) ->
  fst (lookup id stub (run id stub h) x) = method_lookup_chain (view id stub (run id stub h)) x.
Proof.
  intros id stub h x Q. apply lookup_current.
  assert (forall h s dirty, tidy id stub dirty s -> quiet dirty (h ++ [Lookup x]) ->
            tidy id stub false (fold_left (step id stub) h s)) as G.
  { clear. induction h as [|o h IH]; intros s dirty T Q; cbn [app quiet fold_left] in *.
    - destruct Q as [-> _]. exact T.
    - pose proof (tidy_step id stub dirty s o T) as T'. destruct o as [f c| |y].
      + now apply (IH _ true).
      + now apply (IH _ false).
      + destruct Q as [E Q]. subst. apply (IH _ false); auto. }
  apply (G h fresh_engine true); [split; reflexivity|exact Q].
Qed.
Print Assumptions C66_cached_chains_partial.

(** Without a resolve call in between the answer is the chain of the graph as it is then; the caches
    never go wrong by replacement alone. *)
Theorem C66_replacement_clears : forall id stub h f c x,
  fst (lookup id stub (run id stub (h ++ [Replace f c])) x) =
  method_lookup_chain (view id stub (run id stub (h ++ [Replace f c]))) x.
Proof. intros. apply lookup_current. rewrite run_snoc. split; left; reflexivity. Qed.
Print Assumptions C66_replacement_clears.

(** A lookup between a deferred replacement and the resolve call leaves the fallback chain of the
    unresolved graph behind, and later lookups answer with it. *)
Definition file_obj := mkContent [n1 object Class; n1 (mkNs [XM] false) Module] []
  [(4, 5, mkDecl object [XM] false [Object] Include true)].
Theorem C66_stale_chain_refuted : exists id stub h x, numbering id /\
  fst (lookup id stub (run id stub h) x) <> method_lookup_chain (view id stub (run id stub h)) x /\
  In Resolve h.
Proof.
  exists code, (fun _ => false), [Replace 1 file_obj; Lookup root; Resolve], root. split; [|split].
  - exact code_numbering.
  - vm_compute. discriminate.
  - right; right; now left.
Qed.
Print Assumptions C66_stale_chain_refuted.

Example C66_example :
  quiet true ([Replace 1 file_obj; Resolve; Lookup root; Lookup (mkNs [XM] false)] ++ [Lookup root]) /\
  top_cache (run code (fun _ => false) [Replace 1 file_obj; Resolve; Lookup root]) = Some [root; object; mkNs [XM] false].
Proof. split; [cbn; auto 10|vm_compute; reflexivity]. Qed.
