From Coq Require Import List Arith NArith Lia Bool Permutation Sorted.
From Verif Require Import Lib Sort_Lib Index_Lib FileStores_Proofs Graph_Model Graph_Spec.
Import ListNotations.

Definition kind_eqb (a b : edge_kind) : bool := kind_rank a =? kind_rank b.
Lemma kind_eqb_eq a b : kind_eqb a b = true <-> a = b.
Proof. destruct a, b; split; try reflexivity; discriminate. Qed.

Definition out (k : edge_kind) (n : gnode) : list nat :=
  match k with
  | Superclass => superclasses n | Include => includes n | Prepend => prepends n
  | Extend => extends n | Application => applications n
  end.
Definition inc (k : edge_kind) (n : gnode) : list nat :=
  match k with
  | Superclass => children n | Include => included_by n | Prepend => prepended_by n
  | Extend => extended_by n | Application => templates n
  end.

Lemma out_outgoing k' f n k : out k (on_outgoing k' f n) = if kind_eqb k' k then f (out k n) else out k n.
Proof. now destruct n, k', k. Qed.
Lemma out_incoming k' f n k : out k (on_incoming k' f n) = out k n.
Proof. now destruct n, k', k. Qed.
Lemma inc_incoming k' f n k : inc k (on_incoming k' f n) = if kind_eqb k' k then f (inc k n) else inc k n.
Proof. now destruct n, k', k. Qed.
Lemma inc_outgoing k' f n k : inc k (on_outgoing k' f n) = inc k n.
Proof. now destruct n, k', k. Qed.
Lemma defs_outgoing k' f n : definitions (on_outgoing k' f n) = definitions n.
Proof. now destruct n, k'. Qed.
Lemma defs_incoming k' f n : definitions (on_incoming k' f n) = definitions n.
Proof. now destruct n, k'. Qed.
Lemma out_definitions d n k : out k (set_definitions n d) = out k n.
Proof. now destruct k. Qed.
Lemma inc_definitions d n k : inc k (set_definitions n d) = inc k n.
Proof. now destruct k. Qed.

(** ** Ids of the edges with a property *)
Definition ghost := list (nat * edge).
Definition ids (p : edge -> bool) (G : ghost) : list nat := map fst (filter (fun e => p (snd e)) G).

Lemma ids_push p G id x : ids p (G ++ [(id, x)]) = if p x then ids p G ++ [id] else ids p G.
Proof.
  unfold ids. rewrite filter_app, map_app. simpl. destruct (p x); simpl; auto. now rewrite app_nil_r.
Qed.

Lemma ids_drop p G id x : NoDup (map fst G) -> In (id, x) G ->
  ids p (filter (not_id id) G) = if p x then filter (fun i => negb (i =? id)) (ids p G) else ids p G.
Proof.
  intros ND HI. unfold ids. rewrite filter_comm. destruct (p x) eqn:E.
  - now rewrite filter_map_fst.
  - rewrite (filter_all (not_id id)); auto. intros [j y] Hy. apply filter_In in Hy.
    destruct Hy as [Hy Hp]. unfold not_id. simpl in *. destruct (Nat.eqb_spec j id) as [->|N]; auto.
    rewrite (nodup_same _ _ _ _ ND Hy HI) in Hp. congruence.
Qed.

Lemma ids_clone a p G : holds a G -> clone_facts a (ids p G) = filter p (map snd G).
Proof.
  intros H. unfold ids. rewrite (holds_clone _ G); auto.
  - clear. induction G as [|[i x] G IH]; auto. simpl. destruct (p x); simpl; now rewrite IH.
  - intros e He. now apply filter_In in He.
Qed.

(** ** The invariant *)
Definition nfile (x : node_fact) : nat := file_id (nrange x).
Definition efile (x : edge) : nat := file_id (erange x).
Definition ufile (x : unresolved) : nat := file_id (urange x).
Definition def (x : node_fact) : definition := (nkind x, nrange x).
Definition named (q : nat) (x : node_fact) : bool := nfqn x =? q.
Definition leaves (k : edge_kind) (q : nat) (e : edge) : bool := (source e =? q) && kind_eqb (ekind e) k.
Definition enters (k : edge_kind) (q : nat) (e : edge) : bool := (target e =? q) && kind_eqb (ekind e) k.
Definition in_file (f : nat) (e : edge) : bool := efile e =? f.
Definition pending (q : nat) (u : unresolved) : bool :=
  is_superclass (ukind u) && is_explicit (uprov u) && (usource u =? q).
Definition number (q : nat) (U : list unresolved) : nat := length (filter (pending q) U).
Definition optn (c : nat) : option nat := match c with 0 => None | _ => Some c end.
Definition nosort {A} (x y : A) : bool := true.

Definition nodes_ok (m : list (nat * gnode)) (N : list node_fact) (G : ghost) : Prop :=
  NoDup (map fst m) /\
  (forall q, definitions (node_or_default m q) = sort (key_leb definition_key) (map def (filter (named q) N))) /\
  (forall k q, out k (node_or_default m q) = ids (leaves k q) G) /\
  (forall k q, inc k (node_or_default m q) = ids (enters k q) G).

Definition edges_ok (s : graph) (G : ghost) : Prop :=
  holds (edges s) G /\ forall f, getd Nat.eqb (edges_by_file s) f = ids (in_file f) G.

Definition files_ok (s : graph) (N : list node_fact) : Prop :=
  forall x, In x N -> In (nfile x) (node_definition_files s).

Definition pending_ok (m : list (nat * nat)) (U : list unresolved) : Prop :=
  forall q, get Nat.eqb m q = optn (number q U).

Definition ok (s : graph) (N : list node_fact) (G : ghost) (U : list unresolved) : Prop :=
  nodes_ok (nodes s) N G /\ edges_ok s G /\ files_ok s N /\
  buckets ufile nosort (unresolved_by_file s) U /\ pending_ok (unresolved_explicit s) U.

Lemma ok_new : ok new [] [] [].
Proof.
  split; [|split; [|split; [|split]]].
  - split; [constructor|]. split; [|split]; intros; try destruct k; reflexivity.
  - split; [apply holds_nil|]. reflexivity.
  - easy.
  - apply buckets_nil.
  - easy.
Qed.

Lemma nd_put m q n q' : node_or_default (put Nat.eqb m q n) q' = if q =? q' then n else node_or_default m q'.
Proof. unfold node_or_default. rewrite get_put by apply Nat.eqb_eq. now destruct (q =? q'). Qed.

Lemma nosort_id {A} (l : list A) : sort nosort l = l.
Proof. induction l as [|x l IH]; auto. simpl. rewrite IH. now destruct l. Qed.

(** ** add_node *)
Lemma add_node_ok s N G U x : ok s N G U -> ok (add_node s x) (N ++ [x]) G U.
Proof.
  intros ((K & D & O & I) & E & F & B & P). unfold add_node. split; [|split; [|split; [|split]]]; auto.
  - cbn [nodes]. split; [apply put_keys; auto; apply Nat.eqb_eq|]. split; [|split].
    + intros q. rewrite nd_put, filter_app, map_app. cbn [filter]. unfold named at 2.
      destruct (Nat.eqb_spec (nfqn x) q) as [<-|N'].
      * cbn [definitions set_definitions map]. rewrite D.
        rewrite sort_sort_app by (apply key_total || apply key_trans). reflexivity.
      * cbn [map]. rewrite app_nil_r. apply D.
    + intros k q. rewrite nd_put. destruct (Nat.eqb_spec (nfqn x) q) as [<-|N']; auto.
      rewrite out_definitions. apply O.
    + intros k q. rewrite nd_put. destruct (Nat.eqb_spec (nfqn x) q) as [<-|N']; auto.
      rewrite inc_definitions. apply I.
  - intros y Hy. cbn [node_definition_files]. apply in_app_or in Hy.
    destruct (Nat.eq_dec (nfile y) (nfile x)) as [->|N']; [now left|].
    right. apply filter_In. split.
    + destruct Hy as [Hy|[->|[]]]; [now apply F|contradiction].
    + apply negb_true_iff, Nat.eqb_neq. exact N'.
Qed.

(** ** add_edge *)
Lemma add_edge_ok s N G U e : ok s N G U -> exists s' id, add_edge s e = Some s' /\ ok s' N (G ++ [(id, e)]) U.
Proof.
  intros ((K & D & O & I) & (HA & HF) & F & B & P). unfold add_edge.
  destruct (holds_insert None (edges s) G e HA (fun _ => Logic.I)) as (id & a & -> & HA' & Hid & _).
  eexists _, id. split; [reflexivity|]. split; [|split; [|split; [|split]]]; auto.
  - cbn [nodes]. split; [|split; [|split]].
    + apply put_keys; [apply Nat.eqb_eq|]. apply put_keys; auto. apply Nat.eqb_eq.
    + intros q. rewrite !nd_put. unfold push_incoming, push_outgoing. rewrite <- D.
      assert (forall q, definitions (if source e =? q then on_outgoing (ekind e) (fun l => l ++ [id]) (node_or_default (nodes s) (source e))
                     else node_or_default (nodes s) q) = definitions (node_or_default (nodes s) q)) as H.
      { intros q'. destruct (Nat.eqb_spec (source e) q') as [<-|N1]; auto. apply defs_outgoing. }
      destruct (Nat.eqb_spec (target e) q) as [<-|N1]; auto. rewrite defs_incoming. apply H.
    + intros k q. rewrite !nd_put, ids_push. unfold push_incoming, push_outgoing, leaves at 1.
      assert (out k (if source e =? q then on_outgoing (ekind e) (fun l => l ++ [id]) (node_or_default (nodes s) (source e))
                     else node_or_default (nodes s) q) =
              if (source e =? q) && kind_eqb (ekind e) k then ids (leaves k q) G ++ [id] else ids (leaves k q) G) as H.
      { destruct (Nat.eqb_spec (source e) q) as [<-|N1]; cbn [andb].
        - rewrite out_outgoing, O. reflexivity.
        - apply O. }
      destruct (Nat.eqb_spec (target e) q) as [<-|N1]; auto. rewrite out_incoming. exact H.
    + intros k q. rewrite !nd_put, ids_push. unfold push_incoming, push_outgoing, enters at 1.
      assert (forall q, inc k (if source e =? q then on_outgoing (ekind e) (fun l => l ++ [id]) (node_or_default (nodes s) (source e))
                     else node_or_default (nodes s) q) = ids (enters k q) G) as H.
      { intros q'. destruct (Nat.eqb_spec (source e) q') as [<-|N1].
        - rewrite inc_outgoing. apply I.
        - apply I. }
      destruct (Nat.eqb_spec (target e) q) as [<-|N1]; cbn [andb]; auto. rewrite inc_incoming, H. reflexivity.
  - split; [exact HA'|]. cbn [edges_by_file]. intros f. rewrite getd_push by apply Nat.eqb_eq.
    rewrite HF, ids_push. reflexivity.
Qed.

(** ** add_unresolved_edge *)
Lemma push_sort_at (m : list (nat * list unresolved)) n x : sort_at nosort (push Nat.eqb m n x) n = put Nat.eqb (push Nat.eqb m n x) n (getd Nat.eqb m n ++ [x]).
Proof.
  unfold sort_at, push at 1. rewrite get_put by apply Nat.eqb_eq. rewrite Nat.eqb_refl. now rewrite nosort_id.
Qed.

Lemma nosort_total {A} (x y : A) : nosort x y = true \/ nosort y x = true.
Proof. now left. Qed.
Lemma nosort_trans {A} (x y z : A) : nosort x y = true -> nosort y z = true -> nosort x z = true.
Proof. auto. Qed.

Lemma add_unresolved_ok s N G U u : ok s N G U -> ok (add_unresolved_edge s u) N G (U ++ [u]).
Proof.
  intros (HN & E & F & B & P). unfold add_unresolved_edge. split; [|split; [|split; [|split]]]; auto.
  - cbn [unresolved_by_file].
    pose proof (add_buckets ufile nosort nosort_total nosort_trans _ _ u B) as [K1 H1].
    split; [apply put_keys; [apply Nat.eqb_eq|apply B]|]. intros k. rewrite <- H1.
    rewrite sort_at_get. destruct (Nat.eqb_spec (ufile u) k) as [<-|N']; auto.
    destruct (get _ _ _); auto. now rewrite nosort_id.
  - cbn [unresolved_explicit]. intros q. unfold number. rewrite filter_app. cbn [filter].
    unfold pending at 2. destruct (is_superclass (ukind u) && is_explicit (uprov u)) eqn:EQ; cbn [andb].
    + rewrite get_put by apply Nat.eqb_eq. destruct (Nat.eqb_spec (usource u) q) as [<-|N'].
      * rewrite P. rewrite app_length. simpl. fold (number (usource u) U). unfold optn.
        destruct (number (usource u) U) eqn:E1; simpl; auto. f_equal. lia.
      * rewrite app_nil_r. apply P.
    + rewrite app_nil_r. apply P.
Qed.

(** ** remove_file *)
Lemma get_filter_map (g : nat * gnode -> nat * gnode) (p : nat * gnode -> bool) m q :
  (forall e, fst (g e) = fst e) -> NoDup (map fst m) ->
  get Nat.eqb (filter p (map g m)) q =
  match get Nat.eqb m q with
  | None => None
  | Some n => if p (g (q, n)) then Some (snd (g (q, n))) else None
  end.
Proof.
  intros Hg. induction m as [|[k n] m IH]; simpl; auto. intros ND. inversion ND; subst.
  pose proof (Hg (k, n)) as H. simpl in H.
  destruct (g (k, n)) as [k' n'] eqn:E. simpl in H. subst k'.
  destruct (Nat.eqb_spec k q) as [->|N].
  - rewrite E. simpl. destruct (p (q, n')); simpl; [now rewrite Nat.eqb_refl|].
    rewrite IH by auto. destruct (get Nat.eqb m q) eqn:E1; auto. exfalso. apply H1.
    apply get_in in E1; [|apply Nat.eqb_eq]. apply (in_map fst) in E1. exact E1.
  - destruct (p (k, n')); simpl; auto. destruct (Nat.eqb_spec k q); [contradiction|auto].
Qed.

Lemma empty_is n : is_nil (definitions n) && has_no_edges n = true -> n = empty_node.
Proof.
  destruct n as [d s i p e a c ib pb eb t]. unfold has_no_edges. cbn.
  destruct d, s, i, p, e, a, c, ib, pb, eb, t; cbn; easy.
Qed.

Lemma nd_remove_nodes m f q : NoDup (map fst m) ->
  node_or_default (remove_nodes m f) q =
  set_definitions (node_or_default m q)
    (filter (fun d => negb (file_id (snd d) =? f)) (definitions (node_or_default m q))).
Proof.
  intros ND. unfold node_or_default, remove_nodes. rewrite get_filter_map by auto.
  destruct (get Nat.eqb m q) as [n|] eqn:E; auto. cbn [forget fst snd].
  match goal with |- context [is_nil (definitions ?t)] => set (n' := t) end.
  destruct (is_nil (definitions n') && has_no_edges n') eqn:EE; cbn [negb]; auto.
  now rewrite (empty_is _ EE).
Qed.

Lemma keys_remove_nodes m f : NoDup (map fst m) -> NoDup (map fst (remove_nodes m f)).
Proof.
  intros ND. unfold remove_nodes.
  assert (map fst (map (forget f) m) = map fst m) as E by (rewrite map_map; reflexivity).
  rewrite <- E in ND. revert ND. generalize (map (forget f) m). clear.
  induction l as [|[k n] l IH]; simpl; auto. intros ND. inversion ND; subst.
  destruct (negb _); simpl; auto. constructor; auto. intros H. apply H1.
  apply in_map_iff in H. destruct H as [x [<- H]]. apply filter_In in H. now apply in_map.
Qed.

Lemma filter_map_def f (l : list node_fact) :
  filter (fun d => negb (file_id (snd d) =? f)) (map def l) = map def (outside nfile f l).
Proof.
  induction l as [|x l IH]; auto. simpl. unfold nfile at 1. destruct (file_id (nrange x) =? f); simpl; now rewrite IH.
Qed.

Lemma remove_nodes_ok m N G f : nodes_ok m N G -> nodes_ok (remove_nodes m f) (outside nfile f N) G.
Proof.
  intros (K & D & O & I). split; [now apply keys_remove_nodes|]. split; [|split].
  - intros q. rewrite nd_remove_nodes by auto. cbn [definitions set_definitions]. rewrite D.
    rewrite sort_filter by (apply key_total || apply key_trans). f_equal.
    rewrite filter_map_def. unfold outside. now rewrite filter_comm.
  - intros k q. rewrite nd_remove_nodes by auto. rewrite out_definitions. apply O.
  - intros k q. rewrite nd_remove_nodes by auto. rewrite inc_definitions. apply I.
Qed.

Lemma uncount_all_ok l : forall m (b : nat -> nat),
  (forall q, get Nat.eqb m q = optn (number q l + b q)) ->
  exists m', uncount_all m l = Some m' /\ forall q, get Nat.eqb m' q = optn (b q).
Proof.
  induction l as [|u l IH]; intros m b H.
  - exists m. auto.
  - cbn [uncount_all]. unfold uncount.
    assert (forall q, number q (u :: l) = (if pending q u then 1 else 0) + number q l) as HN.
    { intros q. unfold number. simpl. now destruct (pending q u). }
    assert (forall q, pending q u = is_superclass (ukind u) && is_explicit (uprov u) && (usource u =? q)) as HP
      by reflexivity.
    destruct (is_superclass (ukind u)); cbn [negb orb andb] in *.
    2:{ apply IH. intros q. rewrite H, HN, HP. reflexivity. }
    destruct (is_explicit (uprov u)); cbn [negb orb andb] in *.
    2:{ apply IH. intros q. rewrite H, HN, HP. reflexivity. }
    pose proof (H (usource u)) as H0. rewrite HN, HP, Nat.eqb_refl in H0. cbn [Nat.add optn] in H0. rewrite H0.
    destruct (number (usource u) l + b (usource u)) as [|c] eqn:EC.
    + apply IH. intros q. rewrite get_del by apply Nat.eqb_eq. rewrite H, HN, HP.
      destruct (Nat.eqb_spec (usource u) q) as [<-|N']; auto. now rewrite EC.
    + apply IH. intros q. rewrite get_put by apply Nat.eqb_eq. rewrite H, HN, HP.
      destruct (Nat.eqb_spec (usource u) q) as [<-|N']; auto. now rewrite EC.
Qed.

Lemma number_split q f U : number q U = number q (of_file ufile f U) + number q (others ufile f U).
Proof.
  unfold number, of_file, others. induction U as [|u U IH]; auto. simpl.
  destruct (ufile u =? f); simpl; destruct (pending q u); simpl; lia.
Qed.

Lemma nd_adjust m q (g : gnode -> gnode) q' : g empty_node = empty_node ->
  node_or_default (match get Nat.eqb m q with None => m | Some n => put Nat.eqb m q (g n) end) q' =
  if q =? q' then g (node_or_default m q') else node_or_default m q'.
Proof.
  intros H. destruct (get Nat.eqb m q) as [n|] eqn:E.
  - rewrite nd_put. destruct (Nat.eqb_spec q q') as [<-|N]; auto. unfold node_or_default. now rewrite E.
  - destruct (Nat.eqb_spec q q') as [<-|N]; auto. unfold node_or_default. now rewrite E, H.
Qed.

Lemma keys_adjust m q (g : gnode -> gnode) : NoDup (map fst m) ->
  NoDup (map fst (match get Nat.eqb m q with None => m | Some n => put Nat.eqb m q (g n) end)).
Proof. intros H. destruct (get Nat.eqb m q); auto. apply put_keys; auto. apply Nat.eqb_eq. Qed.

Lemma remove_edge_ok s N G id e : nodes_ok (nodes s) N G -> holds (edges s) G -> In (id, e) G ->
  exists m a, remove_edge s id = Some (mkGraph m a (node_definition_files s) (edges_by_file s)
                                         (unresolved_by_file s) (unresolved_explicit s)) /\
    nodes_ok m N (filter (not_id id) G) /\ holds a (filter (not_id id) G).
Proof.
  intros (K & D & O & I) HA HI. unfold remove_edge.
  destruct (holds_take _ _ id e HA HI) as (a & -> & HA' & _). eexists _, a. split; [reflexivity|].
  split; auto. assert (NoDup (map fst G)) as NG by apply HA.
  assert (forall k l, retain_outgoing k l empty_node = empty_node) as R1 by (intros k l; now destruct k).
  assert (forall k l, retain_incoming k l empty_node = empty_node) as R2 by (intros k l; now destruct k).
  split; [|split; [|split]].
  - now apply (keys_adjust _ _ (retain_incoming (ekind e) id)), (keys_adjust _ _ (retain_outgoing (ekind e) id)).
  - intros q. rewrite (nd_adjust _ _ (retain_incoming (ekind e) id)) by auto.
    rewrite (nd_adjust _ _ (retain_outgoing (ekind e) id)) by auto. rewrite <- D.
    unfold retain_incoming, retain_outgoing.
    destruct (target e =? q), (source e =? q); rewrite ?defs_incoming, ?defs_outgoing; auto.
  - intros k q. rewrite (nd_adjust _ _ (retain_incoming (ekind e) id)) by auto.
    rewrite (nd_adjust _ _ (retain_outgoing (ekind e) id)) by auto.
    rewrite (ids_drop _ _ id e) by auto. rewrite <- O. unfold retain_incoming, retain_outgoing, leaves.
    destruct (target e =? q), (source e =? q); rewrite ?out_incoming, ?out_outgoing; auto.
  - intros k q. rewrite (nd_adjust _ _ (retain_incoming (ekind e) id)) by auto.
    rewrite (nd_adjust _ _ (retain_outgoing (ekind e) id)) by auto.
    rewrite (ids_drop _ _ id e) by auto. rewrite <- I. unfold retain_incoming, retain_outgoing, enters.
    destruct (target e =? q), (source e =? q); rewrite ?inc_incoming, ?inc_outgoing; auto.
Qed.

Lemma remove_edges_ok N L : forall s G, nodes_ok (nodes s) N G -> holds (edges s) G ->
  NoDup (map fst L) -> (forall e, In e L -> In e G) ->
  exists m a, remove_edges s (map fst L) = Some (mkGraph m a (node_definition_files s) (edges_by_file s)
                                         (unresolved_by_file s) (unresolved_explicit s)) /\
    nodes_ok m N (without (map fst L) G) /\ holds a (without (map fst L) G).
Proof.
  induction L as [|[i x] L IH]; intros s G HN HA ND HL.
  - exists (nodes s), (edges s). cbn [map remove_edges]. rewrite without_nil. split; auto. now destruct s.
  - cbn [map fst remove_edges]. inversion ND; subst.
    assert (In (i, x) G) as Hin by (apply HL; now left).
    destruct (remove_edge_ok s N G i x HN HA Hin) as (m & a & -> & HN' & HA').
    match goal with |- context [remove_edges ?t _] => set (s1 := t) end.
    destruct (IH s1 (filter (not_id i) G) HN' HA') as (m2 & a2 & -> & HN2 & HA2); auto.
    + apply still_there; auto. intros e He. apply HL. now right.
    + exists m2, a2. rewrite without_cons. auto.
Qed.

Lemma del_ids m f G : (forall f, getd Nat.eqb m f = ids (in_file f) G) ->
  forall g, getd Nat.eqb (del Nat.eqb m f) g = ids (in_file g) (filter (elsewhere efile f) G).
Proof.
  intros H g. rewrite getd_del by apply Nat.eqb_eq. unfold ids.
  destruct (Nat.eqb_spec f g) as [<-|N].
  - rewrite filter_nil; auto. intros e He. apply filter_In in He. destruct He as [_ He].
    unfold elsewhere in He. now apply negb_true_iff in He.
  - rewrite H. unfold ids. f_equal. rewrite filter_comm. symmetry. apply filter_all.
    intros e He. apply filter_In in He. destruct He as [_ He]. unfold in_file in He. apply Nat.eqb_eq in He.
    unfold elsewhere. rewrite He. apply negb_true_iff, Nat.eqb_neq. congruence.
Qed.

Lemma without_in_file G f : NoDup (map fst G) -> without (ids (in_file f) G) G = filter (elsewhere efile f) G.
Proof.
  intros ND. rewrite <- (without_file efile (fun _ => []) f G ND). unfold file_entries.
  f_equal. unfold ids. f_equal. symmetry. apply sort_id.
  - apply entry_total.
  - apply entry_trans.
  - clear. induction (filter _ G) as [|e l IH]; constructor; auto. apply Forall_forall. reflexivity.
Qed.

Lemma remove_ok s N G U f : ok s N G U -> exists s', remove_file s f = Some s' /\
  ok s' (outside nfile f N) (filter (elsewhere efile f) G) (outside ufile f U).
Proof.
  intros (HN & (HA & HF) & F & B & P). unfold remove_file.
  set (s1 := if existsb (Nat.eqb f) (node_definition_files s) then _ else s).
  assert (nodes_ok (nodes s1) (outside nfile f N) G /\ files_ok s1 (outside nfile f N) /\
          edges s1 = edges s /\ edges_by_file s1 = edges_by_file s /\
          unresolved_by_file s1 = unresolved_by_file s /\ unresolved_explicit s1 = unresolved_explicit s)
    as (N1 & F1 & E1 & E2 & E3 & E4).
  { unfold s1. destruct (existsb (Nat.eqb f) (node_definition_files s)) eqn:EX.
    - cbn. split; [now apply remove_nodes_ok|]. split; [|auto]. intros x Hx. cbn.
      apply filter_In in Hx. destruct Hx as [Hx Hf]. apply filter_In. split; auto.
    - assert (outside nfile f N = N) as ->.
      { apply filter_all. intros x Hx. apply F in Hx. apply negb_true_iff, Nat.eqb_neq. intros <-.
        assert (existsb (Nat.eqb (nfile x)) (node_definition_files s) = true); [|congruence].
        apply existsb_exists. exists (nfile x). split; auto. apply Nat.eqb_refl. }
      split; [exact HN|]. split; [exact F|]. auto. }
  clearbody s1. rewrite E3.
  assert (exists c, match get Nat.eqb (unresolved_by_file s) f with
         | None => Some s1
         | Some l =>
             match uncount_all (unresolved_explicit s1) l with
             | None => None
             | Some c => Some (mkGraph (nodes s1) (edges s1) (node_definition_files s1) (edges_by_file s1)
                                 (del Nat.eqb (unresolved_by_file s) f) c)
             end
         end = Some c /\ nodes c = nodes s1 /\ edges c = edges s1 /\ node_definition_files c = node_definition_files s1 /\
         edges_by_file c = edges_by_file s1 /\ buckets ufile nosort (unresolved_by_file c) (outside ufile f U) /\
         pending_ok (unresolved_explicit c) (outside ufile f U)) as (s2 & -> & C1 & C2 & C3 & C4 & C5 & C6).
  { pose proof (proj2 B f) as Hf. rewrite nosort_id in Hf. rewrite Hf.
    destruct (of_file ufile f U) as [|u0 l0] eqn:EL; cbn [opt].
    - exists s1. do 5 (split; [reflexivity|]). split.
      + rewrite E3. assert (outside ufile f U = U) as ->; auto.
        apply filter_all. intros u Hu. destruct (Nat.eqb_spec (ufile u) f) as [E|]; auto. exfalso.
        assert (In u (of_file ufile f U)) as HH by (apply filter_In; split; auto; now apply Nat.eqb_eq).
        now rewrite EL in HH.
      + rewrite E4. intros q. rewrite P. f_equal. rewrite (number_split q f U), EL. reflexivity.
    - rewrite <- EL. destruct (uncount_all_ok (of_file ufile f U) (unresolved_explicit s1)
                                 (fun q => number q (others ufile f U))) as (c & -> & HC).
      { intros q. rewrite E4, P. now rewrite (number_split q f U). }
      eexists. split; [reflexivity|]. cbn. do 4 (split; [reflexivity|]). split.
      + now apply buckets_del.
      + exact HC. }
  assert (outside ufile f (outside ufile f U) = outside ufile f U) as UU.
  { apply filter_all. intros u Hu. now apply filter_In in Hu. }
  rewrite C4, E2. pose proof (HF f) as Hf. unfold getd in Hf. assert (NoDup (map fst G)) as NG by apply HA.
  destruct (get Nat.eqb (edges_by_file s) f) as [stale|] eqn:EG.
  - subst stale.
    match goal with |- context [remove_edges ?t _] => set (s2' := t) end.
    destruct (remove_edges_ok (outside nfile f N) (filter (fun e => in_file f (snd e)) G) s2' G)
      as (m & a & E & R1 & R2).
    + unfold s2'. cbn. rewrite C1. exact N1.
    + unfold s2'. cbn. rewrite C2, E1. exact HA.
    + now apply nodup_fst_filter.
    + intros e He. now apply filter_In in He.
    + fold (ids (in_file f) G) in E, R1, R2. rewrite E. rewrite without_in_file in R1, R2 by auto.
      eexists. split; [reflexivity|].
      unfold s2'. cbn. split; [exact R1|]. split; [|split; [|split]].
      * split; [exact R2|]. cbn. now apply del_ids.
      * intros x Hx. cbn. rewrite C3. now apply F1.
      * cbn. rewrite <- UU. now apply buckets_del.
      * exact C6.
  - exists s2. split; auto. assert (filter (elsewhere efile f) G = G) as ->.
    { apply filter_all. intros e He. unfold elsewhere. apply negb_true_iff, Nat.eqb_neq. intros E.
      unfold ids in Hf. symmetry in Hf. apply map_eq_nil in Hf.
      assert (In e (filter (fun e => in_file f (snd e)) G)) as HH.
      { apply filter_In. split; auto. now apply Nat.eqb_eq. }
      now rewrite Hf in HH. }
    split; [now rewrite C1|]. split; [|split; [|split]]; auto.
    + split; [now rewrite C2, E1|]. intros g. now rewrite C4, E2.
    + intros x Hx. rewrite C3. now apply F1.
Qed.

(** ** replace_file *)
Lemma add_nodes_ok f ns : forall s N G U, ok s N G U -> (forall x, In x ns -> nfile x = f) ->
  exists s', add_nodes f s ns = Some s' /\ ok s' (N ++ ns) G U.
Proof.
  induction ns as [|x ns IH]; intros s N G U H HX.
  - exists s. now rewrite app_nil_r.
  - cbn [add_nodes]. assert (file_id (nrange x) = f) as -> by (apply (HX x); now left). rewrite Nat.eqb_refl.
    destruct (IH (add_node s x) (N ++ [x]) G U) as (s' & E & H').
    + now apply add_node_ok.
    + intros y Hy. apply HX. now right.
    + exists s'. rewrite <- app_assoc in H'. auto.
Qed.

Lemma add_edges_ok f es : forall s N G U, ok s N G U -> (forall e, In e es -> efile e = f) ->
  exists s' G', add_edges f s es = Some s' /\ ok s' N G' U /\ map snd G' = map snd G ++ es.
Proof.
  induction es as [|e es IH]; intros s N G U H HX.
  - exists s, G. now rewrite app_nil_r.
  - cbn [add_edges]. assert (file_id (erange e) = f) as -> by (apply (HX e); now left). rewrite Nat.eqb_refl.
    destruct (add_edge_ok s N G U e H) as (s1 & id & -> & H1).
    destruct (IH s1 N (G ++ [(id, e)]) U H1) as (s' & G' & E & H' & M).
    + intros y Hy. apply HX. now right.
    + exists s', G'. split; auto. split; auto. rewrite M, map_app, <- app_assoc. reflexivity.
Qed.

Lemma add_unresolved_edges_ok f us : forall s N G U, ok s N G U -> (forall u, In u us -> ufile u = f) ->
  exists s', add_unresolved_edges f s us = Some s' /\ ok s' N G (U ++ us).
Proof.
  induction us as [|x us IH]; intros s N G U H HX.
  - exists s. now rewrite app_nil_r.
  - cbn [add_unresolved_edges]. assert (file_id (urange x) = f) as -> by (apply (HX x); now left). rewrite Nat.eqb_refl.
    destruct (IH (add_unresolved_edge s x) N G (U ++ [x])) as (s' & E & H').
    + now apply add_unresolved_ok.
    + intros y Hy. apply HX. now right.
    + exists s'. rewrite <- app_assoc in H'. auto.
Qed.

Lemma snd_outside f (G : ghost) : map snd (filter (elsewhere efile f) G) = outside efile f (map snd G).
Proof. apply snd_elsewhere. Qed.

Lemma take_ok s N G U : ok s N G U -> ok (snd (take_unresolved_edges s)) N G [].
Proof.
  intros (HN & E & F & B & P). split; [|split; [|split; [|split]]]; auto.
  - apply buckets_nil.
  - easy.
Qed.

Lemma step_ok s N G U o : ok s N G U -> own_file o -> exists s' N' G' U', step s o = Some s' /\ ok s' N' G' U' /\
  mkFacts N' (map snd G') U' = after (mkFacts N (map snd G) U) o.
Proof.
  intros H HO. destruct o as [x|e|u|f|f ns es us|]; cbn [step after].
  - exists (add_node s x), (N ++ [x]), G, U. split; auto. split; auto. now apply add_node_ok.
  - destruct (add_edge_ok s N G U e H) as (s' & id & E & H'). exists s', N, (G ++ [(id, e)]), U.
    split; auto. split; auto. cbn. now rewrite map_app.
  - exists (add_unresolved_edge s u), N, G, (U ++ [u]). split; auto. split; auto. now apply add_unresolved_ok.
  - destruct (remove_ok s N G U f H) as (s' & E & H').
    eexists s', _, _, _. split; [exact E|]. split; [exact H'|]. unfold withdraw. cbn. now rewrite snd_outside.
  - destruct HO as (H1 & H2 & H3). destruct (remove_ok s N G U f H) as (s1 & E1 & K1).
    destruct (add_nodes_ok f ns _ _ _ _ K1 H1) as (s2 & E2 & K2).
    destruct (add_edges_ok f es _ _ _ _ K2 H2) as (s3 & G3 & E3 & K3 & M3).
    destruct (add_unresolved_edges_ok f us _ _ _ _ K3 H3) as (s4 & E4 & K4).
    eexists s4, _, G3, _. unfold replace_file. rewrite E1, E2, E3, E4. split; [reflexivity|]. split; [exact K4|].
    unfold withdraw. cbn. now rewrite M3, snd_outside.
  - eexists _, N, G, []. split; [reflexivity|]. split; [|reflexivity]. now apply take_ok with (U := U).
Qed.

Lemma run_ok h : forall s N G U, ok s N G U -> (forall o, In o h -> own_file o) ->
  exists s' N' G' U', run_from s h = Some s' /\ ok s' N' G' U' /\
    mkFacts N' (map snd G') U' = fold_left after h (mkFacts N (map snd G) U).
Proof.
  induction h as [|o h IH]; intros s N G U H HW.
  - exists s, N, G, U. auto.
  - cbn [run_from fold_left]. destruct (step_ok s N G U o H) as (s1 & N1 & G1 & U1 & -> & H1 & <-).
    + apply HW. now left.
    + apply IH; auto. intros o' Ho. apply HW. now right.
Qed.
