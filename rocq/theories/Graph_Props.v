(** C32: the ancestry graph answers exactly from the facts in force; C33: superclass resolution. *)
From Coq Require Import List Arith NArith Lia Bool Permutation Sorted.
From Verif Require Import Lib Sort_Lib Index_Lib FileStores_Proofs Graph_Model Graph_Spec Graph_Proofs.
Import ListNotations.

Lemma reached h s : well_formed h -> run h = Some s ->
  exists N G U, ok s N G U /\ live h = mkFacts N (map snd G) U.
Proof.
  intros W R. destruct (run_ok h new [] [] [] ok_new W) as (s' & N & G & U & E & H & M).
  unfold run in R. rewrite E in R. injection R as <-. exists N, G, U. split; auto.
Qed.

Theorem C32_never_panics h : well_formed h -> exists s, run h = Some s.
Proof.
  intros W. destruct (run_ok h new [] [] [] ok_new W) as (s' & N & G & U & E & _). eauto.
Qed.
Print Assumptions C32_never_panics.

Lemma add_nodes_panics f ns : (exists x, In x ns /\ file_id (nrange x) <> f) -> forall s, add_nodes f s ns = None.
Proof.
  intros (x & Hx & N). induction ns as [|y ns IH]; [easy|]. intros s. cbn [add_nodes].
  destruct (Nat.eqb_spec (file_id (nrange y)) f) as [E|E]; auto. destruct Hx as [->|Hx]; [contradiction|auto].
Qed.
Lemma add_edges_panics f es : (exists x, In x es /\ file_id (erange x) <> f) -> forall s, add_edges f s es = None.
Proof.
  intros (x & Hx & N). induction es as [|y es IH]; [easy|]. intros s. cbn [add_edges].
  destruct (Nat.eqb_spec (file_id (erange y)) f) as [E|E]; auto. destruct Hx as [->|Hx]; [contradiction|].
  destruct (add_edge s y); auto.
Qed.
Lemma add_unresolved_panics f us : (exists x, In x us /\ file_id (urange x) <> f) -> forall s, add_unresolved_edges f s us = None.
Proof.
  intros (x & Hx & N). induction us as [|y us IH]; [easy|]. intros s. cbn [add_unresolved_edges].
  destruct (Nat.eqb_spec (file_id (urange y)) f) as [E|E]; auto. destruct Hx as [->|Hx]; [contradiction|auto].
Qed.

(** Supplying a fact of another file stops the program instead of corrupting the graph. *)
Theorem C32_foreign_fact_panics h f ns es us :
  (exists x, In x ns /\ file_id (nrange x) <> f) \/ (exists x, In x es /\ file_id (erange x) <> f) \/
  (exists x, In x us /\ file_id (urange x) <> f) ->
  run (h ++ [ReplaceFile f ns es us]) = None.
Proof.
  intros H. unfold run. generalize new. induction h as [|o h IH]; intros s.
  - cbn [app run_from step]. unfold replace_file. destruct (remove_file s f) as [s1|]; auto.
    destruct H as [H|[H|H]].
    + now rewrite add_nodes_panics.
    + destruct (add_nodes f s1 ns); auto. now rewrite add_edges_panics.
    + destruct (add_nodes f s1 ns); auto. destruct (add_edges f g es); auto. now rewrite add_unresolved_panics.
  - cbn [app run_from]. destruct (step s o); auto.
Qed.
Print Assumptions C32_foreign_fact_panics.

(** ** Nodes *)
Definition node_place (x : node_fact) : list nat := place (nrange x).
Definition node_position (x : node_fact) : list nat := nfqn x :: place (nrange x).

Lemma nodes_for_sort s N G U q : ok s N G U -> nodes_for s q = sort (key_leb node_place) (filter (named q) N).
Proof.
  intros ((K & D & _) & _). specialize (D q).
  assert (nodes_for s q = map (fun d => mkNode q (fst d) (snd d)) (definitions (node_or_default (nodes s) q))) as ->.
  { unfold nodes_for, node_or_default. now destruct (get Nat.eqb (nodes s) q). }
  rewrite D. change (fun x y => key_leb node_place x y) with (fun x y => key_leb definition_key (def x) (def y)).
  rewrite <- (sort_map def (key_leb definition_key)). rewrite map_map.
  change (fun x y : node_fact => key_leb definition_key (def x) (def y)) with (key_leb node_place).
  assert (forall l, (forall x, In x l -> nfqn x = q) ->
    map (fun x => mkNode q (fst (def x)) (snd (def x))) l = l) as H.
  { induction l as [|x l IH]; auto. intros Hl. cbn [map]. rewrite IH by (intros; apply Hl; now right).
    f_equal. rewrite <- (Hl x) by now left. now destruct x. }
  apply H. intros x Hx. rewrite sort_in in Hx. apply filter_In in Hx. now apply Nat.eqb_eq.
Qed.

Theorem C32_nodes_for h s q : well_formed h -> run h = Some s ->
  answers node_place (fun x => nfqn x =? q) (fnodes (live h)) (nodes_for s q).
Proof.
  intros W R. destruct (reached h s W R) as (N & G & U & K & ->). cbn [fnodes].
  rewrite (nodes_for_sort _ _ _ _ _ K). apply sort_in_order.
Qed.
Print Assumptions C32_nodes_for.

Lemma named_of_key x y : key_leb node_position x y && key_leb node_position y x = true -> nfqn x = nfqn y.
Proof.
  intros H. apply (proj1 (key_eqv node_position x y)) in H. injection H as H. exact H.
Qed.

Lemma flat_nodes s N G U : ok s N G U -> forall x,
  filter (eqv (key_leb node_position) x) (flat_map facts_of (nodes s)) = filter (eqv (key_leb node_position) x) N.
Proof.
  intros K x. pose proof (nodes_for_sort _ _ _ _ (nfqn x) K) as HQ. destruct K as ((KD & _) & _).
  assert (forall m, NoDup (map fst m) ->
    filter (eqv (key_leb node_position) x) (flat_map facts_of m) =
    filter (eqv (key_leb node_position) x) (match get Nat.eqb m (nfqn x) with None => [] | Some n => facts_of (nfqn x, n) end)) as H.
  { assert (forall k n, k <> nfqn x -> filter (eqv (key_leb node_position) x) (facts_of (k, n)) = []) as HO.
    { intros k n Nk. apply filter_nil. intros y Hy. unfold facts_of in Hy. apply in_map_iff in Hy.
      destruct Hy as (d & <- & _). destruct (eqv _ x _) eqn:E; auto. exfalso. apply named_of_key in E. cbn in E. congruence. }
    induction m as [|[k n] m IH]; intros ND; auto. inversion ND; subst. cbn [flat_map get].
    rewrite filter_app. rewrite IH by auto. destruct (Nat.eqb_spec k (nfqn x)) as [->|Nk].
    - assert (get Nat.eqb m (nfqn x) = None) as ->; [|cbn; now rewrite app_nil_r].
      destruct (get Nat.eqb m (nfqn x)) eqn:E; auto. exfalso. apply get_in in E; [|apply Nat.eqb_eq].
      apply (in_map fst) in E. cbn in *. contradiction.
    - rewrite HO by auto. reflexivity. }
  rewrite H by auto. change (match get Nat.eqb (nodes s) (nfqn x) with None => [] | Some n => facts_of (nfqn x, n) end)
    with (nodes_for s (nfqn x)). rewrite HQ.
  rewrite (sort_ext (key_leb node_place) (key_leb node_position)).
  - rewrite sort_stable by (apply key_total || apply key_trans). rewrite filter_comm. apply filter_all.
    intros y Hy. apply filter_In in Hy. destruct Hy as [_ Hy]. apply named_of_key in Hy. now apply Nat.eqb_eq.
  - intros a b Ha Hb. apply filter_In in Ha, Hb. destruct Ha as [_ Ha], Hb as [_ Hb].
    apply Nat.eqb_eq in Ha, Hb. unfold key_leb, node_position, node_place. cbn [lexb].
    rewrite Ha, Hb, Nat.ltb_irrefl, Nat.eqb_refl. reflexivity.
Qed.

Lemma sort_flat_nodes s N G U p : ok s N G U ->
  sort (key_leb node_key) (filter p (flat_map facts_of (nodes s))) = sort (key_leb node_position) (filter p N).
Proof.
  intros K. change (key_leb node_key) with (key_leb node_position).
  rewrite <- !sort_filter by (apply key_total || apply key_trans). f_equal.
  apply sort_eq; [apply key_total|apply key_trans|apply sort_sorted; [apply key_total|apply key_trans]|].
  intros x. rewrite sort_stable by (apply key_total || apply key_trans). symmetry. now apply (flat_nodes _ _ _ _ K).
Qed.

Theorem C32_nodes_in_file h s f : well_formed h -> run h = Some s ->
  answers node_position (fun x => file_id (nrange x) =? f) (fnodes (live h)) (nodes_in_file s f).
Proof.
  intros W R. destruct (reached h s W R) as (N & G & U & K & ->). cbn [fnodes].
  unfold nodes_in_file. rewrite (sort_flat_nodes _ _ _ _ _ K). apply sort_in_order.
Qed.
Print Assumptions C32_nodes_in_file.

Theorem C32_all_nodes h s : well_formed h -> run h = Some s ->
  in_order node_position (fnodes (live h)) (all_nodes s) /\ node_count s = length (fnodes (live h)).
Proof.
  intros W R. destruct (reached h s W R) as (N & G & U & K & ->). cbn [fnodes].
  pose proof (sort_flat_nodes _ _ _ _ (fun _ => true) K) as H.
  rewrite (filter_all (fun _ => true) N), (filter_all (fun _ => true) (flat_map _ _)) in H by auto.
  unfold all_nodes. split; [rewrite H; apply sort_in_order|].
  rewrite <- (sort_length (key_leb node_position) N), <- H, sort_length. unfold node_count.
  clear. induction (nodes s) as [|e m IH]; [reflexivity|]. cbn [fold_right flat_map].
  rewrite app_length, <- IH. unfold facts_of. rewrite map_length. reflexivity.
Qed.
Print Assumptions C32_all_nodes.

(** ** Edges *)
Lemma edge_position_inj x y : edge_position x = edge_position y -> x = y.
Proof.
  destruct x as [a b k p [f u v]], y as [a' b' k' p' [f' u' v']]. unfold edge_position. cbn. intros H. injection H as -> -> -> -> HK HP ->.
  assert (k = k') as -> by (destruct k, k'; easy). assert (p = p') as -> by (destruct p, p'; easy). reflexivity.
Qed.

Lemma edge_sort_perm l1 l2 : Permutation l1 l2 -> sort (key_leb edge_key) l1 = sort (key_leb edge_position) l2.
Proof.
  intros P. change (key_leb edge_key) with (key_leb edge_position).
  apply sort_perm_eq; auto; [apply key_total|apply key_trans|].
  intros x y _ _ H. apply (proj1 (key_eqv _ x y)) in H. now apply edge_position_inj.
Qed.

Lemma clone_app a l1 l2 : @clone_facts edge a (l1 ++ l2) = clone_facts a l1 ++ clone_facts a l2.
Proof. induction l1 as [|i l1 IH]; auto. cbn. destruct (fact a i); cbn; now rewrite IH. Qed.

Definition of_kind (k : edge_kind) (e : edge) : bool := kind_eqb (ekind e) k.

Lemma kinds_perm (p : edge -> bool) l :
  Permutation (filter (fun e => p e && of_kind Superclass e) l ++ filter (fun e => p e && of_kind Include e) l ++
               filter (fun e => p e && of_kind Prepend e) l ++ filter (fun e => p e && of_kind Extend e) l ++
               filter (fun e => p e && of_kind Application e) l) (filter p l).
Proof.
  induction l as [|e l IH]; auto. set (fk k l := filter (fun e => p e && of_kind k e) l) in *.
  change (Permutation (fk Superclass (e :: l) ++ fk Include (e :: l) ++ fk Prepend (e :: l) ++ fk Extend (e :: l) ++
                       fk Application (e :: l)) (filter p (e :: l))).
  change (Permutation (fk Superclass l ++ fk Include l ++ fk Prepend l ++ fk Extend l ++ fk Application l) (filter p l)) in IH.
  assert (forall k, fk k (e :: l) = if p e && of_kind k e then e :: fk k l else fk k l) as H by reflexivity.
  rewrite !H. clear H. cbn [filter]. destruct (p e); cbn [andb]; auto.
  assert (forall a b c, Permutation (a ++ b) c -> Permutation (a ++ e :: b) (e :: c)) as M.
  { intros a b c Hc. symmetry. eapply perm_trans; [apply perm_skip; symmetry; exact Hc|]. apply Permutation_middle. }
  unfold of_kind, kind_eqb. destruct (ekind e); cbn [kind_rank Nat.eqb app].
  - now apply perm_skip.
  - now apply M.
  - rewrite app_assoc. apply M. now rewrite <- app_assoc.
  - rewrite (app_assoc (fk Include l)), app_assoc. apply M. now rewrite <- !app_assoc.
  - rewrite (app_assoc (fk Prepend l)), (app_assoc (fk Include l)), app_assoc. apply M. now rewrite <- !app_assoc.
Qed.

Lemma edges_from_sort s N G U q : ok s N G U ->
  edges_from s q = sort (key_leb edge_position) (filter (fun e => source e =? q) (map snd G)).
Proof.
  intros ((_ & _ & O & _) & (HA & _) & _).
  assert (edges_from s q = edges_by_ids s
    (out Superclass (node_or_default (nodes s) q) ++ out Include (node_or_default (nodes s) q) ++
     out Prepend (node_or_default (nodes s) q) ++ out Extend (node_or_default (nodes s) q) ++
     out Application (node_or_default (nodes s) q))) as ->.
  { unfold edges_from, node_or_default. destruct (get Nat.eqb (nodes s) q); reflexivity. }
  rewrite !O. unfold edges_by_ids. rewrite !clone_app, !(ids_clone _ _ _ HA). apply edge_sort_perm, kinds_perm.
Qed.

Lemma edges_to_sort s N G U q : ok s N G U ->
  edges_to s q = sort (key_leb edge_position) (filter (fun e => target e =? q) (map snd G)).
Proof.
  intros ((_ & _ & _ & I) & (HA & _) & _).
  assert (edges_to s q = edges_by_ids s
    (inc Superclass (node_or_default (nodes s) q) ++ inc Include (node_or_default (nodes s) q) ++
     inc Prepend (node_or_default (nodes s) q) ++ inc Extend (node_or_default (nodes s) q) ++
     inc Application (node_or_default (nodes s) q))) as ->.
  { unfold edges_to, node_or_default. destruct (get Nat.eqb (nodes s) q); reflexivity. }
  rewrite !I. unfold edges_by_ids. rewrite !clone_app, !(ids_clone _ _ _ HA). apply edge_sort_perm, kinds_perm.
Qed.

Theorem C32_edges_from h s q : well_formed h -> run h = Some s ->
  answers edge_position (fun e => source e =? q) (fedges (live h)) (edges_from s q).
Proof.
  intros W R. destruct (reached h s W R) as (N & G & U & K & ->). cbn [fedges].
  rewrite (edges_from_sort _ _ _ _ _ K). apply sort_in_order.
Qed.
Print Assumptions C32_edges_from.

Theorem C32_edges_to h s q : well_formed h -> run h = Some s ->
  answers edge_position (fun e => target e =? q) (fedges (live h)) (edges_to s q).
Proof.
  intros W R. destruct (reached h s W R) as (N & G & U & K & ->). cbn [fedges].
  rewrite (edges_to_sort _ _ _ _ _ K). apply sort_in_order.
Qed.
Print Assumptions C32_edges_to.

Theorem C32_edges_in_file h s f : well_formed h -> run h = Some s ->
  answers edge_position (fun e => file_id (erange e) =? f) (fedges (live h)) (edges_in_file s f).
Proof.
  intros W R. destruct (reached h s W R) as (N & G & U & K & ->). cbn [fedges].
  destruct K as (_ & (HA & HF) & _).
  assert (edges_in_file s f = edges_by_ids s (getd Nat.eqb (edges_by_file s) f)) as ->.
  { unfold edges_in_file, getd. now destruct (get Nat.eqb (edges_by_file s) f). }
  rewrite HF. unfold edges_by_ids. rewrite (ids_clone _ _ _ HA). apply (sort_in_order edge_position).
Qed.
Print Assumptions C32_edges_in_file.

Theorem C32_all_edges h s : well_formed h -> run h = Some s ->
  in_order edge_position (fedges (live h)) (all_edges s) /\ edge_count s = length (fedges (live h)).
Proof.
  intros W R. destruct (reached h s W R) as (N & G & U & K & ->). cbn [fedges].
  destruct K as (_ & (HA & HF) & _). pose proof (holds_occupied _ _ HA) as P.
  unfold all_edges. rewrite (edge_sort_perm _ _ P). split; [apply sort_in_order|].
  rewrite <- (Permutation_length P). unfold edge_count, occupied.
  induction (slots (edges s)) as [|[x|] l IH]; cbn; auto.
Qed.
Print Assumptions C32_all_edges.

(** ** Unresolved edges *)
Theorem C32_unresolved_edges_in_file h s f : well_formed h -> run h = Some s ->
  unresolved_edges_in_file s f = filter (fun u => file_id (urange u) =? f) (funresolved (live h)).
Proof.
  intros W R. destruct (reached h s W R) as (N & G & U & K & ->). cbn [funresolved].
  destruct K as (_ & _ & _ & B & _). unfold unresolved_edges_in_file.
  rewrite (buckets_getd ufile nosort _ _ _ B). apply nosort_id.
Qed.
Print Assumptions C32_unresolved_edges_in_file.

Theorem C32_unresolved_edges h s : well_formed h -> run h = Some s ->
  Permutation (unresolved_edges s) (funresolved (live h)) /\
  fst (take_unresolved_edges s) = unresolved_edges s /\
  run (h ++ [TakeUnresolved]) = Some (snd (take_unresolved_edges s)).
Proof.
  intros W R. split; [|split; [reflexivity|]].
  - destruct (reached h s W R) as (N & G & U & K & ->). cbn [funresolved].
    destruct K as (_ & _ & _ & B & _). apply (buckets_perm ufile nosort _ _ B).
  - unfold run in *. revert R. generalize new. induction h as [|o h IH]; intros s0 R.
    + cbn in *. now injection R as ->.
    + cbn [app run_from] in *. destruct (step s0 o); [|discriminate]. apply IH; auto.
      intros o' Ho. apply W. now right.
Qed.
Print Assumptions C32_unresolved_edges.

Theorem C32_has_unresolved_explicit_superclass h s q : well_formed h -> run h = Some s ->
  (has_unresolved_explicit_superclass s q = true <->
   exists u, In u (funresolved (live h)) /\ usource u = q /\ ukind u = Superclass /\ uprov u = Explicit).
Proof.
  intros W R. destruct (reached h s W R) as (N & G & U & K & ->). cbn [funresolved].
  destruct K as (_ & _ & _ & _ & P). unfold has_unresolved_explicit_superclass. rewrite P. unfold number.
  assert ((exists u, In u (filter (pending q) U)) <->
          exists u, In u U /\ usource u = q /\ ukind u = Superclass /\ uprov u = Explicit) as <-.
  { split; intros (u & Hu); exists u.
    - apply filter_In in Hu. destruct Hu as [Hu E]. unfold pending in E. rewrite !andb_true_iff, Nat.eqb_eq in E.
      destruct E as [[E1 E2] E3]. split; auto. split; auto.
      destruct (ukind u), (uprov u); try discriminate; auto.
    - destruct Hu as (Hu & E1 & E2 & E3). apply filter_In. split; auto. unfold pending.
      rewrite E1, E2, E3. cbn. apply Nat.eqb_refl. }
  destruct (filter (pending q) U) as [|u l]; cbn; split; try discriminate; try easy.
  - intros [u []].
  - intros _. exists u. now left.
Qed.
Print Assumptions C32_has_unresolved_explicit_superclass.

(** ** C33 *)
Section Choose.
  Variable he : bool.
  Let R (l : list edge) := filter (fun e => negb he || is_explicit (prov e)) l.

  Definition outcome (l : list edge) (r : superclass_result) : Prop :=
    match r with
    | Missing => l = []
    | Unique e => In e l /\ forall e', In e' l -> target e' = target e /\ lexb (edge_position e) (edge_position e') = true
    | Ambiguous => exists e1 e2, In e1 l /\ In e2 l /\ target e1 <> target e2
    end.

  Lemma choose_some l : forall p, outcome (p :: R l) (choose he (Some p) l).
  Proof.
    induction l as [|e l IH]; intros p.
    - cbn. split; auto. intros e' [<-|[]]. split; auto. destruct (lexb_total (edge_position p) (edge_position p)); auto.
    - cbn [choose]. unfold R. cbn [filter]. fold (R l).
      replace (he && negb (is_explicit (prov e))) with (negb (negb he || is_explicit (prov e)))
        by (destruct he, (is_explicit (prov e)); reflexivity).
      destruct (negb he || is_explicit (prov e)); cbn [negb]; [|apply IH].
      destruct (Nat.eqb_spec (target p) (target e)) as [T|T].
      2:{ exists p, e. cbn. auto. }
      destruct (lexb (edge_key p) (edge_key e)) eqn:L; cbn [negb].
      + specialize (IH p). destruct (choose he (Some p) l) as [|m|]; cbn [outcome In] in IH |- *.
        * discriminate IH.
        * destruct IH as [I1 I2]. split; [tauto|]. intros e' [<-|[<-|He]]; auto.
          destruct (I2 p (or_introl eq_refl)) as [J1 J2]. split; [congruence|].
          eapply lexb_trans; [exact J2|exact L].
        * destruct IH as (e1 & e2 & I1 & I2 & I3). exists e1, e2. tauto.
      + assert (lexb (edge_position e) (edge_position p) = true) as L'.
        { destruct (lexb_total (edge_position e) (edge_position p)) as [H|H]; auto.
          change (lexb (edge_key p) (edge_key e) = true) in H. congruence. }
        specialize (IH e). destruct (choose he (Some e) l) as [|m|]; cbn [outcome In] in IH |- *.
        * discriminate IH.
        * destruct IH as [I1 I2]. split; [tauto|]. intros e' [<-|[<-|He]]; auto.
          destruct (I2 e (or_introl eq_refl)) as [J1 J2]. split; [congruence|].
          eapply lexb_trans; [exact J2|exact L'].
        * destruct IH as (e1 & e2 & I1 & I2 & I3). exists e1, e2. tauto.
  Qed.

  Lemma choose_none l : outcome (R l) (choose he None l).
  Proof.
    induction l as [|e l IH]; [reflexivity|]. cbn [choose]. unfold R. cbn [filter]. fold (R l).
    replace (he && negb (is_explicit (prov e))) with (negb (negb he || is_explicit (prov e)))
      by (destruct he, (is_explicit (prov e)); reflexivity).
    destruct (negb he || is_explicit (prov e)); cbn [negb]; auto. apply choose_some.
  Qed.
End Choose.

Lemma explicit_eq p : is_explicit p = true <-> p = Explicit.
Proof. destruct p; split; easy. Qed.

Theorem C33_superclass_resolution h s q : well_formed h -> run h = Some s ->
  resolves (fedges (live h)) q (superclass_resolution s q).
Proof.
  intros W R. destruct (reached h s W R) as (N & G & U & K & ->). cbn [fedges].
  destruct K as ((_ & _ & O & _) & (HA & _) & _). set (E := map snd G).
  set (l := filter (leaves Superclass q) E).
  assert (superclass_resolution s q = choose (existsb (fun e => is_explicit (prov e)) l) None l) as ->.
  { specialize (O Superclass q). cbn [out] in O. unfold superclass_resolution, node_or_default in *.
    destruct (get Nat.eqb (nodes s) q) as [n|].
    - rewrite O, (ids_clone _ _ _ HA). reflexivity.
    - cbn in O. assert (l = []) as ->; [|reflexivity].
      unfold l, E. rewrite <- (ids_clone _ _ _ HA), <- O. reflexivity. }
  set (he := existsb _ l).
  assert (forall e, In e l <-> declares E q e) as HD.
  { intros e. unfold l, declares, leaves. rewrite filter_In, andb_true_iff, Nat.eqb_eq, kind_eqb_eq. tauto. }
  assert (he = true <-> exists e', declares E q e' /\ prov e' = Explicit) as HE.
  { unfold he. rewrite existsb_exists. split; intros (e & H1 & H2); exists e.
    - split; [now apply HD|now apply explicit_eq].
    - split; [now apply HD|now apply explicit_eq]. }
  assert (forall e, In e (filter (fun e => negb he || is_explicit (prov e)) l) <-> counts E q e) as HC.
  { intros e. rewrite filter_In, HD. unfold counts. rewrite <- HE, orb_true_iff, explicit_eq.
    destruct he; cbn; intuition (try easy). }
  pose proof (choose_none he l) as H. cbn zeta in H.
  destruct (choose he None l) as [|m|]; cbn [outcome resolves] in *.
  - intros e He. destruct (he) eqn:EH.
    + destruct (proj1 HE eq_refl) as (e' & H1 & H2). 
      assert (counts E q e') as C by (split; auto). apply HC in C. now rewrite H in C.
    + assert (counts E q e) as C.
      { split; auto. intros X. apply HE in X. discriminate. }
      apply HC in C. now rewrite H in C.
  - destruct H as [H1 H2]. split; [now apply HC|]. intros e' He. apply H2. now apply HC.
  - destruct H as (e1 & e2 & H1 & H2 & H3). exists e1, e2. split; [now apply HC|]. split; [now apply HC|auto].
Qed.
Print Assumptions C33_superclass_resolution.

(** The specification determines the answer, whatever the order of the declarations. *)
Theorem C33_determined l1 l2 q r1 r2 : (forall e, In e l1 <-> In e l2) ->
  resolves l1 q r1 -> resolves l2 q r2 -> r1 = r2.
Proof.
  intros P H1 H2.
  assert (forall e, declares l1 q e <-> declares l2 q e) as D by (intros e; unfold declares; rewrite P; tauto).
  assert (forall e, counts l1 q e <-> counts l2 q e) as C.
  { intros e. unfold counts. rewrite D. split; intros [A B]; split; auto; intros (e' & X & Y); apply B; exists e';
    (split; [now apply D|auto]). }
  destruct r1 as [|e1|], r2 as [|e2|]; cbn in H1, H2; auto.
  - destruct H2 as [[X _] _]. apply D in X. now apply H1 in X.
  - destruct H2 as (a & b & [X _] & _). apply D in X. now apply H1 in X.
  - destruct H1 as [[X _] _]. apply D in X. now apply H2 in X.
  - destruct H1 as [X1 Y1], H2 as [X2 Y2]. f_equal. apply edge_position_inj. apply lexb_antisym.
    + now apply Y1, C.
    + now apply Y2, C.
  - destruct H1 as [X1 Y1], H2 as (a & b & A & B & T). exfalso. apply T.
    apply C in A, B. apply Y1 in A, B. destruct A, B. congruence.
  - destruct H1 as (a & b & [X _] & _). apply D in X. now apply H2 in X.
  - destruct H2 as [X2 Y2], H1 as (a & b & A & B & T). exfalso. apply T.
    apply C in A, B. apply Y2 in A, B. destruct A, B. congruence.
Qed.
Print Assumptions C33_determined.

(** ** Independence of the history *)
Definition sup (f : nat) (F : facts) : facts :=
  mkFacts (filter (fun x => file_id (nrange x) =? f) (fnodes F))
          (filter (fun x => file_id (erange x) =? f) (fedges F))
          (filter (fun x => file_id (urange x) =? f) (funresolved F)).

Lemma filter_outside {A} (file : A -> nat) f g l :
  filter (fun x => file x =? f) (outside file g l) = if g =? f then [] else filter (fun x => file x =? f) l.
Proof. exact (of_others file g f l). Qed.
Lemma filter_own {A} (file : A -> nat) f g l : (forall x, In x l -> file x = g) ->
  filter (fun x => file x =? f) l = if g =? f then l else [].
Proof. exact (of_own file g f l). Qed.

(** Per file, the facts in force are the last supplied ones. *)
Theorem C32_last_replacement h f : well_formed h -> by_file_only h -> sup f (live h) = last_supplied f h.
Proof.
  intros W B. unfold live.
  set (touches := fun o' => match o' with RemoveFile g | ReplaceFile g _ _ _ => g =? f | _ => false end).
  assert (forall h F, well_formed h -> by_file_only h ->
    sup f (fold_left after h F) = if existsb touches h then last_supplied f h else sup f F) as H.
  { clear h W B. induction h as [|o h IH]; intros F W B; auto.
    assert (well_formed h) as W' by (intros o' Ho; apply W; now right).
    assert (by_file_only h) as B' by (intros o' Ho; apply B; now right).
    cbn [fold_left existsb]. rewrite IH by auto. cbn [last_supplied]. fold touches.
    destruct (existsb touches h).
    - now rewrite orb_true_r.
    - rewrite orb_false_r. pose proof (B o (or_introl eq_refl)) as Bo. pose proof (W o (or_introl eq_refl)) as Wo.
      destruct o as [x|e|u|g|g ns es us|]; try easy; cbn [after touches].
      + unfold sup, withdraw. cbn [fnodes fedges funresolved]. rewrite !filter_outside.
        destruct (g =? f); reflexivity.
      + destruct Wo as (W1 & W2 & W3). unfold sup, withdraw. cbn [fnodes fedges funresolved].
        rewrite !filter_app, !filter_outside.
        rewrite (filter_own _ f g ns W1), (filter_own _ f g es W2), (filter_own _ f g us W3).
        destruct (g =? f); [reflexivity|]. now rewrite !app_nil_r. }
  rewrite H by auto. destruct (existsb touches h) eqn:E; auto.
  clear H. induction h as [|o h IH]; auto. cbn [last_supplied existsb] in *. fold touches.
  apply orb_false_iff in E. destruct E as [E1 ->].
  destruct o as [x|e|u|g|g ns es us|]; cbn in *; auto. now rewrite E1.
Qed.
Print Assumptions C32_last_replacement.

Lemma same_per_file {A} (file : A -> nat) (l1 l2 : list A) :
  (forall f, filter (fun x => file x =? f) l1 = filter (fun x => file x =? f) l2) ->
  forall x, In x l1 <-> In x l2.
Proof.
  intros H x. specialize (H (file x)). split; intros Hx.
  - assert (In x (filter (fun y => file y =? file x) l1)) as Y by (apply filter_In; split; auto; apply Nat.eqb_refl).
    rewrite H in Y. now apply filter_In in Y.
  - assert (In x (filter (fun y => file y =? file x) l2)) as Y by (apply filter_In; split; auto; apply Nat.eqb_refl).
    rewrite <- H in Y. now apply filter_In in Y.
Qed.

Lemma same_at {A} (file : A -> nat) (pos : A -> list nat) (p : A -> bool) l1 l2 :
  (forall x y, pos x = pos y -> file x = file y) ->
  (forall f, filter (fun x => file x =? f) l1 = filter (fun x => file x =? f) l2) ->
  forall q, filter (at_pos pos q) (filter p l1) = filter (at_pos pos q) (filter p l2).
Proof.
  intros HP H q.
  assert (forall l, (exists x, In x l /\ at_pos pos q x = true) \/ filter (at_pos pos q) l = []) as D.
  { induction l as [|x l IH]; auto. cbn. destruct (at_pos pos q x) eqn:E; [left; exists x; auto|].
    destruct IH as [(y & Hy & Ey)|IH]; auto. left. exists y. auto. }
  assert (forall l f, (forall y, at_pos pos q y = true -> file y = f) ->
     filter (at_pos pos q) (filter p l) = filter (at_pos pos q) (filter p (filter (fun x => file x =? f) l))) as E.
  { intros l f Hf. induction l as [|y l IH]; auto. cbn [filter]. destruct (p y) eqn:P, (file y =? f) eqn:Ef; cbn [filter];
    rewrite ?P; cbn [filter]; rewrite ?IH; auto.
    destruct (at_pos pos q y) eqn:Ea; auto. apply Hf in Ea. apply Nat.eqb_neq in Ef. contradiction. }
  assert (forall x, at_pos pos q x = true -> forall y, at_pos pos q y = true -> file y = file x) as Hf.
  { intros x Hx y Hy. unfold at_pos in *. apply HP.
    destruct (list_eq_dec Nat.eq_dec (pos x) q), (list_eq_dec Nat.eq_dec (pos y) q); congruence. }
  destruct (D (filter p l1)) as [(x & _ & Ex)|E1]; [|destruct (D (filter p l2)) as [(x & _ & Ex)|E2]].
  - rewrite (E l1 (file x)), (E l2 (file x)), H by (now apply Hf). reflexivity.
  - rewrite (E l1 (file x)), (E l2 (file x)), H by (now apply Hf). reflexivity.
  - now rewrite E1, E2.
Qed.

(** Two histories that leave every file with the same facts answer every query alike. *)
Theorem C32_history_independent h1 h2 s1 s2 :
  well_formed h1 -> well_formed h2 -> by_file_only h1 -> by_file_only h2 ->
  run h1 = Some s1 -> run h2 = Some s2 ->
  (forall f, last_supplied f h1 = last_supplied f h2) ->
  (forall q, nodes_for s1 q = nodes_for s2 q /\ edges_from s1 q = edges_from s2 q /\
             edges_to s1 q = edges_to s2 q /\ superclass_resolution s1 q = superclass_resolution s2 q /\
             has_unresolved_explicit_superclass s1 q = has_unresolved_explicit_superclass s2 q) /\
  (forall f, nodes_in_file s1 f = nodes_in_file s2 f /\ edges_in_file s1 f = edges_in_file s2 f /\
             unresolved_edges_in_file s1 f = unresolved_edges_in_file s2 f) /\
  all_nodes s1 = all_nodes s2 /\ all_edges s1 = all_edges s2.
Proof.
  intros W1 W2 B1 B2 R1 R2 HL.
  assert (forall f, sup f (live h1) = sup f (live h2)) as HS.
  { intros f. now rewrite !C32_last_replacement. }
  assert (forall f, filter (fun x => file_id (nrange x) =? f) (fnodes (live h1)) =
                    filter (fun x => file_id (nrange x) =? f) (fnodes (live h2))) as HN.
  { intros f. specialize (HS f). now injection HS. }
  assert (forall f, filter (fun x => file_id (erange x) =? f) (fedges (live h1)) =
                    filter (fun x => file_id (erange x) =? f) (fedges (live h2))) as HE.
  { intros f. specialize (HS f). now injection HS. }
  assert (forall f, filter (fun x => file_id (urange x) =? f) (funresolved (live h1)) =
                    filter (fun x => file_id (urange x) =? f) (funresolved (live h2))) as HU.
  { intros f. specialize (HS f). now injection HS. }
  assert (forall x y, node_place x = node_place y -> file_id (nrange x) = file_id (nrange y)) as P1
    by (intros x y H; now injection H).
  assert (forall x y, node_position x = node_position y -> file_id (nrange x) = file_id (nrange y)) as P2
    by (intros x y H; now injection H).
  assert (forall x y, edge_position x = edge_position y -> file_id (erange x) = file_id (erange y)) as P3
    by (intros x y H; now injection H).
  assert (forall (p : node_fact -> bool) r1 r2, answers node_position p (fnodes (live h1)) r1 ->
            answers node_position p (fnodes (live h2)) r2 -> r1 = r2) as AN.
  { intros p r1 r2 A1 A2. eapply (in_order_eq node_position); [exact A1|exact A2|].
    apply (same_at (fun x => file_id (nrange x))); auto. }
  assert (forall (p : edge -> bool) r1 r2, answers edge_position p (fedges (live h1)) r1 ->
            answers edge_position p (fedges (live h2)) r2 -> r1 = r2) as AE.
  { intros p r1 r2 A1 A2. eapply (in_order_eq edge_position); [exact A1|exact A2|].
    apply (same_at (fun x => file_id (erange x))); auto. }
  repeat split.
  - eapply (in_order_eq node_place); [exact (C32_nodes_for h1 s1 _ W1 R1)|exact (C32_nodes_for h2 s2 _ W2 R2)|].
    apply (same_at (fun x => file_id (nrange x))); auto.
  - eapply AE; [exact (C32_edges_from h1 s1 _ W1 R1)|exact (C32_edges_from h2 s2 _ W2 R2)].
  - eapply AE; [exact (C32_edges_to h1 s1 _ W1 R1)|exact (C32_edges_to h2 s2 _ W2 R2)].
  - eapply C33_determined; [|exact (C33_superclass_resolution h1 s1 _ W1 R1)|exact (C33_superclass_resolution h2 s2 _ W2 R2)].
    now apply (same_per_file (fun x => file_id (erange x))).
  - apply eq_iff_eq_true. rewrite (C32_has_unresolved_explicit_superclass h1), (C32_has_unresolved_explicit_superclass h2) by auto.
    pose proof (same_per_file (fun x => file_id (urange x)) _ _ HU) as HI.
    split; intros (u & Hu & X); exists u; (split; [now apply HI|exact X]).
  - eapply AN; [exact (C32_nodes_in_file h1 s1 _ W1 R1)|exact (C32_nodes_in_file h2 s2 _ W2 R2)].
  - eapply AE; [exact (C32_edges_in_file h1 s1 _ W1 R1)|exact (C32_edges_in_file h2 s2 _ W2 R2)].
  - now rewrite (C32_unresolved_edges_in_file h1), (C32_unresolved_edges_in_file h2).
  - destruct (C32_all_nodes h1 s1 W1 R1) as [A1 _], (C32_all_nodes h2 s2 W2 R2) as [A2 _].
    apply (AN (fun _ => true)); unfold answers; now rewrite filter_all.
  - destruct (C32_all_edges h1 s1 W1 R1) as [A1 _], (C32_all_edges h2 s2 W2 R2) as [A2 _].
    apply (AE (fun _ => true)); unfold answers; now rewrite filter_all.
Qed.
Print Assumptions C32_history_independent.

(** ** Non-vacuity *)
Definition r (f a b : nat) := mkRange f a b.
Definition demo : list op :=
  [ReplaceFile 1 [mkNode 5 Class (r 1 10 20)] [mkEdge 5 7 Superclass Explicit (r 1 10 12)] [];
   ReplaceFile 2 [mkNode 5 Class (r 2 0 4); mkNode 7 Class (r 2 5 9)]
     [mkEdge 5 0 Superclass ImplicitObject (r 2 0 4); mkEdge 7 8 Include Explicit (r 2 6 7)]
     [mkUnresolved 7 99 Superclass Explicit (r 2 5 6)];
   RemoveFile 1;
   ReplaceFile 1 [mkNode 5 Class (r 1 11 21)] [mkEdge 5 7 Superclass Explicit (r 1 11 13)] [];
   ReplaceFile 3 [] [mkEdge 5 8 Superclass Explicit (r 3 1 2)] []].

Example demo_well_formed : well_formed demo.
Proof.
  intros o [<-|[<-|[<-|[<-|[<-|[]]]]]]; cbn; intuition (subst; auto).
Qed.
Example demo_by_file : by_file_only demo.
Proof. intros o [<-|[<-|[<-|[<-|[<-|[]]]]]]; exact Logic.I. Qed.
Example demo_answers :
  match run demo with
  | Some s =>
      nodes_for s 5 = [mkNode 5 Class (r 1 11 21); mkNode 5 Class (r 2 0 4)] /\
      superclass_resolution s 5 = Ambiguous /\ superclass_resolution s 7 = Missing /\
      has_unresolved_explicit_superclass s 7 = true /\
      edges_to s 8 = [mkEdge 5 8 Superclass Explicit (r 3 1 2); mkEdge 7 8 Include Explicit (r 2 6 7)]
  | None => False
  end.
Proof. vm_compute. auto. Qed.
Example demo_unique :
  match run (demo ++ [RemoveFile 3]) with
  | Some s => superclass_resolution s 5 = Unique (mkEdge 5 7 Superclass Explicit (r 1 11 13))
  | None => False
  end.
Proof. vm_compute. reflexivity. Qed.
