(** C34, C35, C37, C50 and C67: ancestors, their order, constant lookup, implementors, includers. *)
From Coq Require Import List Arith Lia Bool Relations Sorted.
From Verif Require Import Sort_Lib Ancestors_Model Ancestors_Spec Ancestors_Proofs Ancestors_Order Ancestors_Walks.
Import ListNotations.

(** A small world for the examples: Object < BasicObject with Kernel included; class A < Object
    includes M and prepends P; class B < A; the two modules; the singletons. *)
Definition A := 10. Definition B := 11. Definition M := 12. Definition P := 13.
Definition i (c : nat) : ns := mkNs [c] false.
Definition s (c : nat) : ns := mkNs [c] true.
Definition demo : world := mkWorld
  [(i Object, Class); (i BasicObject, Class); (i Kernel, Module); (i ClassC, Class); (i ModuleC, Class);
   (i A, Class); (i B, Class); (i M, Module); (i P, Module); (s A, Class); (s B, Class); (s M, Module)]
  [mkEdge (i Object) (i BasicObject) Superclass true true; mkEdge (i Object) (i Kernel) Include true true;
   mkEdge (i ClassC) (i ModuleC) Superclass true true; mkEdge (i ModuleC) (i Object) Superclass true true;
   mkEdge (i A) (i Object) Superclass false false; mkEdge (i A) (i M) Include true false;
   mkEdge (i A) (i P) Prepend true false; mkEdge (i B) (i A) Superclass true false;
   mkEdge (s B) (s A) Superclass false false]
  [].

(** ** C34 *)

(** The walk ends on every graph, cyclic or not; it lists the ancestors, each once. *)
Theorem C34_ancestors : forall w allow f, exists chain visited,
  mro w allow f ([], []) = Some (chain, visited) /\ NoDup chain /\
  forall x, In x chain <-> ancestor w allow f x.
Proof. intros w allow f. destruct (mro_fresh w allow f) as (c & v & H1 & H2 & H3 & _). eauto 6. Qed.
Print Assumptions C34_ancestors.

Theorem C34_method_lookup_chain : forall w f, exists chain,
  method_lookup_chain w f = Some chain /\ NoDup chain /\ forall x, In x chain <-> looked_up w f x.
Proof. apply method_lookup_chain_ok. Qed.
Print Assumptions C34_method_lookup_chain.

(** The namespace itself is in its chain, unless it is the undefined singleton of the top level. *)
Theorem C34_contains_itself : forall w f chain, method_lookup_chain w f = Some chain ->
  defined w f \/ f <> mkNs [] true -> In f chain.
Proof.
  intros w f chain E H. destruct (method_lookup_chain_ok w f) as (c & E' & _ & HC). rewrite E in E'. injection E' as <-.
  apply HC. destruct (is_nil (nodes_for w f)) eqn:D.
  - apply nodes_for_nil in D. destruct H as [H|H]; [easy|]. destruct f as [p k]. destruct p as [|a p].
    + apply top; auto. left. destruct k; [easy|]. constructor.
    + apply unknown; auto. easy.
  - apply nodes_for_some in D. apply own; auto. constructor.
Qed.
Print Assumptions C34_contains_itself.

(** Whether the core classes may be appended is decided exactly. *)
Theorem C34_barrier : forall w f, exists b, blocked w f = Some b /\ (b = true <-> unproven w f).
Proof. apply blocked_ok. Qed.
Print Assumptions C34_barrier.

(** The classes from which only the edges of Ruby's own stubs are followed. *)
Theorem C34_open_roots : forall f, universal f = true <-> open_root f.
Proof.
  intros [p k]. unfold universal, open_root. cbn [path]. destruct p as [|c [|d p]].
  - split; auto.
  - rewrite existsb_exists. split.
    + intros (x & Hx & E). apply Nat.eqb_eq in E. subst. right. eauto.
    + intros [H|(x & H & Hx)]; [discriminate|]. injection H as <-. exists c. split; auto. apply Nat.eqb_refl.
  - split; [discriminate|]. intros [H|(x & H & _)]; discriminate.
Qed.
Print Assumptions C34_open_roots.

Example C34_example :
  method_lookup_chain demo (i B) = Some [i B; i P; i A; i M; i Object; i Kernel; i BasicObject] /\
  method_lookup_chain demo (s B) = Some [s B; s A; i Object; i Kernel; i BasicObject; i ClassC; i ModuleC] /\
  method_lookup_chain demo (i M) = Some [i M; i Object; i Kernel; i BasicObject] /\
  blocked demo (i B) = Some false.
Proof. repeat split. Qed.
(** Cyclic includes and a class that is its own superclass are harmless. *)
Definition cyclic : world := mkWorld [(i A, Class); (i M, Module); (i P, Module)]
  [mkEdge (i A) (i A) Superclass true false; mkEdge (i A) (i M) Include true false;
   mkEdge (i M) (i P) Include true false; mkEdge (i P) (i M) Include true false] [].
Example C34_cyclic : method_lookup_chain cyclic (i A) = Some [i A; i M; i P].
Proof. reflexivity. Qed.
(** A pending include blocks the fallback; two different superclasses do too. *)
Example C34_blocked :
  blocked (mkWorld (nodes demo) (edges demo) [mkPending (i M) Include true]) (i B) = Some true /\
  method_lookup_chain (mkWorld (nodes demo) (edges demo) [mkPending (i M) Include true]) (i M) = Some [i M].
Proof. split; reflexivity. Qed.

(** ** C35 *)

Definition precedes (l : list ns) (x y : ns) : Prop := exists l1 l2 l3, l = l1 ++ x :: l2 ++ y :: l3.
Definition acyclic (w : world) (allow : bool) (f : ns) : Prop := Acc (fun y x => parent w allow x y) f.

(** On an acyclic graph the lookup order with repetitions exists, is unique, and the chain is that
    order with later repetitions dropped. *)
Lemma forall2_ex {X Y} (R : X -> Y -> Prop) xs : (forall x, In x xs -> exists y, R x y) -> exists ys, Forall2 R xs ys.
Proof.
  induction xs as [|x xs IH]; intros H; [exists []; constructor|].
  destruct (H x) as (y & Hy); [now left|]. destruct IH as (ys & Hys); [intros z Hz; apply H; now right|].
  exists (y :: ys). now constructor.
Qed.
Lemma unfolds_exists w allow f : acyclic w allow f -> exists l, unfolds w allow f l.
Proof.
  intros H. induction H as [f _ IH].
  destruct (forall2_ex (unfolds w allow) (before w allow f)) as (bs & Hb).
  { intros x Hx. apply IH, next_parent, in_or_app. auto. }
  destruct (forall2_ex (unfolds w allow) (after w allow f)) as (cs & Hc).
  { intros x Hx. apply IH, next_parent, in_or_app. auto. }
  exists (concat bs ++ f :: concat cs).
  apply unfold with (up := match proven_superclass w f with Some e => if allowed allow f e then [target e] else [] | None => [] end).
  - destruct (proven_superclass w f) as [e|] eqn:E.
    + apply proven_superclass_spec in E. destruct (allowed allow f e) eqn:A'.
      * apply allowed_followed in A'. eauto.
      * intros d Hd Hf. apply proven_superclass_spec in E. apply proven_superclass_spec in Hd.
        apply allowed_followed in Hf. congruence.
    + intros d Hd. apply proven_superclass_spec in Hd. congruence.
  - now rewrite before_latest in Hb.
  - unfold after in Hc. now rewrite edges_followed_eq, map_rev, hooked_eq in Hc.
Qed.

Theorem C35_order_partial : forall w allow f, acyclic w allow f ->
  exists l visited, unfolds w allow f l /\ (forall l', unfolds w allow f l' -> l' = l) /\
    mro w allow f ([], []) = Some (firsts [] l, visited).
Proof.
  intros w allow f H. destruct (unfolds_exists w allow f H) as (l & Hl). destruct (mro_order w allow f l Hl) as (v & E).
  exists l, v. split; auto. split; auto. intros l' Hl'. symmetry. apply (unfolds_det w allow (S (length l)) f); auto.
Qed.
Print Assumptions C35_order_partial.

(** Missing from C35: an ancestor mixed in more than once (see the refutations). If no ancestor is
    reached twice, the claim holds as stated. *)
Lemma unfolds_split w allow n : forall f l x, length l < n -> unfolds w allow f l -> In x l ->
  exists l1 m l2, l = l1 ++ m ++ l2 /\ unfolds w allow x m.
Proof.
  induction n as [|n IH]; intros f l x Hn Hl Hx; [lia|]. pose proof Hl as Hl'.
  apply unfolds_inv in Hl. destruct Hl as (bs & cs & -> & HB & HC). rewrite app_length in *. cbn [length] in *.
  apply in_app_or in Hx. destruct Hx as [Hx|[<-|Hx]].
  - apply in_concat in Hx. destruct Hx as (k & Hk & Hx). destruct (forall2_in _ _ _ _ HB Hk) as (g & _ & Hg).
    pose proof (forall2_length_le _ _ _ g _ HB Hk). destruct (IH g k x) as (k1 & m & k2 & -> & Hm); auto; [lia|].
    apply in_split in Hk. destruct Hk as (b1 & b2 & ->). rewrite concat_app. cbn [concat].
    exists (concat b1 ++ k1), m, (k2 ++ concat b2 ++ f :: concat cs). split; auto. now rewrite <- !app_assoc.
  - exists [], (concat bs ++ f :: concat cs), []. split; auto. now rewrite app_nil_r.
  - apply in_concat in Hx. destruct Hx as (k & Hk & Hx). destruct (forall2_in _ _ _ _ HC Hk) as (g & _ & Hg).
    pose proof (forall2_length_le _ _ _ g _ HC Hk). destruct (IH g k x) as (k1 & m & k2 & -> & Hm); auto; [lia|].
    apply in_split in Hk. destruct Hk as (c1 & c2 & ->). rewrite concat_app. cbn [concat].
    exists (concat bs ++ f :: concat c1 ++ k1), m, (k2 ++ concat c2). split; auto.
    rewrite <- !app_assoc. cbn [List.app]. now rewrite <- !app_assoc.
Qed.
Lemma unfolds_own w allow f l : unfolds w allow f l -> In f l.
Proof. intros H. apply unfolds_inv in H. destruct H as (bs & cs & -> & _). apply in_or_app. right. now left. Qed.
Lemma forall2_in' {X Y} (R : X -> Y -> Prop) xs ls x : Forall2 R xs ls -> In x xs -> exists l, In l ls /\ R x l.
Proof.
  intros H. induction H as [|y m xs ls H1 _ IH]; [easy|]. intros [<-|Hl].
  - exists m. split; auto. now left.
  - destruct (IH Hl) as (l & Hl' & R'). exists l. split; auto. now right.
Qed.
Lemma after_parent w allow f x : In x (after w allow f) ->
  forall l, unfolds w allow f l -> precedes l f x.
Proof.
  intros Hx l Hl. apply unfolds_inv in Hl. destruct Hl as (bs & cs & -> & HB & HC).
  destruct (forall2_in' _ _ _ _ HC Hx) as (m & Hm & Hu). apply unfolds_own in Hu.
  assert (In x (concat cs)) as Hc by (apply in_concat; eauto). apply in_split in Hc. destruct Hc as (c1 & c2 & ->).
  exists (concat bs), c1, c2. reflexivity.
Qed.
Lemma before_parent w allow f x : In x (before w allow f) ->
  forall l, unfolds w allow f l -> precedes l x f.
Proof.
  intros Hx l Hl. apply unfolds_inv in Hl. destruct Hl as (bs & cs & -> & HB & HC).
  destruct (forall2_in' _ _ _ _ HB Hx) as (m & Hm & Hu). apply unfolds_own in Hu.
  assert (In x (concat bs)) as Hc by (apply in_concat; eauto). apply in_split in Hc. destruct Hc as (c1 & c2 & ->).
  exists c1, c2, (concat cs). now rewrite <- !app_assoc.
Qed.
Lemma precedes_in l1 m l2 x y : precedes m x y -> precedes (l1 ++ m ++ l2) x y.
Proof.
  intros (a & b & c & ->). exists (l1 ++ a), b, (c ++ l2). rewrite <- !app_assoc. cbn [List.app]. now rewrite <- !app_assoc.
Qed.

(** No ancestor is reached by two ways. *)
Definition unshared (w : world) (allow : bool) (f : ns) : Prop := forall l, unfolds w allow f l -> NoDup l.

Theorem C35_unshared_partial : forall w allow f, acyclic w allow f -> unshared w allow f ->
  exists chain visited, mro w allow f ([], []) = Some (chain, visited) /\ unfolds w allow f chain /\
    forall g e, In g chain -> followed allow g e ->
      (has_edge w g Prepend e -> precedes chain (target e) g) /\
      (has_edge w g Include e -> precedes chain g (target e)) /\
      (proven_by w g e -> precedes chain g (target e)).
Proof.
  intros w allow f H HU. destruct (unfolds_exists w allow f H) as (l & Hl). destruct (mro_order w allow f l Hl) as (v & E).
  rewrite firsts_id in E; [|now apply HU|easy]. exists l, v. split; auto. split; auto. intros g e Hg Hf.
  destruct (unfolds_split w allow (S (length l)) f l g (Nat.lt_succ_diag_r _) Hl Hg) as (l1 & m & l2 & -> & Hm).
  assert (forall x, parent w allow g x -> In x (before w allow g) \/ In x (after w allow g)) as HP.
  { intros x Hx. apply next_parent in Hx. now apply in_app_or. }
  split; [|split]; intros He; apply precedes_in.
  - apply before_parent with w allow; auto. apply before_in. eauto.
  - apply after_parent with w allow; auto. unfold after. apply in_or_app. left. rewrite edges_followed_eq.
    apply in_map, in_rev. rewrite rev_involutive, <- edges_followed_eq. apply filter_In.
    split; [now apply edges_from_in|now apply allowed_followed].
  - apply after_parent with w allow; auto. unfold after. apply in_or_app. right. apply in_or_app. right.
    apply proven_superclass_spec in He. rewrite He. apply allowed_followed in Hf. rewrite Hf. now left.
Qed.
Print Assumptions C35_unshared_partial.

(** On every graph: what is prepended to a namespace precedes it, and nothing else does. *)
Theorem C35_prepended_first : forall w allow f, exists c1 c2 visited,
  mro w allow f ([], []) = Some (c1 ++ f :: c2, visited) /\
  (forall x, In x c1 -> exists e, has_edge w f Prepend e /\ followed allow f e /\ ancestor w allow (target e) x) /\
  (forall e, has_edge w f Prepend e -> followed allow f e -> target e <> f -> In (target e) c1).
Proof. apply mro_before. Qed.
Print Assumptions C35_prepended_first.

(** Class B includes M1 and then M2, both of which include M0: M1 follows M0, which it includes.
    (Ruby: B, M2, M1, M0.) *)
Definition M0 := 20. Definition M1 := 21. Definition M2 := 22.
Definition diamond : world := mkWorld
  [(i B, Class); (i M0, Module); (i M1, Module); (i M2, Module)]
  [mkEdge (i B) (i M1) Include true false; mkEdge (i B) (i M2) Include true false;
   mkEdge (i M1) (i M0) Include true false; mkEdge (i M2) (i M0) Include true false] [].
Lemma acyclic_by (w : world) (allow : bool) (rank : ns -> nat) :
  (forall x y, parent w allow x y -> rank y < rank x) -> forall f, acyclic w allow f.
Proof.
  intros H f. remember (rank f) as n eqn:E. revert f E. induction n as [n IH] using lt_wf_ind. intros f ->.
  constructor. intros y Hy. eapply IH; [|reflexivity]. now apply H.
Qed.
Lemma parent_listed w allow x y : parent w allow x y -> In y (before w allow x ++ after w allow x).
Proof. apply next_parent. Qed.

Theorem C35_diamond_refuted : exists w f g e chain visited, acyclic w false f /\
  mro w false f ([], []) = Some (chain, visited) /\ In g chain /\
  has_edge w g Include e /\ followed false g e /\ precedes chain (target e) g /\ ~ precedes chain g (target e).
Proof.
  exists diamond, (i B), (i M1), (mkEdge (i M1) (i M0) Include true false), [i B; i M2; i M0; i M1].
  eexists. split; [|split; [reflexivity|]].
  - apply acyclic_by with (rank := fun x => if same x (i B) then 2 else if same x (i M1) || same x (i M2) then 1 else 0).
    intros x y H.
    assert (forall e, In e (edges diamond) -> kind e = Include) as HK.
    { intros e He. cbn in He. intuition; subst; reflexivity. }
    destruct H as [x e H1 H2|x e h H1 H2 H3 H4 H5|x e H1 H2].
    + assert (In e (edges diamond) /\ source e = x) as [He <-] by (destruct H1 as [H1|H1]; split; apply H1).
      cbn in He. destruct He as [<-|[<-|[<-|[<-|[]]]]]; cbn; lia.
    + destruct H4 as (H4 & _ & K). apply HK in H4. congruence.
    + destruct H1 as (_ & _ & l1 & l2 & E & [(H1 & _ & K) _] & _). apply HK in H1. congruence.
  - split; [cbn; auto|]. split; [repeat split; cbn; auto|]. split; [easy|]. split.
    + exists [i B; i M2], [], []. reflexivity.
    + intros (l1 & l2 & l3 & E). destruct l1 as [|a [|b [|c [|d l1]]]]; cbn in E; try easy.
      * injection E as _ _ _ E. destruct l2; easy.
      * injection E as _ _ _ _ E. destruct l1; easy.
Qed.
Print Assumptions C35_diamond_refuted.

(** A class includes a module its superclass includes: the module comes before the superclass.
    (Ruby skips the second include: B, A, M.)  The order is the depth first one. *)
Definition shared : world := mkWorld [(i A, Class); (i B, Class); (i M, Module)]
  [mkEdge (i B) (i A) Superclass true false; mkEdge (i A) (i M) Include true false;
   mkEdge (i B) (i M) Include true false] [].
Example C35_shared : mro shared false (i B) ([], []) = Some ([i B; i M; i A], [i A; i M; i B]).
Proof. reflexivity. Qed.

Example C35_example : exists l, unfolds demo false (i B) l /\ NoDup l /\ length l = 7.
Proof.
  exists [i B; i P; i A; i M; i Object; i Kernel; i BasicObject].
  assert (forall f e, proven_superclass demo f = Some e -> followed false f e ->
    exists e', proven_by demo f e' /\ followed false f e' /\ target e' = target e) as H1.
  { intros f e H F. exists e. split; [now apply proven_superclass_spec|auto]. }
  assert (forall f, proven_superclass demo f = None -> forall e, proven_by demo f e -> ~ followed false f e) as H0.
  { intros f H e He. apply proven_superclass_spec in He. congruence. }
  assert (forall f, proven_superclass demo f = None -> latest_first demo false f Prepend = [] ->
            latest_first demo false f Include = [] -> hooked demo false f = [] -> unfolds demo false f [f]) as Leaf.
  { intros f E E1 E2 E3. apply (unfold demo false f [] [] []); [now apply H0|rewrite E1; constructor|].
    rewrite E2, E3. constructor. }
  assert (unfolds demo false (i Object) [i Object; i Kernel; i BasicObject]) as UO.
  { apply (unfold demo false (i Object) [i BasicObject] [] [[i Kernel]; [i BasicObject]]).
    - apply (H1 (i Object) (mkEdge (i Object) (i BasicObject) Superclass true true)); [reflexivity|]. intros _. now right.
    - constructor.
    - repeat constructor; apply Leaf; reflexivity. }
  assert (unfolds demo false (i A) [i P; i A; i M; i Object; i Kernel; i BasicObject]) as UA.
  { apply (unfold demo false (i A) [i Object] [[i P]] [[i M]; [i Object; i Kernel; i BasicObject]]).
    - apply (H1 (i A) (mkEdge (i A) (i Object) Superclass false false)); [reflexivity|]. intros H. easy.
    - repeat constructor; apply Leaf; reflexivity.
    - constructor; [apply Leaf; reflexivity|]. constructor; [exact UO|constructor]. }
  split; [|split; [|reflexivity]].
  - apply (unfold demo false (i B) [i A] [] [[i P; i A; i M; i Object; i Kernel; i BasicObject]]).
    + apply (H1 (i B) (mkEdge (i B) (i A) Superclass true false)); [reflexivity|]. intros H. easy.
    + constructor.
    + constructor; [exact UA|constructor].
  - repeat constructor; cbn; intuition discriminate.
Qed.

(** ** C37 *)

Section C37.
  Variable w : world.
  Variables constant_symbol namespace_symbol : list nat -> bool.

  (** What a path names. *)
  Definition is_namespace (p : list nat) : Prop := defined w (mkNs p false).
  Definition candidate (context parts : list nat) (n : nat) : list nat := firstn n context ++ parts.

  Lemma defined_namespace_iff p : defined_namespace w p = true <-> is_namespace p.
  Proof.
    unfold defined_namespace, is_namespace. rewrite negb_true_iff. apply nodes_for_some.
  Qed.

  (** The answer is what the innermost level that defines the name has there, a namespace first. *)
  Definition lexical_answer (ns_at : list nat -> Prop) (parts context : list nat) (r : option found) : Prop :=
    match r with
    | Some (Namespace p) => exists n, n <= length context /\ p = candidate context parts n /\ ns_at p /\
        forall m, n < m <= length context ->
          ~ ns_at (candidate context parts m) /\ constant_symbol (candidate context parts m) = false
    | Some (Value p) => exists n, n <= length context /\ p = candidate context parts n /\
        constant_symbol p = true /\ ~ ns_at p /\
        forall m, n < m <= length context ->
          ~ ns_at (candidate context parts m) /\ constant_symbol (candidate context parts m) = false
    | None => forall n, n <= length context ->
        ~ ns_at (candidate context parts n) /\ constant_symbol (candidate context parts n) = false
    end.

  Lemma lexical_answer_of (b : list nat -> bool) (ns_at : list nat -> Prop) parts context :
    (forall p, b p = true <-> ns_at p) ->
    lexical_answer ns_at parts context
      (lexical (fun p => if b p then Some (Namespace p) else if constant_symbol p then Some (Value p) else None)
               parts (rev context)).
  Proof.
    intros Hb. pose proof (lexical_innermost (fun p => if b p then Some (Namespace p) else if constant_symbol p then Some (Value p) else None)
      parts context) as H. unfold innermost in H.
    assert (forall p, (if b p then Some (Namespace p) else if constant_symbol p then Some (Value p) else None) = None ->
              ~ ns_at p /\ constant_symbol p = false) as HN.
    { intros p. rewrite <- Hb. destruct (b p), (constant_symbol p); easy. }
    destruct (lexical _ parts (rev context)) as [[p|p]|].
    - destruct H as (n & H1 & H2 & H3). exists n. unfold candidate in *. split; auto.
      destruct (b (firstn n context ++ parts)) eqn:E.
      + injection H2 as <-. repeat split; auto; [now apply Hb| |]; apply HN; auto.
      + destruct (constant_symbol _); easy.
    - destruct H as (n & H1 & H2 & H3). exists n. unfold candidate in *. split; auto.
      destruct (b (firstn n context ++ parts)) eqn:E; [easy|]. destruct (constant_symbol _) eqn:E'; [|easy].
      injection H2 as <-. split; auto. split; auto. split; [rewrite <- Hb; congruence|]. intros m Hm. apply HN, (H3 m Hm).
    - intros n Hn. apply HN. apply (H n Hn).
  Qed.

  Theorem C37_constant_fqn : forall parts context,
    lexical_answer is_namespace parts context (resolve_constant w constant_symbol parts false context) /\
    lexical_answer is_namespace parts [] (resolve_constant w constant_symbol parts true context).
  Proof.
    intros parts context. split.
    - apply (lexical_answer_of (defined_namespace w)). intros p. apply defined_namespace_iff.
    - apply (lexical_answer_of (defined_namespace w) is_namespace parts []). intros p. apply defined_namespace_iff.
  Qed.

  Theorem C37_constant_reference : forall parts current,
    lexical_answer (fun p => is_namespace p \/ namespace_symbol p = true) parts current
      (resolve_reference w constant_symbol namespace_symbol parts current).
  Proof.
    intros parts current. apply (lexical_answer_of (fun p => defined_namespace w p || namespace_symbol p)).
    intros p. rewrite orb_true_iff, defined_namespace_iff. reflexivity.
  Qed.

  (** Names of superclasses and mixins: the innermost namespace. Missing from C37: value constants
      are not seen (see the refutation). *)
  Theorem C37_graph_target_partial : forall parts context,
    match resolve_graph_target w parts false context with
    | Some p => exists n, n <= length context /\ p = candidate context parts n /\ is_namespace p /\
        forall m, n < m <= length context -> ~ is_namespace (candidate context parts m)
    | None => forall n, n <= length context -> ~ is_namespace (candidate context parts n)
    end.
  Proof.
    intros parts context. pose proof (lexical_innermost (probe_graph w) parts context) as H. unfold innermost in H.
    assert (forall p, probe_graph w p = None -> ~ is_namespace p) as HN.
    { intros p. unfold probe_graph. rewrite <- defined_namespace_iff. destruct (defined_namespace w p); easy. }
    unfold resolve_graph_target. destruct (lexical (probe_graph w) parts (rev context)) as [p|].
    - destruct H as (n & H1 & H2 & H3). exists n. unfold candidate. split; auto. unfold probe_graph in H2.
      destruct (defined_namespace w (firstn n context ++ parts)) eqn:E; [|easy]. injection H2 as <-.
      split; auto. split; [now apply defined_namespace_iff|]. intros m Hm. apply HN, H3. auto.
    - intros n Hn. apply HN, H. auto.
  Qed.
End C37.
Print Assumptions C37_constant_fqn.
Print Assumptions C37_constant_reference.
Print Assumptions C37_graph_target_partial.

(** A value constant in the inner namespace hides the outer class of that name, but not from the
    resolution of superclass and mixin names: they go to the outer class. *)
Theorem C37_graph_target_refuted : exists w constant_symbol parts context p q,
  resolve_graph_target w parts false context = Some p /\
  resolve_constant w constant_symbol parts false context = Some (Value q) /\
  length p < length q.
Proof.
  exists demo, (fun p => match p with [12; 11] => true | _ => false end), [B], [M], [B], [M; B]. repeat split. cbn. lia.
Qed.
Print Assumptions C37_graph_target_refuted.

(** Two definitions of a name at different levels. *)
Example C37_example :
  let w := mkWorld [(i A, Class); (mkNs [M; A] false, Class)] [] [] in
  resolve_constant w (fun p => match p with [12; 13] => true | _ => false end) [A] false [M; B] = Some (Namespace [M; A]) /\
  resolve_constant w (fun p => match p with [12; 13] => true | _ => false end) [P] false [M; B] = Some (Value [M; P]) /\
  resolve_constant w (fun p => match p with [12; 13] => true | _ => false end) [A] true [M; B] = Some (Namespace [A]) /\
  resolve_constant w (fun p => match p with [12; 13] => true | _ => false end) [B] false [M; B] = None.
Proof. repeat split. Qed.

(** ** C50 *)

(** Every graph: the search ends, names nothing twice, the origin never, and only implementors, in
    the order of their names. *)
Theorem C50_implementors_sound : forall show w f, exists r, implementors show w f = Some r /\ NoDup r /\
  StronglySorted (fun x y => lexb (show x) (show y) = true) r /\
  forall x, In x r -> x <> f /\ clos_refl_trans_1n ns (implements w) f x.
Proof. intros show w f. destruct (implementors_ok show w f) as (r & H1 & H2 & H3 & H4 & _). eauto 6. Qed.
Print Assumptions C50_implementors_sound.

(** Graphs of legal Ruby, where classes are never mixed in: every implementor is found. *)
Theorem C50_implementors_partial : forall show w f, classes_not_mixed_in w ->
  exists r, implementors show w f = Some r /\ forall x, In x r <-> x <> f /\ clos_refl_trans_1n ns (implements w) f x.
Proof.
  intros show w f H. destruct (implementors_ok show w f) as (r & H1 & _ & _ & H4 & H5). exists r. split; auto.
  intros x. split; auto. intros [N K]. auto.
Qed.
Print Assumptions C50_implementors_partial.

(** Otherwise not: a module that mixes in a subclass is missed. *)
Theorem C50_mixed_in_class_refuted : exists show w f r x, implementors show w f = Some r /\
  x <> f /\ clos_refl_trans_1n ns (implements w) f x /\ ~ In x r.
Proof.
  set (w := mkWorld [] [mkEdge (i B) (i A) Superclass true false; mkEdge (i M) (i B) Include true false] []).
  exists path, w, (i A), [i B], (i M). split; [reflexivity|]. split; [easy|]. split.
  - econstructor; [apply (subclass w (mkEdge (i B) (i A) Superclass true false)); cbn; auto|].
    econstructor; [|constructor]. apply (mixer w (mkEdge (i M) (i B) Include true false)); cbn; auto.
  - cbn. intuition discriminate.
Qed.
Print Assumptions C50_mixed_in_class_refuted.

Example C50_example : implementors path demo (i M) = Some [i A; i B] /\ classes_not_mixed_in demo.
Proof.
  split; [reflexivity|]. intros e d He Ke Hd Kd E. cbn in He, Hd.
  destruct He as [<-|[<-|[<-|[<-|[<-|[<-|[<-|[<-|[<-|[]]]]]]]]]]; cbn in Ke; try discriminate;
  destruct Hd as [<-|[<-|[<-|[<-|[<-|[<-|[<-|[<-|[<-|[]]]]]]]]]]; cbn in Kd, E; try discriminate;
  intuition discriminate.
Qed.

(** ** C67 *)

(** The classes a module reaches: exactly those that include or prepend it, directly or through
    modules, each once, in the order of their names. *)
Theorem C67_module_includers : forall show w m, exists r, module_includers show w m = Some r /\ NoDup r /\
  StronglySorted (fun x y => lexb (show x) (show y) = true) r /\
  forall x, In x r <-> includes w m x /\ first_kind w x = Some Class.
Proof. intros show w m. apply module_includers_ok. Qed.
Print Assumptions C67_module_includers.

Example C67_example :
  let w := mkWorld [(i A, Class); (i B, Class); (i M, Module); (i P, Module)]
    [mkEdge (i B) (i M) Prepend true false; mkEdge (i P) (i M) Include true false; mkEdge (i A) (i P) Include true false;
     mkEdge (i M) (i P) Include true false] [] in
  module_includers path w (i M) = Some [i A; i B].
Proof. reflexivity. Qed.
