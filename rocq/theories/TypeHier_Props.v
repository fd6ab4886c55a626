(** The type hierarchy: exactly the declarations in force, upwards and downwards alike. *)
From Coq Require Import List Arith Bool Lia Permutation Sorted.
From Verif Require Import Sort_Lib Index_Lib Graph_Model Graph_Spec Graph_Proofs Graph_Props Names_Model Names_Props
  TypeHier_Model TypeHier_Spec.
Import ListNotations.

Lemma filter_rev' {A} (p : A -> bool) l : filter p (rev l) = rev (filter p l).
Proof.
  induction l as [|x l IH]; auto. cbn. rewrite filter_app, IH. cbn. destruct (p x); cbn; auto. now rewrite app_nil_r.
Qed.

Lemma filter_filter' {A} (p q : A -> bool) l : filter p (filter q l) = filter (fun x => q x && p x) l.
Proof. induction l as [|x l IH]; auto. cbn. destruct (q x); cbn; rewrite IH; auto. Qed.

Lemma flat_forall2 {A B} (d : A -> bool) (f : A -> list B) (P : A -> B -> Prop) l :
  (forall a, In a l -> (d a = false /\ f a = []) \/ (d a = true /\ exists b, f a = [b] /\ P a b)) ->
  Forall2 P (filter d l) (flat_map f l).
Proof.
  induction l as [|a l IH]; intros H; cbn; [constructor|].
  destruct (H a (or_introl eq_refl)) as [[-> ->]|(-> & b & -> & Pb)]; cbn.
  - apply IH. intros x Hx. apply H. now right.
  - constructor; auto. apply IH. intros x Hx. apply H. now right.
Qed.

Lemma map_flat {A B C} (g : B -> C) (f : A -> list B) l : map g (flat_map f l) = flat_map (fun a => map g (f a)) l.
Proof. induction l as [|a l IH]; auto. cbn. now rewrite map_app, IH. Qed.

Section Reached.
  Variables (label : nat -> name) (lookup : nat -> list text) (h : list op) (g : graph).
  Hypothesis W : well_formed h.
  Hypothesis R : run h = Some g.
  Let F := live h.

  Lemma nodes_first q n l : nodes_for g q = n :: l -> first_definition F q n.
  Proof. intros E. exists l. pose proof (C32_nodes_for h g q W R) as H. rewrite E in H. exact H. Qed.

  Lemma first_unique q n n' : first_definition F q n -> first_definition F q n' -> n = n'.
  Proof. intros [l H] [l' H']. pose proof (in_order_unique _ _ _ _ H H') as E. now injection E. Qed.

  Lemma nodes_nil q : nodes_for g q = [] <-> existsb (fun n => nfqn n =? q) (fnodes F) = false.
  Proof.
    pose proof (C32_nodes_for h g q W R) as (P & _). fold F in P. split; intros H.
    - rewrite H in P. apply Permutation_sym, Permutation_nil in P.
      destruct (existsb _ _) eqn:E; auto. apply existsb_exists in E as (n & Hn & E).
      assert (In n []) as K by (rewrite <- P; apply filter_In; auto). easy.
    - destruct (nodes_for g q) as [|n l]; auto. exfalso.
      assert (In n (filter (fun x => nfqn x =? q) (fnodes F))) as K
        by (eapply Permutation_in; [apply Permutation_sym; exact P|now left]).
      apply filter_In in K as [K E]. assert (existsb (fun n => nfqn n =? q) (fnodes F) = true)
        by (apply existsb_exists; eauto). congruence.
  Qed.

  Lemma defined_nodes q : defined F q <-> nodes_for g q <> [].
  Proof.
    rewrite nodes_nil. split.
    - intros (n & Hn & E) K. rewrite <- not_true_iff_false in K. apply K. apply existsb_exists. exists n. split; auto.
      now apply Nat.eqb_eq.
    - intros H. apply not_false_is_true in H. apply existsb_exists in H as (n & Hn & E). exists n. split; auto.
      now apply Nat.eqb_eq.
  Qed.

  (** One node entry. *)
  Lemma node_entry q r f :
    (existsb (fun n => nfqn n =? q) (fnodes F) = false /\ entry_for_node g q r f = []) \/
    (existsb (fun n => nfqn n =? q) (fnodes F) = true /\
     exists x, entry_for_node g q r f = [x] /\ entry_of F q r x /\ edge_file x = f).
  Proof.
    unfold entry_for_node. destruct (nodes_for g q) as [|n l] eqn:E.
    - left. split; auto. now apply nodes_nil.
    - right. split.
      + apply not_false_is_true. intros K. apply nodes_nil in K. congruence.
      + eexists. split; [reflexivity|]. split; auto. repeat split. exists n. split; auto. now apply (nodes_first q n l).
  Qed.

  Lemma unflag_entry p q r x : entry_of F q r x -> entry_of F q r (unflag p x).
  Proof. unfold unflag, entry_of. destruct (edge_file x) as [f|]; auto. destruct (f =? p); auto. Qed.

  Lemma unflag_flagged q n x r : first_definition F q n -> edge_file x = Some (file_id r) ->
    flagged F q r (unflag (file_id (nrange n)) x).
  Proof.
    intros D E n' D'. rewrite (first_unique q n' n) by auto. unfold unflag. rewrite E.
    destruct (file_id r =? file_id (nrange n)); auto.
  Qed.

  (** ** Upwards *)
  Lemma edges_from_eq q : edges_from g q =
    filter (fun e => source e =? q) (sort (key_leb edge_position) (fedges F)).
  Proof.
    pose proof (C32_edges_from h g q W R) as H. unfold answers in H. apply in_order_sort in H.
    rewrite H. symmetry. apply sort_filter; [apply key_total|apply key_trans].
  Qed.
  Lemma edges_to_eq q : edges_to g q =
    filter (fun e => target e =? q) (sort (key_leb edge_position) (fedges F)).
  Proof.
    pose proof (C32_edges_to h g q W R) as H. unfold answers in H. apply in_order_sort in H.
    rewrite H. symmetry. apply sort_filter; [apply key_total|apply key_trans].
  Qed.

  Lemma supertype_section q n k r : first_definition F q n ->
    upward F q k r (map (unflag (file_id (nrange n))) (supertype_entries g (edges_from g q) k r)).
  Proof.
    intros D. exists (sort (key_leb edge_position) (fedges F)). split; [apply sort_in_order|].
    unfold supertype_entries. rewrite map_flat, edges_from_eq, filter_filter'.
    rewrite <- filter_rev'. rewrite <- (filter_rev' (fun x => (source x =? q) && same_kind (ekind x) k)).
    set (L := rev _).
    assert (filter (fun e => (source e =? q) && (kind_rank (ekind e) =? kind_rank k) &&
        existsb (fun n => nfqn n =? target e) (fnodes F)) L =
      filter (fun e => existsb (fun n => nfqn n =? target e) (fnodes F))
        (filter (fun x => (source x =? q) && same_kind (ekind x) k) L)) as -> by now rewrite filter_filter'.
    apply flat_forall2. intros e _.
    destruct (node_entry (target e) r (Some (file_id (erange e)))) as [[E1 E2]|(E1 & x & E2 & E3 & E4)].
    - left. now rewrite E2.
    - right. split; auto. exists (unflag (file_id (nrange n)) x). rewrite E2. split; [reflexivity|split; [now apply unflag_entry|now apply unflag_flagged]].
  Qed.

  Lemma unresolved_section q n : first_definition F q n ->
    exists us, Permutation us (filter (fun u => (usource u =? q) && negb (kind_rank (ukind u) =? 4)) (funresolved F)) /\
      Forall2 (unfound lookup F q) us (map (unflag (file_id (nrange n))) (unresolved_entries lookup g q)).
  Proof.
    intros D. exists (filter (fun u => (usource u =? q) && negb (kind_rank (ukind u) =? 4)) (unresolved_edges g)). split.
    - assert (forall (p : unresolved -> bool) l m, Permutation l m -> Permutation (filter p l) (filter p m)) as PF.
      { intros p l m H. induction H; cbn; auto; repeat destruct (p _); auto; try constructor. eapply perm_trans; eauto. }
      apply PF. exact (proj1 (C32_unresolved_edges h g W R)).
    - unfold unresolved_entries. rewrite map_flat. apply flat_forall2. intros u _.
      destruct (usource u =? q); [|left; auto]. cbn [andb].
      destruct (ukind u) eqn:K; cbn [kind_rank relation_up Nat.eqb negb];
        try (left; split; reflexivity);
        right; (split; [reflexivity|]); eexists; (split; [reflexivity|]);
        unfold unfound; rewrite K;
        match goal with |- context [unflag ?p ?x] => pose proof (unflag_flagged q n x (urange u) D eq_refl) as HF end;
        unfold unflag in *; cbn [edge_file] in *;
        destruct (file_id (urange u) =? file_id (nrange n)); cbn; repeat split; auto.
  Qed.

  Theorem supertypes_ok q : defined F q ->
    exists lp li ls le us lu, supertypes lookup g q = lp ++ li ++ ls ++ le ++ lu /\
      upward F q Prepend RPrepend lp /\ upward F q Include RInclude li /\
      upward F q Superclass RSuperclass ls /\ upward F q Extend RExtend le /\
      Permutation us (filter (fun u => (usource u =? q) && negb (kind_rank (ukind u) =? 4)) (funresolved F)) /\
      Forall2 (unfound lookup F q) us lu.
  Proof.
    intros D. apply defined_nodes in D. unfold supertypes. destruct (nodes_for g q) as [|n l] eqn:E; [easy|].
    pose proof (nodes_first q n l E) as HD. rewrite !map_app.
    destruct (unresolved_section q n HD) as (us & P & U).
    do 6 eexists. split; [reflexivity|]. split; [now apply supertype_section|]. split; [now apply supertype_section|].
    split; [now apply supertype_section|]. split; [now apply supertype_section|]. split; [exact P|exact U].
  Qed.

  (** ** Downwards *)
  Lemma counts_concerns e : counts_down label e = concerns_instances label e && negb (kind_rank (ekind e) =? 4).
  Proof.
    unfold counts_down, concerns_instances, is_instance.
    destruct (ekind e), (label (source e)) as [ps []| | | ]; reflexivity.
  Qed.

  Lemma subtype_section q k r : k <> Application ->
    downward label F q k r (subtype_entries label g (edges_to g q) k r).
  Proof.
    intros HK. exists (sort (key_leb edge_position) (fedges F)). eexists. split; [apply sort_in_order|].
    split; [apply sort_in_order|]. unfold subtype_entries. rewrite edges_to_eq, filter_filter'.
    set (L := sort (key_leb edge_position) (fedges F)).
    assert (filter (fun e => (target e =? q) && (same_kind (ekind e) k && counts_down label e)) L =
      filter (fun e => (target e =? q) && (kind_rank (ekind e) =? kind_rank k) && concerns_instances label e) L) as ->.
    { apply filter_ext. intros e. rewrite counts_concerns. unfold same_kind.
      destruct (target e =? q); auto. cbn [andb]. destruct (kind_rank (ekind e) =? kind_rank k) eqn:EK; auto. cbn [andb].
      destruct (concerns_instances label e); auto. cbn [andb]. apply Nat.eqb_eq in EK. rewrite EK. now destruct k. }
    rewrite <- (filter_filter' (fun e => existsb (fun n => nfqn n =? source e) (fnodes F))).
    rewrite <- sort_filter by (apply key_total || apply key_trans).
    apply flat_forall2. intros e _.
    destruct (node_entry (source e) r None) as [[E1 E2]|(E1 & x & E2 & E3 & E4)]; [left; now split|].
    right. split; auto. exists x. split; auto.
  Qed.

  Theorem subtypes_ok q : defined F q ->
    exists ls li lp le, subtypes label g q = ls ++ li ++ lp ++ le /\
      downward label F q Superclass RSubclass ls /\ downward label F q Include RIncludedBy li /\
      downward label F q Prepend RPrependedBy lp /\ downward label F q Extend RExtendedBy le.
  Proof.
    intros D. apply defined_nodes in D. unfold subtypes. destruct (nodes_for g q) as [|n l]; [easy|].
    do 4 eexists. split; [reflexivity|].
    split; [now apply subtype_section|]. split; [now apply subtype_section|]. split; now apply subtype_section.
  Qed.

  Lemma undefined_ok q : ~ defined F q -> supertypes lookup g q = [] /\ subtypes label g q = [].
  Proof.
    intros H. assert (nodes_for g q = []) as E.
    { destruct (nodes_for g q) eqn:E; auto. elim H. apply defined_nodes. congruence. }
    unfold supertypes, subtypes. now rewrite E.
  Qed.

  (** ** Counting *)
  Definition links (x y : nat) (k : edge_kind) (e : edge) : bool :=
    (source e =? x) && (target e =? y) && same_kind (ekind e) k.

  Lemma count_flat {A} (p : entry -> bool) (d : A -> bool) (f : A -> list entry) l :
    (forall a, In a l -> length (filter p (f a)) = if d a then 1 else 0) ->
    length (filter p (flat_map f l)) = length (filter d l).
  Proof.
    induction l as [|a l IH]; intros H; auto. cbn. rewrite filter_app, app_length, (H a) by now left.
    rewrite IH by (intros b Hb; apply H; now right). destruct (d a); auto.
  Qed.

  Lemma filter_perm_length {A} (p : A -> bool) l m : Permutation l m -> length (filter p l) = length (filter p m).
  Proof. intros H. induction H; cbn; auto; repeat destruct (p _); cbn; lia. Qed.

  Lemma unflag_about p q r x : about q r (unflag p x) = about q r x.
  Proof. unfold unflag, about. destruct (edge_file x) as [f|]; auto. now destruct (f =? p). Qed.

  Lemma node_entry_about q r f y r' : nodes_for g y <> [] ->
    length (filter (about y r') (entry_for_node g q r f)) = if (q =? y) && (if relation_eq_dec r r' then true else false) then 1 else 0.
  Proof.
    intros D. unfold entry_for_node. destruct (nodes_for g q) as [|n l] eqn:E.
    - cbn. destruct (q =? y) eqn:Q; auto. apply Nat.eqb_eq in Q. congruence.
    - cbn. unfold about. cbn. now destruct ((q =? y) && _).
  Qed.

  Lemma filter_false {A} (l : list A) : filter (fun _ => false) l = [].
  Proof. now induction l. Qed.

  Lemma up_count x y k r r' : nodes_for g y <> [] ->
    length (filter (about y r') (supertype_entries g (edges_from g x) k r)) =
    if relation_eq_dec r r' then length (filter (links x y k) (fedges F)) else 0.
  Proof.
    intros D. unfold supertype_entries.
    rewrite (count_flat _ (fun e => (target e =? y) && (if relation_eq_dec r r' then true else false)))
      by (intros e _; now apply node_entry_about).
    rewrite filter_rev', rev_length, filter_filter', edges_from_eq, filter_filter'.
    rewrite <- (filter_perm_length _ _ _ (sort_perm (key_leb edge_position) (fedges F))).
    destruct (relation_eq_dec r r') as [->|N].
    - f_equal. apply filter_ext. intros e. unfold links. destruct (source e =? x), (target e =? y), (same_kind (ekind e) k); auto.
    - rewrite (filter_ext _ (fun _ => false)); [now rewrite filter_false|]. intros e.
      destruct (source e =? x), (same_kind (ekind e) k), (target e =? y); auto.
  Qed.

  Lemma down_count x y k r r' : nodes_for g x <> [] -> is_instance label x = true -> k <> Application ->
    length (filter (about x r') (subtype_entries label g (edges_to g y) k r)) =
    if relation_eq_dec r r' then length (filter (links x y k) (fedges F)) else 0.
  Proof.
    intros D I KA. unfold subtype_entries.
    rewrite (count_flat _ (fun e => (source e =? x) && (if relation_eq_dec r r' then true else false)))
      by (intros e _; now apply node_entry_about).
    rewrite <- (filter_perm_length _ _ _ (sort_perm _ _)).
    rewrite filter_filter', edges_to_eq, filter_filter'.
    rewrite <- (filter_perm_length _ _ _ (sort_perm (key_leb edge_position) (fedges F))).
    destruct (relation_eq_dec r r') as [->|N].
    - f_equal. apply filter_ext. intros e. unfold links, same_kind.
      destruct (source e =? x) eqn:Sx; [|now rewrite !andb_false_r].
      destruct (target e =? y); auto. cbn [andb]. rewrite andb_true_r.
      destruct (kind_rank (ekind e) =? kind_rank k) eqn:EK; auto. cbn [andb].
      apply Nat.eqb_eq in Sx, EK. unfold counts_down. rewrite Sx, I.
      destruct (ekind e), k; try discriminate EK; auto; congruence.
    - rewrite (filter_ext _ (fun _ => false)); [now rewrite filter_false|]. intros e. now rewrite !andb_false_r.
  Qed.

  Lemma unresolved_count x y r : length (filter (about y r) (unresolved_entries lookup g x)) = 0.
  Proof.
    unfold unresolved_entries. rewrite (count_flat _ (fun _ => false)); [now rewrite filter_false|].
    intros u _. destruct (usource u =? x); auto. now destruct (relation_up (ukind u)).
  Qed.

  Lemma map_unflag_count p q r l : length (filter (about q r) (map (unflag p) l)) = length (filter (about q r) l).
  Proof. induction l as [|x l IH]; auto. cbn. rewrite unflag_about. destruct (about q r x); cbn; auto. Qed.

  Theorem agree_ok x y up down : inverse up down -> defined F x -> defined F y ->
    (exists ps, label x = Namespace ps Instance) ->
    length (filter (about y up) (supertypes lookup g x)) = length (filter (about x down) (subtypes label g y)).
  Proof.
    intros IV Dx Dy [ps HL]. apply defined_nodes in Dx, Dy.
    assert (is_instance label x = true) as I by (unfold is_instance; now rewrite HL).
    unfold supertypes, subtypes. destruct (nodes_for g x) as [|nx lx] eqn:Ex; [easy|].
    destruct (nodes_for g y) as [|ny ly] eqn:Ey; [easy|]. rewrite map_unflag_count.
    rewrite !filter_app, !app_length, unresolved_count.
    rewrite !(up_count x y) by congruence. rewrite !(down_count x y) by (congruence || auto; discriminate).
    destruct IV as [[-> ->]|[[-> ->]|[[-> ->]|[-> ->]]]]; cbn; lia.
  Qed.
End Reached.

(** Supertypes: the prepended, included, superclass and extended declarations written in the class
    whose target is defined, each group last declaration first, then those whose target was not
    found; a declaration outside the file of the first definition is flagged with its file. *)
Theorem C92_supertypes lookup h g q : well_formed h -> run h = Some g -> defined (live h) q ->
  exists lp li ls le us lu, supertypes lookup g q = lp ++ li ++ ls ++ le ++ lu /\
    upward (live h) q Prepend RPrepend lp /\ upward (live h) q Include RInclude li /\
    upward (live h) q Superclass RSuperclass ls /\ upward (live h) q Extend RExtend le /\
    Permutation us (filter (fun u => (usource u =? q) && negb (kind_rank (ukind u) =? 4)) (funresolved (live h))) /\
    Forall2 (unfound lookup (live h) q) us lu.
Proof. intros W R. now apply supertypes_ok. Qed.
Print Assumptions C92_supertypes.

(** Subtypes: the classes and modules declaring it their superclass, including, prepending or
    extending it, each group by name. *)
Theorem C92_subtypes label h g q : well_formed h -> run h = Some g -> defined (live h) q ->
  exists ls li lp le, subtypes label g q = ls ++ li ++ lp ++ le /\
    downward label (live h) q Superclass RSubclass ls /\ downward label (live h) q Include RIncludedBy li /\
    downward label (live h) q Prepend RPrependedBy lp /\ downward label (live h) q Extend RExtendedBy le.
Proof. intros W R. now apply subtypes_ok. Qed.
Print Assumptions C92_subtypes.

(** A class or module without definition has neither. *)
Theorem C92_undefined label lookup h g q : well_formed h -> run h = Some g -> ~ defined (live h) q ->
  supertypes lookup g q = [] /\ subtypes label g q = [].
Proof. intros W R. now apply undefined_ok. Qed.
Print Assumptions C92_undefined.

(** The two directions agree: a class shows another above itself as often as that one shows it
    below, in the inverse relation. *)
Theorem C92_directions_agree label lookup h g x y up down : well_formed h -> run h = Some g ->
  inverse up down -> defined (live h) x -> defined (live h) y -> (exists ps, label x = Namespace ps Instance) ->
  length (filter (about y up) (supertypes lookup g x)) = length (filter (about x down) (subtypes label g y)).
Proof. intros W R. now apply agree_ok. Qed.
Print Assumptions C92_directions_agree.

(** ** Examples.  Ids: 0 Base, 1 User, 2 Object, 3 Auth, 4 Log, 5 the singleton class of User. *)
Definition demo_label (i : nat) : name :=
  match i with
  | 0 => Namespace [[66]] Instance | 1 => Namespace [[85]] Instance | 2 => Namespace [[79]] Instance
  | 3 => Namespace [[65]] Instance | 4 => Namespace [[76]] Instance | _ => Namespace [[85]] Singleton
  end.
Definition demo_lookup (_ : nat) : list text := [[88]].
Definition at_ (f a b : nat) := mkRange f a b.
Definition library : list op :=
  [ReplaceFile 9 [mkNode 0 Class (at_ 9 0 9); mkNode 2 Class (at_ 9 10 19); mkNode 3 Module (at_ 9 20 29); mkNode 4 Module (at_ 9 30 39)] [] []].

Lemma well_formed_by (l : list op) : forallb (fun o => match o with
  | ReplaceFile f ns es us => forallb (fun x => file_id (nrange x) =? f) ns && forallb (fun e => file_id (erange e) =? f) es &&
                              forallb (fun u => file_id (urange u) =? f) us
  | _ => true end) l = true -> well_formed l.
Proof.
  intros H o Ho. rewrite forallb_forall in H. specialize (H o Ho). destruct o; cbn; auto.
  apply andb_prop in H as [H1 H2]. apply andb_prop in H1 as [H0 H1].
  rewrite !forallb_forall in *. repeat split; intros y Hy; apply Nat.eqb_eq; auto.
Qed.

Definition reach (h : list op) : graph := match run h with Some g => g | None => new end.
Lemma reach_ok h : well_formed h -> run h = Some (reach h).
Proof. intros W. unfold reach. destruct (C32_never_panics h W) as [s E]. now rewrite E. Qed.

(** User < Base with two includes on two lines and an unknown extension. *)
Definition user_file : op :=
  ReplaceFile 1 [mkNode 1 Class (at_ 1 0 50)]
    [mkEdge 1 0 Superclass Explicit (at_ 1 12 16); mkEdge 1 3 Include Explicit (at_ 1 20 24); mkEdge 1 4 Include Explicit (at_ 1 30 33)]
    [mkUnresolved 1 7 Extend Explicit (at_ 1 40 44)].
Example C92_case : exists g, well_formed (library ++ [user_file]) /\ run (library ++ [user_file]) = Some g /\
  map (fun x => (subject x, rel x)) (supertypes demo_lookup g 1) =
    [(inl 4, RInclude); (inl 3, RInclude); (inl 0, RSuperclass); (inr [[88]], RExtend)] /\
  map (fun x => (subject x, rel x)) (subtypes demo_label g 3) = [(inl 1, RIncludedBy)].
Proof.
  exists (reach (library ++ [user_file])). split; [now apply well_formed_by|].
  split; [apply reach_ok; now apply well_formed_by|]. now vm_compute.
Qed.

(** Refuted: each supertype is shown once.  A class written in two files shows its superclass twice. *)
Definition reopened : op :=
  ReplaceFile 2 [mkNode 1 Class (at_ 2 0 50)] [mkEdge 1 0 Superclass Explicit (at_ 2 12 16)] [].
Theorem C92_once_refuted : exists h g, well_formed h /\ run h = Some g /\
  length (filter (about 0 RSuperclass) (supertypes demo_lookup g 1)) = 2 /\
  length (filter (about 1 RSubclass) (subtypes demo_label g 0)) = 2.
Proof.
  exists (library ++ [user_file; reopened]), (reach (library ++ [user_file; reopened])).
  split; [now apply well_formed_by|]. split; [apply reach_ok; now apply well_formed_by|]. now vm_compute.
Qed.
Print Assumptions C92_once_refuted.

(** Refuted: a class shows one superclass.  Reopened without naming it, the class also shows Object,
    although the superclass is proven. *)
Definition reopened_bare : op :=
  ReplaceFile 2 [mkNode 1 Class (at_ 2 0 50)] [mkEdge 1 2 Superclass ImplicitObject (at_ 2 0 9)] [].
Theorem C92_superclass_refuted : exists h g e, well_formed h /\ run h = Some g /\
  superclass_resolution g 1 = Unique e /\ target e = 0 /\
  length (filter (about 0 RSuperclass) (supertypes demo_lookup g 1)) = 1 /\
  length (filter (about 2 RSuperclass) (supertypes demo_lookup g 1)) = 1.
Proof.
  exists (library ++ [user_file; reopened_bare]), (reach (library ++ [user_file; reopened_bare])),
    (mkEdge 1 0 Superclass Explicit (at_ 1 12 16)).
  split; [now apply well_formed_by|]. split; [apply reach_ok; now apply well_formed_by|]. now vm_compute.
Qed.
Print Assumptions C92_superclass_refuted.

(** Refuted: the order of the list is that of the source.  Two modules included by one call share
    their position and are ordered by the internal numbers of their names: [include A, B] and
    [include B, A] give one list.  (Ruby looks in the first named module first.) *)
Definition include_both (a b : nat) : op :=
  ReplaceFile 1 [mkNode 1 Class (at_ 1 0 50)]
    [mkEdge 1 a Include Explicit (at_ 1 20 34); mkEdge 1 b Include Explicit (at_ 1 20 34)] [].
Theorem C92_order_refuted : exists g g',
  run (library ++ [include_both 3 4]) = Some g /\ run (library ++ [include_both 4 3]) = Some g' /\
  map subject (supertypes demo_lookup g 1) = [inl 4; inl 3] /\
  map subject (supertypes demo_lookup g' 1) = [inl 4; inl 3].
Proof.
  exists (reach (library ++ [include_both 3 4])), (reach (library ++ [include_both 4 3])).
  split; [apply reach_ok; now apply well_formed_by|]. split; [apply reach_ok; now apply well_formed_by|]. now vm_compute.
Qed.
Print Assumptions C92_order_refuted.

(** Refuted: an entry can be opened further.  [extend] inside [class << self] shows the singleton
    class, under a text no follow-up request can read, though it has a supertype. *)
Definition singleton_extends : op :=
  ReplaceFile 1 [mkNode 1 Class (at_ 1 0 50); mkNode 5 Class (at_ 1 0 50)] [mkEdge 5 3 Extend Explicit (at_ 1 20 34)] [].
Theorem C92_open_further_refuted u : plain u -> exists h g x, well_formed h /\ run h = Some g /\
  In x (subtypes demo_label g 3) /\ subject x = inl 5 /\ supertypes demo_lookup g 5 <> [] /\
  parse_namespace u (print (demo_label 5)) = None.
Proof.
  intros P. exists (library ++ [singleton_extends]), (reach (library ++ [singleton_extends])),
    (mkEntry (inl 5) (Some Class) RExtendedBy (at_ 1 0 50) None false).
  split; [now apply well_formed_by|]. split; [apply reach_ok; now apply well_formed_by|].
  split; [vm_compute; now left|]. split; [reflexivity|]. split; [vm_compute; discriminate|].
  now apply C90_singleton_refuted.
Qed.
Print Assumptions C92_open_further_refuted.
