(** Model of the ancestry graph: crates/ruby-analysis/src/core/graph_store.rs.

    FqnId, ConstLookupId and SourceFileId are numbers.  StoredGraphEdgeFact and GraphEdge have the
    same fields and are one record.  Capacity management and memory estimates are left out. *)
From Coq Require Import List Arith NArith Bool.
From Verif Require Import Lib Sort_Lib Index_Lib.
Import ListNotations.

(** GraphNodeKind (graph_store.rs 7-10). *)
Inductive node_kind := Class | Module.
(** GraphEdgeKind (13-22). *)
Inductive edge_kind := Superclass | Include | Prepend | Extend | Application.
(** GraphEdgeProvenance (25-28). *)
Inductive provenance := Explicit | ImplicitObject.

(** StoredGraphNodeFact (114-118). *)
Record node_fact := mkNode { nfqn : nat; nkind : node_kind; nrange : text_range }.
(** StoredGraphEdgeFact (127-133) and GraphEdge (210-216). *)
Record edge := mkEdge { source : nat; target : nat; ekind : edge_kind; prov : provenance; erange : text_range }.
(** StoredUnresolvedGraphEdgeFact (136-142). *)
Record unresolved := mkUnresolved { usource : nat; utarget : nat; ukind : edge_kind; uprov : provenance; urange : text_range }.

Definition is_superclass (k : edge_kind) : bool := match k with Superclass => true | _ => false end.
Definition is_explicit (p : provenance) : bool := match p with Explicit => true | _ => false end.

(** The derived [Ord] of GraphEdgeKind and GraphEdgeProvenance (12, 24). *)
Definition kind_rank (k : edge_kind) : nat :=
  match k with Superclass => 0 | Include => 1 | Prepend => 2 | Extend => 3 | Application => 4 end.
Definition prov_rank (p : provenance) : nat := match p with Explicit => 0 | ImplicitObject => 1 end.

(** GraphNodeDefinition (189-192), GraphNode (195-207). *)
Definition definition := (node_kind * text_range)%type.
Record gnode := mkGNode {
  definitions : list definition;
  superclasses : list nat; includes : list nat; prepends : list nat; extends : list nat; applications : list nat;
  children : list nat; included_by : list nat; prepended_by : list nat; extended_by : list nat; templates : list nat
}.
Definition empty_node : gnode := mkGNode [] [] [] [] [] [] [] [] [] [] [].

(** SemanticGraph (239-247). *)
Record graph := mkGraph {
  nodes : list (nat * gnode);
  edges : arena edge;
  node_definition_files : list nat;
  edges_by_file : list (nat * list nat);
  unresolved_by_file : list (nat * list unresolved);
  unresolved_explicit : list (nat * nat)
}.

(** SemanticGraph::new (250-252). *)
Definition new : graph := mkGraph [] no_slots [] [] [] [].

(** The keys of sort_node_definitions (732-740), sort_graph_nodes (742-751) and
    graph_edge_order_key (757-777). *)
Definition definition_key (d : definition) : list nat :=
  [file_id (snd d); start_byte (snd d); end_byte (snd d)].
Definition node_key (x : node_fact) : list nat :=
  [nfqn x; file_id (nrange x); start_byte (nrange x); end_byte (nrange x)].
Definition edge_key (e : edge) : list nat :=
  [source e; file_id (erange e); start_byte (erange e); end_byte (erange e);
   kind_rank (ekind e); prov_rank (prov e); target e].

(** [self.nodes.entry(q).or_default()]. *)
Definition node_or_default (m : list (nat * gnode)) (q : nat) : gnode :=
  match get Nat.eqb m q with Some n => n | None => empty_node end.

Definition set_definitions (n : gnode) (d : list definition) : gnode :=
  mkGNode d (superclasses n) (includes n) (prepends n) (extends n) (applications n)
    (children n) (included_by n) (prepended_by n) (extended_by n) (templates n).

(** GraphNode::push_outgoing (672-682) and retain_outgoing (694-704): the vector of a kind is
    replaced by [f] of it. *)
Definition on_outgoing (k : edge_kind) (f : list nat -> list nat) (n : gnode) : gnode :=
  match n with
  | mkGNode d s i p e a c ib pb eb t =>
      match k with
      | Superclass => mkGNode d (f s) i p e a c ib pb eb t
      | Include => mkGNode d s (f i) p e a c ib pb eb t
      | Prepend => mkGNode d s i (f p) e a c ib pb eb t
      | Extend => mkGNode d s i p (f e) a c ib pb eb t
      | Application => mkGNode d s i p e (f a) c ib pb eb t
      end
  end.
(** GraphNode::push_incoming (684-692) and retain_incoming (706-716). *)
Definition on_incoming (k : edge_kind) (f : list nat -> list nat) (n : gnode) : gnode :=
  match n with
  | mkGNode d s i p e a c ib pb eb t =>
      match k with
      | Superclass => mkGNode d s i p e a (f c) ib pb eb t
      | Include => mkGNode d s i p e a c (f ib) pb eb t
      | Prepend => mkGNode d s i p e a c ib (f pb) eb t
      | Extend => mkGNode d s i p e a c ib pb (f eb) t
      | Application => mkGNode d s i p e a c ib pb eb (f t)
      end
  end.

Definition push_outgoing k id n := on_outgoing k (fun l => l ++ [id]) n.
Definition push_incoming k id n := on_incoming k (fun l => l ++ [id]) n.
Definition retain_outgoing k stale n := on_outgoing k (filter (fun i => negb (i =? stale))) n.
Definition retain_incoming k stale n := on_incoming k (filter (fun i => negb (i =? stale))) n.

(** node_has_no_edges (719-730). *)
Definition is_nil {A} (l : list A) : bool := match l with [] => true | _ => false end.
Definition has_no_edges (n : gnode) : bool :=
  is_nil (superclasses n) && is_nil (includes n) && is_nil (prepends n) && is_nil (extends n) &&
  is_nil (applications n) && is_nil (children n) && is_nil (included_by n) &&
  is_nil (prepended_by n) && is_nil (extended_by n) && is_nil (templates n).

(** add_node (254-262). *)
Definition add_node (s : graph) (x : node_fact) : graph :=
  let n := node_or_default (nodes s) (nfqn x) in
  let n' := set_definitions n
              (sort (key_leb definition_key) (definitions n ++ [(nkind x, nrange x)])) in
  mkGraph (put Nat.eqb (nodes s) (nfqn x) n') (edges s)
    (file_id (nrange x) :: filter (fun f => negb (f =? file_id (nrange x))) (node_definition_files s))
    (edges_by_file s) (unresolved_by_file s) (unresolved_explicit s).

(** add_edge (264-266) and insert_edge (605-640).  [None] is a panic, here and below. *)
Definition add_edge (s : graph) (e : edge) : option graph :=
  match insert_fact None (edges s) e with
  | None => None
  | Some (id, a) =>
      let m1 := put Nat.eqb (nodes s) (source e)
                  (push_outgoing (ekind e) id (node_or_default (nodes s) (source e))) in
      let m2 := put Nat.eqb m1 (target e)
                  (push_incoming (ekind e) id (node_or_default m1 (target e))) in
      Some (mkGraph m2 a (node_definition_files s)
              (push Nat.eqb (edges_by_file s) (file_id (erange e)) id)
              (unresolved_by_file s) (unresolved_explicit s))
  end.

(** edges_by_ids (661-668). *)
Definition edges_by_ids (s : graph) (ids : list nat) : list edge :=
  sort (key_leb edge_key) (clone_facts (edges s) ids).

(** nodes_for (268-281). *)
Definition nodes_for (s : graph) (q : nat) : list node_fact :=
  match get Nat.eqb (nodes s) q with
  | None => []
  | Some n => map (fun d => mkNode q (fst d) (snd d)) (definitions n)
  end.

(** edges_from (283-294). *)
Definition edges_from (s : graph) (q : nat) : list edge :=
  match get Nat.eqb (nodes s) q with
  | None => []
  | Some n => edges_by_ids s (superclasses n ++ includes n ++ prepends n ++ extends n ++ applications n)
  end.

(** StoredSuperclassResolution (31-35). *)
Inductive superclass_result := Missing | Unique (e : edge) | Ambiguous.

(** The loop of superclass_resolution (305-321). *)
Fixpoint choose (has_explicit : bool) (chosen : option edge) (l : list edge) : superclass_result :=
  match l with
  | [] => match chosen with None => Missing | Some e => Unique e end
  | e :: r =>
      if has_explicit && negb (is_explicit (prov e)) then choose has_explicit chosen r
      else
        match chosen with
        | None => choose has_explicit (Some e) r
        | Some p =>
            if target p =? target e then
              if negb (lexb (edge_key p) (edge_key e)) then choose has_explicit (Some e) r
              else choose has_explicit (Some p) r
            else Ambiguous
        end
  end.

(** superclass_resolution (296-326). *)
Definition superclass_resolution (s : graph) (q : nat) : superclass_result :=
  match get Nat.eqb (nodes s) q with
  | None => Missing
  | Some n =>
      let l := clone_facts (edges s) (superclasses n) in
      choose (existsb (fun e => is_explicit (prov e)) l) None l
  end.

(** has_unresolved_explicit_superclass (328-331). *)
Definition has_unresolved_explicit_superclass (s : graph) (q : nat) : bool :=
  match get Nat.eqb (unresolved_explicit s) q with Some _ => true | None => false end.

(** edges_to (333-344). *)
Definition edges_to (s : graph) (q : nat) : list edge :=
  match get Nat.eqb (nodes s) q with
  | None => []
  | Some n => edges_by_ids s (children n ++ included_by n ++ prepended_by n ++ extended_by n ++ templates n)
  end.

(** The facts of one map entry, for nodes_in_file and all_nodes. *)
Definition facts_of (e : nat * gnode) : list node_fact :=
  map (fun d => mkNode (fst e) (fst d) (snd d)) (definitions (snd e)).

(** nodes_in_file (346-361). *)
Definition nodes_in_file (s : graph) (f : nat) : list node_fact :=
  sort (key_leb node_key) (filter (fun x => file_id (nrange x) =? f) (flat_map facts_of (nodes s))).

(** edges_in_file (363-368). *)
Definition edges_in_file (s : graph) (f : nat) : list edge :=
  match get Nat.eqb (edges_by_file s) f with None => [] | Some ids => edges_by_ids s ids end.

(** all_nodes (370-383), all_edges (385-393), node_count (395-397), edge_count (399-401). *)
Definition all_nodes (s : graph) : list node_fact :=
  sort (key_leb node_key) (flat_map facts_of (nodes s)).
Definition all_edges (s : graph) : list edge := sort (key_leb edge_key) (occupied (edges s)).
Definition node_count (s : graph) : nat :=
  fold_right (fun e n => length (definitions (snd e)) + n) 0 (nodes s).
Definition edge_count (s : graph) : nat :=
  length (filter (fun o => match o with Some _ => true | None => false end) (slots (edges s))).

(** The node part of remove_file (404-416). *)
Definition forget (f : nat) (e : nat * gnode) : nat * gnode :=
  (fst e, set_definitions (snd e)
            (filter (fun d => negb (file_id (snd d) =? f)) (definitions (snd e)))).
Definition remove_nodes (m : list (nat * gnode)) (f : nat) : list (nat * gnode) :=
  filter (fun e => negb (is_nil (definitions (snd e)) && has_no_edges (snd e))) (map (forget f) m).

(** remove_unresolved_explicit_superclass_source (515-537). *)
Definition uncount (m : list (nat * nat)) (u : unresolved) : option (list (nat * nat)) :=
  if negb (is_superclass (ukind u)) || negb (is_explicit (uprov u)) then Some m
  else match get Nat.eqb m (usource u) with
       | None => None
       | Some 0 => None
       | Some (S 0) => Some (del Nat.eqb m (usource u))
       | Some (S c) => Some (put Nat.eqb m (usource u) c)
       end.
Fixpoint uncount_all (m : list (nat * nat)) (l : list unresolved) : option (list (nat * nat)) :=
  match l with
  | [] => Some m
  | u :: r => match uncount m u with None => None | Some m' => uncount_all m' r end
  end.

(** remove_edge (642-655). *)
Definition remove_edge (s : graph) (id : nat) : option graph :=
  match take_fact (edges s) id with
  | None => None
  | Some (e, a) =>
      let m1 := match get Nat.eqb (nodes s) (source e) with
                | None => nodes s
                | Some n => put Nat.eqb (nodes s) (source e) (retain_outgoing (ekind e) id n)
                end in
      let m2 := match get Nat.eqb m1 (target e) with
                | None => m1
                | Some n => put Nat.eqb m1 (target e) (retain_incoming (ekind e) id n)
                end in
      Some (mkGraph m2 a (node_definition_files s) (edges_by_file s) (unresolved_by_file s)
              (unresolved_explicit s))
  end.
Fixpoint remove_edges (s : graph) (ids : list nat) : option graph :=
  match ids with
  | [] => Some s
  | i :: r => match remove_edge s i with None => None | Some s' => remove_edges s' r end
  end.

(** remove_file (403-432). *)
Definition remove_file (s : graph) (f : nat) : option graph :=
  let s1 :=
    if existsb (Nat.eqb f) (node_definition_files s)
    then mkGraph (remove_nodes (nodes s) f) (edges s)
           (filter (fun g => negb (g =? f)) (node_definition_files s))
           (edges_by_file s) (unresolved_by_file s) (unresolved_explicit s)
    else s in
  match (match get Nat.eqb (unresolved_by_file s1) f with
         | None => Some s1
         | Some l =>
             match uncount_all (unresolved_explicit s1) l with
             | None => None
             | Some c => Some (mkGraph (nodes s1) (edges s1) (node_definition_files s1) (edges_by_file s1)
                                 (del Nat.eqb (unresolved_by_file s1) f) c)
             end
         end) with
  | None => None
  | Some s2 =>
      match get Nat.eqb (edges_by_file s2) f with
      | None => Some s2
      | Some stale =>
          match remove_edges (mkGraph (nodes s2) (edges s2) (node_definition_files s2)
                                (del Nat.eqb (edges_by_file s2) f) (unresolved_by_file s2)
                                (unresolved_explicit s2)) stale with
          | None => None
          | Some s3 => Some (mkGraph (nodes s3) (edges s3) (node_definition_files s3) (edges_by_file s3)
                               (del Nat.eqb (unresolved_by_file s3) f) (unresolved_explicit s3))
          end
      end
  end.

(** add_unresolved_edge (497-513); the count cannot overflow [usize]. *)
Definition add_unresolved_edge (s : graph) (u : unresolved) : graph :=
  mkGraph (nodes s) (edges s) (node_definition_files s) (edges_by_file s)
    (push Nat.eqb (unresolved_by_file s) (file_id (urange u)) u)
    (if is_superclass (ukind u) && is_explicit (uprov u)
     then put Nat.eqb (unresolved_explicit s) (usource u)
            (S (match get Nat.eqb (unresolved_explicit s) (usource u) with Some c => c | None => 0 end))
     else unresolved_explicit s).

(** The three insertion loops of replace_file (442-468). *)
Fixpoint add_nodes (f : nat) (s : graph) (l : list node_fact) : option graph :=
  match l with
  | [] => Some s
  | x :: r => if file_id (nrange x) =? f then add_nodes f (add_node s x) r else None
  end.
Fixpoint add_edges (f : nat) (s : graph) (l : list edge) : option graph :=
  match l with
  | [] => Some s
  | e :: r => if file_id (erange e) =? f
              then match add_edge s e with None => None | Some s' => add_edges f s' r end
              else None
  end.
Fixpoint add_unresolved_edges (f : nat) (s : graph) (l : list unresolved) : option graph :=
  match l with
  | [] => Some s
  | u :: r => if file_id (urange u) =? f then add_unresolved_edges f (add_unresolved_edge s u) r else None
  end.

(** replace_file (434-469). *)
Definition replace_file (s : graph) (f : nat) (ns : list node_fact) (es : list edge) (us : list unresolved)
  : option graph :=
  match remove_file s f with
  | None => None
  | Some s1 =>
      match add_nodes f s1 ns with
      | None => None
      | Some s2 =>
          match add_edges f s2 es with
          | None => None
          | Some s3 => add_unresolved_edges f s3 us
          end
      end
  end.

(** unresolved_edges (471-476), unresolved_edges_in_file (478-486). *)
Definition unresolved_edges (s : graph) : list unresolved := flat_map snd (unresolved_by_file s).
Definition unresolved_edges_in_file (s : graph) (f : nat) : list unresolved :=
  getd Nat.eqb (unresolved_by_file s) f.

(** take_unresolved_edges (488-495). *)
Definition take_unresolved_edges (s : graph) : list unresolved * graph :=
  (flat_map snd (unresolved_by_file s),
   mkGraph (nodes s) (edges s) (node_definition_files s) (edges_by_file s) [] []).

(** The mutating calls of the API. *)
Inductive op :=
| AddNode (x : node_fact) | AddEdge (e : edge) | AddUnresolved (u : unresolved)
| RemoveFile (f : nat)
| ReplaceFile (f : nat) (ns : list node_fact) (es : list edge) (us : list unresolved)
| TakeUnresolved.

Definition step (s : graph) (o : op) : option graph :=
  match o with
  | AddNode x => Some (add_node s x)
  | AddEdge e => add_edge s e
  | AddUnresolved u => Some (add_unresolved_edge s u)
  | RemoveFile f => remove_file s f
  | ReplaceFile f ns es us => replace_file s f ns es us
  | TakeUnresolved => Some (snd (take_unresolved_edges s))
  end.

Fixpoint run_from (s : graph) (h : list op) : option graph :=
  match h with
  | [] => Some s
  | o :: r => match step s o with Some s' => run_from s' r | None => None end
  end.

Definition run (h : list op) : option graph := run_from new h.
