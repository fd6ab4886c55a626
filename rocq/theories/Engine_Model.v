(** Model of the engine around its ancestry graph: replacement of a file's facts, resolution of
    pending superclass and mixin names, and method lookup with the two cached fallback chains
    (crates/ruby-analysis/src/engine/state.rs, engine/resolution.rs).

    The graph is the list of facts in force (C32); of a file's facts only those of the graph are
    kept.  [id] numbers the interned names (NameTables::intern_fqn: append only, so a name keeps its number);
    [stub] says whether a file is a stub or a signature (SourceKind). *)
From Coq Require Import List Arith Bool.
From Verif Require Import Sort_Lib Ancestors_Model.
Import ListNotations.

(** A fact with its TextRange. *)
Record located (A : Type) := mkAt { file : nat; start : nat; stop : nat; fact : A }.
Arguments mkAt {A}. Arguments file {A}. Arguments start {A}. Arguments stop {A}. Arguments fact {A}.

(** GraphEdgeFact without its range. *)
Record link := mkLink { lsource : ns; ltarget : ns; lkind : edge_kind; lexplicit : bool }.
(** UnresolvedGraphEdgeFact without its range: source, name as written, context, kind, provenance. *)
Record decl := mkDecl {
  dsource : ns; parts : list nat; absolute : bool; context : list nat; dkind : edge_kind; dexplicit : bool
}.

(** The graph facts of one file (FileFacts, graph_nodes, graph_edges, unresolved_graph_edges);
    facts of another file are refused by an assertion (C32), so the file is not repeated. *)
Record content := mkContent {
  cnodes : list (nat * nat * (ns * node_kind));
  clinks : list (nat * nat * link);
  cdecls : list (nat * nat * decl)
}.
Definition nothing : content := mkContent [] [] [].

(** AnalysisEngine, as far as ancestry goes (state.rs 1360-1390). *)
Record engine := mkEngine {
  enodes : list (located (ns * node_kind));
  elinks : list (located link);
  edecls : list (located decl);
  top_cache : option (list ns);
  universal_cache : option (list ns)
}.
Definition fresh_engine : engine := mkEngine [] [] [] None None.

Inductive op := Replace (f : nat) (c : content) | Resolve | Lookup (x : ns).

Section Engine.
  Variable id : ns -> nat.
  Variable stub : nat -> bool.

  (** The answers of the graph are ordered by source, range, kind, provenance, target
      (graph_store.rs 757-777), node definitions by range (732-740). *)
  Definition kind_rank (k : edge_kind) : nat :=
    match k with Superclass => 0 | Include => 1 | Prepend => 2 | Extend => 3 | Application => 4 end.
  Definition node_key (n : located (ns * node_kind)) : list nat := [file n; start n; stop n].
  Definition link_key (l : located link) : list nat :=
    [id (lsource (fact l)); file l; start l; stop l; kind_rank (lkind (fact l));
     if lexplicit (fact l) then 0 else 1; id (ltarget (fact l))].
  Definition edge_of (l : located link) : edge :=
    mkEdge (lsource (fact l)) (ltarget (fact l)) (lkind (fact l)) (lexplicit (fact l)) (stub (file l)).
  Definition pending_of (d : located decl) : pending :=
    mkPending (dsource (fact d)) (dkind (fact d)) (dexplicit (fact d)).

  (** What the queries see. *)
  Definition view (s : engine) : world :=
    mkWorld (map fact (sort (key_leb node_key) (enodes s)))
            (map edge_of (sort (key_leb link_key) (elinks s)))
            (map pending_of (edecls s)).

  Definition locate {A} (f : nat) (x : nat * nat * A) : located A := mkAt f (fst (fst x)) (snd (fst x)) (snd x).
  Definition elsewhere {A} (f : nat) (l : list (located A)) : list (located A) :=
    filter (fun x => negb (file x =? f)) l.

  (** replace_facts_deferred (2253-2360): the graph part and the caches. *)
  Definition replace (s : engine) (f : nat) (c : content) : engine :=
    mkEngine (elsewhere f (enodes s) ++ map (locate f) (cnodes c))
             (elsewhere f (elinks s) ++ map (locate f) (clinks c))
             (elsewhere f (edecls s) ++ map (locate f) (cdecls c))
             None None.

  (** resolved_singleton_superclass_companion (3793-3831). *)
  Definition is_class (w : world) (x : ns) : bool :=
    existsb (fun k => match k with Class => true | Module => false end) (nodes_for w x).
  Definition companion (w : world) (d : decl) (target : ns) : list link :=
    if same_kind (dkind d) Superclass && negb (singleton target) && negb (singleton (dsource d)) &&
       is_class w (dsource d) && is_class w target
    then [mkLink (mkNs (path (dsource d)) true) (mkNs (path target) true) Superclass (dexplicit d)]
    else [].

  (** The edges one pending name turns into (retry_unresolved_graph_edges 3755-3782);
      [None]: it stays pending. *)
  Definition resolution (w : world) (d : decl) : option (list link) :=
    match resolve_graph_target w (parts d) (absolute d) (context d) with
    | None => None
    | Some p =>
        let target := mkNs p false in
        Some (mkLink (dsource d) target (dkind d) (dexplicit d) :: companion w d target)
    end.

  (** retry_unresolved_graph_edges (3749-3786): the pending names are taken out and each is resolved
      or put back.  The graph changes on the way, its nodes do not.  The code takes the names file by
      file in the order of a map; the model keeps the order of supply, which no answer shows (links
      are reported sorted by key, pending names only asked about). *)
  Definition retry_one (s : engine) (d : located decl) : engine :=
    match resolution (view s) (fact d) with
    | Some ls =>
        mkEngine (enodes s) (elinks s ++ map (fun l => mkAt (file d) (start d) (stop d) l) ls) (edecls s)
                 (top_cache s) (universal_cache s)
    | None =>
        mkEngine (enodes s) (elinks s) (edecls s ++ [d]) (top_cache s) (universal_cache s)
    end.
  Definition retry (s : engine) : engine :=
    match edecls s with
    | [] => s
    | pending =>
        fold_left retry_one pending (mkEngine (enodes s) (elinks s) [] (top_cache s) (universal_cache s))
    end.

  (** method_lookup_chain on the engine: append_top_level_instance_fallback (resolution.rs
      2527-2546) and compute_universal_object_fallback (2560-2573) use their cache, and fill it
      when the chain asks for them. *)
  Definition needs_top (w : world) (x : ns) : bool := is_nil (nodes_for w x) && is_nil (path x).
  Definition needs_universal (w : world) (x : ns) : bool :=
    negb (is_nil (nodes_for w x)) && negb (is_nil (path x)) && (is_module w x || singleton x) &&
    match blocked w x, mro w (universal x) x ([], []) with
    | Some b, Some st => negb b && negb (mem root (fst st))
    | _, _ => false
    end.
  Definition or_else {A} (o d : option A) : option A := match o with Some _ => o | None => d end.
  Definition lookup (s : engine) (x : ns) : option (list ns) * engine :=
    let w := view s in
    let t := or_else (top_cache s) (top_level_fallback w) in
    let u := or_else (universal_cache s) (universal_fallback w) in
    (match t, u with Some t', Some u' => method_lookup_chain_with w t' u' x | _, _ => None end,
     mkEngine (enodes s) (elinks s) (edecls s)
       (if needs_top w x then t else top_cache s)
       (if needs_universal w x then u else universal_cache s)).

  Definition step (s : engine) (o : op) : engine :=
    match o with
    | Replace f c => replace s f c
    | Resolve => retry s
    | Lookup x => snd (lookup s x)
    end.
  Definition run (h : list op) : engine := fold_left step h fresh_engine.
End Engine.
