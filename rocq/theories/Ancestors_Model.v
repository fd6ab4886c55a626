(** Model of the ancestry queries of the engine: crates/ruby-analysis/src/engine/resolution.rs
    (method lookup chains, constant lookup, module includers) and engine/hierarchy.rs (implementors).

    The engine is seen through the answers of its ancestry graph, which C32 and C33 determine: the
    node facts and the edges, each in the order in which the graph reports them.  A constant name is
    a number.  Only namespaces occur as owners, so a FullyQualifiedName is a [ns].  Recursive
    functions take fuel; [None] means it ran out, which the proofs exclude. *)
From Coq Require Import List Arith Bool.
From Verif Require Import Sort_Lib.
Import ListNotations.

(** FullyQualifiedName::Namespace (core/fully_qualified_name.rs 13-47): path and kind. *)
Record ns := mkNs { path : list nat; singleton : bool }.

Definition ns_eq_dec (a b : ns) : {a = b} + {a <> b}.
Proof. decide equality; [apply bool_dec|apply (list_eq_dec Nat.eq_dec)]. Defined.
Definition same (a b : ns) : bool := if ns_eq_dec a b then true else false.
Definition mem (x : ns) (l : list ns) : bool := existsb (same x) l.

(** to_instance_namespace, namespace_with_kind(_, Instance). *)
Definition instance (x : ns) : ns := mkNs (path x) false.

(** The constants of Ruby's core the code names (resolution.rs 2107-2119, 2475-2489, 2636-2645). *)
Definition BasicObject := 0.
Definition Object := 1.
Definition Kernel := 2.
Definition ModuleC := 3.
Definition ClassC := 4.

Inductive node_kind := Class | Module.
Inductive edge_kind := Superclass | Include | Prepend | Extend | Application.
Definition kind_eq_dec (a b : edge_kind) : {a = b} + {a <> b}.
Proof. decide equality. Defined.
Definition same_kind (a b : edge_kind) : bool := if kind_eq_dec a b then true else false.

(** GraphEdgeFact; [owned] is method_lookup_edge_is_language_owned (resolution.rs 2718-2735): the
    edge's file is a stub or a signature.  (A missing file panics there; every fact belongs to a
    registered file.) *)
Record edge := mkEdge { source : ns; target : ns; kind : edge_kind; explicit : bool; owned : bool }.
(** UnresolvedGraphEdgeFact, as far as ancestry looks at it. *)
Record pending := mkPending { psource : ns; pkind : edge_kind; pexplicit : bool }.

Record world := mkWorld {
  nodes : list (ns * node_kind);
  edges : list edge;
  unresolved : list pending
}.

(** graph_nodes_for (state.rs 3278-3287). *)
Definition nodes_for (w : world) (f : ns) : list node_kind :=
  map snd (filter (fun n => same (fst n) f) (nodes w)).
Definition is_nil {A} (l : list A) : bool := match l with [] => true | _ => false end.
(** node_kind (resolution.rs 3190-3195). *)
Definition first_kind (w : world) (f : ns) : option node_kind :=
  match nodes_for w f with [] => None | k :: _ => Some k end.

(** graph_edges_from and graph_edges_to (state.rs 3289-3299, 3342-3352). *)
Definition edges_out (w : world) (f : ns) : list edge := filter (fun e => same (source e) f) (edges w).
Definition edges_in (w : world) (f : ns) : list edge := filter (fun e => same (target e) f) (edges w).
(** edges_from (resolution.rs 2765-2776). *)
Definition edges_from (w : world) (f : ns) (k : edge_kind) : list edge :=
  filter (fun e => same_kind (kind e) k) (edges_out w f).

(** superclass_resolution (core/graph_store.rs 296-326) by C33: explicit superclasses outrank
    implicit ones; one target is unique and the first reported edge stands for it. *)
Inductive resolution := Missing | Unique (e : edge) | Ambiguous.
Definition superclass_edges (w : world) (f : ns) : list edge :=
  let all := edges_from w f Superclass in
  if existsb explicit all then filter explicit all else all.
Definition superclass_resolution (w : world) (f : ns) : resolution :=
  match superclass_edges w f with
  | [] => Missing
  | e :: r => if forallb (fun d => same (target d) (target e)) r then Unique e else Ambiguous
  end.
(** superclass_source_has_unresolved_explicit_edge (state.rs 3326-3340). *)
Definition superclass_pending (w : world) (f : ns) : bool :=
  existsb (fun u => same (psource u) (instance f) && same_kind (pkind u) Superclass && pexplicit u)
          (unresolved w).
(** proven_superclass_edge (state.rs 3306-3316). *)
Definition proven_superclass (w : world) (f : ns) : option edge :=
  if superclass_pending w f then None
  else match superclass_resolution w f with Unique e => Some e | _ => None end.
(** superclass_is_ambiguous (state.rs 3318-3322). *)
Definition superclass_ambiguous (w : world) (f : ns) : bool :=
  match superclass_resolution w f with Ambiguous => true | _ => false end.

(** is_universal_open_root (resolution.rs 2107-2119). *)
Definition universal (f : ns) : bool :=
  match path f with
  | [] => true
  | [c] => existsb (Nat.eqb c) [BasicObject; Object; Kernel; ModuleC; ClassC]
  | _ => false
  end.

(** The edges build_mro may follow from [f] (2658-2661). *)
Definition allowed (allow : bool) (f : ns) (e : edge) : bool :=
  negb (universal f && negb allow) || owned e.

(** included_hook_extend_edges (2737-2763). *)
Definition hook_edges (w : world) (allow : bool) (f : ns) : list edge :=
  if singleton f then
    flat_map (fun e => filter (allowed allow f) (edges_from w (target e) Extend))
             (filter (allowed allow f)
                (edges_from w (instance f) Include ++ edges_from w (instance f) Prepend))
  else [].

(** What build_mro visits before and after [f] itself, in this order (2663-2715). *)
Definition before (w : world) (allow : bool) (f : ns) : list ns :=
  map target (rev (filter (allowed allow f) (edges_from w f Prepend))).
Definition after (w : world) (allow : bool) (f : ns) : list ns :=
  map target (rev (filter (allowed allow f) (edges_from w f Include))) ++
  map target (rev (filter (allowed allow f) (hook_edges w allow f))) ++
  match proven_superclass w f with
  | Some e => if allowed allow f e then [target e] else []
  | None => []
  end.

(** build_mro (2647-2716); the state is (chain, visited). *)
Section Visit.
  Variable rec : ns -> list ns * list ns -> option (list ns * list ns).
  Fixpoint visit_all (l : list ns) (st : list ns * list ns) : option (list ns * list ns) :=
    match l with
    | [] => Some st
    | x :: r => match rec x st with None => None | Some st' => visit_all r st' end
    end.
End Visit.
Fixpoint build_mro (fuel : nat) (w : world) (allow : bool) (f : ns) (st : list ns * list ns)
  : option (list ns * list ns) :=
  match fuel with
  | 0 => None
  | S n =>
      if mem f (snd st) then Some st
      else
        match visit_all (build_mro n w allow) (before w allow f) (fst st, f :: snd st) with
        | None => None
        | Some (chain, visited) =>
            visit_all (build_mro n w allow) (after w allow f) (chain ++ [f], visited)
        end
  end.
(** Enough fuel: one more than the namespaces a walk can meet. *)
Definition mro_fuel (w : world) : nat := S (S (length (edges w))).
Definition mro (w : world) (allow : bool) (f : ns) (st : list ns * list ns) : option (list ns * list ns) :=
  build_mro (mro_fuel w) w allow f st.

(** method_lookup_chain_has_unresolved_dependency_from_sources (2417-2468) with the sources of 2367-2379: [pending]
    is a stack, its top first. *)
Definition walks (k : edge_kind) : bool := match k with Application => false | _ => true end.
Definition successors (w : world) (f : ns) : list ns :=
  map target (filter (fun e => walks (kind e)) (edges_out w f)).
Definition has_pending (w : world) (f : ns) : bool :=
  existsb (fun u => pexplicit u && same (psource u) (instance f)) (unresolved w).
Fixpoint blocked_loop (fuel : nat) (w : world) (stack visited : list ns) : option bool :=
  match fuel with
  | 0 => None
  | S n =>
      match stack with
      | [] => Some false
      | x :: r =>
          if mem x visited then blocked_loop n w r visited
          else if superclass_ambiguous w x then Some true
          else if has_pending w x then Some true
          else blocked_loop n w (rev (successors w x) ++ r) (x :: visited)
      end
  end.
Definition blocked (w : world) (f : ns) : option bool :=
  blocked_loop (S (S (length (edges w)))) w [f] [].

Definition root : ns := mkNs [] false.
Definition object : ns := mkNs [Object] false.

(** compute_top_level_instance_fallback (2621-2634). *)
Definition top_level_fallback (w : world) : option (list ns) :=
  match mro w true root ([], []) with
  | None => None
  | Some st =>
      if is_nil (nodes_for w object) then Some (fst st)
      else option_map fst (mro w true object st)
  end.
(** compute_universal_object_fallback (2560-2572) on an empty cache. *)
Definition universal_fallback (w : world) : option (list ns) :=
  if is_nil (nodes_for w object) then Some []
  else option_map fst (mro w false object ([], [])).

(** append_top_level_instance_fallback and append_universal_object_fallback (2527-2558). *)
Fixpoint append_new (l : list ns) (st : list ns * list ns) : list ns * list ns :=
  match l with
  | [] => st
  | x :: r => append_new r (if mem x (snd st) then st else (fst st ++ [x], x :: snd st))
  end.

(** is_module_instance_namespace (2240-2248). *)
Definition is_module (w : world) (f : ns) : bool :=
  negb (singleton f) && existsb (fun k => match k with Module => true | Class => false end) (nodes_for w f).

(** metaclass_namespace_for_object (2470-2491). *)
Definition metaclass (w : world) (f : ns) : option ns :=
  if singleton f then
    match first_kind w f with
    | None => None
    | Some k =>
        let m := mkNs [match k with Class => ClassC | Module => ModuleC end] false in
        if is_nil (nodes_for w m) then None else Some m
    end
  else None.

(** method_lookup_chain_without_metaclass_with_fallback (2311-2365).  The two fallback chains are
    arguments: the engine caches them (see Engine_Model). *)
Definition chain_without_metaclass (w : world) (top universal_chain : list ns) (f : ns) (fallback : bool)
  : option (list ns) :=
  if is_nil (nodes_for w f) then
    match path f with
    | [] => let c := fst (append_new top ([], [])) in Some (match c with [] => [f] | _ => c end)
    | _ => Some [f]
    end
  else
    match mro w (universal f) f ([], []) with
    | None => None
    | Some st =>
        Some (fst (if negb (mem root (fst st)) && negb (is_nil (path f)) &&
                      (is_module w f || singleton f) && fallback
                   then append_new universal_chain st else st))
    end.

(** method_lookup_chain (2287-2301), method_lookup_chain_without_metaclass (2303-2309). *)
Definition method_lookup_chain_with (w : world) (top universal_chain : list ns) (f : ns) : option (list ns) :=
  match blocked w f with
  | None => None
  | Some b =>
      match chain_without_metaclass w top universal_chain f (negb b) with
      | None => None
      | Some chain =>
          match metaclass w f with
          | None => Some chain
          | Some m => option_map fst (mro w false m (chain, chain))
          end
      end
  end.
Definition method_lookup_chain (w : world) (f : ns) : option (list ns) :=
  match top_level_fallback w, universal_fallback w with
  | Some t, Some u => method_lookup_chain_with w t u f
  | _, _ => None
  end.

(** ** Implementors (hierarchy.rs) *)

(** [if visited.insert(x) { ... }] over a list: the new elements in order. *)
Fixpoint fresh (seen l : list ns) : list ns :=
  match l with
  | [] => []
  | x :: r => if mem x seen then fresh seen r else x :: fresh (x :: seen) r
  end.

(** descendants (442-463): a queue, first in first out. *)
Definition subclasses (w : world) (f : ns) : list ns :=
  map source (filter (fun e => same_kind (kind e) Superclass) (edges_in w f)).
Fixpoint descend (fuel : nat) (w : world) (queue seen result : list ns) : option (list ns) :=
  match fuel with
  | 0 => None
  | S n =>
      match queue with
      | [] => Some result
      | x :: q =>
          let new := fresh seen (subclasses w x) in
          descend n w (q ++ new) (new ++ seen) (result ++ new)
      end
  end.
Definition descendants (w : world) (f : ns) : option (list ns) :=
  descend (S (S (length (edges w)))) w [f] [f] [].

Section Shown.
  (** [fqn.to_string()] as a list of characters. *)
  Variable show : ns -> list nat.

  Fixpoint dedup (l : list ns) : list ns :=
    match l with
    | [] => []
    | x :: r => match r with
                | [] => [x]
                | y :: _ => if same x y then dedup r else x :: dedup r
                end
    end.
  (** mixers (421-440). *)
  Definition mixes (e : edge) : bool :=
    match kind e with
    | Extend => true
    | Include | Prepend => negb (singleton (source e))
    | _ => false
    end.
  Definition mixers (w : world) (f : ns) : list ns :=
    dedup (sort (key_leb show) (map source (filter mixes (edges_in w f)))).

  (** collect_all_implementors (391-419): [queue] is a stack, its top first. *)
  Fixpoint implement (fuel : nat) (w : world) (queue visited result : list ns) : option (list ns) :=
    match fuel with
    | 0 => None
    | S n =>
        match queue with
        | [] => Some (sort (key_leb show) result)
        | x :: q =>
            match descendants w x with
            | None => None
            | Some ds =>
                let d := fresh visited ds in
                let m := fresh (d ++ visited) (mixers w x) in
                implement n w (rev m ++ q) (m ++ d ++ visited) (result ++ d ++ m)
            end
        end
    end.
  Definition implementors (w : world) (f : ns) : option (list ns) :=
    implement (S (S (length (edges w)))) w [f] [f] [].

  (** module_includers (2250-2283). *)
  Definition includers (w : world) (f : ns) : list ns :=
    map source (filter (fun e => match kind e with Include | Prepend => true | _ => false end) (edges_in w f)).
  Fixpoint include_loop (fuel : nat) (w : world) (queue visited result : list ns) : option (list ns) :=
    match fuel with
    | 0 => None
    | S n =>
        match queue with
        | [] => Some (sort (key_leb show) result)
        | x :: q =>
            match first_kind w x with
            | Some Class => include_loop n w q visited (result ++ [x])
            | Some Module =>
                let new := fresh visited (includers w x) in
                include_loop n w (q ++ new) (new ++ visited) result
            | None => include_loop n w q visited result
            end
        end
    end.
  Definition module_includers (w : world) (f : ns) : option (list ns) :=
    let first := fresh [] (includers w f) in
    include_loop (S (S (length (edges w)))) w first first [].
End Shown.

(** ** Constant lookup *)

(** A constant name resolves to a namespace or to a value constant. *)
Inductive found := Namespace (p : list nat) | Value (p : list nat).

(** The loop common to resolve_constant_fqn (3152-3188), resolve_constant_reference_target
    (2047-2078), resolve_constant_reference (engine/diagnostics.rs 2042-2075) and
    resolve_unresolved_graph_target (state.rs 3829-3870): [space] holds what is left of the search
    path, innermost part first; [probe] looks at one candidate path. *)
Fixpoint lexical {A} (probe : list nat -> option A) (parts space : list nat) : option A :=
  match probe (rev space ++ parts) with
  | Some r => Some r
  | None => match space with [] => None | _ :: outer => lexical probe parts outer end
  end.

Section Constants.
  Variable w : world.
  (** symbol_facts_for is not empty: for the constant and for the namespace of a path. *)
  Variables constant_symbol namespace_symbol : list nat -> bool.

  Definition defined_namespace (p : list nat) : bool := negb (is_nil (nodes_for w (mkNs p false))).

  Definition probe_fqn (p : list nat) : option found :=
    if defined_namespace p then Some (Namespace p)
    else if constant_symbol p then Some (Value p) else None.
  Definition probe_reference (p : list nat) : option found :=
    if defined_namespace p || namespace_symbol p then Some (Namespace p)
    else if constant_symbol p then Some (Value p) else None.
  Definition probe_graph (p : list nat) : option (list nat) :=
    if defined_namespace p then Some p else None.

  (** resolve_constant_fqn (3152-3188). *)
  Definition resolve_constant (parts : list nat) (absolute : bool) (context : list nat) : option found :=
    lexical probe_fqn parts (if absolute then [] else rev context).
  (** resolve_constant_reference_target, resolve_constant_reference. *)
  Definition resolve_reference (parts current : list nat) : option found :=
    lexical probe_reference parts (rev current).
  (** resolve_unresolved_graph_target. *)
  Definition resolve_graph_target (parts : list nat) (absolute : bool) (context : list nat) : option (list nat) :=
    lexical probe_graph parts (if absolute then [] else rev context).
End Constants.
