(** Model of the type hierarchy: supertypes and subtypes of
    crates/ruby-analysis/src/engine/hierarchy.rs 113-232 and 307-386, over the ancestry graph of
    Graph_Model.

    A class or module is its FqnId, [label] its name and [lookup] the constant path of a
    ConstLookupId (the interner is one-to-one).  Turning ranges into editor locations and the wording
    of the details (src/query/type_hierarchy.rs) are not modelled. *)
From Coq Require Import List Arith Bool.
From Verif Require Import Sort_Lib Index_Lib Graph_Model Names_Model.
Import ListNotations.

(** TypeHierarchyRelation (hierarchy_types.rs). *)
Inductive relation :=
| RSuperclass | RInclude | RPrepend | RExtend
| RSubclass | RIncludedBy | RPrependedBy | RExtendedBy.

(** TypeHierarchyEntry (hierarchy_types.rs).  [subject] is the FqnId, or the written constant path of
    a target that was not found. *)
Record entry := mkEntry {
  subject : nat + list text; node_kind_of : option node_kind; rel : relation;
  where_ : text_range; edge_file : option nat; missing : bool }.

Section Queries.
  Variable label : nat -> name.
  Variable lookup : nat -> list text.
  Variable g : graph.

  Definition same_kind (a b : edge_kind) : bool := kind_rank a =? kind_rank b.

  (** hierarchy_entry_for_node (370-386). *)
  Definition entry_for_node (q : nat) (r : relation) (f : option nat) : list entry :=
    match nodes_for g q with
    | [] => []
    | n :: _ => [mkEntry (inl q) (Some (nkind n)) r (nrange n) f false]
    end.

  (** push_supertype_entries (321-341): the edges of the kind, last first. *)
  Definition supertype_entries (es : list edge) (k : edge_kind) (r : relation) : list entry :=
    flat_map (fun e => entry_for_node (target e) r (Some (file_id (erange e))))
      (rev (filter (fun e => same_kind (ekind e) k) es)).

  (** The relation of an unresolved edge (352-358); none for ExecutionContextApplication. *)
  Definition relation_up (k : edge_kind) : option relation :=
    match k with
    | Superclass => Some RSuperclass | Include => Some RInclude | Prepend => Some RPrepend
    | Extend => Some RExtend | Application => None
    end.

  (** push_unresolved_supertype_entries (343-368). *)
  Definition unresolved_entries (q : nat) : list entry :=
    flat_map (fun u =>
      if usource u =? q
      then match relation_up (ukind u) with
           | None => []
           | Some r => [mkEntry (inr (lookup (utarget u))) None r (urange u) (Some (file_id (urange u))) true]
           end
      else []) (unresolved_edges g).

  (** The last loop of supertypes (157-161): an edge of the primary file is not flagged. *)
  Definition unflag (primary : nat) (x : entry) : entry :=
    match edge_file x with
    | Some f => if f =? primary
                then mkEntry (subject x) (node_kind_of x) (rel x) (where_ x) None (missing x)
                else x
    | None => x
    end.

  (** supertypes (118-164). *)
  Definition supertypes (q : nat) : list entry :=
    match nodes_for g q with
    | [] => []
    | n :: _ =>
        let es := edges_from g q in
        map (unflag (file_id (nrange n)))
          (supertype_entries es Prepend RPrepend ++ supertype_entries es Include RInclude ++
           supertype_entries es Superclass RSuperclass ++ supertype_entries es Extend RExtend ++
           unresolved_entries q)
    end.

  (** The match of subtypes (175-194): whether the edge makes its source a subtype. *)
  Definition is_instance (q : nat) : bool :=
    match kind_of (label q) with Some Instance => true | _ => false end.
  Definition counts_down (e : edge) : bool :=
    match ekind e with
    | Superclass => true
    | Include => is_instance (source e)
    | Prepend => is_instance (source e)
    | Extend => true
    | Application => false
    end.

  (** push_subtype_entries (307-319): sorted by the text of the source. *)
  Definition subtype_entries (es : list edge) (k : edge_kind) (r : relation) : list entry :=
    flat_map (fun e => entry_for_node (source e) r None)
      (sort (key_leb (fun e => print (label (source e))))
         (filter (fun e => same_kind (ekind e) k && counts_down e) es)).

  (** subtypes (166-232). *)
  Definition subtypes (q : nat) : list entry :=
    match nodes_for g q with
    | [] => []
    | _ =>
        let es := edges_to g q in
        subtype_entries es Superclass RSubclass ++ subtype_entries es Include RIncludedBy ++
        subtype_entries es Prepend RPrependedBy ++ subtype_entries es Extend RExtendedBy
    end.

End Queries.
