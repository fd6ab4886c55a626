(** Model of the document outline: crates/ruby-analysis/src/indexer/document_symbols.rs and
    src/capabilities/document_symbols.rs.

    The parse tree is any tree of nodes with locations (byte offsets).  The symbols that extensions
    add behind those of the server (document_symbols.rs 55-73) are left out. *)
From Coq Require Import List Arith Bool String.
Import ListNotations.

Definition span := (nat * nat)%type.

(** MethodVisibility (30-35), NamespaceKind. *)
Inductive visibility := Public | Protected | Private.
Inductive kind := Instance | Singleton.

(** Methods called: the three modifiers the code looks for, [module_function], the attr family with
    the names it declares, any other. *)
Inductive called := CModifier (v : visibility) | CModuleFunction | CAttr (names : list string) | CNone.

(** Nodes of the parse tree.  [readable]: RubyConstant::new accepts the name.  [bare]: no receiver,
    argument or block (not read by the code).  [NConstOther]: a constant assigned otherwise than by
    [C = ...], such as [C ||= ...], [A::C = ...] or [A, B = ...]. *)
Inductive node :=
| NProgram | NStatements | NOther
| NClass (n : string) (readable : bool) | NModule (n : string) (readable : bool) | NSingletonClass
| NDef (n : string) (receiver : bool) | NConst (n : string) | NConstOther (n : string)
| NCall (c : called) (bare : bool).
Inductive tree := Node (w : node) (loc : span) (below : list tree).

(** DocumentSymbolKind (12-18), RubySymbolContext (38-48). *)
Inductive symbol_kind := SModule | SClass | SMethod | SConstant | SProperty.
Record symbol := mkSymbol {
  sname : string; skind : symbol_kind; srange : span; svisibility : visibility; snamespace : option kind }.

(** The frames of ScopeTracker (scope_tracker.rs 71-78), of which only the sort is read. *)
Inductive frame := FNamespace | FSingleton.

(** DocumentSymbolsVisitor (50-57); stacks have their top in front. *)
Record visitor := mkVisitor {
  flat : list (symbol * option nat); visibility_stack : list visibility; frames : list frame;
  scope_to_symbol : list (nat * nat); scope_ids : list nat }.

(** new (60-69). *)
Definition new : visitor := mkVisitor [] [Public] [] [] [].

(** current_visibility (72-77), push_visibility_scope (80-83), pop_visibility_scope (86-90),
    set_current_visibility (93-97). *)
Definition current_visibility (s : visitor) : visibility := hd Public (visibility_stack s).
Definition push_visibility (s : visitor) : visitor :=
  mkVisitor (flat s) (Public :: visibility_stack s) (frames s) (scope_to_symbol s) (scope_ids s).
Definition pop_visibility (s : visitor) : visitor :=
  match visibility_stack s with
  | _ :: v :: r => mkVisitor (flat s) (v :: r) (frames s) (scope_to_symbol s) (scope_ids s)
  | _ => s
  end.
Definition set_visibility (v : visibility) (s : visitor) : visitor :=
  match visibility_stack s with
  | _ :: r => mkVisitor (flat s) (v :: r) (frames s) (scope_to_symbol s) (scope_ids s)
  | [] => s
  end.

(** HashMap::get and insert. *)
Fixpoint get (k : nat) (l : list (nat * nat)) : option nat :=
  match l with [] => None | (k', v) :: r => if k =? k' then Some v else get k r end.

(** find_current_parent_index (155-159). *)
Definition current_parent (s : visitor) : option nat :=
  match scope_ids s with [] => None | i :: _ => get i (scope_to_symbol s) end.

(** create_symbol (161-180) and add_symbol_to_flat_list (147-153). *)
Definition add (n : string) (k : symbol_kind) (loc : span) (ns : option kind) (s : visitor) : visitor :=
  mkVisitor (flat s ++ [(mkSymbol n k loc (current_visibility s) ns, current_parent s)])
    (visibility_stack s) (frames s) (scope_to_symbol s) (scope_ids s).

(** process_class_node_entry and exit (197-231), process_module_node_entry and exit (233-267),
    with push_ns_scope and pop_ns_scope (scope_tracker.rs 264-311). *)
Definition enter_namespace (n : string) (readable : bool) (k : symbol_kind) (loc : span) (s : visitor) : visitor :=
  let i := List.length (flat s) in
  let s := add n k loc None s in
  push_visibility
    (mkVisitor (flat s) (visibility_stack s) (if readable then FNamespace :: frames s else frames s)
       ((fst loc + 1, i) :: scope_to_symbol s) (fst loc + 1 :: scope_ids s)).
Definition exit_namespace (s : visitor) : visitor :=
  pop_visibility
    (mkVisitor (flat s) (visibility_stack s)
       (match frames s with FNamespace :: r => r | l => l end) (scope_to_symbol s) (tl (scope_ids s))).

(** process_singleton_class_node_entry and exit (269-279), enter_singleton, exit_singleton and
    in_singleton (scope_tracker.rs 405-423). *)
Definition enter_singleton (s : visitor) : visitor :=
  push_visibility (mkVisitor (flat s) (visibility_stack s) (FSingleton :: frames s) (scope_to_symbol s) (scope_ids s)).
Definition exit_singleton (s : visitor) : visitor :=
  pop_visibility
    (mkVisitor (flat s) (visibility_stack s)
       (match frames s with FSingleton :: r => r | l => l end) (scope_to_symbol s) (scope_ids s)).
Definition in_singleton (s : visitor) : bool := match frames s with FSingleton :: _ => true | _ => false end.

(** process_def_node_entry (281-301): the stack of local scopes is not read here. *)
Definition enter_def (n : string) (receiver : bool) (loc : span) (s : visitor) : visitor :=
  add n SMethod loc (Some (if receiver || in_singleton s then Singleton else Instance)) s.

(** extract_attr_names (191-194). *)
Definition extract_attr_names (names : list string) : list string := [].

(** process_call_node_entry (313-334). *)
Definition enter_call (c : called) (loc : span) (s : visitor) : visitor :=
  match c with
  | CModifier v => set_visibility v s
  | CAttr ns => fold_left (fun s n => add n SProperty loc None s) (extract_attr_names ns) s
  | _ => s
  end.

(** The Visit implementation (337-372): a node before what is below it. *)
Fixpoint visit (t : tree) (s : visitor) : visitor :=
  match t with
  | Node w loc below =>
      let inside := fold_left (fun s t => visit t s) below in
      match w with
      | NClass n r => exit_namespace (inside (enter_namespace n r SClass loc s))
      | NModule n r => exit_namespace (inside (enter_namespace n r SModule loc s))
      | NSingletonClass => exit_singleton (inside (enter_singleton s))
      | NDef n r => inside (enter_def n r loc s)
      | NConst n => inside (add n SConstant loc None s)
      | NCall c _ => inside (enter_call c loc s)
      | NProgram | NStatements | NOther | NConstOther _ => inside s
      end
  end.

(** The symbols with their children, RubySymbolContext and DocumentSymbol. *)
Inductive rose (A : Type) := Rose (x : A) (children : list (rose A)).
Arguments Rose {A}.

(** build_hierarchy (107-145).  The map from indices is a function. *)
Definition smap := nat -> option (rose symbol).
Definition insert (i : nat) (x : option (rose symbol)) (m : smap) : smap := fun j => if j =? i then x else m j.
(** First pass (113-117). *)
Fixpoint first_pass (i : nat) (l : list (symbol * option nat)) : smap :=
  match l with
  | [] => fun _ => None
  | (x, _) :: r => insert i (Some (Rose x [])) (first_pass (S i) r)
  end.
(** Second pass (121-133), from the last to the first. *)
Definition attach (i : nat) (p : option nat) (m : smap) : smap :=
  match p with
  | None => m
  | Some p =>
      match m i with
      | None => m
      | Some c =>
          let m' := insert i None m in
          match m' p with
          | Some (Rose x cs) => insert p (Some (Rose x (cs ++ [c]))) m'
          | None => insert i (Some c) m'
          end
      end
  end.
Fixpoint second_pass (i : nat) (l : list (symbol * option nat)) (m : smap) : smap :=
  match l with
  | [] => m
  | (_, p) :: r => attach i p (second_pass (S i) r m)
  end.
(** Third pass (136-144). *)
Fixpoint third_pass (i : nat) (l : list (symbol * option nat)) (m : smap) : list (rose symbol) :=
  match l with
  | [] => []
  | (_, None) :: r => match m i with Some x => [x] | None => [] end ++ third_pass (S i) r m
  | (_, Some _) :: r => third_pass (S i) r m
  end.
Definition build_hierarchy (l : list (symbol * option nat)) : list (rose symbol) :=
  third_pass 0 l (second_pass 0 l (first_pass 0 l)).

(** build_symbol_detail (capabilities/document_symbols.rs 119-163). *)
Inductive word := WPrivate | WProtected | WPublic | WClassMethod | WInstanceMethod.
Definition detail (x : symbol) : list word :=
  (match snamespace x with
   | Some Singleton => []
   | _ => match svisibility x with
          | Private => [WPrivate]
          | Protected => [WProtected]
          | Public => match skind x with SMethod => [WPublic] | _ => [] end
          end
   end) ++
  match snamespace x with Some Singleton => [WClassMethod] | Some Instance => [WInstanceMethod] | None => [] end.

(** DocumentSymbol as convert_to_document_symbol makes it (82-106). *)
Record item := mkItem { iname : string; ikind : symbol_kind; irange : span; idetail : list word }.
Fixpoint convert (r : rose symbol) : rose item :=
  match r with Rose x cs => Rose (mkItem (sname x) (skind x) (srange x) (detail x)) (map convert cs) end.

(** handle_document_symbols (15-80). *)
Definition outline (t : tree) : list (rose item) := map convert (build_hierarchy (flat (visit t new))).
