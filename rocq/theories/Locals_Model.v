(** Local variables: where they are defined, where they are used and what is offered while typing. *)
From Coq Require Import List Arith NArith Bool.
Import ListNotations.

(** Where something is written: start and end offsets, in bytes.  Every range belongs to the same file, so the
    file id compared in TextRange::contains_offset is left out. *)
Definition span := (nat * nat)%type.
Definition ident := N.

(** crates/ruby-analysis/src/core/type_store.rs:41-43: the end counts as inside. *)
Definition contains_offset (s : span) (c : nat) : bool := (fst s <=? c) && (c <=? snd s).

(** What has a local scope of its own in Ruby: blocks, lambda literals [-> { }], the bodies of class, module and
    def, singleton classes [class << x], and definitions on a receiver the indexer does not support
    ([def other.m]), for which process_def_node_entry returns false (def_node.rs:65-68, 71-74). *)
Inductive construct := Block | Lambda | Body | Singleton | ForeignDef.

(** The syntax tree reduced to local variables.  [Seq] stands for any node whose children are visited in the order
    in which they are written.  [Swap a b] is written a, b and visited b, a: [a if b], [a while b] (a the
    statement, b the condition), [a = b] with several targets (fact_collector/mod.rs:3727-3741), and a default
    value (a) with the parameters after it (b), since all parameters of a list are recorded before any default
    value is visited (mod.rs:3779-3783).  [Ident] is an identifier which the parser takes for a variable,
    [Write] the name in an assignment of any form or a target (the value follows it in a [Seq]).  [Param] is a
    required, optional, rest or post parameter, [at_] being the location of the whole parameter ([x = 1], [*x])
    and [typed] whether inference knows a type for it from the block's call; [Unseen] is a keyword, keyword rest
    or block parameter, a block-local variable or a destructured parameter.  A [Scope] has a number of its own,
    the range of its body (of the whole node if the body is empty, mod.rs:327-337), a head visited before the
    body (superclass, receiver, singleton's object) and the inner part, parameters included.  Names are assumed to
    be valid (the checks in process_local_variable_write and add_parameter_to_index never fail for the parser's
    names) and constant paths of classes and modules to be static. *)
Inductive tree :=
| Leaf
| Seq (a b : tree)
| Swap (a b : tree)
| Ident (x : ident) (at_ : span)
| Write (x : ident) (at_ : span)
| Param (x : ident) (at_ : span) (typed : bool)
| Unseen (x : ident) (at_ : span)
| Scope (k : construct) (number : nat) (body : span) (head inner : tree).

(** ** crates/ruby-analysis/src/indexer/variable_scopes.rs *)
(** VariableNode (761-768), without type assignments. *)
Record variable_node := VariableNode { var_name : ident; definition_location : span; read_locations : list span; write_locations : list span }.
(** ScopeNode (735-747), without captured_variables, which nothing writes.  [name] is the syntax node's number
    instead of the optional name of the class or method; nothing reads it. *)
Record scope_node := ScopeNode {
  parent : option nat; children : list nat; hard_boundary : bool; range : span; name : nat; local_variables : list variable_node }.
(** VariableScopes (27-45): a scope's id is its index. *)
Record variable_scopes := VariableScopes { scopes : list scope_node; current : option nat }.

(** new (49-73) *)
Definition new : variable_scopes := VariableScopes [ScopeNode None [] true (0, 0) 0 []] (Some 0).

Fixpoint update {A} (i : nat) (f : A -> A) (l : list A) : list A :=
  match l, i with
  | [], _ => []
  | x :: t, 0 => f x :: t
  | x :: t, S j => x :: update j f t
  end.

(** enter_scope (86-116) *)
Definition enter_scope (v : variable_scopes) (hard : bool) (r : span) (number : nat) : variable_scopes :=
  let id := length (scopes v) in
  let l := scopes v ++ [ScopeNode (current v) [] hard r number []] in
  VariableScopes
    (match current v with
     | Some p => update p (fun n => ScopeNode (parent n) (children n ++ [id]) (hard_boundary n) (range n) (name n) (local_variables n)) l
     | None => l
     end) (Some id).

(** exit_scope (129-135) *)
Definition exit_scope (v : variable_scopes) : variable_scopes :=
  match current v with
  | Some c => match nth_error (scopes v) c with Some n => VariableScopes (scopes v) (parent n) | None => v end
  | None => v
  end.

(** define_variable (149-176) *)
Fixpoint define_in (x : ident) (s : span) (l : list variable_node) : list variable_node :=
  match l with
  | [] => [VariableNode x s [] []]
  | v :: r => if N.eqb (var_name v) x then VariableNode (var_name v) (definition_location v) (read_locations v) (write_locations v ++ [s]) :: r else v :: define_in x s r
  end.
Definition on_variables (f : list variable_node -> list variable_node) (n : scope_node) : scope_node :=
  ScopeNode (parent n) (children n) (hard_boundary n) (range n) (name n) (f (local_variables n)).
Definition define_variable (v : variable_scopes) (x : ident) (s : span) : variable_scopes :=
  match current v with
  | Some c => VariableScopes (update c (on_variables (define_in x s)) (scopes v)) (current v)
  | None => v
  end.

(** The loop shared by reference_variable_from_scope (203-239), find_variable (413-439) and get_visible_variables
    (698-720): the scopes from one outwards, up to and including the first hard boundary.  Parents have smaller
    ids, so the number of scopes bounds the walk. *)
Fixpoint walk (fuel : nat) (l : list scope_node) (id : option nat) : list (nat * scope_node) :=
  match fuel, id with
  | S f, Some i =>
      match nth_error l i with
      | Some n => (i, n) :: (if hard_boundary n then [] else walk f l (parent n))
      | None => []
      end
  | _, _ => []
  end.
Definition outward (v : variable_scopes) (i : nat) : list (nat * scope_node) := walk (length (scopes v)) (scopes v) (Some i).
Definition named (x : ident) (v : variable_node) : bool := N.eqb (var_name v) x.
Definition holds (x : ident) (n : scope_node) : bool := existsb (named x) (local_variables n).

(** reference_variable (181-201) *)
Fixpoint read_in (x : ident) (s : span) (l : list variable_node) : list variable_node :=
  match l with
  | [] => []
  | v :: r => if N.eqb (var_name v) x then VariableNode (var_name v) (definition_location v) (read_locations v ++ [s]) (write_locations v) :: r else v :: read_in x s r
  end.
Definition reference_variable (v : variable_scopes) (x : ident) (s : span) : variable_scopes :=
  match current v with
  | Some c =>
      match find (fun p => holds x (snd p)) (outward v c) with
      | Some (i, _) => VariableScopes (update i (on_variables (read_in x s)) (scopes v)) (current v)
      | None => v
      end
  | None => v
  end.

(** collect_targets_from_scope (270-311), find_rename_targets (261-268), and the map to locations in
    RubyDocument::local_variable_reference_ranges_at. *)
Definition locations (v : variable_node) : list span := definition_location v :: read_locations v ++ write_locations v.
Definition find_rename_targets (v : variable_scopes) (x : ident) (i : nat) : list span :=
  flat_map (fun p => flat_map locations (filter (named x) (local_variables (snd p)))) (outward v i).

(** find_scope_for_variable_at (316-352) *)
Definition touched (x : ident) (c : nat) (n : scope_node) : bool :=
  existsb (fun v => named x v && existsb (fun s => contains_offset s c) (locations v)) (local_variables n).
Fixpoint first_index {A} (f : A -> bool) (l : list A) : option nat :=
  match l with
  | [] => None
  | x :: t => if f x then Some 0 else match first_index f t with Some i => Some (S i) | None => None end
  end.
Definition find_scope_for_variable_at (v : variable_scopes) (x : ident) (c : nat) : option nat :=
  first_index (touched x c) (scopes v).

(** find_scope_at (368-393): children in order first; a scope without a parent always matches.  Children have
    greater ids, so the number of scopes bounds the depth. *)
Fixpoint first_some {A B} (f : A -> option B) (l : list A) : option B :=
  match l with [] => None | x :: t => match f x with Some y => Some y | None => first_some f t end end.
Fixpoint find_scope_at (fuel : nat) (l : list scope_node) (i c : nat) : option nat :=
  match fuel with
  | 0 => None
  | S f =>
      match nth_error l i with
      | None => None
      | Some n =>
          match first_some (fun j => find_scope_at f l j c) (children n) with
          | Some j => Some j
          | None => match parent n with None => Some i | Some _ => if contains_offset (range n) c then Some i else None end
          end
      end
  end.
Definition scope_at_position (v : variable_scopes) (c : nat) : option nat := find_scope_at (length (scopes v)) (scopes v) 0 c.

(** find_variable (413-439) *)
Definition find_variable (v : variable_scopes) (x : ident) (i : nat) : option variable_node :=
  match find (fun p => holds x (snd p)) (outward v i) with
  | Some (_, n) => find (named x) (local_variables n)
  | None => None
  end.

(** get_visible_variables (698-720) and src/capabilities/completion/variable.rs:10-42: the names offered, each
    once. *)
Fixpoint once (seen l : list ident) : list ident :=
  match l with
  | [] => []
  | x :: t => if existsb (N.eqb x) seen then once seen t else x :: once (x :: seen) t
  end.
Definition get_visible_variables (v : variable_scopes) (i : nat) : list ident :=
  flat_map (fun p => map var_name (local_variables (snd p))) (outward v i).
Definition completions (v : variable_scopes) (c : nat) : list ident :=
  match scope_at_position v c with Some i => once [] (get_visible_variables v i) | None => [] end.

(** ** crates/ruby-analysis/src/indexer/fact_collector *)
(** Which constructs enter a scope, and of which kind (block_node.rs:9-14, class_node.rs:147-156,
    module_node.rs:28-37, def_node.rs:242-260; singleton_class_node.rs enters none, lambda literals have no visit
    method). *)
Definition entered (k : construct) : option bool :=
  match k with Block => Some false | Body => Some true | Lambda | Singleton | ForeignDef => None end.

(** The visitor (mod.rs:3617-3783, local_variable_read_node.rs:8-20, local_variable_write_node.rs:85-112,
    parameters_node.rs:18-147).  The location of a parameter whose type is known is recorded when the block is
    entered, when the parameter is indexed and when its type is assigned (block_node.rs:13, 21-87,
    mod.rs:2145-2167). *)
Fixpoint visit (t : tree) (v : variable_scopes) : variable_scopes :=
  match t with
  | Leaf | Unseen _ _ => v
  | Seq a b => visit b (visit a v)
  | Swap a b => visit a (visit b v)
  | Ident x s => reference_variable v x s
  | Write x s => define_variable v x s
  | Param x s typed => if typed then define_variable (define_variable (define_variable v x s) x s) x s else define_variable v x s
  | Scope k number body h i =>
      match entered k with
      | Some hard => exit_scope (visit i (visit h (enter_scope v hard body number)))
      | None => visit i (visit h v)
      end
  end.

(** Indexing a document just opened or changed (RubyDocument::update clears the scopes, ruby_document.rs:76-88). *)
Definition index (t : tree) : variable_scopes := visit t new.

(** ** crates/ruby-analysis/src/indexer/ruby_document.rs *)
(** local_variable_definition_range_before (186-203) *)
Definition local_variable_definition_range_before (v : variable_scopes) (x : ident) (c : nat) : option span :=
  match (match find_scope_for_variable_at v x c with Some i => Some i | None => scope_at_position v c end) with
  | None => None
  | Some i =>
      match find_variable v x i with
      | Some n => if fst (definition_location n) <? c then Some (definition_location n) else None
      | None => None
      end
  end.

(** local_variable_reference_ranges_at (205-223) *)
Definition local_variable_reference_ranges_at (v : variable_scopes) (x : ident) (c : nat) : list span :=
  match find_scope_for_variable_at v x c with Some i => find_rename_targets v x i | None => [] end.

(** ** src/query *)
(** The symbols of local variables recorded for a file: one for each assignment or target, whatever its scope
    (crates/ruby-analysis/src/indexer/analysis_indexer.rs:944-953, 1706-1740). *)
Fixpoint symbols (t : tree) : list (ident * span) :=
  match t with
  | Leaf | Ident _ _ | Param _ _ _ | Unseen _ _ => []
  | Write x s => [(x, s)]
  | Seq a b | Swap a b | Scope _ _ _ a b => symbols a ++ symbols b
  end.

(** local_variable_definition_locations_from_analysis (definition.rs:431-449): max_by_key keeps the last of equal
    keys. *)
Fixpoint latest (c : nat) (x : ident) (best : option span) (l : list (ident * span)) : option span :=
  match l with
  | [] => best
  | (y, s) :: t =>
      latest c x (if N.eqb y x && (fst s <? c) && (match best with Some b => fst b <=? fst s | None => true end) then Some s else best) t
  end.

(** find_local_variable_definitions_at_position (definition.rs:100-121), the identifier under the cursor being
    the local variable x. *)
Definition goto_definition (t : tree) (v : variable_scopes) (x : ident) (c : nat) : option span :=
  match local_variable_definition_range_before v x c with
  | Some s => Some s
  | None => latest c x None (symbols t)
  end.

(** find_local_variable_references (references.rs:283-316) with rebuild_local_variable_scopes_for_open_document
    (801-818): when nothing is found the document is visited again, into the scopes it already has, and these
    are kept. *)
Definition find_references (t : tree) (v : variable_scopes) (x : ident) (c : nat) : list span * variable_scopes :=
  match local_variable_reference_ranges_at v x c with
  | [] => let v' := visit t v in (local_variable_reference_ranges_at v' x c, v')
  | l => (l, v)
  end.
