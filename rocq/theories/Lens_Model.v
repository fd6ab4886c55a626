(** The lenses above modules: how often a module is mixed in, and by which classes.

    /repo/crates/ruby-analysis/src/indexer/code_lens.rs 1-123,
    /repo/crates/ruby-analysis/src/engine/lookup.rs 137-205, 349-357 and
    /repo/src/query/code_lens.rs 58-215.

    Modelled: the collector of the modules of a file and their names, the search for
    mixins and for classes in the ancestry graph, and the list of lenses.
    Not modelled: the parser (the tree is the input), the conversion of offsets to
    positions (C09, C10), and the order of the places inside one lens by the text of
    their addresses; a range whose file is not known is dropped, as in the code. *)
From Coq Require Import List Arith Bool.
From Verif Require Import Sort_Lib.
Import ListNotations.

(** A path in a class or module head: what it starts from (nothing, [::], or an
    expression) and its names, as numbers. *)
Inductive base := Lexical | Root | Dynamic.

(** The tree as the collector sees it: modules with the offsets of their keyword and of
    the end of their path, classes, and anything else with its parts. *)
Inductive item :=
| AModule (b : base) (names : list nat) (start stop : nat) (body : list item)
| Class (b : base) (names : list nat) (body : list item)
| Other (parts : list item).

Section Names.
(** RubyConstant::new (core/ruby_namespace.rs 47-70) accepts the name. *)
Variable valid : nat -> bool.

(** compute_fqn, code_lens.rs 32-50. *)
Definition compute_fqn (stack names : list nat) : option (list nat) :=
  if forallb valid (stack ++ names) then Some (stack ++ names) else None.

(** module_name.split("::").last(), 90 and 110. *)
Definition pushed (stack names : list nat) : list nat :=
  match names with [] => stack | _ => stack ++ [last names 0] end.

(** visit_module_node and visit_class_node, 76-122: only the body is visited; the base
    of the path is not looked at (collect_constant_path_parts, 63-74). *)
Fixpoint collect (stack : list nat) (i : item) : list (list nat * (nat * nat)) :=
  let each := fun st => fix each (l : list item) : list (list nat * (nat * nat)) :=
    match l with [] => [] | x :: r => collect st x ++ each r end in
  match i with
  | AModule _ names start stop body =>
      (match names with
       | [] => []
       | _ => match compute_fqn stack names with
              | Some f => [(f, (start, stop))]
              | None => []
              end
       end) ++ each (pushed stack names) body
  | Class _ names body => each (pushed stack names) body
  | Other parts => each stack parts
  end.
End Names.

(** ** The graph *)
(** A namespace: its names, and whether it is the singleton class. *)
Definition ns : Type := list nat * bool.
Inductive ekind := Superclass | Include | Prepend | Extend | Context.
Inductive nkind := NClass | NModule.
(** A range: file, start, end. *)
Definition range : Type := nat * (nat * nat).
Record edge := { kind : ekind; source : ns; target : ns; at_ : range }.
Record world := { edges : list edge; nodes : list (ns * (nkind * range)) }.

Fixpoint same_names (a b : list nat) : bool :=
  match a, b with
  | [], [] => true
  | x :: a', y :: b' => (x =? y) && same_names a' b'
  | _, _ => false
  end.
Definition same_ns (a b : ns) : bool := same_names (fst a) (fst b) && Bool.eqb (snd a) (snd b).
Definition mem (x : ns) (l : list ns) : bool := existsb (same_ns x) l.

(** lookup.rs 142-146 and 180-184: includes and prepends into a singleton class are
    passed over. *)
Definition skipped (e : edge) : bool :=
  match kind e with Include | Prepend => snd (source e) | _ => false end.

(** mixin_usage_kind_for_graph_edge, 349-357. *)
Definition usage_kind (k : ekind) : option ekind :=
  match k with Include | Prepend | Extend => Some k | _ => None end.

(** module_mixin_usages, 137-158: kind and range of each. *)
Definition kind_key (k : ekind) : nat :=
  match k with Include => 0 | Prepend => 1 | _ => 2 end.
Definition usage_key (u : ekind * range) : list nat :=
  [kind_key (fst u); fst (snd u); fst (snd (snd u))].
Definition usages (w : world) (m : list nat) : list (ekind * range) :=
  sort (key_leb usage_key)
    (flat_map (fun e =>
       if negb (same_names (fst (target e)) m) then []
       else if skipped e then []
       else match usage_kind (kind e) with Some k => [(k, at_ e)] | None => [] end) (edges w)).

(** graph_nodes_for, engine/state.rs 3273-3282. *)
Definition nodes_for (w : world) (f : ns) : list (nkind * range) :=
  map snd (filter (fun n => same_ns (fst n) f) (nodes w)).
Definition is_class (n : nkind * range) : bool := match fst n with NClass => true | NModule => false end.
Definition is_module (n : nkind * range) : bool := match fst n with NClass => false | NModule => true end.

(** The edges looked at in one round, lookup.rs 174-187. *)
Definition into (w : world) (t : ns) : list edge :=
  filter (fun e =>
    match usage_kind (kind e) with Some _ => true | None => false end
    && negb (skipped e) && same_names (fst (target e)) (fst t)) (edges w).

(** The classes found and the modules queued for one edge, 189-199. *)
Definition found (w : world) (e : edge) : list range :=
  if existsb is_class (nodes_for w (source e))
  then map snd (filter is_class (nodes_for w (source e))) else [].
Definition queued (w : world) (e : edge) : list ns :=
  if existsb is_class (nodes_for w (source e)) then []
  else if existsb is_module (nodes_for w (source e)) then [source e] else [].

Fixpoint dedup (l : list range) : list range :=
  match l with
  | [] => []
  | x :: r => match r with
              | [] => [x]
              | y :: _ => if (fst x =? fst y) && (fst (snd x) =? fst (snd y)) && (snd (snd x) =? snd (snd y))
                          then dedup r else x :: dedup r
              end
  end.
Definition range_key (r : range) : list nat := [fst r; fst (snd r); snd (snd r)].

(** module_including_class_definition_ranges, 160-205.  [queue] is a stack, its top
    first; [None] means the fuel ran out, which the proofs exclude. *)
Fixpoint search (fuel : nat) (w : world) (queue visited : list ns) (result : list range)
  : option (list range) :=
  match fuel with
  | 0 => None
  | S n =>
      match queue with
      | [] => Some (dedup (sort (key_leb range_key) result))
      | t :: q =>
          if mem t visited then search n w q visited result
          else search n w (rev (flat_map (queued w) (into w t)) ++ q) (t :: visited)
                 (result ++ flat_map (found w) (into w t))
      end
  end.
Definition enough (w : world) : nat :=
  3 + S (length (edges w)) * S (length (edges w)).
Definition classes (w : world) (m : list nat) : option (list range) :=
  search (enough w) w [(m, false)] [] [].

(** ** The lenses *)
Inductive lens := Mixed (at_ : nat * nat) (k : ekind) (count : nat) (places : list range)
                | Classes (at_ : nat * nat) (count : nat) (places : list range).

Section Lenses.
(** The file of the range is known (query/analysis_location.rs). *)
Variable known : nat -> bool.

Definition same_use (k : ekind) (u : ekind * range) : bool := kind_key k =? kind_key (fst u).

(** get_code_lenses, query/code_lens.rs 79-133, for one module. *)
Definition lenses_of (w : world) (m : list nat * (nat * nat)) : option (list lens) :=
  match classes w (fst m) with
  | None => None
  | Some found =>
      let cs := filter (fun r => known (fst r)) found in
      let us := filter (fun u => known (fst (snd u))) (usages w (fst m)) in
      let of_kind := fun k =>
        match map snd (filter (same_use k) us) with
        | [] => []
        | l => [Mixed (snd m) k (length l) l]
        end in
      Some (of_kind Include ++ of_kind Prepend ++ of_kind Extend
            ++ match cs with [] => [] | _ => [Classes (snd m) (length cs) cs] end)
  end.
End Lenses.
