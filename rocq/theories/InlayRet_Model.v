(** The [return] hints and the end labels of the editor (inlay hints).

    /repo/crates/ruby-analysis/src/indexer/inlay_hints.rs 100-150, 240-410 and
    /repo/src/query/inlay_hints/generators.rs 49-79.

    Modelled: the walk over the syntax tree, which places get the hint "return"
    and which ends get a label, and the restriction to the range asked for.
    Not modelled: the parser (the tree is the input), the conversion of byte
    offsets to positions (C09, C10), the hints of types, and the panic for files of
    more than 4 GB. *)
From Coq Require Import List Arith Lia.
Import ListNotations.

(** The nodes the walk treats alike.  [Constant] stands for the seven forms of
    assignment to a constant whose visitors do not go on into the value
    (inlay_hints.rs 472-528). *)
Inductive sort := Plain | Return | Class (name : nat) | Module (name : nat) | Constant.

(** The syntax tree.  Simplified: names are numbers; a node which is not looked
    into by [process_implicit_return] is a [Leaf] with its start, its end and its
    parts; [If] stands for if, unless and the ternary operator, which are treated
    alike; [tests] are the conditions, exception classes and patterns, which are
    only walked over. *)
Inductive node :=
| Leaf (s : sort) (at_ fin : nat) (parts : list node)
| Def (name : nat) (at_ fin : nat) (endless : bool) (params : list node) (body : option node)
| Stmts (l : list node)
| Begin (body rescue els ensure : option node)
| If (tests : list node) (body next : option node)
| Else (body : option node)
| Case (tests : list node) (whens : list node) (els : option node)
| When (tests : list node) (body : option node)
| Rescue (tests : list node) (body next : option node)
| Parens (body : option node).

(** inlay_hints.rs 136-139, is_in_range. *)
Definition in_range (lo hi at_ : nat) : bool := (lo <=? at_) && (at_ <=? hi).

(** inlay_hints.rs 238-329, process_implicit_return: the places of the hints, in
    the order they are collected. *)
Fixpoint marks (lo hi : nat) (n : node) : list nat :=
  let opt := fun o : option node => match o with Some x => marks lo hi x | None => [] end in
  match n with
  | Leaf Return _ _ _ => []
  | Leaf _ at_ _ _ => if in_range lo hi at_ then [at_] else []
  | Def _ at_ _ _ _ _ => if in_range lo hi at_ then [at_] else []
  | Stmts l =>
      (fix final (l : list node) : list nat :=
         match l with
         | [] => []
         | x :: r => match r with [] => marks lo hi x | _ => final r end
         end) l
  | Begin b r e _ => opt b ++ opt r ++ opt e
  | If _ b s => opt b ++ opt s
  | Else b => opt b
  | Case _ ws e =>
      (fix each (l : list node) : list nat :=
         match l with [] => [] | x :: r => marks lo hi x ++ each r end) ws ++ opt e
  | When _ b => opt b
  | Rescue _ b s => opt b ++ opt s
  | Parens b => opt b
  end.

(** inlay_hints.rs 25-66, InlayNode, the two kinds that need no types. *)
Inductive kind := KClass | KModule | KMethod.
Inductive hint := Label (k : kind) (name : nat) (at_ : nat) | Ret (at_ : nat).

(** inlay_hints.rs 352-355 and others: a label at the end of the node. *)
Definition label (lo hi : nat) (k : kind) (name fin : nat) : list hint :=
  if in_range lo hi fin then [Label k name fin] else [].

(** inlay_hints.rs 350-410 and 472-528, the visitors; the parts of all other nodes
    are visited by the parser's default visitors. *)
Fixpoint visit (lo hi : nat) (n : node) : list hint :=
  let opt := fun o : option node => match o with Some x => visit lo hi x | None => [] end in
  let each := fix each (l : list node) : list hint :=
         match l with [] => [] | x :: r => visit lo hi x ++ each r end in
  match n with
  | Leaf Constant _ _ _ => []
  | Leaf (Class name) _ fin parts => label lo hi KClass name fin ++ each parts
  | Leaf (Module name) _ fin parts => label lo hi KModule name fin ++ each parts
  | Leaf _ _ _ parts => each parts
  | Def name _ fin _ params body =>
      label lo hi KMethod name fin
      ++ (match body with Some b => map Ret (marks lo hi b) | None => [] end)
      ++ each params ++ opt body
  | Stmts l => each l
  | Begin b r e f => opt b ++ opt r ++ opt e ++ opt f
  | If t b s => each t ++ opt b ++ opt s
  | Else b => opt b
  | Case t ws e => each t ++ each ws ++ opt e
  | When t b => each t ++ opt b
  | Rescue t b s => each t ++ opt b ++ opt s
  | Parens b => opt b
  end.
