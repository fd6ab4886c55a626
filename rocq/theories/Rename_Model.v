(** Renaming a local variable. *)
From Coq Require Import List Arith NArith Bool.
Import ListNotations.

(** Where a name is written: start and end offsets. *)
Definition span := (nat * nat)%type.
Definition ident := N.

(** The syntax tree as prism gives it, reduced to what matters for local variables.  [Seq] stands for any node
    with children; [Scope] for def, class, module and singleton class (their head is the receiver, the constant
    path and superclass, or the expression) and for blocks and lambdas (empty head; the parameters belong to the
    inner part).  [Read], [Target] and [Write] (also ||=, &&= and operator writes) carry the depth computed by
    the parser; [Implicit] is the variable read in [{x:}].  [Param] is a required, rest, keyword-rest or block
    parameter, [OptParam] an optional one, [KeyParam] and [OptKeyParam] are keyword parameters and [BlockLocal]
    is y in [|x; y|]. *)
Inductive ast :=
| Leaf
| Seq (a b : ast)
| Read (x : ident) (depth : nat) (at_ : span)
| Implicit (x : ident) (depth : nat) (at_ : span)
| Target (x : ident) (depth : nat) (at_ : span)
| Write (x : ident) (depth : nat) (at_ : span) (value : ast)
| Param (x : ident) (at_ : span)
| OptParam (x : ident) (at_ : span) (value : ast)
| KeyParam (x : ident) (at_ : span)
| OptKeyParam (x : ident) (at_ : span) (value : ast)
| BlockLocal (x : ident) (at_ : span)
| Scope (head inner : ast).

(** crates/ruby-analysis/src/indexer/rename.rs:35-53.  The stack is kept innermost first (the code pushes at the
    end). *)
Inductive phase := FindTarget | Collect.
Record visitor := Visitor { cursor : nat; scope_stack : list nat; next_scope_id : nat; target : option (ident * nat); ranges : list span; at_phase : phase }.

(** rename.rs:90-99 *)
Definition push_scope (v : visitor) : visitor :=
  Visitor (cursor v) (next_scope_id v :: scope_stack v) (next_scope_id v + 1) (target v) (ranges v) (at_phase v).
Definition pop_scope (v : visitor) : visitor :=
  Visitor (cursor v) (tl (scope_stack v)) (next_scope_id v) (target v) (ranges v) (at_phase v).

(** rename.rs:103-110 *)
Definition defining_scope_id (v : visitor) (depth : nat) : option nat := nth_error (scope_stack v) depth.
Definition cursor_in (v : visitor) (s : span) : bool := (fst s <=? cursor v) && (cursor v <? snd s).

(** rename.rs:113-155 (process_local_var, process_parameter).  target_name and target_scope_id are set together. *)
Definition process (v : visitor) (x : ident) (depth : nat) (s : span) : visitor :=
  match defining_scope_id v depth with
  | None => v
  | Some id =>
      match at_phase v with
      | FindTarget =>
          match target v with
          | None => if cursor_in v s then Visitor (cursor v) (scope_stack v) (next_scope_id v) (Some (x, id)) (ranges v) (at_phase v) else v
          | Some _ => v
          end
      | Collect =>
          match target v with
          | Some (y, t) => if (x =? y)%N && (id =? t) then Visitor (cursor v) (scope_stack v) (next_scope_id v) (target v) (ranges v ++ [s]) (at_phase v) else v
          | None => v
          end
      end
  end.

(** rename.rs:158-264: the visitor; keyword parameters and block locals have no method of their own, so only
    the children of their nodes are visited, and the head of a scope is visited after the scope is pushed. *)
Fixpoint visit (a : ast) (v : visitor) : visitor :=
  match a with
  | Leaf | KeyParam _ _ | BlockLocal _ _ => v
  | Seq a b => visit b (visit a v)
  | Read x d s | Implicit x d s | Target x d s => process v x d s
  | Write x d s e => visit e (process v x d s)
  | Param x s => process v x 0 s
  | OptParam x s e => visit e (process v x 0 s)
  | OptKeyParam _ _ e => visit e v
  | Scope h i => pop_scope (visit i (visit h (push_scope v)))
  end.

(** rename.rs:59-88 *)
Definition find_rename_targets (cursor : nat) (root : ast) : list span :=
  let v := visit root (Visitor cursor [0] 1 None [] FindTarget) in
  match target v with
  | None => []
  | Some t => ranges (visit root (Visitor cursor [0] 1 (Some t) (ranges v) Collect))
  end.
