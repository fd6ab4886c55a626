(** Renaming a local variable: Ruby's scoping of names, and what a parser makes of it.

    [source] is the program before names are resolved.  [Name] is a bare identifier: a local variable if one of
    that name is visible, otherwise a call.  Every scope carries a label (say, where it begins) by which its
    variables are told from those of the same name in other scopes; [hard] scopes (def, class, module) see
    nothing from outside, blocks and lambdas do. *)
From Coq Require Import List Arith NArith Bool.
From Verif Require Import Rename_Model.
Import ListNotations.

Inductive source :=
| SLeaf
| SSeq (a b : source)
| SName (x : ident) (at_ : span)
| SImplicit (x : ident) (at_ : span)
| SAssign (x : ident) (at_ : span) (value : source)
| STarget (x : ident) (at_ : span)
| SParam (x : ident) (at_ : span)
| SOptParam (x : ident) (at_ : span) (value : source)
| SKeyParam (x : ident) (at_ : span)
| SOptKeyParam (x : ident) (at_ : span) (value : source)
| SBlockLocal (x : ident) (at_ : span)
| SScope (hard : bool) (label : nat) (head inner : source).

(** The scopes around a place, innermost first. *)
Record scope := InScope { hard : bool; label : nat; names : list ident }.
Definition scopes := list scope.

Definition declared (x : ident) (s : scope) : bool := existsb (N.eqb x) (names s).
Fixpoint visible (x : ident) (e : scopes) : option (nat * scope) :=
  match e with
  | [] => None
  | s :: r => if declared x s then Some (0, s) else if hard s then None else match visible x r with Some (d, t) => Some (S d, t) | None => None end
  end.
Definition declare (x : ident) (e : scopes) : scopes :=
  match e with [] => [] | s :: r => InScope (hard s) (label s) (x :: names s) :: r end.
(** An assignment declares the variable in the innermost scope unless it is visible already. *)
Definition assign (x : ident) (e : scopes) : scopes := match visible x e with Some _ => e | None => declare x e end.

Definition variable := (ident * nat)%type.
Inductive occurrence_kind := Ordinary | Keyword | Local | Shorthand.
Definition occurrence := (span * variable * occurrence_kind)%type.

Definition here (k : occurrence_kind) (x : ident) (s : span) (e : scopes) : list occurrence :=
  match visible x e with Some (_, t) => [(s, (x, label t), k)] | None => [] end.

(** Walking the program in the order it is written: every place where a local variable occurs, and which. *)
Fixpoint resolve (p : source) (e : scopes) : list occurrence * scopes :=
  match p with
  | SLeaf => ([], e)
  | SSeq a b => let '(l, e1) := resolve a e in let '(m, e2) := resolve b e1 in (l ++ m, e2)
  | SName x s => (here Ordinary x s e, e)
  | SImplicit x s => (here Shorthand x s e, e)
  | STarget x s => (here Ordinary x s (assign x e), assign x e)
  | SAssign x s v => let '(l, e1) := resolve v (assign x e) in (here Ordinary x s (assign x e) ++ l, e1)
  | SParam x s => (here Ordinary x s (declare x e), declare x e)
  | SOptParam x s v => let '(l, e1) := resolve v (declare x e) in (here Ordinary x s (declare x e) ++ l, e1)
  | SKeyParam x s => (here Keyword x s (declare x e), declare x e)
  | SOptKeyParam x s v => let '(l, e1) := resolve v (declare x e) in (here Keyword x s (declare x e) ++ l, e1)
  | SBlockLocal x s => (here Local x s (declare x e), declare x e)
  | SScope h n a b => let '(l, e1) := resolve a e in let '(m, e2) := resolve b (InScope h n [] :: e1) in (l ++ m, tl e2)
  end.

(** The same walk as the parser does it, leaving depths in the tree. *)
Definition depth_of (x : ident) (e : scopes) : nat := match visible x e with Some (d, _) => d | None => 0 end.
Fixpoint parse (p : source) (e : scopes) : ast * scopes :=
  match p with
  | SLeaf => (Leaf, e)
  | SSeq a b => let '(l, e1) := parse a e in let '(m, e2) := parse b e1 in (Seq l m, e2)
  | SName x s => (match visible x e with Some (d, _) => Read x d s | None => Leaf end, e)
  | SImplicit x s => (match visible x e with Some (d, _) => Implicit x d s | None => Leaf end, e)
  | STarget x s => (Target x (depth_of x (assign x e)) s, assign x e)
  | SAssign x s v => let '(a, e1) := parse v (assign x e) in (Write x (depth_of x (assign x e)) s a, e1)
  | SParam x s => (Param x s, declare x e)
  | SOptParam x s v => let '(a, e1) := parse v (declare x e) in (OptParam x s a, e1)
  | SKeyParam x s => (KeyParam x s, declare x e)
  | SOptKeyParam x s v => let '(a, e1) := parse v (declare x e) in (OptKeyParam x s a, e1)
  | SBlockLocal x s => (BlockLocal x s, declare x e)
  | SScope h n a b => let '(l, e1) := parse a e in let '(m, e2) := parse b (InScope h n [] :: e1) in (Scope l m, tl e2)
  end.

(** A program is a hard scope of its own, with a label no other scope has. *)
Definition top : scopes := [InScope true 0 []].
Definition program (p : source) : ast := fst (parse p top).
Definition occurrences (p : source) : list occurrence := fst (resolve p top).
Fixpoint labels (p : source) : list nat :=
  match p with
  | SLeaf | SName _ _ | SImplicit _ _ | STarget _ _ | SParam _ _ | SKeyParam _ _ | SBlockLocal _ _ => []
  | SSeq a b => labels a ++ labels b
  | SAssign _ _ v | SOptParam _ _ v | SOptKeyParam _ _ v => labels v
  | SScope _ n a b => n :: labels a ++ labels b
  end.
Definition labelled (p : source) : Prop := NoDup (0 :: labels p).

(** The cursor is on exactly one occurrence. *)
Definition on (c : nat) (s : span) : Prop := fst s <= c < snd s.
Definition cursor_on (c : nat) (o : occurrence) (p : source) : Prop :=
  In o (occurrences p) /\ on c (fst (fst o)) /\ forall o', In o' (occurrences p) -> on c (fst (fst o')) -> o' = o.

(** No local variable is used in the head of a class, module, singleton class or definition. *)
Fixpoint variables (a : ast) : list ident :=
  match a with
  | Leaf => []
  | Seq a b | Scope a b => variables a ++ variables b
  | Read x _ _ | Implicit x _ _ | Target x _ _ | Param x _ | KeyParam x _ | BlockLocal x _ => [x]
  | Write x _ _ e | OptParam x _ e | OptKeyParam x _ e => x :: variables e
  end.
Fixpoint plain_heads (a : ast) : Prop :=
  match a with
  | Seq a b => plain_heads a /\ plain_heads b
  | Scope h i => variables h = [] /\ plain_heads i
  | Write _ _ _ e | OptParam _ _ e | OptKeyParam _ _ e => plain_heads e
  | _ => True
  end.

(** Writing another name at some places. *)
Definition put (l : list span) (y x : ident) (s : span) : ident :=
  if existsb (fun t => (fst t =? fst s) && (snd t =? snd s)) l then y else x.
Fixpoint rewritten (l : list span) (y : ident) (p : source) : source :=
  match p with
  | SLeaf => SLeaf
  | SSeq a b => SSeq (rewritten l y a) (rewritten l y b)
  | SName x s => SName (put l y x s) s
  | SImplicit x s => SImplicit (put l y x s) s
  | STarget x s => STarget (put l y x s) s
  | SAssign x s v => SAssign (put l y x s) s (rewritten l y v)
  | SParam x s => SParam (put l y x s) s
  | SOptParam x s v => SOptParam (put l y x s) s (rewritten l y v)
  | SKeyParam x s => SKeyParam (put l y x s) s
  | SOptKeyParam x s v => SOptKeyParam (put l y x s) s (rewritten l y v)
  | SBlockLocal x s => SBlockLocal (put l y x s) s
  | SScope h n a b => SScope h n (rewritten l y a) (rewritten l y b)
  end.
Fixpoint written (p : source) : list (ident * span) :=
  match p with
  | SLeaf => []
  | SSeq a b | SScope _ _ a b => written a ++ written b
  | SName x s | SImplicit x s | STarget x s | SParam x s | SKeyParam x s | SBlockLocal x s => [(x, s)]
  | SAssign x s v | SOptParam x s v | SOptKeyParam x s v => (x, s) :: written v
  end.

(** Names that mean something beyond the variable: keywords of methods and keys of hashes written [{x:}]. *)
Fixpoint keys (p : source) : list ident :=
  match p with
  | SSeq a b | SScope _ _ a b => keys a ++ keys b
  | SImplicit x _ | SKeyParam x _ => [x]
  | SAssign _ _ v | SOptParam _ _ v => keys v
  | SOptKeyParam x _ v => x :: keys v
  | _ => []
  end.
