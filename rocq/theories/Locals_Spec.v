(** Local variables: Ruby's scoping. *)
From Coq Require Import List Arith NArith Bool.
From Verif Require Import Locals_Model.
Import ListNotations.

(** Definitions, classes, modules and singleton classes see no variables from outside; blocks and lambdas do. *)
Definition closed_off (k : construct) : bool := match k with Block | Lambda => false | Body | Singleton | ForeignDef => true end.

(** The scopes around a place, innermost first, with the names declared so far. *)
Record level := Level { made_by : construct; number : nat; names : list ident }.
Definition declared (x : ident) (s : level) : bool := existsb (N.eqb x) (names s).
Fixpoint visible (x : ident) (e : list level) : option (nat * level) :=
  match e with
  | [] => None
  | s :: r =>
      if declared x s then Some (0, s)
      else if closed_off (made_by s) then None
      else match visible x r with Some (d, t) => Some (S d, t) | None => None end
  end.
Definition declare (x : ident) (e : list level) : list level :=
  match e with [] => [] | s :: r => Level (made_by s) (number s) (x :: names s) :: r end.
(** An assignment declares a variable in the innermost scope unless one is visible already. *)
Definition assign (x : ident) (e : list level) : list level := match visible x e with Some _ => e | None => declare x e end.

(** An occurrence of the variable called [called] of the scope [owner]: where it is written (for a parameter, the
    whole of it), and whether it assigns from an inner scope ([captured], meaning an assignment to a variable of
    an outer scope).  [around] are the scopes around it, innermost first, out to the nearest class, module or
    def body. *)
Record occurrence := Occurrence { shown : span; called : ident; owner : nat; captured : bool; around : list nat }.
Fixpoint reach (e : list level) : list nat :=
  match e with
  | [] => []
  | s :: r => number s :: match made_by s with Body => [] | _ => reach r end
  end.
Definition here (assigns : bool) (x : ident) (s : span) (e : list level) : list occurrence :=
  match visible x e with
  | Some (d, t) => [Occurrence s x (number t) (assigns && negb (d =? 0)) (reach e)]
  | None => []
  end.

(** Walking the program in the order it is written. *)
Fixpoint resolve (t : tree) (e : list level) : list occurrence * list level :=
  match t with
  | Leaf => ([], e)
  | Seq a b | Swap a b => let '(l, e1) := resolve a e in let '(m, e2) := resolve b e1 in (l ++ m, e2)
  | Ident x s => (here false x s e, e)
  | Write x s => (here true x s (assign x e), assign x e)
  | Param x s _ | Unseen x s => (here false x s (declare x e), declare x e)
  | Scope k n _ h i => let '(l, e1) := resolve h e in let '(m, e2) := resolve i (Level k n [] :: e1) in (l ++ m, tl e2)
  end.

(** What the parser makes of a program: an identifier which is no variable is a call. *)
Fixpoint parse (t : tree) (e : list level) : tree * list level :=
  match t with
  | Leaf => (Leaf, e)
  | Seq a b => let '(a', e1) := parse a e in let '(b', e2) := parse b e1 in (Seq a' b', e2)
  | Swap a b => let '(a', e1) := parse a e in let '(b', e2) := parse b e1 in (Swap a' b', e2)
  | Ident x s => (match visible x e with Some _ => Ident x s | None => Leaf end, e)
  | Write x s => (Write x s, assign x e)
  | Param x s y => (Param x s y, declare x e)
  | Unseen x s => (Unseen x s, declare x e)
  | Scope k n r h i => let '(h', e1) := parse h e in let '(i', e2) := parse i (Level k n [] :: e1) in (Scope k n r h' i', tl e2)
  end.

(** A program is a body of its own, numbered 0. *)
Definition top : list level := [Level Body 0 []].
Definition program (p : tree) : tree := fst (parse p top).
Definition occurrences (p : tree) : list occurrence := fst (resolve p top).
Fixpoint numbers (t : tree) : list nat :=
  match t with
  | Seq a b | Swap a b => numbers a ++ numbers b
  | Scope _ n _ h i => n :: numbers h ++ numbers i
  | _ => []
  end.
Definition numbered (p : tree) : Prop := NoDup (0 :: numbers p).

(** Two occurrences of the same variable. *)
Definition same_variable (o o' : occurrence) : Prop := called o' = called o /\ owner o' = owner o.
Definition of_variable (o o' : occurrence) : bool := N.eqb (called o') (called o) && (owner o' =? owner o).
Definition touches (c : nat) (s : span) : Prop := fst s <= c <= snd s.
(** The cursor is on an occurrence, and on no occurrence of another variable of that name. *)
Definition cursor_on (c : nat) (o : occurrence) (p : tree) : Prop :=
  In o (occurrences p) /\ touches c (shown o) /\
  forall o', In o' (occurrences p) -> called o' = called o -> touches c (shown o') -> owner o' = owner o.

(** Names written in a program outside inner scopes as parameters or assigned, and all names. *)
Fixpoint written (t : tree) : list ident :=
  match t with
  | Leaf | Ident _ _ | Scope _ _ _ _ _ => []
  | Write x _ | Param x _ _ | Unseen x _ => [x]
  | Seq a b | Swap a b => written a ++ written b
  end.
Fixpoint mentioned (t : tree) : list ident :=
  match t with
  | Leaf => []
  | Ident x _ | Write x _ | Param x _ _ | Unseen x _ => [x]
  | Seq a b | Swap a b | Scope _ _ _ a b => mentioned a ++ mentioned b
  end.
Definition apart (l m : list ident) : Prop := forall x, In x l -> ~ In x m.

(** Programs the indexer handles: no keyword, block, block-local or destructured parameters; no variables in the
    superclass or receiver of a class or definition; lambda literals, singleton classes and definitions on other
    objects have no variables of their own; and the parts visited in the opposite order have no variable in
    common which either of them assigns. *)
Fixpoint plain (t : tree) : Prop :=
  match t with
  | Leaf | Ident _ _ | Write _ _ | Param _ _ _ => True
  | Unseen _ _ => False
  | Seq a b => plain a /\ plain b
  | Swap a b => plain a /\ plain b /\ apart (written a) (mentioned b) /\ apart (written b) (mentioned a)
  | Scope k _ _ h i =>
      plain h /\ plain i /\ match entered k with Some _ => mentioned h = [] | None => written h = [] /\ written i = [] end
  end.
(** No block assigns a variable from outside it. *)
Definition assigns_own (p : tree) : Prop := forall o, In o (occurrences p) -> captured o = false.
(** No other variable of that name belongs to a scope around this place. *)
Definition alone (o : occurrence) (p : tree) : Prop :=
  forall o', In o' (occurrences p) -> called o' = called o -> In (owner o') (around o) -> owner o' = owner o.

(** All places where a name is written. *)
Fixpoint places (x : ident) (t : tree) : list span :=
  match t with
  | Leaf => []
  | Ident y s | Write y s | Param y s _ | Unseen y s => if N.eqb y x then [s] else []
  | Seq a b | Swap a b | Scope _ _ _ a b => places x a ++ places x b
  end.
