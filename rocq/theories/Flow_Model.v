(** Which statements the server reports as unreachable.

    Models crates/ruby-analysis/src/inference/control_flow.rs 13-446 ([analyze] and its
    helpers) and src/capabilities/diagnostics.rs 235-293 ([extract_unreachable_diagnostics]),
    with the filter on the parser's own warnings at 330-337 of the latter. *)
From Coq Require Import String List Bool NArith.
Import ListNotations.
Local Open Scope string_scope.

(** The Ruby syntax the analysis distinguishes, as the Prism parser delivers it
    (control_flow.rs 12, 73-127).  Simplifications:
    - [Group] stands for every node which merely evaluates its children in order (array and
      hash literals, assignments, interpolation, class bodies);
    - [Paren] is a parenthesised list, [Stmts] a StatementsNode met as a node;
    - an absent statement list and an empty one are both [SNil]: the code maps both to [Falls];
    - [While] stands for [while] and [until], its flag for the [begin ... end while] form;
    - [When] clauses serve both [case/when] and [case/in] ([CaseIn]);
    - the number on a statement is its identity: the code uses its source range. *)
Inductive node :=
| Lit
| Return (a : args) | Break (a : args) | Next (a : args) | Redo | Retry
| Call (r : recv) (f : string) (a : args) (b : blk)
| If (p : node) (t : stmts) (e : tail)
| Unless (p : node) (t : stmts) (e : tail)
| Case (p : node) (w : whens) (e : tail)
| CaseIn (p : node) (w : whens) (e : tail)
| Begin (b : stmts) (r : rescues) (e : tail) (n : tail)
| While (post : bool) (c : node) (b : stmts)
| For (c : node) (b : stmts)
| Group (a : args)
| Paren (s : stmts)
| Stmts (s : stmts)
| And (a b : node)
| Or (a b : node)
| RescueMod (a b : node)
| Lambda (b : node)
| Def (b : node)
with args := ANil | ACons (n : node) (a : args)
with recv := RNone | RConst (c : string) | RNode (n : node)
with blk := BNone | BPass (n : node) | BBlock (b : node)
with stmts := SNil | SCons (l : N) (n : node) (s : stmts)
with tail := NoTail | Else (s : stmts) | Elsif (p : node) (t : stmts) (e : tail)
with whens := WNil | WCons (pats : args) (s : stmts) (w : whens)
with rescues := RNil | RCons (classes : args) (s : stmts) (r : rescues).

(** control_flow.rs 29-69: the exit kinds and the bit set of them. *)
Inductive exit := XReturn | XRaise | XBreak | XNext | XRedo | XRetry.

Definition bit (e : exit) : N :=
  match e with
  | XReturn => 1 | XRaise => 2 | XBreak => 4 | XNext => 8 | XRedo => 16 | XRetry => 32
  end.

(** control_flow.rs 14-27: [None] is [Falls], [Some s] is [Diverges s]. *)
Definition reach := option N.

(** control_flow.rs 223-230: [join_branches] *)
Definition join (a b : reach) : reach :=
  match a, b with
  | Some x, Some y => Some (N.lor x y)
  | _, _ => None
  end.

(** control_flow.rs 405-446: [is_terminating_call]; a receiver other than a plain constant
    never matches. *)
Definition terminators := ["raise"; "fail"; "throw"; "exit"; "exit!"; "abort"].

Definition terminating (r : recv) (f : string) : bool :=
  match r with
  | RNone => existsb (String.eqb f) terminators
  | RConst c =>
      ((c =? "Process") || (c =? "Kernel")) && existsb (String.eqb f) terminators
  | RNode _ => false
  end.

(** control_flow.rs 372-403: [BreakFinder].  The generated visitor descends into every child;
    the overridden methods stop it at blocks, lambdas and at [while], [until] and [for]. *)
Fixpoint breaks (n : node) : bool :=
  match n with
  | Break _ => true
  | Lit | Redo | Retry => false
  | Return a | Next a | Group a => breaks_a a
  | Call r _ a b => breaks_r r || breaks_a a || breaks_b b
  | If p t e | Unless p t e => breaks p || breaks_s t || breaks_t e
  | Case p w e | CaseIn p w e => breaks p || breaks_w w || breaks_t e
  | Begin b r e n => breaks_s b || breaks_rs r || breaks_t e || breaks_t n
  | While _ _ _ | For _ _ | Lambda _ => false
  | Paren s | Stmts s => breaks_s s
  | And a b | Or a b | RescueMod a b => breaks a || breaks b
  | Def b => breaks b
  end
with breaks_a (a : args) : bool :=
  match a with ANil => false | ACons n a => breaks n || breaks_a a end
with breaks_r (r : recv) : bool :=
  match r with RNode n => breaks n | RNone | RConst _ => false end
with breaks_b (b : blk) : bool :=
  match b with BPass n => breaks n | BNone | BBlock _ => false end
with breaks_s (s : stmts) : bool :=
  match s with SNil => false | SCons _ n s => breaks n || breaks_s s end
with breaks_t (e : tail) : bool :=
  match e with
  | NoTail => false
  | Else s => breaks_s s
  | Elsif p t e => breaks p || breaks_s t || breaks_t e
  end
with breaks_w (w : whens) : bool :=
  match w with WNil => false | WCons a s w => breaks_a a || breaks_s s || breaks_w w end
with breaks_rs (r : rescues) : bool :=
  match r with RNil => false | RCons a s r => breaks_a a || breaks_s s || breaks_rs r end.

(** control_flow.rs 349-370: [is_diverging_loop]; an absent body is [Stmts SNil]. *)
Definition diverging_loop (r : recv) (f : string) (b : blk) : bool :=
  match r, b with
  | RNone, BBlock body => (f =? "loop") && negb (breaks body)
  | _, _ => false
  end.

(** control_flow.rs 71-127: [analyze], with [analyze_statements] 129-139, [analyze_if] 195-207,
    [analyze_unless] 209-221, [analyze_case] 234-262, [analyze_case_match] 266-297,
    [analyze_begin] 301-345 and [analyze_rescue_chain] 347-355. *)
Fixpoint analyze (n : node) : reach :=
  match n with
  | Return _ => Some (bit XReturn)
  | Break _ => Some (bit XBreak)
  | Next _ => Some (bit XNext)
  | Redo => Some (bit XRedo)
  | Retry => Some (bit XRetry)
  | Call r f _ b =>
      if terminating r f then Some (bit XRaise)
      else if diverging_loop r f b then Some (bit XRaise)
      else None
  | If _ t e | Unless _ t e =>
      match e with
      | NoTail => None
      | _ => join (analyze_s t) (analyze_t e)
      end
  | Case _ w e | CaseIn _ w e =>
      match e with
      | NoTail => None
      | _ => join (analyze_w w) (analyze_t e)
      end
  | Begin b r e n =>
      match analyze_t n with
      | Some es => Some es
      | None =>
          let happy :=
            match analyze_s b with
            | Some es => Some es
            | None => analyze_t e
            end in
          match r with
          | RNil => happy
          | RCons _ _ _ => join happy (analyze_rs r)
          end
      end
  | Stmts s => analyze_s s
  | Lit | While _ _ _ | For _ _ | Group _ | Paren _ | And _ _ | Or _ _ | RescueMod _ _
  | Lambda _ | Def _ => None
  end
with analyze_s (s : stmts) : reach :=
  match s with
  | SNil => None
  | SCons _ n SNil => analyze n
  | SCons _ _ s => analyze_s s
  end
with analyze_t (e : tail) : reach :=
  match e with
  | NoTail => None
  | Else s => analyze_s s
  | Elsif _ t e =>
      match e with
      | NoTail => None
      | _ => join (analyze_s t) (analyze_t e)
      end
  end
with analyze_w (w : whens) : reach :=
  match w with
  | WNil => Some 0%N
  | WCons _ s w => join (analyze_s s) (analyze_w w)
  end
with analyze_rs (r : rescues) : reach :=
  match r with
  | RNil => None
  | RCons _ s RNil => analyze_s s
  | RCons _ s r => join (analyze_s s) (analyze_rs r)
  end.

(** control_flow.rs 141-144 *)
Definition diverges (n : node) : bool :=
  match analyze n with Some _ => true | None => false end.

(** src/capabilities/diagnostics.rs 262-289: [visit_statements_node] reports every statement
    after the first one that diverges, then visits the children; the order of the reports is
    not modelled (each list's own reports are put before those of its children here as well).
    The generated visitor reaches every statement list of the file. *)
Fixpoint report (seen : bool) (s : stmts) : list N :=
  match s with
  | SNil => []
  | SCons l n s => (if seen then [l] else []) ++ report (seen || diverges n) s
  end.

Fixpoint walk (n : node) : list N :=
  match n with
  | Lit | Redo | Retry => []
  | Return a | Break a | Next a | Group a => walk_a a
  | Call r _ a b => walk_r r ++ walk_a a ++ walk_b b
  | If p t e | Unless p t e => walk p ++ (report false t ++ walk_s t) ++ walk_t e
  | Case p w e | CaseIn p w e => walk p ++ walk_w w ++ walk_t e
  | Begin b r e n => (report false b ++ walk_s b) ++ walk_rs r ++ walk_t e ++ walk_t n
  | While _ c b | For c b => walk c ++ (report false b ++ walk_s b)
  | Paren s | Stmts s => report false s ++ walk_s s
  | And a b | Or a b | RescueMod a b => walk a ++ walk b
  | Lambda b | Def b => walk b
  end
with walk_a (a : args) : list N :=
  match a with ANil => [] | ACons n a => walk n ++ walk_a a end
with walk_r (r : recv) : list N :=
  match r with RNode n => walk n | RNone | RConst _ => [] end
with walk_b (b : blk) : list N :=
  match b with BPass n | BBlock n => walk n | BNone => [] end
with walk_s (s : stmts) : list N :=
  match s with SNil => [] | SCons _ n s => walk n ++ walk_s s end
with walk_t (e : tail) : list N :=
  match e with
  | NoTail => []
  | Else s => report false s ++ walk_s s
  | Elsif p t e => walk p ++ (report false t ++ walk_s t) ++ walk_t e
  end
with walk_w (w : whens) : list N :=
  match w with
  | WNil => []
  | WCons a s w => walk_a a ++ (report false s ++ walk_s s) ++ walk_w w
  end
with walk_rs (r : rescues) : list N :=
  match r with
  | RNil => []
  | RCons a s r => walk_a a ++ (report false s ++ walk_s s) ++ walk_rs r
  end.

(** src/capabilities/diagnostics.rs 240-251: the statements of a file marked
    [unreachable-code]; a program is its top-level statement list. *)
Definition unreachable (p : stmts) : list N := report false p ++ walk_s p.
