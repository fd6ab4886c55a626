(** How Ruby runs the programs of Flow_Model: which statements are started, and how a piece of
    code ends.  Written from the Ruby documentation, without reference to the analysis. *)
From Coq Require Import String List Bool NArith.
Import ListNotations.
From Verif Require Import Flow_Model.
Local Open Scope string_scope.

(** How an execution can end: past the code, by a jump, by an exception ([Raise true] is a
    StopIteration), by a [throw], or not at all: [Cut] is an execution observed part way, so
    the finite beginnings of endless executions are executions too. *)
Inductive outcome :=
| Normal | ORet | OBreak | ONext | ORedo | ORetry | Raise (stop : bool) | Throw | Cut.

(** What the rest of the world does: the methods the program defines under a name
    ([own None f] for a call without receiver, [own (Some c) f] for [c.f]), and whether
    methods may raise StopIteration. *)
Record world := { own : option string -> string -> Prop; stops : Prop }.

Definition can_raise (W : world) (stop : bool) : Prop := stop = true -> stops W.

(** Calls which Ruby's own Kernel and Process never return from. *)
Definition never_returns (r : option string) (f : string) : Prop :=
  In f ["raise"; "fail"; "throw"; "exit"; "exit!"; "abort"] /\
  (r = None \/ r = Some "Process" \/ r = Some "Kernel").

(** The calls whose meaning is fixed by Ruby itself. *)
Definition builtin (r : recv) (f : string) (b : blk) : option string -> Prop :=
  fun c => match r with RNone => c = None | RConst k => c = Some k | RNode _ => False end
           /\ (never_returns c f \/ (c = None /\ f = "loop" /\ exists body, b = BBlock body)).

(** Code being run: a piece of syntax, or a piece of syntax at some point of its execution. *)
Inductive code :=
| IN (n : node) | IA (a : args) | IV (r : recv) | IP (b : blk) | IS (s : stmts) | IT (e : tail)
| ISeq (i j : code)
| IW (strict : bool) (w : whens) (e : tail)        (* the clauses of a case from w on *)
| IBody (b : stmts) (r : rescues) (e : tail)       (* a begin without its ensure *)
| IR (stop : bool) (r : rescues)                   (* the rescue clauses from r on *)
| IWBody (c : node) (b : stmts)                    (* a while loop at its body *)
| IEach (swallow : bool) (i : code)                (* a method that may call its block *)
| ILoop (i : code)                                 (* Kernel#loop *)
| IDo (r : recv) (f : string) (b : blk).           (* a call whose operands are evaluated *)

Inductive exec (W : world) : code -> list N -> outcome -> Prop :=
| e_cut i : exec W i [] Cut
| e_seq i j t u o : exec W i t Normal -> exec W j u o -> exec W (ISeq i j) (t ++ u) o
| e_seq_out i j t o : exec W i t o -> o <> Normal -> exec W (ISeq i j) t o
(* statements; a statement is started when control reaches it *)
| e_nil : exec W (IS SNil) [] Normal
| e_stmt l n s t u o :
    exec W (IN n) t Normal -> exec W (IS s) u o -> exec W (IS (SCons l n s)) (l :: t ++ u) o
| e_stmt_out l n s t o :
    exec W (IN n) t o -> o <> Normal -> exec W (IS (SCons l n s)) (l :: t) o
(* operands *)
| e_anil : exec W (IA ANil) [] Normal
| e_acons n a t o : exec W (ISeq (IN n) (IA a)) t o -> exec W (IA (ACons n a)) t o
| e_vnone : exec W (IV RNone) [] Normal
| e_vconst c : exec W (IV (RConst c)) [] Normal
| e_vconst_raise c k : can_raise W k -> exec W (IV (RConst c)) [] (Raise k)
| e_vnode n t o : exec W (IN n) t o -> exec W (IV (RNode n)) t o
| e_pnone : exec W (IP BNone) [] Normal
| e_pblock b : exec W (IP (BBlock b)) [] Normal
| e_ppass n t o : exec W (IN n) t o -> exec W (IP (BPass n)) t o
(* simple nodes *)
| e_lit : exec W (IN Lit) [] Normal
| e_lit_raise k : can_raise W k -> exec W (IN Lit) [] (Raise k)
| e_group a t o : exec W (IA a) t o -> exec W (IN (Group a)) t o
| e_paren s t o : exec W (IS s) t o -> exec W (IN (Paren s)) t o
| e_stmts s t o : exec W (IS s) t o -> exec W (IN (Stmts s)) t o
| e_return a t : exec W (IA a) t Normal -> exec W (IN (Return a)) t ORet
| e_return_out a t o : exec W (IA a) t o -> o <> Normal -> exec W (IN (Return a)) t o
| e_break a t : exec W (IA a) t Normal -> exec W (IN (Break a)) t OBreak
| e_break_out a t o : exec W (IA a) t o -> o <> Normal -> exec W (IN (Break a)) t o
| e_next a t : exec W (IA a) t Normal -> exec W (IN (Next a)) t ONext
| e_next_out a t o : exec W (IA a) t o -> o <> Normal -> exec W (IN (Next a)) t o
| e_redo : exec W (IN Redo) [] ORedo
| e_retry : exec W (IN Retry) [] ORetry
(* branches; a condition can come out either way *)
| e_and a b t : exec W (IN a) t Normal -> exec W (IN (And a b)) t Normal
| e_and_both a b t o : exec W (ISeq (IN a) (IN b)) t o -> exec W (IN (And a b)) t o
| e_or a b t : exec W (IN a) t Normal -> exec W (IN (Or a b)) t Normal
| e_or_both a b t o : exec W (ISeq (IN a) (IN b)) t o -> exec W (IN (Or a b)) t o
| e_then p s e t o : exec W (ISeq (IN p) (IS s)) t o -> exec W (IN (If p s e)) t o
| e_else p s e t o : exec W (ISeq (IN p) (IT e)) t o -> exec W (IN (If p s e)) t o
| e_unless p s e t o : exec W (ISeq (IN p) (IS s)) t o -> exec W (IN (Unless p s e)) t o
| e_unless_else p s e t o : exec W (ISeq (IN p) (IT e)) t o -> exec W (IN (Unless p s e)) t o
| e_notail : exec W (IT NoTail) [] Normal
| e_elses s t o : exec W (IS s) t o -> exec W (IT (Else s)) t o
| e_elsif p s e t o : exec W (IN (If p s e)) t o -> exec W (IT (Elsif p s e)) t o
| e_case p w e t o : exec W (ISeq (IN p) (IW false w e)) t o -> exec W (IN (Case p w e)) t o
| e_casein p w e t o : exec W (ISeq (IN p) (IW true w e)) t o -> exec W (IN (CaseIn p w e)) t o
| e_when b a s w e t o :
    exec W (ISeq (IA a) (IS s)) t o -> exec W (IW b (WCons a s w) e) t o
| e_when_next b a s w e t o :
    exec W (ISeq (IA a) (IW b w e)) t o -> exec W (IW b (WCons a s w) e) t o
| e_when_else b e t o :
    (b = true -> e <> NoTail) -> exec W (IT e) t o -> exec W (IW b WNil e) t o
| e_no_match : exec W (IW true WNil NoTail) [] (Raise false)
(* exceptions *)
| e_rescue_mod a b t o :
    exec W (IN a) t o -> exec W (IN (RescueMod a b)) t o
| e_rescue_mod_caught a b t u k o :
    exec W (IN a) t (Raise k) -> exec W (IN b) u o -> exec W (IN (RescueMod a b)) (t ++ u) o
| e_begin b r e n t u o :
    exec W (IBody b r e) t o -> o <> Cut -> exec W (IT n) u Normal ->
    exec W (IN (Begin b r e n)) (t ++ u) o
| e_begin_ensure b r e n t u o o' :
    exec W (IBody b r e) t o -> o <> Cut -> exec W (IT n) u o' -> o' <> Normal ->
    exec W (IN (Begin b r e n)) (t ++ u) o'
| e_begin_cut b r e n t : exec W (IBody b r e) t Cut -> exec W (IN (Begin b r e n)) t Cut
| e_body b r e t u o :
    exec W (IS b) t Normal -> exec W (IT e) u o -> exec W (IBody b r e) (t ++ u) o
| e_body_raise b r e t u k o :
    exec W (IS b) t (Raise k) -> exec W (IR k r) u o -> o <> ORetry ->
    exec W (IBody b r e) (t ++ u) o
| e_body_retry b r e t u v k o :
    exec W (IS b) t (Raise k) -> exec W (IR k r) u ORetry -> exec W (IBody b r e) v o ->
    exec W (IBody b r e) (t ++ u ++ v) o
| e_body_out b r e t o :
    exec W (IS b) t o -> o <> Normal -> (forall k, o <> Raise k) -> exec W (IBody b r e) t o
| e_unrescued k : exec W (IR k RNil) [] (Raise k)
| e_rescue k a s r t o :
    exec W (ISeq (IA a) (IS s)) t o -> exec W (IR k (RCons a s r)) t o
| e_rescue_next k a s r t o :
    exec W (ISeq (IA a) (IR k r)) t o -> exec W (IR k (RCons a s r)) t o
(* loops *)
| e_while_end p c b t : exec W (IN c) t Normal -> exec W (IN (While p c b)) t Normal
| e_while p c b t o :
    exec W (ISeq (IN c) (IWBody c b)) t o -> o <> OBreak -> o <> ONext -> o <> ORedo ->
    exec W (IN (While p c b)) t o
| e_while_post c b t o : exec W (IWBody c b) t o -> exec W (IN (While true c b)) t o
| e_while_break p c b t : exec W (IN c) t OBreak -> exec W (IN (While p c b)) t Normal
| e_while_next p c b t u o :
    exec W (IN c) t ONext -> exec W (IN (While false c b)) u o ->
    exec W (IN (While p c b)) (t ++ u) o
| e_while_redo p c b t u o :
    exec W (IN c) t ORedo -> exec W (IWBody c b) u o -> exec W (IN (While p c b)) (t ++ u) o
| e_wbody c b t u o o' :
    exec W (IS b) t o -> o = Normal \/ o = ONext -> exec W (IN (While false c b)) u o' ->
    exec W (IWBody c b) (t ++ u) o'
| e_wbody_break c b t : exec W (IS b) t OBreak -> exec W (IWBody c b) t Normal
| e_wbody_redo c b t u o :
    exec W (IS b) t ORedo -> exec W (IWBody c b) u o -> exec W (IWBody c b) (t ++ u) o
| e_wbody_out c b t o :
    exec W (IS b) t o -> ~ In o [Normal; ONext; OBreak; ORedo] -> exec W (IWBody c b) t o
| e_for c b t o :
    exec W (ISeq (IN c) (IEach false (IS b))) t o -> exec W (IN (For c b)) t o
(* a method which may run its block any number of times, and may keep it for later or handle
   what it raises if [swallow]; [break] makes the call return *)
| e_each_done q i : exec W (IEach q i) [] Normal
| e_each_raise q i k : can_raise W k -> exec W (IEach q i) [] (Raise k)
| e_each_throw q i : exec W (IEach q i) [] Throw
| e_each q i t u o o' :
    exec W i t o -> In o [Normal; ONext; ORedo] -> exec W (IEach q i) u o' ->
    exec W (IEach q i) (t ++ u) o'
| e_each_swallow i t u o o' :
    exec W i t o -> o <> Cut -> exec W (IEach true i) u o' -> exec W (IEach true i) (t ++ u) o'
| e_each_break q i t : exec W i t OBreak -> exec W (IEach q i) t Normal
| e_each_out q i t o :
    exec W i t o -> ~ In o [Normal; ONext; ORedo; OBreak] -> exec W (IEach q i) t o
(* Kernel#loop runs its block until it breaks or raises; StopIteration ends the loop *)
| e_loop i t u o o' :
    exec W i t o -> In o [Normal; ONext; ORedo] -> exec W (ILoop i) u o' ->
    exec W (ILoop i) (t ++ u) o'
| e_loop_break i t : exec W i t OBreak -> exec W (ILoop i) t Normal
| e_loop_stop i t : exec W i t (Raise true) -> exec W (ILoop i) t Normal
| e_loop_out i t o :
    exec W i t o -> ~ In o [Normal; ONext; ORedo; OBreak; Raise true] -> exec W (ILoop i) t o
(* calls; with an explicit receiver the call may be skipped, as with &. on nil *)
| e_call r f a b t o :
    exec W (ISeq (IV r) (ISeq (IA a) (ISeq (IP b) (IDo r f b)))) t o ->
    exec W (IN (Call r f a b)) t o
| e_call_skip n f a b t :
    exec W (IN n) t Normal -> exec W (IN (Call (RNode n) f a b)) t Normal
| e_do_exit r f b c k :
    builtin r f b c -> never_returns c f -> ~ own W c f -> can_raise W k ->
    exec W (IDo r f b) [] (Raise k)
| e_do_throw r b c :
    builtin r "throw" b c -> ~ own W c "throw" -> exec W (IDo r "throw" b) [] Throw
| e_do_loop body t o :
    ~ own W None "loop" -> exec W (ILoop (IN body)) t o ->
    exec W (IDo RNone "loop" (BBlock body)) t o
| e_do_block r f body t o :
    (forall c, builtin r f (BBlock body) c -> own W c f) ->
    exec W (IEach true (IN body)) t o -> exec W (IDo r f (BBlock body)) t o
| e_do r f b o :
    (forall c, builtin r f b c -> own W c f) ->
    o = Normal \/ (exists k, can_raise W k /\ o = Raise k) \/ o = Throw ->
    exec W (IDo r f b) [] o
(* bodies kept for later: they may run at some other time, whatever they do then *)
| e_lambda b : exec W (IN (Lambda b)) [] Normal
| e_lambda_later b t o : exec W (IN b) t o -> exec W (IN (Lambda b)) t Normal
| e_def b : exec W (IN (Def b)) [] Normal
| e_def_later b t o : exec W (IN b) t o -> exec W (IN (Def b)) t Normal.

(** A statement of a program is started in some execution of the program. *)
Definition runs (W : world) (p : stmts) (l : N) : Prop :=
  exists t o, exec W (IS p) t o /\ In l t.

(** The statements of a program, each named by its number. *)
Fixpoint locs (n : node) : list N :=
  match n with
  | Lit | Redo | Retry => []
  | Return a | Break a | Next a | Group a => locs_a a
  | Call r _ a b => locs_r r ++ locs_a a ++ locs_b b
  | If p t e | Unless p t e => locs p ++ locs_s t ++ locs_t e
  | Case p w e | CaseIn p w e => locs p ++ locs_w w ++ locs_t e
  | Begin b r e n => locs_s b ++ locs_rs r ++ locs_t e ++ locs_t n
  | While _ c b | For c b => locs c ++ locs_s b
  | Paren s | Stmts s => locs_s s
  | And a b | Or a b | RescueMod a b => locs a ++ locs b
  | Lambda b | Def b => locs b
  end
with locs_a (a : args) : list N :=
  match a with ANil => [] | ACons n a => locs n ++ locs_a a end
with locs_r (r : recv) : list N :=
  match r with RNode n => locs n | RNone | RConst _ => [] end
with locs_b (b : blk) : list N :=
  match b with BPass n | BBlock n => locs n | BNone => [] end
with locs_s (s : stmts) : list N :=
  match s with SNil => [] | SCons l n s => l :: locs n ++ locs_s s end
with locs_t (e : tail) : list N :=
  match e with
  | NoTail => []
  | Else s => locs_s s
  | Elsif p t e => locs p ++ locs_s t ++ locs_t e
  end
with locs_w (w : whens) : list N :=
  match w with WNil => [] | WCons a s w => locs_a a ++ locs_s s ++ locs_w w end
with locs_rs (r : rescues) : list N :=
  match r with RNil => [] | RCons a s r => locs_a a ++ locs_s s ++ locs_rs r end.

(** Does [ok] hold of every node of a program? *)
Fixpoint every (ok : node -> bool) (n : node) : bool :=
  ok n &&
  match n with
  | Lit | Redo | Retry => true
  | Return a | Break a | Next a | Group a => every_a ok a
  | Call r _ a b => every_r ok r && every_a ok a && every_b ok b
  | If p t e | Unless p t e => every ok p && every_s ok t && every_t ok e
  | Case p w e | CaseIn p w e => every ok p && every_w ok w && every_t ok e
  | Begin b r e n => every_s ok b && every_rs ok r && every_t ok e && every_t ok n
  | While _ c b | For c b => every ok c && every_s ok b
  | Paren s | Stmts s => every_s ok s
  | And a b | Or a b | RescueMod a b => every ok a && every ok b
  | Lambda b | Def b => every ok b
  end
with every_a (ok : node -> bool) (a : args) : bool :=
  match a with ANil => true | ACons n a => every ok n && every_a ok a end
with every_r (ok : node -> bool) (r : recv) : bool :=
  match r with RNode n => every ok n | RNone | RConst _ => true end
with every_b (ok : node -> bool) (b : blk) : bool :=
  match b with BPass n | BBlock n => every ok n | BNone => true end
with every_s (ok : node -> bool) (s : stmts) : bool :=
  match s with SNil => true | SCons l n s => every ok n && every_s ok s end
with every_t (ok : node -> bool) (e : tail) : bool :=
  match e with
  | NoTail => true
  | Else s => every_s ok s
  | Elsif p t e => every ok p && every_s ok t && every_t ok e
  end
with every_w (ok : node -> bool) (w : whens) : bool :=
  match w with WNil => true | WCons a s w => every_a ok a && every_s ok s && every_w ok w end
with every_rs (ok : node -> bool) (r : rescues) : bool :=
  match r with RNil => true | RCons a s r => every_a ok a && every_s ok s && every_rs ok r end.

(** No [break] anywhere in the collection of a [for]. *)
Definition not_break (n : node) : bool := match n with Break _ => false | _ => true end.
Definition for_plain (n : node) : bool :=
  match n with For c _ => every not_break c | _ => true end.

(** Not a call of [loop] with a block and without receiver. *)
Definition not_loop (n : node) : bool :=
  match n with Call RNone f _ (BBlock _) => negb (String.eqb f "loop") | _ => true end.

(** The program's own methods do not take the names of those which never return, or [loop]. *)
Definition keeps_builtins (W : world) : Prop :=
  forall c f, never_returns c f \/ (c = None /\ f = "loop") -> ~ own W c f.

(** All statement lists of a program. *)
Fixpoint lists (n : node) : list stmts :=
  match n with
  | Lit | Redo | Retry => []
  | Return a | Break a | Next a | Group a => lists_a a
  | Call r _ a b => lists_r r ++ lists_a a ++ lists_b b
  | If p t e | Unless p t e => lists p ++ (t :: lists_s t) ++ lists_t e
  | Case p w e | CaseIn p w e => lists p ++ lists_w w ++ lists_t e
  | Begin b r e n => (b :: lists_s b) ++ lists_rs r ++ lists_t e ++ lists_t n
  | While _ c b | For c b => lists c ++ (b :: lists_s b)
  | Paren s | Stmts s => s :: lists_s s
  | And a b | Or a b | RescueMod a b => lists a ++ lists b
  | Lambda b | Def b => lists b
  end
with lists_a (a : args) : list stmts :=
  match a with ANil => [] | ACons n a => lists n ++ lists_a a end
with lists_r (r : recv) : list stmts :=
  match r with RNode n => lists n | RNone | RConst _ => [] end
with lists_b (b : blk) : list stmts :=
  match b with BPass n | BBlock n => lists n | BNone => [] end
with lists_s (s : stmts) : list stmts :=
  match s with SNil => [] | SCons _ n s => lists n ++ lists_s s end
with lists_t (e : tail) : list stmts :=
  match e with
  | NoTail => []
  | Else s => s :: lists_s s
  | Elsif p t e => lists p ++ (t :: lists_s t) ++ lists_t e
  end
with lists_w (w : whens) : list stmts :=
  match w with WNil => [] | WCons a s w => lists_a a ++ (s :: lists_s s) ++ lists_w w end
with lists_rs (r : rescues) : list stmts :=
  match r with RNil => [] | RCons a s r => lists_a a ++ (s :: lists_s s) ++ lists_rs r end.

Fixpoint elems (s : stmts) : list (N * node) :=
  match s with SNil => [] | SCons l n s => (l, n) :: elems s end.

(** [l] stands after the statement [n], anywhere later in the same list of the program. *)
Definition behind (p : stmts) (n : node) (l : N) : Prop :=
  exists s before m after,
    In s (p :: lists_s p) /\ elems s = (before ++ (m, n) :: after)%list /\ In l (map fst after).

(** Statements which plainly leave: jumps, calls that never return, and branches all of whose
    arms end in one. *)
Inductive leaves : node -> Prop :=
| l_return a : leaves (Return a)
| l_break a : leaves (Break a)
| l_next a : leaves (Next a)
| l_redo : leaves Redo
| l_retry : leaves Retry
| l_call f a b : never_returns None f -> leaves (Call RNone f a b)
| l_const c f a b : never_returns (Some c) f -> leaves (Call (RConst c) f a b)
| l_if p s e : ends s -> arms e -> leaves (If p s e)
| l_unless p s e : ends s -> arms e -> leaves (Unless p s e)
with ends : stmts -> Prop :=
| e_last l n : leaves n -> ends (SCons l n SNil)
| e_more l n s : ends s -> ends (SCons l n s)
with arms : tail -> Prop :=
| a_else s : ends s -> arms (Else s)
| a_elsif p s e : ends s -> arms e -> arms (Elsif p s e).

(** Structured programs: operands are plain expressions (they do not jump), no parenthesised
    statement lists, no exception handling, no pattern matching, no bare [loop]. *)
Definition ending (r : recv) (f : string) : bool :=
  existsb (String.eqb f) ["raise"; "fail"; "throw"; "exit"; "exit!"; "abort"] &&
  match r with
  | RNone => true
  | RConst c => (String.eqb c "Process" || String.eqb c "Kernel")%bool
  | RNode _ => false
  end.

Definition looping (r : recv) (f : string) (b : blk) : bool :=
  match r, b with RNone, BBlock _ => String.eqb f "loop" | _, _ => false end.

Definition expression (n : node) : bool :=
  match n with
  | Lit | Group _ | Lambda _ | Def _ | While _ _ _ | For _ _ | And _ _ | Or _ _ => true
  | Call r f _ b => negb (ending r f) && negb (looping r f b)
  | _ => false
  end.

Fixpoint expressions (a : args) : bool :=
  match a with ANil => true | ACons n a => expression n && expressions a end.
Fixpoint tests (e : tail) : bool :=
  match e with Elsif p _ e => expression p && tests e | _ => true end.
Fixpoint patterns (w : whens) : bool :=
  match w with WNil => true | WCons a _ w => expressions a && patterns w end.

Definition structured (n : node) : bool :=
  match n with
  | Lit | Redo | Retry | Stmts _ | Lambda _ | Def _ => true
  | Return a | Break a | Next a | Group a => expressions a
  | Call r f a b =>
      match r with RNode n => expression n | _ => true end && expressions a &&
      match b with
      | BNone => true
      | BPass n => expression n
      | BBlock _ => negb (ending r f) && negb (looping r f b)
      end
  | If p _ e | Unless p _ e => expression p && tests e
  | Case p w e => expression p && patterns w && tests e
  | While _ c _ | For c _ => expression c
  | And a _ | Or a _ => expression a
  | _ => false
  end.
