(** The types shown for local variables, and the inferred return type of a method.

    Models the forward pass of crates/ruby-analysis/src/inference/type_tracker/mod.rs
    ([track_node] and what it calls), narrow.rs of the same directory and the divergence test of
    inference/control_flow.rs.  The type algebra is that of Types_Model.

    Simplifications:
    - hash shapes, their aliases and mutations, callables (procs kept in locals), dependencies on
      constants and the equations for recursive methods are left out, as are array and hash
      literals, pattern matching ([case ... in]), multiple assignment and [for];
    - the fields of the tracker which only ever grow are returned as lists instead;
    - what the tracker asks the rest of the analysis (the result type of a method on a receiver
      type, the parameter types of a block, the type of a constant) is given by [facts];
    - a variable first assigned inside a block is not told apart from one of the method. *)
From Coq Require Import List Bool NArith.
From Verif Require Import Types_Model.
From Coq Require Import Ascii String.
Import ListNotations.
Local Open Scope string_scope.
Local Open Scope list_scope.

(** The Prism nodes met by [track_node], mod.rs 1118-1233, and [infer_expression], 2882-2953.
    A read carries its byte offset; [OrWrite] is [x ||= v] and [OpWrite] stands for [x += v] and
    the like; [Const] is a constant path as written; the flag of a call says it is written with
    [&.]; [Logic] is [and] or [or]; an [elsif] is an [if] alone in an [else], which is how
    [track_if] treats it; a block lists its parameters and the locals which are its own. *)
Inductive node :=
| Lit (t : ty)
| Read (l : N) (x : N)
| Write (x : N) (v : node)
| OrWrite (x : N) (v : node)
| OpWrite (x : N) (f : string) (v : node)
| Const (c : fqn)
| Call (safe : bool) (r : recv) (f : string) (a : args) (b : blk)
| If (unless : bool) (p : node) (t : stmts) (e : tail)
| Case (p : node) (w : whens) (e : tail)
| Logic (or : bool) (a b : node)
| Begin (b : stmts) (r : rescues) (e : tail) (n : tail)
| RescueMod (a b : node)
| While (until : bool) (c : node) (b : stmts)
| Return (v : recv)
| Break | Next | Retry
| Paren (s : stmts)
| Stmts (s : stmts)
with args := ANil | ACons (n : node) (a : args)
with recv := RNone | RNode (n : node)
with blk := BNone | BBlock (ps ls : list N) (s : stmts)
with stmts := SNil | SCons (n : node) (s : stmts)
with tail := NoTail | Else (s : stmts)
with whens := WNil | WCons (pats : args) (s : stmts) (w : whens)
with rescues := RNil | RCons (x : option N) (s : stmts) (r : rescues).

(** control_flow.rs 405-446: the calls without receiver that never return (those on Process
    and Kernel are left out). *)
Definition terminators := ["raise"; "fail"; "throw"; "exit"; "exit!"; "abort"].
Definition terminating (r : recv) (f : string) : bool :=
  match r with RNone => existsb (String.eqb f) terminators | RNode _ => false end.

(** control_flow.rs 372-403: [BreakFinder] stops at blocks and at loops. *)
Fixpoint breaks (n : node) : bool :=
  match n with
  | Break => true
  | Lit _ | Read _ _ | Const _ | Next | Retry | While _ _ _ => false
  | Write _ v | OrWrite _ v | OpWrite _ _ v => breaks v
  | Call _ r _ a _ => breaks_v r || breaks_a a
  | If _ p t e => breaks p || breaks_s t || breaks_t e
  | Case p w e => breaks p || breaks_w w || breaks_t e
  | Begin b r e n => breaks_s b || breaks_r r || breaks_t e || breaks_t n
  | Logic _ a b | RescueMod a b => breaks a || breaks b
  | Return v => breaks_v v
  | Paren s | Stmts s => breaks_s s
  end
with breaks_a (a : args) : bool :=
  match a with ANil => false | ACons n a => breaks n || breaks_a a end
with breaks_v (r : recv) : bool := match r with RNone => false | RNode n => breaks n end
with breaks_s (s : stmts) : bool :=
  match s with SNil => false | SCons n s => breaks n || breaks_s s end
with breaks_t (e : tail) : bool :=
  match e with NoTail => false | Else s => breaks_s s end
with breaks_w (w : whens) : bool :=
  match w with WNil => false | WCons a s w => breaks_a a || breaks_s s || breaks_w w end
with breaks_r (r : rescues) : bool :=
  match r with RNil => false | RCons _ s r => breaks_s s || breaks_r r end.

(** control_flow.rs 349-370: [is_diverging_loop] *)
Definition endless (r : recv) (f : string) (b : blk) : bool :=
  match r, b with RNone, BBlock _ _ s => (f =? "loop") && negb (breaks_s s) | _, _ => false end.

(** control_flow.rs 71-144, 195-355: [diverges]; the kinds of exit are not needed here. *)
Fixpoint leaves (n : node) : bool :=
  match n with
  | Return _ | Break | Next | Retry => true
  | Call _ r f _ b => terminating r f || endless r f b
  | If _ _ t e => leaves_s t && leaves_t e
  | Case _ w e => leaves_w w && leaves_t e
  | Begin b r e n =>
      leaves_t n ||
      (leaves_s b || leaves_t e) && match r with RNil => true | RCons _ _ _ => leaves_r r end
  | Stmts s => leaves_s s
  | _ => false
  end
with leaves_s (s : stmts) : bool :=
  match s with SNil => false | SCons n SNil => leaves n | SCons _ s => leaves_s s end
with leaves_t (e : tail) : bool :=
  match e with NoTail => false | Else s => leaves_s s end
with leaves_w (w : whens) : bool :=
  match w with WNil => true | WCons _ s w => leaves_s s && leaves_w w end
with leaves_r (r : rescues) : bool :=
  match r with RNil => true | RCons _ s r => leaves_s s && leaves_r r end.

(** control_flow.rs 164-190: [has_unsupported_higher_order_exit]; stops at nested blocks. *)
Fixpoint jumps (n : node) : bool :=
  match n with
  | Break | Return _ | Retry => true
  | Lit _ | Read _ _ | Const _ | Next => false
  | Write _ v | OrWrite _ v | OpWrite _ _ v => jumps v
  | Call _ r _ a _ => jumps_v r || jumps_a a
  | If _ p t e => jumps p || jumps_s t || jumps_t e
  | Case p w e => jumps p || jumps_w w || jumps_t e
  | Begin b r e n => jumps_s b || jumps_r r || jumps_t e || jumps_t n
  | Logic _ a b | RescueMod a b => jumps a || jumps b
  | While _ c b => jumps c || jumps_s b
  | Paren s | Stmts s => jumps_s s
  end
with jumps_a (a : args) : bool :=
  match a with ANil => false | ACons n a => jumps n || jumps_a a end
with jumps_v (r : recv) : bool := match r with RNone => false | RNode n => jumps n end
with jumps_s (s : stmts) : bool :=
  match s with SNil => false | SCons n s => jumps n || jumps_s s end
with jumps_t (e : tail) : bool :=
  match e with NoTail => false | Else s => jumps_s s end
with jumps_w (w : whens) : bool :=
  match w with WNil => false | WCons a s w => jumps_a a || jumps_s s || jumps_w w end
with jumps_r (r : rescues) : bool :=
  match r with RNil => false | RCons _ s r => jumps_s s || jumps_r r end.

(** mod.rs 84-170, 163-168: [FlowEnvironment], of which only the types are kept.  A HashMap is a
    function. *)
Definition env := N -> option ty.
Definition set (e : env) (x : N) (t : ty) : env := fun y => if N.eqb y x then Some t else e y.
Definition sets (e : env) (l : list (N * ty)) : env := fold_left (fun e b => set e (fst b) (snd b)) l e.

(** mod.rs 4507-4552: [merge_env]; both values of its flag do the same. *)
Definition merge (a b : env) : env := fun x =>
  match a x, b x with
  | Some t, Some u => Some (if Types_Model.eqb t u then t else union [t; u])
  | None, Some u => Some (union [u; nil_class])
  | Some t, None => Some (union [t; nil_class])
  | None, None => None
  end.

(** narrow.rs 24-77: [narrow]; [node_to_class_type] 81-94 takes the constant as written. *)
Fixpoint narrow (e : env) (p : node) (truth : bool) : env :=
  match p with
  | Call _ (RNode q) f a _ =>
      match a with
      | ANil =>
          if f =? "!" then narrow e q (negb truth)
          else match q with
               | Read _ x =>
                   if f =? "nil?" then
                     if truth then set e x nil_class
                     else match e x with Some t => set e x (remove_nil t) | None => e end
                   else e
               | _ => e
               end
      | ACons (Const c) ANil =>
          match q with
          | Read _ x =>
              if (f =? "is_a?") || (f =? "kind_of?") || (f =? "instance_of?") then
                if truth then set e x (TClass c)
                else match e x with Some t => set e x (subtract t (TClass c)) | None => e end
              else e
          | _ => e
          end
      | _ => e
      end
  | _ => e
  end.

(** mod.rs 5468-5512: [ruby_truthiness] ([None] is Conditional) and [is_falsy_type]. *)
Definition falsy (t : ty) : bool :=
  match t with TClass f => Nat.eqb (ftext f) nil_text || Nat.eqb (ftext f) false_text | _ => false end.
Definition truthiness (t : ty) : option bool :=
  match t with
  | TUnknown => None
  | TUnion l =>
      match existsb (fun m => negb (falsy m)) l, existsb falsy l with
      | true, false => Some true
      | false, true => Some false
      | _, _ => None
      end
  | t => Some (negb (falsy t))
  end.

(** mod.rs 5514-5545: [short_circuit_result_type]; [keep] says which members of the left type
    are results.  The panic on a left type which is neither Unknown nor a union is not modelled:
    [truthiness] is Conditional for no other type. *)
Definition short_circuit (keep : ty -> bool) (l r : ty) : ty :=
  match l with TUnion ms => union (filter keep ms ++ [r]) | _ => TUnknown end.

(** What the tracker learns from the index: the result type of a method on a receiver type (no
    receiver: on self), for a call with a block the types of its parameters and the result type
    given the type of the block's value, and the type of a constant. *)
Record facts := {
  ret : string -> option ty -> ty;
  hof : string -> option ty -> list ty -> option (list ty * (ty -> option ty));
  cval : fqn -> ty }.

(** The tracker: the environment, and [has_seen_control_flow] (mod.rs 600). *)
Record state := { vars : env; flow : bool }.
Definition at_ (e : env) (st : state) : state := {| vars := e; flow := flow st |}.
Definition flowing (st : state) : state := {| vars := vars st; flow := true |}.

(** What it hands out: the types of reads ([local_read_types]), the observations made for
    enclosing rescue clauses ([observe_rescue_entry_type] adds each to every open accumulator),
    the types of [return]ed values, and, for the statement of the theorems only, the environments
    before and after each pass over a part of a loop and the types of the left operands of
    [and] and [or]. *)
Record out := { reads : list (N * ty); obs : list (N * ty); rets : list ty; passes : list (env * env);
  tests : list ty }.
Definition nothing : out := {| reads := []; obs := []; rets := []; passes := []; tests := [] |}.
Definition plus (a b : out) : out :=
  {| reads := reads a ++ reads b; obs := obs a ++ obs b; rets := rets a ++ rets b;
     passes := passes a ++ passes b; tests := tests a ++ tests b |}.
Definition observed (x : N) (t : ty) : out := {| reads := []; obs := [(x, t)]; rets := []; passes := []; tests := [] |}.
Definition passed (a b : env) : out := {| reads := []; obs := []; rets := []; passes := [(a, b)]; tests := [] |}.
Definition returned (t : ty) : out := {| reads := []; obs := []; rets := [t]; passes := []; tests := [] |}.
Definition tested (t : ty) : out := {| reads := []; obs := []; rets := []; passes := []; tests := [t] |}.
Definition read_as (l : N) (t : ty) : out := {| reads := [(l, t)]; obs := []; rets := []; passes := []; tests := [] |}.

(** mod.rs 3170, 3207: returns inside a block are forgotten *)
Definition unreturned (o : out) : out :=
  {| reads := reads o; obs := obs o; rets := []; passes := passes o; tests := tests o |}.

Record res := { rt : ty; rs : state; ro : out }.
Definition just (t : ty) (st : state) : res := {| rt := t; rs := st; ro := nothing |}.
Definition also (o : out) (r : res) : res := {| rt := rt r; rs := rs r; ro := plus o (ro r) |}.

(** mod.rs 492-509: [RescueEntryTypes], the union of what was observed for each variable, over
    the environment before the protected code. *)
Definition entry_type (l : list (N * ty)) (x : N) : option ty :=
  fold_left (fun o b =>
    if N.eqb (fst b) x then Some (match o with Some t => union [t; snd b] | None => snd b end) else o) l None.
Definition entry (e : env) (l : list (N * ty)) : env := fun x =>
  match entry_type l x with Some t => Some t | None => e x end.

(** The arms of a branch: environment, type and whether the arm leaves. *)
Record arm := { a_env : env; a_type : ty; a_gone : bool }.
Definition staying (l : list arm) : list arm := filter (fun a => negb (a_gone a)) l.
(** mod.rs 5579-5590: [join_branch_types] *)
Definition join_types (l : list arm) : ty :=
  match staying l with [] => TUnknown | l => union (map a_type l) end.
(** mod.rs 2306-2320, 2634-2642: the environment after the arms *)
Definition join_envs (before : env) (l : list arm) : env :=
  match staying l with
  | [] => before
  | a :: l => fold_left (fun e b => merge e (a_env b)) l (a_env a)
  end.
(** mod.rs 2186-2204; 2822-2838 for [unless] *)
Definition join_if (before : env) (p : node) (unless : bool) (t e : arm) : env :=
  match a_gone t, a_gone e with
  | true, true => before
  | true, false => narrow (a_env e) p unless
  | false, true => narrow (a_env t) p (negb unless)
  | false, false => merge (a_env t) (a_env e)
  end.
Definition arm_of (r : res) (gone : bool) : arm := {| a_env := vars (rs r); a_type := rt r; a_gone := gone |}.

(** Nodes which [infer_expression] (mod.rs 2882-2953) looks into; called on any other node it
    answers Unknown at once. *)
Definition direct (n : node) : bool :=
  match n with
  | Lit _ | Read _ _ | Const _ | Call _ _ _ _ _ | Return _ | Paren _ => true
  | _ => false
  end.

(** mod.rs 2705-2714: the passes over the body of a loop *)
Fixpoint again (k : nat) (f : state -> res) (last : ty) (st : state) : res :=
  match k with
  | O => just last st
  | S k =>
      let r := f st in
      also (plus (ro r) (passed (vars st) (vars (rs r)))) (again k f (rt r) (rs r))
  end.
(** mod.rs 754, 2701-2705: ten passes over an outermost loop, one over a nested loop *)
Definition pass_count (nested : bool) : nat := if nested then 1 else 10.

Definition parameters (ps : list N) (ts : list ty) : list (N * ty) :=
  map (fun i => (nth i ps 0%N, nth i ts nil_class)) (seq 0 (List.length ps)).

(** mod.rs 3109-3111 *)
Fixpoint bang (f : string) : bool :=
  match f with
  | EmptyString => false
  | String c EmptyString => Ascii.eqb c "!"%char
  | String _ f => bang f
  end.
Definition is_new (r : recv) (f : string) : option fqn :=
  match r with RNode (Const c) => if f =? "new" then Some c else None | _ => None end.

(** mod.rs 3032-3100: a call whose block, if any, is not looked at; [receiver] looks at the
    receiver. *)
Definition plain_call (T : facts) (r : recv) (f : string) (receiver : state -> res) (st : state) : res :=
  match is_new r f with
  | Some c => just (TClass c) st
  | None =>
      match r with
      | RNone => just (ret T f None) st
      | RNode _ =>
          let q := receiver st in
          {| rt := if is_unknown (rt q) then TUnknown else ret T f (Some (rt q));
             rs := rs q; ro := ro q |}
      end
  end.
(** mod.rs 3103-3214 and, where it gives up, [plain_call]; [arguments] and [block] look at the
    arguments and the body of the block, [jump] says the body has an exit it does not support. *)
Definition block_call (T : facts) (r : recv) (f : string) (ps : list N) (jump : bool)
  (receiver : state -> res) (arguments : state -> list ty * state * out) (block : state -> res) (st : state) : res :=
  let q := receiver st in
  let known := match r with RNode _ => Some (rt q) | RNone => None end in
  if match known with Some t => contains_unknown t | None => false end then
    also (ro q) (plain_call T r f receiver (rs q))
  else
    let '(ts, st1, o) := arguments (rs q) in
    let o := plus (ro q) o in
    match hof T f known ts with
    | None => also o (plain_call T r f receiver st1)
    | Some (params, result) =>
        if jump then also o (plain_call T r f receiver st1)
        else
          let k := block (at_ (sets (vars st1) (parameters ps params)) st1) in
          let o := plus o (unreturned (ro k)) in
          match result (rt k) with
          | Some t => {| rt := t; rs := at_ (vars st1) (rs k); ro := o |}
          | None => also o (plain_call T r f receiver (at_ (vars st1) (rs k)))
          end
    end.

(** [track_node] and [infer_expression].  [p]: inside a protected body ([rescue_entry_types] is
    not empty); [d]: inside a loop.
    Statements 1247-1260; assignments 1265-1388; if 2131-2210; unless 2767-2840; case 2216-2328;
    begin 2575-2659; rescue modifier 2661-2689; loops 2695-2764; and/or 2851-2880 (the flag
    of [Logic] is true for or); calls
    2983-3101 with 3103-3232; return 4191-4260. *)
Fixpoint track (T : facts) (p d : bool) (n : node) (st : state) {struct n} : res :=
  match n with
  | Lit t => just t st
  | Read l x =>
      let t := match vars st x with Some t => t | None => TUnknown end in
      {| rt := t; rs := st;
         ro := if flow st then read_as l t else nothing |}
  | Write x v =>
      let before := match vars st x with Some t => t | None => nil_class end in
      let r := track T p d v st in
      {| rt := rt r;
         rs := at_ (set (vars (rs r)) x (rt r)) (rs r);
         ro := if p then plus (observed x before) (plus (ro r) (observed x (rt r))) else ro r |}
  | OrWrite _ _ | OpWrite _ _ _ | Break | Next | Retry => just TUnknown st
  | Const c => just (cval T c) st
  | Call _ r f a b =>
      let receiver st :=
        match r with
        | RNone => just TUnknown st
        | RNode n => if direct n then track T p d n st else just TUnknown st
        end in
      match b with
      | BNone => plain_call T r f receiver st
      | BBlock ps _ s =>
          if bang f then plain_call T r f receiver st
          else block_call T r f ps (jumps_s s) receiver (track_a T p d a) (track_s T p d s) st
      end
  | If u q t e =>
      let r := track T p d q (flowing st) in
      let k := track_s T p d t (rs r) in
      let m := track_t T p d e (at_ (vars (rs r)) (rs k)) in
      let x := arm_of k (leaves_s t) in
      let y := arm_of m (leaves_t e) in
      {| rt := join_types [x; y]; rs := at_ (join_if (vars (rs r)) q u x y) (rs m);
         ro := plus (ro r) (plus (ro k) (ro m)) |}
  | Case q w e =>
      let r := track T p d q (flowing st) in
      let '(l, st1, o) := track_w T p d w (rs r) in
      let m := track_t T p d e (at_ (vars (rs r)) st1) in
      let l := l ++ [arm_of m (leaves_t e)] in
      {| rt := join_types l; rs := at_ (join_envs (vars (rs r)) l) (rs m);
         ro := plus (ro r) (plus o (ro m)) |}
  | Logic or a b =>
      let r := track T p d a (flowing st) in
      let o := plus (ro r) (tested (rt r)) in
      match truthiness (rt r) with
      | Some truth =>
          if Bool.eqb truth or then {| rt := rt r; rs := rs r; ro := o |}
          else also o (track T p d b (rs r))
      | None =>
          let k := track T p d b (rs r) in
          {| rt := short_circuit (fun t => Bool.eqb (falsy t) (negb or)) (rt r) (rt k);
             rs := at_ (merge (vars (rs r)) (vars (rs k))) (rs k); ro := plus o (ro k) |}
      end
  | Begin b r e n =>
      let st := flowing st in
      let protected := match r with RNil => false | RCons _ _ _ => true end in
      let k := track_s T (p || protected) d b st in
      let m :=
        match e with
        | NoTail => just (rt k) (rs k)
        | Else s => match s with SNil => just (rt k) (rs k) | _ => track_s T p d s (rs k) end
        end in
      let '(l, st1, o) := track_r T p d r (at_ (entry (vars st) (obs (ro k))) (rs m)) in
      let l := arm_of m (leaves_s b || leaves_t e) :: l in
      let joined := at_ (join_envs (vars st) l) st1 in
      let z := track_t T p d n joined in
      {| rt := join_types l; rs := rs z; ro := plus (ro k) (plus (ro m) (plus o (ro z))) |}
  | RescueMod a b =>
      let st := flowing st in
      let k := track T true d a st in
      let m := track T p d b (at_ (entry (vars st) (obs (ro k))) (rs k)) in
      {| rt := join_types [arm_of k (leaves a); arm_of m (leaves b)];
         rs := at_ (merge (vars (rs k)) (vars (rs m))) (rs m); ro := plus (ro k) (ro m) |}
  | While _ c b =>
      let st := flowing st in
      let r := track T p d c st in
      let k := again (pass_count d) (track_s T p true b) nil_class (rs r) in
      {| rt := rt k; rs := at_ (merge (vars (rs r)) (vars (rs k))) (rs k);
         ro := plus (plus (ro r) (passed (vars st) (vars (rs r)))) (ro k) |}
  | Return v =>
      match v with
      | RNone => {| rt := nil_class; rs := st; ro := returned nil_class |}
      | RNode n =>
          let q := if direct n then track T p d n st else just TUnknown st in
          {| rt := rt q; rs := rs q; ro := plus (ro q) (returned (rt q)) |}
      end
  | Paren s | Stmts s => track_s T p d s st
  end
with track_a (T : facts) (p d : bool) (a : args) (st : state) {struct a} : list ty * state * out :=
  match a with
  | ANil => ([], st, nothing)
  | ACons n a =>
      let r := track T p d n st in
      let '(ts, st1, o) := track_a T p d a (rs r) in
      (rt r :: ts, st1, plus (ro r) o)
  end
with track_s (T : facts) (p d : bool) (s : stmts) (st : state) {struct s} : res :=
  match s with
  | SNil => just nil_class st
  | SCons n s =>
      let r := track T p d n st in
      match s with
      | SNil => r
      | _ => also (ro r) (track_s T p d s (rs r))
      end
  end
with track_t (T : facts) (p d : bool) (e : tail) (st : state) {struct e} : res :=
  match e with
  | NoTail => just nil_class st
  | Else s => track_s T p d s st
  end
with track_w (T : facts) (p d : bool) (w : whens) (st : state) {struct w} : list arm * state * out :=
  match w with
  | WNil => ([], st, nothing)
  | WCons _ s w =>
      let k := track_s T p d s st in
      let '(l, st1, o) := track_w T p d w (at_ (vars st) (rs k)) in
      (arm_of k (leaves_s s) :: l, st1, plus (ro k) o)
  end
with track_r (T : facts) (p d : bool) (r : rescues) (st : state) {struct r} : list arm * state * out :=
  match r with
  | RNil => ([], st, nothing)
  | RCons _ s r =>
      let k := track_s T p d s st in
      let '(l, st1, o) := track_r T p d r (at_ (vars st) (rs k)) in
      (arm_of k (leaves_s s) :: l, st1, plus (ro k) o)
  end.

(** mod.rs 877-894: the type kept for a read is the one recorded last for its place. *)
Definition shown (l : N) (o : out) : option ty :=
  fold_left (fun a b => if N.eqb (fst b) l then Some (snd b) else a) (reads o) None.

(** mod.rs 1044-1112, 5558-5577: the result of a method with the given parameter types and body,
    without calls of methods of the same file.  Only parameters with a declared type are in the
    environment (fact_collector/def_node.rs 307-335, 424-429).  [track_program] is [track] from
    the empty environment. *)
Definition start (params : env) : state := {| vars := params; flow := false |}.
Definition tracked (T : facts) (params : env) (body : node) : res := track T false false body (start params).
Definition method_type (T : facts) (params : env) (body : node) : ty :=
  let r := tracked T params body in
  let l := rets (ro r) ++ (if leaves body then [] else [rt r]) in
  if existsb is_unknown l then TUnknown
  else match l with [] => TUnknown | l => union l end.
