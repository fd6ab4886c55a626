(** How the programs of TypeFlow_Model run, and the programs on which the types shown for reads
    are right.

    Values and the meaning of types are those of Types_Spec; 0 is [nil] and 1 is [false]. *)
From Coq Require Import List Bool NArith.
From Verif Require Import Types_Model Types_Spec TypeFlow_Model.
From Coq Require Import String.
Import ListNotations.
Local Open Scope string_scope.
Local Open Scope list_scope.

Definition vnil := VObj 0.
Definition vfalse := VObj 1.
Definition truthy (v : val) : bool := match v with VObj 0 | VObj 1 => false | _ => true end.
Definition is_vnil (v : val) : bool := match v with VObj 0 => true | _ => false end.

(** What a program runs in: the meaning of class names, self, the constants as written, the
    results a method can have given receiver, arguments and the results of its block, and the
    arguments with which it can run its block. *)
Record world := {
  named : meaning;
  self : val;
  konst : fqn -> val;
  sends : val -> string -> list val -> list val -> val -> Prop;
  yields : val -> string -> list val -> list val -> Prop }.

(** The values of the locals; a local which was never assigned is nil. *)
Definition store := N -> val.
Definition upd (s : store) (x : N) (v : val) : store := fun y => if N.eqb y x then v else s y.
(** A block starts with its own locals unset and its parameters bound; missing arguments are nil. *)
Definition bind (s : store) (ps ls : list N) (vs : list val) : store :=
  fold_left (fun s i => upd s (nth i ps 0%N) (nth i vs vnil)) (seq 0 (List.length ps))
    (fold_left (fun s x => upd s x vnil) ls s).
Definition member (x : N) (l : list N) : bool := existsb (N.eqb x) l.
Definition unbind (before after : store) (l : list N) : store :=
  fun x => if member x l then before x else after x.

(** [Cut]: the run is observed up to here. *)
Inductive outcome := Normal (v : val) | Ret (v : val) | Brk | Nxt | Rtr | Raised | Cut.
Definition abrupt (o : outcome) : Prop := match o with Normal _ => False | _ => True end.
(** one more value in front of the values of the rest *)
Definition push (v : val) (o : outcome) : outcome :=
  match o with Normal (VArr vs) => Normal (VArr (v :: vs)) | o => o end.

(** What is run: a node, a receiver, arguments (their values as one array), statements, a tail,
    the arms of a case, the body of a begin with its clauses, the clauses alone, the runs of a
    block (their values as one array). *)
Inductive code :=
| IN (n : node)
| IV (r : recv)
| IA (a : args)
| IS (s : stmts)
| IT (e : tail)
| IW (w : whens) (e : tail)
| IC (b : stmts) (r : rescues) (e : tail)
| IR (r : rescues)
| IK (w : val) (f : string) (vs : list val) (b : blk).

Fixpoint capp (a b : args) : args := match a with ANil => b | ACons n a => ACons n (capp a b) end.

(** [exec W c s tr o s']: from the store [s], the code may run to [s'] with the outcome [o],
    reading the variables listed in [tr], each with the place of the read and the value read. *)
Inductive exec (W : world) : code -> store -> list (N * val) -> outcome -> store -> Prop :=
| X_cut c s : exec W c s [] Cut s
| X_lit t v s : den (named W) t v -> exec W (IN (Lit t)) s [] (Normal v) s
| X_const c s : exec W (IN (Const c)) s [] (Normal (konst W c)) s
| X_read l x s : exec W (IN (Read l x)) s [(l, s x)] (Normal (s x)) s
| X_write x n s tr v s' :
    exec W (IN n) s tr (Normal v) s' -> exec W (IN (Write x n)) s tr (Normal v) (upd s' x v)
| X_write_stop x n s tr o s' :
    exec W (IN n) s tr o s' -> abrupt o -> exec W (IN (Write x n)) s tr o s'
| X_or_have x n s : truthy (s x) = true -> exec W (IN (OrWrite x n)) s [] (Normal (s x)) s
| X_or_set x n s tr v s' :
    truthy (s x) = false -> exec W (IN n) s tr (Normal v) s' -> exec W (IN (OrWrite x n)) s tr (Normal v) (upd s' x v)
| X_or_stop x n s tr o s' :
    truthy (s x) = false -> exec W (IN n) s tr o s' -> abrupt o -> exec W (IN (OrWrite x n)) s tr o s'
| X_op x f n s tr u v s' :
    exec W (IN n) s tr (Normal u) s' -> sends W (s x) f [u] [] v ->
    exec W (IN (OpWrite x f n)) s tr (Normal v) (upd s' x v)
| X_op_raise x f n s tr u s' :
    exec W (IN n) s tr (Normal u) s' -> exec W (IN (OpWrite x f n)) s tr Raised s'
| X_op_stop x f n s tr o s' :
    exec W (IN n) s tr o s' -> abrupt o -> exec W (IN (OpWrite x f n)) s tr o s'
(* receivers and arguments *)
| X_self s : exec W (IV RNone) s [] (Normal (self W)) s
| X_recv n s tr o s' : exec W (IN n) s tr o s' -> exec W (IV (RNode n)) s tr o s'
| X_anil s : exec W (IA ANil) s [] (Normal (VArr [])) s
| X_acons n a s t1 v s1 t2 o s2 :
    exec W (IN n) s t1 (Normal v) s1 -> exec W (IA a) s1 t2 o s2 ->
    exec W (IA (ACons n a)) s (t1 ++ t2) (push v o) s2
| X_acons_stop n a s tr o s' :
    exec W (IN n) s tr o s' -> abrupt o -> exec W (IA (ACons n a)) s tr o s'
(* calls *)
| X_call_safe r f a b s tr s' :
    exec W (IV r) s tr (Normal vnil) s' -> exec W (IN (Call true r f a b)) s tr (Normal vnil) s'
| X_call_recv safe r f a b s tr o s' :
    exec W (IV r) s tr o s' -> abrupt o -> exec W (IN (Call safe r f a b)) s tr o s'
| X_call_args safe r f a b s t1 w s1 t2 o s2 :
    exec W (IV r) s t1 (Normal w) s1 -> (safe = true -> w <> vnil) ->
    exec W (IA a) s1 t2 o s2 -> abrupt o ->
    exec W (IN (Call safe r f a b)) s (t1 ++ t2) o s2
| X_call safe r f a b s t1 w s1 t2 vs s2 t3 us s3 v :
    exec W (IV r) s t1 (Normal w) s1 -> (safe = true -> w <> vnil) ->
    exec W (IA a) s1 t2 (Normal (VArr vs)) s2 ->
    exec W (IK w f vs b) s2 t3 (Normal (VArr us)) s3 ->
    sends W w f vs us v ->
    exec W (IN (Call safe r f a b)) s (t1 ++ t2 ++ t3) (Normal v) s3
| X_call_raise safe r f a b s t1 w s1 t2 vs s2 t3 us s3 :
    exec W (IV r) s t1 (Normal w) s1 -> (safe = true -> w <> vnil) ->
    exec W (IA a) s1 t2 (Normal (VArr vs)) s2 ->
    exec W (IK w f vs b) s2 t3 (Normal (VArr us)) s3 ->
    exec W (IN (Call safe r f a b)) s (t1 ++ t2 ++ t3) Raised s3
| X_call_break safe r f a b s t1 w s1 t2 vs s2 t3 s3 :
    exec W (IV r) s t1 (Normal w) s1 -> (safe = true -> w <> vnil) ->
    exec W (IA a) s1 t2 (Normal (VArr vs)) s2 ->
    exec W (IK w f vs b) s2 t3 Brk s3 ->
    exec W (IN (Call safe r f a b)) s (t1 ++ t2 ++ t3) (Normal vnil) s3
| X_call_stop safe r f a b s t1 w s1 t2 vs s2 t3 o s3 :
    exec W (IV r) s t1 (Normal w) s1 -> (safe = true -> w <> vnil) ->
    exec W (IA a) s1 t2 (Normal (VArr vs)) s2 ->
    exec W (IK w f vs b) s2 t3 o s3 -> abrupt o -> o <> Brk ->
    exec W (IN (Call safe r f a b)) s (t1 ++ t2 ++ t3) o s3
| X_runs_end w f vs b s : exec W (IK w f vs b) s [] (Normal (VArr [])) s
| X_run w f vs ps ls body xs s t1 v s1 t2 o s2 :
    yields W w f vs xs -> exec W (IS body) (bind s ps ls xs) t1 (Normal v) s1 ->
    exec W (IK w f vs (BBlock ps ls body)) (unbind s s1 (ps ++ ls)) t2 o s2 ->
    exec W (IK w f vs (BBlock ps ls body)) s (t1 ++ t2) (push v o) s2
| X_run_next w f vs ps ls body xs s t1 s1 t2 o s2 :
    yields W w f vs xs -> exec W (IS body) (bind s ps ls xs) t1 Nxt s1 ->
    exec W (IK w f vs (BBlock ps ls body)) (unbind s s1 (ps ++ ls)) t2 o s2 ->
    exec W (IK w f vs (BBlock ps ls body)) s (t1 ++ t2) (push vnil o) s2
| X_run_stop w f vs ps ls body xs s t1 o s1 :
    yields W w f vs xs -> exec W (IS body) (bind s ps ls xs) t1 o s1 -> abrupt o -> o <> Nxt ->
    exec W (IK w f vs (BBlock ps ls body)) s t1 o (unbind s s1 (ps ++ ls))
(* branches *)
| X_if_stop u q t e s tr o s' : exec W (IN q) s tr o s' -> abrupt o -> exec W (IN (If u q t e)) s tr o s'
| X_if_then u q t e s t1 v s1 t2 o s2 :
    exec W (IN q) s t1 (Normal v) s1 -> truthy v = negb u -> exec W (IS t) s1 t2 o s2 ->
    exec W (IN (If u q t e)) s (t1 ++ t2) o s2
| X_if_else u q t e s t1 v s1 t2 o s2 :
    exec W (IN q) s t1 (Normal v) s1 -> truthy v = u -> exec W (IT e) s1 t2 o s2 ->
    exec W (IN (If u q t e)) s (t1 ++ t2) o s2
| X_no_tail s : exec W (IT NoTail) s [] (Normal vnil) s
| X_else b s tr o s' : exec W (IS b) s tr o s' -> exec W (IT (Else b)) s tr o s'
| X_case_stop q w e s tr o s' : exec W (IN q) s tr o s' -> abrupt o -> exec W (IN (Case q w e)) s tr o s'
| X_case q w e s t1 v s1 t2 o s2 :
    exec W (IN q) s t1 (Normal v) s1 -> exec W (IW w e) s1 t2 o s2 ->
    exec W (IN (Case q w e)) s (t1 ++ t2) o s2
| X_when_hit a1 a2 b w e s t1 vs s1 t2 o s2 :
    exec W (IA a1) s t1 (Normal vs) s1 -> exec W (IS b) s1 t2 o s2 ->
    exec W (IW (WCons (capp a1 a2) b w) e) s (t1 ++ t2) o s2
| X_when_miss a b w e s t1 vs s1 t2 o s2 :
    exec W (IA a) s t1 (Normal vs) s1 -> exec W (IW w e) s1 t2 o s2 ->
    exec W (IW (WCons a b w) e) s (t1 ++ t2) o s2
| X_when_stop a b w e s tr o s' :
    exec W (IA a) s tr o s' -> abrupt o -> exec W (IW (WCons a b w) e) s tr o s'
| X_when_none e s tr o s' : exec W (IT e) s tr o s' -> exec W (IW WNil e) s tr o s'
| X_logic_left or a b s tr v s' :
    exec W (IN a) s tr (Normal v) s' -> truthy v = or -> exec W (IN (Logic or a b)) s tr (Normal v) s'
| X_logic_right or a b s t1 v s1 t2 o s2 :
    exec W (IN a) s t1 (Normal v) s1 -> truthy v = negb or -> exec W (IN b) s1 t2 o s2 ->
    exec W (IN (Logic or a b)) s (t1 ++ t2) o s2
| X_logic_stop or a b s tr o s' :
    exec W (IN a) s tr o s' -> abrupt o -> exec W (IN (Logic or a b)) s tr o s'
(* exceptions; a clause need not match *)
| X_begin b r e s tr o s' : exec W (IC b r e) s tr o s' -> exec W (IN (Begin b r e NoTail)) s tr o s'
| X_ensure b r e n s t1 o s1 t2 v s2 :
    exec W (IC b r e) s t1 o s1 -> o <> Cut -> exec W (IS n) s1 t2 (Normal v) s2 ->
    exec W (IN (Begin b r e (Else n))) s (t1 ++ t2) o s2
| X_ensure_stop b r e n s t1 o s1 t2 o' s2 :
    exec W (IC b r e) s t1 o s1 -> o <> Cut -> exec W (IS n) s1 t2 o' s2 -> abrupt o' ->
    exec W (IN (Begin b r e (Else n))) s (t1 ++ t2) o' s2
| X_ensure_cut b r e n s tr s' :
    exec W (IC b r e) s tr Cut s' -> exec W (IN (Begin b r e (Else n))) s tr Cut s'
| X_body b r s tr v s' : exec W (IS b) s tr (Normal v) s' -> exec W (IC b r NoTail) s tr (Normal v) s'
| X_body_else b r e s t1 v s1 t2 o s2 :
    exec W (IS b) s t1 (Normal v) s1 -> exec W (IS e) s1 t2 o s2 -> exec W (IC b r (Else e)) s (t1 ++ t2) o s2
| X_body_stop b r e s tr o s' : exec W (IS b) s tr o s' -> abrupt o -> exec W (IC b r e) s tr o s'
| X_rescued b r e s t1 s1 t2 o s2 :
    exec W (IS b) s t1 Raised s1 -> exec W (IR r) s1 t2 o s2 -> o <> Rtr -> exec W (IC b r e) s (t1 ++ t2) o s2
| X_retry b r e s t1 s1 t2 s2 t3 o s3 :
    exec W (IS b) s t1 Raised s1 -> exec W (IR r) s1 t2 Rtr s2 -> exec W (IC b r e) s2 t3 o s3 ->
    exec W (IC b r e) s (t1 ++ t2 ++ t3) o s3
| X_clause x b r v s tr o s' :
    exec W (IS b) (match x with Some x => upd s x v | None => s end) tr o s' -> exec W (IR (RCons x b r)) s tr o s'
| X_clause_skip x b r s tr o s' : exec W (IR r) s tr o s' -> exec W (IR (RCons x b r)) s tr o s'
| X_mod_left a b s tr o s' : exec W (IN a) s tr o s' -> exec W (IN (RescueMod a b)) s tr o s'
| X_mod_right a b s t1 s1 t2 o s2 :
    exec W (IN a) s t1 Raised s1 -> exec W (IN b) s1 t2 o s2 -> exec W (IN (RescueMod a b)) s (t1 ++ t2) o s2
(* loops *)
| X_while_end u c b s tr v s' :
    exec W (IN c) s tr (Normal v) s' -> truthy v = u -> exec W (IN (While u c b)) s tr (Normal vnil) s'
| X_while_more u c b s t1 v s1 t2 o s2 t3 o' s3 :
    exec W (IN c) s t1 (Normal v) s1 -> truthy v = negb u ->
    exec W (IS b) s1 t2 o s2 -> (o = Nxt \/ exists v', o = Normal v') ->
    exec W (IN (While u c b)) s2 t3 o' s3 ->
    exec W (IN (While u c b)) s (t1 ++ t2 ++ t3) o' s3
| X_while_break u c b s t1 v s1 t2 s2 :
    exec W (IN c) s t1 (Normal v) s1 -> truthy v = negb u -> exec W (IS b) s1 t2 Brk s2 ->
    exec W (IN (While u c b)) s (t1 ++ t2) (Normal vnil) s2
| X_while_body_stop u c b s t1 v s1 t2 o s2 :
    exec W (IN c) s t1 (Normal v) s1 -> truthy v = negb u ->
    exec W (IS b) s1 t2 o s2 -> abrupt o -> o <> Nxt -> o <> Brk ->
    exec W (IN (While u c b)) s (t1 ++ t2) o s2
| X_while_stop u c b s tr o s' :
    exec W (IN c) s tr o s' -> abrupt o -> o <> Nxt -> o <> Brk -> exec W (IN (While u c b)) s tr o s'
(* exits *)
| X_return s : exec W (IN (Return RNone)) s [] (Ret vnil) s
| X_return_value n s tr v s' : exec W (IN n) s tr (Normal v) s' -> exec W (IN (Return (RNode n))) s tr (Ret v) s'
| X_return_stop n s tr o s' : exec W (IN n) s tr o s' -> abrupt o -> exec W (IN (Return (RNode n))) s tr o s'
| X_break s : exec W (IN Break) s [] Brk s
| X_next s : exec W (IN Next) s [] Nxt s
| X_retry_node s : exec W (IN Retry) s [] Rtr s
(* sequences *)
| X_paren b s tr o s' : exec W (IS b) s tr o s' -> exec W (IN (Paren b)) s tr o s'
| X_stmts b s tr o s' : exec W (IS b) s tr o s' -> exec W (IN (Stmts b)) s tr o s'
| X_empty s : exec W (IS SNil) s [] (Normal vnil) s
| X_last n s tr o s' : exec W (IN n) s tr o s' -> exec W (IS (SCons n SNil)) s tr o s'
| X_seq n b s t1 v s1 t2 o s2 :
    exec W (IN n) s t1 (Normal v) s1 -> exec W (IS b) s1 t2 o s2 -> b <> SNil ->
    exec W (IS (SCons n b)) s (t1 ++ t2) o s2
| X_seq_stop n b s tr o s' :
    exec W (IN n) s tr o s' -> abrupt o -> exec W (IS (SCons n b)) s tr o s'.

(** ** Honest facts

    What the index says is true of the world, and the methods with a fixed meaning behave. *)
Record honest (W : world) (T : facts) : Prop := {
  h_nil : forall f v, ftext f = nil_text -> (named W InstanceOfClass f v <-> v = vnil);
  h_nil_p : forall w us v, sends W w "nil?" [] us v -> truthy v = is_vnil w;
  h_not : forall w us v, sends W w "!" [] us v -> truthy v = negb (truthy w);
  h_is_a : forall w f c us v, In f ["is_a?"; "kind_of?"] -> sends W w f [konst W c] us v ->
    (truthy v = true <-> named W InstanceOfClass c w);
  h_instance_of : forall w c us v, sends W w "instance_of?" [konst W c] us v -> truthy v = true ->
    named W InstanceOfClass c w;
  h_new : forall c vs us v, sends W (konst W c) "new" vs us v -> named W InstanceOfClass c v;
  h_stop : forall f vs us v, In f ["raise"; "fail"; "throw"; "exit"; "exit!"; "abort"] -> ~ sends W (self W) f vs us v;
  h_const : forall c, den (named W) (cval T c) (konst W c);
  h_self : forall f vs us v, sends W (self W) f vs us v -> den (named W) (ret T f None) v;
  h_ret : forall t w f vs us v, den (named W) t w -> sends W w f vs us v -> den (named W) (ret T f (Some t)) v;
  h_hof : forall f known ts params result w vs, hof T f known ts = Some (params, result) ->
    match known with Some t => den (named W) t w | None => w = self W end ->
    Forall2 (den (named W)) ts vs ->
    (forall xs i, yields W w f vs xs -> den (named W) (nth i params nil_class) (nth i xs vnil)) /\
    (forall bt t us v, result bt = Some t -> Forall (den (named W) bt) us -> sends W w f vs us v ->
       den (named W) t v) }.

(** Every alternative of a known type tells whether its values are true: only those of NilClass and FalseClass are not. *)
Definition falsy_class (t : ty) : Prop := exists f, t = TClass f /\ (ftext f = nil_text \/ ftext f = false_text).
Definition tells (W : world) (t : ty) : Prop :=
  t <> TUnknown -> forall m v, In m (members t) -> den (named W) m v -> (truthy v = false <-> falsy_class m).

(** ** The parts of a program *)

(** [hit] decides some nodes; the others have the property if one of their parts has it. *)
Fixpoint any (hit : node -> option bool) (blocks : bool) (n : node) : bool :=
  match hit n with
  | Some b => b
  | None =>
      match n with
      | Lit _ | Read _ _ | Const _ | Break | Next | Retry => false
      | Write _ v | OrWrite _ v | OpWrite _ _ v => any hit blocks v
      | Call _ r _ a b => any_v hit blocks r || any_a hit blocks a || blocks && any_b hit blocks b
      | If _ p t e => any hit blocks p || any_s hit blocks t || any_t hit blocks e
      | Case p w e => any hit blocks p || any_w hit blocks w || any_t hit blocks e
      | Begin b r e n => any_s hit blocks b || any_r hit blocks r || any_t hit blocks e || any_t hit blocks n
      | Logic _ a b | RescueMod a b => any hit blocks a || any hit blocks b
      | While _ c b => any hit blocks c || any_s hit blocks b
      | Return v => any_v hit blocks v
      | Paren s | Stmts s => any_s hit blocks s
      end
  end
with any_v hit blocks (r : recv) : bool := match r with RNone => false | RNode n => any hit blocks n end
with any_a hit blocks (a : args) : bool :=
  match a with ANil => false | ACons n a => any hit blocks n || any_a hit blocks a end
with any_b hit blocks (b : blk) : bool := match b with BNone => false | BBlock _ _ s => any_s hit blocks s end
with any_s hit blocks (s : stmts) : bool :=
  match s with SNil => false | SCons n s => any hit blocks n || any_s hit blocks s end
with any_t hit blocks (e : tail) : bool := match e with NoTail => false | Else s => any_s hit blocks s end
with any_w hit blocks (w : whens) : bool :=
  match w with WNil => false | WCons a s w => any_a hit blocks a || any_s hit blocks s || any_w hit blocks w end
with any_r hit blocks (r : rescues) : bool :=
  match r with RNil => false | RCons _ s r => any_s hit blocks s || any_r hit blocks r end.

Definition is_retry (n : node) : option bool := match n with Retry => Some true | _ => None end.
Definition is_return (n : node) : option bool := match n with Return _ => Some true | _ => None end.
(** a [break] or [next] which leaves the code: not one inside a loop or a block of it *)
Definition is_break (n : node) : option bool := match n with Break => Some true | While _ _ _ => Some false | _ => None end.
Definition is_next (n : node) : option bool := match n with Next => Some true | While _ _ _ => Some false | _ => None end.

Definition assigns (l : list N) (n : node) : option bool :=
  match n with Write x _ => if member x l then Some true else None | _ => None end.

(** The places of the reads. *)
Fixpoint labs (n : node) : list N :=
  match n with
  | Read l _ => [l]
  | Lit _ | Const _ | Break | Next | Retry => []
  | Write _ v | OrWrite _ v | OpWrite _ _ v => labs v
  | Call _ r _ a b => labs_v r ++ labs_a a ++ labs_b b
  | If _ p t e => labs p ++ labs_s t ++ labs_t e
  | Case p w e => labs p ++ labs_w w ++ labs_t e
  | Begin b r e n => labs_s b ++ labs_r r ++ labs_t e ++ labs_t n
  | Logic _ a b | RescueMod a b => labs a ++ labs b
  | While _ c b => labs c ++ labs_s b
  | Return v => labs_v v
  | Paren s | Stmts s => labs_s s
  end
with labs_v (r : recv) : list N := match r with RNone => [] | RNode n => labs n end
with labs_a (a : args) : list N := match a with ANil => [] | ACons n a => labs n ++ labs_a a end
with labs_b (b : blk) : list N := match b with BNone => [] | BBlock _ _ s => labs_s s end
with labs_s (s : stmts) : list N := match s with SNil => [] | SCons n s => labs n ++ labs_s s end
with labs_t (e : tail) : list N := match e with NoTail => [] | Else s => labs_s s end
with labs_w (w : whens) : list N := match w with WNil => [] | WCons a s w => labs_a a ++ labs_s s ++ labs_w w end
with labs_r (r : rescues) : list N := match r with RNil => [] | RCons _ s r => labs_s s ++ labs_r r end.

(** The variables a run can assign; a block does not assign its parameters and its own locals for
    those outside. *)
Definition without (l k : list N) : list N := filter (fun x => negb (member x k)) l.
Fixpoint mods (n : node) : list N :=
  match n with
  | Lit _ | Read _ _ | Const _ | Break | Next | Retry => []
  | Write x v | OrWrite x v | OpWrite x _ v => x :: mods v
  | Call _ r _ a b => mods_v r ++ mods_a a ++ mods_b b
  | If _ p t e => mods p ++ mods_s t ++ mods_t e
  | Case p w e => mods p ++ mods_w w ++ mods_t e
  | Begin b r e n => mods_s b ++ mods_r r ++ mods_t e ++ mods_t n
  | Logic _ a b | RescueMod a b => mods a ++ mods b
  | While _ c b => mods c ++ mods_s b
  | Return v => mods_v v
  | Paren s | Stmts s => mods_s s
  end
with mods_v (r : recv) : list N := match r with RNone => [] | RNode n => mods n end
with mods_a (a : args) : list N := match a with ANil => [] | ACons n a => mods n ++ mods_a a end
with mods_b (b : blk) : list N := match b with BNone => [] | BBlock ps ls s => without (mods_s s) (ps ++ ls) end
with mods_s (s : stmts) : list N := match s with SNil => [] | SCons n s => mods n ++ mods_s s end
with mods_t (e : tail) : list N := match e with NoTail => [] | Else s => mods_s s end
with mods_w (w : whens) : list N := match w with WNil => [] | WCons a s w => mods_a a ++ mods_s s ++ mods_w w end
with mods_r (r : rescues) : list N :=
  match r with
  | RNil => []
  | RCons x s r => match x with Some x => [x] | None => [] end ++ mods_s s ++ mods_r r
  end.

(** The variable a test tells something about, if it is one of those the tracker knows. *)
Fixpoint about (q : node) : list N :=
  match q with
  | Call _ (RNode q) f a _ =>
      match a with
      | ANil =>
          if f =? "!" then about q
          else match q with Read _ x => if f =? "nil?" then [x] else [] | _ => [] end
      | ACons (Const _) ANil =>
          match q with
          | Read _ x => if (f =? "is_a?") || (f =? "kind_of?") || (f =? "instance_of?") then [x] else []
          | _ => []
          end
      | _ => []
      end
  | _ => []
  end.
(** Such a test is not written with [&.] and takes no block, and a failed [instance_of?] is not
    relied on. *)
Fixpoint telling (q : node) (truth : bool) : bool :=
  match q with
  | Call safe (RNode q) f a b =>
      let alone := negb safe && match b with BNone => true | BBlock _ _ _ => false end in
      match a with
      | ANil =>
          if f =? "!" then alone && telling q (negb truth)
          else match q with Read _ _ => alone | _ => true end
      | ACons (Const _) ANil =>
          match q with Read _ _ => alone && (negb (f =? "instance_of?") || truth) | _ => true end
      | _ => true
      end
  | _ => true
  end.

(** ** The programs covered *)

(** A reading of the variables: [U] are those the tracker has no type for at first (parameters
    without a declared type) or at all; [H] are those among them assigned where it does not look;
    [D] are temporaries of loops.  With [Q] no return is hidden from it. *)
Record vision := { U : N -> bool; H : N -> bool; D : N -> bool; Q : bool }.

(** Code it does not look at assigns only hidden variables. *)
Definition dark_list (K : vision) (m : list N) (retry ret : bool) : bool :=
  forallb (H K) m && negb retry && (negb (Q K) || negb ret).
Definition dark (K : vision) (n : node) : bool := dark_list K (mods n) (any is_retry true n) (any is_return true n).
Definition dark_a (K : vision) (a : args) : bool := dark_list K (mods_a a) (any_a is_retry true a) (any_a is_return true a).

(** Expressions which leave the variables alone. *)
Fixpoint still (n : node) : bool :=
  match n with
  | Lit _ | Read _ _ | Const _ | OrWrite _ _ | OpWrite _ _ _ => true
  | Call _ r _ a b => still_v r && match b with BNone => true | BBlock _ _ _ => still_a a end
  | _ => false
  end
with still_v (r : recv) : bool := match r with RNone => true | RNode n => still n end
with still_a (a : args) : bool := match a with ANil => true | ACons n a => still n && still_a a end.

(** The value of the expression is the one the tracker means. *)
Fixpoint worth (n : node) : bool :=
  match n with
  | While _ _ _ => false
  | Call safe _ _ _ b =>
      negb safe &&
      match b with
      | BNone => true
      | BBlock _ _ s => worth_s s && negb (any_s is_next false s) && negb (any_s is_break false s)
      end
  | If _ _ t e => worth_s t && worth_t e
  | Case _ w e => worth_w w && worth_t e
  | Logic _ _ b => worth b
  | Begin b r e _ =>
      match e with
      | NoTail => worth_s b
      | Else s => match s with SNil => false | _ => worth_s s end
      end && worth_r r
  | RescueMod a b => worth a && worth b
  | Paren s | Stmts s => worth_s s
  | _ => true
  end
with worth_s (s : stmts) : bool :=
  match s with
  | SNil => true
  | SCons n s => match s with SNil => worth n | _ => worth_s s end
  end
with worth_t (e : tail) : bool := match e with NoTail => true | Else s => worth_s s end
with worth_w (w : whens) : bool := match w with WNil => true | WCons _ s w => worth_s s && worth_w w end
with worth_r (r : rescues) : bool := match r with RNil => true | RCons _ s r => worth_s s && worth_r r end.

(** A guard: one side of the branch leaves, and the test tells the rest something about a variable
    which that rest does not assign.  [p]: inside code protected by a rescue; [m]: inside a branch. *)
Definition guard (K : vision) (p m : bool) (q : node) (truth : bool) (rest : list N) : bool :=
  telling q truth &&
  forallb (fun x => negb p && negb (H K x) && (negb m || negb (U K x)) && negb (member x rest)) (about q).

Fixpoint simple (K : vision) (p m : bool) (n : node) : bool :=
  match n with
  | Lit _ | Read _ _ | Const _ | Break | Next => true
  | Retry => false
  | Write x v => negb (U K x) && simple K p m v && worth v
  | OrWrite x v | OpWrite x _ v => H K x && dark K v
  | Call safe r f a b =>
      simple_v K p m r && negb (endless r f b) && dark_a K a &&
      (negb (terminating r f) || negb safe && match b with BNone => true | BBlock _ _ _ => false end) &&
      match b with
      | BNone => true
      | BBlock ps ls s =>
          still_v r && still_a a && simple_a K p m a && simple_s K p false s &&
          forallb (fun x => negb (U K x)) ps &&
          negb (any_s (assigns ps) true s) &&
          forallb (fun x => negb (member x ps) && (H K x || member x ls)) (mods_s s) &&
          (negb (Q K) || negb (any_s is_return true s))
      end
  | If u q t e =>
      simple K p m q && simple_s K p true t && simple_t K p true e &&
      match leaves_s t, leaves_t e with
      | true, false => guard K p m q u (mods_t e)
      | false, true => guard K p m q (negb u) (mods_s t)
      | _, _ => true
      end
  | Case q w e => simple K p m q && simple_w K p w && simple_t K p true e
  | Logic _ a b => simple K p m a && worth a && simple K p true b
  | Begin b r e n =>
      simple_s K (p || match r with RNil => false | RCons _ _ _ => true end) true b &&
      simple_r K p r && simple_t K p true e && simple_t K p m n
  | RescueMod a b => simple K true true a && simple K p true b
  | While _ c b =>
      simple K p true c && simple_s K p true b &&
      negb (any is_break false c) && negb (any is_next false c) &&
      negb (any_s is_break false b) && negb (any_s is_next false b)
  | Return v => simple_v K p m v
  | Paren s | Stmts s => simple_s K p m s
  end
with simple_v (K : vision) (p m : bool) (r : recv) : bool :=
  match r with RNone => true | RNode n => if direct n then simple K p m n && worth n else dark K n end
with simple_a (K : vision) (p m : bool) (a : args) : bool :=
  match a with ANil => true | ACons n a => simple K p m n && worth n && simple_a K p m a end
with simple_s (K : vision) (p m : bool) (s : stmts) : bool :=
  match s with SNil => true | SCons n s => simple K p m n && simple_s K p m s end
with simple_t (K : vision) (p m : bool) (e : tail) : bool :=
  match e with NoTail => true | Else s => simple_s K p m s end
with simple_w (K : vision) (p : bool) (w : whens) : bool :=
  match w with WNil => true | WCons a s w => dark_a K a && simple_s K p true s && simple_w K p w end
with simple_r (K : vision) (p : bool) (r : rescues) : bool :=
  match r with
  | RNil => true
  | RCons x s r => match x with Some x => H K x | None => true end && simple_s K p true s && simple_r K p r
  end.

(** Which variables hold what their type says; a temporary does so from its assignment to the end
    of the loop.  [good_after V n]: after the code, given those before; [ready V n]: the reads of
    the code find such variables. *)
Definition with_ (l : list N) (V : N -> bool) : N -> bool := fun x => member x l || V x.
Definition less (l : list N) (V : N -> bool) : N -> bool := fun x => negb (member x l) && V x.
Definition both (V V' : N -> bool) : N -> bool := fun x => V x && V' x.
Definition unless_gone (gone : bool) (V : N -> bool) : N -> bool := if gone then fun _ => true else V.
Definition lasting (K : vision) (V : N -> bool) : N -> bool := fun x => V x && negb (D K x).
(** a temporary set by the condition of a loop holds for the body if that does not touch it *)
Definition resting (K : vision) (l : list N) (V : N -> bool) : N -> bool :=
  fun x => V x && (negb (D K x) || negb (member x l)).

(** The variables the tracker may have narrowed after the code. *)
Fixpoint guards (n : node) : list N :=
  match n with
  | Lit _ | Read _ _ | Const _ | Break | Next | Retry | OrWrite _ _ | OpWrite _ _ _ => []
  | Write _ v => guards v
  | Call _ r _ _ _ => guards_v r
  | If _ q t e => guards q ++ guards_s t ++ guards_t e ++ (if xorb (leaves_s t) (leaves_t e) then about q else [])
  | Case q w e => guards q ++ guards_w w ++ guards_t e
  | Begin b r e n => guards_s b ++ guards_r r ++ guards_t e ++ guards_t n
  | Logic _ a b | RescueMod a b => guards a ++ guards b
  | While _ c b => guards c ++ guards_s b
  | Return v => guards_v v
  | Paren s | Stmts s => guards_s s
  end
with guards_v (r : recv) : list N := match r with RNone => [] | RNode n => if direct n then guards n else [] end
with guards_s (s : stmts) : list N := match s with SNil => [] | SCons n s => guards n ++ guards_s s end
with guards_t (e : tail) : list N := match e with NoTail => [] | Else s => guards_s s end
with guards_w (w : whens) : list N := match w with WNil => [] | WCons _ s w => guards_s s ++ guards_w w end
with guards_r (r : rescues) : list N := match r with RNil => [] | RCons _ s r => guards_s s ++ guards_r r end.

Fixpoint good_after (K : vision) (V : N -> bool) (n : node) : N -> bool :=
  match n with
  | Write x v => with_ [x] (good_after K V v)
  | Call _ r _ _ b => match b with BNone => good_after_v K V r | BBlock _ _ _ => V end
  | If _ q t e =>
      let V := good_after K V q in
      both (unless_gone (leaves_s t) (good_after_s K V t)) (unless_gone (leaves_t e) (good_after_t K V e))
  | Case q w e =>
      let V := good_after K V q in
      both (good_after_w K V w) (unless_gone (leaves_t e) (good_after_t K V e))
  | Logic _ a b => let V := good_after K V a in both V (good_after K V b)
  | Begin b r e n =>
      good_after_t K
        (both (unless_gone (leaves_s b || leaves_t e) (good_after_t K (good_after_s K V b) e)) (good_after_r K V r)) n
  | RescueMod a b => both (good_after K V a) (good_after K V b)
  | While _ c _ => good_after K (lasting K V) c
  | Paren s | Stmts s => good_after_s K V s
  | _ => V
  end
with good_after_v (K : vision) (V : N -> bool) (r : recv) : N -> bool :=
  match r with RNone => V | RNode n => if direct n then good_after K V n else V end
with good_after_s (K : vision) (V : N -> bool) (s : stmts) : N -> bool :=
  match s with SNil => V | SCons n s => good_after_s K (good_after K V n) s end
with good_after_t (K : vision) (V : N -> bool) (e : tail) : N -> bool :=
  match e with NoTail => V | Else s => good_after_s K V s end
with good_after_w (K : vision) (V : N -> bool) (w : whens) : N -> bool :=
  match w with
  | WNil => fun _ => true
  | WCons _ s w => both (unless_gone (leaves_s s) (good_after_s K V s)) (good_after_w K V w)
  end
with good_after_r (K : vision) (V : N -> bool) (r : rescues) : N -> bool :=
  match r with
  | RNil => fun _ => true
  | RCons _ s r => both (unless_gone (leaves_s s) (good_after_s K V s)) (good_after_r K V r)
  end.

Fixpoint ready (K : vision) (V : N -> bool) (n : node) : bool :=
  match n with
  | Read _ x => V x
  | Write _ v => ready K V v
  | Call _ r _ a b =>
      ready_v K V r &&
      match b with
      | BNone => true
      | BBlock ps ls s => ready_a K V a && ready_s K (with_ ps (less ls V)) s
      end
  | If _ q t e => ready K V q && let V := good_after K V q in ready_s K V t && ready_t K V e
  | Case q w e => ready K V q && let V := good_after K V q in ready_w K V w && ready_t K V e
  | Logic _ a b => ready K V a && ready K (good_after K V a) b
  | Begin b r e n =>
      ready_s K V b && ready_t K (good_after_s K V b) e && ready_r K V r &&
      ready_t K
        (both (less (mods_s b ++ mods_r r ++ mods_t e ++ guards_s b ++ guards_r r ++ guards_t e) V)
           (both (unless_gone (leaves_s b || leaves_t e) (good_after_t K (good_after_s K V b) e)) (good_after_r K V r))) n
  | RescueMod a b => ready K V a && ready K V b
  | While _ c b =>
      let V := lasting K V in
      ready K V c && ready_s K (resting K (mods_s b ++ guards_s b) (good_after K V c)) b
  | Return v => ready_v K V v
  | Paren s | Stmts s => ready_s K V s
  | _ => true
  end
with ready_v (K : vision) (V : N -> bool) (r : recv) : bool :=
  match r with RNone => true | RNode n => if direct n then ready K V n else true end
with ready_a (K : vision) (V : N -> bool) (a : args) : bool :=
  match a with ANil => true | ACons n a => ready K V n && ready_a K V a end
with ready_s (K : vision) (V : N -> bool) (s : stmts) : bool :=
  match s with SNil => true | SCons n s => ready K V n && ready_s K (good_after K V n) s end
with ready_t (K : vision) (V : N -> bool) (e : tail) : bool :=
  match e with NoTail => true | Else s => ready_s K V s end
with ready_w (K : vision) (V : N -> bool) (w : whens) : bool :=
  match w with WNil => true | WCons _ s w => ready_s K V s && ready_w K V w end
with ready_r (K : vision) (V : N -> bool) (r : rescues) : bool :=
  match r with RNil => true | RCons _ s r => ready_s K V s && ready_r K V r end.

(** A pass over a loop leaves the type of every variable which is not a temporary as it was. *)
Definition settled (K : vision) (o : out) : Prop :=
  forall a b x, In (a, b) (passes o) -> D K x = false -> a x = b x.

(** ** The properties *)

(** The declared types of the parameters are right, the other parameters are not tracked, and
    every other local is nil. *)
Definition enters (W : world) (K : vision) (params : env) (s : store) : Prop :=
  (forall x, H K x = true -> U K x = true) /\
  forall x, match params x with
            | Some t => den (named W) t (s x) /\ H K x = false
            | None => U K x = true \/ s x = vnil
            end.
(** What a run of a method body hands back. *)
Definition result_of (o : outcome) : option val := match o with Normal v | Ret v => Some v | _ => None end.
