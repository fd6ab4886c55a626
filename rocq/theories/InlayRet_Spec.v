(** Where the value of a Ruby method comes from, said without the walk. *)
From Coq Require Import List Arith.
From Verif Require Import InlayRet_Model.
Import ListNotations.

(** How running a piece of a method ends: with the value of the expression that
    starts at a place, or with nil for want of an expression ([Value None]); by
    leaving the method with [return]; or with an exception. *)
Inductive outcome := Value (at_ : option nat) | Left | Raised.

Definition stops (o : outcome) : Prop := o = Left \/ o = Raised.

(** [ends n o]: running [n] may end with [o].  Conditions may go either way, an
    exception may come up anywhere, an expression may hold a [return]. *)
Inductive ends : node -> outcome -> Prop :=
| E_raise n : ends n Raised
| E_return at_ fin parts : ends (Leaf Return at_ fin parts) Left
| E_leaf s at_ fin parts : s <> Return -> ends (Leaf s at_ fin parts) (Value (Some at_))
| E_left s at_ fin parts : ends (Leaf s at_ fin parts) Left
| E_def name at_ fin e params body :
    ends (Def name at_ fin e params body) (Value (Some at_))
| E_stmts l o : in_turn l o -> ends (Stmts l) o
| E_begin b r e f o o' : tried b r e o -> after f o o' -> ends (Begin b r e f) o'
| E_then t b s o : maybe b o -> ends (If t b s) o
| E_next t b s o : maybe s o -> ends (If t b s) o
| E_else b o : maybe b o -> ends (Else b) o
| E_when_of t ws e w o : In w ws -> ends w o -> ends (Case t ws e) o
| E_case_else t ws e o : maybe e o -> ends (Case t ws e) o
| E_when t b o : maybe b o -> ends (When t b) o
| E_rescue t b s o : maybe b o -> ends (Rescue t b s) o
| E_rescue_next t b x o : ends x o -> ends (Rescue t b (Some x)) o
| E_parens b o : maybe b o -> ends (Parens b) o
(** A missing piece is nil. *)
with maybe : option node -> outcome -> Prop :=
| M_none : maybe None (Value None)
| M_raise : maybe None Raised
| M_some x o : ends x o -> maybe (Some x) o
(** Statements run in turn; the last one gives the value. *)
with in_turn : list node -> outcome -> Prop :=
| T_none : in_turn [] (Value None)
| T_last x o : ends x o -> in_turn [x] o
| T_more x y r v o : ends x (Value v) -> in_turn (y :: r) o -> in_turn (x :: y :: r) o
| T_stop x r o : ends x o -> stops o -> in_turn (x :: r) o
(** begin: the value is the body's, or that of the else clause if there is one and
    no exception came up, or that of the rescue clause which took the exception. *)
with tried : option node -> option node -> option node -> outcome -> Prop :=
| B_body b r v : maybe b (Value v) -> tried b r None (Value v)
| B_else b r x v o : maybe b (Value v) -> ends x o -> tried b r (Some x) o
| B_left b r e : maybe b Left -> tried b r e Left
| B_raised b r e : maybe b Raised -> tried b r e Raised
| B_rescued b x e o : maybe b Raised -> ends x o -> tried b (Some x) e o
(** ensure: its own value is dropped. *)
with after : option node -> outcome -> outcome -> Prop :=
| A_none o : after None o o
| A_done x v o : ends x (Value v) -> after (Some x) o o
| A_stop x o o' : ends x o' -> stops o' -> after (Some x) o o'.

(** A piece can run to its end. *)
Definition finishes (n : node) : Prop := exists v, ends n (Value v).

Definition holds (P : node -> Prop) (o : option node) : Prop :=
  match o with Some x => P x | None => True end.

(** No dead code on the way to the value: a statement which is followed by others
    can run to its end, an ensure clause too, and no begin has both a body and an
    else clause. *)
Inductive live : node -> Prop :=
| L_leaf s at_ fin parts : live (Leaf s at_ fin parts)
| L_def name at_ fin e params body : live (Def name at_ fin e params body)
| L_none : live (Stmts [])
| L_stmts l x : Forall finishes l -> live x -> live (Stmts (l ++ [x]))
| L_begin b r e f : (b = None \/ e = None) -> live_o b -> live_o r -> live_o e ->
    holds finishes f -> live (Begin b r e f)
| L_if t b s : live_o b -> live_o s -> live (If t b s)
| L_else b : live_o b -> live (Else b)
| L_case t ws e : (forall w, In w ws -> live w) -> live_o e -> live (Case t ws e)
| L_when t b : live_o b -> live (When t b)
| L_rescue t b s : live_o b -> live_o s -> live (Rescue t b s)
| L_parens b : live_o b -> live (Parens b)
with live_o : option node -> Prop :=
| L_no : live_o None
| L_some x : live x -> live_o (Some x).

(** The parts of a node. *)
Definition listed (o : option node) : list node :=
  match o with Some x => [x] | None => [] end.

Definition parts_of (n : node) : list node :=
  match n with
  | Leaf _ _ _ l => l
  | Def _ _ _ _ l b => l ++ listed b
  | Stmts l => l
  | Begin b r e f => listed b ++ listed r ++ listed e ++ listed f
  | If t b s => t ++ listed b ++ listed s
  | Else b => listed b
  | Case t ws e => t ++ ws ++ listed e
  | When t b => t ++ listed b
  | Rescue t b s => t ++ listed b ++ listed s
  | Parens b => listed b
  end.

Definition assigns_constant (n : node) : Prop :=
  match n with Leaf Constant _ _ _ => True | _ => False end.

(** [d] stands somewhere in [n]. *)
Inductive within (d : node) : node -> Prop :=
| W_self : within d d
| W_part n m : In m (parts_of n) -> within d m -> within d n.

(** ... and not in an assignment to a constant. *)
Inductive seen (d : node) : node -> Prop :=
| S_self : seen d d
| S_part n m : ~ assigns_constant n -> In m (parts_of n) -> seen d m -> seen d n.

(** The definition a label names: its kind, its name and its end. *)
Definition is_def (k : kind) (name fin : nat) (d : node) : Prop :=
  match d with
  | Leaf (Class m) _ f _ => k = KClass /\ name = m /\ fin = f
  | Leaf (Module m) _ f _ => k = KModule /\ name = m /\ fin = f
  | Def m _ f _ _ _ => k = KMethod /\ name = m /\ fin = f
  | _ => False
  end.

(** The definition is closed with the word [end]. *)
Definition closed_by_end (d : node) : Prop :=
  match d with Def _ _ _ endless _ _ => endless = false | _ => True end.

Definition body_of (d : node) : option node :=
  match d with Def _ _ _ _ _ b => b | _ => None end.

(** The starts of the expressions of a piece in the order of the text; expressions
    inside an expression and conditions left out. *)
Inductive texted : node -> list nat -> Prop :=
| X_leaf s at_ fin parts : texted (Leaf s at_ fin parts) [at_]
| X_def name at_ fin e params body : texted (Def name at_ fin e params body) [at_]
| X_stmts l p : texts l p -> texted (Stmts l) p
| X_begin b r e f p : texts (listed b ++ listed r ++ listed e ++ listed f) p ->
    texted (Begin b r e f) p
| X_if t b s p : texts (listed b ++ listed s) p -> texted (If t b s) p
| X_else b p : texts (listed b) p -> texted (Else b) p
| X_case t ws e p : texts (ws ++ listed e) p -> texted (Case t ws e) p
| X_when t b p : texts (listed b) p -> texted (When t b) p
| X_rescue t b s p : texts (listed b ++ listed s) p -> texted (Rescue t b s) p
| X_parens b p : texts (listed b) p -> texted (Parens b) p
with texts : list node -> list nat -> Prop :=
| X_nil : texts [] []
| X_cons x l p q : texted x p -> texts l q -> texts (x :: l) (p ++ q).
