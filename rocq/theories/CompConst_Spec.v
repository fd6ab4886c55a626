(** What it means to ask for constants. *)
From Coq Require Import List Arith.
From Verif Require Import Sort_Lib CompConst_Model.
Import ListNotations.

(** Names with two colons between them. *)
Fixpoint joined (p : path) : name :=
  match p with [] => [] | [a] => a | a :: r => a ++ [58; 58] ++ joined r end.
(** [w] begins [n], letter case aside. *)
Definition begins (lower : name -> name) (w n : name) : Prop := exists r, lower n = lower w ++ r.

(** The texts a user can ask with: a word, a word after two leading colons, a word after a path. *)
Inductive asked (valid : name -> bool) : name -> option (option path) -> name -> Prop :=
| asked_bare w : ~ In 58 w -> asked valid w None w
| asked_top w : ~ In 58 w -> asked valid ([58; 58] ++ w) (Some None) w
| asked_inside p w : p <> [] -> (forall n, In n p -> valid n = true) -> ~ In 58 w ->
    asked valid (joined p ++ [58; 58] ++ w) (Some (Some p)) w.

(** The constant at path [p ++ [n]] is asked for: by its last name anywhere, at the top, or in a namespace. *)
Definition demanded lower valid (partial : name) (p : path) (n : name) : Prop :=
  exists where_ w, asked valid partial where_ w /\ begins lower w n
    /\ match where_ with None => True | Some None => p = [] | Some (Some q) => p = q end.

(** Something of the kind of a constant is known under this path, and none of the names on it was made
    up by the analysis. *)
Definition known (generated : name -> bool) (facts : list fact) (p : path) : Prop :=
  exists k, In (mkFact k p) facts /\ In k [Class; Module; Constant] /\ forall n, In n p -> generated n = false.
