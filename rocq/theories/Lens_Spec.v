(** Which modules a file declares, and who uses a module, said without the search. *)
From Coq Require Import List Arith.
From Verif Require Import Lens_Model.
Import ListNotations.

(** The full name of a class or module head in the scope [cref]: in place, or from the
    top with [::].  An expression as base has no name known from the text. *)
Definition full (cref : list nat) (b : base) (names : list nat) : option (list nat) :=
  match b with Lexical => Some (cref ++ names) | Root => Some names | Dynamic => None end.

(** [declares cref i f s e]: in the scope [cref] the item holds a module head from [s]
    to [e] of the module [f]. *)
Inductive declares : list nat -> item -> list nat -> nat -> nat -> Prop :=
| D_here cref b names s e body f :
    full cref b names = Some f -> declares cref (AModule b names s e body) f s e
| D_module cref b names s' e' body c i f s e :
    full cref b names = Some c -> In i body -> declares c i f s e ->
    declares cref (AModule b names s' e' body) f s e
| D_class cref b names body c i f s e :
    full cref b names = Some c -> In i body -> declares c i f s e ->
    declares cref (Class b names body) f s e
| D_other cref parts i f s e :
    In i parts -> declares cref i f s e -> declares cref (Other parts) f s e.

(** Heads as most are: not from the top, one name, a name the server takes; of a module
    without modules in it also several names. *)
Inductive no_module : item -> Prop :=
| N_class b names body : (forall i, In i body -> no_module i) -> no_module (Class b names body)
| N_other parts : (forall i, In i parts -> no_module i) -> no_module (Other parts).

Inductive ordinary (valid : nat -> bool) : item -> Prop :=
| O_one_module n s e body : valid n = true -> (forall i, In i body -> ordinary valid i) ->
    ordinary valid (AModule Lexical [n] s e body)
| O_last_module names s e body : names <> [] -> (forall n, In n names -> valid n = true) ->
    (forall i, In i body -> no_module i) -> ordinary valid (AModule Lexical names s e body)
| O_class n body : valid n = true -> (forall i, In i body -> ordinary valid i) ->
    ordinary valid (Class Lexical [n] body)
| O_other parts : (forall i, In i parts -> ordinary valid i) -> ordinary valid (Other parts).

(** ** Mixins *)
(** The statement behind [e] mixes the module [m] into something with [k]: include and
    prepend in a class or module, extend anywhere. *)
Definition mixes (m : list nat) (k : ekind) (e : edge) : Prop :=
  fst (target e) = m /\ kind e = k /\
  match k with
  | Include | Prepend => snd (source e) = false
  | Extend => True
  | _ => False
  end.

Definition has (w : world) (k : nkind) (f : ns) (r : range) : Prop := In (f, (k, r)) (nodes w).
Definition a_class (w : world) (f : ns) : Prop := exists r, has w NClass f r.
(** Known as a module, and not also as a class. *)
Definition a_module (w : world) (f : ns) : Prop := (exists r, has w NModule f r) /\ ~ a_class w f.

(** [f] includes or prepends [m]; [f] extends [m]. *)
Definition takes (w : world) (m : list nat) (f : ns) : Prop :=
  exists e k, In e (edges w) /\ source e = f /\ (k = Include \/ k = Prepend) /\ mixes m k e.
Definition extends (w : world) (m : list nat) (f : ns) : Prop :=
  exists e, In e (edges w) /\ source e = f /\ mixes m Extend e.

(** The modules that bring [m] along when they are mixed in: [m] itself, and the modules
    that include or prepend one of them. *)
Inductive brings (w : world) (m : list nat) : list nat -> Prop :=
| R_self : brings w m m
| R_more t f : brings w m t -> takes w t f -> a_module w f -> brings w m (fst f).

(** A class uses [m]: it mixes in, in any way, a module that brings [m]. *)
Definition uses (w : world) (m : list nat) (f : ns) : Prop :=
  a_class w f /\ exists t, brings w m t /\ (takes w t f \/ extends w t f).

(** No module extends a module. *)
Definition no_extending_module (w : world) : Prop :=
  forall t f, extends w t f -> a_module w f -> False.

(** What the search goes through: as [brings], but also by extend. *)
Inductive chained (w : world) (m : list nat) : list nat -> Prop :=
| C_self : chained w m m
| C_more t f : chained w m t -> takes w t f \/ extends w t f -> a_module w f ->
    chained w m (fst f).
