(** What a signature with a block promises. *)
From Coq Require Import List Arith Bool.
From Verif Require Import Types_Model Types_Spec HigherOrder_Model.
Import ListNotations.

Section Meaning.
Variable named : meaning.
(** The receiver, as a set of values. *)
Variable self : val -> Prop.

(** The values of a template when the variables stand for the given sets. *)
Fixpoint tden (A : nat -> val -> Prop) (t : template) (v : val) : Prop :=
  match t with
  | Concrete x => den named x v
  | Receiver => self v
  | Variable_ n => A n v
  | ArrayOf e => exists vs, v = VArr vs /\ forall x, In x vs -> tden A e x
  | HashOf k w => exists es, v = VHash es /\ forall x y, In (x, y) es -> tden A k x /\ tden A w y
  | OneOf l => ors (map (tden A) l) v
  | Unconstrained => True
  end.

(** A call as it is run: the arguments, what the block may return for given parameters and
    what the call may return. *)
Record run := { run_args : list val; run_block : list val -> val -> Prop; run_result : val -> Prop }.

(** The call keeps the signature: whatever sets the variables stand for, if those of the
    receiver's class contain what the receiver is said to hold, the arguments are of the
    types of their parameters, and the block, on parameters of its types, returns values of
    its type, then the result is of the return type. *)
Definition keeps (g : signature) (bindings : list (nat * ty)) (r : run) : Prop :=
  forall A : nat -> val -> Prop,
  (forall n x, In (n, x) bindings -> In n (type_parameters g) -> forall v, den named x v -> A n v) ->
  (forall i v, nth_error (run_args r) i = Some v -> exists t, parameter_of g i = Some t /\ tden A t v) ->
  (forall bs v, Forall2 (tden A) (block_parameters g) bs -> run_block r bs v -> tden A (block_return g) v) ->
  forall v, run_result r v -> tden A (return_template g) v.
End Meaning.

(** What is known of the call is right: the types of the arguments, and that of the block's
    result for parameters of the types announced. *)
Definition typed_call (named : meaning) (args announced : list ty) (block : ty) (r : run) : Prop :=
  Forall2 (fun a v => den named a v) args (run_args r) /\
  forall bs v, Forall2 (fun a v => den named a v) announced bs -> run_block r bs v -> den named block v.

(** The questions put while a type is matched against a template: is [x] compatible with
    the expected [e]? *)
Inductive asked : template -> ty -> ty -> ty -> Prop :=
| Q_concrete e a : asked (Concrete e) a e a
| Q_array t l e x : asked t (union l) e x -> asked (ArrayOf t) (TArray l) e x
| Q_key k w ks vs e x : asked k (union ks) e x -> asked (HashOf k w) (THash ks vs) e x
| Q_value k w ks vs e x : asked w (union vs) e x -> asked (HashOf k w) (THash ks vs) e x
| Q_shape k w fs rest ex fr d h e x : generic_hash fs rest ex = Some h -> asked (HashOf k w) h e x ->
    asked (HashOf k w) (TShape fs rest ex fr d) e x
| Q_union l a e x : In (Concrete e) l -> In x (members a) -> asked (OneOf l) a e x.
(** Where the answer is yes, every value of the type is one of the expected. *)
Definition answered (named : meaning) (compatible : ty -> ty -> bool) (t : template) (a : ty) : Prop :=
  forall e x, asked t a e x -> compatible e x = true -> included named x e.
Definition all_answered (named : meaning) (compatible : ty -> ty -> bool)
    (set : list candidate * list ty) (args : list ty) (block : ty) : Prop :=
  forall c, In c (fst set) ->
  answered named compatible (block_return (fst c)) block /\
  forall i a t, nth_error args i = Some a -> parameter_of (fst c) i = Some t -> answered named compatible t a.

(** The block's result leaves the types announced for its parameters as they were. *)
Definition settled (compatible : ty -> ty -> bool) (set : list candidate * list ty) (block : ty) : Prop :=
  forall c st, In c (fst set) -> constrain compatible (block_return (fst c)) block (snd c) = Fine st ->
  all_fine (map (resolve (fst st) 1) (block_parameters (fst c))) = Fine (snd set).

(** The receiver has been put in everywhere. *)
Fixpoint no_receiver (t : template) : bool :=
  match t with
  | Receiver => false
  | ArrayOf e => no_receiver e
  | HashOf k v => no_receiver k && no_receiver v
  | OneOf l => forallb no_receiver l
  | Concrete _ | Variable_ _ | Unconstrained => true
  end.

(** is_compatible_with, ruby_type.rs 338-340: either is a subtype of the other. *)
Definition is_compatible (e a : ty) : bool :=
  match is_subtype e a with
  | Some true => true
  | _ => match is_subtype a e with Some true => true | _ => false end
  end.
