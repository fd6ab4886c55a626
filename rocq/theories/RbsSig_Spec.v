(** What a method type of RBS promises. *)
From Coq Require Import List Arith Bool.
From Verif Require Import Types_Model Types_Spec RbsConv_Model RbsConv_Spec HigherOrder_Model HigherOrder_Spec RbsSig_Model.
Import ListNotations.

(** The parameter an argument goes to. *)
Definition parameter_at {X} (l : list (param_kind * X)) (i : nat) : option X :=
  let ps := filter (fun p => match fst p with OtherKind => false | _ => true end) l in
  match nth_error ps i with
  | Some p => Some (snd p)
  | None => option_map snd (find (fun p => kind_eqb (fst p) Rest) ps)
  end.
(** The type parameters stand for the given sets. *)
Definition bound (params : list nat) (A : nat -> val -> Prop) : scope :=
  fun n => if existsb (Nat.eqb n) params then Some (A n) else None.

(** The call keeps the method type: as [keeps], in terms of RBS. *)
Definition rbs_keeps (mean : scope -> rbs -> val -> Prop) (named : meaning) (params : list nat)
    (m : method_type) (bindings : list (nat * ty)) (r : run) : Prop :=
  forall A : nat -> val -> Prop,
  (forall n x, In (n, x) bindings -> In n params -> forall v, den named x v -> A n v) ->
  (forall i v, nth_error (run_args r) i = Some v ->
     exists t, parameter_at (mt_parameters m) i = Some t /\ mean (bound params A) t v) ->
  (forall bs v, Forall2 (mean (bound params A)) (mt_block_parameters m) bs -> run_block r bs v ->
     mean (bound params A) (mt_block_return m) v) ->
  forall v, run_result r v -> mean (bound params A) (mt_return m) v.

(** The types that are turned into templates without loss. *)
Inductive plainly (params : list nat) : rbs -> Prop :=
| P_var n : In n params -> plainly params (RVar n)
| P_class n : (absolute n = true -> ~ In (plain n) params) -> plain n <> boolish_text -> plainly params (RClass n)
| P_generic n args : (absolute n = true -> ~ In (plain n) params) ->
    (forall a, In a args -> plainly params a) -> plainly params (RGeneric n args)
| P_union l : (forall a, In a l -> plainly params a) -> plainly params (RUnion l)
| P_optional a : plainly params a -> plainly params (ROptional a)
| P_lit l : (forall n, l <> RInt n) -> plainly params (RLit l)
| P_base r : In r [RSelf; RNil; RBool; RUntyped; RTop] -> plainly params r.

(** No type in the template is unknown, even in part. *)
Fixpoint known (t : template) : bool :=
  match t with
  | Concrete x => negb (contains_unknown x)
  | ArrayOf e => known e
  | HashOf k w => known k && known w
  | OneOf l => forallb known l
  | _ => true
  end.
(** No more than [n] templates inside each other. *)
Fixpoint nested (n : nat) (t : template) : bool :=
  match n with
  | 0 => false
  | S n =>
      match t with
      | ArrayOf e => nested n e
      | HashOf k w => nested n k && nested n w
      | OneOf l => forallb (nested n) l
      | _ => true
      end
  end.
