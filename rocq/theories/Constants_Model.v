(** Model of crates/ruby-analysis/src/inference/constant.rs: solving the type equations of constants.

    Simplifications: constants, targets and dependencies are numbers; [resolved_dependencies] is a function
    that gives [None] both for a missing entry and for an unresolved one (line 65 treats them alike);
    [None] as a result is a failed assertion. *)
From Coq Require Import List Arith Bool.
From Verif Require Import Types_Model.
Import ListNotations.

(** struct ConstantTypeEquation, core/constant_type_equation.rs 71-75; the dependencies are in set order *)
Record cequation := mkC { ce_target : nat; ce_deps : list nat }.
(** struct ConstantFactInput, constant.rs 9-15; the order is (file, start, end) *)
Record cfact := mkF { cf_constant : nat; cf_target : nat; cf_type : ty; cf_order : nat * nat * nat }.
(** enum ResolvedConstantDependency, 17-21 *)
Inductive rdep := RValue (constant : nat) | RProjected (t : ty).

(** the derived comparison of triples used at line 46 *)
Definition order_leb (a b : nat * nat * nat) : bool :=
  let '(a1, a2, a3) := a in let '(b1, b2, b3) := b in
  (a1 <? b1) || ((a1 =? b1) && ((a2 <? b2) || ((a2 =? b2) && (a3 <=? b3)))).

Definition cequation_eqb (a b : cequation) : bool :=
  (ce_target a =? ce_target b) && (if list_eq_dec Nat.eq_dec (ce_deps a) (ce_deps b) then true else false).

(** the index map and its assertion, lines 32-40: the last position of each target *)
Fixpoint index_of (eqs : list cequation) (t : nat) (i : nat) : option nat :=
  match eqs with
  | [] => None
  | e :: r => match index_of r t (S i) with
              | Some j => Some j
              | None => if ce_target e =? t then Some i else None
              end
  end.
(** each equation equals the previous one with its target; [seen] is what was inserted, newest first *)
Fixpoint targets_agree (seen eqs : list cequation) : bool :=
  match eqs with
  | [] => true
  | e :: r =>
      match find (fun p => ce_target p =? ce_target e) seen with
      | Some p => cequation_eqb p e
      | None => true
      end && targets_agree (e :: seen) r
  end.

(** the latest fact of a constant, lines 42-51: a later fact replaces an earlier one when its order is
    strictly greater *)
Fixpoint latest_from (facts : list cfact) (c : nat) (best : option cfact) : option cfact :=
  match facts with
  | [] => best
  | f :: r =>
      latest_from r c
        (if cf_constant f =? c then
           match best with
           | Some p => if order_leb (cf_order f) (cf_order p) then best else Some f
           | None => Some f
           end
         else best)
  end.
Definition latest (facts : list cfact) (c : nat) : option cfact := latest_from facts c None.

(** what one dependency contributes, lines 64-98 *)
Inductive contribution := Member (t : ty) | Waiting | Incomplete | Broken.
Definition contribution_of (eqs : list cequation) (facts : list cfact) (resolve : nat -> option rdep)
    (values : list (option ty)) (d : nat) : contribution :=
  match resolve d with
  | None => Incomplete
  | Some (RProjected t) => if is_unknown t then Broken else Member t
  | Some (RValue c) =>
      match latest facts c with
      | None => Incomplete
      | Some f =>
          let value := match index_of eqs (cf_target f) 0 with
                       | Some i => nth i values None
                       | None => if is_unknown (cf_type f) then None else Some (cf_type f)
                       end in
          match value with
          | Some t => if is_unknown t then Incomplete else Member t
          | None => Waiting
          end
      end
  end.
(** one equation, lines 60-108; the outer [None] is the assertion of line 70 *)
Fixpoint gather (f : nat -> contribution) (ds : list nat) (waiting : bool) (ms : list ty) : option (option ty) :=
  match ds with
  | [] => Some (if waiting then None else match ms with [] => None | _ => Some (union ms) end)
  | d :: r =>
      match f d with
      | Member t => gather f r waiting (ms ++ [t])
      | Waiting => gather f r true ms
      | Incomplete => Some (Some TUnknown)
      | Broken => None
      end
  end.
(** one iteration over all equations, lines 59-109 *)
Fixpoint cpass (f : nat -> contribution) (l : list cequation) : option (list (option ty)) :=
  match l with
  | [] => Some []
  | e :: r => match gather f (ce_deps e) false [], cpass f r with
              | Some v, Some vs => Some (v :: vs)
              | _, _ => None
              end
  end.
Definition ovalue_eqb (a b : option ty) : bool :=
  match a, b with Some s, Some t => eqb s t | None, None => true | _, _ => false end.
Fixpoint values_eqb (a b : list (option ty)) : bool :=
  match a, b with
  | [], [] => true
  | x :: a, y :: b => ovalue_eqb x y && values_eqb a b
  | _, _ => false
  end.
(** the loop, lines 58-119; running out of iterations is the failed assertion of line 116 *)
Fixpoint cloop (n : nat) (eqs : list cequation) (facts : list cfact) (resolve : nat -> option rdep)
    (values : list (option ty)) : option (list (option ty)) :=
  match n with
  | O => None
  | S n =>
      match cpass (contribution_of eqs facts resolve values) eqs with
      | None => None
      | Some next => if values_eqb next values then Some values else cloop n eqs facts resolve next
      end
  end.
(** solve_constant_type_equations, 23-131 *)
Definition solve_constants (eqs : list cequation) (facts : list cfact) (resolve : nat -> option rdep) : option (list (nat * ty)) :=
  match eqs with
  | [] => Some []
  | _ =>
      if targets_agree [] eqs then
        match cloop (length eqs + 1) eqs facts resolve (repeat None (length eqs)) with
        | Some values => Some (combine (map ce_target eqs) (map (fun v => match v with Some t => t | None => TUnknown end) values))
        | None => None
        end
      else None
  end.
