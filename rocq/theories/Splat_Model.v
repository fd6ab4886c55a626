(** The warning about splats: /repo/crates/ruby-analysis/src/indexer/fact_collector/bad_splat.rs.
    Simplifications: an expression is the kind of node it is, with its place; names of constants are
    numbers, those the code compares with are listed; [typed] is the type the analysis has for a local
    variable at a place (find_scope_for_variable_at, scope_at_position, get_type_at_position; C64, C75). *)
From Coq Require Import List Arith Bool.
Import ListNotations.

Definition path := list nat.
Definition integer := 0. Definition float := 1. Definition string := 2. Definition symbol := 3.
Definition true_class := 4. Definition false_class := 5. Definition hash := 6. Definition range := 7.
Definition nil_class := 8. Definition array := 9.
(** RubyType, as far as it is looked at: Class, ClassReference, Hash, Array, and the others. *)
Inductive ty := Class (p : path) | ClassRef (p : path) | THash | TArray | TElse.
Inductive kind := KNil | KInteger | KFloat | KString | KSymbol | KTrue | KFalse | KHash | KArray | KRange
                | KLocal (name : nat) | KElse.
Record expr := mkExpr { what : kind; from : nat; to : nat }.
(** An argument of a call: [*e] (the expression may be missing), keywords with the [**e] among them and
    their places, anything else. *)
Inductive arg := Splat (e : option expr) (from to : nat) | Keywords (l : list (option (option expr * nat * nat))) | Plain.
Inductive operator := Single | Double.
(** BadSplatCandidate, 7-13: the operator decides what was expected; the text is that of the expression. *)
Record warning := mkWarning { op : operator; shown : nat * nat; place : nat * nat }.

Section Check.
Variable typed : nat -> nat -> option ty.
(** namespace_parts().last(), 151-156 *)
Definition last_name (p : path) : option nat := match rev p with n :: _ => Some n | [] => None end.
Definition one_of (o : option nat) (l : list nat) : bool := match o with Some n => existsb (Nat.eqb n) l | None => false end.
(** is_type_definitely_non_array, 148-172; is_type_definitely_non_hash, 175-198 *)
Definition type_non_array (t : ty) : bool :=
  match t with
  | Class p | ClassRef p => one_of (last_name p) [integer; float; string; symbol; true_class; false_class; hash; range; nil_class]
  | _ => false
  end.
Definition type_non_hash (t : ty) : bool :=
  match t with
  | Class p | ClassRef p => one_of (last_name p) [integer; float; string; symbol; true_class; false_class; array; range; nil_class]
  | _ => false
  end.
(** is_definitely_non_array, 69-104; is_definitely_non_hash, 106-144 *)
Definition non_array (e : expr) : bool :=
  match what e with
  | KNil => false
  | KInteger | KFloat | KString | KSymbol | KTrue | KFalse | KHash | KRange => true
  | KLocal n => match typed n (from e) with Some t => type_non_array t | None => false end
  | KArray | KElse => false
  end.
Definition non_hash (e : expr) : bool :=
  match what e with
  | KNil | KHash => false
  | KInteger | KFloat | KString | KSymbol | KTrue | KFalse | KArray | KRange => true
  | KLocal n => match typed n (from e) with Some t => type_non_hash t | None => false end
  | KElse => false
  end.
(** check, 19-64 *)
Definition check_keyword (k : option (option expr * nat * nat)) : list warning :=
  match k with
  | Some (Some e, a, b) => if non_hash e then [mkWarning Double (from e, to e) (a, b)] else []
  | _ => []
  end.
Definition check_arg (a : arg) : list warning :=
  match a with
  | Splat (Some e) a b => if non_array e then [mkWarning Single (from e, to e) (a, b)] else []
  | Splat None _ _ => []
  | Keywords l => flat_map check_keyword l
  | Plain => []
  end.
Definition check (args : option (list arg)) : list warning :=
  match args with None => [] | Some l => flat_map check_arg l end.
End Check.
