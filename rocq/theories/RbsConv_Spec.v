(** What an RBS type means: the values it describes. *)
From Coq Require Import List Arith Bool.
From Verif Require Import Types_Model Types_Spec RbsConv_Model.
Import ListNotations.

Section Meaning.
(** The meaning of class names, and the integers. *)
Variable named : meaning.
Variable int : nat -> val.
(** What an interface and the types self, instance and class are is left open: any set. *)
Variable interface : nat -> val -> Prop.
Variables self instance class_of : val -> Prop.

(** The type parameters in scope, with what they stand for.  A bare name that is a type
    parameter in scope is that parameter; with a leading [::] it is the class. *)
Definition scope : Type := nat -> option (val -> Prop).
Definition of_class (n : nat) : val -> Prop := named InstanceOfClass (const_name n).

Fixpoint rden (env : scope) (r : rbs) (v : val) : Prop :=
  match r with
  | RClass n =>
      match (if absolute n then None else env (plain n)) with
      | Some P => P v
      | None => of_class (plain n) v
      end
  | RGeneric n args =>
      match args, (if absolute n then None else env (plain n)) with
      | [], Some P => P v
      | _, _ =>
          if plain n =? array_text then
            exists vs, v = VArr vs /\
              match args with [a] => forall x, In x vs -> rden env a x | _ => True end
          else if plain n =? hash_text then
            exists es, v = VHash es /\
              match args with
              | [k; w] => forall x y, In (x, y) es -> rden env k x /\ rden env w y
              | _ => True
              end
          else of_class (plain n) v
      end
  | RInterface n => interface n v
  | RVar n => match env n with Some P => P v | None => True end
  | RUnion l => ors (map (rden env) l) v
  | RInter l => forall P, In P (map (rden env) l) -> P v
  | ROptional a => rden env a v \/ of_class nil_text v
  | RTuple l => exists vs, v = VArr vs /\ Forall2 (fun (P : val -> Prop) x => P x) (map (rden env) l) vs
  | RRecord fs => exists es, v = VHash es /\
      (* a key that is not optional is present *)
      (forall k, In (k, false) (map (fun f => match f with (k, _, o) => (k, o) end) fs) ->
         exists y, In (VSym k, y) es) /\
      (* every entry is listed *)
      (forall x y, In (x, y) es ->
         exists k, In k (map (fun f => match f with (k, _, _) => k end) fs) /\ x = VSym k) /\
      (* and has the type that is listed *)
      (forall x y, In (x, y) es ->
         forall k P, In (k, P) (map (fun f => match f with (k, a, _) => (k, rden env a) end) fs) ->
         x = VSym k -> P y)
  | RProc _ _ => of_class proc_text v
  | RLit (RStr n) => v = VStr n
  | RLit (RSym n) => v = VSym n
  | RLit (RInt n) => v = int n
  | RLit RTrue => of_class true_text v
  | RLit RFalse => of_class false_text v
  | RSelf => self v
  | RInstance => instance v
  | RClassType => class_of v
  | RVoid => True
  | RNil => of_class nil_text v
  | RBool => of_class true_text v \/ of_class false_text v
  | RUntyped | RTop => True
  | RBot => False
  end.
End Meaning.

Definition nothing_bound : scope := fun _ => None.

(** A substitution gives for every parameter in scope, and for nothing else, a type that
    has all its values. *)
Definition fits (named : meaning) (env : scope) (s : substitutions) : Prop :=
  forall n, match env n, get s n with
            | Some P, Some x => forall v, P v -> den named x v
            | None, None => True
            | _, _ => False
            end.

(** No parameter in scope is mentioned as if it were a class. *)
Inductive unmentioned (env : scope) : rbs -> Prop :=
| U_class n : (absolute n = false -> env (plain n) = None) -> unmentioned env (RClass n)
| U_generic n args : (absolute n = false -> env (plain n) = None) ->
    (forall a, In a args -> unmentioned env a) -> unmentioned env (RGeneric n args)
| U_union l : (forall a, In a l -> unmentioned env a) -> unmentioned env (RUnion l)
| U_inter l : unmentioned env (RInter l)
| U_optional a : unmentioned env a -> unmentioned env (ROptional a)
| U_tuple l : (forall a, In a l -> unmentioned env a) -> unmentioned env (RTuple l)
| U_record fs : (forall k a o, In (k, a, o) fs -> unmentioned env a) -> unmentioned env (RRecord fs)
| U_proc l a : unmentioned env (RProc l a)
| U_var n : unmentioned env (RVar n)
| U_interface n : unmentioned env (RInterface n)
| U_lit l : unmentioned env (RLit l)
| U_base r : In r [RSelf; RInstance; RClassType; RNil; RBool; RUntyped; RTop; RBot; RVoid] -> unmentioned env r.

(** The types of which soundness is claimed: no void; a tuple mentions no parameter; no
    name with a leading [::] is that of a parameter. *)
Inductive sound_part (env : scope) : rbs -> Prop :=
| S_class n : sound_part env (RClass n)
| S_generic n args : (absolute n = true -> env (plain n) = None) ->
    (forall a, In a args -> sound_part env a) -> sound_part env (RGeneric n args)
| S_union l : (forall a, In a l -> sound_part env a) -> sound_part env (RUnion l)
| S_inter l : sound_part env (RInter l)
| S_optional a : sound_part env a -> sound_part env (ROptional a)
| S_tuple l : (forall a, In a l -> sound_part env a) -> (forall a, In a l -> unmentioned env a) ->
    sound_part env (RTuple l)
| S_record fs : (forall k a o, In (k, a, o) fs -> sound_part env a) -> sound_part env (RRecord fs)
| S_proc l a : sound_part env (RProc l a)
| S_var n : sound_part env (RVar n)
| S_interface n : sound_part env (RInterface n)
| S_lit l : sound_part env (RLit l)
| S_base r : In r [RSelf; RInstance; RClassType; RNil; RBool; RUntyped; RTop; RBot] -> sound_part env r.

(** The classes known whatever the file: String, Integer, Float, Symbol, TrueClass,
    FalseClass and NilClass. *)
Definition known_classes : list nat :=
  [nil_text; symbol_text; string_text; integer_text; false_text; true_text; float_text].
(** The types that are kept exactly. *)
Inductive kept (constant : nat -> bool) : rbs -> Prop :=
| K_class n : In (plain n) known_classes \/ constant (plain n) = true -> kept constant (RClass n)
| K_array n a : plain n = array_text -> kept constant a -> kept constant (RGeneric n [a])
| K_hash n a b : plain n = hash_text -> kept constant a -> kept constant b -> kept constant (RGeneric n [a; b])
| K_union l : l <> [] -> (forall a, In a l -> kept constant a) -> kept constant (RUnion l)
| K_optional a : kept constant a -> kept constant (ROptional a)
| K_lit l : (forall n, l <> RInt n) -> kept constant (RLit l)
| K_nil : kept constant RNil
| K_bool : kept constant RBool.
