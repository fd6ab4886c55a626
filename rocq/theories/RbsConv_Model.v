(** From the types of RBS files to the types of the analysis.

    /repo/crates/ruby-analysis/src/inference/rbs.rs 580-835,
    /repo/crates/rbs-parser/src/types.rs 243-246, 361-421.

    Modelled: rbs_type_to_ruby_type, the same with substitutions, the map of substitutions
    and the two functions for the return type of a method.  A name is a number and whether
    it is written with a leading [::]; the numbers of the core classes are those of
    Types_Model.  Which names are constants is a parameter.  The modifiers before the name
    of a type parameter are taken off beforehand. *)
From Coq Require Import List Arith Bool.
From Verif Require Import Types_Model.
Import ListNotations.

Record rname := { absolute : bool; plain : nat }.
Definition array_text := 7. Definition hash_text := 8. Definition proc_text := 9.

Inductive rlit := RStr (n : nat) | RSym (n : nat) | RInt (n : nat) | RTrue | RFalse.
(** RbsType, types.rs 361-421; a field of a record is its name, its type and whether it is
    optional. *)
Inductive rbs :=
| RClass (n : rname)
| RGeneric (n : rname) (args : list rbs)
| RInterface (n : nat)
| RVar (n : nat)
| RUnion (l : list rbs)
| RInter (l : list rbs)
| ROptional (a : rbs)
| RTuple (l : list rbs)
| RRecord (fs : list (nat * rbs * bool))
| RProc (params : list rbs) (result : rbs)
| RLit (l : rlit)
| RSelf | RInstance | RClassType | RVoid | RNil | RBool | RUntyped | RTop | RBot.

Section Conversion.
(** RubyConstant::new for each part of the name. *)
Variable constant : nat -> bool.

Definition core_names : list nat :=
  [string_text; integer_text; float_text; symbol_text; true_text; false_text; nil_text].
(** class_name_to_ruby_type, 712-733. *)
Definition class_type (n : nat) : ty :=
  if existsb (Nat.eqb n) core_names then TClass (const_name n)
  else if constant n then TClass (const_name n) else TUnknown.

(** rbs_record_to_ruby_type, 813-835, on the converted fields. *)
Definition record_type (fs : list (nat * ty * bool)) : ty :=
  match try_new (map (fun f => (LSym (fst (fst f)), snd (fst f), negb (snd f))) fs) None true false with
  | inl s => s
  | inr _ => TUnknown
  end.

(** The literals, 791-800. *)
Definition lit_type (l : rlit) : ty :=
  match l with
  | RStr n => TLit (LStr n)
  | RSym n => TLit (LSym n)
  | RInt _ => integer
  | RTrue => TClass (const_name true_text)
  | RFalse => TClass (const_name false_text)
  end.

(** rbs_type_to_ruby_type, 736-811. *)
Fixpoint conv (r : rbs) : ty :=
  match r with
  | RVoid | RNil => nil_class
  | RBool => boolean
  | RTop | RBot | RUntyped | RSelf | RInstance | RClassType => TUnknown
  | RClass n => class_type (plain n)
  | RGeneric n args =>
      if plain n =? array_text then
        TArray [match args with [a] => conv a | _ => TUnknown end]
      else if plain n =? hash_text then
        match args with
        | [k; v] => THash [conv k] [conv v]
        | _ => THash [TUnknown] [TUnknown]
        end
      else class_type (plain n)
  | RUnion l => union (map conv l)
  | RInter _ => TUnknown
  | ROptional a => optional (conv a)
  | RTuple l => TArray (canonical_members (map conv l))
  | RRecord fs => record_type (map (fun f => match f with (k, a, o) => (k, conv a, o) end) fs)
  | RProc _ _ => if constant proc_text then TClass (const_name proc_text) else TUnknown
  | RLit l => lit_type l
  | RInterface n => if constant n then TClass (const_name n) else TUnknown
  | RVar _ => TUnknown
  end.

(** build_substitution_map, 626-643: a later entry replaces an earlier one. *)
Definition substitutions : Type := list (nat * ty).
Definition build_map (params : list nat) (args : list ty) : substitutions := rev (combine params args).
Definition get (s : substitutions) (n : nat) : option ty :=
  option_map snd (find (fun e => fst e =? n) s).

(** rbs_type_to_ruby_type_with_substitutions, 646-709. *)
Fixpoint conv_with (s : substitutions) (r : rbs) : ty :=
  match r with
  | RVar n => match get s n with Some x => x | None => TUnknown end
  | RClass n =>
      match (if absolute n then None else get s (plain n)) with
      | Some x => x
      | None => class_type (plain n)
      end
  | RUnion l => union (map (conv_with s) l)
  | ROptional a => optional (conv_with s a)
  | RGeneric n args =>
      match (match args with [] => get s (plain n) | _ => None end) with
      | Some x => x
      | None =>
          if plain n =? array_text then
            TArray [match args with [a] => conv_with s a | _ => TUnknown end]
          else if plain n =? hash_text then
            match args with
            | [k; v] => THash [conv_with s k] [conv_with s v]
            | _ => THash [TUnknown] [TUnknown]
            end
          else class_type (plain n)
      end
  | RRecord fs => record_type (map (fun f => match f with (k, a, o) => (k, conv_with s a, o) end) fs)
  | _ => conv r
  end.

(** MethodDecl::return_type, types.rs 243-246: of the first overload. *)
Definition return_type (overloads : list rbs) : option rbs := hd_error overloads.

(** get_rbs_method_return_type_with_type_args, 594-622, for a method that is found in a
    class with these type parameters. *)
Definition method_return (params : list nat) (args : list ty) (overloads : list rbs) : option ty :=
  match return_type overloads with
  | None => None
  | Some r =>
      match build_map params args with
      | [] => Some (conv r)
      | s => Some (conv_with s r)
      end
  end.
End Conversion.
