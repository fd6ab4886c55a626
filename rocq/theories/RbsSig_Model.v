(** Signatures of methods with a block, made from RBS.

    /repo/crates/ruby-analysis/src/inference/higher_order.rs 340-378, 438-533.

    Modelled: callable_signature_from_rbs and all it calls.  Reasons for failures are left
    out, as in HigherOrder_Model. *)
From Coq Require Import List Arith Bool.
From Verif Require Import Types_Model RbsConv_Model HigherOrder_Model.
Import ListNotations.

Definition boolish_text := 10.

Section Signatures.
(** RubyConstant::new for each part of the name. *)
Variable constant : nat -> bool.

(** concrete_template, 515-522. *)
Definition concrete (r : rbs) : out template :=
  if contains_unknown (conv constant r) then Failed else Fine (Concrete (conv constant r)).

(** type_template_from_rbs, 438-513. *)
Fixpoint template_of (params : list nat) (depth : nat) (r : rbs) : out template :=
  if max_template_depth <? depth then Failed
  else
    match r with
    | RVar n => Fine (Variable_ n)
    | RClass n =>
        if negb (absolute n) && existsb (Nat.eqb (plain n)) params then Fine (Variable_ (plain n))
        else if negb (absolute n) && (plain n =? boolish_text) then Fine Unconstrained
        else concrete r
    | RGeneric n args =>
        if match args with [] => existsb (Nat.eqb (plain n)) params | _ => false end
        then Fine (Variable_ (plain n))
        else if plain n =? array_text then
          match args with
          | [e] => andthen (template_of params (S depth) e) (fun e => Fine (ArrayOf e))
          | _ => Failed
          end
        else if plain n =? hash_text then
          match args with
          | [k; v] => andthen (template_of params (S depth) k) (fun k =>
                      andthen (template_of params (S depth) v) (fun v => Fine (HashOf k v)))
          | _ => Failed
          end
        else concrete r
    | RUnion l =>
        if max_union_variants <? length l then Failed
        else andthen (all_fine (map (template_of params (S depth)) l)) (fun l => Fine (OneOf l))
    | ROptional a =>
        andthen (template_of params (S depth) a) (fun t => Fine (OneOf [Concrete nil_class; t]))
    | RUntyped | RTop | RBot => Fine Unconstrained
    | RSelf => Fine Receiver
    | RProc _ _ | RInstance | RClassType | RInter _ | RTuple _ | RInterface _ => Failed
    | RVoid | RNil | RBool | RRecord _ | RLit _ => concrete r
    end.

(** MethodType with a block, /repo/crates/rbs-parser/src/types.rs 250-330: what is used of it. *)
Record method_type := {
  mt_parameters : list (param_kind * rbs);
  mt_block_parameters : list rbs; mt_block_return : rbs; mt_return : rbs }.

(** callable_signature_from_rbs, 340-378. *)
Definition signature_of (receiver_params method_params : list nat) (m : method_type) : out signature :=
  let params := receiver_params ++ method_params in
  andthen (all_fine (map (fun p => andthen (template_of params 1 (snd p)) (fun t => Fine (fst p, t)))
                         (mt_parameters m))) (fun ps =>
  andthen (all_fine (map (template_of params 1) (mt_block_parameters m))) (fun bs =>
  andthen (template_of params 1 (mt_block_return m)) (fun b =>
  andthen (template_of params 1 (mt_return m)) (fun r =>
  let g := {| receiver_parameters := receiver_params; type_parameters := params;
              parameters := ps; block_parameters := bs; block_return := b; return_template := r |} in
  if valid g then Fine g else Failed)))).
End Signatures.
