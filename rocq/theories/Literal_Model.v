(** Types of literals (crates/ruby-analysis/src/inference/type/literal.rs), over the types of
    Types_Model, and the check of a declared return type
    (crates/ruby-analysis/src/indexer/fact_collector/def_node.rs 540-567, 796-845).

    Syntax nodes are the constructors below; the texts of strings and symbols are numbers, as in
    Types_Model, so that two texts which from_utf8_lossy confuses are not modelled.  Numbers are not
    kept.  A panic is [None]. *)
From Coq Require Import List Arith Bool.
From Verif Require Import Types_Model.
Import ListNotations.

(** Literals that are typed by their kind alone, analyze_literal 50-65, 72-80, 83-89, 102-113. *)
Inductive plain := PInteger | PFloat | PRational | PImaginary | PTrue | PFalse | PNil | PRegexp | PRange | PLambda.
Inductive helem (A : Type) :=
| HPair (k v : A)                       (* AssocNode *)
| HSplat (o : option A)                 (* AssocSplatNode *)
| HElse.
Arguments HPair {A}. Arguments HSplat {A}. Arguments HElse {A}.
Inductive node :=
| NPlain (p : plain)
| NStr (text : nat)
| NMadeStr                              (* with interpolation, or a shell command *)
| NSym (text : nat)
| NMadeSym                              (* with interpolation *)
| NArray (l : list node)
| NHash (l : list (helem node))
| NIndex (recv : node) (args : list node)  (* a call of the method [[]] with a receiver *)
| NStatements (l : list node)           (* ProgramNode, StatementsNode *)
| NSplat (o : option node)
| NReturn (args : list node)
| NOther (i : nat).                     (* any other expression *)

Definition rational_text := 7. Definition complex_text := 8. Definition regexp_text := 9.
Definition range_text := 10. Definition proc_text := 11.
Definition plain_text (p : plain) : nat :=
  match p with
  | PInteger => integer_text | PFloat => float_text | PRational => rational_text | PImaginary => complex_text
  | PTrue => true_text | PFalse => false_text | PNil => nil_text | PRegexp => regexp_text
  | PRange => range_text | PLambda => proc_text
  end.

(** literal_key, 438-446. *)
Definition literal_key (n : node) : option lit :=
  match n with NSym t => Some (LSym t) | NStr t => Some (LStr t) | _ => None end.
(** literal_shape_value, 474-480. *)
Definition literal_value (n : node) : option ty := match n with NSym t => Some (TLit (LSym t)) | _ => None end.

(** infer_array_literal_type_fallible, 282-301, on the inferred elements. *)
Definition array_type (l : list ty) : ty := TArray (match l with [] => [TUnknown] | _ => canonical_members l end).

(** infer_hash_literal_type_fallible, 336-436, on the inferred parts of its elements: the literal key,
    the type of the key and the type of the value (after literal_shape_value), or the type of what is
    splatted.  The first Err among them is the result of the whole and is not modelled here. *)
Inductive elem := EPair (k : option lit) (kt vt : ty) | ESplat (t : ty) | EElse.
Record acc := mkA { a_fields : list field; a_keys : list ty; a_values : list ty; a_complete : bool }.
(** BTreeMap::insert; the order of the map is that of try_new, which sorts again. *)
Definition put (fs : list field) (f : field) : list field :=
  filter (fun g => negb (lit_eqb (fkey g) (fkey f))) fs ++ [f].
Definition step (a : acc) (e : elem) : option acc :=
  match e with
  | EPair k kt vt =>
      match widen kt, widen vt with
      | Some kt', Some vt' =>
          let keys := a_keys a ++ [kt'] in
          let values := a_values a ++ [vt'] in
          match k with
          | Some k =>
              if contains_unknown vt then Some (mkA (a_fields a) keys values false)
              else Some (mkA (put (a_fields a) (k, vt, true)) keys values (a_complete a))
          | None => Some (mkA (a_fields a) keys values false)
          end
      | _, _ => None
      end
  | ESplat (TShape fs rest ex _ _) =>
      match generic_hash fs rest ex with
      | Some (THash ks vs) =>
          if ex && match rest with None => true | _ => false end
          then Some (mkA (fold_left put fs (a_fields a)) (a_keys a ++ ks) (a_values a ++ vs) (a_complete a))
          else Some (mkA (a_fields a) (a_keys a ++ ks) (a_values a ++ vs) false)
      | _ => None
      end
  | ESplat (THash ks vs) => Some (mkA (a_fields a) (a_keys a ++ ks) (a_values a ++ vs) false)
  | ESplat _ | EElse => Some (mkA (a_fields a) (a_keys a ++ [TUnknown]) (a_values a ++ [TUnknown]) false)
  end.
Fixpoint steps (a : acc) (l : list elem) : option acc :=
  match l with [] => Some a | e :: r => match step a e with Some a => steps a r | None => None end end.
Definition finish (a : acc) : ty + shape_error :=
  if a_complete a then try_new (a_fields a) None true false
  else inl (THash (canonical_members (a_keys a)) (canonical_members (a_values a))).
Definition hash_type (l : list elem) : option (ty + shape_error) := option_map finish (steps (mkA [] [] [] true) l).

(** literal_shape_construction_unknown_reason, 450-472: whether the error is one it does not panic on. *)
Definition reason_given (e : shape_error) : bool := match e with FieldBound _ | DepthBound _ => true | _ => false end.

(** unwrap_or(RubyType::Unknown), 184, 191-193. *)
Definition known (o : option ty) : ty := match o with Some t => t | None => TUnknown end.

(** analyze_array_access, 142-179, on the type of the receiver; the arguments are not looked at. *)
Definition index_type (t : ty) : option ty :=
  match t with
  | TArray [x] => Some x
  | TArray [] => Some nil_class
  | TArray l => Some (union l)
  | THash _ [v] => Some (union_with v nil_class)
  | THash _ [] => Some nil_class
  | THash _ vs => Some (union_with (union vs) nil_class)
  | _ => None
  end.

(** Recursion over the elements of a hash, with [f] for infer_value. *)
Definition elem_of (f : node -> option ty) (e : helem node) : option elem :=
  match e with
  | HPair k v =>
      match f k, match literal_value v with Some t => Some t | None => f v end with
      | Some kt, Some vt => Some (EPair (literal_key k) kt vt)
      | _, _ => None
      end
  | HSplat None => Some (ESplat TUnknown)
  | HSplat (Some n) => option_map ESplat (f n)
  | HElse => Some EElse
  end.
(** analyze_literal, 24-128, with analyze_array_literal, analyze_hash_literal 182-194. *)
Fixpoint analyze (n : node) : option (option ty) :=
  let infer m := option_map known (analyze m) in
  match n with
  | NPlain p => Some (Some (TClass (const_name (plain_text p))))
  | NStr _ | NMadeStr => Some (Some string)
  | NSym _ | NMadeSym => Some (Some symbol)
  | NArray l => option_map (fun ts => Some (array_type ts)) (seqo (map infer l))
  | NHash l =>
      match seqo (map (elem_of infer) l) with
      | None => None
      | Some es =>
          match hash_type es with
          | None => None
          | Some (inl t) => Some (Some t)
          | Some (inr _) => Some (Some TUnknown)
          end
      end
  | NIndex r _ => match analyze r with Some (Some t) => Some (index_type t) | o => o end
  | NStatements (x :: _) => analyze x
  | NStatements [] | NSplat _ | NReturn _ | NOther _ => Some None
  end.
Definition infer (m : node) : option ty := option_map known (analyze m).

(** *** The declared return type *)
(** infer_return_value_from_node, 814-845: the types found; the positions are not kept. *)
Definition return_types (n : node) : option (list ty) :=
  match n with
  | NReturn [] => Some [nil_class]
  | NReturn [x] => match analyze x with Some (Some t) => Some [t] | Some None => Some [nil_class] | None => None end
  | NReturn l => option_map (fun ts => [TArray ts]) (seqo (map infer l))
  | n => match analyze n with Some (Some t) => Some [t] | Some None => Some [] | None => None end
  end.
(** infer_return_values_for_declared_type_check, 796-812; a body that is not a list of statements (one
    with a rescue clause, say) is a single [NOther]. *)
Definition checked_types (body : option (list node)) : option (list ty) :=
  match body with
  | None => Some []
  | Some l => match rev l with [] => Some [nil_class] | x :: _ => return_types x end
  end.
(** validate_declared_return_type, 540-567: whether it warns. *)
Definition warns_of (expected found : ty) : option bool :=
  if contains_unknown expected || contains_unknown found then Some false
  else option_map negb (is_subtype found expected).
Definition warns (expected : option ty) (body : option (list node)) : option bool :=
  match expected with
  | None => Some false
  | Some e => match checked_types body with
              | None => None
              | Some ts => option_map (fun bs => existsb (fun b => b) bs) (seqo (map (warns_of e) ts))
              end
  end.
