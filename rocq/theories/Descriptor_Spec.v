(** Descriptors of the Java Virtual Machine Specification, 4.2.1, 4.2.2, 4.3.2, 4.3.3. *)
From Coq Require Import List NArith.
From Verif Require Import Descriptor_Model.
Import ListNotations.

(** Primitive types with their letters: B C D F I J S Z. *)
Definition primitive (t : jvm_type) (c : N) : Prop :=
  In (t, c) [(Byte, 66); (Char, 67); (Double, 68); (Float, 70); (Int, 73); (Long, 74); (Short, 83); (Boolean, 90)]%N.

(** A class name in internal form: names without [. ; \[ /], with slashes between them. *)
Definition unqualified (s : list N) : Prop := s <> [] /\ forall c, In c s -> ~ In c [46; 59; 91; 47]%N.
Inductive class_name : list N -> Prop :=
| simple s : unqualified s -> class_name s
| nested s r : unqualified s -> class_name r -> class_name (s ++ 47%N :: r).

(** The grammar, for a choice of object names. *)
Inductive field (name : list N -> Prop) : jvm_type -> list N -> Prop :=
| field_primitive t c : primitive t c -> field name t [c]
| field_object n : name n -> field name (Object n) (76%N :: n ++ [SEMI])
| field_array t d : field name t d -> field name (Array t) (91%N :: d).
Inductive result (name : list N -> Prop) : jvm_type -> list N -> Prop :=
| result_void : result name Void [86%N]
| result_field t d : field name t d -> result name t d.
Inductive fields (name : list N -> Prop) : list jvm_type -> list N -> Prop :=
| fields_none : fields name [] []
| fields_more t ts d ds : field name t d -> fields name ts ds -> fields name (t :: ts) (d ++ ds).
Inductive describes (name : list N -> Prop) : method -> list N -> Prop :=
| describes_method ps t d e : fields name ps d -> result name t e ->
    describes name (mkMethod ps t) (OPEN :: d ++ CLOSE :: e).

(** What the parser takes for an object name. *)
Definition any_name (n : list N) : Prop := n <> [] /\ ~ In SEMI n.

(** Printing. *)
Fixpoint print (t : jvm_type) : list N :=
  match t with
  | Byte => [66] | Char => [67] | Double => [68] | Float => [70] | Int => [73] | Long => [74]
  | Short => [83] | Boolean => [90] | Void => [86]
  | Object n => 76 :: n ++ [SEMI]
  | Array e => 91 :: print e
  end%N.
Definition print_method (m : method) : list N := OPEN :: flat_map print (parameters m) ++ CLOSE :: print (returns m).
(** Object names in a type. *)
Fixpoint names (t : jvm_type) : list (list N) :=
  match t with Object n => [n] | Array e => names e | _ => [] end.
