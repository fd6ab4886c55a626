(** Model of crates/jvm-metadata/src/descriptor.rs: field and method descriptors, over bytes.
    The error texts are dropped: [None] is any Err. The slice of an object name (107) is the bytes
    between two positions; C47_names_are_text shows that both are character boundaries. *)
From Coq Require Import List Arith NArith Bool.
Import ListNotations.

Inductive jvm_type :=
| Byte | Char | Double | Float | Int | Long | Short | Boolean | Void
| Object (name : list N) | Array (element : jvm_type).
Record method := mkMethod { parameters : list jvm_type; returns : jvm_type }.

Definition SEMI := 59%N. Definition OPEN := 40%N. Definition CLOSE := 41%N.

(** The loop of parse_type (97-102): the name and what follows the [;]. *)
Fixpoint object_name (l : list N) : option (list N * list N) :=
  match l with
  | [] => None
  | c :: r =>
      if (c =? SEMI)%N then Some ([], r)
      else match object_name r with Some (n, t) => Some (c :: n, t) | None => None end
  end.

(** DescriptorCursor::parse_type (82-117); the cursor is the list of bytes left. *)
Fixpoint parse_type (l : list N) (allow_void : bool) : option (jvm_type * list N) :=
  match l with
  | [] => None
  | c :: r =>
      if (c =? 66)%N then Some (Byte, r)
      else if (c =? 67)%N then Some (Char, r)
      else if (c =? 68)%N then Some (Double, r)
      else if (c =? 70)%N then Some (Float, r)
      else if (c =? 73)%N then Some (Int, r)
      else if (c =? 74)%N then Some (Long, r)
      else if (c =? 83)%N then Some (Short, r)
      else if (c =? 90)%N then Some (Boolean, r)
      else if (c =? 86)%N then (if allow_void then Some (Void, r) else None)
      else if (c =? 76)%N then
        match object_name r with
        | Some ([], _) => None
        | Some (n, t) => Some (Object n, t)
        | None => None
        end
      else if (c =? 91)%N then
        match parse_type r false with Some (e, t) => Some (Array e, t) | None => None end
      else None
  end.

(** parse_field_descriptor (22-29). *)
Definition parse_field_descriptor (d : list N) : option jvm_type :=
  match parse_type d false with Some (t, []) => Some t | _ => None end.

(** The loop of parse_method_descriptor (36-46): the parameters and what follows the [)]. *)
Fixpoint parse_parameters (fuel : nat) (l : list N) (acc : list jvm_type) : option (list jvm_type * list N) :=
  match fuel with
  | 0 => None
  | S n =>
      match l with
      | [] => None
      | c :: r =>
          if (c =? CLOSE)%N then Some (acc, r)
          else match parse_type l false with
               | Some (t, r') => parse_parameters n r' (acc ++ [t])
               | None => None
               end
      end
  end.
(** parse_method_descriptor (31-56). *)
Definition parse_method_descriptor (d : list N) : option method :=
  match d with
  | [] => None
  | c :: r =>
      if (c =? OPEN)%N then
        match parse_parameters (S (length r)) r [] with
        | Some (ps, r') =>
            match parse_type r' true with Some (t, []) => Some (mkMethod ps t) | _ => None end
        | None => None
        end
      else None
  end.
