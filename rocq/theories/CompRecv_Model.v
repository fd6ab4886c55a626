(** The type of the receiver in front of a dot, as completion reads it off the text
    (crates/ruby-analysis/src/inference/completion.rs:272-384, 805-961).

    This is the path taken when the syntax tree has no receiver at the cursor (an unfinished [receiver.]
    leaves none, 330-334), or has a call whose receiver or result is not known.  The text is a list of
    characters; the cursor is a cut of it ([content] = [before] ++ [after], which the assertion at
    275-279 demands), and only the positions handed to the engine are bytes.

    Not modelled: the engine behind the questions (record [engine]), and the choices made from the
    syntax tree before (162-270). *)
From Coq Require Import List Arith NArith Bool.
From Verif Require Import Text_Lib.
Import ListNotations.
Open Scope N_scope.

(** The tables of the standard library, RubyConstant::new, and parse as i64 and f64. *)
Record tables := mkTables { alnum : N -> bool; space : N -> bool; upper : N -> bool; lower : N -> bool;
  digit : N -> bool; constant : text -> bool; reads_int : text -> bool; reads_float : text -> bool }.

(** RubyType, the forms that occur here; [Other] is any answer of the engine. *)
Inductive ty := Str | Sym | Int | Flt | True_ | Nil | Unknown | Arr (l : list ty) | Hsh
              | Ref (path : list text) | Obj (path : list text) | Other (n : nat).

Section Receiver.
Variable T : tables.
(** RubyType::canonical_union_members (C05). *)
Variable canonical : list ty -> list ty.

(** ** Pieces of str. *)
(** rsplit_once: the text before and after the last character satisfying [p]. *)
Fixpoint cut_last (p : N -> bool) (t : text) : option (text * text) :=
  match t with
  | [] => None
  | c :: r => match cut_last p r with Some (a, b) => Some (c :: a, b) | None => if p c then Some ([], r) else None end
  end.
(** rsplit(..).next(). *)
Definition after_last (p : N -> bool) (t : text) : text := match cut_last p t with Some (_, b) => b | None => t end.
Fixpoint trim_start (t : text) : text := match t with [] => [] | c :: r => if space T c then trim_start r else t end.
Definition trim_end (t : text) : text := rev (trim_start (rev t)).
Definition trim (t : text) : text := trim_end (trim_start t).
Definition starts_with (c : N) (t : text) : bool := match t with d :: _ => N.eqb d c | [] => false end.
Definition ends_with (c : N) (t : text) : bool := starts_with c (rev t).
(** strip_prefix. *)
Fixpoint strip (p t : text) : option text :=
  match p, t with
  | [], _ => Some t
  | c :: p', d :: t' => if N.eqb c d then strip p' t' else None
  | _ :: _, [] => None
  end.
(** find: the text before the first occurrence of [p], and the text after it. *)
Fixpoint cut_sub (p t : text) : option (text * text) :=
  match strip p t with
  | Some r => Some ([], r)
  | None => match t with [] => None | c :: r => match cut_sub p r with Some (a, b) => Some (c :: a, b) | None => None end end
  end.
Definition contains (p t : text) : bool := match cut_sub p t with Some _ => true | None => false end.
Definition ends (p t : text) : bool := match strip (rev p) (rev t) with Some _ => true | None => false end.
(** split on a character, and on two colons (with enough fuel). *)
Fixpoint split (c : N) (t : text) : list text :=
  match t with
  | [] => [[]]
  | d :: r => match split c r with h :: q => if N.eqb d c then [] :: h :: q else (d :: h) :: q | [] => [] end
  end.
Fixpoint split_colons (fuel : nat) (t : text) : list text :=
  match fuel with
  | O => [t]
  | S f => match cut_sub [58; 58] t with Some (a, b) => a :: split_colons f b | None => [t] end
  end.
(** lines: without the line ends, and no line after the last of them. *)
Definition chomp (l : text) : text := if ends_with 13 l then removelast l else l.
Definition lines (t : text) : list text :=
  map chomp
    (match rev (split 10 t) with [] :: q => rev q | _ => split 10 t end).

(** ** Literals. *)
(** infer_array_element_types, 933-960. *)
Definition element (e : text) : ty :=
  if starts_with 34 e || starts_with 39 e then Str
  else if starts_with 58 e then Sym
  else if reads_int T e then Int
  else if reads_float T e then Flt
  else if list_eq_dec N.eq_dec e [116; 114; 117; 101] then True_
  else if list_eq_dec N.eq_dec e [102; 97; 108; 115; 101] then True_
  else if list_eq_dec N.eq_dec e [110; 105; 108] then Nil
  else Unknown.
Definition ty_eq_dec : forall a b : ty, {a = b} + {a <> b}.
Proof.
  fix rec 1. decide equality; try apply Nat.eq_dec; apply list_eq_dec; try exact rec; apply list_eq_dec, N.eq_dec.
Defined.
Fixpoint add_elements (seen : list ty) (l : list text) : list ty :=
  match l with
  | [] => seen
  | e :: r =>
      match trim e with
      | [] => add_elements seen r
      | el => if in_dec ty_eq_dec (element el) seen then add_elements seen r else add_elements (seen ++ [element el]) r
      end
  end.
Definition elements (inner : text) : list ty := canonical (add_elements [] (split 44 inner)).
Definition middle (t : text) : text := removelast (tl t).

(** infer_literal_type_from_expression, 850-878. *)
Definition sep (c : N) : bool := space T c || N.eqb c 40 || N.eqb c 44.
Definition literal_at_end (t : text) : option ty :=
  let t := trim t in
  if ends_with 34 t || ends_with 39 t then Some Str
  else if ends_with 93 t && starts_with 91 t then Some (Arr (elements (middle t)))
  else if ends_with 125 t then Some Hsh
  else if starts_with 58 (match cut_last sep t with Some (_, b) => b | None => t end) then Some Sym else None.

(** infer_literal_type, 881-914. *)
Definition literal (t : text) : option ty :=
  if starts_with 34 t || starts_with 39 t then Some Str
  else if starts_with 58 t then Some Sym
  else if starts_with 91 t then Some (Arr [Unknown])
  else if starts_with 123 t then Some Hsh
  else if negb (match t with [] => true | _ => false end) && forallb (fun c => digit T c || N.eqb c 95) t then Some Int
  else if existsb (N.eqb 46) t && forallb (fun c => digit T c || N.eqb c 95 || N.eqb c 46) t then Some Flt
  else None.

(** is_variable_name, 916-931. *)
Definition is_variable (t : text) : bool :=
  match t with
  | [] => false
  | c :: _ => (lower T c || N.eqb c 95) && forallb (fun c => alnum T c || N.eqb c 95) t
  end.

(** ** infer_constructor_assignment_type, 805-848. *)
Definition dot_new : text := [46; 110; 101; 119].
Definition constructor_line (var line : text) : option (list text) :=
  match strip var (trim line) with
  | None => None
  | Some rest =>
      if starts_with 32 rest || starts_with 9 rest || starts_with 61 rest then
        match strip [61] (trim rest) with
        | None => None
        | Some rest =>
            let rhs := trim rest in
            if ends dot_new rhs || contains (dot_new ++ [40]) rhs || contains (dot_new ++ [32]) rhs then
              match cut_sub dot_new rhs with
              | None => None
              | Some (class, _) =>
                  let class := trim class in
                  match class with
                  | c :: _ =>
                      if upper T c then
                        match filter (constant T) (map trim (split_colons (length class) class)) with
                        | [] => None
                        | parts => Some parts
                        end
                      else None
                  | [] => None
                  end
              end
            else None
        end
      else None
  end.
Fixpoint first_some {A B} (f : A -> option B) (l : list A) : option B :=
  match l with [] => None | x :: r => match f x with Some y => Some y | None => first_some f r end end.
Definition constructed (content var : text) : option ty :=
  option_map Obj (first_some (constructor_line var) (lines content)).

(** ** The questions put to the engine and to the document. *)
Record engine := mkEngine {
  exact : nat -> nat -> option ty;         (** exact_expression_type *)
  scoped : text -> nat -> option ty;       (** the type of a local variable at a position *)
  own_method : text -> nat -> option ty;   (** implicit_receiver_at and method_return_type_for_receiver *)
  bare_method : text -> option ty }.       (** infer_bare_method_return_type *)
Variable E : engine.

Definition known (t : ty) : option ty := match t with Unknown => None | _ => Some t end.

(** 335-383: [name] stands at the bytes [start] to [stop]. *)
Definition resolve (content name : text) (start stop : nat) : option ty :=
  match exact E start stop with
  | Some t => known t
  | None =>
      if is_variable name then
        match scoped E name start with
        | Some t => known t
        | None =>
            match constructed content name with
            | Some t => Some t
            | None =>
                match own_method E name start with
                | Some t => Some t
                | None => bare_method E name
                end
            end
        end
      else bare_method E name
  end.

(** 281-300. *)
Definition receiver_char (c : N) : bool := alnum T c || N.eqb c 95 || N.eqb c 64 || N.eqb c 36.
Definition receiver_text (before_dot : text) : text := trim (trim (after_last (fun c => negb (receiver_char c)) before_dot)).

(** 281-383. *)
Definition receiver_type (before after : text) : option ty :=
  let line := after_last (N.eqb 10) before in
  let line_start := (size before - size line)%nat in
  match cut_last (N.eqb 46) line with
  | None => None
  | Some (head, _) =>
      let before_dot := trim_end head in
      match literal_at_end before_dot with
      | Some t => Some t
      | None =>
          match receiver_text before_dot with
          | [] => None
          | c :: r =>
              let name := c :: r in
              match literal name with
              | Some t => Some t
              | None =>
                  if upper T c && constant T name then Some (Ref [name])
                  else
                    let start := (line_start + (size before_dot - size name))%nat in
                    resolve (before ++ after) name start (start + size name)
              end
          end
      end
  end.
End Receiver.
