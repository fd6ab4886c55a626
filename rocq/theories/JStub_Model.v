(** The Ruby declarations generated for a Java class.

    /repo/crates/jruby-support/src/signatures.rs 1-355,
    /repo/crates/jvm-metadata/src/classfile.rs 53-93, 150-165.

    Modelled: generate_ruby_signature whole, as a list of lines.  A line is what Ruby reads
    of it: indentation and the text of plain comments are left out.  The descriptors come
    parsed, [None] for one that does not parse (their parser is in Descriptor_Model).  Text
    is a list of code points; the classes of characters and decimal numerals are
    parameters. *)
From Coq Require Import List Arith NArith Bool String Ascii.
From Verif Require Import Archive_Model JName_Model.
Import ListNotations.
Local Open Scope list_scope.

Definition t (s : string) : text := map nat_of_ascii (list_ascii_of_string s).

(** char::is_alphabetic, is_alphanumeric, is_lowercase, is_uppercase; usize's Display. *)
Record chars := {
  alphabetic : nat -> bool; alphanumeric : nat -> bool;
  lowercase : nat -> bool; uppercase : nat -> bool; decimal : nat -> text }.

(** JvmType, /repo/crates/jvm-metadata/src/descriptor.rs 3-15. *)
Inductive jtype :=
| JByte | JChar | JInt | JLong | JShort | JDouble | JFloat | JBoolean | JVoid
| JObject (name : text) | JArray (element : jtype).

(** MemberInfo, 30-51, once for fields and once for methods. *)
Record field := { f_name : text; f_flags : N; f_type : option jtype }.
Record method := {
  m_name : text; m_flags : N; m_names : list text;
  m_descriptor : option (list jtype * jtype); m_exceptions : list text }.
Record class_file := {
  c_name : text; c_flags : N; c_record : bool; c_super : option text;
  c_interfaces : list text; c_fields : list field; c_methods : list method }.

(** The flags, 53-93. *)
Inductive visibility := Public | Protected | Private | Package.
Definition visibility_eqb (a b : visibility) : bool :=
  match a, b with
  | Public, Public | Protected, Protected | Private, Private | Package, Package => true
  | _, _ => false
  end.
Definition visibility_of (flags : N) : visibility :=
  if N.testbit flags 0 then Public
  else if N.testbit flags 2 then Protected
  else if N.testbit flags 1 then Private else Package.
Definition is_static (flags : N) : bool := N.testbit flags 3.
Definition is_final (flags : N) : bool := N.testbit flags 4.
Definition is_varargs (flags : N) : bool := N.testbit flags 7.
Definition is_enum_constant (flags : N) : bool := N.testbit flags 14.

(** ClassFile::kind, 150-165. *)
Inductive class_kind := KClass | KInterface | KAnnotation | KEnum | KRecord | KModule.
Definition kind (c : class_file) : class_kind :=
  if N.testbit (c_flags c) 15 then KModule
  else if N.testbit (c_flags c) 13 then KAnnotation
  else if N.testbit (c_flags c) 14 then KEnum
  else if c_record c then KRecord
  else if N.testbit (c_flags c) 9 then KInterface else KClass.

(** The lines written. *)
Inductive line :=
| Comment
| OpenModule (name : text)
| OpenClass (name : text) (super : option text)
| Close
| IncludeName (name : text)
| Keyword (v : text)
| TypeTag (type : text)
| ReturnTag (type : text)
| ParamTag (name type : text)
| RaiseTag (names : list text)
| Constant (name : text)
| Def (singleton : bool) (name : text) (parameters : list (bool * text)).

(** is_ruby_keyword, 300-346. *)
Definition keywords : list text := map t
  ["BEGIN"; "END"; "__ENCODING__"; "__FILE__"; "__LINE__"; "alias"; "and"; "begin"; "break";
   "case"; "class"; "def"; "defined?"; "do"; "else"; "elsif"; "end"; "ensure"; "false"; "for";
   "if"; "in"; "module"; "next"; "nil"; "not"; "or"; "redo"; "rescue"; "retry"; "return";
   "self"; "super"; "then"; "true"; "undef"; "unless"; "until"; "when"; "while"; "yield"]%string.
Definition is_keyword (s : text) : bool := existsb (text_eqb s) keywords.

(** str::strip_suffix of one character. *)
Definition strip_last (c : nat) (s : text) : option text :=
  match rev s with x :: r => if x =? c then Some (rev r) else None | [] => None end.

(** visibility_keyword, 266-272. *)
Definition visibility_keyword (v : visibility) : text :=
  match v with
  | Public => t "public"
  | Protected => t "protected"
  | Private | Package => t "private"
  end.

(** java_method_name, 258-264. *)
Definition java_method_name (m : method) : text :=
  if text_eqb (m_name m) (t "<init>") then t "new" else m_name m.

Section Generator.
Variable w : chars.
Notation parse_name := (parse (alphabetic w) (alphanumeric w)).

(** valid_ruby_local_name, 283-290. *)
Definition valid_local (s : text) : bool :=
  match s with
  | [] => false
  | c :: r => (lowercase w c || (c =? underscore))
              && forallb (fun c => alphanumeric w c || (c =? underscore)) r
  end && negb (is_keyword s).

(** valid_ruby_method_name, 274-281. *)
Definition valid_method (s : text) : bool :=
  valid_local
    match strip_last 61 s with
    | Some x => x
    | None => match strip_last 63 s with
              | Some x => x
              | None => match strip_last 33 s with Some x => x | None => s end
              end
    end.

(** valid_ruby_constant_name, 348-355. *)
Definition valid_constant (s : text) : bool :=
  match s with [] => false | c :: _ => uppercase w c end
  && forallb (fun c => alphanumeric w c || (c =? underscore)) s.

(** ruby_parameter_name, 292-298. *)
Definition parameter_name (s : text) (i : nat) : text :=
  if valid_local s then s else t "arg" ++ decimal w i.

(** ruby_type_for_jvm_type, 243-256. *)
Fixpoint ruby_type (j : jtype) : text :=
  match j with
  | JByte | JChar | JInt | JLong | JShort => t "Integer"
  | JDouble | JFloat => t "Float"
  | JBoolean => t "Boolean"
  | JVoid => t "nil"
  | JObject n => match parse_name n with inl n => ruby_fqn n | inr _ => t "Object" end
  | JArray e => t "Array<" ++ ruby_type e ++ t ">"
  end.

(** filter_map of the names that parse, to their Ruby names. *)
Definition ruby_names (l : list text) : list text :=
  flat_map (fun n => match parse_name n with inl n => [ruby_fqn n] | inr _ => [] end) l.

(** write_field, 93-140. *)
Definition write_field (f : field) : option (list line) :=
  match f_type f with
  | None => None
  | Some ty =>
      let r := ruby_type ty in
      if is_static (f_flags f) && (is_final (f_flags f) || is_enum_constant (f_flags f)) then
        Some (if valid_constant (f_name f)
              then [Comment; TypeTag r; Constant (f_name f)] else [])
      else
        Some (if valid_method (f_name f)
              then [Comment; ReturnTag r; Def (is_static (f_flags f)) (f_name f) [];
                    ParamTag (t "value") r;
                    Def (is_static (f_flags f)) (f_name f ++ t "=") [(false, t "value")]]
              else [])
  end.

(** The names of the parameters in the definition, 164-177: the index of a name is its
    place, and the last of a varargs method has a star. *)
Fixpoint parameters_from (varargs : bool) (i : nat) (l : list text) : list (bool * text) :=
  match l with
  | [] => []
  | n :: r => (varargs && match r with [] => true | _ => false end, parameter_name n i)
              :: parameters_from varargs (S i) r
  end.

(** write_method_docs, 199-241: the tags of the parameters, by the descriptor. *)
Fixpoint param_tags (i : nat) (names : list text) (types : list jtype) : list (text * text) :=
  match types with
  | [] => []
  | ty :: r => (match names with n :: _ => parameter_name n i | [] => t "arg" ++ decimal w i end,
                ruby_type ty) :: param_tags (S i) (tl names) r
  end.

(** write_method and write_method_docs, 142-185, 199-241. *)
Definition write_method (m : method) : option (list line) :=
  match m_descriptor m with
  | None => None
  | Some (types, returns) =>
      Some (map (fun p => ParamTag (fst p) (snd p)) (param_tags 0 (m_names m) types)
            ++ ReturnTag (ruby_type returns)
            :: match m_exceptions m with
               | [] => []
               | e :: es => [RaiseTag (ruby_names (e :: es))]
               end
            ++ [Comment;
                Def (text_eqb (m_name m) (t "<init>") || is_static (m_flags m))
                    (java_method_name m)
                    (parameters_from (is_varargs (m_flags m)) 0 (m_names m))])
  end.

(** The two loops, 57-79. *)
Fixpoint write_fields (l : list field) : option (list line) :=
  match l with
  | [] => Some []
  | f :: r => match write_field f, write_fields r with
              | Some a, Some b => Some (a ++ b)
              | _, _ => None
              end
  end.
Fixpoint write_methods (current : visibility) (l : list method) : option (list line) :=
  match l with
  | [] => Some []
  | m :: r =>
      if text_eqb (m_name m) (t "<clinit>") then write_methods current r
      else if negb (valid_method (java_method_name m)) then write_methods current r
      else
        let v := visibility_of (m_flags m) in
        match write_method m, write_methods v r with
        | Some a, Some b =>
            Some ((if visibility_eqb v current then [] else [Keyword (visibility_keyword v)])
                  ++ a ++ b)
        | _, _ => None
        end
  end.

(** declaration, 31-34. *)
Definition declared_module (c : class_file) : bool :=
  match kind c with
  | KInterface | KAnnotation | KModule => true
  | KClass | KEnum | KRecord => false
  end.
(** superclass, 36-42. *)
Definition superclass (c : class_file) : option text :=
  match c_super c with
  | Some s => match parse_name s with inl n => Some (ruby_fqn n) | inr _ => None end
  | None => None
  end.
Definition last_class (l : list text) : text := last l [].

(** generate_ruby_signature, 13-91.  A name that parses has a last class
    (C114_imported). *)
Inductive signature_error := BadClassName | BadDescriptor.
Definition generate (c : class_file) : list line + signature_error :=
  match parse_name (c_name c) with
  | inr _ => inr BadClassName
  | inl n =>
      match write_fields (c_fields c), write_methods Public (c_methods c) with
      | Some fs, Some ms =>
          inl (Comment :: OpenModule java :: OpenModule (package_proxy_module n)
               :: map (fun o => OpenClass o None) (removelast (classes n))
               ++ (if declared_module c then OpenModule (last_class (classes n))
                   else OpenClass (last_class (classes n)) (superclass c))
               :: map IncludeName (ruby_names (c_interfaces c))
               ++ fs ++ ms
               ++ Close :: map (fun _ => Close) (removelast (classes n))
               ++ [Close; Close])
      | _, _ => inr BadDescriptor
      end
  end.
End Generator.
