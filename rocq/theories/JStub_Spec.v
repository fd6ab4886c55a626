(** What Ruby declares when it reads the generated lines, and what it should. *)
From Coq Require Import List Arith NArith Bool String.
From Verif Require Import Archive_Model JName_Model JStub_Model.
Import ListNotations.
Local Open Scope list_scope.

(** ** Ruby
    A reader of the lines.  The scopes that are open are a stack, innermost first, each
    with the visibility that its definitions get.  The tags of the comments go with the
    declaration that follows them.  A visibility keyword holds to the end of its scope and
    is nothing to singleton methods.  (The few names which Ruby makes private whatever the
    keyword, as initialize, are left out.) *)
Inductive ruby_visibility := RPublic | RProtected | RPrivate.
Record tags := { tag_params : list (text * text); tag_return : option text;
                 tag_type : option text; tag_raise : list text }.
Definition no_tags : tags :=
  {| tag_params := []; tag_return := None; tag_type := None; tag_raise := [] |}.

Inductive fact :=
| IsModule (path : list text)
| IsClass (path : list text) (super : option text)
| Includes (path : list text) (name : text)
| HasConstant (path : list text) (name : text) (type : option text)
| HasMethod (path : list text) (v : ruby_visibility) (singleton : bool) (name : text)
            (parameters : list (bool * text)) (doc : tags).

Definition keyword_visibility (k : text) : option ruby_visibility :=
  if text_eqb k (t "public") then Some RPublic
  else if text_eqb k (t "protected") then Some RProtected
  else if text_eqb k (t "private") then Some RPrivate else None.

Definition scopes := list (text * ruby_visibility).
Definition path (st : scopes) : list text := rev (map fst st).
Definition emit (f : fact) (o : option (list fact)) : option (list fact) := option_map (cons f) o.

Fixpoint read (ls : list line) (st : scopes) (g : tags) : option (list fact) :=
  match ls with
  | [] => match st with [] => Some [] | _ => None end
  | l :: r =>
      match l with
      | Comment => read r st g
      | ParamTag n ty =>
          read r st {| tag_params := tag_params g ++ [(n, ty)]; tag_return := tag_return g;
                       tag_type := tag_type g; tag_raise := tag_raise g |}
      | ReturnTag ty =>
          read r st {| tag_params := tag_params g; tag_return := Some ty;
                       tag_type := tag_type g; tag_raise := tag_raise g |}
      | TypeTag ty =>
          read r st {| tag_params := tag_params g; tag_return := tag_return g;
                       tag_type := Some ty; tag_raise := tag_raise g |}
      | RaiseTag ns =>
          read r st {| tag_params := tag_params g; tag_return := tag_return g;
                       tag_type := tag_type g; tag_raise := tag_raise g ++ ns |}
      | OpenModule n =>
          emit (IsModule (path st ++ [n])) (read r ((n, RPublic) :: st) no_tags)
      | OpenClass n s =>
          emit (IsClass (path st ++ [n]) s) (read r ((n, RPublic) :: st) no_tags)
      | Close => match st with [] => None | _ :: st' => read r st' no_tags end
      | IncludeName n => emit (Includes (path st) n) (read r st no_tags)
      | Keyword k =>
          match st, keyword_visibility k with
          | (n, _) :: st', Some v => read r ((n, v) :: st') no_tags
          | _, _ => None
          end
      | Constant n => emit (HasConstant (path st) n (tag_type g)) (read r st no_tags)
      | Def s n ps =>
          match st with
          | [] => None
          | (_, v) :: _ =>
              emit (HasMethod (path st) (if s then RPublic else v) s n ps g) (read r st no_tags)
          end
      end
  end.
Definition ruby_reads (ls : list line) : option (list fact) := read ls [] no_tags.

(** ** The class
    What is to be declared, member by member. *)
Section Class.
Variable w : chars.

Definition to_ruby (v : visibility) : ruby_visibility :=
  match v with Public => RPublic | Protected => RProtected | Private | Package => RPrivate end.

(** The names that are defined: the class itself under Java, its package and the classes
    around it. *)
Definition scope_facts (c : class_file) (n : class_name) : list fact :=
  let base := [java; package_proxy_module n] in
  IsModule [java] :: IsModule base
  :: map (fun k => IsClass (base ++ firstn k (classes n)) None)
         (seq 1 (List.length (classes n) - 1))
  ++ [if declared_module c then IsModule (ruby_namespace_parts n)
      else IsClass (ruby_namespace_parts n) (superclass w c)].

Definition include_facts (c : class_file) (n : class_name) : list fact :=
  map (Includes (ruby_namespace_parts n)) (ruby_names w (c_interfaces c)).

(** A field: a constant, or a reader and a writer. *)
Definition field_facts (p : list text) (f : field) : list fact :=
  match f_type f with
  | None => []
  | Some ty =>
      if is_static (f_flags f) && (is_final (f_flags f) || is_enum_constant (f_flags f)) then
        if valid_constant w (f_name f)
        then [HasConstant p (f_name f) (Some (ruby_type w ty))] else []
      else if valid_method w (f_name f) then
        [HasMethod p RPublic (is_static (f_flags f)) (f_name f) []
           {| tag_params := []; tag_return := Some (ruby_type w ty); tag_type := None;
              tag_raise := [] |};
         HasMethod p RPublic (is_static (f_flags f)) (f_name f ++ t "=") [(false, t "value")]
           {| tag_params := [(t "value", ruby_type w ty)]; tag_return := None; tag_type := None;
              tag_raise := [] |}]
      else []
  end.

(** A method is declared unless it is the class's initializer or has a name Ruby cannot
    have, as the generator decides. *)
Definition declared (m : method) : bool :=
  negb (text_eqb (m_name m) (t "<clinit>")) && valid_method w (java_method_name m).

Definition singleton (m : method) : bool :=
  text_eqb (m_name m) (t "<init>") || is_static (m_flags m).

(** The method with its own visibility, whatever stands before it. *)
Definition method_facts (p : list text) (m : method) : list fact :=
  match m_descriptor m with
  | None => []
  | Some (types, returns) =>
      if declared m then
        [HasMethod p (if singleton m then RPublic else to_ruby (visibility_of (m_flags m)))
           (singleton m) (java_method_name m)
           (parameters_from w (is_varargs (m_flags m)) 0 (m_names m))
           {| tag_params := param_tags w 0 (m_names m) types;
              tag_return := Some (ruby_type w returns); tag_type := None;
              tag_raise := ruby_names w (m_exceptions m) |}]
      else []
  end.

Definition class_facts (c : class_file) (n : class_name) : list fact :=
  let p := ruby_namespace_parts n in
  scope_facts c n ++ include_facts c n
  ++ flat_map (field_facts p) (c_fields c) ++ flat_map (method_facts p) (c_methods c).

(** The class can be written: its name and the descriptors that are needed parse. *)
Definition writable (c : class_file) : Prop :=
  (exists n, parse (alphabetic w) (alphanumeric w) (c_name c) = inl n) /\
  (forall f, In f (c_fields c) -> f_type f <> None) /\
  (forall m, In m (c_methods c) -> declared m = true -> m_descriptor m <> None).
End Class.

(** ** The tables of the JVM specification: access flags, chapters 4.1, 4.5 and 4.6 *)
Definition has_flag (flags mask : N) : Prop := N.land flags mask <> 0%N.
Definition ACC_PUBLIC := 0x0001%N. Definition ACC_PRIVATE := 0x0002%N.
Definition ACC_PROTECTED := 0x0004%N. Definition ACC_STATIC := 0x0008%N.
Definition ACC_FINAL := 0x0010%N. Definition ACC_VARARGS := 0x0080%N.
Definition ACC_INTERFACE := 0x0200%N. Definition ACC_ANNOTATION := 0x2000%N.
Definition ACC_ENUM := 0x4000%N. Definition ACC_MODULE := 0x8000%N.
(** At most one of the three is set in a class file. *)
Definition jvm_visibility (flags : N) (v : visibility) : Prop :=
  N.land flags 7%N =
  match v with Public => ACC_PUBLIC | Protected => ACC_PROTECTED | Private => ACC_PRIVATE | Package => 0%N end.

(** What a type is called in the declarations. *)
Inductive ruby_of (w : chars) : jtype -> text -> Prop :=
| O_integer j : In j [JByte; JShort; JInt; JLong; JChar] -> ruby_of w j (t "Integer")
| O_float j : In j [JFloat; JDouble] -> ruby_of w j (t "Float")
| O_boolean : ruby_of w JBoolean (t "Boolean")
| O_void : ruby_of w JVoid (t "nil")
| O_class s n : parse (alphabetic w) (alphanumeric w) s = inl n -> ruby_of w (JObject s) (ruby_fqn n)
| O_other s : (forall n, parse (alphabetic w) (alphanumeric w) s <> inl n) -> ruby_of w (JObject s) (t "Object")
| O_array j x : ruby_of w j x -> ruby_of w (JArray j) (t "Array<" ++ x ++ t ">").
