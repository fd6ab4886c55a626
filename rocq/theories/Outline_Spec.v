(** What a user expects of the outline of a document. *)
From Coq Require Import List Arith Bool String.
From Verif Require Import Outline_Model.
Import ListNotations.

(** The outline the source asks for: classes, modules, methods and constants, nested in the class or
    module that encloses them.  [single]: inside [class << self]. *)
Record entry := mkEntry { ename : string; ekind : symbol_kind; erange : span; emethod : option kind }.
Fixpoint wanted (single : bool) (t : tree) : list (rose entry) :=
  match t with
  | Node w loc below =>
      match w with
      | NClass n _ => [Rose (mkEntry n SClass loc None) (flat_map (wanted false) below)]
      | NModule n _ => [Rose (mkEntry n SModule loc None) (flat_map (wanted false) below)]
      | NSingletonClass => flat_map (wanted true) below
      | NDef n r => Rose (mkEntry n SMethod loc (Some (if r || single then Singleton else Instance))) []
                    :: flat_map (wanted single) below
      | NConst n => Rose (mkEntry n SConstant loc None) [] :: flat_map (wanted single) below
      | _ => flat_map (wanted single) below
      end
  end.

(** What an item of the answer says, but for the visibility. *)
Definition method_word (l : list word) : option kind :=
  match rev l with WClassMethod :: _ => Some Singleton | WInstanceMethod :: _ => Some Instance | _ => None end.
Definition says (i : item) : entry := mkEntry (iname i) (ikind i) (irange i) (method_word (idetail i)).

Fixpoint rose_map {A B} (f : A -> B) (r : rose A) : rose B :=
  match r with Rose x cs => Rose (f x) (map (rose_map f) cs) end.
(** The same with the children of every node in reverse order. *)
Fixpoint mirror {A} (r : rose A) : rose A :=
  match r with Rose x cs => Rose x (rev (map mirror cs)) end.

(** Parse trees: a class or module starts behind the start of those around it. *)
Fixpoint located (from : option nat) (t : tree) : Prop :=
  match t with
  | Node w loc below =>
      let each f := (fix all (l : list tree) : Prop := match l with [] => True | x :: r => located f x /\ all r end) below in
      match w with
      | NClass _ _ | NModule _ _ => match from with Some a => a < fst loc | None => True end /\ each (Some (fst loc))
      | _ => each from
      end
  end.
(** The names of classes and modules are constants the server can read. *)
Fixpoint readable_names (t : tree) : bool :=
  match t with
  | Node w _ below =>
      match w with NClass _ r | NModule _ r => r | _ => true end && forallb readable_names below
  end.

(** The visibility Ruby gives to methods: of the statements of a class body, those behind a bare
    [private], [protected] or [public] get it, up to the next; a body starts public, the program private,
    a method's body public.  Some names are always private. *)
Definition always_private (n : string) : bool :=
  existsb (String.eqb n) ["initialize"; "initialize_copy"; "initialize_clone"; "initialize_dup"; "respond_to_missing?"]%string.
Definition after (v : visibility) (t : tree) : visibility :=
  match t with Node (NCall (CModifier m) true) _ _ => m | _ => v end.
Record shown := mkShown { hname : string; hrange : span; hvisibility : visibility }.
(** The instance methods of the program with their visibility, in order. *)
Fixpoint ruby_methods (single : bool) (v : visibility) (t : tree) : list shown :=
  match t with
  | Node w loc below =>
      let each s v := flat_map (ruby_methods s v) below in
      match w with
      | NProgram => each false Private
      | NStatements =>
          (fix go (v : visibility) (l : list tree) : list shown :=
             match l with [] => [] | x :: r => ruby_methods single v x ++ go (after v x) r end) v below
      | NClass _ _ | NModule _ _ => each false Public
      | NSingletonClass => each true Public
      | NDef n r => (if r || single then [] else [mkShown n loc (if always_private n then Private else v)])
                    ++ each single Public
      | _ => each single v
      end
  end.

(** What the answer shows of instance methods. *)
Definition visibility_word (l : list word) : option visibility :=
  match l with
  | [WPrivate; WInstanceMethod] => Some Private
  | [WProtected; WInstanceMethod] => Some Protected
  | [WPublic; WInstanceMethod] => Some Public
  | _ => None
  end.
Fixpoint shown_methods (r : rose item) : list shown :=
  match r with
  | Rose x cs => (match visibility_word (idetail x) with Some v => [mkShown (iname x) (irange x) v] | None => [] end)
                 ++ flat_map shown_methods cs
  end.

(** The programs for which the visibility is right: modifiers are bare statements of a class body;
    no method is defined in a method; instance methods are in a class or module and none has one of
    the names that are always private; no [module_function]. *)
Inductive context := CBody (top : bool) | CStatement (top : bool) | CIn (top : bool) | CMethod.
Definition top_of (c : context) : bool := match c with CBody b | CStatement b | CIn b => b | CMethod => false end.
Definition deeper (c : context) : context := match c with CMethod => CMethod | c => CIn (top_of c) end.
(** The statements of a class or program come last below it. *)
Fixpoint body_last (l : list tree) : bool :=
  match l with
  | [] => true
  | [_] => true
  | Node NStatements _ _ :: _ => false
  | _ :: r => body_last r
  end.
Fixpoint tidy (single : bool) (c : context) (t : tree) : bool :=
  match t with
  | Node w loc below =>
      match w with
      | NProgram => false
      | NStatements => forallb (tidy single (match c with CBody b => CStatement b | c => deeper c end)) below
      | NClass _ _ | NModule _ _ => body_last below && forallb (tidy false (CBody false)) below
      | NSingletonClass => body_last below && forallb (tidy true (CBody false)) below
      | NDef n r => match c with CMethod => false | _ => true end
                    && (r || single || negb (top_of c) && negb (always_private n))
                    && forallb (tidy single CMethod) below
      | NCall (CModifier _) b => b && match c with CStatement _ => true | _ => false end
                                 && match below with [] => true | _ => false end
      | NCall CModuleFunction b => negb b && forallb (tidy single (deeper c)) below
      | _ => forallb (tidy single (deeper c)) below
      end
  end.
Definition tidy_program (t : tree) : bool :=
  match t with Node NProgram _ below => body_last below && forallb (tidy false (CBody true)) below | _ => false end.
