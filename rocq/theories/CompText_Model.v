(** What kind of completion is offered, and for which piece of text (src/capabilities/completion/mod.rs).

    The handler looks at the line under the cursor as a Rust [str] and cuts it at [position.character].
    That number counts UTF-16 units, while the cuts count bytes: both are kept apart here, and [None]
    is the panic of a cut inside a character.  No handler catches panics.

    Not modelled: what the syntax tree says at the cursor (the identifier, the Hash key target, whether
    the cursor is where a statement may stand) comes in as an argument. *)
From Coq Require Import List Arith NArith Bool.
From Verif Require Import Text_Lib.
Import ListNotations.

(** char::is_alphanumeric and char::is_whitespace, the tables of the standard library, as arguments. *)
Record chars := { alnum : N -> bool; space : N -> bool }.

Definition dot : N := 46.
Definition colon : N := 58.
Definition underscore : N := 95.

(** Identifier and MethodReceiver, crates/ruby-analysis/src/indexer/identifier.rs:8-36, 77-125: only
    what the handler looks at.  [AtOther] stands for variables and types in comments. *)
Inductive receiver :=
  NoReceiver | SelfReceiver | SuperReceiver | ConstantReceiver | LocalReceiver | InstanceReceiver
| ClassVarReceiver | GlobalReceiver | CallReceiver | LiteralReceiver | ExpressionReceiver.
Inductive ident := AtConstant (path : list text) | AtMethod (r : receiver) (name : text) | AtOther.

(** snippets.rs:9-20 SnippetContext. *)
Inductive snippets := InMethodCall | InGeneral.

(** mod.rs:278-358: the three answers, with the text the candidates must start with.  [Anything] also
    says with which context the snippets are offered, if they are. *)
Inductive answer :=
| Constants (partial : text)
| Methods (partial : text)
| Anything (partial : text) (s : option snippets).

Section Handler.
Variable T : chars.

(** |c| c.is_alphanumeric() || c == '_', mod.rs:181, 214, 255. *)
Definition word (c : N) : bool := alnum T c || N.eqb c underscore.

(** str::rfind: the byte offset of the last character satisfying [p]. *)
Fixpoint rfind (p : N -> bool) (t : text) : option nat :=
  match t with
  | [] => None
  | c :: r => match rfind p r with Some n => Some (u8 c + n) | None => if p c then Some 0 else None end
  end.

(** str::trim. *)
Fixpoint trim_start (t : text) : text :=
  match t with [] => [] | c :: r => if space T c then trim_start r else t end.
Definition trim (t : text) : text := rev (trim_start (rev (trim_start t))).

(** mod.rs:244-260 line_has_dot. *)
Definition line_has_dot (line : text) (pos : nat) : option bool :=
  match (if pos <=? size line then upto line pos else Some line) with
  | None => None
  | Some before =>
      match rfind (N.eqb dot) before with
      | None => Some false
      | Some n => option_map (forallb word) (from before (n + 1))
      end
  end.

(** mod.rs:114-130 is_scope_resolution_context: characters are counted here, neither bytes nor units. *)
Definition is_char (line : text) (n : nat) (c : N) : bool :=
  match nth_error line n with Some d => N.eqb d c | None => false end.
Definition scope_context (trigger : option N) (line : text) (pos : nat) : bool :=
  match trigger with
  | Some t => N.eqb t colon && (2 <=? pos) && is_char line (pos - 1) colon && is_char line (pos - 2) colon
  | None => false
  end.

(** mod.rs:165-205, the namespace in front of the colons when the tree has nothing to say. *)
Definition colons : text := [colon; colon].
Definition as_namespace (ns : text) : text :=
  match ns with [] => colons | _ => if forallb word ns then ns ++ colons else colons end.
Definition fallback_namespace (line : text) (pos : nat) : option text :=
  if 2 <=? pos then
    match upto line (pos - 2) with
    | None => None
    | Some before =>
        match rfind (fun c => negb (word c) && negb (N.eqb c colon)) before with
        | Some n => option_map as_namespace (from before (n + 1))
        | None => Some (as_namespace (trim before))
        end
    end
  else Some colons.

(** mod.rs:206-220, the word in front of the cursor when the tree has nothing to say. *)
Definition fallback_word (line : text) (pos : nat) : option text :=
  match upto line (Nat.min pos (size line)) with
  | None => None
  | Some before =>
      match rfind (fun c => negb (word c)) before with
      | Some n => from before (n + 1)
      | None => Some (trim before)
      end
  end.

(** Joining with colons, mod.rs:143-147. *)
Fixpoint joined (path : list text) : text :=
  match path with [] => [] | [a] => a | a :: r => a ++ colons ++ joined r end.

(** mod.rs:133-230 partial_string. *)
Definition partial_string (scope : bool) (i : option ident) (line : text) (pos : nat) : option text :=
  match i with
  | Some (AtConstant path) =>
      if scope then Some (match joined path with [] => colons | s => s ++ colons end)
      else Some (last path [])
  | Some (AtMethod _ name) => Some name
  | Some AtOther => Some (if scope then colons else [])
  | None => if scope then fallback_namespace line pos else fallback_word line pos
  end.

(** mod.rs:263-275, the receivers that make it a call whatever the text says. *)
Definition known_receiver (i : option ident) : bool :=
  match i with
  | Some (AtMethod (LocalReceiver | InstanceReceiver | ClassVarReceiver | GlobalReceiver | CallReceiver
                    | LiteralReceiver | ExpressionReceiver) _) => true
  | _ => false
  end.

(** snippets.rs:187-219 determine_context_with_position. *)
Definition ends_with (c : N) (t : text) : bool :=
  match rev t with d :: _ => N.eqb d c | [] => false end.
Definition snippet_context (i : option ident) (line : text) (pos : nat) : option snippets :=
  match i with
  | Some (AtMethod (LocalReceiver | InstanceReceiver | ClassVarReceiver | GlobalReceiver | CallReceiver
                    | ExpressionReceiver) _) => Some InMethodCall
  | None =>
      if (0 <? pos) && (pos <=? size line) then
        option_map (fun b => if ends_with dot b then InMethodCall else InGeneral) (upto line pos)
      else Some InGeneral
  | _ => Some InGeneral
  end.

(** mod.rs:96-358, after the branch for Hash keys.  [trigger] is the character that started the
    request (only with the kind TRIGGER_CHARACTER), [statement] is is_in_statement_position. *)
Definition answer_at (trigger : option N) (i : option ident) (statement : bool) (line : text) (pos : nat)
  : option answer :=
  let scope := scope_context trigger line pos in
  match partial_string scope i line pos with
  | None => None
  | Some partial =>
      match line_has_dot line pos with
      | None => None
      | Some has_dot =>
          let dot_trigger := match trigger with Some t => N.eqb t dot | None => false end in
          if scope then Some (Constants partial)
          else if dot_trigger || has_dot || known_receiver i then Some (Methods partial)
          else if negb dot_trigger && statement then
            option_map (fun s => Anything partial (Some s)) (snippet_context i line pos)
          else Some (Anything partial None)
      end
  end.
End Handler.
