(** Semantic tokens: what the visitor sends to the editor for a syntax tree.

    Code: crates/ruby-analysis/src/indexer/semantic_tokens.rs (sent unchanged by
    src/capabilities/semantic_tokens.rs, whose legend is TOKEN_TYPES and TOKEN_MODIFIERS). *)
From Coq Require Import List Arith NArith Bool.
From Verif Require Import Text_Lib Position_Model.
Import ListNotations.

(** semantic_tokens.rs:13-38 (SemanticTokenKind) and 40-64 (its upper-case aliases). *)
Inductive kind := Namespace | Type_ | Class | Enum | Interface | Struct | TypeParameter | Parameter_ | Variable_
  | Property | EnumMember | Event | Function_ | Method | Macro | Keyword | Modifier | Comment | String_
  | Number | Regexp | Operator | Decorator.
(** semantic_tokens.rs:66-78 (SemanticTokenModifierKind). *)
Inductive modifier := Declaration | Definition_ | Readonly | Static | Deprecated | Abstract | Async
  | Modification | Documentation | DefaultLibrary.

Definition kind_eq : forall x y : kind, {x = y} + {x <> y}. Proof. decide equality. Defined.
Definition modifier_eq : forall x y : modifier, {x = y} + {x <> y}. Proof. decide equality. Defined.

(** semantic_tokens.rs:108-132 *)
Definition token_types : list kind :=
  [Namespace; Type_; Class; Enum; Interface; Struct; TypeParameter; Parameter_; Variable_;
   Property; EnumMember; Event; Function_; Method; Macro; Keyword; Modifier; Comment; String_;
   Number; Regexp; Operator; Decorator].
(** semantic_tokens.rs:142-153 *)
Definition token_modifiers : list modifier :=
  [Declaration; Definition_; Readonly; Static; Deprecated; Abstract; Async; Modification; Documentation;
   DefaultLibrary].

(** semantic_tokens.rs:134-140 and 155-162: the map from entry to index, filled in list order, so that a
    later entry wins. *)
Fixpoint index_of {A} (eq : forall x y : A, {x = y} + {x <> y}) (x : A) (l : list A) (i : N) : option N :=
  match l with
  | [] => None
  | y :: l' => match index_of eq x l' (i + 1) with
               | Some j => Some j
               | None => if eq y x then Some i else None
               end
  end.

(** semantic_tokens.rs:237-242 *)
Definition token_type_to_index (k : kind) : N :=
  match index_of kind_eq k token_types 0 with Some i => i | None => 0%N end.
(** semantic_tokens.rs:244-249 *)
Definition token_modifiers_to_bitset (ms : list modifier) : N :=
  fold_left (fun bits m => match index_of modifier_eq m token_modifiers 0 with
                           | Some i => N.lor bits (N.shiftl 1 i)
                           | None => bits
                           end) ms 0%N.

(** semantic_tokens.rs:91-98 *)
Record token := Token { delta_line : N; delta_start : N; len : N; token_type : N; modifiers_bitset : N }.

(** u32 subtraction and sum. With [checked] (the debug profile's overflow checks) an overflow panics; the
    release profile wraps (Cargo.toml sets no overflow-checks). *)
Definition sub32 (checked : bool) (a b : N) : option N :=
  if (b <=? a)%N then Some (a - b)%N else if checked then None else Some (a + 4294967296 - b)%N.
Definition sum32 (checked : bool) (n : N) : option N :=
  if (n <? 4294967296)%N then Some n else if checked then None else Some (N.modulo n 4294967296).

Definition span := (nat * nat)%type.

(** semantic_tokens.rs:164-168: the tokens so far and the last token's position. *)
Record state := State { tokens : list token; current : N * N }.
(** semantic_tokens.rs:171-177 *)
Definition init : state := State [] (0%N, 0%N).

(** semantic_tokens.rs:179-235. None stands for a panic. The trace! message is left out: its slice is taken
    only when tracing is on. *)
Definition add_token (checked : bool) (t : text) (st : state) (loc : span) (k : kind) (ms : list modifier) : option state :=
  match offset_to_line_character t (fst loc), offset_to_line_character t (snd loc) with
  | Some (sl, sc), Some (el, ec) =>
    match sub32 checked (N.of_nat sl) (fst (current st)) with
    | None => None
    | Some dl =>
      match (if (dl =? 0)%N then sub32 checked (N.of_nat sc) (snd (current st)) else Some (N.of_nat sc)) with
      | None => None
      | Some dc =>
        match (if sl =? el then sub32 checked (N.of_nat ec) (N.of_nat sc)
               else match slice t (fst loc) (snd loc) with
                    | Some w => sum32 checked (N.of_nat (units w))
                    | None => None
                    end) with
        | None => None
        | Some n => Some (State (tokens st ++ [Token dl dc n (token_type_to_index k) (token_modifiers_to_bitset ms)])
                                (N.of_nat sl, N.of_nat sc))
        end
      end
    end
  | _, _ => None
  end.

(** The syntax tree, as far as the visitor tells its nodes apart; every node has the byte span of its
    location. *)
Inductive node := Node (at_ : span) (sh : shape)
with shape :=
  (** a local variable's read, write, and-write, or-write, operator write or target, or a block-local
      variable: its token, whether it carries DECLARATION, and the children of the default visit *)
  | Local (name : span) (declares : bool) (children : list node)
  (** a ConstantReadNode: its token is its location *)
  | ConstantRead
  (** a ConstantPathNode: the parent, if any, and the name's location *)
  | ConstantPath (parent : list node) (name : span)
  (** a CallNode: receiver, message location, arguments, block *)
  | Call (receiver : list node) (message : option span) (arguments : list node) (block : list node)
  (** an IfNode or UnlessNode: predicate, statements, else part *)
  | If (predicate : node) (statements : list node) (subsequent : list node)
  (** any other node: the children in prism's field order *)
  | Other (children : list node).

Definition at_ (n : node) : span := let 'Node s _ := n in s.

(** What the visitor does, in order: add a token, or look at a call's message and perhaps add one. *)
Inductive act := Add (loc : span) (k : kind) (ms : list modifier) | Message (loc : span).

(** semantic_tokens.rs:437-600: visit_call_node, the visitors of local variables, visit_if_node and
    visit_unless_node, visit_constant_path_node, visit_constant_read_node, and prism's default visit. A list
    of at most one node stands for an optional node; arguments stands for the children of the
    ArgumentsNode. *)
Fixpoint visit (n : node) : list act :=
  let all := fix all (l : list node) : list act := match l with [] => [] | x :: r => visit x ++ all r end in
  let 'Node loc sh := n in
  match sh with
  | Local name declares children => Add name Variable_ (if declares then [Declaration] else []) :: all children
  | ConstantRead => [Add loc Class []]
  | ConstantPath parent name => all parent ++ [Add name Class []]
  | Call receiver message arguments block =>
      all receiver ++ match message with Some m => [Message m] | None => [] end ++ all arguments ++ all block
  | If predicate statements subsequent =>
      (if match statements with s :: _ => fst (at_ s) <? fst (at_ predicate) | [] => false end
       then all statements ++ visit predicate
       else visit predicate ++ all statements) ++ all subsequent
  | Other children => all children
  end.

Section Special.
(** semantic_tokens.rs:251-433 (is_special_method): the list of names is not modelled. *)
Variable special : text -> bool.

(** "[" , "]" and "=" *)
Definition open_bracket : N := 91%N.
Definition close_bracket : N := 93%N.
Definition equals : N := 61%N.
Definition starts_with_bracket (w : text) : bool := match w with c :: _ => (c =? open_bracket)%N | [] => false end.
Definition ends_with_bracket (w : text) : bool :=
  match rev w with
  | c :: r => (c =? close_bracket)%N
              || (c =? equals)%N && match r with d :: _ => (d =? close_bracket)%N | [] => false end
  | [] => false
  end.

(** semantic_tokens.rs:444-456: the message's token, by its text *)
Definition message_kind (w : text) : option kind :=
  if starts_with_bracket w && ends_with_bracket w then None
  else if special w then Some Macro else Some Method.

Definition perform (checked : bool) (t : text) (st : state) (a : act) : option state :=
  match a with
  | Add loc k ms => add_token checked t st loc k ms
  | Message loc => match slice t (fst loc) (snd loc) with
                   | None => None
                   | Some w => match message_kind w with
                               | Some k => add_token checked t st loc k []
                               | None => Some st
                               end
                   end
  end.

Fixpoint performs (checked : bool) (t : text) (st : state) (l : list act) : option state :=
  match l with
  | [] => Some st
  | a :: l' => match perform checked t st a with Some st' => performs checked t st' l' | None => None end
  end.

(** src/capabilities/semantic_tokens.rs: visit the tree and send the tokens. *)
Definition semantic_tokens (checked : bool) (t : text) (n : node) : option (list token) :=
  option_map tokens (performs checked t init (visit n)).
End Special.
