(** What an editor reads from a semantic token stream, and which tokens a tree has. *)
From Coq Require Import List Arith NArith Bool.
From Verif Require Import Text_Lib Position_Spec Tokens_Model.
Import ListNotations.

(** The protocol: each token's line is relative to the previous token's line, and its start to the previous
    token's start when they share a line. *)
Fixpoint decode (line character : N) (l : list token) : list (N * N * token) :=
  match l with
  | [] => []
  | k :: l' =>
    let line' := (line + delta_line k)%N in
    let character' := if (delta_line k =? 0)%N then (character + delta_start k)%N else delta_start k in
    (line', character', k) :: decode line' character' l'
  end.

(** A token of a program: the bytes it covers, its kind and its modifiers. *)
Definition marked := (span * kind * list modifier)%type.

(** What the editor must show for it: the position of its first character, its length in UTF-16 units, and
    its kind and modifiers by the legend. *)
Definition shown (t : text) (m : marked) (p : N * N * token) : Prop :=
  let '(loc, k, ms) := m in
  let '(line, character, tok) := p in
  exists a w b, t = a ++ w ++ b /\ loc = (size a, size (a ++ w)) /\
    (exists l c, lsp_position a (l, c) /\ line = N.of_nat l /\ character = N.of_nat c) /\
    len tok = N.of_nat (units w) /\
    nth_error token_types (N.to_nat (token_type tok)) = Some k /\
    forall i m, nth_error token_modifiers i = Some m -> (N.testbit_nat (modifiers_bitset tok) i = true <-> In m ms).

Inductive child : node -> node -> Prop :=
  | CLocal s name d c x : In x c -> child (Node s (Local name d c)) x
  | CPath s p name x : In x p -> child (Node s (ConstantPath p name)) x
  | CCall s r m a b x : In x r \/ In x a \/ In x b -> child (Node s (Call r m a b)) x
  | CIf s p st e x : x = p \/ In x st \/ In x e -> child (Node s (If p st e)) x
  | COther s c x : In x c -> child (Node s (Other c)) x.

Section Marks.
Variable special : text -> bool.
(** A call of "[...]" or "[...]=" *)
Definition bracketed (w : text) : Prop :=
  (exists v, w = open_bracket :: v) /\ ((exists v, w = v ++ [close_bracket]) \/ exists v, w = v ++ [close_bracket; equals]).

(** The tokens of a tree: names of local variables, constants, and messages of calls. *)
Inductive has_token (t : text) : node -> marked -> Prop :=
  | HLocal s name d c : has_token t (Node s (Local name d c)) (name, Variable_, if d then [Declaration] else [])
  | HConstant s : has_token t (Node s ConstantRead) (s, Class, [])
  | HPath s p name : has_token t (Node s (ConstantPath p name)) (name, Class, [])
  | HMessage s r m x y w a b : t = a ++ w ++ b -> m = (size a, size (a ++ w)) -> ~ bracketed w ->
      has_token t (Node s (Call r (Some m) x y)) (m, if special w then Macro else Method, [])
  | HChild n c x : child n c -> has_token t c x -> has_token t n x.
End Marks.

(** The parts lie between [lo] and [hi], one after the other. *)
Fixpoint in_order (lo : nat) (parts : list span) (hi : nat) : Prop :=
  match parts with
  | [] => lo <= hi
  | (s, e) :: r => lo <= s /\ s <= e /\ in_order e r hi
  end.
(** [loc] covers characters of [t], at least one. *)
Definition covers (t : text) (loc : span) : Prop :=
  exists a w b, t = a ++ w ++ b /\ w <> [] /\ loc = (size a, size (a ++ w)).

(** A tree whose parts are written in the order in which the visitor takes them: the name before the value,
    the parent before the name, receiver, message, arguments, block; a condition before or after its body;
    other children in field order.  (Prefix operators, a loop's trailing condition and here-documents are
    written otherwise.) *)
Fixpoint laid_out (t : text) (n : node) : Prop :=
  let all := fix all (l : list node) : Prop := match l with [] => True | x :: r => laid_out t x /\ all r end in
  let 'Node (s, e) sh := n in
  match sh with
  | Local name _ children => covers t name /\ in_order s (name :: map at_ children) e /\ all children
  | ConstantRead => covers t (s, e)
  | ConstantPath parent name => covers t name /\ in_order s (map at_ parent ++ [name]) e /\ all parent
  | Call receiver message arguments block =>
      match message with Some m => covers t m | None => True end /\
      in_order s (map at_ receiver ++ match message with Some m => [m] | None => [] end
                  ++ map at_ arguments ++ map at_ block) e /\
      all receiver /\ all arguments /\ all block
  | If predicate statements subsequent =>
      (in_order s (at_ predicate :: map at_ statements ++ map at_ subsequent) e \/
       in_order s (map at_ statements ++ at_ predicate :: map at_ subsequent) e /\
       exists st r, statements = st :: r /\ fst (at_ st) < snd (at_ st)) /\
      laid_out t predicate /\ all statements /\ all subsequent
  | Other children => in_order s (map at_ children) e /\ all children
  end.

(** Tokens one after the other. *)
Definition before (x y : marked) : Prop := snd (fst (fst x)) <= fst (fst (fst y)).
