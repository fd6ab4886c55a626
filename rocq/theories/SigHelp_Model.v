(** Signature help: which call the cursor is in, which of its arguments, and which parameter is highlighted.

    Code: crates/ruby-analysis/src/indexer/analyzer.rs:410-545, src/query/signature_help.rs:165-340.  The parameters
    of a method are those recorded for the argument diagnostics (Calls_Model.extract).  Offsets are bytes.  Not
    modelled: the resolution of the receiver and of the method (C79), the texts of labels. *)
From Coq Require Import List Arith NArith Bool.
From Verif Require Import Calls_Model.
Import ListNotations.

Definition span := (nat * nat)%type.

(** An argument of a call: its location and, if it is a keyword hash, its elements: a pair has a location and a key
    (a symbol, or something else); a double splat is no pair.  [starred]: a splat (not read by the code). *)
Inductive pair := KeyPair (at_ : span) (k : option name) | Splatted.
Record arg := Arg { where_ : span; hash : option (list pair); starred : bool }.

(** What is read of a prism CallNode: location of the message ([None] for [a.()]), of the block or block argument, and
    the arguments.  [parens] is what lies between its parentheses, if it has some (not read by the code). *)
Record call := Call { message : option span; blk : option span; args : list arg; parens : option span }.
(** Nodes: location, the call if it is one, and what is visited below it, in order. *)
Inductive tree := Node (loc : span) (c : option call) (below : list tree).

(** SignatureCallSiteFinder::consider (analyzer.rs:438-456): does the call come into question? *)
Definition in_question (cursor : nat) (loc : span) (c : call) : bool :=
  match message c with
  | None => false
  | Some m =>
      negb ((cursor <? snd m) || (snd loc <? cursor)) &&
      negb match blk c with Some b => fst b <=? cursor | None => false end
  end.
Definition span_len (s : span) : nat := snd s - fst s.

(** 450-478: the best call so far; a call found is given by its path from the root. *)
Definition found := (list nat * span * call)%type.
Definition consider (cursor : nat) (path : list nat) (loc : span) (oc : option call) (best : option found) : option found :=
  match oc with
  | None => best
  | Some c =>
      if in_question cursor loc c then
        match best with
        | Some (_, b, _) => if span_len b <=? span_len loc then best else Some (path, loc, c)
        | None => Some (path, loc, c)
        end
      else best
  end.
(** visit_call_node (507-511) and prism's default visit: a node before what is below it *)
Fixpoint visit (cursor : nat) (path : list nat) (t : tree) (best : option found) : option found :=
  match t with
  | Node loc c below =>
      (fix each (i : nat) (l : list tree) (best : option found) : option found :=
         match l with
         | [] => best
         | t :: r => each (S i) r (visit cursor (path ++ [i]) t best)
         end) 0 below (consider cursor path loc c best)
  end.
Definition find_call (cursor : nat) (t : tree) : option found := visit cursor [] t None.

(** active_parameter_for_call (513-545); [comma i]: there is a comma at offset [i] of the source *)
Fixpoint first_reaching (cursor : nat) (l : list arg) (i : nat) : option nat :=
  match l with
  | [] => None
  | a :: r => if cursor <=? snd (where_ a) then Some i else first_reaching cursor r (S i)
  end.
Definition comma_between (comma : nat -> bool) (a b : nat) : bool := existsb comma (seq a (b - a)).
Definition active_index (comma : nat -> bool) (cursor : nat) (l : list arg) : nat :=
  match rev l with
  | [] => 0
  | last :: _ =>
      match first_reaching cursor l 0 with
      | Some i => i
      | None => if comma_between comma (snd (where_ last)) cursor then length l else length l - 1
      end
  end.

(** active_keyword_for_call (482-501): a pair whose key is no symbol ends the search *)
Fixpoint pair_at (cursor : nat) (l : list pair) : option (option name) :=
  match l with
  | [] => None
  | Splatted :: r => pair_at cursor r
  | KeyPair s k :: r => if (cursor <? fst s) || (snd s <? cursor) then pair_at cursor r else Some k
  end.
Fixpoint active_keyword (cursor : nat) (l : list arg) : option name :=
  match l with
  | [] => None
  | a :: r =>
      match hash a with
      | None => active_keyword cursor r
      | Some es => match pair_at cursor es with Some k => k | None => active_keyword cursor r end
      end
  end.

(** Iterator::position *)
Fixpoint position {A} (f : A -> bool) (l : list A) : option nat :=
  match l with
  | [] => None
  | x :: r => if f x then Some 0 else option_map S (position f r)
  end.

(** active_positional_parameter (signature_help.rs:305-340) *)
Definition is_positional (k : kind) : bool :=
  match k with KRequired | KOptional | KRest | KAnonymousRest | KForwarding => true | _ => false end.
Definition takes_rest (k : kind) : bool := match k with KRest | KAnonymousRest | KForwarding => true | _ => false end.
Definition positionals (l : list kind) : list (nat * kind) :=
  filter (fun x => is_positional (snd x)) (combine (seq 0 (length l)) l).
Definition active_positional (l : list kind) (i : nat) : nat :=
  let ps := positionals l in
  match nth_error ps i with
  | Some (n, _) => n
  | None =>
      match find (fun x => takes_rest (snd x)) ps with
      | Some (n, _) => n
      | None => match rev ps with (n, _) :: _ => n | [] => 0 end
      end
  end.

(** active_parameter_for_params (247-273); active_parameter_for_rbs_params (275-303) is the same *)
Definition is_keyword (k : kind) : bool := match k with KRequiredKeyword | KOptionalKeyword => true | _ => false end.
Definition is_key_rest (k : kind) : bool := match k with KKeywordRest => true | _ => false end.
Definition active_parameter (l : list param) (i : nat) (key : option name) : nat :=
  let otherwise := active_positional (map snd l) i in
  match key with
  | None => otherwise
  | Some k =>
      match position (fun p => name_eqb (fst p) k && is_keyword (snd p)) l with
      | Some n => n
      | None => match position (fun p => is_key_rest (snd p)) l with Some n => n | None => otherwise end
      end
  end.

(** signature_data (177-213) and SignatureHelpTarget (analyzer.rs:163-192): what is highlighted for a call *)
Definition highlighted (comma : nat -> bool) (cursor : nat) (c : call) (p : parameters) : option param :=
  nth_error (extract p) (active_parameter (extract p) (active_index comma cursor (args c)) (active_keyword cursor (args c))).
