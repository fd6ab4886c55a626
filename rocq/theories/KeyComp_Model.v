(** Completion of the keys of a hash inside [x[:na|]] and [x["na|"]]:
    /repo/crates/ruby-analysis/src/indexer/analyzer.rs 28-50, 108-140, 262-412 (the finder),
    /repo/crates/ruby-analysis/src/inference/completion.rs 46-138 (the keys) and
    /repo/src/capabilities/completion/mod.rs 52-100 (the answer).
    Simplifications: the syntax tree is a tree of calls and of other nodes, children in the order the
    visitor reaches them; texts that are not valid UTF-8 do not occur; offsets fit u32; keys are numbers
    as in Types_Model, [spell] gives their texts; positions in the answer are byte offsets (their
    conversion is C01).  A panic is [None]. *)
From Coq Require Import List Arith Bool NArith.
From Verif Require Import Text_Lib Types_Model.
Import ListNotations.

(** ** The call under the cursor. *)
(** ShapeKeySyntax, analyzer.rs 28-32. *)
Inductive syntax := Symbols | Strings.
(** An argument: a symbol (its text and, if it has one, its place), a string, or anything else. *)
Inductive arg := ASym (t : text) (place : option (nat * nat)) | AStr (t : text) (place : nat * nat) | AElse.
(** A receiver: its place, and its name if it is a local variable. *)
Record recv := mkRecv { r_from : nat; r_to : nat; r_local : option nat }.
(** What the finder reads of a CallNode. *)
Record call := mkCall { c_index : bool; c_recv : option recv; c_message : option (nat * nat);
                        c_args : option (list arg); c_from : nat; c_to : nat }.
Inductive tree := Call (c : call) (inner : list tree) | Node (inner : list tree).
(** ShapeKeyCompletionTarget, 34-43; CompletionReceiverTarget, 45-49. *)
Record target := mkTarget { t_recv : recv; t_syntax : syntax; t_partial : text; t_from : nat; t_to : nat }.

(** 296-316 *)
Definition literal_of (a : arg) : option (syntax * text * (nat * nat)) :=
  match a with
  | ASym t (Some p) => Some (Symbols, t, p)
  | ASym _ None => None
  | AStr t p => Some (Strings, t, p)
  | AElse => None
  end.
Section Finder.
Variable cursor : nat.
(** consider, 279-358; the span of the best call is kept with it. *)
Definition consider (c : call) (best : option (target * nat)) : option (option (target * nat)) :=
  if negb (c_index c) then Some best else
  match c_recv c with
  | None => Some best
  | Some r =>
      match c_args c with
      | Some [a] =>
          match literal_of a with
          | None => Some best
          | Some (s, t, (from, to)) =>
              if negb (cursor =? to) then Some best
              else if negb (r_from r <? r_to r) then None
              else if c_to c <? c_from c then None
              else
                let span := c_to c - c_from c in
                if match best with Some (_, n) => n <=? span | None => false end then Some best
                else Some (Some (mkTarget r s t from to, span))
          end
      | _ => Some best
      end
  end.
(** consider_method_receiver, 360-403 *)
Definition consider_receiver (c : call) (best : option (recv * nat)) : option (option (recv * nat)) :=
  match c_recv c, c_message c with
  | Some r, Some (from, to) =>
      if (cursor <? from) || (to <? cursor) then Some best
      else if c_to c <? c_from c then None
      else
        let span := c_to c - c_from c in
        if match best with Some (_, n) => n <=? span | None => false end then Some best
        else if negb (r_from r <? r_to r) then None
        else Some (Some (r, span))
  | _, _ => Some best
  end.
(** visit_call_node, 406-412: a call first, then what is inside it. *)
Fixpoint calls (t : tree) : list call :=
  match t with
  | Call c l => c :: flat_map calls l
  | Node l => flat_map calls l
  end.
Definition visit (c : call) (s : option (option (target * nat) * option (recv * nat))) :=
  match s with
  | None => None
  | Some (b, r) =>
      match consider c b, consider_receiver c r with
      | Some b', Some r' => Some (b', r')
      | _, _ => None
      end
  end.
(** get_completion_context, 108-140: the two targets. *)
Definition targets (t : tree) : option (option target * option recv) :=
  match fold_left (fun s c => visit c s) (calls t) (Some (None, None)) with
  | None => None
  | Some (b, r) => Some (option_map fst b, option_map fst r)
  end.
End Finder.

(** ** The keys. *)
Definition key_lt (a b : lit) : bool := match lit_cmp a b with Lt => true | _ => false end.
(** BTreeSet::insert, and collecting into a BTreeSet. *)
Fixpoint add_key (k : lit) (l : list lit) : list lit :=
  match l with
  | [] => [k]
  | j :: r => if key_lt k j then k :: l else if lit_eqb k j then l else j :: add_key k r
  end.
Definition keys_of (fs : list field) : list lit := fold_left (fun s f => add_key (fkey f) s) fs [].
(** common_shape_keys, completion.rs 99-138 *)
Fixpoint shapes (l : list ty) : option (list (list field)) :=
  match l with
  | [] => Some []
  | TShape fs _ _ _ _ :: r => option_map (cons fs) (shapes r)
  | _ => None
  end.
Definition common_keys (t : ty) : list lit :=
  match (match t with
         | TShape fs _ _ _ _ => Some [fs]
         | TUnion l => shapes l
         | _ => None
         end) with
  | None | Some [] => []
  | Some (first :: rest) =>
      fold_left (fun common fs => filter (fun k => existsb (lit_eqb k) (keys_of fs)) common) rest (keys_of first)
  end.
Fixpoint starts (p t : text) : bool :=
  match p, t with
  | [], _ => true
  | a :: p', b :: t' => N.eqb a b && starts p' t'
  | _ :: _, [] => false
  end.
Section Keys.
Variable spell : nat -> text.
(** 80-91 *)
Definition fits (s : syntax) (partial : text) (k : lit) : bool :=
  match s, k with
  | Symbols, LSym n | Strings, LStr n => starts partial (spell n)
  | _, _ => false
  end.
(** 58-79: [exact] is exact_expression_type, [local] the type of a local variable at a place (C19). *)
Variable exact : nat -> nat -> option ty.
Variable local : nat -> nat -> option ty.
Definition receiver_type (r : recv) : option ty :=
  match exact (r_from r) (r_to r) with
  | Some TUnknown => None
  | Some t => Some t
  | None => match r_local r with Some n => local n (r_from r) | None => None end
  end.
(** shape_key_completions_for_target, 53-97 *)
Definition offered (g : target) : list lit :=
  filter (fits (t_syntax g) (t_partial g)) (match receiver_type (t_recv g) with Some t => common_keys t | None => [] end).
(** The items, mod.rs 62-100: a label, and the text that replaces the bytes from .. to. *)
Record item := mkItem { label : text; new_text : text; e_from : nat; e_to : nat }.
Definition key_text (k : lit) : text := match k with LSym n | LStr n => spell n end.
Definition items (g : target) : list item :=
  map (fun k => mkItem (key_text k) (key_text k) (t_from g) (t_to g)) (offered g).
(** The answer where the cursor is in such a key; [Some None] if it is not and the rest of completion
    (C102-C105) answers. *)
Definition answer (cursor : nat) (t : tree) : option (option (list item)) :=
  match targets cursor t with
  | None => None
  | Some (Some g, _) => Some (Some (items g))
  | Some (None, _) => Some None
  end.
End Keys.
