(** Selection ranges and folding ranges.

    Both walk the syntax tree in the order of the text and look at locations only. *)
From Coq Require Import List Arith Bool.
From Verif Require Import Text_Lib Position_Model Sort_Lib.
Import ListNotations.

(** A location or a range: start and end, in bytes. *)
Definition range := (nat * nat)%type.

(** Kinds of nodes; [Plain] is every kind not named. *)
Inductive kind := Class_ | Module_ | Def_ | If_ | While_ | For_ | Case_ | Begin_ | Array_ | Hash_ | Block_
  | Unless_ | Until_ | CaseIn_ | SingletonClass_ | Lambda_ | Plain.

(** A row of sibling nodes: the first one's kind, location, the locations of its name or message collected by
    collect_node (crates/ruby-analysis/src/indexer/selection_ranges.rs:28-53), its children, and its siblings. *)
Inductive forest := Nil | Node (k : kind) (at_ : range) (names : list range) (inside after : forest).

(** ** crates/ruby-analysis/src/indexer/selection_ranges.rs *)
(** The collector's byte_offsets and candidates, zipped. *)
Definition collector := list (nat * list range).

(** collect_location (55-66).  None is the panic in u32_offset (111-117).  The file id, equal in all ranges, is
    left out. *)
Definition collect_location (c : collector) (l : range) : option collector :=
  match u32 (fst l), u32 (snd l) with
  | Some s, Some e =>
      if s =? e then Some c
      else Some (map (fun q => if (s <=? fst q) && (fst q <? e) then (fst q, snd q ++ [(s, e)]) else q) c)
  | _, _ => None
  end.

(** collect_node (28-53) and the visitor (100-108). *)
Fixpoint collect_all (c : collector) (ls : list range) : option collector :=
  match ls with
  | [] => Some c
  | l :: r => match collect_location c l with Some c' => collect_all c' r | None => None end
  end.
Fixpoint visit (c : collector) (f : forest) : option collector :=
  match f with
  | Nil => Some c
  | Node _ l names inside after =>
      match collect_all c (l :: names) with
      | None => None
      | Some c1 => match visit c1 inside with None => None | Some c2 => visit c2 after end
      end
  end.

(** The sort key (length, Reverse(start), end) (71-77). *)
Definition key_leb (a b : range) : bool :=
  let la := snd a - fst a in let lb := snd b - fst b in
  (la <? lb) || ((la =? lb) && ((fst b <? fst a) || ((fst a =? fst b) && (snd a <=? snd b)))).

(** Vec::dedup (78). *)
Definition same_range (a b : range) : bool := (fst a =? fst b) && (snd a =? snd b).
Fixpoint dedup (l : list range) : list range :=
  match l with
  | x :: (y :: _) as t => if same_range x y then dedup t else x :: dedup t
  | _ => l
  end.

(** The chain under construction, innermost first (80-89). *)
Fixpoint chain_from (inner : range) (l : list range) : list range :=
  match l with
  | [] => []
  | r :: t => if (fst r <=? fst inner) && (snd inner <=? snd r) then r :: chain_from r t else chain_from inner t
  end.
Definition chain (l : list range) : list range := match l with [] => [] | r :: t => r :: chain_from r t end.

(** finish (68-97), for one offset. *)
Definition finish (q : nat * list range) : list range :=
  match chain (dedup (sort key_leb (snd q))) with
  | [] => [(fst q, fst q)]
  | c => c
  end.

(** selection_range_chains (5-20), given the parsed tree. *)
Definition selection_range_chains (tree : forest) (offsets : list nat) : option (list (list range)) :=
  match visit (map (fun o => (o, [])) offsets) tree with
  | Some c => Some (map finish c)
  | None => None
  end.

(** ** src/capabilities/selection_ranges.rs *)
Inductive selection := Selection (start end_ : nat * nat) (parent : option selection).

(** selection_range_from_chain (34-51): from the outermost inwards; None is the panic on an empty chain, and those
    of the position conversion. *)
Fixpoint selection_range_from_chain (t : text) (l : list range) : option selection :=
  match l with
  | [] => None
  | r :: outer =>
      match offset_to_line_character t (fst r), offset_to_line_character t (snd r) with
      | Some s, Some e =>
          match outer with
          | [] => Some (Selection s e None)
          | _ => match selection_range_from_chain t outer with Some p => Some (Selection s e (Some p)) | None => None end
          end
      | _, _ => None
      end
  end.

Fixpoint every {A B} (f : A -> option B) (l : list A) : option (list B) :=
  match l with
  | [] => Some []
  | x :: t => match f x, every f t with Some y, Some r => Some (y :: r) | _, _ => None end
  end.

(** handle_selection_ranges (7-32). *)
Definition handle_selection_ranges (t : text) (tree : forest) (positions : list (nat * nat)) : option (list selection) :=
  match every (fun p => match line_character_to_offset t (fst p) (snd p) with Some o => u32 o | None => None end) positions with
  | None => None
  | Some offsets =>
      match selection_range_chains tree offsets with
      | None => None
      | Some chains => every (selection_range_from_chain t) chains
      end
  end.

(** ** src/capabilities/folding_range.rs *)
(** Kinds with a visit method of their own (51-184). *)
Definition folds (k : kind) : bool :=
  match k with
  | Class_ | Module_ | Def_ | If_ | While_ | For_ | Case_ | Begin_ | Array_ | Hash_ | Block_ => true
  | _ => false
  end.

(** create_folding_range_from_offsets (26-48); the check in visit_array_node and visit_hash_node is the same one. *)
Definition folding_range (t : text) (l : range) : option (list (nat * nat)) :=
  match offset_to_line_character t (fst l), offset_to_line_character t (snd l) with
  | Some s, Some e => Some (if fst s <? fst e then [(fst s, fst e)] else [])
  | _, _ => None
  end.

(** The visitor: visit_def_node (75-81) does not visit the children. *)
Fixpoint fold_visit (t : text) (f : forest) : option (list (nat * nat)) :=
  match f with
  | Nil => Some []
  | Node k l _ inside after =>
      match (if folds k then folding_range t l else Some []),
            (match k with Def_ => Some [] | _ => fold_visit t inside end), fold_visit t after with
      | Some a, Some b, Some c => Some (a ++ b ++ c)
      | _, _, _ => None
      end
  end.

(** handle_folding_range (187-204). *)
Definition handle_folding_range (t : text) (tree : forest) : option (list (nat * nat)) := fold_visit t tree.
