(** Calls with a block whose parameters may have been changed by it.

    /repo/crates/ruby-analysis/src/inference/higher_order.rs 56-135, 137-157, 189-223;
    /repo/crates/ruby-analysis/src/inference/type_tracker/mod.rs 3190-3231;
    /repo/crates/ruby-analysis/src/indexer/fact_collector/mod.rs 1596-1636.

    Modelled: finish_with_proven_block_state, finish_static_method and how the two callers
    make the list of types after the block.  Reasons for failures are left out, as in
    HigherOrder_Model. *)
From Coq Require Import List Arith Bool.
From Verif Require Import Types_Model HigherOrder_Model.
Import ListNotations.

(** The matches! at 203-204. *)
Definition hash_like (t : ty) : bool :=
  match t with TShape _ _ _ _ _ | THash _ _ => true | _ => false end.
(** BTreeMap::insert for a name that has the type [p]; the map is the same if the type is. *)
Definition insert_over (n : nat) (p a : ty) (s : substs) : substs := if eqb p a then s else (n, a) :: s.

(** replace_proven_mutated_binding, 189-219. *)
Definition replace (t : template) (a : ty) (s : substs) : out substs :=
  if contains_unknown a then Failed
  else
    match t with
    | Variable_ n =>
        match look s n with
        | None => Failed
        | Some p =>
            if negb (hash_like p) || negb (hash_like a) then if eqb p a then Fine s else Failed
            else Fine (insert_over n p a s)
        end
    | _ => Fine s
    end.
(** The loop of 86-100. *)
Fixpoint replace_all (l : list (template * ty)) (s : substs) : out substs :=
  match l with
  | [] => Fine s
  | (t, a) :: l => andthen (replace t a s) (replace_all l)
  end.

Section Solver.
Variable compatible : ty -> ty -> bool.

(** One turn of the loop of finish_with_block_state, 85-124. *)
Definition finish_state_one (block : ty) (post : list ty) (c : candidate) : out ty :=
  andthen (replace_all (combine (block_parameters (fst c)) post) (fst (snd c))) (fun s =>
  finish_one compatible block (fst c, (s, snd (snd c)))).
(** finish_with_proven_block_state, 56-135. *)
Definition finish_state (set : list candidate * list ty) (block : ty) (post : list ty) : out ty :=
  if contains_unknown block then Failed
  else if exceeds block then Failed
  else if negb (length post =? length (snd set)) then Failed
  else
    andthen (all_fine (map (finish_state_one block post) (fst set))) (fun results =>
    match results with
    | [] => Failed
    | x :: r => if forallb (eqb x) r then Fine x else Failed
    end).

(** finish_static_method, 142-157: [&:name]; [answer] is the type found for the method on a
    receiver of the given type, None if none is proven. *)
Definition finish_static (set : list candidate * list ty) (answer : ty -> option ty) : out ty :=
  match snd set with
  | [x] => match answer x with Some y => finish compatible set y | None => Failed end
  | _ => Failed
  end.
End Solver.

(** The types after the block in the type tracker, 3211-3224: one for each name that has a
    type announced; [after] is the type the tracker has for it, as was if it is not followed. *)
Definition tracker_post (names : list nat) (announced : list ty) (after : nat -> ty -> ty) : list ty :=
  map (fun p => after (fst p) (snd p)) (combine names announced).
(** The types after the block in the fact collector, 1627-1632: those announced, the first
    ones replaced by what was tracked. *)
Fixpoint collector_post (announced tracked : list ty) : list ty :=
  match announced, tracked with
  | a :: announced, t :: tracked => t :: collector_post announced tracked
  | _, _ => announced
  end.
