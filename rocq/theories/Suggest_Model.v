(** "Did you mean": edit distance and the choice of the nearest name.  Names are lists of characters. *)
From Coq Require Import List Arith NArith Bool.
From Verif Require Import Text_Lib Sort_Lib Calls_Model.
Import ListNotations.

(** crates/ruby-analysis/src/engine/diagnostic_helpers.rs:66-72; the length is that of the UTF-8 bytes. *)
Definition suggestion_threshold (n : nat) : nat := if n <=? 2 then 0 else if n <=? 8 then 2 else 3.

(** diagnostic_helpers.rs:169-196.  The two row vectors are lists read from the left: in [inner], [diagonal] is
    previous[j], [above] is previous[j + 1] and [left] is current[j].  [None] is an index out of bounds. *)
Fixpoint inner (ca : N) (left : nat) (previous : list nat) (b : list N) : option (list nat) :=
  match b with
  | [] => Some []
  | cb :: b' =>
      match previous with
      | diagonal :: (above :: _) as previous' =>
          let cost := if (ca =? cb)%N then 0 else 1 in
          let v := Nat.min (Nat.min (above + 1) (left + 1)) (diagonal + cost) in
          option_map (cons v) (inner ca v previous' b')
      | _ => None
      end
  end.
Fixpoint outer (i : nat) (a b : list N) (previous : list nat) : option (list nat) :=
  match a with
  | [] => Some previous
  | ca :: a' => match inner ca (i + 1) previous b with Some r => outer (i + 1) a' b (i + 1 :: r) | None => None end
  end.
Definition levenshtein (a b : name) : option nat :=
  if name_eqb a b then Some 0
  else if match a with [] => true | _ => false end then Some (length b)
  else if match b with [] => true | _ => false end then Some (length a)
  else match outer 0 a b (seq 0 (S (length b))) with Some r => nth_error r (length b) | None => None end.

(** diagnostic_helpers.rs:150-167 (closest_keyword).  None: a panic. *)
Definition consider (threshold : nat) (target candidate : name) (best : option (name * nat)) : option (option (name * nat)) :=
  match levenshtein candidate target with
  | None => None
  | Some dist =>
      Some (if threshold <? dist then best
            else match best with
                 | Some (_, current) => if current <=? dist then best else Some (candidate, dist)
                 | None => Some (candidate, dist)
                 end)
  end.
Fixpoint closest_from (threshold : nat) (target : name) (l : list name) (best : option (name * nat)) : option (option (name * nat)) :=
  match l with
  | [] => Some best
  | c :: l' => match consider threshold target c best with Some b => closest_from threshold target l' b | None => None end
  end.
Definition closest_keyword (target : name) (declared : list name) : option (option name) :=
  let threshold := suggestion_threshold (size target) in
  if threshold =? 0 then Some None else option_map (option_map fst) (closest_from threshold target declared None).

(** engine/state.rs:3245-3254 (method_names_for_owner), given the names of the owner's method facts in any
    order: sorted, repetitions removed. *)
Fixpoint dedup (l : list name) : list name :=
  match l with
  | x :: (y :: _) as t => if name_eqb x y then dedup t else x :: dedup t
  | _ => l
  end.
Definition method_names (facts : list name) : list name := dedup (sort name_leb facts).

(** engine/diagnostics.rs:1990-2018 (find_method_suggestion) *)
Definition abs_diff (a b : nat) : nat := (a - b) + (b - a).
Definition find_method_suggestion (facts : list name) (target : name) : option (option name) :=
  let threshold := suggestion_threshold (size target) in
  if threshold =? 0 then Some None
  else option_map (option_map fst)
    (closest_from threshold target
      (filter (fun c => negb (name_eqb c target) && negb (threshold <? abs_diff (size c) (size target))) (method_names facts)) None).
