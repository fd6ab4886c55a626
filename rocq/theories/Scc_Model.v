(** Model of crates/ruby-analysis/src/inference/method/recursive.rs, [strongly_connected_components]
    (lines 244-328): the recursive, map based version of Tarjan's algorithm that orders the method
    return equations.

    Simplifications: a fully qualified method name is a number, numbered in the order of its derived [Ord],
    so iterating a [BTreeMap] or [BTreeSet] visits numbers in increasing order; a map is an association list
    in which the first binding counts; a missed [expect] is [None]; the depth of the native call stack is
    not modelled. *)
From Coq Require Import List Arith Lia Bool.
Import ListNotations.

(** [BTreeMap::get], [BTreeMap::insert] *)
Fixpoint get {A} (m : list (nat * A)) (k : nat) : option A :=
  match m with [] => None | (x, v) :: r => if k =? x then Some v else get r k end.
Definition put {A} (k : nat) (v : A) (m : list (nat * A)) : list (nat * A) := (k, v) :: m.
(** [BTreeSet::contains] *)
Definition mem (x : nat) (l : list nat) : bool := existsb (Nat.eqb x) l.

(** [component.sort()], line 308 *)
Fixpoint ninsert (x : nat) (l : list nat) : list nat :=
  match l with [] => [x] | y :: r => if x <=? y then x :: l else y :: ninsert x r end.
Fixpoint nsort (l : list nat) : list nat := match l with [] => [] | x :: r => ninsert x (nsort r) end.

Definition graph : Type := list (nat * list nat).

(** struct Tarjan, lines 247-255; the stack has its top first; components in emission order *)
Record tarjan := mkT {
  next_index : nat; indexes : list (nat * nat); lowlinks : list (nat * nat);
  stack : list nat; on_stack : list nat; components : list (list nat) }.

(** lines 259-266 *)
Definition push (s : tarjan) (m : nat) : tarjan :=
  mkT (S (next_index s)) (put m (next_index s) (indexes s)) (put m (next_index s) (lowlinks s))
      (m :: stack s) (m :: on_stack s) (components s).
(** the two [lowlinks.get_mut] updates, lines 277-280 and 285-288 *)
Definition set_low (s : tarjan) (m l : nat) : tarjan :=
  mkT (next_index s) (indexes s) (put m l (lowlinks s)) (stack s) (on_stack s) (components s).

(** the loop over the dependencies, lines 271-290 *)
Fixpoint visit_all (visit : tarjan -> nat -> option tarjan) (m : nat) (s : tarjan) (deps : list nat) : option tarjan :=
  match deps with
  | [] => Some s
  | d :: r =>
      match get (indexes s) d with
      | None =>
          match visit s d with
          | None => None
          | Some s' =>
              match get (lowlinks s') d, get (lowlinks s') m with
              | Some ld, Some lm => visit_all visit m (set_low s' m (Nat.min lm ld)) r
              | _, _ => None
              end
          end
      | Some i =>
          if mem d (on_stack s) then
            match get (lowlinks s) m with
            | Some lm => visit_all visit m (set_low s m (Nat.min lm i)) r
            | None => None
            end
          else visit_all visit m s r
      end
  end.

(** the loop that pops one component, lines 296-307: the members in pop order and the rest of the stack *)
Fixpoint pop_to (m : nat) (st : list nat) : option (list nat * list nat) :=
  match st with
  | [] => None
  | x :: r =>
      if x =? m then Some ([x], r)
      else match pop_to m r with Some (c, r') => Some (x :: c, r') | None => None end
  end.
(** lines 292-310 *)
Definition finish (s : tarjan) (m : nat) : option tarjan :=
  match get (lowlinks s) m, get (indexes s) m with
  | Some l, Some i =>
      if l =? i then
        match pop_to m (stack s) with
        | Some (c, st) =>
            Some (mkT (next_index s) (indexes s) (lowlinks s) st
                      (filter (fun x => negb (mem x c)) (on_stack s)) (components s ++ [nsort c]))
        | None => None
        end
      else Some s
  | _, _ => None
  end.

(** [visit], lines 258-310; the number bounds the recursion depth, [scc] supplies enough *)
Fixpoint visit (n : nat) (g : graph) (s : tarjan) (m : nat) : option tarjan :=
  match n with
  | O => None
  | S n =>
      match get g m with
      | None => None
      | Some deps =>
          match visit_all (visit n g) m (push s m) deps with
          | Some s' => finish s' m
          | None => None
          end
      end
  end.

(** lines 313-327 *)
Definition start : tarjan := mkT 0 [] [] [] [] [].
Fixpoint visit_keys (n : nat) (g : graph) (s : tarjan) (keys : list nat) : option tarjan :=
  match keys with
  | [] => Some s
  | k :: r =>
      match get (indexes s) k with
      | Some _ => visit_keys n g s r
      | None => match visit n g s k with Some s' => visit_keys n g s' r | None => None end
      end
  end.
Definition scc (g : graph) : option (list (list nat)) :=
  option_map components (visit_keys (length g) g start (map fst g)).
