(** What was told and not handed on yet, what was published last: the terms of C84 and C85. *)
From Coq Require Import List Bool String Sorted.
From Verif Require Import Queues_Model.
Import ListNotations.

(** The last change of [u] in a notification. *)
Definition told (cs : changes) (u : string) : option change :=
  fold_left (fun v p => if String.eqb (fst p) u then Some (snd p) else v) cs None.
(** The change of [u] that was told last and neither handed on nor cancelled since. *)
Definition owed (tr : list wobs) (u : string) : option change :=
  fold_left (fun v o => match o with
                        | Notified _ cs => match told cs u with Some k => Some k | None => v end
                        | Handed _ cs => match told cs u with Some _ => None | None => v end
                        | Cancelled => None
                        end) tr None.
(** The notification that arrived last, unless cancelled. *)
Definition newest (tr : list wobs) : option nat :=
  fold_left (fun v o => match o with Notified i _ => Some i | Handed _ _ => v | Cancelled => None end) tr None.

Section Diag.
Context {D : Type}.
(** What was published last for [u], and what the editor received last. *)
Definition published (tr : list (pobs D)) (u : string) : option D :=
  fold_left (fun v o => match o with Published w d => if String.eqb w u then Some d else v | _ => v end) tr None.
Definition received (tr : list (pobs D)) (u : string) : option D :=
  fold_left (fun v o => match o with Received w d => if String.eqb w u then Some d else v | _ => v end) tr None.
(** Per document, the sequence published and the sequence received. *)
Definition outs (tr : list (pobs D)) (u : string) : list D :=
  flat_map (fun o => match o with Published w d => if String.eqb w u then [d] else [] | _ => [] end) tr.
Definition ins (tr : list (pobs D)) (u : string) : list D :=
  flat_map (fun o => match o with Received w d => if String.eqb w u then [d] else [] | _ => [] end) tr.
(** [a] is [b] with elements left out. *)
Inductive part_of {A : Type} : list A -> list A -> Prop :=
| po_nil : part_of [] []
| po_keep x a b : part_of a b -> part_of (x :: a) (x :: b)
| po_drop x a b : part_of a b -> part_of a (x :: b).
End Diag.
