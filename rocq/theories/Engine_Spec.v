(** What incremental indexing should amount to, in terms of the files' last contents. *)
From Coq Require Import List Arith Bool Permutation.
From Verif Require Import Ancestors_Model Engine_Model.
Import ListNotations.

(** What a file was last replaced by. *)
Fixpoint latest (f : nat) (h : list op) : content :=
  match h with
  | [] => nothing
  | o :: r =>
      if existsb (fun o' => match o' with Replace g _ => g =? f | _ => false end) r then latest f r
      else match o with Replace g c => if g =? f then c else nothing | _ => nothing end
  end.

(** Both histories leave every file with the same content. *)
Definition same_files (h1 h2 : list op) : Prop := forall f, latest f h1 = latest f h2.

(** The same facts are in force. *)
Definition same_graph (s1 s2 : engine) : Prop :=
  Permutation (enodes s1) (enodes s2) /\ Permutation (elinks s1) (elinks s2) /\ Permutation (edecls s1) (edecls s2).

(** A name of the final files. *)
Definition final_decl (h : list op) (d : decl) : Prop :=
  exists f x, In x (cdecls (latest f h)) /\ snd x = d.

Section Steady.
  Variables (id : ns -> nat) (stub : nat -> bool).
  (** Whenever a resolve call met a name of the final files, it resolved to what the final
      definitions make of it, or not at all. *)
  Definition steady (h : list op) : Prop :=
    forall h1 h2, h = h1 ++ Resolve :: h2 -> forall d, final_decl h d ->
      resolution (view id stub (run id stub h1)) d = None \/
      resolution (view id stub (run id stub h1)) d = resolution (view id stub (run id stub h)) d.
End Steady.

(** No lookup between a replacement and the next resolve call. *)
Fixpoint quiet (dirty : bool) (h : list op) : Prop :=
  match h with
  | [] => True
  | Replace _ _ :: r => quiet true r
  | Resolve :: r => quiet false r
  | Lookup _ :: r => dirty = false /\ quiet dirty r
  end.
