(** What the ancestry graph should answer, in terms of the history of calls only. *)
From Coq Require Import List Arith Bool Permutation Sorted.
From Verif Require Import Sort_Lib Index_Lib Graph_Model.
Import ListNotations.

(** The facts in force, each kind in the order of supply. *)
Record facts := mkFacts { fnodes : list node_fact; fedges : list edge; funresolved : list unresolved }.

Definition outside {A} (file : A -> nat) (f : nat) (l : list A) : list A :=
  filter (fun x => negb (file x =? f)) l.

Definition withdraw (f : nat) (F : facts) : facts :=
  mkFacts (outside (fun x => file_id (nrange x)) f (fnodes F))
          (outside (fun x => file_id (erange x)) f (fedges F))
          (outside (fun x => file_id (urange x)) f (funresolved F)).

Definition after (F : facts) (o : op) : facts :=
  match o with
  | AddNode x => mkFacts (fnodes F ++ [x]) (fedges F) (funresolved F)
  | AddEdge e => mkFacts (fnodes F) (fedges F ++ [e]) (funresolved F)
  | AddUnresolved u => mkFacts (fnodes F) (fedges F) (funresolved F ++ [u])
  | RemoveFile f => withdraw f F
  | ReplaceFile f ns es us =>
      let W := withdraw f F in mkFacts (fnodes W ++ ns) (fedges W ++ es) (funresolved W ++ us)
  | TakeUnresolved => mkFacts (fnodes F) (fedges F) []
  end.

Definition live (h : list op) : facts := fold_left after h (mkFacts [] [] []).

(** Every replacement supplies facts of the replaced file only (the documented duty of the
    caller). *)
Definition own_file (o : op) : Prop :=
  match o with
  | ReplaceFile f ns es us =>
      (forall x, In x ns -> file_id (nrange x) = f) /\ (forall e, In e es -> file_id (erange e) = f) /\
      (forall u, In u us -> file_id (urange u) = f)
  | _ => True
  end.
Definition well_formed (h : list op) : Prop := forall o, In o h -> own_file o.

(** Positions by which answers are ordered. *)
Definition place (r : text_range) : list nat := [file_id r; start_byte r; end_byte r].
Definition edge_position (e : edge) : list nat :=
  source e :: place (erange e) ++ [kind_rank (ekind e); prov_rank (prov e); target e].

(** [r] is the ordered list of the elements of [l] satisfying [p]. *)
Definition answers {A} (position : A -> list nat) (p : A -> bool) (l r : list A) : Prop :=
  in_order position (filter p l) r.

(** ** Superclass resolution *)

(** A superclass declaration of [q] that counts: an explicit one, or an implicit one when no
    explicit one is in force. *)
Definition declares (l : list edge) (q : nat) (e : edge) : Prop :=
  In e l /\ source e = q /\ ekind e = Superclass.
Definition counts (l : list edge) (q : nat) (e : edge) : Prop :=
  declares l q e /\ ((exists e', declares l q e' /\ prov e' = Explicit) -> prov e = Explicit).

Definition resolves (l : list edge) (q : nat) (r : superclass_result) : Prop :=
  match r with
  | Missing => forall e, ~ declares l q e
  | Unique e => counts l q e /\
                (forall e', counts l q e' -> target e' = target e /\ lexb (edge_position e) (edge_position e') = true)
  | Ambiguous => exists e1 e2, counts l q e1 /\ counts l q e2 /\ target e1 <> target e2
  end.

(** ** Histories of replacements and removals *)

(** The facts a file was last given. *)
Fixpoint last_supplied (f : nat) (h : list op) : facts :=
  match h with
  | [] => mkFacts [] [] []
  | o :: r =>
      if existsb (fun o' => match o' with RemoveFile g | ReplaceFile g _ _ _ => g =? f | _ => false end) r
      then last_supplied f r
      else match o with
           | ReplaceFile g ns es us => if g =? f then mkFacts ns es us else mkFacts [] [] []
           | _ => mkFacts [] [] []
           end
  end.

Definition by_file_only (h : list op) : Prop :=
  forall o, In o h -> match o with RemoveFile _ | ReplaceFile _ _ _ _ => True | _ => False end.
