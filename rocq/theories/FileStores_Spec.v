(** What the per-file stores should answer, in terms of the history of calls only. *)
From Coq Require Import List Arith Bool Permutation Sorted.
From Verif Require Import Sort_Lib Index_Lib FileStores_Model.
Import ListNotations.

(** ** Diagnostics *)

Fixpoint d_in_force (l : list diagnostic) (h : list dop) : list diagnostic :=
  match h with
  | [] => l
  | DAdd x :: r => d_in_force (l ++ [x]) r
  | DRemove n :: r => d_in_force (filter (fun x => negb (file_id (drange x) =? n)) l) r
  | DReplace n xs :: r => d_in_force (filter (fun x => negb (file_id (drange x) =? n)) l ++ xs) r
  end.
Definition d_live (h : list dop) : list diagnostic := d_in_force [] h.

Definition d_well_formed (h : list dop) : Prop :=
  forall n xs x, In (DReplace n xs) h -> In x xs -> file_id (drange x) = n.

(** Dictionary order of strings. *)
Definition text_before (s t : list nat) : Prop := lexb s t = true /\ s <> t.

(** Start, end, severity (errors first), code, message. *)
Definition before (x y : diagnostic) : Prop :=
  let rank d := match dseverity d with Error => 0 | Warning => 1 | Information => 2 | Hint => 3 end in
  start_byte (drange x) < start_byte (drange y) \/ start_byte (drange x) = start_byte (drange y) /\
  (end_byte (drange x) < end_byte (drange y) \/ end_byte (drange x) = end_byte (drange y) /\
  (rank x < rank y \/ rank x = rank y /\
  (text_before (code x) (code y) \/ code x = code y /\
  (text_before (message x) (message y) \/ message x = message y)))).

(** ** Reference candidates, diagnostic candidates *)

Section Live.
  Context {A : Type} (file_of : A -> nat).

  Fixpoint replaced (l : list A) (h : list (nat * list A)) : list A :=
    match h with
    | [] => l
    | (n, xs) :: r => replaced (filter (fun x => negb (file_of x =? n)) l ++ xs) r
    end.

  Definition own (h : list (nat * list A)) : Prop :=
    forall n xs x, In (n, xs) h -> In x xs -> file_of x = n.
End Live.

Definition c_live (h : list (nat * list candidate)) : list candidate :=
  replaced (fun x => file_id (crange x)) [] h.
Definition c_well_formed (h : list (nat * list candidate)) : Prop := own (fun x => file_id (crange x)) h.

(** By position; at one position constants, then methods, then resolved candidates. *)
Definition c_position (x : candidate) : list nat :=
  [start_byte (crange x); end_byte (crange x);
   match kind x with Constant => 0 | Method _ => 1 | Resolved => 2 end].

Definition p_live (h : list (nat * list problem)) : list problem :=
  replaced (fun x => file_id (prange x)) [] h.
Definition p_well_formed (h : list (nat * list problem)) : Prop := own (fun x => file_id (prange x)) h.

(** By position; at one position raise problems, then splat problems. *)
Definition p_position (x : problem) : list nat :=
  [start_byte (prange x); end_byte (prange x); if bad_splat x then 1 else 0].
