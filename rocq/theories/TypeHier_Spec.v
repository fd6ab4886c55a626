(** What the type hierarchy should show, in terms of the facts in force. *)
From Coq Require Import List Arith Bool.
From Verif Require Import Sort_Lib Index_Lib Graph_Model Graph_Spec Names_Model TypeHier_Model.
Import ListNotations.

(** The first definition of [q], by file and position. *)
Definition first_definition (F : facts) (q : nat) (n : node_fact) : Prop :=
  exists l, answers (fun x => place (nrange x)) (fun x => nfqn x =? q) (fnodes F) (n :: l).
Definition defined (F : facts) (q : nat) : Prop := exists n, In n (fnodes F) /\ nfqn n = q.

(** The entry shows [q] at its first definition. *)
Definition entry_of (F : facts) (q : nat) (r : relation) (x : entry) : Prop :=
  subject x = inl q /\ rel x = r /\ missing x = false /\
  exists n, first_definition F q n /\ node_kind_of x = Some (nkind n) /\ where_ x = nrange n.

(** The flag of a declaration outside the file of the first definition of [q]. *)
Definition flagged (F : facts) (q : nat) (r : text_range) (x : entry) : Prop :=
  forall n, first_definition F q n ->
    edge_file x = if file_id r =? file_id (nrange n) then None else Some (file_id r).

(** The declarations of kind [k] written in [q] whose target is defined, last first. *)
Definition upward (F : facts) (q : nat) (k : edge_kind) (r : relation) (l : list entry) : Prop :=
  exists es, in_order edge_position (fedges F) es /\
    Forall2 (fun e x => entry_of F (target e) r x /\ flagged F q (erange e) x)
      (rev (filter (fun e => (source e =? q) && (kind_rank (ekind e) =? kind_rank k) &&
                             existsb (fun n => nfqn n =? target e) (fnodes F)) es)) l.

(** An include or prepend written in a singleton class concerns no instances: it makes no subtype. *)
Definition concerns_instances (label : nat -> name) (e : edge) : bool :=
  match ekind e, label (source e) with
  | (Include | Prepend), Namespace _ Instance => true
  | (Include | Prepend), _ => false
  | _, _ => true
  end.

(** The declarations of kind [k] naming [q] whose source is defined, by the text of the source;
    those of one source by position. *)
Definition downward (label : nat -> name) (F : facts) (q : nat) (k : edge_kind) (r : relation) (l : list entry) : Prop :=
  exists (ps es : list edge), in_order edge_position (fedges F) ps /\
    in_order (fun e => print (label (source e)))
      (filter (fun e => (target e =? q) && (kind_rank (ekind e) =? kind_rank k) && concerns_instances label e &&
                        existsb (fun n => nfqn n =? source e) (fnodes F)) ps) es /\
    Forall2 (fun e x => entry_of F (source e) r x /\ edge_file x = None) es l.

(** The entry of a declaration whose target was not found. *)
Definition unfound (lookup : nat -> list text) (F : facts) (q : nat) (u : unresolved) (x : entry) : Prop :=
  subject x = inr (lookup (utarget u)) /\ node_kind_of x = None /\ where_ x = urange u /\ missing x = true /\
  flagged F q (urange u) x /\
  rel x = match ukind u with Superclass => RSuperclass | Include => RInclude | Prepend => RPrepend | _ => RExtend end.

(** The entry is about [q] in relation [r]. *)
Definition relation_eq_dec (a b : relation) : {a = b} + {a <> b}.
Proof. decide equality. Defined.
Definition about (q : nat) (r : relation) (x : entry) : bool :=
  match subject x with inl p => p =? q | inr _ => false end && (if relation_eq_dec (rel x) r then true else false).

(** The two names of one declaration. *)
Definition inverse (up down : relation) : Prop :=
  (up = RSuperclass /\ down = RSubclass) \/ (up = RInclude /\ down = RIncludedBy) \/
  (up = RPrepend /\ down = RPrependedBy) \/ (up = RExtend /\ down = RExtendedBy).
