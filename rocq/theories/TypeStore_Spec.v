(** What the type index should answer, in terms of the history of calls only. *)
From Coq Require Import List Arith NArith Bool Permutation Sorted.
From Verif Require Import Sort_Lib Index_Lib TypeStore_Model.
Import ListNotations.

Definition in_file (n : nat) (x : fact) : bool := file_id (range x) =? n.
Definition about (q : subject) (x : fact) : bool := same_subject (subj x) q.
Definition with_type (t : nat) (x : fact) : fact := mkFact (subj x) t (range x) (prov x).

(** How the update calls change one fact: inferred returns of the methods [us] in file [n]; the
    facts of one subject at one range; the local variables of one name assigned at one range. *)
Fixpoint new_return (n : nat) (us : list (nat * nat)) (x : fact) : fact :=
  match us with
  | [] => x
  | (m, t) :: r =>
      new_return n r
        (if about (MethodReturn m) x && in_file n x && same_prov (prov x) Inferred then with_type t x else x)
  end.
Definition is_expression (q : subject) : bool := match q with Expression _ => true | _ => false end.
Definition updated (o : op) (x : fact) : fact :=
  match o with
  | UpdateReturns n us => new_return n us x
  | UpdateTarget q r t =>
      if negb (is_expression q) && about q x && same_range (range x) r then with_type t x else x
  | UpdateLocal name r t => if is_local name (subj x) && same_range (range x) r then with_type t x else x
  | _ => x
  end.

(** The facts in force, in the order in which they were supplied. *)
Definition after (l : list fact) (o : op) : list fact :=
  match o with
  | Add x => l ++ [x]
  | RemoveFile n => filter (fun x => negb (in_file n x)) l
  | ReplaceFile n xs => filter (fun x => negb (in_file n x)) l ++ xs
  | _ => map (updated o) l
  end.
Definition live (h : list op) : list fact := fold_left after h [].

(** Positions by which answers are ordered. *)
Definition position (x : fact) : list nat :=
  [file_id (range x); start_byte (range x); end_byte (range x); rank (prov x)].

(** The facts of subject [q] in the order in which they are reported: a single addition appends,
    a replacement that concerns the subject restores the order by position. *)
Definition subject_after (q : subject) (l : list fact) (o : op) : list fact :=
  match o with
  | Add x => if about q x then l ++ [x] else l
  | RemoveFile n => filter (fun x => negb (in_file n x)) l
  | ReplaceFile n xs =>
      let kept := filter (fun x => negb (in_file n x)) l in
      match filter (about q) xs with
      | [] => kept
      | own => sort (key_leb position) (kept ++ own)
      end
  | _ => map (updated o) l
  end.
Definition subject_facts (q : subject) (h : list op) : list fact := fold_left (subject_after q) h [].

(** The facts of file [n] in the order in which they are reported. *)
Definition file_after (n : nat) (l : list fact) (o : op) : list fact :=
  match o with
  | Add x => if in_file n x then l ++ [x] else l
  | RemoveFile m => if m =? n then [] else l
  | ReplaceFile m xs => if m =? n then sort (key_leb position) xs else l
  | _ => map (updated o) l
  end.
Definition file_facts (n : nat) (h : list op) : list fact := fold_left (file_after n) h [].

(** The duties of callers: a replacement supplies facts of its file only; the subject of a fact
    about an expression is the range of the fact. *)
Definition proper_fact (x : fact) : Prop := forall r, subj x = Expression r -> range x = r.
Definition proper (o : op) : Prop :=
  match o with
  | Add x => proper_fact x
  | ReplaceFile n xs => forall x, In x xs -> file_id (range x) = n /\ proper_fact x
  | _ => True
  end.
Definition well_formed (h : list op) : Prop := forall o, In o h -> proper o.

(** Nothing outgrows the ids: at no time more than 2^32 facts in force, never more than 2^31
    named subjects or 2^32 types seen. *)
Definition seen_facts (o : op) : list fact :=
  match o with Add x => [x] | ReplaceFile _ xs => xs | _ => [] end.
Definition seen_types (o : op) : list nat :=
  match o with
  | Add x => [ty x] | ReplaceFile _ xs => map ty xs | UpdateReturns _ us => map snd us
  | UpdateTarget _ _ t => [t] | UpdateLocal _ _ t => [t] | RemoveFile _ => []
  end.
Definition fits (h : list op) : Prop :=
  (forall h1 h2, h = h1 ++ h2 -> (N.of_nat (length (live h1)) <= 4294967296)%N) /\
  (forall l, NoDup l -> (forall q, In q l -> is_expression q = false /\ In q (map subj (flat_map seen_facts h))) ->
     (N.of_nat (length l) <= 2147483648)%N) /\
  (forall l, NoDup l -> (forall t, In t l -> In t (flat_map seen_types h)) ->
     (N.of_nat (length l) <= 4294967296)%N).

(** ** Types at a position *)

(** [x] is a fact about [q] in file [n] that starts at or before [offset], and no other starts
    later. *)
Definition reaches (h : list op) (q : subject) (n offset : nat) (x : fact) : Prop :=
  In x (live h) /\ subj x = q /\ file_id (range x) = n /\ start_byte (range x) <= offset.
Definition latest (h : list op) (q : subject) (n offset : nat) (x : fact) : Prop :=
  reaches h q n offset x /\
  forall y, reaches h q n offset y -> start_byte (range y) <= start_byte (range x).

Definition named_reaches (h : list op) (p : subject -> text_range -> bool) (n offset : nat) (x : fact) : Prop :=
  In x (live h) /\ (forall r, subj x <> Expression r) /\ p (subj x) (range x) = true /\
  file_id (range x) = n /\ start_byte (range x) <= offset.
Definition named_latest (h : list op) (p : subject -> text_range -> bool) (n offset : nat) (x : fact) : Prop :=
  named_reaches h p n offset x /\
  forall y, named_reaches h p n offset y -> start_byte (range y) <= start_byte (range x).

Definition answers_at (h : list op) (q : subject) (n offset : nat) (r : resolution) : Prop :=
  match r with
  | Unresolved => forall x, ~ reaches h q n offset x
  | Resolved x => latest h q n offset x /\
      forall y, latest h q n offset y -> ty y = ty x /\ prov y = prov x
  | Ambiguous l =>
      (forall x, In x l -> latest h q n offset x) /\
      (forall y, latest h q n offset y -> exists x, In x l /\ ty y = ty x /\ prov y = prov x) /\
      (exists x y, In x l /\ In y l /\ ~ (ty x = ty y /\ prov x = prov y))
  end.

Definition answers_named (h : list op) (p : subject -> text_range -> bool) (n offset : nat) (r : named_result) : Prop :=
  match r with
  | NUnresolved => forall x, ~ named_reaches h p n offset x
  | NResolved t => exists x, named_latest h p n offset x /\ ty x = t /\
      forall y, named_latest h p n offset y -> ty y = t
  | NAmbiguous => exists x y, named_latest h p n offset x /\ named_latest h p n offset y /\ ty x <> ty y
  end.

(** [x] is the last of the facts of [l] with the greatest place. *)
Definition place (x : fact) : list nat := [file_id (range x); start_byte (range x); end_byte (range x)].
Definition last_greatest (l : list fact) (x : fact) : Prop :=
  exists l1 l2, l = l1 ++ x :: l2 /\ (forall y, In y l1 -> lexb (place y) (place x) = true) /\
    (forall y, In y l2 -> lexb (place x) (place y) = false).

(** The facts about any subject in the order in which they are reported. *)
Definition reported (q : subject) (h : list op) : list fact :=
  match q with
  | Expression r => filter (about q) (file_facts (file_id r) h)
  | _ => subject_facts q h
  end.

Definition returned (x : fact) : list (nat * nat) :=
  match subj x with MethodReturn f => [(f, ty x)] | _ => [] end.

(** The facts an update call concerns, counted once for each entry that names them. *)
Definition concerned (o : op) (l : list fact) : nat :=
  match o with
  | UpdateReturns n us =>
      list_sum (map (fun u => length (filter (fun x => about (MethodReturn (fst u)) x && in_file n x
                                                       && same_prov (prov x) Inferred) l)) us)
  | UpdateTarget q r _ =>
      length (filter (fun x => negb (is_expression q) && about q x && same_range (range x) r) l)
  | UpdateLocal name r _ => length (filter (fun x => is_local name (subj x) && same_range (range x) r) l)
  | _ => 0
  end.
