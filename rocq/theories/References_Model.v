(** Model of the index of resolved references: ReferenceStore in
    crates/ruby-analysis/src/core/reference_store.rs 628-789.

    FqnId and SourceFileId are numbers; MethodReferenceAccess is a number.  Memory estimates and
    shrink_to_fit are not modelled. *)
From Coq Require Import List Arith Bool.
From Verif Require Import Sort_Lib Index_Lib.
Import ListNotations.

(** ReferenceFact (30-35). *)
Record reference := mkRef { range : text_range; caller : option nat; access : nat }.

Definition ref_file (x : reference) : nat := file_id (range x).

(** ReferenceStore (628-632). *)
Record store := mkStore {
  facts : list (nat * list reference);
  targets_by_file : list (nat * list nat)
}.

(** ReferenceStore::new (635-637). *)
Definition new : store := mkStore [] [].

(** ReferenceStore::add (639-647). *)
Definition add (s : store) (t : nat) (x : reference) : store :=
  mkStore (push Nat.eqb (facts s) t x) (push Nat.eqb (targets_by_file s) (ref_file x) t).

(** The key of sort_reference_facts (791-799). *)
Definition key (x : reference) : list nat :=
  [file_id (range x); start_byte (range x); end_byte (range x)].

(** [Vec::dedup]. *)
Fixpoint dedup (l : list nat) : list nat :=
  match l with
  | [] => []
  | x :: r => match r with
              | [] => [x]
              | y :: _ => if x =? y then dedup r else x :: dedup r
              end
  end.

(** ReferenceStore::sort_all (654-664). *)
Definition sort_all (s : store) : store :=
  mkStore (map (fun e => (fst e, sort (key_leb key) (snd e))) (facts s))
          (map (fun e => (fst e, dedup (sort Nat.leb (snd e)))) (targets_by_file s)).

(** ReferenceStore::add_sorted (649-652). *)
Definition add_sorted (s : store) (t : nat) (x : reference) : store := sort_all (add s t x).

(** ReferenceStore::facts_for (666-668). *)
Definition facts_for (s : store) (t : nat) : list reference := getd Nat.eqb (facts s) t.

(** ReferenceStore::all_facts (670-675). *)
Definition all_facts (s : store) : list reference := flat_map snd (facts s).

(** ReferenceStore::iter_facts_with_targets (677-681). *)
Definition facts_with_targets (s : store) : list (nat * reference) :=
  flat_map (fun e => map (pair (fst e)) (snd e)) (facts s).

(** ReferenceStore::fact_count (683-685). *)
Definition fact_count (s : store) : nat := list_sum (map (fun e => length (snd e)) (facts s)).

(** ReferenceStore::facts_in_file (687-698). *)
Definition facts_in_file (s : store) (n : nat) : list reference :=
  match get Nat.eqb (targets_by_file s) n with
  | None => []
  | Some ts =>
      filter (fun x => ref_file x =? n)
        (flat_map (fun t => match get Nat.eqb (facts s) t with Some l => l | None => [] end) ts)
  end.

(** The derived equality of TextRange (type_store.rs 18-22). *)
Definition range_eqb (a b : text_range) : bool :=
  (file_id a =? file_id b) && (start_byte a =? start_byte b) && (end_byte a =? end_byte b).

(** ReferenceStore::targets_for_exact_range (707-720). *)
Definition targets_for_exact_range (s : store) (r : text_range) : list nat :=
  match get Nat.eqb (targets_by_file s) (file_id r) with
  | None => []
  | Some ts =>
      filter (fun t => match get Nat.eqb (facts s) t with
                       | Some l => existsb (fun x => range_eqb (range x) r) l
                       | None => false
                       end) ts
  end.

(** ReferenceStore::facts_for_caller (722-729). *)
Definition facts_for_caller (s : store) (c : nat) : list reference :=
  filter (fun x => match caller x with Some d => d =? c | None => false end) (flat_map snd (facts s)).

(** ReferenceStore::remove_file (731-743). *)
Definition remove_file (s : store) (n : nat) : store :=
  match get Nat.eqb (targets_by_file s) n with
  | None => s
  | Some stale =>
      mkStore (fold_left (fun m t => retain Nat.eqb m t (fun x => negb (ref_file x =? n))) stale (facts s))
              (del Nat.eqb (targets_by_file s) n)
  end.

(** ReferenceStore::clear (745-748). *)
Definition clear (s : store) : store := mkStore [] [].

(** The loop of replace_file (756-764); [None] is the failed assertion. *)
Fixpoint add_all (n : nat) (s : store) (xs : list (nat * reference)) : option store :=
  match xs with
  | [] => Some s
  | (t, x) :: r => if ref_file x =? n then add_all n (add s t x) r else None
  end.

(** ReferenceStore::replace_file (750-766). *)
Definition replace_file (s : store) (n : nat) (xs : list (nat * reference)) : option store :=
  match add_all n (remove_file s n) xs with
  | None => None
  | Some s' => Some (sort_all s')
  end.

(** The mutating calls of the API. *)
Inductive op :=
| Add (t : nat) (x : reference)
| AddSorted (t : nat) (x : reference)
| SortAll
| RemoveFile (n : nat)
| Clear
| ReplaceFile (n : nat) (xs : list (nat * reference)).

Definition step (s : store) (o : op) : option store :=
  match o with
  | Add t x => Some (add s t x)
  | AddSorted t x => Some (add_sorted s t x)
  | SortAll => Some (sort_all s)
  | RemoveFile n => Some (remove_file s n)
  | Clear => Some (clear s)
  | ReplaceFile n xs => replace_file s n xs
  end.

Fixpoint run_from (s : store) (h : list op) : option store :=
  match h with
  | [] => Some s
  | o :: r => match step s o with Some s' => run_from s' r | None => None end
  end.

Definition run (h : list op) : option store := run_from new h.
