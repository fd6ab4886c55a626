(** Model of the symbol index: crates/ruby-analysis/src/core/symbol_store.rs.

    FqnId and SourceFileId are numbers.  Capacity management (shrink_to_fit) and the memory
    estimates are not modelled. *)
From Coq Require Import List Arith NArith Bool.
From Verif Require Import Lib Sort_Lib Index_Lib.
Import ListNotations.

(** SymbolKind (symbol_store.rs 7-17); the derived [Ord] is the declaration order. *)
Inductive symbol_kind :=
  Class | Module | Method | Constant | LocalVariable | InstanceVariable | ClassVariable
| GlobalVariable.

Definition kind_rank (k : symbol_kind) : nat :=
  match k with
  | Class => 0 | Module => 1 | Method => 2 | Constant => 3 | LocalVariable => 4
  | InstanceVariable => 5 | ClassVariable => 6 | GlobalVariable => 7
  end.

(** StoredSymbolFact (53-59). *)
Record symbol := mkSymbol { fqn : nat; kind : symbol_kind; name_range : text_range; range : text_range }.

Definition symbol_file (x : symbol) : nat := file_id (range x).

(** SymbolStore (85-91). *)
Record store := mkStore {
  facts : arena symbol;
  by_fqn : list (nat * list nat);
  by_file : list (nat * list nat)
}.

(** SymbolStore::new (111-113). *)
Definition new : store := mkStore no_slots [] [].

(** The key of sort_symbol_ids (292-306). *)
Definition key (x : symbol) : list nat :=
  [file_id (range x); start_byte (range x); end_byte (range x); kind_rank (kind x)].

(** The key of sort_symbol_ids_by_file (308-317). *)
Definition file_key (x : symbol) : list nat :=
  [start_byte (range x); end_byte (range x); kind_rank (kind x)].

(** SymbolStore::add (115-123).  [None] is a panic, here and below. *)
Definition add (s : store) (x : symbol) : option store :=
  match insert_fact u32_ids (facts s) x with
  | None => None
  | Some (id, a) =>
      let m := push Nat.eqb (by_fqn s) (fqn x) id in
      match sort_ids key a (getd Nat.eqb m (fqn x)) with
      | None => None
      | Some ids =>
          let f := push Nat.eqb (by_file s) (symbol_file x) id in
          match sort_ids file_key a (getd Nat.eqb f (symbol_file x)) with
          | None => None
          | Some ids' => Some (mkStore a (put Nat.eqb m (fqn x) ids) (put Nat.eqb f (symbol_file x) ids'))
          end
      end
  end.

(** SymbolStore::facts_for (125-130). *)
Definition facts_for (s : store) (q : nat) : list symbol :=
  clone_facts (facts s) (getd Nat.eqb (by_fqn s) q).

(** SymbolStore::all_facts (132-134). *)
Definition all_facts (s : store) : list symbol :=
  occupied (facts s).

(** SymbolStore::fact_count (136-138). *)
Definition fact_count (s : store) : nat :=
  length (filter (fun o => match o with Some _ => true | None => false end) (slots (facts s))).

(** SymbolStore::known_namespace_fqns (140-147), as a list in the place of the set. *)
Definition known_namespace_fqns (s : store) : list nat :=
  map fqn (filter (fun x => match kind x with Class | Module => true | _ => false end) (all_facts s)).

(** SymbolStore::facts_in_file (149-154). *)
Definition facts_in_file (s : store) (n : nat) : list symbol :=
  clone_facts (facts s) (getd Nat.eqb (by_file s) n).

(** The loop body of remove_file (160-171). *)
Definition drop_id (s : store) (id : nat) : store :=
  match take_fact (facts s) id with
  | None => s
  | Some (x, a) =>
      mkStore a (retain Nat.eqb (by_fqn s) (fqn x) (fun i => negb (i =? id))) (by_file s)
  end.

(** SymbolStore::remove_file (156-172). *)
Definition remove_file (s : store) (n : nat) : store :=
  match get Nat.eqb (by_file s) n with
  | None => s
  | Some stale =>
      fold_left drop_id stale (mkStore (facts s) (by_fqn s) (del Nat.eqb (by_file s) n))
  end.

(** The update of [touched_fqns] (189-195). *)
Fixpoint touch (t : list (nat * nat)) (k : nat) : list (nat * nat) :=
  match t with
  | [] => [(k, 1)]
  | (k', c) :: r => if k' =? k then (k', c + 1) :: r else (k', c) :: touch r k
  end.

(** The insertion loop of replace_file (181-199). *)
Fixpoint insert_all (n : nat) (s : store) (t : list (nat * nat)) (xs : list symbol)
  : option (store * list (nat * nat)) :=
  match xs with
  | [] => Some (s, t)
  | x :: r =>
      if symbol_file x =? n then
        match insert_fact u32_ids (facts s) x with
        | None => None
        | Some (id, a) =>
            insert_all n
              (mkStore a (push Nat.eqb (by_fqn s) (fqn x) id) (push Nat.eqb (by_file s) n id))
              (touch t (fqn x)) r
        end
      else None
  end.

(** The placement loop of replace_file (200-221). *)
Fixpoint place_all (n : nat) (s : store) (t : list (nat * nat)) : option store :=
  match t with
  | [] => Some s
  | (q, c) :: r =>
      match get Nat.eqb (by_fqn s) q with
      | None => place_all n s r
      | Some ids =>
          match place_appended key symbol_file (facts s) ids c n with
          | None => None
          | Some ids' => place_all n (mkStore (facts s) (put Nat.eqb (by_fqn s) q ids') (by_file s)) r
          end
      end
  end.

(** SymbolStore::replace_file (174-226). *)
Definition replace_file (s : store) (n : nat) (xs : list symbol) : option store :=
  match insert_all n (remove_file s n) [] xs with
  | None => None
  | Some (s1, t) =>
      match place_all n s1 t with
      | None => None
      | Some s2 =>
          match get Nat.eqb (by_file s2) n with
          | None => Some s2
          | Some ids =>
              match sort_ids file_key (facts s2) ids with
              | None => None
              | Some ids' => Some (mkStore (facts s2) (by_fqn s2) (put Nat.eqb (by_file s2) n ids'))
              end
          end
      end
  end.

(** The mutating calls of the API. *)
Inductive op := Add (x : symbol) | RemoveFile (n : nat) | ReplaceFile (n : nat) (xs : list symbol).

Definition step (s : store) (o : op) : option store :=
  match o with
  | Add x => add s x
  | RemoveFile n => Some (remove_file s n)
  | ReplaceFile n xs => replace_file s n xs
  end.

Fixpoint run_from (s : store) (h : list op) : option store :=
  match h with
  | [] => Some s
  | o :: r => match step s o with Some s' => run_from s' r | None => None end
  end.

Definition run (h : list op) : option store := run_from new h.
