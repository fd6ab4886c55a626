(** Model of the method index: crates/ruby-analysis/src/core/method_store.rs.

    FqnId, SourceFileId and RubyMethod (an interned name) are numbers.  The fields of a fact the
    store only compares for equality (name range, parameters, documentation, ...) are one number
    [rest].  Capacity management and the memory estimates are not modelled. *)
From Coq Require Import List Arith NArith Bool.
From Verif Require Import Lib Sort_Lib Index_Lib.
Import ListNotations.

(** MethodAvailability (method_store.rs 32-37); the reason text is a number. *)
Inductive availability := Available | Unavailable (reason : nat) | Absent (reason : nat).

(** StoredMethodFact (369-385). *)
Record method := mkMethod {
  fqn : nat; owner : nat; name : option nat; range : text_range;
  avail : availability; rest : nat
}.

Definition method_file (x : method) : nat := file_id (range x).

(** The derived equality of StoredMethodFact (369). *)
Definition method_eq_dec (x y : method) : {x = y} + {x <> y}.
Proof. decide equality; decide equality; try apply Nat.eq_dec. Defined.

(** MethodStore (441-449). *)
Record store := mkStore {
  facts : arena method;
  by_fqn : list (nat * list nat);
  by_owner : list (nat * list nat);
  by_owner_name : list ((nat * nat) * list nat);
  by_file : list (nat * list nat)
}.

(** MethodStore::new (469-471). *)
Definition new : store := mkStore no_slots [] [] [] [].

Definition pair_eqb (a b : nat * nat) : bool := (fst a =? fst b) && (snd a =? snd b).

(** The keys of sort_method_ids_by_fqn (922-936), _by_owner (938-952) and _by_file (954-963). *)
Definition fqn_key (x : method) : list nat :=
  [file_id (range x); start_byte (range x); end_byte (range x); owner x].
Definition owner_key (x : method) : list nat :=
  [file_id (range x); start_byte (range x); end_byte (range x); fqn x].
Definition file_key (x : method) : list nat := [start_byte (range x); end_byte (range x)].

(** Resorting one bucket: [sort(&self.facts, index.get_mut(&k).unwrap())] (480, 482, 486, 489). *)
Definition resort {K} (eqb : K -> K -> bool) (key : method -> list nat) (a : arena method)
  (m : list (K * list nat)) (k : K) : option (list (K * list nat)) :=
  match sort_ids key a (getd eqb m k) with
  | Some ids => Some (put eqb m k ids)
  | None => None
  end.

(** MethodStore::add (473-490).  [None] is a panic, here and below. *)
Definition add (s : store) (x : method) : option store :=
  match insert_fact u32_ids (facts s) x with
  | None => None
  | Some (id, a) =>
      match resort Nat.eqb fqn_key a (push Nat.eqb (by_fqn s) (fqn x) id) (fqn x),
            resort Nat.eqb owner_key a (push Nat.eqb (by_owner s) (owner x) id) (owner x),
            match name x with
            | Some n => resort pair_eqb owner_key a
                          (push pair_eqb (by_owner_name s) (owner x, n) id) (owner x, n)
            | None => Some (by_owner_name s)
            end,
            resort Nat.eqb file_key a (push Nat.eqb (by_file s) (method_file x) id) (method_file x) with
      | Some q, Some o, Some n, Some f => Some (mkStore a q o n f)
      | _, _, _, _ => None
      end
  end.

(** MethodStore::facts_for (492-497). *)
Definition facts_for (s : store) (q : nat) : list method :=
  clone_facts (facts s) (getd Nat.eqb (by_fqn s) q).

(** MethodStore::all_facts (499-501). *)
Definition all_facts (s : store) : list method := occupied (facts s).

(** MethodStore::facts_matching_owner (507-518); [p] is [name.starts_with(partial)]. *)
Definition facts_matching_owner (s : store) (o : nat) (p : nat -> bool) : list method :=
  filter (fun x => match name x with Some n => p n | None => false end)
         (clone_facts (facts s) (getd Nat.eqb (by_owner s) o)).

(** MethodStore::facts_matching_owner_name (520-529). *)
Definition facts_matching_owner_name (s : store) (o n : nat) : list method :=
  clone_facts (facts s) (getd pair_eqb (by_owner_name s) (o, n)).

(** StoredMethodFactMatch (387-392). *)
Inductive fact_match := Missing | Unique (x : method) | Ambiguous.

Definition is_absent (x : method) : bool := match avail x with Absent _ => true | _ => false end.
Definition is_unavailable (x : method) : bool := match avail x with Unavailable _ => true | _ => false end.

(** The loop over the effective facts (572-577). *)
Fixpoint all_same (first : method) (l : list method) : fact_match :=
  match l with
  | [] => Unique first
  | x :: r => if method_eq_dec x first then all_same first r else Ambiguous
  end.

(** MethodStore::effective_fact_matching_owner_name (539-578); [None] is the panic of
    [indexed_fact]. *)
Definition effective (s : store) (o n : nat) : option fact_match :=
  match get pair_eqb (by_owner_name s) (o, n) with
  | None => Some Missing
  | Some ids =>
      match entries (facts s) ids with
      | None => None
      | Some l =>
          let xs := map snd l in
          if existsb is_absent xs then Some Missing
          else
            let wins := existsb is_unavailable xs in
            match filter (fun x => negb wins || is_unavailable x) xs with
            | [] => Some Missing
            | first :: r => Some (all_same first r)
            end
      end
  end.

(** The loop of ruby_method_names_for_owner (604-611). *)
Fixpoint names_from (seen : list nat) (l : list method) : list nat :=
  match l with
  | [] => []
  | x :: r =>
      match name x with
      | None => names_from seen r
      | Some n => if existsb (Nat.eqb n) seen then names_from seen r else n :: names_from (n :: seen) r
      end
  end.

(** MethodStore::ruby_method_names_for_owner (598-613); method_names_for_owner (580-596) is the
    same with the text of each name. *)
Definition names_for_owner (s : store) (o : nat) : list nat :=
  names_from [] (clone_facts (facts s) (getd Nat.eqb (by_owner s) o)).

(** MethodStore::facts_in_file (615-620). *)
Definition facts_in_file (s : store) (n : nat) : list method :=
  clone_facts (facts s) (getd Nat.eqb (by_file s) n).

(** The loop body of remove_file (626-652). *)
Definition drop_id (s : store) (id : nat) : store :=
  match take_fact (facts s) id with
  | None => s
  | Some (x, a) =>
      mkStore a
        (retain Nat.eqb (by_fqn s) (fqn x) (fun i => negb (i =? id)))
        (retain Nat.eqb (by_owner s) (owner x) (fun i => negb (i =? id)))
        (match name x with
         | Some n => retain pair_eqb (by_owner_name s) (owner x, n) (fun i => negb (i =? id))
         | None => by_owner_name s
         end)
        (by_file s)
  end.

(** MethodStore::remove_file (622-653). *)
Definition remove_file (s : store) (n : nat) : store :=
  match get Nat.eqb (by_file s) n with
  | None => s
  | Some stale =>
      fold_left drop_id stale
        (mkStore (facts s) (by_fqn s) (by_owner s) (by_owner_name s) (del Nat.eqb (by_file s) n))
  end.

(** The insertion loop of replace_file (664-685). *)
Fixpoint insert_all (n : nat) (s : store) (xs : list method) : option store :=
  match xs with
  | [] => Some s
  | x :: r =>
      if method_file x =? n then
        match insert_fact u32_ids (facts s) x with
        | None => None
        | Some (id, a) =>
            insert_all n
              (mkStore a
                 (push Nat.eqb (by_fqn s) (fqn x) id)
                 (push Nat.eqb (by_owner s) (owner x) id)
                 (match name x with
                  | Some m => push pair_eqb (by_owner_name s) (owner x, m) id
                  | None => by_owner_name s
                  end)
                 (push Nat.eqb (by_file s) n id)) r
        end
      else None
  end.

(** The sets of touched keys (661-663, 675-681). *)
Definition touched_fqns (xs : list method) : list nat := nodup Nat.eq_dec (map fqn xs).
Definition touched_owners (xs : list method) : list nat := nodup Nat.eq_dec (map owner xs).
Definition pair_eq_dec (a b : nat * nat) : {a = b} + {a <> b}.
Proof. decide equality; apply Nat.eq_dec. Defined.
Definition touched_owner_names (xs : list method) : list (nat * nat) :=
  nodup pair_eq_dec
    (flat_map (fun x => match name x with Some n => [(owner x, n)] | None => [] end) xs).

(** MethodStore::replace_file (655-708). *)
Definition replace_file (s : store) (n : nat) (xs : list method) : option store :=
  match insert_all n (remove_file s n) xs with
  | None => None
  | Some s1 =>
      match resort_keys Nat.eqb fqn_key (facts s1) (by_fqn s1) (touched_fqns xs),
            resort_keys Nat.eqb owner_key (facts s1) (by_owner s1) (touched_owners xs),
            resort_keys pair_eqb owner_key (facts s1) (by_owner_name s1) (touched_owner_names xs),
            resort_keys Nat.eqb file_key (facts s1) (by_file s1) [n] with
      | Some q, Some o, Some m, Some f => Some (mkStore (facts s1) q o m f)
      | _, _, _, _ => None
      end
  end.

(** The mutating calls of the API. *)
Inductive op := Add (x : method) | RemoveFile (n : nat) | ReplaceFile (n : nat) (xs : list method).

Definition step (s : store) (o : op) : option store :=
  match o with
  | Add x => add s x
  | RemoveFile n => Some (remove_file s n)
  | ReplaceFile n xs => replace_file s n xs
  end.

Fixpoint run_from (s : store) (h : list op) : option store :=
  match h with
  | [] => Some s
  | o :: r => match step s o with Some s' => run_from s' r | None => None end
  end.

Definition run (h : list op) : option store := run_from new h.
