(** Model of the type index: crates/ruby-analysis/src/core/type_store.rs.

    Names, scopes, fully qualified names and Ruby types are numbers: the store only compares them,
    asks whether a type is Unknown (number 0) and prints types ([show] in [type_at]).  Capacity
    management and memory estimates are left out. *)
From Coq Require Import List Arith NArith Bool.
From Verif Require Import Lib Sort_Lib Index_Lib.
Import ListNotations.

(** TypeSubject (type_store.rs 52-73). *)
Inductive subject :=
| Constant (fqn : nat) | LocalVariable (scope name : nat) | InstanceVariable (owner name : nat)
| ClassVariable (owner name : nat) | GlobalVariable (name : nat) | MethodReturn (fqn : nat)
| MethodParameter (method name : nat) | Expression (r : text_range).

(** TypeProvenance (77-86) and provenance_rank (942-953). *)
Inductive provenance := Literal | Assignment | Flow | Rbs | Yard | Runtime | Extension | Inferred.
Definition rank (p : provenance) : nat :=
  match p with
  | Literal => 0 | Assignment => 1 | Flow => 2 | Rbs => 3 | Yard => 4 | Runtime => 5
  | Extension => 6 | Inferred => 7
  end.

(** TypeFact (90-95), StoredTypeFact (114-119).  A stored subject (122-154) is an interner id or
    the expression tag, [None]. *)
Record fact := mkFact { subj : subject; ty : nat; range : text_range; prov : provenance }.
Record stored := mkStored { ssub : option nat; sty : nat; srange : text_range; sprov : provenance }.

Definition unknown : nat := 0.

Definition range_eq_dec (a b : text_range) : {a = b} + {a <> b}.
Proof. decide equality; apply Nat.eq_dec. Defined.
Definition subject_eq_dec (a b : subject) : {a = b} + {a <> b}.
Proof. decide equality; solve [apply Nat.eq_dec | apply range_eq_dec]. Defined.
Definition prov_eq_dec (a b : provenance) : {a = b} + {a <> b}.
Proof. decide equality. Defined.

Definition same_range (a b : text_range) : bool := if range_eq_dec a b then true else false.
Definition same_subject (a b : subject) : bool := if subject_eq_dec a b then true else false.
Definition same_prov (a b : provenance) : bool := if prov_eq_dec a b then true else false.

(** IndexSet::get_index_of and insert_full. *)
Fixpoint index_of {X} (eq : X -> X -> bool) (l : list X) (x : X) : option nat :=
  match l with
  | [] => None
  | y :: r => if eq y x then Some 0 else match index_of eq r x with Some i => Some (S i) | None => None end
  end.
Definition intern {X} (eq : X -> X -> bool) (l : list X) (x : X) : nat * list X :=
  match index_of eq l x with Some i => (i, l) | None => (length l, l ++ [x]) end.

(** TypeStore (177-185). *)
Record store := mkStore {
  facts : arena stored;
  subjects : list subject;
  ruby_types : list nat;
  by_subject : list (nat * list nat);
  by_file : list (nat * list nat);
  ordered : bool
}.

(** TypeStore::default (187-199). *)
Definition new : store := mkStore no_slots [] [] [] [] true.

(** store_subject (816-836) with StoredTypeSubject::interned (127-133).  [None] is a panic, here
    and below. *)
Definition store_subject (subs : list subject) (q : subject) (r : text_range)
  : option (option nat * list subject) :=
  match q with
  | Expression r' => if same_range r' r then Some (None, subs) else None
  | _ => let (i, subs') := intern same_subject subs q in
         if (N.of_nat i <? 2147483648)%N then Some (Some i, subs') else None
  end.

(** intern_ruby_type (885-888) with RubyTypeId::from_index (240-247). *)
Definition intern_type (tys : list nat) (t : nat) : option (nat * list nat) :=
  let (i, tys') := intern Nat.eqb tys t in
  if (N.of_nat i <? 4294967296)%N then Some (i, tys') else None.

(** The common part of add (259-281) and the loop of replace_file (630-655): intern, insert and
    index one fact; [ordered] is left alone. *)
Definition insert_one (s : store) (x : fact) : option (store * option nat) :=
  match store_subject (subjects s) (subj x) (range x) with
  | None => None
  | Some (q, subs) =>
      match intern_type (ruby_types s) (ty x) with
      | None => None
      | Some (t, tys) =>
          match insert_fact u32_ids (facts s) (mkStored q t (range x) (prov x)) with
          | None => None
          | Some (id, a) =>
              Some (mkStore a subs tys
                      (match q with Some k => push Nat.eqb (by_subject s) k id | None => by_subject s end)
                      (push Nat.eqb (by_file s) (file_id (range x)) id) (ordered s), q)
          end
      end
  end.

(** add (259-281). *)
Definition add (s : store) (x : fact) : option store :=
  match insert_one s x with
  | None => None
  | Some (s', _) => Some (mkStore (facts s') (subjects s') (ruby_types s') (by_subject s') (by_file s') false)
  end.

(** subject (877-883), ruby_type (890-896), expand_fact (898-908). *)
Definition expand (s : store) (x : stored) : option fact :=
  match (match ssub x with
         | None => Some (Expression (srange x))
         | Some k => nth_error (subjects s) k
         end), nth_error (ruby_types s) (sty x) with
  | Some q, Some t => Some (mkFact q t (srange x) (sprov x))
  | _, _ => None
  end.
Fixpoint expand_all (s : store) (l : list stored) : option (list fact) :=
  match l with
  | [] => Some []
  | x :: r => match expand s x, expand_all s r with
              | Some y, Some m => Some (y :: m)
              | _, _ => None
              end
  end.

Definition is_none {A} (o : option A) : bool := match o with None => true | Some _ => false end.

(** facts_for (283-306), clone_facts (801-806), clone_expression_facts (808-814). *)
Definition facts_for (s : store) (q : subject) : option (list fact) :=
  match q with
  | Expression r =>
      expand_all s (filter (fun x => is_none (ssub x) && same_range (srange x) r)
                      (clone_facts (facts s) (getd Nat.eqb (by_file s) (file_id r))))
  | _ =>
      match index_of same_subject (subjects s) q with
      | None => Some []
      | Some k => expand_all s (clone_facts (facts s) (getd Nat.eqb (by_subject s) k))
      end
  end.

(** fact_ids_for_subject (838-854). *)
Definition ids_for (s : store) (q : subject) : option (list nat) :=
  match q with
  | Expression r => get Nat.eqb (by_file s) (file_id r)
  | _ => match index_of same_subject (subjects s) q with
         | None => None
         | Some k => get Nat.eqb (by_subject s) k
         end
  end.

(** stored_subject_matches (856-869). *)
Definition matches (s : store) (q : subject) (x : stored) : option bool :=
  match ssub x, q with
  | None, Expression r => Some (same_range (srange x) r)
  | None, _ => Some false
  | Some _, Expression _ => Some false
  | Some k, _ => match nth_error (subjects s) k with Some q' => Some (same_subject q' q) | None => None end
  end.

Fixpoint filter_opt {A} (p : A -> option bool) (l : list A) : option (list A) :=
  match l with
  | [] => Some []
  | x :: r => match p x, filter_opt p r with
              | Some b, Some m => Some (if b then x :: m else m)
              | _, _ => None
              end
  end.

(** Iterator::max_by_key: the last of the greatest elements. *)
Fixpoint max_by {A} (key : A -> list nat) (best : option A) (l : list A) : option A :=
  match l with
  | [] => best
  | x :: r => max_by key (match best with
                          | None => Some x
                          | Some b => if lexb (key b) (key x) then Some x else Some b
                          end) r
  end.

Definition place_key (x : stored) : list nat :=
  [file_id (srange x); start_byte (srange x); end_byte (srange x)].

(** latest_non_unknown_type_with_range (312-329). *)
Definition latest_non_unknown (s : store) (q : subject) : option (option (nat * text_range)) :=
  match ids_for s q with
  | None => Some None
  | Some ids =>
      match filter_opt (matches s q) (clone_facts (facts s) ids) with
      | None => None
      | Some l =>
          match filter_opt (fun x => match nth_error (ruby_types s) (sty x) with
                                     | Some t => Some (negb (t =? unknown)) | None => None end) l with
          | None => None
          | Some l' =>
              match max_by place_key None l' with
              | None => Some None
              | Some x => match nth_error (ruby_types s) (sty x) with
                          | Some t => Some (Some (t, srange x)) | None => None end
              end
          end
      end
  end.

(** all_facts (331-337), fact_count (505-507), facts_in_file (509-514), ruby_types_in_file
    (584-594). *)
Definition all_facts (s : store) : option (list fact) := expand_all s (occupied (facts s)).
Definition fact_count (s : store) : nat := length (occupied (facts s)).
Definition facts_in_file (s : store) (n : nat) : option (list fact) :=
  expand_all s (clone_facts (facts s) (getd Nat.eqb (by_file s) n)).
Definition ruby_types_in_file (s : store) (n : nat) : option (list nat) :=
  match facts_in_file s n with Some l => Some (map ty l) | None => None end.

(** method_return_types (350-370): an Expression in the interner panics. *)
Fixpoint method_returns (s : store) (l : list stored) : option (list (nat * nat)) :=
  match l with
  | [] => Some []
  | x :: r =>
      match nth_error (ruby_types s) (sty x), method_returns s r with
      | Some t, Some m =>
          match ssub x with
          | None => Some m
          | Some k => match nth_error (subjects s) k with
                      | None => None
                      | Some (Expression _) => None
                      | Some (MethodReturn f) => Some ((f, t) :: m)
                      | Some _ => Some m
                      end
          end
      | _, _ => None
      end
  end.
Definition method_return_types (s : store) : option (list (nat * nat)) :=
  method_returns s (occupied (facts s)).

(** [fact.ruby_type = ruby_type] for the facts [ids] that satisfy [c]; a missing fact panics. *)
Definition set_type (t : nat) (x : stored) : stored := mkStored (ssub x) t (srange x) (sprov x).
Fixpoint retype_ids (c : stored -> bool) (t : nat) (a : arena stored) (ids : list nat)
  : option (arena stored * nat) :=
  match ids with
  | [] => Some (a, 0)
  | i :: r =>
      match Index_Lib.fact a i with
      | None => None
      | Some x =>
          if c x then
            match retype_ids c t (mkArena (upd (slots a) i (Some (set_type t x))) (free a)) r with
            | Some (a', n) => Some (a', S n)
            | None => None
            end
          else retype_ids c t a r
      end
  end.

Definition with_facts (s : store) (a : arena stored) (tys : list nat) : store :=
  mkStore a (subjects s) tys (by_subject s) (by_file s) (ordered s).

(** update_inferred_method_return_types_in_file (385-427). *)
Fixpoint update_returns (s : store) (n : nat) (us : list (nat * nat)) : option (store * nat) :=
  match us with
  | [] => Some (s, 0)
  | (m, t) :: r =>
      match index_of same_subject (subjects s) (MethodReturn m) with
      | None => update_returns s n r
      | Some k =>
          match intern_type (ruby_types s) t with
          | None => None
          | Some (ti, tys) =>
              match get Nat.eqb (by_subject s) k with
              | None => update_returns (with_facts s (facts s) tys) n r
              | Some ids =>
                  match retype_ids (fun x => (file_id (srange x) =? n) && same_prov (sprov x) Inferred)
                          ti (facts s) ids with
                  | None => None
                  | Some (a, c) =>
                      match update_returns (with_facts s a tys) n r with
                      | Some (s', c') => Some (s', c + c')
                      | None => None
                      end
                  end
              end
          end
      end
  end.

(** update_equation_target (430-457). *)
Definition update_target (s : store) (q : subject) (r : text_range) (t : nat) : option (store * nat) :=
  match index_of same_subject (subjects s) q with
  | None => Some (s, 0)
  | Some k =>
      match intern_type (ruby_types s) t with
      | None => None
      | Some (ti, tys) =>
          match get Nat.eqb (by_subject s) k with
          | None => Some (with_facts s (facts s) tys, 0)
          | Some ids =>
              match retype_ids (fun x => same_range (srange x) r) ti (facts s) ids with
              | None => None
              | Some (a, c) => Some (with_facts s a tys, c)
              end
          end
      end
  end.

Definition is_local (name : nat) (q : subject) : bool :=
  match q with LocalVariable _ m => m =? name | _ => false end.

(** update_local_assignment_equation_target (462-503); a dangling subject id panics there and is
    treated as "no match" here (the ids never dangle). *)
Definition update_local (s : store) (name : nat) (r : text_range) (t : nat) : option (store * nat) :=
  match intern_type (ruby_types s) t with
  | None => None
  | Some (ti, tys) =>
      match get Nat.eqb (by_file s) (file_id r) with
      | None => Some (with_facts s (facts s) tys, 0)
      | Some ids =>
          match retype_ids (fun x => same_range (srange x) r &&
                                     match ssub x with
                                     | None => false
                                     | Some k => match nth_error (subjects s) k with
                                                 | Some q => is_local name q | None => false end
                                     end) ti (facts s) ids with
          | None => None
          | Some (a, c) => Some (with_facts s a tys, c)
          end
      end
  end.

(** NamedTypeResolution (169-173). *)
Inductive named_result := NResolved (t : nat) | NAmbiguous | NUnresolved.

(** The loop of named_type_in_file_before_matching (538-570). *)
Fixpoint scan (s : store) (offset : nat) (p : subject -> text_range -> bool)
  (st : option (nat * nat)) (ambiguous : bool) (l : list stored) : option (option (nat * nat) * bool) :=
  match l with
  | [] => Some (st, ambiguous)
  | x :: r =>
      if offset <? start_byte (srange x) then scan s offset p st ambiguous r
      else
        match ssub x with
        | None => scan s offset p st ambiguous r
        | Some k =>
            match nth_error (subjects s) k with
            | None => None
            | Some q =>
                if negb (p q (srange x)) then scan s offset p st ambiguous r
                else
                  match st with
                  | None => scan s offset p (Some (start_byte (srange x), sty x)) ambiguous r
                  | Some (b, t) =>
                      if b <? start_byte (srange x) then scan s offset p (Some (start_byte (srange x), sty x)) false r
                      else if start_byte (srange x) =? b
                           then scan s offset p st (ambiguous || negb (sty x =? t)) r
                           else scan s offset p st ambiguous r
                  end
            end
        end
  end.

(** named_type_in_file_before_matching (525-579); the predicate is pure. *)
Definition named_type_before (s : store) (n offset : nat) (p : subject -> text_range -> bool)
  : option named_result :=
  match get Nat.eqb (by_file s) n with
  | None => Some NUnresolved
  | Some ids =>
      match scan s offset p None false (clone_facts (facts s) ids) with
      | None => None
      | Some (None, _) => Some NUnresolved
      | Some (Some _, true) => Some NAmbiguous
      | Some (Some (_, t), false) =>
          match nth_error (ruby_types s) t with Some t' => Some (NResolved t') | None => None end
      end
  end.

(** The loop body of remove_file (600-613). *)
Definition drop_id (s : store) (id : nat) : store :=
  match take_fact (facts s) id with
  | None => s
  | Some (x, a) =>
      mkStore a (subjects s) (ruby_types s)
        (match ssub x with
         | Some k => retain Nat.eqb (by_subject s) k (fun i => negb (i =? id))
         | None => by_subject s
         end)
        (by_file s) (ordered s)
  end.

(** remove_file (596-614). *)
Definition remove_file (s : store) (n : nat) : store :=
  match get Nat.eqb (by_file s) n with
  | None => s
  | Some stale =>
      fold_left drop_id stale
        (mkStore (facts s) (subjects s) (ruby_types s) (by_subject s) (del Nat.eqb (by_file s) n) (ordered s))
  end.

(** The keys of sort_type_ids (911-925) and sort_type_ids_by_file (927-940). *)
Definition subject_key (x : stored) : list nat :=
  [file_id (srange x); start_byte (srange x); end_byte (srange x); rank (sprov x)].
Definition file_key (x : stored) : list nat := [start_byte (srange x); end_byte (srange x); rank (sprov x)].

(** [touched_subjects] (622, 631-640). *)
Fixpoint touch (l : list (nat * nat)) (k : nat) : list (nat * nat) :=
  match l with
  | [] => [(k, 1)]
  | (k', c) :: r => if k' =? k then (k', S c) :: r else (k', c) :: touch r k
  end.

(** The insertion loop of replace_file (623-656). *)
Fixpoint insert_all (n : nat) (s : store) (touched : list (nat * nat)) (xs : list fact)
  : option (store * list (nat * nat)) :=
  match xs with
  | [] => Some (s, touched)
  | x :: r =>
      if file_id (range x) =? n then
        match insert_one s x with
        | None => None
        | Some (s', q) => insert_all n s' (match q with Some k => touch touched k | None => touched end) r
        end
      else None
  end.

(** The loop over the touched subjects (657-681). *)
Fixpoint place_touched (n : nat) (fast : bool) (a : arena stored) (m : list (nat * list nat))
  (touched : list (nat * nat)) : option (list (nat * list nat)) :=
  match touched with
  | [] => Some m
  | (k, c) :: r =>
      match get Nat.eqb m k with
      | None => place_touched n fast a m r
      | Some ids =>
          match (if fast then place_appended subject_key (fun x => file_id (srange x)) a ids c n
                 else sort_ids subject_key a ids) with
          | None => None
          | Some ids' => place_touched n fast a (put Nat.eqb m k ids') r
          end
      end
  end.

(** replace_file (616-686). *)
Definition replace_file (s : store) (n : nat) (xs : list fact) : option store :=
  match insert_all n (remove_file s n) [] xs with
  | None => None
  | Some (s1, touched) =>
      match place_touched n (ordered s1) (facts s1) (by_subject s1) touched,
            (match get Nat.eqb (by_file s1) n with
             | None => Some (by_file s1)
             | Some ids => match sort_ids file_key (facts s1) ids with
                           | None => None
                           | Some ids' => Some (put Nat.eqb (by_file s1) n ids')
                           end
             end) with
      | Some m, Some f => Some (mkStore (facts s1) (subjects s1) (ruby_types s1) m f (ordered s1))
      | _, _ => None
      end
  end.

(** TypeResolution (158-162). *)
Inductive resolution := Resolved (x : fact) | Ambiguous (l : list fact) | Unresolved.

(** Iterator::max on the start offsets. *)
Fixpoint max_start (best : option nat) (l : list nat) : option nat :=
  match l with
  | [] => best
  | b :: r => max_start (Some (match best with None => b | Some c => Nat.max c b end)) r
  end.

(** Vec::dedup_by with the closure of 763: an element like its kept predecessor is removed. *)
Definition alike (a b : fact) : bool := (ty a =? ty b) && same_prov (prov a) (prov b).
Fixpoint dedup_after (last : fact) (l : list fact) : list fact :=
  match l with
  | [] => []
  | x :: r => if alike x last then dedup_after last r else x :: dedup_after x r
  end.
Definition dedup (l : list fact) : list fact :=
  match l with [] => [] | x :: r => x :: dedup_after x r end.

(** type_at (732-770).  [show] is [RubyType::to_string]; the pair key is one tuple, the text
    ended by a 0 below every character. *)
Definition text_key (show : nat -> list nat) (x : fact) : list nat :=
  map S (show (ty x)) ++ [0; rank (prov x)].
Definition type_at (show : nat -> list nat) (s : store) (q : subject) (n offset : nat) : option resolution :=
  match ids_for s q with
  | None => Some Unresolved
  | Some ids =>
      match filter_opt (matches s q) (clone_facts (facts s) ids) with
      | None => None
      | Some l =>
          match max_start None
                  (map (fun x => start_byte (srange x))
                     (filter (fun x => (file_id (srange x) =? n) && (start_byte (srange x) <=? offset)) l)) with
          | None => Some Unresolved
          | Some latest =>
              match expand_all s (filter (fun x => (file_id (srange x) =? n) && (start_byte (srange x) =? latest)) l) with
              | None => None
              | Some candidates =>
                  Some (match dedup (sort (key_leb (text_key show)) candidates) with
                        | [] => Unresolved
                        | [x] => Resolved x
                        | l => Ambiguous l
                        end)
              end
          end
      end
  end.

(** The mutating calls of the API. *)
Inductive op :=
| Add (x : fact) | RemoveFile (n : nat) | ReplaceFile (n : nat) (xs : list fact)
| UpdateReturns (n : nat) (us : list (nat * nat)) | UpdateTarget (q : subject) (r : text_range) (t : nat)
| UpdateLocal (name : nat) (r : text_range) (t : nat).

Definition step (s : store) (o : op) : option store :=
  match o with
  | Add x => add s x
  | RemoveFile n => Some (remove_file s n)
  | ReplaceFile n xs => replace_file s n xs
  | UpdateReturns n us => option_map fst (update_returns s n us)
  | UpdateTarget q r t => option_map fst (update_target s q r t)
  | UpdateLocal name r t => option_map fst (update_local s name r t)
  end.

Fixpoint run_from (s : store) (h : list op) : option store :=
  match h with
  | [] => Some s
  | o :: r => match step s o with Some s' => run_from s' r | None => None end
  end.
Definition run (h : list op) : option store := run_from new h.
