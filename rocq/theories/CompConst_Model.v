(** Which constants completion offers (crates/ruby-analysis/src/engine/lookup.rs and lookup_types.rs,
    src/query/completion.rs).

    A name is a list of character numbers; str's order is the order of these lists.  Arguments: the
    facts of the engine in the order all_symbol_facts yields them, str::to_lowercase, RubyConstant::new
    and RubyConstant::is_generated_owner as tests.  Detail texts are not modelled, the full path of the
    constant they show is. *)
From Coq Require Import List Arith Bool.
From Verif Require Import Sort_Lib.
Import ListNotations.

Definition name := list nat.
Definition path := list name.
Definition colon := 58.

(** crates/ruby-analysis/src/core/facts.rs SymbolKind. *)
Inductive kind := Class | Module | Constant | Method | LocalVariable | InstanceVariable | ClassVariable | GlobalVariable.
(** The part of SymbolFact that matters: for the first three kinds the name is a Namespace or a
    Constant, whose parts are the full path (fully_qualified_name.rs:257-267). *)
Record fact := mkFact { fkind : kind; parts : path }.
(** CompletionItem, completion.rs:148-183: label and inserted text are the last name. *)
Record item := mkItem { label : name; inserted : name; what : kind; shows : path }.

(** FullyQualifiedName::name, fully_qualified_name.rs:300-314. *)
Definition simple (p : path) : name := last p [].

Record request := mkRequest { wanted : name; prefix : option path; qualified : bool }.

(** str::starts_with. *)
Fixpoint starts (p t : name) : bool :=
  match p, t with
  | [], _ => true
  | _, [] => false
  | a :: p', b :: t' => (a =? b) && starts p' t'
  end.

(** str::rfind of two colons, as the texts before and after; str::contains is whether there is one. *)
Fixpoint rsplit (t : name) : option (name * name) :=
  match t with
  | [] => None
  | c :: r =>
      match rsplit r with
      | Some (a, b) => Some (c :: a, b)
      | None =>
          match t with
          | x :: y :: r' => if (x =? colon) && (y =? colon) then Some ([], r') else None
          | _ => None
          end
      end
  end.

(** str::split at two colons. *)
Fixpoint split (cur t : name) : list name :=
  match t with
  | [] => [cur]
  | x :: r =>
      match r with
      | y :: r' => if (x =? colon) && (y =? colon) then cur :: split [] r' else split (cur ++ [x]) r
      | [] => [cur ++ [x]]
      end
  end.

Fixpoint path_eqb (a b : path) : bool :=
  match a, b with
  | [], [] => true
  | x :: a', y :: b' => (if list_eq_dec Nat.eq_dec x y then true else false) && path_eqb a' b'
  | _, _ => false
  end.

(** slice::starts_with. *)
Fixpoint path_starts (p q : path) : bool :=
  match p, q with
  | [], _ => true
  | _, [] => false
  | a :: p', b :: q' => (if list_eq_dec Nat.eq_dec a b then true else false) && path_starts p' q'
  end.

Section Lookup.
Variable lower : name -> name.
Variable valid : name -> bool.
Variable generated : name -> bool.

(** TryFrom for FullyQualifiedName, fully_qualified_name.rs:338-360. *)
Definition parse_path (t : name) : option path :=
  match t with [] => None | _ => let l := split [] t in if forallb valid l then Some l else None end.

(** parse_qualified_constant_name, lookup_types.rs:31-46, and ConstantLookupRequest::new, 12-28. *)
Definition new_request (partial : name) : request :=
  match rsplit partial with
  | None => mkRequest partial None false
  | Some (ns, w) =>
      match ns with
      | [] => mkRequest w None true
      | _ => match parse_path ns with
             | Some p => mkRequest w (Some p) true
             | None => mkRequest partial None true
             end
      end
  end.

(** constant_matches_request, lookup.rs:257-276. *)
Definition matches (r : request) (p : path) : bool :=
  (if qualified r then
     match prefix r with
     | Some ns => (length p =? length ns + 1) && path_starts ns p
     | None => length p <=? 1
     end
   else true)
  && starts (lower (wanted r)) (lower (simple p)).

(** lookup.rs:55-60. *)
Definition is_constant (f : fact) : bool :=
  match fkind f with Class | Module | Constant => negb (existsb generated (parts f)) | _ => false end.

(** The HashSet filters, lookup.rs:61 and completion.rs:185-194: the first with a given key stays. *)
Fixpoint firsts {A} (same : A -> A -> bool) (seen l : list A) : list A :=
  match l with
  | [] => []
  | x :: r => if existsb (same x) seen then firsts same seen r else x :: firsts same (x :: seen) r
  end.
Definition same_parts (f g : fact) : bool := path_eqb (parts f) (parts g).
Definition same_label (i j : item) : bool := if list_eq_dec Nat.eq_dec (label i) (label j) then true else false.

(** constant_matches, lookup.rs:49-72. *)
Definition constant_matches (facts : list fact) (r : request) (limit : nat) : list fact :=
  firstn limit
    (sort (key_leb (fun f => simple (parts f)))
       (filter (fun f => matches r (parts f)) (firsts same_parts [] (filter is_constant facts)))).

(** constant_completion_item, completion.rs:148-183. *)
Definition as_item (f : fact) : item := mkItem (simple (parts f)) (simple (parts f)) (fkind f) (parts f).

(** find_constant_completions, completion.rs:19-53, 185-194. *)
Definition limit := 50.
Definition offered (facts : list fact) (partial : name) : list item :=
  firsts same_label [] (sort (key_leb label) (map as_item (constant_matches facts (new_request partial) limit))).
End Lookup.
