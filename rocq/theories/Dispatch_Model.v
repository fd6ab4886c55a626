(** Model of method calls: which definitions a call of a method leads to
    (crates/ruby-analysis/src/engine/resolution.rs) from the facts the indexer collects about
    definitions and visibility statements (crates/ruby-analysis/src/indexer/fact_collector and
    indexer/scope_tracker.rs).

    Namespaces, method names and source files are numbers.  A definition is identified by its
    place, the file and the byte where it starts; the end of a range is left out, two definitions
    of one file do not start at the same byte.  Parameters, types and documentation are not
    modelled, nor @unavailable/@absent facts (the subject of C60), module_function, attr_* and
    define_method.  The ancestor chain (the subject of C34, C35 and C66) and the includers of a
    module (C67) are parameters. *)
From Coq Require Import List Arith Bool.
From Verif Require Import Sort_Lib.
Import ListNotations.

(** MethodVisibility (core/method_store.rs 39-44) and NamespaceKind. *)
Inductive vis := Public | Protected | Private.
Inductive nskind := Instance | Singleton.

(** A namespace together with its kind: FullyQualifiedName::Namespace. *)
Definition owner : Type := (nat * nskind).
(** The file and the first byte of a range. *)
Definition place : Type := (nat * nat).

Definition vis_eqb (a b : vis) : bool :=
  match a, b with
  | Public, Public | Protected, Protected | Private, Private => true
  | _, _ => false
  end.
Definition kind_eqb (a b : nskind) : bool :=
  match a, b with Instance, Instance | Singleton, Singleton => true | _, _ => false end.
(** The comparison of namespace_parts and namespace_kind (resolution.rs 2823-2826 and elsewhere). *)
Definition same (a b : owner) : bool := (fst a =? fst b) && kind_eqb (snd a) (snd b).

(** Three method names the code treats specially. *)
Definition initialize_name : nat := 0.
Definition new_name : nat := 1.
Definition missing_name : nat := 2.

(** * The source text *)

(** What a class or module body consists of, with the byte at which each part starts:
    [private], [private :n], [def n], [private def n]. *)
Inductive plain :=
| Mode (v : vis)
| Named (v : vis) (n : nat) (at_ : nat)
| Method (n : nat) (at_ : nat)
| Wrapped (v : vis) (n : nat) (at_ : nat).

(** [def self.n], [private_class_method :n] and [class << self ... end]. *)
Inductive stmt :=
| Plain (s : plain)
| SelfMethod (n : nat) (at_ : nat)
| ClassNamed (v : vis) (n : nat) (at_ : nat)
| Eigen (l : list plain).

(** [class Ns ... end] or [module Ns ... end]. *)
Record body := mkBody { body_ns : nat; body_stmts : list stmt }.
(** A source file: its SourceFileId and its bodies. *)
Definition source : Type := (nat * list body).

(** * The facts *)

(** The fields of MethodFact that matter here. *)
Record fact := mkFact { f_owner : owner; f_name : nat; f_at : place; f_vis : vis }.
(** MethodVisibilityOverrideFact. *)
Record override := mkOverride { o_owner : owner; o_name : nat; o_vis : vis; o_at : place }.
(** The facts of the files indexed. *)
Record db := mkDb { facts : list fact; overrides : list override }.

Section Collect.
  (** Whether a namespace is proven to be a class (def_node.rs 78-94). *)
  Variable is_class : nat -> bool.

  (** Where process_def_node_entry files a method: the constructor of a class becomes the class
      method [new] (def_node.rs 95-104). *)
  Definition filed (k : nskind) (ns n : nat) : owner * nat :=
    if (n =? initialize_name) && kind_eqb k Instance && is_class ns
    then ((ns, Singleton), new_name) else ((ns, k), n).

  (** direct_push_method_fact_with_signature_name_range_and_availability
      (fact_collector/mod.rs 1018-1044): the visibility is the current one of the scope tracker. *)
  Definition define (file ns : nat) (k : nskind) (v : vis) (n at_ : nat) (d : db) : db :=
    mkDb (facts d ++ [mkFact (fst (filed k ns n)) (snd (filed k ns n)) (file, at_) v]) (overrides d).

  (** direct_set_method_visibility (fact_collector/mod.rs 1068-1102): an override is recorded and
      the facts of this file collected so far are changed. *)
  Definition set_method_visibility (file ns : nat) (k : nskind) (v : vis) (n at_ : nat) (d : db) : db :=
    mkDb (map (fun f => if (f_name f =? n) && same (f_owner f) (ns, k)
                        then mkFact (f_owner f) (f_name f) (f_at f) v else f) (facts d))
         (overrides d ++ [mkOverride (ns, k) n v (file, at_)]).

  (** One statement; [v] is the top of the visibility stack (scope_tracker.rs 384-403).
      [private] alone sets it, [private :n] records an override, the other arguments of [private]
      are skipped (call_node/mod.rs 159-179, 1881-1899), so that [private def n] is only the
      definition.  The definition in the argument is visited after the call. *)
  Definition collect_plain (file ns : nat) (k : nskind) (v : vis) (d : db) (s : plain) : vis * db :=
    match s with
    | Mode w => (w, d)
    | Named w n a => (v, set_method_visibility file ns k w n a d)
    | Method n a => (v, define file ns k v n a d)
    | Wrapped _ n a => (v, define file ns k v n a d)
    end.

  Fixpoint collect_plains (file ns : nat) (k : nskind) (v : vis) (d : db) (l : list plain) : vis * db :=
    match l with
    | [] => (v, d)
    | s :: r => let '(v1, d1) := collect_plain file ns k v d s in collect_plains file ns k v1 d1 r
    end.

  (** [class << self] pushes a visibility frame of its own (singleton_class_node.rs 5-13,
      scope_tracker.rs 405-419); [def self.n] takes the visibility of the frame it stands in
      (def_node.rs 40-60, mod.rs 1042); private_class_method is not handled (call_node/mod.rs
      92-156). *)
  Definition collect_stmt (file ns : nat) (v : vis) (d : db) (s : stmt) : vis * db :=
    match s with
    | Plain p => collect_plain file ns Instance v d p
    | SelfMethod n a => (v, define file ns Singleton v n a d)
    | ClassNamed _ _ _ => (v, d)
    | Eigen l => (v, snd (collect_plains file ns Singleton Public d l))
    end.

  Fixpoint collect_stmts (file ns : nat) (v : vis) (d : db) (l : list stmt) : vis * db :=
    match l with
    | [] => (v, d)
    | s :: r => let '(v1, d1) := collect_stmt file ns v d s in collect_stmts file ns v1 d1 r
    end.

  (** A body pushes a frame with public visibility (scope_tracker.rs 264-308). *)
  Definition collect_body (file : nat) (d : db) (b : body) : db :=
    snd (collect_stmts file (body_ns b) Public d (body_stmts b)).

  (** The facts of one file start empty. *)
  Definition collect_source (s : source) : db :=
    fold_left (collect_body (fst s)) (snd s) (mkDb [] []).

  (** The facts of all files (state.rs 2308-2313; C59 shows the store to hold exactly these). *)
  Definition collect (p : list source) : db :=
    mkDb (flat_map (fun s => facts (collect_source s)) p)
         (flat_map (fun s => overrides (collect_source s)) p).
End Collect.

(** * The query *)

(** MethodCalleeResolution and ResolvedMethodCallee. *)
Inductive resolution := Exact | MethodMissing | ReceiverOnly.
Record callee := mkCallee {
  c_owner : owner; c_method : nat; c_resolution : resolution; c_ranges : list place }.

Definition place_key (p : place) : list nat := [fst p; snd p].
Definition earlier (p q : place) : bool := lexb (place_key p) (place_key q).

(** [overrides.sort_by_key(..); overrides.pop()] (2926-2934). *)
Definition last_override (l : list override) : option override :=
  match rev (sort (fun a b => earlier (o_at a) (o_at b)) l) with
  | [] => None
  | x :: _ => Some x
  end.

Definition fact_eqb (a b : fact) : bool :=
  same (f_owner a) (f_owner b) && (f_name a =? f_name b) &&
  (fst (f_at a) =? fst (f_at b)) && (snd (f_at a) =? snd (f_at b)) && vis_eqb (f_vis a) (f_vis b).

(** Vec::dedup: of adjacent equal elements the first stays. *)
Fixpoint dedup (l : list fact) : list fact :=
  match l with
  | [] => []
  | x :: r =>
      match r with
      | [] => [x]
      | y :: _ => if fact_eqb x y then
                    match dedup r with [] => [] | _ :: t => x :: t end
                  else x :: dedup r
      end
  end.

Section Query.
  Variable is_signature : nat -> bool.        (* SourceKind::Signature *)
  Variable is_library_stub : nat -> bool.     (* SourceKind::Stub or SourceKind::Signature *)
  Variable chain : owner -> list owner.       (* method_lookup_chain *)
  Variable exists_ : owner -> bool.           (* namespace_target_exists *)
  Variable is_module : owner -> bool.         (* is_module_instance_namespace *)
  Variable includers : owner -> list owner.   (* module_includers *)
  Variable contexts : owner -> list owner.    (* execution_context_application_targets *)
  Variable basic_object : owner.              (* basic_object_instance_fqn *)
  Variable d : db.

  (** method_facts_matching_owner_name (state.rs 3148-3166). *)
  Definition facts_of (a : owner) (n : nat) : list fact :=
    filter (fun f => same (f_owner f) a && (f_name f =? n)) (facts d).

  (** method_visibility_overrides_matching_owner_name (state.rs 3210-3223). *)
  Definition overrides_of (a : owner) (n : nat) : list override :=
    filter (fun o => (o_name o =? n) && same (o_owner o) a) (overrides d).

  (** method_visibility_override_for_chain (2917-2943). *)
  Fixpoint override_in (l : list owner) (o : owner) (n : nat) : option override :=
    match l with
    | [] => None
    | a :: r =>
        match last_override (overrides_of a n) with
        | Some x => Some x
        | None => if same a o then None else override_in r o n
        end
    end.

  (** effective_method_visibility_for_chain (2903-2915). *)
  Definition effective (l : list owner) (f : fact) (n : nat) : vis * owner :=
    match override_in l (f_owner f) n with
    | Some x => (o_vis x, o_owner x)
    | None => (f_vis f, f_owner f)
    end.

  (** protected_method_visible_from (3026-3037). *)
  Definition visible_from (o caller : owner) : bool := existsb (fun a => same a o) (chain caller).

  (** method_visibility_allowed (3008-3024). *)
  Definition allowed (v : vis) (o : owner) (allow_private : bool) (caller : option owner) : bool :=
    match v with
    | Public => true
    | Private => allow_private
    | Protected => allow_private ||
        match caller with Some c => visible_from o c | None => false end
    end.

  (** The facts of one ancestor that remain: visible ones, those of signature files only when
      there are no others, sorted and without duplicates (2821-2876). *)
  Definition in_chain (l : list owner) (o : owner) : bool := existsb (fun a => same a o) l.
  Definition remaining (l : list owner) (n : nat) (ap : bool) (caller : option owner) (a : owner) : list fact :=
    let visible := filter (fun f => in_chain l (f_owner f) &&
                       let '(v, o) := effective l f n in allowed v o ap caller) (facts_of a n) in
    let kept := if existsb (fun f => negb (is_signature (fst (f_at f)))) visible
                then filter (fun f => negb (is_signature (fst (f_at f)))) visible else visible in
    dedup (sort (fun x y => earlier (f_at x) (f_at y)) kept).

  (** method_facts_in_chain (2814-2882): [l] is the whole chain, [rest] what is still to visit. *)
  Fixpoint facts_in (l rest : list owner) (n : nat) (ap : bool) (caller : option owner)
    : option (owner * list fact) :=
    match rest with
    | [] => None
    | a :: r =>
        match remaining l n ap caller a with
        | [] => facts_in l r n ap caller
        | fs => Some (a, fs)
        end
    end.

  (** method_callee_in_chain (2791-2812). *)
  Definition callee_in (l : list owner) (n : nat) (res : resolution) (ap : bool) (caller : option owner)
    : option callee :=
    match facts_in l l n ap caller with
    | None => None
    | Some (a, fs) => Some (mkCallee a n res (map f_at fs))
    end.

  (** private_method_in_chain (2884-2901). *)
  Definition hidden_in (l : list owner) (n : nat) : bool :=
    existsb (fun a =>
      existsb (fun f => in_chain l (f_owner f) &&
                 negb (vis_eqb (fst (effective l f n)) Public)) (facts_of a n)) l.

  (** receiver_only_callee (3039-3046). *)
  Definition receiver_only (o : owner) (n : nat) : callee := mkCallee o n ReceiverOnly [].

  (** default_basic_object_method_missing_callee (3087-3101). *)
  Definition default_missing (c : callee) : bool :=
    same (c_owner c) basic_object && negb (match c_ranges c with [] => true | _ => false end) &&
    forallb (fun p => is_library_stub (fst p)) (c_ranges c).

  (** method_missing_callee_in_chain (3048-3067). *)
  Definition missing_in (l : list owner) : option callee :=
    match callee_in l missing_name MethodMissing true None with
    | None => None
    | Some c => if default_missing c then None else Some c
    end.

  (** The loop body shared by the two loops of resolve_method_callees_inner (949-969, 973-992):
      what is added to the callees and to the method_missing fallbacks. *)
  Definition visit (n : nat) (ap : bool) (caller : option owner) (acc : list callee * list callee)
    (o : owner) : list callee * list callee :=
    let '(found, fallbacks) := acc in
    let l := chain o in
    match callee_in l n Exact ap caller with
    | Some c => (found ++ [c], fallbacks)
    | None =>
        if negb ap && hidden_in l n then (found ++ [receiver_only o n], fallbacks)
        else match missing_in l with
             | Some c => (found, fallbacks ++ [c])
             | None => (found, fallbacks)
             end
    end.

  (** The end of resolve_method_callees_inner (995-1019) for the namespaces [search].  The callees
      found through execution contexts are sorted and deduplicated there (993-1003); that order
      is not modelled. *)
  Definition finish (o : owner) (search : list owner) (n : nat) (ap : bool) (caller : option owner)
    : list callee :=
    let '(found, fallbacks) := fold_left (visit n ap caller) search ([], []) in
    let '(found, fallbacks) :=
      match found with
      | [] => fold_left (visit n ap caller) (contexts o) (found, fallbacks)
      | _ => (found, fallbacks)
      end in
    match found with
    | [] => match fallbacks with
            | [] => map (fun a => receiver_only a n) search
            | _ => fallbacks
            end
    | _ => found
    end.

  (** resolve_method_callees_inner (899-1019). *)
  Definition callees (o : owner) (n : nat) (ap : bool) (caller : option owner) : option (list callee) :=
    if negb (exists_ o) then None
    else if is_module o then
      match callee_in (chain o) n Exact ap caller with
      | Some c => Some [c]
      | None =>
          if negb ap && hidden_in (chain o) n then Some [receiver_only o n]
          else Some (finish o (match includers o with [] => [o] | l => l end) n ap caller)
      end
    else Some (finish o [o] n ap caller).

  (** How a call is written: without receiver, with [self] as receiver, with another receiver,
      through [send]. *)
  Inductive form := Bare | OnSelf | OnOther | ViaSend.

  (** method_reference_access (call_node/mod.rs 1981-2007) and its use (resolution.rs 459-491):
      with a receiver the call is resolved for the owner of the method it stands in, if there is
      one ([resolve_protected_method_callees] answers whenever [resolve_public_method_callees]
      does). *)
  Definition call (fm : form) (caller : option owner) (o : owner) (n : nat) : option (list callee) :=
    match fm with
    | Bare | ViaSend => callees o n true None
    | OnSelf | OnOther => callees o n false caller
    end.

  (** method_callee_after_owner (3115-3142): every ancestor after the first occurrence of the
      owner is searched on its own. *)
  Fixpoint first_of (l : list owner) (n : nat) : option callee :=
    match l with
    | [] => None
    | a :: r =>
        match callee_in [a] n Exact true None with
        | Some c => Some c
        | None => first_of r n
        end
    end.
  Fixpoint after (o : owner) (l : list owner) : list owner :=
    match l with
    | [] => []
    | a :: r => if same a o then r else after o r
    end.

  (** resolve_super_method_callee (1015-1027). *)
  Definition super_callee (o : owner) (n : nat) : option callee :=
    if exists_ o then first_of (after o (chain o)) n else None.

  (** push_super_reference_candidate (super_node.rs 32-66): the name searched is the one the
      method is filed under, the owner the class it is written in with the kind of its self. *)
  Definition super_in (is_class : nat -> bool) (k : nskind) (ns n : nat) : option callee :=
    super_callee (ns, k) (snd (filed is_class k ns n)).
End Query.
