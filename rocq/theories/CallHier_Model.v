(** Model of the call hierarchy: crates/ruby-analysis/src/engine/hierarchy.rs 13-88 and 295-305, over
    the reference index of References_Model.

    FqnId is the position of a name in the interner.  The facts of a method are their ranges in the
    order of MethodStore::facts_for (position).  Turning ranges into editor locations
    (src/query/call_hierarchy.rs 151-172) is not modelled. *)
From Coq Require Import List Arith Bool.
From Verif Require Import Sort_Lib Index_Lib References_Model Names_Model.
Import ListNotations.

(** What the queries read of the engine: the interner, the method facts, the resolved references. *)
Record engine := mkEngine { names : list name; methods : nat -> list text_range; refs : store }.

Definition name_eq_dec (a b : name) : {a = b} + {a <> b}.
Proof. repeat decide equality. Defined.
Definition name_eqb (a b : name) : bool := if name_eq_dec a b then true else false.

(** The interner's two directions (engine.names.fqn_id, engine.fqn_for_id). *)
Fixpoint position_of (l : list name) (n : name) : option nat :=
  match l with
  | [] => None
  | x :: r => if name_eqb x n then Some 0 else option_map Datatypes.S (position_of r n)
  end.
Definition fqn_id (e : engine) (n : name) : option nat := position_of (names e) n.
Definition fqn_for_id (e : engine) (i : nat) : option name := nth_error (names e) i.

(** AnalysisEngine::method_facts_for (state.rs 3105-3116). *)
Definition method_facts_for (e : engine) (n : name) : list text_range :=
  match fqn_id e n with None => [] | Some i => methods e i end.

(** AnalysisEngine::reference_facts_for (state.rs 3094-3099). *)
Definition reference_facts_for (e : engine) (n : name) : list reference :=
  match fqn_id e n with None => [] | Some i => facts_for (refs e) i end.

(** call_hierarchy_method (hierarchy.rs 18-29): the item of a method, its name and place. *)
Definition call_hierarchy_method (e : engine) (n : name) : option (name * text_range) :=
  match method_facts_for e n with [] => None | r :: _ => Some (n, r) end.

(** call_hierarchy_method_for_owner (31-38); [parts] is owner_fqn.namespace_parts(). *)
Definition call_hierarchy_method_for_owner (e : engine) (parts : list text) (m : text) : option (name * text_range) :=
  call_hierarchy_method e (Method parts m).

(** push_grouped_text_range (295-305). *)
Fixpoint push_grouped (g : list (name * list text_range)) (n : name) (r : text_range) : list (name * list text_range) :=
  match g with
  | [] => [(n, [r])]
  | (m, rs) :: t => if name_eqb m n then (m, rs ++ [r]) :: t else (m, rs) :: push_grouped t n r
  end.

(** The loop of incoming_calls (42-50). *)
Definition group_callers (e : engine) (l : list reference) : list (name * list text_range) :=
  fold_left (fun g x =>
    match caller x with
    | None => g
    | Some c => match fqn_for_id e c with None => g | Some n => push_grouped g n (range x) end
    end) l [].

(** The tail shared by incoming_calls (52-61) and outgoing_calls (78-87): sort by text, keep the
    methods that are defined. *)
Record entry := mkEntry { item : name; place_of : text_range; ranges : list text_range }.
Definition present (e : engine) (g : list (name * list text_range)) : list entry :=
  flat_map (fun x => match call_hierarchy_method e (fst x) with
                     | None => []
                     | Some (n, r) => [mkEntry n r (snd x)]
                     end)
    (sort (key_leb (fun x : name * list text_range => print (fst x))) g).

(** incoming_calls (40-62). *)
Definition incoming_calls (e : engine) (n : name) : list entry :=
  present e (group_callers e (reference_facts_for e n)).

(** The loop of outgoing_calls (68-76). *)
Definition group_callees (e : engine) (c : nat) (l : list (nat * reference)) : list (name * list text_range) :=
  fold_left (fun g x =>
    match caller (snd x) with
    | Some d => if d =? c
                then match fqn_for_id e (fst x) with None => g | Some n => push_grouped g n (range (snd x)) end
                else g
    | None => g
    end) l [].

(** outgoing_calls (64-88). *)
Definition outgoing_calls (e : engine) (n : name) : list entry :=
  match fqn_id e n with
  | None => []
  | Some c => present e (group_callees e c (facts_with_targets (refs e)))
  end.
