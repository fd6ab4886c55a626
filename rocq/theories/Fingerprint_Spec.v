(** Export fingerprints: what the fingerprint of a file stands for. *)
From Coq Require Import List NArith Permutation.
From Verif Require Import Fingerprint_Model.
Import ListNotations.

(** The facts of a file that other files can see, of all kinds. *)
Inductive fact :=
| ASymbol (s : symbol) | AMethod (m : method) | AnOverride (o : override) | AType (t : type_fact) | AnEquation (q : equation)
| ACallable (c : callable) | ANode (n : node) | AnEdge (e : edge) | AnUnresolved (u : unresolved).

(** Classes, modules and constants are seen from other files; methods are listed on their own and variables
    are not seen.  Of the types, those of constants, method results and parameters. *)
Definition declared (s : symbol) : bool := match s_kind s with SClass | SModule | SConstant => true | _ => false end.
Definition typed (t : type_fact) : bool := match t_subject t with OfConstant _ | OfReturn _ | OfParameter _ _ => true | _ => false end.

Definition exports {X Y} (f : file_facts X Y) : list fact :=
  map ASymbol (filter declared (symbols f)) ++ map AMethod (methods f) ++ map AnOverride (overrides f) ++
  map AType (filter typed (types f)) ++ map AnEquation (equations f) ++ map ACallable (bodies f) ++
  map ANode (graph_nodes f) ++ map AnEdge (graph_edges f) ++ map AnUnresolved (unresolved_edges f).

(** Where in the file a fact stands is not part of what it says. *)
Definition nowhere : range := (Bounded (2 ^ 32) 0%N eq_refl, Bounded (2 ^ 32) 0%N eq_refl).
Definition unplaced (f : fact) : fact :=
  match f with
  | ASymbol s => ASymbol (Symbol (s_fqn s) (s_kind s) nowhere nowhere)
  | AMethod m => AMethod (MethodFact (m_fqn m) (m_owner m) nowhere nowhere (m_params m) (m_param_facts m) (m_shape_complete m) (m_delegate m)
      (m_visibility m) (m_availability m) (m_documentation m) (m_return_label m) (m_signatures m) (m_forwarded m) (m_yield m))
  | AnOverride o => AnOverride (Override (o_owner o) (o_method o) (o_visibility o) nowhere)
  | AType t => AType (TypeFact (t_subject t) (t_type t) nowhere (t_provenance t))
  | AnEquation q => AnEquation q
  | ACallable c => ACallable (Callable (k_constant c) (k_summary c) nowhere)
  | ANode n => ANode (Node (n_fqn n) (n_kind n) nowhere)
  | AnEdge e => AnEdge (Edge (e_source e) (e_target e) (e_kind e) (e_provenance e) nowhere)
  | AnUnresolved u => AnUnresolved (Unresolved (u_source u) (u_parts u) (u_absolute u) (u_context u) (u_kind u) (u_provenance u) nowhere)
  end.

(** What the encoders leave out besides: whether a method's parameter list is known to be complete, and the
    constants the equation of a method's return type depends on. *)
Definition covered (f : fact) : fact :=
  match unplaced f with
  | AMethod m => AMethod (MethodFact (m_fqn m) (m_owner m) nowhere nowhere (m_params m) (m_param_facts m) false (m_delegate m)
      (m_visibility m) (m_availability m) (m_documentation m) (m_return_label m) (m_signatures m) (m_forwarded m) (m_yield m))
  | AnEquation q => AnEquation (Equation (q_method q) (q_base q) (q_dependencies q) [])
  | g => g
  end.

(** The bytes hashed for a fact. *)
Definition stream_of (f : fact) : stream :=
  match f with
  | ASymbol s => symbol_stream s | AMethod m => method_stream m | AnOverride o => override_stream o | AType t => type_stream t
  | AnEquation q => equation_stream q | ACallable c => callable_stream c | ANode n => node_stream n | AnEdge e => edge_stream e
  | AnUnresolved u => unresolved_stream u
  end.

(** A stream that a process can write: fewer than 2^64 bytes. *)
Definition fits (s : stream) : Prop := (N.of_nat (length s) < 2 ^ 64)%N.

Definition writable {X Y} (f : file_facts X Y) : Prop :=
  Forall fits (export_streams f) /\ fits (final_stream (map export_hash (export_streams f))).

(** The hash tells the streams of two files apart: those of their facts, and the final ones. *)
Definition tells_apart {X Y} (f g : file_facts X Y) : Prop :=
  (forall a b, In a (export_streams f ++ export_streams g) -> In b (export_streams f ++ export_streams g) ->
     export_hash a = export_hash b -> a = b) /\
  (let s := final_stream (map export_hash (export_streams f)) in let t := final_stream (map export_hash (export_streams g)) in
     export_hash s = export_hash t -> s = t).
