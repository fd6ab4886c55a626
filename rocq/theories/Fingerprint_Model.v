(** Export fingerprints: the facts of one file, the bytes hashed for each exported fact, the hash, the
    fingerprint of a file and the classification of a change.

    Models crates/ruby-analysis/src/engine/state.rs:246-421 (the file's facts, from_facts, classify),
    state.rs:431-985 (the encoders, every one that from_facts reaches) and state.rs:993-1090 (the hash).

    Simplified: a Rust string is its list of bytes (UTF-8 validity is not imposed), an interned name is its
    string; TextRange is a pair of 32-bit offsets; MethodFact.higher_order (method_store.rs:64-76) is given
    by its three parts, as the accessors read it (None and three empty parts read alike); ShapeType.depth
    is left out (it is computed from the fields); a BTreeSet of names is the list it iterates over; the
    facts that from_facts never looks at are a value of an arbitrary type. *)
From Coq Require Import String Ascii List Arith NArith Bool.
From Verif Require Import Sort_Lib.
Import ListNotations.
Open Scope list_scope.

(** Rust's fixed-width unsigned integers. *)
Record bounded (m : N) := Bounded { value : N; within : (value <? m)%N = true }.
Arguments value {m}.
Definition u8 := bounded 256.
Definition u32 := bounded (2 ^ 32).
Definition u64 := bounded (2 ^ 64).

(** &str: its bytes. *)
Definition str := list u8.
Definition byte_of (c : ascii) : u8.
  refine (Bounded 256 (N_of_ascii c) _). apply N.ltb_lt, N_ascii_bounded.
Defined.
Definition str_of (s : string) : str := map byte_of (list_ascii_of_string s).

(** crates/ruby-analysis/src/core/fully_qualified_name.rs:10-50 *)
Inductive namespace_kind := Instance | Singleton.
Inductive fqn :=
| Namespace (parts : list str) (kind : namespace_kind)
| Constant (parts : list str)
| Method (parts : list str) (method : str)
| LocalVariable (name : str)
| InstanceVariable (name : str)
| ClassVariable (name : str)
| GlobalVariable (name : str).

(** crates/ruby-analysis/src/core/symbol_store.rs:8-27 *)
Definition range := (u32 * u32)%type.
Inductive symbol_kind := SClass | SModule | SMethod | SConstant | SLocal | SInstance | SClassVar | SGlobal.
Record symbol := Symbol { s_fqn : fqn; s_kind : symbol_kind; s_name_range : range; s_range : range }.

(** crates/ruby-analysis/src/core/shape_type.rs:20-196: literal keys and values have the same two forms. *)
Inductive literal := LSymbol (value : str) | LString (value : str).
Inductive presence := Required | Optional.
Inductive exactness := Exact | Open_.
Inductive stability := TrackedMutable | Frozen.

(** crates/ruby-analysis/src/core/ruby_type.rs:8-33 *)
Inductive ruby_type :=
| TClass (f : fqn) | TModule (f : fqn) | TClassReference (f : fqn) | TModuleReference (f : fqn)
| TLiteral (l : literal)
| TArray (elements : list ruby_type)
| THash (keys values : list ruby_type)
| TShape (fields : list (literal * presence * ruby_type)) (rest : option (ruby_type * ruby_type)) (e : exactness) (s : stability)
| TUnion (types : list ruby_type)
| TUnknown.

(** crates/ruby-analysis/src/core/method_store.rs:20-62, callable_signature.rs:9-57 *)
Inductive param_kind := PRequired | POptional | PRest | PRequiredKeyword | POptionalKeyword | PKeywordRest | PBlock
  | PForwarding | PAnonymousRest | PAnonymousKeywordRest.
Inductive visibility := Public | Protected | Private.
Inductive availability := Available | Unavailable (reason : str) | Absent (reason : str).
Record param := Param { p_name : str; p_kind : param_kind; p_label : option str; p_doc : option str }.
Inductive template :=
| Concrete (t : ruby_type) | Receiver | Variable_ (name : str) | TemplateArray (t : template) | TemplateHash (k v : template)
| TemplateUnion (l : list template) | Unconstrained.
Record signature := Signature { receiver_parameters : list str; type_parameters : list str; parameters : list (param_kind * template);
  block_parameters : list template; block_return : template; block_required : bool; return_type : template }.

(** crates/ruby-analysis/src/core/method_store.rs:106-121, 345-351 *)
Record method := MethodFact { m_fqn : fqn; m_owner : fqn; m_range : range; m_name_range : range; m_params : list str; m_param_facts : list param;
  m_shape_complete : bool; m_delegate : option str; m_visibility : visibility; m_availability : availability;
  m_documentation : option str; m_return_label : option str; m_signatures : list signature;
  m_forwarded : option (str * str); m_yield : option (list str) }.
Record override := Override { o_owner : fqn; o_method : str; o_visibility : visibility; o_range : range }.

(** crates/ruby-analysis/src/core/type_store.rs:38-95 *)
Inductive subject :=
| OfConstant (f : fqn) | OfLocal (scope : u32) (name : str) | OfInstance (owner : fqn) (name : str) | OfClassVar (owner : fqn) (name : str)
| OfGlobal (name : str) | OfReturn (f : fqn) | OfParameter (method : fqn) (name : str) | OfExpression (r : range).
Inductive provenance := PLiteral | PAssignment | PFlow | PRbs | PYard | PRuntime | PExtension | PInferred.
Record type_fact := TypeFact { t_subject : subject; t_type : ruby_type; t_range : range; t_provenance : provenance }.

(** crates/ruby-analysis/src/core/type_inference_outcome.rs:12-76, method_return_equation.rs:16-32 *)
Inductive reason :=
| NoReachingAssignment | UnresolvedAssignmentValue | AmbiguousReachingAssignment | UnknownReceiver | InvalidMethodName
| UnresolvedMethodReturn | IncompleteUnionMember | UnprovenRecursiveCycle | ShapeBoundExceeded | MutableShapeInvalidated
| UnsupportedCallable | IncompleteBlockInput | IncompleteBlockResult | IncompleteGenericSubstitution | AmbiguousCallableOverload
| HigherOrderBoundExceeded | UnsupportedBlockFlow | UnsupportedCallableBody | IncompleteCallableInput | IncompleteCallableCapture
| AmbiguousCallableValue | EscapedCallableValue | CallableBodyBoundExceeded | CallableRecursionUnsupported | UnsupportedCallableFlow.
Inductive base := Bottom | Proven (t : ruby_type) | UnknownBase (r : reason).
(** A dependency on a constant (constant_type_equation.rs:14-30): the reference and its lexical context. *)
Definition constant_dependency := (list str * bool * fqn)%type.
Record equation := Equation { q_method : fqn; q_base : base; q_dependencies : list fqn; q_constants : list constant_dependency }.

(** crates/ruby-analysis/src/core/callable_body.rs:23-62, 137-142 *)
Inductive body :=
| BLiteral (t : ruby_type) | BParameter (index : u64) | BCapture (name : str) | BArray (l : list body) | BShape (l : list (literal * body))
| BCall (receiver : body) (method : str) (arguments : list body) (keys : list (option literal)) | BUnion (l : list body).
Inductive body_kind := BRequired | BOptional | BRest.
Record summary := Summary { strict_arity : bool; b_params : list (str * body_kind * option body); captures : list str; result : body; node_count : u8 }.
Record callable := Callable { k_constant : fqn; k_summary : summary; k_range : range }.

(** crates/ruby-analysis/src/core/graph_store.rs:8-90 *)
Inductive node_kind := NClass | NModule.
Inductive edge_kind := Superclass | Include_ | Prepend | Extend | ExecutionContextApplication.
Inductive edge_provenance := Explicit | ImplicitObject.
Record node := Node { n_fqn : fqn; n_kind : node_kind; n_range : range }.
Record edge := Edge { e_source : fqn; e_target : fqn; e_kind : edge_kind; e_provenance : edge_provenance; e_range : range }.
Record unresolved := Unresolved { u_source : fqn; u_parts : list str; u_absolute : bool; u_context : fqn; u_kind : edge_kind;
  u_provenance : edge_provenance; u_range : range }.

(** state.rs:246-261, type_inference_outcome.rs:270-295; [constant_equations] and [unexported] are never
    read by from_facts. *)
Record file_facts (X Y : Type) := FileFacts { symbols : list symbol; methods : list method; overrides : list override; types : list type_fact;
  graph_nodes : list node; graph_edges : list edge; unresolved_edges : list unresolved; equations : list equation; bodies : list callable;
  constant_equations : list X; unexported : Y }.
Arguments FileFacts {X Y}. Arguments symbols {X Y}. Arguments methods {X Y}. Arguments overrides {X Y}. Arguments types {X Y}.
Arguments graph_nodes {X Y}. Arguments graph_edges {X Y}. Arguments unresolved_edges {X Y}. Arguments equations {X Y}. Arguments bodies {X Y}.
Arguments constant_equations {X Y}. Arguments unexported {X Y}.

(** The bytes the encoders write (StableExportHasher::write appends, state.rs:1080-1090). *)
Definition stream := list N.

(** u64::to_le_bytes and its like *)
Fixpoint le (k : nat) (n : N) : stream := match k with 0 => [] | S k' => (n mod 256)%N :: le k' (n / 256)%N end.

(** state.rs:433-447; [stable_u8] of a constant is written as the byte itself below. *)
Definition stable_bool (b : bool) : stream := [if b then 1%N else 0%N].
Definition stable_u32 (n : u32) : stream := le 4 (value n).
Definition stable_u64 (n : N) : stream := le 8 n.
(** state.rs:449-456.  Simplified: a length of 2^64 or more (the panic) is written modulo 2^64. *)
Definition stable_len (n : nat) : stream := stable_u64 (N.of_nat n).
(** state.rs:458-461 *)
Definition stable_string (s : str) : stream := stable_len (length s) ++ map value s.
(** The loops "length, then each element" (463-468 and everywhere below). *)
Definition stable_list {A} (f : A -> stream) (l : list A) : stream := stable_len (length l) ++ flat_map f l.
Definition stable_strings : list str -> stream := stable_list stable_string.
(** state.rs:470-491 and the other optional fields *)
Definition stable_option {A} (f : A -> stream) (o : option A) : stream := match o with Some x => 1%N :: f x | None => [0%N] end.

(** state.rs:508-550 *)
Definition stable_fqn (f : fqn) : stream :=
  match f with
  | Namespace p k => 1%N :: stable_strings p ++ [match k with Instance => 1%N | Singleton => 2%N end]
  | Constant p => 2%N :: stable_strings p
  | Method p m => 3%N :: stable_strings p ++ stable_string m
  | LocalVariable n => 4%N :: stable_string n
  | InstanceVariable n => 5%N :: stable_string n
  | ClassVariable n => 6%N :: stable_string n
  | GlobalVariable n => 7%N :: stable_string n
  end.

(** state.rs:552-563 *)
Definition stable_symbol_kind (k : symbol_kind) : stream :=
  [match k with SClass => 1 | SModule => 2 | SMethod => 3 | SConstant => 4 | SLocal => 5 | SInstance => 6 | SClassVar => 7 | SGlobal => 8 end%N].

(** state.rs:565-578 *)
Definition stable_param_kind (k : param_kind) : stream :=
  [match k with PRequired => 1 | POptional => 2 | PRest => 3 | PRequiredKeyword => 4 | POptionalKeyword => 5 | PKeywordRest => 6 | PBlock => 7
   | PForwarding => 8 | PAnonymousRest => 9 | PAnonymousKeywordRest => 10 end%N].

(** state.rs:580-586 *)
Definition stable_visibility (v : visibility) : stream := [match v with Public => 1 | Protected => 2 | Private => 3 end%N].

(** state.rs:596-608 *)
Definition stable_availability (a : availability) : stream :=
  match a with Available => [1%N] | Unavailable r => 2%N :: stable_string r | Absent r => 3%N :: stable_string r end.

(** state.rs:610-651 *)
Definition stable_subject (s : subject) : stream :=
  match s with
  | OfConstant f => 1%N :: stable_fqn f
  | OfLocal i n => 2%N :: stable_u32 i ++ stable_string n
  | OfInstance o n => 3%N :: stable_fqn o ++ stable_string n
  | OfClassVar o n => 4%N :: stable_fqn o ++ stable_string n
  | OfGlobal n => 5%N :: stable_string n
  | OfReturn f => 6%N :: stable_fqn f
  | OfParameter f n => 7%N :: stable_fqn f ++ stable_string n
  | OfExpression (a, b) => 8%N :: stable_u32 a ++ stable_u32 b
  end.

(** state.rs:862-873, 926-937, and 681-692 inline: the same bytes for keys and values *)
Definition stable_literal (l : literal) : stream := match l with LSymbol v => 1%N :: stable_string v | LString v => 2%N :: stable_string v end.
Definition stable_presence (p : presence) : stream := [match p with Required => 1 | Optional => 2 end%N].

(** state.rs:653-741 *)
Fixpoint stable_type (t : ruby_type) : stream :=
  match t with
  | TClass f => 1%N :: stable_fqn f
  | TModule f => 2%N :: stable_fqn f
  | TClassReference f => 3%N :: stable_fqn f
  | TModuleReference f => 4%N :: stable_fqn f
  | TLiteral l => 9%N :: stable_literal l
  | TArray l => 5%N :: stable_list stable_type l
  | THash k v => 6%N :: stable_list stable_type k ++ stable_list stable_type v
  | TShape fs rest e s =>
      10%N :: stable_list (fun f => let '(k, p, v) := f in stable_literal k ++ stable_presence p ++ stable_type v) fs ++
      stable_option (fun r => let '(k, v) := r in stable_type k ++ stable_type v) rest ++
      [match e with Exact => 1%N | Open_ => 2%N end] ++ [match s with TrackedMutable => 1%N | Frozen => 2%N end]
  | TUnion l => 7%N :: stable_list stable_type l
  | TUnknown => [8%N]
  end.

(** state.rs:875-900 *)
Fixpoint stable_template (t : template) : stream :=
  match t with
  | Concrete t => 1%N :: stable_type t
  | Receiver => [2%N]
  | Variable_ n => 3%N :: stable_string n
  | TemplateArray t => 4%N :: stable_template t
  | TemplateHash k v => 5%N :: stable_template k ++ stable_template v
  | TemplateUnion l => 6%N :: stable_list stable_template l
  | Unconstrained => [7%N]
  end.

(** state.rs:743-761 *)
Definition stable_signature (s : signature) : stream :=
  stable_strings (receiver_parameters s) ++ stable_strings (type_parameters s) ++
  stable_list (fun p => stable_param_kind (fst p) ++ stable_template (snd p)) (parameters s) ++
  stable_list stable_template (block_parameters s) ++ stable_template (block_return s) ++
  stable_bool (block_required s) ++ stable_template (return_type s).
Definition stable_signatures : list signature -> stream := stable_list stable_signature.

(** state.rs:793-860 *)
Fixpoint stable_body (b : body) : stream :=
  match b with
  | BLiteral t => 1%N :: stable_type t
  | BParameter i => 2%N :: stable_u64 (value i)
  | BCapture n => 3%N :: stable_string n
  | BArray l => 4%N :: stable_list stable_body l
  | BShape l => 5%N :: stable_list (fun f => let '(k, v) := f in stable_literal k ++ stable_body v) l
  | BCall r m a ks => 6%N :: stable_body r ++ stable_string m ++ stable_list stable_body a ++ stable_list (stable_option stable_literal) ks
  | BUnion l => 7%N :: stable_list stable_body l
  end.

(** state.rs:763-791 *)
Definition stable_body_kind (k : body_kind) : stream := [match k with BRequired => 1 | BOptional => 2 | BRest => 3 end%N].
Definition stable_summary (s : summary) : stream :=
  stable_bool (strict_arity s) ++
  stable_list (fun p => let '(n, k, d) := p in stable_string n ++ stable_body_kind k ++ stable_option stable_body d) (b_params s) ++
  stable_strings (captures s) ++ stable_body (result s) ++ [value (node_count s)].

(** state.rs:902-924 *)
Definition stable_forwarded : option (str * str) -> stream := stable_option (fun f => stable_string (fst f) ++ stable_string (snd f)).
Definition stable_yield : option (list str) -> stream := stable_option stable_strings.

(** state.rs:939-974 *)
Definition stable_provenance (p : provenance) : stream :=
  [match p with PLiteral => 1 | PAssignment => 2 | PFlow => 3 | PRbs => 4 | PYard => 5 | PRuntime => 6 | PExtension => 7 | PInferred => 8 end%N].
Definition stable_node_kind (k : node_kind) : stream := [match k with NClass => 1 | NModule => 2 end%N].
Definition stable_edge_kind (k : edge_kind) : stream :=
  [match k with Superclass => 1 | Include_ => 2 | Prepend => 3 | Extend => 4 | ExecutionContextApplication => 5 end%N].
Definition stable_edge_provenance (p : edge_provenance) : stream := [match p with Explicit => 1 | ImplicitObject => 2 end%N].

(** type_inference_outcome.rs:108-136 *)
Definition code (r : reason) : str :=
  str_of match r with
  | NoReachingAssignment => "no_reaching_assignment"
  | UnresolvedAssignmentValue => "unresolved_assignment_value"
  | AmbiguousReachingAssignment => "ambiguous_reaching_assignment"
  | UnknownReceiver => "unknown_receiver"
  | InvalidMethodName => "invalid_method_name"
  | UnresolvedMethodReturn => "unresolved_method_return"
  | IncompleteUnionMember => "incomplete_union_member"
  | UnprovenRecursiveCycle => "unproven_recursive_cycle"
  | ShapeBoundExceeded => "shape_bound_exceeded"
  | MutableShapeInvalidated => "mutable_shape_invalidated"
  | UnsupportedCallable => "unsupported_callable"
  | IncompleteBlockInput => "incomplete_block_input"
  | IncompleteBlockResult => "incomplete_block_result"
  | IncompleteGenericSubstitution => "incomplete_generic_substitution"
  | AmbiguousCallableOverload => "ambiguous_callable_overload"
  | HigherOrderBoundExceeded => "higher_order_bound_exceeded"
  | UnsupportedBlockFlow => "unsupported_block_flow"
  | UnsupportedCallableBody => "unsupported_callable_body"
  | IncompleteCallableInput => "incomplete_callable_input"
  | IncompleteCallableCapture => "incomplete_callable_capture"
  | AmbiguousCallableValue => "ambiguous_callable_value"
  | EscapedCallableValue => "escaped_callable_value"
  | CallableBodyBoundExceeded => "callable_body_bound_exceeded"
  | CallableRecursionUnsupported => "callable_recursion_unsupported"
  | UnsupportedCallableFlow => "unsupported_callable_flow"
  end%string.

(** The bodies of the nine closures of from_facts (state.rs:268-381). *)
Definition symbol_stream (s : symbol) : stream := 1%N :: stable_fqn (s_fqn s) ++ stable_symbol_kind (s_kind s).
Definition stable_param (p : param) : stream :=
  stable_string (p_name p) ++ stable_param_kind (p_kind p) ++ stable_option stable_string (p_label p) ++ stable_option stable_string (p_doc p).
Definition method_stream (m : method) : stream :=
  2%N :: stable_fqn (m_fqn m) ++ stable_fqn (m_owner m) ++ stable_strings (m_params m) ++ stable_list stable_param (m_param_facts m) ++
  stable_option stable_string (m_delegate m) ++ stable_visibility (m_visibility m) ++ stable_availability (m_availability m) ++
  stable_option stable_string (m_documentation m) ++ stable_option stable_string (m_return_label m) ++
  stable_signatures (m_signatures m) ++ stable_forwarded (m_forwarded m) ++ stable_yield (m_yield m).
Definition override_stream (o : override) : stream := 3%N :: stable_fqn (o_owner o) ++ stable_string (o_method o) ++ stable_visibility (o_visibility o).
Definition type_stream (t : type_fact) : stream := 4%N :: stable_subject (t_subject t) ++ stable_type (t_type t) ++ stable_provenance (t_provenance t).
Definition stable_base (b : base) : stream :=
  match b with Bottom => [0%N] | Proven t => 1%N :: stable_type t | UnknownBase r => 2%N :: stable_string (code r) end.
Definition equation_stream (q : equation) : stream := 8%N :: stable_fqn (q_method q) ++ stable_base (q_base q) ++ stable_list stable_fqn (q_dependencies q).
Definition callable_stream (c : callable) : stream := 9%N :: stable_fqn (k_constant c) ++ stable_summary (k_summary c).
Definition node_stream (n : node) : stream := 5%N :: stable_fqn (n_fqn n) ++ stable_node_kind (n_kind n).
Definition edge_stream (e : edge) : stream :=
  6%N :: stable_fqn (e_source e) ++ stable_fqn (e_target e) ++ stable_edge_kind (e_kind e) ++ stable_edge_provenance (e_provenance e).
Definition unresolved_stream (u : unresolved) : stream :=
  7%N :: stable_fqn (u_source u) ++ stable_strings (u_parts u) ++ stable_bool (u_absolute u) ++ stable_fqn (u_context u) ++
  stable_edge_kind (u_kind u) ++ stable_edge_provenance (u_provenance u).

(** state.rs:1055-1090: two lanes of FNV-1a. *)
Definition prime : N := 1099511628211. (* 0x100000001b3 *)
Definition mix (state byte : N) : N := (N.lxor state byte * prime mod 2 ^ 64)%N.
Definition lane (seed : N) (s : stream) : N := fold_left mix s seed.
(** state.rs:993-998 *)
Definition high_seed : N := 14695981039346656037. (* 0xcbf29ce484222325 *)
Definition low_seed : N := 9521922018520112612. (* 0x84222325cbf29ce4 *)
Definition export_hash (s : stream) : N * N := (lane high_seed s, lane low_seed s).

(** The order of the tuples (high, low) *)
Definition pair_le (a b : N * N) : bool := ((fst a <? fst b) || ((fst a =? fst b) && (snd a <=? snd b)))%N.

Section File.
Context {X Y : Type}.

(** state.rs:265-382: the streams hashed one by one, in this order *)
Definition exported_symbol (s : symbol) : bool := match s_kind s with SClass | SModule | SConstant => true | _ => false end.
Definition exported_type (t : type_fact) : bool := match t_subject t with OfConstant _ | OfReturn _ | OfParameter _ _ => true | _ => false end.
Definition export_streams (f : file_facts X Y) : list stream :=
  map symbol_stream (filter exported_symbol (symbols f)) ++ map method_stream (methods f) ++ map override_stream (overrides f) ++
  map type_stream (filter exported_type (types f)) ++ map equation_stream (equations f) ++ map callable_stream (bodies f) ++
  map node_stream (graph_nodes f) ++ map edge_stream (graph_edges f) ++ map unresolved_stream (unresolved_edges f).

(** state.rs:384-392 *)
Definition final_stream (hashes : list (N * N)) : stream :=
  stable_list (fun h => stable_u64 (fst h) ++ stable_u64 (snd h)) (sort pair_le hashes).
Definition fingerprint (f : file_facts X Y) : N * N := export_hash (final_stream (map export_hash (export_streams f))).
End File.

(** state.rs:419-431 *)
Inductive change := InitialIndex | BodyOnly | ExportsChanged.
Definition classify (previous : option (N * N)) (current : N * N) : change :=
  match previous with
  | None => InitialIndex
  | Some (h, l) => if ((h =? fst current) && (l =? snd current))%N then BodyOnly else ExportsChanged
  end.
