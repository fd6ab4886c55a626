(** Model of crates/ruby-analysis/src/inference/method/recursive.rs: solving method return equations.

    Simplifications: a method name is a number (see Scc_Model.v); an [UnknownReason] is its position in the
    enum (core/type_inference_outcome.rs 22-76); constant dependencies have already been folded into the
    base by [with_resolved_constant_types]; telemetry counters do not overflow; [None] is a panic. *)
From Coq Require Import List Arith Bool.
From Verif Require Import Types_Model Scc_Model.
Import ListNotations.

(** core/ruby_type.rs 205-233 *)
Fixpoint nested_union_contains_unknown (t : ty) : bool :=
  match t with
  | TUnknown => false
  | TUnion l => existsb (fun m => is_unknown m || nested_union_contains_unknown m) l
  | TArray l => existsb nested_union_contains_unknown l
  | THash k v => existsb nested_union_contains_unknown k || existsb nested_union_contains_unknown v
  | TShape fs rest _ _ _ =>
      existsb (fun f => match f with (_, v, _) => nested_union_contains_unknown v end) fs
      || match rest with Some (a, b) => nested_union_contains_unknown a || nested_union_contains_unknown b | None => false end
  | _ => false
  end.
(** core/ruby_type.rs 144-171 *)
Fixpoint union_members_contain_unknown (t : ty) : bool :=
  match t with
  | TUnknown => true
  | TUnion l => existsb (fun m => is_unknown m || union_members_contain_unknown m) l
  | TArray l => existsb nested_union_contains_unknown l
  | THash k v => existsb nested_union_contains_unknown k || existsb nested_union_contains_unknown v
  | TShape fs rest _ _ _ =>
      existsb (fun f => match f with (_, v, _) => nested_union_contains_unknown v end) fs
      || match rest with Some (a, b) => nested_union_contains_unknown a || nested_union_contains_unknown b | None => false end
  | _ => false
  end.

Definition unresolved_assignment_value := 1.
Definition unresolved_method_return := 5.
Definition unproven_recursive_cycle := 7.

(** enum Approximation, recursive.rs 18-23, and enum MethodReturnBase, core/method_return_equation.rs 16-21 *)
Inductive approx := Bottom | Proven (t : ty) | Unknown (reason : nat).
(** struct MethodReturnEquation, core/method_return_equation.rs 27-33 *)
Record equation := mkE { eq_method : nat; eq_base : approx; eq_deps : list nat }.
(** TypeInferenceOutcome, core/type_inference_outcome.rs 565-596 *)
Inductive outcome := OProven (t : ty) | OUnknown (reason : nat).
Definition outcome_proven (t : ty) : option outcome :=
  if union_members_contain_unknown t then None else Some (OProven t).

(** MethodReturnEquation::proven, core/method_return_equation.rs 56-65 *)
Definition equation_proven (m : nat) (t : ty) : option equation :=
  if union_members_contain_unknown t then None else Some (mkE m (Proven t) []).
(** from_ruby_type, 67-81 *)
Definition from_ruby_type (m : nat) (t : ty) (r : nat) : option equation :=
  if union_members_contain_unknown t then Some (mkE m (Unknown r) []) else equation_proven m t.
(** with_resolved_constant_types, 99-140: the equation with its base, given the types its constant
    dependencies resolved to ([resolved = []] is an equation without constant dependencies) *)
Fixpoint resolved_members (l : list (option ty)) : option (list ty) :=
  match l with
  | [] => Some []
  | None :: _ => None
  | Some t :: r => if union_members_contain_unknown t then None else option_map (cons t) (resolved_members r)
  end.
Definition with_resolved_constant_types (e : equation) (resolved : list (option ty)) : equation :=
  match resolved with
  | [] => e
  | _ =>
      match eq_base e with
      | Unknown r => e
      | b =>
          match resolved_members resolved with
          | None => mkE (eq_method e) (Unknown unresolved_assignment_value) (eq_deps e)
          | Some ts =>
              let members := match b with Proven t => t :: ts | _ => ts end in
              mkE (eq_method e) (match members with [] => Bottom | _ => Proven (union members) end) (eq_deps e)
          end
      end
  end.

(** into_outcome, 26-36 *)
Definition into_outcome (a : approx) (recursive : bool) : option outcome :=
  match a with
  | Proven t => outcome_proven t
  | Bottom => Some (OUnknown (if recursive then unproven_recursive_cycle else unresolved_method_return))
  | Unknown r => Some (OUnknown (if recursive then unproven_recursive_cycle else r))
  end.

(** [grouped], lines 60-66: the definitions of one method, in the order given, and the sorted keys *)
Definition defs (eqs : list equation) (m : nat) : list equation := filter (fun e => eq_method e =? m) eqs.
Fixpoint ndedup (l : list nat) : list nat :=
  match l with
  | [] => []
  | x :: r => match r with y :: _ => if x =? y then ndedup r else x :: ndedup r | [] => [x] end
  end.
Definition to_set (l : list nat) : list nat := ndedup (nsort l).
Definition keys (eqs : list equation) : list nat := to_set (map eq_method eqs).
(** [graph], lines 68-79 *)
Definition graph_of (eqs : list equation) : graph :=
  map (fun m => (m, to_set (filter (fun d => mem d (keys eqs)) (flat_map eq_deps (defs eqs m))))) (keys eqs).

(** the approximation of one dependency, lines 205-222 *)
Definition look (comp : list nat) (approximations : list (nat * approx)) (solved : list (nat * outcome)) (d : nat) : option approx :=
  if mem d comp then get approximations d
  else match get solved d with
       | Some (OProven t) => Some (Proven t)
       | Some (OUnknown r) => Some (Unknown r)
       | None => Some (Unknown unresolved_method_return)
       end.
(** the terms of one method in evaluation order, lines 197-204 *)
Definition terms (lk : nat -> option approx) (ds : list equation) : list (option approx) :=
  flat_map (fun e => Some (eq_base e) :: map lk (eq_deps e)) ds.
(** collecting the alternatives, with the early returns, lines 195-230 *)
Fixpoint collect (l : list (option approx)) (alternatives : list ty) : option (nat + list ty) :=
  match l with
  | [] => Some (inr alternatives)
  | None :: _ => None
  | Some Bottom :: r => collect r alternatives
  | Some (Proven t) :: r => collect r (alternatives ++ [t])
  | Some (Unknown reason) :: _ => Some (inl reason)
  end.
(** evaluate_method, lines 185-242 *)
Definition evaluate (eqs : list equation) (comp : list nat) (approximations : list (nat * approx))
    (solved : list (nat * outcome)) (m : nat) : option approx :=
  match defs eqs m with
  | [] => None
  | ds =>
      match collect (terms (look comp approximations solved) ds) [] with
      | None => None
      | Some (inl r) => Some (Unknown r)
      | Some (inr []) => Some Bottom
      | Some (inr alternatives) =>
          let joined := union alternatives in
          Some (if is_unknown joined then Unknown unresolved_method_return else Proven joined)
      end
  end.

Definition approx_eqb (a b : approx) : bool :=
  match a, b with
  | Bottom, Bottom => true
  | Proven s, Proven t => eqb s t
  | Unknown r, Unknown q => r =? q
  | _, _ => false
  end.
(** one synchronous pass, lines 129-137 *)
Fixpoint pass (ev : nat -> option approx) (comp : list nat) : option (list (nat * approx)) :=
  match comp with
  | [] => Some []
  | m :: r =>
      match ev m, pass ev r with
      | Some a, Some l => Some ((m, a) :: l)
      | _, _ => None
      end
  end.
Fixpoint same (a b : list (nat * approx)) : bool :=
  match a, b with
  | [], [] => true
  | (m, x) :: a, (n, y) :: b => (m =? n) && approx_eqb x y && same a b
  | _, _ => false
  end.
Definition max_iterations := 8.                                   (* line 16 *)
(** the iteration, lines 124-144: whether it converged, the approximations and the passes made *)
Fixpoint iterate (n : nat) (ev : list (nat * approx) -> nat -> option approx) (comp : list nat)
    (a : list (nat * approx)) : option (bool * list (nat * approx) * nat) :=
  match n with
  | O => Some (false, a, 0)
  | S n =>
      match pass (ev a) comp with
      | None => None
      | Some b => if same b a then Some (true, b, 1)
                  else match iterate n ev comp b with Some (c, r, k) => Some (c, r, S k) | None => None end
      end
  end.

(** the counters of InferenceTelemetry that the solver updates, core/type_inference_outcome.rs 236-245 *)
Record telemetry := mkTel { recursive_components : nat; recursive_methods : nat; solver_iterations : nat;
  solver_bound_hits : nat }.

(** publishing one component, lines 153-165 *)
Fixpoint publish (converged : bool) (a : list (nat * approx)) (comp : list nat) (solved : list (nat * outcome))
  : option (list (nat * outcome)) :=
  match comp with
  | [] => Some solved
  | m :: r =>
      match (if converged then match get a m with Some x => into_outcome x true | None => None end
             else Some (OUnknown unproven_recursive_cycle)) with
      | Some o => publish converged a r (put m o solved)
      | None => None
      end
  end.
(** one component, lines 85-166 *)
Definition is_recursive (g : graph) (comp : list nat) : bool :=
  (1 <? length comp) || existsb (fun m => match get g m with Some ds => mem m ds | None => false end) comp.
Definition solve_component (eqs : list equation) (g : graph) (comp : list nat)
    (s : list (nat * outcome) * telemetry) : option (list (nat * outcome) * telemetry) :=
  let (solved, tel) := s in
  if is_recursive g comp then
    match iterate max_iterations (fun a => evaluate eqs comp a solved) comp (map (fun m => (m, Bottom)) comp) with
    | None => None
    | Some (converged, a, k) =>
        let tel := mkTel (S (recursive_components tel)) (recursive_methods tel + length comp)
                         (solver_iterations tel + k)
                         (if converged then solver_bound_hits tel else S (solver_bound_hits tel)) in
        option_map (fun so => (so, tel)) (publish converged a comp solved)
    end
  else
    match comp with
    | [] => None
    | m :: _ =>
        match evaluate eqs comp [] solved m with
        | Some a => option_map (fun o => (put m o solved, tel)) (into_outcome a false)
        | None => None
        end
    end.
Fixpoint solve_components (eqs : list equation) (g : graph) (cs : list (list nat))
    (s : list (nat * outcome) * telemetry) : option (list (nat * outcome) * telemetry) :=
  match cs with
  | [] => Some s
  | c :: r => match solve_component eqs g c s with Some s' => solve_components eqs g r s' | None => None end
  end.
(** solve_method_return_equations_with_telemetry, lines 57-175 *)
Definition solve (eqs : list equation) : option (list (nat * outcome) * telemetry) :=
  match scc (graph_of eqs) with
  | None => None
  | Some cs => solve_components eqs (graph_of eqs) cs ([], mkTel 0 0 0 0)
  end.
(** [outcomes], the published map: what the solver says about one method *)
Definition outcome_of (eqs : list equation) (m : nat) : option outcome :=
  match solve eqs with Some (so, _) => get so m | None => None end.
