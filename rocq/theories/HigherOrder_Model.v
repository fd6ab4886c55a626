(** Calls with a block, solved from the signature of the method.

    /repo/crates/ruby-analysis/src/inference/higher_order.rs 18-30, 33-135, 225-340, 380-436,
    535-800; /repo/crates/ruby-analysis/src/core/callable_signature.rs 21-60.

    Modelled: prepare_callable_set and finish, with all they call.  Names are numbers.  The
    reasons for a failure are left out: [Failed] is any of them, [Panic] the panics.  Left
    out: finishing with the state of a mutated block parameter, with a method name and with
    a known proc; and how signatures come from RBS. *)
From Coq Require Import List Arith Bool.
From Verif Require Import Types_Model.
Import ListNotations.

Inductive out (X : Type) := Fine (x : X) | Failed | Panic.
Arguments Fine {X}. Arguments Failed {X}. Arguments Panic {X}.
(** The question mark of Rust. *)
Definition andthen {X Y} (o : out X) (f : X -> out Y) : out Y :=
  match o with Fine x => f x | Failed => Failed | Panic => Panic end.
(** collect into a Result, and loops that leave at the first error. *)
Fixpoint all_fine {X} (l : list (out X)) : out (list X) :=
  match l with
  | [] => Fine []
  | o :: l => andthen o (fun x => andthen (all_fine l) (fun r => Fine (x :: r)))
  end.

(** CallableTypeTemplate, callable_signature.rs 21-32. *)
Inductive template :=
| Concrete (x : ty)
| Receiver
| Variable_ (n : nat)
| ArrayOf (e : template)
| HashOf (k v : template)
| OneOf (l : list template)
| Unconstrained.

Inductive param_kind := Required | Optional | Rest | OtherKind.
Definition kind_eqb (a b : param_kind) : bool :=
  match a, b with
  | Required, Required | Optional, Optional | Rest, Rest | OtherKind, OtherKind => true
  | _, _ => false
  end.
(** CallableSignature. *)
Record signature := {
  receiver_parameters : list nat; type_parameters : list nat;
  parameters : list (param_kind * template);
  block_parameters : list template; block_return : template; return_template : template }.

(** The bounds, 18-23. *)
Definition max_overloads := 8. Definition max_type_variables := 8.
Definition max_block_parameters := 4. Definition max_iterations := 16.
Definition max_template_depth := 8. Definition max_union_variants := 8.

(** exceeds_union_bound, 780-800. *)
Fixpoint exceeds (x : ty) : bool :=
  match x with
  | TUnion l => (max_union_variants <? length l) || existsb exceeds l
  | TArray l => existsb exceeds l
  | THash k v => existsb exceeds k || existsb exceeds v
  | TShape fs _ _ _ _ => existsb (fun f => match f with (_, v, _) => exceeds v end) fs
  | _ => false
  end.

(** The substitutions, a BTreeMap, and the count of bindings made. *)
Definition substs : Type := list (nat * ty).
Definition look (s : substs) (n : nat) : option ty := option_map snd (find (fun e => fst e =? n) s).
Definition state : Type := substs * nat.

(** bind_variable, 716-743. *)
Definition bind (n : nat) (a : ty) (st : state) : out state :=
  let (s, i) := st in
  if contains_unknown a then Failed
  else if max_iterations <? S i then Failed
  else
    let next := match look s n with None => a | Some x => union [x; a] end in
    if exceeds next then Failed else Fine ((n, next) :: s, S i).

Section Solver.
(** RubyType::is_compatible_with. *)
Variable compatible : ty -> ty -> bool.

Definition variables (l : list template) : list nat :=
  flat_map (fun t => match t with Variable_ n => [n] | _ => [] end) l.
Definition matches (l : list template) (a : ty) : bool :=
  existsb (fun t => match t with
                    | Concrete e => compatible e a
                    | Unconstrained => true
                    | _ => false
                    end) l.
(** constrain_union, 659-714. *)
Definition constrain_union (l : list template) (a : ty) (st : state) : out state :=
  if 1 <? length (variables l) then Failed
  else
    let unmatched := filter (fun x => negb (matches l x)) (members a) in
    match variables l with
    | n :: _ => match unmatched with [] => Fine st | _ => bind n (union unmatched) st end
    | [] => match unmatched with [] => Fine st | _ => Failed end
    end.

(** constrain_template, 583-657. *)
Fixpoint constrain (t : template) (a : ty) (st : state) : out state :=
  if contains_unknown a then Failed
  else
    match t with
    | Variable_ n => bind n a st
    | Receiver => Panic
    | Concrete e => if compatible e a then Fine st else Failed
    | ArrayOf e => match a with TArray l => constrain e (union l) st | _ => Failed end
    | HashOf k v =>
        match a with
        | TShape fs rest ex _ _ =>
            match generic_hash fs rest ex with
            | Some (THash ks vs) =>
                andthen (constrain k (union ks) st) (fun st => constrain v (union vs) st)
            | _ => Panic
            end
        | THash ks vs => andthen (constrain k (union ks) st) (fun st => constrain v (union vs) st)
        | _ => Failed
        end
    | OneOf l => constrain_union l a st
    | Unconstrained => Fine st
    end.

(** resolve_template, 745-778. *)
Fixpoint resolve (s : substs) (depth : nat) (t : template) : out ty :=
  if max_template_depth <? depth then Failed
  else
    match t with
    | Concrete x => Fine x
    | Receiver => Panic
    | Variable_ n => match look s n with Some x => Fine x | None => Failed end
    | ArrayOf e => andthen (resolve s (S depth) e) (fun x => Fine (TArray [x]))
    | HashOf k v => andthen (resolve s (S depth) k) (fun x =>
                    andthen (resolve s (S depth) v) (fun y => Fine (THash [x] [y])))
    | OneOf l => if max_union_variants <? length l then Failed
                 else andthen (all_fine (map (resolve s (S depth)) l)) (fun r => Fine (union r))
    | Unconstrained => Failed
    end.

(** instantiate_receiver_template, 313-337. *)
Fixpoint instantiate (receiver : option ty) (t : template) : out template :=
  match t with
  | Receiver => match receiver with
                | Some x => if contains_unknown x then Failed else Fine (Concrete x)
                | None => Failed
                end
  | ArrayOf e => andthen (instantiate receiver e) (fun e => Fine (ArrayOf e))
  | HashOf k v => andthen (instantiate receiver k) (fun k =>
                  andthen (instantiate receiver v) (fun v => Fine (HashOf k v)))
  | OneOf l => andthen (all_fine (map (instantiate receiver) l)) (fun l => Fine (OneOf l))
  | Concrete _ | Variable_ _ | Unconstrained => Fine t
  end.
(** instantiate_receiver_signature, 298-311. *)
Definition instantiate_signature (receiver : option ty) (g : signature) : out signature :=
  andthen (all_fine (map (fun p => andthen (instantiate receiver (snd p)) (fun t => Fine (fst p, t)))
                         (parameters g))) (fun ps =>
  andthen (all_fine (map (instantiate receiver) (block_parameters g))) (fun bs =>
  andthen (instantiate receiver (block_return g)) (fun b =>
  andthen (instantiate receiver (return_template g)) (fun r =>
  Fine {| receiver_parameters := receiver_parameters g; type_parameters := type_parameters g;
          parameters := ps; block_parameters := bs; block_return := b; return_template := r |})))).

(** validate_template_depth, 409-436. *)
Fixpoint shallow (depth : nat) (t : template) : bool :=
  (depth <=? max_template_depth) &&
  match t with
  | ArrayOf e => shallow (S depth) e
  | HashOf k v => shallow (S depth) k && shallow (S depth) v
  | OneOf l => (length l <=? max_union_variants) && forallb (shallow (S depth)) l
  | _ => true
  end.
Fixpoint distinct (l : list nat) : bool :=
  match l with [] => true | x :: l => negb (existsb (Nat.eqb x) l) && distinct l end.
(** validate_signature, 380-407. *)
Definition valid (g : signature) : bool :=
  (length (type_parameters g) <=? max_type_variables)
  && (length (block_parameters g) <=? max_block_parameters)
  && distinct (type_parameters g)
  && (length (receiver_parameters g) <=? length (type_parameters g))
  && forallb (fun p => fst p =? snd p) (combine (receiver_parameters g) (type_parameters g))
  && shallow 1 (return_template g) && shallow 1 (block_return g)
  && forallb (fun p => shallow 1 (snd p)) (parameters g)
  && forallb (shallow 1) (block_parameters g).

(** argument_count_matches, 535-549. *)
Definition count (k : param_kind) (g : signature) : nat :=
  length (filter (fun p => kind_eqb (fst p) k) (parameters g)).
Definition count_matches (g : signature) (n : nat) : bool :=
  (count Required g <=? n) && ((0 <? count Rest g) || (n <=? count Required g + count Optional g)).

(** The parameter of an argument, 557-574: the one at its place, else the first rest
    parameter. *)
Definition positional (g : signature) : list (param_kind * template) :=
  filter (fun p => match fst p with OtherKind => false | _ => true end) (parameters g).
Definition parameter_of (g : signature) (i : nat) : option template :=
  match nth_error (positional g) i with
  | Some p => Some (snd p)
  | None => option_map snd (find (fun p => kind_eqb (fst p) Rest) (positional g))
  end.
(** constrain_arguments, 551-581. *)
Fixpoint constrain_arguments (g : signature) (i : nat) (args : list ty) (st : state) : out state :=
  match args with
  | [] => Fine st
  | a :: args =>
      match parameter_of g i with
      | None => Failed
      | Some t => andthen (constrain t a st) (constrain_arguments g (S i) args)
      end
  end.
Fixpoint bind_receiver (g : signature) (l : list (nat * ty)) (st : state) : out state :=
  match l with
  | [] => Fine st
  | (n, x) :: l =>
      if existsb (Nat.eqb n) (type_parameters g) then andthen (bind n x st) (bind_receiver g l)
      else bind_receiver g l st
  end.

Fixpoint list_eqb (a b : list ty) : bool :=
  match a, b with
  | [], [] => true
  | x :: a, y :: b => eqb x y && list_eqb a b
  | _, _ => false
  end.

(** One turn of the loop of prepare_callable_set, 247-288: the signature, its state and the
    types of the block's parameters. *)
Definition candidate : Type := signature * state.
Definition prepare_one (receiver : option ty) (bindings : list (nat * ty)) (args : list ty)
    (g : signature) : out (candidate * list ty) :=
  andthen (instantiate_signature receiver g) (fun g =>
  if valid g then
    andthen (bind_receiver g bindings ([], 0)) (fun st =>
    andthen (constrain_arguments g 0 args st) (fun st =>
    andthen (all_fine (map (resolve (fst st) 1) (block_parameters g))) (fun bs =>
    if existsb contains_unknown bs then Failed else Fine ((g, st), bs))))
  else Failed).
Fixpoint prepare_all (receiver : option ty) (bindings : list (nat * ty)) (args : list ty)
    (common : option (list ty)) (l : list signature) : out (list candidate * option (list ty)) :=
  match l with
  | [] => Fine ([], common)
  | g :: l =>
      andthen (prepare_one receiver bindings args g) (fun p =>
      match common with
      | Some c => if list_eqb c (snd p)
                  then andthen (prepare_all receiver bindings args common l)
                         (fun r => Fine (fst p :: fst r, snd r))
                  else Failed
      | None => andthen (prepare_all receiver bindings args (Some (snd p)) l)
                  (fun r => Fine (fst p :: fst r, snd r))
      end)
  end.
(** prepare_callable_set, 225-296. *)
Definition prepare (receiver : option ty) (sigs : list signature) (bindings : list (nat * ty))
    (args : list ty) : out (list candidate * list ty) :=
  let applicable := filter (fun g => count_matches g (length args)) sigs in
  match applicable with
  | [] => Failed
  | _ =>
      if max_overloads <? length applicable then Failed
      else andthen (prepare_all receiver bindings args None applicable) (fun r =>
           match snd r with Some bs => Fine (fst r, bs) | None => Panic end)
  end.

(** One turn of the loop of finish, 82-123. *)
Definition finish_one (block : ty) (c : candidate) : out ty :=
  andthen (constrain (block_return (fst c)) block (snd c)) (fun st =>
  andthen (resolve (fst st) 1 (return_template (fst c))) (fun x =>
  if contains_unknown x then Failed else Fine x)).
(** finish_with_block_state without block state, 62-135. *)
Definition finish (set : list candidate * list ty) (block : ty) : out ty :=
  if contains_unknown block then Failed
  else if exceeds block then Failed
  else
    andthen (all_fine (map (finish_one block) (fst set))) (fun results =>
    match results with
    | [] => Failed
    | x :: r => if forallb (eqb x) r then Fine x else Failed
    end).
End Solver.
