(** Vocabulary for C20, C21 and C53: what callers did and were told, without reference to the
    controller's internal sets. *)
From Coq Require Import List Arith Bool.
From Verif Require Import Navigation_Model.
Import ListNotations.

Section Unicode.
Variable alnum : nat -> bool.

(** The controller after the calls [h], and the answer it then gives to [o]. *)
Definition after (h : list op) : state := run alnum init h.
Definition answer (h : list op) (o : op) : out := snd (step alnum (after h) o).

(** Somewhere in [h] the call [o] was made and answered [r]. *)
Definition happened (h : list op) (o : op) (r : out) : Prop :=
  exists h1 h2, h = h1 ++ o :: h2 /\ answer h1 o = r.

(** Keys of a stage that were accepted and are neither processed nor dropped. *)
Definition outstanding (s : state) (st : stage) : list key := pending (get s st) ++ in_flight (get s st).

(** The keys a coordinator holds, computed from what it was handed and what it gave back. *)
Definition hold := (nat * stage * key)%type.
Definition is_stage (a b : stage) : bool :=
  match a, b with Project, Project | Dependency, Dependency => true | _, _ => false end.
Definition track (held : list hold) (e : op * out) : list hold :=
  match e with
  | (ODrain g st, Keys ks) => map (fun k => (g, st, k)) ks ++ held
  | (OClaim g st k, Bool true) => (g, st, k) :: held
  | (OComplete g st ks, _) =>
      filter (fun x => negb (Nat.eqb (fst (fst x)) g && is_stage (snd (fst x)) st && mem (snd x) ks)) held
  | (OCompleteStage g st, _) =>
      filter (fun x => negb (Nat.eqb (fst (fst x)) g && is_stage (snd (fst x)) st)) held
  | _ => held
  end.
Definition events (h : list op) : list (op * out) := combine h (outputs alnum init h).
Definition held (h : list op) : list hold := fold_left track (events h) [].

(** The calling protocol: generations increase, names are normalized, and a coordinator gives
    back, once each, keys that it was handed and whose stage it has not declared complete. *)
Definition legal_call (h : list op) (o : op) : Prop :=
  match o with
  | OBegin g => 0 < g /\ forall g', happened h (OBegin g') Done -> g' < g
  | ORequest _ _ k | OClaim _ _ k => valid_key alnum k = true
  | OComplete g st ks => NoDup ks /\ forall k, In k ks -> In (g, st, k) (held h)
  | _ => True
  end.
Definition legal (h : list op) : Prop :=
  forall h1 o h2, h = h1 ++ o :: h2 -> legal_call h1 o.

(** [n] consecutive steps of ticket [i] *)
Fixpoint resume (s : state) (i n : nat) : state :=
  match n with 0 => s | S m => resume (fst (step alnum s (OTicket i))) i m end.
End Unicode.
