(** How Ruby runs a method call.

    Loading a program builds a method table; a call looks the method up along the ancestors of the
    receiver.  The ancestors are fixed (the includes and superclasses come first).  From the model
    only the syntax is used: owners, places and the statements of class bodies. *)
From Coq Require Import List Arith Bool.
From Verif Require Import Dispatch_Model.
Import ListNotations.

(** * What loading does *)

(** [Def o n v p]: the owner [o] gets the method [n], written at [p], with visibility [v].
    [Set_ o n v]: the visibility of [n] in [o] becomes [v]. *)
Inductive event :=
| Def (o : owner) (n : nat) (v : vis) (p : place)
| Set_ (o : owner) (n : nat) (v : vis) (p : place).

(** [initialize] is private whatever the default visibility is. *)
Definition default_for (n : nat) (v : vis) : vis := if n =? initialize_name then Private else v.

(** [private] without arguments changes the default visibility of the rest of the body;
    [private def n] defines [n] and then makes it private. *)
Fixpoint plain_events (file : nat) (o : owner) (v : vis) (l : list plain) : list event :=
  match l with
  | [] => []
  | Mode w :: r => plain_events file o w r
  | Named w n a :: r => Set_ o n w (file, a) :: plain_events file o v r
  | Method n a :: r => Def o n (default_for n v) (file, a) :: plain_events file o v r
  | Wrapped w n a :: r =>
      Def o n (default_for n v) (file, a) :: Set_ o n w (file, a) :: plain_events file o v r
  end.

(** The default visibility does not apply to [def self.n], which is public; [class << self]
    starts with public as default. *)
Fixpoint stmt_events (file ns : nat) (v : vis) (l : list stmt) : list event :=
  match l with
  | [] => []
  | Plain (Mode w) :: r => stmt_events file ns w r
  | Plain (Named w n a) :: r => Set_ (ns, Instance) n w (file, a) :: stmt_events file ns v r
  | Plain (Method n a) :: r => Def (ns, Instance) n (default_for n v) (file, a) :: stmt_events file ns v r
  | Plain (Wrapped w n a) :: r =>
      Def (ns, Instance) n (default_for n v) (file, a) :: Set_ (ns, Instance) n w (file, a)
        :: stmt_events file ns v r
  | SelfMethod n a :: r => Def (ns, Singleton) n Public (file, a) :: stmt_events file ns v r
  | ClassNamed w n a :: r => Set_ (ns, Singleton) n w (file, a) :: stmt_events file ns v r
  | Eigen l' :: r => plain_events file (ns, Singleton) Public l' ++ stmt_events file ns v r
  end.

(** The files are loaded in the order of the list. *)
Definition events (p : list source) : list event :=
  flat_map (fun s => flat_map (fun b => stmt_events (fst s) (body_ns b) Public (body_stmts b)) (snd s)) p.

(** * The method table *)

(** An entry is a method body or only says with which visibility an inherited method is called. *)
Inductive entry := Body (p : place) (v : vis) | Forward (v : vis).
Definition table : Type := owner -> nat -> option entry.
Definition empty : table := fun _ _ => None.
Definition entry_vis (e : entry) : vis := match e with Body _ v | Forward v => v end.
Definition with_vis (e : entry) (v : vis) : entry := match e with Body p _ => Body p v | Forward _ => Forward v end.

Definition owner_eq_dec (a b : owner) : {a = b} + {a <> b}.
Proof. decide equality; [decide equality | apply Nat.eq_dec]. Defined.
Definition vis_eq_dec (a b : vis) : {a = b} + {a <> b}.
Proof. decide equality. Defined.

Definition put (t : table) (o : owner) (n : nat) (e : entry) : table :=
  fun o' n' => if owner_eq_dec o' o then if Nat.eq_dec n' n then Some e else t o' n' else t o' n'.

(** The first ancestor with an entry for [n]. *)
Fixpoint find (t : table) (l : list owner) (n : nat) : option (owner * entry) :=
  match l with
  | [] => None
  | a :: r => match t a n with Some e => Some (a, e) | None => find t r n end
  end.

(** The first ancestor with a body for [n]. *)
Fixpoint find_body (t : table) (l : list owner) (n : nat) : option (owner * place) :=
  match l with
  | [] => None
  | a :: r => match t a n with Some (Body p _) => Some (a, p) | _ => find_body t r n end
  end.

Section Ruby.
  Variable chain : owner -> list owner.

  (** A definition replaces the entry.  A visibility statement changes the entry of the class, or
      adds one that only changes the visibility of the inherited method, if it is not that
      already; without any method of that name it raises NameError. *)
  Definition apply_event (t : table) (e : event) : option table :=
    match e with
    | Def o n v p => Some (put t o n (Body p v))
    | Set_ o n v _ =>
        match t o n with
        | Some x => Some (put t o n (with_vis x v))
        | None =>
            match find t (chain o) n with
            | None => None
            | Some (_, x) => if vis_eq_dec (entry_vis x) v then Some t else Some (put t o n (Forward v))
            end
        end
    end.

  Fixpoint load (t : table) (l : list event) : option table :=
    match l with
    | [] => Some t
    | e :: r => match apply_event t e with Some t1 => load t1 r | None => None end
    end.

  (** * A call *)

  (** Private methods can be called without receiver, on [self] and through [send]; protected ones
      also where [self], whose class is [caller], is a kind of the class with the entry. *)
  Definition permitted (fm : form) (caller : option owner) (o : owner) (v : vis) : Prop :=
    match fm with
    | Bare | OnSelf | ViaSend => True
    | OnOther =>
        match v with
        | Public => True
        | Protected => exists c, caller = Some c /\ In o (chain c)
        | Private => False
        end
    end.

  (** The call of [n] on a receiver of class [o] runs the body at [p], which is the one of [a]. *)
  Definition runs (t : table) (fm : form) (caller : option owner) (o : owner) (n : nat)
    (a : owner) (p : place) : Prop :=
    exists b e, find t (chain o) n = Some (b, e) /\ permitted fm caller b (entry_vis e) /\
      find_body t (chain o) n = Some (a, p).

  (** There is a method, but it may not be called here. *)
  Definition denied (t : table) (fm : form) (caller : option owner) (o : owner) (n : nat) : Prop :=
    exists b e a p, find t (chain o) n = Some (b, e) /\ ~ permitted fm caller b (entry_vis e) /\
      find_body t (chain o) n = Some (a, p).

  (** There is no such method. *)
  Definition undefined (t : table) (o : owner) (n : nat) : Prop := find_body t (chain o) n = None.
End Ruby.

(** * The programs the positive theorems speak of, as far as the name [n] is concerned *)

Definition about (n : nat) (e : event) : Prop :=
  match e with Def _ m _ _ | Set_ _ m _ _ => m = n end.

(** Every class defines [n] at most once. *)
Definition defined_once (n : nat) (l : list event) : Prop :=
  forall l1 l2 l3 o v p w q, l <> l1 ++ Def o n v p :: l2 ++ Def o n w q :: l3.

(** No class defines [n] after having changed its visibility. *)
Definition defined_first (n : nat) (l : list event) : Prop :=
  forall l1 l2 l3 o v p w q, l <> l1 ++ Set_ o n v p :: l2 ++ Def o n w q :: l3.

(** A class that inherits [n] changes its visibility only to another one. *)
Definition changing (chain : owner -> list owner) (n : nat) (l : list event) : Prop :=
  forall l1 o v p l2 t x, l = l1 ++ Set_ o n v p :: l2 -> load chain empty l1 = Some t ->
    t o n = None -> find t (chain o) n = Some x -> entry_vis (snd x) <> v.

(** The visibility statements of a class about [n] are loaded in the order of their places. *)
Definition before (p q : place) : Prop := fst p < fst q \/ fst p = fst q /\ snd p <= snd q.
Definition ordered (n : nat) (l : list event) : Prop :=
  forall l1 l2 l3 o v p w q, l = l1 ++ Set_ o n v p :: l2 ++ Set_ o n w q :: l3 -> before p q.

(** [n] is never the name in a [private def] or [private_class_method], and no [def self.n] comes
    after a [private] or [protected] without arguments. *)
Definition plain_ok (n : nat) (s : plain) : Prop :=
  match s with Wrapped _ m _ => m <> n | _ => True end.
Fixpoint stmts_ok (n : nat) (v : vis) (l : list stmt) : Prop :=
  match l with
  | [] => True
  | Plain (Mode w) :: r => stmts_ok n w r
  | Plain s :: r => plain_ok n s /\ stmts_ok n v r
  | SelfMethod m _ :: r => (m = n -> v = Public) /\ stmts_ok n v r
  | ClassNamed _ m _ :: r => m <> n /\ stmts_ok n v r
  | Eigen l' :: r => Forall (plain_ok n) l' /\ stmts_ok n v r
  end.
Definition written_plainly (n : nat) (p : list source) : Prop :=
  forall s b, In s p -> In b (snd s) -> stmts_ok n Public (body_stmts b).

(** Neither [initialize] nor [new]. *)
Definition ordinary (n : nat) : Prop := n <> initialize_name /\ n <> new_name.

(** The part of a chain after the first occurrence of an owner. *)
Fixpoint beyond (o : owner) (l : list owner) : list owner :=
  match l with
  | [] => []
  | a :: r => if owner_eq_dec a o then r else beyond o r
  end.

(** All of these together. *)
Definition settled (chain : owner -> list owner) (n : nat) (p : list source) : Prop :=
  ordinary n /\ written_plainly n p /\ defined_once n (events p) /\ defined_first n (events p) /\
  changing chain n (events p) /\ ordered n (events p).

(** [super] in a method [n] of [o], for a receiver of class [r], runs the next body. *)
Definition super_runs (chain : owner -> list owner) (t : table) (r o : owner) (n : nat)
  (a : owner) (p : place) : Prop :=
  find_body t (beyond o (chain r)) n = Some (a, p).
