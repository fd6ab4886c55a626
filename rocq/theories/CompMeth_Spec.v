(** Which methods a receiver has, independently of how completion collects them. *)
From Coq Require Import List Arith.
From Verif Require Import CompConst_Model CompMeth_Model.
Import ListNotations.

Section Spec.
Variable R : Type.
Variable w : world R.

(** One owner's declaration counts if no declaration of the name there is marked absent, and, where one
    is marked unavailable, it is such a one. *)
Definition usable (l : list (mfact R)) (f : mfact R) : Prop :=
  In f l /\ (forall g, In g l -> mname R g = mname R f -> mavail R g <> Absent)
  /\ (mavail R f = Unavailable \/ forall g, In g l -> mname R g = mname R f -> mavail R g <> Unavailable).

(** Calling [n] on something of the namespace [ns] runs [f]: the nearest owner in lookup order that
    declares [n] declares it so, and [f] is its first declaration. *)
Definition calls (ns : path * side) (n : name) (f : mfact R) : Prop :=
  exists nearer a farther, chain R w ns = nearer ++ a :: farther
    /\ (forall b g, In b nearer -> usable (facts_of R w b) g -> mname R g <> n)
    /\ exists l1 l2, facts_of R w a = l1 ++ f :: l2 /\ mname R f = n /\ usable (facts_of R w a) f
         /\ forall g, In g l1 -> usable (facts_of R w a) g -> mname R g <> n.

(** The class or module whose methods a value of a type has. *)
Definition home (s : single) : option path :=
  match s with
  | ClassOf p | ModuleOf p | ClassItself p | ModuleItself p | Literal p => Some p
  | Array => Some [[65; 114; 114; 97; 121]]
  | Hash => Some [[72; 97; 115; 104]]
  | Unknown => None
  end.

(** The code of the project gives a receiver this method. *)
Definition declared (k : side) (s : single) (c : cand R) : Prop :=
  exists p f, home s = Some p /\ exists_ns R w (p, k) = true /\ calls (p, k) (cname R c) f
    /\ cret R c = mret R f /\ cparams R c = filter (fun x => negb (match x with [] => true | _ => false end)) (mparams R f).

(** The signatures for the core classes give it this method, and this is the first one of the name. *)
Definition first_of (l : list (cand R)) (c : cand R) : Prop :=
  exists l1 l2, l = l1 ++ c :: l2 /\ forall d, In d l1 -> cname R d <> cname R c.
Definition signatures (k : side) (s : single) : list (cand R) :=
  concat (map (fun n => rbs R w n k) (class_names s))
  ++ match k with Singleton => rbs R w class_name Instance ++ rbs R w module_name Instance | Instance => [] end.
Definition core (k : side) (s : single) (c : cand R) : Prop := first_of (signatures k s) c.
End Spec.
