(** What stands in front of a dot. *)
From Coq Require Import List Arith NArith.
From Verif Require Import Text_Lib CompRecv_Model.
Import ListNotations.
Open Scope N_scope.

(** What the character tables of the standard library satisfy. *)
Record lawful (T : tables) : Prop := {
  newline_space : space T 10 = true;
  blank_space : space T 32 = true;
  tab_space : space T 9 = true;
  alnum_space : forall c, alnum T c = true -> space T c = false;
  marks_space : forall c, In c [95; 64; 36; 46; 58; 61; 40; 44; 34; 39; 91; 93; 123; 125; 110; 101; 119] -> space T c = false;
  marks_alnum : forall c, In c [95; 64; 36; 46; 58; 61; 40; 41; 44; 34; 39; 91; 93; 123; 125; 10] -> alnum T c = false;
  upper_alnum : forall c, upper T c = true -> alnum T c = true /\ digit T c = false /\ lower T c = false;
  lower_alnum : forall c, lower T c = true -> alnum T c = true /\ digit T c = false /\ upper T c = false;
  digit_alnum : forall c, digit T c = true -> alnum T c = true;
  underscore_case : upper T 95 = false /\ lower T 95 = false /\ digit T 95 = false }.

(** A letter, a digit or an underscore; and the marks of variables. *)
Definition wordy (T : tables) (c : N) : Prop := alnum T c = true \/ c = 95.
Definition namy (T : tables) (c : N) : Prop := wordy T c \/ c = 64 \/ c = 36.
Definition blank (T : tables) (t : text) : Prop := Forall (fun c => space T c = true /\ c <> 10) t.

(** Up to the cursor the text is [pre], then [w], perhaps blanks, a dot, and the name being typed. *)
Definition in_front (T : tables) (before pre w : text) : Prop :=
  exists sp partial, before = pre ++ w ++ sp ++ 46 :: partial /\ blank T sp
    /\ Forall (fun c => c <> 10 /\ c <> 46) partial.
(** [w] is not the rest of a longer name. *)
Definition whole (T : tables) (pre : text) : Prop := pre = [] \/ exists a c, pre = a ++ [c] /\ ~ namy T c.

(** The last piece of [pre], cut at blanks, commas and opening parentheses, begins with a colon. *)
Definition separator (T : tables) (c : N) : Prop := space T c = true \/ c = 40 \/ c = 44.
Definition after_colon (T : tables) (pre : text) : Prop :=
  exists a b, pre = a ++ 58 :: b /\ (a = [] \/ exists a' s, a = a' ++ [s] /\ separator T s)
    /\ Forall (fun c => ~ separator T c) b.

(** A name as variables and methods have it, of which not every character is an underscore. *)
Definition variable (T : tables) (w : text) : Prop :=
  exists c r, w = c :: r /\ (lower T c = true \/ c = 95) /\ Forall (wordy T) r
    /\ exists d, In d w /\ d <> 95 /\ digit T d = false.
Definition constant_name (T : tables) (w : text) : Prop :=
  exists c r, w = c :: r /\ upper T c = true /\ Forall (wordy T) r /\ constant T w = true.
Definition number (T : tables) (w : text) : Prop :=
  exists c r, w = c :: r /\ digit T c = true /\ Forall (fun d => digit T d = true \/ d = 95) r.

(** The line says [v = A::B.new], perhaps with arguments. *)
Fixpoint joined (p : list text) : text :=
  match p with [] => [] | [a] => a | a :: r => a ++ [58; 58] ++ joined r end.
Definition constructs (T : tables) (line v : text) (path : list text) : Prop :=
  exists s1 s2 s3 s4 args, line = s1 ++ v ++ s2 ++ [61] ++ s3 ++ joined path ++ [46; 110; 101; 119] ++ args ++ s4
    /\ blank T s1 /\ Forall (fun c => c = 32 \/ c = 9) s2 /\ blank T s3 /\ blank T s4
    /\ (args = [] \/ exists r, args = 40 :: r \/ args = 32 :: r)
    /\ path <> [] /\ forall a, In a path -> constant_name T a /\ Forall (fun c => c <> 10) a.
(** A text of whole lines. *)
Definition unlines (ls : list text) : text := concat (map (fun l => l ++ [10]) ls).
Definition is_line (l : text) : Prop := Forall (fun c => c <> 10) l /\ forall a, l <> a ++ [13].
(** The line begins with [v], blanks aside, and a blank or an equals sign comes next. *)
Definition may_assign (T : tables) (line v : text) : Prop :=
  exists s c r, line = s ++ v ++ c :: r /\ blank T s /\ (c = 32 \/ c = 9 \/ c = 61).
