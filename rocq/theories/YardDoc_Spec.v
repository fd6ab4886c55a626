(** Which comment documents a method, what its tags say, and which type the cursor is on. *)
From Coq Require Import List Arith Bool.
From Verif Require Import Names_Model Yard_Model Yard_Spec YardDoc_Model.
Import ListNotations.

(** Lines of blanks, and lines whose first character but blanks is a hash. *)
Definition blank (l : text) : bool := forallb space l.
Fixpoint comment (l : text) : bool :=
  match l with [] => false | c :: r => if space c then comment r else c =? 35 end.
(** [block] is all the lines of comments and blanks at the end of [above ++ block]. *)
Definition last_block (above block : list text) : Prop :=
  Forall (fun l => comment l = true \/ blank l = true) block /\
  (above = [] \/ exists r l, above = r ++ [l] /\ comment l = false /\ blank l = false).
(** Its comments, each with its number. *)
Definition comments (above block : list text) : list (nat * text) :=
  filter (fun p => comment (snd p)) (combine (seq (length above) (length block)) block).

(** A text without blanks at its ends. *)
Definition trimmed (t : text) : Prop := t = [] \/ (space (hd 0 t) = false /\ space (last t 0) = false).
(** [d] is what [rest] says, without the blanks around it. *)
Definition says (rest : text) (d : option text) : Prop :=
  (d = None /\ blank rest = true) \/
  exists a t b, d = Some t /\ rest = a ++ t ++ b /\ blank a = true /\ blank b = true /\ t <> [] /\ trimmed t.

(** Letters are no blanks and no brackets. *)
Definition letters (word : nat -> bool) : Prop := forall c, word c = true -> space c = false /\ c <> 91.
Definition blanks (t : text) : Prop := t <> [] /\ blank t = true.
Definition named (word : nat -> bool) (t : text) : Prop := t <> [] /\ forallb word t = true.
Definition types_in (t : text) : Prop := t <> [] /\ ~ In 93 t.

(** Texts with a blank between them. *)
Definition spaced (first : text) (others : list text) : text := first ++ concat (map (fun t => 32 :: t) others).
Definition is_tag (i : info) : bool := match content i with 64 :: _ => true | _ => false end.

(** The name a written type begins with. *)
Definition head_name (w : written) : text :=
  match w with WArray _ => w_Array | WPair _ _ | WMap _ _ => w_Hash | _ => write w end.
