(** What the text in front of the cursor means for completion. *)
From Coq Require Import List NArith Bool.
From Verif Require Import Text_Lib CompText_Model.
Import ListNotations.

(** The cursor stands in [line] at the position an editor reports as [pos]: UTF-16 units. *)
Definition cursor (line : text) (pos : nat) (before after : text) : Prop :=
  line = before ++ after /\ units before = pos.
Definition ascii (t : text) : Prop := Forall (fun c => (c < 128)%N) t.

(** Letters, digits and the underscore. *)
Definition wordy (T : chars) (c : N) : Prop := alnum T c = true \/ c = 95%N.
(** What is known of the character tables. *)
Definition lawful (T : chars) : Prop :=
  (forall c, alnum T c = true -> space T c = false) /\ space T 95%N = false
  /\ space T 58%N = false /\ alnum T 58%N = false /\ alnum T 46%N = false.

(** The cursor stands after a dot, or in the name after it. *)
Definition after_dot (T : chars) (before : text) : Prop :=
  exists a w, before = a ++ 46%N :: w /\ Forall (wordy T) w.
(** The cursor stands right after two colons. *)
Definition after_colons (before : text) : Prop := exists a, before = a ++ [58%N; 58%N].
(** [w] is the whole word that ends at the cursor (empty if there is none). *)
Definition word_at (T : chars) (before w : text) : Prop :=
  exists a, before = a ++ w /\ Forall (wordy T) w
            /\ (a = [] \/ exists b c, a = b ++ [c] /\ ~ wordy T c).
(** [ns] is a name in front of the colons, with no further colons in front of it. *)
Definition name_before (T : chars) (before ns : text) : Prop :=
  exists a, before = a ++ ns ++ [58%N; 58%N] /\ ns <> [] /\ Forall (wordy T) ns
            /\ (a = [] \/ exists b c, a = b ++ [c] /\ ~ wordy T c /\ c <> 58%N).
