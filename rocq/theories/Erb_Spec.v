(** Templates as their tags define them: [<% code %>], [<%= code %>], [<%== code %>], [<%- code -%>],
    comments [<%# .. %>] and escaped tags [<%% .. %>]; each tag ends at the next [%>]. *)
From Coq Require Import List Arith NArith.
From Verif Require Import Erb_Model.
Import ListNotations.

Definition contains (x y : N) (l : list N) : Prop := exists p r, l = p ++ x :: y :: r.

Inductive marker : list N -> Prop :=
| plain : marker []
| dash : marker [DASH]
| output : marker [EQ]
| raw : marker [EQ; EQ].

(** [m ++ code ++ trim] is what stands between [<%] and [%>]: the longest marker, then the code, then
    a trim mark. *)
Definition splits (m code trim : list N) : Prop :=
  marker m /\ (trim = [] \/ trim = [DASH]) /\
  (m = [] -> hd 0%N (code ++ trim) <> DASH /\ hd 0%N (code ++ trim) <> EQ /\
             hd 0%N (code ++ trim) <> PCT /\ hd 0%N (code ++ trim) <> HASH) /\
  (m = [EQ] -> hd 0%N (code ++ trim) <> EQ) /\
  (trim = [] -> last code 0%N <> DASH).

(** A tag with the marker and the code it has, if any. *)
Inductive tag : list N -> option (list N * list N) -> Prop :=
| comment body : ~ contains PCT GT body -> tag (LT :: PCT :: HASH :: body ++ [PCT; GT]) None
| escaped body : ~ contains PCT GT body -> tag (LT :: PCT :: PCT :: body ++ [PCT; GT]) None
| executable m code trim : splits m code trim -> m ++ code ++ trim <> [] -> ~ contains PCT GT (m ++ code ++ trim) ->
    tag (LT :: PCT :: (m ++ code ++ trim) ++ [PCT; GT]) (Some (m, code)).

(** [template o s ms rs u]: the template [s], at offset [o], has tags with markers and code [ms], at [rs];
    [u] is an opening that is never closed. *)
Inductive template : nat -> list N -> list (list N * list N) -> list (nat * nat) -> option nat -> Prop :=
| no_tags o s : ~ contains LT PCT s -> template o s [] [] None
| unclosed o pre rest : ~ contains LT PCT (pre ++ [LT]) -> ~ contains PCT GT (tl rest) ->
    template o (pre ++ LT :: PCT :: rest) [] [] (Some (o + length pre))
| hidden o pre t rest ms rs u : ~ contains LT PCT (pre ++ [LT]) -> tag t None ->
    template (o + length pre + length t) rest ms rs u -> template o (pre ++ t ++ rest) ms rs u
| visible o pre t m code rest ms rs u : ~ contains LT PCT (pre ++ [LT]) -> tag t (Some (m, code)) ->
    template (o + length pre + length t) rest ms rs u ->
    template o (pre ++ t ++ rest) ((m, code) :: ms)
      ((o + length pre + 2 + length m, o + length pre + 2 + length m + length code) :: rs) u.

(** Code that is there: an empty tag has none. *)
Definition nonempty (rs : list (nat * nat)) : list (nat * nat) := filter (fun r => fst r <? snd r) rs.
