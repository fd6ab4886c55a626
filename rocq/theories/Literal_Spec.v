(** What Ruby's literals evaluate to, over the values of Types_Spec.  Expressions that are not literals
    evaluate to whatever [other] allows. *)
From Coq Require Import List.
From Verif Require Import Types_Model Types_Spec Literal_Model ShapeRead_Spec.
Import ListNotations.

(** 1 is an Integer, 1.5 a Float, 1r a Rational, 1i a Complex, /a/ a Regexp, 1..2 a Range, -> {} a Proc. *)
Inductive instance : plain -> nat -> Prop :=
| i_integer : instance PInteger integer_text
| i_float : instance PFloat float_text
| i_rational : instance PRational rational_text
| i_complex : instance PImaginary complex_text
| i_true : instance PTrue true_text
| i_false : instance PFalse false_text
| i_nil : instance PNil nil_text
| i_regexp : instance PRegexp regexp_text
| i_range : instance PRange range_text
| i_proc : instance PLambda proc_text.

(** In a series of writes to a hash the last one to a key stays. *)
Definition stays (ws : list (val * val)) (x y : val) : Prop :=
  exists a b, ws = a ++ (x, y) :: b /\ forall z, ~ In (x, z) b.
Definition result_of_writes (ws es : list (val * val)) : Prop := forall x y, In (x, y) es <-> stays ws x y.

Section Eval.
Variables (named : meaning) (nil : val) (other : nat -> val -> Prop).
(** [wild] allows an index into an array that is out of its range or asks for a part of it, and lists
    of several statements. *)
Variable wild : Prop.

Inductive ev : node -> val -> Prop :=
| ev_plain p c v : instance p c -> named InstanceOfClass (const_name c) v -> ev (NPlain p) v
| ev_str n : ev (NStr n) (VStr n)
| ev_made_str n : ev NMadeStr (VStr n)
| ev_sym n : ev (NSym n) (VSym n)
| ev_made_sym n : ev NMadeSym (VSym n)
| ev_array l vs : evs l vs -> ev (NArray l) (VArr vs)
| ev_hash l ws es : writes l ws -> result_of_writes ws es -> ev (NHash l) (VHash es)
| ev_index r args us v : ev r (VArr us) -> In v us -> ev (NIndex r args) v
| ev_index_outside r args us : wild -> ev r (VArr us) -> ev (NIndex r args) nil
| ev_index_part r args us a b c : wild -> ev r (VArr us) -> us = a ++ b ++ c -> ev (NIndex r args) (VArr b)
| ev_index_hash r args es x y : ev r (VHash es) -> reads nil es x y -> ev (NIndex r args) y
| ev_index_else r args u v : ev r u -> (forall us, u <> VArr us) -> (forall es, u <> VHash es) -> ev (NIndex r args) v
| ev_one x v : ev x v -> ev (NStatements [x]) v
| ev_last l x v : wild -> ev x v -> ev (NStatements (l ++ [x])) v
| ev_other i v : other i v -> ev (NOther i) v
with evs : list node -> list val -> Prop :=
| evs_nil : evs [] []
| evs_cons x l v vs : ev x v -> evs l vs -> evs (x :: l) (v :: vs)
| evs_splat o l us vs : evs l vs -> evs (NSplat o :: l) (us ++ vs)
with writes : list (helem node) -> list (val * val) -> Prop :=
| w_nil : writes [] []
| w_pair k v l x y ws : ev k x -> ev v y -> writes l ws -> writes (HPair k v :: l) ((x, y) :: ws)
| w_splat n l us ws : ev n (VHash us) -> writes l ws -> writes (HSplat (Some n) :: l) (us ++ ws)
| w_splat_else n u l us ws : ev n u -> (forall es, u <> VHash es) -> writes l ws -> writes (HSplat (Some n) :: l) (us ++ ws)
| w_splat_none l us ws : writes l ws -> writes (HSplat None :: l) (us ++ ws)
| w_else l us ws : writes l ws -> writes (HElse :: l) (us ++ ws).

(** What a method with the given statements returns: what its first [return] gives, or else what its
    last statement evaluates to.  ([return] inside other expressions is not considered.) *)
Inductive returned : list node -> val -> Prop :=
| r_nothing : returned [] nil
| r_one x v : (forall o, x <> NSplat o) -> ev x v -> returned [x] v
| r_splat o us : returned [NSplat o] (VArr us)
| r_many x y l vs : evs (x :: y :: l) vs -> returned (x :: y :: l) (VArr vs).
Inductive gives : option (list node) -> val -> Prop :=
| g_empty : gives None nil
| g_last l x v : (forall a, ~ In (NReturn a) l) -> ev x v -> gives (Some (l ++ [x])) v
| g_return l a r v : (forall a, ~ In (NReturn a) l) -> returned a v -> gives (Some (l ++ NReturn a :: r)) v.
End Eval.

(** The same for a hash literal whose parts have been given types: [described] relates the parts to
    the writes they make. *)
Section Parts.
Variable named : meaning.
Inductive described : list elem -> list (val * val) -> Prop :=
| d_nil : described [] []
| d_pair k kt vt l x y ws : den named kt x -> den named vt y -> (forall k', k = Some k' -> x = litval k') ->
    described l ws -> described (EPair k kt vt :: l) ((x, y) :: ws)
| d_splat t l us ws : den named t (VHash us) -> described l ws -> described (ESplat t :: l) (us ++ ws)
| d_splat_else t u l us ws : den named t u -> (forall es, u <> VHash es) -> described l ws -> described (ESplat t :: l) (us ++ ws)
| d_else l us ws : described l ws -> described (EElse :: l) (us ++ ws).
End Parts.
(** No splatted shape has optional keys. *)
Definition required_splats (l : list elem) : Prop :=
  forall fs rest ex fr d, In (ESplat (TShape fs rest ex fr d)) l -> forall f, In f fs -> freq f = true.
