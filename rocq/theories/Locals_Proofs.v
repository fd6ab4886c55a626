(** Local variables: proofs. *)
From Coq Require Import List Arith NArith Bool Lia.
From Verif Require Import Locals_Model Locals_Spec.
Import ListNotations.

(** ** Lists *)
Lemma nth_update : forall A (f : A -> A) l i j, nth_error (update i f l) j = if i =? j then option_map f (nth_error l j) else nth_error l j.
Proof.
  induction l as [|a l IH]; intros i j; [destruct i, j; cbn; try reflexivity; destruct (_ =? _); reflexivity|].
  destruct i, j; cbn [update nth_error Nat.eqb]; try reflexivity. apply IH.
Qed.
Lemma update_length : forall A (f : A -> A) l i, length (update i f l) = length l.
Proof. induction l as [|a l IH]; intros [|i]; cbn; auto. Qed.
Lemma update_map : forall A B (g : A -> B) f l i, (forall a, g (f a) = g a) -> map g (update i f l) = map g l.
Proof. induction l as [|a l IH]; intros [|i] H; cbn; auto; rewrite ?H, ?IH; auto. Qed.

Definition get (l : list scope_node) (t : nat) : option scope_node := find (fun n => name n =? t) l.
Lemma get_in : forall l i n, NoDup (map name l) -> nth_error l i = Some n -> get l (name n) = Some n.
Proof.
  induction l as [|a l IH]; intros i n ND E; [destruct i; discriminate|].
  inversion ND as [|? ? NI ND']; subst. unfold get. cbn [find].
  destruct i; cbn [nth_error] in E.
  - injection E as ->. rewrite Nat.eqb_refl. reflexivity.
  - destruct (name a =? name n) eqn:Q; [|exact (IH i n ND' E)].
    apply Nat.eqb_eq in Q. exfalso. apply NI. rewrite Q. apply in_map. exact (nth_error_In _ _ E).
Qed.
Lemma get_some : forall l t n, get l t = Some n -> name n = t /\ exists i, nth_error l i = Some n.
Proof.
  unfold get. intros l t n F. apply find_some in F. destruct F as [I Q]. apply Nat.eqb_eq in Q. split; [exact Q|].
  apply In_nth_error. exact I.
Qed.
Lemma get_update : forall f l i n t, NoDup (map name l) -> nth_error l i = Some n -> (forall a, name (f a) = name a) ->
  get (update i f l) t = if name n =? t then Some (f n) else get l t.
Proof.
  intros f. induction l as [|a l IH]; intros i n t ND E K; [destruct i; discriminate|].
  inversion ND as [|? ? NI ND']; subst. unfold get. destruct i; cbn [nth_error] in E; cbn [update find].
  - injection E as ->. rewrite K. destruct (name n =? t); reflexivity.
  - destruct (name a =? t) eqn:Q.
    + destruct (name n =? t) eqn:Q'; [|reflexivity]. apply Nat.eqb_eq in Q, Q'. exfalso. apply NI. rewrite Q, <- Q'. apply in_map. exact (nth_error_In _ _ E).
    + exact (IH i n t ND' E K).
Qed.
Lemma get_app : forall l m t, get (l ++ [m]) t = match get l t with Some n => Some n | None => if name m =? t then Some m else None end.
Proof. intros. unfold get. induction l as [|a l IH]; cbn; [reflexivity|]. destruct (name a =? t); auto. Qed.

(** ** Variables of one scope *)
Lemma named_iff : forall x v, named x v = true <-> var_name v = x.
Proof. intros. unfold named. apply N.eqb_eq. Qed.
Lemma holds_iff : forall x n, holds x n = true <-> In x (map var_name (local_variables n)).
Proof.
  intros. unfold holds. rewrite existsb_exists, in_map_iff. split; intros (v & A & B); exists v; [split; [apply named_iff; exact B|exact A]|split; [exact B|apply named_iff; exact A]].
Qed.
Lemma find_named : forall x l, existsb (named x) l = match find (named x) l with Some _ => true | None => false end.
Proof. induction l as [|v l IH]; cbn; [reflexivity|]. destruct (named x v); cbn; auto. Qed.
Lemma define_find : forall x s l y, find (named y) (define_in x s l) =
  if N.eqb x y then Some (match find (named x) l with Some v => VariableNode (var_name v) (definition_location v) (read_locations v) (write_locations v ++ [s]) | None => VariableNode x s [] [] end)
  else find (named y) l.
Proof.
  induction l as [|v l IH]; intros y; cbn [define_in find].
  - unfold named at 1. cbn [var_name]. destruct (N.eqb x y) eqn:Q; reflexivity.
  - destruct (N.eqb (var_name v) x) eqn:Q; cbn [find].
    + apply N.eqb_eq in Q. unfold named. cbn [var_name]. subst x. rewrite N.eqb_refl. destruct (N.eqb (var_name v) y) eqn:R; reflexivity.
    + assert (Nx : named x v = false) by (unfold named; exact Q). rewrite Nx.
      destruct (named y v) eqn:R.
      * apply named_iff in R. destruct (N.eqb x y) eqn:W; [|reflexivity]. apply N.eqb_eq in W. subst. rewrite N.eqb_refl in Q. discriminate.
      * apply IH.
Qed.
Lemma define_names : forall x s l, NoDup (map var_name l) -> NoDup (map var_name (define_in x s l)) /\ forall y, In y (map var_name (define_in x s l)) <-> In y (map var_name l) \/ y = x.
Proof.
  induction l as [|v l IH]; intros ND; cbn [define_in map].
  - split; [repeat constructor; auto|]. intros y. cbn. split; [intros [E|[]]; right; symmetry; exact E|intros [[]|E]; left; symmetry; exact E].
  - inversion ND as [|? ? NI ND']; subst. destruct (N.eqb (var_name v) x) eqn:Q; cbn [map var_name].
    + apply N.eqb_eq in Q. split; [constructor; assumption|]. intros y. cbn [In]. subst x. split; [tauto|]. intros [H|E]; [exact H|left; symmetry; exact E].
    + destruct (IH ND') as [A B]. split.
      * constructor; [|exact A]. rewrite B. intros [I|E]; [exact (NI I)|]. apply N.eqb_neq in Q. congruence.
      * intros y. cbn [In]. rewrite B. intuition.
Qed.
Lemma read_find : forall x s l y, find (named y) (read_in x s l) =
  if N.eqb x y then option_map (fun v => VariableNode (var_name v) (definition_location v) (read_locations v ++ [s]) (write_locations v)) (find (named y) l)
  else find (named y) l.
Proof.
  induction l as [|v l IH]; intros y; cbn [read_in find]; [destruct (N.eqb x y); reflexivity|].
  destruct (N.eqb (var_name v) x) eqn:Q; cbn [find].
  - apply N.eqb_eq in Q. unfold named. cbn [var_name]. subst x. destruct (N.eqb (var_name v) y) eqn:R; reflexivity.
  - destruct (named y v) eqn:R; [|apply IH].
    apply named_iff in R. destruct (N.eqb x y) eqn:W; [|reflexivity]. apply N.eqb_eq in W. subst. rewrite N.eqb_refl in Q. discriminate.
Qed.
Lemma read_names : forall x s l, map var_name (read_in x s l) = map var_name l.
Proof. induction l as [|v l IH]; cbn; [reflexivity|]. destruct (N.eqb (var_name v) x); cbn; congruence. Qed.

(** ** Invariants *)
Record wf (v : variable_scopes) : Prop := Wf {
  wf_parents : forall i n p, nth_error (scopes v) i = Some n -> parent n = Some p -> p < i;
  wf_names : NoDup (map name (scopes v));
  wf_variables : forall i n, nth_error (scopes v) i = Some n -> NoDup (map var_name (local_variables n)) }.

Definition lookup (v : variable_scopes) (t : nat) (x : ident) : option variable_node :=
  match get (scopes v) t with Some n => find (named x) (local_variables n) | None => None end.

Fixpoint matches (X : ident -> Prop) (l : list scope_node) (id : option nat) (e : list level) : Prop :=
  match e with
  | [] => id = None
  | s :: r =>
      match entered (made_by s) with
      | None => names s = [] /\ matches X l id r
      | Some h => exists i n, id = Some i /\ nth_error l i = Some n /\ name n = number s /\ hard_boundary n = h /\
          (forall x, X x -> holds x n = declared x s) /\ matches X l (parent n) r
      end
  end.

Definition mem (x : ident) (l : list ident) : bool := existsb (N.eqb x) l.
Lemma mem_iff : forall x l, mem x l = true <-> In x l.
Proof.
  intros. unfold mem. rewrite existsb_exists. split; [intros (y & I & E); apply N.eqb_eq in E; subst; exact I|]. intros I. exists x. rewrite N.eqb_refl. auto.
Qed.

Record grows (v : variable_scopes) (own : list ident) (v' : variable_scopes) : Prop := Grows {
  gr_current : current v' = current v;
  gr_nodes : forall i n, nth_error (scopes v) i = Some n -> exists n', nth_error (scopes v') i = Some n' /\
     parent n' = parent n /\ hard_boundary n' = hard_boundary n /\ name n' = name n /\
     forall x, holds x n' = holds x n || ((match current v with Some c => c =? i | None => false end) && mem x own) }.

Definition grown (e : list level) (own : list ident) (e' : list level) : Prop :=
  match e with
  | [] => e' = []
  | s :: r => exists l, e' = Level (made_by s) (number s) l :: r /\ forall x, In x l <-> In x (names s) \/ In x own
  end.

Lemma grows_refl : forall v, grows v [] v.
Proof. intros. split; [reflexivity|]. intros i n E. exists n. repeat split; auto. intros x. cbn. rewrite andb_false_r, orb_false_r. reflexivity. Qed.
Lemma mem_app : forall x l m, mem x (l ++ m) = mem x l || mem x m.
Proof. intros. unfold mem. apply existsb_app. Qed.
Lemma grows_trans : forall a l b m c, grows a l b -> grows b m c -> grows a (l ++ m) c.
Proof.
  intros a l b m c [C1 N1] [C2 N2]. split; [congruence|]. intros i n E.
  destruct (N1 i n E) as (n1 & E1 & P1 & H1 & T1 & X1). destruct (N2 i n1 E1) as (n2 & E2 & P2 & H2 & T2 & X2).
  exists n2. repeat match goal with |- _ /\ _ => split end; try congruence.
  intros x. rewrite X2, X1, C1, mem_app. destruct (holds x n), (match current a with Some c0 => c0 =? i | None => false end), (mem x l), (mem x m); reflexivity.
Qed.
Lemma grows_ext : forall a l b m, grows a l b -> (forall x, In x l <-> In x m) -> grows a m b.
Proof.
  intros a l b m [C N1] Q. split; [exact C|]. intros i n E. destruct (N1 i n E) as (n1 & E1 & P1 & H1 & T1 & X1).
  exists n1. repeat match goal with |- _ /\ _ => split end; auto. intros x. rewrite X1. f_equal. f_equal.
  apply eq_true_iff_eq. rewrite !mem_iff. apply Q.
Qed.
Lemma grown_refl : forall e, grown e [] e.
Proof. intros [|s r]; [reflexivity|]. exists (names s). split; [destruct s; reflexivity|]. intros x. cbn. intuition. Qed.
Lemma grown_trans : forall a l b m c, grown a l b -> grown b m c -> grown a (l ++ m) c.
Proof.
  intros [|s r] l b m c; cbn [grown].
  - intros -> E. exact E.
  - intros (n & -> & Q) E. cbn in E. destruct E as (n' & -> & Q'). exists n'. split; [reflexivity|]. intros x. rewrite Q', Q, in_app_iff. tauto.
Qed.

(** Matching after both have grown by the same names. *)
Lemma matches_below : forall (X : ident -> Prop) l l' e id c, (forall i n p, nth_error l i = Some n -> parent n = Some p -> p < i) ->
  (forall i n, i < c -> nth_error l i = Some n -> exists n', nth_error l' i = Some n' /\ parent n' = parent n /\ hard_boundary n' = hard_boundary n /\ name n' = name n /\ forall x, holds x n' = holds x n) ->
  (forall i, id = Some i -> i < c) -> matches X l id e -> matches X l' id e.
Proof.
  intros X l l'. induction e as [|s r IH]; intros id c D F B M; cbn [matches] in *; [exact M|].
  destruct (entered (made_by s)).
  - destruct M as (i & n & E & Q & T & H & HX & M). pose proof (B i E) as Bi.
    destruct (F i n Bi Q) as (n' & Q' & P & H' & T' & X'). exists i, n'.
    repeat match goal with |- _ /\ _ => split end; auto; try congruence.
    + intros x I. rewrite X'. apply HX. exact I.
    + rewrite P. apply (IH (parent n) c D F); [|exact M]. intros j Pj. specialize (D i n j Q Pj). lia.
  - destruct M as [E M]. split; [exact E|]. exact (IH id c D F B M).
Qed.

(** Both sides having gained names on which the property [X] says they agree. *)
Lemma matches_grow : forall (X : ident -> Prop) v own v' e own' e', wf v -> grows v own v' -> grown e own' e' ->
  (own = [] /\ own' = [] \/ match e with s :: _ => entered (made_by s) <> None | [] => True end) ->
  (forall x, X x -> (In x own <-> In x own')) ->
  matches X (scopes v) (current v) e -> matches X (scopes v') (current v') e'.
Proof.
  intros X v own v' e own' e' W G E OK AG M. destruct G as [C NN]. rewrite C. clear C.
  assert (Z : (own = [] /\ own' = []) -> forall f id, matches X (scopes v) id f -> matches X (scopes v') id f).
  { intros [-> ->] f id Mf. apply (matches_below X (scopes v) (scopes v') f id (match id with Some i => S i | None => 0 end)); [exact (wf_parents v W)| |intros i ->; lia|exact Mf].
    intros i n _ Q. destruct (NN i n Q) as (n' & A & B1 & B2 & B3 & B4). exists n'. repeat match goal with |- _ /\ _ => split end; auto.
    intros x. rewrite B4. cbn. rewrite andb_false_r, orb_false_r. reflexivity. }
  destruct e as [|s r]; cbn [grown] in E.
  - subst e'. cbn [matches] in *. exact M.
  - destruct E as (l & -> & QL). cbn [matches made_by number names] in *.
    destruct (entered (made_by s)) as [h|] eqn:EK.
    + destruct M as (i & n & E & Q & T & H & HX & M).
      destruct (NN i n Q) as (n' & Q' & P & H' & T' & X'). exists i, n'.
      repeat match goal with |- _ /\ _ => split end; auto; try congruence.
      * intros x I. rewrite X', E, Nat.eqb_refl, (HX x I). unfold declared. cbn [names andb].
        apply eq_true_iff_eq. rewrite orb_true_iff. change (existsb (N.eqb x) (names s)) with (mem x (names s)). change (existsb (N.eqb x) l) with (mem x l).
        rewrite !mem_iff, QL, (AG x I). tauto.
      * rewrite P. apply (matches_below X (scopes v) (scopes v') r (parent n) i); [exact (wf_parents v W)| |intros p Pp; exact (wf_parents v W i n p Q Pp)|exact M].
        intros j m L Qj. destruct (NN j m Qj) as (m' & A & B1 & B2 & B3 & B4). exists m'. repeat match goal with |- _ /\ _ => split end; auto.
        intros x. rewrite B4, E. replace (i =? j) with false by (symmetry; apply Nat.eqb_neq; lia). cbn. apply orb_false_r.
    + destruct OK as [OK|F]; [|exfalso; apply F; reflexivity]. destruct M as [E M]. split.
      * destruct OK as [_ ->]. destruct l as [|y l]; [reflexivity|]. exfalso.
        assert (I : In y (y :: l)) by (left; reflexivity). apply QL in I. rewrite E in I. cbn in I. tauto.
      * apply (Z OK). exact M.
Qed.

(** Weakening: fewer names to agree on, and names gained only on one side that nobody asks about. *)
Lemma matches_names : forall (X Y : ident -> Prop) l e id, (forall x, Y x -> X x) -> matches X l id e -> matches Y l id e.
Proof.
  intros X Y l. induction e as [|s r IH]; intros id S_ M; cbn [matches] in *; [exact M|].
  destruct (entered (made_by s)).
  - destruct M as (i & n & A & B & C & D & E & F). exists i, n. repeat match goal with |- _ /\ _ => split end; auto.
  - destruct M as [A B]. split; auto.
Qed.
Lemma matches_env : forall (X : ident -> Prop) l id e own e', grown e own e' -> (forall x, X x -> ~ In x own) ->
  (own = [] \/ match e with s :: _ => entered (made_by s) <> None | [] => True end) ->
  matches X l id e -> matches X l id e'.
Proof.
  intros X l id [|s r] own e' G D OK M; cbn [grown] in G; [subst; exact M|].
  destruct G as (n & -> & Q). cbn [matches made_by number names] in *. destruct (entered (made_by s)).
  - destruct M as (i & m & A & B & C & E & F & G). exists i, m. repeat match goal with |- _ /\ _ => split end; auto.
    intros x Hx. rewrite (F x Hx). unfold declared. cbn [names]. apply eq_true_iff_eq.
    change (mem x (names s) = true <-> mem x n = true). rewrite !mem_iff, Q. specialize (D x Hx). tauto.
  - destruct M as [A B]. split; [|exact B]. destruct OK as [->|F]; [|exfalso; apply F; reflexivity].
    destruct n as [|y n]; [reflexivity|]. exfalso. assert (I : In y (y :: n)) by (left; reflexivity). apply Q in I. rewrite A in I. cbn in I. tauto.
Qed.

(** ** Walking outwards *)
Lemma walk_visible : forall (X : ident -> Prop) l x e id fuel d t, (forall i n p, nth_error l i = Some n -> parent n = Some p -> p < i) ->
  matches X l id e -> X x -> visible x e = Some (d, t) -> (forall i, id = Some i -> i < fuel) ->
  exists i n, find (fun p => holds x (snd p)) (walk fuel l id) = Some (i, n) /\ nth_error l i = Some n /\ name n = number t /\ declared x t = true.
Proof.
  intros X l x. induction e as [|s r IH]; intros id fuel d t D M Hx V B; [discriminate V|].
  cbn [matches visible] in *. destruct (entered (made_by s)) as [h|] eqn:EK.
  - destruct M as (i & n & -> & Q & T & H & HX & M). pose proof (B i eq_refl) as Bi. destruct fuel as [|fuel]; [lia|].
    cbn [walk]. rewrite Q. cbn [find snd]. rewrite (HX x Hx). destruct (declared x s) eqn:DS.
    + injection V as <- <-. exists i, n. auto.
    + assert (CH : closed_off (made_by s) = h) by (destruct (made_by s); cbn in *; congruence).
      rewrite CH in V. destruct h; [discriminate V|]. rewrite H. destruct (visible x r) as [[d' t']|] eqn:VR; [|discriminate V].
      injection V as <- <-. apply (IH (parent n) fuel d' t' D M Hx eq_refl). intros p Pp. specialize (D i n p Q Pp). lia.
  - destruct M as [E M]. assert (DS : declared x s = false) by (unfold declared; rewrite E; reflexivity). rewrite DS in V.
    destruct (closed_off (made_by s)); [discriminate V|]. destruct (visible x r) as [[d' t']|] eqn:VR; [|discriminate V].
    injection V as <- <-. exact (IH id fuel d' t' D M Hx eq_refl B).
Qed.
Lemma walk_reach : forall (X : ident -> Prop) l e id fuel j m, matches X l id e -> In (j, m) (walk fuel l id) -> In (name m) (reach e).
Proof.
  intros X l. induction e as [|s r IH]; intros id fuel j m M I; cbn [matches] in M.
  - subst. destruct fuel; contradiction I.
  - cbn [reach]. destruct (entered (made_by s)) as [h|] eqn:EK.
    + destruct M as (i & n & -> & Q & T & H & HX & M). destruct fuel as [|fuel]; [contradiction I|]. cbn [walk] in I. rewrite Q in I.
      destruct I as [I|I]; [injection I as <- <-; left; congruence|]. rewrite H in I. destruct h; [contradiction I|].
      right. destruct (made_by s); cbn in EK; try discriminate EK. exact (IH (parent n) fuel j m M I).
    + destruct M as [_ M]. right. destruct (made_by s); cbn in EK; try discriminate EK; exact (IH id fuel j m M I).
Qed.
(** ... and from the scope that owns a visible variable. *)
Lemma owner_reach : forall (X : ident -> Prop) l x e id d t, matches X l id e -> visible x e = Some (d, t) ->
  exists i n, nth_error l i = Some n /\ name n = number t /\ forall fuel j m, In (j, m) (walk fuel l (Some i)) -> In (name m) (reach e).
Proof.
  intros X l x. induction e as [|s r IH]; intros id d t M V; [discriminate V|].
  pose proof (fun fuel j m => walk_reach X l (s :: r) id fuel j m M) as WR. cbn [matches visible] in *. destruct (declared x s) eqn:DS.
  - injection V as <- <-. destruct (entered (made_by s)) as [h|] eqn:EK.
    + destruct M as (i & n & -> & Q & T & H & HX & M). exists i, n. repeat match goal with |- _ /\ _ => split end; auto.
    + destruct M as [E _]. unfold declared in DS. rewrite E in DS. discriminate DS.
  - destruct (closed_off (made_by s)) eqn:CO; [discriminate V|]. destruct (visible x r) as [[d' t']|] eqn:VR; [|discriminate V].
    injection V as <- <-.
    assert (exists id', matches X l id' r) as (id' & Mr).
    { destruct (entered (made_by s)); [destruct M as (i & n & _ & _ & _ & _ & _ & M); exists (parent n); exact M|exists id; apply M]. }
    destruct (IH id' d' t' Mr eq_refl) as (i & n & A & B & C). exists i, n. repeat match goal with |- _ /\ _ => split end; auto.
    intros fuel j m I. cbn [reach]. right. destruct (made_by s); cbn in CO; try discriminate CO; exact (C fuel j m I).
Qed.

(** The walk depends on nothing but parents and boundaries. *)
Lemma walk_grows : forall own v v' fuel i j m, grows v own v' -> In (j, m) (walk fuel (scopes v') (Some i)) -> i < length (scopes v) ->
  (forall i n p, nth_error (scopes v) i = Some n -> parent n = Some p -> p < i) ->
  exists m', In (j, m') (walk fuel (scopes v) (Some i)) /\ name m' = name m.
Proof.
  intros own v v' fuel. induction fuel as [|fuel IH]; intros i j m G I L D; [contradiction I|].
  destruct (nth_error (scopes v) i) as [n|] eqn:Q; [|apply nth_error_None in Q; lia].
  destruct (gr_nodes _ _ _ G i n Q) as (n' & Q' & P & H & T & _). cbn [walk] in *. rewrite Q' in I. rewrite Q. rewrite H in I.
  destruct I as [I|I]; [injection I as <- <-; exists n; split; [left; reflexivity|congruence]|].
  destruct (hard_boundary n) eqn:HB; [contradiction I|]. rewrite P in I. destruct (parent n) as [p|] eqn:PP; [|destruct fuel; contradiction I].
  destruct (IH p j m G I) as (m' & A & B); [specialize (D i n p Q PP); lia|exact D|]. exists m'. split; [right; exact A|exact B].
Qed.

(** ** What becomes of one variable *)
Definition evolves (a : option variable_node) (l : list occurrence) (b : option variable_node) : Prop :=
  match a with
  | None => match l with
            | [] => b = None
            | o :: _ => exists v, b = Some v /\ definition_location v = shown o /\ forall s, In s (locations v) <-> In s (map shown l)
            end
  | Some v0 => exists v, b = Some v /\ definition_location v = definition_location v0 /\
      forall s, In s (locations v) <-> In s (locations v0) \/ In s (map shown l)
  end.
Lemma evolves_refl : forall a, evolves a [] a.
Proof. intros [v|]; cbn; [|reflexivity]. exists v. repeat split; auto. intros [H|[]]. exact H. Qed.
Lemma evolves_trans : forall a l b m c, evolves a l b -> evolves b m c -> evolves a (l ++ m) c.
Proof.
  intros [v0|] l b m c A B; cbn [evolves] in A.
  - destruct A as (v & -> & D & L). cbn [evolves] in B. destruct B as (w & -> & D' & L'). exists w. split; [reflexivity|]. split; [congruence|].
    intros s. rewrite map_app, in_app_iff, L', L. tauto.
  - destruct l as [|o l].
    + subst b. exact B.
    + destruct A as (v & -> & D & L). cbn [evolves] in B. destruct B as (w & -> & D' & L'). cbn [evolves app]. exists w.
      split; [reflexivity|]. split; [congruence|]. intros s. rewrite L', L. change (o :: l ++ m) with ((o :: l) ++ m). rewrite map_app, in_app_iff. tauto.
Qed.
Lemma evolves_swap : forall a l b m c, evolves a m b -> evolves b l c -> (a = None -> l = [] \/ m = []) -> evolves a (l ++ m) c.
Proof.
  intros a l b m c A B K. destruct a as [v0|].
  - destruct A as (v & -> & D & L). cbn [evolves] in B. destruct B as (w & -> & D' & L'). exists w. split; [reflexivity|]. split; [congruence|].
    intros s. rewrite map_app, in_app_iff, L', L. tauto.
  - destruct (K eq_refl) as [-> | ->].
    + cbn [app]. pose proof (evolves_trans _ _ _ _ _ A B) as E. rewrite app_nil_r in E. exact E.
    + rewrite app_nil_r. cbn [evolves] in A. subst b. exact B.
Qed.

(** ** One step *)
Definition is (t : nat) (x : ident) (o : occurrence) : bool := N.eqb (called o) x && (owner o =? t).
Definition entered_top (e : list level) : Prop := match e with s :: _ => entered (made_by s) <> None | [] => False end.

Lemma set_spec : forall v i n f, wf v -> nth_error (scopes v) i = Some n ->
  (NoDup (map var_name (local_variables n)) -> NoDup (map var_name (f (local_variables n)))) ->
  let v' := VariableScopes (update i (on_variables f) (scopes v)) (current v) in
  wf v' /\ map name (scopes v') = map name (scopes v) /\
  forall t y, lookup v' t y = if name n =? t then find (named y) (f (local_variables n)) else lookup v t y.
Proof.
  intros v i n f W Q ND v'. assert (NM : map name (scopes v') = map name (scopes v)) by (apply update_map; reflexivity).
  split; [|split; [exact NM|]].
  - split.
    + intros j m p E P. unfold v' in E. cbn [scopes] in E. rewrite nth_update in E. destruct (Nat.eqb_spec i j) as [->|NE].
      * rewrite Q in E. cbn in E. injection E as <-. exact (wf_parents v W j n p Q P).
      * exact (wf_parents v W j m p E P).
    + rewrite NM. apply wf_names, W.
    + intros j m E. unfold v' in E. cbn [scopes] in E. rewrite nth_update in E. destruct (Nat.eqb_spec i j) as [->|NE].
      * rewrite Q in E. cbn in E. injection E as <-. cbn. apply ND. exact (wf_variables v W j n Q).
      * exact (wf_variables v W j m E).
  - intros t y. unfold lookup, v'. cbn [scopes]. rewrite (get_update (on_variables f) (scopes v) i n t (wf_names v W) Q); [|reflexivity].
    destruct (name n =? t); reflexivity.
Qed.
Lemma lookup_node : forall v i n y, wf v -> nth_error (scopes v) i = Some n -> lookup v (name n) y = find (named y) (local_variables n).
Proof. intros v i n y W Q. unfold lookup. rewrite (get_in _ _ _ (wf_names v W) Q). reflexivity. Qed.

Lemma define_step : forall v x s c n o, wf v -> current v = Some c -> nth_error (scopes v) c = Some n ->
  called o = x -> owner o = name n -> shown o = s ->
  let v' := define_variable v x s in
  wf v' /\ map name (scopes v') = map name (scopes v) /\ grows v [x] v' /\
  forall t y, evolves (lookup v t y) (filter (is t y) [o]) (lookup v' t y).
Proof.
  intros v x s c n o W C Q CO OO SO v'. unfold v', define_variable. rewrite C.
  pose proof (wf_variables v W c n Q) as ND. pose proof (define_names x s _ ND) as [ND' IN].
  destruct (set_spec v c n (define_in x s) W Q (fun _ => ND')) as (W' & NM & LK). rewrite C in *.
  split; [exact W'|]. split; [exact NM|]. split.
  - split; [cbn; congruence|]. intros i m E. cbn [scopes]. rewrite nth_update, C. destruct (Nat.eqb_spec c i) as [->|NE].
    + rewrite Q in E. injection E as <-. rewrite Q. cbn [option_map]. exists (on_variables (define_in x s) n). repeat split; auto.
      intros y. apply eq_true_iff_eq. rewrite orb_true_iff, !holds_iff. cbn [on_variables local_variables andb]. rewrite IN, mem_iff. cbn. intuition.
    + exists m. repeat split; auto. intros y. cbn. rewrite orb_false_r. reflexivity.
  - intros t y. rewrite LK. cbn [filter is]. unfold is. rewrite CO, OO. destruct (Nat.eqb_spec (name n) t) as [<-|NE].
    + rewrite (lookup_node v c n y W Q), define_find. destruct (N.eqb x y) eqn:XY; cbn [andb]; [|apply evolves_refl].
      apply N.eqb_eq in XY. subst y. cbn [filter]. destruct (find (named x) (local_variables n)) as [w|] eqn:F; cbn [evolves].
      * eexists. split; [reflexivity|]. split; [reflexivity|]. intros z. unfold locations. cbn [definition_location read_locations write_locations In map].
        rewrite !in_app_iff, SO. cbn. intuition.
      * eexists. split; [reflexivity|]. split; [symmetry; exact SO|]. intros z. cbn. rewrite SO. tauto.
    + rewrite andb_false_r. apply evolves_refl.
Qed.
Lemma evolves_same : forall a o b, evolves a [o; o; o] b -> evolves a [o] b.
Proof.
  intros [v|] o b; cbn [evolves]; intros (w & -> & D & L); exists w; (split; [reflexivity|]); (split; [exact D|]); intros s; rewrite L; cbn; tauto.
Qed.

Lemma read_step : forall v x s i n o, wf v -> nth_error (scopes v) i = Some n -> holds x n = true ->
  called o = x -> owner o = name n -> shown o = s ->
  let v' := VariableScopes (update i (on_variables (read_in x s)) (scopes v)) (current v) in
  wf v' /\ map name (scopes v') = map name (scopes v) /\ grows v [] v' /\
  forall t y, evolves (lookup v t y) (filter (is t y) [o]) (lookup v' t y).
Proof.
  intros v x s i n o W Q HO CO OO SO v'.
  destruct (set_spec v i n (read_in x s) W Q) as (W' & NM & LK); [rewrite read_names; auto|].
  split; [exact W'|]. split; [exact NM|]. split.
  - split; [reflexivity|]. intros j m E. unfold v'. cbn [scopes]. rewrite nth_update. destruct (Nat.eqb_spec i j) as [->|NE].
    + rewrite Q in E. injection E as <-. rewrite Q. cbn [option_map]. exists (on_variables (read_in x s) n). repeat split; auto.
      intros y. cbn [mem existsb]. rewrite andb_false_r, orb_false_r. apply eq_true_iff_eq. rewrite !holds_iff. cbn [on_variables local_variables]. rewrite read_names. tauto.
    + exists m. repeat split; auto. intros y. cbn [mem existsb]. rewrite andb_false_r, orb_false_r. reflexivity.
  - intros t y. unfold v'. rewrite LK. cbn [filter]. unfold is. rewrite CO, OO. destruct (Nat.eqb_spec (name n) t) as [<-|NE].
    + rewrite (lookup_node v i n y W Q), read_find. destruct (N.eqb x y) eqn:XY; cbn [andb]; [|apply evolves_refl].
      apply N.eqb_eq in XY. subst y. unfold holds in HO. rewrite find_named in HO. destruct (find (named x) (local_variables n)) as [w|] eqn:F; [|discriminate HO].
      cbn [option_map evolves]. eexists. split; [reflexivity|]. split; [reflexivity|]. intros z. unfold locations. cbn [definition_location read_locations write_locations In map].
      rewrite !in_app_iff, SO. cbn. intuition.
    + rewrite andb_false_r. apply evolves_refl.
Qed.

Lemma enter_spec : forall v h r num, wf v -> ~ In num (map name (scopes v)) -> (forall c, current v = Some c -> c < length (scopes v)) ->
  let v' := enter_scope v h r num in
  wf v' /\ map name (scopes v') = map name (scopes v) ++ [num] /\ current v' = Some (length (scopes v)) /\
  nth_error (scopes v') (length (scopes v)) = Some (ScopeNode (current v) [] h r num []) /\
  (forall i n, nth_error (scopes v) i = Some n -> exists n', nth_error (scopes v') i = Some n' /\ parent n' = parent n /\ hard_boundary n' = hard_boundary n /\ name n' = name n /\ local_variables n' = local_variables n) /\
  (forall t y, lookup v' t y = lookup v t y).
Proof.
  intros v h r num W FR CB v'.
  set (l := scopes v ++ [ScopeNode (current v) [] h r num []]).
  set (g := fun n => ScopeNode (parent n) (children n ++ [length (scopes v)]) (hard_boundary n) (range n) (name n) (local_variables n)).
  assert (SC : scopes v' = match current v with Some p => update p g l | None => l end) by reflexivity.
  assert (NM : map name (scopes v') = map name (scopes v) ++ [num]).
  { rewrite SC. destruct (current v); [rewrite update_map by reflexivity|]; unfold l; rewrite map_app; reflexivity. }
  assert (ND : NoDup (map name l)).
  { unfold l. rewrite map_app. cbn. pose proof (wf_names v W) as A. revert A FR. generalize (map name (scopes v)). clear. induction l as [|a l IH]; intros A F; cbn; [repeat constructor; auto|].
    inversion A; subst. constructor; [rewrite in_app_iff; cbn in *; intros [I|[E|[]]]; [auto|subst; apply F; left; reflexivity]|]. apply IH; auto. intros I. apply F. right. exact I. }
  assert (OLD : forall i n, nth_error (scopes v) i = Some n -> nth_error l i = Some n).
  { intros i n E. unfold l. rewrite nth_error_app1; [exact E|]. apply nth_error_Some. congruence. }
  assert (LAST : nth_error l (length (scopes v)) = Some (ScopeNode (current v) [] h r num [])).
  { unfold l. rewrite nth_error_app2 by lia. rewrite Nat.sub_diag. reflexivity. }
  assert (NTH : forall i, exists f, nth_error (scopes v') i = option_map f (nth_error l i) /\ forall n, parent (f n) = parent n /\ hard_boundary (f n) = hard_boundary n /\ name (f n) = name n /\ local_variables (f n) = local_variables n).
  { intros i. rewrite SC. destruct (current v) as [p|]; [|exists (fun n => n); split; [destruct (nth_error l i); reflexivity|auto]].
    rewrite nth_update. destruct (p =? i); [exists g; split; [reflexivity|intros n; repeat split]|exists (fun n => n); split; [destruct (nth_error l i); reflexivity|auto]]. }
  split; [|split; [exact NM|split; [reflexivity|split; [|split]]]].
  - split.
    + intros i n p E P. destruct (NTH i) as (f & EF & KF). rewrite EF in E. destruct (nth_error l i) as [m|] eqn:EL; [|discriminate E]. cbn in E. injection E as <-.
      destruct (KF m) as (K1 & _). rewrite K1 in P. unfold l in EL. destruct (Nat.lt_ge_cases i (length (scopes v))) as [L|L].
      * rewrite nth_error_app1 in EL by exact L. exact (wf_parents v W i m p EL P).
      * rewrite nth_error_app2 in EL by exact L. destruct (i - length (scopes v)) as [|k] eqn:K; [|destruct k; discriminate EL]. cbn in EL. injection EL as <-. cbn in P. specialize (CB p P). lia.
    + rewrite NM. change [num] with (map name [ScopeNode (current v) [] h r num []]). rewrite <- map_app. exact ND.
    + intros i n E. destruct (NTH i) as (f & EF & KF). rewrite EF in E. destruct (nth_error l i) as [m|] eqn:EL; [|discriminate E]. cbn in E. injection E as <-.
      destruct (KF m) as (_ & _ & _ & K4). rewrite K4. unfold l in EL. destruct (Nat.lt_ge_cases i (length (scopes v))) as [L|L].
      * rewrite nth_error_app1 in EL by exact L. exact (wf_variables v W i m EL).
      * rewrite nth_error_app2 in EL by exact L. destruct (i - length (scopes v)) as [|k] eqn:K; [|destruct k; discriminate EL]. cbn in EL. injection EL as <-. constructor.
  - rewrite SC. destruct (current v) as [p|] eqn:CV; [|rewrite LAST; try rewrite CV; reflexivity]. rewrite nth_update. specialize (CB p eq_refl).
    replace (p =? length (scopes v)) with false by (symmetry; apply Nat.eqb_neq; lia). rewrite LAST. try rewrite CV. reflexivity.
  - intros i n E. destruct (NTH i) as (f & EF & KF). rewrite (OLD i n E) in EF. exists (f n). split; [exact EF|]. apply KF.
  - intros t y. unfold lookup. rewrite SC. destruct (current v) as [p|] eqn:CV.
    + destruct (nth_error l p) as [m|] eqn:EL.
      * rewrite (get_update g l p m t ND EL) by reflexivity. unfold l. rewrite get_app.
        destruct (Nat.eqb_spec (name m) t) as [<-|NE].
        -- specialize (CB p eq_refl). unfold l in EL. rewrite nth_error_app1 in EL by exact CB. rewrite (get_in _ _ _ (wf_names v W) EL). reflexivity.
        -- destruct (get (scopes v) t); [reflexivity|]. cbn [name]. destruct (num =? t); reflexivity.
      * exfalso. apply nth_error_None in EL. unfold l in EL. rewrite app_length in EL. specialize (CB p eq_refl). lia.
    + unfold l. rewrite get_app. destruct (get (scopes v) t); [reflexivity|]. cbn [name]. destruct (num =? t); reflexivity.
Qed.

(** ** Environments *)
Lemma parse_env : forall p e, snd (parse p e) = snd (resolve p e).
Proof.
  induction p as [|a IHa b IHb|a IHa b IHb|x s|x s|x s y|x s|k n r h IHh i IHi]; intros e; cbn [parse resolve]; try reflexivity.
  - specialize (IHa e). destruct (parse a e) as [a' e1], (resolve a e) as [l e1']. cbn in IHa. subst e1'.
    specialize (IHb e1). destruct (parse b e1), (resolve b e1). exact IHb.
  - specialize (IHa e). destruct (parse a e) as [a' e1], (resolve a e) as [l e1']. cbn in IHa. subst e1'.
    specialize (IHb e1). destruct (parse b e1), (resolve b e1). exact IHb.
  - specialize (IHh e). destruct (parse h e) as [a' e1], (resolve h e) as [l e1']. cbn in IHh. subst e1'.
    specialize (IHi (Level k n [] :: e1)). destruct (parse i _), (resolve i _). cbn in *. congruence.
Qed.
Lemma visible_zero : forall x e t, visible x e = Some (0, t) -> exists r, e = t :: r /\ declared x t = true.
Proof.
  intros x [|s r] t V; [discriminate V|]. cbn [visible] in V. destruct (declared x s) eqn:D.
  - injection V as ->. exists r. auto.
  - destruct (closed_off (made_by s)); [discriminate V|]. destruct (visible x r) as [[d u]|]; discriminate V.
Qed.
Lemma grown_declare : forall x e, grown e [x] (declare x e).
Proof. intros x [|s r]; [reflexivity|]. cbn. exists (x :: names s). split; [reflexivity|]. intros y. cbn. intuition. Qed.
Lemma visible_declare : forall x s r, visible x (declare x (s :: r)) = Some (0, Level (made_by s) (number s) (x :: names s)).
Proof. intros. cbn. unfold declared. cbn. rewrite N.eqb_refl. reflexivity. Qed.
(** An assignment whose variable is not captured leaves it in the innermost scope. *)
Lemma assign_own : forall x s e, e <> [] -> (forall o, In o (here true x s (assign x e)) -> captured o = false) ->
  grown e [x] (assign x e) /\ exists t r, assign x e = t :: r /\ visible x (assign x e) = Some (0, t).
Proof.
  intros x s e NE C. unfold assign in *. destruct (visible x e) as [[d t]|] eqn:V.
  - unfold here in C. rewrite V in C. specialize (C _ (or_introl eq_refl)). cbn in C. destruct d as [|d]; [|discriminate C].
    destruct (visible_zero x e t V) as (r & -> & D). split.
    + cbn. exists (names t). split; [destruct t; reflexivity|]. intros y. split; [tauto|]. intros [H|[<-|[]]]; [exact H|].
      apply mem_iff. exact D.
    + exists t, r. auto.
  - split; [apply grown_declare|]. destruct e as [|u r]; [congruence|]. exists (Level (made_by u) (number u) (x :: names u)), r. split; [reflexivity|]. apply visible_declare.
Qed.
Lemma grown_nonempty : forall e l e', grown e l e' -> e <> [] -> e' <> [].
Proof. intros [|s r] l e' G NE; [congruence|]. destruct G as (n & -> & _). discriminate. Qed.
Lemma grown_entered : forall e l e', grown e l e' -> entered_top e -> entered_top e'.
Proof. intros [|s r] l e' G E; [contradiction E|]. destruct G as (n & -> & _). exact E. Qed.
Lemma mentioned_written : forall p x, In x (written p) -> In x (mentioned p).
Proof.
  induction p as [|a IHa b IHb|a IHa b IHb|x s|x s|x s y|x s|k n r h IHh i IHi]; cbn; intros z I; try tauto; rewrite ?in_app_iff in *; intuition.
Qed.
Lemma env_grown : forall p e, e <> [] -> plain p -> (forall o, In o (fst (resolve p e)) -> captured o = false) -> grown e (written p) (snd (resolve p e)).
Proof.
  induction p as [|a IHa b IHb|a IHa b IHb|x s|x s|x s y|x s|k n r h IHh i IHi]; intros e NE P C; cbn [resolve written] in *.
  - apply grown_refl.
  - destruct P as [Pa Pb]. specialize (IHa e NE Pa). destruct (resolve a e) as [l e1]. cbn [fst snd] in *.
    pose proof (grown_nonempty _ _ _ (IHa (fun o I => ltac:(destruct (resolve b e1); apply C; cbn; apply in_app_iff; left; exact I))) NE) as NE1.
    specialize (IHb e1 NE1 Pb). destruct (resolve b e1) as [m e2]. cbn [fst snd] in *.
    apply (grown_trans _ _ e1); [apply IHa|apply IHb]; intros o I; apply C, in_app_iff; auto.
  - destruct P as (Pa & Pb & _). specialize (IHa e NE Pa). destruct (resolve a e) as [l e1]. cbn [fst snd] in *.
    pose proof (grown_nonempty _ _ _ (IHa (fun o I => ltac:(destruct (resolve b e1); apply C; cbn; apply in_app_iff; left; exact I))) NE) as NE1.
    specialize (IHb e1 NE1 Pb). destruct (resolve b e1) as [m e2]. cbn [fst snd] in *.
    apply (grown_trans _ _ e1); [apply IHa|apply IHb]; intros o I; apply C, in_app_iff; auto.
  - apply grown_refl.
  - apply (assign_own x s e NE). exact C.
  - apply grown_declare.
  - contradiction P.
  - destruct P as (Ph & Pi & Q). specialize (IHh e NE Ph). destruct (resolve h e) as [l e1]. cbn [fst snd] in *.
    specialize (IHi (Level k n [] :: e1) ltac:(discriminate) Pi). destruct (resolve i (Level k n [] :: e1)) as [m e2]. cbn [fst snd] in *.
    assert (G1 : grown e (written h) e1) by (apply IHh; intros o I; apply C, in_app_iff; auto).
    assert (G2 : grown (Level k n [] :: e1) (written i) e2) by (apply IHi; intros o I; apply C, in_app_iff; auto).
    destruct G2 as (l2 & -> & _). cbn [tl].
    assert (WH : written h = []).
    { destruct (entered k); [|apply Q]. destruct (written h) as [|z w] eqn:E; [reflexivity|]. exfalso.
      assert (I : In z (mentioned h)) by (apply mentioned_written; rewrite E; left; reflexivity). rewrite Q in I. contradiction I. }
    rewrite WH in G1. exact G1.
Qed.

(** Where occurrences come from. *)
Lemma occurrence_source : forall p e o, e <> [] -> plain p -> (forall o, In o (fst (resolve p e)) -> captured o = false) -> In o (fst (resolve p e)) ->
  In (called o) (mentioned p) /\
  (In (owner o) (numbers p) \/
   (exists s r, e = s :: r /\ number s = owner o /\ In (called o) (written p)) \/
   (exists s, In s e /\ number s = owner o /\ declared (called o) s = true)).
Proof.
  assert (VI : forall x e d t, visible x e = Some (d, t) -> In t e /\ declared x t = true).
  { intros x. induction e as [|s r IH]; intros d t V; [discriminate V|]. cbn [visible] in V. destruct (declared x s) eqn:D.
    - injection V as <- <-. split; [left; reflexivity|exact D].
    - destruct (closed_off (made_by s)); [discriminate V|]. destruct (visible x r) as [[d' u]|]; [|discriminate V]. injection V as <- <-.
      destruct (IH d' u eq_refl). split; [right|]; assumption. }
  assert (PAIR : forall (a b : tree) e o, e <> [] -> plain a -> plain b ->
     (forall e o, e <> [] -> plain a -> (forall o, In o (fst (resolve a e)) -> captured o = false) -> In o (fst (resolve a e)) ->
        In (called o) (mentioned a) /\ (In (owner o) (numbers a) \/ (exists s r, e = s :: r /\ number s = owner o /\ In (called o) (written a)) \/ (exists s, In s e /\ number s = owner o /\ declared (called o) s = true))) ->
     (forall e o, e <> [] -> plain b -> (forall o, In o (fst (resolve b e)) -> captured o = false) -> In o (fst (resolve b e)) ->
        In (called o) (mentioned b) /\ (In (owner o) (numbers b) \/ (exists s r, e = s :: r /\ number s = owner o /\ In (called o) (written b)) \/ (exists s, In s e /\ number s = owner o /\ declared (called o) s = true))) ->
     (forall o, In o (fst (let '(l, e1) := resolve a e in let '(m, e2) := resolve b e1 in (l ++ m, e2))) -> captured o = false) ->
     In o (fst (let '(l, e1) := resolve a e in let '(m, e2) := resolve b e1 in (l ++ m, e2))) ->
     In (called o) (mentioned a ++ mentioned b) /\
     (In (owner o) (numbers a ++ numbers b) \/ (exists s r, e = s :: r /\ number s = owner o /\ In (called o) (written a ++ written b)) \/ (exists s, In s e /\ number s = owner o /\ declared (called o) s = true))).
  { intros a b e o NE Pa Pb IHa IHb C I. pose proof (env_grown a e NE Pa) as G. specialize (IHa e). destruct (resolve a e) as [l e1]. cbn [fst snd] in *.
    specialize (IHb e1). destruct (resolve b e1) as [m e2] eqn:RB. cbn [fst snd] in *.
    assert (Ca : forall o, In o l -> captured o = false) by (intros; apply C, in_app_iff; auto).
    assert (Cb : forall o, In o m -> captured o = false) by (intros; apply C, in_app_iff; auto).
    specialize (G Ca). rewrite !in_app_iff. apply in_app_iff in I. destruct I as [I|I].
    - destruct (IHa o NE Pa Ca I) as [A [B|[(s & r & E & N1 & W)|B]]]; split; auto. right. left. exists s, r. rewrite in_app_iff. auto.
    - destruct (IHb o (grown_nonempty _ _ _ G NE) Pb Cb I) as [A [B|[(s & r & E & N1 & W)|(s & IS & N1 & D)]]]; split; auto.
      + right. left. destruct e as [|s0 r0]; [congruence|]. destruct G as (l0 & G & _). rewrite G in E. injection E as <- <-. exists s0, r0. rewrite in_app_iff. auto.
      + destruct e as [|s0 r0]; [congruence|]. destruct G as (l0 & G & QG). rewrite G in IS. destruct IS as [<-|IS].
        * apply mem_iff in D. cbn [names] in D. apply QG in D. destruct D as [D|D].
          -- right. right. exists s0. split; [left; reflexivity|]. split; [exact N1|]. apply mem_iff. exact D.
          -- right. left. exists s0, r0. rewrite in_app_iff. auto.
        * right. right. exists s. split; [right; exact IS|]. auto. }
  induction p as [|a IHa b IHb|a IHa b IHb|x s|x s|x s y|x s|k n r h IHh i IHi]; intros e o NE P C I; cbn [plain] in P.
  - contradiction I.
  - destruct P as [Pa Pb]. exact (PAIR a b e o NE Pa Pb IHa IHb C I).
  - destruct P as (Pa & Pb & _). exact (PAIR a b e o NE Pa Pb IHa IHb C I).
  - cbn [resolve fst] in I. unfold here in I. destruct (visible x e) as [[d t]|] eqn:V; [|contradiction I]. destruct I as [<-|[]]. cbn.
    destruct (VI x e d t V). split; [auto|]. right. right. exists t. auto.
  - cbn [resolve fst] in I, C. destruct (assign_own x s e NE C) as (_ & t & r & E & V). unfold here in I. rewrite V in I. destruct I as [<-|[]]. cbn [called owner mentioned].
    split; [left; reflexivity|]. right. left. unfold assign in E. destruct (visible x e); [|unfold declare in E; destruct e as [|s0 r0]; [congruence|]; injection E as <- <-; exists s0, r0; cbn; auto].
    subst e. exists t, r. cbn. auto.
  - cbn [resolve fst] in I. unfold here in I. destruct e as [|s0 r0]; [congruence|]. rewrite visible_declare in I. destruct I as [<-|[]]. cbn.
    split; [auto|]. right. left. exists s0, r0. auto.
  - contradiction P.
  - destruct P as (Ph & Pi & Q). cbn [resolve mentioned numbers written] in *.
    pose proof (env_grown h e NE Ph) as G. specialize (IHh e). destruct (resolve h e) as [l e1]. cbn [fst snd] in *.
    specialize (IHi (Level k n [] :: e1)). destruct (resolve i (Level k n [] :: e1)) as [m e2] eqn:RB. cbn [fst snd] in *.
    assert (Ca : forall o, In o l -> captured o = false) by (intros; apply C, in_app_iff; auto).
    assert (Cb : forall o, In o m -> captured o = false) by (intros; apply C, in_app_iff; auto).
    specialize (G Ca).
    assert (WH : written h = []).
    { destruct (entered k); [|apply Q]. destruct (written h) as [|z w] eqn:E; [reflexivity|]. exfalso.
      assert (J : In z (mentioned h)) by (apply mentioned_written; rewrite E; left; reflexivity). rewrite Q in J. contradiction J. }
    rewrite WH in *. rewrite in_app_iff. cbn [In]. rewrite in_app_iff. apply in_app_iff in I. destruct I as [I|I].
    + destruct (IHh o NE Ph Ca I) as [A [B|[(s & u & E & N1 & W)|B]]]; split; auto; contradiction W.
    + destruct (IHi o ltac:(discriminate) Pi Cb I) as [A [B|[(s & u & E & N1 & W)|(s & IS & N1 & D)]]]; split; auto.
      * injection E as <- <-. cbn in N1. auto.
      * destruct IS as [<-|IS]; [cbn in N1; auto|]. right. right. destruct e as [|s0 r0]; [congruence|]. destruct G as (l0 & -> & QG). destruct IS as [<-|IS].
        -- exists s0. split; [left; reflexivity|]. split; [exact N1|]. apply mem_iff. apply mem_iff in D. cbn [names] in D. apply QG in D. destruct D as [D|[]]. exact D.
        -- exists s. split; [right; exact IS|]. auto.
Qed.
Lemma matches_lookup : forall (X : ident -> Prop) v x e id s, wf v -> matches X (scopes v) id e -> In s e -> X x -> declared x s = true -> lookup v (number s) x <> None.
Proof.
  intros X v x. induction e as [|s0 r IH]; intros id s W M I Hx D; [contradiction I|]. cbn [matches] in M.
  destruct (entered (made_by s0)).
  - destruct M as (i & n & _ & Q & T & _ & HX & M). destruct I as [<-|I]; [|exact (IH _ s W M I Hx D)].
    rewrite <- T, (lookup_node v i n x W Q). specialize (HX x Hx). rewrite D in HX. unfold holds in HX. rewrite find_named in HX. destruct (find _ _); congruence.
  - destruct M as [E M]. destruct I as [<-|I]; [unfold declared in D; rewrite E in D; discriminate D|]. exact (IH _ s W M I Hx D).
Qed.
Lemma unmentioned : forall p e, mentioned p = [] -> parse p e = (p, e) /\ resolve p e = ([], e).
Proof.
  induction p as [|a IHa b IHb|a IHa b IHb|x s|x s|x s y|x s|k n r h IHh i IHi]; intros e E; cbn [mentioned] in E; try discriminate E; cbn [parse resolve]; auto;
    apply app_eq_nil in E; destruct E as [Ea Eb].
  - destruct (IHa e Ea) as [-> ->], (IHb e Eb) as [-> ->]. auto.
  - destruct (IHa e Ea) as [-> ->], (IHb e Eb) as [-> ->]. auto.
  - destruct (IHh e Ea) as [-> ->], (IHi (Level k n [] :: e) Eb) as [-> ->]. auto.
Qed.

(** ** The visitor *)
Definition placed (v : variable_scopes) (o : occurrence) : Prop :=
  exists i n, nth_error (scopes v) i = Some n /\ name n = owner o /\ forall fuel j m, In (j, m) (walk fuel (scopes v) (Some i)) -> In (name m) (around o).
Lemma placed_grows : forall own v v' o, wf v -> grows v own v' -> placed v o -> placed v' o.
Proof.
  intros own v v' o W G (i & n & Q & T & K). destruct (gr_nodes _ _ _ G i n Q) as (n' & Q' & _ & _ & T' & _).
  exists i, n'. split; [exact Q'|]. split; [congruence|]. intros fuel j m I.
  destruct (walk_grows own v v' fuel i j m G I) as (m' & I' & E); [apply nth_error_Some; congruence|exact (wf_parents v W)|].
  rewrite <- E. exact (K fuel j m' I').
Qed.

Record visited (p : tree) (e : list level) (v v' : variable_scopes) : Prop := Visited {
  vi_wf : wf v';
  vi_grows : grows v (written p) v';
  vi_names : forall t, In t (map name (scopes v')) -> In t (map name (scopes v)) \/ In t (numbers p);
  vi_lookup : forall t x, evolves (lookup v t x) (filter (is t x) (fst (resolve p e))) (lookup v' t x);
  vi_placed : forall o, In o (fst (resolve p e)) -> placed v' o }.

Lemma current_bound : forall X l id e i, matches X l id e -> id = Some i -> i < length l.
Proof.
  intros X l id e. revert id. induction e as [|s r IH]; intros id i M E; cbn [matches] in M; [congruence|].
  destruct (entered (made_by s)).
  - destruct M as (j & n & E' & Q & _). assert (i = j) by congruence. subst. apply nth_error_Some. congruence.
  - exact (IH id i (proj2 M) E).
Qed.

Lemma define_visited : forall x s v e e' o t r, wf v -> e <> [] -> entered_top e -> matches (fun y => y = x) (scopes v) (current v) e ->
  grown e [x] e' -> e' = t :: r -> visible x e' = Some (0, t) -> o = Occurrence s x (number t) false (reach e') ->
  let v' := define_variable v x s in
  wf v' /\ map name (scopes v') = map name (scopes v) /\ grows v [x] v' /\ (forall t y, evolves (lookup v t y) (filter (is t y) [o]) (lookup v' t y)) /\ placed v' o.
Proof.
  intros x s v e e' o t r W NE ET M G E V O v'.
  destruct e as [|s0 r0]; [congruence|]. pose proof M as M0. cbn [matches] in M0. cbn [entered_top] in ET. destruct (entered (made_by s0)) as [h|] eqn:EK; [|congruence].
  destruct M0 as (c & n & C & Q & T & _). destruct G as (l & E' & QL). assert (NT : number t = name n) by (rewrite E' in E; injection E as <- <-; cbn; congruence).
  destruct (define_step v x s c n o W C Q) as (W' & NM & GR & LK); [subst o; reflexivity|subst o; exact NT|subst o; reflexivity|].
  split; [exact W'|]. split; [exact NM|]. split; [exact GR|]. split; [exact LK|].
  assert (M' : matches (fun y => y = x) (scopes v') (current v') e').
  { apply (matches_grow (fun y => y = x) v [x] v' (s0 :: r0) [x] e' W GR); [exists l; auto| |tauto|exact M]. right. cbn. congruence. }
  destruct (owner_reach _ _ x e' (current v') 0 t M' V) as (i & m & A & B & D). exists i, m. subst o. auto.
Qed.

Lemma visit_spec : forall p e v, e <> [] -> wf v -> matches (fun x => In x (mentioned p)) (scopes v) (current v) e -> plain p ->
  (forall o, In o (fst (resolve p e)) -> captured o = false) ->
  NoDup (numbers p) -> (forall t, In t (numbers p) -> ~ In t (map name (scopes v))) ->
  (written p = [] \/ entered_top e) ->
  visited p e v (visit (fst (parse p e)) v).
Proof.
  induction p as [|a IHa b IHb|a IHa b IHb|x s|x s|x s y|x s|k n r h IHh i IHi]; intros e v NE W M P C ND FR OK.
  - cbn. split; auto; [apply grows_refl|intros; apply evolves_refl|intros o []].
  - (* a then b *)
    cbn [plain] in P. destruct P as [Pa Pb]. cbn [mentioned numbers written] in *. cbn [parse resolve] in *.
    pose proof (parse_env a e) as PE. pose proof (env_grown a e NE Pa) as G. specialize (IHa e v NE W).
    destruct (parse a e) as [a' e1] eqn:PA. destruct (resolve a e) as [l e1'] eqn:RA. cbn [fst snd] in PE, G, IHa. subst e1'.
    pose proof (parse_env b e1) as PE. specialize (IHb e1 (visit a' v)).
    destruct (parse b e1) as [b' e2] eqn:PB. destruct (resolve b e1) as [m e2'] eqn:RB. cbn [fst snd] in *. subst e2'. cbn [visit].
    assert (Ca : forall o, In o l -> captured o = false) by (intros; apply C, in_app_iff; auto).
    assert (Cb : forall o, In o m -> captured o = false) by (intros; apply C, in_app_iff; auto).
    specialize (G Ca).
    assert (ND' : NoDup (numbers a) /\ NoDup (numbers b) /\ forall t, In t (numbers a) -> ~ In t (numbers b)).
    { clear - ND. induction (numbers a) as [|z l IH]; cbn in *; [repeat split; [constructor|exact ND|tauto]|]. inversion ND as [|? ? NI ND2]; subst.
      destruct (IH ND2) as (A & B & D). repeat split; auto; [constructor; auto; intros I; apply NI, in_app_iff; auto|].
      intros t [->|I] J; [apply NI, in_app_iff; auto|exact (D t I J)]. }
    destruct ND' as (NDa & NDb & DIS).
    assert (OKa : written a = [] \/ entered_top e) by (destruct OK as [E|E]; [apply app_eq_nil in E; tauto|auto]).
    assert (Va : visited a e v (visit a' v)).
    { apply IHa; auto; [eapply matches_names; [|exact M]; cbn; intros x I; apply in_app_iff; auto|intros t I; apply FR, in_app_iff; auto]. }
    assert (M1 : matches (fun x => In x (mentioned b)) (scopes (visit a' v)) (current (visit a' v)) e1).
    { eapply matches_names; [|apply (matches_grow (fun x => In x (mentioned a ++ mentioned b)) v (written a) _ e (written a) e1 W (vi_grows _ _ _ _ Va) G); [destruct OKa as [E|E]; [left; auto|right; destruct e; [exact Logic.I|exact E]]|tauto|exact M]].
      cbn. intros x I. apply in_app_iff. auto. }
    assert (Vb : visited b e1 (visit a' v) (visit b' (visit a' v))).
    { apply IHb; auto.
      - exact (grown_nonempty _ _ _ G NE).
      - exact (vi_wf _ _ _ _ Va).
      - intros t I J. destruct (vi_names _ _ _ _ Va t J) as [K|K]; [exact (FR t ltac:(apply in_app_iff; auto) K)|exact (DIS t K I)].
      - destruct OK as [E|E]; [apply app_eq_nil in E; tauto|right; exact (grown_entered _ _ _ G E)]. }
    destruct Va as [Wa Ga Na La Pla]. destruct Vb as [Wb Gb Nb Lb Plb]. rewrite RA in *. rewrite RB in *. cbn [fst] in *.
    split.
    + exact Wb.
    + exact (grows_trans _ _ _ _ _ Ga Gb).
    + intros t I. cbn [numbers]. rewrite in_app_iff. destruct (Nb t I) as [J|J]; [|auto]. destruct (Na t J); auto.
    + intros t x. cbn [resolve]. rewrite RA, RB. cbn [fst]. rewrite filter_app. exact (evolves_trans _ _ _ _ _ (La t x) (Lb t x)).
    + intros o. cbn [resolve]. rewrite RA, RB. cbn [fst]. rewrite in_app_iff. intros [I|I]; [apply (placed_grows _ _ _ _ Wa Gb), Pla, I|apply Plb, I].
  - (* written a, b and visited b, a *)
    cbn [plain] in P. destruct P as (Pa & Pb & APab & APba). cbn [mentioned numbers written] in *. cbn [parse resolve] in *.
    pose proof (parse_env a e) as PE. pose proof (env_grown a e NE Pa) as G.
    pose proof (fun o => occurrence_source a e o NE Pa) as SRCa. specialize (IHa e).
    destruct (parse a e) as [a' e1] eqn:PA. destruct (resolve a e) as [l e1'] eqn:RA. cbn [fst snd] in *. subst e1'.
    pose proof (parse_env b e1) as PE. specialize (IHb e1 v).
    pose proof (fun o NE1 => occurrence_source b e1 o NE1 Pb) as SRCb.
    destruct (parse b e1) as [b' e2] eqn:PB. destruct (resolve b e1) as [m e2'] eqn:RB. cbn [fst snd] in *. subst e2'. cbn [visit].
    specialize (IHa (visit b' v)).
    assert (Ca : forall o, In o l -> captured o = false) by (intros; apply C, in_app_iff; auto).
    assert (Cb : forall o, In o m -> captured o = false) by (intros; apply C, in_app_iff; auto).
    specialize (G Ca). pose proof (grown_nonempty _ _ _ G NE) as NE1.
    assert (ND' : NoDup (numbers a) /\ NoDup (numbers b) /\ forall t, In t (numbers a) -> ~ In t (numbers b)).
    { clear - ND. induction (numbers a) as [|z l IH]; cbn in *; [repeat split; [constructor|exact ND|tauto]|]. inversion ND as [|? ? NI ND2]; subst.
      destruct (IH ND2) as (A & B & D). repeat split; auto; [constructor; auto; intros I; apply NI, in_app_iff; auto|].
      intros t [->|I] J; [apply NI, in_app_iff; auto|exact (D t I J)]. }
    destruct ND' as (NDa & NDb & DIS).
    assert (OKa : written a = [] \/ entered_top e) by (destruct OK as [E|E]; [apply app_eq_nil in E; tauto|auto]).
    assert (OKb : written b = [] \/ entered_top e) by (destruct OK as [E|E]; [apply app_eq_nil in E; tauto|auto]).
    assert (Vb : visited b e1 v (visit b' v)).
    { apply IHb; auto.
      - apply (matches_env _ _ _ e (written a) e1 G); [intros x I J; exact (APab x J I)|destruct OKa as [E|E]; [auto|right; destruct e; [exact Logic.I|exact E]]|].
        eapply matches_names; [|exact M]. cbn. intros x I. apply in_app_iff. auto.
      - intros t I. apply FR, in_app_iff. auto.
      - destruct OKb as [E|E]; [auto|right; exact (grown_entered _ _ _ G E)]. }
    assert (M1 : matches (fun x => In x (mentioned a)) (scopes (visit b' v)) (current (visit b' v)) e).
    { apply (matches_grow (fun x => In x (mentioned a)) v (written b) _ e [] e W (vi_grows _ _ _ _ Vb) (grown_refl e)).
      - destruct OKb as [E|E]; [left; auto|right; destruct e; [exact Logic.I|exact E]].
      - intros x I. split; [intros J; exact (APba x J I)|intros []].
      - eapply matches_names; [|exact M]. cbn. intros x I. apply in_app_iff. auto. }
    assert (Va : visited a e (visit b' v) (visit a' (visit b' v))).
    { apply IHa; auto.
      - exact (vi_wf _ _ _ _ Vb).
      - intros t I J. destruct (vi_names _ _ _ _ Vb t J) as [K|K]; [exact (FR t ltac:(apply in_app_iff; auto) K)|exact (DIS t I K)]. }
    destruct Va as [Wa Ga Na La Pla]. destruct Vb as [Wb Gb Nb Lb Plb]. rewrite RA in *. rewrite RB in *. cbn [fst] in *.
    split.
    + exact Wa.
    + apply (grows_ext _ _ _ _ (grows_trans _ _ _ _ _ Gb Ga)). intros x. cbn [written]. rewrite !in_app_iff. tauto.
    + intros t I. cbn [numbers]. rewrite in_app_iff. destruct (Na t I) as [J|J]; [|auto]. destruct (Nb t J); auto.
    + intros t x. cbn [resolve]. rewrite RA, RB. cbn [fst]. rewrite filter_app. apply (evolves_swap _ _ _ _ _ (Lb t x) (La t x)).
      intros LN. destruct (filter (is t x) l) as [|oa la] eqn:FA; [auto|]. destruct (filter (is t x) m) as [|ob lb] eqn:FB; [auto|]. exfalso.
      assert (Ia : In oa (filter (is t x) l)) by (rewrite FA; left; reflexivity). assert (Ib : In ob (filter (is t x) m)) by (rewrite FB; left; reflexivity).
      apply filter_In in Ia. apply filter_In in Ib. destruct Ia as [Ia Qa], Ib as [Ib Qb]. unfold is in Qa, Qb. apply andb_true_iff in Qa, Qb. destruct Qa as [Qa1 Qa2], Qb as [Qb1 Qb2].
      apply N.eqb_eq in Qa1, Qb1. apply Nat.eqb_eq in Qa2, Qb2.
      destruct (SRCa oa Ca Ia) as [MA SA]. destruct (SRCb ob NE1 Cb Ib) as [MB SB]. rewrite Qa1 in *. rewrite Qb1 in *. rewrite Qa2 in *. rewrite Qb2 in *.
      assert (KEY : forall s, In s e -> number s = t -> declared x s = true -> False).
      { intros s I E D. revert LN. rewrite <- E. exact (matches_lookup _ v x e (current v) s W M I ltac:(apply in_app_iff; auto) D). }
      destruct SA as [SA|[(s & r & _ & _ & WA)|(s & I & E & D)]]; [|exact (APab x WA MB)|exact (KEY s I E D)].
      destruct SB as [SB|[(s & r & _ & _ & WB)|(s & I & E & D)]]; [exact (DIS t SA SB)|exact (APba x WB MA)|].
      destruct e as [|s0 r0]; [congruence|]. destruct G as (l0 & -> & QG). destruct I as [<-|I]; [|exact (KEY s ltac:(right; exact I) E D)].
      apply mem_iff in D. cbn [names] in D. apply QG in D. destruct D as [D|D]; [|exact (APab x D MB)].
      apply (KEY s0 ltac:(left; reflexivity) E). apply mem_iff. exact D.
    + intros o. cbn [resolve]. rewrite RA, RB. cbn [fst]. rewrite in_app_iff. intros [I|I]; [apply Pla, I|apply (placed_grows _ _ _ _ Wb Ga), Plb, I].
  - (* an identifier *)
    cbn [parse resolve fst snd] in *. unfold here in *. destruct (visible x e) as [[d t]|] eqn:V.
    + cbn [visit mentioned] in *. unfold reference_variable.
      destruct (current v) as [c|] eqn:CU; [|exfalso; destruct e as [|s0 r0]; [congruence|]].
      * destruct (walk_visible _ (scopes v) x e (Some c) (length (scopes v)) d t (wf_parents v W) M ltac:(left; reflexivity) V) as (j & n & F & Q & T & D).
        { intros q E. injection E as <-. exact (current_bound _ _ _ _ c M eq_refl). }
        unfold outward. rewrite F.
        assert (HO : holds x n = true) by (apply find_some in F; exact (proj2 F)).
        set (o := Occurrence s x (number t) (false && negb (d =? 0)) (reach e)).
        destruct (read_step v x s j n o W Q HO eq_refl (eq_sym T) eq_refl) as (W' & NM & GR & LK). rewrite CU in *.
        split; auto.
        -- intros u I. rewrite NM in I. auto.
        -- intros u y. cbn [resolve fst]. unfold here. rewrite V. exact (LK u y).
        -- intros o' I. cbn [resolve fst] in I. unfold here in I. rewrite V in I. destruct I as [<-|[]].
           apply (placed_grows [] v _ _ W GR). destruct (owner_reach _ _ x e _ d t M V) as (i & m & A & B & K). exists i, m. auto.
      * assert (forall X l e, matches X l None e -> visible x e <> None -> False) as K.
        { clear. intros X l. induction e as [|s r IH]; intros M V; [apply V; reflexivity|]. cbn [matches visible] in *. destruct (entered (made_by s)).
          - destruct M as (i & n & E & _). discriminate E.
          - destruct M as [E M]. apply (IH M). intros F. apply V. unfold declared. rewrite E. cbn. destruct (closed_off (made_by s)); [reflexivity|]. rewrite F. reflexivity. }
        apply (K _ _ _ M). congruence.
    + cbn. split; auto; [apply grows_refl|intros; cbn [resolve fst]; unfold here; rewrite V; apply evolves_refl|intros o; cbn [resolve fst]; unfold here; rewrite V; intros []].
  - (* an assignment *)
    cbn [parse resolve fst snd visit mentioned numbers written] in *. destruct OK as [OK|OK]; [discriminate OK|].
    destruct (assign_own x s e NE C) as (G & t & r & E & V).
    destruct (define_visited x s v e (assign x e) (Occurrence s x (number t) false (reach (assign x e))) t r W NE OK) as (W' & NM & GR & LK & PL); auto.
    { eapply matches_names; [|exact M]. cbn. auto. }
    assert (H : here true x s (assign x e) = [Occurrence s x (number t) false (reach (assign x e))]) by (unfold here; rewrite V; reflexivity).
    split; auto.
    + intros u I. rewrite NM in I. auto.
    + intros u y. cbn [resolve fst]. rewrite H. apply LK.
    + intros o. cbn [resolve fst]. rewrite H. intros [<-|[]]. exact PL.
  - (* a parameter *)
    cbn [parse resolve fst snd visit mentioned numbers written] in *. destruct OK as [OK|OK]; [discriminate OK|].
    destruct e as [|s0 r0] eqn:EE; [congruence|]. rewrite <- EE in *.
    set (t := Level (made_by s0) (number s0) (x :: names s0)). assert (V : visible x (declare x e) = Some (0, t)) by (rewrite EE; apply visible_declare).
    assert (ED : declare x e = t :: r0) by (rewrite EE; reflexivity).
    set (o := Occurrence s x (number t) false (reach (declare x e))).
    assert (H : here false x s (declare x e) = [o]) by (unfold here; rewrite V; reflexivity).
    destruct (define_visited x s v e (declare x e) o t r0 W NE OK ltac:(eapply matches_names; [|exact M]; cbn; auto) (grown_declare x e) ED V eq_refl) as (W' & NM & GR & LK & PL).
    destruct y.
    + set (v1 := define_variable v x s) in *.
      assert (M1 : matches (fun z => z = x) (scopes v1) (current v1) (declare x e)).
      { apply (matches_grow (fun z => z = x) v [x] v1 e [x] (declare x e) W GR (grown_declare x e)); [right; destruct e; [exact Logic.I|exact OK]|tauto|eapply matches_names; [|exact M]; cbn; auto]. }
      assert (G1 : grown (declare x e) [x] (declare x e)).
      { rewrite ED. exists (names t). split; [destruct t; reflexivity|]. intros z. cbn. tauto. }
      assert (T1 : entered_top (declare x e)) by exact (grown_entered _ _ _ (grown_declare x e) OK).
      assert (N1 : declare x e <> []) by (rewrite ED; discriminate).
      destruct (define_visited x s v1 (declare x e) (declare x e) o t r0 W' N1 T1 M1 G1 ED V eq_refl) as (W2 & NM2 & GR2 & LK2 & PL2).
      set (v2 := define_variable v1 x s) in *.
      assert (M2 : matches (fun z => z = x) (scopes v2) (current v2) (declare x e)).
      { apply (matches_grow (fun z => z = x) v1 [x] v2 (declare x e) [x] (declare x e) W' GR2 G1); [right; destruct (declare x e); [exact Logic.I|exact T1]|tauto|exact M1]. }
      destruct (define_visited x s v2 (declare x e) (declare x e) o t r0 W2 N1 T1 M2 G1 ED V eq_refl) as (W3 & NM3 & GR3 & LK3 & PL3).
      split.
      * exact W3.
      * apply (grows_ext _ _ _ _ (grows_trans _ _ _ _ _ (grows_trans _ _ _ _ _ GR GR2) GR3)). intros z. cbn. tauto.
      * intros u I. rewrite NM3, NM2, NM in I. auto.
      * intros u z. cbn [resolve fst]. rewrite H. pose proof (evolves_trans _ _ _ _ _ (evolves_trans _ _ _ _ _ (LK u z) (LK2 u z)) (LK3 u z)) as EV.
        rewrite <- !filter_app in EV. cbn [app] in EV. revert EV. cbn [filter]. destruct (is u z o); [apply evolves_same|auto].
      * intros q. cbn [resolve fst]. rewrite H. intros [<-|[]]. exact PL3.
    + split; auto.
      * intros u I. rewrite NM in I. auto.
      * intros u z. cbn [resolve fst]. rewrite H. apply LK.
      * intros q. cbn [resolve fst]. rewrite H. intros [<-|[]]. exact PL.
  - contradiction P.
  - (* a scope *)
    cbn [plain] in P. destruct P as (Ph & Pi & Q). cbn [mentioned numbers written] in *.
    assert (ND' : NoDup (numbers h) /\ NoDup (numbers i) /\ forall t, In t (numbers h) -> ~ In t (numbers i)).
    { inversion ND as [|? ? _ ND1]; subst. clear - ND1. induction (numbers h) as [|z l IH]; cbn in *; [repeat split; [constructor|exact ND1|tauto]|]. inversion ND1 as [|? ? NI ND2]; subst.
      destruct (IH ND2) as (A & B & D). repeat split; auto; [constructor; auto; intros I; apply NI, in_app_iff; auto|].
      intros t [->|I] J; [apply NI, in_app_iff; auto|exact (D t I J)]. }
    destruct ND' as (NDh & NDi & DIS).
    assert (NN : ~ In n (numbers h) /\ ~ In n (numbers i)) by (inversion ND as [|? ? NI _]; rewrite in_app_iff in NI; tauto).
    destruct (entered k) as [hb|] eqn:EK.
    + (* block, class, module, def *)
      destruct (unmentioned h e Q) as [PH RH]. cbn [parse resolve] in *. rewrite PH in *. rewrite RH in *. cbn [app] in *.
      pose proof (parse_env i (Level k n [] :: e)) as PE. pose proof (env_grown i (Level k n [] :: e) ltac:(discriminate) Pi) as G.
      specialize (IHi (Level k n [] :: e)).
      destruct (parse i (Level k n [] :: e)) as [i' e2] eqn:PI. destruct (resolve i (Level k n [] :: e)) as [m e2'] eqn:RI. cbn [fst snd] in *. subst e2'.
      cbn [visit]. rewrite EK. specialize (G C).
      destruct (enter_spec v hb r n W ltac:(apply FR; left; reflexivity)) as (W1 & NM1 & CU1 & LAST & OLD & LK1).
      { intros c E. exact (current_bound _ _ _ _ c M E). }
      set (v1 := enter_scope v hb r n) in *.
      assert (M1 : forall X : ident -> Prop, matches X (scopes v) (current v) e -> matches X (scopes v1) (current v1) (Level k n [] :: e)).
      { intros X MX. cbn [matches made_by number names]. rewrite EK. exists (length (scopes v)), (ScopeNode (current v) [] hb r n []).
        repeat match goal with |- _ /\ _ => split end; auto. cbn [parent].
        apply (matches_below X (scopes v) (scopes v1) e (current v) (length (scopes v))); [exact (wf_parents v W)| |intros c E; exact (current_bound _ _ _ _ c MX E)|exact MX].
        intros j q _ E. destruct (OLD j q E) as (q' & A & B1 & B2 & B3 & B4). exists q'. repeat match goal with |- _ /\ _ => split end; auto. intros x. unfold holds. rewrite B4. reflexivity. }
      assert (WH : written h = []).
      { destruct (written h) as [|z w] eqn:E; [reflexivity|]. exfalso. assert (I : In z (mentioned h)) by (apply mentioned_written; rewrite E; left; reflexivity). rewrite Q in I. contradiction I. }
      assert (Vh : visited h (Level k n [] :: e) v1 (visit h v1)).
      { pose proof (IHh (Level k n [] :: e) v1 ltac:(discriminate) W1) as K. destruct (unmentioned h (Level k n [] :: e) Q) as [PH' RH']. rewrite PH', RH' in K. apply K; auto.
        - apply M1. eapply matches_names; [|exact M]. cbn. intros x I. apply in_app_iff. auto.
        - intros o [].
        - intros t I J. rewrite NM1 in J. apply in_app_iff in J. destruct J as [J|[<-|[]]]; [exact (FR t ltac:(right; apply in_app_iff; auto) J)|tauto]. }
      destruct Vh as [Wh Gh Nh Lh Plh]. rewrite WH in Gh.
      assert (Mi : matches (fun x => In x (mentioned i)) (scopes (visit h v1)) (current (visit h v1)) (Level k n [] :: e)).
      { apply (matches_grow _ v1 [] _ (Level k n [] :: e) [] _ W1 Gh (grown_refl _)); [left; auto|tauto|]. apply M1. eapply matches_names; [|exact M]. cbn. intros x I. apply in_app_iff. auto. }
      assert (Vi : visited i (Level k n [] :: e) (visit h v1) (visit i' (visit h v1))).
      { apply IHi; auto; [discriminate| |right; cbn; congruence].
        intros t I J. destruct (Nh t J) as [K|K]; [|exact (DIS t K I)]. rewrite NM1 in K. apply in_app_iff in K. destruct K as [K|[<-|[]]]; [exact (FR t ltac:(right; apply in_app_iff; auto) K)|tauto]. }
      destruct Vi as [Wi Gi Ni Li Pli]. rewrite RI in *. cbn [fst] in *.
      pose proof (grows_trans _ _ _ _ _ Gh Gi) as GG. cbn [app] in GG. set (v2 := visit i' (visit h v1)) in *.
      destruct (gr_nodes _ _ _ GG _ _ LAST) as (nl & QL & PL & _ & TL & _). cbn [parent] in PL.
      assert (EX : exit_scope v2 = VariableScopes (scopes v2) (current v)).
      { unfold exit_scope. rewrite (gr_current _ _ _ GG), CU1, QL, PL. reflexivity. }
      rewrite EX.
      assert (W3 : wf (VariableScopes (scopes v2) (current v))) by (destruct Wi; split; auto).
      split.
      * exact W3.
      * split; [reflexivity|]. intros j q E. destruct (OLD j q E) as (q1 & A & B1 & B2 & B3 & B4). destruct (gr_nodes _ _ _ GG j q1 A) as (q2 & A2 & D1 & D2 & D3 & D4).
        exists q2. repeat match goal with |- _ /\ _ => split end; [exact A2|congruence|congruence|congruence|].
        intros x. rewrite D4, CU1. replace (length (scopes v) =? j) with false.
        -- cbn [written mem existsb andb]. rewrite andb_false_r, !orb_false_r. unfold holds. rewrite B4. reflexivity.
        -- symmetry. apply Nat.eqb_neq. intros <-. assert (L : length (scopes v) < length (scopes v)) by (apply nth_error_Some; congruence). lia.
      * intros t I. cbn [numbers In]. rewrite in_app_iff. destruct (Ni t I) as [J|J]; [|auto]. destruct (Nh t J) as [K|K]; [|auto]. rewrite NM1 in K. apply in_app_iff in K. destruct K as [K|[<-|[]]]; auto.
      * intros t x. cbn [resolve]. rewrite RH, RI. cbn [fst app]. change (lookup (VariableScopes (scopes v2) (current v)) t x) with (lookup v2 t x).
        rewrite <- (LK1 t x). destruct (unmentioned h (Level k n [] :: e) Q) as [_ RH']. specialize (Lh t x). rewrite RH' in Lh. cbn [fst filter] in Lh.
        exact (evolves_trans _ _ _ _ _ Lh (Li t x)).
      * intros o. cbn [resolve]. rewrite RH, RI. cbn [fst app]. intros I. exact (Pli o I).
    + (* lambda, singleton class, def on another object *)
      destruct Q as [WH WI]. cbn [parse resolve] in *.
      pose proof (parse_env h e) as PE. pose proof (env_grown h e NE Ph) as G. specialize (IHh e v NE W).
      destruct (parse h e) as [h' e1] eqn:PH. destruct (resolve h e) as [l e1'] eqn:RH. cbn [fst snd] in *. subst e1'.
      pose proof (parse_env i (Level k n [] :: e1)) as PE. specialize (IHi (Level k n [] :: e1) (visit h' v) ltac:(discriminate)).
      destruct (parse i (Level k n [] :: e1)) as [i' e2] eqn:PI. destruct (resolve i (Level k n [] :: e1)) as [m e2'] eqn:RI. cbn [fst snd] in *. subst e2'.
      cbn [visit]. rewrite EK.
      assert (Ca : forall o, In o l -> captured o = false) by (intros; apply C, in_app_iff; auto).
      assert (Cb : forall o, In o m -> captured o = false) by (intros; apply C, in_app_iff; auto).
      specialize (G Ca).
      assert (Vh : visited h e v (visit h' v)).
      { apply IHh; auto; [eapply matches_names; [|exact M]; cbn; intros x I; apply in_app_iff; auto|intros t I; apply FR; right; apply in_app_iff; auto]. }
      assert (Vi : visited i (Level k n [] :: e1) (visit h' v) (visit i' (visit h' v))).
      { apply IHi; auto.
        - exact (vi_wf _ _ _ _ Vh).
        - cbn [matches made_by names]. rewrite EK. split; [reflexivity|].
          eapply matches_names; [|apply (matches_grow (fun x => In x (mentioned h ++ mentioned i)) v (written h) _ e (written h) e1 W (vi_grows _ _ _ _ Vh) G); [left; auto|tauto|exact M]].
          cbn. intros x I. apply in_app_iff. auto.
        - intros t I J. destruct (vi_names _ _ _ _ Vh t J) as [K|K]; [exact (FR t ltac:(right; apply in_app_iff; auto) K)|exact (DIS t K I)]. }
      destruct Vh as [Wh Gh Nh Lh Plh]. destruct Vi as [Wi Gi Ni Li Pli]. rewrite RH in *. rewrite RI in *. cbn [fst] in *.
      split.
      * exact Wi.
      * pose proof (grows_trans _ _ _ _ _ Gh Gi) as GG. rewrite WH, WI in GG. exact GG.
      * intros t I. cbn [numbers In]. rewrite in_app_iff. destruct (Ni t I) as [J|J]; [|auto]. destruct (Nh t J); auto.
      * intros t x. cbn [resolve]. rewrite RH, RI. cbn [fst]. rewrite filter_app. exact (evolves_trans _ _ _ _ _ (Lh t x) (Li t x)).
      * intros o. cbn [resolve]. rewrite RH, RI. cbn [fst]. rewrite in_app_iff. intros [I|I]; [apply (placed_grows _ _ _ _ Wh Gi), Plh, I|apply Pli, I].
Qed.

(** ** A whole program *)
Lemma wf_new : wf new.
Proof.
  split.
  - intros i n p E. destruct i as [|i]; cbn in E; [injection E as <-; discriminate|destruct i; discriminate E].
  - cbn. repeat constructor; intros [].
  - intros i n E. destruct i as [|i]; cbn in E; [injection E as <-; constructor|destruct i; discriminate E].
Qed.
Lemma lookup_new : forall t x, lookup new t x = None.
Proof. intros t x. unfold lookup. cbn. destruct t; reflexivity. Qed.
Lemma matches_new : forall X : ident -> Prop, matches X (scopes new) (current new) top.
Proof.
  intros X. cbn [matches top made_by entered]. exists 0, (ScopeNode None [] true (0, 0) 0 []).
  repeat match goal with |- _ /\ _ => split end; auto.
Qed.
Lemma index_spec : forall p, numbered p -> plain p -> assigns_own p -> visited p top new (index (program p)).
Proof.
  intros p ND P C. apply visit_spec; auto.
  - discriminate.
  - apply wf_new.
  - apply matches_new.
  - inversion ND; auto.
  - intros t I. inversion ND as [|? ? NI _]; subst. cbn. intros [<-|[]]. exact (NI I).
  - right. cbn. discriminate.
Qed.

Lemma index_lookup : forall p t x v, numbered p -> plain p -> assigns_own p -> lookup (index (program p)) t x = Some v ->
  exists o l, filter (is t x) (occurrences p) = o :: l /\ definition_location v = shown o /\ forall s, In s (locations v) <-> In s (map shown (o :: l)).
Proof.
  intros p t x v ND P C L. pose proof (vi_lookup _ _ _ _ (index_spec p ND P C) t x) as E. rewrite lookup_new, L in E. unfold occurrences.
  destruct (filter (is t x) (fst (resolve p top))) as [|o l]; cbn [evolves] in E; [discriminate E|].
  destruct E as (v' & E & D & Q). injection E as <-. exists o, l. auto.
Qed.
Lemma index_found : forall p o, numbered p -> plain p -> assigns_own p -> In o (occurrences p) -> exists v, lookup (index (program p)) (owner o) (called o) = Some v.
Proof.
  intros p o ND P C I. pose proof (vi_lookup _ _ _ _ (index_spec p ND P C) (owner o) (called o)) as E. rewrite lookup_new in E. unfold occurrences in I.
  assert (J : In o (filter (is (owner o) (called o)) (fst (resolve p top)))) by (apply filter_In; split; auto; unfold is; rewrite N.eqb_refl, Nat.eqb_refl; reflexivity).
  destruct (filter (is (owner o) (called o)) (fst (resolve p top))) as [|q l]; [contradiction J|]. cbn [evolves] in E. destruct E as (v & E & _). exists v. exact E.
Qed.
Lemma lookup_at : forall v t x y, wf v -> lookup v t x = Some y -> exists i n, nth_error (scopes v) i = Some n /\ name n = t /\ find (named x) (local_variables n) = Some y.
Proof.
  intros v t x y W E. unfold lookup in E. destruct (get (scopes v) t) as [n|] eqn:G; [|discriminate E]. apply get_some in G. destruct G as (T & i & Q). exists i, n. auto.
Qed.
Lemma find_unique : forall x l v, NoDup (map var_name l) -> In v l -> named x v = true -> find (named x) l = Some v.
Proof.
  intros x. induction l as [|w l IH]; intros v ND I Q; [contradiction I|]. cbn [map find] in *. inversion ND as [|? ? NI ND']; subst. destruct (named x w) eqn:E.
  - destruct I as [->|I]; [reflexivity|]. exfalso. apply NI. apply (proj1 (named_iff _ _)) in E. apply (proj1 (named_iff _ _)) in Q. rewrite E, <- Q. apply in_map. exact I.
  - destruct I as [->|I]; [congruence|]. apply IH; auto.
Qed.
Lemma filter_unique : forall x l, NoDup (map var_name l) -> filter (named x) l = match find (named x) l with Some v => [v] | None => [] end.
Proof.
  intros x. induction l as [|w l IH]; intros ND; [reflexivity|]. cbn [map filter find] in *. inversion ND as [|? ? NI ND']; subst. rewrite (IH ND'). destruct (named x w) eqn:E; [|reflexivity].
  destruct (find (named x) l) as [v|] eqn:F; [|reflexivity]. exfalso. apply find_some in F. destruct F as [I Q]. apply NI.
  apply (proj1 (named_iff _ _)) in E. apply (proj1 (named_iff _ _)) in Q. rewrite E, <- Q. apply in_map. exact I.
Qed.
Lemma first_index_some : forall A (f : A -> bool) l i, first_index f l = Some i -> exists x, nth_error l i = Some x /\ f x = true.
Proof.
  intros A f. induction l as [|x l IH]; intros i E; [discriminate E|]. cbn [first_index] in E. destruct (f x) eqn:F; [injection E as <-; exists x; auto|].
  destruct (first_index f l) as [j|]; [|discriminate E]. injection E as <-. destruct (IH j eq_refl) as (y & Q & T). exists y. auto.
Qed.
Lemma first_index_none : forall A (f : A -> bool) l x i, first_index f l = None -> nth_error l i = Some x -> f x = false.
Proof.
  intros A f. induction l as [|y l IH]; intros x i E Q; [destruct i; discriminate Q|]. cbn [first_index] in E. destruct (f y) eqn:F; [discriminate E|].
  destruct (first_index f l) as [j|] eqn:J; [discriminate E|]. destruct i; [injection Q as <-; exact F|]. exact (IH x i eq_refl Q).
Qed.
Lemma touched_iff : forall x c n, NoDup (map var_name (local_variables n)) ->
  touched x c n = true <-> exists v s, find (named x) (local_variables n) = Some v /\ In s (locations v) /\ touches c s.
Proof.
  intros x c n ND. unfold touched. rewrite existsb_exists. split.
  - intros (v & I & Q). apply andb_true_iff in Q. destruct Q as [Q K]. apply existsb_exists in K. destruct K as (s & J & K).
    unfold contains_offset in K. apply andb_true_iff in K. destruct K as [K1 K2]. apply Nat.leb_le in K1, K2.
    exists v, s. split; [exact (find_unique _ _ _ ND I Q)|]. split; [exact J|split; auto].
  - intros (v & s & F & J & K1 & K2). apply find_some in F. destruct F as [I Q]. exists v. split; [exact I|]. rewrite Q. cbn [andb]. apply existsb_exists. exists s. split; [exact J|].
    unfold contains_offset. apply andb_true_iff. split; apply Nat.leb_le; assumption.
Qed.

(** The scope found under the cursor is the owner's. *)
Lemma scope_found : forall p c o, numbered p -> plain p -> assigns_own p -> cursor_on c o p ->
  exists i n v, find_scope_for_variable_at (index (program p)) (called o) c = Some i /\ nth_error (scopes (index (program p))) i = Some n /\
    name n = owner o /\ find (named (called o)) (local_variables n) = Some v /\ lookup (index (program p)) (owner o) (called o) = Some v.
Proof.
  intros p c o ND P C (I & T & U). pose proof (index_spec p ND P C) as [W _ _ _ _]. set (V := index (program p)) in *.
  destruct (index_found p o ND P C I) as (v & L). fold V in L.
  destruct (index_lookup p _ _ v ND P C L) as (o1 & l1 & F1 & D1 & Q1).
  destruct (lookup_at V _ _ v W L) as (j & m & QM & NM & FM).
  assert (TM : touched (called o) c m = true).
  { apply touched_iff; [exact (wf_variables V W j m QM)|]. exists v, (shown o). split; [exact FM|]. split; [|exact T]. apply Q1, in_map. rewrite <- F1. apply filter_In. split; [exact I|]. unfold is. rewrite N.eqb_refl, Nat.eqb_refl. reflexivity. }
  unfold find_scope_for_variable_at. destruct (first_index (touched (called o) c) (scopes V)) as [i|] eqn:FI; [|exfalso; pose proof (first_index_none _ _ _ _ _ FI QM); congruence].
  destruct (first_index_some _ _ _ _ FI) as (n & Q & TN). apply touched_iff in TN; [|exact (wf_variables V W i n Q)]. destruct TN as (w & s & FW & J & K).
  pose proof (lookup_node V i n (called o) W Q) as LN. rewrite FW in LN. destruct (index_lookup p _ _ w ND P C LN) as (o2 & l2 & F2 & D2 & Q2).
  apply Q2 in J. rewrite <- F2 in J. apply in_map_iff in J. destruct J as (o' & <- & J). apply filter_In in J. destruct J as [J E]. unfold is in E. apply andb_true_iff in E. destruct E as [E1 E2].
  apply N.eqb_eq in E1. apply Nat.eqb_eq in E2. pose proof (U o' J E1 K) as UO. assert (NN : name n = owner o) by congruence.
  exists i, n, w. rewrite NN in LN. repeat match goal with |- _ /\ _ => split end; auto.
Qed.

Lemma outward_self : forall v i n, nth_error (scopes v) i = Some n -> exists r, outward v i = (i, n) :: r.
Proof.
  intros v i n Q. unfold outward. assert (L : i < length (scopes v)) by (apply nth_error_Some; congruence). destruct (length (scopes v)) as [|f]; [lia|]. cbn [walk]. rewrite Q. eauto.
Qed.
Lemma filter_ext_is : forall o l, filter (is (owner o) (called o)) l = filter (of_variable o) l.
Proof. reflexivity. Qed.

Lemma definition_found : forall p c o, numbered p -> plain p -> assigns_own p -> cursor_on c o p ->
  exists first, hd_error (filter (of_variable o) (occurrences p)) = Some first /\
  local_variable_definition_range_before (index (program p)) (called o) c = if fst (shown first) <? c then Some (shown first) else None.
Proof.
  intros p c o ND P C CO. destruct (scope_found p c o ND P C CO) as (i & n & v & F & Q & NM & FN & L). destruct (index_lookup p _ _ v ND P C L) as (o1 & l1 & F1 & D1 & _).
  exists o1. rewrite <- filter_ext_is, F1. split; [reflexivity|]. unfold local_variable_definition_range_before. rewrite F. unfold find_variable.
  destruct (outward_self _ i n Q) as (r & ->). cbn [find snd]. assert (H : holds (called o) n = true) by (unfold holds; rewrite find_named, FN; reflexivity). rewrite H, FN, D1. reflexivity.
Qed.

Lemma walk_nodes : forall l fuel id j m, In (j, m) (walk fuel l id) -> nth_error l j = Some m.
Proof.
  intros l. induction fuel as [|f IH]; intros id j m I; [contradiction I|]. cbn [walk] in I. destruct id as [i|]; [|contradiction I]. destruct (nth_error l i) as [n|] eqn:E; [|contradiction I].
  destruct I as [I|I]; [injection I as <- <-; exact E|]. destruct (hard_boundary n); [contradiction I|]. exact (IH _ _ _ I).
Qed.
Lemma names_unique : forall l i j n m, NoDup (map name l) -> nth_error l i = Some n -> nth_error l j = Some m -> name n = name m -> i = j.
Proof.
  intros l i j n m ND A B E. rewrite NoDup_nth_error in ND. apply ND.
  - rewrite map_length. apply nth_error_Some. congruence.
  - rewrite (map_nth_error name i l A), (map_nth_error name j l B). congruence.
Qed.

Lemma references_found : forall p c o s, numbered p -> plain p -> assigns_own p -> cursor_on c o p -> alone o p ->
  In s (local_variable_reference_ranges_at (index (program p)) (called o) c) <-> exists o', In o' (occurrences p) /\ same_variable o o' /\ shown o' = s.
Proof.
  intros p c o s ND P C CO AL. destruct (scope_found p c o ND P C CO) as (i & n & v & F & Q & NM & FN & L). destruct (index_lookup p _ _ v ND P C L) as (o1 & l1 & F1 & D1 & Q1).
  pose proof (index_spec p ND P C) as [W _ _ _ PL]. set (V := index (program p)) in *. unfold local_variable_reference_ranges_at. rewrite F. unfold find_rename_targets.
  assert (LOC : forall z, In z (locations v) <-> exists o', In o' (occurrences p) /\ same_variable o o' /\ shown o' = z).
  { intros z. rewrite Q1, <- F1, in_map_iff. split.
    - intros (o' & E & I). apply filter_In in I. destruct I as [I K]. unfold is in K. apply andb_true_iff in K. destruct K as [K1 K2]. apply N.eqb_eq in K1. apply Nat.eqb_eq in K2. exists o'. repeat split; auto.
    - intros (o' & I & (K1 & K2) & E). exists o'. split; [exact E|]. apply filter_In. split; [exact I|]. unfold is. rewrite K1, K2, N.eqb_refl, Nat.eqb_refl. reflexivity. }
  rewrite <- LOC. rewrite in_flat_map. split.
  - intros ([j m] & I & K). cbn [snd] in K. destruct (PL o (proj1 CO)) as (i' & n' & Q' & NM' & RE).
    assert (i' = i) by (apply (names_unique _ _ _ _ _ (wf_names V W) Q' Q); congruence). subst i'. pose proof (RE _ _ _ I) as AR. pose proof (walk_nodes _ _ _ _ _ I) as QM.
    rewrite filter_unique in K by exact (wf_variables V W j m QM). destruct (find (named (called o)) (local_variables m)) as [w|] eqn:FW; [|contradiction K].
    cbn [flat_map] in K. rewrite app_nil_r in K.
    pose proof (lookup_node V j m (called o) W QM) as LN. rewrite FW in LN. destruct (index_lookup p _ _ w ND P C LN) as (o2 & l2 & F2 & _).
    assert (I2 : In o2 (filter (is (name m) (called o)) (occurrences p))) by (rewrite F2; left; reflexivity). apply filter_In in I2. destruct I2 as [I2 E]. unfold is in E. apply andb_true_iff in E. destruct E as [E1 E2].
    apply N.eqb_eq in E1. apply Nat.eqb_eq in E2. rewrite <- E2 in AR. pose proof (AL o2 I2 E1 AR) as EO. rewrite <- E2, EO, L in LN. injection LN as <-. exact K.
  - intros K. destruct (outward_self V i n Q) as (r & E). exists (i, n). rewrite E. split; [left; reflexivity|]. cbn [snd].
    rewrite filter_unique by exact (wf_variables V W i n Q). rewrite FN. cbn [flat_map]. rewrite app_nil_r. exact K.
Qed.

(** ** Whatever the program: only places where the name is written are reported *)
Definition sound (t : tree) (v : variable_scopes) : Prop :=
  forall i n w s, nth_error (scopes v) i = Some n -> In w (local_variables n) -> In s (locations w) -> In s (places (var_name w) t).
Definition from (u : ident -> list span) (v : variable_scopes) : Prop :=
  forall i n w s, nth_error (scopes v) i = Some n -> In w (local_variables n) -> In s (locations w) -> In s (u (var_name w)).
Lemma from_update : forall u v i f c, from u v -> (forall l, (forall w s, In w l -> In s (locations w) -> In s (u (var_name w))) -> forall w s, In w (f l) -> In s (locations w) -> In s (u (var_name w))) ->
  from u (VariableScopes (update i (on_variables f) (scopes v)) c).
Proof.
  intros u v i f c H Q j n w s E I J. cbn [scopes] in E. rewrite nth_update in E. destruct (i =? j) eqn:D; [|exact (H j n w s E I J)].
  destruct (nth_error (scopes v) j) as [m|] eqn:M; [|discriminate E]. cbn [option_map] in E. injection E as <-. cbn [on_variables local_variables] in I.
  exact (Q (local_variables m) (fun w s I J => H j m w s M I J) w s I J).
Qed.
Lemma define_from : forall (u : ident -> list span) x s, In s (u x) -> forall l, (forall w s, In w l -> In s (locations w) -> In s (u (var_name w))) -> forall w r, In w (define_in x s l) -> In r (locations w) -> In r (u (var_name w)).
Proof.
  intros u x s U. induction l as [|v l IH]; intros H w r I J; cbn [define_in] in I.
  - destruct I as [<-|[]]. destruct J as [<-|[]]. exact U.
  - destruct (N.eqb_spec (var_name v) x) as [E|E].
    + destruct I as [<-|I]; [|exact (H w r (or_intror I) J)]. cbn [var_name]. unfold locations in J. cbn [definition_location read_locations write_locations] in J.
      destruct J as [J|J]; [apply (H v r (or_introl eq_refl)); left; exact J|]. rewrite app_assoc in J. apply in_app_iff in J. destruct J as [J|[<-|[]]]; [|rewrite E; exact U].
      apply (H v r (or_introl eq_refl)). right. exact J.
    + destruct I as [<-|I]; [exact (H v r (or_introl eq_refl) J)|]. apply (IH (fun w s I => H w s (or_intror I)) w r I J).
Qed.
Lemma read_from : forall (u : ident -> list span) x s, In s (u x) -> forall l, (forall w s, In w l -> In s (locations w) -> In s (u (var_name w))) -> forall w r, In w (read_in x s l) -> In r (locations w) -> In r (u (var_name w)).
Proof.
  intros u x s U. induction l as [|v l IH]; intros H w r I J; cbn [read_in] in I; [contradiction I|].
  destruct (N.eqb_spec (var_name v) x) as [E|E].
  - destruct I as [<-|I]; [|exact (H w r (or_intror I) J)]. cbn [var_name]. unfold locations in J. cbn [definition_location read_locations write_locations] in J.
    destruct J as [J|J]; [apply (H v r (or_introl eq_refl)); left; exact J|]. rewrite !in_app_iff in J. cbn [In] in J. destruct J as [[J|[J|[]]]|J].
    + apply (H v r (or_introl eq_refl)). right. apply in_app_iff. auto.
    + rewrite E, <- J. exact U.
    + apply (H v r (or_introl eq_refl)). right. apply in_app_iff. auto.
  - destruct I as [<-|I]; [exact (H v r (or_introl eq_refl) J)|]. apply (IH (fun w s I => H w s (or_intror I)) w r I J).
Qed.
Lemma enter_from : forall u v h r n, from u v -> from u (enter_scope v h r n).
Proof.
  intros u v h r num H i n w s E I J. unfold enter_scope in E. cbn [scopes] in E.
  assert (A : forall k m, nth_error (scopes v ++ [ScopeNode (current v) [] h r num []]) k = Some m -> In w (local_variables m) -> In s (u (var_name w))).
  { intros k m E' I'. destruct (Nat.lt_ge_cases k (length (scopes v))) as [L|L].
    - rewrite nth_error_app1 in E' by exact L. exact (H k m w s E' I' J).
    - rewrite nth_error_app2 in E' by exact L. destruct (k - length (scopes v)) as [|z]; cbn in E'; [injection E' as <-; contradiction I'|destruct z; discriminate E']. }
  destruct (current v) as [c|]; [|exact (A i n E I)]. rewrite nth_update in E. destruct (c =? i); [|exact (A i n E I)].
  destruct (nth_error (scopes v ++ _) i) as [m|] eqn:M; [|discriminate E]. cbn [option_map] in E. injection E as <-. exact (A i m M I).
Qed.
Lemma visit_from : forall (u : ident -> list span) t v, (forall x s, In s (places x t) -> In s (u x)) -> from u v -> from u (visit t v).
Proof.
  intros u. induction t as [|a IHa b IHb|a IHa b IHb|x s|x s|x s y|x s|k n r h IHh i IHi]; intros v U H; cbn [visit]; auto.
  - apply IHb; [intros x s I; apply U; cbn; apply in_app_iff; auto|]. apply IHa; [intros x s I; apply U; cbn; apply in_app_iff; auto|exact H].
  - apply IHa; [intros x s I; apply U; cbn; apply in_app_iff; auto|]. apply IHb; [intros x s I; apply U; cbn; apply in_app_iff; auto|exact H].
  - unfold reference_variable. destruct (current v) as [c|]; [|exact H]. destruct (find _ _) as [[j m]|]; [|exact H]. apply from_update; [exact H|].
    apply read_from. apply U. cbn. rewrite N.eqb_refl. left. reflexivity.
  - unfold define_variable. destruct (current v) as [c|]; [|exact H]. apply from_update; [exact H|]. apply define_from. apply U. cbn. rewrite N.eqb_refl. left. reflexivity.
  - assert (D : forall v, from u v -> from u (define_variable v x s)).
    { intros v0 H0. unfold define_variable. destruct (current v0) as [c|]; [|exact H0]. apply from_update; [exact H0|]. apply define_from. apply U. cbn. rewrite N.eqb_refl. left. reflexivity. }
    destruct y; auto.
  - assert (Uh : forall x s, In s (places x h) -> In s (u x)) by (intros; apply U; cbn; apply in_app_iff; auto).
    assert (Ui : forall x s, In s (places x i) -> In s (u x)) by (intros; apply U; cbn; apply in_app_iff; auto).
    destruct (entered k) as [b|]; [|auto].
    assert (X : forall v, from u v -> from u (exit_scope v)).
    { intros v0 H0. unfold exit_scope. destruct (current v0) as [c|]; [|exact H0]. destruct (nth_error (scopes v0) c); exact H0. }
    apply X, IHi; [exact Ui|]. apply IHh; [exact Uh|]. apply enter_from, H.
Qed.
Lemma from_new : forall u, from u new.
Proof. intros u i n w s E I. destruct i as [|i]; cbn in E; [injection E as <-; contradiction I|destruct i; discriminate E]. Qed.

Lemma from_references : forall u v x c s, from u v -> In s (local_variable_reference_ranges_at v x c) -> In s (u x).
Proof.
  intros u v x c s H I. unfold local_variable_reference_ranges_at in I. destruct (find_scope_for_variable_at v x c) as [i|]; [|contradiction I].
  unfold find_rename_targets in I. apply in_flat_map in I. destruct I as ([j m] & I & K). cbn [snd] in K. apply in_flat_map in K. destruct K as (w & K & J). apply filter_In in K. destruct K as [K E].
  apply (proj1 (named_iff _ _)) in E. rewrite <- E. exact (H j m w s (walk_nodes _ _ _ _ _ I) K J).
Qed.
Lemma from_definition : forall u v x c s, from u v -> local_variable_definition_range_before v x c = Some s -> In s (u x) /\ fst s < c.
Proof.
  intros u v x c s H E. unfold local_variable_definition_range_before in E. destruct (match find_scope_for_variable_at v x c with Some i => Some i | None => scope_at_position v c end) as [i|]; [|discriminate E].
  unfold find_variable in E. destruct (find _ (outward v i)) as [[j m]|] eqn:F; [|discriminate E]. destruct (find (named x) (local_variables m)) as [w|] eqn:FW; [|discriminate E].
  destruct (Nat.ltb_spec (fst (definition_location w)) c) as [L|L]; [|discriminate E]. injection E as <-. split; [|exact L].
  apply find_some in F. destruct F as [F _]. apply find_some in FW. destruct FW as [FW Q]. apply (proj1 (named_iff _ _)) in Q. rewrite <- Q. apply (H j m w); auto; [exact (walk_nodes _ _ _ _ _ F)|left; reflexivity].
Qed.
Lemma symbols_places : forall t x s, In (x, s) (symbols t) -> In s (places x t).
Proof.
  induction t; cbn [symbols places]; intros y z I; try contradiction I.
  - apply in_app_iff. apply in_app_iff in I. destruct I; auto.
  - apply in_app_iff. apply in_app_iff in I. destruct I; auto.
  - destruct I as [I|[]]. injection I as -> ->. rewrite N.eqb_refl. left. reflexivity.
  - apply in_app_iff. apply in_app_iff in I. destruct I; auto.
Qed.
Lemma latest_spec : forall c x l best s, latest c x best l = Some s -> best = Some s \/ (In (x, s) l /\ fst s < c).
Proof.
  intros c x. induction l as [|[y r] l IH]; intros best s E; cbn [latest] in E; [auto|]. apply IH in E. destruct E as [E|[I L]]; [|right; split; [right; exact I|exact L]].
  destruct (N.eqb_spec y x) as [Q|Q]; cbn [andb] in E; [|auto]. destruct (Nat.ltb_spec (fst r) c) as [L|L]; cbn [andb] in E; [|auto].
  destruct (match best with Some b => fst b <=? fst r | None => true end); [|auto]. injection E as <-. right. subst y. split; [left; reflexivity|exact L].
Qed.
