(** C119: calls whose block may change its parameters. *)
From Coq Require Import List Arith Bool Lia.
From Verif Require Import Types_Model Types_Spec Types_Order Types_Union
  HigherOrder_Model HigherOrder_Spec HigherOrder_Props BlockState_Model.
Import ListNotations.

Lemma prepare_announced compatible receiver bindings args l : forall common cs bs,
  prepare_all compatible receiver bindings args common l = Fine (cs, Some bs) ->
  (forall c, common = Some c -> c = bs) /\
  forall c, In c cs -> all_fine (map (resolve (fst (snd c)) 1) (block_parameters (fst c))) = Fine bs /\
    existsb contains_unknown bs = false.
Proof.
  assert (ONE : forall g c b, prepare_one compatible receiver bindings args g = Fine (c, b) ->
    all_fine (map (resolve (fst (snd c)) 1) (block_parameters (fst c))) = Fine b /\ existsb contains_unknown b = false).
  { intros g c b E. unfold prepare_one in E. apply andthen_fine in E. destruct E as (g1 & _ & E).
    destruct (valid g1); [|discriminate]. apply andthen_fine in E. destruct E as (st1 & _ & E).
    apply andthen_fine in E. destruct E as (st2 & _ & E). apply andthen_fine in E. destruct E as (bs' & B & E).
    destruct (existsb contains_unknown bs') eqn:U; [discriminate|]. injection E as <- <-. auto. }
  induction l as [|g l IH]; intros common cs bs E; cbn in E.
  - injection E as <- ->. split; [intros c Q; now injection Q | intros c []].
  - apply andthen_fine in E. destruct E as ((c, b) & E1 & E). cbn [fst snd] in E. apply ONE in E1. destruct common as [c0|].
    + destruct (list_eqb c0 b) eqn:Q; [|discriminate]. apply list_eqb_eq in Q. subst c0.
      apply andthen_fine in E. destruct E as ((cs', o) & E2 & E). injection E as <- ->.
      destruct (IH _ _ _ E2) as [H1 H2]. assert (b = bs) by auto. subst b. split; [exact H1|].
      intros c' [<-|I1]; [exact E1 | now apply H2].
    + apply andthen_fine in E. destruct E as ((cs', o) & E2 & E). injection E as <- ->.
      destruct (IH _ _ _ E2) as [H1 H2]. assert (b = bs) by auto. subst b. split; [discriminate|].
      intros c' [<-|I1]; [exact E1 | now apply H2].
Qed.
Lemma announced compatible receiver sigs bindings args set :
  prepare compatible receiver sigs bindings args = Fine set ->
  forall c, In c (fst set) -> all_fine (map (resolve (fst (snd c)) 1) (block_parameters (fst c))) = Fine (snd set) /\
    existsb contains_unknown (snd set) = false.
Proof.
  intros P. unfold prepare in P. destruct (filter _ sigs) as [|g gs]; [discriminate|].
  destruct (max_overloads <? _); [discriminate|]. apply andthen_fine in P. destruct P as ((cs, o) & P & Q).
  cbn [fst snd] in Q. destruct o as [bs|]; [|discriminate]. injection Q as <-. cbn [fst snd].
  exact (proj2 (prepare_announced _ _ _ _ _ _ _ _ P)).
Qed.

Lemma replace_same s : forall l bs, Forall2 (fun t b => resolve s 1 t = Fine b) l bs ->
  existsb contains_unknown bs = false -> replace_all (combine l bs) s = Fine s.
Proof.
  induction 1 as [|t b l bs E F IH]; intros U; [reflexivity|]. cbn [combine replace_all].
  cbn [existsb] in U. apply orb_false_iff in U. destruct U as [U1 U2].
  replace (replace t b s) with (@Fine substs s); [now apply IH|].
  unfold replace. rewrite U1. destruct t; try reflexivity. cbn in E.
  destruct (look s n) as [p|]; [|discriminate]. injection E as ->. unfold insert_over. rewrite eqb_refl.
  now destruct (negb _ || negb _).
Qed.

(** A block that leaves its parameters as they were changes nothing. *)
Theorem C119_unchanged compatible receiver sigs bindings args set block :
  prepare compatible receiver sigs bindings args = Fine set ->
  finish_state compatible set block (snd set) = finish compatible set block.
Proof.
  intros P. assert (A := announced _ _ _ _ _ _ P). unfold finish_state, finish.
  destruct (contains_unknown block); [reflexivity|]. destruct (exceeds block); [reflexivity|].
  rewrite Nat.eqb_refl. cbn [negb]. replace (map (finish_state_one compatible block (snd set)) (fst set))
    with (map (finish_one compatible block) (fst set)); [reflexivity|].
  apply map_ext_in. intros (g, (s, i)) C. destruct (A _ C) as [B U]. cbn [fst snd] in B.
  unfold finish_state_one. cbn [fst snd]. rewrite replace_same; [reflexivity | | exact U].
  apply all_fine_iff in B. exact B.
Qed.
Print Assumptions C119_unchanged.

(** So the type describes what is returned, as in C117. *)
Theorem C119_sound_partial named compatible self receiver sigs bindings args set block x r :
  core_classes named ->
  (forall x, receiver = Some x -> forall v, den named x v <-> self v) ->
  prepare compatible receiver sigs bindings args = Fine set ->
  finish_state compatible set block (snd set) = Fine x ->
  settled compatible set block ->
  all_answered named compatible set args block ->
  typed_call named args (snd set) block r ->
  (exists g, In g sigs /\ count_matches g (length args) = true /\ keeps named self g bindings r) ->
  forall v, run_result r v -> den named x v.
Proof.
  intros CC H1 P F. rewrite (C119_unchanged _ _ _ _ _ _ _ P) in F.
  now apply (C117_sound_partial named compatible CC self receiver sigs bindings args set block x r).
Qed.
Print Assumptions C119_sound_partial.

(** With [&:name]: if what is found for the method describes what it returns on every value
    of the parameter's type, the type of the call describes what it returns. *)
Theorem C119_static_partial named compatible self receiver sigs bindings args set answer x r :
  core_classes named ->
  (forall x, receiver = Some x -> forall v, den named x v <-> self v) ->
  prepare compatible receiver sigs bindings args = Fine set ->
  finish_static compatible set answer = Fine x ->
  (forall a y, snd set = [a] -> answer a = Some y ->
     settled compatible set y /\ all_answered named compatible set args y) ->
  Forall2 (fun a v => den named a v) args (run_args r) ->
  (forall a y, answer a = Some y -> forall w v, den named a w -> run_block r [w] v -> den named y v) ->
  (exists g, In g sigs /\ count_matches g (length args) = true /\ keeps named self g bindings r) ->
  length (snd set) = 1 /\ forall v, run_result r v -> den named x v.
Proof.
  intros CC H1 P F S T1 T2 K. unfold finish_static in F.
  destruct (snd set) as [|a [|b l]] eqn:A; try discriminate. split; [reflexivity|].
  destruct (answer a) as [y|] eqn:Y; [|discriminate]. destruct (S a y eq_refl Y) as [S1 S2].
  apply (C117_sound_partial named compatible CC self receiver sigs bindings args set y x r); auto.
  split; [exact T1|]. rewrite A. intros bs v F1 B. inversion F1 as [|a' w l' ws W F2]; subst. inversion F2; subst.
  now apply (T2 a y Y w).
Qed.
Print Assumptions C119_static_partial.

(** Only the type of a hash can change; every other parameter has the type announced. *)
Theorem C119_changed compatible receiver sigs bindings args set block post x :
  prepare compatible receiver sigs bindings args = Fine set ->
  finish_state compatible set block post = Fine x ->
  contains_unknown x = false /\ length post = length (snd set) /\
  forall c i n a b, In c (fst set) -> nth_error (block_parameters (fst c)) i = Some (Variable_ n) ->
    nth_error (snd set) i = Some a -> nth_error post i = Some b ->
    (forall j, j < i -> nth_error (block_parameters (fst c)) j <> Some (Variable_ n)) ->
    a = b \/ hash_like a = true /\ hash_like b = true.
Proof.
  intros P F. assert (A := announced _ _ _ _ _ _ P). unfold finish_state in F.
  destruct (contains_unknown block); [discriminate|]. destruct (exceeds block); [discriminate|].
  destruct (length post =? length (snd set)) eqn:L; [|discriminate]. apply Nat.eqb_eq in L. cbn [negb] in F.
  apply andthen_fine in F. destruct F as (rs & F1 & F). apply all_fine_iff in F1.
  split; [|split; [exact L|]].
  - destruct rs as [|z rs]; [discriminate|]. destruct (forallb (eqb z) rs); [|discriminate]. injection F as ->.
    inversion F1 as [|c y l k E _]; subst. unfold finish_state_one in E. apply andthen_fine in E.
    destruct E as (s & _ & E). unfold finish_one in E. apply andthen_fine in E. destruct E as (st & _ & E).
    apply andthen_fine in E. destruct E as (y & _ & E). destruct (contains_unknown y) eqn:U; [discriminate|].
    now injection E as <-.
  - clear F. intros c i n a b C N1 N2 N3 NJ. destruct (A c C) as [B _]. apply all_fine_iff in B.
    assert (E : exists y, finish_state_one compatible block post c = Fine y).
    { clear - F1 C. induction F1 as [|d y l k E F1 IH]; [destruct C|]. destruct C as [->|C]; [eauto | auto]. }
    destruct E as (y & E). unfold finish_state_one in E. apply andthen_fine in E. destruct E as (s' & E & _).
    set (s := fst (snd c)) in *. set (l := block_parameters (fst c)) in *.
    assert (Q : look s n = Some a).
    { assert (R : resolve s 1 (Variable_ n) = Fine a).
      { clear - B N1 N2. revert i N1 N2. induction B as [|t d l k R B IH]; intros [|i] N1 N2; try discriminate.
        - cbn in N1, N2. congruence.
        - exact (IH i N1 N2). }
      cbn in R. destruct (look s n); [now injection R as -> | discriminate]. }
    clearbody s l. clear - E Q N1 N3 NJ. revert i post s E Q N1 N3 NJ.
    induction l as [|t l IH]; intros [|i] [|p post] s E Q N1 N3 NJ; try discriminate; cbn in E;
      apply andthen_fine in E; destruct E as (s1 & E1 & E).
    + cbn in N1, N3. injection N1 as ->. injection N3 as ->. unfold replace in E1.
      destruct (contains_unknown b); [discriminate|]. rewrite Q in E1.
      destruct (hash_like a); [destruct (hash_like b); [now right|]|]; cbn in E1;
        (destruct (eqb a b) eqn:EQ; [left; now apply eqb_eq | discriminate]).
    + apply (IH i post s1); auto.
      * unfold replace in E1. destruct (contains_unknown p); [discriminate|].
        destruct t as [| |m| | | |]; try (now injection E1 as <-).
        assert (NM : m <> n) by (intros ->; apply (NJ 0); [lia | reflexivity]).
        destruct (look s m) as [q|]; [|discriminate]. unfold insert_over in E1.
        destruct (negb _ || negb _), (eqb q p); try discriminate; injection E1 as <-; try exact Q.
        unfold look in *. cbn. apply Nat.eqb_neq in NM. now rewrite NM.
      * intros j J. apply (NJ (S j)). lia.
Qed.
Print Assumptions C119_changed.

(** The fact collector gives a type for every parameter, however many names the block has. *)
Theorem C119_collector announced tracked :
  length (collector_post announced tracked) = length announced /\
  forall i, nth_error (collector_post announced tracked) i =
    match nth_error announced i, nth_error tracked i with
    | Some a, None => Some a | Some _, Some t => Some t | None, _ => None end.
Proof.
  revert tracked. induction announced as [|a l IH]; intros tracked; [split; [reflexivity | now intros [|i]]|].
  destruct tracked as [|t tracked]; cbn.
  - split; [reflexivity|]. intros [|i]; [reflexivity|]. cbn. destruct (nth_error l i); reflexivity || (destruct i; reflexivity).
  - destruct (IH tracked) as [H1 H2]. split; [now rewrite H1|]. intros [|i]; [reflexivity | apply H2].
Qed.
Print Assumptions C119_collector.

(** ** What is not true *)
(** In the type tracker a call gets no type if the block names fewer parameters than the
    method yields, as in [[2].map { "x" }]. *)
Theorem C119_fewer_names_refuted compatible set block names after :
  length names < length (snd set) ->
  finish_state compatible set block (tracker_post names (snd set) after) = Failed.
Proof.
  intros L. unfold finish_state. destruct (contains_unknown block); [reflexivity|]. destruct (exceeds block); [reflexivity|].
  unfold tracker_post. rewrite map_length, combine_length.
  replace (Nat.min _ _ =? _) with false; [reflexivity|]. symmetry. apply Nat.eqb_neq. lia.
Qed.
Print Assumptions C119_fewer_names_refuted.

(** [each_with_object: [A] (A) { (Elem, A) -> untyped } -> A].  The type that the memo has
    after the block replaces the one before, as if the block were run at least once: of
    [[].each_with_object({}) { |x, h| h[:a] = x }] the result is said to have a key [:a]. *)
Definition with_object : signature :=
  {| receiver_parameters := [elem]; type_parameters := [elem; other];
     parameters := [(Required, Variable_ other)]; block_parameters := [Variable_ elem; Variable_ other];
     block_return := Unconstrained; return_template := Variable_ other |}.
Definition empty_hash : ty := TShape [] None true false 1.
Definition filled_hash : ty := TShape [(LSym 1, integer, true)] None true false 1.
Theorem C119_never_run_refuted named self :
  exists set r,
    prepare is_compatible None [with_object] [(elem, integer)] [empty_hash] = Fine set /\
    snd set = [integer; empty_hash] /\
    finish_state is_compatible set integer [integer; filled_hash] = Fine filled_hash /\
    typed_call named [empty_hash] (snd set) integer r /\
    (* the block is not run *)
    (forall bs v, ~ run_block r bs v) /\
    keeps named self with_object [(elem, integer)] r /\
    run_result r (VHash []) /\ ~ den named filled_hash (VHash []).
Proof.
  eexists. exists {| run_args := [VHash []]; run_block := fun _ _ => False; run_result := fun v => v = VHash [] |}.
  split; [vm_compute; reflexivity|]. split; [reflexivity|]. split; [vm_compute; reflexivity|].
  assert (EH : den named empty_hash (VHash [])).
  { exists []. split; [reflexivity|]. cbn. repeat split; intros; contradiction. }
  split; [|split; [|split; [|split; [reflexivity|]]]].
  - split; [constructor; [exact EH | constructor] | intros bs v _ []].
  - intros bs v [].
  - intros A _ HA _ v ->. destruct (HA 0 (VHash []) eq_refl) as (t & E & H). injection E as <-. exact H.
  - intros (es & E & H & _). injection E as <-. destruct (H (LSym 1)) as (y & []). now left.
Qed.
Print Assumptions C119_never_run_refuted.

(** ** Cases that meet the hypotheses *)
(** [[2].map { |x| x.to_s }] as in C117, with the parameter's type after the block. *)
Example unchanged_case : exists set,
  prepare is_compatible None [inject; map_] [(elem, integer)] [] = Fine set /\
  finish_state is_compatible set string (tracker_post [20] (snd set) (fun _ a => a)) = Fine (TArray [string]) /\
  finish_state is_compatible set string (tracker_post [] (snd set) (fun _ a => a)) = Failed /\
  finish_state is_compatible set string (collector_post (snd set) []) = Fine (TArray [string]) /\
  finish_static is_compatible set (fun _ => Some string) = Fine (TArray [string]) /\
  settled is_compatible set string /\ all_answered halves is_compatible set [] string /\
  (forall w v, den halves integer w -> run_block map_run [w] v -> den halves string v).
Proof.
  eexists. split; [vm_compute; reflexivity|]. do 4 (split; [vm_compute; reflexivity|]). split; [|split].
  - intros c s [<-|[]] E; vm_compute in E; injection E as <-; reflexivity.
  - intros c [<-|[]]. split; [intros e x Q; inversion Q|]. intros [|j] a t J; discriminate.
  - intros w v _ [_ ->]. reflexivity.
Qed.
Example changed_case : exists set,
  prepare is_compatible None [with_object] [(elem, integer)] [empty_hash] = Fine set /\
  finish_state is_compatible set integer [integer; filled_hash] = Fine filled_hash /\
  (exists c, In c (fst set) /\ nth_error (block_parameters (fst c)) 1 = Some (Variable_ other)) /\
  finish_state is_compatible set integer [string; filled_hash] = Failed.
Proof.
  eexists. split; [vm_compute; reflexivity|]. split; [vm_compute; reflexivity|].
  split; [eexists; split; [now left | reflexivity]|]. vm_compute. reflexivity.
Qed.
