(** C87: the parameter highlighted by signature help is the one that takes the argument under the cursor.
    C88: signature help is about the innermost call around the cursor, and about the right argument of it. *)
From Coq Require Import List Arith NArith Bool Lia.
From Verif Require Import Calls_Model Calls_Spec SigHelp_Model SigHelp_Spec SigHelp_Proofs SigHelp_Find.
Import ListNotations.

Lemma highlighted_at comma cursor c p seps :
  separated comma (args c) seps -> close (args c) seps -> no_other_comma comma cursor (args c) seps ->
  (takes_keywords p -> forall k, ~ touches cursor (args c) k) ->
  highlighted comma cursor c p = shown_at p (commas_before cursor seps).
Proof.
  intros Sp Cl No Un. unfold highlighted, shown_at. rewrite (active_index_commas _ _ _ _ Sp Cl No).
  destruct (active_keyword cursor (args c)) as [k|] eqn:K; auto.
  rewrite no_keywords_index; auto. intro T. rewrite (keyword_untouched _ _ (Un T)) in K. discriminate.
Qed.

(** *** C87 *)

(** Whatever was typed so far, the highlighted parameter receives the argument at the cursor in some call the
    method accepts. *)
Theorem C87_can_receive_partial : forall comma cursor c p seps,
  plain p -> grammatical p ->
  separated comma (args c) seps -> close (args c) seps -> no_other_comma comma cursor (args c) seps ->
  (takes_keywords p -> forall k, ~ touches cursor (args c) k) ->
  may_have p (commas_before cursor seps) ->
  exists n q, commas_before cursor seps < n /\ takes_count p n /\
    highlighted comma cursor c p = Some q /\ receives p n (commas_before cursor seps) q.
Proof.
  intros comma cursor c p seps Pl Gr Sp Cl No Un M. rewrite (highlighted_at _ _ _ _ _ Sp Cl No Un). now apply shown_possible.
Qed.
Print Assumptions C87_can_receive_partial.

(** In a complete call it receives it, unless there are required parameters behind the optional ones or the rest. *)
Theorem C87_receives_partial : forall comma cursor c p seps n,
  plain p -> grammatical p ->
  separated comma (args c) seps -> close (args c) seps -> no_other_comma comma cursor (args c) seps ->
  (takes_keywords p -> forall k, ~ touches cursor (args c) k) ->
  passes_positional p (args c) n -> takes_count p n -> commas_before cursor seps < n ->
  posts p = [] \/ commas_before cursor seps < length (requireds p) \/ (~ takes_any_number p /\ n = most p) ->
  exists q, highlighted comma cursor c p = Some q /\ receives p n (commas_before cursor seps) q /\
    forall q', receives p n (commas_before cursor seps) q' -> q' = q.
Proof.
  intros comma cursor c p seps n Pl Gr Sp Cl No Un Pn T L C. rewrite (highlighted_at _ _ _ _ _ Sp Cl No Un).
  destruct (shown_exact p Pl Gr n (commas_before cursor seps) T L C) as [q [A B]]. exists q. split; auto. split; auto.
  intros q' B'. eapply receives_unique; eauto.
Qed.
Print Assumptions C87_receives_partial.

(** The cursor is in [k: value]. *)
Theorem C87_keyword_partial : forall comma cursor c p k,
  touches cursor (args c) (Some k) -> (forall k', touches cursor (args c) k' -> k' = Some k) ->
  In k (declared_names p) \/ (exists x, key_rest p = Some (NamedKeyRest x)) ->
  exists q, highlighted comma cursor c p = Some q /\ receives_key p k q.
Proof.
  intros comma cursor c p k T U C. unfold highlighted. rewrite (keyword_touched _ _ _ T U). now apply shown_key.
Qed.
Print Assumptions C87_keyword_partial.

(** A method [def f(a, b = 1, *c, k:, **o)] called as [f(1,22,333,k: 4)]; offsets start behind the parenthesis. *)
Definition na : name := [97%N]. Definition nb : name := [98%N]. Definition nc : name := [99%N].
Definition nk : name := [107%N]. Definition no_ : name := [111%N].
Definition f0 : parameters := Parameters [Plain na] [nb] (Some (NamedRest nc)) [] [RequiredKey nk] (Some (NamedKeyRest no_)) None.
Definition args0 : list arg :=
  [Arg (0, 1) None false; Arg (2, 4) None false; Arg (5, 8) None false; Arg (9, 13) (Some [KeyPair (9, 13) (Some nk)]) false].
Definition call0 : call := Call (Some (0, 0)) None args0 (Some (0, 13)).
Definition commas0 (i : nat) : bool := existsb (Nat.eqb i) [1; 4; 8].
Example C87_receives_case :
  plain f0 /\ grammatical f0 /\ separated commas0 args0 [1; 4; 8] /\ close args0 [1; 4; 8] /\
  no_other_comma commas0 6 args0 [1; 4; 8] /\ (forall k, ~ touches 6 args0 k) /\
  passes_positional f0 args0 3 /\ takes_count f0 3 /\ commas_before 6 [1; 4; 8] = 2 /\ may_have f0 2 /\
  highlighted commas0 6 call0 f0 = Some (nc, KRest) /\
  touches 11 args0 (Some nk) /\ (forall k', touches 11 args0 k' -> k' = Some nk) /\ In nk (declared_names f0) /\
  highlighted commas0 11 call0 f0 = Some (nk, KRequiredKeyword).
Proof.
  split. { repeat constructor; discriminate. }
  split. { split; [discriminate|]. intro; discriminate. }
  split. { cbn. repeat split; lia. }
  split. { cbn. repeat split. }
  split. { intros a i E. cbn in E. injection E as <-. cbn. intros. lia. }
  split. { intros k [s [I L]]. cbn in I. destruct I as [I|[]]. injection I as <- <-. cbn in L. lia. }
  split. { split; [intros a [<-|[<-|[<-|[<-|[]]]]]; reflexivity|]. left. split; [left; discriminate|]. split; [cbn; lia|].
           intros [|[|[|[|j]]]] a E; cbn in E; try (injection E as <-; cbn; split; intro Q; (reflexivity || discriminate || lia)). destruct j; discriminate. }
  split. { split; [cbn; lia|]. left. left. discriminate. }
  split; [reflexivity|]. split; [right; left; discriminate|]. split; [reflexivity|].
  split. { exists (9, 13). split; [left; reflexivity|cbn; lia]. }
  split. { intros k' [s [I L]]. cbn in I. destruct I as [I|[]]. injection I as <- <-. reflexivity. }
  split; [left; reflexivity|reflexivity].
Qed.

Lemma no_hash_untouched cursor l : Forall (fun a => hash a = None) l -> forall k, ~ touches cursor l k.
Proof.
  intros F k [s [I _]]. unfold pairs_of in I. apply in_flat_map in I as [a [A B]]. rewrite Forall_forall in F. rewrite (F a A) in B. destruct B.
Qed.
Definition two : list arg := [Arg (0, 1) None false; Arg (2, 3) None false].
Definition three : list arg := two ++ [Arg (4, 5) None false].
Definition of_args (l : list arg) : call := Call (Some (0, 0)) None l (Some (0, 9)).
Definition commas1 (i : nat) : bool := existsb (Nat.eqb i) [1; 3].

(** [def f( *a, b )]: in [f(1,2,3)] the second argument belongs to [*a], and [b] is highlighted. *)
Definition f1 : parameters := Parameters [] [] (Some (NamedRest na)) [Plain nb] [] None None.
Theorem C87_after_rest_refuted :
  exists comma cursor c p seps n q r,
    plain p /\ grammatical p /\ separated comma (args c) seps /\ close (args c) seps /\ no_other_comma comma cursor (args c) seps /\
    (forall k, ~ touches cursor (args c) k) /\ passes_positional p (args c) n /\ takes_count p n /\ commas_before cursor seps < n /\
    highlighted comma cursor c p = Some q /\ receives p n (commas_before cursor seps) r /\ q <> r.
Proof.
  exists commas1, 3, (of_args three), f1, [1; 3], 3, (nb, KRequired), (na, KRest).
  split. { repeat constructor; discriminate. }
  split. { split; [discriminate|]. intro; discriminate. }
  split. { cbn. repeat split; lia. }
  split. { cbn. repeat split. }
  split. { intros a i E. cbn in E. injection E as <-. cbn. intros. lia. }
  split. { apply no_hash_untouched. repeat constructor. }
  split. { split; [intros a [<-|[<-|[<-|[]]]]; reflexivity|]. right. split; [|split; [reflexivity|]].
           - intros [T|[T|[[x T]|[T|T]]]]; try discriminate. now apply T.
           - intros a es [<-|[<-|[<-|[]]]]; discriminate. }
  split. { split; [cbn; lia|]. left. left. discriminate. }
  split; [cbn; lia|]. split; [reflexivity|]. split; [|discriminate].
  change (commas_before 3 [1; 3]) with 1. apply by_rest; [cbn; lia|unfold before_posts; cbn; lia|reflexivity].
Qed.
Print Assumptions C87_after_rest_refuted.

(** [def f(a = 1, b)]: in [f(2)] the argument belongs to [b], and [a] is highlighted. *)
Definition f2 : parameters := Parameters [] [na] None [Plain nb] [] None None.
Theorem C87_after_optional_refuted :
  exists comma cursor c p seps n q r,
    plain p /\ grammatical p /\ separated comma (args c) seps /\ close (args c) seps /\ no_other_comma comma cursor (args c) seps /\
    (forall k, ~ touches cursor (args c) k) /\ passes_positional p (args c) n /\ takes_count p n /\ commas_before cursor seps < n /\
    highlighted comma cursor c p = Some q /\ receives p n (commas_before cursor seps) r /\ q <> r.
Proof.
  exists (fun _ => false), 1, (of_args [Arg (0, 1) None false]), f2, [], 1, (na, KOptional), (nb, KRequired).
  split. { repeat constructor; discriminate. }
  split. { split; [discriminate|]. intro; discriminate. }
  split. { cbn. lia. }
  split. { exact Logic.I. }
  split. { intros a i E. cbn in E. injection E as <-. cbn. intros. lia. }
  split. { apply no_hash_untouched. repeat constructor. }
  split. { split; [intros a [<-|[]]; reflexivity|]. right. split; [|split; [reflexivity|]].
           - intros [T|[T|[[x T]|[T|T]]]]; try discriminate. now apply T.
           - intros a es [<-|[]]; discriminate. }
  split. { split; [cbn; lia|]. right. cbn. lia. }
  split; [cbn; lia|]. split; [reflexivity|]. split; [|discriminate].
  apply (by_post _ _ _ 0); [reflexivity|cbn; lia].
Qed.
Print Assumptions C87_after_optional_refuted.

(** [def f((a, b), c)]: in [f(x, y)] the second argument belongs to [c], but nothing is left to highlight for it but
    the only parameter listed, which is highlighted for the first argument too. *)
Definition f3 : parameters := Parameters [Destructured; Plain nc] [] None [] [] None None.
Theorem C87_destructured_refuted :
  exists comma cursor c p seps n q,
    grammatical p /\ separated comma (args c) seps /\ close (args c) seps /\ no_other_comma comma cursor (args c) seps /\
    (forall k, ~ touches cursor (args c) k) /\ passes_positional p (args c) n /\ takes_count p n /\ commas_before cursor seps < n /\
    posts p = [] /\ highlighted comma cursor c p = Some q /\ ~ receives p n (commas_before cursor seps) q.
Proof.
  exists commas1, 1, (of_args two), f3, [1], 2, (nc, KRequired).
  split. { split; [discriminate|]. intro; discriminate. }
  split. { cbn. repeat split; lia. }
  split. { cbn. repeat split. }
  split. { intros a i E. cbn in E. injection E as <-. cbn. intros. lia. }
  split. { apply no_hash_untouched. repeat constructor. }
  split. { split; [intros a [<-|[<-|[]]]; reflexivity|]. right. split; [|split; [reflexivity|]].
           - intros [T|[T|[[x T]|[T|T]]]]; try discriminate. now apply T.
           - intros a es [<-|[<-|[]]]; discriminate. }
  split. { split; [cbn; lia|]. right. cbn. lia. }
  split; [cbn; lia|]. split; [reflexivity|]. split; [reflexivity|].
  change (commas_before 1 [1]) with 0. intro R. inversion R as [x E|x A B E|x A B E|A B E|A B E|j x E F]; subst; try discriminate; destruct j; discriminate.
Qed.
Print Assumptions C87_destructured_refuted.

(** [def f(a = 1, ** )]: in [f(k: 2)] the keyword belongs to [**], and [a] is highlighted; the same with [...]. *)
Definition f4 (r : keyword_rest) : parameters := Parameters [] [na] None [] [] (Some r) None.
Theorem C87_anonymous_keywords_refuted :
  forall r, r = AnonymousKeyRest \/ r = ForwardingKeyRest ->
  exists comma cursor c k q q',
    grammatical (f4 r) /\ touches cursor (args c) (Some k) /\ (forall k', touches cursor (args c) k' -> k' = Some k) /\
    highlighted comma cursor c (f4 r) = Some q /\ receives_key (f4 r) k q' /\ q <> q'.
Proof.
  intros r R. exists (fun _ => false), 2, (of_args [Arg (0, 4) (Some [KeyPair (0, 4) (Some nk)]) false]), nk, (na, KOptional),
    ([], match r with AnonymousKeyRest => KAnonymousKeywordRest | _ => KForwarding end).
  split. { split; [discriminate|]. intros _. repeat split. }
  split. { exists (0, 4). split; [left; reflexivity|cbn; lia]. }
  split. { intros k' [s [I L]]. cbn in I. destruct I as [I|[]]. injection I as <- <-. reflexivity. }
  split; [destruct R; subst; reflexivity|]. split; [|discriminate].
  destruct R; subst; [apply by_anonymous_key_rest|apply by_forwarding_key]; auto.
Qed.
Print Assumptions C87_anonymous_keywords_refuted.

(** *** C88 *)
Theorem C88_innermost : forall t cursor, parsed t ->
  match find_call cursor t with
  | Some (path, s, c) => exists u, at_path t path = Some u /\ loc u = s /\ holds cursor u c /\
      forall path' u' c', at_path t path' = Some u' -> holds cursor u' c' -> exists r, path = path' ++ r
  | None => forall path u c, at_path t path = Some u -> ~ holds cursor u c
  end.
Proof.
  intros t cursor P. destruct (find_call cursor t) as [[[path s] c]|] eqn:E.
  - now apply find_some.
  - now apply find_none.
Qed.
Print Assumptions C88_innermost.

Theorem C88_argument_partial : forall comma cursor l seps,
  separated comma l seps -> close l seps -> no_other_comma comma cursor l seps ->
  active_index comma cursor l = commas_before cursor seps.
Proof. exact active_index_commas. Qed.
Print Assumptions C88_argument_partial.

(** [f(a , b)] with the cursor before the comma: still in the first argument, and the second is taken. *)
Theorem C88_space_before_comma_refuted : exists comma cursor l seps,
  separated comma l seps /\ no_other_comma comma cursor l seps /\
  commas_before cursor seps = 0 /\ active_index comma cursor l = 1.
Proof.
  exists (Nat.eqb 2), 2, [Arg (0, 1) None false; Arg (4, 5) None false], [2].
  split; [cbn; repeat split; lia|]. split; [|split; reflexivity].
  intros a i E. cbn in E. injection E as <-. cbn. intros. lia.
Qed.
Print Assumptions C88_space_before_comma_refuted.

(** A comma in a comment behind the last argument: [f(a # x,] and the cursor on the next line. *)
Theorem C88_comment_refuted : exists comma cursor l,
  separated comma l [] /\ active_index comma cursor l = 1.
Proof. exists (Nat.eqb 5), 7, [Arg (0, 1) None false]. split; [cbn; lia|reflexivity]. Qed.
Print Assumptions C88_comment_refuted.

(** [g(f(1,&b), 2)]: trees of two calls, one in the other's arguments.  Offsets: g 0-1, f 2-3, its parentheses 4-8, its end
    9, the end 13. *)
Definition inner : call := Call (Some (2, 3)) (Some (6, 8)) [Arg (4, 5) None false] (Some (4, 8)).
Definition outer : call := Call (Some (0, 1)) None [Arg (2, 9) None false; Arg (11, 12) None false] (Some (2, 12)).
Definition tree0 : tree := Node (0, 13) (Some outer) [Node (2, 9) (Some inner) []; Node (11, 12) None []].
Lemma tree0_paths path u : at_path tree0 path = Some u ->
  (path = [] /\ u = tree0) \/ (path = [0] /\ u = Node (2, 9) (Some inner) []) \/ (path = [1] /\ u = Node (11, 12) None []).
Proof.
  destruct path as [|[|[|[|i]]] [|[|j] r]]; cbn; intro E; try discriminate; injection E as <-; auto.
Qed.
Lemma app_one_nil : forall (a : list nat) i, a ++ [i] <> [].
Proof. destruct a; discriminate. Qed.
Lemma app_one : forall (a : list nat) i j, a ++ [i] = [j] -> a = [] /\ i = j.
Proof. intros [|x [|y a]] i j E; try discriminate. injection E; auto. Qed.
Lemma tree0_parsed : parsed tree0.
Proof.
  constructor.
  - intros a u E. apply tree0_paths in E as [[-> ->]|[[-> ->]|[-> ->]]]; cbn; lia.
  - intros a i u v E F. apply tree0_paths in F as [[F ->]|[[F ->]|[F ->]]].
    + destruct (app_one_nil _ _ F).
    + apply app_one in F as [-> ->]. cbn in E. injection E as <-. split; cbn; lia.
    + apply app_one in F as [-> ->]. cbn in E. injection E as <-. split; cbn; lia.
  - intros a i j u v L E F.
    apply tree0_paths in E as [[E _]|[[E ->]|[E ->]]]; [destruct (app_one_nil _ _ E)| |];
    apply app_one in E as [-> ->]; apply tree0_paths in F as [[F _]|[[F ->]|[F ->]]]; try discriminate; cbn in F; injection F as ->; cbn; lia.
  - intros a u c m E C M. apply tree0_paths in E as [[-> ->]|[[-> ->]|[-> ->]]]; cbn in C; try discriminate; injection C as <-;
    cbn in M; injection M as <-; unfold inside; cbn; lia.
  - intros a b u v c d E F Nb C D.
    apply tree0_paths in F as [[F ->]|[[F ->]|[F ->]]]; cbn in D; try discriminate.
    + apply app_eq_nil in F as [_ ->]. congruence.
    + destruct a as [|x a].
      * cbn in E. injection E as <-. cbn. lia.
      * injection F as -> F. apply app_eq_nil in F as [-> ->]. congruence.
Qed.
Definition in_parens (cursor : nat) (c : call) : Prop := exists s, parens c = Some s /\ fst s <= cursor <= snd s.
Example C88_innermost_case : parsed tree0 /\ find_call 5 tree0 = Some ([0], (2, 9), inner) /\
  find_call 12 tree0 = Some ([], (0, 13), outer) /\ find_call 0 tree0 = None.
Proof. split; [exact tree0_parsed|]. repeat split. Qed.

(** The cursor in the block argument, inside the parentheses of [f]: help is about [g]. *)
Theorem C88_block_argument_refuted : exists t cursor path u c,
  parsed t /\ at_path t path = Some u /\ call_of u = Some c /\ in_parens cursor c /\
  (forall path' u' c', at_path t path' = Some u' -> call_of u' = Some c' -> in_parens cursor c' -> exists r, path = path' ++ r) /\
  exists path' s' c', find_call cursor t = Some (path', s', c') /\ path' <> path.
Proof.
  exists tree0, 7, [0], (Node (2, 9) (Some inner) []), inner. split; [exact tree0_parsed|]. split; [reflexivity|].
  split; [reflexivity|]. split; [exists (4, 8); split; [reflexivity|cbn; lia]|]. split.
  - intros p u c E C _. apply tree0_paths in E as [[-> ->]|[[-> ->]|[-> ->]]]; cbn in C; try discriminate; eexists; reflexivity.
  - exists [], (0, 13), outer. split; [reflexivity|discriminate].
Qed.
Print Assumptions C88_block_argument_refuted.

(** The cursor behind the closing parenthesis of [f], in those of [g] alone: help is about [f].  (The tree is that of
    [g(f(1,2), 3)].) *)
Definition inner1 : call := Call (Some (2, 3)) None [Arg (4, 5) None false; Arg (6, 7) None false] (Some (4, 8)).
Definition tree1 : tree := Node (0, 13) (Some outer) [Node (2, 9) (Some inner1) []; Node (11, 12) None []].
Theorem C88_behind_parenthesis_refuted : exists t cursor path u c,
  at_path t path = Some u /\ call_of u = Some c /\ in_parens cursor c /\
  exists path' s' c', find_call cursor t = Some (path', s', c') /\ ~ in_parens cursor c'.
Proof.
  exists tree1, 9, [], tree1, outer. split; [reflexivity|]. split; [reflexivity|].
  split; [exists (2, 12); split; [reflexivity|cbn; lia]|].
  exists [0], (2, 9), inner1. split; [reflexivity|]. intros [s [E L]]. cbn in E. injection E as <-. cbn in L. lia.
Qed.
Print Assumptions C88_behind_parenthesis_refuted.
