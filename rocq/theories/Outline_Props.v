(** C93: the outline of a document. *)
From Coq Require Import List Arith Bool String Permutation.
From Verif Require Import Outline_Model Outline_Spec Outline_Proofs.
Import ListNotations.

(** The answer is the outline of the source: every class, module, method and constant assignment at
    its place, nested as in the source, the roots in order and the children of each in reverse order. *)
Theorem C93_outline t : located None t -> readable_names t = true ->
  map (rose_map says) (outline t) = map mirror (wanted false t).
Proof.
  intros Hl Hr. rewrite (outline_forest t Hl Hr), !map_map, <- (forest_wanted t false Public), map_map.
  apply map_ext. intros r. now rewrite convert_says, mirror_map.
Qed.
Print Assumptions C93_outline.

(** Every instance method is shown with the visibility Ruby gives it, in programs that change
    visibility by bare statements of class bodies only. *)
Theorem C93_visibility_partial t : located None t -> readable_names t = true -> tidy_program t = true ->
  Permutation (flat_map shown_methods (outline t)) (ruby_methods false Private t).
Proof.
  intros Hl Hr Ht. rewrite (outline_forest t Hl Hr), map_map, flat_map_map.
  destruct t as [w loc below]. destruct w; try discriminate. cbn [tidy_program] in Ht.
  apply andb_true_iff in Ht as [H1 H2].
  etransitivity; [apply flat_map_perm; eapply Forall_impl; [|apply forest_methodic]; intros r; apply told_mirror|].
  cbn [forest ruby_methods]. rewrite (thread_body false true below) with (u := Private); auto.
  - apply Forall_forall. intros x _. apply told_ok.
  - now left.
Qed.
Print Assumptions C93_visibility_partial.

(** ** Example: module M; class A; X = 1; def a; end; private; def b; end; class << self; def c; end; end; end; end *)
Definition st (l : list tree) : tree := Node NStatements (0, 0) l.
Definition de (n : string) (at_ : nat) (l : list tree) : tree := Node (NDef n false) (at_, at_ + 5) l.
Definition modifier (v : visibility) : tree := Node (NCall (CModifier v) true) (0, 0) [].
Definition program (l : list tree) : tree := Node NProgram (0, 100) [st l].
Definition cl (n : string) (at_ : nat) (l : list tree) : tree :=
  Node (NClass n true) (at_, at_ + 50) [Node NOther (at_ + 6, at_ + 7) []; st l].
Definition demo : tree :=
  program [Node (NModule "M" true) (0, 90) [st [cl "A" 10
    [Node (NConst "X") (20, 25) []; de "a" 30 []; modifier Private; de "b" 40 [];
     Node NSingletonClass (45, 55) [st [de "c" 50 []]]]]]].
Example C93_case : located None demo /\ readable_names demo = true /\ tidy_program demo = true
  /\ map (rose_map iname) (outline demo)
     = [Rose "M"%string [Rose "A"%string [Rose "c"%string []; Rose "b"%string []; Rose "a"%string []; Rose "X"%string []]]]
  /\ flat_map shown_methods (outline demo) = [mkShown "b" (40, 45) Private; mkShown "a" (30, 35) Public].
Proof. split; [cbn; intuition auto with arith|]. now vm_compute. Qed.

(** ** Refuted: the children come in the order of the source. *)
Theorem C93_order_refuted : exists t, located None t /\ readable_names t = true /\
  map (rose_map says) (outline t) <> wanted false t.
Proof. exists demo. split; [cbn; intuition auto with arith|]. split; [reflexivity|]. vm_compute. discriminate. Qed.
Print Assumptions C93_order_refuted.

(** What is right for a program, and what goes wrong with it. *)
Definition wrong_visibility (t : tree) : Prop :=
  located None t /\ readable_names t = true /\
  ~ Permutation (flat_map shown_methods (outline t)) (ruby_methods false Private t).
Lemma one_wrong a b v w n l : v <> w -> ~ Permutation (a ++ [mkShown n l v] ++ b) [mkShown n l w].
Proof.
  intros N P. pose proof (Permutation_length P) as L. rewrite app_length in L. cbn in L.
  destruct a; [|cbn in L; rewrite <- plus_n_Sm in L; discriminate]. destruct b; [|discriminate].
  apply Permutation_length_1 in P. congruence.
Qed.

(** ** Refuted: [private def a; end; def b; end]: b is shown as private.  (Ruby makes a private, b public.) *)
Theorem C93_private_def_refuted : exists t pre post, t = program [cl "A" 10 [
    Node (NCall (CModifier Private) false) (20, 40) [de "a" 30 []]; de "b" 45 []]] /\
  flat_map shown_methods (outline t) = pre ++ [mkShown "b" (45, 50) Private] ++ post /\
  In (mkShown "b" (45, 50) Public) (ruby_methods false Private t).
Proof.
  eexists. exists [], [mkShown "a" (30, 35) Private]. split; [reflexivity|]. split; [now vm_compute|]. vm_compute. auto.
Qed.
Print Assumptions C93_private_def_refuted.

(** ** Refuted: a call of that name on another object changes nothing. *)
Theorem C93_receiver_refuted : wrong_visibility
  (program [cl "A" 10 [Node (NCall (CModifier Private) false) (20, 30) [Node NOther (20, 22) []]; de "b" 40 []]]).
Proof. split; [cbn; intuition auto with arith|]. split; [reflexivity|]. vm_compute. apply (one_wrong [] []). discriminate. Qed.
Print Assumptions C93_receiver_refuted.

(** ** Refuted: a method outside of classes is private, a constructor is private. *)
Theorem C93_top_level_refuted : wrong_visibility (program [de "a" 10 []]).
Proof. split; [cbn; auto|]. split; [reflexivity|]. vm_compute. apply (one_wrong [] []). discriminate. Qed.
Theorem C93_initialize_refuted : wrong_visibility (program [cl "A" 10 [de "initialize" 20 []]]).
Proof. split; [cbn; intuition auto with arith|]. split; [reflexivity|]. vm_compute. apply (one_wrong [] []). discriminate. Qed.
Print Assumptions C93_top_level_refuted.
Print Assumptions C93_initialize_refuted.

(** ** Refuted: classes and constants have no visibility of their own.  Behind [private] both are shown
    as private, which they are not in Ruby. *)
Theorem C93_class_private_refuted : exists t x cs r, outline t = [Rose x (Rose (mkItem "B" SClass (20, 70) [WPrivate]) cs :: r)].
Proof. exists (program [cl "A" 10 [modifier Private; cl "B" 20 []]]). repeat eexists. Qed.
Print Assumptions C93_class_private_refuted.

(** ** Refuted: declared attributes and constants assigned otherwise are in the outline. *)
Theorem C93_attributes_refuted : exists t, t = program [cl "A" 10 [
    Node (NCall (CAttr ["name"%string]) false) (20, 40) []; Node (NConstOther "X") (42, 50) []]] /\
  map (rose_map iname) (outline t) = [Rose "A"%string []].
Proof. eexists. split; reflexivity. Qed.
Print Assumptions C93_attributes_refuted.
