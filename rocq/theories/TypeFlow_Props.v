(** The types shown for reads of local variables and the inferred return type of a method, against
    the runs of the method. *)
From Coq Require Import List Bool Arith NArith Lia.
From Verif Require Import Types_Model Types_Spec Types_Union TypeFlow_Model TypeFlow_Spec TypeFlow_Fits TypeFlow_Calls TypeFlow_All TypeFlow_Plain.
From Coq Require Import String.
Import ListNotations.
Local Open Scope string_scope.
Local Open Scope list_scope.

Lemma shown_recorded l o t : shown l o = Some t -> In (l, t) (reads o).
Proof.
  unfold shown. induction (reads o) as [|[k u] rd IH] using rev_ind; [discriminate|].
  rewrite fold_left_app, in_app_iff. cbn. destruct (N.eqb k l) eqn:E; [|auto].
  apply N.eqb_eq in E. intros C. right. left. congruence.
Qed.

Section Sound.
Variables (W : world) (T : facts) (K : vision) (params : env) (body : node) (s : store).
Hypothesis Hon : honest W T.
Hypothesis Hin : enters W K params s.
Hypothesis Hsimple : simple K false false body = true.
Hypothesis Hready : ready K (fun _ => true) body = true.
Hypothesis Hplaces : NoDup (labs body).
Hypothesis Hsettled : settled K (ro (tracked T params body)).
Hypothesis Htells : forall t, In t (tests (ro (tracked T params body))) -> tells W t.

Lemma run_sound tr o s' : exec W (IN body) s tr o s' ->
  ends W K (good_after K (fun _ => true) body) (leaves body) (worth body) (vars (rs (tracked T params body)))
    (rt (tracked T params body)) o s' /\
  post W K (labs body) false s tr o s' (ro (tracked T params body)).
Proof.
  intros E. destruct Hin as [HU P].
  refine (all_sound W T K (IN body) s tr o s' Hon HU E false false false (start params) (fun _ => true) Hsimple Hready Hplaces (conj Hsettled Htells) _ _).
  - intros x _. specialize (P x). unfold fits1. cbn [start vars]. destruct (params x); [apply P|exact P].
  - intros x A. specialize (P x). cbn [start vars]. destruct (params x); [destruct P as [_ P]; congruence|reflexivity].
Qed.

(** Every value a run reads at a place has the type shown there. *)
Lemma reads_sound tr o s' l v t : exec W (IN body) s tr o s' -> In (l, v) tr ->
  shown l (ro (tracked T params body)) = Some t -> den (named W) t v.
Proof.
  intros E A B. destruct (run_sound tr o s' E) as [_ P]. exact (p_agree _ _ _ _ _ _ _ _ _ P l v t A (shown_recorded _ _ _ B)).
Qed.

Lemma return_sound tr o s' v : Q K = true -> worth body = true -> exec W (IN body) s tr o s' -> result_of o = Some v ->
  den (named W) (method_type T params body) v.
Proof.
  intros HQ HW E R. destruct (run_sound tr o s' E) as [A P].
  assert (X : exists t, In t (rets (ro (tracked T params body)) ++ (if leaves body then [] else [rt (tracked T params body)])) /\ den (named W) t v).
  { destruct o; try discriminate; injection R as ->.
    - destruct (A v eq_refl) as (A1&_&A2). exists (rt (tracked T params body)). rewrite A1, in_app_iff. split; [right; left; reflexivity|auto].
    - destruct (p_ret _ _ _ _ _ _ _ _ _ P HQ v eq_refl) as (t&B&C). exists t. rewrite in_app_iff. auto. }
  destruct X as (t&B&C). unfold method_type. destruct (existsb is_unknown _); [exact Logic.I|].
  set (l := rets _ ++ _) in *. destruct l; [destruct B|]. apply union_complete. exists t. auto.
Qed.
End Sound.

(** C80, for the programs covered (see [simple] and [ready]). *)
Theorem C80_reads_partial W T K params body s tr o s' l v t :
  honest W T -> enters W K params s ->
  simple K false false body = true -> ready K (fun _ => true) body = true -> NoDup (labs body) ->
  settled K (ro (tracked T params body)) ->
  (forall t, In t (tests (ro (tracked T params body))) -> tells W t) ->
  exec W (IN body) s tr o s' -> In (l, v) tr -> shown l (ro (tracked T params body)) = Some t ->
  den (named W) t v.
Proof. intros. eapply reads_sound; eassumption. Qed.
Print Assumptions C80_reads_partial.

(** Without loops, [and] and [or], what the tracker went through need not be looked at. *)
Theorem C80_straight_reads_partial W T K params body s tr o s' l v t :
  honest W T -> enters W K params s ->
  simple K false false body = true -> ready K (fun _ => true) body = true -> NoDup (labs body) ->
  any is_loop true body = false -> any is_logic true body = false ->
  exec W (IN body) s tr o s' -> In (l, v) tr -> shown l (ro (tracked T params body)) = Some t ->
  den (named W) t v.
Proof.
  intros. eapply reads_sound; try eassumption.
  - apply loopless_settled. assumption.
  - intros u J. exfalso. eapply no_tests; eassumption.
Qed.
Print Assumptions C80_straight_reads_partial.

(** C81 *)
Theorem C81_return_partial W T K params body s tr o s' v :
  honest W T -> enters W K params s ->
  simple K false false body = true -> ready K (fun _ => true) body = true -> NoDup (labs body) ->
  settled K (ro (tracked T params body)) ->
  (forall t, In t (tests (ro (tracked T params body))) -> tells W t) ->
  Q K = true -> worth body = true ->
  exec W (IN body) s tr o s' -> result_of o = Some v ->
  den (named W) (method_type T params body) v.
Proof. intros. eapply return_sound; eassumption. Qed.
Print Assumptions C81_return_partial.

Theorem C81_straight_return_partial W T K params body s tr o s' v :
  honest W T -> enters W K params s ->
  simple K false false body = true -> ready K (fun _ => true) body = true -> NoDup (labs body) ->
  any is_loop true body = false -> any is_logic true body = false ->
  Q K = true -> worth body = true ->
  exec W (IN body) s tr o s' -> result_of o = Some v ->
  den (named W) (method_type T params body) v.
Proof.
  intros. eapply return_sound; try eassumption.
  - apply loopless_settled. assumption.
  - intros u J. exfalso. eapply no_tests; eassumption.
Qed.
Print Assumptions C81_straight_return_partial.

(** ** A world *)

Definition object_text := 20.
Definition numeric_text := 23.
Definition class_of (v : val) : nat :=
  match v with
  | VObj 0 => nil_text | VObj 1 => false_text | VObj 2 => true_text | VObj _ => integer_text
  | VSym _ => symbol_text | VStr _ => string_text | VArr _ => 7 | VHash _ => float_text
  end.
(** Object has every value and Numeric the integers and floats; the other classes have no subclass. *)
Definition inst (c : nat) (v : val) : bool :=
  Nat.eqb c object_text || Nat.eqb c numeric_text && (Nat.eqb (class_of v) integer_text || Nat.eqb (class_of v) float_text) ||
  Nat.eqb c (class_of v).
Definition bool_val (b : bool) : val := if b then VObj 2 else VObj 1.
Definition reply (w : val) (f : string) (vs us : list val) : option val :=
  if f =? "nil?" then Some (bool_val (is_vnil w))
  else if f =? "!" then Some (bool_val (negb (truthy w)))
  else if (f =? "is_a?") || (f =? "kind_of?") then match vs with [VSym c] => Some (bool_val (inst c w)) | _ => None end
  else if f =? "instance_of?" then match vs with [VSym c] => Some (bool_val (Nat.eqb (class_of w) c)) | _ => None end
  else if f =? "to_s" then Some (VStr 0)
  else if f =? "/" then Some (VHash [])
  else if f =? "map" then Some (VArr us)
  else if f =? "each" then Some w
  else if f =? "foo" then Some (VObj 3)
  else if f =? "loop" then Some vnil
  else None.
Definition W0 : world :=
  {| named := fun k f v => match k with InstanceOfClass => inst (ftext f) v = true | _ => False end;
     self := VObj 5;
     konst := fun c => VSym (ftext c);
     sends := fun w f vs us v => reply w f vs us = Some v \/ f = "foo" /\ vs = [] /\ v = vnil;
     yields := fun w f vs xs => xs = [VObj 3] |}.
Definition T0 : facts :=
  {| ret := fun f o => match o with Some _ => if f =? "to_s" then Types_Model.string else TUnknown | None => TUnknown end;
     hof := fun f o ts => if f =? "map" then Some ([integer], fun bt => Some (TArray [bt])) else None;
     cval := fun c => TUnknown |}.

Lemma bool_val_truthy b : truthy (bool_val b) = b.
Proof. destruct b; reflexivity. Qed.
Lemma inst_nil v : inst nil_text v = true <-> v = vnil.
Proof.
  split; [|intros ->; reflexivity]. destruct v as [[|[|[|]]]| | | |]; intros A; try discriminate A; reflexivity.
Qed.
Ltac reply_of := match goal with S : sends W0 _ _ _ _ _ |- _ => cbn [sends W0] in S; destruct S as [S|(S&_&_)]; [|discriminate S] end.
Lemma W0_honest : honest W0 T0.
Proof.
  constructor.
  - intros f v E. cbn [named W0]. rewrite E. apply inst_nil.
  - intros w us v J. reply_of. cbn in J. injection J as <-. apply bool_val_truthy.
  - intros w us v J. reply_of. cbn in J. injection J as <-. apply bool_val_truthy.
  - intros w f c us v [<-|[<-|[]]] J; reply_of; cbn in J; injection J as <-; rewrite bool_val_truthy; reflexivity.
  - intros w c us v J A. reply_of. cbn in J. injection J as <-. rewrite bool_val_truthy in A. apply Nat.eqb_eq in A.
    cbn [named W0]. rewrite <- A. unfold inst. rewrite Nat.eqb_refl, !orb_true_r. reflexivity.
  - intros c vs us v J. reply_of. discriminate J.
  - intros f vs us v A J. cbn [sends W0] in J. repeat destruct A as [<-|A]; try destruct A; cbn in J; destruct J as [J|(J&_)]; discriminate J.
  - intros c. exact Logic.I.
  - intros f vs us v _. exact Logic.I.
  - intros t w f vs us v _ J. cbn [ret T0]. destruct (f =? "to_s") eqn:E; [|exact Logic.I].
    apply String.eqb_eq in E. subst f. reply_of. cbn in J. injection J as <-. reflexivity.
  - intros f known ts params result w vs J _ _. cbn [hof T0] in J. destruct (f =? "map") eqn:E; [|discriminate].
    apply String.eqb_eq in E. subst f. injection J as <- <-. split.
    + intros xs i ->. destruct i as [|[|]]; reflexivity.
    + intros bt t us v C F J. injection C as <-. reply_of. cbn in J. injection J as <-.
      exists us. split; [reflexivity|]. intros x A. exists (den (named W0) bt). split; [left; reflexivity|].
      rewrite Forall_forall in F. apply F, A.
Qed.

(** ** A program which is covered

    def m(x, y)                  # x : Integer | nil, y of no declared type
      return "none" if x.nil?
      z = x.to_s
      begin
        z = 1
        foo(y)
      rescue => e
        z = :failed
      end
      while foo
        t = z
        t.foo
      end
      a = [...].map { |k| k.to_s }   # the receiver stands for any array
      z
    end *)
Definition X : N := 1%N. Definition Y : N := 2%N. Definition Z : N := 3%N. Definition E : N := 4%N.
Definition V_T : N := 5%N. Definition A' : N := 6%N. Definition B' : N := 7%N.
Fixpoint seq_of (l : list node) : stmts := match l with [] => SNil | n :: l => SCons n (seq_of l) end.
Definition send (r : recv) (f : string) : node := Call false r f ANil BNone.
Definition on (l x : N) (f : string) : node := send (RNode (Read l x)) f.
Definition nilable := union [integer; nil_class].
Definition params0 : env := set (fun _ => None) X nilable.
Definition body0 : node := Stmts (seq_of [
  If false (on 10 X "nil?") (seq_of [Return (RNode (Lit Types_Model.string))]) NoTail;
  Write Z (on 11 X "to_s");
  Begin (seq_of [Write Z (Lit integer); Call false RNone "foo" (ACons (Read 12 Y) ANil) BNone])
    (RCons (Some E) (seq_of [Write Z (Lit symbol)]) RNil) NoTail NoTail;
  While false (send RNone "foo") (seq_of [Write V_T (Read 13 Z); on 14 V_T "foo"]);
  Write A' (Call false (RNode (Lit (TArray [integer]))) "map" ANil
    (BBlock [B'] [] (seq_of [on 15 B' "to_s"])));
  Read 16 Z]).
Definition K0 : vision :=
  {| U := fun x => N.eqb x Y || N.eqb x E; H := fun x => N.eqb x E; D := fun x => N.eqb x V_T; Q := true |}.


(** the variables mentioned are among those listed *)
Ltac listed := let x := fresh "x" in let B := fresh "B" in
  intros x B; cbn -[N.eqb] in B;
  repeat match type of B with context [N.eqb x ?a] => destruct (N.eqb_spec x a); [subst; cbn; tauto|] end; cbn in B; discriminate B.
Lemma body0_settled : settled K0 (ro (tracked T0 params0 body0)).
Proof.
  apply (settles_settled T0 K0 false false body0 (start params0) [X; Y; Z; V_T; A'; B']); [listed|vm_compute; reflexivity].
Qed.
Lemma untested T params body t : any is_logic true body = false -> ~ In t (tests (ro (tracked T params body))).
Proof. apply no_tests. Qed.
Lemma body0_tests : forall t, In t (tests (ro (tracked T0 params0 body0))) -> tells W0 t.
Proof. intros t J. destruct (untested T0 params0 body0 t ltac:(reflexivity) J). Qed.
(** [x || "none"] tests an Integer | nil, which tells. *)
Example C80_tells_case : tests (ro (tracked T0 params0 (Logic true (Read 20 X) (Lit Types_Model.string)))) = [nilable] /\ tells W0 nilable.
Proof.
  split; [reflexivity|]. intros _ m v J B. unfold falsy_class. cbn in J. destruct J as [<-|[<-|[]]]; cbn in B; split.
  - intros _. eexists. split; [reflexivity|]. left. reflexivity.
  - intros _. destruct v as [[|[|[|]]]| | | |]; (reflexivity || discriminate B).
  - intro F. destruct v as [[|[|[|]]]| | | |]; (discriminate F || discriminate B).
  - intros [f [Q [R|R]]]; injection Q as <-; discriminate R.
Qed.
Definition s0 : store := upd (fun _ => vnil) X (VObj 7).
Lemma body0_enters : enters W0 K0 params0 s0.
Proof.
  split.
  - intros x A. cbn [H K0] in A. cbn [U K0]. rewrite A. apply orb_true_r.
  - intros x. unfold params0, s0, set, upd. destruct (N.eqb_spec x X) as [->|]; [|right; reflexivity].
    split; [|reflexivity]. apply union_complete. exists integer. split; [left; reflexivity|reflexivity].
Qed.
Example C80_covers : simple K0 false false body0 = true /\ ready K0 (fun _ => true) body0 = true /\ worth body0 = true /\
  shown 11 (ro (tracked T0 params0 body0)) = Some integer /\
  shown 14 (ro (tracked T0 params0 body0)) = Some (union [integer; symbol]) /\
  shown 16 (ro (tracked T0 params0 body0)) = Some (union [integer; symbol]) /\
  method_type T0 params0 body0 = union [Types_Model.string; integer; symbol].
Proof. vm_compute. repeat split. Qed.
Example C80_every_run tr o s' l v t : exec W0 (IN body0) s0 tr o s' -> In (l, v) tr ->
  shown l (ro (tracked T0 params0 body0)) = Some t -> den (named W0) t v.
Proof.
  apply (C80_reads_partial W0 T0 K0).
  - exact W0_honest.
  - exact body0_enters.
  - vm_compute. reflexivity.
  - vm_compute. reflexivity.
  - vm_compute. repeat constructor; cbn; intuition discriminate.
  - exact body0_settled.
  - exact body0_tests.
Qed.
Example C81_every_run tr o s' v : exec W0 (IN body0) s0 tr o s' -> result_of o = Some v ->
  den (named W0) (union [Types_Model.string; integer; symbol]) v.
Proof.
  replace (union [Types_Model.string; integer; symbol]) with (method_type T0 params0 body0) by (vm_compute; reflexivity).
  apply (C81_return_partial W0 T0 K0).
  - exact W0_honest.
  - exact body0_enters.
  - vm_compute. reflexivity.
  - vm_compute. reflexivity.
  - vm_compute. repeat constructor; cbn; intuition discriminate.
  - exact body0_settled.
  - exact body0_tests.
  - reflexivity.
  - reflexivity.
Qed.
