(** Proofs about the outline: the visitor lists a forest in preorder, from which the three passes
    rebuild its mirror image. *)
From Coq Require Import List Arith Bool String Lia Permutation.
From Verif Require Import Outline_Model Outline_Spec.
Import ListNotations.

Notation len := List.length.

(** * Rebuilding a forest *)
Fixpoint size {A} (r : rose A) : nat := match r with Rose _ cs => S (list_sum (map size cs)) end.
Definition fsize {A} (F : list (rose A)) : nat := list_sum (map size F).

Lemma fsize_cons {A} (x : A) cs F : fsize (Rose x cs :: F) = S (fsize cs) + fsize F.
Proof. reflexivity. Qed.

Definition flatten_each (g : nat -> option nat -> rose symbol -> list (symbol * option nat)) :=
  fix go (base : nat) (p : option nat) (F : list (rose symbol)) : list (symbol * option nat) :=
    match F with [] => [] | r :: F' => g base p r ++ go (base + size r) p F' end.
Fixpoint flatten1 (base : nat) (p : option nat) (r : rose symbol) : list (symbol * option nat) :=
  match r with Rose x cs => (x, p) :: flatten_each flatten1 (S base) (Some base) cs end.
Definition flatten := flatten_each flatten1.

Lemma flatten_cons base p x cs F : flatten base p (Rose x cs :: F) =
  (x, p) :: flatten (S base) (Some base) cs ++ flatten (S base + fsize cs) p F.
Proof. cbn. unfold fsize. f_equal. f_equal. f_equal; try lia. Qed.

Lemma flatten_length n : forall F base p, fsize F <= n -> len (flatten base p F) = fsize F.
Proof.
  induction n as [|n IH]; intros [|[x cs] F] base p H; auto; rewrite fsize_cons in *; [lia|].
  rewrite flatten_cons. cbn [len]. rewrite app_length, !IH by lia. lia.
Qed.
Lemma flatten_len F base p : len (flatten base p F) = fsize F.
Proof. now apply (flatten_length (fsize F)). Qed.

Lemma flatten_app F1 F2 : forall base p, flatten base p (F1 ++ F2) = flatten base p F1 ++ flatten (base + fsize F1) p F2.
Proof.
  induction F1 as [|[x cs] F1 IH]; intros base p.
  - cbn. now rewrite Nat.add_0_r.
  - rewrite <- app_comm_cons, !flatten_cons, IH, <- app_comm_cons, <- app_assoc. f_equal. f_equal. f_equal. f_equal.
    rewrite fsize_cons. lia.
Qed.

Lemma second_app l1 : forall i l2 m, second_pass i (l1 ++ l2) m = second_pass i l1 (second_pass (i + len l1) l2 m).
Proof.
  induction l1 as [|[x p] l1 IH]; intros i l2 m; cbn [app second_pass len].
  - now rewrite Nat.add_0_r.
  - rewrite IH. do 3 f_equal. lia.
Qed.

Definition holds (i : nat) (l : list (symbol * option nat)) (m : smap) : Prop :=
  forall k x, nth_error l k = Some x -> m (i + k) = Some (Rose (fst x) []).
Lemma holds_app i l1 l2 m : holds i (l1 ++ l2) m -> holds i l1 m /\ holds (i + len l1) l2 m.
Proof.
  intros H. split; intros k x E.
  - apply H. rewrite nth_error_app1; [assumption|]. apply nth_error_Some. congruence.
  - replace (i + len l1 + k) with (i + (len l1 + k)) by lia. apply H.
    rewrite nth_error_app2 by lia. now replace (len l1 + k - len l1) with k by lia.
Qed.
Lemma holds_ext i l m m' : (forall j, i <= j < i + len l -> m' j = m j) -> holds i l m -> holds i l m'.
Proof.
  intros E H k x Hk. rewrite E; [now apply H|]. split; [lia|].
  assert (k < len l) by (apply nth_error_Some; congruence). lia.
Qed.
Lemma first_holds l : forall i, holds i l (first_pass i l).
Proof.
  induction l as [|[x p] l IH]; intros i k y E; [destruct k; discriminate|]. cbn [first_pass].
  unfold insert. destruct k as [|k]; cbn in E.
  - injection E as <-. rewrite Nat.add_0_r, Nat.eqb_refl. reflexivity.
  - destruct (i + S k =? i) eqn:C; [apply Nat.eqb_eq in C; lia|].
    replace (i + S k) with (S i + k) by lia. now apply IH.
Qed.

(** The second pass on a forest below a parent. *)
Lemma second_children n : forall F base q m x cs, fsize F <= n -> q < base ->
  holds base (flatten base (Some q) F) m -> m q = Some (Rose x cs) ->
  let m' := second_pass base (flatten base (Some q) F) m in
  m' q = Some (Rose x (cs ++ rev (map mirror F)))
  /\ (forall j, base <= j < base + fsize F -> m' j = None)
  /\ (forall j, ~ base <= j < base + fsize F -> j <> q -> m' j = m j).
Proof.
  induction n as [|n IH]; intros [|[y ds] F] base q m x cs Hn Hq Hh Hm; cbv zeta.
  1,3: cbn; rewrite app_nil_r; repeat split; auto; intros j Hj; unfold fsize in Hj; cbn in Hj; lia.
  - rewrite fsize_cons in Hn. lia.
  - assert (Hs : fsize (Rose y ds :: F) = S (fsize ds) + fsize F).
    { apply fsize_cons. }
    rewrite Hs in *. rewrite flatten_cons in Hh |- *. cbn [second_pass].
    rewrite second_app, flatten_len.
    pose proof (Hh 0 _ eq_refl) as Hb. rewrite Nat.add_0_r in Hb. cbn [fst] in Hb.
    assert (Hh' : holds (S base) (flatten (S base) (Some base) ds ++ flatten (S base + fsize ds) (Some q) F) m).
    { intros k z E. replace (S base + k) with (base + S k) by lia. now apply Hh. }
    apply holds_app in Hh' as [H1 H2]. rewrite flatten_len in H2.
    destruct (IH F (S base + fsize ds) q m x cs ltac:(lia) ltac:(lia) H2 Hm) as [A1 [A2 A3]].
    set (m1 := second_pass (S base + fsize ds) (flatten (S base + fsize ds) (Some q) F) m) in *.
    assert (H1' : holds (S base) (flatten (S base) (Some base) ds) m1).
    { apply (holds_ext _ _ m); [|assumption]. rewrite flatten_len. intros j Hj. apply A3; lia. }
    assert (Hb1 : m1 base = Some (Rose y [])) by (rewrite A3 by lia; exact Hb).
    destruct (IH ds (S base) base m1 y [] ltac:(lia) ltac:(lia) H1' Hb1) as [B1 [B2 B3]].
    set (m2 := second_pass (S base) (flatten (S base) (Some base) ds) m1) in *.
    unfold attach. rewrite B1. cbn [app].
    assert (Q2 : m2 q = Some (Rose x (cs ++ rev (map mirror F)))) by (rewrite B3 by lia; exact A1).
    assert (Q3 : insert base None m2 q = Some (Rose x (cs ++ rev (map mirror F)))).
    { unfold insert. destruct (q =? base) eqn:Eq; [apply Nat.eqb_eq in Eq; lia|]. exact Q2. }
    rewrite Q3.
    split; [|split].
    + unfold insert at 1. rewrite Nat.eqb_refl. cbn [map rev mirror]. now rewrite app_assoc.
    + intros j Hj. unfold insert. destruct (j =? q) eqn:E1; [apply Nat.eqb_eq in E1; lia|].
      destruct (j =? base) eqn:E2; [reflexivity|]. apply Nat.eqb_neq in E2.
      destruct (le_lt_dec (S base + fsize ds) j).
      * rewrite B3 by lia. apply A2. lia.
      * apply B2. lia.
    + intros j Hj Nj. unfold insert. destruct (j =? q) eqn:E1; [apply Nat.eqb_eq in E1; lia|].
      destruct (j =? base) eqn:E2; [apply Nat.eqb_eq in E2; lia|].
      apply Nat.eqb_neq in E2. rewrite B3 by lia. apply A3; lia.
Qed.

Lemma third_app l1 : forall i l2 m, third_pass i (l1 ++ l2) m = third_pass i l1 m ++ third_pass (i + len l1) l2 m.
Proof.
  induction l1 as [|[x [p|]] l1 IH]; intros i l2 m; cbn [app third_pass len].
  - now rewrite Nat.add_0_r.
  - rewrite IH. do 2 f_equal. lia.
  - rewrite IH, app_assoc. do 2 f_equal. lia.
Qed.
Lemma third_ext l : forall i m m', (forall j, i <= j < i + len l -> m j = m' j) -> third_pass i l m = third_pass i l m'.
Proof.
  induction l as [|[x [p|]] l IH]; intros i m m' H; cbn [third_pass]; auto; cbn [len] in H.
  - apply IH. intros. apply H. lia.
  - rewrite (H i) by lia. f_equal. apply IH. intros. apply H. lia.
Qed.
Lemma third_none n : forall F i q m, fsize F <= n -> third_pass i (flatten i (Some q) F) m = [].
Proof.
  induction n as [|n IH]; intros [|[x cs] F] i q m H; auto; rewrite fsize_cons in *; [lia|].
  rewrite flatten_cons. cbn [third_pass]. rewrite third_app, flatten_len, !IH by lia. reflexivity.
Qed.

Lemma roots F : forall base m, holds base (flatten base None F) m ->
  let m' := second_pass base (flatten base None F) m in
  third_pass base (flatten base None F) m' = map mirror F
  /\ forall j, ~ base <= j < base + fsize F -> m' j = m j.
Proof.
  induction F as [|[y ds] F IH]; intros base m Hh; cbv zeta.
  - cbn. auto.
  - assert (Hs : fsize (Rose y ds :: F) = S (fsize ds) + fsize F).
    { apply fsize_cons. }
    rewrite Hs. rewrite flatten_cons in Hh |- *. cbn [second_pass attach]. rewrite second_app, flatten_len.
    pose proof (Hh 0 _ eq_refl) as Hb. rewrite Nat.add_0_r in Hb. cbn [fst] in Hb.
    assert (Hh' : holds (S base) (flatten (S base) (Some base) ds ++ flatten (S base + fsize ds) None F) m).
    { intros k z E. replace (S base + k) with (base + S k) by lia. now apply Hh. }
    apply holds_app in Hh' as [H1 H2]. rewrite flatten_len in H2.
    destruct (IH (S base + fsize ds) m H2) as [A1 A2].
    set (m1 := second_pass (S base + fsize ds) (flatten (S base + fsize ds) None F) m) in *.
    assert (H1' : holds (S base) (flatten (S base) (Some base) ds) m1).
    { apply (holds_ext _ _ m); [|assumption]. rewrite flatten_len. intros j Hj. apply A2; lia. }
    assert (Hb1 : m1 base = Some (Rose y [])) by (rewrite A2 by lia; exact Hb).
    destruct (second_children (fsize ds) ds (S base) base m1 y [] ltac:(lia) ltac:(lia) H1' Hb1) as [B1 [B2 B3]].
    set (m2 := second_pass (S base) (flatten (S base) (Some base) ds) m1) in *.
    split.
    + cbn [third_pass]. rewrite B1, third_app, flatten_len, (third_none (fsize ds)) by lia.
      cbn [app map mirror]. f_equal. rewrite <- A1. apply third_ext. rewrite flatten_len.
      intros j Hj. apply B3; lia.
    + intros j Hj. rewrite B3 by lia. apply A2. lia.
Qed.

Lemma build_mirror F : build_hierarchy (flatten 0 None F) = map mirror F.
Proof. unfold build_hierarchy. apply roots. apply first_holds. Qed.

(** * The forest of a tree *)
Section TreeInd.
  Variable P : tree -> Prop.
  Hypothesis H : forall w loc below, Forall P below -> P (Node w loc below).
  Fixpoint tree_ind' (t : tree) : P t :=
    match t with
    | Node w loc below =>
        H w loc below ((fix all (l : list tree) : Forall P l :=
                          match l with [] => Forall_nil P | x :: r => Forall_cons x (tree_ind' x) (all r) end) below)
    end.
End TreeInd.

Definition thread {T} (f : visibility -> tree -> list T * visibility) :=
  fix go (v : visibility) (l : list tree) : list T * visibility :=
    match l with
    | [] => ([], v)
    | x :: r => (fst (f v x) ++ fst (go (snd (f v x)) r), snd (go (snd (f v x)) r))
    end.
Definition under (x : rose symbol) (r : list (rose symbol) * visibility) := (x :: fst r, snd r).
Fixpoint forest (single : bool) (v : visibility) (t : tree) : list (rose symbol) * visibility :=
  match t with
  | Node w loc below =>
      match w with
      | NClass n _ => ([Rose (mkSymbol n SClass loc v None) (fst (thread (forest false) Public below))], v)
      | NModule n _ => ([Rose (mkSymbol n SModule loc v None) (fst (thread (forest false) Public below))], v)
      | NSingletonClass => (fst (thread (forest true) Public below), v)
      | NDef n r => under (Rose (mkSymbol n SMethod loc v (Some (if r || single then Singleton else Instance))) [])
                          (thread (forest single) v below)
      | NConst n => under (Rose (mkSymbol n SConstant loc v None) []) (thread (forest single) v below)
      | NCall (CModifier m) _ => thread (forest single) m below
      | _ => thread (forest single) v below
      end
  end.

(** A state fits the place of a node in the tree. *)
Definition fits (from : option nat) (single : bool) (v : visibility) (s : visitor) : Prop :=
  hd_error (visibility_stack s) = Some v /\ in_singleton s = single
  /\ match from with None => scope_ids s = [] | Some a => exists r, scope_ids s = (a + 1) :: r end.
Definition old (from : option nat) (k : nat) : Prop := match from with None => False | Some a => k <= a + 1 end.
Definition visited (from : option nat) (F : list (rose symbol)) (v : visibility) (s s' : visitor) : Prop :=
  flat s' = flat s ++ flatten (len (flat s)) (current_parent s) F
  /\ visibility_stack s' = v :: tl (visibility_stack s) /\ frames s' = frames s /\ scope_ids s' = scope_ids s
  /\ forall k, old from k -> get k (scope_to_symbol s') = get k (scope_to_symbol s).

Lemma visited_parent from single v F v' s s' : fits from single v s -> visited from F v' s s' -> current_parent s' = current_parent s.
Proof.
  intros (_ & _ & Hf) (_ & _ & _ & Hi & Hk). unfold current_parent. rewrite Hi.
  destruct from as [a|]; [|now rewrite Hf]. destruct Hf as [r Hr]. rewrite Hr. apply Hk. cbn. lia.
Qed.
Lemma visited_fits from single v F v' s s' : fits from single v s -> visited from F v' s s' -> fits from single v' s'.
Proof.
  intros (H1 & H2 & H3) (_ & K1 & K2 & K3 & _). unfold fits, in_singleton. rewrite K1, K2, K3. auto.
Qed.
Lemma visited_seq from single v F1 v1 F2 v2 s s1 s2 : fits from single v s ->
  visited from F1 v1 s s1 -> visited from F2 v2 s1 s2 -> visited from (F1 ++ F2) v2 s s2.
Proof.
  intros Hf H1 H2. pose proof (visited_parent _ _ _ _ _ _ _ Hf H1) as Hp.
  destruct H1 as (A1 & A2 & A3 & A4 & A5), H2 as (B1 & B2 & B3 & B4 & B5).
  split; [|split; [|split; [|split]]].
  - rewrite B1, A1, Hp, flatten_app, app_assoc. do 2 f_equal. rewrite app_length, flatten_len. reflexivity.
  - rewrite B2, A2. reflexivity.
  - congruence.
  - congruence.
  - intros k Hk. rewrite B5, A5; auto.
Qed.
Lemma visited_none from single v s : fits from single v s -> visited from [] v s s.
Proof.
  intros (H & _ & _). repeat split; auto.
  - cbn. now rewrite app_nil_r.
  - destruct (visibility_stack s); [discriminate|]. injection H as ->. reflexivity.
Qed.

Definition all_located (from : option nat) :=
  fix all (l : list tree) : Prop := match l with [] => True | x :: r => located from x /\ all r end.

Definition Good (t : tree) : Prop := forall from single v s, located from t -> readable_names t = true -> fits from single v s ->
  visited from (fst (forest single v t)) (snd (forest single v t)) s (visit t s).

Lemma each_good l : Forall Good l -> forall from single v s, all_located from l -> forallb readable_names l = true ->
  fits from single v s ->
  visited from (fst (thread (forest single) v l)) (snd (thread (forest single) v l)) s (fold_left (fun s t => visit t s) l s).
Proof.
  induction 1 as [|t l Ht Hl IH]; intros from single v s Hloc Hr Hf; cbn [fold_left thread fst snd].
  - eapply visited_none; eassumption.
  - destruct Hloc as [L1 L2]. cbn [forallb] in Hr. apply andb_true_iff in Hr as [R1 R2].
    pose proof (Ht from single v s L1 R1 Hf) as V. eapply visited_seq; [exact Hf|exact V|].
    apply IH; auto. eapply visited_fits; eassumption.
Qed.

Lemma visited_add from single v n k loc ns s : fits from single v s ->
  visited from [Rose (mkSymbol n k loc v ns) []] v s (add n k loc ns s).
Proof.
  intros (H & _ & _). unfold add, current_visibility. destruct (visibility_stack s) as [|v' r] eqn:E; [discriminate|].
  injection H as ->. cbn [hd]. unfold visited. cbn [flat visibility_stack frames scope_to_symbol scope_ids].
  split; [reflexivity|]. split; [now rewrite E|]. split; [reflexivity|]. split; reflexivity.
Qed.

Lemma visited_namespace from single v n k loc l s : fits from single v s -> Forall Good l ->
  match from with Some a => a < fst loc | None => True end -> all_located (Some (fst loc)) l ->
  forallb readable_names l = true ->
  visited from [Rose (mkSymbol n k loc v None) (fst (thread (forest false) Public l))] v s
    (exit_namespace (fold_left (fun s t => visit t s) l (enter_namespace n true k loc s))).
Proof.
  intros Hf HG Hlt Hl Hr.
  pose proof (visited_add from single v n k loc None s Hf) as VA.
  set (s1 := enter_namespace n true k loc s).
  assert (F1 : fits (Some (fst loc)) false Public s1).
  { unfold s1, enter_namespace, fits, in_singleton. cbn. repeat split; eauto. }
  pose proof (each_good l HG (Some (fst loc)) false Public s1 Hl Hr F1) as (B1 & B2 & B3 & B4 & B5).
  set (s2 := fold_left (fun s t => visit t s) l s1) in *.
  assert (Hst : visibility_stack s2 = snd (thread (forest false) Public l) :: visibility_stack s) by (rewrite B2; reflexivity).
  assert (Hfr : frames s2 = FNamespace :: frames s) by (rewrite B3; reflexivity).
  assert (Hid : scope_ids s2 = (fst loc + 1) :: scope_ids s) by (rewrite B4; reflexivity).
  assert (Hp : current_parent s1 = Some (len (flat s))).
  { unfold s1, enter_namespace, current_parent. cbn. now rewrite Nat.eqb_refl. }
  destruct Hf as (K1 & K2 & K3). destruct (visibility_stack s) as [|v0 vr] eqn:Ev; [discriminate|]. injection K1 as ->.
  unfold exit_namespace, pop_visibility. cbn [visibility_stack]. rewrite Hst. cbn.
  unfold visited. cbn [flat visibility_stack frames scope_to_symbol scope_ids].
  split; [|split; [|split; [|split]]].
  - rewrite B1, Hp. unfold s1, enter_namespace. cbn [flat push_visibility add]. rewrite <- app_assoc. f_equal.
    rewrite app_length. cbn [len]. unfold current_visibility. rewrite Ev. cbn [hd app].
    rewrite flatten_cons. cbn [flatten flatten_each]. rewrite app_nil_r. do 2 f_equal. lia.
  - rewrite Ev. reflexivity.
  - now rewrite Hfr.
  - now rewrite Hid.
  - intros j Hj. assert (J : j < fst loc + 1) by (destruct from; cbn in Hj; [lia|destruct Hj]).
    rewrite B5 by (cbn; lia). unfold s1, enter_namespace. cbn [scope_to_symbol push_visibility add get].
    destruct (j =? fst loc + 1) eqn:E; [apply Nat.eqb_eq in E; lia|]. reflexivity.
Qed.

Lemma good t : Good t.
Proof.
  induction t as [w loc below HG] using tree_ind'. intros from single v s Hl Hr Hf.
  cbn [readable_names] in Hr. apply andb_true_iff in Hr as [R1 R2].
  assert (Same : all_located from below -> visited from (fst (thread (forest single) v below)) (snd (thread (forest single) v below)) s
             (fold_left (fun s t => visit t s) below s)) by (intros; now apply each_good).
  destruct w as [| | |n r|n r| |n r|n|n|c b]; cbn [visit forest].
  1,2,3,9: apply Same; exact Hl.
  - subst r. destruct Hl as [H1 H2]. cbn [fst snd]. eapply visited_namespace; eauto.
  - subst r. destruct Hl as [H1 H2]. cbn [fst snd]. eapply visited_namespace; eauto.
  - cbn [fst snd].
    assert (F1 : fits from true Public (enter_singleton s)).
    { destruct Hf as (K1 & K2 & K3). unfold enter_singleton, fits, in_singleton. cbn. auto. }
    pose proof (each_good below HG from true Public (enter_singleton s) Hl R2 F1) as (B1 & B2 & B3 & B4 & B5).
    set (s2 := fold_left (fun s t => visit t s) below (enter_singleton s)) in *.
    destruct Hf as (K1 & K2 & K3). destruct (visibility_stack s) as [|v0 vr] eqn:Ev; [discriminate|]. injection K1 as ->.
    unfold exit_singleton, pop_visibility. cbn [visibility_stack]. rewrite B2. unfold enter_singleton at 1 2. cbn [push_visibility visibility_stack tl].
    rewrite Ev. unfold visited. cbn [flat visibility_stack frames scope_to_symbol scope_ids].
    split; [exact B1|]. split; [rewrite Ev; reflexivity|]. split; [rewrite B3; reflexivity|]. split; [exact B4|exact B5].
  - unfold under. cbn [fst snd]. unfold enter_def. pose proof Hf as (_ & K2 & _). rewrite K2.
    pose proof (visited_add from single v n SMethod loc (Some (if r || single then Singleton else Instance)) s Hf) as V.
    match goal with |- visited _ (?x :: ?F) _ _ _ => change (x :: F) with ([x] ++ F) end.
    eapply visited_seq; [exact Hf|exact V|]. apply each_good; [exact HG|exact Hl|exact R2|]. eapply visited_fits; eassumption.
  - unfold under. cbn [fst snd].
    pose proof (visited_add from single v n SConstant loc None s Hf) as V.
    match goal with |- visited _ (?x :: ?F) _ _ _ => change (x :: F) with ([x] ++ F) end.
    eapply visited_seq; [exact Hf|exact V|]. apply each_good; [exact HG|exact Hl|exact R2|]. eapply visited_fits; eassumption.
  - destruct c as [m| |ns|]; cbn [enter_call extract_attr_names fold_left]; try (apply Same; exact Hl).
    assert (V : visited from [] m s (set_visibility m s)).
    { destruct Hf as (K1 & _ & _). unfold set_visibility. destruct (visibility_stack s) as [|v0 vr] eqn:Ev; [discriminate|].
      unfold visited. cbn. rewrite Ev, app_nil_r. auto. }
    match goal with |- visited _ ?F _ _ _ => change F with ([] ++ F) end.
    eapply visited_seq; [exact Hf|exact V|]. apply each_good; [exact HG|exact Hl|exact R2|]. eapply visited_fits; eassumption.
Qed.

Lemma outline_forest t : located None t -> readable_names t = true ->
  outline t = map convert (map mirror (fst (forest false Public t))).
Proof.
  intros Hl Hr. unfold outline. destruct (good t None false Public new Hl Hr) as [E _].
  { repeat split. }
  rewrite E. cbn [new flat app len]. change (current_parent new) with (@None nat). now rewrite build_mirror.
Qed.

(** * What it says *)
Section RoseInd.
  Context {A : Type} (P : rose A -> Prop).
  Hypothesis H : forall x cs, Forall P cs -> P (Rose x cs).
  Fixpoint rose_ind' (r : rose A) : P r :=
    match r with
    | Rose x cs => H x cs ((fix all (l : list (rose A)) : Forall P l :=
                              match l with [] => Forall_nil P | y :: r => Forall_cons y (rose_ind' y) (all r) end) cs)
    end.
End RoseInd.

Lemma map_Forall {A B} (f g : A -> B) l : Forall (fun x => f x = g x) l -> map f l = map g l.
Proof. induction 1; cbn; congruence. Qed.

Definition said (x : symbol) : entry := mkEntry (sname x) (skind x) (srange x) (snamespace x).
Lemma says_detail x : says (mkItem (sname x) (skind x) (srange x) (detail x)) = said x.
Proof.
  unfold says, said, method_word, detail. cbn. f_equal.
  destruct (snamespace x) as [[|]|]; [| |]; destruct (svisibility x), (skind x); reflexivity.
Qed.
Lemma convert_says r : rose_map says (convert r) = rose_map said r.
Proof.
  induction r as [x cs IH] using rose_ind'. cbn [convert rose_map]. rewrite says_detail. f_equal.
  rewrite map_map. now apply map_Forall.
Qed.
Lemma mirror_map {A B} (f : A -> B) r : rose_map f (mirror r) = mirror (rose_map f r).
Proof.
  induction r as [x cs IH] using rose_ind'. cbn [mirror rose_map]. f_equal.
  rewrite map_rev, !map_map. f_equal. now apply map_Forall.
Qed.

Lemma thread_flat {T} (f : visibility -> tree -> list T * visibility) (g : tree -> list (rose entry)) (h : T -> rose entry) l :
  Forall (fun t => forall v, map h (fst (f v t)) = g t) l -> forall v, map h (fst (thread f v l)) = flat_map g l.
Proof.
  induction 1 as [|t l Ht Hl IH]; intros v; cbn [thread fst flat_map map]; auto. now rewrite map_app, Ht, IH.
Qed.
Lemma forest_wanted t : forall single v, map (rose_map said) (fst (forest single v t)) = wanted single t.
Proof.
  induction t as [w loc below IH] using tree_ind'. intros single v.
  assert (E : forall s v, map (rose_map said) (fst (thread (forest s) v below)) = flat_map (wanted s) below).
  { intros s v'. apply thread_flat. eapply Forall_impl; [|exact IH]. cbn. intros. auto. }
  destruct w as [| | |n r|n r| |n r|n|n|c b]; cbn [forest wanted]; auto.
  - cbn [fst map rose_map]. change (map (rose_map said)) with (@map (rose symbol) _ (rose_map said)). now rewrite E.
  - cbn [fst map rose_map]. now rewrite E.
  - cbn [fst]. apply E.
  - unfold under. cbn [fst map rose_map]. now rewrite E.
  - unfold under. cbn [fst map rose_map]. now rewrite E.
  - destruct c; auto.
Qed.

(** * Visibility *)
Definition told (x : symbol) : list shown :=
  match skind x, snamespace x with
  | _, Some Instance => [mkShown (sname x) (srange x) (svisibility x)]
  | _, _ => []
  end.
Fixpoint told_in (r : rose symbol) : list shown := match r with Rose x cs => told x ++ flat_map told_in cs end.

Definition methodic (x : symbol) : Prop := snamespace x = Some Instance -> skind x = SMethod.
Fixpoint methodics (r : rose symbol) : Prop :=
  match r with
  | Rose x cs => methodic x /\ (fix all (l : list (rose symbol)) : Prop := match l with [] => True | y :: r => methodics y /\ all r end) cs
  end.

Lemma flat_map_Forall {A B} (f g : A -> list B) l : Forall (fun x => f x = g x) l -> flat_map f l = flat_map g l.
Proof. induction 1; cbn; congruence. Qed.
Lemma flat_map_perm {A B} (f g : A -> list B) l : Forall (fun x => Permutation (f x) (g x)) l ->
  Permutation (flat_map f l) (flat_map g l).
Proof. induction 1; cbn; [constructor|]. now apply Permutation_app. Qed.
Lemma flat_map_rev_perm {A B} (f : A -> list B) l : Permutation (flat_map f (rev l)) (flat_map f l).
Proof. apply Permutation_flat_map. symmetry. apply Permutation_rev. Qed.
Lemma flat_map_map {A B C} (f : B -> list C) (g : A -> B) l : flat_map f (map g l) = flat_map (fun x => f (g x)) l.
Proof. induction l; cbn; congruence. Qed.

Lemma shown_told x : methodic x ->
  match visibility_word (detail x) with Some v => [mkShown (sname x) (srange x) v] | None => [] end = told x.
Proof.
  intros M. unfold told, detail, methodic in *. destruct (snamespace x) as [[|]|].
  - rewrite M by reflexivity. destruct (svisibility x); reflexivity.
  - destruct (skind x); reflexivity.
  - destruct (svisibility x), (skind x); reflexivity.
Qed.
Lemma told_mirror r : methodics r -> Permutation (shown_methods (convert (mirror r))) (told_in r).
Proof.
  induction r as [x cs IH] using rose_ind'. intros [M1 M2]. cbn [mirror convert shown_methods told_in idetail iname irange].
  rewrite (shown_told x M1). apply Permutation_app_head.
  rewrite map_rev. etransitivity; [apply flat_map_rev_perm|]. rewrite map_map, flat_map_map.
  apply flat_map_perm. induction IH as [|y r Hy Hr IH']; constructor.
  - apply Hy, M2.
  - apply IH', M2.
Qed.

Lemma forest_methodic t : forall single v, Forall methodics (fst (forest single v t)).
Proof.
  induction t as [w loc below IH] using tree_ind'. intros single v.
  assert (E : forall s v, Forall methodics (fst (thread (forest s) v below))).
  { intros s. induction IH as [|t l Ht Hl IH']; intros v'; cbn [thread fst]; [constructor|].
    apply Forall_app. split; auto. }
  assert (C : forall x F, methodic x -> Forall methodics F -> methodics (Rose x F)).
  { intros x F Hx HF. split; [assumption|]. induction HF; auto. }
  destruct w as [| | |n r|n r| |n r|n|n|c b]; cbn [forest]; auto.
  - cbn [fst]. constructor; [apply C; [discriminate|apply E]|constructor].
  - cbn [fst]. constructor; [apply C; [discriminate|apply E]|constructor].
  - cbn [fst]. apply E.
  - unfold under. cbn [fst]. constructor; [|apply E]. split; [intros _; reflexivity|exact Logic.I].
  - unfold under. cbn [fst]. constructor; [|apply E]. split; [discriminate|exact Logic.I].
  - destruct c; auto.
Qed.

(** In a tidy program only the statements of a body change the visibility. *)
Definition spread (c : context) (v : visibility) (t : tree) : visibility :=
  match c with CStatement _ => after v t | _ => v end.
Definition is_body (c : context) (t : tree) : bool :=
  match c, t with CBody _, Node NStatements _ _ => true | _, _ => false end.
Definition agree (c : context) (v u : visibility) : Prop := top_of c = true \/ c = CMethod \/ v = u.

Definition Told (t : tree) : Prop := forall single c v u, tidy single c t = true -> agree c v u ->
  flat_map told_in (fst (forest single v t)) = ruby_methods single u t
  /\ (is_body c t = false -> snd (forest single v t) = spread c v t).

Lemma flat_told F1 F2 : flat_map told_in (F1 ++ F2) = flat_map told_in F1 ++ flat_map told_in F2.
Proof. apply flat_map_app. Qed.

(** Lists of nodes none of which changes the visibility. *)
Lemma thread_plain single c l : Forall Told l -> (forall b, c <> CStatement b) -> (forall b, c <> CBody b) ->
  forall v u, forallb (tidy single c) l = true -> agree c v u ->
  flat_map told_in (fst (thread (forest single) v l)) = flat_map (ruby_methods single u) l
  /\ snd (thread (forest single) v l) = v.
Proof.
  intros HT N1 N2. induction HT as [|t l Ht Hl IH]; intros v u Hd Ha; cbn [thread fst snd flat_map]; [auto|].
  cbn [forallb] in Hd. apply andb_true_iff in Hd as [D1 D2].
  destruct (Ht single c v u D1 Ha) as [E1 E2].
  assert (E3 : snd (forest single v t) = v).
  { rewrite E2; [|destruct c; auto; exfalso; eapply N2; reflexivity]. destruct c; auto. exfalso. eapply N1. reflexivity. }
  rewrite E3. destruct (IH v u D2 Ha) as [I1 I2]. rewrite flat_told, E1, I1. auto.
Qed.
(** What is below a class, module or program. *)
Lemma thread_body single b l : Forall Told l -> forall v u, body_last l = true -> forallb (tidy single (CBody b)) l = true ->
  agree (CBody b) v u -> flat_map told_in (fst (thread (forest single) v l)) = flat_map (ruby_methods single u) l.
Proof.
  intros HT. induction HT as [|t l Ht Hl IH]; intros v u Hb Hd Ha; cbn [thread fst snd flat_map]; auto.
  cbn [forallb] in Hd. apply andb_true_iff in Hd as [D1 D2].
  destruct (Ht single (CBody b) v u D1 Ha) as [E1 E2]. rewrite flat_told, E1. f_equal.
  destruct l as [|t2 l]; [reflexivity|].
  assert (B : is_body (CBody b) t = false /\ body_last (t2 :: l) = true).
  { destruct t as [w ? ?]. destruct w; cbn in Hb |- *; auto; discriminate. }
  destruct B as [B1 B2]. rewrite (E2 B1). cbn [spread]. now apply IH.
Qed.
(** The statements of a body. *)
Lemma thread_statements single b l : Forall Told l -> forall v u, forallb (tidy single (CStatement b)) l = true ->
  agree (CStatement b) v u ->
  flat_map told_in (fst (thread (forest single) v l)) =
  (fix go (v : visibility) (l : list tree) : list shown :=
     match l with [] => [] | x :: r => ruby_methods single v x ++ go (after v x) r end) u l.
Proof.
  intros HT. induction HT as [|t l Ht Hl IH]; intros v u Hd Ha; cbn [thread fst snd]; auto.
  cbn [forallb] in Hd. apply andb_true_iff in Hd as [D1 D2].
  destruct (Ht single (CStatement b) v u D1 Ha) as [E1 E2]. rewrite flat_told, E1. f_equal.
  rewrite (E2 eq_refl). cbn [spread]. apply IH; [assumption|].
  destruct Ha as [H|[H|H]]; [now left|discriminate|]. right. right. now subst.
Qed.
(** Statements elsewhere hold no modifier. *)
Lemma go_plain single c l : (forall b, c <> CStatement b) -> forallb (tidy single c) l = true -> forall u,
  (fix go (v : visibility) (l : list tree) : list shown :=
     match l with [] => [] | x :: r => ruby_methods single v x ++ go (after v x) r end) u l
  = flat_map (ruby_methods single u) l.
Proof.
  intros N. induction l as [|t l IH]; intros Hd u; [reflexivity|]. cbn [forallb] in Hd.
  apply andb_true_iff in Hd as [D1 D2]. cbn [flat_map]. f_equal.
  assert (A : after u t = u).
  { destruct t as [w lo be]. destruct w; auto. destruct c0; auto. destruct bare; auto. cbn in D1.
    destruct c; cbn in D1; try discriminate. exfalso. eapply N. reflexivity. }
  rewrite A. now apply IH.
Qed.

Lemma deeper_not c : (forall b, deeper c <> CStatement b) /\ (forall b, deeper c <> CBody b).
Proof. destruct c; split; discriminate. Qed.
Lemma deeper_agree c v u : agree c v u -> agree (deeper c) v u.
Proof. unfold agree. destruct c; cbn; intros [H|[H|H]]; auto; discriminate. Qed.

Lemma told_ok t : Told t.
Proof.
  induction t as [w loc below HT] using tree_ind'. intros single c v u Hd Ha.
  destruct (deeper_not c) as [N1 N2]. pose proof (deeper_agree c v u Ha) as Ha'.
  assert (Plain : forallb (tidy single (deeper c)) below = true ->
            flat_map told_in (fst (thread (forest single) v below)) = flat_map (ruby_methods single u) below
            /\ snd (thread (forest single) v below) = v).
  { intros H. apply thread_plain with (c := deeper c); auto. }
  assert (Aft : forall w', match w' with NCall (CModifier _) true => False | _ => True end -> spread c v (Node w' loc below) = v).
  { intros w' Hw. destruct c; auto. cbn. destruct w'; auto. destruct c; auto. destruct bare; auto. destruct Hw. }
  destruct w as [| | |n r|n r| |n r|n|n|k b]; cbn [tidy] in Hd; cbn [forest ruby_methods].
  - discriminate.
  - destruct c as [b|b|b|]; cbn [deeper top_of] in Hd.
    + split; [|discriminate]. apply thread_statements with (b := b); auto.
      destruct Ha as [H|[H|H]]; [now left|discriminate|]. right. now right.
    + destruct (Plain Hd) as [P1 P2]. rewrite P1, P2. split; [|intros; symmetry; apply Aft; exact Logic.I].
      symmetry. apply go_plain with (c := CIn b); [discriminate|assumption].
    + destruct (Plain Hd) as [P1 P2]. rewrite P1, P2. split; [|intros; symmetry; apply Aft; exact Logic.I].
      symmetry. apply go_plain with (c := CIn b); [discriminate|assumption].
    + destruct (Plain Hd) as [P1 P2]. rewrite P1, P2. split; [|intros; symmetry; apply Aft; exact Logic.I].
      symmetry. apply go_plain with (c := CMethod); [discriminate|assumption].
  - destruct (Plain Hd) as [P1 P2]. rewrite P1, P2. split; [reflexivity|]. intros. symmetry. now apply Aft.
  - apply andb_true_iff in Hd as [D1 D2]. cbn [fst snd flat_map told_in told snamespace skind app].
    rewrite app_nil_r. split; [|intros; symmetry; now apply Aft].
    apply thread_body with (b := false); auto. right. now right.
  - apply andb_true_iff in Hd as [D1 D2]. cbn [fst snd flat_map told_in told snamespace skind app].
    rewrite app_nil_r. split; [|intros; symmetry; now apply Aft].
    apply thread_body with (b := false); auto. right. now right.
  - apply andb_true_iff in Hd as [D1 D2]. cbn [fst snd]. split; [|intros; symmetry; now apply Aft].
    apply thread_body with (b := false); auto. right. now right.
  - apply andb_true_iff in Hd as [D1 D2]. apply andb_true_iff in D1 as [D0 D1].
    unfold under. cbn [fst snd flat_map told_in].
    destruct (thread_plain single CMethod below HT ltac:(discriminate) ltac:(discriminate) v Public D2 ltac:(right; now left)) as [P1 P2].
    rewrite P1, P2. split; [|intros; symmetry; now apply Aft]. rewrite app_nil_r.
    f_equal. unfold told. cbn [snamespace skind sname srange svisibility].
    destruct (r || single) eqn:Er; [reflexivity|]. cbn [orb] in D1. apply andb_true_iff in D1 as [T1 T2].
    apply negb_true_iff in T1, T2. rewrite T2.
    destruct Ha as [H|[H|H]]; [congruence|subst c; discriminate|now subst].
  - destruct (Plain Hd) as [P1 P2]. unfold under. cbn [fst snd flat_map told_in told snamespace skind app].
    rewrite P1, P2. split; [reflexivity|]. intros. symmetry. now apply Aft.
  - destruct (Plain Hd) as [P1 P2]. rewrite P1, P2. split; [reflexivity|]. intros. symmetry. now apply Aft.
  - destruct k as [m| |ns|].
    + apply andb_true_iff in Hd as [D1 D2]. apply andb_true_iff in D1 as [D0 D1]. subst b.
      destruct c as [b|b|b|]; try discriminate.
      destruct below; [|discriminate]. cbn. auto.
    + apply andb_true_iff in Hd as [D1 D2]. apply negb_true_iff in D1. subst b.
      destruct (Plain D2) as [P1 P2]. rewrite P1, P2. split; [reflexivity|]. intros. symmetry. now apply Aft.
    + destruct (Plain Hd) as [P1 P2]. rewrite P1, P2. split; [reflexivity|]. intros. symmetry. apply Aft. now destruct b.
    + destruct (Plain Hd) as [P1 P2]. rewrite P1, P2. split; [reflexivity|]. intros. symmetry. apply Aft. now destruct b.
Qed.
