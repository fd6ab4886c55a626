(** C103: the constants offered are the ones asked for. *)
From Coq Require Import List Arith Bool Lia Permutation Sorted.
From Verif Require Import Sort_Lib CompConst_Model CompConst_Spec.
Import ListNotations.

(** ** Texts. *)
Lemma starts_iff p : forall t, starts p t = true <-> exists r, t = p ++ r.
Proof.
  induction p as [|a p IH]; intros t; cbn [starts]; [split; [now exists t|easy]|].
  destruct t as [|b t]; [split; [easy|intros (r & E); easy]|]. rewrite andb_true_iff, Nat.eqb_eq, IH. split.
  - intros (-> & r & ->). now exists r.
  - intros (r & [= -> ->]). eauto.
Qed.
Lemma path_starts_iff p : forall t, path_starts p t = true <-> exists r, t = p ++ r.
Proof.
  induction p as [|a p IH]; intros t; cbn [path_starts]; [split; [now exists t|easy]|].
  destruct t as [|b t]; [split; [easy|intros (r & E); easy]|].
  destruct (list_eq_dec Nat.eq_dec a b) as [->|Ne]; cbn [andb].
  - rewrite IH. split; intros (r & E); exists r; [now rewrite E|now injection E].
  - split; [easy|]. intros (r & [= -> _]). easy.
Qed.
Lemma path_eqb_iff a : forall b, path_eqb a b = true <-> a = b.
Proof.
  induction a as [|x a IH]; intros [|y b]; cbn [path_eqb]; try easy.
  destruct (list_eq_dec Nat.eq_dec x y) as [->|Ne]; cbn [andb].
  - rewrite IH. split; congruence.
  - split; [easy|]. congruence.
Qed.
Lemma rsplit_none t : ~ In 58 t -> rsplit t = None.
Proof.
  induction t as [|c t IH]; auto. intros H. cbn [rsplit]. rewrite IH by (intros X; apply H; now right).
  destruct t as [|d t]; auto. destruct (Nat.eqb_spec c colon) as [->|]; auto. exfalso. apply H. now left.
Qed.
Lemma rsplit_app a w : ~ In 58 w -> rsplit (a ++ [58; 58] ++ w) = Some (a, w).
Proof.
  intros H. assert (rsplit ([58; 58] ++ w) = Some ([], w)) as E.
  { cbn [app]. assert (rsplit (58 :: w) = None) as E1.
    { cbn [rsplit]. rewrite rsplit_none by auto. destruct w as [|d w]; auto.
      destruct (Nat.eqb_spec d colon) as [->|]; [exfalso; apply H; now left|now rewrite andb_false_r]. }
    cbn [rsplit] in E1 |- *. rewrite E1. reflexivity. }
  induction a as [|c a IH]; [exact E|]. change ((c :: a) ++ [58; 58] ++ w) with (c :: (a ++ [58; 58] ++ w)).
  cbn [rsplit]. rewrite IH. reflexivity.
Qed.
Lemma split_plain a : forall cur, ~ In 58 a -> split cur a = [cur ++ a].
Proof.
  induction a as [|c a IH]; intros cur H; cbn [split]; [now rewrite app_nil_r|].
  destruct a as [|d a]; auto. destruct (Nat.eqb_spec c colon) as [->|]; [exfalso; apply H; now left|]. cbn [andb].
  rewrite IH by (intros X; apply H; now right). now rewrite <- app_assoc.
Qed.
Lemma split_cons a : forall cur r, ~ In 58 a -> split cur (a ++ [58; 58] ++ r) = (cur ++ a) :: split [] r.
Proof.
  induction a as [|c a IH]; intros cur r H.
  - cbn. now rewrite app_nil_r.
  - assert (exists d s, a ++ [58; 58] ++ r = d :: s) as (d & s & E) by (destruct a; cbn; eauto).
    change ((c :: a) ++ [58; 58] ++ r) with (c :: (a ++ [58; 58] ++ r)). cbn [split]. rewrite E. destruct (Nat.eqb_spec c colon) as [->|]; [exfalso; apply H; now left|]. cbn [andb].
    rewrite <- E, IH by (intros X; apply H; now right). now rewrite <- app_assoc.
Qed.
Lemma split_joined p : p <> [] -> (forall n, In n p -> ~ In 58 n) -> split [] (joined p) = p.
Proof.
  induction p as [|a p IH]; [easy|]. intros _ H. destruct p as [|b p].
  - cbn [joined]. rewrite split_plain by (apply H; now left). reflexivity.
  - cbn [joined]. rewrite split_cons by (apply H; now left). cbn [app]. f_equal. apply IH; [easy|].
    intros n Hn. apply H. now right.
Qed.

(** ** Keeping the firsts. *)
Section Firsts.
  Context {A B : Type} (key : A -> B) (same : A -> A -> bool).
  Hypothesis same_iff : forall x y, same x y = true <-> key x = key y.
  Lemma firsts_in seen l x : In x (firsts same seen l) -> In x l /\ ~ In (key x) (map key seen).
  Proof.
    revert seen. induction l as [|y l IH]; intros seen; cbn [firsts]; [easy|].
    destruct (existsb (same y) seen) eqn:E.
    - intros H. apply IH in H. split; [now right|]. tauto.
    - intros [<-|H].
      + split; [now left|]. intros H. apply in_map_iff in H. destruct H as (z & Hz & Iz).
        assert (existsb (same y) seen = true) as C; [|congruence]. apply existsb_exists. exists z. split; auto.
        apply same_iff. auto.
      + apply IH in H. destruct H as (H1 & H2). split; [now right|]. cbn in H2. tauto.
  Qed.
  Lemma firsts_has l : forall seen x, In x l -> ~ In (key x) (map key seen) -> exists y, In y (firsts same seen l) /\ key y = key x.
  Proof.
    induction l as [|y l IH]; intros seen x; [easy|]. intros [->|H] Ns; cbn [firsts].
    - destruct (existsb (same x) seen) eqn:E.
      + apply existsb_exists in E. destruct E as (z & Iz & Ez). apply same_iff in Ez. exfalso. apply Ns. rewrite Ez. now apply in_map.
      + exists x. split; [now left|auto].
    - destruct (existsb (same y) seen) eqn:E; [now apply IH|].
      destruct (same y x) eqn:Ex.
      + exists y. split; [now left|]. now apply same_iff.
      + destruct (IH (y :: seen) x H) as (z & Iz & Ez).
        { intros [C|C]; [|auto]. apply same_iff in C. congruence. }
        exists z. split; [now right|auto].
  Qed.
  Lemma firsts_nodup l : forall seen, NoDup (map key (firsts same seen l)).
  Proof.
    induction l as [|y l IH]; intros seen; cbn [firsts]; [constructor|].
    destruct (existsb (same y) seen); auto. cbn [map]. constructor; auto.
    intros H. apply in_map_iff in H. destruct H as (z & Ez & Iz). apply firsts_in in Iz. apply (proj2 Iz).
    rewrite Ez. now left.
  Qed.
  Lemma firsts_sub (R : A -> A -> Prop) l : forall seen, StronglySorted R l -> StronglySorted R (firsts same seen l).
  Proof.
    induction l as [|y l IH]; intros seen H; cbn [firsts]; [constructor|]. inversion_clear H.
    destruct (existsb (same y) seen); auto. constructor; auto. rewrite Forall_forall in *.
    intros z Hz. apply H1. now apply firsts_in in Hz.
  Qed.
  Lemma firsts_length l : forall seen, length (firsts same seen l) <= length l.
  Proof. induction l as [|y l IH]; intros seen; cbn [firsts length]; auto. destruct (existsb _ _); [auto|cbn; auto with arith]. Qed.
End Firsts.

Lemma same_parts_iff f g : same_parts f g = true <-> parts f = parts g.
Proof. apply path_eqb_iff. Qed.
Lemma same_label_iff i j : same_label i j = true <-> label i = label j.
Proof. unfold same_label. destruct (list_eq_dec _ _ _); split; easy. Qed.

Section C103.
Variable lower : name -> name.
Variable valid : name -> bool.
Variable generated : name -> bool.
(** RubyConstant::new: not empty, and no colon in it. *)
Hypothesis valid_ok : forall n, valid n = true -> n <> [] /\ ~ In 58 n.

Lemma parse_joined p : p <> [] -> (forall n, In n p -> valid n = true) -> parse_path valid (joined p) = Some p.
Proof.
  intros Np V. assert (joined p <> []) as Nj.
  { destruct p as [|a [|b p]]; [easy| |]; cbn [joined]; [apply valid_ok, V; now left|].
    destruct a; [|easy]. easy. }
  unfold parse_path. destruct (joined p) as [|c t] eqn:E; [easy|]. rewrite <- E.
  rewrite split_joined; auto. { assert (forallb valid p = true) as -> by (apply forallb_forall; auto). reflexivity. }
  intros n Hn. apply valid_ok, V, Hn.
Qed.

Lemma new_request_asked partial wh w : asked valid partial wh w ->
  new_request valid partial = mkRequest w (match wh with Some p => p | None => None end) (match wh with Some _ => true | None => false end).
Proof.
  intros [w' H|w' H|p w' Np V H]; unfold new_request.
  - now rewrite rsplit_none.
  - change ([58; 58] ++ w') with ([] ++ [58; 58] ++ w'). now rewrite rsplit_app.
  - rewrite rsplit_app by auto. pose proof (parse_joined p Np V) as P.
    destruct (joined p) as [|c t]; [discriminate P|]. now rewrite P.
Qed.

Lemma asked_fun partial wh w wh' w' : asked valid partial wh w -> asked valid partial wh' w' -> wh = wh' /\ w = w'.
Proof.
  intros H H'. pose proof (new_request_asked _ _ _ H) as E. rewrite (new_request_asked _ _ _ H') in E.
  injection E as -> E1 E2. split; auto. destruct wh as [[p|]|], wh' as [[q|]|]; try discriminate; congruence.
Qed.

Lemma matches_iff partial wh w p n : asked valid partial wh w ->
  matches lower (new_request valid partial) (p ++ [n]) = true <-> demanded lower valid partial p n.
Proof.
  intros H. rewrite (new_request_asked _ _ _ H). unfold matches, demanded. cbn [qualified prefix wanted].
  unfold simple. rewrite last_last. rewrite andb_true_iff, starts_iff. fold (begins lower w n).
  assert ((exists wh' w', asked valid partial wh' w' /\ begins lower w' n /\
             match wh' with None => True | Some None => p = [] | Some (Some q) => p = q end)
          <-> begins lower w n /\ match wh with None => True | Some None => p = [] | Some (Some q) => p = q end) as ->.
  { split.
    - intros (wh' & w' & H' & H1). destruct (asked_fun _ _ _ _ _ H H') as (-> & ->). exact H1.
    - intros H1. exists wh, w. tauto. }
  assert ((if match wh with Some _ => true | None => false end
           then match match wh with Some p => p | None => None end with
                | Some ns => (length (p ++ [n]) =? length ns + 1) && path_starts ns (p ++ [n])
                | None => length (p ++ [n]) <=? 1 end
           else true) = true <-> match wh with None => True | Some None => p = [] | Some (Some q) => p = q end) as ->; [|tauto].
  destruct wh as [[q|]|]; [| |tauto].
  - rewrite app_length. cbn [length]. rewrite andb_true_iff, Nat.eqb_eq, path_starts_iff. split.
    + intros (L & r & E). assert (length p = length q) as L' by lia. clear -E L'.
      revert q E L'. induction p as [|x p IH]; intros [|y q] E L; cbn in *; try lia; auto.
      injection E as -> E. f_equal. eauto.
    + intros ->. split; [lia|eauto].
  - rewrite app_length. cbn [length]. rewrite Nat.leb_le. split; [|intros ->; cbn; lia].
    destruct p; auto. cbn. lia.
Qed.

Lemma is_constant_iff f : is_constant generated f = true <-> In (fkind f) [Class; Module; Constant] /\ forall n, In n (parts f) -> generated n = false.
Proof.
  unfold is_constant.
  assert (negb (existsb generated (parts f)) = true <-> forall n, In n (parts f) -> generated n = false) as E.
  { rewrite negb_true_iff. split.
    - intros H n Hn. destruct (generated n) eqn:G; auto. assert (existsb generated (parts f) = true); [|congruence].
      apply existsb_exists. eauto.
    - intros H. destruct (existsb generated (parts f)) eqn:G; auto. apply existsb_exists in G. destruct G as (n & Hn & G).
      rewrite H in G by auto. discriminate. }
  destruct (fkind f); rewrite ?E; cbn [In]; split; intros H; try easy; try (split; [tauto|easy]); try tauto.
  all: destruct H as ([H|[H|[H|[]]]] & _); discriminate.
Qed.

(** All candidates before the limit, one per path. *)
Definition candidates facts partial :=
  filter (fun f => matches lower (new_request valid partial) (parts f)) (firsts same_parts [] (filter (is_constant generated) facts)).
Lemma candidates_in facts partial f : In f (candidates facts partial) -> In f facts
  /\ In (fkind f) [Class; Module; Constant] /\ (forall n, In n (parts f) -> generated n = false)
  /\ matches lower (new_request valid partial) (parts f) = true.
Proof.
  unfold candidates. rewrite filter_In. intros (H & M). apply (firsts_in parts _ same_parts_iff) in H. destruct H as (H & _).
  apply filter_In in H. destruct H as (H & C). apply is_constant_iff in C. tauto.
Qed.
Lemma candidates_has facts partial p : known generated facts p -> matches lower (new_request valid partial) p = true ->
  exists f, In f (candidates facts partial) /\ parts f = p.
Proof.
  intros (k & H & Hk & G) M. destruct (firsts_has parts _ same_parts_iff (filter (is_constant generated) facts) [] (mkFact k p)) as (f & If & Ef); auto.
  { apply filter_In. split; auto. now apply is_constant_iff. }
  cbn in Ef. exists f. split; auto. apply filter_In. split; auto. now rewrite Ef.
Qed.
Lemma candidates_nodup facts partial : NoDup (map parts (candidates facts partial)).
Proof.
  unfold candidates. assert (forall l (q : fact -> bool), NoDup (map parts l) -> NoDup (map parts (filter q l))) as F.
  { intros l q. induction l as [|x l IH]; cbn; auto. intros H. inversion_clear H. destruct (q x); auto. cbn. constructor; auto.
    intros C. apply H0. apply in_map_iff in C. destruct C as (y & <- & Iy). apply filter_In in Iy. now apply in_map. }
  apply F, (firsts_nodup parts _ same_parts_iff).
Qed.

Lemma offered_in facts partial i : In i (offered lower valid generated facts partial) ->
  exists f, In f (candidates facts partial) /\ i = as_item f.
Proof.
  unfold offered. intros H. apply (firsts_in label _ same_label_iff) in H. destruct H as (H & _).
  apply sort_in, in_map_iff in H. destruct H as (f & <- & H). exists f. split; auto.
  assert (In f (sort (key_leb (fun f => simple (parts f))) (candidates facts partial))) as H'.
  { unfold constant_matches in H. eapply (In_nth_error) in H. destruct H as (n & H).
    rewrite <- (firstn_skipn limit). apply in_or_app. left. eapply nth_error_In, H. }
  now apply sort_in in H'.
Qed.

(** What is offered is known, of the kind it is shown with, was asked for, and inserts its last name. *)
Theorem C103_sound : forall facts partial wh w, asked valid partial wh w ->
  (forall f, In f facts -> parts f <> []) ->
  forall i, In i (offered lower valid generated facts partial) ->
  exists p n, shows i = p ++ [n] /\ label i = n /\ inserted i = n
    /\ In (mkFact (what i) (p ++ [n])) facts /\ known generated facts (p ++ [n]) /\ demanded lower valid partial p n.
Proof.
  intros facts partial wh w Ha Hp i Hi. apply offered_in in Hi. destruct Hi as (f & Hf & ->).
  apply candidates_in in Hf. destruct Hf as (If & Hk & G & M).
  destruct (exists_last (Hp f If)) as (p & n & E). exists p, n. cbn [shows label inserted what as_item].
  unfold as_item. cbn [shows label inserted what]. unfold simple. rewrite E, last_last. repeat split.
  - rewrite <- E. destruct f; exact If.
  - exists (fkind f). rewrite <- E. destruct f; auto.
  - rewrite E in M. eapply matches_iff; eauto.
Qed.

(** The labels are in order and none comes twice; there are at most fifty. *)
Definition before (a b : name) : Prop := lexb a b = true /\ a <> b.
Theorem C103_ordered : forall facts partial,
  StronglySorted before (map label (offered lower valid generated facts partial))
  /\ length (offered lower valid generated facts partial) <= 50.
Proof.
  intros facts partial. split.
  - pose proof (firsts_nodup label _ same_label_iff (sort (key_leb label) (map as_item (constant_matches lower generated facts (new_request valid partial) limit))) []) as N0.
    pose proof (firsts_sub label _ same_label_iff (le (key_leb label)) _ [] (sort_sorted (key_leb label) (key_total label) (key_trans label)
      (map as_item (constant_matches lower generated facts (new_request valid partial) limit)))) as S0.
    unfold offered. revert N0 S0. generalize (firsts same_label [] (sort (key_leb label) (map as_item (constant_matches lower generated facts (new_request valid partial) limit)))).
    intros l. induction l as [|x l IH]; cbn [map]; [constructor|]. intros N0 S0. inversion_clear N0. inversion_clear S0. constructor; auto.
    rewrite Forall_forall in *. intros m Hm. apply in_map_iff in Hm. destruct Hm as (y & <- & Iy). split; [apply (H2 y Iy)|].
    intros C. apply H. rewrite C. now apply in_map.
  - unfold offered. eapply Nat.le_trans; [apply firsts_length|]. rewrite sort_length, map_length.
    unfold constant_matches. rewrite firstn_length. unfold limit. lia.
Qed.

(** Up to fifty matching constants, the last name of each of them is offered. *)
Theorem C103_complete : forall facts partial wh w, asked valid partial wh w ->
  (forall ps, NoDup ps -> (forall q, In q ps -> exists p n, q = p ++ [n] /\ known generated facts q /\ demanded lower valid partial p n) -> length ps <= 50) ->
  (forall f, In f facts -> parts f <> []) ->
  forall p n, known generated facts (p ++ [n]) -> demanded lower valid partial p n ->
  exists i, In i (offered lower valid generated facts partial) /\ label i = n.
Proof.
  intros facts partial wh w Ha L Hp p n K D.
  assert (length (candidates facts partial) <= 50) as Lc.
  { rewrite <- (map_length parts). apply L; [apply candidates_nodup|]. intros q Hq.
    apply in_map_iff in Hq. destruct Hq as (f & <- & If). apply candidates_in in If. destruct If as (If & Hk & G & M).
    destruct (exists_last (Hp f If)) as (p' & n' & E). exists p', n'. split; auto. split.
    - exists (fkind f). destruct f; auto.
    - rewrite E in M. eapply matches_iff; eauto. }
  destruct (candidates_has facts partial (p ++ [n])) as (f & If & Ef); auto. { eapply matches_iff; eauto. }
  destruct (firsts_has label _ same_label_iff (sort (key_leb label) (map as_item (constant_matches lower generated facts (new_request valid partial) limit))) [] (as_item f)) as (i & Ii & Ei); auto.
  - apply sort_in, in_map. unfold constant_matches. rewrite firstn_all2; [|rewrite sort_length; exact Lc]. now apply sort_in.
  - exists i. split; auto. rewrite Ei. unfold as_item. cbn [label]. rewrite Ef. unfold simple. apply last_last.
Qed.

(** Beyond fifty the ones offered come first in the order of their names. *)
Theorem C103_first : forall facts partial wh w, asked valid partial wh w ->
  forall p n i, known generated facts (p ++ [n]) -> demanded lower valid partial p n ->
  ~ In n (map label (offered lower valid generated facts partial)) ->
  In i (offered lower valid generated facts partial) -> before (label i) n.
Proof.
  intros facts partial wh w Ha p n i K D No Hi.
  destruct (candidates_has facts partial (p ++ [n])) as (f & If & Ef); auto. { eapply matches_iff; eauto. }
  assert (simple (parts f) = n) as En by (rewrite Ef; apply last_last).
  set (key := fun f => simple (parts f)) in *. set (l := sort (key_leb key) (candidates facts partial)).
  assert (In f l) as Il by now apply sort_in.
  assert (forall g, In g (firstn limit l) -> exists j, In j (offered lower valid generated facts partial) /\ label j = key g) as Has.
  { intros g Hg. destruct (firsts_has label _ same_label_iff (sort (key_leb label) (map as_item (firstn limit l))) [] (as_item g)) as (j & Ij & Ej); auto.
    - now apply sort_in, in_map.
    - exists j. split; [exact Ij|exact Ej]. }
  rewrite <- (firstn_skipn limit l) in Il. apply in_app_or in Il. destruct Il as [Il|Il].
  { exfalso. destruct (Has f Il) as (j & Ij & Ej). apply No. rewrite <- En. fold (key f). rewrite <- Ej. now apply in_map. }
  unfold offered in Hi. pose proof Hi as Hi0. apply (firsts_in label _ same_label_iff) in Hi. destruct Hi as (Hi & _).
  apply sort_in, in_map_iff in Hi. destruct Hi as (g & <- & Hg). change (In g (firstn limit l)) in Hg.
  assert (StronglySorted (le (key_leb key)) (firstn limit l ++ skipn limit l)) as So.
  { rewrite firstn_skipn. apply sort_sorted; [apply key_total|apply key_trans]. }
  split.
  - cbn [label as_item]. rewrite <- En. clear -So Hg Il. revert So Hg. induction (firstn limit l) as [|x r IH]; [easy|].
    cbn [app]. intros So Hg. inversion_clear So. destruct Hg as [->|Hg]; auto. rewrite Forall_forall in H0.
    specialize (H0 f). unfold le, key_leb in H0. apply H0. apply in_or_app. now right.
  - intros C. apply No. rewrite <- C. now apply in_map.
Qed.
End C103.
Print Assumptions C103_sound.
Print Assumptions C103_ordered.
Print Assumptions C103_complete.
Print Assumptions C103_first.

(** *** Where it fails. *)
(** Two constants of one last name: at most one of the two can be chosen, in every request. *)
Theorem C103_twin_refuted : forall lower valid generated facts partial p q n i j,
  p <> q -> In i (offered lower valid generated facts partial) -> In j (offered lower valid generated facts partial) ->
  shows i = p ++ [n] -> shows j = q ++ [n] -> False.
Proof.
  intros lower valid generated facts partial p q n i j Ne Hi Hj Ei Ej.
  pose proof (offered_in lower valid generated facts partial i Hi) as (f & _ & ->).
  pose proof (offered_in lower valid generated facts partial j Hj) as (g & _ & ->). cbn in Ei, Ej.
  assert (label (as_item f) = label (as_item g)) as E by (cbn; rewrite Ei, Ej; unfold simple; now rewrite !last_last).
  pose proof (firsts_nodup label _ same_label_iff (sort (key_leb label) (map as_item (constant_matches lower generated facts (new_request valid partial) limit))) []) as N0.
  unfold offered in Hi, Hj. revert Hi Hj N0. generalize (firsts same_label [] (sort (key_leb label) (map as_item (constant_matches lower generated facts (new_request valid partial) limit)))).
  intros l Hi Hj N0. assert (as_item f = as_item g) as Ef.
  { clear -Hi Hj N0 E. induction l as [|x l IH]; [easy|]. cbn in N0. inversion_clear N0. destruct Hi as [->|Hi], Hj as [Hj|Hj]; auto.
    - exfalso. apply H. rewrite E. now apply in_map.
    - exfalso. apply H. rewrite Hj, <- E. now apply in_map. }
  pose proof (f_equal shows Ef) as E2. cbn [shows as_item] in E2. unfold as_item in E2. cbn [shows] in E2. apply Ne. rewrite E2, Ej in Ei. apply app_inj_tail in Ei. now symmetry.
Qed.
Print Assumptions C103_twin_refuted.

(** What is inserted is the last name, also for a constant that this name does not reach: with [A::B]
    known and no other constant, a bare request at the top level offers and inserts [B]. *)
Definition plain (n : name) : name := n.
Definition upper_first (n : name) : bool := match n with c :: r => (65 <=? c) && (c <=? 90) && negb (existsb (Nat.eqb 58) r) | [] => false end.
Definition never (n : name) : bool := false.
Theorem C103_unreachable_refuted :
  offered plain upper_first never [mkFact Module [[65]]; mkFact Class [[65]; [66]]] [66]
    = [mkItem [66] [66] Class [[65]; [66]]].
Proof. reflexivity. Qed.
Print Assumptions C103_unreachable_refuted.

(** The limit is applied before the doubles are removed: fifty namespaces that each have a constant
    [B] crowd out every other match, and the list has one entry. *)
Lemma sort_equal_keys (l : list fact) (k : name) : (forall f, In f l -> simple (parts f) = k) ->
  sort (key_leb (fun f => simple (parts f))) l = l.
Proof.
  intros H. apply sort_id; [apply key_total|apply key_trans|]. induction l as [|x l IH]; constructor.
  - apply IH. intros f Hf. apply H. now right.
  - apply Forall_forall. intros y Hy. unfold le, key_leb. rewrite !H by (cbn; auto). destruct (lexb_total k k); auto.
Qed.
Lemma firsts_all {A B} (key : A -> B) same (same_iff : forall x y, same x y = true <-> key x = key y) l : forall seen,
  NoDup (map key l) -> (forall x, In x l -> ~ In (key x) (map key seen)) -> firsts same seen l = l.
Proof.
  induction l as [|x l IH]; intros seen N0 H; cbn [firsts]; auto. cbn in N0. inversion_clear N0.
  destruct (existsb (same x) seen) eqn:E.
  - exfalso. apply existsb_exists in E. destruct E as (y & Iy & Ey). apply same_iff in Ey. apply (H x); [now left|]. rewrite Ey. now apply in_map.
  - f_equal. apply IH; auto. intros y Hy [C|C]; [|now apply (H y); [right|]]. apply H0. rewrite C. now apply in_map.
Qed.
Theorem C103_crowded_refuted : forall (owners : list name) b c,
  NoDup owners -> length owners = 50 -> lexb b c = true -> b <> c ->
  forall i, In i (offered plain upper_first never (map (fun o => mkFact Class [o; b]) owners ++ [mkFact Class [c]]) []) -> label i = b.
Proof.
  intros owners b c N0 L Lt Ne i Hi. unfold offered in Hi. apply (firsts_in label _ same_label_iff) in Hi. destruct Hi as (Hi & _).
  apply sort_in, in_map_iff in Hi. destruct Hi as (f & <- & Hf).
  set (bs := map (fun o => mkFact Class [o; b]) owners) in *.
  assert (constant_matches plain never (bs ++ [mkFact Class [c]]) (new_request upper_first []) limit = bs) as E.
  { unfold constant_matches.
    assert (forall l : list fact, (forall f, In f l -> fkind f = Class) -> filter (is_constant never) l = l) as F1.
    { intros l H. induction l as [|x l IH]; cbn; auto. unfold is_constant at 1. rewrite (H x) by now left.
      assert (existsb never (parts x) = false) as -> by (induction (parts x); auto). cbn. f_equal. apply IH. intros y Hy. apply H. now right. }
    rewrite F1.
    2:{ intros g Hg. apply in_app_or in Hg. destruct Hg as [Hg|[<-|[]]]; auto. apply in_map_iff in Hg. now destruct Hg as (o & <- & _). }
    rewrite (firsts_all parts _ same_parts_iff); [|..].
    - assert (forall l : list fact, filter (fun f => matches plain (new_request upper_first []) (parts f)) l = l) as ->.
      { intros l. induction l as [|x l IH]; [reflexivity|]. cbn [filter]. rewrite IH. reflexivity. }
      rewrite sort_app_lt; [|apply key_total|apply key_trans|].
      + rewrite (sort_equal_keys bs b); [|intros f0 H0; apply in_map_iff in H0; now destruct H0 as (o & <- & _)].
        assert (length bs = limit) as Lb by (unfold bs; now rewrite map_length).
        rewrite <- Lb. rewrite firstn_app, firstn_all, Nat.sub_diag. cbn. apply app_nil_r.
      + intros x y Hx [<-|[]]. apply in_map_iff in Hx. destruct Hx as (o & <- & _). exact Lt.
    - rewrite map_app. cbn [map parts]. apply (Permutation_NoDup (Permutation_cons_append _ _)). constructor.
      + intros C. apply in_map_iff in C. destruct C as (g & Eg & Ig). apply in_map_iff in Ig. destruct Ig as (o & <- & _). discriminate.
      + unfold bs. rewrite map_map. cbn. apply FinFun.Injective_map_NoDup; auto. intros x y C. congruence.
    - auto. }
  rewrite E in Hf. apply in_map_iff in Hf. destruct Hf as (o & <- & _). reflexivity.
Qed.
Print Assumptions C103_crowded_refuted.

(** *** The hypotheses can be met. *)
Lemma upper_first_ok n : upper_first n = true -> n <> [] /\ ~ In 58 n.
Proof.
  destruct n as [|c r]; [easy|]. cbn [upper_first]. rewrite !andb_true_iff, negb_true_iff. intros ((H1 & H2) & H3). split; [easy|].
  apply Nat.leb_le in H1, H2. intros [->|C]; [lia|]. assert (existsb (Nat.eqb 58) r = true); [|congruence].
  apply existsb_exists. exists 58. auto.
Qed.
(** [A::B], [A::Bc], [C::B] and a top level [B]; asking for [A::B]. *)
Definition sample := [mkFact Class [[65]; [66]]; mkFact Module [[65]; [66; 99]]; mkFact Class [[67]; [66]]; mkFact Constant [[66]]].
Example C103_inside : asked upper_first [65; 58; 58; 66] (Some (Some [[65]])) [66]
  /\ offered plain upper_first never sample [65; 58; 58; 66]
     = [mkItem [66] [66] Class [[65]; [66]]; mkItem [66; 99] [66; 99] Module [[65]; [66; 99]]].
Proof.
  split; [|reflexivity]. apply (asked_inside upper_first [[65]] [66]); [easy| |intros [C|[]]; discriminate].
  intros n [<-|[]]. reflexivity.
Qed.
Example C103_top : offered plain upper_first never sample [58; 58; 66] = [mkItem [66] [66] Constant [[66]]].
Proof. reflexivity. Qed.
Example C103_bare : map label (offered plain upper_first never sample [66]) = [[66]; [66; 99]].
Proof. reflexivity. Qed.
Example C103_crowded : NoDup (map (fun k => [65; k]) (seq 0 50)) /\ length (map (fun k => [65; k]) (seq 0 50)) = 50
  /\ map label (offered plain upper_first never (map (fun o => mkFact Class [o; [66]]) (map (fun k => [65; k]) (seq 0 50)) ++ [mkFact Class [[67]]]) []) = [[66]].
Proof.
  split; [|split; reflexivity]. apply FinFun.Injective_map_NoDup; [|apply seq_NoDup]. intros x y C. congruence.
Qed.
