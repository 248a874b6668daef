(** match_result for every pattern: reachable results, history independence, range-for. *)
From Coq Require Import ZArith NArith List Bool Lia ZifyBool ZifyNat ZifyN.
From Verif Require Import Base Text Ast Builder Engine Api AstProofs BuilderProofs EngineRel.
Import ListNotations.
Open Scope Z_scope.

(** Results a program can hold: constructed by the regex, then any number of next(). *)
Inductive reach (e : env) (n : node) : st -> Prop :=
| ReachCreate fuel s : create fuel e n = RDone s -> reach e n s
| ReachNext fuel s s' : reach e n s -> next fuel e n s = RDone s' -> reach e n s'.

Lemma next_loop_done e n : forall fuel s s', s_start s = s_end s -> next_loop fuel e n s = RDone s' ->
  s_acc s' = true \/ (s_acc s' = false /\ qe e <= s_end s' /\ s_start s' = s_end s').
Proof.
  induction fuel as [|f IH]; intros s s' Hs H; cbn in H.
  - destruct (Z.ltb_spec (s_start s) (qe e)); [discriminate|]. injection H as <-. right. cbn. lia.
  - destruct (Z.ltb_spec (s_start s) (qe e)).
    + destruct (mt e n [] s) as [s1|]; [|discriminate].
      destruct (s_acc s1) eqn:E; [injection H as <-; auto|].
      destruct (ptr_ok e _); [|discriminate]. eapply IH; [|exact H]. reflexivity.
    + injection H as <-. right. cbn. lia.
Qed.
Lemma next_done e n fuel s s' : next fuel e n s = RDone s' ->
  s_acc s' = true \/ (s_acc s' = false /\ qe e <= s_end s' /\ s_start s' = s_end s').
Proof. apply next_loop_done. reflexivity. Qed.
Lemma reach_rejected e n s : reach e n s -> s_acc s = false -> qe e <= s_end s /\ s_start s = s_end s.
Proof.
  intros H A. destruct H as [fuel s H|fuel s s' _ H].
  - unfold create in H. destruct (mt e n [] (fresh e n)) as [s1|]; [|discriminate].
    destruct (s_acc s1) eqn:E; [congruence|]. apply next_done in H. intuition congruence.
  - apply next_done in H. intuition congruence.
Qed.
Lemma next_past e n fuel s : qe e <= s_end s ->
  next fuel e n s = RDone (mkSt (s_end s) (s_end s) (no_groups n) false).
Proof.
  intro H. unfold next. destruct fuel; cbn; destruct (Z.ltb_spec (s_end s) (qe e)); try lia; reflexivity.
Qed.
Lemma next_history e n fuel s1 s2 : reach e n s1 -> reach e n s2 -> s_end s1 = s_end s2 ->
  next fuel e n s1 = next fuel e n s2.
Proof.
  intros H1 H2 E. destruct (s_acc s1) eqn:A1, (s_acc s2) eqn:A2.
  1,4: unfold next; now rewrite E, A1, A2.
  - pose proof (reach_rejected _ _ _ H2 A2). rewrite !next_past by lia. now rewrite E.
  - pose proof (reach_rejected _ _ _ H1 A1). rewrite !next_past by lia. now rewrite E.
Qed.

(** ** Fuel *)
Lemma next_loop_more e n : forall f s s', next_loop f e n s = RDone s' -> forall g, (f <= g)%nat -> next_loop g e n s = RDone s'.
Proof.
  induction f as [|f IH]; intros s s' H g Hg; destruct g as [|g]; try lia; cbn in *;
    destruct (s_start s <? qe e); try discriminate; auto.
  destruct (mt e n [] s) as [s1|]; [|discriminate]. destruct (s_acc s1); [assumption|].
  destruct (ptr_ok e _); [|discriminate]. apply IH; [assumption|lia].
Qed.
Lemma next_more e n f g s s' : next f e n s = RDone s' -> (f <= g)%nat -> next g e n s = RDone s'.
Proof. unfold next. intros. eapply next_loop_more; eassumption. Qed.
Lemma create_more e n f g s : create f e n = RDone s -> (f <= g)%nat -> create g e n = RDone s.
Proof.
  unfold create. destruct (mt e n [] (fresh e n)) as [s1|]; [|discriminate].
  destruct (s_acc s1); [auto|]. intros. eapply next_more; eassumption.
Qed.
Lemma next_det e n f g s s1 s2 : next f e n s = RDone s1 -> next g e n s = RDone s2 -> s1 = s2.
Proof.
  intros H1 H2. destruct (Nat.le_ge_cases f g) as [L|L].
  - rewrite (next_more _ _ _ _ _ _ H1 L) in H2. congruence.
  - rewrite (next_more _ _ _ _ _ _ H2 L) in H1. congruence.
Qed.

(** ** Range-for *)
(** [visits s l]: starting from result [s], reading the text and calling next() until the
    result is not accepted reads exactly the texts [l]. *)
Inductive visits (e : env) (n : node) : st -> list view -> Prop :=
| VisitStop s : is_accepted s = false -> visits e n s []
| VisitGo fuel s s' l : is_accepted s = true -> next fuel e n s = RDone s' ->
                        visits e n s' l -> visits e n s (to_view s :: l).
Lemma range_loop_visits e n r : forall steps fuel i l,
  range_loop steps fuel e n i (r_end r) = Some l -> visits e n i l.
Proof.
  induction steps as [|k IH]; intros fuel i l H; cbn in H; unfold r_neq in H; cbn [r_end s_acc] in H;
    rewrite xorb_false_r in H; destruct (s_acc i) eqn:E.
  - discriminate.
  - injection H as <-. now constructor.
  - destruct (next fuel e n i) as [i'| |] eqn:N; try discriminate.
    destruct (range_loop k fuel e n i' (r_end r)) as [l'|] eqn:L; [|discriminate]. injection H as <-.
    econstructor; eauto.
  - injection H as <-. now constructor.
Qed.
Lemma visits_range_loop e n r i l : visits e n i l ->
  exists f, forall steps fuel, (length l <= steps)%nat -> (f <= fuel)%nat ->
    range_loop steps fuel e n i (r_end r) = Some l.
Proof.
  induction 1 as [s H|fuel s s' l H N V IH].
  - exists 0%nat. intros [|k] fuel _ _; cbn; unfold r_neq; cbn; unfold is_accepted in H; rewrite H; reflexivity.
  - destruct IH as (f & IH). exists (Nat.max f fuel). intros [|k] fuel' Hk Hf; cbn in Hk; [lia|].
    cbn. unfold r_neq. cbn [r_end s_acc]. unfold is_accepted in H. rewrite H. cbn [xorb].
    rewrite (next_more _ _ _ fuel' _ _ N) by lia. rewrite IH by lia. reflexivity.
Qed.
Lemma range_for_iff e n r l :
  (exists steps fuel, range_for steps fuel e n r = Some l)
  <-> (exists fuel s, create fuel e n = RDone s /\ visits e n s l).
Proof.
  split.
  - intros (steps & fuel & H). unfold range_for, r_begin in H.
    destruct (create fuel e n) as [s| |] eqn:C; try discriminate.
    exists fuel, s. split; auto. eapply range_loop_visits; eassumption.
  - intros (fuel & s & C & V). destruct (visits_range_loop e n r s l V) as (f & L).
    exists (length l), (Nat.max f fuel). unfold range_for, r_begin.
    rewrite (create_more _ _ _ (Nat.max f fuel) _ C) by lia. apply L; lia.
Qed.
Lemma visits_det e n s l1 : visits e n s l1 -> forall l2, visits e n s l2 -> l1 = l2.
Proof.
  induction 1 as [s H|fuel s s' l H N V IH]; intros l2 V2; inversion V2; subst; try congruence.
  f_equal. apply IH. match goal with H1 : next _ _ _ s = RDone ?x |- _ => now rewrite (next_det _ _ _ _ _ _ _ N H1) end.
Qed.

(** ** Number of capture slots *)
Lemma next_loop_groups e n : (forall i, In i (gidx n) -> (i < ngroups n)%nat) -> forall fuel s s',
  length (s_grp s) = ngroups n -> next_loop fuel e n s = RDone s' -> length (s_grp s') = ngroups n.
Proof.
  intros Hg. induction fuel as [|f IH]; intros s s' Hs H; cbn in H;
    destruct (s_start s <? qe e); try discriminate.
  1,3: injection H as <-; exact Hs.
  destruct (mt e n [] s) as [s1|] eqn:M; [|discriminate].
  destruct (mt_frame e (ngroups n) n Hg s s1 Hs M) as [_ L].
  destruct (s_acc s1); [injection H as <-; assumption|].
  destruct (ptr_ok e _); [|discriminate]. eapply IH; [|exact H]. exact L.
Qed.
Lemma reach_groups e n s : (forall i, In i (gidx n) -> (i < ngroups n)%nat) -> reach e n s -> length (s_grp s) = ngroups n.
Proof.
  intros Hg H. induction H as [fuel s H|fuel s s' _ IH H].
  - unfold create in H. destruct (mt e n [] (fresh e n)) as [s1|] eqn:M; [|discriminate].
    assert (F : length (s_grp (fresh e n)) = ngroups n) by apply repeat_length.
    destruct (mt_frame e (ngroups n) n Hg _ _ F M) as [_ L].
    destruct (s_acc s1); [injection H as <-; assumption|].
    unfold next in H. eapply next_loop_groups; [exact Hg| |exact H]. apply repeat_length.
  - unfold next in H. eapply next_loop_groups; [exact Hg| |exact H]. apply repeat_length.
Qed.

(** ** Accessors *)
Lemma accessors_agree n s :
  get_group s 0 = Some (to_view s)
  /\ (has_groups n = true -> get_static n s 0 = Some (to_view s))
  /\ (forall v, get_static n s 0 = Some v -> v = to_view s)
  /\ (is_accepted s = true -> to_view s = Some (s_start s, s_end s))
  /\ (is_accepted s = false -> to_view s = None)
  /\ (forall e, is_accepted s = false -> text e (to_view s) = []).
Proof.
  unfold get_static. cbn [Nat.leb get_group]. rewrite andb_true_r. repeat split; unfold to_view, is_accepted; intros; try (rewrite H; reflexivity).
  destruct (has_groups n); congruence.
Qed.
