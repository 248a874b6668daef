(** Accepted results of patterns whose tree is [sure] (Sure.v). *)
From Coq Require Import ZArith NArith List Bool Lia ZifyBool ZifyNat ZifyN.
From Verif Require Import Base Text Ast Builder BuilderProofs Engine Api Spec SpecProofs Tree ParseProofs Den AstProofs EngineRel EngineOk ApiProofs Supported Checker Main Mono Find MinSize End EndD Anchor Sure.
Import ListNotations.
Open Scope nat_scope.

Lemma one_small n : one n = true -> opt_small n = true.
Proof.
  induction n using node_ind'; cbn [one opt_small]; intro O; try discriminate; auto.
  - destruct cs as [|c cs]; [discriminate|]. rewrite forallb_forall in O |- *. rewrite Forall_forall in H. auto.
  - apply andb_true_iff in O as [O C]. destruct cs; [|discriminate]. now rewrite (IHn O).
  - apply andb_true_iff in O as [O C]. destruct cs; [|discriminate]. now rewrite (IHn O).
Qed.
Lemma sure_small d n : sure d n = true -> opt_small n = true.
Proof.
  assert (K : forall cs, Forall (fun n => sure d n = true -> opt_small n = true) cs -> forallb (sure d) cs = true -> forallb opt_small cs = true).
  { intros cs F H. rewrite forallb_forall in H |- *. rewrite Forall_forall in F. auto. }
  induction n using node_ind'; cbn [sure opt_small]; intro O; rewrite ?andb_true_iff in O.
  - reflexivity.
  - now apply K.
  - destruct O as [[O1 O2] O3]. now rewrite IHn, K.
  - destruct O as [[[[O1 O2] O3] O4] O5]. now rewrite O2, (one_small n O3), K.
  - destruct O as [[[O1 O2] O3] O4]. now rewrite IHn, K.
  - destruct O as [[[O1 O2] O3] O4]. now rewrite IHn, K.
  - destruct O as [[O1 O2] O3]. now rewrite IHn, K.
  - destruct O as [[O1 O2] O3]. now rewrite IHn, K.
  - now apply one_small.
Qed.
Section Results.
Variables (pre w post : str) (d : bool) (n : node).
Notation e := (env_of pre w post).
Notation at_ := (EngineOk.at_ pre).
Hypothesis Hd : d = true -> exists c0 p0, post = c0 :: p0 /\ c0 <> c_nl.
Hypothesis Hn : sure d n = true.
Definition valid (s : st) : Prop := exists i j, i <= j <= length w /\ s_start s = at_ i /\ s_end s = at_ j /\ tl w n i j.
Lemma at_low i : (qb e <= at_ i)%Z.
Proof. unfold EngineOk.at_. cbn. lia. Qed.
Lemma attempt_sure s s1 i : i <= length w -> s_start s = at_ i -> s_end s = at_ i -> mt e n [] s = Ok s1 ->
  (qb e <= s_end s1)%Z /\ (s_acc s1 = true -> valid s1).
Proof.
  intros Hi Es Ee M. destruct (mt_end e n s s1 (sure_small d n Hn) ltac:(lia) M) as [B1 B2]. pose proof (at_low i) as Lo. split; [lia|]. intro A.
  destruct (sure_okm pre w post d Hd n Hn [] i s s1 Hi Ee M) as [X _]. destruct (X A) as (j & J1 & J2 & J3). exists i, j. split; [|split; [congruence|auto]]. split; [|exact J1]. unfold EngineOk.at_ in *. lia.
Qed.
Lemma loop_valid : forall fuel s s1, s_start s = s_end s -> (qb e <= s_end s)%Z -> next_loop fuel e n s = RDone s1 -> (qb e <= s_end s1)%Z /\ (s_acc s1 = true -> valid s1).
Proof.
  assert (D : forall s s1, (qb e <= s_end s)%Z -> RDone (set_acc false s) = RDone s1 -> (qb e <= s_end s1)%Z /\ (s_acc s1 = true -> valid s1)) by (intros s s1 B [= <-]; split; [exact B|discriminate]).
  induction fuel as [|f IH]; intros s s1 Es Lo H; cbn [next_loop] in H; destruct (s_start s <? qe e)%Z eqn:Q; try discriminate; [exact (D s s1 Lo H)| |exact (D s s1 Lo H)].
  assert (P : exists i, i <= length w /\ s_end s = at_ i). { exists (Z.to_nat (s_end s - qb e)). unfold EngineOk.at_. cbn in *. lia. }
  destruct P as (i & Hi & Ei). destruct (mt e n [] s) as [t|] eqn:M; [|discriminate]. destruct (attempt_sure s t i Hi ltac:(congruence) Ei M) as [A1 A2]. destruct (s_acc t) eqn:At.
  - injection H as <-. split; [exact A1|auto].
  - destruct (ptr_ok e _); [|discriminate]. eapply IH; [| |exact H]; [reflexivity|cbn [s_end]; lia].
Qed.
Lemma reach_valid s : reach e n s -> (qb e <= s_end s)%Z /\ (s_acc s = true -> valid s).
Proof.
  induction 1 as [fuel s H|fuel s s' _ IH H].
  - unfold create in H. destruct (mt e n [] (fresh e n)) as [t|] eqn:M; [|discriminate].
    destruct (attempt_sure (fresh e n) t 0 ltac:(lia) ltac:(unfold EngineOk.at_; cbn; lia) ltac:(unfold EngineOk.at_; cbn; lia) M) as [A1 A2]. destruct (s_acc t) eqn:At; [injection H as <-; auto|].
    unfold next in H. eapply loop_valid; [| |exact H]; [reflexivity|exact A1].
  - destruct IH as [IH _]. unfold next in H. eapply loop_valid; [| |exact H]; [reflexivity|exact IH].
Qed.
Lemma valid_view s : is_accepted s = true -> valid s -> exists i j, i <= j <= length w /\ to_view s = Some (place pre i j) /\ tl w n i j.
Proof using Type.
  intros A (i & j & B & E1 & E2 & T). exists i, j. split; [exact B|]. split; [|exact T]. unfold to_view. rewrite A, E1, E2. clear. unfold place, EngineOk.at_. f_equal. f_equal; lia.
Qed.
End Results.
Lemma lang_ctree w r i j : wf r = true -> tl w (ctree r) i j -> lang w r i j.
Proof.
  intros W T. unfold ctree in T. apply (proj1 (tl_opt w _ [] i j)) in T. apply tl_tree in T; [|unfold renumber; now rewrite (proj1 renumber_wf)]. now apply (proj1 (lang_renumber w)) in T.
Qed.
Lemma lang_ctree_d w r i j : wf r = true -> tl w (ctree_d r) i j -> exists k, lang w r i k /\ line_end w k j.
Proof.
  intros W T. unfold ctree_d in T. apply (proj1 (tl_opt w _ [] i j)) in T. apply tl_tree_d in T; [|unfold renumber; now rewrite (proj1 renumber_wf)]. destruct T as (k & T & E). exists k. split; [|exact E]. now apply (proj1 (lang_renumber w)) in T.
Qed.
