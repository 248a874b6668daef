(** A pattern all of whose branches start with ^ is only accepted at the beginning. *)
From Coq Require Import ZArith NArith List Bool Lia ZifyBool ZifyNat ZifyN.
From Verif Require Import Base Text Ast Builder Engine Api Spec Tree ParseProofs AstProofs BuilderProofs EngineRel ApiProofs Supported Main.
Import ListNotations.
Open Scope Z_scope.

(** Every branch starts with ^. *)
Fixpoint anchored (r : rx) : bool :=
  match r with
  | ROne (Br a _) => a
  | ROr (Br a _) r' => a && anchored r'
  end.
Definition starts (n : node) : Prop := n = Term TStart \/ exists cs, n = Simple (Term TStart) cs.

Lemma starts_far e n inj s : starts n -> s_end s <> qb e -> mt e n inj s = Ok (set_acc false s).
Proof.
  intros Hn H. assert (M : match_term e TStart s = Ok (set_acc false s)).
  { cbn. unfold match_start. destruct (qe e <=? s_end s); [reflexivity|]. destruct (Z.eqb_spec (s_end s) (qb e)); [congruence|reflexivity]. }
  destruct Hn as [->|(cs & ->)]; [exact M|]. cbn [mt]. destruct cs; [exact M|]. unfold simple_m. change (mt e (Term TStart) [] s) with (match_term e TStart s). rewrite M. reflexivity.
Qed.
Lemma dfs_far e ns : ns <> [] -> Forall starts ns -> forall inj s, s_end s <> qb e ->
  exists s1, dfs (map (fun c i => mt e c i) ns) inj s = Ok s1 /\ s_acc s1 = false.
Proof.
  intros Hne F. induction F as [|c cs Hc F IH]; [congruence|]. intros inj s Hs. cbn [map dfs].
  destruct cs as [|d cs].
  - cbn [map]. rewrite (starts_far e c inj s Hc Hs). eauto.
  - cbn [map]. rewrite (starts_far e c inj s Hc Hs). cbn [bind s_acc set_acc].
    apply (IH ltac:(discriminate) [] (set_acc true (set_acc false s))). exact Hs.
Qed.
Lemma root_far e ns : ns <> [] -> Forall starts ns -> forall s, s_end s <> qb e ->
  exists s1, mt e (SimpleV ns) [] s = Ok s1 /\ s_acc s1 = false.
Proof. intros. cbn [mt]. now apply dfs_far. Qed.

Lemma starts_optimize n inj : starts n -> starts (optimize n inj).
Proof. intros [->|(cs & ->)]; [left; reflexivity|]. cbn. destruct cs; [left; reflexivity|right; eexists; reflexivity]. Qed.
Lemma tree_starts : forall r g i, anchored r = true -> Forall starts (tree_bs (renumber_in i r g)) /\ tree_bs (renumber_in i r g) <> [].
Proof.
  fix IH 1. intros [[a s]|[a s] r] g i H.
  - cbn in *. subst. split; [|discriminate]. constructor; [|constructor].
    cbn. destruct (tree_sq _); right; eexists; reflexivity.
  - cbn in H |- *. apply andb_true_iff in H as [-> H]. split; [|discriminate]. constructor.
    + cbn. destruct (tree_sq _); right; eexists; reflexivity.
    + now apply IH.
Qed.
Definition aroot (n : node) : Prop := starts n \/ exists ns, n = SimpleV ns /\ ns <> [] /\ Forall starts ns.
Lemma ctree_aroot r : anchored r = true -> aroot (ctree r).
Proof.
  intro H. destruct (tree_starts r 0%nat false H) as [F N]. unfold ctree, tree. fold (renumber r) in *.
  destruct (tree_bs (renumber r)) as [|c cs]; [congruence|]. cbn [optimize]. destruct cs as [|d cs].
  - left. inversion_clear F. now apply starts_optimize.
  - right. eexists. split; [reflexivity|]. split; [discriminate|]. clear N. remember (d :: cs) as l. clear Heql.
    induction F; cbn; constructor; auto using starts_optimize.
Qed.
Lemma aroot_far e n s : aroot n -> s_end s <> qb e -> exists s1, mt e n [] s = Ok s1 /\ s_acc s1 = false.
Proof.
  intros [H|(ns & -> & Hn & F)] Hs; [rewrite (starts_far e n [] s H Hs); eauto|now apply root_far].
Qed.
(** Every accepted result starts at the beginning of the query. *)
Lemma next_loop_far e n : aroot n -> (forall i, In i (gidx n) -> (i < ngroups n)%nat) -> forall fuel s s1, s_start s = s_end s ->
  length (s_grp s) = ngroups n -> next_loop fuel e n s = RDone s1 -> s_acc s1 = true -> s_start s1 = qb e.
Proof.
  intros Ha Hg. induction fuel as [|f IH]; intros s s1 Es Ls H A; cbn in H; destruct (s_start s <? qe e); try discriminate;
    try (injection H as <-; discriminate).
  destruct (mt e n [] s) as [t|] eqn:M; [|discriminate]. destruct (mt_frame e _ n Hg _ _ Ls M) as [B1 B2].
  destruct (s_acc t) eqn:At.
  - injection H as <-. destruct (Z.eq_dec (s_end s) (qb e)) as [E|E]; [congruence|].
    destruct (aroot_far e n s Ha E) as (u & M2 & Au). rewrite M in M2. injection M2 as <-. congruence.
  - destruct (ptr_ok e (s_end t + 1)); [|discriminate]. eapply IH; [| |exact H|exact A]; auto.
Qed.
Lemma reach_far e n s : aroot n -> (forall i, In i (gidx n) -> (i < ngroups n)%nat) -> reach e n s -> s_acc s = true -> s_start s = qb e.
Proof.
  intros Ha Hg R A.
  assert (NX : forall fuel s s', next fuel e n s = RDone s' -> s_acc s' = true -> s_start s' = qb e).
  { intros fuel t t' N. unfold next in N. refine (next_loop_far e n Ha Hg fuel _ t' _ _ N); [reflexivity|apply repeat_length]. }
  destruct R as [fuel s H|fuel s s' _ H]; [|eauto].
  unfold create in H. destruct (mt e n [] (fresh e n)) as [t|] eqn:M; [|discriminate]. destruct (s_acc t) eqn:At; [|eauto].
  injection H as <-. assert (F : length (s_grp (fresh e n)) = ngroups n) by apply repeat_length.
  apply (mt_frame e _ n Hg _ _ F M).
Qed.
