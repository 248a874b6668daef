(** Equal tails of a sequence may replace each other. *)
From Coq Require Import ZArith NArith List Bool Lia ZifyBool ZifyNat ZifyN.
From Verif Require Import Base Text Ast AstProofs Builder BuilderProofs Engine EngineProofs Api Spec Tree Supported Captures Laws SpecPut.
Import ListNotations.
Open Scope nat_scope.

(** ** Matchers are used only through what they answer *)
Definition ceq (a b : clo) : Prop := forall s, a s = b s.
Lemma nl_ceq {A B} (f g : A -> A + B) : (forall x, f x = g x) -> forall k x, nl k f x = nl k g x.
Proof. intro H. induction k as [|k IH]; intro x; cbn [nl]; [reflexivity|]. rewrite H. destruct (g x); auto. Qed.
Lemma loopN_ceq {A B} (f g : A -> A + B) : (forall x, f x = g x) -> forall k x, loopN k f x = loopN k g x.
Proof. intros H k x. rewrite !loopN_nl. now apply nl_ceq. Qed.
Lemma bind_ceq o (f g : clo) : ceq f g -> bind o f = bind o g.
Proof. intro H. destruct o; cbn; [apply H|reflexivity]. Qed.
Section Ext.
Variable e : env.
Lemma reps_ceq n m m' : ceq m m' -> forall s, reps n m s = reps n m' s.
Proof. intros H s. unfold reps. apply loopN_ceq. intro x. unfold req_step. now rewrite H. Qed.
Lemma dfs0_ceq l l' : Forall2 ceq l l' -> ceq (dfs0 l) (dfs0 l').
Proof.
  intro H. induction H as [|a b l l' A F IH]; intro s; [reflexivity|]. cbn [dfs0]. destruct F as [|a2 b2 l l' A2 F]; [apply A|].
  rewrite A. apply bind_ceq. intro s1. destruct (s_acc s1); [reflexivity|]. apply IH.
Qed.
Lemma dfs_ceq (l l' : list (list clo -> clo)) : Forall2 (fun a b => forall i i', Forall2 ceq i i' -> ceq (a i) (b i')) l l' ->
  forall i i', Forall2 ceq i i' -> ceq (dfs l i) (dfs l' i').
Proof.
  intro H. induction H as [|a b l l' A F IH]; intros i i' I s; [reflexivity|]. cbn [dfs]. destruct F as [|a2 b2 l l' A2 F]; [now apply A|].
  rewrite (A i i' I). apply bind_ceq. intro s1. destruct (s_acc s1); [reflexivity|]. apply IH. constructor.
Qed.
Lemma simple_ceq m m' r r' : ceq m m' -> ceq r r' -> ceq (simple_m m r) (simple_m m' r').
Proof. intros M R s. unfold simple_m. rewrite M. apply bind_ceq. intro s1. destruct (s_acc s1); [now rewrite R|reflexivity]. Qed.
Lemma repeated_ceq m m' k r r' : ceq m m' -> ceq r r' -> ceq (repeated_m m k r) (repeated_m m' k r').
Proof. intros M R s. unfold repeated_m. rewrite (reps_ceq k m m' M). destruct (reps k m' s); [apply R|reflexivity]. Qed.
Lemma poss_ceq m m' a b r r' : ceq m m' -> ceq r r' -> ceq (possessive_m m a b r) (possessive_m m' a b r').
Proof.
  intros M R s. unfold possessive_m. rewrite (loopN_ceq (poss_step m a) (poss_step m' a)) by (intros [[i l] t]; unfold poss_step; now rewrite M).
  destruct (loopN _ _ _) as [[[? ?] t]|[t|o]]; auto.
Qed.
Lemma group_ceq m m' k r r' : ceq m m' -> ceq r r' -> ceq (group_m m k r) (group_m m' k r').
Proof. intros M R s. unfold group_m. rewrite M. apply bind_ceq. intro s1. destruct (s_acc s1); [now apply bind_ceq|reflexivity]. Qed.
Lemma negated_ceq m m' : ceq m m' -> ceq (negated_m e m) (negated_m e m').
Proof. intros M s. unfold negated_m. now rewrite M. Qed.
Lemma lazy_ceq m m' a b h r r' i i' : ceq m m' -> ceq r r' -> Forall2 ceq i i' -> ceq (lazy_m e m a b h r i) (lazy_m e m' a b h r' i').
Proof.
  intros M R I s. unfold lazy_m. rewrite (reps_ceq a m m' M). destruct (reps a m' s) as [s0|o]; [|reflexivity].
  rewrite (loopN_ceq (lazy_step e m h r i (s_end s)) (lazy_step e m' h r' i' (s_end s))).
  - destruct (loopN _ _ _) as [t|[t|o]]; auto.
  - intro x. unfold lazy_step. destruct (negb _); [reflexivity|]. destruct h.
    + rewrite R. destruct (r' x) as [s1|]; [|reflexivity]. destruct (s_acc s1); [reflexivity|]. now rewrite M.
    + rewrite (dfs0_ceq i i' I). destruct (dfs0 i' x) as [s1|]; [|reflexivity]. rewrite M. reflexivity.
Qed.
Lemma scan_ceq m m' : ceq m m' -> forall k z s, back_scan e m k z s = back_scan e m' k z s.
Proof.
  intro M. induction k as [|k IH]; intros z s; cbn [back_scan]; [reflexivity|]. rewrite M. apply bind_ceq. intro s1. destruct (s_acc s1); [reflexivity|].
  destruct (ptr_ok e (z - 1)); [apply IH|reflexivity].
Qed.
Lemma greedy_ceq m m' x y a b h r r' i i' : ceq m m' -> ceq r r' -> Forall2 ceq i i' -> ceq (greedy_m e m x y a b h r i) (greedy_m e m' x y a b h r' i').
Proof.
  intros M R I s. unfold greedy_m.
  assert (B : ceq (greedy_bt h r i) (greedy_bt h r' i')).
  { intro t. unfold greedy_bt. destruct h; [apply R|]. now rewrite (dfs0_ceq i i' I). }
  destruct (_ && _)%bool.
  - unfold greedy_opt. rewrite M. apply bind_ceq. intro s1. rewrite B. apply bind_ceq. intro s2.
    repeat match goal with |- context [if ?c then _ else _] => destruct c end; auto; try apply bind_ceq; try (intro s3); try apply B; reflexivity.
  - unfold greedy_gen. rewrite (reps_ceq a m m' M). destruct (reps a m' s) as [s0|o]; [|reflexivity].
    assert (F : forall q : N * st, match loopN (fst q - a) (bt_step e m (greedy_bt h r i) (s_end s0)) (snd q) with inl s2 => r (set_acc true s2) | inr o => o end
      = match loopN (fst q - a) (bt_step e m' (greedy_bt h r' i') (s_end s0)) (snd q) with inl s2 => r' (set_acc true s2) | inr o => o end).
    { intro q. rewrite (loopN_ceq (bt_step e m (greedy_bt h r i) (s_end s0)) (bt_step e m' (greedy_bt h r' i') (s_end s0))).
      - destruct (loopN _ _ _); auto.
      - intro t. unfold bt_step. rewrite B. destruct (greedy_bt h r' i' t) as [s1|]; [|reflexivity]. destruct (s_acc s1); [reflexivity|]. unfold back_for. now rewrite (scan_ceq m m' M). }
    rewrite (loopN_ceq (greedy_step m) (greedy_step m')) by (intro t; unfold greedy_step; now rewrite M).
    destruct (loopN (b - a) (greedy_step m') (a, s0)) as [q|[q|]]; [apply F|apply F|reflexivity].
Qed.
(** Injected children. *)
Lemma mt_ceq n : forall i i', Forall2 ceq i i' -> ceq (mt e n i) (mt e n i').
Proof.
  assert (K : forall cs, Forall (fun n => forall i i', Forall2 ceq i i' -> ceq (mt e n i) (mt e n i')) cs ->
     Forall2 (fun a b : list clo -> clo => forall i i', Forall2 ceq i i' -> ceq (a i) (b i')) (map (fun c i => mt e c i) cs) (map (fun c i => mt e c i) cs)).
  { induction 1; cbn [map]; constructor; auto. }
  assert (R : forall l, Forall2 ceq l l) by (induction l; constructor; auto; now intro s).
  induction n using node_ind'; intros u u' I s; cbn [mt].
  - reflexivity.
  - apply dfs_ceq; auto.
  - destruct cs; [reflexivity|]. apply simple_ceq; [now intro|]. apply dfs_ceq; auto.
  - apply greedy_ceq; auto; intro t; reflexivity.
  - apply lazy_ceq; auto; intro t; reflexivity.
  - apply poss_ceq; auto. intro t; reflexivity.
  - reflexivity.
  - apply group_ceq; [intro t; reflexivity|]. apply dfs_ceq; auto. apply Forall2_app; auto.
  - reflexivity.
Qed.
End Ext.

(** ** The tails *)
Lemma opt_inj n : forall inj inj', map nadm inj = map nadm inj' -> optimize n inj = optimize n inj'.
Proof.
  induction n using node_ind'; intros inj inj' E; try reflexivity.
  - destruct cs as [|c [|d cs]]; try reflexivity. change (optimize c inj = optimize c inj'). inversion H; auto.
  - destruct cs as [|c cs]; [change (optimize n inj = optimize n inj')|change (Simple (optimize n inj) (map (fun c => optimize c []) (c :: cs)) = Simple (optimize n inj') (map (fun c => optimize c []) (c :: cs)))]; now rewrite (IHn inj inj' E).
  - cbn [optimize]. rewrite !map_app, E. reflexivity.
  - cbn [optimize]. rewrite !map_app, E. reflexivity.
  - cbn [optimize]. rewrite (IHn (cs ++ inj) (cs ++ inj')); [reflexivity|]. now rewrite !map_app, E.
Qed.
Definition tails (e : env) (n n' : node) : Prop :=
  nadm n = nadm n' /\ ngroups (optimize n []) = ngroups (optimize n' [])
  /\ forall i i', Forall2 ceq i i' -> ceq (mt e (optimize n []) i) (mt e (optimize n' []) i').
Lemma tails_follow e q x n n' : tails e n n' -> tails e (followed (tree_quant q (tree_atom x)) (Some n)) (followed (tree_quant q (tree_atom x)) (Some n')).
Proof.
  intros (A & G & M).
  assert (R : forall l, Forall2 ceq l l) by (induction l; constructor; auto; now intro s).
  assert (D : forall i i', Forall2 ceq i i' -> ceq (dfs (map (fun c i => mt e c i) [optimize n []]) i) (dfs (map (fun c i => mt e c i) [optimize n' []]) i')).
  { intros i i' I s. cbn [map dfs]. now apply M. }
  destruct (Heads.unit_shape q x) as [(m & ->)|[(m & a & b & ->)|[(m & a & b & ->)|[(m & a & b & ->)|[(m & k & ->)|(m & i & ->)]]]]]; cbn [followed app].
  - split; [|split].
    + cbn [nadm map]. now rewrite A.
    + cbn [optimize map ngroups]. now rewrite G.
    + intros i i' I s. cbn [optimize map mt]. apply simple_ceq; [now intro|]. now apply D.
  - split; [|split].
    + cbn [nadm map]. now rewrite A.
    + cbn [optimize map app]. rewrite A. destruct (adm_empty _); cbn [ngroups map]; now rewrite G.
    + intros i i' I s. cbn [optimize map app]. rewrite A. destruct (adm_empty _); cbn [mt nonempty map].
      * apply poss_ceq; [now apply mt_ceq|]. apply D. constructor.
      * apply greedy_ceq; [now intro|apply D; constructor|exact I].
  - split; [|split].
    + cbn [nadm map]. now rewrite A.
    + cbn [optimize map app nadm]. rewrite A. destruct (adm_empty _); cbn [ngroups map]; now rewrite G.
    + intros i i' I s. cbn [optimize map app nadm]. rewrite A. destruct (adm_empty _); cbn [mt nonempty map].
      * apply poss_ceq; [now apply mt_ceq|]. apply D. constructor.
      * apply lazy_ceq; [now intro|apply D; constructor|exact I].
  - split; [|split].
    + cbn [nadm map]. now rewrite A.
    + cbn [optimize map ngroups]. now rewrite G.
    + intros i i' I s. cbn [optimize map mt]. apply poss_ceq; [now apply mt_ceq|]. apply D. constructor.
  - split; [|split].
    + reflexivity.
    + cbn [optimize map ngroups]. now rewrite G.
    + intros i i' I s. cbn [optimize map mt]. apply repeated_ceq; [now intro|]. apply D. constructor.
  - assert (O : optimize m ([n] ++ []) = optimize m ([n'] ++ [])) by (apply opt_inj; cbn [app map]; now rewrite A).
    split; [|split].
    + reflexivity.
    + cbn [optimize map ngroups]. now rewrite O, G.
    + intros j j' J s. cbn [optimize map mt]. rewrite O. apply group_ceq.
      * apply mt_ceq. constructor; [|constructor]. apply M. constructor.
      * apply D. constructor; [|exact J]. apply M. constructor.
Qed.
(** A sequence in front. *)
Lemma tails_put e s s' : s <> SNil -> s' <> SNil ->
  (forall g, match tree_sq (renumber_sq s g), tree_sq (renumber_sq s' g) with Some n, Some n' => tails e n n' | _, _ => False end) ->
  forall p g, match tree_sq (renumber_sq (put p s) g), tree_sq (renumber_sq (put p s') g) with Some n, Some n' => tails e n n' | _, _ => False end.
Proof.
  intros N N' H. induction p as [|x q p IH]; intro g; cbn [put]; [apply H|]. cbn [renumber_sq tree_sq].
  set (x' := renumber_atom x g). specialize (IH (after_atom x' g)). destruct (tree_sq (renumber_sq (put p s) _)) as [n|]; [|contradiction].
  destruct (tree_sq (renumber_sq (put p s') _)) as [n'|]; [|contradiction]. now apply tails_follow.
Qed.
