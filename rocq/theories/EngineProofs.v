(** The matcher on the nodes accepted by [good]: it finds the first way to match of Den.v,
    and nothing else happens. *)
From Coq Require Import ZArith NArith List Bool Lia ZifyBool ZifyNat ZifyN.
From Verif Require Import Base Text Ast Builder Engine Spec SpecProofs Den Checker CheckerProofs AstProofs EngineRel.
Import ListNotations.
Open Scope nat_scope.

(** ** Counted loops *)
Fixpoint nl {A B : Type} (k : nat) (f : A -> A + B) (a : A) : A + B :=
  match k with
  | O => inl a
  | S k' => match f a with inl a' => nl k' f a' | inr b => inr b end
  end.
Lemma nl_add {A B} (f : A -> A + B) k1 k2 a :
  nl (k1 + k2) f a = match nl k1 f a with inl a' => nl k2 f a' | inr b => inr b end.
Proof.
  revert a. induction k1 as [|k1 IH]; intro a; [reflexivity|]. cbn. destruct (f a); [apply IH|reflexivity].
Qed.
Lemma ploop_nl {A B} (f : A -> A + B) p : forall a, ploop p f a = nl (Pos.to_nat p) f a.
Proof.
  induction p as [p IH|p IH|]; intro a; cbn [ploop].
  - rewrite Pos2Nat.inj_xI. cbn [nl]. destruct (f a) as [a0|]; [|reflexivity].
    replace (2 * Pos.to_nat p) with (Pos.to_nat p + Pos.to_nat p) by lia. rewrite nl_add, IH.
    destruct (nl _ f a0); [apply IH|reflexivity].
  - rewrite Pos2Nat.inj_xO. replace (2 * Pos.to_nat p) with (Pos.to_nat p + Pos.to_nat p) by lia.
    rewrite nl_add, IH. destruct (nl _ f a); [apply IH|reflexivity].
  - rewrite Pos2Nat.inj_1. cbn. destruct (f a); reflexivity.
Qed.
Lemma loopN_nl {A B} (f : A -> A + B) n a : loopN n f a = nl (N.to_nat n) f a.
Proof. destruct n as [|p]; [reflexivity|]. apply ploop_nl. Qed.

(** ** Injected children that are not used *)
Lemma noinj_ok e n : noinj n = true -> forall inj s, mt e n inj s = mt e n [] s.
Proof.
  assert (D : forall cs, Forall (fun n => noinj n = true -> forall inj s, mt e n inj s = mt e n [] s) cs ->
    (match cs with c :: _ => noinj c | [] => true end) = true ->
    forall inj s, dfs (map (fun c i => mt e c i) cs) inj s = dfs (map (fun c i => mt e c i) cs) [] s).
  { intros cs H N inj s. destruct cs as [|c cs]; [reflexivity|]. inversion H as [|? ? Hc Hcs]; subst. cbn [map dfs].
    destruct (map _ cs); [now apply Hc|]. now rewrite Hc. }
  induction n using node_ind'; intros N inj s; cbn [noinj] in N; cbn [mt]; try reflexivity.
  - now apply D.
  - destruct cs as [|c cs]; [reflexivity|]. unfold simple_m. destruct (mt e n [] s) as [s1|]; [|reflexivity].
    cbn [bind]. destruct (s_acc s1); [|reflexivity]. now rewrite D.
  - destruct cs as [|c cs]; [discriminate|]. cbn [nonempty]. unfold greedy_m.
    destruct (_ && _); unfold greedy_opt, greedy_gen, greedy_bt; reflexivity.
  - destruct cs as [|c cs]; [discriminate|]. reflexivity.
  - unfold possessive_m.
    assert (X : forall k x, nl k (poss_step (mt e n inj) a) x = nl k (poss_step (mt e n []) a) x).
    { induction k as [|k IH]; intro x; [reflexivity|]. cbn [nl].
      assert (Y : poss_step (mt e n inj) a x = poss_step (mt e n []) a x).
      { unfold poss_step. destruct x as [[? ?] ?]. now rewrite IHn. }
      rewrite Y. destruct (poss_step (mt e n []) a x); [apply IH|reflexivity]. }
    now rewrite !loopN_nl, X.
  - unfold group_m. destruct (mt e n _ s) as [s1|]; [|reflexivity]. cbn [bind].
    destruct (s_acc s1); [|reflexivity]. destruct (set_group _ _ _) as [s2|]; [|reflexivity]. cbn [bind].
    rewrite D by assumption. symmetry. now rewrite D.
Qed.

(** ** Which slots a way to match writes *)
Section Idx.
Variable w : str.
Definition idxs (a : outs) (l : list nat) : Prop :=
  forall c c', In c' (a c) -> exists d, snd c' = d ++ snd c /\ forall x, In x d -> In (fst x) l.
Lemma idxs_mono a l l' : incl l l' -> idxs a l -> idxs a l'.
Proof. intros I H c c' Hc. destruct (H _ _ Hc) as (d & E & X). exists d. split; [exact E|]. intros x Hx. apply I. auto. Qed.
Lemma idxs_eps l : idxs eps_o l.
Proof. intros c c' [<-|[]]. exists []. split; [reflexivity|]. intros x []. Qed.
Lemma idxs_none l : idxs none_o l.
Proof. intros c c' []. Qed.
Lemma idxs_bol l : idxs bol_o l.
Proof. intros c c' H. unfold bol_o in H. destruct (Nat.eqb _ _); in1 H. exists []. split; [reflexivity|]. intros x []. Qed.
Lemma idxs_chr P l : idxs (chr_o w P) l.
Proof.
  intros c c' H. unfold chr_o in H. destruct (nth_error w _) as [x|]; [|destruct H]. destruct (P x); in1 H.
  exists []. split; [reflexivity|]. intros y [].
Qed.
Lemma idxs_not a l : idxs (not_o w a) l.
Proof.
  intros c c' H. unfold not_o in H. destruct (nth_error w _) as [x|]; [|destruct H]. destruct (a c); in1 H.
  exists []. split; [reflexivity|]. intros y [].
Qed.
Lemma idxs_seq a b l : idxs a l -> idxs b l -> idxs (seq_o a b) l.
Proof.
  intros Ha Hb c c' H. unfold seq_o in H. apply in_flat_map in H as (x & A & B).
  destruct (Ha _ _ A) as (d & E & X), (Hb _ _ B) as (d' & E' & X'). exists (d' ++ d).
  split; [now rewrite E', E, app_assoc|]. intros y Hy. apply in_app_iff in Hy as [Hy|Hy]; auto.
Qed.
Lemma idxs_or a b l : idxs a l -> idxs b l -> idxs (or_o a b) l.
Proof. intros Ha Hb c c' H. apply in_app_iff in H as [H|H]; [now apply Ha|now apply Hb]. Qed.
Lemma idxs_cap i a l : In i l -> idxs a l -> idxs (cap_o i a) l.
Proof.
  intros Hi Ha c c' H. apply in_map_iff in H as (x & <- & H). destruct (Ha _ _ H) as (d & E & X).
  exists ((i, (fst c, fst x)) :: d). cbn [snd]. split; [now rewrite E|]. intros y [<-|Hy]; auto.
Qed.
Lemma idxs_pow n a l : idxs a l -> idxs (pow_o n a) l.
Proof. intro H. induction n as [|n IH]; cbn; [apply idxs_eps|now apply idxs_seq]. Qed.
Lemma idxs_most n a l : idxs a l -> idxs (most_o n a) l.
Proof.
  intro H. induction n as [|n IH]; [apply idxs_eps|]. intros c c' X. cbn in X.
  apply in_app_iff in X as [X|X]; [|now apply (idxs_eps l c c')].
  apply in_flat_map in X as (x & A & B). apply progress_in in A as [A _].
  apply (idxs_seq _ _ _ H IH). unfold seq_o. apply in_flat_map. eauto.
Qed.
Lemma idxs_least n a l : idxs a l -> idxs (least_o n a) l.
Proof.
  intro H. induction n as [|n IH]; [apply idxs_eps|]. intros c c' X. cbn in X.
  destruct X as [X|X]; [apply (idxs_eps l c c'); now left|].
  apply in_flat_map in X as (x & A & B). apply progress_in in A as [A _].
  apply (idxs_seq _ _ _ H IH). unfold seq_o. apply in_flat_map. eauto.
Qed.
Lemma idxs_rep g mn mx a l : idxs a l -> idxs (rep_o w g mn mx a) l.
Proof.
  intro H. destruct g; cbn [rep_o].
  - apply idxs_seq; auto using idxs_pow, idxs_most.
  - apply idxs_seq; auto using idxs_pow, idxs_least.
  - intros c c' X. unfold atomic_o in X. apply firstn1_in in X. revert X.
    apply (idxs_seq _ _ _ (idxs_pow (N.to_nat mn) _ _ H) (idxs_most (extra w mn mx) _ _ H)).
Qed.
Lemma idxs_eol l : idxs (eol_o w) l.
Proof. intros c c' X. unfold eol_o in X. destruct (Nat.eqb _ _); [exact (idxs_eps l c c' X)|exact (idxs_chr _ l c c' X)]. Qed.
Lemma den_idxs n : idxs (den w n) (gidx n).
Proof.
  assert (K : forall cs, Forall (fun n => idxs (den w n) (gidx n)) cs -> idxs (kidso (map (den w) cs)) (flat_map gidx cs)).
  { intros cs H c c' X. apply in_alts in X as [[_ ->]|(n0 & A & B)]; [apply (idxs_eps _ c c); now left|].
    rewrite Forall_forall in H. apply (idxs_mono (den w n0) (gidx n0)) with (c := c); auto.
    intros y Hy. apply in_flat_map. eauto. }
  induction n using node_ind'; cbn [den gidx];
    try (match goal with H : @Forall node _ ?cs |- _ => apply K in H end).
  - destruct t; try apply idxs_bol; try apply idxs_eol; (destruct (tset _); [apply idxs_chr|apply idxs_none]).
  - assumption.
  - apply idxs_seq; (eapply idxs_mono; [|eassumption]); auto using incl_appl, incl_appr, incl_refl.
  - apply idxs_seq; [apply idxs_rep|]; (eapply idxs_mono; [|eassumption]); auto using incl_appl, incl_appr, incl_refl.
  - apply idxs_seq; [apply idxs_rep|]; (eapply idxs_mono; [|eassumption]); auto using incl_appl, incl_appr, incl_refl.
  - apply idxs_seq; [apply idxs_rep|]; (eapply idxs_mono; [|eassumption]); auto using incl_appl, incl_appr, incl_refl.
  - apply idxs_seq; [apply idxs_pow|]; (eapply idxs_mono; [|eassumption]); auto using incl_appl, incl_appr, incl_refl.
  - apply idxs_seq; [apply idxs_cap; [now left|]|]; (eapply idxs_mono; [|eassumption]);
      auto using incl_appl, incl_appr, incl_refl, incl_tl.
  - apply idxs_not.
Qed.
Definition covs (a : outs) (l : list nat) : Prop :=
  forall c c', In c' (a c) -> exists d, snd c' = d ++ snd c /\ forall k, In k l -> In k (map fst d).
Lemma covs_seq a b l1 l2 : covs a l1 -> covs b l2 -> covs (seq_o a b) (l1 ++ l2).
Proof.
  intros A B c c' H. unfold seq_o in H. apply in_flat_map in H as (c1 & H1 & H2). destruct (A _ _ H1) as (d1 & E1 & X1), (B _ _ H2) as (d2 & E2 & X2).
  exists (d2 ++ d1). rewrite E2, E1, app_assoc. split; [reflexivity|]. intros k Hk. rewrite map_app. apply in_or_app. apply in_app_or in Hk as [Hk|Hk]; auto.
Qed.
Lemma covs_cap i a l : covs a l -> covs (cap_o i a) (i :: l).
Proof.
  intros A c c' H. unfold cap_o in H. apply in_map_iff in H as (c1 & <- & H). destruct (A _ _ H) as (d & E & X). cbn [snd]. rewrite E.
  exists ((i, (fst c, fst c1)) :: d). split; [reflexivity|]. cbn [map fst]. intros k [->|Hk]; [now left|right; auto].
Qed.
Lemma den_covs n : covs (den w n) (nsure n).
Proof.
  assert (W : forall a l, idxs a l -> covs a []).
  { intros a l A c c' H. destruct (A _ _ H) as (d & E & _). exists d. split; [exact E|]. intros k []. }
  assert (K : forall cs, Forall (fun n => covs (den w n) (nsure n)) cs -> covs (kidso (map (den w) cs)) (match cs with [c] => nsure c | _ => [] end)).
  { intros cs H. destruct cs as [|x [|y cs]].
    - intros c c' I. apply in_alts in I as [[_ ->]|(n0 & [] & _)]. exists []. split; [reflexivity|]. intros k [].
    - inversion H; subst. intros c c' I. apply in_alts in I as [[X _]|(n0 & [<-|[]] & B)]; [discriminate|]. auto.
    - intros c c' I. apply in_alts in I as [[X _]|(n0 & A & B)]; [discriminate|]. exact (W _ _ (den_idxs n0) c c' B). }
  induction n using node_ind'; cbn [den nsure]; try (match goal with H : @Forall node _ ?cs |- _ => apply K in H end).
  - exact (W _ _ (den_idxs (Term t))).
  - assumption.
  - now apply covs_seq.
  - apply (covs_seq _ _ [] _); [|assumption]. exact (W _ _ (idxs_rep _ _ _ _ _ (den_idxs n))).
  - apply (covs_seq _ _ [] _); [|assumption]. exact (W _ _ (idxs_rep _ _ _ _ _ (den_idxs n))).
  - apply (covs_seq _ _ [] _); [|assumption]. exact (W _ _ (idxs_rep _ _ _ _ _ (den_idxs n))).
  - apply (covs_seq _ _ [] _); [|assumption]. exact (W _ _ (idxs_pow _ _ _ (den_idxs n))).
  - apply (covs_seq _ _ (_ :: nsure n) _); [|assumption]. now apply covs_cap.
  - exact (W _ _ (den_idxs (Negated n))).
Qed.
Lemma allsure_slot n i j d k : allsure n = true -> In (j, d) (den w n (i, [])) -> In k (gidx n) -> slot k d <> None.
Proof.
  intros A H Hk. unfold allsure in A. rewrite forallb_forall in A. specialize (A k Hk). apply existsb_exists in A as (x & Hx & E). apply Nat.eqb_eq in E as <-.
  apply den_covs in H as (d' & E & X). cbn in E. rewrite app_nil_r in E. subst d'. specialize (X k Hx). clear - X.
  induction d as [|[y v] d IH]; [destruct X|]. cbn [slot]. destruct (Nat.eqb_spec y k); [discriminate|]. destruct X as [X|X]; [cbn in X; congruence|auto].
Qed.
Lemma nog_log n i j d : nog n = true -> In (j, d) (den w n (i, [])) -> d = [].
Proof.
  intros N H. apply den_idxs in H as (d' & E & X). cbn in E. rewrite app_nil_r in E. subst d'.
  unfold nog in N. destruct (gidx n); [|discriminate]. destruct d as [|x d]; [reflexivity|]. destruct (X x). now left.
Qed.
End Idx.
