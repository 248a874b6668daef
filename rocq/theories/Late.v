(** Patterns that satisfy [late] (SpecLate.v): a failed attempt leaves the captures alone. *)
From Coq Require Import ZArith NArith List Bool Lia ZifyBool ZifyNat ZifyN.
From Verif Require Import Base Text Ast Builder BuilderProofs Engine EngineRel Api Spec SpecProofs Tree ParseProofs Checker AstProofs EngineProofs EngineMain Captures Supported Main Heads Families SpecFields SpecChoice SpecLL Fields Choice LL LLCap SureSyn ApiProofs SpecLate.
Import ListNotations.
Open Scope nat_scope.

Definition skipk (cs : list node) : bool :=
  match cs with [] => true | [Possessive m mn _ []] => nog m && N.eqb mn 0 | _ => false end.
Fixpoint lateg (n : node) : bool :=
  match n with
  | Term _ => true
  | SimpleV cs => forallb lateg cs
  | Simple m cs => lateg m && skipk cs || nog m && forallb lateg cs
  | Group m _ cs => lateg m && skipk cs
  | Greedy m _ _ cs | Lazy m _ _ cs | Possessive m _ _ cs | Repeated m _ cs => nog m && forallb lateg cs
  | Negated m => nog m
  end.

Lemma nl_inv {A B} (f : A -> A + B) (I : A -> Prop) (J : B -> Prop) :
  (forall a, I a -> match f a with inl x => I x | inr y => J y end) ->
  forall c a, I a -> match nl c f a with inl x => I x | inr y => J y end.
Proof.
  intro H. induction c as [|c IH]; intros a Ha; cbn [nl]; [exact Ha|]. specialize (H a Ha). destruct (f a); [now apply IH|exact H].
Qed.
Section Run.
Variable e : env.
(** The captures stay. *)
Definition keep (M : clo) : Prop := forall s t, M s = Ok t -> s_grp t = s_grp s.
(** The captures stay if it fails. *)
Definition keepf (M : clo) : Prop := forall s t, M s = Ok t -> s_acc t = true \/ s_grp t = s_grp s.
Lemma keep_f M : keep M -> keepf M.
Proof. intros H s t E. right. now apply H. Qed.
Lemma keep_ok : keep (fun s => Ok s).
Proof. intros s t [= <-]. reflexivity. Qed.
Lemma keep_move p s t : move e p s = Ok t -> s_grp t = s_grp s.
Proof. unfold move. destruct (ptr_ok e p); [|discriminate]. intros [= <-]. reflexivity. Qed.
Lemma keep_exact l : forall s0 s t, exact_loop e l s0 s = Ok t -> s_grp t = s_grp s.
Proof.
  induction l as [|c l IH]; intros s0 s t; cbn [exact_loop]; [intros [= <-]; reflexivity|]. destruct (rd e (s_end s)) as [x|]; [|discriminate]. destruct (c =? x)%Z.
  - destruct (move e _ s) as [s1|] eqn:M; cbn [bind]; [|discriminate]. intro H. rewrite (IH _ _ _ H). now apply keep_move in M.
  - intros [= <-]. reflexivity.
Qed.
Lemma keep_guarded M : keep M -> keep (guarded e M).
Proof. intros H s t. unfold guarded. destruct (qe e <=? s_end s)%Z; [intros [= <-]; reflexivity|apply H]. Qed.
Lemma keep_term t : keep (match_term e t).
Proof.
  assert (T : forall f, keep (guarded e (match_test e f))). { intro f. apply keep_guarded. intros s u. unfold match_test. destruct (rd e _) as [x|]; [|discriminate]. destruct (f x); [intro H; now apply keep_move in H|intros [= <-]; reflexivity]. }
  assert (X : forall l, keep (guarded e (match_exact e l))). { intro l. apply keep_guarded. intros s u. unfold match_exact. intro H. now apply keep_exact in H. }
  assert (S : keep (guarded e (match_space e))). { apply keep_guarded. intros s u. unfold match_space. destruct (rd e _) as [x|]; [|discriminate]. intro H. now apply keep_move in H. }
  destruct t; cbn [match_term]; auto.
  - destruct (term_kind tok) as [| |[]]; auto.
  - intros s u. unfold match_start. destruct (qe e <=? s_end s)%Z; intros [= <-]; reflexivity.
  - intros s u. unfold match_end. destruct (qe e <? s_end s)%Z; [intros [= <-]; reflexivity|]. destruct (rd e _) as [x|]; [|discriminate]. destruct (x =? c_nl)%Z; [intro H; now apply keep_move in H|intros [= <-]; reflexivity].
Qed.
Lemma keepf_dfs0 l : Forall keepf l -> keepf (dfs0 l).
Proof.
  induction 1 as [|c r Hc Hr IH]; intros s t; cbn [dfs0]; [intros [= <-]; now right|]. destruct r as [|d r]; [apply Hc|].
  destruct (c s) as [s1|] eqn:E; cbn [bind]; [|discriminate]. destruct (s_acc s1) eqn:A; [intros [= <-]; now left|]. intro H. destruct (Hc _ _ E) as [X|X]; [congruence|]. destruct (IH _ _ H) as [Y|Y]; [now left|right]. rewrite Y. exact X.
Qed.
Lemma keep_dfs0 l : Forall keep l -> keep (dfs0 l).
Proof.
  induction 1 as [|c r Hc Hr IH]; intros s t; cbn [dfs0]; [intros [= <-]; reflexivity|]. destruct r as [|d r]; [apply Hc|].
  destruct (c s) as [s1|] eqn:E; cbn [bind]; [|discriminate]. apply Hc in E. destruct (s_acc s1) eqn:A; [intros [= <-]; exact E|]. intro H. rewrite (IH _ _ H). exact E.
Qed.
Lemma keepf_dfs l : Forall (fun K : list clo -> clo => forall i, Forall keep i -> keepf (K i)) l -> forall i, Forall keep i -> keepf (dfs l i).
Proof.
  induction 1 as [|c r Hc Hr IH]; intros i Hi s t; cbn [dfs]; [intros [= <-]; now right|]. destruct r as [|d r]; [now apply Hc|].
  destruct (c i s) as [s1|] eqn:E; cbn [bind]; [|discriminate]. destruct (s_acc s1) eqn:A; [intros [= <-]; now left|]. intro H. destruct (Hc _ Hi _ _ E) as [X|X]; [congruence|]. destruct (IH [] (Forall_nil _) _ _ H) as [Y|Y]; [now left|right]. rewrite Y. exact X.
Qed.
Lemma keep_dfs l : Forall (fun K : list clo -> clo => forall i, Forall keep i -> keep (K i)) l -> forall i, Forall keep i -> keep (dfs l i).
Proof.
  induction 1 as [|c r Hc Hr IH]; intros i Hi s t; cbn [dfs]; [intros [= <-]; reflexivity|]. destruct r as [|d r]; [now apply Hc|].
  destruct (c i s) as [s1|] eqn:E; cbn [bind]; [|discriminate]. apply (Hc _ Hi) in E. destruct (s_acc s1) eqn:A; [intros [= <-]; exact E|]. intro H. rewrite (IH [] (Forall_nil _) _ _ H). exact E.
Qed.
(** Groups relative to a fixed list. *)
Definition same (g : list (option (Z * Z))) (s : st) : Prop := s_grp s = g.
Definition okf (g : list (option (Z * Z))) (o : out) : Prop := forall t, o = Ok t -> s_acc t = true \/ s_grp t = g.
Definition okk (g : list (option (Z * Z))) (o : out) : Prop := forall t, o = Ok t -> s_grp t = g.
Lemma okf_ok g s : s_grp s = g -> okf g (Ok s).
Proof. intros H t [= <-]. now right. Qed.
Lemma okf_ub g : okf g UB.
Proof. intros t [=]. Qed.
Lemma okf_keepf M g s : keepf M -> s_grp s = g -> okf g (M s).
Proof. intros H <- t E. now apply H. Qed.
Lemma reps_keep m n s : keep m -> match reps n m s with inl t => s_grp t = s_grp s | inr o => okk (s_grp s) o end.
Proof.
  intro H. unfold reps. rewrite loopN_nl. apply (nl_inv _ (same (s_grp s)) (okk (s_grp s))); [|reflexivity]. intros t Ht. unfold req_step. destruct (m t) as [t1|] eqn:E; [|intros u [=]]. apply H in E. unfold same in *. destruct (s_acc t1); [congruence|]. intros u [= <-]. congruence.
Qed.
Lemma okk_f g o : okk g o -> okf g o.
Proof. intros H t E. right. now apply H. Qed.
Lemma keepf_simple m r : (keep m /\ keepf r) \/ (keepf m /\ (forall s t, s_acc s = true -> r s = Ok t -> s_acc t = true)) -> keepf (simple_m m r).
Proof.
  intros D s t. unfold simple_m. destruct (m s) as [s1|] eqn:E; cbn [bind]; [|discriminate]. destruct (s_acc s1) eqn:A.
  - destruct (r s1) as [s2|] eqn:E2; cbn [bind]; [|discriminate]. destruct (s_acc s2) eqn:A2; intros [= <-]; [now left|]. destruct D as [[Hm Hr]|[Hm Hr]].
    + right. destruct (Hr _ _ E2) as [X|X]; [congruence|]. cbn. rewrite X. now apply Hm.
    + specialize (Hr _ _ A E2). congruence.
  - intros [= <-]. destruct D as [[Hm _]|[Hm _]]; [right; now apply Hm|now apply Hm].
Qed.
Lemma keep_simple m r : keep m -> keep r -> keep (simple_m m r).
Proof.
  intros Hm Hr s t. unfold simple_m. destruct (m s) as [s1|] eqn:E; cbn [bind]; [|discriminate]. apply Hm in E. destruct (s_acc s1); [|intros [= <-]; exact E].
  destruct (r s1) as [s2|] eqn:E2; cbn [bind]; [|discriminate]. apply Hr in E2. destruct (s_acc s2); intros [= <-]; cbn; congruence.
Qed.
Lemma keep_repeated m n r : keep m -> keep r -> keep (repeated_m m n r).
Proof. intros Hm Hr s t. unfold repeated_m. pose proof (reps_keep m n s Hm) as X. destruct (reps n m s) as [s1|o]; [intro H; apply Hr in H; congruence|apply X]. Qed.
Lemma keepf_repeated m n r : keep m -> keepf r -> keepf (repeated_m m n r).
Proof. intros Hm Hr s t. unfold repeated_m. pose proof (reps_keep m n s Hm) as X. destruct (reps n m s) as [s1|o]; [intro H; apply Hr in H; rewrite X in H; exact H|intro H; right; now apply X]. Qed.
Lemma keepf_bt b r i : keepf r -> Forall keep i -> keepf (greedy_bt b r i).
Proof. intros Hr Hi s t. unfold greedy_bt. destruct b; [apply Hr|]. destruct (dfs0 i s) as [s1|] eqn:E; cbn [bind]; [|discriminate]. intros [= <-]. right. now apply (keep_dfs0 i Hi) in E. Qed.
Lemma keep_bt b r i : keep r -> Forall keep i -> keep (greedy_bt b r i).
Proof. intros Hr Hi s t. unfold greedy_bt. destruct b; [apply Hr|]. destruct (dfs0 i s) as [s1|] eqn:E; cbn [bind]; [|discriminate]. intros [= <-]. now apply (keep_dfs0 i Hi) in E. Qed.
Lemma keepf_opt m k b : keep m -> keepf b -> keepf (greedy_opt e m k b).
Proof.
  intros Hm Hb s t. unfold greedy_opt. destruct (m s) as [s1|] eqn:E; cbn [bind]; [|discriminate]. apply Hm in E. destruct (b s1) as [s2|] eqn:E2; cbn [bind]; [|discriminate]. apply Hb in E2. rewrite E in E2.
  destruct (s_acc s2) eqn:A; cbn [negb andb]; [intros [= <-]; now left|]. assert (G : s_grp s2 = s_grp s) by (destruct E2; congruence). destruct (s_start s2 <? s_end s2)%Z; [|intros [= <-]; now right].
  destruct (move e _ s2) as [s3|] eqn:M; cbn [bind]; [|discriminate]. apply keep_move in M. intro H. apply Hb in H. rewrite M, G in H. exact H.
Qed.
Lemma keep_opt m k b : keep m -> keep b -> keep (greedy_opt e m k b).
Proof.
  intros Hm Hb s t. unfold greedy_opt. destruct (m s) as [s1|] eqn:E; cbn [bind]; [|discriminate]. apply Hm in E. destruct (b s1) as [s2|] eqn:E2; cbn [bind]; [|discriminate]. apply Hb in E2.
  destruct (negb (s_acc s2) && _); [|intros [= <-]; congruence]. destruct (move e _ s2) as [s3|] eqn:M; cbn [bind]; [|discriminate]. apply keep_move in M. intro H. apply Hb in H. congruence.
Qed.
Lemma keep_scan m : keep m -> forall k i s t, back_scan e m k i s = Ok t -> s_grp t = s_grp s.
Proof.
  intros Hm. induction k as [|k IH]; intros i s t; cbn [back_scan]; [intros [= <-]; reflexivity|]. destruct (m (set_end i s)) as [s1|] eqn:E; cbn [bind]; [|discriminate]. apply Hm in E. destruct (s_acc s1); [intros [= <-]; exact E|]. destruct (ptr_ok e (i - 1)); [|discriminate]. intro H. rewrite (IH _ _ _ H). exact E.
Qed.
Lemma keep_for m st0 s t : keep m -> back_for e m st0 s = Ok t -> s_grp t = s_grp s.
Proof. intros Hm. unfold back_for. destruct (ptr_ok e _); [|discriminate]. now apply keep_scan. Qed.
Lemma gen_inv (Q : list (option (Z * Z)) -> out -> Prop) m mn mx b r s :
  (forall g o, okk g o -> Q g o) -> keep m -> (forall g s, s_grp s = g -> Q g (r s)) ->
  (forall g s, s_grp s = g -> Q g (b s)) -> (forall g t, Q g (Ok t) -> s_acc t = false -> s_grp t = g) ->
  Q (s_grp s) (greedy_gen e m mn mx b r s).
Proof.
  intros QK Hm Hr Hb QF. unfold greedy_gen. pose proof (reps_keep m mn s Hm) as X. destruct (reps mn m s) as [s0|o]; [|now apply QK]. set (g := s_grp s) in *.
  assert (UBQ : Q g UB) by (apply QK; intros t [=]).
  assert (FIN : forall k t, s_grp t = g -> Q g match loopN k (bt_step e m b (s_end s0)) t with inr o => o | inl s2 => r (set_acc true s2) end).
  { intros k t Ht. rewrite loopN_nl. pose proof (nl_inv (bt_step e m b (s_end s0)) (same g) (Q g)) as NI.
    assert (ST : forall a, same g a -> match bt_step e m b (s_end s0) a with inl x => same g x | inr y => Q g y end).
    { intros a Ha. unfold bt_step. pose proof (Hb g a Ha) as B. destruct (b a) as [s1|]; [|exact UBQ]. destruct (s_acc s1) eqn:A; [exact B|]. destruct (back_for e m (s_end s0) s1) as [s2|] eqn:E; [|exact UBQ]. unfold same. rewrite (keep_for _ _ _ _ Hm E). now apply QF. }
    specialize (NI ST (N.to_nat k) t Ht). destruct (nl _ _ t) as [s2|o]; [|exact NI]. apply Hr. exact NI. }
  assert (GO : match loopN (mx - mn) (greedy_step m) (mn, s0) with inl x => s_grp (snd x) = g | inr (Some x) => s_grp (snd x) = g | inr None => True end).
  { rewrite loopN_nl. pose proof (nl_inv (greedy_step m) (fun x => s_grp (snd x) = g) (fun y => match y with Some x => s_grp (snd x) = g | None => True end)) as NI.
    assert (ST : forall a : N * st, s_grp (snd a) = g -> match greedy_step m a with inl x => s_grp (snd x) = g | inr (Some x) => s_grp (snd x) = g | inr None => True end).
    { intros a Ha. unfold greedy_step. destruct (m (snd a)) as [s1|] eqn:E; [|exact Logic.I]. apply Hm in E. destruct (s_acc s1); cbn; congruence. }
    specialize (NI ST (N.to_nat (mx - mn)) (mn, s0) X). destruct (nl _ _ _) as [x|[x|]]; exact NI. }
  destruct (loopN (mx - mn) (greedy_step m) (mn, s0)) as [x|[x|]]; [now apply FIN|now apply FIN|exact UBQ].
Qed.
Lemma keepf_greedy m a b mn mx h r i : keep m -> keepf r -> Forall keep i -> keepf (greedy_m e m a b mn mx h r i).
Proof.
  intros Hm Hr Hi. unfold greedy_m. destruct (_ && _)%bool; [apply keepf_opt; auto using keepf_bt|]. intros s t E. revert t E. change (okf (s_grp s) (greedy_gen e m mn mx (greedy_bt h r i) r s)).
  apply gen_inv; auto using okk_f; try (intros; eapply okf_keepf; eauto using keepf_bt). intros g u Q A. destruct (Q u eq_refl); congruence.
Qed.
Lemma keep_greedy m a b mn mx h r i : keep m -> keep r -> Forall keep i -> keep (greedy_m e m a b mn mx h r i).
Proof.
  intros Hm Hr Hi. unfold greedy_m. destruct (_ && _)%bool; [apply keep_opt; auto using keep_bt|]. intros s t E. revert t E. change (okk (s_grp s) (greedy_gen e m mn mx (greedy_bt h r i) r s)).
  apply gen_inv; auto.
  - intros g u <- v E. now apply Hr.
  - intros g u <- v E. now apply (keep_bt h r i Hr Hi) in E.
Qed.
Lemma lazy_inv (Q : list (option (Z * Z)) -> out -> Prop) m mn mx h r i s :
  (forall g o, okk g o -> Q g o) -> keep m -> (forall g s, s_grp s = g -> Q g (r s)) -> Forall keep i ->
  (forall g t, Q g (Ok t) -> s_acc t = false -> s_grp t = g) ->
  Q (s_grp s) (lazy_m e m mn mx h r i s).
Proof.
  intros QK Hm Hr Hi QF. unfold lazy_m. pose proof (reps_keep m mn s Hm) as X. destruct (reps mn m s) as [s0|o]; [|now apply QK]. set (g := s_grp s) in *.
  assert (UBQ : Q g UB) by (apply QK; intros t [=]).
  assert (OKQ : forall t, s_grp t = g -> Q g (Ok t)) by (intros t Ht; apply QK; intros u [= <-]; exact Ht).
  set (J := fun y : st + out => match y with inl x => s_grp x = g | inr o => Q g o end).
  assert (ST : forall a, same g a -> match lazy_step e m h r i (s_end s) a with inl x => same g x | inr y => J y end).
  { intros a Ha. unfold lazy_step, J. destruct (negb _); [exact Ha|].
    assert (MORE : forall s1, s_grp s1 = g -> match (if s_acc s1 then inr (inl s1) else match m s1 with UB => inr (inr UB) | Ok s2 => if s_acc s2 then inl s2 else inr (inr (Ok (set_end (s_end s) s2))) end) with inl x => same g x | inr (inl x) => s_grp x = g | inr (inr o) => Q g o end).
    { intros s1 H1. destruct (s_acc s1); [exact H1|]. destruct (m s1) as [s2|] eqn:E; [|exact UBQ]. apply Hm in E. destruct (s_acc s2); [unfold same; congruence|]. apply OKQ. cbn. congruence. }
    destruct h.
    - pose proof (Hr g a Ha) as B. destruct (r a) as [s1|]; [|exact UBQ]. destruct (s_acc s1) eqn:A; [exact B|]. pose proof (MORE s1 (QF _ _ B A)) as Y. rewrite A in Y. exact Y.
    - destruct (dfs0 i a) as [s1|] eqn:E; [|exact UBQ]. apply (keep_dfs0 i Hi) in E. apply MORE. cbn. unfold same in Ha. congruence. }
  assert (GO : match loopN (mx - mn) (lazy_step e m h r i (s_end s)) s0 with inl x => s_grp x = g | inr y => J y end).
  { rewrite loopN_nl. exact (nl_inv _ (same g) J ST (N.to_nat (mx - mn)) s0 X). }
  destruct (loopN (mx - mn) _ s0) as [x|[x|o]]; [now apply Hr|now apply Hr|exact GO].
Qed.
Lemma keepf_lazy m mn mx h r i : keep m -> keepf r -> Forall keep i -> keepf (lazy_m e m mn mx h r i).
Proof.
  intros Hm Hr Hi s t E. revert t E. change (okf (s_grp s) (lazy_m e m mn mx h r i s)). apply lazy_inv; auto using okk_f; try (intros; eapply okf_keepf; eauto). intros g u Q A. destruct (Q u eq_refl); congruence.
Qed.
Lemma keep_lazy m mn mx h r i : keep m -> keep r -> Forall keep i -> keep (lazy_m e m mn mx h r i).
Proof. intros Hm Hr Hi s t E. revert t E. change (okk (s_grp s) (lazy_m e m mn mx h r i s)). apply lazy_inv; auto. intros g u <- v E. now apply Hr. Qed.
Lemma poss_inv m mn mx s : keep m -> match loopN mx (poss_step m mn) (0%N, s_end s, s) with inl x => s_grp (snd x) = s_grp s | inr (inl x) => s_grp x = s_grp s | inr (inr o) => okk (s_grp s) o end.
Proof.
  intro Hm. rewrite loopN_nl. set (g := s_grp s).
  assert (ST : forall a : N * Z * st, s_grp (snd a) = g -> match poss_step m mn a with inl x => s_grp (snd x) = g | inr y => match y with inl x => s_grp x = g | inr o => okk g o end end).
  { intros [[x z] a] Ha. cbn [snd] in Ha. unfold poss_step. destruct (m a) as [s1|] eqn:E; [|intros t [=]]. apply Hm in E. destruct (s_acc s1); [cbn; congruence|]. destruct (x <? mn)%N; [intros t [= <-]; congruence|cbn; congruence]. }
  pose proof (nl_inv (poss_step m mn) (fun a => s_grp (snd a) = g) (fun y => match y with inl x => s_grp x = g | inr o => okk g o end) ST (N.to_nat mx) (0%N, s_end s, s) eq_refl) as NI.
  destruct (nl _ _ _) as [x|[x|o]]; exact NI.
Qed.
Lemma keepf_poss m mn mx r : keep m -> keepf r -> keepf (possessive_m m mn mx r).
Proof.
  intros Hm Hr s t. unfold possessive_m. pose proof (poss_inv m mn mx s Hm) as X. destruct (loopN mx _ _) as [[[? ?] x]|[x|o]]; [| |intro H; right; now apply X]; cbn [snd] in X; intro H; apply Hr in H; rewrite X in H; exact H.
Qed.
Lemma keep_poss m mn mx r : keep m -> keep r -> keep (possessive_m m mn mx r).
Proof.
  intros Hm Hr s t. unfold possessive_m. pose proof (poss_inv m mn mx s Hm) as X. destruct (loopN mx _ _) as [[[? ?] x]|[x|o]]; [| |intro H; now apply X]; cbn [snd] in X; intro H; apply Hr in H; congruence.
Qed.
Lemma keepf_group m i r : keepf m -> (forall s t, s_acc s = true -> r s = Ok t -> s_acc t = true) -> keepf (group_m m i r).
Proof.
  intros Hm Hr s t. unfold group_m. destruct (m s) as [s1|] eqn:E; cbn [bind]; [|discriminate]. destruct (s_acc s1) eqn:A; [|intros [= <-]; now apply Hm].
  unfold set_group. destruct (set_nth _ _ _) as [g|]; cbn [bind]; [|discriminate]. intro H. left. eapply Hr; [|exact H]. exact A.
Qed.
Lemma keep_negated m : keep m -> keep (negated_m e m).
Proof.
  intros Hm s t. unfold negated_m. destruct (qe e <=? s_end s)%Z; [intros [= <-]; reflexivity|]. destruct (m s) as [s1|] eqn:E; cbn [bind]; [|discriminate]. apply Hm in E. destruct (s_acc s1); [intros [= <-]; exact E|]. intro H. apply keep_move in H. cbn in H. congruence.
Qed.
(** ** Trees *)
Lemma nog_parts m cs : is_nil (gidx m ++ flat_map gidx cs) = true -> nog m = true /\ forallb nog cs = true.
Proof. intro H. apply nog_mcs in H as [A B]. split; [unfold nog; now rewrite A|exact B]. Qed.
Lemma mt_keep n : nog n = true -> forall i, Forall keep i -> keep (mt e n i).
Proof.
  assert (K : forall cs, Forall (fun n => nog n = true -> forall i, Forall keep i -> keep (mt e n i)) cs -> forallb nog cs = true ->
     Forall (fun K : list clo -> clo => forall i, Forall keep i -> keep (K i)) (map (fun c i => mt e c i) cs) /\ Forall keep (map (fun c => mt e c []) cs)).
  { induction 1 as [|c cs Hc HF IH]; cbn [forallb map]; [split; constructor|]. intro H. apply andb_true_iff in H as [H1 H2]. destruct (IH H2). split; constructor; auto. }
  assert (NIL : Forall keep []) by constructor.
  induction n using node_ind'; unfold nog; cbn [gidx]; intros Hn jj Hj; cbn [mt].
  - apply keep_term.
  - destruct (K cs H) as [K1 K2]; [apply nog_kids; destruct (flat_map gidx cs); [reflexivity|discriminate]|]. now apply keep_dfs.
  - apply nog_parts in Hn as [N1 N2]. destruct (K cs H N2) as [K1 K2]. destruct cs; [now apply IHn|]. apply keep_simple; [now apply IHn|exact (keep_dfs _ K1 jj Hj)].
  - apply nog_parts in Hn as [N1 N2]. destruct (K cs H N2) as [K1 K2]. apply keep_greedy; auto. exact (keep_dfs _ K1 [] NIL).
  - apply nog_parts in Hn as [N1 N2]. destruct (K cs H N2) as [K1 K2]. apply keep_lazy; auto. exact (keep_dfs _ K1 [] NIL).
  - apply nog_parts in Hn as [N1 N2]. destruct (K cs H N2) as [K1 K2]. apply keep_poss; auto. exact (keep_dfs _ K1 [] NIL).
  - apply nog_parts in Hn as [N1 N2]. destruct (K cs H N2) as [K1 K2]. apply keep_repeated; auto. exact (keep_dfs _ K1 [] NIL).
  - discriminate Hn.
  - apply keep_negated. now apply IHn.
Qed.
Lemma skip_total cs : skipk cs = true -> forall i s t, s_acc s = true -> dfs (map (fun c i => mt e c i) cs) i s = Ok t -> s_acc t = true.
Proof.
  intros H i s t A. destruct cs as [|[| | | | |m mn mx [|]| | |] [|]]; try discriminate; cbn [map dfs]; [intros [= <-]; exact A|]. cbn [skipk] in H. apply andb_true_iff in H as [_ H]. apply N.eqb_eq in H. subst mn.
  cbn [mt map dfs]. unfold possessive_m. rewrite loopN_nl.
  assert (ST : forall a : N * Z * st, s_acc (snd a) = true -> match poss_step (mt e m i) 0 a with inl x => s_acc (snd x) = true | inr y => match y with inl x => s_acc x = true | inr o => o = UB end end).
  { intros [[x z] a] Ha. cbn [snd] in Ha. unfold poss_step. destruct (mt e m i a) as [s1|]; [|reflexivity]. destruct (s_acc s1) eqn:E; [exact E|]. replace (x <? 0)%N with false by lia. reflexivity. }
  pose proof (nl_inv (poss_step (mt e m i) 0) (fun a => s_acc (snd a) = true) (fun y => match y with inl x => s_acc x = true | inr o => o = UB end) ST (N.to_nat mx) (0%N, s_end s, s) A) as NI.
  destruct (nl _ _ _) as [[[? ?] x]|[x|o]]; cbn [snd] in NI; [intros [= <-]; exact NI|intros [= <-]; exact NI|subst o; discriminate].
Qed.
Lemma skip_keep cs : skipk cs = true -> Forall keep (map (fun c => mt e c []) cs).
Proof.
  intro H. destruct cs as [|[| | | | |m mn mx [|]| | |] [|]]; try discriminate; [constructor|]. constructor; [|constructor]. cbn [skipk] in H. apply andb_true_iff in H as [H _]. apply mt_keep; [|constructor]. unfold nog. cbn [gidx flat_map]. rewrite app_nil_r. exact H.
Qed.
Lemma mt_late n : lateg n = true -> forall i, Forall keep i -> keepf (mt e n i).
Proof.
  assert (K : forall cs, Forall (fun n => lateg n = true -> forall i, Forall keep i -> keepf (mt e n i)) cs -> forallb lateg cs = true ->
     forall i, Forall keep i -> keepf (dfs (map (fun c i => mt e c i) cs) i)).
  { intros cs HF Hs. apply keepf_dfs. induction HF as [|c cs Hc HF IH]; cbn [map]; [constructor|]. cbn [forallb] in Hs. apply andb_true_iff in Hs as [H1 H2]. constructor; auto. }
  assert (NIL : Forall keep []) by constructor.
  induction n using node_ind'; cbn [lateg]; intros Hn jj Hj; cbn [mt].
  - apply keep_f, keep_term.
  - now apply K.
  - apply orb_true_iff in Hn as [Hn|Hn]; apply andb_true_iff in Hn as [H1 H2].
    + destruct cs; [now apply IHn|]. apply keepf_simple. right. split; [now apply IHn|]. now apply skip_total.
    + destruct cs; [apply keep_f; now apply mt_keep|]. apply keepf_simple. left. split; [now apply mt_keep|]. now apply K.
  - apply andb_true_iff in Hn as [H1 H2]. apply keepf_greedy; [now apply mt_keep|now apply K|exact Hj].
  - apply andb_true_iff in Hn as [H1 H2]. apply keepf_lazy; [now apply mt_keep|now apply K|exact Hj].
  - apply andb_true_iff in Hn as [H1 H2]. apply keepf_poss; [now apply mt_keep|now apply K].
  - apply andb_true_iff in Hn as [H1 H2]. apply keepf_repeated; [now apply mt_keep|now apply K].
  - apply andb_true_iff in Hn as [H1 H2]. apply keepf_group; [apply IHn; [exact H1|now apply skip_keep]|now apply skip_total].
  - apply keep_f, keep_negated. now apply mt_keep.
Qed.
End Run.

(** ** Compiled patterns *)
Lemma nog_late n : nog n = true -> lateg n = true.
Proof.
  assert (K : forall cs, Forall (fun n => nog n = true -> lateg n = true) cs -> forallb nog cs = true -> forallb lateg cs = true).
  { induction 1 as [|c cs Hc HF IH]; cbn [forallb]; [reflexivity|]. intro H. apply andb_true_iff in H as [H1 H2]. now rewrite (Hc H1), (IH H2). }
  induction n using node_ind'; unfold nog; cbn [gidx lateg]; intros Hn; auto.
  - apply K; [exact H|]. apply nog_kids. destruct (flat_map gidx cs); [reflexivity|discriminate].
  - apply nog_parts in Hn as [N1 N2]. rewrite N1, (K cs H N2). apply orb_true_r.
  - apply nog_parts in Hn as [N1 N2]. now rewrite N1, (K cs H N2).
  - apply nog_parts in Hn as [N1 N2]. now rewrite N1, (K cs H N2).
  - apply nog_parts in Hn as [N1 N2]. now rewrite N1, (K cs H N2).
  - apply nog_parts in Hn as [N1 N2]. now rewrite N1, (K cs H N2).
  - discriminate Hn.
Qed.
Lemma no_caps_nil a : no_caps a = true -> caps_atom a = [].
Proof. unfold no_caps. now destruct (caps_atom a). Qed.
Lemma nog_atom a inj : no_caps a = true -> nog (optimize (tree_atom a) inj) = true.
Proof. intro H. unfold nog. now rewrite optimize_gidx, (proj2 (proj2 (proj2 gidx_tree))), (no_caps_nil a H). Qed.
Lemma nog_core' a inj : no_caps a = true -> nog (optimize (core a) inj) = true.
Proof. intro H. apply no_caps_nil in H. apply nog_core. destruct a; try exact H. discriminate H. Qed.
Lemma skip_tree s : skippable s = true -> skipk (map (fun c => optimize c []) (kids (tree_sq s))) = true.
Proof.
  destruct s as [|a [|k g] [|]]; try discriminate; [reflexivity|]. cbn [skippable]. rewrite !andb_true_iff. intros [[H1 H2] H3]. rewrite tree_unit. cbn [kids map tree_sq].
  assert (PO : forall mx, skipk [Possessive (optimize (tree_atom a) []) (kind_min k) mx []] = true) by (intros; cbn [skipk]; now rewrite (nog_atom a [] H1), H2).
  destruct k as [| | |t|t|t t']; [| | |discriminate H3| |]; destruct g; unfold unitn; cbn [optimize map app]; change (extract_adm []) with (@nil chr); rewrite ?inter_nil; cbn [adm_empty]; apply PO.
Qed.
Lemma late_tree :
  (forall r, late r = true -> (forall n inj, In n (tree_bs r) -> lateg (optimize n inj) = true) /\ forall inj, lateg (optimize (SimpleV (tree_bs r)) inj) = true) /\
  (forall b, late_br b = true -> forall inj, lateg (optimize (tree_br b) inj) = true) /\
  (forall s, late_sq s = true -> forall inj, forallb lateg (map (fun c => optimize c inj) (kids (tree_sq s))) = true) /\
  (forall a, late_atom a = true -> forall inj, lateg (optimize (core a) inj) = true).
Proof.
  assert (V : forall r, (forall n inj, In n (tree_bs r) -> lateg (optimize n inj) = true) -> forall inj, lateg (optimize (SimpleV (tree_bs r)) inj) = true).
  { intros r X inj. destruct (opt_alts r inj) as [(n & E & ->)|[_ ->]]; [apply X; rewrite E; now left|]. cbn [lateg]. apply forallb_forall. intros y Hy. apply in_map_iff in Hy as (z & <- & Hz). now apply X. }
  apply rx_all_ind; cbn [late late_br late_sq late_atom].
  - intros b Hb H. assert (X : forall n inj, In n (tree_bs (ROne b)) -> lateg (optimize n inj) = true) by (intros n inj [<-|[]]; now apply Hb). split; [exact X|now apply V].
  - intros b Hb r Hr H. apply andb_true_iff in H as [H1 H2]. destruct (Hr H2) as [Hr' _]. assert (X : forall n inj, In n (tree_bs (ROr b r)) -> lateg (optimize n inj) = true) by (intros n inj [<-|Hn]; [now apply Hb|now apply Hr']). split; [exact X|now apply V].
  - intros a s Hs H inj. specialize (Hs H). destruct a; cbn [tree_br].
    + specialize (Hs []). destruct (tree_sq s) as [n|]; [|reflexivity]. cbn [kids map forallb] in Hs. cbn [followed]. change (lateg (Simple (Term TStart) [optimize n []]) = true). cbn [lateg forallb]. rewrite Hs. apply orb_true_r.
    + specialize (Hs inj). destruct (tree_sq s) as [n|]; [|reflexivity]. cbn [kids map forallb] in Hs. now apply andb_true_iff in Hs.
  - reflexivity.
  - intros a Ha q s Hs H inj. rewrite tree_unit. cbn [kids map forallb]. rewrite andb_true_r. apply orb_true_iff in H as [H|H].
    + apply andb_true_iff in H as [H1 H2]. specialize (Hs H2 []). pose proof (nog_atom a [] H1) as M. pose proof (fun i => nog_core' a i H1) as C. set (cs := kids (tree_sq s)) in *. destruct q as [|k g].
      * cbn [unitn]. destruct a as [x|i r|r]; [|apply no_caps_nil in H1; discriminate H1|]; rewrite opt_simple; (destruct cs; [apply nog_late, C|]); cbn [lateg]; rewrite C, Hs; apply orb_true_r.
      * assert (PO : forall mn mx, lateg (Possessive (optimize (tree_atom a) []) mn mx (map (fun c => optimize c []) cs)) = true) by (intros; cbn [lateg]; now rewrite M, Hs).
        assert (LZ : forall mn mx, lateg (Lazy (optimize (tree_atom a) []) mn mx (map (fun c => optimize c []) cs)) = true) by (intros; cbn [lateg]; now rewrite M, Hs).
        assert (GR : forall mn mx, lateg (Greedy (optimize (tree_atom a) []) mn mx (map (fun c => optimize c []) cs)) = true) by (intros; cbn [lateg]; now rewrite M, Hs).
        destruct k as [| | |t|t|t t'].
        4:{ cbn [unitn optimize lateg]. now rewrite M, Hs. }
        all: destruct g; unfold unitn; [cbn [optimize]; destruct (adm_empty _); [apply PO|apply GR]|cbn [optimize]; destruct (adm_empty _); [apply PO|apply LZ]|apply PO].
    + rewrite !andb_true_iff in H. destruct H as [[H1 H2] H3]. destruct q; [|discriminate H1]. specialize (Ha H2). apply skip_tree in H3. set (cs := kids (tree_sq s)) in *. cbn [unitn]. destruct a as [x|i r|r].
      * rewrite opt_simple. destruct cs; [apply Ha|]. cbn [lateg]. now rewrite Ha, H3.
      * change (lateg (Group (optimize (core (ACap i r)) (cs ++ inj)) i (map (fun c => optimize c []) cs)) = true). cbn [lateg]. now rewrite Ha, H3.
      * rewrite opt_simple. destruct cs; [apply Ha|]. cbn [lateg]. now rewrite Ha, H3.
  - intros x _ inj. apply nog_late, nog_core'. reflexivity.
  - intros i r Hr H inj. cbn [core]. now apply Hr.
  - intros r Hr H inj. cbn [core]. now apply Hr.
Qed.
(** ** The numbers of the slots do not matter *)
Lemma renumber_nocaps a g : no_caps (renumber_atom a g) = no_caps a.
Proof.
  unfold no_caps. pose proof (proj2 (proj2 (proj2 caps_length)) a g) as X. destruct (caps_atom a), (caps_atom (renumber_atom a g)); try reflexivity; discriminate X.
Qed.
Lemma renumber_skip s g : skippable (renumber_sq s g) = skippable s.
Proof. destruct s as [|a [|k h] s]; [reflexivity|reflexivity|]. destruct s; cbn [renumber_sq]; cbv zeta; cbn [skippable]; [now rewrite renumber_nocaps|reflexivity]. Qed.
Lemma renumber_late :
  (forall r i g, late (renumber_in i r g) = late r) /\ (forall b g, late_br (renumber_br b g) = late_br b) /\
  (forall s g, late_sq (renumber_sq s g) = late_sq s) /\ (forall a g, late_atom (renumber_atom a g) = late_atom a).
Proof.
  apply rx_all_ind; intros; cbn [renumber_in renumber_br renumber_sq renumber_atom late late_br late_sq late_atom]; cbv zeta; auto.
  - cbn [late]. now rewrite H, H0.
  - cbn [late_sq]. now rewrite H, H0, renumber_nocaps, renumber_skip.
Qed.
Theorem late_ctree r : late r = true -> lateg (ctree r) = true.
Proof. intro H. assert (H' : late (renumber r) = true) by (unfold renumber; now rewrite (proj1 renumber_late)). exact (proj2 (proj1 late_tree (renumber r) H') []). Qed.

(** ** The API *)
Lemma next_late e n : lateg n = true -> forall f s t, s_grp s = no_groups n -> next_loop f e n s = RDone t -> is_accepted t = false -> s_grp t = no_groups n.
Proof.
  intro L. induction f as [|f IH]; intros s t G; cbn [next_loop]; destruct (s_start s <? qe e)%Z; try discriminate; try (intros [= <-] _; exact G).
  destruct (mt e n [] s) as [s1|] eqn:M; [|discriminate]. apply (mt_late e n L [] (Forall_nil _)) in M. destruct (s_acc s1) eqn:A.
  - intros [= <-] A'. unfold is_accepted in A'. congruence.
  - destruct M as [M|M]; [congruence|]. destruct (ptr_ok e _); [|discriminate]. apply IH. cbn. congruence.
Qed.
Lemma reach_late e n s : lateg n = true -> reach e n s -> is_accepted s = false -> s_grp s = no_groups n.
Proof.
  intros L [fuel t H|fuel t t' _ H] A.
  - unfold create in H. destruct (mt e n [] (fresh e n)) as [s1|] eqn:M; [|discriminate]. apply (mt_late e n L [] (Forall_nil _)) in M. destruct (s_acc s1) eqn:A1.
    + injection H as <-. unfold is_accepted in A. congruence.
    + eapply next_late; eauto. reflexivity.
  - eapply next_late; eauto. reflexivity.
Qed.
