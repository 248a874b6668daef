(** Two runs of the matcher in two memories that agree, up to a shift, from some place on: the
    outcomes agree up to the shift, for patterns whose end never moves left of the start. *)
From Coq Require Import ZArith NArith List Bool Lia ZifyBool ZifyNat ZifyN.
From Verif Require Import Base Text Ast Builder Engine Api AstProofs BuilderProofs EngineRel EngineProofs Checker ApiProofs Runs Safe Mono.
Import ListNotations.
Open Scope Z_scope.

(** No ^ in the pattern. *)
Fixpoint no_start (n : node) : bool :=
  match n with
  | Term t => match t with TStart => false | _ => true end
  | SimpleV cs => forallb no_start cs
  | Simple m cs | Lazy m _ _ cs | Possessive m _ _ cs | Repeated m _ cs | Group m _ cs | Greedy m _ _ cs => no_start m && forallb no_start cs
  | Negated m => no_start m
  end.

(** Related outcomes of a loop body; a left outcome related to everything may end the loop early. *)
Definition simrel {A A' B B' : Type} (RA : A -> A' -> Prop) (RB : B -> B' -> Prop) (x : A + B) (y : A' + B') : Prop :=
  match x, y with
  | inl a, inl a' => RA a a'
  | inr b, inr b' => RB b b'
  | inr b, inl _ => forall b', RB b b'
  | inl _, inr _ => False
  end.
Lemma ploop_sim {A A' B B'} (RA : A -> A' -> Prop) (RB : B -> B' -> Prop) f f' :
  (forall a a', RA a a' -> simrel RA RB (f a) (f' a')) ->
  forall p a a', RA a a' -> simrel RA RB (ploop p f a) (ploop p f' a').
Proof.
  intro H.
  assert (E : forall (b : B) (y : A' + B'), (forall b', RB b b') -> simrel RA RB (inr b) y) by (intros b [y|y] U; cbn; auto).
  induction p as [p IH|p IH|]; intros a a' Ha; cbn [ploop].
  - pose proof (H a a' Ha) as S. destruct (f a) as [x|x], (f' a') as [y|y]; cbn in S; try tauto; [|now apply E].
    pose proof (IH _ _ S) as S2. destruct (ploop p f x) as [x2|x2], (ploop p f' y) as [y2|y2]; cbn in S2; try tauto; [auto|now apply E].
  - pose proof (IH a a' Ha) as S. destruct (ploop p f a) as [x|x], (ploop p f' a') as [y|y]; cbn in S; try tauto; [auto|now apply E].
  - auto.
Qed.
Lemma loopN_sim {A A' B B'} (RA : A -> A' -> Prop) (RB : B -> B' -> Prop) f f' :
  (forall a a', RA a a' -> simrel RA RB (f a) (f' a')) ->
  forall n a a', RA a a' -> simrel RA RB (loopN n f a) (loopN n f' a').
Proof. intros H [|p] a a' Ha; cbn [loopN]; [exact Ha|]. now apply ploop_sim. Qed.

Section Shift.
Variables (e e' : env) (d a : Z) (same_begin : bool).
Hypothesis QE : qe e' = qe e + d.
Hypothesis QB : same_begin = true -> qb e' = qb e + d.
Hypothesis RD : forall p x, a <= p -> rd e p = Some x -> rd e' (p + d) = Some x.
Hypothesis PT : forall p, a - 1 <= p -> ptr_ok e p = true -> ptr_ok e' (p + d) = true.
Definition hi : Z := Z.of_nat (length (buf e)).
Definition R (s s' : st) : Prop := s' = shift_st d s /\ a <= s_start s /\ a <= s_end s <= hi.
Lemma R_end s s' : R s s' -> s_end s' = s_end s + d.
Proof. intros [-> _]. reflexivity. Qed.
Lemma R_start s s' : R s s' -> s_start s' = s_start s + d.
Proof. intros [-> _]. reflexivity. Qed.
Lemma R_acc s s' : R s s' -> s_acc s' = s_acc s.
Proof. intros [-> _]. reflexivity. Qed.
Lemma R_low s s' : R s s' -> a <= s_start s /\ a <= s_end s <= hi.
Proof. intros [_ H]. exact H. Qed.
Lemma R_set_end s s' p : R s s' -> a <= p <= hi -> R (set_end p s) (set_end (p + d) s').
Proof. intros [-> [L M]] P. split; [reflexivity|]. split; [exact L|exact P]. Qed.
Lemma R_set_acc s s' b : R s s' -> R (set_acc b s) (set_acc b s').
Proof. intros [-> LL]. split; [reflexivity|exact LL]. Qed.
(** Whatever is defined on the left happens on the right. *)
Definition orel (x y : out) : Prop := match x with UB => True | Ok s => match y with Ok s' => R s s' | UB => False end end.
Lemma ub_out y : simrel R orel (inr UB) y.
Proof. destruct y; cbn; auto. Qed.
Lemma ub_out2 y : simrel R (simrel R orel) (inr (inr UB)) y.
Proof. destruct y as [y|y]; cbn; [|destruct y; cbn; auto]. intros [b|b]; cbn; auto. Qed.
Lemma ub_out3 {A A'} (RA : A -> A' -> Prop) y : simrel RA (simrel R orel) (inr (inr UB)) y.
Proof. destruct y as [y|y]; cbn; [|destruct y; cbn; auto]. intros [b|b]; cbn; auto. Qed.
Lemma set_nth_map {A B} (f : A -> B) (l : list A) : forall i v, set_nth (map f l) i (f v) = match set_nth l i v with Some l' => Some (map f l') | None => None end.
Proof. induction l as [|x l IH]; intros [|i] v; cbn [map set_nth]; auto. rewrite IH. now destruct (set_nth l i v). Qed.
Lemma R_group s s' i x y : R s s' -> orel (set_group i (x, y) s) (set_group i (x + d, y + d) s').
Proof.
  intros [-> L]. unfold set_group. cbn [shift_st s_grp].
  change (Some (x + d, y + d)) with (shift_view d (Some (x, y))). rewrite set_nth_map. unfold view. destruct (set_nth (s_grp s) i (Some (x, y))) as [l|]; [|exact Logic.I].
  cbn [orel]. split; [reflexivity|exact L].
Qed.
Definition crel (m m' : clo) : Prop := forall s s', R s s' -> orel (m s) (m' s').
Definition irel (l l' : list clo) : Prop := Forall2 crel l l'.
Definition krel (k k' : list clo -> clo) : Prop := forall l l', irel l l' -> crel (k l) (k' l').
Lemma orel_bind x y f f' : orel x y -> (forall s s', R s s' -> orel (f s) (f' s')) -> orel (bind x f) (bind y f').
Proof. destruct x, y; cbn; intros H1 H2; try tauto; auto. Qed.
Lemma move_rel p q s s' : R s s' -> a <= p -> q = p + d -> orel (move e p s) (move e' q s').
Proof. intros H P ->. unfold move. destruct (ptr_ok e p) eqn:K; [|exact Logic.I]. rewrite (PT p) by (auto; lia). cbn [orel]. apply R_set_end; [exact H|]. unfold ptr_ok in K. unfold hi. lia. Qed.
Lemma set_rel p q s s' : R s s' -> a <= p <= hi -> q = p + d -> orel (Ok (set_end p s)) (Ok (set_end q s')).
Proof. intros H P ->. cbn [orel]. now apply R_set_end. Qed.
Lemma acc_rel b s s' : R s s' -> orel (Ok (set_acc b s)) (Ok (set_acc b s')).
Proof. intro H. cbn [orel]. now apply R_set_acc. Qed.
Lemma rd_rel s s' : R s s' -> rd e (s_end s) = None \/ rd e' (s_end s') = rd e (s_end s).
Proof. intro H. pose proof (R_low _ _ H). rewrite (R_end _ _ H). destruct (rd e (s_end s)) eqn:K; [right|now left]. apply RD; [lia|exact K]. Qed.

Lemma exact_rel cs : forall p q s s', R s s' -> a <= p <= hi -> q = p + d -> orel (exact_loop e cs p s) (exact_loop e' cs q s').
Proof.
  induction cs as [|c cs IH]; intros p q s s' H P ->; cbn [exact_loop]; [exact H|].
  destruct (rd_rel _ _ H) as [NR|NR]; rewrite ?NR; [exact Logic.I|]. destruct (rd e (s_end s)) as [x|]; [|exact Logic.I]. pose proof (R_low _ _ H).
  destruct (c =? x).
  - apply orel_bind; [apply move_rel; [exact H|lia|rewrite (R_end _ _ H); lia]|]. intros t t' T. now apply IH.
  - cbn [orel]. first [apply R_set_acc, R_set_end; auto|apply R_set_end; [apply R_set_acc|]; auto].
Qed.
Lemma test_rel t : crel (match_test e t) (match_test e' t).
Proof.
  intros s s' H. unfold match_test. destruct (rd_rel _ _ H) as [NR|NR]; rewrite ?NR; [exact Logic.I|]. destruct (rd e (s_end s)) as [x|]; [|exact Logic.I]. pose proof (R_low _ _ H).
  destruct (t x); [|now apply acc_rel]. apply move_rel; [now apply R_set_acc|lia|rewrite (R_end _ _ H); lia].
Qed.
Lemma past_rel s s' : R s s' -> (qe e' <=? s_end s') = (qe e <=? s_end s).
Proof. intro H. rewrite QE, (R_end _ _ H). destruct (Z.leb_spec (qe e) (s_end s)); [apply Z.leb_le; lia|apply Z.leb_gt; lia]. Qed.
Lemma guarded_rel m m' : crel m m' -> crel (guarded e m) (guarded e' m').
Proof. intros Hm s s' H. unfold guarded. rewrite (past_rel _ _ H). destruct (qe e <=? s_end s); [now apply acc_rel|now apply Hm]. Qed.
Lemma term_rel t : same_begin = true \/ t <> TStart -> crel (match_term e t) (match_term e' t).
Proof.
  intro TS.
  assert (X : forall cs, crel (match_exact e cs) (match_exact e' cs)).
  { intros cs s s' H. unfold match_exact. pose proof (R_low _ _ H). apply exact_rel; [try now apply R_set_acc|lia|rewrite (R_end _ _ H); reflexivity]. }
  destruct t; cbn [match_term].
  - destruct (term_kind tok) as [| |[]]; apply guarded_rel; auto using test_rel.
    intros s s' H. unfold match_space. destruct (rd_rel _ _ H) as [NR|NR]; rewrite ?NR; [exact Logic.I|]. destruct (rd e (s_end s)) as [x|]; [|exact Logic.I]. pose proof (R_low _ _ H).
    apply move_rel; [now apply R_set_acc|lia|rewrite (R_end _ _ H); lia].
  - apply guarded_rel; auto.
  - apply guarded_rel; auto using test_rel.
  - destruct TS as [TS|TS]; [|congruence]. intros s s' H. unfold match_start. rewrite (past_rel _ _ H). destruct (_ <=? _); [now apply acc_rel|].
    rewrite (QB TS), (R_end _ _ H). replace (s_end s + d =? qb e + d) with (s_end s =? qb e); [now apply acc_rel|]. destruct (Z.eqb_spec (s_end s) (qb e)); symmetry; [apply Z.eqb_eq; lia|apply Z.eqb_neq; lia].
  - intros s s' H. unfold match_end. pose proof (rd_rel _ _ H) as NR. pose proof (R_low _ _ H). pose proof (R_end _ _ H) as E.
    replace (qe e' <? s_end s') with (qe e <? s_end s) by (rewrite QE, E; destruct (Z.ltb_spec (qe e) (s_end s)); symmetry; [apply Z.ltb_lt; lia|apply Z.ltb_ge; lia]).
    destruct (qe e <? s_end s); [now apply acc_rel|]. destruct NR as [NR|NR]; rewrite ?NR; [exact Logic.I|]. destruct (rd e (s_end s)) as [x|]; [|exact Logic.I].
    replace (s_end s' =? qe e') with (s_end s =? qe e) by (rewrite QE, E; destruct (Z.eqb_spec (s_end s) (qe e)); symmetry; [apply Z.eqb_eq; lia|apply Z.eqb_neq; lia]).
    destruct (x =? c_nl); [|now apply acc_rel]. apply move_rel; [now apply R_set_acc|lia|lia].
Qed.
Lemma dfs0_rel l l' : irel l l' -> crel (dfs0 l) (dfs0 l').
Proof.
  induction 1 as [|c c' r r' Hc Hr IH]; intros s s' H; cbn; auto.
  destruct Hr as [|x x' r r' Hd Hr]; [now apply Hc|].
  apply orel_bind; [now apply Hc|]. intros t t' Ht. rewrite (R_acc _ _ Ht).
  destruct (s_acc t); cbn; auto. apply IH. now apply R_set_acc.
Qed.
Lemma dfs_rel l l' : Forall2 krel l l' -> forall i i', irel i i' -> crel (dfs l i) (dfs l' i').
Proof.
  induction 1 as [|c c' r r' Hc Hr IH]; intros i i' Hi s s' H; cbn; auto.
  destruct Hr as [|x x' r r' Hd Hr]; [now apply Hc|].
  apply orel_bind; [now apply Hc|]. intros t t' Ht. rewrite (R_acc _ _ Ht).
  destruct (s_acc t); cbn; auto. apply IH; [constructor|now apply R_set_acc].
Qed.
Lemma simple_rel m m' r r' : crel m m' -> crel r r' -> crel (simple_m m r) (simple_m m' r').
Proof.
  intros Hm Hr s s' H. unfold simple_m. apply orel_bind; [auto|]. intros t t' Ht.
  rewrite (R_acc _ _ Ht). destruct (s_acc t); [|exact Ht].
  apply orel_bind; [auto|]. intros u u' Hu. rewrite (R_acc _ _ Hu).
  destruct (s_acc u); [exact Hu|]. apply set_rel; [exact Hu|apply (R_low _ _ H)|apply (R_end _ _ H)].
Qed.
Lemma req_rel m m' : crel m m' -> forall s s', R s s' -> simrel R orel (req_step m s) (req_step m' s').
Proof.
  intros Hm s s' H. unfold req_step. specialize (Hm s s' H).
  destruct (m s) as [t|], (m' s') as [t'|]; cbn in Hm; try tauto; try exact Logic.I; try apply ub_out; try apply ub_out2; try apply ub_out3.
  rewrite (R_acc _ _ Hm). destruct (s_acc t); exact Hm.
Qed.
Lemma reps_rel m m' n : crel m m' -> forall s s', R s s' -> simrel R orel (reps n m s) (reps n m' s').
Proof. intros Hm. apply loopN_sim. now apply req_rel. Qed.
Lemma repeated_rel m m' n r r' : crel m m' -> crel r r' -> crel (repeated_m m n r) (repeated_m m' n r').
Proof.
  intros Hm Hr s s' H. unfold repeated_m. pose proof (reps_rel m m' n Hm s s' H) as S.
  destruct (reps n m s), (reps n m' s'); cbn in S; try tauto; auto.
Qed.
Lemma bt_rel b r r' l l' : crel r r' -> irel l l' -> crel (greedy_bt b r l) (greedy_bt b r' l').
Proof.
  intros Hr Hl s s' H. unfold greedy_bt. destruct b; [auto|].
  apply orel_bind; [now apply dfs0_rel|]. intros t t' Ht. apply set_rel; [exact Ht|apply (R_low _ _ H)|apply (R_end _ _ H)].
Qed.
Lemma move_rel0 p q s s' : R s s' -> a <= p \/ a <= 0 -> q = p + d -> orel (move e p s) (move e' q s').
Proof.
  intros H [P|P] E; [now apply move_rel|]. unfold move at 1. destruct (ptr_ok e p) eqn:K; [|exact Logic.I].
  assert (P0 : a <= p) by (unfold ptr_ok in K; lia). pose proof (move_rel p q s s' H P0 E) as M. unfold move at 1 in M. now rewrite K in M.
Qed.
Lemma opt_rel m m' k b b' : (k <= 1)%N \/ a <= 0 -> crel m m' -> crel b b' -> crel (greedy_opt e m k b) (greedy_opt e' m' k b').
Proof.
  intros Hk Hm Hb s s' H. unfold greedy_opt. apply orel_bind; [auto|]. intros t t' Ht.
  apply orel_bind; [auto|]. intros u u' Hu. rewrite (R_acc _ _ Hu), (R_start _ _ Hu), (R_end _ _ Hu).
  replace (s_start u + d <? s_end u + d) with (s_start u <? s_end u) by (destruct (Z.ltb_spec (s_start u) (s_end u)); symmetry; [apply Z.ltb_lt; lia|apply Z.ltb_ge; lia]).
  destruct (negb (s_acc u) && (s_start u <? s_end u)) eqn:K; [|exact Hu]. apply andb_true_iff in K as [_ K]. apply Z.ltb_lt in K. pose proof (R_low _ _ Hu).
  apply orel_bind; [|auto]. apply move_rel0; [exact Hu|lia|lia].
Qed.
Definition nrel (x y : N * st) : Prop := fst x = fst y /\ R (snd x) (snd y).
Definition onrel (x y : option (N * st)) : Prop :=
  match x with None => True | Some u => match y with Some v => nrel u v | None => False end end.
Lemma greedy_step_rel m m' : crel m m' -> forall x y, nrel x y -> simrel nrel onrel (greedy_step m x) (greedy_step m' y).
Proof.
  intros Hm [k s] [k' s'] [Hk H]. cbn in Hk, H. subst k'. unfold greedy_step. cbn [snd fst].
  specialize (Hm s s' H). destruct (m s) as [t|], (m' s') as [t'|]; cbn in Hm; try tauto; try exact Logic.I; try apply ub_out; try apply ub_out2; try apply ub_out3.
  - rewrite (R_acc _ _ Hm). destruct (s_acc t); split; cbn; auto. now apply R_set_acc.
  - destruct (s_acc t'); cbn; auto.
Qed.
Lemma scan_rel m m' : crel m m' -> forall k it it' s s', R s s' -> a <= it - Z.of_nat k + 1 -> it <= hi -> it' = it + d -> orel (back_scan e m k it s) (back_scan e' m' k it' s').
Proof.
  intros Hm. induction k as [|k IH]; intros it it' s s' H L LH ->; cbn [back_scan]; [exact H|].
  apply orel_bind; [apply Hm; apply R_set_end; [exact H|lia]|]. intros t t' Ht. rewrite (R_acc _ _ Ht).
  destruct (s_acc t); [apply set_rel; [exact Ht|lia|lia]|]. replace (it + d - 1) with (it - 1 + d) by lia. destruct (ptr_ok e (it - 1)) eqn:K; [|exact Logic.I]. rewrite (PT (it - 1)) by (auto; lia). apply IH; [exact Ht|lia|lia|lia].
Qed.
Lemma bt_step_rel m m' b b' z z' : crel m m' -> crel b b' -> a <= z -> z' = z + d -> forall s s', R s s' ->
  simrel R orel (bt_step e m b z s) (bt_step e' m' b' z' s').
Proof.
  intros Hm Hb Z0 -> s s' H. unfold bt_step. specialize (Hb s s' H).
  destruct (b s) as [t|], (b' s') as [t'|]; cbn in Hb; try tauto; try exact Logic.I; try apply ub_out; try apply ub_out2; try apply ub_out3.
  rewrite (R_acc _ _ Hb). destruct (s_acc t); [exact Hb|]. pose proof (R_low _ _ Hb).
  unfold back_for. rewrite (R_end _ _ Hb). replace (s_end t + d - 1) with (s_end t - 1 + d) by lia. destruct (ptr_ok e (s_end t - 1)) eqn:K; [|apply ub_out]. rewrite (PT (s_end t - 1)) by (auto; lia). replace (s_end t + d - (z + d)) with (s_end t - z) by lia.
  assert (S : orel (back_scan e m (Z.to_nat (s_end t - z)) (s_end t - 1) t) (back_scan e' m' (Z.to_nat (s_end t - z)) (s_end t - 1 + d) t')).
  { destruct (Z.leb_spec (s_end t) z) as [L|L].
    - replace (Z.to_nat (s_end t - z)) with 0%nat by lia. exact Hb.
    - apply scan_rel; auto; lia. }
  destruct (back_scan e m _ _ t), (back_scan e' m' _ _ t'); cbn in S |- *; tauto.
Qed.
Lemma greedy_gen_rel m m' mn mx b b' r r' : crel m m' -> crel b b' -> crel r r' ->
  crel (greedy_gen e m mn mx b r) (greedy_gen e' m' mn mx b' r').
Proof.
  intros Hm Hb Hr s s' H. unfold greedy_gen. pose proof (reps_rel m m' mn Hm s s' H) as S.
  destruct (reps mn m s) as [t|o], (reps mn m' s') as [t'|o']; cbn in S; try tauto.
  2: { cbn [orel]. apply S. }
  assert (F : forall x y, nrel x y ->
    orel match loopN (fst x - mn) (bt_step e m b (s_end t)) (snd x) with inr o => o | inl s2 => r (set_acc true s2) end
         match loopN (fst y - mn) (bt_step e' m' b' (s_end t')) (snd y) with inr o => o | inl s2 => r' (set_acc true s2) end).
  { intros [k u] [k' u'] [Hk Hu]. cbn in Hk, Hu |- *. subst k'. pose proof (R_low _ _ S).
    pose proof (loopN_sim R orel _ _ (bt_step_rel m m' b b' (s_end t) (s_end t') Hm Hb ltac:(lia) (R_end _ _ S)) (k - mn)%N u u' Hu) as L.
    destruct (loopN _ _ u), (loopN _ _ u'); cbn in L; try tauto; [|apply L]. apply Hr. now apply R_set_acc. }
  pose proof (loopN_sim nrel onrel _ _ (greedy_step_rel m m' Hm) (mx - mn)%N (mn, t) (mn, t') (conj eq_refl S)) as L.
  destruct (loopN _ _ (mn, t)) as [x|[x|]], (loopN _ _ (mn, t')) as [y|[y|]]; cbn in L; try tauto; auto; try exact Logic.I; exfalso; exact (L None).
Qed.
Lemma lazy_step_rel m m' hc r r' l l' p p' : crel m m' -> crel r r' -> irel l l' -> a <= p <= hi -> p' = p + d ->
  forall s s', R s s' -> simrel R (simrel R orel) (lazy_step e m hc r l p s) (lazy_step e' m' hc r' l' p' s').
Proof.
  intros Hm Hr Hl P -> s s' H. unfold lazy_step. rewrite (R_end _ _ H), QE. pose proof (R_low _ _ H).
  replace (s_end s + d <? qe e + d) with (s_end s <? qe e) by (destruct (Z.ltb_spec (s_end s) (qe e)); symmetry; [apply Z.ltb_lt; lia|apply Z.ltb_ge; lia]).
  destruct (negb (s_end s <? qe e)); [exact H|].
  assert (M : forall t t', R t t' ->
    simrel R (simrel R orel)
     (if s_acc t then inr (inl t) else match m t with UB => inr (inr UB) | Ok s2 => if s_acc s2 then inl s2 else inr (inr (Ok (set_end p s2))) end)
     (if s_acc t' then inr (inl t') else match m' t' with UB => inr (inr UB) | Ok s2 => if s_acc s2 then inl s2 else inr (inr (Ok (set_end (p + d) s2))) end)).
  { intros t t' Ht. rewrite (R_acc _ _ Ht). destruct (s_acc t); [exact Ht|].
    specialize (Hm t t' Ht). destruct (m t) as [u|], (m' t') as [u'|]; cbn in Hm; try tauto; try exact Logic.I; try apply ub_out; try apply ub_out2; try apply ub_out3.
    rewrite (R_acc _ _ Hm). destruct (s_acc u); cbn; auto. now apply R_set_end. }
  destruct hc.
  - specialize (Hr s s' H). destruct (r s) as [u|], (r' s') as [u'|]; cbn in Hr; try tauto; try exact Logic.I; try apply ub_out; try apply ub_out2; try apply ub_out3.
    pose proof (M _ _ Hr) as M2. rewrite (R_acc _ _ Hr) in M2 |- *. destruct (s_acc u) eqn:K; [exact Hr|exact M2].
  - pose proof (dfs0_rel l l' Hl s s' H) as D. destruct (dfs0 l s) as [u|], (dfs0 l' s') as [u'|]; cbn in D; try tauto; try exact Logic.I; try apply ub_out; try apply ub_out2; try apply ub_out3.
    apply M. apply R_set_end; [exact D|lia].
Qed.
Lemma lazy_rel m m' mn mx hc r r' l l' : crel m m' -> crel r r' -> irel l l' ->
  crel (lazy_m e m mn mx hc r l) (lazy_m e' m' mn mx hc r' l').
Proof.
  intros Hm Hr Hl s s' H. unfold lazy_m. pose proof (reps_rel m m' mn Hm s s' H) as S.
  destruct (reps mn m s) as [t|o], (reps mn m' s') as [t'|o']; cbn in S; try tauto.
  2: { cbn [orel]. apply S. }
  pose proof (loopN_sim R (simrel R orel) _ _ (lazy_step_rel m m' hc r r' l l' (s_end s) (s_end s') Hm Hr Hl ltac:(pose proof (R_low _ _ H); lia) (R_end _ _ H)) (mx - mn)%N t t' S) as L.
  destruct (loopN _ _ t) as [x|[x|x]], (loopN _ _ t') as [y|[y|y]]; cbn in L; try tauto; auto; [exfalso; exact (L (inr UB))|exact (L (inr (r' y)))].
Qed.
Definition prel (x y : N * Z * st) : Prop := fst (fst x) = fst (fst y) /\ snd (fst y) = snd (fst x) + d /\ a <= snd (fst x) <= hi /\ R (snd x) (snd y).
Lemma poss_rel m m' mn mx r r' : crel m m' -> crel r r' -> crel (possessive_m m mn mx r) (possessive_m m' mn mx r').
Proof.
  intros Hm Hr s s' H. unfold possessive_m.
  assert (P : forall x y, prel x y -> simrel prel (simrel R orel) (poss_step m mn x) (poss_step m' mn y)).
  { intros [[i p] t] [[i' p'] t'] (E & E2 & L & Ht). cbn in E, E2, L, Ht. subst i' p'. unfold poss_step.
    specialize (Hm t t' Ht). destruct (m t) as [u|], (m' t') as [u'|]; cbn in Hm; try tauto; try exact Logic.I; try apply ub_out; try apply ub_out2; try apply ub_out3.
    rewrite (R_acc _ _ Hm). destruct (s_acc u).
    - cbn. unfold prel. cbn. pose proof (R_low _ _ Hm). rewrite (R_end _ _ Hm). tauto.
    - destruct (i <? mn)%N; cbn; auto. apply R_set_end; [now apply R_set_acc|exact L]. }
  pose proof (loopN_sim prel (simrel R orel) _ _ P mx (0%N, s_end s, s) (0%N, s_end s', s')) as L.
  specialize (L ltac:(unfold prel; cbn; pose proof (R_low _ _ H); rewrite (R_end _ _ H); tauto)).
  destruct (loopN _ _ (_, s)) as [[[? ?] x]|[x|x]], (loopN _ _ (_, s')) as [[[? ?] y]|[y|y]]; cbn in L; try tauto; auto.
  - apply Hr. apply L.
  - exfalso. exact (L (inr UB)).
  - exact (L (inr (r' y))).
Qed.
Lemma group_rel m m' i r r' : crel m m' -> crel r r' -> crel (group_m m i r) (group_m m' i r').
Proof.
  intros Hm Hr s s' H. unfold group_m. apply orel_bind; [auto|]. intros t t' Ht.
  rewrite (R_acc _ _ Ht). destruct (s_acc t); [|exact Ht].
  rewrite (R_end _ _ H), (R_end _ _ Ht). apply orel_bind; [now apply R_group|auto].
Qed.
Lemma negated_rel m m' : crel m m' -> crel (negated_m e m) (negated_m e' m').
Proof.
  intros Hm s s' H. unfold negated_m. rewrite (past_rel _ _ H). destruct (_ <=? _); [now apply acc_rel|].
  apply orel_bind; [auto|]. intros t t' Ht. rewrite (R_acc _ _ Ht).
  destruct (s_acc t); [now apply acc_rel|]. pose proof (R_low _ _ Ht). apply move_rel; [now apply R_set_acc|lia|rewrite (R_end _ _ Ht); lia].
Qed.
Lemma both x y : x && y = true \/ a <= 0 -> (x = true \/ a <= 0) /\ (y = true \/ a <= 0).
Proof. rewrite andb_true_iff. tauto. Qed.
Lemma mt_shift n : opt_small n = true \/ a <= 0 -> same_begin || no_start n = true -> krel (mt e n) (mt e' n).
Proof.
  assert (K : forall cs, Forall (fun n => opt_small n = true \/ a <= 0 -> same_begin || no_start n = true -> krel (mt e n) (mt e' n)) cs -> forallb opt_small cs = true \/ a <= 0 -> same_begin || forallb no_start cs = true ->
     Forall2 krel (map (fun c i => mt e c i) cs) (map (fun c i => mt e' c i) cs)
     /\ irel (map (fun c => mt e c []) cs) (map (fun c => mt e' c []) cs)).
  { induction 1 as [|c cs Hc HF IH]; cbn [forallb map]; intros H B; [split; constructor|]. apply both in H as [H1 H2]. rewrite orb_andb_distrib_r in B. apply andb_true_iff in B as [B1 B2].
    assert (C : krel (mt e c) (mt e' c)) by now apply Hc. destruct (IH H2 B2) as [I1 I2]. split; constructor; auto. apply C. constructor. }
  induction n using node_ind'; cbn [opt_small no_start]; intros Hs Hb l l' Hl; cbn [mt].
  - apply term_rel. destruct same_begin; [now left|]. right. intros ->. discriminate Hb.
  - destruct (K cs H Hs Hb) as [K1 K2]. now apply dfs_rel.
  - apply both in Hs as [H1 H2]. rewrite orb_andb_distrib_r in Hb. apply andb_true_iff in Hb as [B1 B2].
    assert (Hm : krel (mt e n) (mt e' n)) by now apply IHn. destruct (K cs H H2 B2) as [K1 K2].
    destruct cs; [apply Hm; constructor|]. apply simple_rel; [apply Hm; constructor|]. now apply dfs_rel.
  - apply both in Hs as [Hs H2]. apply both in Hs as [H0 H1]. rewrite orb_andb_distrib_r in Hb. apply andb_true_iff in Hb as [B1 B2].
    assert (Hm : krel (mt e n) (mt e' n)) by now apply IHn. destruct (K cs H H2 B2) as [K1 K2]. assert (Hm0 : crel (mt e n []) (mt e' n [])) by (apply Hm; constructor).
    assert (Hr : crel (dfs (map (fun c i => mt e c i) cs) []) (dfs (map (fun c i => mt e' c i) cs) [])) by (apply dfs_rel; [exact K1|constructor]).
    unfold greedy_m. unfold opt_case in H0. destruct (N.eqb a0 0 && N.eqb b 1 && N.eqb (nmin n) (nmax n)) eqn:E.
    + cbn [negb orb] in H0. apply opt_rel; [destruct H0 as [H0|H0]; [left; now apply N.leb_le|now right]|exact Hm0|]. now apply bt_rel.
    + apply greedy_gen_rel; [exact Hm0| |exact Hr]. now apply bt_rel.
  - apply both in Hs as [H1 H2]. rewrite orb_andb_distrib_r in Hb. apply andb_true_iff in Hb as [B1 B2].
    assert (Hm : krel (mt e n) (mt e' n)) by now apply IHn. destruct (K cs H H2 B2) as [K1 K2].
    apply lazy_rel; [apply Hm; constructor| |exact Hl]. apply dfs_rel; [exact K1|constructor].
  - apply both in Hs as [H1 H2]. rewrite orb_andb_distrib_r in Hb. apply andb_true_iff in Hb as [B1 B2].
    assert (Hm : krel (mt e n) (mt e' n)) by now apply IHn. destruct (K cs H H2 B2) as [K1 K2].
    apply poss_rel; [now apply Hm|]. apply dfs_rel; [exact K1|constructor].
  - apply both in Hs as [H1 H2]. rewrite orb_andb_distrib_r in Hb. apply andb_true_iff in Hb as [B1 B2].
    assert (Hm : krel (mt e n) (mt e' n)) by now apply IHn. destruct (K cs H H2 B2) as [K1 K2].
    apply repeated_rel; [apply Hm; constructor|]. apply dfs_rel; [exact K1|constructor].
  - apply both in Hs as [H1 H2]. rewrite orb_andb_distrib_r in Hb. apply andb_true_iff in Hb as [B1 B2].
    assert (Hm : krel (mt e n) (mt e' n)) by now apply IHn. destruct (K cs H H2 B2) as [K1 K2].
    apply group_rel; [now apply Hm|]. apply dfs_rel; [exact K1|]. now apply Forall2_app.
  - apply negated_rel. apply IHn; auto. constructor.
Qed.

(** ** Results *)
Definition rrel (x y : rout) : Prop := match x with RUB => True | RDone s => match y with RDone s' => R s s' | _ => False end | RFuel => y = RFuel end.
Lemma loop_shift n : opt_small n = true \/ a <= 0 -> same_begin || no_start n = true -> forall fuel s s', R s s' -> rrel (next_loop fuel e n s) (next_loop fuel e' n s').
Proof.
  intros O B. induction fuel as [|f IH]; intros s s' H; cbn [next_loop]; rewrite (R_start _ _ H), QE;
    replace (s_start s + d <? qe e + d) with (s_start s <? qe e) by (destruct (Z.ltb_spec (s_start s) (qe e)); symmetry; [apply Z.ltb_lt; lia|apply Z.ltb_ge; lia]);
    destruct (s_start s <? qe e); cbn [rrel]; auto using R_set_acc.
  pose proof (mt_shift n O B [] [] (Forall2_nil _) s s' H) as M. destruct (mt e n [] s) as [t|], (mt e' n [] s') as [t'|]; cbn in M; try tauto; try exact Logic.I; try apply ub_out; try apply ub_out2; try apply ub_out3.
  rewrite (R_acc _ _ M). destruct (s_acc t); [exact M|]. pose proof (R_low _ _ M). rewrite (R_end _ _ M).
  replace (s_end t + d + 1) with (s_end t + 1 + d) by lia. destruct (ptr_ok e (s_end t + 1)) eqn:K; [|exact Logic.I]. rewrite (PT (s_end t + 1)) by (auto; lia).
  apply IH. destruct M as [-> _]. split; [reflexivity|]. cbn. unfold ptr_ok in K. unfold hi in *. lia.
Qed.
Lemma groups_shift n : map (shift_view d) (no_groups n) = no_groups n.
Proof. unfold no_groups. induction (ngroups n) as [|k IH]; cbn; [reflexivity|now rewrite IH]. Qed.
Lemma next_shift n : opt_small n = true \/ a <= 0 -> same_begin || no_start n = true -> forall fuel s s', R s s' -> rrel (next fuel e n s) (next fuel e' n s').
Proof.
  intros O B fuel s s' H. unfold next. apply loop_shift; auto. pose proof (R_low _ _ H). destruct H as [-> _]. split; [|cbn; lia].
  unfold shift_st. cbn [s_start s_end s_grp s_acc]. now rewrite groups_shift.
Qed.
Lemma create_shift n : opt_small n = true \/ a <= 0 -> same_begin = true -> a <= qb e <= hi -> forall fuel, rrel (create fuel e n) (create fuel e' n).
Proof.
  intros O B L fuel. unfold create. assert (F : R (fresh e n) (fresh e' n)).
  { split; [|cbn; lia]. unfold fresh, shift_st. cbn [s_start s_end s_grp s_acc]. now rewrite groups_shift, (QB B). }
  pose proof (mt_shift n O ltac:(now rewrite B) [] [] (Forall2_nil _) _ _ F) as M. destruct (mt e n [] (fresh e n)) as [t|], (mt e' n [] (fresh e' n)) as [t'|]; cbn in M; try tauto; try exact Logic.I; try apply ub_out; try apply ub_out2; try apply ub_out3.
  rewrite (R_acc _ _ M). destruct (s_acc t); [exact M|]. apply next_shift; auto. now rewrite B.
Qed.

(** Everything a program can hold and see. *)
Lemma reach_shift n : opt_small n = true \/ a <= 0 -> same_begin = true -> a <= qb e <= hi -> forall s, reach e n s -> R s (shift_st d s) /\ reach e' n (shift_st d s).
Proof.
  intros O B L s H. induction H as [fuel s C|fuel s t _ [IH1 IH2] N].
  - pose proof (create_shift n O B L fuel) as X. rewrite C in X. cbn [rrel] in X. destruct (create fuel e' n) as [s'| |] eqn:C'; try tauto.
    pose proof X as [-> _]. split; [exact X|]. eapply ReachCreate. exact C'.
  - pose proof (next_shift n O ltac:(now rewrite B) fuel _ _ IH1) as X. rewrite N in X. cbn [rrel] in X. destruct (next fuel e' n (shift_st d s)) as [t'| |] eqn:N'; try tauto.
    pose proof X as [-> _]. split; [exact X|]. eapply ReachNext; [exact IH2|exact N'].
Qed.
Lemma view_shift s : to_view (shift_st d s) = shift_view d (to_view s).
Proof. unfold to_view, is_accepted. cbn [shift_st s_acc s_start s_end]. now destruct (s_acc s). Qed.
Lemma visits_shift n : opt_small n = true \/ a <= 0 -> same_begin || no_start n = true -> forall s l, visits e n s l -> R s (shift_st d s) -> visits e' n (shift_st d s) (map (shift_view d) l).
Proof.
  intros O B s l V. induction V as [s A|fuel s t l A N V IH]; intro H; cbn [map].
  - constructor. exact A.
  - pose proof (next_shift n O B fuel _ _ H) as X. rewrite N in X. cbn [rrel] in X. destruct (next fuel e' n (shift_st d s)) as [t'| |] eqn:N'; try tauto.
    pose proof X as [-> _]. rewrite <- view_shift. econstructor; [exact A|exact N'|]. now apply IH.
Qed.
Lemma nth_text (l : list chr) x k i : nth_error (firstn k (skipn x l)) i = if (i <? k)%nat then nth_error l (x + i) else None.
Proof.
  revert k i. induction x as [|x IH] in l |- *.
  - cbn [skipn Nat.add]. induction l as [|c l IHl]; intros [|k] [|i]; cbn [firstn nth_error]; try reflexivity.
    + now destruct (_ <? _)%nat.
    + rewrite IHl. reflexivity.
  - destruct l as [|c l]; intros k i; [|apply IH]. cbn [skipn Nat.add]. rewrite firstn_nil. destruct i; cbn [nth_error]; now destruct (_ <? _)%nat.
Qed.
Lemma list_ext (l1 : list chr) : forall l2, (forall i, nth_error l1 i = nth_error l2 i) -> l1 = l2.
Proof.
  induction l1 as [|x l1 IH]; intros [|y l2] H; [reflexivity|discriminate (H 0%nat)|discriminate (H 0%nat)|].
  pose proof (H 0%nat) as E. cbn in E. injection E as ->. f_equal. apply IH. intro i. exact (H (S i)).
Qed.
Lemma text_shift x y : 0 <= x -> a <= x -> 0 <= x + d -> y <= hi -> text e' (Some (x + d, y + d)) = text e (Some (x, y)).
Proof.
  intros X0 X X2 Y. cbn [text]. apply list_ext. intro i. rewrite !nth_text. replace (y + d - (x + d)) with (y - x) by lia.
  destruct (i <? Z.to_nat (y - x))%nat eqn:K; [|reflexivity]. apply Nat.ltb_lt in K. unfold hi in Y.
  destruct (nth_error (buf e) (Z.to_nat x + i)) as [c|] eqn:E; [|apply nth_error_None in E; lia].
  assert (RE : rd e (x + Z.of_nat i) = Some c) by (unfold rd; destruct (Z.ltb_spec (x + Z.of_nat i) 0); [lia|]; rewrite <- E; f_equal; lia).
  pose proof (RD (x + Z.of_nat i) c ltac:(lia) RE) as RE'. unfold rd in RE'. destruct (Z.ltb_spec (x + Z.of_nat i + d) 0); [lia|]. rewrite <- RE'. f_equal. lia.
Qed.
End Shift.
