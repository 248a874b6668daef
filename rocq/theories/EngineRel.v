(** Relational invariants of the matcher, for every node: two runs from related states end
    in related states, provided the relation determines positions and the accepted flag
    and is kept by the primitive updates. *)
From Coq Require Import ZArith NArith List Bool Lia ZifyBool ZifyNat ZifyN.
From Verif Require Import Base Text Ast Builder Engine Api AstProofs BuilderProofs.
Import ListNotations.
Open Scope Z_scope.

Definition sumrel {A A' B B' : Type} (RA : A -> A' -> Prop) (RB : B -> B' -> Prop)
  (x : A + B) (y : A' + B') : Prop :=
  match x, y with
  | inl a, inl a' => RA a a'
  | inr b, inr b' => RB b b'
  | _, _ => False
  end.
Lemma ploop_rel {A A' B B'} (RA : A -> A' -> Prop) (RB : B -> B' -> Prop) f f' :
  (forall a a', RA a a' -> sumrel RA RB (f a) (f' a')) ->
  forall p a a', RA a a' -> sumrel RA RB (ploop p f a) (ploop p f' a').
Proof.
  intro H. induction p as [p IH|p IH|]; intros a a' Ha; cbn [ploop].
  - pose proof (H a a' Ha) as S. destruct (f a), (f' a'); cbn in S |- *; try tauto.
    pose proof (IH _ _ S) as S2. destruct (ploop p f a0), (ploop p f' a1); cbn in S2 |- *; try tauto. auto.
  - pose proof (IH a a' Ha) as S. destruct (ploop p f a), (ploop p f' a'); cbn in S |- *; try tauto. auto.
  - auto.
Qed.
Lemma loopN_rel {A A' B B'} (RA : A -> A' -> Prop) (RB : B -> B' -> Prop) f f' :
  (forall a a', RA a a' -> sumrel RA RB (f a) (f' a')) ->
  forall n a a', RA a a' -> sumrel RA RB (loopN n f a) (loopN n f' a').
Proof. intros H [|p] a a' Ha; cbn [loopN]; [exact Ha|]. now apply ploop_rel. Qed.

Section Rel.
Variable e : env.
Variable R : st -> st -> Prop.
Variable ok : nat -> Prop.
Hypothesis R_end : forall s s', R s s' -> s_end s = s_end s'.
Hypothesis R_start : forall s s', R s s' -> s_start s = s_start s'.
Hypothesis R_acc : forall s s', R s s' -> s_acc s = s_acc s'.
Hypothesis R_set_end : forall s s' p, R s s' -> R (set_end p s) (set_end p s').
Hypothesis R_set_acc : forall s s' b, R s s' -> R (set_acc b s) (set_acc b s').
Definition orel (x y : out) : Prop :=
  match x, y with Ok s, Ok s' => R s s' | UB, UB => True | _, _ => False end.
Hypothesis R_group : forall s s' i v, R s s' -> ok i ->
  orel (set_group i v s) (set_group i v s').

Definition crel (m m' : clo) : Prop := forall s s', R s s' -> orel (m s) (m' s').
Definition irel (l l' : list clo) : Prop := Forall2 crel l l'.
Definition krel (k k' : list clo -> clo) : Prop := forall l l', irel l l' -> crel (k l) (k' l').

Lemma orel_bind x y f f' : orel x y -> (forall s s', R s s' -> orel (f s) (f' s')) ->
  orel (bind x f) (bind y f').
Proof. destruct x, y; cbn; intros H1 H2; try tauto; auto. Qed.
Lemma move_rel p s s' : R s s' -> orel (move e p s) (move e p s').
Proof. intro H. unfold move. destruct (ptr_ok e p); cbn; auto. Qed.
Hint Resolve move_rel : core.

Lemma exact_rel cs : forall p s s', R s s' -> orel (exact_loop e cs p s) (exact_loop e cs p s').
Proof.
  induction cs as [|c cs IH]; intros p s s' H; cbn; auto.
  rewrite (R_end _ _ H). destruct (rd e (s_end s')) as [x|]; [|exact I].
  destruct (c =? x); cbn; auto. apply orel_bind; auto.
Qed.
Lemma test_rel t : crel (match_test e t) (match_test e t).
Proof.
  intros s s' H. unfold match_test. rewrite (R_end _ _ H).
  destruct (rd e (s_end s')) as [x|]; [|exact I]. destruct (t x); cbn; auto.
Qed.
Lemma guarded_rel m : crel m m -> crel (guarded e m) (guarded e m).
Proof. intros Hm s s' H. unfold guarded. rewrite (R_end _ _ H). destruct (qe e <=? s_end s'); cbn; auto. Qed.
Lemma term_rel t : crel (match_term e t) (match_term e t).
Proof.
  assert (X : forall cs, crel (match_exact e cs) (match_exact e cs)).
  { intros cs s s' H. unfold match_exact. rewrite (R_end _ _ H). apply exact_rel; auto. }
  destruct t; cbn [match_term].
  - destruct (term_kind tok) as [| |[]]; apply guarded_rel; auto using test_rel.
    intros s s' H. unfold match_space. rewrite (R_end _ _ H). destruct (rd e (s_end s')); [|exact I]. auto.
  - apply guarded_rel; auto.
  - apply guarded_rel; auto using test_rel.
  - intros s s' H. unfold match_start. rewrite (R_end _ _ H). destruct (_ <=? _); cbn; auto.
  - intros s s' H. unfold match_end. rewrite (R_end _ _ H). destruct (_ <? _); cbn; auto.
    destruct (rd e (s_end s')); [|exact I]. destruct (_ =? c_nl); cbn; auto.
Qed.

Lemma dfs0_rel l l' : irel l l' -> crel (dfs0 l) (dfs0 l').
Proof.
  induction 1 as [|c c' r r' Hc Hr IH]; intros s s' H; cbn; auto.
  destruct Hr as [|d d' r r' Hd Hr]; [now apply Hc|].
  apply orel_bind; [now apply Hc|]. intros t t' Ht. rewrite (R_acc _ _ Ht).
  destruct (s_acc t'); cbn; auto. apply IH. auto.
Qed.
Lemma dfs_rel l l' : Forall2 krel l l' -> forall i i', irel i i' -> crel (dfs l i) (dfs l' i').
Proof.
  induction 1 as [|c c' r r' Hc Hr IH]; intros i i' Hi s s' H; cbn; auto.
  destruct Hr as [|d d' r r' Hd Hr]; [now apply Hc|].
  apply orel_bind; [now apply Hc|]. intros t t' Ht. rewrite (R_acc _ _ Ht).
  destruct (s_acc t'); cbn; auto. apply IH; auto. constructor.
Qed.
Lemma simple_rel m m' r r' : crel m m' -> crel r r' -> crel (simple_m m r) (simple_m m' r').
Proof.
  intros Hm Hr s s' H. unfold simple_m. apply orel_bind; [auto|]. intros t t' Ht.
  rewrite (R_acc _ _ Ht). destruct (s_acc t'); [|exact Ht].
  apply orel_bind; [auto|]. intros u u' Hu. rewrite (R_acc _ _ Hu), (R_end _ _ H).
  destruct (s_acc u'); cbn; auto.
Qed.
Lemma req_rel m m' : crel m m' -> forall s s', R s s' -> sumrel R orel (req_step m s) (req_step m' s').
Proof.
  intros Hm s s' H. unfold req_step. specialize (Hm s s' H).
  destruct (m s), (m' s'); cbn in Hm; try tauto; try exact I.
  rewrite (R_acc _ _ Hm). destruct (s_acc s1); exact Hm.
Qed.
Lemma reps_rel m m' n : crel m m' -> forall s s', R s s' -> sumrel R orel (reps n m s) (reps n m' s').
Proof. intros Hm. apply loopN_rel. now apply req_rel. Qed.
Lemma repeated_rel m m' n r r' : crel m m' -> crel r r' -> crel (repeated_m m n r) (repeated_m m' n r').
Proof.
  intros Hm Hr s s' H. unfold repeated_m. pose proof (reps_rel m m' n Hm s s' H) as S.
  destruct (reps n m s), (reps n m' s'); cbn in S; try tauto. auto.
Qed.
Lemma bt_rel b r r' l l' : crel r r' -> irel l l' -> crel (greedy_bt b r l) (greedy_bt b r' l').
Proof.
  intros Hr Hl s s' H. unfold greedy_bt. destruct b; [auto|].
  apply orel_bind; [now apply dfs0_rel|]. intros t t' Ht. rewrite (R_end _ _ H). cbn. auto.
Qed.
Lemma opt_rel m m' k b b' : crel m m' -> crel b b' -> crel (greedy_opt e m k b) (greedy_opt e m' k b').
Proof.
  intros Hm Hb s s' H. unfold greedy_opt. apply orel_bind; [auto|]. intros t t' Ht.
  apply orel_bind; [auto|]. intros u u' Hu. rewrite (R_acc _ _ Hu), (R_start _ _ Hu), (R_end _ _ Hu).
  destruct (_ && _); [|exact Hu]. apply orel_bind; auto.
Qed.
Definition nrel (x y : N * st) : Prop := fst x = fst y /\ R (snd x) (snd y).
Definition onrel (x y : option (N * st)) : Prop :=
  match x, y with Some a, Some b => nrel a b | None, None => True | _, _ => False end.
Lemma greedy_step_rel m m' : crel m m' -> forall x y, nrel x y -> sumrel nrel onrel (greedy_step m x) (greedy_step m' y).
Proof.
  intros Hm [k s] [k' s'] [Hk H]. cbn in Hk, H. subst k'. unfold greedy_step. cbn [snd fst].
  specialize (Hm s s' H). destruct (m s), (m' s'); cbn in Hm; try tauto; try exact I.
  rewrite (R_acc _ _ Hm). destruct (s_acc s1); split; cbn; auto.
Qed.
Lemma scan_rel m m' : crel m m' -> forall k it s s', R s s' -> orel (back_scan e m k it s) (back_scan e m' k it s').
Proof.
  intros Hm. induction k as [|k IH]; intros it s s' H; cbn; auto.
  apply orel_bind; [apply Hm; auto|]. intros t t' Ht. rewrite (R_acc _ _ Ht).
  destruct (s_acc t'); cbn; auto. destruct (ptr_ok e (it - 1)); cbn; auto.
Qed.
Lemma bt_step_rel m m' b b' st0 : crel m m' -> crel b b' -> forall s s', R s s' ->
  sumrel R orel (bt_step e m b st0 s) (bt_step e m' b' st0 s').
Proof.
  intros Hm Hb s s' H. unfold bt_step. specialize (Hb s s' H).
  destruct (b s), (b' s'); cbn in Hb; try tauto; try exact I.
  rewrite (R_acc _ _ Hb). destruct (s_acc s1); [exact Hb|].
  unfold back_for. rewrite (R_end _ _ Hb). destruct (ptr_ok e (s_end s1 - 1)); [|exact I].
  pose proof (scan_rel m m' Hm (Z.to_nat (s_end s1 - st0)) (s_end s1 - 1) _ _ Hb) as S.
  destruct (back_scan e m _ _ s0), (back_scan e m' _ _ s1); cbn in S |- *; tauto.
Qed.
Lemma greedy_gen_rel m m' mn mx b b' r r' : crel m m' -> crel b b' -> crel r r' ->
  crel (greedy_gen e m mn mx b r) (greedy_gen e m' mn mx b' r').
Proof.
  intros Hm Hb Hr s s' H. unfold greedy_gen. pose proof (reps_rel m m' mn Hm s s' H) as S.
  destruct (reps mn m s) as [t|o], (reps mn m' s') as [t'|o']; cbn in S; try tauto.
  assert (F : forall x y, nrel x y ->
    orel match loopN (fst x - mn) (bt_step e m b (s_end t)) (snd x) with inr o => o | inl s2 => r (set_acc true s2) end
         match loopN (fst y - mn) (bt_step e m' b' (s_end t')) (snd y) with inr o => o | inl s2 => r' (set_acc true s2) end).
  { intros [k u] [k' u'] [Hk Hu]. cbn in Hk, Hu |- *. subst k'. rewrite (R_end _ _ S).
    pose proof (loopN_rel R orel _ _ (bt_step_rel m m' b b' (s_end t') Hm Hb) (k - mn)%N u u' Hu) as L.
    destruct (loopN _ _ u), (loopN _ _ u'); cbn in L; try tauto. apply Hr. auto. }
  pose proof (loopN_rel nrel onrel _ _ (greedy_step_rel m m' Hm) (mx - mn)%N (mn, t) (mn, t') (conj eq_refl S)) as L.
  destruct (loopN _ _ (mn, t)) as [x|[x|]], (loopN _ _ (mn, t')) as [y|[y|]]; cbn in L; try tauto; auto.
Qed.
Lemma greedy_rel m m' a b mn mx hc r r' l l' : crel m m' -> crel r r' -> irel l l' ->
  crel (greedy_m e m a b mn mx hc r l) (greedy_m e m' a b mn mx hc r' l').
Proof.
  intros Hm Hr Hl. unfold greedy_m. destruct (_ && _).
  - apply opt_rel; auto using bt_rel.
  - apply greedy_gen_rel; auto using bt_rel.
Qed.
Lemma lazy_step_rel m m' hc r r' l l' p : crel m m' -> crel r r' -> irel l l' ->
  forall s s', R s s' -> sumrel R (sumrel R orel) (lazy_step e m hc r l p s) (lazy_step e m' hc r' l' p s').
Proof.
  intros Hm Hr Hl s s' H. unfold lazy_step. rewrite (R_end _ _ H).
  destruct (negb _); [exact H|].
  assert (M : forall t t', R t t' ->
    sumrel R (sumrel R orel)
     (if s_acc t then inr (inl t) else match m t with UB => inr (inr UB) | Ok s2 => if s_acc s2 then inl s2 else inr (inr (Ok (set_end p s2))) end)
     (if s_acc t' then inr (inl t') else match m' t' with UB => inr (inr UB) | Ok s2 => if s_acc s2 then inl s2 else inr (inr (Ok (set_end p s2))) end)).
  { intros t t' Ht. rewrite (R_acc _ _ Ht). destruct (s_acc t'); [exact Ht|].
    specialize (Hm t t' Ht). destruct (m t), (m' t'); cbn in Hm; try tauto; try exact I.
    rewrite (R_acc _ _ Hm). destruct (s_acc s1); cbn; auto. }
  destruct hc.
  - specialize (Hr s s' H). destruct (r s), (r' s'); cbn in Hr; try tauto; try exact I.
    pose proof (M _ _ Hr) as M2. rewrite (R_acc _ _ Hr) in M2 |- *. destruct (s_acc s1) eqn:E; [exact Hr|exact M2].
  - pose proof (dfs0_rel l l' Hl s s' H) as D. destruct (dfs0 l s), (dfs0 l' s'); cbn in D; try tauto; try exact I.
    rewrite ?(R_end _ _ H). apply M. auto.
Qed.
Lemma lazy_rel m m' mn mx hc r r' l l' : crel m m' -> crel r r' -> irel l l' ->
  crel (lazy_m e m mn mx hc r l) (lazy_m e m' mn mx hc r' l').
Proof.
  intros Hm Hr Hl s s' H. unfold lazy_m. pose proof (reps_rel m m' mn Hm s s' H) as S.
  destruct (reps mn m s) as [t|o], (reps mn m' s') as [t'|o']; cbn in S; try tauto.
  rewrite (R_end _ _ H).
  pose proof (loopN_rel R (sumrel R orel) _ _ (lazy_step_rel m m' hc r r' l l' (s_end s') Hm Hr Hl) (mx - mn)%N t t' S) as L.
  destruct (loopN _ _ t) as [x|[x|x]], (loopN _ _ t') as [y|[y|y]]; cbn in L; try tauto; auto.
Qed.
Definition prel (x y : N * Z * st) : Prop := fst x = fst y /\ R (snd x) (snd y).
Lemma poss_rel m m' mn mx r r' : crel m m' -> crel r r' -> crel (possessive_m m mn mx r) (possessive_m m' mn mx r').
Proof.
  intros Hm Hr s s' H. unfold possessive_m.
  assert (P : forall x y, prel x y -> sumrel prel (sumrel R orel) (poss_step m mn x) (poss_step m' mn y)).
  { intros [[i p] t] [[i' p'] t'] [E Ht]. cbn in E, Ht. injection E as <- <-. unfold poss_step.
    specialize (Hm t t' Ht). destruct (m t), (m' t'); cbn in Hm; try tauto; try exact I.
    rewrite (R_acc _ _ Hm). destruct (s_acc s1).
    - cbn. split; cbn; [now rewrite (R_end _ _ Hm)|exact Hm].
    - destruct (i <? mn)%N; cbn; auto. }
  pose proof (loopN_rel prel (sumrel R orel) _ _ P mx (0%N, s_end s, s) (0%N, s_end s', s')) as L.
  specialize (L (conj (f_equal (pair 0%N) (R_end _ _ H)) H)).
  destruct (loopN _ _ (_, s)) as [[[? ?] x]|[x|x]], (loopN _ _ (_, s')) as [[[? ?] y]|[y|y]]; cbn in L; try tauto; auto.
  apply Hr. apply L.
Qed.
Lemma group_rel m m' i r r' : ok i -> crel m m' -> crel r r' -> crel (group_m m i r) (group_m m' i r').
Proof.
  intros Hi Hm Hr s s' H. unfold group_m. apply orel_bind; [auto|]. intros t t' Ht.
  rewrite (R_acc _ _ Ht). destruct (s_acc t'); [|exact Ht].
  rewrite (R_end _ _ H), (R_end _ _ Ht). apply orel_bind; auto.
Qed.
Lemma negated_rel m m' : crel m m' -> crel (negated_m e m) (negated_m e m').
Proof.
  intros Hm s s' H. unfold negated_m. rewrite (R_end _ _ H). destruct (_ <=? _); cbn; auto.
  apply orel_bind; [auto|]. intros t t' Ht. rewrite (R_acc _ _ Ht).
  destruct (s_acc t'); cbn; auto. rewrite (R_end _ _ Ht). auto.
Qed.

Lemma mt_rel n : (forall i, In i (gidx n) -> ok i) -> krel (mt e n) (mt e n).
Proof.
  assert (K : forall cs, Forall (fun n => (forall i, In i (gidx n) -> ok i) -> krel (mt e n) (mt e n)) cs ->
     (forall i, In i (flat_map gidx cs) -> ok i) ->
     Forall2 krel (map (fun c i => mt e c i) cs) (map (fun c i => mt e c i) cs)
     /\ irel (map (fun c => mt e c []) cs) (map (fun c => mt e c []) cs)).
  { induction 1 as [|c cs Hc HF IH]; intro Hg; cbn; [split; constructor|].
    assert (C : krel (mt e c) (mt e c)) by (apply Hc; intros; apply Hg; cbn; apply in_app_iff; auto).
    destruct IH as [I1 I2]; [intros; apply Hg; cbn; apply in_app_iff; auto|].
    split; constructor; auto. apply C. constructor. }
  induction n using node_ind'; cbn [gidx]; intros Hg l l' Hl; cbn [mt].
  - apply term_rel.
  - destruct (K cs H Hg) as [K1 K2]. now apply dfs_rel.
  - assert (Hm : krel (mt e n) (mt e n)) by (apply IHn; intros; apply Hg; apply in_app_iff; auto).
    destruct (K cs H) as [K1 K2]; [intros; apply Hg; apply in_app_iff; auto|].
    destruct cs; [apply Hm; constructor|]. apply simple_rel; [apply Hm; constructor|]. now apply dfs_rel.
  - assert (Hm : krel (mt e n) (mt e n)) by (apply IHn; intros; apply Hg; apply in_app_iff; auto).
    destruct (K cs H) as [K1 K2]; [intros; apply Hg; apply in_app_iff; auto|].
    apply greedy_rel; auto; [apply Hm; constructor|]. apply dfs_rel; auto. constructor.
  - assert (Hm : krel (mt e n) (mt e n)) by (apply IHn; intros; apply Hg; apply in_app_iff; auto).
    destruct (K cs H) as [K1 K2]; [intros; apply Hg; apply in_app_iff; auto|].
    apply lazy_rel; auto; [apply Hm; constructor|]. apply dfs_rel; auto. constructor.
  - assert (Hm : krel (mt e n) (mt e n)) by (apply IHn; intros; apply Hg; apply in_app_iff; auto).
    destruct (K cs H) as [K1 K2]; [intros; apply Hg; apply in_app_iff; auto|].
    apply poss_rel; auto. apply dfs_rel; auto. constructor.
  - assert (Hm : krel (mt e n) (mt e n)) by (apply IHn; intros; apply Hg; apply in_app_iff; auto).
    destruct (K cs H) as [K1 K2]; [intros; apply Hg; apply in_app_iff; auto|].
    apply repeated_rel; auto; [apply Hm; constructor|]. apply dfs_rel; auto. constructor.
  - assert (Hm : krel (mt e n) (mt e n)) by (apply IHn; intros; apply Hg; right; apply in_app_iff; auto).
    destruct (K cs H) as [K1 K2]; [intros; apply Hg; right; apply in_app_iff; auto|].
    apply group_rel; [apply Hg; now left|apply Hm; assumption|]. apply dfs_rel; auto.
    now apply Forall2_app.
  - apply negated_rel. apply IHn; auto. constructor.
Qed.
End Rel.

(** ** Instances *)

(** Extra capture slots. *)
Definition pad (x : list (option (Z * Z))) (s : st) : st :=
  mkSt (s_start s) (s_end s) (s_grp s ++ x) (s_acc s).
Definition pad_out (x : list (option (Z * Z))) (o : out) : out :=
  match o with Ok s => Ok (pad x s) | UB => UB end.

Lemma set_nth_length {A} (l : list A) : forall i a l', set_nth l i a = Some l' -> length l' = length l.
Proof.
  induction l as [|x l IH]; intros [|i] a l' H; cbn in H; try discriminate.
  - now injection H as <-.
  - destruct (set_nth l i a) eqn:E; [|discriminate]. injection H as <-. cbn. now rewrite (IH _ _ _ E).
Qed.
Lemma set_nth_some {A} (l : list A) : forall i a, (i < length l)%nat -> exists l', set_nth l i a = Some l'.
Proof.
  induction l as [|x l IH]; intros [|i] a H; cbn in *; try lia; [eauto|].
  destruct (IH i a) as (l' & ->); [lia|]. eauto.
Qed.
Lemma set_nth_app {A} (l x : list A) : forall i a l', set_nth l i a = Some l' -> set_nth (l ++ x) i a = Some (l' ++ x).
Proof.
  induction l as [|y l IH]; intros [|i] a l' H; cbn in *; try discriminate.
  - now injection H as <-.
  - destruct (set_nth l i a) eqn:E; [|discriminate]. injection H as <-. now rewrite (IH _ _ _ E).
Qed.
Definition Rpad x G (s s' : st) : Prop := length (s_grp s) = G /\ s' = pad x s.
Lemma mt_pad e x G n : (forall i, In i (gidx n) -> (i < G)%nat) -> forall s, length (s_grp s) = G ->
  mt e n [] (pad x s) = pad_out x (mt e n [] s)
  /\ forall s', mt e n [] s = Ok s' -> length (s_grp s') = G.
Proof.
  intros Hg s Hs.
  assert (C : krel (Rpad x G) (mt e n) (mt e n)).
  { apply mt_rel with (ok := fun i => (i < G)%nat); unfold Rpad; try (intros t t' [_ ->]; reflexivity); auto.
    - intros t t' p [E ->]. auto.
    - intros t t' p [E ->]. auto.
    - intros t t' i v [E ->] Hi. unfold set_group. cbn.
      destruct (set_nth_some (s_grp t) i (Some v)) as (l' & El); [lia|].
      rewrite El, (set_nth_app _ x _ _ _ El). cbn. split; [|reflexivity].
      cbn. rewrite (set_nth_length _ _ _ _ El). exact E. }
  specialize (C [] [] (Forall2_nil _) s (pad x s) (conj Hs eq_refl)).
  destruct (mt e n [] s) as [t|], (mt e n [] (pad x s)) as [t'|]; cbn in C; try tauto.
  - destruct C as [C ->]. split; [reflexivity|]. intros s' E. injection E as <-. exact C.
  - split; [reflexivity|discriminate].
Qed.

(** The contents of the capture slots have no influence. *)
Definition Rgrp G (s s' : st) : Prop :=
  s_start s = s_start s' /\ s_end s = s_end s' /\ s_acc s = s_acc s'
  /\ length (s_grp s) = G /\ length (s_grp s') = G.
Lemma mt_grp e G n : (forall i, In i (gidx n) -> (i < G)%nat) -> krel (Rgrp G) (mt e n) (mt e n).
Proof.
  intro Hg. apply mt_rel with (ok := fun i => (i < G)%nat); unfold Rgrp; try tauto.
  intros s s' i v (A & B & C & D & E) Hi. unfold set_group.
    destruct (set_nth_some (s_grp s) i (Some v)) as (l & El); [lia|].
    destruct (set_nth_some (s_grp s') i (Some v)) as (l' & El'); [lia|].
    rewrite El, El'. cbn. apply set_nth_length in El, El'. intuition congruence.
Qed.

(** The start pointer is never changed, the number of slots never changes. *)
Definition Rid G (p : Z) (s s' : st) : Prop := s = s' /\ s_start s = p /\ length (s_grp s) = G.
Lemma mt_frame e G n : (forall i, In i (gidx n) -> (i < G)%nat) -> forall s s',
  length (s_grp s) = G -> mt e n [] s = Ok s' -> s_start s' = s_start s /\ length (s_grp s') = G.
Proof.
  intros Hg s s' Hs E.
  assert (C : krel (Rid G (s_start s)) (mt e n) (mt e n)).
  { apply mt_rel with (ok := fun i => (i < G)%nat); try exact Hg; unfold Rid; try (intros t t' [-> _]; reflexivity);
      try (intros t t' p (-> & H); cbn; auto; fail).
    intros t t' i v (-> & H1 & H2) Hi. unfold set_group.
      destruct (set_nth_some (s_grp t') i (Some v)) as (l' & El); [lia|].
      rewrite El. cbn. apply set_nth_length in El. repeat split; auto; congruence. }
  specialize (C [] [] (Forall2_nil _) s s (conj eq_refl (conj eq_refl Hs))). rewrite E in C.
  destruct C as (_ & A & B). auto.
Qed.

(** Only the slots of its groups are changed. *)
Lemma mt_slots e n s s' : mt e n [] s = Ok s' ->
  length (s_grp s') = length (s_grp s) /\ forall k, ~ In k (gidx n) -> nth_error (s_grp s') k = nth_error (s_grp s) k.
Proof.
  intros E. enough (A : forall k, length (s_grp s') = length (s_grp s) /\ (~ In k (gidx n) -> nth_error (s_grp s') k = nth_error (s_grp s) k)).
  { split; [apply (A 0%nat)|]. intro k. apply A. }
  intro k.
  set (Rk := fun t t' => t = t' /\ length (s_grp t) = length (s_grp s) /\ (~ In k (gidx n) -> nth_error (s_grp t) k = nth_error (s_grp s) k)).
  assert (C : krel Rk (mt e n) (mt e n)).
  { apply mt_rel with (ok := fun i => In i (gidx n)); unfold Rk; try (intros t t' [-> _]; reflexivity);
      try (intros t t' p (-> & H); cbn; auto; fail); [|auto].
    intros t t' i v (-> & H1 & H2) Hi. unfold set_group.
    destruct (set_nth (s_grp t') i (Some v)) as [l'|] eqn:El; [|exact Logic.I]. cbn. split; [reflexivity|].
    pose proof (set_nth_length _ _ _ _ El) as Ln. split; [congruence|]. intro Hk. rewrite <- (H2 Hk).
    assert (Nk : i <> k) by (intros ->; now apply Hk). clear - El Nk.
    revert i k l' El Nk. generalize (s_grp t'). intro l. induction l as [|x l IH]; intros [|i] [|k] l' E N; cbn in E; try discriminate; try congruence.
    + injection E as <-. reflexivity.
    + destruct (set_nth l i (Some v)); [|discriminate]. injection E as <-. reflexivity.
    + destruct (set_nth l i (Some v)) eqn:Q; [|discriminate]. injection E as <-. cbn. apply (IH i k _ Q). congruence. }
  specialize (C [] [] (Forall2_nil _) s s (conj eq_refl (conj eq_refl (fun _ => eq_refl)))). rewrite E in C.
  destruct C as (_ & A). exact A.
Qed.
