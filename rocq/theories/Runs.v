(** Patterns that begin with an unbounded run of one character class (X+, X*, X{n,}).  When
    such a pattern fails the matcher may skip to the end of the run, which is harmless: no
    match starts inside the run. *)
From Coq Require Import ZArith NArith List Bool Lia ZifyBool ZifyNat ZifyN.
From Verif Require Import Base Text Ast Builder Engine Spec SpecProofs Den Checker CheckerProofs AstProofs EngineRel EngineProofs EngineOk EngineGood EngineMain.
Import ListNotations.
Open Scope nat_scope.

Definition run_item (x : node) (mx : N) : bool :=
  is_some (uset x) && clean x PAny && accins x && noinj x && N.eqb mx UMAX.
Definition runkid (cs : list node) (pv : prev) : bool :=
  match cs with [] => true | [c] => clean c pv && accins c | _ => false end.
(** The node starts with an unbounded run. *)
Fixpoint runroot (n : node) : bool :=
  match n with
  | SimpleV cs => match cs with [c] => runroot c | _ => false end
  | Possessive x mn mx cs => run_item x mx && runkid cs (lastp (Possessive x mn mx []) PFst)
  | Greedy x mn mx cs => run_item x mx && negb (is_nil cs) && runkid cs PAny
  | Lazy x mn mx cs => run_item x mx && negb (is_nil cs) && runkid cs PAny
  | Group m k cs =>
      match m with
      | Possessive x mn mx [] => run_item x mx && runkid cs (lastp m PFst)
      | Greedy x mn mx [] | Lazy x mn mx [] => run_item x mx && negb (is_nil cs) && runkid cs PAny
      | _ => false
      end
  | _ => false
  end.

Lemma nl_inv {A B} (I : A -> Prop) (J : B -> Prop) (f : A -> A + B) :
  (forall a, I a -> match f a with inl a' => I a' | inr b => J b end) ->
  forall k a, I a -> match nl k f a with inl a' => I a' | inr b => J b end.
Proof.
  intro H. induction k as [|k IH]; intros a Ia; [exact Ia|]. cbn [nl].
  specialize (H a Ia). destruct (f a); [now apply IH|exact H].
Qed.
Lemma loopN_inv {A B} (I : A -> Prop) (J : B -> Prop) (f : A -> A + B) :
  (forall a, I a -> match f a with inl a' => I a' | inr b => J b end) ->
  forall k a, I a -> match loopN k f a with inl a' => I a' | inr b => J b end.
Proof. intros H k a Ia. rewrite loopN_nl. now apply nl_inv. Qed.

Section Runs.
Variables (pre0 w post : str) (G : nat).
Notation e := (env_of pre0 w post).
Notation at_ := (at_ pre0).
Notation mk := (mk pre0).
Notation cspec := (cspec pre0 w G).
Notation hp := (hp w).
Notation ustep := (ustep pre0 w G).

(** ** The end stays inside the run *)
Section Inv.
Variables (P : Z -> bool) (a : Z) (i r : nat).
Hypothesis Hr : i <= r <= length w.
Hypothesis Ha : (a <= at_ i)%Z.
Hypothesis Hend : hp P r = false.
Definition Inv (s : st) : Prop := exists p g b, s = mk a p g b /\ i <= p <= r /\ length g = G.
Definition Fin (o : out) : Prop := forall s, o = Ok s -> s_acc s = false -> Inv s.
Definition keeps (M : clo) : Prop := forall s s1, Inv s -> M s = Ok s1 -> Inv s1.
Definition keepf (M : clo) : Prop := forall s, Inv s -> Fin (M s).

Lemma Inv_acc s b : Inv s -> Inv (set_acc b s).
Proof. clear Hend P. intros (p & g & c & -> & H & L). exists p, g, b. auto. Qed.
Lemma Inv_end s z : Inv s -> (at_ i <= z <= at_ r)%Z -> Inv (set_end z s).
Proof. clear Hend P.
  intros (p & g & c & -> & H & L) Hz. exists (Z.to_nat (z - Z.of_nat (length pre0))), g, c. conj; auto.
  - unfold set_end, EngineOk.mk, EngineOk.at_ in *. cbn. f_equal. lia.
  - unfold EngineOk.at_ in *. lia.
  - unfold EngineOk.at_ in *. lia.
Qed.
Lemma Inv_bound s : Inv s -> (at_ i <= s_end s <= at_ r)%Z.
Proof. clear Hend P. intros (p & g & c & -> & H & L). unfold EngineOk.mk, EngineOk.at_. cbn. lia. Qed.
Lemma ustep_keeps M : ustep M P -> keeps M.
Proof.
  intros U s s1 (p & g & b & -> & H & L) E. rewrite U in E by (auto; unfold EngineOk.at_ in *; lia). injection E as <-.
  destruct (hp P p) eqn:X.
  - exists (S p), g, true. assert (p <> r) by (intros ->; congruence). conj; auto; lia.
  - exists p, g, false. auto.
Qed.
Lemma keeps_keepf M : keeps M -> keepf M.
Proof. clear Hend P. intros H s Is s1 E _. eapply H; eauto. Qed.
Lemma cspec_keepf M D pv cl gc ge : cspec M D pv true cl gc ge -> cl = true ->
  (forall p, i <= p <= r -> prevok pre0 w pv a p) -> keepf M.
Proof. clear Hend P.
  intros H Hc Hp s (p & g & b & -> & B & L) s1 E A.
  specialize (H a p g b ltac:(lia) L (or_intror eq_refl) ltac:(unfold EngineOk.at_ in *; lia) (Hp p B)). unfold res in H.
  destruct (hd_error (D (p, []))) as [[j d]|].
  - destruct H as (g' & E' & _). rewrite E' in E. injection E as <-. discriminate.
  - destruct H as (j & g' & E' & _ & Lg & X & _). rewrite E' in E. injection E as <-. rewrite (X Hc). exists p, g', false. auto.
Qed.
Lemma keepf_ok : keepf (fun s => Ok s).
Proof. clear Hend P. intros s Is s1 [= <-] _. exact Is. Qed.

Lemma reps_keep M n s : keeps M -> Inv s ->
  match reps n M s with inl s1 => Inv s1 | inr o => Fin o end.
Proof. clear Hend P.
  intros K Is. unfold reps. apply (loopN_inv Inv Fin); [|exact Is]. clear s Is. intros s Is. unfold req_step.
  specialize (K s). destruct (M s) as [s1|]; [|discriminate]. specialize (K s1 Is eq_refl).
  destruct (s_acc s1); [exact K|]. intros s2 [= <-] _. exact K.
Qed.
(** The two ways a possessive loop can end. *)
Lemma poss_form M mn mx : ustep M P -> (mx <> 0)%N -> (mn <= mx)%N -> forall s, Inv s -> s_end s = at_ i ->
  (exists t, (forall R, possessive_m M mn mx R s = R t) /\ Inv t /\ (mn <> 0%N -> (at_ i < s_end t)%Z))
  \/ (exists o, (forall R, possessive_m M mn mx R s = o) /\ forall z, o = Ok z -> Inv z /\ s_acc z = false).
Proof.
  intros U Hmx Hle s Is E0. pose proof (ustep_keeps M U) as K.
  set (I3 := fun x : N * Z * st => Inv (snd x) /\ (at_ i <= snd (fst x) <= at_ r)%Z
     /\ (fst (fst x) <> 0%N -> (at_ i < s_end (snd x))%Z /\ (at_ i < snd (fst x))%Z)).
  set (J := fun x : st + out => match x with inl s => Inv s /\ (mn <> 0%N -> (at_ i < s_end s)%Z)
     | inr o => forall z, o = Ok z -> Inv z /\ s_acc z = false end).
  assert (ST : forall x, I3 x -> match poss_step M mn x with inl x' => I3 x' /\ fst (fst x') = (fst (fst x) + 1)%N | inr b => J b end).
  { intros [[k z] t] (It & Hz & Hk). cbn in It, Hz, Hk. unfold poss_step. pose proof (K t) as Kt.
    assert (Sx : forall t1, M t = Ok t1 -> s_acc t1 = true -> (at_ i < s_end t1)%Z).
    { destruct It as (p & g & b & -> & B & L). intros t1 E A. rewrite U in E by (auto; unfold EngineOk.at_ in *; lia). injection E as <-.
      destruct (hp P p); [|discriminate]. cbn. unfold EngineOk.at_. lia. }
    destruct (M t) as [t1|]; [|cbn; discriminate].
    specialize (Kt t1 It eq_refl). destruct (s_acc t1) eqn:A.
    - specialize (Sx t1 eq_refl A). cbn. split; [|reflexivity]. split; [exact Kt|]. split; [now apply Inv_bound|]. cbn. auto.
    - destruct (N.ltb_spec k mn); cbn; [intros x [= <-]; auto|]. split; [|intro; apply Hk; lia].
      apply Inv_end; [now apply Inv_acc|exact Hz]. }
  assert (L : match loopN mx (poss_step M mn) (0%N, s_end s, s) with inl x => I3 x /\ fst (fst x) = mx | inr b => J b end).
  { rewrite loopN_nl.
    assert (Q : forall m x, I3 x -> match nl m (poss_step M mn) x with
       inl x' => I3 x' /\ fst (fst x') = (fst (fst x) + N.of_nat m)%N | inr b => J b end).
    { induction m as [|m IH]; intros x Ix; cbn [nl]; [split; [exact Ix|lia]|].
      specialize (ST x Ix). destruct (poss_step M mn x) as [x'|]; [|exact ST]. destruct ST as [S1 S2].
      specialize (IH x' S1). destruct (nl m (poss_step M mn) x'); [|exact IH]. destruct IH; split; [assumption|lia]. }
    specialize (Q (N.to_nat mx) (0%N, s_end s, s)).
    assert (I0 : I3 (0%N, s_end s, s)) by (split; [exact Is|split; [now apply Inv_bound|cbn; congruence]]).
    specialize (Q I0). destruct (nl _ _ _); [|exact Q]. destruct Q as [Q1 Q2]. split; [exact Q1|]. cbn in Q2. lia. }
  unfold possessive_m. destruct (loopN mx (poss_step M mn) (0%N, s_end s, s)) as [[[k z] t]|[t|o]].
  - left. exists t. destruct L as [(L1 & L2 & L3) L4]. cbn in *. split; [reflexivity|]. split; [exact L1|]. intros _. apply L3. lia.
  - left. exists t. split; [reflexivity|]. exact L.
  - right. exists o. split; [reflexivity|]. exact L.
Qed.
Lemma cspec_fin M D pv cl gc ge p g b : cspec M D pv true cl gc ge -> cl = true -> i <= p <= r -> length g = G ->
  prevok pre0 w pv a p -> Fin (M (mk a p g b)).
Proof. clear Hend P.
  intros H Hc B L Hp s1 E A.
  specialize (H a p g b ltac:(lia) L (or_intror eq_refl) ltac:(unfold EngineOk.at_ in *; lia) Hp). unfold res in H.
  destruct (hd_error (D (p, []))) as [[j d]|].
  - destruct H as (g' & E' & _). rewrite E' in E. injection E as <-. discriminate.
  - destruct H as (j & g' & E' & _ & Lg & X & _). rewrite E' in E. injection E as <-. rewrite (X Hc). exists p, g', false. auto.
Qed.
Lemma scan_keep M : keeps M -> forall k it s, Inv s -> (at_ i <= it - Z.of_nat k + 1)%Z -> (it < at_ r)%Z ->
  forall s1, back_scan e M k it s = Ok s1 -> Inv s1.
Proof. clear Hend P.
  intros K. induction k as [|k IH]; intros it s Is H1 H2 s1 E; cbn in E.
  - injection E as <-. exact Is.
  - assert (Is' : Inv (set_end it s)) by (apply Inv_end; [assumption|lia]).
    specialize (K (set_end it s)). destruct (M (set_end it s)) as [t|]; [|discriminate]. specialize (K t Is' eq_refl). cbn in E.
    destruct (s_acc t).
    + injection E as <-. apply Inv_end; [assumption|lia].
    + destruct (ptr_ok e (it - 1)); [|discriminate]. eapply IH; [exact K| | |exact E]; lia.
Qed.
Lemma back_keep M st0 s s1 : keeps M -> Inv s -> (at_ i <= st0)%Z -> back_for e M st0 s = Ok s1 -> Inv s1.
Proof. clear Hend P.
  intros K Is H E. unfold back_for in E. destruct (ptr_ok e (s_end s - 1)); [|discriminate].
  pose proof (Inv_bound _ Is). destruct (Z.leb_spec (s_end s) st0) as [X|X].
  - replace (Z.to_nat (s_end s - st0)) with 0 in E by lia. cbn in E. injection E as <-. exact Is.
  - eapply (scan_keep M K); [exact Is| | |exact E]; lia.
Qed.
Lemma greedy_keep M mn mx B R : keeps M -> keepf B -> keepf R -> keepf (greedy_gen e M mn mx B R).
Proof. clear Hend P.
  intros K KB KR s Is. unfold greedy_gen. pose proof (reps_keep M mn s K Is) as X.
  destruct (reps mn M s) as [s0|o]; [|exact X].
  assert (FIN : forall x : N * st, Inv (snd x) ->
    Fin match loopN (fst x - mn) (bt_step e M B (s_end s0)) (snd x) with inr o => o | inl s2 => R (set_acc true s2) end).
  { intros [k t] It. cbn [fst snd] in *.
    assert (L : match loopN (k - mn) (bt_step e M B (s_end s0)) t with inl x => Inv x | inr b => Fin b end).
    { apply loopN_inv; [|exact It]. clear t It. intros t It. unfold bt_step. pose proof (KB t It) as KB'.
      destruct (B t) as [t1|]; [|discriminate].
      destruct (s_acc t1) eqn:A; [intros z [= <-]; congruence|]. specialize (KB' t1 eq_refl A).
      pose proof (back_keep M (s_end s0) t1) as BK. destruct (back_for e M (s_end s0) t1) as [t2|]; [|discriminate].
      apply BK; auto. now apply Inv_bound. }
    destruct (loopN _ _ t) as [t1|o]; [|exact L]. apply KR. now apply Inv_acc. }
  assert (L : match loopN (mx - mn) (greedy_step M) (mn, s0) with inl x => Inv (snd x) | inr (Some x) => Inv (snd x) | inr None => True end).
  { set (I2 := fun x : N * st => Inv (snd x)). set (J := fun x : option (N * st) => match x with Some y => Inv (snd y) | None => True end).
    apply (loopN_inv I2 J); [|exact X]. intros [k t] It. unfold I2, J, greedy_step in *. cbn in *.
    specialize (K t). destruct (M t) as [t1|]; [|exact I]. specialize (K t1 It eq_refl). destruct (s_acc t1); cbn; [exact K|].
    now apply Inv_acc. }
  destruct (loopN _ _ (mn, s0)) as [x|[x|]]; [now apply FIN|now apply FIN|discriminate].
Qed.
Definition grpok (M : clo) : Prop := forall s s1, Inv s -> M s = Ok s1 -> s_start s1 = a /\ length (s_grp s1) = G.
Lemma look_keep rest K : grpok K -> keepf (greedy_bt false rest [K]).
Proof. clear Hend P.
  intros H s Is s1 E A. unfold greedy_bt in E. cbn [dfs0] in E. specialize (H s). destruct (K s) as [t|]; [|discriminate].
  destruct (H t Is eq_refl) as [H1 H2]. injection E as <-.
  destruct Is as (p & g & b & -> & B & L). exists p, (s_grp t), (s_acc t). conj; auto; try lia.
  unfold EngineOk.mk, set_end. cbn. now rewrite H1.
Qed.
Lemma cspec_grpok M D ac cl gc ge : cspec M D PAny ac cl gc ge -> ac = true -> grpok M.
Proof. clear Hend P.
  intros H -> s s1 (p & g & b & -> & B & L) E.
  specialize (H a p g b ltac:(lia) L (or_intror eq_refl) ltac:(unfold EngineOk.at_ in *; lia) I). unfold res in H.
  destruct (hd_error (D (p, []))) as [[j d]|].
  - destruct H as (g' & E' & X & _). rewrite E' in E. injection E as <-. split; [reflexivity|exact X].
  - destruct H as (j & g' & E' & _ & Lg & X & _). rewrite E' in E. injection E as <-. split; [reflexivity|exact Lg].
Qed.
Lemma lazy_keep M mn mx R : keeps M -> keepf R ->
  forall s, Inv s -> s_end s = at_ i -> Fin (lazy_m e M mn mx true R [] s).
Proof. clear Hend P.
  intros K KR s Is E0. unfold lazy_m. pose proof (reps_keep M mn s K Is) as X.
  destruct (reps mn M s) as [s0|o]; [|exact X]. rewrite E0.
  set (J := fun x : st + out => match x with inl s => Inv s | inr o => Fin o end).
  assert (L : match loopN (mx - mn) (lazy_step e M true R [] (at_ i)) s0 with inl x => Inv x | inr b => J b end).
  { apply loopN_inv; [|exact X]. intros t It. unfold lazy_step. destruct (negb _); [exact It|].
    pose proof (KR t It) as KR'. destruct (R t) as [t1|]; [|discriminate].
    destruct (s_acc t1) eqn:A; [intros z [= <-]; congruence|]. specialize (KR' t1 eq_refl A).
    specialize (K t1). destruct (M t1) as [t2|]; [|discriminate]. specialize (K t2 KR' eq_refl).
    destruct (s_acc t2); [exact K|]. intros z [= <-] _. apply Inv_end; [exact K|]. unfold EngineOk.at_. lia. }
  destruct (loopN _ _ s0) as [t|[t|o]]; cbn in L; [now apply KR|now apply KR|exact L].
Qed.
Lemma lazy_look_keep M mn mx K rest : keeps M -> grpok K -> (forall s, rest s = Ok s) ->
  forall s s1, Inv s -> s_end s = at_ i -> lazy_m e M mn mx false rest [K] s = Ok s1 -> Inv s1.
Proof. clear Hend P.
  intros KM KK HR s s1 Is E0. unfold lazy_m.
  assert (X : match reps mn M s with inl s1 => Inv s1 | inr o => forall z, o = Ok z -> Inv z end).
  { unfold reps. apply (loopN_inv Inv (fun o => forall z, o = Ok z -> Inv z)); [|exact Is]. intros t It. unfold req_step.
    specialize (KM t). destruct (M t) as [t1|]; [|discriminate]. specialize (KM t1 It eq_refl).
    destruct (s_acc t1); [exact KM|]. intros t2 [= <-]. exact KM. }
  destruct (reps mn M s) as [s0|o]; [|intro E; now apply X]. rewrite E0.
  set (J := fun x : st + out => match x with inl s => Inv s | inr o => forall z, o = Ok z -> Inv z end).
  assert (L : match loopN (mx - mn) (lazy_step e M false rest [K] (at_ i)) s0 with inl x => Inv x | inr b => J b end).
  { apply loopN_inv; [|exact X]. intros t It. unfold lazy_step. destruct (negb _); [exact It|].
    cbn [dfs0]. specialize (KK t). destruct (K t) as [t1|]; [|discriminate]. destruct (KK t1 It eq_refl) as [H1 H2].
    assert (It1 : Inv (set_end (s_end t) t1)).
    { destruct It as (p & g & b & -> & B & L). exists p, (s_grp t1), (s_acc t1). conj; auto; try lia.
      unfold EngineOk.mk, set_end. cbn. now rewrite H1. }
    destruct (s_acc (set_end (s_end t) t1)) eqn:A; [exact It1|].
    specialize (KM (set_end (s_end t) t1)). destruct (M (set_end (s_end t) t1)) as [t2|]; [|discriminate]. specialize (KM t2 It1 eq_refl).
    destruct (s_acc t2); [exact KM|]. intros z [= <-]. apply Inv_end; [exact KM|]. unfold EngineOk.at_. lia. }
  destruct (loopN _ _ s0) as [t|[t|o]]; cbn in L; rewrite ?HR.
  - intros [= <-]. exact L.
  - intros [= <-]. exact L.
  - apply L.
Qed.
Lemma group_keep M k R : (forall s, Inv s -> s_end s = at_ i -> forall s1, M s = Ok s1 -> Inv s1) -> keepf R -> k < G ->
  forall s, Inv s -> s_end s = at_ i -> Fin (group_m M k R s).
Proof. clear Hend P.
  intros KM KR Hk s Is E0. unfold group_m. specialize (KM s Is E0). destruct (M s) as [s1|]; [|discriminate].
  specialize (KM s1 eq_refl). cbn [bind]. destruct (s_acc s1) eqn:A.
  - destruct KM as (p & g & b & -> & B & L). rewrite E0. change (s_end (mk a p g b)) with (at_ p).
    rewrite set_group_ok by (cbn; lia). cbn [bind]. apply KR.
    exists p, (upd1 pre0 k (i, p) g), b. conj; auto; try lia. now rewrite upd1_length.
  - intros s2 [= <-] _. exact KM.
Qed.
Lemma greedy_look_keep M mn mx B : keeps M -> keepf B -> (forall s s1, Inv s -> B s = Ok s1 -> Inv s1) ->
  forall s s1, Inv s -> greedy_gen e M mn mx B (fun s => Ok s) s = Ok s1 -> Inv s1.
Proof. clear Hend P.
  intros K KB KB2 s s1 Is. unfold greedy_gen.
  assert (X : match reps mn M s with inl s1 => Inv s1 | inr o => forall z, o = Ok z -> Inv z end).
  { unfold reps. apply (loopN_inv Inv (fun o => forall z, o = Ok z -> Inv z)); [|exact Is]. intros t It. unfold req_step.
    specialize (K t). destruct (M t) as [t1|]; [|discriminate]. specialize (K t1 It eq_refl).
    destruct (s_acc t1); [exact K|]. intros t2 [= <-]. exact K. }
  destruct (reps mn M s) as [s0|o]; [|intro E; now apply X].
  assert (FIN : forall x : N * st, Inv (snd x) ->
    forall z, match loopN (fst x - mn) (bt_step e M B (s_end s0)) (snd x) with inr o => o | inl s2 => Ok (set_acc true s2) end = Ok z -> Inv z).
  { intros [k t] It. cbn [fst snd] in *.
    assert (L : match loopN (k - mn) (bt_step e M B (s_end s0)) t with inl x => Inv x | inr b => forall z, b = Ok z -> Inv z end).
    { apply (loopN_inv Inv (fun o => forall z, o = Ok z -> Inv z)); [|exact It]. clear t It. intros t It. unfold bt_step. pose proof (KB2 t) as KB'.
      destruct (B t) as [t1|]; [|discriminate]. specialize (KB' t1 It eq_refl).
      destruct (s_acc t1) eqn:A; [intros z [= <-]; exact KB'|].
      pose proof (back_keep M (s_end s0) t1) as BK. destruct (back_for e M (s_end s0) t1) as [t2|]; [|discriminate].
      apply BK; auto. now apply Inv_bound. }
    destruct (loopN _ _ t) as [t1|o]; [|exact L]. intros z [= <-]. now apply Inv_acc. }
  assert (L : match loopN (mx - mn) (greedy_step M) (mn, s0) with inl x => Inv (snd x) | inr (Some x) => Inv (snd x) | inr None => True end).
  { set (I2 := fun x : N * st => Inv (snd x)). set (J := fun x : option (N * st) => match x with Some y => Inv (snd y) | None => True end).
    apply (loopN_inv I2 J); [|exact X]. intros [k t] It. unfold I2, J, greedy_step in *. cbn in *.
    specialize (K t). destruct (M t) as [t1|]; [|exact I]. specialize (K t1 It eq_refl). destruct (s_acc t1); cbn; [exact K|].
    now apply Inv_acc. }
  destruct (loopN _ _ (mn, s0)) as [x|[x|]]; [now apply FIN|now apply FIN|discriminate].
Qed.
Lemma look_keep2 rest K : grpok K -> forall s s1, Inv s -> greedy_bt false rest [K] s = Ok s1 -> Inv s1.
Proof. clear Hend P.
  intros H s s1 Is E. unfold greedy_bt in E. cbn [dfs0] in E. specialize (H s). destruct (K s) as [t|]; [|discriminate].
  destruct (H t Is eq_refl) as [H1 H2]. injection E as <-.
  destruct Is as (p & g & b & -> & B & L). exists p, (s_grp t), (s_acc t). conj; auto; try lia.
  unfold EngineOk.mk, set_end. cbn. now rewrite H1.
Qed.
End Inv.

(** ** Matches inside a run *)
Definition allhp (P : Z -> bool) (i r : nat) : Prop := forall q, i <= q < r -> hp P q = true.
Lemma run_end P i : i <= length w -> exists r, i <= r <= length w /\ allhp P i r /\ hp P r = false.
Proof.
  intro H. remember (length w - i) as m eqn:E. revert i H E. induction m as [|m IH]; intros i H E.
  - exists i. conj; try lia; [intros q Hq; lia|]. destruct (hp P i) eqn:X; [apply hp_lt in X; lia|reflexivity].
  - destruct (hp P i) eqn:X.
    + destruct (IH (S i) ltac:(lia) ltac:(lia)) as (r & A & B & C). exists r. conj; auto; try lia.
      intros q Hq. destruct (Nat.eq_dec q i) as [->|]; [assumption|]. apply B. lia.
    + exists i. conj; auto; try lia. intros q Hq; lia.
Qed.
Section Sem.
Variables (P : Z -> bool) (i r : nat).
Hypothesis Hr : i <= r <= length w.
Hypothesis Hall : allhp P i r.
Hypothesis Hend : hp P r = false.
Lemma chr_run p l : i <= p <= r -> chr_o w P (p, l) = if p <? r then [(S p, l)] else [].
Proof.
  intro H. rewrite chr_hp. destruct (Nat.ltb_spec p r) as [L|L].
  - now rewrite Hall by lia.
  - replace p with r by lia. now rewrite Hend.
Qed.
Lemma pow_run k : forall p l, i <= p <= r -> pow_o k (chr_o w P) (p, l) = if p + k <=? r then [(p + k, l)] else [].
Proof.
  induction k as [|k IH]; intros p l H; cbn [pow_o].
  - unfold eps_o. rewrite Nat.add_0_r. destruct (Nat.leb_spec p r); [reflexivity|lia].
  - unfold seq_o. rewrite chr_run by assumption. destruct (Nat.ltb_spec p r) as [L|L].
    + cbn [flat_map]. rewrite IH by lia. replace (S p + k) with (p + S k) by lia. now rewrite app_nil_r.
    + destruct (Nat.leb_spec (p + S k) r); [lia|reflexivity].
Qed.
Lemma progress_S p l : progress (p, l) [(S p, l)] = [(S p, l)].
Proof. unfold progress. cbn [filter fst]. destruct (Nat.eqb_spec (S p) p); [lia|reflexivity]. Qed.
Lemma most_run k : forall p x, i <= p <= r -> r - p < k ->
  (In x (most_o k (chr_o w P) (p, [])) <-> snd x = [] /\ p <= fst x <= r) /\ hd_error (most_o k (chr_o w P) (p, [])) = Some (r, []).
Proof.
  induction k as [|k IH]; intros p x H L; [lia|]. cbn [most_o]. rewrite chr_run by assumption. destruct (Nat.ltb_spec p r) as [X|X].
  - rewrite progress_S. cbn [flat_map]. rewrite app_nil_r. destruct (IH (S p) x ltac:(lia) ltac:(lia)) as [A B]. split.
    + rewrite in_app_iff, A. cbn [In]. destruct x as [q l]. cbn. split.
      * intros [[-> Y]|[[= <- <-]|[]]]; split; try reflexivity; lia.
      * intros [-> Y]. destruct (Nat.eq_dec p q) as [->|]; [auto|left]. split; [reflexivity|lia].
    + now rewrite hd_app, B.
  - cbn. destruct x as [q l]. cbn. replace p with r by lia. split; [|reflexivity]. split.
    + intros [[= <- <-]|[]]. split; [reflexivity|lia].
    + intros [-> Y]. left. f_equal. lia.
Qed.
Lemma least_run k : forall p x, i <= p <= r -> r - p < k ->
  (In x (least_o k (chr_o w P) (p, [])) <-> snd x = [] /\ p <= fst x <= r).
Proof.
  induction k as [|k IH]; intros p x H L; [lia|]. cbn [least_o]. rewrite chr_run by assumption. destruct (Nat.ltb_spec p r) as [X|X].
  - rewrite progress_S. cbn [flat_map]. rewrite app_nil_r. specialize (IH (S p) x ltac:(lia) ltac:(lia)).
    cbn [In]. rewrite IH. destruct x as [q l]. cbn. split.
      * intros [[= <- <-]|[-> Y]]; split; try reflexivity; lia.
      * intros [-> Y]. destruct (Nat.eq_dec p q) as [->|]; [auto|right]. split; [reflexivity|lia].
  - cbn. destruct x as [q l]. cbn. replace p with r by lia. split.
    + intros [[= <- <-]|[]]. split; [reflexivity|lia].
    + intros [-> Y]. left. f_equal. lia.
Qed.
Lemma in_rep g mn p x : i <= p <= r -> (N.to_nat mn <= r - p ->
  (In x (rep_o w g mn None (chr_o w P) (p, [])) <-> snd x = [] /\ p + N.to_nat mn <= fst x <= r /\ (g = Po -> fst x = r)))
  /\ (r - p < N.to_nat mn -> rep_o w g mn None (chr_o w P) (p, []) = []).
Proof.
  intro H. assert (X : forall b, seq_o (pow_o (N.to_nat mn) (chr_o w P)) b (p, []) = if p + N.to_nat mn <=? r then b (p + N.to_nat mn, []) else []).
  { intro b. unfold seq_o. rewrite pow_run by assumption. destruct (_ <=? _); [|reflexivity]. cbn. apply app_nil_r. }
  assert (Y : extra w mn None = S (length w)) by reflexivity.
  destruct g; cbn [rep_o]; unfold atomic_o; rewrite ?X, Y; split; intro L; destruct (Nat.leb_spec (p + N.to_nat mn) r) as [Z|Z]; try lia; auto.
  - rewrite (proj1 (most_run (S (length w)) (p + N.to_nat mn) x ltac:(lia) ltac:(lia))). intuition congruence.
  - rewrite (least_run (S (length w)) (p + N.to_nat mn) x ltac:(lia) ltac:(lia)). intuition congruence.
  - pose proof (proj2 (most_run (S (length w)) (p + N.to_nat mn) x ltac:(lia) ltac:(lia))) as B.
    destruct (most_o _ _ _) as [|y l]; [discriminate|]. injection B as ->. cbn. destruct x as [q d]. cbn. split.
    + intros [[= <- <-]|[]]. conj; auto; apply Hr.
    + intros (-> & A & C). left. rewrite C by reflexivity. reflexivity.
Qed.
Lemma seq_nil (A B : outs) c : seq_o A B c = [] <-> forall x, In x (A c) -> B x = [].
Proof.
  unfold seq_o. induction (A c) as [|y l IH]; cbn; [split; [intros _ x []|reflexivity]|].
  split.
  - intro E. apply app_eq_nil in E as [E1 E2]. intros x [<-|Hx]; [assumption|]. now apply IH.
  - intro E. rewrite E by now left. cbn. apply IH. intros; apply E; now right.
Qed.
Lemma log_nil K j l : logp K -> K (j, l) = [] <-> K (j, []) = [].
Proof.
  intro LK. change (j, l) with (shift l (j, [])). rewrite (logp_shift _ _ _ LK). destruct (K (j, [])); cbn; split; congruence.
Qed.
Lemma skip_plain g mn K p : i <= p <= r ->
  seq_o (rep_o w g mn None (chr_o w P)) K (i, []) = [] -> seq_o (rep_o w g mn None (chr_o w P)) K (p, []) = [].
Proof.
  intros H E. rewrite seq_nil in *. intros [q l] Hx.
  destruct (in_rep g mn p (q, l) H) as [A1 A2]. destruct (in_rep g mn i (q, l) ltac:(lia)) as [B1 B2].
  destruct (Nat.leb_spec (N.to_nat mn) (r - p)) as [L|L].
  - rewrite (A1 L) in Hx. apply E. apply (B1 ltac:(lia)). cbn in *. destruct Hx as (-> & C & D). conj; auto; lia.
  - rewrite (A2 L) in Hx. destruct Hx.
Qed.
Lemma skip_cap g mn K k p : logp K -> i <= p <= r ->
  seq_o (cap_o k (rep_o w g mn None (chr_o w P))) K (i, []) = [] -> seq_o (cap_o k (rep_o w g mn None (chr_o w P))) K (p, []) = [].
Proof.
  intros LK H.
  assert (X : forall q, seq_o (cap_o k (rep_o w g mn None (chr_o w P))) K (q, []) = [] <-> seq_o (rep_o w g mn None (chr_o w P)) K (q, []) = []).
  { intro q. rewrite !seq_nil. unfold cap_o. split.
    - intros E [j l] Hx. rewrite log_nil by assumption. rewrite <- (log_nil K j ((k, (q, j)) :: l)) by assumption.
      apply E. apply (in_map (fun c' : nat * list (nat * (nat * nat)) => (fst c', (k, (fst (q, @nil nat), fst c')) :: snd c'))) in Hx. exact Hx.
    - intros E [j l] Hx. apply in_map_iff in Hx as ([j' l'] & [= <- <-] & Hx). rewrite log_nil by assumption.
      rewrite <- (log_nil K j' l') by assumption. now apply E. }
  rewrite !X. now apply skip_plain.
Qed.
End Sem.

(** ** A failed run skips only positions without a match *)
Variable Ed : bool.
Hypothesis HE : Ed = true -> exists c p, post = c :: p /\ c <> c_nl.
Hypothesis Hw : Forall (fun c => (-128 <= c <= 127)%Z) w.
Hypothesis Hlen : (N.of_nat (length w) < UMAX)%N.
Notation kids cs := (map (fun c i => mt e c i) cs).
Definition kidgood (cs : list node) (pv : prev) (inj : list clo) : Prop :=
  match cs with [] => True | [c] => good G Ed c pv = true /\ (inj = [] \/ noinj c = true) | _ => False end.
Lemma kid_fin a i r cs pv inj p g b : i <= r <= length w -> (a <= at_ i)%Z -> runkid cs pv = true -> kidgood cs pv inj ->
  i <= p <= r -> length g = G -> prevok pre0 w pv a p -> Fin a i r (dfs (kids cs) inj (mk a p g b)).
Proof.
  intros Hr Ha K Kg B L Pv. destruct cs as [|c [|]]; [| |destruct Kg].
  - cbn. intros s [= <-] _. exists p, g, b. auto.
  - cbn [map dfs]. cbn in K. apply andb_true_iff in K as [K1 K2]. destruct Kg as [K3 K4].
    assert (X : forall s, mt e c inj s = mt e c [] s) by (intro s; destruct K4 as [->|K4]; [reflexivity|now apply noinj_ok]).
    rewrite X. pose proof (mt_good pre0 w post G Ed HE Hw Hlen c pv K3) as M. unfold nspec in M. rewrite K2, K1 in M.
    eapply cspec_fin; eauto.
Qed.
Lemma poss_prev x P mn mx i r a p : uset x = Some P -> allhp P i r -> i <= p <= r -> (mn <> 0%N -> i < p) ->
  prevok pre0 w (lastp (Possessive x mn mx []) PFst) a p.
Proof.
  intros U A B C. unfold lastp. cbn [uset]. rewrite U. destruct (N.eqb_spec mn 0) as [E|E]; [exact I|].
  specialize (C E). exists (p - 1).
  assert (H : hp P (p - 1) = true) by (apply A; lia). unfold EngineOk.hp in H. destruct (nth_error w (p - 1)) as [y|]; [|discriminate].
  exists y. conj; auto; lia.
Qed.
Lemma item_ok x mx : run_item x mx = true -> good G Ed x PAny = true ->
  exists P, uset x = Some P /\ ustep (mt e x []) P /\ mx = UMAX /\ eqv (den w x) (chr_o w P) /\ (forall inj s, mt e x inj s = mt e x [] s).
Proof.
  unfold run_item. rewrite !andb_true_iff. intros [[[[A B] C] NI] D] E. destruct (uset x) as [P|] eqn:U; [|discriminate].
  exists P. split; [reflexivity|]. split.
  - eapply (uset_step pre0 w post G x P U); auto. apply (mt_good pre0 w post G Ed HE); auto.
  - split; [now apply N.eqb_eq|]. split; [|intros; now apply noinj_ok]. apply unit_eqv. now apply uset_den.
Qed.
Definition skips (n : node) : Prop := forall i g b s1, i <= length w -> length g = G ->
  mt e n [] (mk (at_ i) i g b) = Ok s1 -> s_acc s1 = false ->
  exists j g', s1 = mk (at_ i) j g' false /\ i <= j <= length w /\ length g' = G
    /\ (den w n (i, []) = [] -> forall p, i <= p <= j -> den w n (p, []) = []).
Lemma fin_skips n x P g mn (K : outs) : uset x = Some P -> 
  (eqv (den w n) (seq_o (rep_o w g mn None (chr_o w P)) K) \/ exists k, logp K /\ eqv (den w n) (seq_o (cap_o k (rep_o w g mn None (chr_o w P))) K)) ->
  (forall i r gg b, i <= r <= length w -> allhp P i r -> hp P r = false -> length gg = G ->
     Fin (at_ i) i r (mt e n [] (mk (at_ i) i gg b))) ->
  skips n.
Proof.
  intros U D F i gg b s1 Hi Hg E A. destruct (run_end P i Hi) as (r & R1 & R2 & R3).
  destruct (F i r gg b R1 R2 R3 Hg s1 E A) as (j & g' & b' & -> & B & L). cbn in A. subst b'.
  exists j, g'. conj; auto; try lia. intros Em p Hp. destruct D as [D|(k & LK & D)].
  - eapply eqv_nil; [apply eqv_sym, D|]. eapply (skip_plain P i r); eauto; try lia. eapply eqv_nil; [exact D|exact Em].
  - eapply eqv_nil; [apply eqv_sym, D|]. eapply (skip_cap P i r); eauto; try lia. eapply eqv_nil; [exact D|exact Em].
Qed.
Lemma rep_eqv x P g mn : eqv (den w x) (chr_o w P) -> eqv (rep_o w g mn (mx_opt UMAX) (den w x)) (rep_o w g mn None (chr_o w P)).
Proof. intro H. change (mx_opt UMAX) with (@None N). now apply eqv_rep. Qed.
Lemma dfs_kid_nil cs pv i a r : i <= r <= length w -> (a <= at_ i)%Z -> runkid cs pv = true -> kidgood cs pv [] ->
  (forall p, i <= p <= r -> prevok pre0 w pv a p) -> keepf a i r (dfs (kids cs) []).
Proof.
  intros Hr Ha K Kg Hp s (p & g & b & -> & B & L). eapply kid_fin; eauto.
Qed.
Lemma run_skip n : good G Ed n PFst = true -> runroot n = true -> skips n.
Proof.
  induction n as [t|cs H|n cs IHn H|x mn mx cs IHx H|x mn mx cs IHx H|x mn mx cs IHx H|n k cs IHn H|m k cs IHm H|n IHn] using node_ind';
    intros Gd R; try (exfalso; discriminate).
  - (* SimpleV *)
    destruct cs as [|c [|]]; try (exfalso; discriminate). inversion H as [|? ? Hc _]; subst. cbn in Gd. rewrite !andb_true_r in Gd.
    specialize (Hc Gd R). exact Hc.
  - (* Greedy *)
    cbn [runroot] in R. rewrite !andb_true_iff in R. destruct R as [[R1 R2] R3].
    destruct cs as [|c [|]]; try (exfalso; discriminate). cbn [good] in Gd. rewrite !andb_true_iff in Gd.
    destruct Gd as [[[[[[G0 G1] G2] G3] G4] G5] G6].
    destruct (item_ok x mx R1 G1) as (P & U & US & -> & EV & _).
    apply (fin_skips _ x P Gr mn (kidso (map (den w) [c])) U).
    + left. cbn [den]. apply eqv_seq; [now apply rep_eqv|apply eqv_refl].
    + intros i r gg b Hr Hall Hend Hg.
      assert (MT : mt e (Greedy x mn UMAX [c]) [] = greedy_gen e (mt e x []) mn UMAX (dfs (kids [c]) []) (dfs (kids [c]) [])).
      { cbn [mt]. unfold greedy_m. cbn [nonempty]. change (N.eqb UMAX 1) with false. rewrite andb_false_r. cbn [andb]. reflexivity. }
      rewrite MT.
      assert (KK : keepf (at_ i) i r (dfs (kids [c]) [])).
      { apply (dfs_kid_nil [c] PAny i (at_ i) r Hr (Z.le_refl _) R3); [split; [assumption|now left]|intros; exact I]. }
      apply (greedy_keep (at_ i) i r Hr); [|exact KK|exact KK|].
      * apply (ustep_keeps P (at_ i) i r Hr (Z.le_refl _) Hend _ US).
      * exists i, gg, b. conj; auto; apply Hr.
  - (* Lazy *)
    cbn [runroot] in R. rewrite !andb_true_iff in R. destruct R as [[R1 R2] R3].
    destruct cs as [|c [|]]; try (exfalso; discriminate). cbn [good] in Gd. rewrite !andb_true_iff in Gd.
    destruct Gd as [[[[[G1 G2] G3] G4] G5] G6].
    destruct (item_ok x mx R1 G1) as (P & U & US & -> & EV & _).
    apply (fin_skips _ x P Lz mn (kidso (map (den w) [c])) U).
    + left. cbn [den]. apply eqv_seq; [now apply rep_eqv|apply eqv_refl].
    + intros i r gg b Hr Hall Hend Hg.
      change (mt e (Lazy x mn UMAX [c]) []) with (lazy_m e (mt e x []) mn UMAX true (dfs (kids [c]) []) []).
      assert (KK : keepf (at_ i) i r (dfs (kids [c]) [])).
      { apply (dfs_kid_nil [c] PAny i (at_ i) r Hr (Z.le_refl _) R3); [split; [assumption|now left]|intros; exact I]. }
      apply (lazy_keep (at_ i) i r Hr); [|exact KK| |reflexivity].
      * apply (ustep_keeps P (at_ i) i r Hr (Z.le_refl _) Hend _ US).
      * exists i, gg, b. conj; auto; apply Hr.
  - (* Possessive *)
    cbn [runroot] in R. rewrite !andb_true_iff in R. destruct R as [R1 R2].
    cbn [good] in Gd. rewrite !andb_true_iff in Gd. destruct Gd as [[[[G1 G2] G3] G4] G5].
    destruct (item_ok x mx R1 G1) as (P & U & US & -> & EV & _).
    apply (fin_skips _ x P Po mn (kidso (map (den w) cs)) U).
    + left. cbn [den]. apply eqv_seq; [now apply rep_eqv|apply eqv_refl].
    + intros i r gg b Hr Hall Hend Hg.
      change (mt e (Possessive x mn UMAX cs) []) with (possessive_m (mt e x []) mn UMAX (dfs (kids cs) [])).
      assert (I0 : Inv (at_ i) i r (mk (at_ i) i gg b)) by (exists i, gg, b; conj; auto; apply Hr).
      assert (HMX : (mn <= UMAX)%N) by (apply N.leb_le; assumption).
      destruct (poss_form P (at_ i) i r Hr (Z.le_refl _) Hend (mt e x []) mn UMAX US ltac:(discriminate) HMX _ I0 eq_refl)
        as [(t & E & It & Ht)|(o & E & Ho)]; rewrite E.
      * destruct It as (p & g & b' & -> & B & L). eapply kid_fin; eauto using Z.le_refl.
        -- destruct cs as [|c [|]]; cbn; auto. discriminate.
        -- eapply poss_prev; eauto. intro Z. specialize (Ht Z). unfold EngineOk.mk, EngineOk.at_ in Ht. cbn in Ht. lia.
      * intros s Es _. now apply Ho.
  - (* Group *)
    assert (HG : k < G) by (cbn [good] in Gd; apply andb_true_iff in Gd as [Gd _]; now apply Nat.ltb_lt).
    destruct m as [| | |x mn mx kc|x mn mx kc|x mn mx kc| | |]; try discriminate; destruct kc; try discriminate; cbn [runroot] in R.
    + (* greedy *)
      rewrite !andb_true_iff in R. destruct R as [[R1 R2] R3].
      destruct cs as [|c [|]]; try (exfalso; discriminate). cbn [good] in Gd. rewrite !andb_true_iff in Gd.
      destruct Gd as [G0 [G01 [[[[[[G1 G2] G3] G4] G5] G6] G7]]].
      destruct (item_ok x mx R1 G2) as (P & U & US & -> & EV & _).
      apply (fin_skips _ x P Gr mn (kidso (map (den w) [c])) U).
      * right. exists k. split; [apply kids_log|]. cbn [den].
        apply eqv_seq; [|apply eqv_refl]. apply eqv_cap. eapply eqv_trans; [apply eqv_ext; intro; apply seq_eps_r|]. now apply rep_eqv.
      * intros i r gg b Hr Hall Hend Hg.
        assert (MT : mt e (Group (Greedy x mn UMAX []) k [c]) [] =
          group_m (greedy_gen e (mt e x []) mn UMAX (greedy_bt false (fun s => Ok s) [mt e c []]) (fun s => Ok s)) k (dfs (kids [c]) ([mt e c []] ++ []))).
        { cbn [mt]. unfold greedy_m. cbn [nonempty]. change (N.eqb UMAX 1) with false. rewrite andb_false_r. cbn [andb]. reflexivity. }
        rewrite MT.
        assert (Ac : accins c = true) by (cbn in R3; apply andb_true_iff in R3; tauto).
        assert (GO : grpok (at_ i) i r (mt e c [])).
        { eapply cspec_grpok; [exact Hr|apply Z.le_refl| |]. apply (mt_good pre0 w post G Ed HE Hw Hlen c PAny). exact G5. exact Ac. }
        apply (group_keep (at_ i) i r Hr); [| |exact HG| |reflexivity].
        -- intros s Is Es s1 E. eapply greedy_look_keep; [exact Hr| | | |exact Is|exact E].
           ++ apply (ustep_keeps P (at_ i) i r Hr (Z.le_refl _) Hend _ US).
           ++ apply look_keep; auto.
           ++ now apply look_keep2.
        -- intros s (p & g & b' & -> & B & L). eapply kid_fin; eauto using Z.le_refl. cbn. auto. exact I.
        -- exists i, gg, b. conj; auto; apply Hr.
    + (* lazy *)
      rewrite !andb_true_iff in R. destruct R as [[R1 R2] R3].
      destruct cs as [|c [|]]; try (exfalso; discriminate). cbn [good] in Gd. rewrite !andb_true_iff in Gd.
      destruct Gd as [G0 [G01 [[[[G1 G2] G3] G4] G5]]].
      destruct (item_ok x mx R1 G1) as (P & U & US & -> & EV & _).
      apply (fin_skips _ x P Lz mn (kidso (map (den w) [c])) U).
      * right. exists k. split; [apply kids_log|]. cbn [den].
        apply eqv_seq; [|apply eqv_refl]. apply eqv_cap. eapply eqv_trans; [apply eqv_ext; intro; apply seq_eps_r|]. now apply rep_eqv.
      * intros i r gg b Hr Hall Hend Hg.
        change (mt e (Group (Lazy x mn UMAX []) k [c]) []) with
          (group_m (lazy_m e (mt e x []) mn UMAX false (fun s => Ok s) [mt e c []]) k (dfs (kids [c]) ([mt e c []] ++ []))).
        assert (Ac : accins c = true) by (cbn in R3; apply andb_true_iff in R3; tauto).
        assert (GO : grpok (at_ i) i r (mt e c [])).
        { eapply cspec_grpok; [exact Hr|apply Z.le_refl| |]. apply (mt_good pre0 w post G Ed HE Hw Hlen c PAny). exact G5. exact Ac. }
        apply (group_keep (at_ i) i r Hr); [| |exact HG| |reflexivity].
        -- intros s Is Es s1 E. eapply lazy_look_keep; [exact Hr| | | |exact Is|exact Es|exact E]; auto.
           apply (ustep_keeps P (at_ i) i r Hr (Z.le_refl _) Hend _ US).
        -- intros s (p & g & b' & -> & B & L). eapply kid_fin; eauto using Z.le_refl. cbn. auto. exact I.
        -- exists i, gg, b. conj; auto; apply Hr.
    + (* possessive *)
      rewrite !andb_true_iff in R. destruct R as [R1 R2].
      assert (Gx : good G Ed (Possessive x mn mx []) PFst = true /\ kidgood cs (lastp (Possessive x mn mx []) PFst) (map (fun c => mt e c []) cs ++ [])).
      { cbn [good] in Gd. destruct cs as [|c [|]].
        - rewrite !andb_true_iff in Gd. cbn [good kidgood]. rewrite !andb_true_iff. tauto.
        - cbn [kidgood]. rewrite !andb_true_iff in Gd. cbn [good]. rewrite !andb_true_iff. tauto.
        - rewrite andb_false_r in Gd. discriminate. }
      destruct Gx as [Gx Kg]. cbn [good] in Gx. rewrite !andb_true_iff in Gx. destruct Gx as [[[[G1 G2] G3] G4] _].
      destruct (item_ok x mx R1 G1) as (P & U & US & -> & EV & NI).
      apply (fin_skips _ x P Po mn (kidso (map (den w) cs)) U).
      * right. exists k. split; [apply kids_log|]. cbn [den].
        apply eqv_seq; [|apply eqv_refl]. apply eqv_cap. eapply eqv_trans; [apply eqv_ext; intro; apply seq_eps_r|]. now apply rep_eqv.
      * intros i r gg b Hr Hall Hend Hg.
        assert (I0 : Inv (at_ i) i r (mk (at_ i) i gg b)) by (exists i, gg, b; conj; auto; apply Hr).
        change (mt e (Group (Possessive x mn UMAX []) k cs) []) with
          (group_m (possessive_m (mt e x (map (fun c => mt e c []) cs)) mn UMAX (fun s => Ok s)) k (dfs (kids cs) (map (fun c => mt e c []) cs ++ []))).
        assert (US' : ustep (mt e x (map (fun c => mt e c []) cs)) P) by (intros a0 i0 g0 b0 X1 X2 X3; rewrite NI; now apply US).
        unfold group_m.
        assert (HMX : (mn <= UMAX)%N) by (apply N.leb_le; assumption).
        destruct (poss_form P (at_ i) i r Hr (Z.le_refl _) Hend _ mn UMAX US' ltac:(discriminate) HMX _ I0 eq_refl)
          as [(t & E & It & Ht)|(o & E & Ho)]; rewrite E.
        -- destruct It as (p & g & b' & -> & B & L). cbn [bind]. change (s_acc (mk (at_ i) p g b')) with b'. destruct b'.
           ++ change (s_end (mk (at_ i) i gg b)) with (at_ i). change (s_end (mk (at_ i) p g true)) with (at_ p).
              rewrite set_group_ok by (cbn; lia). cbn [bind].
              change (mkSt (s_start (mk (at_ i) p g true)) (s_end (mk (at_ i) p g true)) (upd1 pre0 k (i, p) (s_grp (mk (at_ i) p g true))) (s_acc (mk (at_ i) p g true)))
                with (mk (at_ i) p (upd1 pre0 k (i, p) g) true).
              eapply kid_fin; eauto using Z.le_refl.
              ** now rewrite upd1_length.
              ** eapply poss_prev; eauto. intro Z. specialize (Ht Z). unfold EngineOk.mk, EngineOk.at_ in Ht. cbn in Ht. lia.
           ++ intros s [= <-] _. exists p, g, false. auto.
        -- destruct o as [z|]; [|discriminate]. destruct (Ho z eq_refl) as [Iz Az]. cbn [bind]. rewrite Az. intros s [= <-] _. exact Iz.
Qed.

(** ** Counted items: X{n}, X{n,m} and (X{n}) followed by something that always succeeds *)
Lemma count_core n x P mn (K : st -> st -> out) : good G Ed n PFst = true -> accins n = true -> ustep (mt e x []) P ->
  (forall s, length (s_grp s) = G -> mt e n [] s = match reps mn (mt e x []) s with inr o => o | inl s0 => K s s0 end) ->
  (forall p, p <= length w -> den w n (p, []) = [] <-> pow_o (N.to_nat mn) (chr_o w P) (p, []) = []) ->
  skips n.
Proof.
  intros Gd Ac US MT DN i g b s1 Hi Hg E A.
  pose proof (mt_good pre0 w post G Ed HE Hw Hlen n PFst Gd (at_ i) i g b Hi Hg (or_intror Ac) (Z.le_refl _) eq_refl) as M.
  unfold res in M. destruct (hd_error (den w n (i, []))) as [[j d]|] eqn:D.
  - destruct M as (g' & E' & _). rewrite E' in E. injection E as <-. discriminate.
  - clear M. assert (D0 : den w n (i, []) = []) by (destruct (den w n (i, [])); [reflexivity|discriminate]).
    destruct (run_end P i Hi) as (r & R1 & R2 & R3).
    assert (I0 : Inv (at_ i) i r (mk (at_ i) i g b)) by (exists i, g, b; conj; auto; apply R1).
    pose proof (reps_keep (at_ i) i r (mt e x []) mn _ (ustep_keeps P (at_ i) i r R1 (Z.le_refl _) R3 _ US) I0) as RK.
    rewrite (MT (mk (at_ i) i g b) Hg) in E. pose proof (proj1 (DN i Hi) D0) as PW.
    unfold reps in E, RK. rewrite loopN_nl in E, RK.
    destruct (reps_u pre0 w G (mt e x []) P US (N.to_nat mn) (at_ i) i g b Hi Hg (Z.le_refl _)) as [(_ & X & _)|(j & X & B & _)]; [congruence|].
    rewrite X in E, RK. injection E as <-. destruct (RK _ eq_refl A) as (j2 & g2 & b2 & E2 & B2 & L2).
    assert (j2 = j) as -> by (unfold EngineOk.mk, EngineOk.at_ in E2; injection E2 as E2 _; lia).
    exists j, g. split; [reflexivity|]. split; [lia|]. split; [exact Hg|]. intros _ p Hp. apply DN; [lia|].
    rewrite (pow_run P i r R1 R2 R3) in PW by lia. rewrite (pow_run P i r R1 R2 R3) by lia.
    destruct (Nat.leb_spec (i + N.to_nat mn) r); [discriminate|]. destruct (Nat.leb_spec (p + N.to_nat mn) r); [lia|reflexivity].
Qed.
Definition count_item (x : node) : bool := is_some (uset x) && clean x PAny && accins x && noinj x.
Fixpoint countroot (n : node) : bool :=
  match n with
  | SimpleV cs => match cs with [c] => countroot c | _ => false end
  | Repeated x _ cs => count_item x && totk cs
  | Possessive x mn mx cs => count_item x && totk cs && (mn <=? mx)%N
  | Group m _ cs =>
      totk cs && match m with
                 | Repeated x _ [] => count_item x
                 | Possessive x mn mx [] => count_item x && (mn <=? mx)%N
                 | _ => false
                 end
  | _ => false
  end.
Lemma cnt_ok x : count_item x = true -> good G Ed x PAny = true ->
  exists P, uset x = Some P /\ ustep (mt e x []) P /\ eqv (den w x) (chr_o w P) /\ (forall inj s, mt e x inj s = mt e x [] s).
Proof.
  unfold count_item. rewrite !andb_true_iff. intros [[[A B] C] NI] E. destruct (uset x) as [P|] eqn:U; [|discriminate].
  exists P. split; [reflexivity|]. split; [|split].
  - eapply (uset_step pre0 w post G x P U); auto. apply (mt_good pre0 w post G Ed HE); auto.
  - apply unit_eqv. now apply uset_den.
  - intros; now apply noinj_ok.
Qed.
Lemma seq_tot_nil (A B : outs) c : tot B -> seq_o A B c = [] <-> A c = [].
Proof.
  intro T. unfold seq_o. split; intro E; [|now rewrite E]. destruct (A c) as [|y l]; [reflexivity|]. cbn in E.
  apply app_eq_nil in E as [E _]. now apply T in E.
Qed.
Lemma eqv_nil_iff A B c : eqv A B -> A c = [] <-> B c = [].
Proof. intro H. split; apply eqv_nil; [exact H|now apply eqv_sym]. Qed.
Lemma cap_nil k (A : outs) c : cap_o k A c = [] <-> A c = [].
Proof. unfold cap_o. destruct (A c); cbn; split; congruence. Qed.
Lemma eps_kids A c : seq_o A (kidso (map (den w) [])) c = [] <-> A c = [].
Proof. apply seq_tot_nil. intros d; discriminate. Qed.
Lemma poss_nil D mn mx c : rep_o w Po mn mx D c = [] <-> pow_o (N.to_nat mn) D c = [].
Proof.
  cbn [rep_o]. unfold atomic_o. rewrite <- (seq_tot_nil (pow_o (N.to_nat mn) D) (most_o (extra w mn mx) D)) by apply tot_most.
  destruct (seq_o _ _ _); cbn; split; congruence.
Qed.
Lemma poss_reps M mn mx R s : (mn <= mx)%N -> exists K, possessive_m M mn mx R s =
  match reps mn M s with inr o => o | inl s0 => K s0 end /\
  K = (fun s1 => poss_fin R (nl (N.to_nat (mx - mn)) (poss_step M mn) (mn, s_end s1, s1))).
Proof.
  intro H. eexists. split; [|reflexivity]. unfold possessive_m, reps. rewrite !loopN_nl.
  replace (N.to_nat mx) with (N.to_nat mn + N.to_nat (mx - mn)) by lia. rewrite nl_add, (poss_req w) by lia.
  destruct (nl (N.to_nat mn) (req_step M) s) as [s1|o]; [|reflexivity].
  cbn [N.add]. rewrite N2Nat.id. unfold poss_fin. destruct (nl _ _ _) as [[[? ?] ?]|[?|?]]; reflexivity.
Qed.
Lemma reps_inr mn M s o : reps mn M s = inr o -> o = UB \/ exists s1, o = Ok s1 /\ s_acc s1 = false.
Proof.
  unfold reps. pose proof (loopN_inv (fun _ => True) (fun o => o = UB \/ exists s1, o = Ok s1 /\ s_acc s1 = false) (req_step M)) as X.
  intro E. specialize (X) as Y. assert (Z : forall a, True -> match req_step M a with inl _ => True | inr b => b = UB \/ exists s1, b = Ok s1 /\ s_acc s1 = false end).
  { intros a _. unfold req_step. destruct (M a) as [s1|]; [|now left]. destruct (s_acc s1) eqn:A; [exact I|]. right. eauto. }
  specialize (X Z mn s I). now rewrite E in X.
Qed.
Lemma count_skip n : good G Ed n PFst = true -> accins n = true -> countroot n = true -> skips n.
Proof.
  induction n as [t|cs H|n cs IHn H|x mn mx cs IHx H|x mn mx cs IHx H|x mn mx cs IHx H|x k cs IHx H|m gi cs IHm H|n IHn] using node_ind';
    intros Gd Ac R; try (exfalso; discriminate).
  - destruct cs as [|c [|]]; try (exfalso; discriminate). inversion H as [|? ? Hc _]; subst. cbn in Gd. rewrite !andb_true_r in Gd.
    exact (Hc Gd Ac R).
  - (* Possessive *)
    cbn [countroot] in R. rewrite !andb_true_iff in R. destruct R as [[R1 R2] R3]. apply N.leb_le in R3.
    assert (Gx : good G Ed x PAny = true) by (cbn [good] in Gd; rewrite !andb_true_iff in Gd; tauto).
    destruct (cnt_ok x R1 Gx) as (P & U & US & EV & NI).
    eapply (count_core _ x P mn (fun _ s1 => poss_fin (dfs (kids cs) []) (nl (N.to_nat (mx - mn)) (poss_step (mt e x []) mn) (mn, s_end s1, s1))) Gd Ac US).
    + intros s _. change (mt e (Possessive x mn mx cs) []) with (possessive_m (mt e x []) mn mx (dfs (kids cs) [])).
      destruct (poss_reps (mt e x []) mn mx (dfs (kids cs) []) s R3) as (K & E & EK). rewrite E, EK. reflexivity.
    + intros p _. cbn [den]. rewrite seq_tot_nil by (now apply (totk_ok w)). rewrite poss_nil. apply eqv_nil_iff. now apply eqv_pow.
  - (* Repeated *)
    cbn [countroot] in R. rewrite !andb_true_iff in R. destruct R as [R1 R2].
    assert (Gx : good G Ed x PAny = true) by (cbn [good] in Gd; rewrite !andb_true_iff in Gd; tauto).
    destruct (cnt_ok x R1 Gx) as (P & U & US & EV & NI).
    eapply (count_core _ x P k (fun _ s1 => dfs (kids cs) [] s1) Gd Ac US).
    + intros s _. change (mt e (Repeated x k cs) []) with (repeated_m (mt e x []) k (dfs (kids cs) [])). unfold repeated_m.
      destruct (reps k (mt e x []) s); reflexivity.
    + intros p _. cbn [den]. rewrite seq_tot_nil by (now apply (totk_ok w)). apply eqv_nil_iff. now apply eqv_pow.
  - (* Group *)
    cbn [countroot] in R. rewrite andb_true_iff in R. destruct R as [R0 R].
    destruct m as [| | | | |x mn mx kc|x k kc| |]; try discriminate; destruct kc; try discriminate.
    + rewrite andb_true_iff in R. destruct R as [R1 R3]. apply N.leb_le in R3.
      assert (Gx : good G Ed x PAny = true).
      { cbn [good] in Gd. destruct cs as [|c [|]]; rewrite !andb_true_iff in Gd; try tauto. rewrite ?andb_false_r in Gd. destruct Gd as [_ Gd]. discriminate. }
      destruct (cnt_ok x R1 Gx) as (P & U & US & EV & NI).
      set (inj := map (fun c => mt e c []) cs).
      set (after := fun s s1 => if s_acc s1 then bind (set_group gi (s_end s, s_end s1) s1) (dfs (kids cs) (inj ++ [])) else Ok s1).
      eapply (count_core _ x P mn (fun s s1 => bind (poss_fin (fun s => Ok s) (nl (N.to_nat (mx - mn)) (poss_step (mt e x inj) mn) (mn, s_end s1, s1))) (after s)) Gd Ac US).
      * intros s Hs.
        change (mt e (Group (Possessive x mn mx []) gi cs) []) with (group_m (possessive_m (mt e x inj) mn mx (fun s => Ok s)) gi (dfs (kids cs) (inj ++ []))).
        unfold group_m. fold (after s).
        destruct (poss_reps (mt e x inj) mn mx (fun s => Ok s) s R3) as (K & E & EK). rewrite E, EK. clear E EK K.
        assert (RE : reps mn (mt e x inj) s = reps mn (mt e x []) s).
        { unfold reps. rewrite !loopN_nl. clear Hs. revert s. induction (N.to_nat mn) as [|q IH]; intro s; [reflexivity|]. cbn [nl].
          unfold req_step at 1 3. rewrite NI. destruct (mt e x [] s) as [s1|]; [|reflexivity]. destruct (s_acc s1); [apply IH|reflexivity]. }
        rewrite RE. destruct (reps mn (mt e x []) s) as [s0|o] eqn:RR.
        -- reflexivity.
        -- destruct (reps_inr _ _ _ _ RR) as [->|(s1 & -> & A)]; [reflexivity|]. cbn [bind]. unfold after. now rewrite A.
      * intros p _. cbn [den]. rewrite seq_tot_nil by (now apply (totk_ok w)). rewrite cap_nil, eps_kids, poss_nil. apply eqv_nil_iff. now apply eqv_pow.
    + assert (Gx : good G Ed x PAny = true).
      { cbn [good] in Gd. destruct cs as [|c [|]]; rewrite !andb_true_iff in Gd; try tauto. rewrite ?andb_false_r in Gd. destruct Gd as [_ Gd]. discriminate. }
      destruct (cnt_ok x R Gx) as (P & U & US & EV & NI).
      set (after := fun s s1 => if s_acc s1 then bind (set_group gi (s_end s, s_end s1) s1) (dfs (kids cs) (map (fun c => mt e c []) cs ++ [])) else Ok s1).
      eapply (count_core _ x P k (fun s s1 => after s s1) Gd Ac US).
      * intros s Hs.
        change (mt e (Group (Repeated x k []) gi cs) []) with (group_m (repeated_m (mt e x []) k (fun s => Ok s)) gi (dfs (kids cs) (map (fun c => mt e c []) cs ++ []))).
        unfold group_m, repeated_m. fold (after s).
        destruct (reps k (mt e x []) s) as [s0|o] eqn:RR; [reflexivity|].
        destruct (reps_inr _ _ _ _ RR) as [->|(s1 & -> & A)]; [reflexivity|]. cbn [bind]. unfold after. now rewrite A.
      * intros p _. cbn [den]. rewrite seq_tot_nil by (now apply (totk_ok w)). rewrite cap_nil, eps_kids. apply eqv_nil_iff. now apply eqv_pow.
Qed.
End Runs.
