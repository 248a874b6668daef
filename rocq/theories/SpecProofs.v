(** The two halves of the specification agree: the ways to match listed by [sem] are
    exactly the members of the language [lang] (completeness for patterns without
    possessive quantifiers, which cut ways off by design). *)
From Coq Require Import ZArith NArith List Bool Lia ZifyBool ZifyNat ZifyN.
From Verif Require Import Base Spec.
Import ListNotations.
Open Scope nat_scope.

(** No possessive quantifier. *)
Fixpoint nopos (r : rx) : bool :=
  match r with ROne b => nopos_br b | ROr b r' => nopos_br b && nopos r' end
with nopos_br (b : br) : bool := match b with Br _ s => nopos_sq s end
with nopos_sq (s : sq) : bool :=
  match s with
  | SNil => true
  | SCons a q s' => nopos_atom a && (match q with QQ _ Po => false | _ => true end) && nopos_sq s'
  end
with nopos_atom (a : atom) : bool :=
  match a with AEl _ => true | ACap _ r => nopos r | ANon r => nopos r end.

Section Adequacy.
Variable w : str.

Lemma pieces_app R k1 : forall i m k2 j, pieces R k1 i m -> pieces R k2 m j -> pieces R (k1 + k2) i j.
Proof.
  induction k1 as [|k1 IH]; intros i m k2 j H1 H2; inversion H1; subst; [exact H2|].
  cbn. econstructor; [eassumption|]. eapply IH; eassumption.
Qed.
Lemma pieces_split R k1 : forall k2 i j, pieces R (k1 + k2) i j -> exists m, pieces R k1 i m /\ pieces R k2 m j.
Proof.
  induction k1 as [|k1 IH]; intros k2 i j H.
  - exists i. split; [constructor|exact H].
  - cbn in H. inversion H; subst. apply IH in H2 as (m & A & B). exists m. split; [econstructor; eassumption|assumption].
Qed.

(** *** Soundness of the combinators *)
Definition sound (a : outs) (R : nat -> nat -> Prop) : Prop :=
  forall c c', In c' (a c) -> R (fst c) (fst c').
Lemma pow_sound a R n : sound a R -> sound (pow_o n a) (pieces R n).
Proof.
  intro H. induction n as [|n IH]; intros c c' Hin; cbn in Hin.
  - destruct Hin as [->|[]]. constructor.
  - unfold seq_o in Hin. apply in_flat_map in Hin as (m & A & B).
    econstructor; [apply (H _ _ A)|apply (IH _ _ B)].
Qed.
Lemma progress_in c l x : In x (progress c l) <-> In x l /\ fst x <> fst c.
Proof. unfold progress. rewrite filter_In. destruct (Nat.eqb_spec (fst x) (fst c)); cbn; intuition congruence. Qed.
Lemma most_sound a R n : sound a R -> forall c c', In c' (most_o n a c) -> exists k, k <= n /\ pieces R k (fst c) (fst c').
Proof.
  intro H. induction n as [|n IH]; intros c c' Hin; cbn in Hin.
  - destruct Hin as [->|[]]. exists 0. split; [lia|constructor].
  - apply in_app_iff in Hin as [Hin|[->|[]]].
    + apply in_flat_map in Hin as (m & A & B). apply progress_in in A as [A _].
      apply IH in B as (k & Hk & B). exists (S k). split; [lia|]. econstructor; [apply (H _ _ A)|exact B].
    + exists 0. split; [lia|constructor].
Qed.
Lemma least_sound a R n : sound a R -> forall c c', In c' (least_o n a c) -> exists k, k <= n /\ pieces R k (fst c) (fst c').
Proof.
  intro H. induction n as [|n IH]; intros c c' Hin; cbn in Hin.
  - destruct Hin as [->|[]]. exists 0. split; [lia|constructor].
  - destruct Hin as [->|Hin].
    + exists 0. split; [lia|constructor].
    + apply in_flat_map in Hin as (m & A & B). apply progress_in in A as [A _].
      apply IH in B as (k & Hk & B). exists (S k). split; [lia|]. econstructor; [apply (H _ _ A)|exact B].
Qed.
Lemma firstn1_in {A} (x : A) l : In x (firstn 1 l) -> In x l.
Proof. destruct l; cbn; tauto. Qed.
Lemma kind_bounds k g n mn mx : quant_ok (QQ k g) = true -> mn = kind_min k -> mx = kind_max k ->
  n <= extra w mn mx -> in_bounds (QQ k g) (N.to_nat mn + n).
Proof.
  intros Hok -> -> Hn. cbn. unfold extra in Hn.
  destruct (kind_max k) as [m|] eqn:E; split; try lia; try exact I.
  assert (L : (kind_min k <= m)%N).
  { destruct k; cbn in *; try discriminate; injection E as <-; try lia. }
  lia.
Qed.
Lemma rep_sound a R q : quant_ok q = true -> sound a R ->
  forall c c', In c' (quant_o w q a c) -> exists k, in_bounds q k /\ pieces R k (fst c) (fst c').
Proof.
  intros Hok H c c' Hin. destruct q as [|k g].
  - cbn in Hin. exists 1. split; [reflexivity|]. econstructor; [apply (H _ _ Hin)|constructor].
  - unfold quant_o, rep_o in Hin. destruct g.
    + unfold seq_o in Hin. apply in_flat_map in Hin as (m & A & B).
      apply (pow_sound _ _ _ H) in A. apply (most_sound _ _ _ H) in B as (n & Hn & B).
      exists (N.to_nat (kind_min k) + n). split; [eapply kind_bounds; eauto|eapply pieces_app; eassumption].
    + unfold seq_o in Hin. apply in_flat_map in Hin as (m & A & B).
      apply (pow_sound _ _ _ H) in A. apply (least_sound _ _ _ H) in B as (n & Hn & B).
      exists (N.to_nat (kind_min k) + n). split; [eapply kind_bounds; eauto|eapply pieces_app; eassumption].
    + apply firstn1_in in Hin. unfold seq_o in Hin. apply in_flat_map in Hin as (m & A & B).
      apply (pow_sound _ _ _ H) in A. apply (most_sound _ _ _ H) in B as (n & Hn & B).
      exists (N.to_nat (kind_min k) + n). split; [eapply kind_bounds; eauto|eapply pieces_app; eassumption].
Qed.

Lemma sem_sound_all :
  (forall r, wf r = true -> sound (sem w r) (lang w r)) /\
  (forall b, wf_br b = true -> sound (sem_br w b) (lang_br w b)) /\
  (forall s, wf_sq s = true -> sound (sem_sq w s) (lang_sq w s)) /\
  (forall a, wf_atom a = true -> sound (sem_atom w a) (lang_atom w a)).
Proof.
  apply rx_all_ind.
  - intros b IH H. exact (IH H).
  - intros b IHb r IHr H c c' Hin. cbn in H. apply andb_true_iff in H as [H1 H2].
    cbn in Hin. unfold or_o in Hin. apply in_app_iff in Hin as [Hin|Hin]; [left|right].
    + apply (IHb H1 _ _ Hin). + apply (IHr H2 _ _ Hin).
  - intros a s IH H c c' Hin. cbn in H. assert (Hs : wf_sq s = true) by (destruct s; [discriminate|exact H]).
    cbn in Hin. destruct a; cbn in Hin |- *.
    + unfold seq_o in Hin. apply in_flat_map in Hin as (m & A & B). unfold bol_o in A.
      destruct (Nat.eqb_spec (fst c) 0) as [E|]; [|destruct A]. destruct A as [->|[]].
      split; [auto|]. apply (IH Hs _ _ B).
    + split; [discriminate|]. apply (IH Hs _ _ Hin).
  - intros _ c c' [->|[]]. reflexivity.
  - intros a IHa q s IHs H c c' Hin. cbn in H. apply andb_true_iff in H as [H H3]. apply andb_true_iff in H as [H1 H2].
    cbn in Hin. unfold seq_o in Hin. apply in_flat_map in Hin as (m & A & B).
    apply (rep_sound _ _ _ H2 (IHa H1)) in A as (k & Hk & A). cbn. exists (fst m), k.
    repeat split; auto. apply (IHs H3 _ _ B).
  - intros x _ c c' Hin. cbn in Hin |- *. unfold chr_o in Hin.
    destruct (nth_error w (fst c)) as [y|] eqn:E; [|destruct Hin].
    destruct (elem_set x y) eqn:E2; [|destruct Hin]. destruct Hin as [<-|[]]. cbn. eauto.
  - intros i r IH H c c' Hin. cbn in Hin |- *. unfold cap_o in Hin. apply in_map_iff in Hin as (m & <- & A).
    cbn. apply (IH H _ _ A).
  - intros r IH H c c' Hin. apply (IH H _ _ Hin).
Qed.
Lemma sem_sound r c c' : wf r = true -> In c' (sem w r c) -> lang w r (fst c) (fst c').
Proof. intro H. apply (proj1 sem_sound_all r H). Qed.

(** *** Positions only move forward, inside the text *)
Definition forward (R : nat -> nat -> Prop) : Prop :=
  forall i j, R i j -> i <= length w -> i <= j <= length w.
Lemma pieces_forward R k : forward R -> forward (pieces R k).
Proof.
  intros H. induction k as [|k IH]; intros i j P Hi; inversion P; subst; [lia|].
  match goal with H1 : R i ?m, H2 : pieces _ _ ?m j |- _ => pose proof (H _ _ H1 Hi); pose proof (IH _ _ H2) end. lia.
Qed.
Lemma lang_forward_all :
  (forall r, forward (lang w r)) /\ (forall b, forward (lang_br w b)) /\
  (forall s, forward (lang_sq w s)) /\ (forall a, forward (lang_atom w a)).
Proof.
  apply rx_all_ind.
  - intros b IH. exact IH.
  - intros b IHb r IHr i j [H|H]; [now apply IHb|now apply IHr].
  - intros a s IH i j [_ H]. now apply IH.
  - intros i j ->. lia.
  - intros a IHa q s IHs i j (m & k & _ & P & L) Hi.
    apply (pieces_forward _ _ IHa) in P; auto. apply IHs in L; lia.
  - intros x i j [-> (c & Hc & _)] Hi.     assert (i < length w) by (apply nth_error_Some; congruence). lia.
  - intros n r IH. exact IH.
  - intros r IH. exact IH.
Qed.
Lemma lang_forward r i j : lang w r i j -> i <= length w -> i <= j <= length w.
Proof. apply (proj1 lang_forward_all). Qed.

(** *** Completeness *)
Definition complete (a : outs) (R : nat -> nat -> Prop) : Prop :=
  forall i j l, R i j -> i <= length w -> exists l', In (j, l') (a (i, l)).
Lemma pow_complete a R n : forward R -> complete a R -> complete (pow_o n a) (pieces R n).
Proof.
  intros F H. induction n as [|n IH]; intros i j l P Hi; inversion P; subst.
  - exists l. cbn. auto.
  - match goal with H1 : R i ?m, H2 : pieces _ _ ?m j |- _ =>
      pose proof (F _ _ H1 Hi); destruct (H _ _ l H1 Hi) as (l1 & A); destruct (IH _ _ l1 H2 ltac:(lia)) as (l2 & B) end.
    exists l2. cbn. unfold seq_o. apply in_flat_map. eauto.
Qed.
(** Dropping the empty pieces. *)
Inductive steps (R : nat -> nat -> Prop) : nat -> nat -> nat -> Prop :=
| S0 i : steps R 0 i i
| SS k i j l : R i j -> i <> j -> steps R k j l -> steps R (S k) i l.
Lemma pieces_steps R k : forall i j, pieces R k i j -> exists k', k' <= k /\ steps R k' i j.
Proof.
  induction k as [|k IH]; intros i j P; inversion P; subst.
  - exists 0. split; [lia|constructor].
  - match goal with H1 : R i ?m, H2 : pieces _ _ ?m j |- _ => destruct (IH _ _ H2) as (k' & Hk & St);
      destruct (Nat.eq_dec i m) as [<-|N] end.
    + exists k'. split; [lia|assumption].
    + exists (S k'). split; [lia|]. econstructor; eassumption.
Qed.
Lemma steps_length R k : forward R -> forall i j, steps R k i j -> i <= length w -> i + k <= j <= length w.
Proof.
  intros F. induction k as [|k IH]; intros i j P Hi; inversion P; subst; [lia|].
  match goal with H1 : R i ?m, H2 : steps _ _ ?m j |- _ => pose proof (F _ _ H1 Hi); pose proof (IH _ _ H2) end. lia.
Qed.
Lemma most_complete a R : forward R -> complete a R -> forall n k i j l,
  steps R k i j -> k <= n -> i <= length w -> exists l', In (j, l') (most_o n a (i, l)).
Proof.
  intros F H. induction n as [|n IH]; intros k i j l St Hk Hi; inversion St; subst; try lia.
  - exists l. cbn. auto.
  - exists l. cbn. apply in_app_iff. cbn. auto.
  - match goal with H1 : R i ?m, H2 : steps _ _ ?m j |- _ =>
      pose proof (F _ _ H1 Hi); destruct (H _ _ l H1 Hi) as (l1 & A); destruct (IH _ _ _ l1 H2 ltac:(lia) ltac:(lia)) as (l2 & B) end.
    exists l2. cbn. apply in_app_iff. left. apply in_flat_map. eexists. split; [|exact B].
    apply progress_in. cbn. auto.
Qed.
Lemma least_complete a R : forward R -> complete a R -> forall n k i j l,
  steps R k i j -> k <= n -> i <= length w -> exists l', In (j, l') (least_o n a (i, l)).
Proof.
  intros F H. induction n as [|n IH]; intros k i j l St Hk Hi; inversion St; subst; try lia.
  - exists l. cbn. auto.
  - exists l. cbn. auto.
  - match goal with H1 : R i ?m, H2 : steps _ _ ?m j |- _ =>
      pose proof (F _ _ H1 Hi); destruct (H _ _ l H1 Hi) as (l1 & A); destruct (IH _ _ _ l1 H2 ltac:(lia) ltac:(lia)) as (l2 & B) end.
    exists l2. cbn. right. apply in_flat_map. eexists. split; [|exact B].
    apply progress_in. cbn. auto.
Qed.
Lemma rep_complete a R q k : forward R -> complete a R ->
  (match q with QQ _ Po => false | _ => true end) = true ->
  in_bounds q k -> complete (quant_o w q a) (pieces R k).
Proof.
  intros F H Hq Hb i j l P Hi. destruct q as [|kd g].
  - cbn in Hb. subst k. inversion P as [|? ? m ? H1 H2]; subst. inversion H2; subst. cbn. now apply H.
  - destruct Hb as [Hb1 Hb2].
    replace k with (N.to_nat (kind_min kd) + (k - N.to_nat (kind_min kd))) in P by lia.
    apply pieces_split in P as (m & P1 & P2).
    pose proof (pieces_forward _ _ F _ _ P1 Hi).
    apply (pow_complete _ _ _ F H _ _ l) in P1 as (l1 & A); auto.
    apply pieces_steps in P2 as (k' & Hk & St).
    assert (Hk' : k' <= extra w (kind_min kd) (kind_max kd)).
    { pose proof (steps_length _ _ F _ _ St ltac:(lia)). unfold extra. destruct (kind_max kd) as [x|]; lia. }
    destruct g; try discriminate; unfold quant_o, rep_o, seq_o.
    + destruct (most_complete _ _ F H _ _ _ _ l1 St Hk' ltac:(lia)) as (l2 & B).
      exists l2. apply in_flat_map. eauto.
    + destruct (least_complete _ _ F H _ _ _ _ l1 St Hk' ltac:(lia)) as (l2 & B).
      exists l2. apply in_flat_map. eauto.
Qed.
Lemma sem_complete_all :
  (forall r, nopos r = true -> complete (sem w r) (lang w r)) /\
  (forall b, nopos_br b = true -> complete (sem_br w b) (lang_br w b)) /\
  (forall s, nopos_sq s = true -> complete (sem_sq w s) (lang_sq w s)) /\
  (forall a, nopos_atom a = true -> complete (sem_atom w a) (lang_atom w a)).
Proof.
  apply rx_all_ind.
  - intros b IH H. exact (IH H).
  - intros b IHb r IHr H i j l L Hi. cbn in H. apply andb_true_iff in H as [H1 H2].
    cbn. unfold or_o. destruct L as [L|L].
    + destruct (IHb H1 _ _ l L Hi) as (l' & A). exists l'. apply in_app_iff. auto.
    + destruct (IHr H2 _ _ l L Hi) as (l' & A). exists l'. apply in_app_iff. auto.
  - intros a s IH H i j l [L1 L2] Hi. cbn. destruct a.
    + assert (E : i = 0) by auto. subst i. unfold seq_o, bol_o. cbn. rewrite app_nil_r. now apply IH.
    + now apply IH.
  - intros _ i j l L Hi. cbn in L. subst j. exists l. left. reflexivity.
  - intros a IHa q s IHs H i j l (m & k & Hb & P & L) Hi. cbn in H.
    apply andb_true_iff in H as [H H3]. apply andb_true_iff in H as [H1 H2].
    pose proof (proj2 (proj2 (proj2 lang_forward_all)) a) as F.
    pose proof (pieces_forward _ _ F _ _ P Hi).
    destruct (rep_complete _ _ _ _ F (IHa H1) H2 Hb _ _ l P Hi) as (l1 & A).
    destruct (IHs H3 _ _ l1 L ltac:(lia)) as (l2 & B).
    exists l2. cbn. unfold seq_o. apply in_flat_map. eauto.
  - intros x _ i j l [-> (c & Hc & E)] Hi. exists l. cbn. unfold chr_o. cbn. rewrite Hc, E. cbn. auto.
  - intros n r IH H i j l L Hi. destruct (IH H _ _ l L Hi) as (l' & A).
    exists ((n, (i, j)) :: l'). cbn. unfold cap_o. apply in_map_iff. exists (j, l'). auto.
  - intros r IH H. exact (IH H).
Qed.
Lemma sem_complete r i j l : nopos r = true -> lang w r i j -> i <= length w ->
  exists l', In (j, l') (sem w r (i, l)).
Proof. intros H. apply (proj1 sem_complete_all r H). Qed.

(** *** The search *)
Lemma match_at_lang r i c : wf r = true -> match_at w r i = Some c -> lang w r i (fst c).
Proof.
  intros H M. unfold match_at in M. destruct (sem w r (i, [])) as [|x l] eqn:E; [discriminate|].
  injection M as ->. change i with (fst (i, @nil (nat * (nat * nat)))). eapply sem_sound; [exact H|].
  rewrite E. cbn. auto.
Qed.
Lemma match_at_none r i : nopos r = true -> match_at w r i = None -> i <= length w -> forall j, ~ lang w r i j.
Proof.
  intros H M Hi j L. apply (sem_complete r i j [] H) in L as (l & L); auto.
  assert (E : sem w r (i, []) = []) by (unfold match_at in M; destruct (sem w r (i, [])); [reflexivity|discriminate]).
  assert (L2 : In (j, l) []) by (rewrite E in L; exact L). destruct L2.
Qed.
Lemma search_from_some r n : forall i p c, search_from w r n i = Some (p, c) ->
  i <= p < i + n /\ match_at w r p = Some c /\ forall q, i <= q < p -> match_at w r q = None.
Proof.
  induction n as [|n IH]; intros i p c H; [discriminate|]. cbn in H.
  destruct (match_at w r i) as [x|] eqn:E.
  - injection H as <- <-. repeat split; auto; lia.
  - apply IH in H as (A & B & C). repeat split; auto; try lia.
    intros q Hq. destruct (Nat.eq_dec q i) as [->|]; [assumption|]. apply C. lia.
Qed.
Lemma search_from_none r n : forall i, search_from w r n i = None -> forall q, i <= q < i + n -> match_at w r q = None.
Proof.
  induction n as [|n IH]; intros i H q Hq; [lia|]. cbn in H.
  destruct (match_at w r i) as [x|] eqn:E; [discriminate|].
  destruct (Nat.eq_dec q i) as [->|]; [assumption|]. apply (IH (S i)); auto. lia.
Qed.
Lemma search_some r i p c : search w r i = Some (p, c) ->
  i <= p <= length w /\ match_at w r p = Some c /\ forall q, i <= q < p -> match_at w r q = None.
Proof. unfold search. intro H. apply search_from_some in H as (A & B & C). repeat split; auto; lia. Qed.
Lemma search_none r i : search w r i = None -> forall q, i <= q <= length w -> match_at w r q = None.
Proof. unfold search. intros H q Hq. eapply search_from_none; [eassumption|]. lia. Qed.
Lemma search_step r i : i <= length w ->
  search w r i = match match_at w r i with Some c => Some (i, c) | None => search w r (S i) end.
Proof.
  intro Hi. unfold search. replace (S (length w) - i) with (S (S (length w) - S i)) by lia. reflexivity.
Qed.
Lemma search_end r i : length w < i -> search w r i = None.
Proof. intro H. unfold search. replace (S (length w) - i) with 0 by lia. reflexivity. Qed.
End Adequacy.
