(** A pattern that can match at the end of a nonempty text (necessarily the empty text) can
    match everywhere: so searching all positions but the last one misses nothing. *)
From Coq Require Import ZArith NArith List Bool Lia.
From Verif Require Import Base Spec SpecProofs Tree.
Import ListNotations.
Open Scope nat_scope.

Section E.
Variable w : str.
Notation L := (length w).
Definition eb (a : outs) : Prop :=
  (forall c x, In x (a c) -> fst c <= L -> fst c <= fst x <= L)
  /\ (0 < L -> forall c c', fst c = L -> a c <> [] -> fst c' <= L -> a c' <> []).
Lemma ne_in {A} (l : list A) : l <> [] <-> exists x, In x l.
Proof. destruct l as [|x l]; split; try congruence; [intros [x []]|intros _; exists x; now left]. Qed.
Lemma eb_chr P : eb (chr_o w P).
Proof.
  split.
  - intros c x. unfold chr_o. destruct (nth_error w (fst c)) as [y|] eqn:N; [|intros []]. destruct (P y); [|intros []].
    intros [<-|[]] H. cbn. assert (fst c < L) by (apply nth_error_Some; congruence). lia.
  - intros _ c c' E H. unfold chr_o in H. rewrite E, (proj2 (nth_error_None w L)) in H by lia. congruence.
Qed.
Lemma eb_eps : eb eps_o.
Proof. split; [intros c x [<-|[]]; lia|intros; discriminate]. Qed.
Lemma eb_bol : eb bol_o.
Proof.
  split; [intros c x; unfold bol_o; destruct (Nat.eqb _ _); [intros [<-|[]]; lia|intros []]|].
  intros Hp c c' E H. unfold bol_o in H. rewrite E in H. destruct (Nat.eqb_spec L 0); [lia|congruence].
Qed.
Lemma eb_seq a b : eb a -> eb b -> eb (seq_o a b).
Proof.
  intros [A1 A2] [B1 B2]. split.
  - intros c x H Hc. apply in_flat_map in H as (y & Hy & Hx). pose proof (A1 _ _ Hy Hc). specialize (B1 _ _ Hx). lia.
  - intros Hp c c' E H Hc. apply ne_in in H as (x & Hx). apply in_flat_map in Hx as (y & Hy & Hx).
    pose proof (A1 _ _ Hy ltac:(lia)). assert (N : a c <> []) by (apply ne_in; eauto).
    apply (A2 Hp c c' E) in N; [|exact Hc]. apply ne_in in N as (y' & Hy'). pose proof (A1 _ _ Hy' Hc).
    assert (M : b y <> []) by (apply ne_in; eauto). apply (B2 Hp y y') in M; [|lia|lia]. apply ne_in in M as (x' & Hx').
    apply ne_in. exists x'. apply in_flat_map. eauto.
Qed.
Lemma eb_or a b : eb a -> eb b -> eb (or_o a b).
Proof.
  intros [A1 A2] [B1 B2]. split.
  - intros c x H. apply in_app_or in H as [H|H]; eauto.
  - intros Hp c c' E H Hc. apply ne_in in H as (x & Hx). apply ne_in. unfold or_o in *. apply in_app_or in Hx as [Hx|Hx].
    + assert (N : a c <> []) by (apply ne_in; eauto). apply (A2 Hp c c' E) in N; auto. apply ne_in in N as (y & Hy). exists y. apply in_or_app. auto.
    + assert (N : b c <> []) by (apply ne_in; eauto). apply (B2 Hp c c' E) in N; auto. apply ne_in in N as (y & Hy). exists y. apply in_or_app. auto.
Qed.
Lemma eb_cap i a : eb a -> eb (cap_o i a).
Proof.
  intros [A1 A2]. split.
  - intros c x H. apply in_map_iff in H as (y & <- & Hy). cbn. eauto.
  - intros Hp c c' E H Hc. unfold cap_o in *. specialize (A2 Hp c c' E). destruct (a c); [now destruct H|]. destruct (a c'); [|discriminate].
    exfalso. apply A2; auto. discriminate.
Qed.
Lemma eb_pow a n : eb a -> eb (pow_o n a).
Proof. intro H. induction n; cbn; [apply eb_eps|now apply eb_seq]. Qed.
Lemma eb_most a n : eb a -> eb (most_o n a).
Proof.
  intros [A1 _]. split; [|intros; destruct n; cbn; [discriminate|intro X; apply app_eq_nil in X as [_ X]; discriminate]].
  induction n as [|n IH]; intros c x H Hc; cbn in H.
  - destruct H as [<-|[]]. lia.
  - apply in_app_or in H as [H|[<-|[]]]; [|lia]. apply in_flat_map in H as (y & Hy & Hx). apply progress_in in Hy as [Hy _].
    pose proof (A1 _ _ Hy Hc). specialize (IH _ _ Hx). lia.
Qed.
Lemma eb_least a n : eb a -> eb (least_o n a).
Proof.
  intros [A1 _]. split; [|intros; destruct n; cbn; discriminate].
  induction n as [|n IH]; intros c x H Hc; cbn in H.
  - destruct H as [<-|[]]. lia.
  - destruct H as [<-|H]; [lia|]. apply in_flat_map in H as (y & Hy & Hx). apply progress_in in Hy as [Hy _].
    pose proof (A1 _ _ Hy Hc). specialize (IH _ _ Hx). lia.
Qed.
Lemma eb_atomic a : eb a -> eb (atomic_o a).
Proof.
  intros [A1 A2]. split.
  - intros c x H. apply firstn1_in in H. eauto.
  - intros Hp c c' E H Hc. unfold atomic_o in *. specialize (A2 Hp c c' E). destruct (a c); [now destruct H|]. destruct (a c'); [|discriminate].
    exfalso. apply A2; auto. discriminate.
Qed.
Lemma eb_quant q a : eb a -> eb (quant_o w q a).
Proof. intro H. destruct q as [|k []]; cbn; auto using eb_seq, eb_pow, eb_most, eb_least, eb_atomic. Qed.
Lemma eb_sem : (forall r, eb (sem w r)) /\ (forall b, eb (sem_br w b)) /\ (forall s, eb (sem_sq w s)) /\ (forall a, eb (sem_atom w a)).
Proof.
  apply rx_all_ind; cbn; intros; auto using eb_or, eb_eps, eb_seq, eb_quant, eb_chr, eb_cap.
  destruct anchored; auto using eb_seq, eb_bol.
Qed.
Lemma match_at_fwd r i c : match_at w r i = Some c -> i <= L -> i <= fst c <= L.
Proof.
  unfold match_at. intros H Hi. destruct (sem w r (i, [])) eqn:E; [discriminate|]. injection H as ->.
  apply (proj1 (proj1 eb_sem r) (i, []) c); [rewrite E; now left|exact Hi].
Qed.
Lemma match_at_end r i : 0 < L -> i <= L -> match_at w r i = None -> match_at w r L = None.
Proof.
  unfold match_at. intros Hp Hi H. pose proof (proj2 (proj1 eb_sem r) Hp (L, []) (i, []) eq_refl) as X.
  destruct (sem w r (L, [])); [reflexivity|]. destruct (sem w r (i, [])); [|discriminate]. exfalso. apply X; [discriminate|exact Hi|reflexivity].
Qed.
(** All positions but the last suffice. *)
Lemma search_short r i : i < L -> search_from w r (L - i) i = search w r i.
Proof.
  intro H. unfold search. replace (S L - i) with (S (L - i)) by lia.
  assert (X : forall k i, i + k = L -> 0 < k -> search_from w r k i = search_from w r (S k) i).
  { clear i H. induction k as [|k IH]; intros i Hk Hp; [lia|]. cbn [search_from].
    destruct (match_at w r i) eqn:M; [reflexivity|]. destruct k as [|k].
    - cbn [search_from]. replace (S i) with L by lia. rewrite (match_at_end r i); auto; lia.
    - rewrite (IH (S i)) by lia. cbn [search_from]. reflexivity. }
  apply X; lia.
Qed.
Lemma search_first r : search_from w r (Nat.max 1 L) 0 = search w r 0.
Proof.
  destruct (Nat.eq_dec L 0) as [E|E].
  - unfold search. rewrite E. reflexivity.
  - rewrite <- search_short by lia. f_equal. lia.
Qed.
End E.
Section FA.
Variable w : str.
Notation L := (length w).
Lemma search_fwd r i p j l : search w r i = Some (p, (j, l)) -> i <= p <= j /\ j <= L.
Proof.
  intro H. apply search_some in H as (A & B & _). pose proof (match_at_fwd w r p (j, l) B ltac:(lia)) as X. cbn in X. lia.
Qed.
Lemma pieces_ge (R : nat -> nat -> Prop) k : (forall i j, R i j -> i <= j) -> forall i j, pieces R k i j -> i <= j.
Proof. intro H. induction k as [|k IH]; intros i j P; inversion P as [|k' a b c A B]; subst; [lia|]. apply H in A. apply IH in B. lia. Qed.
Lemma lang_ge : (forall r i j, lang w r i j -> i <= j) /\ (forall b i j, lang_br w b i j -> i <= j)
  /\ (forall s i j, lang_sq w s i j -> i <= j) /\ (forall a i j, lang_atom w a i j -> i <= j).
Proof.
  apply rx_all_ind.
  - intros b H i j X. exact (H i j X).
  - intros b H r H0 i j [X|X]; eauto.
  - intros a s H i j [_ X]. eauto.
  - intros i j X. change (i = j) in X. lia.
  - intros a H q s H0 i j (m & k & _ & A & B). apply H0 in B. apply (pieces_ge _ _ H) in A. lia.
  - intros x i j [X _]. lia.
  - intros n r H i j X. exact (H i j X).
  - intros r H i j X. exact (H i j X).
Qed.
(** With nonempty matches there are at most as many as characters. *)
Lemma find_all_length r m : (forall i c, match_at w r i = Some c -> i < fst c) ->
  forall i, i <= L -> length (find_all w r m i) <= L - i.
Proof.
  intro NE. induction m as [|m IH]; intros i Hi; cbn [find_all]; [cbn; lia|]. destruct (search w r i) as [[p [j l]]|] eqn:S; [|cbn; lia].
  pose proof (search_fwd _ _ _ _ _ S). apply search_some in S as (_ & M & _). apply NE in M. cbn in M |- *. specialize (IH j ltac:(lia)). lia.
Qed.
(** ... and looking further finds nothing else. *)
Lemma find_all_more r m m' : (forall i c, match_at w r i = Some c -> i < fst c) ->
  forall i, i <= L -> L - i < m -> m <= m' -> find_all w r m' i = find_all w r m i.
Proof.
  intro NE. revert m'. induction m as [|m IH]; intros m' i Hi Hm Hmm; [lia|]. destruct m' as [|m']; [lia|]. cbn [find_all].
  destruct (search w r i) as [[p [j l]]|] eqn:S; [|reflexivity]. pose proof (search_fwd _ _ _ _ _ S).
  apply search_some in S as (_ & M & _). apply NE in M. cbn in M. f_equal. apply IH; lia.
Qed.
End FA.
