(** The match chosen for a pattern that needs one character of lookahead (SpecLL.v) is the
    longest one.  Only about the specification (Spec.v). *)
From Coq Require Import ZArith NArith List Bool Lia ZifyBool ZifyNat ZifyN.
From Verif Require Import Base Spec SpecProofs Tree Families SpecFields Fields SpecChoice SpecLL.
Import ListNotations.
Open Scope nat_scope.

Section LLSem.
Variable w : str.
Hypothesis Hw : forallb is_char w = true.
Notation pos c := (fst (c : nat * list (nat * (nat * nat)))).
(** The character at position i is in P. *)
Definition at_in (P : chr -> bool) (i : nat) : Prop := exists c, nth_error w i = Some c /\ P c = true.
Lemma at_sub (P Q : chr -> bool) i : (forall c, P c = true -> Q c = true) -> at_in P i -> at_in Q i.
Proof. intros H (c & E & X). exists c. auto. Qed.
Lemma at_apart P Q i : apart P Q = true -> at_in P i -> ~ at_in Q i.
Proof.
  intros H (c & E & X) (d & E' & Y). rewrite E in E'. injection E' as <-. unfold apart in H. rewrite forallb_forall in H.
  assert (B : is_char c = true) by (rewrite forallb_forall in Hw; apply Hw; apply nth_error_In in E; exact E).
  specialize (H c ltac:(unfold chars; apply in_map_iff; exists (Z.to_nat (c + 128)); unfold is_char in B; split; [lia|apply in_seq; lia])). now rewrite X, Y in H.
Qed.

(** A way of matching: [n] it may match the empty text, [P] what its texts begin with; if it
    matches two texts, what comes after the shorter one is not in [F]; the longest is first. *)
Record one (a : outs) (n : bool) (P F : chr -> bool) : Prop := {
  o_fwd : forall c c', In c' (a c) -> pos c <= pos c' /\ (n = false -> pos c < pos c');
  o_some : n = true -> forall c, a c <> [];
  o_begin : forall c c', In c' (a c) -> pos c < pos c' -> at_in P (pos c);
  o_max : forall c h t c', a c = h :: t -> In c' t -> pos c' <= pos h;
  o_det : forall c c1 c2, In c1 (a c) -> In c2 (a c) -> pos c1 < pos c2 -> ~ at_in F (pos c1);
  o_log : forall i l l' c, In c (a (i, l)) -> exists c', In c' (a (i, l')) /\ pos c' = pos c }.

Lemma one_sub a n (P P' F F' : chr -> bool) : (forall c, P c = true -> P' c = true) -> (forall c, F' c = true -> F c = true) -> one a n P F -> one a n P' F'.
Proof.
  intros HP HF [A B C D E L]. constructor; auto.
  - intros c c' H1 H2. eapply at_sub; [exact HP|]. now apply (C c c').
  - intros c c1 c2 H1 H2 H3 X. apply (E c c1 c2 H1 H2 H3). eapply at_sub; [exact HF|exact X].
Qed.
Lemma one_chr (P F : chr -> bool) : one (chr_o w P) false P F.
Proof.
  assert (S : forall c c', In c' (chr_o w P c) -> pos c' = S (pos c) /\ at_in P (pos c)).
  { intros c c' H. unfold chr_o in H. destruct (nth_error w (pos c)) as [x|] eqn:E; [|destruct H]. destruct (P x) eqn:X; [|destruct H]. destruct H as [<-|[]]. split; [reflexivity|]. exists x. auto. }
  constructor.
  - intros c c' H. apply S in H as [-> _]. split; intros; lia.
  - discriminate.
  - intros c c' H _. now apply S in H as [_ H].
  - intros c h t c' E H. assert (X : In h (chr_o w P c)) by (rewrite E; now left). assert (Y : In c' (chr_o w P c)) by (rewrite E; now right). apply S in X as [-> _]. apply S in Y as [-> _]. lia.
  - intros c c1 c2 H1 H2. apply S in H1 as [-> _]. apply S in H2 as [-> _]. lia.
  - intros i l l' c H. exists (Datatypes.S i, l'). unfold chr_o in *. cbn [fst snd] in *. destruct (nth_error w i) as [x|]; [|destruct H]. destruct (P x); [|destruct H]. destruct H as [<-|[]]. split; [now left|reflexivity].
Qed.
Lemma one_eps F : one eps_o true none F.
Proof.
  constructor.
  - intros c c' [<-|[]]. split; [lia|discriminate].
  - intros _ c. discriminate.
  - intros c c' [<-|[]]. lia.
  - intros c h t c' E. injection E as <- <-. intros [].
  - intros c c1 c2 [<-|[]] [<-|[]]. lia.
  - intros i l l' c [<-|[]]. exists (i, l'). split; [now left|reflexivity].
Qed.
Definition aft (n : bool) (P F : chr -> bool) : chr -> bool := fun c => P c || (n && F c).
Lemma log_at b n P F c d x : one b n P F -> pos c = pos d -> In x (b c) -> exists y, In y (b d) /\ pos y = pos x.
Proof. destruct c as [i l], d as [i' l']. cbn [fst]. intros O <- H. exact (o_log _ _ _ _ O i l l' x H). Qed.
(** The second part stops at once where the first could have gone on. *)
Lemma stops b n P F m x : one b n P F -> ~ at_in (aft n P F) (pos m) -> In x (b m) -> pos x = pos m /\ n = true /\ ~ at_in F (pos m).
Proof.
  intros O N H. destruct (o_fwd _ _ _ _ O _ _ H) as [B1 B2]. assert (E : pos x = pos m).
  { destruct (Nat.eq_dec (pos x) (pos m)) as [E|E]; [exact E|]. elim N. apply (at_sub P); [intros c Hc; unfold aft; now rewrite Hc|]. apply (o_begin _ _ _ _ O m x H). lia. }
  split; [exact E|]. assert (n = true) as -> by (destruct n; [reflexivity|]; specialize (B2 eq_refl); lia). split; [reflexivity|]. intro X. apply N. revert X. apply at_sub. intros c Hc. unfold aft. rewrite Hc. now rewrite orb_true_r.
Qed.
Lemma one_seq a b n1 n2 P1 P2 F : one a n1 P1 (aft n2 P2 F) -> one b n2 P2 F -> one (seq_o a b) (n1 && n2) (aft n1 P1 P2) F.
Proof.
  intros A B. constructor.
  - intros c c' H. unfold seq_o in H. apply in_flat_map in H as (m & H1 & H2). destruct (o_fwd _ _ _ _ A _ _ H1) as [X1 X2]. destruct (o_fwd _ _ _ _ B _ _ H2) as [Y1 Y2]. split; [lia|]. intro E. apply andb_false_iff in E as [E|E]; [specialize (X2 E)|specialize (Y2 E)]; lia.
  - intro E. apply andb_true_iff in E as [-> ->]. intros c H. pose proof (o_some _ _ _ _ A eq_refl c) as X. unfold seq_o in H. destruct (a c) as [|m t]; [congruence|]. cbn [flat_map] in H. apply app_eq_nil in H as [H _]. now apply (o_some _ _ _ _ B eq_refl) in H.
  - intros c c' H Lt. unfold seq_o in H. apply in_flat_map in H as (m & H1 & H2). destruct (o_fwd _ _ _ _ A _ _ H1) as [X1 X2]. destruct (Nat.eq_dec (pos m) (pos c)) as [E|E].
    + destruct n1; [|specialize (X2 eq_refl); lia]. rewrite <- E in *. apply (at_sub P2); [intros x Hx; unfold aft; rewrite Hx; apply orb_true_r|]. now apply (o_begin _ _ _ _ B m c').
    + apply (at_sub P1); [intros x Hx; unfold aft; now rewrite Hx|]. apply (o_begin _ _ _ _ A c m H1). lia.
  - intros c h t c' E H. unfold seq_o in E.
    assert (IN : forall x, In x (h :: t) -> exists m, In m (a c) /\ In x (b m)) by (intros x Hx; rewrite <- E in Hx; now apply in_flat_map in Hx).
    destruct (IN c' (or_intror H)) as (m' & M1 & M2). destruct (a c) as [|m ms] eqn:Ea; [discriminate E|]. assert (Hm : In m (a c)) by (rewrite Ea; now left). assert (Hm' : In m' (a c)) by (rewrite Ea; exact M1).
    assert (LE : pos m' <= pos m). { destruct M1 as [<-|M1]; [lia|]. exact (o_max _ _ _ _ A _ _ _ _ Ea M1). }
    cbn [flat_map] in E. destruct (b m) as [|h0 t0] eqn:Eb.
    + (* nothing after the longest: nothing at all *)
      exfalso. destruct (Nat.eq_dec (pos m') (pos m)) as [Q|Q].
      * destruct (log_at _ _ _ _ m' m c' B Q M2) as (y & Y & _). rewrite Eb in Y. destruct Y.
      * pose proof (o_det _ _ _ _ A c m' m Hm' Hm ltac:(lia)) as D. destruct (stops _ _ _ _ _ _ B D M2) as (_ & N & _). exact (o_some _ _ _ _ B N m Eb).
    + injection E as <- E. assert (Hh : In h0 (b m)) by (rewrite Eb; now left). destruct (o_fwd _ _ _ _ B _ _ Hh) as [Bh _]. destruct (Nat.eq_dec (pos m') (pos m)) as [Q|Q].
      * destruct (log_at _ _ _ _ m' m c' B Q M2) as (y & Y & <-). rewrite Eb in Y. destruct Y as [<-|Y]; [lia|]. exact (o_max _ _ _ _ B _ _ _ _ Eb Y).
      * pose proof (o_det _ _ _ _ A c m' m Hm' Hm ltac:(lia)) as D. destruct (stops _ _ _ _ _ _ B D M2) as (S & _). lia.
  - intros c c1 c2 H1 H2 Lt. unfold seq_o in *. apply in_flat_map in H1 as (m1 & H1 & G1). apply in_flat_map in H2 as (m2 & H2 & G2).
    destruct (o_fwd _ _ _ _ B _ _ G1) as [Y1 _]. destruct (o_fwd _ _ _ _ B _ _ G2) as [Y2 _].
    destruct (Nat.lt_trichotomy (pos m1) (pos m2)) as [X|[X|X]].
    + destruct (stops _ _ _ _ _ _ B (o_det _ _ _ _ A c m1 m2 H1 H2 X) G1) as (S & _ & N). now rewrite S.
    + destruct (log_at _ _ _ _ m2 m1 c2 B (eq_sym X) G2) as (y & Y & E). apply (o_det _ _ _ _ B m1 c1 y G1 Y). lia.
    + destruct (stops _ _ _ _ _ _ B (o_det _ _ _ _ A c m2 m1 H2 H1 X) G2) as (S & _). lia.
  - intros i l l' c H. unfold seq_o in *. apply in_flat_map in H as (m & H1 & H2). destruct (o_log _ _ _ _ A i l l' m H1) as (m' & M1 & M2). destruct (log_at _ _ _ _ m m' c B (eq_sym M2) H2) as (y & Y1 & Y2).
    exists y. split; [apply in_flat_map; eauto|exact Y2].
Qed.
Lemma one_or a b P1 P2 F : one a false P1 F -> one b false P2 F -> apart P1 P2 = true -> one (or_o a b) false (or_set P1 P2) F.
Proof.
  intros A B AP.
  assert (EX : forall c x y, In x (a c) -> In y (b c) -> False).
  { intros c x y Hx Hy. apply (at_apart P1 P2 (pos c) AP); [apply (o_begin _ _ _ _ A c x Hx)|apply (o_begin _ _ _ _ B c y Hy)]; [apply (o_fwd _ _ _ _ A)|apply (o_fwd _ _ _ _ B)]; auto. }
  constructor; unfold or_o.
  - intros c c' H. apply in_app_or in H as [H|H]; [apply (o_fwd _ _ _ _ A c c' H)|apply (o_fwd _ _ _ _ B c c' H)].
  - discriminate.
  - intros c c' H Lt. apply in_app_or in H as [H|H]; [apply (at_sub P1)|apply (at_sub P2)]; try (intros x Hx; unfold or_set; rewrite Hx; auto using orb_true_r); [now apply (o_begin _ _ _ _ A c c')|now apply (o_begin _ _ _ _ B c c')].
  - intros c h t c' E H. destruct (a c) as [|x xs] eqn:Ea; [cbn [app] in E; exact (o_max _ _ _ _ B _ _ _ _ E H)|].
    destruct (b c) as [|y ys] eqn:Eb; [rewrite app_nil_r in E; injection E as <- <-; exact (o_max _ _ _ _ A _ _ _ _ Ea H)|]. exfalso. apply (EX c x y); [rewrite Ea; now left|rewrite Eb; now left].
  - intros c c1 c2 H1 H2 Lt. apply in_app_or in H1 as [H1|H1]; apply in_app_or in H2 as [H2|H2]; try (exfalso; eauto; fail); [now apply (o_det _ _ _ _ A c c1 c2)|now apply (o_det _ _ _ _ B c c1 c2)].
  - intros i l l' c H. apply in_app_or in H as [H|H]; [destruct (o_log _ _ _ _ A i l l' c H) as (y & Y & E)|destruct (o_log _ _ _ _ B i l l' c H) as (y & Y & E)]; exists y; (split; [apply in_or_app; auto|exact E]).
Qed.
Lemma one_cap k a n P F : one a n P F -> one (cap_o k a) n P F.
Proof.
  intros A. assert (S : forall c x, In x (cap_o k a c) -> exists y, In y (a c) /\ pos x = pos y) by (intros c x H; unfold cap_o in H; apply in_map_iff in H as (y & <- & Y); exists y; auto).
  constructor.
  - intros c c' H. apply S in H as (y & Y & ->). apply (o_fwd _ _ _ _ A c y Y).
  - intros E c H. apply map_eq_nil in H. exact (o_some _ _ _ _ A E c H).
  - intros c c' H Lt. apply S in H as (y & Y & E). rewrite E in Lt. now apply (o_begin _ _ _ _ A c y).
  - intros c h t c' E H. unfold cap_o in E. destruct (a c) as [|x xs] eqn:Ea; [discriminate E|]. injection E as <- <-. apply in_map_iff in H as (y & <- & Y). exact (o_max _ _ _ _ A _ _ _ _ Ea Y).
  - intros c c1 c2 H1 H2 Lt. apply S in H1 as (y1 & Y1 & E1). apply S in H2 as (y2 & Y2 & E2). rewrite E1, E2 in *. now apply (o_det _ _ _ _ A c y1 y2).
  - intros i l l' c H. apply S in H as (y & Y & ->). destruct (o_log _ _ _ _ A i l l' y Y) as (z & Z & E). eexists. split; [unfold cap_o; apply in_map_iff; exists z; split; [reflexivity|exact Z]|exact E].
Qed.
Definition pown (n : nat) (P : chr -> bool) : chr -> bool := match n with O => none | _ => P end.
Lemma one_pow a P F n : one a false P (or_set F P) -> one (pow_o n a) (Nat.eqb n 0) (pown n P) (or_set F P).
Proof.
  intro A. induction n as [|n IH]; [apply one_eps|]. cbn [pow_o Nat.eqb pown]. eapply one_sub; [| |eapply (one_seq a (pow_o n a) false (Nat.eqb n 0) P); [|exact IH]].
  - intros c Hc. unfold aft in Hc. cbn [andb] in Hc. now rewrite orb_false_r in Hc.
  - auto.
  - eapply one_sub; [| |exact A]; [auto|]. intros c Hc. unfold aft in Hc. apply orb_true_iff in Hc as [Hc|Hc]; [unfold or_set; destruct n; [discriminate Hc|cbn [pown] in Hc; rewrite Hc; apply orb_true_r]|now apply andb_true_iff in Hc].
Qed.
Lemma one_most a P F n : one a false P (or_set F P) -> apart P F = true -> one (most_o n a) true P F.
Proof.
  intros A AP. induction n as [|n IH]; [eapply one_sub; [| |apply (one_eps F)]; [discriminate|auto]|].
  assert (PR : forall c, progress c (a c) = a c).
  { intro c. unfold progress. pose proof (o_fwd _ _ _ _ A c) as X. induction (a c) as [|x l IHl]; [reflexivity|]. cbn [filter]. destruct (X x (or_introl eq_refl)) as [_ Y]. specialize (Y eq_refl). replace (Nat.eqb (pos x) (pos c)) with false by lia. cbn [negb]. f_equal. apply IHl. intros y Hy. apply X. now right. }
  assert (Q : one (seq_o a (most_o n a)) false P F).
  { eapply one_sub; [| |eapply (one_seq a (most_o n a) false true P P F); [|exact IH]].
    - intros c Hc. unfold aft in Hc. cbn [andb] in Hc. now rewrite orb_false_r in Hc.
    - auto.
    - eapply one_sub; [| |exact A]; [auto|]. intros c Hc. unfold aft in Hc. unfold or_set. cbn [andb] in Hc. now rewrite orb_comm. }
  assert (EQ : forall c, most_o (S n) a c = seq_o a (most_o n a) c ++ [c]) by (intro c; cbn [most_o]; now rewrite PR).
  constructor.
  - intros c c' H. rewrite EQ in H. apply in_app_or in H as [H|[<-|[]]]; [|split; [lia|discriminate]]. split; [apply (o_fwd _ _ _ _ Q c c' H)|discriminate].
  - intros _ c. rewrite EQ. now destruct (seq_o a (most_o n a) c).
  - intros c c' H Lt. rewrite EQ in H. apply in_app_or in H as [H|[<-|[]]]; [now apply (o_begin _ _ _ _ Q c c')|lia].
  - intros c h t c' E H. rewrite EQ in E. destruct (seq_o a (most_o n a) c) as [|x xs] eqn:Es; [injection E as <- <-; destruct H|]. injection E as <- <-. apply in_app_or in H as [H|[<-|[]]]; [exact (o_max _ _ _ _ Q _ _ _ _ Es H)|]. assert (X : In x (seq_o a (most_o n a) c)) by (rewrite Es; now left). apply (o_fwd _ _ _ _ Q c x X).
  - intros c c1 c2 H1 H2 Lt. rewrite EQ in *. apply in_app_or in H1 as [H1|[<-|[]]]; apply in_app_or in H2 as [H2|[<-|[]]].
    + now apply (o_det _ _ _ _ Q c c1 c2).
    + destruct (o_fwd _ _ _ _ Q c c1 H1) as [X _]. lia.
    + apply (at_apart P F); [exact AP|]. now apply (o_begin _ _ _ _ Q c c2).
    + lia.
  - intros i l l' c H. rewrite EQ in H. apply in_app_or in H as [H|[<-|[]]].
    + destruct (o_log _ _ _ _ Q i l l' c H) as (y & Y & E). exists y. split; [rewrite EQ; apply in_or_app; now left|exact E].
    + exists (i, l'). split; [rewrite EQ; apply in_or_app; right; now left|reflexivity].
Qed.
Lemma one_fixed a P F n : one a false P (or_set F P) -> one (seq_o (pow_o n a) eps_o) (Nat.eqb n 0) (pown n P) F.
Proof.
  intro A. rewrite <- (andb_true_r (Nat.eqb n 0)). eapply one_sub; [| |eapply (one_seq (pow_o n a) eps_o (Nat.eqb n 0) true (pown n P) none F); [|apply one_eps]].
  - intros c Hc. unfold aft, none in Hc. now rewrite andb_false_r, orb_false_r in Hc.
  - auto.
  - eapply one_sub; [| |exact (one_pow a P F n A)]; [auto|]. intros c Hc. unfold aft, none in Hc. cbn [orb andb] in Hc. unfold or_set. now rewrite Hc.
Qed.
Lemma one_loop a P F n m : one a false P (or_set F P) -> apart P F = true -> one (seq_o (pow_o n a) (most_o m a)) (Nat.eqb n 0) P F.
Proof.
  intros A AP. rewrite <- (andb_true_r (Nat.eqb n 0)). eapply one_sub; [| |eapply (one_seq (pow_o n a) (most_o m a) (Nat.eqb n 0) true (pown n P) P F); [|now apply one_most]].
  - intros c Hc. unfold aft in Hc. apply orb_true_iff in Hc as [Hc|Hc]; [destruct n; [discriminate Hc|exact Hc]|now apply andb_true_iff in Hc].
  - auto.
  - eapply one_sub; [| |exact (one_pow a P F n A)]; [auto|]. intros c Hc. unfold aft in Hc. cbn [andb] in Hc. unfold or_set. now rewrite orb_comm.
Qed.
Lemma one_quant a q s fol I : (match q with QQ _ Po => false | _ => true end) = true ->
  match q with
  | Q1 => ll_atom a (after s fol) (match a with ACap _ _ => or_set (first_sq s) I | _ => I end)
  | QQ k g => often k g && ll_atom a (or_set (after s fol) (first_atom a)) none
     && (negb (once_more k g) || (apart (first_atom a) (after s fol) && apart (first_atom a) (or_set (first_sq s) I)))
  end = true ->
  (forall f I', ll_atom a f I' = true -> one (sem_atom w a) false (first_atom a) f) ->
  one (quant_o w q (sem_atom w a)) (skips q) (first_atom a) (after s fol).
Proof.
  intros N2 H2 Ha. destruct q as [|k g].
  - cbn [quant_o skips]. exact (Ha _ _ H2).
  - rewrite !andb_true_iff in H2. destruct H2 as [[H2 H3] H4]. pose proof (Ha _ _ H3) as A. cbn [quant_o skips].
    assert (Z : N.eqb (kind_min k) 0 = Nat.eqb (N.to_nat (kind_min k)) 0) by lia. rewrite Z.
    assert (FIX : forall m, match kind_max k with Some x => x = kind_min k | None => False end -> m = extra w (kind_min k) (kind_max k) -> m = 0).
    { intros m E ->. unfold extra. destruct (kind_max k) as [x|]; [|destruct E]. subst x. rewrite N.sub_diag. reflexivity. }
    unfold rep_o. destruct g; [| |discriminate N2].
    + destruct k as [| | |t|t|t t'].
      4:{ rewrite (FIX _ eq_refl eq_refl). eapply one_sub; [| |exact (one_fixed _ _ _ (N.to_nat (kind_min (QExact t))) A)]; [|auto]. intros c Hc. unfold pown in Hc. destruct (N.to_nat (kind_min (QExact t))); [discriminate Hc|exact Hc]. }
      all: cbn [once_more negb orb] in H4; apply andb_true_iff in H4 as [H4 _]; now apply one_loop.
    + destruct k as [| | |t|t|t t']; cbn [often] in H2; rewrite ?andb_false_r in H2; try discriminate H2.
      rewrite (FIX _ eq_refl eq_refl). eapply one_sub; [| |exact (one_fixed _ _ _ (N.to_nat (kind_min (QExact t))) A)]; [|auto]. intros c Hc. unfold pown in Hc. destruct (N.to_nat (kind_min (QExact t))); [discriminate Hc|exact Hc].
Qed.

Lemma one_sem :
  (forall r fol I, nopos r = true -> ll r fol I = true -> one (sem w r) false (first r) fol) /\
  (forall b fol I, nopos_br b = true -> ll_br b fol I = true -> one (sem_br w b) false (first_br b) fol) /\
  (forall s fol I, nopos_sq s = true -> ll_sq s fol I = true -> one (sem_sq w s) (empties s) (first_sq s) fol) /\
  (forall a fol I, nopos_atom a = true -> ll_atom a fol I = true -> one (sem_atom w a) false (first_atom a) fol).
Proof.
  apply rx_all_ind.
  - intros b Hb fol I N H. exact (Hb fol I N H).
  - intros b Hb r Hr fol I N H. cbn [nopos ll] in *. apply andb_true_iff in N as [N1 N2]. rewrite !andb_true_iff in H. destruct H as [[[H1 H2] H3] H4].
    exact (one_or _ _ _ _ _ (Hb fol none N1 H3) (Hr fol none N2 H4) H2).
  - intros a s Hs fol I N H. cbn [nopos_br ll_br] in *. rewrite !andb_true_iff, !negb_true_iff in H. destruct H as [[-> E] H]. pose proof (Hs fol I N H) as X. now rewrite E in X.
  - intros fol I _ _. apply one_eps.
  - intros a Ha q s Hs fol I N H. cbn [nopos_sq ll_sq] in *. cbv zeta in H. rewrite !andb_true_iff in N. destruct N as [[N1 N2] N3]. apply andb_true_iff in H as [H1 H2].
    pose proof (Hs fol none N3 H1) as S.
    change (sem_sq w (SCons a q s)) with (seq_o (quant_o w q (sem_atom w a)) (sem_sq w s)).
    change (empties (SCons a q s)) with (skips q && empties s).
    assert (X : one (quant_o w q (sem_atom w a)) (skips q) (first_atom a) (after s fol)) by (apply (one_quant a q s fol I N2 H2); intros f I'; exact (Ha f I' N1)).
    exact (one_seq _ _ _ _ _ _ _ X S).
  - intros x fol I _ H. cbn [sem_atom first_atom]. eapply one_sub; [| |apply (one_chr (elem_set x) fol)]; [intros c; apply elem_wide|auto].
  - intros k r Hr fol I N H. cbn [nopos_atom ll_atom] in *. apply andb_true_iff in H as [_ H]. apply one_cap. exact (Hr fol I N H).
  - intros r Hr fol I N H. cbn [nopos_atom ll_atom] in *. apply andb_true_iff in H as [_ H]. exact (Hr fol I N H).
Qed.
(** ** Whole patterns *)
Lemma top_sem b : nopos_br b = true -> top_br b = true -> forall i,
  match hd_error (sem_br w b (i, [])) with
  | Some c => forall c', In c' (sem_br w b (i, [])) -> i < pos c' <= pos c
  | None => True
  end.
Proof.
  destruct b as [a s]. intros N H i. cbn [nopos_br top_br] in *. apply andb_true_iff in H as [E H]. apply negb_true_iff in E. pose proof (proj1 (proj2 (proj2 one_sem)) s none none N H) as X. rewrite E in X.
  assert (Y : forall c l, sem_sq w s (i, []) = c :: l -> forall c', In c' (c :: l) -> i < pos c' <= pos c).
  { intros c l Q c' Hc. assert (In c' (sem_sq w s (i, []))) as Hc' by now rewrite Q. destruct (o_fwd _ _ _ _ X _ _ Hc') as [_ F]. specialize (F eq_refl). cbn [fst] in F. split; [exact F|]. destruct Hc as [<-|Hc]; [lia|]. exact (o_max _ _ _ _ X _ _ _ _ Q Hc). }
  assert (S : sem_br w (Br a s) (i, []) = sem_sq w s (i, []) \/ sem_br w (Br a s) (i, []) = []).
  { cbn [sem_br]. destruct a; [|now left]. unfold seq_o, bol_o. cbn [fst]. destruct (Nat.eqb i 0); [left; cbn [flat_map]; apply app_nil_r|now right]. }
  destruct S as [S|S]; rewrite S; [|exact Logic.I]. destruct (sem_sq w s (i, [])) as [|c l]; [exact Logic.I|]. cbn [hd_error]. now apply Y.
Qed.
(** The specified match is the longest text of the first branch that has one. *)
Lemma top_taken r : wf r = true -> nopos r = true -> one_look r = true -> forall i, i <= length w ->
  match match_at w r i with
  | Some c => taken w r i (pos c) /\ lang w r i (pos c) /\ i < pos c <= length w
  | None => forall j, ~ lang w r i j
  end.
Proof.
  intros W N H i Hi.
  assert (ONE : forall b, wf_br b = true -> nopos_br b = true -> top_br b = true ->
    match hd_error (sem_br w b (i, [])) with
    | Some c => longest w b i (pos c) /\ i < pos c
    | None => forall j, ~ lang_br w b i j
    end).
  { intros b Wb Nb Hb. pose proof (top_sem b Nb Hb i) as X.
    assert (CO : forall j, lang_br w b i j -> exists l, In (j, l) (sem_br w b (i, []))) by (intros j L; exact (proj1 (proj2 (sem_complete_all w)) b Nb i j [] L Hi)).
    destruct (sem_br w b (i, [])) as [|c l] eqn:E; cbn [hd_error] in *.
    - intros j L. destruct (CO j L) as (l & []).
    - split; [split|].
      + apply (proj1 (proj2 (sem_sound_all w)) b Wb (i, []) c). rewrite E. now left.
      + intros j L. destruct (CO j L) as (l' & Hl). exact (proj2 (X (j, l') Hl)).
      + exact (proj1 (X c (or_introl eq_refl))). }
  assert (FW : forall j, lang w r i j -> j <= length w) by (intros j L; apply (lang_forward w r i j L Hi)).
  assert (M : match match_at w r i with Some c => taken w r i (pos c) /\ lang w r i (pos c) /\ i < pos c | None => forall j, ~ lang w r i j end).
  { clear FW. revert W N H. induction r as [b|b r IH]; intros W N H; cbn [wf nopos one_look] in *.
    - specialize (ONE b W N H). unfold match_at. change (sem w (ROne b)) with (sem_br w b). destruct (hd_error (sem_br w b (i, []))) as [c|]; [|exact ONE]. destruct ONE as [[A B] C]. split; [split; assumption|]. split; [exact A|exact C].
    - apply andb_true_iff in W as [W1 W2]. apply andb_true_iff in N as [N1 N2]. rewrite !andb_true_iff in H. destruct H as [[_ H1] H2]. specialize (ONE b W1 N1 H1). specialize (IH W2 N2 H2).
      unfold match_at in *. change (sem w (ROr b r) (i, [])) with (sem_br w b (i, []) ++ sem w r (i, [])). destruct (sem_br w b (i, [])) as [|c l]; cbn [hd_error app] in *.
      + destruct (hd_error (sem w r (i, []))) as [c|].
        * destruct IH as (A & B & C). split; [right; split; assumption|]. split; [now right|exact C].
        * intros j [L|L]; [exact (ONE j L)|exact (IH j L)].
      + destruct ONE as [A B]. split; [now left|]. split; [left; apply A|exact B]. }
  destruct (match_at w r i) as [c|]; [|exact M]. destruct M as (A & B & C). split; [exact A|]. split; [exact B|]. split; [exact C|now apply FW].
Qed.
Lemma top_all_taken r : wf r = true -> nopos r = true -> one_look r = true -> forall m i, i <= length w -> length w - i < m -> all_taken w r i (find_all w r m i).
Proof.
  intros W N H. induction m as [|m IH]; intros i Hi Hm; [lia|]. cbn [find_all]. destruct (search w r i) as [[p [j l]]|] eqn:S.
  - apply search_some in S as (B & M & L). pose proof (top_taken r W N H p ltac:(lia)) as X. rewrite M in X. cbn [fst] in X. destruct X as (X1 & X2 & X3). apply one_more; [exact B|exact X1| |apply IH; lia].
    intros k' j' Hk. pose proof (top_taken r W N H k' ltac:(lia)) as Y. rewrite (L k' Hk) in Y. apply Y.
  - apply no_more. intros k j Hk. pose proof (top_taken r W N H k ltac:(lia)) as Y. rewrite (search_none w _ i S k Hk) in Y. apply Y.
Qed.

(** ** Captures *)
Definition mute (a : outs) : Prop := forall c c', In c' (a c) -> snd c' = snd c.
Lemma mute_seq a b : mute a -> mute b -> mute (seq_o a b).
Proof. intros A B c c' H. unfold seq_o in H. apply in_flat_map in H as (m & H1 & H2). now rewrite (B _ _ H2), (A _ _ H1). Qed.
Lemma mute_quant a q : mute a -> mute (quant_o w q a).
Proof.
  intro A. destruct q as [|k g]; [exact A|].
  assert (P : forall n, mute (pow_o n a)) by (induction n as [|n IH]; [intros c c' [<-|[]]; reflexivity|now apply mute_seq]).
  assert (M : forall n, mute (most_o n a)).
  { induction n as [|n IH]; [intros c c' [<-|[]]; reflexivity|]. intros c c' H. cbn [most_o] in H. apply in_app_or in H as [H|[<-|[]]]; [|reflexivity]. apply in_flat_map in H as (m & H1 & H2). apply progress_in in H1 as [H1 _]. now rewrite (IH _ _ H2), (A _ _ H1). }
  assert (L : forall n, mute (least_o n a)).
  { induction n as [|n IH]; [intros c c' [<-|[]]; reflexivity|]. intros c c' H. cbn [least_o] in H. destruct H as [<-|H]; [reflexivity|]. apply in_flat_map in H as (m & H1 & H2). apply progress_in in H1 as [H1 _]. now rewrite (IH _ _ H2), (A _ _ H1). }
  cbn [quant_o]. unfold rep_o. destruct g; [now apply mute_seq|now apply mute_seq|]. intros c c' H. apply firstn1_in in H. exact (mute_seq _ _ (P _) (M _) _ _ H).
Qed.
Lemma mute_bare :
  (forall r, caps r = [] -> mute (sem w r)) /\ (forall b, caps_br b = [] -> mute (sem_br w b)) /\
  (forall s, caps_sq s = [] -> mute (sem_sq w s)) /\ (forall a, caps_atom a = [] -> mute (sem_atom w a)).
Proof.
  apply rx_all_ind; cbn [caps caps_br caps_sq caps_atom].
  - intros b Hb E. exact (Hb E).
  - intros b Hb r Hr E. apply app_eq_nil in E as [E1 E2]. intros c c' H. change (sem w (ROr b r) c) with (sem_br w b c ++ sem w r c) in H. apply in_app_or in H as [H|H]; [now apply (Hb E1)|now apply (Hr E2)].
  - intros a s Hs E. cbn [sem_br]. destruct a; [|exact (Hs E)]. apply mute_seq; [|exact (Hs E)]. intros c c' H. unfold bol_o in H. destruct (Nat.eqb (fst c) 0); [|destruct H]. destruct H as [<-|[]]. reflexivity.
  - intros _ c c' [<-|[]]. reflexivity.
  - intros a Ha q s Hs E. apply app_eq_nil in E as [E1 E2]. apply mute_seq; [apply mute_quant; exact (Ha E1)|exact (Hs E2)].
  - intros x _ c c' H. cbn [sem_atom] in H. unfold chr_o in H. destruct (nth_error w (fst c)); [|destruct H]. destruct (elem_set x z); [|destruct H]. destruct H as [<-|[]]. reflexivity.
  - discriminate.
  - intros r Hr E. exact (Hr E).
Qed.
Lemma caught_keeps s g : forall g', g < g' -> forall p l0 c', caught s g' = true -> In c' (sem_sq w s (p, l0)) -> slot g (snd c') = slot g l0.
Proof.
  induction s as [|a q s IH]; intros g' Hg p l0 c' C H.
  - destruct H as [<-|[]]. reflexivity.
  - change (sem_sq w (SCons a q s)) with (seq_o (quant_o w q (sem_atom w a)) (sem_sq w s)) in H. unfold seq_o in H. apply in_flat_map in H as ([p' l'] & H1 & H2). cbn [caught] in C.
    destruct a as [x|i r|r].
    + assert (C' : caught s g' = true) by (destruct x; try exact C; now apply andb_true_iff in C). rewrite (IH g' Hg p' l' c' C' H2). pose proof (mute_quant _ q (proj2 (proj2 (proj2 mute_bare)) (AEl x) eq_refl) _ _ H1) as X. cbn [snd] in X. now rewrite X.
    + destruct q; [|discriminate C]. rewrite !andb_true_iff in C. destruct C as [[C1 C2] C3]. apply Nat.eqb_eq in C1 as ->. assert (E : caps r = []) by (destruct (caps r); [reflexivity|discriminate C2]).
      rewrite (IH (S g') ltac:(lia) p' l' c' C3 H2). cbn [quant_o sem_atom] in H1. unfold cap_o in H1. apply in_map_iff in H1 as (z & Z1 & Z2). injection Z1 as _ <-. cbn [slot]. replace (Nat.eqb g' g) with false by lia. pose proof (proj1 mute_bare r E _ _ Z2) as X. now rewrite X.
    + rewrite !andb_true_iff in C. destruct C as [[C1 C2] C3]. assert (E : caps r = []) by (destruct (caps r); [reflexivity|discriminate C1]). rewrite (IH g' Hg p' l' c' C3 H2). pose proof (mute_quant _ q (proj2 (proj2 (proj2 mute_bare)) (ANon r) E) _ _ H1) as X. cbn [snd] in X. now rewrite X.
Qed.
Lemma caught_splits s : forall g c c', wf_sq s = true -> caught s g = true -> In c' (sem_sq w s c) ->
  exists l, splits w s (pos c) (pos c') l /\ length l = length (caps_sq s) /\ forall k, slot (g + k) (snd c') = match nth_error l k with Some v => Some v | None => slot (g + k) (snd c) end.
Proof.
  induction s as [|a q s IH]; intros g c c' W C H.
  - destruct H as [<-|[]]. exists []. split; [split; reflexivity|]. split; [reflexivity|]. intro k. now destruct k.
  - change (sem_sq w (SCons a q s)) with (seq_o (quant_o w q (sem_atom w a)) (sem_sq w s)) in H. unfold seq_o in H. apply in_flat_map in H as (m & H1 & H2). cbn [wf_sq caught] in *. rewrite !andb_true_iff in W. destruct W as [[W1 W2] W3].
    pose proof (proj2 (proj2 (proj2 (sem_sound_all w))) a W1) as SA. destruct (rep_sound w _ _ q W2 SA c m H1) as (n & Bn & Pn).
    assert (NONE : caps_atom a = [] -> caught s g = true -> exists l, splits w (SCons a q s) (pos c) (pos c') l /\ length l = length (caps_sq (SCons a q s)) /\ forall k, slot (g + k) (snd c') = match nth_error l k with Some v => Some v | None => slot (g + k) (snd c) end).
    { intros E C'. destruct (IH g m c' W3 C' H2) as (l & S1 & S2 & S3). exists l. split; [|split].
      - cbn [splits]. exists (pos m), n. split; [exact Bn|]. split; [exact Pn|]. destruct a; [exact S1|discriminate E|exact S1].
      - cbn [caps_sq]. rewrite E. exact S2.
      - intro k. rewrite (S3 k). now rewrite (mute_quant _ q (proj2 (proj2 (proj2 mute_bare)) a E) c m H1). }
    destruct a as [x|i r|r].
    + apply NONE; [reflexivity|]. destruct x; try exact C. now apply andb_true_iff in C.
    + destruct q; [|discriminate C]. rewrite !andb_true_iff in C. destruct C as [[C1 C2] C3]. apply Nat.eqb_eq in C1 as ->. assert (E : caps r = []) by (destruct (caps r); [reflexivity|discriminate C2]).
      cbn [quant_o sem_atom] in H1. unfold cap_o in H1. apply in_map_iff in H1 as (y & <- & Y). cbn [fst snd] in *. pose proof (proj1 mute_bare r E c y Y) as Ey.
      destruct (IH (S g) _ c' W3 C3 H2) as (l & S1 & S2 & S3). cbn [fst snd] in *. exists ((pos c, pos y) :: l). split; [|split].
      * cbn [splits]. exists (pos y), n. split; [exact Bn|]. split; [exact Pn|]. exists l. split; [reflexivity|exact S1].
      * cbn [length caps_sq caps_atom]. rewrite E. cbn [app length]. now rewrite S2.
      * intros [|k]; cbn [nth_error].
        -- rewrite Nat.add_0_r.
           assert (Q : slot g (snd c') = slot g ((g, (pos c, pos y)) :: snd y)).
           { exact (caught_keeps s g (S g) (Nat.lt_succ_diag_r g) _ _ c' C3 H2). }
           rewrite Q. cbn [slot]. now rewrite Nat.eqb_refl.
        -- rewrite <- Nat.add_succ_comm. rewrite (S3 k). destruct (nth_error l k); [reflexivity|]. cbn [slot]. replace (Nat.eqb g (S g + k)) with false by lia. now rewrite Ey.
    + rewrite !andb_true_iff in C. destruct C as [[C1 C2] C3]. apply NONE; [|exact C3]. cbn [caps_atom]. destruct (caps r); [reflexivity|discriminate C1].
Qed.
(** There is only one division. *)
Lemma splits_unique s : forall fol I i j l l', wf_sq s = true -> nopos_sq s = true -> ll_sq s fol I = true -> i <= length w -> splits w s i j l -> splits w s i j l' -> l = l'.
Proof.
  induction s as [|a q s IH]; intros fol I i j l l' W N H Hi S S'.
  - cbn [splits] in *. destruct S as [_ ->], S' as [_ ->]. reflexivity.
  - cbn [splits wf_sq nopos_sq ll_sq] in *. cbv zeta in H. rewrite !andb_true_iff in W. destruct W as [[W1 W2] W3]. rewrite !andb_true_iff in N. destruct N as [[N1 N2] N3]. apply andb_true_iff in H as [H1 H2].
    destruct S as (m & k & B & P & S). destruct S' as (m' & k' & B' & P' & S').
    pose proof (one_quant a q s fol I N2 H2 (fun f I' => proj2 (proj2 (proj2 one_sem)) a f I' N1)) as O.
    pose proof (proj1 (proj2 (proj2 one_sem)) s fol none N3 H1) as Os.
    pose proof (proj2 (proj2 (proj2 (lang_forward_all w))) a) as F.
    destruct (rep_complete w _ _ q k F (proj2 (proj2 (proj2 (sem_complete_all w))) a N1) N2 B i m [] P Hi) as (u & U).
    destruct (rep_complete w _ _ q k' F (proj2 (proj2 (proj2 (sem_complete_all w))) a N1) N2 B' i m' [] P' Hi) as (u' & U').
    pose proof (pieces_forward w _ k F i m P Hi) as FM. pose proof (pieces_forward w _ k' F i m' P' Hi) as FM'.
    assert (SL : forall t y x, splits w t y j x -> lang_sq w t y j).
    { induction t as [|a' q' t IHt]; intros y x X; [exact (proj1 X)|]. cbn [splits lang_sq] in *. destruct X as (m0 & k0 & X1 & X2 & X3). exists m0, k0. split; [exact X1|]. split; [exact X2|].
      destruct a', q'; try (exact (IHt _ _ X3)). destruct X3 as (x' & _ & X3). exact (IHt _ _ X3). }
    assert (LG : exists x, lang_sq w s m j /\ splits w s m j x) by (destruct a, q; try (exists l; split; [exact (SL _ _ _ S)|exact S]); destruct S as (x & _ & S); exists x; split; [exact (SL _ _ _ S)|exact S]).
    assert (LG' : exists x, lang_sq w s m' j /\ splits w s m' j x) by (destruct a, q; try (exists l'; split; [exact (SL _ _ _ S')|exact S']); destruct S' as (x & _ & S'); exists x; split; [exact (SL _ _ _ S')|exact S']).
    destruct LG as (_ & LG & _). destruct LG' as (_ & LG' & _).
    destruct (proj1 (proj2 (proj2 (sem_complete_all w))) s N3 m j u LG ltac:(lia)) as (v & V).
    destruct (proj1 (proj2 (proj2 (sem_complete_all w))) s N3 m' j u' LG' ltac:(lia)) as (v' & V').
    assert (m = m') as <-.
    { destruct (o_fwd _ _ _ _ Os _ _ V) as [Y _]. destruct (o_fwd _ _ _ _ Os _ _ V') as [Y' _]. cbn [fst] in *.
      destruct (Nat.lt_trichotomy m m') as [X|[X|X]]; [|exact X|].
      - pose proof (o_det _ _ _ _ O _ _ _ U U' X) as D. destruct (stops _ _ _ _ _ _ Os D V) as [Z _]. cbn [fst] in Z. lia.
      - pose proof (o_det _ _ _ _ O _ _ _ U' U X) as D. destruct (stops _ _ _ _ _ _ Os D V') as [Z _]. cbn [fst] in Z. lia. }
    destruct a as [x|g r|r].
    + exact (IH fol none m j l l' W3 N3 H1 ltac:(lia) S S').
    + destruct q as [|kd gr]; [|exact (IH fol none m j l l' W3 N3 H1 ltac:(lia) S S')]. destruct S as (x & -> & S). destruct S' as (x' & -> & S'). f_equal. exact (IH fol none m j x x' W3 N3 H1 ltac:(lia) S S').
    + exact (IH fol none m j l l' W3 N3 H1 ltac:(lia) S S').
Qed.
End LLSem.
