(** Memory safety and independence of the surroundings, for a syntactic class of patterns:
    two runs on the same query text in two different buffers stay in step, never leave the
    query and never do anything undefined. *)
From Coq Require Import ZArith NArith List Bool Lia ZifyBool ZifyNat ZifyN.
From Verif Require Import Base Text Ast Builder Engine Api Spec Den Checker CheckerProofs AstProofs BuilderProofs EngineRel EngineProofs EngineOk EngineGood EngineMain ApiProofs.
Import ListNotations.
Open Scope nat_scope.

(** No optional item of fixed size (the only construct that moves the end left). *)
Fixpoint noopt (n : node) : bool :=
  match n with
  | Term _ => true
  | SimpleV cs => forallb noopt cs
  | Simple m cs | Lazy m _ _ cs | Possessive m _ _ cs | Repeated m _ cs | Group m _ cs => noopt m && forallb noopt cs
  | Greedy m mn mx cs => negb (opt_case m mn mx) && noopt m && forallb noopt cs
  | Negated m => noopt m
  end.
(** One character of a set, leaving the position alone on failure. *)
Definition unit_ok (G : nat) (m : node) : bool :=
  is_some (uset m) && good G false m PAny && clean m PAny && accins m.
Definition short {A : Type} (l : list A) : bool := (length l <=? 1).
Definition safe_term (D : bool) (t : term) : bool :=
  match t with
  | TTerminal tok => match term_kind tok with KExact cs => short cs | _ => true end
  | TExact cs => short cs
  | TRange _ _ | TStart => true
  | TEnd => D
  end.
Section S.
Variables (D : bool) (G : nat).
(** Safe: $ only if [D], no multi-byte escape, [^...] without \s, greedy repetitions of single
    characters (other than x?) not followed by an optional item. *)
Fixpoint safe (n : node) : bool :=
  match n with
  | Term t => safe_term D t
  | SimpleV cs => forallb safe cs
  | Simple m cs | Lazy m _ _ cs | Possessive m _ _ cs | Repeated m _ cs => safe m && forallb safe cs
  | Group m i cs => (i <? G) && safe m && forallb safe cs
  | Greedy m mn mx cs =>
      safe m && forallb safe cs
      && (if opt_case m mn mx then (nmin m <=? 1)%N else unit_ok G m && forallb noopt cs)
  | Negated m => unit_ok G m
  end.
End S.

Lemma nl_rel2 {A A' B B'} (f : A -> A + B) (f' : A' -> A' + B') (II : nat -> A -> A' -> Prop) (J : B -> B' -> Prop) :
  (forall c a a', II (S c) a a' -> sumrel (II c) J (f a) (f' a')) ->
  forall c a a', II c a a' -> sumrel (II 0) J (nl c f a) (nl c f' a').
Proof.
  intro H. induction c as [|c IH]; intros a a' Ha; cbn [nl]; [exact Ha|].
  specialize (H c a a' Ha). destruct (f a), (f' a'); cbn in H; try tauto. now apply IH.
Qed.

Lemma rd_first pre w c p : rd (env_of pre w (c :: p)) (at_ pre (length w)) = Some c.
Proof.
  unfold rd, at_, buf, env_of. destruct (Z.ltb_spec (Z.of_nat (length pre) + Z.of_nat (length w)) 0); [lia|].
  replace (Z.to_nat _) with (length pre + length w) by lia. rewrite nth_error_app2 by lia. replace (length pre + length w - length pre) with (length w) by lia.
  rewrite nth_error_app2 by lia. now rewrite Nat.sub_diag.
Qed.
Section Two.
Variables (pre1 post1 pre2 post2 w : str) (D : bool) (G : nat).
Hypothesis HD1 : D = true -> exists c p, post1 = c :: p /\ c <> c_nl.
Hypothesis HD2 : D = true -> exists c p, post2 = c :: p /\ c <> c_nl.
Notation e1 := (env_of pre1 w post1).
Notation e2 := (env_of pre2 w post2).
Notation at1 := (at_ pre1).
Notation at2 := (at_ pre2).
Notation mk1 := (mk pre1).
Notation mk2 := (mk pre2).
Notation L := (length w).

Definition gr1 (x y : option (Z * Z)) : Prop :=
  match x, y with
  | None, None => True
  | Some (a, b), Some (c, d) => exists i j, i <= L /\ j <= L /\ a = at1 i /\ b = at1 j /\ c = at2 i /\ d = at2 j
  | _, _ => False
  end.
Definition R (k i : nat) (s s' : st) : Prop := exists g g' b,
  s = mk1 (at1 k) i g b /\ s' = mk2 (at2 k) i g' b /\ k <= i <= L /\ Forall2 gr1 g g' /\ length g = G.
Definition OR (k lo : nat) (o o' : out) : Prop := exists j t t', o = Ok t /\ o' = Ok t' /\ R k j t t' /\ lo <= j.
Definition cs (M M' : clo) (nd : bool) : Prop := forall k i s s', R k i s s' -> OR k (if nd then i else 0) (M s) (M' s').

Lemma R_end k i s s' : R k i s s' -> s_end s = at1 i /\ s_end s' = at2 i.
Proof. intros (g & g' & b & -> & -> & _). auto. Qed.
Lemma R_start k i s s' : R k i s s' -> s_start s = at1 k /\ s_start s' = at2 k.
Proof. intros (g & g' & b & -> & -> & _). auto. Qed.
Lemma R_le k i s s' : R k i s s' -> k <= i <= L.
Proof. intros (g & g' & b & -> & -> & H & _). auto. Qed.
Lemma R_acc k i s s' : R k i s s' -> s_acc s = s_acc s'.
Proof. intros (g & g' & b & -> & -> & _). auto. Qed.
Lemma R_set k i s s' j : R k i s s' -> k <= j <= L -> R k j (set_end (at1 j) s) (set_end (at2 j) s').
Proof. intros (g & g' & b & -> & -> & H & X & Y) Hj. exists g, g', b. conj; auto; lia. Qed.
Lemma R_sacc k i s s' b : R k i s s' -> R k i (set_acc b s) (set_acc b s').
Proof. intros (g & g' & b' & -> & -> & H & X & Y). exists g, g', b. conj; auto; lia. Qed.
Lemma OR_ok k i s s' lo : R k i s s' -> lo <= i -> OR k lo (Ok s) (Ok s').
Proof. intros H1 H2. exists i, s, s'. auto. Qed.
Lemma OR_bind k lo lo2 o o' f f' : OR k lo2 o o' -> (forall j t t', R k j t t' -> lo2 <= j -> OR k lo (f t) (f' t')) ->
  OR k lo (bind o f) (bind o' f').
Proof. intros (j & t & t' & -> & -> & H & Lj) F. cbn. eapply F; eauto. Qed.
Lemma OR_weak k lo lo' o o' : OR k lo o o' -> lo' <= lo -> OR k lo' o o'.
Proof. intros (j & t & t' & A & B & C & Dj) H. exists j, t, t'. conj; auto; lia. Qed.
Lemma cs_weak M M' nd nd' : cs M M' nd -> (nd' = true -> nd = true) -> cs M M' nd'.
Proof.
  intros H Hn k i s s' Hr. eapply OR_weak; [apply (H k i s s' Hr)|]. destruct nd'; [rewrite Hn by reflexivity|]; lia.
Qed.
Lemma OR_move k i s s' j lo : R k i s s' -> k <= j <= L -> lo <= j -> OR k lo (move e1 (at1 j) s) (move e2 (at2 j) s').
Proof.
  intros H Hj Hl. rewrite (at_move pre1 w post1) by lia. rewrite (at_move pre2 w post2) by lia.
  apply (OR_ok k j); auto. eapply R_set; eauto.
Qed.
Lemma rd_in i : i < L -> exists x, rd e1 (at1 i) = Some x /\ rd e2 (at2 i) = Some x /\ nth_error w i = Some x.
Proof.
  intro H. destruct (nth_error w i) as [x|] eqn:E; [|apply nth_error_None in E; lia].
  exists x. conj; auto using at_rd.
Qed.

Lemma cs_guarded M M' : (forall k i s s', R k i s s' -> i < L -> OR k i (M s) (M' s')) -> cs (guarded e1 M) (guarded e2 M') true.
Proof.
  intros H k i s s' Hr. unfold guarded. destruct (R_end _ _ _ _ Hr) as [-> ->]. rewrite !qe_le.
  destruct (Nat.leb_spec L i); [|now apply H]. apply (OR_ok k i); auto. now apply R_sacc.
Qed.
Lemma cs_test t : cs (guarded e1 (match_test e1 t)) (guarded e2 (match_test e2 t)) true.
Proof.
  apply cs_guarded. intros k i s s' Hr Hi. unfold match_test. destruct (R_end _ _ _ _ Hr) as [-> ->].
  destruct (rd_in i Hi) as (x & -> & -> & _). rewrite !at_S. pose proof (R_le _ _ _ _ Hr).
  destruct (t x); [apply (OR_move k i); try lia; now apply R_sacc|]. apply (OR_ok k i); auto. now apply R_sacc.
Qed.
Lemma cs_space : cs (guarded e1 (match_space e1)) (guarded e2 (match_space e2)) true.
Proof.
  apply cs_guarded. intros k i s s' Hr Hi. unfold match_space. destruct (R_end _ _ _ _ Hr) as [-> ->].
  destruct (rd_in i Hi) as (x & -> & -> & _). rewrite !at_S. pose proof (R_le _ _ _ _ Hr).
  apply (OR_move k i); try lia. now apply R_sacc.
Qed.
Lemma cs_exact l : short l = true -> cs (guarded e1 (match_exact e1 l)) (guarded e2 (match_exact e2 l)) true.
Proof.
  intro Sh. apply cs_guarded. intros k i s s' Hr Hi. unfold match_exact. destruct (R_end _ _ _ _ Hr) as [E1 E2].
  rewrite E1, E2. pose proof (R_le _ _ _ _ Hr).
  destruct l as [|c [|]]; [| |discriminate]; cbn [exact_loop].
  - apply (OR_ok k i); auto. now apply R_sacc.
  - cbn [set_acc s_end]. rewrite E1, E2. destruct (rd_in i Hi) as (x & -> & -> & _). rewrite !at_S.
    destruct (c =? x)%Z.
    + apply (OR_bind k i (S i)); [apply (OR_move k i); try lia; now apply R_sacc|].
      intros j t t' Ht Lj. apply (OR_ok k j); [exact Ht|lia].
    + apply (OR_ok k i); auto. apply R_sacc. apply (R_set k i); [now apply R_sacc|lia].
Qed.
Lemma rd_end : D = true -> exists c c', c <> c_nl /\ c' <> c_nl /\ rd e1 (at1 L) = Some c /\ rd e2 (at2 L) = Some c'.
Proof.
  intro H. destruct (HD1 H) as (c & p & -> & N). destruct (HD2 H) as (c' & p' & -> & N'). exists c, c'. conj; auto; apply rd_first.
Qed.
(** $ reads the byte behind the query and stays inside when that is not a newline. *)
Lemma cs_end : D = true -> cs (match_end e1) (match_end e2) true.
Proof.
  intros H k i s s' Hr. pose proof (R_le _ _ _ _ Hr) as B. unfold match_end. destruct (R_end _ _ _ _ Hr) as [E1 E2]. rewrite E1, E2.
  rewrite !Z.ltb_antisym. replace (at1 i <=? qe e1)%Z with true by (rewrite <- at_qe; unfold at_; lia). replace (at2 i <=? qe e2)%Z with true by (rewrite <- at_qe; unfold at_; lia). cbn [negb].
  replace (at1 i =? qe e1)%Z with (i =? L) by (rewrite <- at_qe; unfold at_; lia). replace (at2 i =? qe e2)%Z with (i =? L) by (rewrite <- at_qe; unfold at_; lia).
  destruct (Nat.eqb_spec i L) as [->|Ne].
  - destruct (rd_end H) as (c & c' & N & N' & -> & ->). apply Z.eqb_neq in N, N'. rewrite N, N'. apply (OR_ok k L); [now apply R_sacc|lia].
  - destruct (rd_in i ltac:(lia)) as (x & -> & -> & _). cbn [orb]. rewrite !at_S. destruct (x =? c_nl)%Z; [apply (OR_move k i); try lia; now apply R_sacc|]. apply (OR_ok k i); [now apply R_sacc|lia].
Qed.
Lemma cs_term t : safe_term D t = true -> cs (match_term e1 t) (match_term e2 t) true.
Proof.
  destruct t; cbn [safe_term match_term]; intro H; auto using cs_exact, cs_test.
  - destruct (term_kind tok) as [| |[]]; auto using cs_exact, cs_test, cs_space.
  - intros k i s s' Hr. unfold match_start. destruct (R_end _ _ _ _ Hr) as [-> ->]. rewrite !qe_le.
    destruct (Nat.leb_spec L i); [apply (OR_ok k i); auto; now apply R_sacc|].
    replace (at1 i =? qb e1)%Z with (i =? 0) by (unfold at_; cbn; lia). replace (at2 i =? qb e2)%Z with (i =? 0) by (unfold at_; cbn; lia).
    apply (OR_ok k i); auto. now apply R_sacc.
  - now apply cs_end.
Qed.
Lemma cs_ok nd : cs (fun s => Ok s) (fun s => Ok s) nd.
Proof. intros k i s s' H. apply (OR_ok k i); auto. destruct nd; lia. Qed.
Definition inj_ok (l l' : list clo) : Prop := Forall2 (fun m m' => cs m m' false) l l'.
Lemma cs_dfs0 l l' : inj_ok l l' -> cs (dfs0 l) (dfs0 l') false.
Proof.
  induction 1 as [|c c' r r' Hc Hr IH]; intros k i s s' H; cbn [dfs0].
  - now apply (OR_ok k i); [|lia].
  - destruct Hr as [|d d' r r' Hd Hr]; [exact (Hc _ _ _ _ H)|].
    eapply OR_bind; [apply (Hc _ _ _ _ H)|]. intros j t t' Ht Lj. rewrite (R_acc _ _ _ _ Ht).
    destruct (s_acc t'); [apply (OR_ok k j); auto|]. apply (IH k j). now apply R_sacc.
Qed.
Definition kok (K K' : list clo -> clo) (nd : bool) : Prop := forall l l', inj_ok l l' -> cs (K l) (K' l') nd.
Lemma cs_dfs l l' nd : Forall2 (fun K K' => kok K K' nd) l l' -> forall i i', inj_ok i i' -> cs (dfs l i) (dfs l' i') nd.
Proof.
  induction 1 as [|c c' r r' Hc Hr IH]; intros i0 i0' Hi k i s s' H; cbn [dfs].
  - apply (OR_ok k i); auto. destruct nd; lia.
  - destruct Hr as [|d d' r r' Hd Hr]; [exact (Hc _ _ Hi _ _ _ _ H)|].
    eapply OR_bind; [apply (Hc _ _ Hi _ _ _ _ H)|]. intros j t t' Ht Lj. rewrite (R_acc _ _ _ _ Ht).
    destruct (s_acc t'); [apply (OR_ok k j); auto|].
    eapply OR_weak; [apply (IH [] [] (Forall2_nil _) k j); now apply R_sacc|]. destruct nd; lia.
Qed.
Lemma cs_simple m m' r r' nd : cs m m' nd -> cs r r' nd -> cs (simple_m m r) (simple_m m' r') nd.
Proof.
  intros Hm Hr k i s s' H. unfold simple_m. eapply OR_bind; [apply (Hm _ _ _ _ H)|]. intros j t t' Ht Lj.
  rewrite (R_acc _ _ _ _ Ht). destruct (s_acc t'); [|apply (OR_ok k j); auto].
  eapply OR_bind; [apply (Hr _ _ _ _ Ht)|]. intros q u u' Hu Lq. rewrite (R_acc _ _ _ _ Hu).
  destruct (s_acc u'); [apply (OR_ok k q); [exact Hu|destruct nd; lia]|].
  destruct (R_end _ _ _ _ H) as [-> ->]. apply (OR_ok k i); [|destruct nd; lia]. eapply R_set; [exact Hu|]. now apply R_le in H.
Qed.
(** States after some repetitions that started at [i]. *)
Definition RI (k : nat) (lo : nat) (_ : nat) (s s' : st) : Prop := exists j, R k j s s' /\ lo <= j.
Lemma cs_reps m m' n nd : cs m m' nd -> forall k i s s', R k i s s' ->
  sumrel (RI k (if nd then i else 0) 0) (OR k (if nd then i else 0)) (reps n m s) (reps n m' s').
Proof.
  intros Hm k i s s' H. unfold reps. rewrite !loopN_nl.
  apply (nl_rel2 _ _ (RI k (if nd then i else 0)) (OR k (if nd then i else 0))).
  - intros c t t' (j & Ht & Lj). unfold req_step. destruct (Hm k j t t' Ht) as (q & u & u' & -> & -> & Hu & Lq).
    rewrite (R_acc _ _ _ _ Hu). destruct (s_acc u'); cbn.
    + exists q. split; [exact Hu|destruct nd; lia].
    + apply (OR_ok k q); [exact Hu|destruct nd; lia].
  - exists i. split; [exact H|destruct nd; lia].
Qed.
Lemma cs_repeated m m' n r r' nd : cs m m' nd -> cs r r' nd -> cs (repeated_m m n r) (repeated_m m' n r') nd.
Proof.
  intros Hm Hr k i s s' H. unfold repeated_m. pose proof (cs_reps m m' n nd Hm k i s s' H) as X.
  destruct (reps n m s), (reps n m' s'); cbn in X; try tauto. destruct X as (j & Hj & Lj).
  eapply OR_weak; [apply (Hr _ _ _ _ Hj)|destruct nd; lia].
Qed.
Lemma cs_bt_inj r r' l l' : inj_ok l l' -> cs (greedy_bt false r l) (greedy_bt false r' l') true.
Proof.
  intros Hl k i s s' H. unfold greedy_bt. eapply OR_bind; [apply (cs_dfs0 _ _ Hl _ _ _ _ H)|].
  intros j t t' Ht _. destruct (R_end _ _ _ _ H) as [-> ->]. apply (OR_ok k i); auto. eapply R_set; [exact Ht|]. now apply R_le in H.
Qed.
Lemma cs_opt m m' n b b' : (n <= 1)%N -> cs m m' false -> cs b b' false -> cs (greedy_opt e1 m n b) (greedy_opt e2 m' n b') false.
Proof.
  intros Hn Hm Hb k i s s' H. unfold greedy_opt. eapply OR_bind; [apply (Hm _ _ _ _ H)|]. intros j t t' Ht _.
  eapply OR_bind; [apply (Hb _ _ _ _ Ht)|]. intros q u u' Hu _. rewrite (R_acc _ _ _ _ Hu).
  destruct (R_end _ _ _ _ Hu) as [E1 E2]. destruct (R_start _ _ _ _ Hu) as [S1 S2]. rewrite E1, E2, S1, S2.
  replace (at2 k <? at2 q)%Z with (k <? q) by (unfold at_; lia). replace (at1 k <? at1 q)%Z with (k <? q) by (unfold at_; lia).
  destruct (negb (s_acc u') && (k <? q)) eqn:B; [|apply (OR_ok k q); auto; lia].
  apply andb_true_iff in B as [_ B]. apply Nat.ltb_lt in B. pose proof (R_le _ _ _ _ Hu).
  replace (at1 q - Z.of_N n)%Z with (at1 (q - N.to_nat n)) by (unfold at_; lia).
  replace (at2 q - Z.of_N n)%Z with (at2 (q - N.to_nat n)) by (unfold at_; lia).
  eapply OR_bind; [apply (OR_move k q u u' (q - N.to_nat n) 0 Hu); lia|].
  intros x v v' Hv _. apply (Hb _ _ _ _ Hv).
Qed.

(** ** Greedy repetition of a single character *)
Notation hp := (hp w).
Definition unit2 (m m' : clo) (P : Z -> bool) : Prop := forall k i s s', R k i s s' ->
  exists t t', m s = Ok t /\ m' s' = Ok t' /\ R k (if hp P i then S i else i) t t' /\ s_acc t' = hp P i.
Lemma unit2_cs m m' P : unit2 m m' P -> cs m m' true.
Proof.
  intros U k i s s' H. destruct (U k i s s' H) as (t & t' & -> & -> & Ht & _). apply (OR_ok k (if hp P i then S i else i)); auto.
  destruct (hp P i); lia.
Qed.
Lemma scan2 m m' P : unit2 m m' P -> forall n k x y j s s', R k j s s' -> k <= y <= x -> x < L -> x - y < n -> hp P y = true ->
  exists j' t t', back_scan e1 m n (at1 x) s = Ok t /\ back_scan e2 m' n (at2 x) s' = Ok t' /\ R k j' t t' /\ y <= j'.
Proof.
  intro U. induction n as [|n IH]; intros k x y j s s' H Hy Hx Hn Py; [lia|]. cbn [back_scan].
  assert (H' : R k x (set_end (at1 x) s) (set_end (at2 x) s')) by (eapply R_set; [exact H|lia]).
  destruct (U k x _ _ H') as (t & t' & -> & -> & Ht & A). cbn [bind]. rewrite (R_acc _ _ _ _ Ht), A.
  destruct (hp P x) eqn:Px.
  - exists x. do 2 eexists. split; [reflexivity|]. split; [reflexivity|]. split; [eapply R_set; [exact Ht|lia]|lia].
  - assert (y <> x) by congruence. pose proof (R_le _ _ _ _ H). destruct x as [|x]; [lia|].
    replace (at1 (S x) - 1)%Z with (at1 x) by (unfold at_; lia). replace (at2 (S x) - 1)%Z with (at2 x) by (unfold at_; lia).
    rewrite (at_ok pre1 w post1 x) by lia. rewrite (at_ok pre2 w post2 x) by lia.
    apply (IH k x y (S x)); auto; lia.
Qed.
(** The position is at least [c] characters right of [p0], all of them in the set. *)
Definition RB (P : Z -> bool) (k p0 lo : nat) (c : nat) (s s' : st) : Prop := exists j,
  R k j s s' /\ p0 + c <= j /\ (forall q, p0 <= q < p0 + c -> hp P q = true) /\ lo <= p0 /\ k <= p0.
Lemma cs_gen m m' P mn mx b b' r r' nd : unit2 m m' P -> cs b b' true -> cs r r' nd ->
  cs (greedy_gen e1 m mn mx b r) (greedy_gen e2 m' mn mx b' r') nd.
Proof.
  intros U Hb Hr k i s s' H. unfold greedy_gen. pose proof (cs_reps m m' mn true (unit2_cs _ _ _ U) k i s s' H) as X.
  destruct (reps mn m s) as [s0|o], (reps mn m' s') as [s0'|o']; cbn in X; try tauto;
    [|eapply OR_weak; [exact X|destruct nd; lia]].
  destruct X as (p0 & H0 & L0). destruct (R_end _ _ _ _ H0) as [E1 E2]. rewrite E1, E2. pose proof (R_le _ _ _ _ H0) as B0.
  assert (FIN : forall c t t', RB P k p0 i c t t' -> 
    OR k (if nd then i else 0)
      match nl c (bt_step e1 m b (at1 p0)) t with inr o => o | inl s2 => r (set_acc true s2) end
      match nl c (bt_step e2 m' b' (at2 p0)) t' with inr o => o | inl s2 => r' (set_acc true s2) end).
  { intros c t t' Ht.
    assert (N : sumrel (RB P k p0 i 0) (OR k (if nd then i else 0)) (nl c (bt_step e1 m b (at1 p0)) t) (nl c (bt_step e2 m' b' (at2 p0)) t')).
    { apply (nl_rel2 _ _ (RB P k p0 i)); [|exact Ht]. clear c t t' Ht. intros c t t' (j & Ht & Hj & Hp & Hl & Hk).
      unfold bt_step. destruct (Hb k j t t' Ht) as (q & u & u' & -> & -> & Hu & Lq).
      rewrite (R_acc _ _ _ _ Hu). destruct (s_acc u').
      - cbn. apply (OR_ok k q); [exact Hu|destruct nd; lia].
      - unfold back_for. destruct (R_end _ _ _ _ Hu) as [-> ->]. pose proof (R_le _ _ _ _ Hu). destruct q as [|q]; [lia|].
        replace (at1 (S q) - 1)%Z with (at1 q) by (unfold at_; lia). replace (at2 (S q) - 1)%Z with (at2 q) by (unfold at_; lia).
        rewrite (at_ok pre1 w post1 q) by lia. rewrite (at_ok pre2 w post2 q) by lia.
        replace (Z.to_nat (at1 (S q) - at1 p0)) with (S q - p0) by (unfold at_; lia).
        replace (Z.to_nat (at2 (S q) - at2 p0)) with (S q - p0) by (unfold at_; lia).
        destruct (scan2 m m' P U (S q - p0) k q (p0 + c) (S q) u u' Hu) as (j' & v & v' & -> & -> & Hv & Lv); try lia; [apply Hp; lia|].
        cbn. exists j'. conj; auto; try lia. intros z Hz. apply Hp. lia. }
    destruct (nl c _ t), (nl c _ t'); cbn in N; try tauto. destruct N as (j & Hj & B1 & _ & B2 & B3).
    eapply OR_weak; [apply (Hr k j); now apply R_sacc|destruct nd; lia]. }
  set (NR := fun (c : nat) (x y : N * st) => fst x = fst y /\ (mn <= fst x)%N /\ exists j, R k j (snd x) (snd y) /\ j = p0 + N.to_nat (fst x - mn)
     /\ (forall q, p0 <= q < j -> hp P q = true)).
  set (OJ := fun (x y : option (N * st)) => match x, y with Some a, Some a' => NR 0 a a' | _, _ => False end).
  assert (F : sumrel (NR 0) OJ (loopN (mx - mn) (greedy_step m) (mn, s0)) (loopN (mx - mn) (greedy_step m') (mn, s0'))).
  { rewrite !loopN_nl. apply (nl_rel2 _ _ NR OJ).
    - intros c [x t] [y t'] (E & Hm & j & Ht & Hj & Hp). cbn in E, Hm, Ht, Hj. subst y. unfold greedy_step. cbn [fst snd].
      destruct (U k j t t' Ht) as (u & u' & -> & -> & Hu & A). rewrite (R_acc _ _ _ _ Hu), A. destruct (hp P j) eqn:Pj; cbn.
      + split; [reflexivity|]. cbn. split; [lia|]. exists (S j). conj; auto; [lia|]. intros q Hq. destruct (Nat.eq_dec q j) as [->|]; [exact Pj|apply Hp; lia].
      + split; [reflexivity|]. cbn. split; [lia|]. exists j. conj; auto. now apply R_sacc.
    - split; [reflexivity|]. cbn. split; [lia|]. exists p0. conj; auto; [lia|]. intros q Hq. lia. }
  assert (GO : forall x y, NR 0 x y ->
    OR k (if nd then i else 0)
      match loopN (fst x - mn) (bt_step e1 m b (at1 p0)) (snd x) with inr o => o | inl s2 => r (set_acc true s2) end
      match loopN (fst y - mn) (bt_step e2 m' b' (at2 p0)) (snd y) with inr o => o | inl s2 => r' (set_acc true s2) end).
  { intros [x t] [y t'] (E & Hm & j & Ht & Hj & Hp). cbn in *. subst y. rewrite !loopN_nl. apply FIN.
    exists j. conj; auto; try lia. intros q Hq. apply Hp. lia. }
  destruct (loopN _ _ (mn, s0)) as [x|[x|]], (loopN _ _ (mn, s0')) as [y|[y|]]; cbn in F; try tauto; now apply GO.
Qed.
Lemma cs_lazy m m' mn mx hc r r' l l' nd : cs m m' nd -> cs r r' nd -> inj_ok l l' -> cs (lazy_m e1 m mn mx hc r l) (lazy_m e2 m' mn mx hc r' l') nd.
Proof.
  intros Hm Hr Hl k i s s' H. unfold lazy_m. pose proof (cs_reps m m' mn nd Hm k i s s' H) as X.
  set (lo := if nd then i else 0) in *.
  destruct (reps mn m s) as [s0|o], (reps mn m' s') as [s0'|o']; cbn in X; try tauto.
  destruct (R_end _ _ _ _ H) as [E1 E2]. rewrite E1, E2. pose proof (R_le _ _ _ _ H) as B0.
  assert (LO : lo <= i) by (unfold lo; destruct nd; lia).
  assert (F : sumrel (RI k lo 0) (sumrel (RI k lo 0) (OR k lo)) (loopN (mx - mn) (lazy_step e1 m hc r l (at1 i)) s0) (loopN (mx - mn) (lazy_step e2 m' hc r' l' (at2 i)) s0')).
  { rewrite !loopN_nl. apply (nl_rel2 _ _ (RI k lo)); [|exact X]. intros c t t' (j & Ht & Lj). unfold lazy_step.
    destruct (R_end _ _ _ _ Ht) as [T1 T2]. rewrite T1, T2, !Z.ltb_antisym, !qe_le, negb_involutive.
    destruct (Nat.leb_spec L j); [exists j; auto|].
    assert (MORE : forall q u u', R k q u u' -> lo <= q -> sumrel (RI k lo c) (sumrel (RI k lo 0) (OR k lo))
      (if s_acc u then inr (inl u) else match m u with UB => inr (inr UB) | Ok s2 => if s_acc s2 then inl s2 else inr (inr (Ok (set_end (at1 i) s2))) end)
      (if s_acc u' then inr (inl u') else match m' u' with UB => inr (inr UB) | Ok s2 => if s_acc s2 then inl s2 else inr (inr (Ok (set_end (at2 i) s2))) end)).
    { intros q u u' Hu Lq. rewrite (R_acc _ _ _ _ Hu). destruct (s_acc u'); [exists q; auto|].
      destruct (Hm k q u u' Hu) as (p & v & v' & -> & -> & Hv & Lp). rewrite (R_acc _ _ _ _ Hv). destruct (s_acc v').
      - exists p. split; [exact Hv|]. unfold lo in *. destruct nd; lia.
      - cbn. apply (OR_ok k i); [|exact LO]. eapply R_set; [exact Hv|lia]. }
    destruct hc.
    - destruct (Hr k j t t' Ht) as (q & u & u' & -> & -> & Hu & Lq).
      assert (Lq' : lo <= q) by (unfold lo in *; destruct nd; lia).
      pose proof (MORE q u u' Hu Lq') as M2. rewrite (R_acc _ _ _ _ Hu) in M2 |- *. destruct (s_acc u'); [|exact M2]. apply (OR_ok k q); auto.
    - destruct (cs_dfs0 l l' Hl k j t t' Ht) as (q & u & u' & -> & -> & Hu & _).
      apply (MORE j); [|exact Lj]. eapply R_set; [exact Hu|]. now apply R_le in Ht. }
  destruct (loopN _ _ s0) as [x|[x|x]], (loopN _ _ s0') as [y|[y|y]]; cbn in F; try tauto;
    destruct F as (j & Hj & Lj); (eapply OR_weak; [apply (Hr _ _ _ _ Hj)|unfold lo in *; destruct nd; lia]).
Qed.
Lemma cs_poss m m' mn mx r r' nd : cs m m' nd -> cs r r' nd -> cs (possessive_m m mn mx r) (possessive_m m' mn mx r') nd.
Proof.
  intros Hm Hr k i s s' H. unfold possessive_m. set (lo := if nd then i else 0) in *.
  set (PR := fun (c : nat) (x y : N * Z * st) => fst (fst x) = fst (fst y) /\ RI k lo 0 (snd x) (snd y)
     /\ exists z, snd (fst x) = at1 z /\ snd (fst y) = at2 z /\ k <= z <= L /\ lo <= z).
  destruct (R_end _ _ _ _ H) as [E1 E2]. rewrite E1, E2. pose proof (R_le _ _ _ _ H) as B0.
  assert (LO : lo <= i) by (unfold lo; destruct nd; lia).
  assert (F : sumrel (PR 0) (sumrel (RI k lo 0) (OR k lo)) (loopN mx (poss_step m mn) (0%N, at1 i, s)) (loopN mx (poss_step m' mn) (0%N, at2 i, s'))).
  { rewrite !loopN_nl. apply (nl_rel2 _ _ PR).
    - intros c [[x z] t] [[y z'] t'] (E & (j & Ht & Lj) & q & Hz & Hz' & Bq & Lq). cbn in *. subst y z z'. unfold poss_step.
      destruct (Hm k j t t' Ht) as (p & v & v' & -> & -> & Hv & Lp). rewrite (R_acc _ _ _ _ Hv).
      assert (Lp' : lo <= p) by (unfold lo in *; destruct nd; lia). pose proof (R_le _ _ _ _ Hv).
      destruct (s_acc v').
      + cbn. split; [reflexivity|]. split; [exists p; auto|]. exists p. destruct (R_end _ _ _ _ Hv) as [-> ->]. conj; auto; lia.
      + destruct (x <? mn)%N; cbn; [apply (OR_ok k p); auto|]. exists q. split; [|exact Lq]. apply (R_set k p); [now apply R_sacc|lia].
    - split; [reflexivity|]. split; [exists i; auto|]. exists i. conj; auto; lia. }
  destruct (loopN _ _ (_, s)) as [[[? ?] x]|[x|x]], (loopN _ _ (_, s')) as [[[? ?] y]|[y|y]]; cbn in F; try tauto.
  - destruct F as (_ & (j & Hj & Lj) & _). cbn in Hj. eapply OR_weak; [apply (Hr _ _ _ _ Hj)|unfold lo in *; destruct nd; lia].
  - destruct F as (j & Hj & Lj). eapply OR_weak; [apply (Hr _ _ _ _ Hj)|unfold lo in *; destruct nd; lia].
Qed.
Lemma set_nth_rel g g' i v v' : Forall2 gr1 g g' -> gr1 (Some v) (Some v') -> i < length g ->
  exists h h', set_nth g i (Some v) = Some h /\ set_nth g' i (Some v') = Some h' /\ Forall2 gr1 h h'.
Proof.
  intros H. revert i. induction H as [|x y g g' Hx Hg IH]; intros i Hv Hi; cbn in Hi; [lia|]. destruct i as [|i]; cbn [set_nth].
  - do 2 eexists. conj; auto.
  - destruct (IH i Hv ltac:(lia)) as (h & h' & -> & -> & F). do 2 eexists. conj; auto.
Qed.
Lemma cs_group m m' x r r' nd : x < G -> cs m m' nd -> cs r r' nd -> cs (group_m m x r) (group_m m' x r') nd.
Proof.
  intros Hx Hm Hr k i s s' H. unfold group_m. eapply OR_bind; [apply (Hm _ _ _ _ H)|]. intros j t t' Ht Lj.
  rewrite (R_acc _ _ _ _ Ht). destruct (s_acc t'); [|apply (OR_ok k j); auto].
  destruct (R_end _ _ _ _ H) as [-> ->]. destruct (R_end _ _ _ _ Ht) as [-> ->].
  pose proof (R_le _ _ _ _ H) as B1. pose proof (R_le _ _ _ _ Ht) as B2.
  destruct Ht as (g & g' & b & -> & -> & _ & Hg & LG). unfold set_group. cbn [s_grp mk].
  destruct (set_nth_rel g g' x (at1 i, at1 j) (at2 i, at2 j) Hg) as (h & h' & E1 & E2 & F); [exists i, j; conj; auto; lia|lia|].
  unfold EngineOk.mk. cbn [s_grp]. rewrite E1, E2. cbn [bind].
  eapply OR_weak; [apply (Hr k j)|destruct nd; lia]. exists h, h', b. conj; auto; try lia. now rewrite (set_nth_length _ _ _ _ E1).
Qed.
Lemma cs_negated m m' P : unit2 m m' P -> cs (negated_m e1 m) (negated_m e2 m') true.
Proof.
  intros U k i s s' H. unfold negated_m. destruct (R_end _ _ _ _ H) as [-> ->]. rewrite !qe_le. pose proof (R_le _ _ _ _ H).
  destruct (Nat.leb_spec L i); [apply (OR_ok k i); auto; now apply R_sacc|].
  destruct (U k i s s' H) as (t & t' & -> & -> & Ht & A). cbn [bind]. rewrite (R_acc _ _ _ _ Ht), A. destruct (hp P i).
  - apply (OR_ok k (S i)); [now apply R_sacc|lia].
  - destruct (R_end _ _ _ _ Ht) as [-> ->]. rewrite !at_S. apply (OR_move k i); try lia. now apply R_sacc.
Qed.

Hypothesis Hw : Forall (fun c => (-128 <= c <= 127)%Z) w.
Hypothesis Hlen : (N.of_nat (length w) < UMAX)%N.
Lemma unit_ok2 m : unit_ok G m = true -> exists P, unit2 (mt e1 m []) (mt e2 m []) P.
Proof.
  unfold unit_ok. rewrite !andb_true_iff. intros [[[A B] C] Da]. destruct (uset m) as [P|] eqn:E; [|discriminate].
  exists P. intros k i s s' (g & g' & b & -> & -> & Hk & Hg & Lg).
  pose proof (uset_step pre1 w post1 G m P E (mt_good pre1 w post1 G false (no_end post1) Hw Hlen m PAny B) C Da) as U1.
  pose proof (uset_step pre2 w post2 G m P E (mt_good pre2 w post2 G false (no_end post2) Hw Hlen m PAny B) C Da) as U2.
  assert (Lg' : length g' = G) by (rewrite <- Lg; clear -Hg; induction Hg; cbn; congruence).
  rewrite (U1 (at1 k) i g b) by (auto; unfold at_; lia). rewrite (U2 (at2 k) i g' b) by (auto; unfold at_; lia).
  do 2 eexists. split; [reflexivity|]. split; [reflexivity|].
  assert (hp P i = true -> i < L) by (unfold EngineOk.hp; destruct (nth_error w i) eqn:Q; [intros _; apply nth_error_Some; congruence|discriminate]).
  destruct (hp P i); (split; [|reflexivity]); do 3 eexists; conj; eauto; lia.
Qed.
Lemma cs_noopt (M M' : clo) nd : cs M M' nd -> nd = true -> cs M M' true.
Proof. intros H ->. exact H. Qed.
Lemma mt_safe n : safe D G n = true -> kok (mt e1 n) (mt e2 n) (noopt n).
Proof.
  assert (K : forall cs0, Forall (fun n => safe D G n = true -> kok (mt e1 n) (mt e2 n) (noopt n)) cs0 -> forallb (safe D G) cs0 = true ->
     Forall2 (fun K K' => kok K K' (forallb noopt cs0)) (map (fun c i => mt e1 c i) cs0) (map (fun c i => mt e2 c i) cs0)
     /\ inj_ok (map (fun c => mt e1 c []) cs0) (map (fun c => mt e2 c []) cs0)).
  { intros cs0 HF Hs. split.
    - assert (X : forall nd, (nd = true -> forallb noopt cs0 = true) -> Forall2 (fun K K' => kok K K' nd) (map (fun c i => mt e1 c i) cs0) (map (fun c i => mt e2 c i) cs0)).
      { intros nd Hnd. induction HF as [|c cs0 Hc HF IH]; cbn; [constructor|]. cbn in Hs. apply andb_true_iff in Hs as [H1 H2].
        constructor; [|apply IH; [exact H2|]; intro E; specialize (Hnd E); cbn in Hnd; apply andb_true_iff in Hnd; tauto].
        intros l l' Hl. eapply cs_weak; [apply (Hc H1 l l' Hl)|]. intro E. specialize (Hnd E). cbn in Hnd. apply andb_true_iff in Hnd. tauto. }
      apply X. auto.
    - induction HF as [|c cs0 Hc HF IH]; cbn; [constructor|]. cbn in Hs. apply andb_true_iff in Hs as [H1 H2].
      constructor; [|now apply IH]. eapply cs_weak; [apply (Hc H1 [] []); constructor|discriminate]. }
  assert (NIL : inj_ok [] []) by constructor.
  induction n using node_ind'; cbn [safe noopt]; intros Hs l l' Hl; cbn [mt]; rewrite ?andb_true_iff in Hs.
  - now apply cs_term.
  - destruct (K cs0 H Hs) as [K1 K2]. now apply cs_dfs.
  - destruct Hs as [H1 H2]. destruct (K cs0 H H2) as [K1 K2].
    destruct cs0; [cbn [forallb]; rewrite andb_true_r; apply IHn; auto|].
    apply cs_simple; [eapply cs_weak; [apply (IHn H1 [] [] NIL)|]|eapply cs_weak; [apply (cs_dfs _ _ _ K1 _ _ Hl)|]];
      rewrite andb_true_iff; tauto.
  - destruct Hs as [[H1 H2] H3]. destruct (K cs0 H H2) as [K1 K2]. unfold greedy_m. unfold opt_case in H3 |- *.
    destruct (N.eqb a 0 && N.eqb b 1 && N.eqb (nmin n) (nmax n)) eqn:E.
    + cbn [negb andb]. apply N.leb_le in H3. apply cs_opt; [exact H3|eapply cs_weak; [apply (IHn H1 [] [] NIL)|discriminate]|].
      destruct (nonempty cs0).
      * change (cs (dfs (map (fun c i => mt e1 c i) cs0) []) (dfs (map (fun c i => mt e2 c i) cs0) []) false).
        eapply cs_weak; [apply (cs_dfs _ _ _ K1 _ _ NIL)|discriminate].
      * eapply cs_weak; [now apply cs_bt_inj|discriminate].
    + apply andb_true_iff in H3 as [H3 H4]. destruct (unit_ok2 n H3) as (P & U). cbn [negb andb]. rewrite H4 in *. rewrite andb_true_r.
      apply (cs_gen _ _ P); [exact U| |eapply cs_weak; [apply (cs_dfs _ _ _ K1 _ _ NIL)|auto]].
      destruct (nonempty cs0); [|now apply cs_bt_inj].
      change (cs (dfs (map (fun c i => mt e1 c i) cs0) []) (dfs (map (fun c i => mt e2 c i) cs0) []) true). apply (cs_dfs _ _ _ K1 _ _ NIL).
  - destruct Hs as [H1 H2]. destruct (K cs0 H H2) as [K1 K2].
    apply cs_lazy; auto; (eapply cs_weak; [first [apply (IHn H1 [] [] NIL)|apply (cs_dfs _ _ _ K1 _ _ NIL)]|rewrite andb_true_iff; tauto]).
  - destruct Hs as [H1 H2]. destruct (K cs0 H H2) as [K1 K2].
    apply cs_poss; (eapply cs_weak; [first [apply (IHn H1 l l' Hl)|apply (cs_dfs _ _ _ K1 _ _ NIL)]|rewrite andb_true_iff; tauto]).
  - destruct Hs as [H1 H2]. destruct (K cs0 H H2) as [K1 K2].
    apply cs_repeated; (eapply cs_weak; [first [apply (IHn H1 [] [] NIL)|apply (cs_dfs _ _ _ K1 _ _ NIL)]|rewrite andb_true_iff; tauto]).
  - destruct Hs as [[H0 H1] H2]. destruct (K cs0 H H2) as [K1 K2]. apply Nat.ltb_lt in H0.
    apply cs_group; [exact H0| |].
    + eapply cs_weak; [apply (IHn H1 _ _ K2)|rewrite andb_true_iff; tauto].
    + eapply cs_weak; [apply (cs_dfs _ _ _ K1); now apply Forall2_app|rewrite andb_true_iff; tauto].
  - destruct (unit_ok2 n Hs) as (P & U). eapply cs_weak; [apply (cs_negated _ _ P U)|auto].
Qed.
End Two.

(** ** The API on a safe tree, in two buffers *)
Definition shift_view (d : Z) (v : view) : view :=
  match v with Some (a, b) => Some (a + d, b + d)%Z | None => None end.
Definition shift_st (d : Z) (s : st) : st :=
  mkSt (s_start s + d) (s_end s + d) (map (shift_view d) (s_grp s)) (s_acc s).
Definition shift_rout (d : Z) (o : rout) : rout :=
  match o with RDone s => RDone (shift_st d s) | RUB => RUB | RFuel => RFuel end.

Section ApiTwo.
Variables (pre1 post1 pre2 post2 w : str) (D : bool) (n : node).
Hypothesis HD1 : D = true -> exists c p, post1 = c :: p /\ c <> c_nl.
Hypothesis HD2 : D = true -> exists c p, post2 = c :: p /\ c <> c_nl.
Notation e1 := (env_of pre1 w post1).
Notation e2 := (env_of pre2 w post2).
Notation G := (ngroups n).
Hypothesis Hw : Forall (fun c => (-128 <= c <= 127)%Z) w.
Hypothesis Hlen : (N.of_nat (length w) < UMAX)%N.
Hypothesis Hsafe : safe D G n = true.
Hypothesis Hp1 : post1 <> [].
Hypothesis Hp2 : post2 <> [].
Notation L := (length w).
Notation d := (Z.of_nat (length pre2) - Z.of_nat (length pre1))%Z.
(** Results of the two runs: at the same place of the query, at most one past its end, and
    not past its end if accepted. *)
Definition RR (s s' : st) : Prop := exists k i g g' b,
  s = mk pre1 (at_ pre1 k) i g b /\ s' = mk pre2 (at_ pre2 k) i g' b /\ k <= i <= S L /\ (b = true -> i <= L)
  /\ Forall2 (gr1 pre1 pre2 w) g g' /\ length g = G.
Lemma gr1_shift v v' : gr1 pre1 pre2 w v v' -> v' = shift_view d v.
Proof.
  clear. destruct v as [[a b]|], v' as [[a' b']|]; cbn; try tauto. intros (i & j & _ & _ & -> & -> & -> & ->).
  unfold at_. f_equal. f_equal; lia.
Qed.
Lemma RR_shift s s' : RR s s' -> s' = shift_st d s.
Proof.
  clear Hw Hlen Hsafe Hp1 Hp2 HD1 HD2. intros (k & i & g & g' & b & -> & -> & _ & _ & F & _). unfold shift_st, mk. cbn. f_equal; try (unfold at_; lia).
  clear -F. induction F as [|x y g g' H F IH]; cbn; [reflexivity|]. f_equal; [now apply gr1_shift|exact IH].
Qed.
Lemma R_RR k i s s' : R pre1 pre2 w G k i s s' -> RR s s'.
Proof. intros (g & g' & b & -> & -> & H & F & Lg). exists k, i, g, g', b. conj; auto; lia. Qed.
Lemma one_more pre post j : post <> [] -> j <= L -> ptr_ok (env_of pre w post) (at_ pre (S j)) = true.
Proof.
  clear. intros Hp Hj. unfold ptr_ok, at_, env_of. cbn [buf]. rewrite !app_length. destruct post; [congruence|]. cbn. lia.
Qed.
Lemma next_loop_two fuel : forall k g g' b, k <= S L -> Forall2 (gr1 pre1 pre2 w) g g' -> length g = G ->
  L < fuel + k ->
  exists s s', next_loop fuel e1 n (mk pre1 (at_ pre1 k) k g b) = RDone s
    /\ next_loop fuel e2 n (mk pre2 (at_ pre2 k) k g' b) = RDone s' /\ RR s s'.
Proof.
  induction fuel as [|f IH]; intros k g g' b Hk Hg Lg Hf; cbn [next_loop];
    change (s_start (mk pre1 (at_ pre1 k) k g b)) with (at_ pre1 k);
    change (s_start (mk pre2 (at_ pre2 k) k g' b)) with (at_ pre2 k);
    rewrite !Z.ltb_antisym, !qe_le; destruct (Nat.leb_spec L k) as [Lk|Lk]; cbn [negb]; try lia;
    try (do 2 eexists; split; [reflexivity|]; split; [reflexivity|]; exists k, k, g, g', false; conj; auto; try lia; discriminate).
  assert (HR : R pre1 pre2 w G k k (mk pre1 (at_ pre1 k) k g b) (mk pre2 (at_ pre2 k) k g' b)).
  { exists g, g', b. conj; auto; lia. }
  destruct (mt_safe pre1 post1 pre2 post2 w D G HD1 HD2 Hw Hlen n Hsafe [] [] (Forall2_nil _) k k _ _ HR) as (j & t & t' & -> & -> & Ht & _).
  pose proof Ht as Ht'. destruct Ht as (h & h' & c & -> & -> & Hj & Hh & Lh). cbn [s_acc mk]. destruct c.
  - do 2 eexists. split; [reflexivity|]. split; [reflexivity|]. eapply R_RR. exact Ht'.
  - unfold mk. cbn [s_end s_grp]. rewrite !at_S. rewrite !one_more by (auto; lia).
    apply (IH (S j) h h' false); auto; lia.
Qed.
Lemma none_two : Forall2 (gr1 pre1 pre2 w) (no_groups n) (no_groups n).
Proof. unfold no_groups. clear. induction G as [|g IH]; cbn; constructor; auto. exact I. Qed.
Lemma next_two fuel s s' : RR s s' -> (qe e1 - s_end s < Z.of_nat fuel)%Z ->
  exists t t', next fuel e1 n s = RDone t /\ next fuel e2 n s' = RDone t' /\ RR t t'.
Proof.
  intros (k & i & g & g' & b & -> & -> & H & _ & F & Lg) Hf. unfold next.
  apply next_loop_two; [lia|apply none_two|unfold no_groups; apply repeat_length|].
  unfold mk in Hf. cbn [s_end] in Hf. pose proof (at_qe pre1 w post1). unfold at_ in *. lia.
Qed.
Lemma create_two fuel : L < fuel -> exists t t', create fuel e1 n = RDone t /\ create fuel e2 n = RDone t' /\ RR t t'.
Proof.
  intro Hf. unfold create, fresh. rewrite <- (at_qb pre1 w post1), <- (at_qb pre2 w post2).
  assert (HR : R pre1 pre2 w G 0 0 (mk pre1 (at_ pre1 0) 0 (no_groups n) true) (mk pre2 (at_ pre2 0) 0 (no_groups n) true)).
  { exists (no_groups n), (no_groups n), true. conj; auto using none_two; try lia. unfold no_groups. apply repeat_length. }
  destruct (mt_safe pre1 post1 pre2 post2 w D G HD1 HD2 Hw Hlen n Hsafe [] [] (Forall2_nil _) 0 0 _ _ HR) as (j & t & t' & E1 & E2 & Ht & _).
  unfold mk in E1, E2. rewrite E1, E2. rewrite (R_acc _ _ _ _ _ _ _ _ Ht). destruct (s_acc t').
  - do 2 eexists. split; [reflexivity|]. split; [reflexivity|]. eapply R_RR. exact Ht.
  - apply next_two; [eapply R_RR; exact Ht|]. destruct (R_end _ _ _ _ _ _ _ _ Ht) as [-> _].
    pose proof (at_qe pre1 w post1). unfold at_ in *. lia.
Qed.
End ApiTwo.
