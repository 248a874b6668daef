(** The end of the match never moves left of its start, for every pattern whose optional
    items x? with a fixed size have size at most one; so the search of next() moves right
    and terminates. *)
From Coq Require Import ZArith NArith List Bool Lia ZifyBool ZifyNat ZifyN.
From Verif Require Import Base Text Ast Builder Engine Api AstProofs BuilderProofs EngineRel EngineProofs Checker ApiProofs Runs.
Import ListNotations.
Open Scope Z_scope.

(** Optional items of fixed size: that size is at most one. *)
Fixpoint opt_small (n : node) : bool :=
  match n with
  | Term _ => true
  | SimpleV cs => forallb opt_small cs
  | Simple m cs | Lazy m _ _ cs | Possessive m _ _ cs | Repeated m _ cs | Group m _ cs => opt_small m && forallb opt_small cs
  | Greedy m mn mx cs => (negb (opt_case m mn mx) || (nmin m <=? 1)%N) && opt_small m && forallb opt_small cs
  | Negated m => opt_small m
  end.

Section Mono.
Variable e : env.
Variable a : Z.
Definition I (s : st) : Prop := s_start s = a /\ a <= s_end s.
Definition pres (M : clo) : Prop := forall s s1, I s -> M s = Ok s1 -> I s1.
Definition OI (o : out) : Prop := forall s, o = Ok s -> I s.
Lemma I_end s p : I s -> a <= p -> I (set_end p s).
Proof. intros [H1 H2] H. split; auto. Qed.
Lemma I_acc s b : I s -> I (set_acc b s).
Proof. intros [H1 H2]. split; auto. Qed.
Lemma I_move p s : I s -> a <= p -> OI (move e p s).
Proof. intros H1 H2 t. unfold move. destruct (ptr_ok e p); [|discriminate]. intros [= <-]. now apply I_end. Qed.
Lemma I_ok s : I s -> OI (Ok s).
Proof. intros H t [= <-]. exact H. Qed.
Lemma I_bind x f : OI x -> (forall s, I s -> OI (f s)) -> OI (bind x f).
Proof. intros H1 H2. destruct x as [s|]; cbn; [|discriminate]. apply H2. now apply H1. Qed.
Lemma presO M : pres M <-> forall s, I s -> OI (M s).
Proof. split; intros H s; [intros Is t E; eapply H; eauto|intros s1 Is E; eapply H; eauto]. Qed.

Lemma exact_pres cs : forall p s, a <= p -> I s -> OI (exact_loop e cs p s).
Proof.
  induction cs as [|c cs IH]; intros p s Hp Is; cbn; [now apply I_ok|].
  destruct (rd e (s_end s)) as [x|]; [|discriminate].
  destruct (c =? x).
  - apply I_bind; [apply I_move; [exact Is|destruct Is; lia]|]. intros t It. now apply IH.
  - apply I_ok. auto using I_acc, I_end.
Qed.
Lemma term_pres t : pres (match_term e t).
Proof.
  assert (Gd : forall m, pres m -> pres (guarded e m)).
  { intros m H. apply presO. intros s Is. unfold guarded. destruct (_ <=? _); [apply I_ok; now apply I_acc|]. now apply presO. }
  assert (T : forall f, pres (match_test e f)).
  { intro f. apply presO. intros s Is. unfold match_test. destruct (rd e (s_end s)) as [c|]; [|discriminate].
    destruct (f c); [|apply I_ok; now apply I_acc]. apply I_move; [now apply I_acc|destruct Is; lia]. }
  assert (X : forall cs, pres (match_exact e cs)).
  { intro cs. apply presO. intros s Is. unfold match_exact. apply exact_pres; [apply Is|now apply I_acc || exact Is]. }
  assert (S : pres (match_space e)).
  { apply presO. intros s Is. unfold match_space. destruct (rd e (s_end s)); [|discriminate].
    apply I_move; [now apply I_acc|destruct Is; lia]. }
  destruct t; cbn [match_term]; auto.
  - destruct (term_kind tok) as [| |[]]; auto.
  - apply presO. intros s Is. unfold match_start. destruct (_ <=? _); apply I_ok; now apply I_acc.
  - apply presO. intros s Is. unfold match_end. destruct (_ <? _); [apply I_ok; now apply I_acc|].
    destruct (rd e (s_end s)); [|discriminate]. destruct (_ =? c_nl); [|apply I_ok; now apply I_acc].
    apply I_move; [now apply I_acc|destruct Is; lia].
Qed.
Lemma dfs0_pres l : Forall pres l -> pres (dfs0 l).
Proof.
  induction 1 as [|c r Hc Hr IH]; apply presO; intros s Is; cbn; [now apply I_ok|].
  destruct r as [|d r]; [now apply presO|]. apply I_bind; [now apply presO|]. intros t It.
  destruct (s_acc t); [now apply I_ok|]. apply (presO (dfs0 (d :: r))); auto using I_acc.
Qed.
Definition kpres (k : list clo -> clo) : Prop := forall l, Forall pres l -> pres (k l).
Lemma dfs_pres l : Forall kpres l -> forall i, Forall pres i -> pres (dfs l i).
Proof.
  induction 1 as [|c r Hc Hr IH]; intros i Hi; apply presO; intros s Is; cbn; [now apply I_ok|].
  destruct r as [|d r]; [apply presO; auto|]. apply I_bind; [apply presO; auto|]. intros t It.
  destruct (s_acc t); [now apply I_ok|]. apply (presO (dfs (d :: r) [])); auto using I_acc.
Qed.
Lemma simple_pres m r : pres m -> pres r -> pres (simple_m m r).
Proof.
  intros Hm Hr. apply presO. intros s Is. unfold simple_m. apply I_bind; [now apply presO|]. intros t It.
  destruct (s_acc t); [|now apply I_ok]. apply I_bind; [now apply presO|]. intros u Iu.
  destruct (s_acc u); apply I_ok; auto. apply I_end; [exact Iu|apply Is].
Qed.
Lemma reps_pres m n : pres m -> forall s, I s -> match reps n m s with inl t => I t | inr o => OI o end.
Proof.
  intros Hm s Is. unfold reps. apply (loopN_inv I OI); [|exact Is]. intros t It. unfold req_step.
  specialize (Hm t). destruct (m t) as [u|]; [|discriminate]. specialize (Hm u It eq_refl).
  destruct (s_acc u); [exact Hm|now apply I_ok].
Qed.
Lemma repeated_pres m n r : pres m -> pres r -> pres (repeated_m m n r).
Proof.
  intros Hm Hr. apply presO. intros s Is. unfold repeated_m. pose proof (reps_pres m n Hm s Is) as X.
  destruct (reps n m s); [now apply presO|exact X].
Qed.
Lemma bt_pres b r l : pres r -> Forall pres l -> pres (greedy_bt b r l).
Proof.
  intros Hr Hl. apply presO. intros s Is. unfold greedy_bt. destruct b; [now apply presO|].
  apply I_bind; [apply presO; [now apply dfs0_pres|exact Is]|]. intros t It. apply I_ok. apply I_end; [exact It|apply Is].
Qed.
Lemma opt_pres m k b : (k <= 1)%N -> pres m -> pres b -> pres (greedy_opt e m k b).
Proof.
  intros Hk Hm Hb. apply presO. intros s Is. unfold greedy_opt. apply I_bind; [now apply presO|]. intros t It.
  apply I_bind; [now apply presO|]. intros u Iu. destruct (negb _ && _) eqn:E; [|now apply I_ok].
  apply I_bind; [|now apply presO]. apply I_move; [exact Iu|]. apply andb_true_iff in E as [_ E]. apply Z.ltb_lt in E. destruct Iu. lia.
Qed.
Lemma scan_pres m : pres m -> forall k it s, a <= it - Z.of_nat k + 1 -> I s -> OI (back_scan e m k it s).
Proof.
  intro Hm. induction k as [|k IH]; intros it s H Is; cbn; [now apply I_ok|].
  apply I_bind; [apply presO; [exact Hm|]; apply I_end; [exact Is|lia]|]. intros t It.
  destruct (s_acc t); [apply I_ok; apply I_end; [exact It|lia]|]. destruct (ptr_ok e (it - 1)); [|discriminate]. apply IH; [lia|exact It].
Qed.
Lemma gen_pres m mn mx b r : pres m -> pres b -> pres r -> pres (greedy_gen e m mn mx b r).
Proof.
  intros Hm Hb Hr. apply presO. intros s Is. unfold greedy_gen. pose proof (reps_pres m mn Hm s Is) as X.
  destruct (reps mn m s) as [s0|o]; [|exact X].
  assert (FIN : forall x : N * st, I (snd x) ->
    OI match loopN (fst x - mn) (bt_step e m b (s_end s0)) (snd x) with inr o => o | inl s2 => r (set_acc true s2) end).
  { intros [k t] It. cbn [fst snd] in *.
    assert (L : match loopN (k - mn) (bt_step e m b (s_end s0)) t with inl x => I x | inr o => OI o end).
    { apply (loopN_inv I OI); [|exact It]. clear t It. intros t It. unfold bt_step. pose proof (Hb t) as Hb'.
      destruct (b t) as [t1|]; [|discriminate]. specialize (Hb' t1 It eq_refl).
      destruct (s_acc t1); [now apply I_ok|]. unfold back_for.
      destruct (ptr_ok e (s_end t1 - 1)); [|discriminate].
      destruct (Z.leb_spec (s_end t1) (s_end s0)) as [L|L].
      - replace (Z.to_nat (s_end t1 - s_end s0)) with 0%nat by lia. exact Hb'.
      - pose proof (scan_pres m Hm (Z.to_nat (s_end t1 - s_end s0)) (s_end t1 - 1) t1 ltac:(destruct X; lia) Hb') as SP.
        destruct (back_scan e m _ _ t1) as [u|]; [|discriminate]. now apply SP. }
    destruct (loopN _ _ t) as [u|o]; [|exact L]. apply presO; [exact Hr|]. now apply I_acc. }
  assert (L : match loopN (mx - mn) (greedy_step m) (mn, s0) with inl x => I (snd x) | inr (Some x) => I (snd x) | inr None => True end).
  { set (I2 := fun x : N * st => I (snd x)). set (J := fun x : option (N * st) => match x with Some y => I (snd y) | None => True end).
    apply (loopN_inv I2 J); [|exact X]. intros [k t] It. unfold I2, J, greedy_step in *. cbn in *.
    specialize (Hm t). destruct (m t) as [t1|]; [|exact Logic.I]. specialize (Hm t1 It eq_refl). destruct (s_acc t1); cbn; [exact Hm|].
    now apply I_acc. }
  destruct (loopN _ _ (mn, s0)) as [x|[x|]]; [now apply FIN|now apply FIN|discriminate].
Qed.
Lemma lazy_pres m mn mx hc r l : pres m -> pres r -> Forall pres l -> pres (lazy_m e m mn mx hc r l).
Proof.
  intros Hm Hr Hl. apply presO. intros s Is. unfold lazy_m. pose proof (reps_pres m mn Hm s Is) as X.
  destruct (reps mn m s) as [s0|o]; [|exact X].
  set (J := fun x : st + out => match x with inl s => I s | inr o => OI o end).
  assert (L : match loopN (mx - mn) (lazy_step e m hc r l (s_end s)) s0 with inl x => I x | inr b => J b end).
  { apply (loopN_inv I J); [|exact X]. intros t It. unfold lazy_step. destruct (negb _); [exact It|].
    assert (MORE : forall u, I u -> match (if s_acc u then inr (inl u) else match m u with UB => inr (inr UB)
       | Ok s2 => if s_acc s2 then inl s2 else inr (inr (Ok (set_end (s_end s) s2))) end) with inl x => I x | inr b => J b end).
    { intros u Iu. destruct (s_acc u); [exact Iu|]. specialize (Hm u). destruct (m u) as [v|]; [|discriminate].
      specialize (Hm v Iu eq_refl). destruct (s_acc v); [exact Hm|]. apply I_ok. apply I_end; [exact Hm|apply Is]. }
    destruct hc.
    - specialize (Hr t). destruct (r t) as [u|]; [|discriminate]. specialize (Hr u It eq_refl).
      destruct (s_acc u) eqn:A; [now apply I_ok|]. specialize (MORE u Hr). rewrite A in MORE. exact MORE.
    - pose proof (dfs0_pres l Hl t) as D. destruct (dfs0 l t) as [u|]; [|discriminate].
      apply MORE. apply I_end; [now apply D|apply It]. }
  destruct (loopN _ _ s0) as [t|[t|o]]; cbn in L; [now apply presO|now apply presO|exact L].
Qed.
Lemma poss_pres m mn mx r : pres m -> pres r -> pres (possessive_m m mn mx r).
Proof.
  intros Hm Hr. apply presO. intros s Is. unfold possessive_m.
  set (I3 := fun x : N * Z * st => I (snd x) /\ a <= snd (fst x)).
  set (J := fun x : st + out => match x with inl s => I s | inr o => OI o end).
  assert (L : match loopN mx (poss_step m mn) (0%N, s_end s, s) with inl x => I3 x | inr b => J b end).
  { apply (loopN_inv I3 J); [|split; [exact Is|apply Is]]. intros [[k z] t] [It Hz]. cbn in It, Hz. unfold poss_step.
    specialize (Hm t). destruct (m t) as [u|]; [|discriminate]. specialize (Hm u It eq_refl).
    destruct (s_acc u); [split; [exact Hm|apply Hm]|]. destruct (k <? mn)%N; [now apply I_ok|].
    cbn. apply I_end; [now apply I_acc|exact Hz]. }
  destruct (loopN _ _ _) as [[[k z] t]|[t|o]]; [apply presO; [exact Hr|apply L]|now apply presO|exact L].
Qed.
Lemma group_pres m i r : pres m -> pres r -> pres (group_m m i r).
Proof.
  intros Hm Hr. apply presO. intros s Is. unfold group_m. apply I_bind; [now apply presO|]. intros t It.
  destruct (s_acc t); [|now apply I_ok]. apply I_bind; [|now apply presO].
  unfold set_group. destruct (set_nth _ _ _); [|discriminate]. apply I_ok. exact It.
Qed.
Lemma negated_pres m : pres m -> pres (negated_m e m).
Proof.
  intros Hm. apply presO. intros s Is. unfold negated_m. destruct (_ <=? _); [apply I_ok; now apply I_acc|].
  apply I_bind; [now apply presO|]. intros t It. destruct (s_acc t); [apply I_ok; now apply I_acc|].
  apply I_move; [now apply I_acc|destruct It; lia].
Qed.
Lemma mt_pres n : opt_small n = true -> kpres (mt e n).
Proof.
  assert (K : forall cs, Forall (fun n => opt_small n = true -> kpres (mt e n)) cs -> forallb opt_small cs = true ->
     Forall kpres (map (fun c i => mt e c i) cs) /\ Forall pres (map (fun c => mt e c []) cs)).
  { induction 1 as [|c cs Hc HF IH]; cbn; intro H; [split; constructor|]. apply andb_true_iff in H as [H1 H2].
    destruct (IH H2) as [I1 I2]. split; constructor; auto. apply Hc; auto. }
  induction n using node_ind'; cbn [opt_small]; intros Hs l Hl; cbn [mt]; rewrite ?andb_true_iff in Hs.
  - apply term_pres.
  - destruct (K cs H Hs) as [K1 K2]. now apply dfs_pres.
  - destruct Hs as [H1 H2]. destruct (K cs H H2) as [K1 K2].
    destruct cs; [now apply IHn|]. apply simple_pres; [now apply IHn|]. now apply dfs_pres.
  - destruct Hs as [[H0 H1] H2]. destruct (K cs H H2) as [K1 K2]. unfold greedy_m. unfold opt_case in H0.
    destruct (N.eqb a0 0 && N.eqb b 1 && N.eqb (nmin n) (nmax n)) eqn:E.
    + cbn in H0. apply N.leb_le in H0. apply opt_pres; [exact H0|now apply IHn|]. apply bt_pres; auto. now apply dfs_pres.
    + apply gen_pres; [now apply IHn| |now apply dfs_pres]. apply bt_pres; auto. now apply dfs_pres.
  - destruct Hs as [H1 H2]. destruct (K cs H H2) as [K1 K2]. apply lazy_pres; [now apply IHn|now apply dfs_pres|exact Hl].
  - destruct Hs as [H1 H2]. destruct (K cs H H2) as [K1 K2]. apply poss_pres; [now apply IHn|now apply dfs_pres].
  - destruct Hs as [H1 H2]. destruct (K cs H H2) as [K1 K2]. apply repeated_pres; [now apply IHn|now apply dfs_pres].
  - destruct Hs as [H1 H2]. destruct (K cs H H2) as [K1 K2]. apply group_pres; [now apply IHn|]. apply dfs_pres; auto.
    apply Forall_app. auto.
  - apply negated_pres. now apply IHn.
Qed.
End Mono.

(** The end is at or after the start, and every call returns. *)
Lemma mt_end e n s s1 : opt_small n = true -> s_start s <= s_end s -> mt e n [] s = Ok s1 ->
  s_start s1 = s_start s /\ s_start s <= s_end s1.
Proof. intros H L E. apply (mt_pres e (s_start s) n H [] (Forall_nil _) s s1); [split; auto|exact E]. Qed.
Lemma next_loop_mono e n : opt_small n = true -> forall fuel s, s_start s = s_end s ->
  (qe e - s_start s < Z.of_nat fuel \/ qe e <= s_start s) ->
  match next_loop fuel e n s with
  | RDone s1 => s_start s <= s_start s1 <= s_end s1
  | RUB => True
  | RFuel => False
  end.
Proof.
  intro H. induction fuel as [|f IH]; intros s Es Hf; cbn [next_loop];
    destruct (Z.ltb_spec (s_start s) (qe e)) as [L|L]; try lia; try (cbn; lia).
  destruct (mt e n [] s) as [s1|] eqn:M; [|exact Logic.I].
  destruct (mt_end e n s s1 H ltac:(lia) M) as [A B].
  destruct (s_acc s1); [lia|]. destruct (ptr_ok e (s_end s1 + 1)); [|exact Logic.I].
  specialize (IH (mkSt (s_end s1 + 1) (s_end s1 + 1) (s_grp s1) false) eq_refl). cbn in IH.
  specialize (IH ltac:(lia)). destruct (next_loop f e n _); auto; lia.
Qed.
Lemma next_mono e n fuel s : opt_small n = true -> qe e - s_end s < Z.of_nat fuel ->
  match next fuel e n s with
  | RDone s1 => s_end s <= s_start s1 <= s_end s1
  | RUB => True
  | RFuel => False
  end.
Proof. intros H Hf. unfold next. apply (next_loop_mono e n H fuel (mkSt (s_end s) (s_end s) (no_groups n) (s_acc s)) eq_refl). cbn. lia. Qed.
Lemma create_mono e n fuel : opt_small n = true -> qe e - qb e < Z.of_nat fuel ->
  match create fuel e n with
  | RDone s1 => qb e <= s_start s1 <= s_end s1
  | RUB => True
  | RFuel => False
  end.
Proof.
  intros H Hf. unfold create. destruct (mt e n [] (fresh e n)) as [s|] eqn:M; [|exact Logic.I].
  destruct (mt_end e n (fresh e n) s H (Z.le_refl (qb e)) M) as [A B]. cbn in A, B.
  destruct (s_acc s); [lia|]. pose proof (next_mono e n fuel s H ltac:(lia)) as X.
  destruct (next fuel e n s); auto; lia.
Qed.
