(** Correctness of the closures the matcher is built from, one lemma per construct of
    Engine.v; then of [mt] on good nodes. *)
From Coq Require Import ZArith NArith List Bool Lia ZifyBool ZifyNat ZifyN.
From Verif Require Import Base Text Ast Builder Engine Spec SpecProofs Den Checker CheckerProofs AstProofs EngineRel EngineProofs.
Import ListNotations.
Open Scope nat_scope.

Section Eng.
Variables (pre0 w post : str) (G : nat).
Notation e := (env_of pre0 w post).
Notation grps := (list (option (Z * Z))).

(** The pointer to position [i] of the query. *)
Definition at_ (i : nat) : Z := (Z.of_nat (length pre0) + Z.of_nat i)%Z.
Definition mk (a : Z) (i : nat) (g : grps) (b : bool) : st := mkSt a (at_ i) g b.

Lemma at_qb : at_ 0 = qb e.
Proof. unfold at_. cbn. lia. Qed.
Lemma at_qe : at_ (length w) = qe e.
Proof. reflexivity. Qed.
Lemma qe_le i : (qe e <=? at_ i)%Z = (length w <=? i).
Proof. rewrite <- at_qe. unfold at_. lia. Qed.
Lemma at_rd i x : nth_error w i = Some x -> rd e (at_ i) = Some x.
Proof.
  intro H. assert (i < length w) by (apply nth_error_Some; congruence).
  unfold rd, at_, buf, env_of. destruct (Z.ltb_spec (Z.of_nat (length pre0) + Z.of_nat i) 0); [lia|].
  replace (Z.to_nat _) with (length pre0 + i) by lia.
  rewrite nth_error_app2 by lia. replace (length pre0 + i - length pre0) with i by lia.
  now rewrite nth_error_app1.
Qed.
Lemma at_ok i : i <= length w -> ptr_ok e (at_ i) = true.
Proof. intro H. unfold ptr_ok, at_, buf, env_of. rewrite !app_length. lia. Qed.
Lemma at_move i s : i <= length w -> move e (at_ i) s = Ok (set_end (at_ i) s).
Proof. intro H. unfold move. now rewrite at_ok. Qed.
Lemma at_S i : (at_ i + 1)%Z = at_ (S i).
Proof. unfold at_. lia. Qed.
Lemma nth_none i : nth_error w i = None <-> length w <= i.
Proof. apply nth_error_None. Qed.
Lemma nth_some i x : nth_error w i = Some x -> i < length w.
Proof. intro H. apply nth_error_Some. congruence. Qed.

(** ** Captures *)
Definition upd1 (k : nat) (v : nat * nat) (g : grps) : grps :=
  match set_nth g k (Some (at_ (fst v), at_ (snd v))) with Some g' => g' | None => g end.
Fixpoint upd (d : list (nat * (nat * nat))) (g : grps) : grps :=
  match d with [] => g | (k, v) :: r => upd1 k v (upd r g) end.
Lemma upd1_length k v g : length (upd1 k v g) = length g.
Proof. unfold upd1. destruct (set_nth g k _) eqn:E; [|reflexivity]. now apply set_nth_length in E. Qed.
Lemma upd_length d g : length (upd d g) = length g.
Proof. induction d as [|[k v] d IH]; [reflexivity|]. cbn. now rewrite upd1_length. Qed.
Lemma upd_app d1 d2 g : upd (d1 ++ d2) g = upd d1 (upd d2 g).
Proof. induction d1 as [|[k v] d1 IH]; [reflexivity|]. cbn. now rewrite IH. Qed.
Lemma nth_upd1 k v g i : nth_error (upd1 k v g) i =
  if (Nat.eqb i k && (i <? length g))%bool then Some (Some (at_ (fst v), at_ (snd v))) else nth_error g i.
Proof.
  unfold upd1. generalize (Some (at_ (fst v), at_ (snd v))). intro u. revert k i.
  induction g as [|x g IH]; intros k i.
  - cbn. destruct (Nat.eqb i k); destruct i; reflexivity.
  - destruct k as [|k]; cbn [set_nth].
    + destruct i as [|i]; reflexivity.
    + specialize (IH k). destruct i as [|i].
      * destruct (set_nth g k u); reflexivity.
      * specialize (IH i). change (S i =? S k) with (i =? k). change (S i <? length (x :: g)) with (i <? length g).
        destruct (set_nth g k u); exact IH.
Qed.
Lemma nth_ext' {A} (l1 l2 : list A) : (forall i, nth_error l1 i = nth_error l2 i) -> l1 = l2.
Proof.
  revert l2. induction l1 as [|x l1 IH]; intros [|y l2] H.
  - reflexivity.
  - specialize (H 0). discriminate.
  - specialize (H 0). discriminate.
  - f_equal; [specialize (H 0); cbn in H; congruence|]. apply IH. intro i. exact (H (S i)).
Qed.
Lemma nth_upd d : forall g i, nth_error (upd d g) i =
  match slot i d with
  | Some v => if i <? length g then Some (Some (at_ (fst v), at_ (snd v))) else nth_error g i
  | None => nth_error g i
  end.
Proof.
  induction d as [|[k v] d IH]; intros g i; [reflexivity|]. cbn [upd slot]. rewrite nth_upd1, upd_length, IH.
  rewrite Nat.eqb_sym. destruct (Nat.eqb k i); cbn [andb]; [|reflexivity].
  destruct (i <? length g) eqn:L; [reflexivity|].
  assert (nth_error g i = None) by (apply nth_error_None; lia).
  destruct (slot i d); now rewrite ?L.
Qed.
Lemma upd_again d k v g : upd d (upd1 k v (upd d g)) = upd d (upd1 k v g).
Proof.
  apply nth_ext'. intro i. rewrite !nth_upd, !upd1_length, upd_length, !nth_upd1, upd_length, nth_upd.
  destruct (slot i d); [|reflexivity]. destruct (i <? length g) eqn:L; [reflexivity|].
  rewrite andb_false_r. reflexivity.
Qed.
Lemma upd_upd d g : upd d (upd d g) = upd d g.
Proof.
  apply nth_ext'. intro i. rewrite !nth_upd, upd_length. destruct (slot i d); [|reflexivity]. now destruct (i <? length g).
Qed.
Lemma upd_under d k v g g' : upd d g' = upd d g -> upd d (upd1 k v g') = upd d (upd1 k v g).
Proof. intro H. now rewrite <- (upd_again d k v g'), H, upd_again. Qed.
Lemma upd_unders d m g g' : upd d g' = upd d g -> upd d (upd m g') = upd d (upd m g).
Proof. intro H. induction m as [|[k v] m IH]; [exact H|]. cbn [upd]. now apply upd_under. Qed.
Lemma set_group_ok k i j s : k < length (s_grp s) ->
  set_group k (at_ i, at_ j) s = Ok (mkSt (s_start s) (s_end s) (upd1 k (i, j) (s_grp s)) (s_acc s)).
Proof.
  intro H. unfold set_group, upd1. cbn [fst snd].
  destruct (set_nth_some (s_grp s) k (Some (at_ i, at_ j)) H) as (g & ->). reflexivity.
Qed.

(** ** What a closure must do *)
(** Outcome [o] started at position [i] with captures [g], where [h] is the first way to
    match.  [cl]: the end is restored on failure; [gc]: captures are restored on failure;
    [ge]: captures are exact on success. *)
Definition res (o : out) (a : Z) (i : nat) (g : grps) (h : option (nat * list (nat * (nat * nat)))) (cl gc ge : bool) : Prop :=
  match h with
  | Some (j, d) => exists g', o = Ok (mk a j g' true) /\ length g' = G /\ (ge = true -> g' = upd d g)
  | None => exists j g', o = Ok (mk a j g' false) /\ j <= length w /\ length g' = G
                         /\ (cl = true -> j = i) /\ (gc = true -> g' = g)
  end.
Definition prevok (pv : prev) (a : Z) (i : nat) : Prop :=
  match pv with
  | PFst => a = at_ i
  | PSet P => exists k x, i = S k /\ nth_error w k = Some x /\ P x = true
  | PAny => True
  end.
Definition cspec (M : clo) (D : outs) (pv : prev) (ac cl gc ge : bool) : Prop :=
  forall a i g b, i <= length w -> length g = G -> b = true \/ ac = true -> (a <= at_ i)%Z -> prevok pv a i ->
  res (M (mk a i g b)) a i g (hd_error (D (i, []))) cl gc ge.

Lemma res_weaken o a i g h cl gc ge cl' gc' ge' : res o a i g h cl gc ge ->
  (cl' = true -> cl = true) -> (gc' = true -> gc = true) -> (ge' = true -> ge = true) ->
  res o a i g h cl' gc' ge'.
Proof.
  intros H A B C. unfold res in *. destruct h as [[j d]|].
  - destruct H as (g' & H1 & H2 & H3). exists g'. auto.
  - destruct H as (j & g' & H1 & H2 & H3 & H4 & H5). exists j, g'. auto 10.
Qed.
Lemma cspec_weaken M D pv ac cl gc ge ac' cl' gc' ge' : cspec M D pv ac cl gc ge ->
  (ac' = true -> ac = true) -> (cl' = true -> cl = true) -> (gc' = true -> gc = true) -> (ge' = true -> ge = true) ->
  cspec M D pv ac' cl' gc' ge'.
Proof.
  intros H A B C E a i g b Hi Hg Hb Ha Hp. eapply res_weaken; [apply H; auto; destruct Hb; auto|auto|auto|auto].
Qed.
Lemma cspec_ext M M' D D' pv ac cl gc ge : cspec M D pv ac cl gc ge ->
  (forall s, M' s = M s) -> (forall i, hd_error (D' (i, [])) = hd_error (D (i, []))) -> cspec M' D' pv ac cl gc ge.
Proof. intros H E1 E2 a i g b Hi Hg Hb Ha Hp. rewrite E1, E2. now apply H. Qed.
Lemma cspec_any M D pv ac cl gc ge : cspec M D PAny ac cl gc ge -> cspec M D pv ac cl gc ge.
Proof. intros H a i g b Hi Hg Hb Ha Hp. apply H; auto. exact I. Qed.

Lemma hd_some_in {A} (l : list A) x : hd_error l = Some x -> In x l.
Proof. destruct l; [discriminate|]. injection 1 as <-. now left. Qed.
Lemma hd_none {A} (l : list A) : hd_error l = None -> l = [].
Proof. destruct l; [reflexivity|discriminate]. Qed.

(** Sequencing of the first ways. *)
Lemma hd_flat_same {A B} (f : A -> list B) x l : (forall y, In y l -> y = x) ->
  hd_error (flat_map f (x :: l)) = hd_error (f x).
Proof.
  intro H. cbn. rewrite hd_app. destruct (f x) eqn:E; [|reflexivity]. cbn.
  induction l as [|y l IH]; [reflexivity|]. cbn. rewrite (H y), E by now left. apply IH. intros; apply H; now right.
Qed.
Definition nobt (a b : outs) : Prop := uniq w a \/ tot b.
Lemma seq_hd a b i : nobt a b -> i <= length w ->
  hd_error (seq_o a b (i, [])) = match hd_error (a (i, [])) with Some x => hd_error (b x) | None => None end.
Proof.
  intros N L. unfold seq_o. destruct (a (i, [])) as [|x l] eqn:E; [reflexivity|]. cbn [hd_error].
  destruct N as [U|T].
  - apply hd_flat_same. intros y Hy. apply (U (i, [])); [exact L| |]; rewrite E; [now right|now left].
  - cbn. rewrite hd_app. specialize (T x). destruct (b x); [congruence|reflexivity].
Qed.
Lemma logp_hd D j d : logp D -> hd_error (D (j, d)) = option_map (shift d) (hd_error (D (j, []))).
Proof. intro H. change (j, d) with (shift d (j, [])) at 1. now rewrite logp_shift, hd_map. Qed.

(** The second half of a sequence, started after a first half that wrote [d]. *)
Lemma res_then o a i j g g1 d h cl gc ge ge1 : res o a j g1 h cl gc ge -> (ge1 = true -> g1 = upd d g) ->
  forall cl' gc', (cl' = true -> h <> None) -> (gc' = true -> h = None -> gc = true /\ g1 = g) ->
  res o a i g (option_map (shift d) h) cl' gc' (ge1 && ge).
Proof.
  intros H E cl' gc' C Gc. unfold res in *. destruct h as [[k d2]|]; cbn [option_map shift fst snd].
  - destruct H as (g' & H1 & H2 & H3). exists g'. split; [exact H1|]. split; [exact H2|].
    rewrite andb_true_iff. intros [A B]. now rewrite upd_app, <- E, <- H3.
  - destruct H as (k & g' & H1 & H2 & H3 & H4 & H5). exists k, g'. conj; auto.
    + intro X. destruct (C X). reflexivity.
    + intro X. destruct (Gc X eq_refl) as [X1 ->]. auto.
Qed.
Lemma res_then2 o a i j g g1 d h cl gc ge ge1 : res o a j g1 h cl gc ge -> (ge1 = true -> forall k d2, h = Some (k, d2) -> upd d2 g1 = upd d2 (upd d g)) ->
  forall cl' gc', (cl' = true -> h <> None) -> (gc' = true -> h = None -> gc = true /\ g1 = g) ->
  res o a i g (option_map (shift d) h) cl' gc' (ge1 && ge).
Proof.
  intros H E cl' gc' C Gc. unfold res in *. destruct h as [[k d2]|]; cbn [option_map shift fst snd].
  - destruct H as (g' & H1 & H2 & H3). exists g'. split; [exact H1|]. split; [exact H2|].
    rewrite andb_true_iff. intros [A B]. now rewrite upd_app, <- (E A k d2 eq_refl), <- H3.
  - destruct H as (k & g' & H1 & H2 & H3 & H4 & H5). exists k, g'. conj; auto.
    + intro X. destruct (C X). reflexivity.
    + intro X. destruct (Gc X eq_refl) as [X1 ->]. auto.
Qed.

(** ** Terminals *)
(** [$], when the character after the text is not a line feed. *)
Lemma end_ok c0 p0 : post = c0 :: p0 -> c0 <> c_nl -> cspec (match_end e) (eol_o w) PAny true true true true.
Proof.
  intros Ep Np a i g b Hi Hg Hb Ha _. unfold eol_o, match_end. unfold mk. cbn [fst s_end set_acc].
  assert (Q : (qe e <? at_ i)%Z = false) by (unfold at_; cbn; lia). rewrite Q.
  destruct (Nat.eqb_spec i (length w)) as [->|Ni].
  - assert (R : rd e (at_ (length w)) = Some c0).
    { unfold rd, at_. cbn [buf env_of]. replace (_ <? 0)%Z with false by lia. replace (Z.to_nat _) with (length pre0 + length w) by lia.
      rewrite nth_error_app2 by lia. rewrite nth_error_app2 by lia. rewrite Ep. now replace (_ - _ - _) with 0 by lia. }
    rewrite R. replace (c0 =? c_nl)%Z with false by lia. rewrite orb_false_r.
    replace (at_ (length w) =? qe e)%Z with true by (unfold at_; cbn; lia). cbn [hd_error].
    exists g. split; [reflexivity|]. auto.
  - assert (X : i < length w) by lia. destruct (nth_error w i) as [x|] eqn:E; [|apply nth_error_None in E; lia].
    rewrite (at_rd _ _ E). unfold chr_o. cbn [fst]. rewrite E.
    replace (at_ i =? qe e)%Z with false by (unfold at_; cbn; lia). cbn [orb]. rewrite (Z.eqb_sym c_nl x).
    destruct (x =? c_nl)%Z; cbn [hd_error].
    + rewrite at_S, at_move by lia. exists g. split; [reflexivity|]. auto.
    + exists i, g. split; [reflexivity|]. auto.
Qed.
Lemma term_ok t P : tset t = Some P -> cspec (match_term e t) (chr_o w P) PAny true (clean (Term t) PAny) true true.
Proof.
  intros HP a i g b Hi Hg Hb Ha _. unfold chr_o. cbn [fst snd].
  assert (T : forall test, cspec (guarded e (match_test e test)) (chr_o w test) PAny true true true true).
  { clear. intros test a i g b Hi Hg Hb Ha _. unfold chr_o, guarded. cbn [fst snd s_end mk]. unfold mk at 1. cbn [s_end].
    rewrite qe_le. destruct (nth_error w i) as [x|] eqn:E.
    - pose proof (nth_some _ _ E). destruct (Nat.leb_spec (length w) i); [lia|]. unfold match_test, mk at 1. cbn [s_end].
      rewrite (at_rd _ _ E). destruct (test x); cbn [hd_error].
      + unfold mk at 1. cbn [s_end]. rewrite at_S, at_move by lia. exists g. split; [reflexivity|]. auto.
      + exists i, g. split; [reflexivity|]. auto.
    - apply nth_none in E. destruct (Nat.leb_spec (length w) i); [|lia]. exists i, g. split; [reflexivity|]. auto. }
  assert (X : forall c, cspec (guarded e (match_exact e [c])) (chr_o w (Z.eqb c)) PAny true true true true).
  { clear. intros c a i g b Hi Hg Hb Ha _. unfold chr_o, guarded. cbn [fst snd s_end mk]. unfold mk at 1. cbn [s_end].
    rewrite qe_le. destruct (nth_error w i) as [x|] eqn:E.
    - pose proof (nth_some _ _ E). destruct (Nat.leb_spec (length w) i); [lia|]. unfold match_exact, exact_loop, mk at 1 2, set_acc. cbn [s_end].
      rewrite (at_rd _ _ E). destruct (c =? x)%Z; cbn [hd_error bind].
      + unfold mk. cbn [s_end]. rewrite at_S, at_move by lia. exists g. split; [reflexivity|]. auto.
      + exists i, g. split; [reflexivity|]. auto.
    - apply nth_none in E. destruct (Nat.leb_spec (length w) i); [|lia]. exists i, g. split; [reflexivity|]. auto. }
  assert (S : cspec (guarded e (match_space e)) (chr_o w test_space) PAny true false true true).
  { clear. intros a i g b Hi Hg Hb Ha _. unfold chr_o, guarded. cbn [fst snd s_end mk]. unfold mk at 1. cbn [s_end].
    rewrite qe_le. destruct (nth_error w i) as [x|] eqn:E.
    - pose proof (nth_some _ _ E). destruct (Nat.leb_spec (length w) i); [lia|]. unfold match_space, mk, set_acc. cbn [s_end].
      rewrite (at_rd _ _ E). rewrite at_S, at_move by lia. destruct (test_space x); cbn [hd_error].
      + exists g. split; [reflexivity|]. auto.
      + exists (S i), g. split; [reflexivity|]. conj; auto. discriminate.
    - apply nth_none in E. destruct (Nat.leb_spec (length w) i); [|lia]. exists i, g. split; [reflexivity|]. auto. }
  assert (W : forall M D, cspec M D PAny true true true true -> forall cl, cspec M D PAny true cl true true).
  { intros M D H cl. eapply cspec_weaken; eauto. }
  revert a i g b Hi Hg Hb Ha. cut (cspec (match_term e t) (chr_o w P) PAny true (clean (Term t) PAny) true true).
  { intros H a i g b Hi Hg Hb Ha. apply (H a i g b); auto. exact I. }
  destruct t as [tok|s|c1 c2| |]; cbn [tset match_term clean] in *; try discriminate.
  - destruct (term_kind tok) as [s|c1 c2|[]]; cbn [kset] in HP.
    + destruct s as [|c [|]]; try discriminate. injection HP as <-. apply W, X.
    + injection HP as <-. apply W, T.
    + injection HP as <-. apply W, T.
    + injection HP as <-. exact S.
    + injection HP as <-. apply W, T.
  - destruct s as [|c [|]]; try discriminate. injection HP as <-. apply W, X.
  - injection HP as <-. apply W, T.
Qed.

(** ** simple and group *)
Lemma simple_ok M R D1 D2 pv pv2 ac1 cl1 gc1 ge1 ac2 cl2 gc2 ge2 tt :
  cspec M D1 pv ac1 cl1 gc1 ge1 -> cspec R D2 pv2 ac2 cl2 gc2 ge2 ->
  fwd w D1 -> logp D2 -> nobt D1 D2 -> (tt = true -> tot D2) ->
  (forall a i j d, i <= length w -> prevok pv a i -> hd_error (D1 (i, [])) = Some (j, d) -> prevok pv2 a j) ->
  forall ng, (ng = true -> ge1 = true /\ forall i j d, In (j, d) (D1 (i, [])) -> d = []) ->
  cspec (simple_m M R) (seq_o D1 D2) pv ac1 cl1 (gc1 && (tt || (ng && gc2))) (ge1 && ge2).
Proof.
  intros H1 H2 F L N T PV ng NG a i g b Hi Hg Hb Ha Hp. rewrite seq_hd by assumption.
  specialize (H1 a i g b Hi Hg Hb Ha Hp). unfold simple_m. unfold res in H1 at 1.
  destruct (hd_error (D1 (i, []))) as [[j d]|] eqn:E1.
  - destruct H1 as (g1 & -> & Hg1 & X1). cbn [bind mk s_acc].
    pose proof (F _ _ (hd_some_in _ _ E1) Hi) as Fj. cbn [fst] in Fj.
    specialize (H2 a j g1 true ltac:(lia) Hg1 (or_introl eq_refl) ltac:(unfold at_ in *; lia) (PV a i j d Hi Hp E1)).
    rewrite (logp_hd D2) by assumption.
    destruct (hd_error (D2 (j, []))) as [[k d2]|] eqn:E2.
    + destruct H2 as (g2 & H2 & Hg2 & X2). rewrite H2. cbn [bind s_acc option_map shift fst snd].
      exists g2. split; [reflexivity|]. split; [assumption|]. rewrite andb_true_iff. intros [A B]. now rewrite upd_app, (X2 B), (X1 A).
    + destruct H2 as (k & g2 & H2 & Hk & Hg2 & _ & X2). rewrite H2. cbn [bind s_acc option_map].
      exists i, g2. split; [reflexivity|]. split; [lia|]. conj; auto.
      rewrite andb_true_iff, orb_true_iff, andb_true_iff. intros [A [B|[B C]]].
      * apply hd_none in E2. now apply (T B) in E2.
      * destruct (NG B) as [B1 B2]. rewrite (X2 C), (X1 B1), (B2 i j d (hd_some_in _ _ E1)). reflexivity.
  - destruct H1 as (j & g1 & -> & Hj & Hg1 & X1 & X2). cbn [bind mk s_acc].
    exists j, g1. conj; auto. rewrite andb_true_iff. intros [A B]. auto.
Qed.
Lemma group_ok M R D1 D2 pv pv2 ac1 cl1 gc1 ge1 ac2 cl2 gc2 ge2 tt k :
  cspec M D1 pv ac1 cl1 gc1 ge1 -> cspec R D2 pv2 ac2 cl2 gc2 ge2 -> k < G ->
  fwd w D1 -> logp D2 -> nobt (cap_o k D1) D2 -> (tt = true -> tot D2) ->
  (forall a i j d, i <= length w -> prevok pv a i -> hd_error (D1 (i, [])) = Some (j, d) -> prevok pv2 a j) ->
  cspec (group_m M k R) (seq_o (cap_o k D1) D2) pv ac1 (cl1 && tt) (gc1 && tt) (ge1 && ge2).
Proof.
  intros H1 H2 HG F L N T PV a i g b Hi Hg Hb Ha Hp. rewrite seq_hd by assumption.
  specialize (H1 a i g b Hi Hg Hb Ha Hp). unfold group_m. unfold res in H1 at 1.
  unfold cap_o. rewrite hd_map. cbn [fst snd].
  destruct (hd_error (D1 (i, []))) as [[j d]|] eqn:E1; cbn [option_map fst snd].
  - destruct H1 as (g1 & -> & Hg1 & X1). cbn [bind mk s_acc s_end].
    pose proof (F _ _ (hd_some_in _ _ E1) Hi) as Fj. cbn [fst] in Fj.
    unfold mk at 1. cbn [s_end]. rewrite set_group_ok by (cbn; lia). cbn [bind s_start s_end s_grp s_acc mk].
    specialize (H2 a j (upd1 k (i, j) g1) true ltac:(lia) ltac:(now rewrite upd1_length) (or_introl eq_refl) ltac:(unfold at_ in *; lia) (PV a i j d Hi Hp E1)).
    rewrite (logp_hd D2) by assumption.
    eapply res_weaken; [eapply (res_then _ a i j g _ ((k, (i, j)) :: d) _ cl2 gc2 ge2 ge1 H2) with (cl' := tt) (gc' := tt)| | |].
    + intro A. cbn [upd]. now rewrite X1.
    + intros A B. apply hd_none in B. now apply (T A) in B.
    + intros A B. apply hd_none in B. now apply (T A) in B.
    + rewrite andb_true_iff. tauto.
    + rewrite andb_true_iff. tauto.
    + auto.
  - destruct H1 as (j & g1 & -> & Hj & Hg1 & X1 & X2). cbn [bind mk s_acc].
    exists j, g1. conj; auto; rewrite andb_true_iff; intros [A B]; auto.
Qed.

(** ** Exact repetition *)
Lemma reps_ok M D ac cl gc ge : cspec M D PAny ac cl gc ge -> fwd w D -> logp D ->
  forall k a i g b, uniq w D \/ k <= 1 -> i <= length w -> length g = G -> b = true \/ ac = true -> (a <= at_ i)%Z ->
  match hd_error (pow_o k D (i, [])) with
  | Some (j, d) => exists g', nl k (req_step M) (mk a i g b) = inl (mk a j g' (if Nat.eqb k 0 then b else true))
                              /\ length g' = G /\ (ge = true -> g' = upd d g)
  | None => exists j g', nl k (req_step M) (mk a i g b) = inr (Ok (mk a j g' false))
                         /\ j <= length w /\ length g' = G
                         /\ (cl = true -> k <= 1 -> j = i)
                         /\ (gc = true -> (k <= 1 \/ (ge = true /\ forall i j d, In (j, d) (D (i, [])) -> d = [])) -> g' = g)
  end.
Proof.
  intros H F L. induction k as [|k IH]; intros a i g b U Hi Hg Hb Ha.
  - cbn. exists g. auto.
  - cbn [pow_o nl]. rewrite seq_hd; [|destruct U as [U|U]; [now left|right; destruct k; [intros c; discriminate|lia]]|assumption].
    assert (RS : req_step M (mk a i g b) = match M (mk a i g b) with Ok s1 => if s_acc s1 then inl s1 else inr (Ok s1) | UB => inr UB end) by reflexivity.
    rewrite !RS. clear RS.
    specialize (H a i g b Hi Hg Hb Ha I). unfold res in H.
    destruct (hd_error (D (i, []))) as [[j d]|] eqn:E1.
    + destruct H as (g1 & -> & Hg1 & X1). cbn [mk s_acc].
      pose proof (F _ _ (hd_some_in _ _ E1) Hi) as Fj. cbn [fst] in Fj.
      specialize (IH a j g1 true ltac:(destruct U; [auto|right; lia]) ltac:(lia) Hg1 (or_introl eq_refl) ltac:(unfold at_ in *; lia)).
      rewrite (logp_hd (pow_o k D)) by (now apply logp_pow).
      destruct (hd_error (pow_o k D (j, []))) as [[m d2]|] eqn:E2; cbn [option_map shift fst snd].
      * destruct IH as (g2 & E & Hg2 & X2). exists g2. split; [|split; [assumption|]].
        -- rewrite E. cbn. now destruct (Nat.eqb k 0).
        -- intro A. now rewrite upd_app, (X2 A), (X1 A).
      * destruct IH as (m & g2 & E & Hm & Hg2 & C & X2). exists m, g2. conj; auto.
        -- intros A B. destruct k; [discriminate E2|lia].
        -- intros A B. destruct B as [B|B]; [destruct k; [discriminate E2|lia]|].
           rewrite (X2 A (or_intror B)). destruct B as [B1 B2]. rewrite (X1 B1), (B2 i j d (hd_some_in _ _ E1)). reflexivity.
    + destruct H as (j & g1 & -> & Hj & Hg1 & X1 & X2). cbn [mk s_acc].
      exists j, g1. conj; auto.
Qed.
Lemma uniq_pow_hd D k : fwd w D -> uniq w D -> uniq w (pow_o k D).
Proof. intros F U. now apply uniq_pow. Qed.
Lemma repeated_ok M R D D2 k pv pv2 ac cl gc ge ac2 cl2 gc2 ge2 ng tt :
  cspec M D PAny ac cl gc ge -> cspec R D2 pv2 ac2 cl2 gc2 ge2 -> fwd w D -> logp D -> uniq w D -> logp D2 ->
  (tt = true -> tot D2) ->
  (forall a i j d, i <= length w -> prevok pv a i -> hd_error (pow_o (N.to_nat k) D (i, [])) = Some (j, d) -> prevok pv2 a j) ->
  (ng = true -> ge = true /\ forall i j d, In (j, d) (D (i, [])) -> d = []) ->
  cspec (repeated_m M k R) (seq_o (pow_o (N.to_nat k) D) D2) pv (negb (N.eqb k 0) && ac)
        (N.eqb k 1 && cl && tt)
        (gc && ((k <=? 1)%N || ng) && (tt || (ng && gc2))) (ge && ge2).
Proof.
  intros H H2 F L U L2 T PV NG a i g b Hi Hg Hb Ha Hp. unfold repeated_m, reps. rewrite loopN_nl.
  rewrite seq_hd by (try assumption; left; now apply uniq_pow).
  assert (NGp : ng = true -> forall i j d, In (j, d) (pow_o (N.to_nat k) D (i, [])) -> d = []).
  { intros A. destruct (NG A) as [_ B]. generalize (N.to_nat k). induction n as [|n IH]; intros i0 j0 d0 X; cbn in X.
    - destruct X as [X|[]]. congruence.
    - unfold seq_o in X. apply in_flat_map in X as ([j1 d1] & X1 & X2). apply B in X1. subst d1. eapply IH; eassumption. }
  pose proof (reps_ok M D ac cl gc ge H F L (N.to_nat k) a i g b (or_introl U) Hi Hg
    ltac:(destruct Hb as [|Hb]; [auto|apply andb_true_iff in Hb; tauto]) Ha) as X.
  destruct (hd_error (pow_o (N.to_nat k) D (i, []))) as [[j d]|] eqn:E1.
  - destruct X as (g1 & -> & Hg1 & X1).
    pose proof (fwd_pow _ (N.to_nat k) D F _ _ (hd_some_in _ _ E1) Hi) as Fj. cbn [fst] in Fj.
    set (b1 := if N.to_nat k =? 0 then b else true).
    assert (B1 : b1 = true).
    { unfold b1. destruct (Nat.eqb_spec (N.to_nat k) 0); [|reflexivity]. destruct Hb as [|Hb]; [assumption|].
      apply andb_true_iff in Hb as [Hb _]. lia. }
    rewrite B1.
    specialize (H2 a j g1 true ltac:(lia) Hg1 (or_introl eq_refl) ltac:(unfold at_ in *; lia) (PV a i j d Hi Hp E1)).
    rewrite (logp_hd D2) by assumption.
    eapply res_weaken; [eapply (res_then _ a i j g g1 d _ cl2 gc2 ge2 ge H2 X1) with (gc' := tt || (ng && gc2)) (cl' := tt)| | |].
    + intros A B. apply hd_none in B. now apply (T A) in B.
    + rewrite orb_true_iff, andb_true_iff. intros [A|[A B]] C.
      * apply hd_none in C. now apply (T A) in C.
      * split; [assumption|]. destruct (NG A) as [A1 _]. rewrite (X1 A1), (NGp A i j d (hd_some_in _ _ E1)). reflexivity.
    + rewrite !andb_true_iff. tauto.
    + rewrite !andb_true_iff. tauto.
    + auto.
  - destruct X as (j & g1 & -> & Hj & Hg1 & X1 & X2). exists j, g1. conj; auto.
    + rewrite !andb_true_iff. intros [[A B] C]. apply X1; [assumption|]. lia.
    + rewrite !andb_true_iff, orb_true_iff. intros [[A [B|B]] C]; apply X2; auto. left. lia.
Qed.

(** ** Closures that consume one character *)
Definition hp (P : Z -> bool) (i : nat) : bool := match nth_error w i with Some x => P x | None => false end.
Lemma hp_lt P i : hp P i = true -> i < length w.
Proof. unfold hp. destruct (nth_error w i) eqn:E; [|discriminate]. intros _. now apply nth_some in E. Qed.
Lemma chr_hp P i l : chr_o w P (i, l) = if hp P i then [(S i, l)] else [].
Proof. unfold chr_o, hp. cbn. destruct (nth_error w i) as [x|]; [|reflexivity]. destruct (P x); reflexivity. Qed.
Definition ustep (M : clo) (P : Z -> bool) : Prop :=
  forall a i g b, i <= length w -> length g = G -> (a <= at_ i)%Z ->
  M (mk a i g b) = Ok (if hp P i then mk a (S i) g true else mk a i g false).
Lemma cspec_ustep M D P : unit_like w D P -> cspec M D PAny true true true true -> ustep M P.
Proof.
  intros U H a i g b Hi Hg Ha. specialize (H a i g b Hi Hg (or_intror eq_refl) Ha I).
  rewrite (unit_hd w D P i [] U) in H. unfold hp. destruct (nth_error w i) as [x|]; [destruct (P x)|]; cbn [res] in H.
  - destruct H as (g' & -> & _ & E). now rewrite (E eq_refl).
  - destruct H as (j & g' & -> & _ & _ & E1 & E2). now rewrite (E1 eq_refl), (E2 eq_refl).
  - destruct H as (j & g' & -> & _ & _ & E1 & E2). now rewrite (E1 eq_refl), (E2 eq_refl).
Qed.
Lemma unit_eqv D P : unit_like w D P -> eqv D (chr_o w P).
Proof.
  intros U K _ [i l]. rewrite chr_hp. destruct (U (i, l)) as [A B]. cbn [fst snd] in *.
  unfold hp. destruct (nth_error w i) as [x|].
  - destruct (P x) eqn:Px.
    + specialize (B x eq_refl Px). destruct (D (i, l)) as [|y r]; [congruence|].
      unfold first_ok. rewrite (hd_flat_same K y r).
      * destruct (A y (or_introl eq_refl)) as [-> _]. cbn. now rewrite app_nil_r.
      * intros z Hz. destruct (A z (or_intror Hz)) as [-> _], (A y (or_introl eq_refl)) as [-> _]. reflexivity.
    + destruct (D (i, l)) as [|y r]; [reflexivity|]. destruct (A y (or_introl eq_refl)) as (_ & z & [= <-] & Q). congruence.
  - destruct (D (i, l)) as [|y r]; [reflexivity|]. destruct (A y (or_introl eq_refl)) as (_ & z & [=] & Q).
Qed.

Lemma reps_u M P : ustep M P -> forall k a i g b, i <= length w -> length g = G -> (a <= at_ i)%Z ->
  (nl k (req_step M) (mk a i g b) = inl (mk a (i + k) g (if Nat.eqb k 0 then b else true))
   /\ pow_o k (chr_o w P) (i, []) = [(i + k, [])] /\ i + k <= length w)
  \/ (exists j, nl k (req_step M) (mk a i g b) = inr (Ok (mk a j g false)) /\ i <= j <= length w
      /\ pow_o k (chr_o w P) (i, []) = [] /\ (k <= 1 -> j = i)).
Proof.
  intro U. induction k as [|k IH]; intros a i g b Hi Hg Ha.
  - left. cbn. rewrite Nat.add_0_r. auto.
  - cbn [nl pow_o]. unfold seq_o. rewrite chr_hp.
    assert (RS : req_step M (mk a i g b) = if hp P i then inl (mk a (S i) g true) else inr (Ok (mk a i g false))).
    { unfold req_step. rewrite U by assumption. destruct (hp P i); reflexivity. }
    rewrite RS. destruct (hp P i) eqn:E.
    + pose proof (hp_lt _ _ E). cbn [flat_map]. rewrite app_nil_r.
      destruct (IH a (S i) g true ltac:(lia) Hg ltac:(unfold at_ in *; lia)) as [(A & B & C)|(j & A & B & C & D)].
      * left. rewrite A, B. replace (S i + k) with (i + S k) by lia. cbn. conj; auto; [|lia]. now destruct (Nat.eqb k 0).
      * right. exists j. rewrite A, C. conj; auto; try lia. intro K. destruct k; [discriminate C|lia].
    + right. exists i. cbn. auto.
Qed.

(** ** Maximal runs *)
(** Positions [i+t], ..., [i]. *)
Fixpoint down (i t : nat) : list (nat * list (nat * (nat * nat))) :=
  match t with O => [(i, [])] | S t' => (i + S t', []) :: down i t' end.
Lemma down_app i t : down i (S t) = down (S i) t ++ [(i, [])].
Proof.
  revert i. induction t as [|t IH]; intro i.
  - cbn. now replace (i + 1) with (S i) by lia.
  - change (down i (S (S t))) with ((i + S (S t), @nil (nat * (nat * nat))) :: down i (S t)). rewrite IH.
    cbn [down app]. now replace (S i + S t) with (i + S (S t)) by lia.
Qed.
Definition close (k k' p : nat) : Prop := k = k' \/ (length w - p < k /\ length w - p < k').
Lemma greedy_loop M P : ustep M P -> forall k k' c a i g b, i <= length w -> length g = G -> (a <= at_ i)%Z ->
  close k k' i ->
  exists t b', i + t <= length w /\ (forall q, q < t -> hp P (i + q) = true) /\ (b' = true \/ (t = 0 /\ b' = b))
    /\ (nl k (greedy_step M) (c, mk a i g b) = inl ((c + N.of_nat t)%N, mk a (i + t) g b')
        \/ nl k (greedy_step M) (c, mk a i g b) = inr (Some ((c + N.of_nat t)%N, mk a (i + t) g b')))
    /\ most_o k' (chr_o w P) (i, []) = down i t.
Proof.
  intro U. induction k as [|k IH]; intros k' c a i g b Hi Hg Ha C.
  - assert (k' = 0) as -> by (destruct C as [<-|[? ?]]; lia). exists 0, b. rewrite Nat.add_0_r, N.add_0_r.
    conj; auto; lia.
  - assert (exists k'', k' = S k'') as (k'' & ->) by (destruct C as [<-|[? ?]]; [eauto|destruct k'; [lia|eauto]]).
    cbn [nl most_o]. rewrite chr_hp.
    assert (GS : greedy_step M (c, mk a i g b) = if hp P i then inl ((c + 1)%N, mk a (S i) g true) else inr (Some (c, mk a i g true))).
    { unfold greedy_step. cbn [snd fst]. rewrite U by assumption. destruct (hp P i); reflexivity. }
    rewrite GS. destruct (hp P i) eqn:E.
    + pose proof (hp_lt _ _ E).
      destruct (IH k'' (c + 1)%N a (S i) g true ltac:(lia) Hg ltac:(unfold at_ in *; lia)) as (t & b' & A & B & X & D & F).
      { unfold close in *. lia. }
      exists (S t), b'. rewrite down_app, <- F. replace (S i + t) with (i + S t) in * by lia.
      replace (c + 1 + N.of_nat t)%N with (c + N.of_nat (S t))%N in D by lia.
      conj; auto; try lia.
      * intros q Hq. destruct q as [|q]; [now rewrite Nat.add_0_r|]. replace (i + S q) with (S i + q) by lia. apply B. lia.
      * unfold progress. cbn [filter fst]. destruct (Nat.eqb_spec (S i) i); [lia|]. cbn [negb flat_map]. now rewrite app_nil_r.
    + exists 0, true. rewrite Nat.add_0_r, N.add_0_r. conj; auto; [lia].
Qed.

(** ** What is tried after a repetition: the continuation, or (lookahead) a test of it *)
(** Whatever [g'] stores, the captures of every match of [D] hide it. *)
Definition same (D : outs) (g g' : grps) : Prop := forall i j d, In (j, d) (D (i, [])) -> upd d g' = upd d g.
Lemma same_refl D g : same D g g.
Proof. intros i j d _. reflexivity. Qed.
Lemma same_eq D g g' : g' = g -> same D g g'.
Proof. intros ->. apply same_refl. Qed.
Lemma same_trans D g1 g2 g3 : same D g1 g2 -> same D g2 g3 -> same D g1 g3.
Proof. intros A B i j d I. now rewrite (B i j d I), (A i j d I). Qed.
(** [gs]: what a failure leaves in the captures does not matter. *)
Definition hides (M : clo) (D : outs) : Prop := forall a i g b j g', length g = G -> M (mk a i g b) = Ok (mk a j g' false) -> same D g g'.
Definition bspec (la : bool) (B : clo) (D : outs) (ac gc gs ge : bool) : Prop :=
  forall a i g b, i <= length w -> length g = G -> b = true \/ ac = true -> (a <= at_ i)%Z ->
  match hd_error (D (i, [])) with
  | Some (j, d) => exists g', B (mk a i g b) = Ok (mk a (if la then i else j) g' true) /\ length g' = G /\ (ge = true -> g' = upd d g)
  | None => exists g', B (mk a i g b) = Ok (mk a i g' false) /\ length g' = G /\ (gc = true -> g' = g) /\ (gs = true -> same D g g')
  end.
Lemma cspec_bspec R D ac gc gs ge : cspec R D PAny ac true gc ge -> (gs = true -> gc = true \/ hides R D) -> bspec false R D ac gc gs ge.
Proof.
  intros H S a i g b Hi Hg Hb Ha. specialize (H a i g b Hi Hg Hb Ha I). unfold res in H.
  destruct (hd_error (D (i, []))) as [[j d]|]; [exact H|].
  destruct H as (j & g' & E & _ & Hg' & X & Y). rewrite (X eq_refl) in E. exists g'. split; [exact E|]. split; [exact Hg'|]. split; [exact Y|].
  intro Z. destruct (S Z) as [C|C]; [now apply same_eq, Y|exact (C _ _ _ _ _ _ Hg E)].
Qed.
Lemma cspec_look K D ac cl gc gs ge r : cspec K D PAny ac cl gc ge -> (gs = true -> gc = true \/ hides K D) -> bspec true (greedy_bt false r [K]) D ac gc gs ge.
Proof.
  intros H S a i g b Hi Hg Hb Ha. specialize (H a i g b Hi Hg Hb Ha I). unfold res in H. unfold greedy_bt. cbn [dfs0].
  destruct (hd_error (D (i, []))) as [[j d]|].
  - destruct H as (g' & -> & Hg' & X). exists g'. auto.
  - destruct H as (j & g' & E & _ & Hg' & X & Y). rewrite E. exists g'. split; [reflexivity|]. split; [exact Hg'|]. split; [exact Y|].
    intro Z. destruct (S Z) as [C|C]; [now apply same_eq, Y|exact (C _ _ _ _ _ _ Hg E)].
Qed.
Lemma back_one M P a p t g : ustep M P -> hp P (p + t) = true -> length g = G -> (a <= at_ p)%Z ->
  back_for e M (at_ p) (mk a (p + S t) g false) = Ok (mk a (p + t) g true).
Proof.
  intros U E Hg Ha. pose proof (hp_lt _ _ E). unfold back_for. unfold mk at 1. cbn [s_end].
  replace (at_ (p + S t) - 1)%Z with (at_ (p + t)) by (unfold at_; lia). rewrite at_ok by lia.
  unfold mk at 1. cbn [s_end]. replace (Z.to_nat (at_ (p + S t) - at_ p)) with (S t) by (unfold at_; lia).
  unfold mk at 1 2. cbn [s_end back_scan]. replace (at_ (p + S t) - 1)%Z with (at_ (p + t)) by (unfold at_; lia).
  change (set_end (at_ (p + t)) {| s_start := a; s_end := at_ (p + S t); s_grp := g; s_acc := false |}) with (mk a (p + t) g false).
  rewrite U by (auto; unfold at_ in *; lia). rewrite E. reflexivity.
Qed.
Lemma bt_loop M P la B D gc gs ge : ustep M P -> bspec la B D true gc gs ge \/ bspec la B D false gc gs ge -> forall t a p g,
  (forall q, q < t -> hp P (p + q) = true) -> p + t <= length w -> length g = G -> (a <= at_ p)%Z ->
  (exists q g' j d, 1 <= q <= t /\ hd_error (D (p + q, [])) = Some (j, d) /\ (forall q', q < q' <= t -> D (p + q', []) = [])
     /\ nl t (bt_step e M B (at_ p)) (mk a (p + t) g true) = inr (Ok (mk a (if la then p + q else j) g' true))
     /\ length g' = G /\ (gs && ge = true -> g' = upd d g))
  \/ (exists g', (forall q', 1 <= q' <= t -> D (p + q', []) = [])
     /\ nl t (bt_step e M B (at_ p)) (mk a (p + t) g true) = inl (mk a p g' true) /\ length g' = G /\ (gc = true -> g' = g) /\ (gs = true -> same D g g')).
Proof.
  intros U HB'. assert (HB : bspec la B D false gc gs ge).
  { destruct HB' as [H|H]; [|exact H]. intros a i g b Hi Hg Hb Ha. apply H; auto. }
  clear HB'.
  induction t as [|t IH]; intros a p g Hq Hp Hg Ha.
  - right. exists g. rewrite Nat.add_0_r. conj; auto using same_refl. intros; lia.
  - cbn [nl].
    pose proof (HB a (p + S t) g true Hp Hg (or_introl eq_refl) ltac:(unfold at_ in *; lia)) as X.
    destruct (hd_error (D (p + S t, []))) as [[j d]|] eqn:E.
    + left. destruct X as (g' & X & Hg' & Y). exists (S t), g', j, d. conj; auto; try lia; try (intros; lia).
      * unfold bt_step. rewrite X. reflexivity.
      * rewrite andb_true_iff. tauto.
    + destruct X as (g' & X & Hg' & Y & YS).
      assert (BS : bt_step e M B (at_ p) (mk a (p + S t) g true) = inl (mk a (p + t) g' true)).
      { unfold bt_step. rewrite X. cbn [mk s_acc]. change (mkSt a (at_ (p + S t)) g' false) with (mk a (p + S t) g' false).
        rewrite (back_one M P) by (auto; apply Hq; lia). reflexivity. }
      rewrite BS. apply hd_none in E.
      destruct (IH a p g' ltac:(intros; apply Hq; lia) ltac:(lia) Hg' Ha) as [(q & g2 & j & d & A1 & A2 & A3 & A4 & A5 & A6)|(g2 & A1 & A2 & A3 & A4 & A7)].
      * left. exists q, g2, j, d. conj; auto; try lia.
        -- intros q' Hq'. destruct (Nat.eq_dec q' (S t)) as [->|]; [exact E|]. apply A3. lia.
        -- intro C. rewrite A6 by assumption. apply andb_true_iff in C as [C _]. exact (YS C _ _ _ (hd_some_in _ _ A2)).
      * right. exists g2. conj; auto.
        -- intros q' Hq'. destruct (Nat.eq_dec q' (S t)) as [->|]; [exact E|]. apply A1. lia.
        -- intro C. rewrite A4 by assumption. now apply Y.
        -- intro C. exact (same_trans _ _ _ _ (YS C) (A7 C)).
Qed.
Lemma first_down K i t q : q <= t -> (forall q', q < q' <= t -> K (i + q', []) = []) -> first_ok K (down i t) = first_ok K (down i q).
Proof.
  induction t as [|t IH]; intros L H.
  - now replace q with 0 by lia.
  - destruct (Nat.eq_dec q (S t)) as [->|]; [reflexivity|]. cbn [down]. rewrite first_cons, H by lia. cbn [hd_error].
    apply IH; [lia|]. intros; apply H; lia.
Qed.
Lemma first_down_hd K i q x : hd_error (K (i + q, [])) = Some x -> first_ok K (down i q) = Some x.
Proof.
  intro H. destruct q as [|q]; cbn [down]; rewrite first_cons; [rewrite Nat.add_0_r in H|]; now rewrite H.
Qed.
Lemma first_down_0 K i : first_ok K (down i 0) = hd_error (K (i, [])).
Proof. cbn [down]. rewrite first_cons. now destruct (hd_error _). Qed.

Hypothesis Hw : Forall (fun c => (-128 <= c <= 127)%Z) w.
Hypothesis Hlen : (N.of_nat (length w) < UMAX)%N.

Lemma extra_close mn mx p : N.to_nat mn <= p -> p <= length w -> close (N.to_nat (mx - mn)) (extra w mn (mx_opt mx)) p.
Proof.
  intros A B. unfold close, extra, mx_opt. destruct (N.eqb_spec mx UMAX) as [->|].
  - right. unfold UMAX in *. lia.
  - lia.
Qed.
Lemma greedy_gen_ok M P R D mn mx gc gs ge pv : ustep M P -> cspec R D PAny false true gc ge -> (gs = true -> gc = true \/ hides R D) ->
  cspec (greedy_gen e M mn mx R R) (seq_o (rep_o w Gr mn (mx_opt mx) (chr_o w P)) D) pv true (N.eqb mn 0) gc (gs && ge).
Proof.
  intros U HR HS a i g b Hi Hg Hb Ha _. unfold greedy_gen, reps. rewrite loopN_nl.
  assert (SQ : hd_error (seq_o (rep_o w Gr mn (mx_opt mx) (chr_o w P)) D (i, []))
     = first_ok D (flat_map (most_o (extra w mn (mx_opt mx)) (chr_o w P)) (pow_o (N.to_nat mn) (chr_o w P) (i, [])))) by reflexivity.
  rewrite SQ. clear SQ.
  destruct (reps_u M P U (N.to_nat mn) a i g b Hi Hg Ha) as [(A & B & C)|(j & A & B & C & Cl)].
  - rewrite A, B. cbn [flat_map]. rewrite app_nil_r. set (p := i + N.to_nat mn) in *.
    assert (Hap : (a <= at_ p)%Z) by (unfold at_, p in *; lia).
    rewrite loopN_nl.
    destruct (greedy_loop M P U (N.to_nat (mx - mn)) (extra w mn (mx_opt mx)) mn a p g
      (if N.to_nat mn =? 0 then b else true) C Hg Hap ltac:(apply extra_close; lia)) as (t & b' & T1 & T2 & T3 & T4 & T5).
    rewrite T5.
    assert (Fin : res (match nl t (bt_step e M R (at_ p)) (mk a (p + t) g b') with inl s2 => R (set_acc true s2) | inr o => o end)
       a i g (first_ok D (down p t)) (N.eqb mn 0) gc (gs && ge)).
    { destruct T3 as [->|[-> ->]].
      - destruct (bt_loop M P false R D gc gs ge U (or_intror (cspec_bspec _ _ _ _ _ _ HR HS)) t a p g T2 T1 Hg Hap)
          as [(q & g' & j & d & A1 & A2 & A3 & A4 & A5 & A6)|(g' & A1 & A2 & A3 & A4 & A7)].
        + rewrite A4. rewrite (first_down D p t q) by (auto; lia). rewrite (first_down_hd _ _ _ _ A2).
          exists g'. auto.
        + rewrite A2. rewrite (first_down D p t 0); [|lia|intros; apply A1; lia]. rewrite first_down_0.
          specialize (HR a p g' true C A3 (or_introl eq_refl) Hap I). change (set_acc true (mk a p g' true)) with (mk a p g' true).
          unfold res in *. destruct (hd_error (D (p, []))) as [[j d]|] eqn:Hd.
          * destruct HR as (g2 & -> & Hg2 & X). exists g2. conj; auto. rewrite andb_true_iff. intros [Y Z]. rewrite X by exact Z. exact (A7 Y _ _ _ (hd_some_in _ _ Hd)).
          * destruct HR as (j & g2 & -> & Hj & Hg2 & X & Y). exists j, g2. conj; auto.
            -- intro Z. rewrite X by reflexivity. unfold p. lia.
            -- intro Z. rewrite Y by assumption. now apply A4.
      - rewrite Nat.add_0_r. cbn [nl]. rewrite first_down_0.
        change (set_acc true (mk a p g (if N.to_nat mn =? 0 then b else true))) with (mk a p g true).
        specialize (HR a p g true C Hg (or_introl eq_refl) Hap I).
        unfold res in *. destruct (hd_error (D (p, []))) as [[j d]|].
        + destruct HR as (g2 & -> & Hg2 & X). exists g2. conj; auto. rewrite andb_true_iff. intros [Y Z]. now rewrite X.
        + destruct HR as (j & g2 & -> & Hj & Hg2 & X & Y). exists j, g2. conj; auto.
          intro Z. rewrite X by reflexivity. unfold p. lia. }
    change (s_end (mk a p g (if N.to_nat mn =? 0 then b else true))) with (at_ p).
    destruct T4 as [->| ->]; cbn [fst snd]; rewrite loopN_nl; replace (N.to_nat (mn + N.of_nat t - mn)) with t by lia; exact Fin.
  - rewrite A, C. cbn [flat_map]. exists j, g. conj; auto; try lia.
Qed.

(** ** x? *)
Definition retry_ok (D : outs) (pv : prev) : Prop :=
  forall a i, i <= length w -> prevok pv a i -> (a < at_ i)%Z -> D (i, []) = [] -> exists k, i = S k /\ D (k, []) = [].
Lemma opt_step M P la B D gc gs ge pv : ustep M P -> bspec la B D true gc gs ge -> retry_ok D pv ->
  forall a i g b, i <= length w -> length g = G -> (a <= at_ i)%Z -> prevok pv a i ->
  let t := if hp P i then 1 else 0 in
  most_o 1 (chr_o w P) (i, []) = down i t /\ i + t <= length w /\
  ((exists q g' j d, q <= t /\ hd_error (D (i + q, [])) = Some (j, d) /\ (forall q', q < q' <= t -> D (i + q', []) = [])
     /\ greedy_opt e M 1 B (mk a i g b) = Ok (mk a (if la then i + q else j) g' true)
     /\ length g' = G /\ (gs && ge = true -> g' = upd d g))
  \/ (exists j g', (forall q', q' <= t -> D (i + q', []) = [])
     /\ greedy_opt e M 1 B (mk a i g b) = Ok (mk a j g' false) /\ j <= length w /\ length g' = G
     /\ (a = at_ i -> j = i) /\ (gc = true -> g' = g))).
Proof.
  intros U HB HR a i g b Hi Hg Ha Hp. cbv zeta. split; [|split].
  - cbn [most_o]. rewrite chr_hp. destruct (hp P i); cbn [down]; [|reflexivity].
    unfold progress. cbn [filter fst]. destruct (Nat.eqb_spec (S i) i); [lia|]. cbn. now replace (i + 1) with (S i) by lia.
  - destruct (hp P i) eqn:E; [apply hp_lt in E|]; lia.
  - assert (GO : greedy_opt e M 1 B (mk a i g b) =
      bind (B (if hp P i then mk a (S i) g true else mk a i g false)) (fun s2 =>
      if (negb (s_acc s2) && (s_start s2 <? s_end s2)%Z)%bool then bind (move e (s_end s2 - Z.of_N 1)%Z s2) B else Ok s2)).
    { unfold greedy_opt. rewrite U by assumption. reflexivity. }
    destruct (hp P i) eqn:E.
    + pose proof (hp_lt _ _ E) as Lt.
      pose proof (HB a (S i) g true ltac:(lia) Hg (or_introl eq_refl) ltac:(unfold at_ in *; lia)) as X.
      destruct (hd_error (D (S i, []))) as [[j d]|] eqn:E1.
      * left. destruct X as (g' & EB & Hg' & X). rewrite EB in GO. exists 1, g', j, d. replace (i + 1) with (S i) by lia. conj; auto.
        -- intros; lia.
        -- rewrite andb_true_iff. tauto.
      * destruct X as (g' & EB & Hg' & X & XS). rewrite EB in GO. cbn [bind mk s_acc s_start s_end negb andb] in GO.
        destruct (Z.ltb_spec a (at_ (S i))) as [_|C]; [|exfalso; unfold at_ in *; lia].
        replace (at_ (S i) - Z.of_N 1)%Z with (at_ i) in GO by (unfold at_; lia). rewrite at_move in GO by lia. cbn [bind] in GO.
        change (set_end (at_ i) (mk a (S i) g' false)) with (mk a i g' false) in GO.
        pose proof (HB a i g' false Hi Hg' (or_intror eq_refl) Ha) as Y. apply hd_none in E1.
        assert (E1' : forall q', 0 < q' <= 1 -> D (i + q', []) = []) by (intros q' Q; replace (i + q') with (S i) by lia; exact E1).
        destruct (hd_error (D (i, []))) as [[j d]|] eqn:E2.
        -- left. destruct Y as (g2 & EB2 & Hg2 & Y). rewrite EB2 in GO. exists 0, g2, j, d. rewrite Nat.add_0_r. conj; auto.
           rewrite andb_true_iff. intros [A B0]. rewrite (Y B0). exact (XS A _ _ _ (hd_some_in _ _ E2)).
        -- right. destruct Y as (g2 & EB2 & Hg2 & Y & YS). rewrite EB2 in GO. exists i, g2. conj; auto.
           ++ intros q' Q. destruct q' as [|q']; [rewrite Nat.add_0_r; now apply hd_none|apply E1'; lia].
           ++ intro A. now rewrite Y, X.
    + pose proof (HB a i g false Hi Hg (or_intror eq_refl) Ha) as X.
      destruct (hd_error (D (i, []))) as [[j d]|] eqn:E1.
      * left. destruct X as (g' & EB & Hg' & X). rewrite EB in GO. exists 0, g', j, d. rewrite Nat.add_0_r. conj; auto.
        -- intros; lia.
        -- rewrite andb_true_iff. tauto.
      * right. destruct X as (g' & EB & Hg' & X & XS). rewrite EB in GO. apply hd_none in E1.
        cbn [bind mk s_acc s_start s_end negb andb] in GO.
        assert (E0 : forall q', q' <= 0 -> D (i + q', []) = []) by (intros q' Q; replace (i + q') with i by lia; exact E1).
        destruct (Z.ltb_spec a (at_ i)) as [C|C].
        -- destruct (HR a i Hi Hp C E1) as (k & -> & Ek).
           replace (at_ (S k) - Z.of_N 1)%Z with (at_ k) in GO by (unfold at_; lia). rewrite at_move in GO by lia. cbn [bind] in GO.
           change (set_end (at_ k) (mk a (S k) g' false)) with (mk a k g' false) in GO.
           pose proof (HB a k g' false ltac:(lia) Hg' (or_intror eq_refl) ltac:(unfold at_ in *; lia)) as Y.
           rewrite Ek in Y. cbn [hd_error] in Y. destruct Y as (g2 & EB2 & Hg2 & Y & YS). rewrite EB2 in GO. exists k, g2. conj; auto; try lia.
           intro A. now rewrite Y, X.
        -- exists i, g'. conj; auto.
Qed.
Lemma extra_opt : extra w 0 (mx_opt 1) = 1.
Proof. change (mx_opt 1) with (Some 1%N). unfold extra. lia. Qed.
Lemma greedy_opt_ok M P B D gc gs ge pv cl : ustep M P -> bspec false B D true gc gs ge -> retry_ok D pv ->
  (cl = true -> pv = PFst \/ tot D) ->
  cspec (greedy_opt e M 1 B) (seq_o (rep_o w Gr 0 (mx_opt 1) (chr_o w P)) D) pv true cl gc (gs && ge).
Proof.
  intros U HB HR HC a i g b Hi Hg Hb Ha Hp.
  destruct (opt_step M P false B D gc gs ge pv U HB HR a i g b Hi Hg Ha Hp) as (A & L & X). cbv zeta in *.
  set (t := if hp P i then 1 else 0) in *.
  assert (SQ : hd_error (seq_o (rep_o w Gr 0 (mx_opt 1) (chr_o w P)) D (i, [])) = first_ok D (down i t)).
  { cbn [rep_o]. rewrite extra_opt. unfold seq_o. cbn [N.to_nat pow_o eps_o flat_map]. rewrite app_nil_r, A. reflexivity. }
  rewrite SQ. destruct X as [(q & g' & j & d & A1 & A2 & A3 & A4 & A5 & A6)|(j & g' & A1 & A2 & A3 & A4 & A5 & A6)].
  - rewrite (first_down D i t q) by (auto; lia). rewrite (first_down_hd _ _ _ _ A2). exists g'. auto.
  - rewrite (first_down D i t 0); [|lia|intros; apply A1; lia]. rewrite first_down_0.
    pose proof (A1 0 ltac:(lia)) as Z. rewrite Nat.add_0_r in Z. rewrite Z. cbn [hd_error]. exists j, g'. conj; auto.
    intro C. destruct (HC C) as [-> | T]; [auto|]. now apply T in Z.
Qed.

(** ** A captured repetition followed by [c]: the repetition looks ahead at [c] *)
Lemma look_group M P B R D mn mx gc gs ge ac cl k pv : ustep M P -> bspec true B D false gc gs ge -> cspec R D PAny ac cl gc ge ->
  logp D -> k < G ->
  cspec (group_m (greedy_gen e M mn mx B (fun s => Ok s)) k R) (seq_o (cap_o k (rep_o w Gr mn (mx_opt mx) (chr_o w P))) D) pv true
    (N.eqb mn 0 && cl) false (gs && ge).
Proof.
  intros U HB HR LD HG a i g b Hi Hg Hb Ha _. unfold group_m, greedy_gen, reps. rewrite loopN_nl.
  set (f := fun c' : nat * list (nat * (nat * nat)) => (fst c', (k, (i, fst c')) :: snd c')).
  assert (SQ : hd_error (seq_o (cap_o k (rep_o w Gr mn (mx_opt mx) (chr_o w P))) D (i, []))
     = first_ok (fun c => D (f c)) (flat_map (most_o (extra w mn (mx_opt mx)) (chr_o w P)) (pow_o (N.to_nat mn) (chr_o w P) (i, [])))).
  { unfold seq_o at 1, cap_o. cbn [fst]. change (hd_error (flat_map D ?l)) with (first_ok D l). rewrite first_map. reflexivity. }
  rewrite SQ. clear SQ.
  assert (Df : forall q l, D (f (q, l)) = map (shift ((k, (i, q)) :: l)) (D (q, []))).
  { intros q l. unfold f. cbn [fst snd]. change (q, (k, (i, q)) :: l) with (shift ((k, (i, q)) :: l) (q, [])).
    now apply logp_shift. }
  assert (Dn : forall q l, D (q, []) = [] -> D (f (q, l)) = []) by (intros q l E; now rewrite Df, E).
  destruct (reps_u M P U (N.to_nat mn) a i g b Hi Hg Ha) as [(A & B0 & C)|(j & A & B0 & C & Cl)].
  - rewrite A, B0. cbn [flat_map]. rewrite app_nil_r. set (p := i + N.to_nat mn) in *.
    assert (Hap : (a <= at_ p)%Z) by (unfold at_, p in *; lia).
    rewrite loopN_nl.
    destruct (greedy_loop M P U (N.to_nat (mx - mn)) (extra w mn (mx_opt mx)) mn a p g
      (if N.to_nat mn =? 0 then b else true) C Hg Hap ltac:(apply extra_close; lia)) as (t & b' & T1 & T2 & T3 & T4 & T5).
    rewrite T5.
    assert (After : forall q g', q <= t -> length g' = G -> (forall q', q < q' <= t -> D (p + q', []) = []) ->
      (gs && ge = true -> forall j d, hd_error (D (p + q, [])) = Some (j, d) -> upd d g' = upd d g) ->
      (q = 0 \/ D (p + q, []) <> []) ->
      res (bind (set_group k (at_ i, at_ (p + q)) (mk a (p + q) g' true)) R) a i g
        (first_ok (fun c => D (f c)) (down p t)) (N.eqb mn 0 && cl) false (gs && ge)).
    { intros q g' Hq Hg' He Hu Hz. rewrite set_group_ok by (cbn; lia). cbn [bind mk s_start s_end s_grp s_acc].
      rewrite (first_down _ p t q) by (auto; intros; apply Dn; auto).
      specialize (HR a (p + q) (upd1 k (i, p + q) g') true ltac:(lia) ltac:(now rewrite upd1_length) (or_introl eq_refl)
        ltac:(unfold at_ in *; lia) I). unfold res in HR |- *.
      destruct (hd_error (D (p + q, []))) as [[j d]|] eqn:E.
      - rewrite (first_down_hd _ p q (j, d ++ [(k, (i, p + q))])) by (now rewrite Df, hd_map, E).
        destruct HR as (g2 & R1 & R2 & R3). exists g2. split; [exact R1|]. split; [exact R2|]. intro X.
        rewrite R3 by (apply andb_true_iff in X; tauto). rewrite upd_app. cbn [upd].
        exact (upd_under _ _ _ _ _ (Hu X _ _ eq_refl)).
      - apply hd_none in E. destruct Hz as [-> | Hz]; [|congruence]. rewrite Nat.add_0_r in *. rewrite first_down_0.
        rewrite Dn by assumption. cbn [hd_error].
        destruct HR as (j & g2 & R1 & R2 & R3 & R4 & R5). exists j, g2. conj; auto.
        + rewrite andb_true_iff. intros [X Y]. rewrite R4 by assumption. unfold p. lia.
        + discriminate. }
    assert (Fin : res (bind (match nl t (bt_step e M B (at_ p)) (mk a (p + t) g b') with inl s2 => Ok (set_acc true s2) | inr o => o end)
         (fun s1 => if s_acc s1 then bind (set_group k (at_ i, s_end s1) s1) R else Ok s1))
       a i g (first_ok (fun c => D (f c)) (down p t)) (N.eqb mn 0 && cl) false (gs && ge)).
    { destruct T3 as [->|[-> ->]].
      - destruct (bt_loop M P true B D gc gs ge U (or_intror HB) t a p g T2 T1 Hg Hap)
          as [(q & g' & j & d & A1 & A2 & A3 & A4 & A5 & A6)|(g' & A1 & A2 & A3 & A4 & A7)].
        + rewrite A4. cbn [bind mk s_acc s_end]. apply After; auto; try lia.
          * intros X j' d' E'. assert (j' = j /\ d' = d) as [-> ->] by (split; congruence). rewrite (A6 X). apply upd_upd.
          * right. intro Z. rewrite Z in A2. discriminate.
        + rewrite A2. cbn [bind]. change (s_acc (set_acc true (mk a p g' true))) with true. cbv iota.
          change (set_acc true (mk a p g' true)) with (mk a p g' true). change (s_end (mk a p g' true)) with (at_ p).
          pose proof (After 0 g') as Af. rewrite Nat.add_0_r in Af. apply Af; auto; try lia.
          intros X j' d' E'. apply andb_true_iff in X as [X _]. exact (A7 X _ _ _ (hd_some_in _ _ E')).
      - cbn [nl bind]. change (s_acc (set_acc true ?x)) with true. cbv iota.
        pose proof (After 0 g) as Af. rewrite Nat.add_0_r in *.
        change (s_end (set_acc true ?x)) with (s_end x). change (s_end (mk a p g (if N.to_nat mn =? 0 then b else true))) with (at_ p).
        change (set_acc true (mk a p g (if N.to_nat mn =? 0 then b else true))) with (mk a p g true).
        apply Af; auto; try lia. }
    change (s_end (mk a p g (if N.to_nat mn =? 0 then b else true))) with (at_ p).
    change (s_end (mk a i g b)) with (at_ i).
    destruct T4 as [->| ->]; cbn [fst snd]; rewrite loopN_nl; replace (N.to_nat (mn + N.of_nat t - mn)) with t by lia; exact Fin.
  - rewrite A, C. cbn [flat_map bind]. exists j, g. conj; auto; try lia.
Qed.
Lemma look_group_opt M P B R D gc gs ge ac cl k pv cl' : ustep M P -> bspec true B D true gc gs ge -> cspec R D PAny ac cl gc ge ->
  logp D -> k < G -> retry_ok D pv -> (cl' = true -> pv = PFst \/ tot D) ->
  cspec (group_m (greedy_opt e M 1 B) k R) (seq_o (cap_o k (rep_o w Gr 0 (mx_opt 1) (chr_o w P))) D) pv true cl' false (gs && ge).
Proof.
  intros U HB HR LD HG HT HC a i g b Hi Hg Hb Ha Hp. unfold group_m.
  set (f := fun c' : nat * list (nat * (nat * nat)) => (fst c', (k, (i, fst c')) :: snd c')).
  destruct (opt_step M P true B D gc gs ge pv U HB HT a i g b Hi Hg Ha Hp) as (A & L & X). cbv zeta in *.
  set (t := if hp P i then 1 else 0) in *.
  assert (SQ : hd_error (seq_o (cap_o k (rep_o w Gr 0 (mx_opt 1) (chr_o w P))) D (i, []))
     = first_ok (fun c => D (f c)) (down i t)).
  { unfold seq_o at 1, cap_o. cbn [fst]. change (hd_error (flat_map D ?l)) with (first_ok D l). rewrite first_map.
    cbn [rep_o]. rewrite extra_opt. unfold seq_o. cbn [N.to_nat pow_o eps_o flat_map]. rewrite app_nil_r, A. reflexivity. }
  assert (Df : forall q l, D (f (q, l)) = map (shift ((k, (i, q)) :: l)) (D (q, []))).
  { intros q l. unfold f. cbn [fst snd]. change (q, (k, (i, q)) :: l) with (shift ((k, (i, q)) :: l) (q, [])).
    now apply logp_shift. }
  assert (Dn : forall q l, D (q, []) = [] -> D (f (q, l)) = []) by (intros q l E; now rewrite Df, E).
  rewrite SQ. destruct X as [(q & g' & j & d & A1 & A2 & A3 & A4 & A5 & A6)|(j & g' & A1 & A2 & A3 & A4 & A5 & A6)].
  - rewrite A4. cbn [bind mk s_acc s_end]. unfold mk at 1. cbn [s_end].
    rewrite set_group_ok by (cbn; lia). cbn [bind mk s_start s_end s_grp s_acc].
    rewrite (first_down _ i t q) by (auto; intros; apply Dn; auto).
    rewrite (first_down_hd _ i q (j, d ++ [(k, (i, i + q))])) by (now rewrite Df, hd_map, A2).
    specialize (HR a (i + q) (upd1 k (i, i + q) g') true ltac:(lia) ltac:(now rewrite upd1_length) (or_introl eq_refl)
        ltac:(unfold at_ in *; lia) I). unfold res in HR |- *. rewrite A2 in HR.
    destruct HR as (g2 & R1 & R2 & R3). exists g2. split; [exact R1|]. split; [exact R2|]. intro X.
    rewrite R3 by (apply andb_true_iff in X; tauto). rewrite upd_app. cbn [upd]. rewrite (A6 X). apply upd_again.
  - rewrite A2. cbn [bind mk s_acc].
    rewrite (first_down _ i t 0); [|lia|intros; apply Dn, A1; lia]. rewrite first_down_0.
    pose proof (A1 0 ltac:(lia)) as Z. rewrite Nat.add_0_r in Z. rewrite Dn by assumption. cbn [hd_error]. exists j, g'. conj; auto.
    + intro C. destruct (HC C) as [-> | T]; [auto|]. now apply T in Z.
    + discriminate.
Qed.
End Eng.
