(** The search loop of next() over a good pattern: it finds the leftmost match, and the
    match it finds there is the first one in priority order. *)
From Coq Require Import ZArith NArith List Bool Lia ZifyBool ZifyNat ZifyN.
From Verif Require Import Base Text Ast Builder Engine Api Spec SpecProofs Den Checker CheckerProofs AstProofs EngineRel EngineProofs EngineOk EngineGood EngineMain ApiProofs Runs.
Import ListNotations.
Open Scope nat_scope.

Section Scan.
Variables (pre0 w post : str) (n : node).
Notation G := (ngroups n).
Notation e := (env_of pre0 w post).
Notation at_ := (at_ pre0).
Notation mk := (mk pre0).
Variable Ed : bool.
Hypothesis HE : Ed = true -> exists c p, post = c :: p /\ c <> c_nl.
Hypothesis Hw : Forall (fun c => (-128 <= c <= 127)%Z) w.
Hypothesis Hlen : (N.of_nat (length w) < UMAX)%N.
Hypothesis Hgood : good G Ed n PFst = true.
Hypothesis Hacc : accins n = true.
Notation skips := (skips pre0 w post G).

(** Leftmost match among [k] positions from [i] on. *)
Fixpoint dsr (k i : nat) : option (nat * (nat * list (nat * (nat * nat)))) :=
  match k with
  | O => None
  | S k' => match hd_error (den w n (i, [])) with Some c => Some (i, c) | None => dsr k' (S i) end
  end.
Lemma hd_none {A} (l : list A) : hd_error l = None <-> l = [].
Proof. destruct l; cbn; split; congruence. Qed.
Lemma dsr_none k : forall i, dsr k i = None <-> (forall p, i <= p < i + k -> den w n (p, []) = []).
Proof.
  induction k as [|k IH]; intro i; cbn [dsr].
  - split; [intros _ p H; lia|reflexivity].
  - destruct (hd_error (den w n (i, []))) as [c|] eqn:E.
    + split; [discriminate|]. intro H. rewrite (H i) in E by lia. discriminate.
    + apply hd_none in E. rewrite IH. split; intros H p Hp.
      * destruct (Nat.eq_dec p i) as [->|]; [exact E|apply H; lia].
      * apply H. lia.
Qed.
Lemma dsr_skip j : forall k i, i + j <= i + k -> (forall p, i <= p < i + j -> den w n (p, []) = []) -> dsr k i = dsr (k - j) (i + j).
Proof.
  induction j as [|j IH]; intros k i Hk H.
  - now rewrite Nat.sub_0_r, Nat.add_0_r.
  - destruct k as [|k]; [lia|]. cbn [dsr]. rewrite (proj2 (hd_none _) (H i ltac:(lia))).
    rewrite IH; [|lia|intros p Hp; apply H; lia]. f_equal; lia.
Qed.

Lemma clean_skips : clean n PFst = true -> skips n.
Proof.
  intros C i g b s1 Hi Hg E A.
  pose proof (mt_good pre0 w post G Ed HE Hw Hlen n PFst Hgood) as M. unfold nspec in M.
  specialize (M (at_ i) i g b Hi Hg (or_intror Hacc) (Z.le_refl _) eq_refl). unfold res in M.
  destruct (hd_error (den w n (i, []))) as [[j d]|].
  - destruct M as (g' & E' & _). rewrite E' in E. injection E as <-. discriminate.
  - destruct M as (j & g' & E' & Hj & Lg & X & _). rewrite E' in E. injection E as <-. rewrite (X C).
    exists i, g'. conj; auto. intros D p Hp. assert (p = i) as -> by lia. exact D.
Qed.

Hypothesis Hskip : skips n.
Hypothesis Hpost : post <> [] \/ clean n PFst = true.
Lemma S_ok i g b j g' : i < length w -> length g = G -> mt e n [] (mk (at_ i) i g b) = Ok (mk (at_ i) j g' false) -> j <= length w ->
  ptr_ok e (at_ (S j)) = true.
Proof.
  intros Hi Hg E Hj. destruct Hpost as [Hp|C].
  - unfold ptr_ok, at_, EngineOk.at_, env_of. cbn [buf]. rewrite !app_length. destruct post; [congruence|]. cbn. lia.
  - pose proof (mt_good pre0 w post G Ed HE Hw Hlen n PFst Hgood) as M. unfold nspec in M.
    specialize (M (at_ i) i g b ltac:(lia) Hg (or_intror Hacc) (Z.le_refl _) eq_refl). unfold res in M.
    destruct (hd_error (den w n (i, []))) as [[j' d]|].
    + destruct M as (g1 & E' & _). rewrite E' in E. discriminate.
    + destruct M as (j' & g1 & E' & _ & _ & X & _). rewrite E' in E.
      assert (j' = j) as <- by (unfold EngineOk.mk, EngineOk.at_ in E; injection E as E _; lia).
      rewrite (X C). apply at_ok. lia.
Qed.

(** Outcome of a search from [i] on with captures [g]. *)
Definition found (o : rout) (k i : nat) (g : list (option (Z * Z))) : Prop :=
  match dsr k i with
  | Some (p, (j, d)) => i <= p <= j /\ j <= length w /\ exists g', o = RDone (mk (at_ p) j g' true) /\ length g' = G
        /\ (gex n = true -> exists g0, length g0 = G /\ g' = upd pre0 d g0 /\ (gcl n = true -> g0 = g))
  | None => exists k g', o = RDone (mk (at_ k) k g' false) /\ length w <= k <= S (length w) /\ i <= k /\ length g' = G
        /\ (gcl n = true -> g' = g)
  end.
Lemma next_loop_ok fuel : forall i g b, i <= S (length w) -> length g = G -> length w < fuel + i ->
  found (next_loop fuel e n (mk (at_ i) i g b)) (length w - i) i g.
Proof.
  induction fuel as [|fuel IH]; intros i g b Hi Hg Hf.
  - unfold found. replace (length w - i) with 0 by lia. cbn [dsr next_loop]. change (s_start (mk (at_ i) i g b)) with (at_ i).
    replace (at_ i <? qe e)%Z with false by (pose proof (at_qe pre0 w post); unfold EngineOk.at_ in *; lia).
    exists i, g. conj; auto; lia.
  - cbn [next_loop]. change (s_start (mk (at_ i) i g b)) with (at_ i). destruct (Z.ltb_spec (at_ i) (qe e)) as [L|L].
    + assert (Li : i < length w) by (pose proof (at_qe pre0 w post); unfold EngineOk.at_ in *; lia). clear L.
      pose proof (mt_good pre0 w post G Ed HE Hw Hlen n PFst Hgood) as M. unfold nspec in M.
      specialize (M (at_ i) i g b ltac:(lia) Hg (or_intror Hacc) (Z.le_refl _) eq_refl). unfold res in M.
      unfold found. replace (length w - i) with (S (length w - S i)) by lia. cbn [dsr].
      destruct (hd_error (den w n (i, []))) as [[j d]|] eqn:D.
      * destruct M as (g' & E & Lg & X). rewrite E. cbn [s_acc EngineOk.mk].
        pose proof (den_fwd w n (i, []) (j, d) (hd_some_in _ _ D)) as F. cbn in F. conj; try lia. exists g'. conj; auto. intro C. exists g. conj; auto.
      * destruct M as (j & g' & E & Hj & Lg & X & Y). rewrite E. cbn [s_acc EngineOk.mk s_end s_grp].
        pose proof (S_ok i g b j g' Li Hg E Hj) as PK. rewrite at_S, PK.
        destruct (Hskip i g b _ ltac:(lia) Hg E eq_refl) as (j' & g1 & E1 & B & _ & Z).
        assert (j' = j) as -> by (unfold EngineOk.mk, EngineOk.at_ in E1; injection E1 as E1 _; lia).
        specialize (Z (proj1 (hd_none _) D)).
        specialize (IH (S j) g' false ltac:(lia) Lg ltac:(lia)). unfold found in IH.
        assert (EQ : dsr (length w - S i) (S i) = dsr (length w - S j) (S j)).
        { destruct (Nat.eq_dec j (length w)) as [->|].
          - replace (length w - S (length w)) with 0 by lia. cbn [dsr]. apply dsr_none. intros p Hp. apply Z. lia.
          - rewrite (dsr_skip (j - i)) by (try (intros; apply Z); lia). f_equal; lia. }
        rewrite EQ. change (mkSt (at_ (S j)) (at_ (S j)) g' false) with (mk (at_ (S j)) (S j) g' false).
        destruct (dsr (length w - S j) (S j)) as [[p [q d]]|].
        -- destruct IH as (I1 & I2 & g2 & I3 & I4 & I5). conj; try lia. exists g2. conj; auto. intros C2. destruct (I5 C2) as (g0 & Q1 & Q2 & Q3). exists g0. conj; auto. intro C1. rewrite (Q3 C1). auto.
        -- destruct IH as (k & g2 & I1 & I2 & I3 & I4 & I5). exists k, g2. conj; auto; try lia. intro C1. rewrite (I5 C1). auto.
    + assert (Li : length w <= i) by (pose proof (at_qe pre0 w post); unfold EngineOk.at_ in *; lia).
      unfold found. replace (length w - i) with 0 by lia. cbn [dsr]. exists i, g. conj; auto; lia.
Qed.

Lemma none_len : length (no_groups n) = G.
Proof. unfold no_groups. apply repeat_length. Qed.
Lemma next_ok fuel a i g b : i <= S (length w) -> length w < fuel + i ->
  found (next fuel e n (mk a i g b)) (length w - i) i (no_groups n).
Proof. intros Hi Hf. unfold next. cbn [s_end s_acc EngineOk.mk]. apply next_loop_ok; auto. apply none_len. Qed.
Lemma create_ok fuel : length w < fuel -> found (create fuel e n) (Nat.max 1 (length w)) 0 (no_groups n).
Proof.
  intro Hf. unfold create, fresh. rewrite <- (at_qb pre0 w post). change (mkSt (at_ 0) (at_ 0) (no_groups n) true) with (mk (at_ 0) 0 (no_groups n) true).
  pose proof (mt_good pre0 w post G Ed HE Hw Hlen n PFst Hgood) as M. unfold nspec in M.
  specialize (M (at_ 0) 0 (no_groups n) true ltac:(lia) none_len (or_introl eq_refl) (Z.le_refl _) eq_refl). unfold res in M.
  unfold found. replace (Nat.max 1 (length w)) with (S (length w - 1)) by lia. cbn [dsr].
  destruct (hd_error (den w n (0, []))) as [[j d]|] eqn:D.
  - destruct M as (g' & E & Lg & X). rewrite E. cbn [s_acc EngineOk.mk].
    pose proof (den_fwd w n (0, []) (j, d) (hd_some_in _ _ D)) as F. cbn in F. conj; try lia. exists g'. conj; auto. intro C. exists (no_groups n). conj; auto using none_len.
  - destruct M as (j & g' & E & Hj & Lg & X & Y). rewrite E. cbn [s_acc EngineOk.mk].
    destruct (Hskip 0 _ _ _ ltac:(lia) none_len E eq_refl) as (j' & g1 & E1 & B & _ & Z).
    assert (j' = j) as -> by (unfold EngineOk.mk, EngineOk.at_ in E1; injection E1 as E1 _; lia).
    specialize (Z (proj1 (hd_none _) D)).
    pose proof (next_ok fuel (at_ 0) j g' false ltac:(lia) ltac:(lia)) as IH. unfold found in IH.
    change (mkSt (at_ 0) (at_ j) g' false) with (mk (at_ 0) j g' false).
    assert (EQ : dsr (length w - 1) 1 = dsr (length w - j) j).
    { destruct (Nat.eq_dec j 0) as [->|].
      - rewrite Nat.sub_0_r. destruct (length w) as [|m] eqn:LW; [reflexivity|]. cbn [dsr]. rewrite D. now rewrite Nat.sub_succ, Nat.sub_0_r.
      - rewrite (dsr_skip (j - 1)) by (try (intros; apply Z); lia). f_equal; lia. }
    rewrite EQ. destruct (dsr (length w - j) j) as [[p [q d]]|].
    + destruct IH as (I1 & I2 & g2 & I3 & I4 & I5). conj; try lia. exists g2. conj; auto.
    + destruct IH as (k & g2 & I1 & I2 & I3 & I4 & I5). exists k, g2. conj; auto; try lia.
Qed.
End Scan.
