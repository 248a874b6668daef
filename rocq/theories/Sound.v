(** Patterns that are matched as specified wherever the matcher is started, without any
    assumption on which positions the search loop visits. *)
From Coq Require Import ZArith NArith List Bool Lia ZifyBool ZifyNat ZifyN.
From Verif Require Import Base Text Ast Builder Engine Api Spec SpecProofs SpecEnd Tree ParseProofs Den Checker CheckerProofs AstProofs BuilderProofs EngineRel EngineProofs EngineOk EngineGood EngineMain OptProofs ApiProofs Runs Scan Supported Main Captures Mono Find.
Import ListNotations.
Open Scope nat_scope.


Section Any.
Variables (pre w post : str) (n : node).
Notation G := (ngroups n).
Notation e := (env_of pre w post).
Notation at_ := (at_ pre).
Notation mk := (mk pre).
Notation L := (length w).
Variable Ed : bool.
Hypothesis HE : Ed = true -> exists c p, post = c :: p /\ c <> c_nl.
Hypothesis Hw : Forall (fun c => (-128 <= c <= 127)%Z) w.
Hypothesis Hlen : (N.of_nat (length w) < UMAX)%N.
Hypothesis Hgood : good G Ed n PFst = true.
Hypothesis Hacc : accins n = true.
Hypothesis Hopt : opt_small n = true.
Hypothesis Hpost : post <> [].
(** A result of a search from [i] on: a match of the specification, or no match. *)
Definition anyf (o : rout) (i : nat) : Prop :=
  exists p j g b, o = RDone (mk (at_ p) j g b) /\ length g = G /\ i <= p <= j
    /\ (b = true -> j <= L /\ exists d, hd_error (den w n (p, [])) = Some (j, d)
          /\ (gex n = true -> exists g0, length g0 = G /\ g = upd pre d g0))
    /\ (b = false -> p = j /\ L <= j <= S L).
Lemma start_ok i g b : i <= L -> length g = G -> b = true \/ accins n = true ->
  match hd_error (den w n (i, [])) with
  | Some (j, d) => i <= j <= L /\ exists g', mt e n [] (mk (at_ i) i g b) = Ok (mk (at_ i) j g' true) /\ length g' = G
        /\ (gex n = true -> g' = upd pre d g)
  | None => exists j g', mt e n [] (mk (at_ i) i g b) = Ok (mk (at_ i) j g' false) /\ i <= j <= L /\ length g' = G
  end.
Proof.
  intros Hi Hg Hb. pose proof (mt_good pre w post G Ed HE Hw Hlen n PFst Hgood) as M. unfold nspec in M.
  specialize (M (at_ i) i g b Hi Hg Hb (Z.le_refl _) eq_refl). unfold res in M.
  destruct (hd_error (den w n (i, []))) as [[j d]|] eqn:D.
  - destruct M as (g' & E & Lg & X). pose proof (den_fwd w n (i, []) (j, d) (hd_some_in _ _ D)) as F. cbn in F.
    split; [lia|]. exists g'. conj; auto.
  - destruct M as (j & g' & E & Hj & Lg & X & Y). exists j, g'. conj; auto.
    destruct (mt_end e n (mk (at_ i) i g b) _ Hopt (Z.le_refl (at_ i)) E) as [_ B]. unfold EngineOk.mk, EngineOk.at_ in B. cbn in B. lia.
Qed.
Lemma loop_any fuel : forall i g b, i <= S L -> length g = G -> L < fuel + i -> anyf (next_loop fuel e n (mk (at_ i) i g b)) i.
Proof.
  induction fuel as [|f IH]; intros i g b Hi Hg Hf; cbn [next_loop]; change (s_start (mk (at_ i) i g b)) with (at_ i);
    rewrite Z.ltb_antisym, qe_le; destruct (Nat.leb_spec L i) as [Li|Li]; cbn [negb]; try lia;
    try (exists i, i, g, false; conj; auto; try lia; discriminate).
  pose proof (start_ok i g b ltac:(lia) Hg (or_intror Hacc)) as M. destruct (hd_error (den w n (i, []))) as [[j d]|] eqn:D.
  - destruct M as (B & g' & -> & Lg & X). cbn [s_acc EngineOk.mk]. exists i, j, g', true. conj; auto; try lia; try discriminate.
    intros _. split; [lia|]. exists d. split; [exact D|]. intro C. exists g. auto.
  - destruct M as (j & g' & -> & B & Lg). cbn [s_acc EngineOk.mk s_end s_grp]. rewrite at_S.
    replace (ptr_ok e (at_ (S j))) with true by (symmetry; unfold ptr_ok, EngineOk.at_, env_of; cbn [buf]; rewrite !app_length; destruct post; [congruence|]; cbn; lia).
    destruct (IH (S j) g' false ltac:(lia) Lg ltac:(lia)) as (p & q & g2 & b2 & E & X1 & X2 & X3).
    exists p, q, g2, b2. conj; auto; lia || tauto.
Qed.
Lemma next_any fuel s i : s_end s = at_ i -> i <= S L -> L < fuel + i -> anyf (next fuel e n s) i.
Proof. intros E Hi Hf. unfold next. rewrite E. apply loop_any; auto. apply none_len. Qed.
(** At the beginning of the query nothing is missed. *)
Lemma create_any fuel : L < fuel -> anyf (create fuel e n) 0
  /\ (forall j d, hd_error (den w n (0, [])) = Some (j, d) ->
        exists g, create fuel e n = RDone (mk (at_ 0) j g true) /\ length g = G /\ (gex n = true -> g = upd pre d (no_groups n))).
Proof.
  intro Hf. unfold create, fresh. rewrite <- (at_qb pre w post). change (mkSt (at_ 0) (at_ 0) (no_groups n) true) with (mk (at_ 0) 0 (no_groups n) true).
  pose proof (start_ok 0 (no_groups n) true ltac:(lia) (none_len n) (or_introl eq_refl)) as M.
  destruct (hd_error (den w n (0, []))) as [[j d]|] eqn:D.
  - destruct M as (B & g' & -> & Lg & X). cbn [s_acc EngineOk.mk]. split.
    + exists 0, j, g', true. conj; auto; try lia; try discriminate. intros _. split; [lia|]. exists d. split; [exact D|].
      intro C. exists (no_groups n). split; [apply none_len|auto].
    + intros j0 d0 [= <- <-]. exists g'. auto.
  - destruct M as (j & g' & -> & B & Lg). cbn [s_acc EngineOk.mk]. split; [|discriminate].
    destruct (next_any fuel (mk (at_ 0) j g' false) j eq_refl ltac:(lia) ltac:(lia)) as (p & q & g2 & b2 & E & X1 & X2 & X3).
    exists p, q, g2, b2. conj; auto; lia || tauto.
Qed.
End Any.

Section Sound.
Variables (r : rx) (pre w post : str).
Notation e := (env_of pre w post).
Notation n := (ctree r).
Notation at_ := (EngineOk.at_ pre).
Hypothesis Hs : exact r = true.
Hypothesis Hq : query_ok w.
Hypothesis Hp : post <> [].
Lemma exact_parts : wf r = true /\ optok (tree (renumber r)) [] FTot = true /\ good (ngroups n) false n PFst = true /\ accins n = true /\ opt_small n = true.
Proof. unfold exact in Hs. rewrite !andb_true_iff in Hs. tauto. Qed.
Lemma exact_compile : compile (show r) = Some n.
Proof. rewrite compile_eq, (parse_show r (proj1 exact_parts)). reflexivity. Qed.
Lemma exact_den i : i <= length w -> hd_error (den w n (i, [])) = match_at w (renumber r) i.
Proof.
  intro Hi. unfold ctree. destruct exact_parts as (W & O & _).
  rewrite (optimize_first w (q_chars w Hq) _ _ O Hi). unfold match_at. apply eqv_hd. apply den_tree.
  unfold renumber. rewrite (proj1 renumber_wf). exact W.
Qed.
(** A result of a search from [i] on: a match of the specification, or no match. *)
Definition any_result (s : st) (i : nat) : Prop :=
  (is_accepted s = true -> exists p j l, to_view s = Some (place pre p j) /\ s_end s = at_ j /\ i <= p <= j /\ j <= length w
     /\ match_at w r p = Some (j, l)
     /\ (nats_eqb (caps (renumber r)) (caps r) && gex n && covers r = true -> shows_captures pre (length (caps r)) s (Some (p, (j, l)))))
  /\ (exists q, s_end s = at_ q /\ i <= q <= S (length w) /\ (s_acc s = false -> length w <= q)).
Lemma any_res o i : anyf pre w n o i -> exists s, o = RDone s /\ any_result s i.
Proof.
  intros (p & j & g & b & -> & Lg & B & T & F). eexists. split; [reflexivity|]. unfold any_result, is_accepted, to_view, is_accepted, EngineOk.mk. cbn [s_acc s_start s_end].
  split.
  - intros ->. destruct (T eq_refl) as (Bj & d & D & X). rewrite exact_den in D by lia.
    pose proof (match_at_renumber w r p) as MR. rewrite D in MR. cbn in MR.
    destruct (match_at w r p) as [[j2 l]|] eqn:M; [|discriminate]. cbn in MR. injection MR as <-.
    exists p, j, l. conj; auto; try lia.
    + unfold place. now rewrite !at_place.
    + rewrite !andb_true_iff. intros [[C1 C2] C3]. apply nats_eqb_eq in C1. pose proof (proj1 caps_eq r false 0 C1) as RE. fold (renumber r) in RE.
      rewrite RE, M in D. injection D as <-. destruct (X C2) as (g0 & L0 & ->). intros k Hk. rewrite (ctree_groups r) in L0.
      cbn [get_group s_grp]. rewrite nth_upd by lia. destruct (slot k l) as [[a c]|] eqn:SL; [reflexivity|].
      exfalso. exact (covers_slots w r p (j, l) C3 M k Hk SL).
  - exists j. destruct b.
    + destruct (T eq_refl) as [Bj _]. conj; auto; try lia; try discriminate.
    + destruct (F eq_refl). conj; auto; lia.
Qed.
Lemma create_sound fuel : length w < fuel -> exists s, create fuel e n = RDone s /\ any_result s 0
  /\ (forall c, match_at w r 0 = Some c -> to_view s = Some (place pre 0 (fst c))).
Proof.
  intro Hf. destruct exact_parts as (_ & _ & Gd & A & O). destruct (create_any pre w post n false (no_end post) (q_chars w Hq) (q_len w Hq) Gd A O Hp fuel Hf) as [X Y].
  destruct (any_res _ _ X) as (s & E & R). exists s. conj; auto. intros c M.
  pose proof (match_at_renumber w r 0) as MR. rewrite M in MR. destruct (match_at w (renumber r) 0) as [[j d]|] eqn:M2; [|discriminate].
  cbn in MR. injection MR as Ej. rewrite <- exact_den in M2 by lia. destruct (Y j d M2) as (g & E2 & _). rewrite E in E2. injection E2 as ->.
  unfold to_view, EngineOk.mk, is_accepted. cbn [s_acc s_start s_end]. rewrite <- Ej. unfold place. now rewrite !at_place.
Qed.
Lemma next_sound fuel s q : s_end s = at_ q -> q <= S (length w) -> length w < fuel + q ->
  exists s', next fuel e n s = RDone s' /\ any_result s' q.
Proof.
  intros E B Hf. destruct exact_parts as (_ & _ & Gd & A & O). apply any_res.
  apply (next_any pre w post n false (no_end post) (q_chars w Hq) (q_len w Hq) Gd A O Hp fuel s q); auto.
Qed.
Lemma reach_sound s : reach e n s -> any_result s 0.
Proof.
  induction 1 as [fuel s H|fuel s s' _ IH H].
  - destruct (create_sound (S (length w)) (Nat.lt_succ_diag_r _)) as (s2 & E2 & X & _).
    apply (create_more _ _ _ (fuel + S (length w))) in H; [|lia]. apply (create_more _ _ _ (fuel + S (length w))) in E2; [|lia].
    rewrite H in E2. injection E2 as <-. exact X.
  - destruct IH as [_ (q & E & B & _)].
    destruct (next_sound (S (length w)) s q E ltac:(lia) ltac:(lia)) as (s2 & E2 & [X (q2 & Y)]).
    apply (next_more _ _ _ (fuel + S (length w))) in H; [|lia]. apply (next_more _ _ _ (fuel + S (length w))) in E2; [|lia].
    rewrite H in E2. injection E2 as <-. split.
    + intro A. destruct (X A) as (p & j & l & Z). exists p, j, l. intuition.
    + exists q2. intuition.
Qed.
End Sound.
