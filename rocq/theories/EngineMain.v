(** On good nodes the matcher finds exactly the first way to match. *)
From Coq Require Import ZArith NArith List Bool Lia ZifyBool ZifyNat ZifyN.
From Verif Require Import Base Text Ast Builder Engine Spec SpecProofs Den Checker CheckerProofs AstProofs EngineRel EngineProofs EngineOk EngineGood EngineMark Marker.
Import ListNotations.
Open Scope nat_scope.

Lemma gcl_nog n : nog n = true -> gcl n = true.
Proof. intro H. destruct n; cbn [gcl]; rewrite H; reflexivity. Qed.
Lemma gex_nog n : nog n = true -> gex n = true.
Proof. intro H. destruct n; cbn [gex]; rewrite H; reflexivity. Qed.
Lemma usets_nog cs : Forall (fun n => forall P, uset n = Some P -> nog n = true) cs ->
  forall P, usets (map uset cs) = Some P -> flat_map gidx cs = [].
Proof.
  induction 1 as [|c cs Hc Hcs IH]; intros P H; [reflexivity|]. cbn [map usets flat_map] in *.
  destruct cs as [|c2 cs].
  - cbn in *. specialize (Hc _ H). unfold nog in Hc. destruct (gidx c); [reflexivity|discriminate].
  - change (map uset (c2 :: cs)) with (uset c2 :: map uset cs) in *. cbv iota in H.
    destruct (uset c) as [Q|] eqn:E; [|discriminate]. destruct (usets (uset c2 :: map uset cs)) as [Q'|] eqn:E'; [|discriminate].
    rewrite (IH Q') by reflexivity. specialize (Hc _ eq_refl). unfold nog in Hc. destruct (gidx c); [reflexivity|discriminate].
Qed.
Lemma uset_nog n : forall P, uset n = Some P -> nog n = true.
Proof.
  induction n using node_ind'; intros P0 U; cbn [uset] in U; try discriminate; unfold nog; cbn [gidx].
  - reflexivity.
  - now rewrite (usets_nog cs H P0 U).
  - destruct cs; [|discriminate]. cbn. rewrite app_nil_r. now apply (IHn P0).
  - destruct (uset n) as [Q|] eqn:E; [|discriminate]. now apply (IHn Q).
Qed.

(** Where [$] does not occur nothing is asked of the character after the text. *)
Lemma no_end (post : str) : false = true -> exists c p, post = c :: p /\ c <> c_nl.
Proof. discriminate. Qed.
Section Main.
Variables (pre0 w post : str) (G : nat).
Variable Ed : bool.
Hypothesis HE : Ed = true -> exists c p, post = c :: p /\ c <> c_nl.
Hypothesis Hw : Forall (fun c => (-128 <= c <= 127)%Z) w.
Hypothesis Hlen : (N.of_nat (length w) < UMAX)%N.
Notation e := (env_of pre0 w post).
Notation at_ := (at_ pre0).
Notation mk := (mk pre0).
Notation cspec := (cspec pre0 w G).
Notation prevok := (prevok pre0 w).
Notation ustep := (ustep pre0 w G).
Notation bspec := (bspec pre0 w G).
Notation nspec := (nspec pre0 w post G).
Notation den := (den w).

Lemma gcs_hides c : gcs c = true -> gcl c = true \/ EngineOk.hides pre0 G (mt e c []) (den c).
Proof.
  unfold gcs. intro H. apply orb_true_iff in H as [H|H]; [now left|right].
  intros a i g b j g' Hg E i' j' d Hin. apply mt_slots in E as [L X]. cbn [EngineOk.mk s_grp] in L, X. apply nth_ext'.
  intro k. rewrite !nth_upd, L. destruct (slot k d) eqn:S.
  - destruct (Nat.ltb_spec k (length g)); [reflexivity|]. now rewrite !(proj2 (nth_error_None _ _)) by lia.
  - apply X. intro Hk. exact (allsure_slot w c i' j' d k H Hin Hk S).
Qed.
Lemma eats_lt n c c' : eats n = true -> In c' (den n c) -> fst c <= length w -> fst c < fst c' <= length w.
Proof.
  unfold eats. intros H I L. apply orb_true_iff in H as [H|H]; [eapply nonnull_lt; eauto|].
  destruct n as [| | | | | | |m k [|x [|]]|]; try discriminate. cbn [Den.den map kidso alts] in I.
  unfold seq_o at 1 in I. apply in_flat_map in I as (c1 & A & B). unfold cap_o in A. apply in_map_iff in A as (c2 & <- & A).
  pose proof (den_fwd w m _ _ A L) as F. apply (nonnull_lt w x) in B; cbn [fst] in *; try assumption; lia.
Qed.
Lemma eats_end n l : eats n = true -> den n (length w, l) = [].
Proof.
  intro N. destruct (den n (length w, l)) as [|c r] eqn:E; [reflexivity|]. exfalso.
  assert (H : In c (den n (length w, l))) by (rewrite E; now left).
  apply eats_lt in H; auto. cbn in H. lia.
Qed.
Lemma prog_den n : nonnull n = true -> prog w (den n).
Proof. intros N c c' H L. eapply nonnull_lt; eauto. Qed.
Lemma uset_step x P : uset x = Some P -> nspec x PAny -> clean x PAny = true -> accins x = true -> ustep (mt e x []) P.
Proof.
  intros U H C A. apply (cspec_ustep _ _ _ _ (den x)); [now apply uset_den|].
  unfold EngineGood.nspec in H. rewrite C, A in H. rewrite (gcl_nog x), (gex_nog x) in H by (eapply uset_nog; eassumption). exact H.
Qed.
Lemma node_mstep x : nog x = true -> nspec x PAny -> clean x PAny = true -> accins x = true -> mstep pre0 w G (sf_of w x) (mt e x []).
Proof.
  intros N H C A. apply mark_step; [exact N|]. unfold EngineGood.nspec in H. rewrite C, A, (gcl_nog x N), (gex_nog x N) in H. exact H.
Qed.
Lemma cspec_ext_le M M' D D' pv ac cl gc ge : cspec M D pv ac cl gc ge ->
  (forall s, M' s = M s) -> (forall i, i <= length w -> hd_error (D' (i, [])) = hd_error (D (i, []))) -> cspec M' D' pv ac cl gc ge.
Proof. intros H E1 E2 a i g b Hi Hg Hb Ha Hp. rewrite E1, E2 by exact Hi. now apply H. Qed.
Lemma retry_good x c mn mx pv : opt_case x mn mx = true -> opt_good x c mn mx pv = true -> retry_ok pre0 w (den c) pv.
Proof.
  intros O H a i Hi Hp La E. unfold opt_good in H. rewrite O in H. rewrite !andb_true_iff, orb_true_iff in H.
  destruct H as [_ [T|H]].
  - now apply total_ok in E.
  - destruct pv as [|P|]; [| |discriminate].
    + cbn in Hp. lia.
    + destruct Hp as (k & x' & -> & E' & Px). exists k. split; [reflexivity|]. eapply first_disj_ok; eauto.
Qed.
Lemma opt_clean_ok x c mn mx pv : opt_case x mn mx = true -> opt_clean x mn mx [c] pv = true -> pv = PFst \/ tot (den c).
Proof.
  intros O H. unfold opt_clean in H. rewrite O in H. cbn in H. rewrite orb_false_r in H. apply orb_true_iff in H as [H|H].
  - right. now apply total_ok.
  - left. destruct pv; [reflexivity|discriminate|discriminate].
Qed.

(** ** The character before *)
Definition lastin (P : Z -> bool) (j : nat) : Prop := exists k x, j = S k /\ nth_error w k = Some x /\ P x = true.
Lemma pow_lastin D P : unit_like w D P -> forall n i l j d, In (j, d) (pow_o n D (i, l)) -> (n = 0 /\ j = i) \/ (n <> 0 /\ lastin P j).
Proof.
  intro U. induction n as [|n IH]; intros i l j d H; cbn in H.
  - destruct H as [[= -> ->]|[]]. auto.
  - right. split; [discriminate|]. unfold seq_o in H. apply in_flat_map in H as ([q l'] & A & B).
    destruct (U (i, l)) as [V _]. destruct (V _ A) as ([= -> ->] & x & E & Px). cbn [fst] in *.
    destruct (IH _ _ _ _ B) as [[-> ->]|[_ X]]; [|exact X]. exists i, x. auto.
Qed.
Lemma most_lastin D P : unit_like w D P -> forall n i l j d, In (j, d) (most_o n D (i, l)) -> j = i \/ lastin P j.
Proof.
  intro U. induction n as [|n IH]; intros i l j d H; cbn in H.
  - destruct H as [[= -> ->]|[]]. auto.
  - apply in_app_iff in H as [H|[[= -> ->]|[]]]; [|auto]. right. apply in_flat_map in H as ([q l'] & A & B).
    apply progress_in in A as [A _]. destruct (U (i, l)) as [V _]. destruct (V _ A) as ([= -> ->] & x & E & Px). cbn [fst] in *.
    destruct (IH _ _ _ _ B) as [->|X]; [|exact X]. exists i, x. auto.
Qed.
Lemma lastin_or_l P Q j : lastin P j -> lastin (fun c => P c || Q c) j.
Proof. intros (k & x & A & B & C). exists k, x. rewrite C. auto. Qed.
Lemma lastin_or_r P Q j : lastin Q j -> lastin (fun c => P c || Q c) j.
Proof. intros (k & x & A & B & C). exists k, x. rewrite C, orb_true_r. auto. Qed.
Lemma lastp_ok m pv a i j d : prevok pv a i -> hd_error (den m (i, [])) = Some (j, d) -> prevok (lastp m pv) a j.
Proof.
  intros Hp H. apply hd_some_in in H. unfold lastp. destruct (uset m) as [P|] eqn:U.
  - destruct (uset_den w m P U (i, [])) as [V _]. destruct (V _ H) as ([= -> ->] & x & E & Px). cbn. exists i, x. auto.
  - clear U. destruct m as [t|cs|m cs|x mn mx cs|x mn mx cs|x k mx [|]|x k [|]|x k cs|x]; try exact I.
    + destruct (uset x) as [P|] eqn:U; [|exact I]. pose proof (uset_den w x P U) as V.
      cbn [Den.den map kidso] in H. rewrite seq_eps_r in H. cbn [rep_o] in H. unfold atomic_o in H. apply firstn1_in in H.
      unfold seq_o in H. apply in_flat_map in H as ([q l] & A & B).
      apply (pow_lastin _ _ V) in A. apply (most_lastin _ _ V) in B.
      destruct (N.eqb_spec k 0) as [->|N].
      * destruct pv as [|Q|]; try exact I. destruct B as [->|B]; [|now apply lastin_or_l].
        destruct A as [[_ ->]|[A _]]; [|now cbn in A]. now apply lastin_or_r.
      * destruct B as [->|B]; [|exact B]. destruct A as [[A _]|[_ A]]; [lia|exact A].
    + destruct (uset x) as [P|] eqn:U; [|exact I]. pose proof (uset_den w x P U) as V.
      cbn [Den.den map kidso] in H. rewrite seq_eps_r in H. apply (pow_lastin _ _ V) in H.
      destruct (N.eqb_spec k 0) as [->|N].
      * destruct pv as [|Q|]; try exact I. destruct H as [[_ ->]|[A _]]; [|now cbn in A]. now apply lastin_or_r.
      * destruct H as [[A _]|[_ A]]; [lia|exact A].
Qed.

(** ** ^ *)
Lemma start_ok c pv : eats c = true -> nspec c pv -> nspec (Simple (Term TStart) [c]) pv.
Proof.
  intros N H a i g b Hi Hg Hb Ha Hp.
  assert (MT : mt e (Simple (Term TStart) [c]) [] (mk a i g b) =
     bind (match_start e (mk a i g b)) (fun s1 => if s_acc s1 then bind (mt e c [] s1) (fun s2 =>
             if s_acc s2 then Ok s2 else Ok (set_end (at_ i) s2)) else Ok s1)) by reflexivity.
  rewrite MT. clear MT.
  assert (MS : match_start e (mk a i g b) = Ok (mk a i g (if length w <=? i then false else i =? 0))).
  { unfold match_start. change (s_end (mk a i g b)) with (at_ i). rewrite qe_le. destruct (length w <=? i); [reflexivity|].
    replace (at_ i =? qb e)%Z with (i =? 0); [reflexivity|]. unfold EngineOk.at_, qb, env_of. lia. }
  rewrite MS. cbn [bind]. unfold EngineOk.mk at 1. cbn [s_acc].
  assert (HD : hd_error (den (Simple (Term TStart) [c]) (i, [])) = if i =? 0 then hd_error (den c (i, [])) else None).
  { cbn [Den.den map kidso alts]. unfold seq_o, bol_o. cbn [fst]. destruct (i =? 0); [|reflexivity]. cbn. now rewrite app_nil_r. }
  rewrite HD. clear HD MS.
  assert (GX : gex (Simple (Term TStart) [c]) = true -> gex c = true).
  { cbn [gex]. unfold nog. cbn. rewrite app_nil_r. fold (nog c). rewrite orb_true_iff, andb_true_r. intros [X|X]; [now apply gex_nog|exact X]. }
  assert (GC : gcl (Simple (Term TStart) [c]) = true -> total c = true \/ gcl c = true).
  { cbn [gcl]. unfold nog at 1. cbn. rewrite app_nil_r. fold (nog c). rewrite orb_true_iff, !orb_false_r, andb_true_r, orb_true_iff.
    intros [X|[X|X]]; [right; now apply gcl_nog|auto|auto]. }
  destruct (Nat.leb_spec (length w) i) as [L|L].
  - replace i with (length w) in * by lia. rewrite (eats_end c []) by assumption. cbn [hd_error].
    destruct (length w =? 0); exists (length w), g; auto.
  - destruct (Nat.eqb_spec i 0) as [->|Ni].
    + specialize (H a 0 g true Hi Hg (or_introl eq_refl) Ha Hp). change (set_acc true (mk a 0 g true)) with (mk a 0 g true).
      unfold EngineOk.res in H |- *. change (mkSt a (at_ 0) g true) with (mk a 0 g true).
      destruct (hd_error (den c (0, []))) as [[j d]|] eqn:E.
      * destruct H as (g' & -> & Hg' & X). exists g'. cbn [bind]. conj; auto.
      * destruct H as (j & g' & -> & Hj & Hg' & X & Y). cbn [bind]. exists 0, g'. conj; auto.
        intro Z. destruct (GC Z) as [T|T]; [|auto]. apply hd_none in E. now apply total_ok in E.
    + exists i, g. auto.
Qed.

Lemma unit_greedy x P mn mx D : uset x = Some P -> forall i,
  hd_error (seq_o (rep_o w Gr mn (mx_opt mx) (den x)) D (i, [])) = hd_error (seq_o (rep_o w Gr mn (mx_opt mx) (chr_o w P)) D (i, [])).
Proof. intros U i. apply eqv_hd. apply eqv_seq; [|apply eqv_refl]. apply eqv_rep, unit_eqv. now apply uset_den. Qed.
Lemma unit_greedy_cap x P mn mx D k : uset x = Some P -> forall i,
  hd_error (seq_o (cap_o k (rep_o w Gr mn (mx_opt mx) (den x))) D (i, [])) = hd_error (seq_o (cap_o k (rep_o w Gr mn (mx_opt mx) (chr_o w P))) D (i, [])).
Proof. intros U i. apply eqv_hd. apply eqv_seq; [|apply eqv_refl]. apply eqv_cap, eqv_rep, unit_eqv. now apply uset_den. Qed.
Lemma group_ext M M' k R R' s : (forall s, M s = M' s) -> (forall s, R s = R' s) -> group_m M k R s = group_m M' k R' s.
Proof.
  intros HM HR. unfold group_m. rewrite HM. destruct (M' s) as [s1|]; [|reflexivity]. cbn [bind].
  destruct (s_acc s1); [|reflexivity]. destruct (set_group _ _ _) as [s2|]; [|reflexivity]. cbn [bind]. apply HR.
Qed.
Lemma opt_case_unit x c mn mx pv : opt_case x mn mx = true -> opt_good x c mn mx pv = true ->
  mn = 0%N /\ mx = 1%N /\ nmin x = 1%N /\ nmax x = 1%N /\ accins c = true.
Proof.
  intros O H. unfold opt_good in H. rewrite O in H. unfold opt_case in O. rewrite !andb_true_iff in *.
  destruct O as [[O1 O2] O3], H as [[H1 H2] _]. apply N.eqb_eq in O1, O2, O3, H1. rewrite <- O3. auto.
Qed.

Lemma nog_kids cs : flat_map gidx cs = [] -> forallb nog cs = true.
Proof.
  induction cs as [|c cs IH]; [reflexivity|]. cbn. intro H. apply app_eq_nil in H as [A B]. unfold nog at 1. now rewrite A, IH.
Qed.
Lemma forallb_impl {A} (f g : A -> bool) l : (forall x, f x = true -> g x = true) -> forallb f l = true -> forallb g l = true.
Proof. intros H. rewrite !forallb_forall. auto. Qed.
Lemma butlast_gcl_all cs : forallb gcl cs = true -> butlast_gcl cs = true.
Proof.
  induction cs as [|c cs IH]; [reflexivity|]. cbn [forallb butlast_gcl]. intro H. apply andb_true_iff in H as [A B].
  destruct cs; [reflexivity|]. now rewrite A, IH.
Qed.
Lemma nog_mcs (l : list nat) cs : is_nil (l ++ flat_map gidx cs) = true -> l = [] /\ forallb nog cs = true.
Proof.
  intro H. destruct (l ++ flat_map gidx cs) eqn:E; [|discriminate]. apply app_eq_nil in E as [A B]. split; [exact A|]. now apply nog_kids.
Qed.
Lemma gcl_kids cs : forallb nog cs = true -> forallb gcl cs = true.
Proof. apply forallb_impl. apply gcl_nog. Qed.
Lemma gex_kids cs : forallb nog cs = true -> forallb gex cs = true.
Proof. apply forallb_impl. apply gex_nog. Qed.

(** Zero or one child. *)
Lemma kids_ok cs pv : (match cs with [] => True | [c] => nspec c pv | _ => False end) ->
  cspec (dfs (map (fun c i => mt e c i) cs) []) (kidso (map den cs)) pv (match cs with [c] => accins c | _ => false end)
    true (forallb gcl cs) (forallb gex cs)
  \/ exists c, cs = [c] /\ nspec c pv.
Proof.
  destruct cs as [|c [|]]; intro H; [left|right; eauto|destruct H]. apply eps_ok.
Qed.
Definition kcl (cs : list node) pv := match cs with [c] => clean c pv | _ => true end.
Lemma kids_spec cs pv : (match cs with [] => True | [c] => nspec c pv | _ => False end) ->
  cspec (dfs (map (fun c i => mt e c i) cs) []) (kidso (map den cs)) pv (match cs with [c] => accins c | _ => false end)
    (kcl cs pv) (forallb gcl cs) (forallb gex cs).
Proof.
  destruct cs as [|c [|]]; intro H; [| |destruct H].
  - apply eps_ok.
  - cbn [forallb kcl]. rewrite !andb_true_r. exact H.
Qed.
Lemma kids_log cs : logp (kidso (map den cs)).
Proof. apply logp_kids. apply Forall_map. apply Forall_forall. intros; apply den_log. Qed.

Definition looky (m : node) : bool := match m with Greedy _ _ _ [] | Lazy _ _ _ [] => true | _ => false end.
Lemma good_looky m pv : good G Ed m pv = true -> looky m = false.
Proof. destruct m as [ | | |? ? ? []|? ? ? []| | | |]; try reflexivity; discriminate. Qed.
Lemma looky_accins m i cs : looky m = false -> accins (Group m i cs) = accins m.
Proof. destruct m as [ | | |? ? ? []|? ? ? []| | | |]; try reflexivity; discriminate. Qed.
Lemma looky_clean m i cs pv : looky m = false -> clean (Group m i cs) pv = match cs with [] => clean m pv | _ => clean m pv && totk cs end.
Proof.
  destruct m as [ | | |? ? ? []|? ? ? []| | | |]; try discriminate; intros _; destruct cs; try reflexivity;
  cbn [clean]; now rewrite ?orb_false_r.
Qed.
Lemma gcl_group m i cs : gcl (Group m i cs) = true -> gcl m = true /\ totk cs = true.
Proof. cbn. rewrite !andb_true_iff. tauto. Qed.
Lemma looky_gex m i cs : looky m = false -> gex (Group m i cs) = gex m && forallb gex cs.
Proof. destruct m as [ | | |? ? ? []|? ? ? []| | | |]; try reflexivity; discriminate. Qed.
Lemma looky_good m i c pv : looky m = false -> good G Ed (Group m i [c]) pv =
  (i <? G) && (noinj c && (good G Ed m pv && noinj m && good G Ed c (lastp m pv) && (det m || total c))).
Proof. destruct m as [ | | |? ? ? []|? ? ? []| | | |]; try reflexivity; discriminate. Qed.

Ltac bools H := rewrite ?andb_true_iff, ?orb_true_iff in H.

Definition Q (n : node) : Prop := forall pv, good G Ed n pv = true -> nspec n pv.
Theorem mt_good_body n : Q n /\ (match n with Greedy x _ _ _ | Lazy x _ _ _ => Q x | _ => True end).
Proof.
  induction n as [t|cs H|m cs [IHm _] H|m mn mx cs [IHm _] H|m mn mx cs [IHm _] H|m mn mx cs [IHm _] H|m k cs [IHm _] H|m k cs [IHm IHx] H|m [IHm _]]
    using node_ind'; (split; [|exact I || exact IHm]); intros pv Gd; cbn [good] in Gd.
  - (* Term *)
    assert (TE : t = TEnd \/ is_some (tset t) = true) by (destruct t; auto). destruct TE as [->|Gt].
    + apply cspec_any. destruct (HE Gd) as (c & p & Ep & Np). exact (end_ok pre0 w post G c p Ep Np).
    + destruct (tset t) as [P|] eqn:T; [|discriminate]. apply cspec_any. unfold EngineGood.nspec.
      assert (C : clean (Term t) pv = clean (Term t) PAny) by (destruct t; reflexivity). unfold EngineOk.cspec.
      replace (den (Term t)) with (chr_o w P) by (destruct t; try discriminate; cbn [Den.den]; now rewrite T).
      rewrite C. apply (term_ok pre0 w post G t P T).
  - (* SimpleV *)
    destruct cs as [|c cs]; [discriminate|]. bools Gd. destruct Gd as [[_ G1] G2].
    assert (F : Forall (fun n => nspec n pv) (c :: cs)).
    { rewrite forallb_forall in G1. rewrite Forall_forall in *. intros x Hx. apply H; auto. }
    pose proof (dfs_ok pre0 w post G cs pv c F G2) as D.
    eapply cspec_weaken; [exact D| | | |]; auto.
    + cbn [gcl]. intro X. apply orb_true_iff in X as [X|X]; [|exact X]. apply gcl_kids.
      apply (nog_mcs [] (c :: cs)). exact X.
    + cbn [gex]. intro X. apply orb_true_iff in X as [X|X]; [|exact X].
      assert (Y : forallb nog (c :: cs) = true) by (apply (nog_mcs [] (c :: cs)); exact X).
      rewrite (gex_kids _ Y). apply butlast_gcl_all, gcl_kids, Y.
  - (* Simple *)
    destruct cs as [|c [|]]; [| |discriminate].
    + specialize (IHm pv Gd). unfold EngineGood.nspec in *.
      eapply cspec_weaken; [eapply cspec_ext; [exact IHm|reflexivity|]| | | |]; auto.
      * intro i. cbn [Den.den map kidso]. now rewrite seq_eps_r.
      * cbn [gcl]. intro X. apply orb_true_iff in X as [X|X].
        -- apply gcl_nog. apply (nog_mcs (gidx m) []) in X. unfold nog. now rewrite (proj1 X).
        -- bools X. tauto.
      * cbn [gex]. intro X. apply orb_true_iff in X as [X|X].
        -- apply gex_nog. apply (nog_mcs (gidx m) []) in X. unfold nog. now rewrite (proj1 X).
        -- bools X. tauto.
    + inversion H as [|? ? [Hc _] _]; subst.
      destruct (is_start m) eqn:St.
      * assert (m = Term TStart) as -> by (destruct m as [[]| | | | | | | |]; try discriminate; reflexivity).
        bools Gd. destruct Gd as [A B]. apply start_ok; auto.
      * bools Gd. destruct Gd as [[G1 G2] G3].
        eapply cspec_weaken;
          [apply (simple_ok pre0 w G (mt e m []) (mt e c []) (den m) (den c) pv (lastp m pv) (accins m) (clean m pv) (gcl m) (gex m)
                    (accins c) (clean c (lastp m pv)) (gcl c) (gex c) (total c) (IHm _ G1) (Hc _ G2) (den_fwd w m) (den_log w c)) with (ng := nog m)
          | | | |]; auto.
        -- destruct G3 as [G3|G3]; [left; now apply det_ok|right; now apply total_ok].
        -- intro T. now apply total_ok.
        -- intros a i j d Hi Hp Hd. eapply lastp_ok; eauto.
        -- intro N. split; [now apply gex_nog|]. intros i j d Hin. eapply nog_log; eauto.
        -- cbn [gcl]. intro X. apply orb_true_iff in X as [X|X].
           ++ apply (nog_mcs (gidx m) [c]) in X as [X Y]. cbn in Y. rewrite andb_true_r in Y.
              assert (N : nog m = true) by (unfold nog; now rewrite X). rewrite (gcl_nog m N), N, (gcl_nog c Y). cbn. apply orb_true_r.
           ++ unfold totk in X. cbn [is_nil existsb forallb] in X. rewrite orb_false_r, andb_true_r in X. exact X.
        -- cbn [gex]. intro X. apply orb_true_iff in X as [X|X].
           ++ apply (nog_mcs (gidx m) [c]) in X as [X Y]. cbn in Y. rewrite andb_true_r in Y.
              assert (N : nog m = true) by (unfold nog; now rewrite X). now rewrite (gex_nog m N), (gex_nog c Y).
           ++ cbn [forallb] in X. rewrite andb_true_r in X. exact X.
  - (* Greedy *)
    destruct cs as [|c [|]]; try discriminate. inversion H as [|? ? [Hc _] _]; subst.
    bools Gd. destruct Gd as [[[[[[G0 G1] G2] G3] G4] G5] G6].
    pose proof (Hc _ G4) as HC. unfold EngineGood.nspec in HC. rewrite G5 in HC.
    assert (GC : gcl (Greedy m mn mx [c]) = true -> gcl c = true).
    { cbn [gcl]. intro X. apply orb_true_iff in X as [X|X].
      - apply (nog_mcs (gidx m) [c]) in X as [X Y]. cbn in Y. rewrite andb_true_r in Y. now apply gcl_nog.
      - cbn in X. rewrite andb_true_r in X. bools X. tauto. }
    assert (GX : gex (Greedy m mn mx [c]) = true -> gcs c && gex c = true).
    { cbn [gex]. intro X. apply orb_true_iff in X as [X|X].
      - apply (nog_mcs (gidx m) [c]) in X as [X Y]. cbn in Y. rewrite andb_true_r in Y. unfold gcs. rewrite gcl_nog, gex_nog by assumption. reflexivity.
      - cbn in X. rewrite !andb_true_r in X. bools X. rewrite !andb_true_iff. tauto. }
    unfold greedy_item in G0. destruct (uset m) as [P|] eqn:U.
    2:{ cbn [is_some orb] in G0. bools G0. destruct G0 as [[[[D1 D2] D3] D4] D5]. apply negb_true_iff in D5.
      pose proof (node_mstep m D3 (IHm _ G1) G2 G3) as MS.
      assert (MT : mt e (Greedy m mn mx [c]) [] = greedy_gen e (mt e m []) mn mx (mt e c []) (mt e c [])).
      { cbn [mt map]. unfold greedy_m. unfold opt_case in D5. rewrite D5. reflexivity. }
      unfold EngineGood.nspec. rewrite MT.
      eapply cspec_weaken; [eapply cspec_ext_le; [eapply (mgreedy_gen_ok pre0 w post G (sf_of w m) (stepf_of w m Hw D1 D2 D3 D4) Hlen _ _ (den c) mn mx (gcl c) (gcs c) (gex c) pv)|reflexivity|]| | | |].
      - exact MS.
      - eapply cspec_weaken; [exact HC| | | |]; auto. discriminate.
      - apply gcs_hides.
      - intros i Li. cbn [Den.den map kidso alts]. now apply mark_greedy.
      - auto.
      - cbn [clean]. intro X. bools X. tauto.
      - exact GC.
      - exact GX. }
    pose proof (uset_step m P U (IHm _ G1) G2 G3) as US.
    destruct (opt_case m mn mx) eqn:O.
    + destruct (opt_case_unit m c mn mx pv O G6) as (-> & -> & N1 & N2 & AC). rewrite AC in HC.
      assert (MT : mt e (Greedy m 0 1 [c]) [] = greedy_opt e (mt e m []) 1 (mt e c [])).
      { cbn [mt map]. unfold greedy_m. unfold opt_case in O. rewrite O. rewrite N1. reflexivity. }
      unfold EngineGood.nspec. rewrite MT.
      eapply cspec_weaken; [eapply cspec_ext; [eapply (greedy_opt_ok pre0 w post G Hlen _ P _ (den c) (gcl c) (gcs c) (gex c) pv (clean (Greedy m 0 1 [c]) pv))|reflexivity|]| | | |].
      * exact US.
      * apply (cspec_bspec pre0 w G _ _ true); [exact HC|apply gcs_hides].
      * eapply retry_good; eauto.
      * intro X. cbn [clean] in X. bools X. eapply opt_clean_ok; [exact O|]. tauto.
      * intro i. cbn [Den.den map kidso alts]. now apply unit_greedy.
      * auto.
      * auto.
      * exact GC.
      * exact GX.
    + assert (MT : mt e (Greedy m mn mx [c]) [] = greedy_gen e (mt e m []) mn mx (mt e c []) (mt e c [])).
      { cbn [mt map]. unfold greedy_m. unfold opt_case in O. rewrite O. reflexivity. }
      unfold EngineGood.nspec. rewrite MT.
      eapply cspec_weaken; [eapply cspec_ext; [eapply (greedy_gen_ok pre0 w post G Hlen _ P _ (den c) mn mx (gcl c) (gcs c) (gex c) pv)|reflexivity|]| | | |].
      * exact US.
      * eapply cspec_weaken; [exact HC| | | |]; auto. discriminate.
      * apply gcs_hides.
      * intro i. cbn [Den.den map kidso alts]. now apply unit_greedy.
      * auto.
      * cbn [clean]. intro X. bools X. tauto.
      * exact GC.
      * exact GX.
  - (* Lazy *)
    destruct cs as [|c [|]]; try discriminate. inversion H as [|? ? [Hc _] _]; subst. bools Gd.
    destruct Gd as [[[[[G1 G2] G3] G4] G5] G6].
    pose proof (Hc _ G5) as HC. unfold EngineGood.nspec in HC. rewrite G6 in HC.
    eapply cspec_weaken; [apply (lazy_ok pre0 w post G Hlen (mt e m []) (mt e c []) (den m) (den c) mn mx
        (accins m) (clean m PAny) (gcl m) (gex m) (accins c) (gcl c) (gcs c) (gex c) (nog m) pv)| | | |].
    + now apply IHm.
    + exact G4.
    + now apply prog_den.
    + now apply det_ok.
    + apply den_log.
    + apply den_log.
    + exact HC.
    + apply gcs_hides.
    + intro N. split; [now apply gcl_nog|]. split; [now apply gex_nog|]. intros i j d Hin. eapply nog_log; eauto.
    + cbn [accins]. intro X. bools X. tauto.
    + discriminate.
    + cbn [gcl]. intro X. apply orb_true_iff in X as [X|X].
      * apply (nog_mcs (gidx m) [c]) in X as [X Y]. cbn in Y. rewrite andb_true_r in Y.
        assert (N : nog m = true) by (unfold nog; now rewrite X). now rewrite N, (gcl_nog c Y).
      * cbn in X. rewrite andb_true_r in X. exact X.
    + cbn [gex]. intro X. apply orb_true_iff in X as [X|X].
      * apply (nog_mcs (gidx m) [c]) in X as [X Y]. cbn in Y. rewrite andb_true_r in Y.
        assert (N : nog m = true) by (unfold nog; now rewrite X). unfold gcs. now rewrite (gex_nog m N), (gcl_nog c Y), (gex_nog c Y).
      * cbn in X. rewrite !andb_true_r in X. bools X. rewrite !andb_true_iff. tauto.
  - (* Possessive *)
    bools Gd. destruct Gd as [[[[G1 G2] G3] G4] G5].
    assert (KS : match cs with [] => True | [c] => nspec c (lastp (Possessive m mn mx []) pv) | _ => False end).
    { destruct cs as [|c [|]]; [exact I| |discriminate]. inversion H as [|? ? [Hc _] _]; subst. now apply Hc. }
    apply kids_spec in KS.
    assert (NP : nog m = true -> forall i j d, In (j, d) (rep_o w Po mn (mx_opt mx) (den m) (i, [])) -> d = []).
    { intros N i j d Hin. apply (nog_log w (Possessive m mn mx []) i j d).
      - unfold nog in *. cbn. now rewrite app_nil_r.
      - cbn [Den.den map kidso]. now rewrite seq_eps_r. }
    eapply cspec_weaken; [apply (possessive_ok pre0 w G Hlen (mt e m []) _ (den m) _ mn mx pv _
        (accins m) (clean m PAny) (gcl m) (gex m) _ _ _ _ (nog m) (totk cs) (IHm _ G1) KS)| | | |].
    + now apply prog_den.
    + apply den_log.
    + destruct G3 as [G3|G3]; [right; lia|left; now apply det_ok].
    + lia.
    + apply kids_log.
    + apply totk_ok.
    + intros a i j d Hi Hp Hd. eapply (lastp_ok (Possessive m mn mx [])); [exact Hp|]. cbn [Den.den map kidso]. rewrite seq_eps_r. exact Hd.
    + intro N. split; [now apply gex_nog|]. split; [now apply gcl_nog|]. now apply NP.
    + intros N i j d Hin. eapply nog_log; eauto.
    + auto.
    + auto.
    + cbn [gcl]. intro X. apply orb_true_iff in X as [X|X]; [|exact X].
      apply (nog_mcs (gidx m) cs) in X as [X Y]. assert (N : nog m = true) by (unfold nog; now rewrite X).
      rewrite (gcl_nog m N), N, (gcl_kids cs Y), !orb_true_r. reflexivity.
    + cbn [gex]. intro X. apply orb_true_iff in X as [X|X]; [|exact X].
      apply (nog_mcs (gidx m) cs) in X as [X Y]. assert (N : nog m = true) by (unfold nog; now rewrite X).
      now rewrite (gcl_nog m N), (gex_nog m N), (gex_kids cs Y).
  - (* Repeated *)
    bools Gd. destruct Gd as [[G1 G2] G5].
    assert (KS : match cs with [] => True | [c] => nspec c (lastp (Repeated m k []) pv) | _ => False end).
    { destruct cs as [|c [|]]; [exact I| |discriminate]. inversion H as [|? ? [Hc _] _]; subst. now apply Hc. }
    apply kids_spec in KS.
    eapply cspec_weaken; [apply (repeated_ok pre0 w G (mt e m []) _ (den m) _ k pv _
        (accins m) (clean m PAny) (gcl m) (gex m) _ _ _ _ (nog m) (totk cs) (IHm _ G1) KS)| | | |].
    + apply den_fwd.
    + apply den_log.
    + now apply det_ok.
    + apply kids_log.
    + apply totk_ok.
    + intros a i j d Hi Hp Hd. eapply (lastp_ok (Repeated m k [])); [exact Hp|]. cbn [Den.den map kidso]. rewrite seq_eps_r. exact Hd.
    + intro N. split; [now apply gex_nog|]. intros i j d Hin. eapply nog_log; eauto.
    + auto.
    + auto.
    + cbn [gcl]. intro X. apply orb_true_iff in X as [X|X]; [|exact X].
      apply (nog_mcs (gidx m) cs) in X as [X Y]. assert (N : nog m = true) by (unfold nog; now rewrite X).
      rewrite (gcl_nog m N), N, (gcl_kids cs Y), !orb_true_r. reflexivity.
    + cbn [gex]. intro X. apply orb_true_iff in X as [X|X]; [|exact X].
      apply (nog_mcs (gidx m) cs) in X as [X Y]. assert (N : nog m = true) by (unfold nog; now rewrite X).
      now rewrite (gex_nog m N), (gex_kids cs Y).
  - (* Group *)
    change (good G Ed (Group m k cs) pv = true) in Gd.
    destruct cs as [|c cs].
    + (* no child *)
      assert (Gd' : (k <? G) = true /\ good G Ed m pv = true).
      { cbn [good] in Gd. now bools Gd. }
      destruct Gd' as [G1 G2]. pose proof (good_looky m pv G2) as LK. unfold EngineGood.nspec.
      rewrite looky_accins, looky_clean, looky_gex by assumption.
      eapply cspec_weaken; [apply (group_ok pre0 w G (mt e m []) (fun s => Ok s) (den m) eps_o pv PAny (accins m) (clean m pv) (gcl m) (gex m)
         false true true true true k (IHm _ G2) (eps_ok pre0 w G PAny))| | | |].
      * apply Nat.ltb_lt; exact G1.
      * apply den_fwd.
      * apply logp_eps.
      * right. intro x. discriminate.
      * intros _ x. discriminate.
      * intros a i j d Hi Hp Hd. exact I.
      * auto.
      * intro X. now rewrite X.
      * intro X. apply gcl_group in X as [X _]. now rewrite X.
      * cbn. auto.
    + destruct cs; [|cbn [good] in Gd; rewrite andb_false_r in Gd; discriminate]. inversion H as [|? ? [Hc _] _]; subst.
      assert (RX : noinj c = true -> forall s, dfs (map (fun c i => mt e c i) [c]) ([mt e c []] ++ []) s = mt e c [] s).
      { intros N s. cbn. now apply noinj_ok. }
      destruct (looky m) eqn:LK.
      * unfold EngineGood.nspec. cbn [gcl]. 
        destruct m as [ | | |x mn mx [|]|x mn mx [|]| | | |]; try discriminate LK; cbn [good] in Gd.
        -- bools Gd. destruct Gd as (G0 & G1 & [[[[[GI G2] G3] G4] G5] G6] & G7).
           pose proof (Hc _ G5) as HC. unfold EngineGood.nspec in HC.
           assert (HR : cspec (dfs (map (fun c i => mt e c i) [c]) ([mt e c []] ++ [])) (den c) PAny (accins c) (clean c PAny) (gcl c) (gex c)).
           { eapply cspec_ext; [exact HC|now apply RX|reflexivity]. }
           assert (GX : gex (Group (Greedy x mn mx []) k [c]) = true -> gcs c && gex c = true).
           { cbn. rewrite !andb_true_r. intro X. bools X. rewrite !andb_true_iff. tauto. }
           unfold greedy_item in GI. destruct (uset x) as [P|] eqn:U.
           2:{ cbn [is_some orb] in GI. bools GI. destruct GI as [[[[D1 D2] D3] D4] D5]. apply negb_true_iff in D5.
             pose proof (node_mstep x D3 (IHx _ G2) G3 G4) as MS.
             assert (MT : mt e (Group (Greedy x mn mx []) k [c]) [] =
               group_m (greedy_gen e (mt e x []) mn mx (greedy_bt false (fun s => Ok s) [mt e c []]) (fun s => Ok s)) k
                 (dfs (map (fun c i => mt e c i) [c]) ([mt e c []] ++ []))).
             { cbn [mt map]. unfold greedy_m. unfold opt_case in D5. rewrite D5. reflexivity. }
             rewrite MT.
             eapply cspec_weaken; [eapply cspec_ext_le; [eapply (mlook_group pre0 w post G (sf_of w x) (stepf_of w x Hw D1 D2 D3 D4) Hlen _ _ _ (den c) mn mx (gcl c) (gcs c) (gex c) _ _ k pv)|reflexivity|]| | | |].
             - exact MS.
             - eapply (cspec_look pre0 w G _ _ false false); [|apply gcs_hides]. eapply cspec_weaken; [exact HC| | | |]; auto; discriminate.
             - exact HR.
             - apply den_log.
             - apply Nat.ltb_lt; exact G0.
             - intros i Li. cbn [Den.den map kidso alts]. rewrite <- (mark_greedy_cap w x Hw D1 D3 mn mx (den c) k i Li).
               unfold seq_o at 1 3. unfold cap_o. cbn [fst snd]. now rewrite seq_eps_r.
             - auto.
             - cbn [clean is_nil negb forallb]. rewrite andb_false_r, andb_true_r. cbn [andb orb]. rewrite !andb_true_iff. tauto.
             - cbn. rewrite !andb_false_r. discriminate.
             - exact GX. }
           pose proof (uset_step x P U (IHx _ G2) G3 G4) as US.
           destruct (opt_case x mn mx) eqn:O.
           ++ destruct (opt_case_unit x c mn mx pv O G7) as (-> & -> & N1 & N2 & AC). rewrite AC in HC.
              assert (MT : mt e (Group (Greedy x 0 1 []) k [c]) [] =
                 group_m (greedy_opt e (mt e x []) 1 (greedy_bt false (fun s => Ok s) [mt e c []])) k
                   (dfs (map (fun c i => mt e c i) [c]) ([mt e c []] ++ []))).
              { cbn [mt map]. unfold greedy_m. unfold opt_case in O. rewrite O. rewrite N1. reflexivity. }
              rewrite MT.
              eapply cspec_weaken; [eapply cspec_ext; [eapply (look_group_opt pre0 w post G Hlen _ P _ _ (den c) (gcl c) (gcs c) (gex c) _ _ k pv
                 (clean (Group (Greedy x 0 1 []) k [c]) pv))|reflexivity|]| | | |].
              ** exact US.
              ** eapply cspec_look; [exact HC|apply gcs_hides].
              ** exact HR.
              ** apply den_log.
              ** apply Nat.ltb_lt; exact G0.
              ** eapply retry_good; eauto.
              ** intro X. cbn [clean is_nil negb] in X. rewrite andb_false_r in X. cbn [andb orb] in X. bools X.
                 eapply opt_clean_ok; [exact O|]. tauto.
              ** intro i. cbn [Den.den map kidso alts]. rewrite <- (unit_greedy_cap x P 0 1 (den c) k U i).
                 unfold seq_o at 1 3. unfold cap_o. cbn [fst snd]. now rewrite seq_eps_r.
              ** auto.
              ** auto.
              ** cbn. rewrite !andb_false_r. discriminate.
              ** exact GX.
           ++ assert (MT : mt e (Group (Greedy x mn mx []) k [c]) [] =
                 group_m (greedy_gen e (mt e x []) mn mx (greedy_bt false (fun s => Ok s) [mt e c []]) (fun s => Ok s)) k
                   (dfs (map (fun c i => mt e c i) [c]) ([mt e c []] ++ []))).
              { cbn [mt map]. unfold greedy_m. unfold opt_case in O. rewrite O. reflexivity. }
              rewrite MT.
              eapply cspec_weaken; [eapply cspec_ext; [eapply (look_group pre0 w post G Hlen _ P _ _ (den c) mn mx (gcl c) (gcs c) (gex c) _ _ k pv)|reflexivity|]| | | |].
              ** exact US.
              ** eapply (cspec_look pre0 w G _ _ false false); [|apply gcs_hides]. eapply cspec_weaken; [exact HC| | | |]; auto; discriminate.
              ** exact HR.
              ** apply den_log.
              ** apply Nat.ltb_lt; exact G0.
              ** intro i. cbn [Den.den map kidso alts]. rewrite <- (unit_greedy_cap x P mn mx (den c) k U i).
                 unfold seq_o at 1 3. unfold cap_o. cbn [fst snd]. now rewrite seq_eps_r.
              ** auto.
              ** cbn [clean is_nil negb forallb]. rewrite andb_false_r, andb_true_r. cbn [andb orb]. rewrite !andb_true_iff. tauto.
              ** cbn. rewrite !andb_false_r. discriminate.
              ** exact GX.
        -- bools Gd. destruct Gd as (G0 & G1 & [[[G2 G3] G4] G5] & G6).
           pose proof (Hc _ G6) as HC. unfold EngineGood.nspec in HC.
           assert (HR : cspec (dfs (map (fun c i => mt e c i) [c]) ([mt e c []] ++ [])) (den c) PAny (accins c) (clean c PAny) (gcl c) (gex c)).
           { eapply cspec_ext; [exact HC|now apply RX|reflexivity]. }
           change (mt e (Group (Lazy x mn mx []) k [c]) []) with
                 (group_m (lazy_m e (mt e x []) mn mx false (fun s => Ok s) [mt e c []]) k
                   (dfs (map (fun c i => mt e c i) [c]) ([mt e c []] ++ []))).
           eapply cspec_weaken; [eapply cspec_ext; [eapply (lazy_group pre0 w post G Hlen _ _ _ _ (den x) (den c) mn mx (accins x) (clean x PAny) (gcl x) (gex x)
               (accins c) (clean c PAny) (gcl c) (gcs c) (gex c) k pv)|reflexivity|]| | | |].
           ++ now apply IHx.
           ++ exact G5.
           ++ now apply prog_den.
           ++ now apply det_ok.
           ++ apply den_log.
           ++ apply den_log.
           ++ exact HC.
           ++ apply gcs_hides.
           ++ exact HR.
           ++ reflexivity.
           ++ apply Nat.ltb_lt; exact G0.
           ++ intro i. cbn [Den.den map kidso alts].
              unfold seq_o at 1 3. unfold cap_o. cbn [fst snd]. now rewrite seq_eps_r.
           ++ cbn [accins]. rewrite andb_true_iff. tauto.
           ++ cbn [clean andb orb]. discriminate.
           ++ cbn. rewrite !andb_false_r. discriminate.
           ++ cbn. rewrite !andb_true_r. intro X. bools X. rewrite !andb_true_iff. 
              rewrite (gex_nog x) by tauto. tauto.
      * rewrite looky_good in Gd by assumption. bools Gd. destruct Gd as (G0 & G1 & [[G2 G3] G4] & G5).
        unfold EngineGood.nspec. rewrite looky_accins, looky_clean, looky_gex by assumption.
        eapply cspec_weaken; [eapply cspec_ext; [apply (group_ok pre0 w G (mt e m []) (mt e c []) (den m) (den c) pv (lastp m pv)
           (accins m) (clean m pv) (gcl m) (gex m) (accins c) (clean c (lastp m pv)) (gcl c) (gex c) (total c) k (IHm _ G2) (Hc _ G4))|
             intro s; cbn [mt]; apply group_ext; [now apply noinj_ok|now apply RX]|reflexivity]| | | |].
        -- apply Nat.ltb_lt; exact G0.
        -- apply den_fwd.
        -- apply den_log.
        -- destruct G5 as [G5|G5]; [left; apply uniq_cap; now apply det_ok|right; now apply total_ok].
        -- apply total_ok.
        -- intros a i j d Hi Hp Hd. eapply lastp_ok; eauto.
        -- auto.
        -- unfold totk. cbn [is_nil existsb orb]. now rewrite orb_false_r.
        -- intro X. apply gcl_group in X as [X Y]. unfold totk in Y. cbn in Y. rewrite orb_false_r in Y. now rewrite X, Y.
        -- cbn [forallb]. now rewrite andb_true_r.
  - (* Negated *)
    destruct (uset m) as [P|] eqn:U; [|discriminate]. cbn [is_some andb] in Gd. bools Gd. destruct Gd as [[G1 G2] G3].
    pose proof (uset_step m P U (IHm _ G1) G2 G3) as US.
    apply cspec_any. eapply cspec_weaken; [apply (negated_ok pre0 w post G Hlen (mt e m []) (den m) P US (uset_den w m P U))| | | |]; auto.
Qed.
Theorem mt_good n pv : good G Ed n pv = true -> nspec n pv.
Proof. apply mt_good_body. Qed.
End Main.
