(** The matcher of a good node finds the first way to match of Den.v: lazy, possessive and
    negated nodes, alternatives, and the induction over nodes. *)
From Coq Require Import ZArith NArith List Bool Lia ZifyBool ZifyNat ZifyN.
From Verif Require Import Base Text Ast Builder Engine Spec SpecProofs Den Checker CheckerProofs AstProofs EngineRel EngineProofs EngineOk.
Import ListNotations.
Open Scope nat_scope.

Section Good.
Variables (pre0 w post : str) (G : nat).
Notation e := (env_of pre0 w post).
Notation at_ := (at_ pre0).
Notation mk := (mk pre0).
Notation cspec := (cspec pre0 w G).
Notation res := (res pre0 w G).
Notation prevok := (prevok pre0 w).
Notation upd := (upd pre0).
Notation upd1 := (upd1 pre0).
Notation close := (close w).
Notation hp := (hp w).
Notation ustep := (ustep pre0 w G).
Notation bspec := (bspec pre0 w G).
Notation same := (same pre0).
Notation hides := (hides pre0 G).

Lemma eps_ok pv : cspec (fun s => Ok s) eps_o pv false true true true.
Proof.
  intros a i g b Hi Hg Hb Ha Hp. destruct Hb as [->|]; [|discriminate]. exists g. auto.
Qed.

(** ** lazy *)
Definition prog (D : outs) : Prop := forall c c', In c' (D c) -> fst c <= length w -> fst c < fst c' <= length w.
Lemma first_same {A B} (f : A -> list B) x l : (forall y, In y l -> y = x) -> l <> [] -> hd_error (flat_map f l) = hd_error (f x).
Proof.
  intros H N. destruct l as [|y l]; [congruence|]. rewrite (H y) by now left. apply hd_flat_same. intros; apply H; now right.
Qed.
Lemma progress_id D c : prog D -> fst c <= length w -> progress c (D c) = D c.
Proof.
  intros P L. unfold progress. assert (X : forall x, In x (D c) -> fst c < fst x) by (intros x Hx; pose proof (P c x Hx L); lia).
  induction (D c) as [|x l IH]; [reflexivity|]. cbn [filter]. destruct (Nat.eqb_spec (fst x) (fst c)) as [E|E].
  - specialize (X x (or_introl eq_refl)). lia.
  - cbn [negb]. f_equal. apply IH. intros; apply X; now right.
Qed.
Lemma first_shift K j d n D : logp K -> logp D ->
  first_ok K (least_o n D (j, d)) = option_map (shift d) (first_ok K (least_o n D (j, []))).
Proof.
  intros LK LD. unfold first_ok. change (j, d) with (shift d (j, [])). rewrite (logp_shift _ _ _ (logp_least n D LD)).
  rewrite flat_map_shift by assumption. apply hd_map.
Qed.
(** What [least_o] does with a first element. *)
Lemma least_step K k D p : prog D -> uniq w D -> logp K -> logp D -> p <= length w ->
  first_ok K (least_o (S k) D (p, [])) =
  match hd_error (K (p, [])) with
  | Some x => Some x
  | None => match hd_error (D (p, [])) with
            | Some (j, d) => option_map (shift d) (first_ok K (least_o k D (j, [])))
            | None => None
            end
  end.
Proof.
  intros PD UD LK LD Hp. cbn [least_o]. rewrite first_cons. destruct (hd_error (K (p, []))); [reflexivity|].
  rewrite progress_id by assumption. rewrite first_flat_map. unfold first_ok at 1.
  destruct (D (p, [])) as [|[j d] l] eqn:E; [reflexivity|]. cbn [hd_error].
  rewrite hd_flat_same.
  - rewrite <- first_shift by assumption. reflexivity.
  - intros y Hy. apply (UD (p, [])); [exact Hp| |]; rewrite E; [now right|now left].
Qed.
Lemma least_end K k D : prog D -> first_ok K (least_o k D (length w, [])) = hd_error (K (length w, [])).
Proof.
  intro PD. destruct k as [|k]; cbn [least_o]; rewrite first_cons.
  - destruct (hd_error _); reflexivity.
  - replace (D (length w, [])) with (@nil (nat * list (nat * (nat * nat)))).
    + cbn. destruct (hd_error _); reflexivity.
    + symmetry. destruct (D (length w, [])) as [|x l] eqn:E; [reflexivity|]. exfalso.
      assert (X : In x (D (length w, []))) by (rewrite E; now left). apply PD in X; cbn in X; lia.
Qed.
Lemma least_0 K D c : first_ok K (least_o 0 D c) = hd_error (K c).
Proof. cbn [least_o]. rewrite first_cons. destruct (hd_error _); reflexivity. Qed.

Hypothesis Hw : Forall (fun c => (-128 <= c <= 127)%Z) w.
Hypothesis Hlen : (N.of_nat (length w) < UMAX)%N.
Lemma lt_qe p : (at_ p <? qe e)%Z = (p <? length w).
Proof. unfold qe, env_of, EngineOk.at_. lia. Qed.

Definition lazy_fin (R : clo) (x : st + (st + out)) : out :=
  match x with inl s1 => R s1 | inr (inl s1) => R s1 | inr (inr o) => o end.
Lemma lazy_loop M R D D2 ac cl gcm gem ac2 gc2 gs ge2 ng st0 :
  cspec M D PAny ac cl gcm gem -> ac = true -> prog D -> uniq w D -> logp D -> logp D2 ->
  cspec R D2 PAny ac2 true gc2 ge2 -> (gs = true -> gc2 = true \/ hides R D2) ->
  (ng = true -> gcm = true /\ gem = true /\ forall i j d, In (j, d) (D (i, [])) -> d = []) ->
  (0 <= st0 <= length w) ->
  forall k k' a p g b, p <= length w -> length g = G -> (a <= at_ p)%Z -> b = true \/ ac2 = true -> close k k' p ->
  res (lazy_fin R (nl k (lazy_step e M true R [] (at_ st0)) (mk a p g b))) a p g
      (first_ok D2 (least_o k' D (p, []))) false (ng && gc2) (gem && gs && ge2).
Proof.
  intros HM Hac PD UD LD LD2 HR HS NG S0.
  assert (RR : forall a p g b, p <= length w -> length g = G -> (a <= at_ p)%Z -> b = true \/ ac2 = true ->
    res (R (mk a p g b)) a p g (hd_error (D2 (p, []))) false (ng && gc2) (gem && gs && ge2)).
  { intros a p g b Hp Hg Ha Hb. eapply res_weaken; [apply HR; auto; exact I| | |].
    - discriminate.
    - rewrite andb_true_iff. tauto.
    - rewrite !andb_true_iff. tauto. }
  induction k as [|k IH]; intros k' a p g b Hp Hg Ha Hb C.
  - assert (k' = 0) as -> by (destruct C as [<-|[? ?]]; lia). cbn [nl lazy_fin]. rewrite least_0. now apply RR.
  - assert (exists k'', k' = S k'') as (k'' & ->) by (destruct C as [<-|[? ?]]; [eauto|destruct k'; [lia|eauto]]).
    cbn [nl].
    assert (ST : lazy_step e M true R [] (at_ st0) (mk a p g b) =
      if p <? length w then
        match R (mk a p g b) with
        | UB => inr (inr UB)
        | Ok s1 => if s_acc s1 then inr (inr (Ok s1))
                   else match M s1 with
                        | UB => inr (inr UB)
                        | Ok s2 => if s_acc s2 then inl s2 else inr (inr (Ok (set_end (at_ st0) s2)))
                        end
        end
      else inr (inl (mk a p g b))).
    { unfold lazy_step. unfold EngineOk.mk at 1. cbn [s_end]. rewrite lt_qe. destruct (p <? length w); [|reflexivity]. cbn [negb].
      destruct (R (mk a p g b)) as [s1|]; [|reflexivity]. destruct (s_acc s1); reflexivity. }
    rewrite ST. clear ST. destruct (Nat.ltb_spec p (length w)) as [L|L].
    + pose proof (HR a p g b Hp Hg Hb Ha I) as X. unfold EngineOk.res in X.
      rewrite least_step by assumption.
      destruct (hd_error (D2 (p, []))) as [[j d]|].
      * destruct X as (g' & -> & Hg' & X). cbn [EngineOk.mk s_acc lazy_fin]. exists g'. conj; auto. rewrite !andb_true_iff. tauto.
      * destruct X as (j & g' & XE & _ & Hg' & X & Y). rewrite (X eq_refl) in XE. rewrite XE. clear X. unfold EngineOk.mk at 1. cbn [s_acc].
        assert (SM : gs = true -> same D2 g g') by (intro Z; destruct (HS Z) as [Z1|Z1]; [now apply same_eq, Y|exact (Z1 _ _ _ _ _ _ Hg XE)]).
        pose proof (HM a p g' false Hp Hg' (or_intror Hac) Ha I) as Z. unfold EngineOk.res in Z.
        destruct (hd_error (D (p, []))) as [[q d]|] eqn:E.
        -- destruct Z as (g2 & -> & Hg2 & Z). unfold EngineOk.mk at 1. cbn [s_acc].
           pose proof (PD _ _ (hd_some_in _ _ E) Hp) as Pq. cbn [fst] in Pq.
           specialize (IH k'' a q g2 true ltac:(lia) Hg2 ltac:(unfold EngineOk.at_ in *; lia) (or_introl eq_refl)
             ltac:(unfold EngineOk.close in *; lia)).
           eapply res_weaken; [eapply (res_then2 _ _ _ _ a p q g g2 d _ false (ng && gc2) (gem && gs && ge2) (gem && gs) IH)
              with (cl' := false) (gc' := ng && gc2)| | |]; auto.
           ++ rewrite andb_true_iff. intros [A B] kk dd Hh. rewrite Z by assumption. apply hd_some_in in Hh. apply in_flat_map in Hh as (y & Hy & Hh).
              destruct y as [q' dm]. change (q', dm) with (shift dm (q', [])) in Hh. rewrite (logp_shift _ _ _ LD2) in Hh. apply in_map_iff in Hh as ([j' e2] & [= <- <-] & Hh).
              rewrite !upd_app. apply upd_unders. apply upd_unders. exact (SM B _ _ _ Hh).
           ++ discriminate.
           ++ intros A _. split; [exact A|]. apply andb_true_iff in A as [A B]. destruct (NG A) as (_ & A1 & A2).
              rewrite Z by assumption. rewrite Y by assumption. rewrite (A2 p q d (hd_some_in _ _ E)). reflexivity.
           ++ rewrite !andb_true_iff. tauto.
        -- destruct Z as (q & g2 & -> & _ & Hg2 & _ & Z). unfold EngineOk.mk at 1. cbn [s_acc lazy_fin].
           exists st0, g2. conj; auto; try lia. rewrite andb_true_iff. intros [A B]. destruct (NG A) as (A0 & _). rewrite Z by assumption. auto.
    + assert (p = length w) as -> by lia. rewrite least_end by assumption. cbn [lazy_fin]. now apply RR.
Qed.
Lemma lazy_ok M R D D2 mn mx ac cl gcm gem ac2 gc2 gs ge2 ng pv :
  cspec M D PAny ac cl gcm gem -> ac = true -> prog D -> uniq w D -> logp D -> logp D2 ->
  cspec R D2 PAny ac2 true gc2 ge2 -> (gs = true -> gc2 = true \/ hides R D2) ->
  (ng = true -> gcm = true /\ gem = true /\ forall i j d, In (j, d) (D (i, [])) -> d = []) ->
  cspec (lazy_m e M mn mx true R []) (seq_o (rep_o w Lz mn (mx_opt mx) D) D2) pv ac2 false (ng && gc2) (gem && gs && ge2).
Proof.
  intros HM Hac PD UD LD LD2 HR HS NG a i g b Hi Hg Hb Ha _. unfold lazy_m, reps. rewrite loopN_nl.
  assert (FD : fwd w D). { intros c c' X L. apply PD in X; lia. }
  change (hd_error (seq_o (rep_o w Lz mn (mx_opt mx) D) D2 (i, [])))
    with (first_ok D2 (flat_map (least_o (extra w mn (mx_opt mx)) D) (pow_o (N.to_nat mn) D (i, [])))).
  pose proof (reps_ok pre0 w G M D ac cl gcm gem HM FD LD (N.to_nat mn) a i g b (or_introl UD) Hi Hg (or_intror Hac) Ha) as X.
  destruct (hd_error (pow_o (N.to_nat mn) D (i, []))) as [[j d]|] eqn:E.
  - destruct X as (g1 & -> & Hg1 & X1).
    pose proof (hd_some_in _ _ E) as In1.
    pose proof (fwd_pow _ (N.to_nat mn) D FD _ _ In1 Hi) as Fj. cbn [fst] in Fj.
    assert (Ej : N.to_nat mn <= j).
    { assert (Q : forall n p q l, In (q, l) (pow_o n D p) -> fst p <= length w -> fst p + n <= q).
      { clear - PD. induction n as [|n IH]; intros p q l Hx L; cbn in Hx.
        - destruct Hx as [->|[]]. cbn. lia.
        - unfold seq_o in Hx. apply in_flat_map in Hx as (y & A & B). pose proof (PD _ _ A L). specialize (IH _ _ _ B). lia. }
      specialize (Q _ (i, []) j d In1 Hi). cbn in Q. lia. }
    rewrite first_flat_map. unfold first_ok at 1.
    rewrite (first_same _ (j, d)).
    2: { intros y Hy. apply (uniq_pow w (N.to_nat mn) D FD UD (i, [])); auto. }
    2: { intro Z. rewrite Z in E. discriminate. }
    change (hd_error (flat_map D2 ?l)) with (first_ok D2 l). rewrite first_shift by assumption.
    rewrite loopN_nl.
    pose proof (lazy_loop M R D D2 ac cl gcm gem ac2 gc2 gs ge2 ng i HM Hac PD UD LD LD2 HR HS NG ltac:(lia)
      (N.to_nat (mx - mn)) (extra w mn (mx_opt mx)) a j g1 (if N.to_nat mn =? 0 then b else true)
      ltac:(lia) Hg1 ltac:(unfold EngineOk.at_ in *; lia) ltac:(destruct (N.to_nat mn =? 0); auto)
      ltac:(apply extra_close; auto; lia)) as Y.
    unfold lazy_fin in Y.
    change (s_end (mk a i g b)) with (at_ i).
    eapply res_weaken; [eapply (res_then _ _ _ _ a i j g g1 d _ false (ng && gc2) (gem && gs && ge2) gem Y X1)
       with (cl' := false) (gc' := ng && gc2)| | |]; auto.
    + discriminate.
    + intros A _. split; [exact A|]. apply andb_true_iff in A as [A B]. destruct (NG A) as (_ & A1 & A2).
      rewrite X1 by assumption.
      assert (NGp : forall n i j d, In (j, d) (pow_o n D (i, [])) -> d = []).
      { clear - A2. induction n as [|n IH]; intros i0 j0 d0 X; cbn in X.
        - destruct X as [X|[]]. congruence.
        - unfold seq_o in X. apply in_flat_map in X as ([j1 d1] & X1 & X2). apply A2 in X1. subst d1. eapply IH; eassumption. }
      now rewrite (NGp _ _ _ _ In1).
    + rewrite !andb_true_iff. tauto.
  - destruct X as (j & g1 & -> & Hj & Hg1 & _ & X).
    apply hd_none in E. rewrite E. cbn. exists j, g1. conj; auto; try discriminate.
    rewrite andb_true_iff. intros [A B]. destruct (NG A) as (A0 & A1 & A2). apply X; auto.
Qed.

Lemma pow_prog D : prog D -> forall n p q l, In (q, l) (pow_o n D p) -> fst p <= length w -> fst p + n <= q.
Proof.
  intro PD. induction n as [|n IH]; intros p q l Hx L; cbn in Hx.
  - destruct Hx as [->|[]]. cbn. lia.
  - unfold seq_o in Hx. apply in_flat_map in Hx as (y & A & B). pose proof (PD _ _ A L). specialize (IH _ _ _ B). lia.
Qed.

(** ** A captured lazy repetition followed by a child it looks ahead at *)
Lemma lazy_look M K rest D D2 ac cl gcm gem ac2 cl2 gc2 gs ge2 st0 :
  cspec M D PAny ac cl gcm gem -> ac = true -> prog D -> uniq w D -> logp D ->
  cspec K D2 PAny ac2 cl2 gc2 ge2 -> (gs = true -> gc2 = true \/ hides K D2) -> st0 <= length w ->
  forall k k' a p g, p <= length w -> length g = G -> (a <= at_ p)%Z -> close k k' p ->
  (exists q d g', p <= q <= length w /\ length g' = G
     /\ (nl k (lazy_step e M false rest [K] (at_ st0)) (mk a p g true) = inl (mk a q g' true)
         \/ nl k (lazy_step e M false rest [K] (at_ st0)) (mk a p g true) = inr (inl (mk a q g' true)))
     /\ (forall K', logp K' -> (forall q, K' (q, []) = [] <-> D2 (q, []) = []) ->
         first_ok K' (least_o k' D (p, [])) = hd_error (K' (q, d)))
     /\ (gem && gs && ge2 = true -> forall j d2, hd_error (D2 (q, [])) = Some (j, d2) -> upd d2 g' = upd d2 (upd d g)))
  \/ (exists j g', nl k (lazy_step e M false rest [K] (at_ st0)) (mk a p g true) = inr (inr (Ok (mk a j g' false)))
     /\ j <= length w /\ length g' = G
     /\ forall K', logp K' -> (forall q, K' (q, []) = [] <-> D2 (q, []) = []) -> first_ok K' (least_o k' D (p, [])) = None).
Proof.
  intros HM Hac PD UD LD HK HS S0.
  induction k as [|k IH]; intros k' a p g Hp Hg Ha C.
  - assert (k' = 0) as -> by (destruct C as [<-|[? ?]]; lia). left. exists p, [], g. conj; auto.
    intros K' _ _. apply least_0.
  - assert (exists k'', k' = S k'') as (k'' & ->) by (destruct C as [<-|[? ?]]; [eauto|destruct k'; [lia|eauto]]).
    cbn [nl].
    assert (ST : lazy_step e M false rest [K] (at_ st0) (mk a p g true) =
      if p <? length w then
        match K (mk a p g true) with
        | UB => inr (inr UB)
        | Ok s1 => if s_acc s1 then inr (inl (set_end (at_ p) s1))
                   else match M (set_end (at_ p) s1) with
                        | UB => inr (inr UB)
                        | Ok s2 => if s_acc s2 then inl s2 else inr (inr (Ok (set_end (at_ st0) s2)))
                        end
        end
      else inr (inl (mk a p g true))).
    { unfold lazy_step. unfold EngineOk.mk at 1. cbn [s_end]. rewrite lt_qe. destruct (p <? length w); [|reflexivity]. cbn [negb dfs0].
      destruct (K (mk a p g true)) as [s1|]; [|reflexivity]. unfold EngineOk.mk. cbn [s_end set_end s_acc]. destruct (s_acc s1); reflexivity. }
    rewrite ST. clear ST. destruct (Nat.ltb_spec p (length w)) as [L|L].
    + pose proof (HK a p g true Hp Hg (or_introl eq_refl) Ha I) as X. unfold EngineOk.res in X.
      destruct (hd_error (D2 (p, []))) as [[j d]|] eqn:E2.
      * destruct X as (g' & -> & Hg' & X). left. exists p, [], g'. conj; auto.
        -- intros K' LK EK. rewrite least_step by assumption. destruct (hd_error (K' (p, []))) eqn:E; [reflexivity|].
           apply hd_none in E. apply EK in E. rewrite E in E2. discriminate.
        -- rewrite !andb_true_iff. intros [[A B] C'] j' d' E'. assert (d' = d) as -> by congruence. rewrite (X C'). apply upd_upd.
      * destruct X as (j & g' & XE & _ & Hg' & _ & Y). rewrite XE. unfold EngineOk.mk at 1. cbn [s_acc].
        assert (SM : gs = true -> same D2 g g') by (intro Z; destruct (HS Z) as [Z1|Z1]; [now apply same_eq, Y|exact (Z1 _ _ _ _ _ _ Hg XE)]).
        change (set_end (at_ p) (mk a j g' false)) with (mk a p g' false).
        change (s_acc (mk a j g' false)) with false. cbv iota.
        pose proof (HM a p g' false Hp Hg' (or_intror Hac) Ha I) as Z. unfold EngineOk.res in Z.
        apply hd_none in E2.
        destruct (hd_error (D (p, []))) as [[q d]|] eqn:E.
        -- destruct Z as (g2 & -> & Hg2 & Z). unfold EngineOk.mk at 1 3. cbn [s_acc].
           pose proof (PD _ _ (hd_some_in _ _ E) Hp) as Pq. cbn [fst] in Pq.
           destruct (IH k'' a q g2 ltac:(lia) Hg2 ltac:(unfold EngineOk.at_ in *; lia)
             ltac:(unfold EngineOk.close in *; lia)) as [(r & d' & g3 & A1 & A2 & A3 & A4 & A5)|(r & g3 & A1 & A2 & A3 & A4)].
           ++ left. exists r, (d' ++ d), g3. conj; auto; try lia.
              ** intros K' LK EK. rewrite least_step by assumption. rewrite E, (A4 K' LK EK).
                 apply EK in E2. rewrite E2. cbn [hd_error].
                 change (r, d' ++ d) with (shift d (r, d')). rewrite (logp_shift _ _ _ LK). now rewrite hd_map.
              ** intros A j2 d2 F1. rewrite upd_app, (A5 A j2 d2 F1). rewrite !andb_true_iff in A. rewrite Z by tauto. apply upd_unders, upd_unders.
                 exact (SM (proj2 (proj1 A)) _ _ _ (hd_some_in _ _ F1)).
           ++ right. exists r, g3. conj; auto. intros K' LK EK. rewrite least_step by assumption. rewrite E, (A4 K' LK EK).
              apply EK in E2. rewrite E2. reflexivity.
        -- destruct Z as (q & g2 & -> & _ & Hg2 & _ & Z). unfold EngineOk.mk at 1. cbn [s_acc].
           right. exists st0, g2. conj; auto. intros K' LK EK. rewrite least_step by assumption. rewrite E.
           apply EK in E2. rewrite E2. reflexivity.
    + assert (p = length w) as -> by lia. left. exists (length w), [], g. conj; auto. intros; now apply least_end.
Qed.
Lemma lazy_group M K R rest D D2 mn mx ac cl gcm gem ac2 cl2 gc2 gs ge2 k pv :
  cspec M D PAny ac cl gcm gem -> ac = true -> prog D -> uniq w D -> logp D -> logp D2 ->
  cspec K D2 PAny ac2 cl2 gc2 ge2 -> (gs = true -> gc2 = true \/ hides K D2) -> cspec R D2 PAny ac2 cl2 gc2 ge2 -> (forall s, rest s = Ok s) -> k < G ->
  cspec (group_m (lazy_m e M mn mx false rest [K]) k R) (seq_o (cap_o k (rep_o w Lz mn (mx_opt mx) D)) D2) pv
    (negb (N.eqb mn 0)) false false (gem && gs && ge2).
Proof.
  intros HM Hac PD UD LD LD2 HK HS HR Hrest HG a i g b Hi Hg Hb Ha _. unfold group_m, lazy_m, reps. rewrite loopN_nl.
  assert (FD : fwd w D). { intros c c' X L. apply PD in X; lia. }
  set (f := fun c' : nat * list (nat * (nat * nat)) => (fst c', (k, (i, fst c')) :: snd c')).
  assert (Df : forall q l, D2 (f (q, l)) = map (shift ((k, (i, q)) :: l)) (D2 (q, []))).
  { intros q l. unfold f. cbn [fst snd]. change (q, (k, (i, q)) :: l) with (shift ((k, (i, q)) :: l) (q, [])).
    now apply logp_shift. }
  set (K' := fun c => D2 (f c)).
  assert (LK : logp K').
  { intros j d l. unfold K', f. cbn [fst snd]. exact (LD2 j ((k, (i, j)) :: d) l). }
  assert (EK : forall q, K' (q, []) = [] <-> D2 (q, []) = []).
  { intro q. unfold K'. rewrite Df. destruct (D2 (q, [])); split; try reflexivity; discriminate. }
  assert (SQ : hd_error (seq_o (cap_o k (rep_o w Lz mn (mx_opt mx) D)) D2 (i, []))
     = first_ok K' (flat_map (least_o (extra w mn (mx_opt mx)) D) (pow_o (N.to_nat mn) D (i, [])))).
  { unfold seq_o at 1, cap_o. cbn [fst]. change (hd_error (flat_map D2 ?l)) with (first_ok D2 l). rewrite first_map. reflexivity. }
  rewrite SQ. clear SQ.
  pose proof (reps_ok pre0 w G M D ac cl gcm gem HM FD LD (N.to_nat mn) a i g b (or_introl UD) Hi Hg (or_intror Hac) Ha) as X.
  destruct (hd_error (pow_o (N.to_nat mn) D (i, []))) as [[j d]|] eqn:E.
  - destruct X as (g1 & -> & Hg1 & X1).
    pose proof (hd_some_in _ _ E) as In1.
    pose proof (pow_prog D PD _ _ _ _ In1 Hi) as Ej. cbn [fst] in Ej.
    pose proof (fwd_pow _ (N.to_nat mn) D FD _ _ In1 Hi) as Fj. cbn [fst] in Fj.
    rewrite first_flat_map. unfold first_ok at 1.
    rewrite (first_same _ (j, d)).
    2: { intros y Hy. apply (uniq_pow w (N.to_nat mn) D FD UD (i, [])); auto. }
    2: { intro Z. rewrite Z in E. discriminate. }
    change (hd_error (flat_map K' ?l)) with (first_ok K' l). rewrite first_shift by assumption.
    rewrite loopN_nl.
    assert (B1 : (if N.to_nat mn =? 0 then b else true) = true).
    { destruct (Nat.eqb_spec (N.to_nat mn) 0); [|reflexivity]. destruct Hb as [|Hb]; [assumption|]. lia. }
    rewrite B1. change (s_end (mk a i g b)) with (at_ i).
    destruct (lazy_look M K rest D D2 ac cl gcm gem ac2 cl2 gc2 gs ge2 i HM Hac PD UD LD HK HS Hi
      (N.to_nat (mx - mn)) (extra w mn (mx_opt mx)) a j g1
      ltac:(lia) Hg1 ltac:(unfold EngineOk.at_ in *; lia)
      ltac:(apply extra_close; auto; lia)) as [(q & d' & g' & A1 & A2 & A3 & A4 & A5)|(r & g' & A1 & A2 & A3 & A4)].
    + rewrite (A4 K' LK EK). unfold K'. rewrite Df. rewrite hd_map.
      assert (LR : bind (match nl (N.to_nat (mx - mn)) (lazy_step e M false rest [K] (at_ i)) (mk a j g1 true) with
          | inl s1 | inr (inl s1) => rest s1 | inr (inr o) => o end)
          (fun s1 => if s_acc s1 then bind (set_group k (at_ i, s_end s1) s1) R else Ok s1)
        = R (mk a q (upd1 k (i, q) g') true)).
      { destruct A3 as [-> | ->]; rewrite Hrest; cbn [bind]; change (s_acc (mk a q g' true)) with true; cbv iota;
        change (s_end (mk a q g' true)) with (at_ q); rewrite set_group_ok by (unfold EngineOk.mk; cbn; lia); reflexivity. }
      rewrite LR. clear LR.
      pose proof (HR a q (upd1 k (i, q) g') true ltac:(lia) ltac:(now rewrite upd1_length) (or_introl eq_refl)
        ltac:(unfold EngineOk.at_ in *; lia) I) as Y. unfold EngineOk.res in Y |- *.
      destruct (hd_error (D2 (q, []))) as [[j2 d2]|] eqn:E2; cbn [option_map shift fst snd].
      * destruct Y as (g3 & Y1 & Y2 & Y3). exists g3. split; [exact Y1|]. split; [exact Y2|]. intro A.
        rewrite Y3 by (rewrite !andb_true_iff in A; tauto). rewrite <- app_assoc, upd_app. cbn [app EngineOk.upd]. rewrite upd_app.
        rewrite <- X1 by (rewrite !andb_true_iff in A; tauto).
        apply upd_under. exact (A5 A _ _ eq_refl).
      * destruct Y as (j2 & g3 & Y1 & Y2 & Y3 & _). exists j2, g3. conj; auto; discriminate.
    + rewrite A1. cbn [bind]. rewrite (A4 K' LK EK). cbn [option_map]. exists r, g'. conj; auto; discriminate.
  - destruct X as (j & g1 & -> & Hj & Hg1 & _ & X).
    apply hd_none in E. rewrite E. cbn. exists j, g1. conj; auto; discriminate.
Qed.

(** ** possessive *)
Lemma tot_most k D : tot (most_o k D).
Proof. intros c. destruct k as [|k]; cbn; [discriminate|]. destruct (flat_map _ _); discriminate. Qed.
Lemma most_step k D p : prog D -> p <= length w ->
  hd_error (most_o (S k) D (p, [])) = match hd_error (D (p, [])) with Some x => hd_error (most_o k D x) | None => Some (p, []) end.
Proof.
  intros PD Hp. cbn [most_o]. rewrite hd_app, progress_id by assumption.
  destruct (D (p, [])) as [|x l]; [reflexivity|]. cbn [flat_map hd_error]. rewrite hd_app.
  pose proof (tot_most k D x) as T. destruct (most_o k D x); [congruence|reflexivity].
Qed.
Lemma poss_req M mn : forall k c s, (c + N.of_nat k <= mn)%N ->
  nl k (poss_step M mn) (c, s_end s, s) =
  match nl k (req_step M) s with
  | inl s1 => inl ((c + N.of_nat k)%N, s_end s1, s1)
  | inr o => inr (inr o)
  end.
Proof.
  induction k as [|k IH]; intros c s H.
  - cbn. now rewrite N.add_0_r.
  - cbn [nl]. unfold poss_step at 1, req_step at 1. destruct (M s) as [s1|]; [|reflexivity].
    destruct (s_acc s1).
    + rewrite IH by lia. destruct (nl k (req_step M) s1); [|reflexivity]. now replace (c + 1 + N.of_nat k)%N with (c + N.of_nat (S k))%N by lia.
    + destruct (N.ltb_spec c mn); [reflexivity|lia].
Qed.
Definition poss_fin (R : clo) (x : (N * Z * st) + (st + out)) : out :=
  match x with inl (_, _, s1) => R s1 | inr (inl s1) => R s1 | inr (inr o) => o end.
Lemma poss_most M R D mn ac cl gcm gem : cspec M D PAny ac cl gcm gem -> prog D -> logp D ->
  forall k k' c a p g b, (mn <= c)%N -> p <= length w -> length g = G -> (a <= at_ p)%Z -> b = true \/ ac = true -> close k k' p ->
  exists j d g', hd_error (most_o k' D (p, [])) = Some (j, d) /\ p <= j <= length w /\ length g' = G
    /\ poss_fin R (nl k (poss_step M mn) (c, at_ p, mk a p g b)) = R (mk a j g' (if k =? 0 then b else true))
    /\ (gcm && gem = true -> g' = upd d g).
Proof.
  intros HM PD LD. induction k as [|k IH]; intros k' c a p g b Hc Hp Hg Ha Hb C.
  - assert (k' = 0) as -> by (destruct C as [<-|[? ?]]; lia). exists p, [], g. cbn. conj; auto.
  - assert (exists k'', k' = S k'') as (k'' & ->) by (destruct C as [<-|[? ?]]; [eauto|destruct k'; [lia|eauto]]).
    rewrite most_step by assumption. cbn [nl].
    pose proof (HM a p g b Hp Hg Hb Ha I) as Z. unfold EngineOk.res in Z.
    assert (PS : poss_step M mn (c, at_ p, mk a p g b) =
       match M (mk a p g b) with UB => inr (inr UB) | Ok s1 => if s_acc s1 then inl ((c + 1)%N, s_end s1, s1)
             else if (c <? mn)%N then inr (inr (Ok s1)) else inr (inl (set_end (at_ p) (set_acc true s1))) end) by reflexivity.
    rewrite PS. clear PS.
    destruct (hd_error (D (p, []))) as [[q d]|] eqn:E.
    + destruct Z as (g2 & -> & Hg2 & Z). unfold EngineOk.mk at 1. cbn [s_acc].
      pose proof (PD _ _ (hd_some_in _ _ E) Hp) as Pq. cbn [fst] in Pq.
      destruct (IH k'' (c + 1)%N a q g2 true ltac:(lia) ltac:(lia) Hg2 ltac:(unfold EngineOk.at_ in *; lia) (or_introl eq_refl)
             ltac:(unfold EngineOk.close in *; lia)) as (j & d' & g3 & A1 & A2 & A3 & A4 & A5).
      exists j, (d' ++ d), g3. conj; auto; try lia.
      * rewrite (logp_hd (most_o k'' D)) by (now apply logp_most). now rewrite A1.
      * unfold EngineOk.mk at 1. cbn [s_end]. rewrite A4. cbn. destruct (k =? 0); reflexivity.
      * intro A. rewrite upd_app, A5 by assumption. apply andb_true_iff in A as [A B]. now rewrite Z.
    + destruct Z as (q & g2 & -> & _ & Hg2 & _ & Z). unfold EngineOk.mk at 1. cbn [s_acc].
      destruct (N.ltb_spec c mn); [lia|]. exists p, [], g2. conj; auto.
      rewrite andb_true_iff. intros [A B]. now rewrite Z.
Qed.
Lemma possessive_ok M R D D2 mn mx pv pv2 ac cl gcm gem ac2 cl2 gc2 ge2 ng tt :
  cspec M D PAny ac cl gcm gem -> cspec R D2 pv2 ac2 cl2 gc2 ge2 -> prog D -> logp D -> uniq w D \/ (mn <= 1)%N -> (mn <= mx)%N ->
  logp D2 -> (tt = true -> tot D2) ->
  (forall a i j d, i <= length w -> prevok pv a i -> hd_error (rep_o w Po mn (mx_opt mx) D (i, [])) = Some (j, d) -> prevok pv2 a j) ->
  (ng = true -> gem = true /\ gcm = true /\ forall i j d, In (j, d) (rep_o w Po mn (mx_opt mx) D (i, [])) -> d = []) ->
  (ng = true -> forall i j d, In (j, d) (D (i, [])) -> d = []) ->
  cspec (possessive_m M mn mx R) (seq_o (rep_o w Po mn (mx_opt mx) D) D2) pv (negb (N.eqb mx 0) && ac)
        ((N.eqb mn 0 || (N.eqb mn 1 && cl)) && tt)
        (gcm && ((mn <=? 1)%N || ng) && (tt || (ng && gc2))) (gem && gcm && ge2).
Proof.
  intros HM HR PD LD U Le LD2 T PV NG NG1 a i g b Hi Hg Hb Ha Hp. unfold possessive_m. rewrite loopN_nl.
  assert (FD : fwd w D). { intros c c' X L. apply PD in X; lia. }
  rewrite (seq_hd w); [|left; apply uniq_atomic|assumption].
  replace (N.to_nat mx) with (N.to_nat mn + N.to_nat (mx - mn)) by lia. rewrite nl_add.
  change (s_end (mk a i g b)) with (s_end (mk a i g b)).
  rewrite poss_req by lia.
  assert (Bac : b = true \/ ac = true) by (destruct Hb as [|Hb]; [auto|apply andb_true_iff in Hb; tauto]).
  pose proof (reps_ok pre0 w G M D ac cl gcm gem HM FD LD (N.to_nat mn) a i g b
     ltac:(destruct U; [auto|right; lia]) Hi Hg Bac Ha) as X.
  assert (HD : hd_error (rep_o w Po mn (mx_opt mx) D (i, [])) =
     match hd_error (pow_o (N.to_nat mn) D (i, [])) with Some x => hd_error (most_o (extra w mn (mx_opt mx)) D x) | None => None end).
  { cbn [rep_o]. unfold atomic_o at 1.
    rewrite <- (seq_hd w); [|right; apply tot_most|assumption].
    destruct (seq_o _ _ _); reflexivity. }
  pose proof (fun j d => PV a i j d Hi Hp) as PV'.
  pose proof (fun A j d (H : hd_error (rep_o w Po mn (mx_opt mx) D (i, [])) = Some (j, d)) => proj2 (proj2 (NG A)) i j d (hd_some_in _ _ H)) as NG'.
  rewrite HD in *. clear HD.
  destruct (hd_error (pow_o (N.to_nat mn) D (i, []))) as [[j d]|] eqn:E.
  - destruct X as (g1 & EQ & Hg1 & X1). rewrite EQ. clear EQ.
    pose proof (hd_some_in _ _ E) as In1.
    pose proof (pow_prog D PD _ _ _ _ In1 Hi) as Ej. cbn [fst] in Ej.
    pose proof (fwd_pow _ (N.to_nat mn) D FD _ _ In1 Hi) as Fj. cbn [fst] in Fj.
    destruct (poss_most M R D mn ac cl gcm gem HM PD LD (N.to_nat (mx - mn)) (extra w mn (mx_opt mx)) (0 + N.of_nat (N.to_nat mn))%N a j g1
      (if N.to_nat mn =? 0 then b else true) ltac:(lia) ltac:(lia) Hg1 ltac:(unfold EngineOk.at_ in *; lia)
      ltac:(destruct (N.to_nat mn =? 0); auto) ltac:(apply extra_close; auto; lia)) as (q & d' & g2 & A1 & A2 & A3 & A4 & A5).
    unfold poss_fin in A4. change (s_end (mk a j g1 ?x)) with (at_ j). rewrite A4. clear A4.
    assert (B1 : (if N.to_nat (mx - mn) =? 0 then if N.to_nat mn =? 0 then b else true else true) = true).
    { destruct (Nat.eqb_spec (N.to_nat (mx - mn)) 0); [|reflexivity]. destruct (Nat.eqb_spec (N.to_nat mn) 0); [|reflexivity].
      destruct Hb as [|Hb]; [assumption|]. apply andb_true_iff in Hb as [Hb _]. lia. }
    rewrite B1. clear B1.
    assert (Hq : hd_error (most_o (extra w mn (mx_opt mx)) D (j, d)) = Some (q, d' ++ d)).
    { rewrite (logp_hd (most_o (extra w mn (mx_opt mx)) D)) by (now apply logp_most). now rewrite A1. }
    rewrite Hq in *.
    specialize (PV' _ _ eq_refl).
    pose proof (HR a q g2 true ltac:(lia) A3 (or_introl eq_refl) ltac:(unfold EngineOk.at_ in *; lia) PV') as Y.
    rewrite (logp_hd D2) by assumption.
    eapply res_weaken; [eapply (res_then _ _ _ _ a i q g g2 (d' ++ d) _ cl2 gc2 ge2 (gem && gcm) Y) with (gc' := tt || (ng && gc2)) (cl' := tt)| | |].
    + rewrite andb_true_iff. intros [A B]. rewrite upd_app. rewrite <- X1 by assumption. apply A5. now rewrite A, B.
    + intros A B. apply hd_none in B. now apply (T A) in B.
    + rewrite orb_true_iff, andb_true_iff. intros [A|[A B]] C.
      * apply hd_none in C. now apply (T A) in C.
      * split; [assumption|]. destruct (NG A) as (B1 & B2 & _). rewrite A5 by (now rewrite B1, B2). rewrite X1 by assumption.
        pose proof (NG' A _ _ eq_refl) as N. apply app_eq_nil in N as [-> ->]. reflexivity.
    + rewrite !andb_true_iff. tauto.
    + rewrite !andb_true_iff. tauto.
    + auto.
  - destruct X as (j & g1 & -> & Hj & Hg1 & X1 & X2). exists j, g1. conj; auto.
    + rewrite andb_true_iff, orb_true_iff, andb_true_iff. intros [[A|[A A']] C].
      * exfalso. apply N.eqb_eq in A. subst mn. discriminate E.
      * apply X1; [assumption|]. lia.
    + rewrite !andb_true_iff, orb_true_iff. intros [[A [B|B]] C].
      * apply X2; auto. left. lia.
      * apply X2; auto. right. destruct (NG B) as (B1 & _). split; [exact B1|]. now apply NG1.
Qed.

(** ** negated *)
Lemma negated_ok M D P : ustep M P -> unit_like w D P ->
  cspec (negated_m e M) (not_o w D) PAny true false true true.
Proof.
  intros U UD a i g b Hi Hg Hb Ha _. rewrite (unit_hd w _ _ i [] (unit_not w D P UD)).
  unfold negated_m. change (s_end (mk a i g b)) with (at_ i). rewrite qe_le.
  destruct (nth_error w i) as [x|] eqn:E.
  - pose proof (nth_some _ _ _ E). destruct (Nat.leb_spec (length w) i); [lia|]. rewrite U by auto. cbn [bind].
    unfold EngineOk.hp. rewrite E. destruct (P x); cbn [negb].
    + exists (S i), g. conj; auto. discriminate.
    + exists g. change (s_acc (mk a i g false)) with false. cbv iota. change (s_end (mk a i g false)) with (at_ i).
      rewrite at_S, at_move by lia. auto.
  - apply nth_none in E. destruct (Nat.leb_spec (length w) i); [|lia]. exists i, g. auto.
Qed.

(** ** Alternatives *)
Definition nspec (n : node) (pv : prev) : Prop := cspec (mt e n []) (den w n) pv (accins n) (clean n pv) (gcl n) (gex n).
Lemma dfs_ok cs pv : forall c, Forall (fun n => nspec n pv) (c :: cs) -> butlast_clean (c :: cs) pv = true ->
  cspec (dfs (map (fun c i => mt e c i) (c :: cs)) []) (alts (map (den w) (c :: cs))) pv (accins c)
    (forallb (fun c => clean c pv) (c :: cs)) (forallb gcl (c :: cs)) (forallb gex (c :: cs) && butlast_gcl (c :: cs)).
Proof.
  induction cs as [|c2 cs IH]; intros c H B; inversion H as [|? ? Hc Hcs]; subst.
  - cbn. eapply cspec_weaken; [exact Hc| | | |]; auto; rewrite ?andb_true_r; auto.
  - specialize (IH c2 Hcs). cbn [butlast_clean] in B. apply andb_true_iff in B as [B1 B2]. specialize (IH B2).
    intros a i g b Hi Hg Hb Ha Hp. cbn [map]. rewrite alts_cons by discriminate. unfold or_o. rewrite hd_app.
    assert (DF : dfs (map (fun c i => mt e c i) (c :: c2 :: cs)) [] (mk a i g b) =
      bind (mt e c [] (mk a i g b)) (fun s1 => if s_acc s1 then Ok s1 else dfs (map (fun c i => mt e c i) (c2 :: cs)) [] (set_acc true s1))) by reflexivity.
    change ((fun i0 => mt e c i0) :: (fun i0 => mt e c2 i0) :: map (fun c i => mt e c i) cs) with (map (fun c i => mt e c i) (c :: c2 :: cs)).
    rewrite DF. clear DF. specialize (Hc a i g b Hi Hg Hb Ha Hp). unfold EngineOk.res in Hc at 1.
    destruct (hd_error (den w c (i, []))) as [[j d]|].
    + destruct Hc as (g' & -> & Hg' & X). cbn [bind EngineOk.mk s_acc]. exists g'. conj; auto. cbn [forallb]. rewrite !andb_true_iff. tauto.
    + destruct Hc as (j & g' & -> & Hj & Hg' & X & Y). cbn [bind EngineOk.mk s_acc]. rewrite (X B1).
      change (set_acc true {| s_start := a; s_end := at_ i; s_grp := g'; s_acc := false |}) with (mk a i g' true).
      specialize (IH a i g' true Hi Hg' (or_introl eq_refl) Ha Hp). unfold EngineOk.res in IH |- *. fold (alts (map (den w) (c2 :: cs))).
      change (alts (den w c2 :: map (den w) cs)) with (alts (map (den w) (c2 :: cs))).
      destruct (hd_error (alts (map (den w) (c2 :: cs)) (i, []))) as [[k d]|].
      * destruct IH as (g2 & IH1 & IH2 & IH3). exists g2. split; [exact IH1|]. split; [exact IH2|].
        intro Z. change (forallb gex (c :: c2 :: cs) && butlast_gcl (c :: c2 :: cs) = true) in Z.
        cbn [forallb butlast_gcl] in Z, IH3. rewrite !andb_true_iff in Z.
        rewrite IH3; [now rewrite Y|]. rewrite !andb_true_iff. tauto.
      * destruct IH as (k & g2 & IH1 & IH2 & IH3 & IH4 & IH5). exists k, g2. split; [exact IH1|].
        change (forallb (fun c => clean c pv) (c :: c2 :: cs)) with (clean c pv && forallb (fun c => clean c pv) (c2 :: cs)).
        change (forallb gcl (c :: c2 :: cs)) with (gcl c && forallb gcl (c2 :: cs)).
        conj; auto; rewrite andb_true_iff; intros [Z1 Z2]; auto. rewrite IH5 by assumption. auto.
Qed.
End Good.
