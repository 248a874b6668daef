(** Patterns with repeated parts that do not end with $: the match is the longest one. *)
From Coq Require Import ZArith NArith List Bool Lia ZifyBool ZifyNat ZifyN.
From Verif Require Import Base Text Ast Builder Engine Spec SpecProofs SpecEnd Tree AstProofs Checker CheckerProofs Supported Main Sound Anchor Find End SpecFields Fields FieldsPre SpecParts Parts PartsSem.
Import ListNotations.
Open Scope nat_scope.

Lemma nopos_psq ps : forall g, nopos_sq (psq ps g) = true.
Proof.
  induction ps as [|[f|gs plus] ps IH]; intro g; [reflexivity| |]; cbn [psq].
  - unfold one_sq. destruct (f_cap f), (f_am f); cbn [nopos_sq nopos_atom nopos nopos_br am_quant]; rewrite IH; reflexivity.
  - cbn [nopos_sq nopos_atom nopos nopos_br]. rewrite nopos_fsq, IH. reflexivity.
Qed.
(** * On texts *)
Lemma fields_max fs : forall p1 p2 x1 x2, forallb fok fs = true -> gaps fs -> Forall2 fits fs p1 -> Forall2 fits fs p2 -> concat p1 ++ x1 = concat p2 ++ x2 -> inrange (concat p1 ++ x1) ->
  (forall z, In z (end_run fs) -> headoff z x1) -> length (concat p2) <= length (concat p1).
Proof.
  induction fs as [|f r IH]; intros p1 p2 x1 x2 F G A B E I O; inversion A as [|? u1 ? q1 X1 Y1]; inversion B as [|? u2 ? q2 X2 Y2]; subst; [lia|]. cbn [forallb] in F. apply andb_true_iff in F as [F1 F2]. destruct G as [G1 G2].
  cbn [concat] in *. rewrite <- !app_assoc in *. rewrite !app_length. destruct r as [|h r].
  - inversion Y1; inversion Y2; subst. cbn [concat app length] in *. destruct (is_run f) eqn:R; [|rewrite (fixed_len f u1 u2 R X1 X2); lia].
    destruct (Nat.le_gt_cases (length u2) (length u1)) as [Le|Gt]; [lia|]. exfalso. destruct (prefix_short _ _ _ _ E Gt) as (c & v & -> & Ic).
    assert (Oc : elem_set (f_el f) c = false) by (apply (O (f_el f)) with (v := v); [unfold end_run; cbn; rewrite R; now left|reflexivity]). destruct X2 as [X2 _]. rewrite Forall_forall in X2. rewrite (X2 c Ic) in Oc. discriminate.
  - assert (U : u1 = u2 /\ concat q1 ++ x1 = concat q2 ++ x2).
    { destruct (is_run f) eqn:R; [|apply same_front; [exact E|now apply (fixed_len f)]]. destruct (G1 R) as [Q Ap]. cbn [forallb] in F2. apply andb_true_iff in F2 as [F2 _]. apply (run_front f); auto.
      - apply (fields_off f h r); auto. apply Forall_app in I. tauto.
      - apply (fields_off f h r); auto. rewrite E in I. apply Forall_app in I. tauto. }
    destruct U as [-> U]. apply Nat.add_le_mono_l. apply (IH q1 q2 x1 x2); auto; [apply Forall_app in I; tauto|]. intros z Hz. apply O. now rewrite end_run_cons.
Qed.
Lemma block_off h t us x z : loopok h t -> Forall (fun v => exists vs, divides (h :: t) vs v) us -> us <> [] -> inrange (concat us ++ x) -> In z (end_run (h :: t)) -> headoff z (concat us ++ x).
Proof.
  intros K F N I Hz c q E. destruct us as [|v us]; [congruence|]. inversion F as [|? ? Fv Fr]; subst. destruct (block_head h t v K Fv) as (c' & v' & -> & S). cbn in E, I. injection E as -> _. inversion I; subst.
  destruct (end_off h t z K Hz) as [_ Ap]. now apply (off_apart z (f_el h)).
Qed.
Lemma loop_max h t : loopok h t -> forall us1 us2 x1 x2, Forall (fun v => exists vs, divides (h :: t) vs v) us1 -> Forall (fun v => exists vs, divides (h :: t) vs v) us2 ->
  concat us1 ++ x1 = concat us2 ++ x2 -> inrange (concat us1 ++ x1) -> headoff (f_el h) x1 -> (forall z, In z (end_run (h :: t)) -> headoff z x1) -> length (concat us2) <= length (concat us1).
Proof.
  intros K. induction us1 as [|v1 us1 IH]; intros [|v2 us2] x1 x2 A B E I O1 Oz; try (cbn [concat length]; lia).
  - exfalso. inversion B as [|? ? B1 B2]; subst. destruct (block_head h t v2 K B1) as (c & v' & -> & S). cbn in E. rewrite (O1 c _ E) in S. discriminate.
  - inversion A as [|? ? B1 A2]; inversion B as [|? ? B2 A4]; subst. cbn [concat] in *. rewrite <- !app_assoc in *. rewrite !app_length. destruct B1 as (vs1 & D1 & <-), B2 as (vs2 & D2 & <-).
    assert (I1 : inrange (concat us1 ++ x1)) by (apply Forall_app in I; tauto). assert (I2 : inrange (concat us2 ++ x2)) by (rewrite E in I; apply Forall_app in I; tauto).
    assert (O' : forall z, In z (end_run (h :: t)) -> headoff z (concat us1 ++ x1)).
    { intros z Hz. destruct us1 as [|b us1]; [now apply Oz|]. apply (block_off h t); auto. discriminate. }
    pose proof (fields_max (h :: t) vs1 vs2 _ _ (lo_fok _ _ K) (lo_gaps _ _ K) D1 D2 E I O') as M.
    destruct us2 as [|b2 us2]; [cbn [concat length]; lia|].
    assert (M2 : length (concat vs1) <= length (concat vs2)).
    { symmetry in E. apply (fields_max (h :: t) vs2 vs1 _ _ (lo_fok _ _ K) (lo_gaps _ _ K) D2 D1 E); [now rewrite E|]. intros z Hz. apply (block_off h t); auto. discriminate. }
    assert (Eq : length (concat vs1) = length (concat vs2)) by lia. destruct (same_front _ _ _ _ E Eq) as [_ E2]. pose proof (IH (b2 :: us2) x1 x2 A2 A4 E2 I1 O1 Oz). lia.
Qed.
(** A part that is not the longest possible is followed by nothing. *)
Lemma part_max d p r u1 u2 us x1 x2 : parted d (p :: r) = true -> pfits p u1 -> pfits p u2 -> Forall2 pfits r us -> u1 ++ concat us ++ x1 = u2 ++ x2 -> inrange (u1 ++ concat us ++ x1) ->
  length u1 < length u2 -> concat us = [].
Proof.
  intros P A B R E I Ln. destruct (concat us) as [|c v] eqn:Eu; [reflexivity|]. exfalso. assert (Rc : (-128 <= c <= 127)%Z) by (apply Forall_app in I as [_ I]; cbn in I; now inversion I).
  assert (OFF : forall x, apart_all x (heads r) = true -> parted d r = true -> headoff x ((c :: v) ++ x1)).
  { intros x Ax Pr c' v' X. cbn in X. injection X as <- _. destruct (parts_head r d us c v Pr R Eu) as (y & Iy & S). unfold apart_all in Ax. rewrite forallb_forall in Ax. now apply (off_apart x y); [apply Ax| |]. }
  destruct p as [f|gs plus].
  - apply parted_f in P as (F & P & Ru). destruct (is_run f) eqn:Rf; [|pose proof (fixed_len f u1 u2 Rf A B); lia]. destruct (Ru eq_refl) as (_ & Ap & _).
    destruct (prefix_short _ _ _ _ E Ln) as (c' & v' & X & Ic). destruct B as [B _]. rewrite Forall_forall in B. specialize (B c' Ic). rewrite (OFF _ Ap P c' v' X) in B. discriminate.
  - apply parted_l in P as (h & t & -> & K & _ & Ap & En & P). destruct A as (vs1 & V1 & <- & _), B as (vs2 & V2 & <- & _).
    assert (M : length (concat vs2) <= length (concat vs1)); [|lia]. apply (loop_max h t K vs1 vs2 _ _ V1 V2 E I); [now apply OFF|]. intros z Hz. destruct (En z Hz) as [Az _]. now apply OFF.
Qed.

(** * The first outcome is the longest *)
Lemma top_flat (ys : list cfg) (b : cfg -> list cfg) y : hd_error ys = Some y -> (forall y', In y' ys -> fst y' <= fst y) -> (forall y', In y' ys -> fst y' = fst y -> y' = y) ->
  (forall c', In c' (b y) -> fst y <= fst c') -> (forall c0 c', hd_error (b y) = Some c0 -> In c' (b y) -> fst c' <= fst c0) ->
  (forall y' c', In y' ys -> fst y' < fst y -> In c' (b y') -> fst c' <= fst y /\ b y <> []) ->
  forall c0 c', hd_error (flat_map b ys) = Some c0 -> In c' (flat_map b ys) -> fst c' <= fst c0.
Proof.
  intros H T S U B Sh c0 c' H0 I. destruct ys as [|y0 ys]; [discriminate|]. cbn in H. injection H as ->.
  assert (N : b y <> []).
  { apply hd_flat in H0 as (y0 & I0 & H0). destruct (Nat.eq_dec (fst y0) (fst y)) as [Q|Q]; [rewrite (S y0 I0 Q) in H0; now destruct (b y)|].
    specialize (T y0 I0). apply (Sh y0 c0 I0); [lia|now apply hd_in]. }
  destruct (b y) as [|z zs] eqn:Ey; [congruence|]. cbn [flat_map] in H0. rewrite Ey in H0. cbn in H0. injection H0 as <-.
  apply in_flat_map in I as (y' & I' & I). destruct (Nat.eq_dec (fst y') (fst y)) as [Q|Q].
  - rewrite (S y' I' Q), Ey in I. apply (B z c'); [reflexivity|exact I].
  - specialize (T y' I'). destruct (Sh y' c' I' ltac:(lia) I) as [X _]. specialize (U z (or_introl eq_refl)). lia.
Qed.
Section M.
Variable w : str.
Notation L := (length w).
Hypothesis Hw : inrange w.
Lemma skip_range i : inrange (skipn i w).
Proof. rewrite <- (firstn_skipn i w) in Hw. apply Forall_app in Hw. tauto. Qed.
Lemma at_ext i u : at_pos w i u -> skipn i w = u ++ skipn (i + length u) w.
Proof. intros [E _]. rewrite (cut_skip w i (length u)), E. reflexivity. Qed.
Section Loop.
Variables (h : field) (t : list field).
Hypothesis K : loopok h t.
Notation gs := (h :: t).
Notation a := (sem_sq w (fsq (h :: t) 0)).
Lemma body_out i l j l' : i <= L -> In (j, l') (a (i, l)) -> exists vs, Forall2 fits gs vs /\ j = i + length (concat vs) /\ at_pos w i (concat vs) /\ l' = l /\ i < j.
Proof.
  intros Hi I. pose proof (keeps_fsq w gs 0 (lo_cap _ _ K) _ _ I) as Kl. cbn in Kl. destruct (sem_parts w gs 0 i l j l' (lo_fok _ _ K) I Hi) as (vs & A & -> & B & C & _).
  exists vs. split; [exact A|]. split; [reflexivity|]. split; [split; [exact C|exact B]|]. split; [exact Kl|]. destruct (block_head h t (concat vs) K) as (c & v & E & _); [exists vs; split; [exact A|reflexivity]|]. rewrite E. cbn [length]. lia.
Qed.
Lemma body_progress i l : i <= L -> progress (i, l) (a (i, l)) = a (i, l).
Proof.
  intro Hi. unfold progress. assert (X : forall m, (forall y, In y m -> In y (a (i, l))) -> filter (fun y => negb (fst y =? fst (i, l))) m = m).
  { induction m as [|[j l'] m IH]; intro S; [reflexivity|]. cbn [filter fst]. destruct (body_out i l j l' Hi (S _ (or_introl eq_refl))) as (vs & _ & _ & _ & _ & Lt).
    destruct (Nat.eqb_spec j i); [lia|]. cbn [negb]. f_equal. apply IH. intros y Hy. apply S. now right. }
  apply X. auto.
Qed.
Lemma most_up n : forall i l c', i <= L -> In c' (most_o n a (i, l)) -> i <= fst c' <= L.
Proof.
  induction n as [|n IH]; intros i l c' Hi I; cbn [most_o] in I; [destruct I as [<-|[]]; cbn; lia|]. rewrite body_progress in I by exact Hi. apply in_app_or in I as [I|[<-|[]]]; [|cbn; lia].
  apply in_flat_map in I as ([j l'] & Iy & I). destruct (body_out i l j l' Hi Iy) as (vs & _ & -> & [_ B] & _ & Lt). specialize (IH _ _ _ B I). lia.
Qed.
(** A repetition that is not the longest possible is the last one. *)
Lemma body_last i l j1 l1 j2 l2 j3 l3 : i <= L -> In (j1, l1) (a (i, l)) -> In (j2, l2) (a (i, l)) -> In (j3, l3) (a (j1, l1)) -> j2 <= j1.
Proof.
  intros Hi I1 I2 I3. destruct (body_out _ _ _ _ Hi I1) as (v1 & A1 & -> & P1 & _ & _). destruct (body_out _ _ _ _ Hi I2) as (v2 & A2 & -> & P2 & _ & _).
  destruct (body_out _ _ _ _ (proj2 P1) I3) as (v3 & A3 & _ & P3 & _ & _). apply Nat.add_le_mono_l.
  pose proof (at_ext _ _ P1) as E1. pose proof (at_ext _ _ P2) as E2. pose proof (at_ext _ _ P3) as E3. rewrite E3 in E1. rewrite E1 in E2. pose proof (skip_range i) as R. rewrite E1 in R.
  apply (fields_max gs v1 v2 _ _ (lo_fok _ _ K) (lo_gaps _ _ K) A1 A2 E2 R). intros z Hz. change (concat v3) with (id (concat v3)). unfold id. rewrite <- (app_nil_r (concat v3)) at 1. 
  pose proof (block_off h t [concat v3] (skipn (i + length (concat v1) + length (concat v3)) w) z K) as X. cbn [concat] in X. apply X; [|discriminate| |exact Hz].
  - constructor; [exists v3; split; [exact A3|reflexivity]|constructor].
  - rewrite app_nil_r. apply Forall_app in R. tauto.
Qed.
Lemma body_same i l y y' : i <= L -> In y (a (i, l)) -> In y' (a (i, l)) -> fst y' = fst y -> y' = y.
Proof. intros Hi A B E. destruct y as [j1 l1], y' as [j2 l2]. destruct (body_out _ _ _ _ Hi A) as (_ & _ & _ & _ & -> & _), (body_out _ _ _ _ Hi B) as (_ & _ & _ & _ & -> & _). cbn in E. now subst. Qed.
Lemma blocks_top (b : outs) i l : i <= L -> (forall y, In y (a (i, l)) -> In y (b y)) -> (forall y c', In y (a (i, l)) -> In c' (b y) -> fst y <= fst c' /\ (c' = y \/ exists z, In z (a y))) ->
  (forall y c0 c', In y (a (i, l)) -> hd_error (b y) = Some c0 -> In c' (b y) -> fst c' <= fst c0) ->
  forall c0 c', hd_error (flat_map b (a (i, l))) = Some c0 -> In c' (flat_map b (a (i, l))) -> fst c' <= fst c0.
Proof.
  intros Hi Sf Up Tb c0 c' H0 I. destruct (hd_error (a (i, l))) as [y|] eqn:H; [|destruct (a (i, l)); [destruct I|discriminate]]. pose proof (hd_in _ _ H) as Iy.
  apply (top_flat (a (i, l)) b y H) with (c' := c'); auto.
  - intros y' I'. apply (fields_top w Hw gs 0 (lo_fok _ _ K) (lo_gaps _ _ K) i l y y' Hi H I').
  - intros y' I'. now apply (body_same i l).
  - intros z Iz. now apply (Up y z).
  - intros z0 z. now apply Tb.
  - intros y' z I' Lt Iz. split; [|intro X; specialize (Sf y Iy); rewrite X in Sf; destruct Sf]. destruct (Up y' z I' Iz) as [_ [->|(z' & Z)]]; [lia|]. exfalso.
    destruct y as [j l1], y' as [j' l1'], z' as [j'' l1'']. pose proof (body_last i l j' l1' j l1 j'' l1'' Hi I' Iy Z) as B. cbn in Lt. lia.
Qed.
Lemma most_self n c : In c (most_o n a c).
Proof. destruct n; cbn [most_o]; [now left|]. apply in_or_app. right. now left. Qed.
Lemma most_step n y c' : fst y <= L -> In c' (most_o n a y) -> fst y <= fst c' /\ (c' = y \/ exists z, In z (a y)).
Proof.
  destruct y as [j l]. cbn [fst]. intros Hj I. split; [now apply (most_up n j l c' Hj)|]. destruct n; cbn [most_o] in I; [destruct I as [<-|[]]; now left|].
  apply in_app_or in I as [I|[<-|[]]]; [|now left]. right. rewrite body_progress in I by exact Hj. apply in_flat_map in I as (z & Z & _). eauto.
Qed.
Lemma most_top n : forall i l c0 c', i <= L -> hd_error (most_o n a (i, l)) = Some c0 -> In c' (most_o n a (i, l)) -> fst c' <= fst c0.
Proof.
  induction n as [|n IH]; intros i l c0 c' Hi H I; cbn [most_o] in H, I; [cbn in H; injection H as <-; destruct I as [<-|[]]; lia|]. rewrite body_progress in H, I by exact Hi.
  assert (BD : forall y, In y (a (i, l)) -> fst y <= L) by (intros [j l'] Iy; destruct (body_out _ _ _ _ Hi Iy) as (vs & _ & -> & [_ B] & _); exact B).
  destruct (flat_map (most_o n a) (a (i, l))) as [|z zs] eqn:E.
  - cbn in H, I. injection H as <-. destruct I as [<-|[]]. lia.
  - cbn in H. injection H as ->. apply in_app_or in I as [I|[<-|[]]].
    + rewrite <- E in I. apply (blocks_top (most_o n a) i l Hi); [intros; apply most_self| | |now rewrite E|exact I].
      * intros y c'' Iy Ic. apply (most_step n); auto.
      * intros [j l'] d0 d' Iy. apply IH. exact (BD _ Iy).
    + assert (Iz : In c0 (flat_map (most_o n a) (a (i, l)))) by (rewrite E; now left). apply in_flat_map in Iz as ([j l'] & Iy & Iz). destruct (body_out _ _ _ _ Hi Iy) as (vs & _ & _ & [_ B] & _ & Lt).
      pose proof (most_up n j l' c0 (BD _ Iy) Iz). cbn. lia.
Qed.
Lemma loop_top plus i l c0 c' : i <= L -> hd_error (quant_o w (lp_quant plus) a (i, l)) = Some c0 -> In c' (quant_o w (lp_quant plus) a (i, l)) -> fst c' <= fst c0.
Proof.
  intros Hi H I. unfold lp_quant in *. destruct plus; cbn [quant_o rep_o kind_min kind_max] in *.
  - change (N.to_nat 1) with 1 in *. cbn [pow_o] in *. unfold seq_o in *.
    assert (E : forall m, flat_map eps_o m = m) by (induction m as [|x m IH]; [reflexivity|]; cbn [flat_map]; rewrite IH; reflexivity). rewrite E in *.
    assert (BD : forall y, In y (a (i, l)) -> fst y <= L) by (intros [j l'] Iy; destruct (body_out _ _ _ _ Hi Iy) as (vs & _ & -> & [_ B] & _); exact B).
    apply (blocks_top (most_o (extra w 1 None) a) i l Hi) with (c' := c'); auto; [intros; apply most_self| |].
    + intros y c'' Iy Ic. apply (most_step (extra w 1 None)); auto.
    + intros [j l'] d0 d' Iy. apply most_top. exact (BD _ Iy).
  - change (N.to_nat 0) with 0 in *. cbn [pow_o] in *. unfold seq_o, eps_o in *. cbn [flat_map] in *. rewrite app_nil_r in *. now apply (most_top (extra w 0 None) i l).
Qed.
End Loop.
Definition pstep (p : part) (g : nat) : outs :=
  match p with PF f => fstep w f g | PL gs plus => quant_o w (lp_quant plus) (sem_sq w (fsq gs 0)) end.
Lemma psem_step p r g c : sem_sq w (psq (p :: r) g) c = seq_o (pstep p g) (sem_sq w (psq r (pnext p g))) c.
Proof. destruct p as [f|gs plus]; [|reflexivity]. unfold pstep, fstep, pnext. cbn [psq p_cap]. destruct (f_cap f); reflexivity. Qed.
Lemma pstep_part d p r g i l j l' : parted d (p :: r) = true -> In (j, l') (pstep p g (i, l)) -> i <= L ->
  exists u, pfits p u /\ j = i + length u /\ at_pos w i u /\ l' = (if p_cap p then [(g, (i, j))] else []) ++ l.
Proof.
  intros P I Hi. destruct p as [f|gs plus]; cbn [pstep p_cap] in *.
  - apply parted_f in P as (F & _). destruct (step_part w f g i l j l' F I Hi) as ((u & A & B & C & D) & E). exists u. split; [exact A|]. split; [exact B|]. split; [split; [exact D|lia]|exact E].
  - exact (loop_part w d gs plus r i l j l' P I Hi).
Qed.
Lemma pstep_top d p r g i l c0 c' : parted d (p :: r) = true -> i <= L -> hd_error (pstep p g (i, l)) = Some c0 -> In c' (pstep p g (i, l)) -> fst c' <= fst c0.
Proof.
  intros P Hi. destruct p as [f|gs plus]; cbn [pstep].
  - apply top_step.
  - apply parted_l in P as (h & t & -> & K & _). now apply loop_top.
Qed.
Lemma parts_top d ps : forall g i l c0 c', parted d ps = true -> i <= L ->
  hd_error (sem_sq w (psq ps g) (i, l)) = Some c0 -> In c' (sem_sq w (psq ps g) (i, l)) -> fst c' <= fst c0.
Proof.
  induction ps as [|p r IH]; intros g i l c0 c' P Hi H I.
  - cbn in H, I. injection H as <-. destruct I as [<-|[]]. lia.
  - assert (Pr : parted d r = true) by (destruct p; [now apply parted_f in P|apply parted_l in P; now destruct P as (?&?&?&?&?&?&?&P)]).
    rewrite psem_step in *. unfold seq_o in *. destruct (hd_error (pstep p g (i, l))) as [y|] eqn:Hy; [|destruct (pstep p g (i, l)); [destruct I|discriminate]]. pose proof (hd_in _ _ Hy) as Iy.
    apply (top_flat (pstep p g (i, l)) (sem_sq w (psq r (pnext p g))) y Hy) with (c' := c'); auto.
    + intros y' I'. now apply (pstep_top d p r g i l y y').
    + destruct y as [j m]. intros [j' m'] I' E. cbn in E. subst j'. destruct (pstep_part d p r g i l _ _ P Iy Hi) as (_ & _ & _ & _ & ->), (pstep_part d p r g i l _ _ P I' Hi) as (_ & _ & _ & _ & ->). reflexivity.
    + destruct y as [j m]. destruct (pstep_part d p r g i l _ _ P Iy Hi) as (u & _ & -> & [_ B] & _). intros [j' m'] Iz. destruct (sem_pparts w d r _ _ _ _ _ Pr Iz B) as (us & _ & -> & _). cbn. lia.
    + destruct y as [j m]. destruct (pstep_part d p r g i l _ _ P Iy Hi) as (u & _ & -> & [_ B] & _). intros z0 z. now apply IH.
    + destruct y as [j m]. destruct (pstep_part d p r g i l _ _ P Iy Hi) as (u & Fu & -> & Au & _). intros [j' m'] [j'' m''] I' Lt Iz. cbn [fst] in *.
      destruct (pstep_part d p r g i l _ _ P I' Hi) as (u' & Fu' & -> & Au' & _). destruct (sem_pparts w d r _ _ _ _ _ Pr Iz (proj2 Au')) as (us & F2 & -> & A2 & _).
      assert (Z : concat us = []).
      { pose proof (at_ext _ _ Au) as E1. pose proof (at_ext _ _ Au') as E2. pose proof (at_ext _ _ A2) as E3. rewrite E3 in E2. pose proof (skip_range i) as R. rewrite E2 in R, E1.
        apply (part_max d p r u' u us _ _ P Fu' Fu F2 E1 R). lia. }
      rewrite Z. cbn [length]. split; [lia|]. intro X.
      assert (LG : lang w (ROne (Br false (psq r (pnext p g)))) (i + length u) (i + length u)).
      { cbn [lang lang_br]. split; [discriminate|]. pose proof (pparts_lang w d r (pnext p g) (i + length u) us Pr F2) as Q. rewrite Z in Q. cbn [length] in Q. rewrite Nat.add_0_r in Q. apply Q. now apply at_nil, Au. }
      apply (sem_complete w _ _ _ m) in LG as (l'' & LG); [|exact (nopos_psq r _)|apply Au]. change (In (i + length u, l'') (sem_sq w (psq r (pnext p g)) (i + length u, m))) in LG. rewrite X in LG. destruct LG.
Qed.
End M.

(** * The match at a position *)
Lemma at_front w i k u : i <= length w -> k <= length (skipn i w) -> u = firstn k (skipn i w) -> at_pos w i u.
Proof. intros Hi Hk ->. rewrite skipn_length in Hk. unfold at_pos. rewrite firstn_length, skipn_length. split; [f_equal; lia|lia]. Qed.
Lemma pfront_lang w d ps i k : parted d ps = true -> i <= length w -> pfront ps (skipn i w) k -> lang w (prx false ps) i (i + k).
Proof.
  intros F Hi (Hk & us & D & E). assert (Ln : length (concat us) = k) by (rewrite E, firstn_length; lia).
  unfold prx. cbn [lang lang_br]. split; [discriminate|]. rewrite <- Ln. apply (pparts_lang w d); [exact F|exact D|]. now apply (at_front w i k).
Qed.
Lemma parts_match w d ps i : parts_ok d ps = true -> query_ok w -> i <= length w ->
  match match_at w (prx false ps) i with
  | Some (j, l) => exists k us, j = i + k /\ pfront_most ps (skipn i w) k /\ pdivides ps us (firstn k (skipn i w))
      /\ length (pspans ps us i) = pcap ps /\ l = rev (combine (seq 0 (pcap ps)) (pspans ps us i))
  | None => forall k, ~ pfront ps (skipn i w) k
  end.
Proof.
  intros H Q Hi. destruct (parts_split d ps H) as (F & C & O & N).
  destruct (match_at w (prx false ps) i) as [[j l]|] eqn:M.
  - unfold match_at in M. pose proof (hd_in _ _ M) as I. cbn [prx sem sem_br] in M, I.
    destruct (sem_pparts w d ps 0 i [] j l F I Hi) as (us & P1 & P2 & [P3 P4] & P5 & P6). rewrite app_nil_r in P6.
    assert (D : pdivides ps us (firstn (length (concat us)) (skipn i w))) by (split; [exact P1|now symmetry]).
    exists (length (concat us)), us. split; [exact P2|]. split; [|auto]. split.
    + split; [rewrite skipn_length; lia|eauto].
    + intros k' Fr. apply (pfront_lang w d) in Fr; auto. apply (sem_complete w (prx false ps) i (i + k') [] (nopos_prx false ps)) in Fr as (l' & Fr); auto.
      cbn [prx sem sem_br] in Fr. pose proof (parts_top w (query_range w Q) d ps 0 i [] _ _ F Hi M Fr) as T. cbn [fst] in T. lia.
  - intros k Fr. apply (pfront_lang w d) in Fr; auto. exact (match_at_none w _ i (nopos_prx false ps) M Hi _ Fr).
Qed.
Lemma match_prx w ps : match_at w (prx true ps) 0 = match_at w (prx false ps) 0.
Proof. unfold match_at, prx. cbn [sem sem_br]. unfold seq_o, bol_o. cbn [fst Nat.eqb flat_map]. now rewrite app_nil_r. Qed.
Lemma prx_allcovers a ps : parts_ok false ps = true -> gex (ctree (prx a ps)) = true -> nats_eqb (caps (renumber (prx a ps))) (caps (prx a ps)) && gex (ctree (prx a ps)) && covers (prx a ps) = true.
Proof.
  intros H G. destruct (parts_split false ps H) as (F & _). rewrite G, (renumber_prx a false ps H), (prx_covers a false ps F), (prx_caps a false ps F). clear.
  rewrite !andb_true_r. generalize (seq 0 (pcap ps)). induction l as [|x l IH]; cbn; [reflexivity|]. now rewrite Nat.eqb_refl, IH.
Qed.
Lemma show_prx a ps : show (prx a ps) = (if a then [94%Z] else []) ++ show_parts ps.
Proof. unfold prx. cbn [show show_br]. rewrite show_psq. destruct a; reflexivity. Qed.
