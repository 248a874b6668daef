(** The analysis of items a greedy loop can repeat although they are longer than one
    character ([marker] of Checker.v), and that such an item has the behaviour EngineMark.v
    asks for. *)
From Coq Require Import ZArith NArith List Bool Lia ZifyBool ZifyNat ZifyN.
From Verif Require Import Base Text Ast Builder Engine Spec SpecProofs Den Checker CheckerProofs AstProofs EngineRel EngineProofs EngineOk EngineGood EngineMark.
Import ListNotations.
Open Scope nat_scope.

Section M.
Variable w : str.
Notation den := (den w).
Definition within (a : outs) (S : Z -> bool) : Prop :=
  forall c c', In c' (a c) -> fst c <= length w -> forall k, fst c <= k < fst c' -> exists x, nth_error w k = Some x /\ S x = true.
Definition tailin (a : outs) (S : Z -> bool) : Prop :=
  forall c c', In c' (a c) -> fst c <= length w -> forall k, fst c < k < fst c' -> exists x, nth_error w k = Some x /\ S x = true.
Lemma within_sub a (P Q : Z -> bool) : (forall x, P x = true -> Q x = true) -> within a P -> within a Q.
Proof. intros S H c c' I L k K. destruct (H c c' I L k K) as (x & E & X). eauto. Qed.
Lemma tailin_sub a (P Q : Z -> bool) : (forall x, P x = true -> Q x = true) -> tailin a P -> tailin a Q.
Proof. intros S H c c' I L k K. destruct (H c c' I L k K) as (x & E & X). eauto. Qed.
Lemma within_seq a b P : fwd w a -> within a P -> within b P -> within (seq_o a b) P.
Proof.
  intros F Ha Hb c c' I L k K. unfold seq_o in I. apply in_flat_map in I as (c1 & I1 & I2). pose proof (F _ _ I1 L).
  destruct (Nat.lt_ge_cases k (fst c1)); [apply (Ha c c1)|apply (Hb c1 c')]; auto; lia.
Qed.
Lemma tail_seq a b P : fwd w a -> (forall c c', In c' (a c) -> fst c <= length w -> fst c < fst c') -> tailin a P -> within b P -> tailin (seq_o a b) P.
Proof.
  intros F S Ha Hb c c' I L k K. unfold seq_o in I. apply in_flat_map in I as (c1 & I1 & I2). pose proof (F _ _ I1 L). pose proof (S _ _ I1 L).
  destruct (Nat.lt_ge_cases k (fst c1)); [apply (Ha c c1)|apply (Hb c1 c')]; auto; lia.
Qed.
Lemma within_eps P : within eps_o P.
Proof. intros c c' [<-|[]] L k K. lia. Qed.
Lemma within_pow a P n : fwd w a -> within a P -> within (pow_o n a) P.
Proof. intros F H. induction n; cbn [pow_o]; [apply within_eps|now apply within_seq]. Qed.
Lemma within_most a P n : fwd w a -> within a P -> within (most_o n a) P.
Proof.
  intros F H. induction n as [|n IH]; intros c c' I L k K; cbn [most_o] in I.
  - destruct I as [<-|[]]. lia.
  - apply in_app_iff in I as [I|[<-|[]]]; [|lia]. apply in_flat_map in I as (c1 & I1 & I2). apply progress_in in I1 as [I1 N].
    pose proof (F _ _ I1 L). destruct (Nat.lt_ge_cases k (fst c1)); [apply (H c c1)|apply (IH c1 c')]; auto; lia.
Qed.
Lemma within_least a P n : fwd w a -> within a P -> within (least_o n a) P.
Proof.
  intros F H. induction n as [|n IH]; intros c c' I L k K; cbn [least_o] in I.
  - destruct I as [<-|[]]. lia.
  - destruct I as [<-|I]; [lia|]. apply in_flat_map in I as (c1 & I1 & I2). apply progress_in in I1 as [I1 N].
    pose proof (F _ _ I1 L). destruct (Nat.lt_ge_cases k (fst c1)); [apply (H c c1)|apply (IH c1 c')]; auto; lia.
Qed.
(** The repetitions after the required ones. *)
Definition reps_after (g : greed) (mn : N) (mx : option N) (a : outs) : outs :=
  match g with Lz => least_o (extra w mn mx) a | _ => most_o (extra w mn mx) a end.
Lemma rep_split g mn mx a c c' : In c' (rep_o w g mn mx a c) -> In c' (seq_o (pow_o (N.to_nat mn) a) (reps_after g mn mx a) c).
Proof. destruct g; cbn [rep_o reps_after]; auto. intro I. now apply firstn1_in in I. Qed.
Lemma within_after g mn mx a P : fwd w a -> within a P -> within (reps_after g mn mx a) P.
Proof. intros. destruct g; cbn; auto using within_most, within_least. Qed.
Lemma fwd_after g mn mx a : fwd w a -> fwd w (reps_after g mn mx a).
Proof. intros. destruct g; cbn; auto using fwd_most, fwd_least. Qed.
Lemma within_rep a P g mn mx : fwd w a -> within a P -> within (rep_o w g mn mx a) P.
Proof.
  intros F H c c' I. apply rep_split in I. revert c c' I. apply within_seq; auto using fwd_pow, within_pow, within_after.
Qed.
Lemma tail_rep a P g mn mx : fwd w a -> mn <> 0%N -> (forall c c', In c' (a c) -> fst c <= length w -> fst c < fst c') ->
  within a P -> tailin a P -> tailin (rep_o w g mn mx a) P.
Proof.
  intros F N S H T c c' I. apply rep_split in I. destruct (N.to_nat mn) as [|k] eqn:E; [lia|]. cbn [pow_o] in I.
  assert (I' : In c' (seq_o a (seq_o (pow_o k a) (reps_after g mn mx a)) c)).
  { unfold seq_o in *. now rewrite flat_map_flat_map in I. }
  assert (X : tailin (seq_o a (seq_o (pow_o k a) (reps_after g mn mx a))) P); [|exact (X c c' I')].
  apply tail_seq; auto. apply within_seq; auto using fwd_pow, within_pow, within_after.
Qed.
Lemma tail_pow a P k : fwd w a -> k <> 0 -> (forall c c', In c' (a c) -> fst c <= length w -> fst c < fst c') ->
  within a P -> tailin a P -> tailin (pow_o k a) P.
Proof. intros F N S H T. destruct k as [|k]; [congruence|]. cbn [pow_o]. apply tail_seq; auto using within_pow. Qed.
Lemma ounion_some a b P : ounion a b = Some P -> exists A B, a = Some A /\ b = Some B /\ (forall x, A x = true -> P x = true) /\ (forall x, B x = true -> P x = true).
Proof.
  destruct a as [A|], b as [B|]; cbn; try discriminate. injection 1 as <-. exists A, B. conj; auto; intros x H; rewrite H; auto using orb_true_r.
Qed.
Lemma ounions_some l : forall P, ounions l = Some P -> forall o, In o l -> exists A, o = Some A /\ forall x, A x = true -> P x = true.
Proof.
  induction l as [|a l IH]; intros P H o Ho; [destruct Ho|]. cbn [ounions fold_right] in H. apply ounion_some in H as (A & B & E1 & E2 & S1 & S2).
  destruct Ho as [<-|Ho]; [exists A; auto|]. destruct (IH B E2 o Ho) as (C & E & S). exists C. auto.
Qed.
Lemma within_kids cs P : Forall (fun n => forall P, aset n = Some P -> within (den n) P) cs -> ounions (map aset cs) = Some P -> within (kidso (map den cs)) P.
Proof.
  intros H U c c' I L k K. apply in_alts in I as [[-> ->]|(n & Hn & I)]; [lia|]. rewrite Forall_forall in H.
  destruct (ounions_some _ _ U (aset n) (in_map aset cs n Hn)) as (A & E & S). destruct (H n Hn A E c c' I L k K) as (x & X & Y). eauto.
Qed.
Lemma within_unit n P : uset n = Some P -> within (den n) P.
Proof.
  intros U c c' I L k K. destruct (uset_den w n P U c) as [A _]. destruct (A _ I) as (-> & x & E & Px). cbn in K. assert (k = fst c) as -> by lia. eauto.
Qed.
Lemma within_cap i a P : within a P -> within (cap_o i a) P.
Proof. intros H c c' I. unfold cap_o in I. apply in_map_iff in I as (d & <- & I). exact (H c d I). Qed.
Lemma tail_cap i a P : tailin a P -> tailin (cap_o i a) P.
Proof. intros H c c' I. unfold cap_o in I. apply in_map_iff in I as (d & <- & I). exact (H c d I). Qed.
Lemma aset_ok n : forall P, aset n = Some P -> within (den n) P.
Proof.
  induction n using node_ind'; intros P HP;
  match goal with |- within (den ?n) _ => destruct (uset n) as [Q|] eqn:U; [assert (E : aset n = Some Q) by (cbn [aset]; rewrite U; reflexivity); rewrite E in HP; injection HP as <-; now apply within_unit|] end;
  cbn [aset] in HP; rewrite U in HP.
  - destruct t; try discriminate. intros c c' I L k K. cbn [Den.den] in I. unfold bol_o in I. destruct (Nat.eqb _ _); [|destruct I]. destruct I as [<-|[]]. lia.
  - now apply within_kids.
  - apply ounion_some in HP as (A & B & E1 & E2 & S1 & S2). cbn [Den.den]. apply within_seq; [apply den_fwd|apply (within_sub _ A); auto|apply (within_sub _ B); auto; now apply within_kids].
  - apply ounion_some in HP as (A & B & E1 & E2 & S1 & S2). cbn [Den.den]. apply within_seq; [apply fwd_rep, den_fwd|apply (within_sub _ A); auto; apply within_rep; auto using den_fwd|apply (within_sub _ B); auto; now apply within_kids].
  - apply ounion_some in HP as (A & B & E1 & E2 & S1 & S2). cbn [Den.den]. apply within_seq; [apply fwd_rep, den_fwd|apply (within_sub _ A); auto; apply within_rep; auto using den_fwd|apply (within_sub _ B); auto; now apply within_kids].
  - apply ounion_some in HP as (A & B & E1 & E2 & S1 & S2). cbn [Den.den]. apply within_seq; [apply fwd_rep, den_fwd|apply (within_sub _ A); auto; apply within_rep; auto using den_fwd|apply (within_sub _ B); auto; now apply within_kids].
  - apply ounion_some in HP as (A & B & E1 & E2 & S1 & S2). cbn [Den.den]. apply within_seq; [apply fwd_pow, den_fwd|apply (within_sub _ A); auto; apply within_pow; auto using den_fwd|apply (within_sub _ B); auto; now apply within_kids].
  - apply ounion_some in HP as (A & B & E1 & E2 & S1 & S2). cbn [Den.den]. apply within_seq; [apply fwd_cap, den_fwd|apply (within_sub _ A); auto using within_cap|apply (within_sub _ B); auto; now apply within_kids].
  - discriminate.
Qed.
Lemma aset_kids cs P : ounions (map aset cs) = Some P -> within (kidso (map den cs)) P.
Proof. apply within_kids. apply Forall_forall. intros n _. apply aset_ok. Qed.
Lemma strict_nonnull n : nonnull n = true -> forall c c', In c' (den n c) -> fst c <= length w -> fst c < fst c'.
Proof. intros N c c' I L. pose proof (nonnull_lt w n c c' N I L). lia. Qed.
Lemma tail_unit n P : uset n = Some P -> tailin (den n) (fun _ => false).
Proof. intros U c c' I L k K. destruct (uset_den w n P U c) as [A _]. destruct (A _ I) as (-> & _). cbn in K. lia. Qed.
Lemma tail_q g n mn mx cs P : (forall P, tailset n = Some P -> tailin (den n) P) ->
  (if nonnull n && negb (N.eqb mn 0) then ounion (tailset n) (ounion (aset n) (ounions (map aset cs))) else None) = Some P ->
  tailin (seq_o (rep_o w g mn mx (den n)) (kidso (map den cs))) P.
Proof.
  intros IH H. destruct (nonnull n && negb (N.eqb mn 0)) eqn:C; [|discriminate]. apply andb_true_iff in C as [N C]. apply negb_true_iff, N.eqb_neq in C.
  apply ounion_some in H as (A & B & E1 & E2 & S1 & S2). apply ounion_some in E2 as (D & F & E2 & E3 & S3 & S4).
  apply tail_seq; [apply fwd_rep, den_fwd| | |].
  - intros c c' I L. apply rep_split in I. destruct (N.to_nat mn) as [|k] eqn:K; [lia|]. unfold seq_o in I. apply in_flat_map in I as (c1 & I1 & I2). cbn [pow_o] in I1.
    unfold seq_o in I1. apply in_flat_map in I1 as (c2 & I1 & I3). pose proof (nonnull_lt w n c c2 N I1 L). pose proof (fwd_pow w k _ (den_fwd w n) _ _ I3 ltac:(lia)).
    pose proof (fwd_after g mn mx _ (den_fwd w n) _ _ I2 ltac:(lia)). lia.
  - apply tail_rep; auto using den_fwd; try (apply strict_nonnull; assumption).
    + apply (within_sub _ D); [auto|now apply aset_ok].
    + apply (tailin_sub _ A); auto.
  - apply (within_sub _ F); [auto|now apply aset_kids].
Qed.
Lemma tailset_ok n : forall P, tailset n = Some P -> tailin (den n) P.
Proof.
  induction n using node_ind'; intros P HP;
  match goal with |- tailin (den ?n) _ => destruct (uset n) as [Q|] eqn:U; [assert (E : tailset n = Some (fun _ => false)) by (cbn [tailset]; rewrite U; reflexivity); rewrite E in HP; injection HP as <-; now apply (tail_unit _ Q)|] end;
  cbn [tailset] in HP; rewrite U in HP.
  - destruct t; discriminate.
  - intros c c' I L k K. cbn [Den.den] in I. apply in_alts in I as [[-> ->]|(n & Hn & I)]; [lia|]. rewrite Forall_forall in H.
    destruct (ounions_some _ _ HP (tailset n) (in_map tailset cs n Hn)) as (A & E & S). destruct (H n Hn A E c c' I L k K) as (x & X & Y). eauto.
  - destruct (nonnull n) eqn:N; [|discriminate]. apply ounion_some in HP as (A & B & E1 & E2 & S1 & S2). cbn [Den.den].
    apply tail_seq; auto using den_fwd; try (apply strict_nonnull; assumption); [apply (tailin_sub _ A); auto|apply (within_sub _ B); auto using aset_kids].
  - now apply tail_q.
  - now apply tail_q.
  - now apply tail_q.
  - destruct (nonnull n && negb (N.eqb k 0)) eqn:C; [|discriminate]. apply andb_true_iff in C as [N C]. apply negb_true_iff, N.eqb_neq in C.
    apply ounion_some in HP as (A & B & E1 & E2 & S1 & S2). apply ounion_some in E2 as (D & F & E2 & E3 & S3 & S4). cbn [Den.den].
    apply tail_seq; [apply fwd_pow, den_fwd| | |].
    + intros c c' I L. destruct (N.to_nat k) as [|k'] eqn:K; [lia|]. cbn [pow_o] in I. unfold seq_o in I. apply in_flat_map in I as (c1 & I1 & I2).
      pose proof (nonnull_lt w n c c1 N I1 L). pose proof (fwd_pow w k' _ (den_fwd w n) _ _ I2 ltac:(lia)). lia.
    + apply tail_pow; auto using den_fwd; try (apply strict_nonnull; assumption); [lia| |].
      * apply (within_sub _ D); [auto|now apply aset_ok].
      * apply (tailin_sub _ A); auto.
    + apply (within_sub _ F); [auto|now apply aset_kids].
  - destruct (nonnull n) eqn:N; [|discriminate]. apply ounion_some in HP as (A & B & E1 & E2 & S1 & S2). cbn [Den.den].
    apply tail_seq; [apply fwd_cap, den_fwd| |apply tail_cap, (tailin_sub _ A); auto|apply (within_sub _ B); auto using aset_kids].
    intros c c' I L. unfold cap_o in I. apply in_map_iff in I as (d & <- & I). exact (strict_nonnull n N c d I L).
  - discriminate.
Qed.

(** ** Agreement inside the text *)
Definition agree (a b : outs) : Prop := forall c, fst c <= length w -> a c = b c.
Lemma flat_map_in_ext {A B} (f g : A -> list B) l : (forall x, In x l -> f x = g x) -> flat_map f l = flat_map g l.
Proof. induction l as [|x l IH]; intro H; [reflexivity|]. cbn. rewrite (H x (or_introl eq_refl)), IH; auto. intros; apply H; now right. Qed.
Lemma agree_seq a a' b b' : fwd w a -> agree a a' -> agree b b' -> agree (seq_o a b) (seq_o a' b').
Proof.
  intros F H1 H2 c L. unfold seq_o. rewrite <- (H1 c L). apply flat_map_in_ext. intros x Hx. apply H2. pose proof (F _ _ Hx L). lia.
Qed.
Lemma agree_pow n a b : fwd w a -> agree a b -> agree (pow_o n a) (pow_o n b).
Proof. intros F H. induction n; cbn [pow_o]; [intros c L; reflexivity|now apply agree_seq]. Qed.
Lemma agree_most n a b : fwd w a -> agree a b -> agree (most_o n a) (most_o n b).
Proof.
  intros F H. induction n as [|n IH]; intros c L; cbn [most_o]; [reflexivity|]. rewrite <- (H c L). f_equal. apply flat_map_in_ext.
  intros x Hx. apply progress_in in Hx as [Hx _]. apply IH. pose proof (F _ _ Hx L). lia.
Qed.
Lemma agree_greedy mn mx a b : fwd w a -> agree a b -> agree (rep_o w Gr mn mx a) (rep_o w Gr mn mx b).
Proof. intros F H. cbn [rep_o]. apply agree_seq; auto using fwd_pow, agree_pow, agree_most. Qed.
Lemma agree_cap i a b : agree a b -> agree (cap_o i a) (cap_o i b).
Proof. intros H c L. unfold cap_o. now rewrite H. Qed.

(** ** The step function of a marker *)
Variable m : node.
Definition sf_of (i : nat) : option nat := if Nat.leb i (length w) then option_map fst (hd_error (den m (i, []))) else None.
Definition bden : outs := fun c => if Nat.leb (fst c) (length w) then den m c else [].
Hypothesis Hw : Forall (fun c => (-128 <= c <= 127)%Z) w.
Hypothesis Hdet : det m = true.
Hypothesis Hnn : nonnull m = true.
Hypothesis Hng : nog m = true.
Hypothesis Hmk : marker m = true.
Lemma sf_in i j : sf_of i = Some j -> i <= length w /\ In (j, []) (den m (i, [])).
Proof.
  unfold sf_of. destruct (Nat.leb_spec i (length w)); [|discriminate]. destruct (den m (i, [])) as [|[j' d] r] eqn:E; [discriminate|]. cbn. injection 1 as ->.
  split; [assumption|]. assert (X : In (j, d) (den m (i, []))) by (rewrite E; now left). pose proof (nog_log w m i j d Hng X) as ->. now left.
Qed.
Lemma stepf_of : stepf w sf_of.
Proof.
  intros i j S. destruct (sf_in i j S) as [L I]. pose proof (nonnull_lt w m (i, []) (j, []) Hnn I L) as B. cbn in B. split; [exact B|].
  intros k K. destruct (sf_of k) as [j'|] eqn:S'; [|reflexivity]. exfalso. destruct (sf_in k j' S') as [L' I'].
  unfold marker in Hmk. destruct (tailset m) as [T|] eqn:ET; [|discriminate]. destruct (fst (pre m)) as [|P r] eqn:EP; [discriminate|].
  destruct (tailset_ok m T ET _ _ I L k ltac:(cbn; lia)) as (x & Ex & Tx).
  destruct (pre_ok w m _ _ I' L') as [HP _]. rewrite EP in HP. cbn in HP. destruct HP as [(y & Ey & Py) _].
  rewrite Ex in Ey. injection Ey as <-. exact (disj_at w Hw T P k x Hmk Ex Tx Py).
Qed.
Lemma bden_eqv : eqv bden (sfo sf_of).
Proof.
  intros K _ [i l]. unfold bden, sfo, sf_of. cbn [fst snd]. destruct (Nat.leb_spec i (length w)) as [L|]; [|reflexivity].
  rewrite (den_at w m i l). destruct (den m (i, [])) as [|[j d] r] eqn:E; [reflexivity|]. cbn [hd_error option_map fst map].
  assert (X : In (j, d) (den m (i, []))) by (rewrite E; now left). pose proof (nog_log w m i j d Hng X) as ->.
  unfold first_ok. rewrite (hd_flat_same K (shift l (j, [])) (map (shift l) r)).
  - cbn. now rewrite app_nil_r.
  - intros z Hz. apply in_map_iff in Hz as (y & <- & Hy). f_equal. apply (det_ok w Hw m Hdet (i, [])); [exact L|rewrite E; now right|rewrite E; now left].
Qed.
Lemma agree_bden : agree (den m) bden.
Proof. intros c L. unfold bden. now rewrite (proj2 (Nat.leb_le _ _) L). Qed.
Lemma mark_greedy mn mx D i : i <= length w ->
  hd_error (seq_o (rep_o w Gr mn (mx_opt mx) (den m)) D (i, [])) = hd_error (seq_o (rep_o w Gr mn (mx_opt mx) (sfo sf_of)) D (i, [])).
Proof.
  intro L. rewrite (agree_seq _ (rep_o w Gr mn (mx_opt mx) bden) D D); [|apply fwd_rep, den_fwd|apply agree_greedy; [apply den_fwd|apply agree_bden]|intros c _; reflexivity|exact L].
  apply eqv_hd, eqv_seq; [apply eqv_rep, bden_eqv|apply eqv_refl].
Qed.
Lemma mark_greedy_cap mn mx D k i : i <= length w ->
  hd_error (seq_o (cap_o k (rep_o w Gr mn (mx_opt mx) (den m))) D (i, [])) = hd_error (seq_o (cap_o k (rep_o w Gr mn (mx_opt mx) (sfo sf_of))) D (i, [])).
Proof.
  intro L. rewrite (agree_seq _ (cap_o k (rep_o w Gr mn (mx_opt mx) bden)) D D); [|apply fwd_cap, fwd_rep, den_fwd|apply agree_cap, agree_greedy; [apply den_fwd|apply agree_bden]|intros c _; reflexivity|exact L].
  apply eqv_hd, eqv_seq; [apply eqv_cap, eqv_rep, bden_eqv|apply eqv_refl].
Qed.
Variables (pre0 : str) (G : nat) (M : clo).
Lemma mark_step : cspec pre0 w G M (den m) PAny true true true true -> mstep pre0 w G sf_of M.
Proof.
  intros H a i g b Hi Hg Ha. specialize (H a i g b Hi Hg (or_intror eq_refl) Ha Logic.I). unfold EngineOk.res in H.
  unfold hs, nx, sf_of. rewrite (proj2 (Nat.leb_le _ _) Hi). destruct (den m (i, [])) as [|[j d] r] eqn:E; cbn [hd_error option_map] in *.
  - destruct H as (j & g' & H1 & H2 & H3 & H4 & H5). rewrite H1, (H4 eq_refl), (H5 eq_refl). reflexivity.
  - destruct H as (g' & H1 & H2 & H3). assert (X : In (j, d) (den m (i, []))) by (rewrite E; now left). pose proof (nog_log w m i j d Hng X) as ->.
    rewrite H1, (H3 eq_refl). reflexivity.
Qed.
End M.
