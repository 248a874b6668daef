(** The optimiser keeps the first way to match, on the trees accepted by [optok]. *)
From Coq Require Import ZArith NArith List Bool Lia ZifyBool ZifyNat ZifyN.
From Verif Require Import Base Text Ast Builder Engine Spec SpecProofs Den Checker CheckerProofs AstProofs EngineOk EngineGood.
Import ListNotations.
Open Scope nat_scope.

Section Opt.
Variable w : str.
Hypothesis Hw : Forall (fun c => (-128 <= c <= 127)%Z) w.
Notation den := (den w).

Definition okK (F : follow) (K : outs) : Prop :=
  match F with
  | FTot => tot K
  | FSet P => forall c x, fst c <= length w -> K c <> [] -> nth_error w (fst c) = Some x -> P x = true
  | FAny => True
  end.
Definition oeq (F : follow) (a b : outs) : Prop :=
  forall K, okK F K -> forall c, fst c <= length w -> first_ok K (a c) = first_ok K (b c).

Lemma oeq_refl F a : oeq F a a.
Proof. intros K _ c _. reflexivity. Qed.
Lemma oeq_trans F a b c : oeq F a b -> oeq F b c -> oeq F a c.
Proof. intros H1 H2 K HK x L. now rewrite H1, H2. Qed.
Lemma oeq_any F a b : oeq FAny a b -> oeq F a b.
Proof. intros H K HK. now apply H. Qed.
Lemma oeq_ext F a b : (forall c, a c = b c) -> oeq F a b.
Proof. intros H K HK c L. now rewrite H. Qed.
Lemma oeq_sym F a b : oeq F a b -> oeq F b a.
Proof. intros H K HK c L. symmetry. now apply H. Qed.
Lemma oeq_seq F F' a a' b b' : fwd w a' -> oeq F' a a' -> (forall K, okK F K -> okK F' (seq_o b K)) -> oeq F b b' ->
  oeq F (seq_o a b) (seq_o a' b').
Proof.
  intros Fa Ha Hk Hb K HK c L. rewrite !first_seq. change (fun c' => flat_map K (b c')) with (seq_o b K).
  rewrite (Ha _ (Hk K HK) c L). apply first_ext. intros d Hd. apply (Hb K HK). apply Fa in Hd; lia.
Qed.
Lemma oeq_or F a a' b b' : oeq F a a' -> oeq F b b' -> oeq F (or_o a b) (or_o a' b').
Proof. intros Ha Hb K HK c L. unfold or_o. now rewrite !first_app, (Ha K HK c L), (Hb K HK c L). Qed.
Lemma oeq_alts F l l' : Forall2 (oeq F) l l' -> oeq F (alts l) (alts l').
Proof.
  induction 1 as [|a a' l l' Ha Hl IH]; [apply oeq_refl|].
  destruct Hl as [|b b' l l' Hb Hl]; [exact Ha|]. rewrite !alts_cons by discriminate. now apply oeq_or.
Qed.
Lemma oeq_kids F l l' : Forall2 (oeq F) l l' -> oeq F (kidso l) (kidso l').
Proof. intro H. pose proof (oeq_alts F _ _ H) as A. destruct H; [apply oeq_refl|exact A]. Qed.

(** Under every continuation. *)
Lemma any_seq a a' b b' : fwd w a' -> oeq FAny a a' -> oeq FAny b b' -> oeq FAny (seq_o a b) (seq_o a' b').
Proof. intros. eapply oeq_seq; eauto. Qed.
Lemma any_pow n a a' : fwd w a' -> oeq FAny a a' -> oeq FAny (pow_o n a) (pow_o n a').
Proof. intros F H. induction n as [|n IH]; cbn; [apply oeq_refl|now apply any_seq]. Qed.
Lemma any_most n a a' : fwd w a' -> oeq FAny a a' -> oeq FAny (most_o n a) (most_o n a').
Proof.
  intros F Ha. induction n as [|n IH]; intros K HK c L; cbn; [reflexivity|].
  rewrite !first_app. unfold progress. rewrite !first_flat_map, !first_filter. rewrite (Ha _ I) by exact L.
  match goal with |- match first_ok ?A _ with _ => _ end = match first_ok ?B _ with _ => _ end =>
    rewrite (first_ext A B) end; [reflexivity|].
  intros d Hd. destruct (negb _); [|reflexivity]. apply (IH K I d). apply F in Hd; lia.
Qed.
Lemma any_least n a a' : fwd w a' -> oeq FAny a a' -> oeq FAny (least_o n a) (least_o n a').
Proof.
  intros F Ha. induction n as [|n IH]; intros K HK c L; cbn; [reflexivity|].
  rewrite !first_cons. destruct (hd_error (K c)); [reflexivity|].
  unfold progress. rewrite !first_flat_map, !first_filter. rewrite (Ha _ I) by exact L.
  apply first_ext. intros d Hd. destruct (negb _); [|reflexivity]. apply (IH K I d). apply F in Hd; lia.
Qed.
Lemma oeq_hd F a b c : okK F eps_o -> oeq F a b -> fst c <= length w -> hd_error (a c) = hd_error (b c).
Proof. intros HF H L. rewrite <- !first_eps. now apply H. Qed.
Lemma any_atomic a a' : oeq FAny a a' -> oeq FAny (atomic_o a) (atomic_o a').
Proof.
  intros Ha K HK c L. unfold atomic_o. apply (oeq_hd FAny _ _ c I) in Ha; [|exact L].
  destruct (a c), (a' c); cbn in *; try discriminate; [reflexivity|]. injection Ha as ->. reflexivity.
Qed.
Lemma any_rep g mn mx a a' : fwd w a' -> oeq FAny a a' -> oeq FAny (rep_o w g mn mx a) (rep_o w g mn mx a').
Proof.
  intros F Ha. destruct g; cbn.
  - apply any_seq; [now apply fwd_pow|now apply any_pow|now apply any_most].
  - apply any_seq; [now apply fwd_pow|now apply any_pow|now apply any_least].
  - apply any_atomic. apply any_seq; [now apply fwd_pow|now apply any_pow|now apply any_most].
Qed.
Lemma any_not a a' : oeq FAny a a' -> oeq FAny (not_o w a) (not_o w a').
Proof.
  intros Ha K HK c L. unfold not_o. apply (oeq_hd FAny _ _ c I) in Ha; [|exact L].
  destruct (nth_error w (fst c)); [|reflexivity]. destruct (a c), (a' c); try discriminate; reflexivity.
Qed.
Lemma oeq_cap F i a a' : oeq F a a' -> oeq F (cap_o i a) (cap_o i a').
Proof.
  intros Ha K HK c L. unfold cap_o. rewrite !first_map. apply Ha; [|exact L].
  destruct F as [|P|]; [|intros d Ld Hd; exact (HK (fst d, (i, (fst c, fst d)) :: snd d) Ld Hd)|exact I]. intros d. apply HK.
Qed.

(** ** What follows *)
Definition needs (S : option (Z -> bool)) (K : outs) : Prop :=
  match S with Some P => okK (FSet P) K | None => True end.
Lemma needs_first P l n K : fst (pre n) = P :: l -> needs (Some P) (seq_o (den n) K).
Proof.
  intros E c x L H Ex. unfold seq_o in H. destruct (den n c) as [|y r] eqn:Y; [now cbn in H|].
  destruct (pre_ok w n c y ltac:(rewrite Y; now left) L) as (A & _). rewrite E in A. cbn in A. destruct A as [(z & Ez & Pz) _]. congruence.
Qed.
Lemma needs_sub (P Q : Z -> bool) K : (forall x, P x = true -> Q x = true) -> needs (Some P) K -> needs (Some Q) K.
Proof. intros S H c x L N E. apply S. now apply (H c x L N E). Qed.
Lemma ounion_sub a b P : ounion a b = Some P -> exists A B, a = Some A /\ b = Some B /\ (forall x, A x = true -> P x = true) /\ (forall x, B x = true -> P x = true).
Proof.
  destruct a as [A|], b as [B|]; cbn; try discriminate. injection 1 as <-. exists A, B. conj; auto; intros x H; rewrite H; auto using orb_true_r.
Qed.
Lemma ounions_sub l : forall P, ounions l = Some P -> forall o, In o l -> exists A, o = Some A /\ forall x, A x = true -> P x = true.
Proof.
  induction l as [|a l IH]; intros P H o Ho; [destruct Ho|]. cbn [ounions fold_right] in H. apply ounion_sub in H as (A & B & E1 & E2 & S1 & S2).
  destruct Ho as [<-|Ho]; [exists A; auto|]. destruct (IH B E2 o Ho) as (C & E & S). exists C. auto.
Qed.
Lemma seq_in_nn (a K : outs) c : seq_o a K c <> [] -> exists d, In d (a c) /\ K d <> [].
Proof.
  intro H. unfold seq_o in H. destruct (flat_map K (a c)) as [|k t] eqn:E; [congruence|]. assert (I1 : In k (flat_map K (a c))) by (rewrite E; now left).
  apply in_flat_map in I1 as (d & D1 & D2). exists d. split; [exact D1|]. intro Z. rewrite Z in D2. destruct D2.
Qed.
Lemma in_seq_nn (a K : outs) c d : In d (a c) -> K d <> [] -> seq_o a K c <> [].
Proof.
  intros D1 D2 Z. destruct (K d) as [|k l] eqn:E; [congruence|]. assert (I1 : In k (seq_o a K c)) by (unfold seq_o; apply in_flat_map; exists d; split; [exact D1|rewrite E; now left]).
  rewrite Z in I1. destruct I1.
Qed.
Lemma needs_kids cs S K : Forall (fun n => forall S K, needs S K -> needs (efirst n S) (seq_o (den n) K)) cs -> needs S K ->
  needs (efk cs S) (seq_o (kidso (map den cs)) K).
Proof.
  intros H HK. destruct cs as [|n cs].
  - cbn [efk map kidso]. destruct S as [P|]; [|exact I]. intros c x L N E. apply (HK c x L); [|exact E]. apply seq_in_nn in N as (d & [<-|[]] & N). exact N.
  - unfold efk. destruct (ounions _) as [P|] eqn:E; [|exact I]. intros c x L N Ex. apply seq_in_nn in N as (d & D1 & D2).
    apply in_alts in D1 as [[D1 _]|(m & Hm & D1)]; [discriminate|]. rewrite Forall_forall in H.
    destruct (ounions_sub _ _ E (efirst m S) (in_map (fun c => efirst c S) _ m Hm)) as (A & EA & SA).
    specialize (H m Hm S K HK). rewrite EA in H. apply SA. apply (H c x L); [|exact Ex]. exact (in_seq_nn _ _ _ d D1 D2).
Qed.
Lemma needs_rep g m mn mx S K : needs S K -> needs (ounion (hd_error (fst (pre m))) S) (seq_o (rep_o w g mn mx (den m)) K).
Proof.
  intro HK. destruct (ounion _ _) as [P|] eqn:E; [|exact I]. apply ounion_sub in E as (A & B & E1 & -> & S1 & S2).
  intros c x L N Ex. apply seq_in_nn in N as (d & D1 & D2).
  assert (X : d = c \/ den m c <> []).
  { assert (Y : forall n d, In d (pow_o n (den m) c) -> d = c \/ den m c <> []).
    { intros n e I1. destruct n as [|n]; cbn [pow_o] in I1; [destruct I1 as [<-|[]]; now left|]. right. unfold seq_o in I1. destruct (den m c); [destruct I1|discriminate]. }
    assert (Z : forall n d, In d (most_o n (den m) c) \/ In d (least_o n (den m) c) -> d = c \/ den m c <> []).
    { intros n e [I1|I1]; destruct n as [|n]; cbn [most_o least_o] in I1; try (destruct I1 as [<-|[]]; now left).
      - apply in_app_iff in I1 as [I1|[<-|[]]]; [|now left]. right. intro Z. rewrite Z in I1. destruct I1.
      - destruct I1 as [<-|I1]; [now left|]. right. intro Z. rewrite Z in I1. destruct I1. }
    assert (T : In d (seq_o (pow_o (N.to_nat mn) (den m)) (most_o (extra w mn mx) (den m)) c) \/ In d (seq_o (pow_o (N.to_nat mn) (den m)) (least_o (extra w mn mx) (den m)) c)).
    { destruct g; cbn [rep_o] in D1; auto. left. now apply firstn1_in in D1. }
    unfold seq_o in T. destruct T as [T|T]; apply in_flat_map in T as (e & T1 & T2); destruct (Y _ _ T1) as [->|]; auto; eapply Z; eauto. }
  destruct X as [->|X].
  - apply S2. exact (HK c x L D2 Ex).
  - apply S1. destruct (fst (pre m)) as [|Q l] eqn:EQ; [discriminate|]. injection E1 as ->. apply (needs_first A l m eps_o EQ c x L); [|exact Ex].
    destruct (den m c) as [|y r] eqn:Y; [congruence|]. apply (in_seq_nn _ _ _ y); [rewrite Y; now left|discriminate].
Qed.
Lemma seq_assoc_nn (a b K : outs) c : seq_o (seq_o a b) K c <> [] -> seq_o a (seq_o b K) c <> [].
Proof.
  intro H. apply seq_in_nn in H as (d & D1 & D2). unfold seq_o in D1. apply in_flat_map in D1 as (e & E1 & E2).
  apply (in_seq_nn _ _ _ e E1). exact (in_seq_nn _ _ _ d E2 D2).
Qed.
Lemma needs_assoc S (a b K : outs) : needs S (seq_o a (seq_o b K)) -> needs S (seq_o (seq_o a b) K).
Proof. destruct S as [P|]; [|intros; exact I]. intros H c x L N E. apply (H c x L); [|exact E]. now apply seq_assoc_nn. Qed.
Lemma efirst_ok n : forall S K, needs S K -> needs (efirst n S) (seq_o (den n) K).
Proof.
  induction n using node_ind'; intros S K HK;
  match goal with |- needs (efirst ?n _) _ => destruct (fst (pre n)) as [|P l] eqn:E;
    [|assert (X : efirst n S = Some P) by (destruct n; cbn [efirst]; rewrite E; reflexivity); rewrite X; exact (needs_first P l n K E)] end;
  cbn [efirst]; rewrite E.
  - destruct t; try exact I.
    + destruct S as [P|]; [|exact I]. intros c x L N Ex. apply seq_in_nn in N as (d & D1 & D2). cbn [Den.den] in D1. unfold bol_o in D1.
      destruct (Nat.eqb _ _); [|destruct D1]. destruct D1 as [<-|[]]. exact (HK c x L D2 Ex).
    + intros c x L N Ex. apply seq_in_nn in N as (d & D1 & D2). cbn [Den.den] in D1. unfold eol_o in D1.
      destruct (Nat.eqb_spec (fst c) (length w)) as [Z|Z].
      * assert (nth_error w (fst c) <> None) by congruence. apply nth_error_Some in H. lia.
      * unfold chr_o in D1. rewrite Ex in D1. destruct (Z.eqb c_nl x); [reflexivity|destruct D1].
  - apply (needs_kids cs S K H HK).
  - cbn [Den.den]. apply needs_assoc. apply IHn. now apply (needs_kids cs S K H).
  - cbn [Den.den]. apply needs_assoc. apply needs_rep. now apply (needs_kids cs S K H).
  - cbn [Den.den]. apply needs_assoc. apply needs_rep. now apply (needs_kids cs S K H).
  - cbn [Den.den]. apply needs_assoc. apply needs_rep. now apply (needs_kids cs S K H).
  - exact I.
  - cbn [Den.den]. apply needs_assoc. specialize (IHn (efk cs S)).
    set (T := efk cs S) in *. fold (efk cs S). fold T. destruct (efirst n T) as [P|] eqn:EP; [|exact I].
    intros c x L N Ex. apply seq_in_nn in N as (d & D1 & D2). unfold cap_o in D1. apply in_map_iff in D1 as (d' & <- & D1).
    pose proof (needs_kids cs S K H HK) as NK. fold T in NK.
    specialize (IHn (fun d' => seq_o (kidso (map den cs)) K (fst d', (i, (fst c, fst d')) :: snd d'))).
    assert (NK' : needs T (fun d' => seq_o (kidso (map den cs)) K (fst d', (i, (fst c, fst d')) :: snd d'))).
    { destruct T as [Q|]; [|exact I]. intros c0 x0 L0 N0 E0. exact (NK (fst c0, _) x0 L0 N0 E0). }
    apply (IHn NK' c x L); [|exact Ex]. exact (in_seq_nn _ _ _ d' D1 D2).
  - exact I.
Qed.
Lemma folk_ok cs F K : okK F K -> okK (folk cs F) (seq_o (kidso (map den cs)) K).
Proof.
  intro HK. unfold folk. destruct cs as [|c cs].
  - cbn [map kidso]. destruct F as [|P|]; cbn in *; auto.
    + intro x. unfold seq_o, eps_o. cbn. rewrite app_nil_r. apply HK.
    + intros x y L. unfold seq_o, eps_o. cbn. rewrite app_nil_r. now apply HK.
  - set (cs' := c :: cs) in *. destruct (efk cs' (fset F)) as [P|] eqn:E.
    + pose proof (needs_kids cs' (fset F) K ltac:(apply Forall_forall; intros; now apply efirst_ok)) as X. rewrite E in X. apply X.
      destruct F; cbn; auto.
    + destruct (totk cs') eqn:T; [|exact I]. destruct F; try exact I. apply tot_seq; [now apply totk_ok|exact HK].
Qed.

(** ** No need to give up repetitions *)
Lemma most_first_only K a n c : prog w a -> uniq w a -> fst c <= length w ->
  (forall d, fst d <= length w -> a d <> [] -> K d = []) ->
  first_ok K (most_o n a c) = first_ok K (firstn 1 (most_o n a c)).
Proof.
  intros PA UA L HK. revert c L. induction n as [|n IH]; intros c L; [reflexivity|].
  cbn [most_o]. rewrite (progress_id w) by assumption. destruct (a c) as [|x r] eqn:E; [reflexivity|].
  assert (Ix : In x (a c)) by (rewrite E; now left).
  assert (Lx : fst x <= length w) by (apply PA in Ix; lia).
  rewrite first_app. rewrite (first_none K [c]) by (intros d [<-|[]]; apply HK; [exact L|rewrite E; discriminate]).
  assert (Eq : first_ok K (flat_map (most_o n a) (x :: r)) = first_ok K (most_o n a x)).
  { rewrite first_flat_map. apply (hd_flat_same (fun c => flat_map K (most_o n a c)) x r). intros y Hy. apply (UA c); [exact L| |exact Ix]. rewrite E. now right. }
  rewrite Eq, (IH x Lx). cbn [flat_map]. pose proof (tot_most n a x) as T.
  destruct (most_o n a x) as [|y l]; [congruence|]. cbn [firstn app].
  destruct (first_ok K [y]); reflexivity.
Qed.
Lemma least_most K a n c : prog w a -> uniq w a -> fst c <= length w ->
  (forall d, fst d <= length w -> a d <> [] -> K d = []) ->
  first_ok K (least_o n a c) = first_ok K (most_o n a c).
Proof.
  intros PA UA L HK. revert c L. induction n as [|n IH]; intros c L; [reflexivity|].
  cbn [most_o least_o]. rewrite (progress_id w) by assumption. destruct (a c) as [|x r] eqn:E; [reflexivity|].
  rewrite first_cons, HK, first_app by (try exact L; rewrite E; discriminate). cbn [hd_error].
  rewrite (first_none K [c]) by (intros d [<-|[]]; apply HK; [exact L|rewrite E; discriminate]).
  rewrite !first_flat_map.
  match goal with |- first_ok ?A ?l = match first_ok ?B ?l with _ => _ end => rewrite (first_ext A B l) end.
  - destruct (first_ok _ _); reflexivity.
  - intros d Hd. apply (IH d). rewrite <- E in Hd. apply PA in Hd; lia.
Qed.
Lemma first_one K l : tot K -> first_ok K l = first_ok K (firstn 1 l).
Proof.
  intro T. destruct l as [|x l]; [reflexivity|]. cbn [firstn]. rewrite !first_cons. specialize (T x).
  destruct (K x); [congruence|reflexivity].
Qed.
Lemma no_retry_fails m P K : det m && first_disj P m = true -> okK (FSet P) K ->
  forall d, fst d <= length w -> den m d <> [] -> K d = [].
Proof.
  intros H HK d Ld Hd. apply andb_true_iff in H as [_ H]. destruct (K d) as [|k l] eqn:E; [reflexivity|]. exfalso.
  destruct (nth_error w (fst d)) as [x|] eqn:Ex.
  - pose proof (HK d x Ld ltac:(rewrite E; discriminate) Ex) as Px. apply Hd. destruct d as [i l']. eapply first_disj_ok; eauto.
  - unfold first_disj in H. destruct (fst (pre m)) as [|Q r] eqn:EQ; [discriminate|]. destruct (den m d) as [|y t] eqn:Y; [congruence|].
    destruct (pre_ok w m d y ltac:(rewrite Y; now left) Ld) as (A & _). rewrite EQ in A. cbn in A. destruct A as [(z & Ez & _) _]. congruence.
Qed.
Lemma first_disj_nonnull P m : first_disj P m = true -> nonnull m = true.
Proof. unfold first_disj, nonnull. destruct (fst (pre m)); [discriminate|reflexivity]. Qed.
Lemma rep_greedy_poss m mn mx F : no_retry m F true = true ->
  oeq F (rep_o w Gr mn mx (den m)) (rep_o w Po mn mx (den m)).
Proof.
  intros H K HK c L. cbn [rep_o]. unfold atomic_o. destruct F as [|P|]; cbn [no_retry] in H; [| |discriminate].
  - apply first_one. exact HK.
  - pose proof (no_retry_fails m P K H HK) as NF. apply andb_true_iff in H as [D FD].
    pose proof (det_ok w Hw m D) as UA. pose proof (first_disj_nonnull _ _ FD) as NN.
    assert (PA : prog w (den m)) by (intros x y Hx Lx; eapply nonnull_lt; eauto).
    unfold seq_o. pose proof (uniq_pow w (N.to_nat mn) (den m) (den_fwd w m) UA c) as UP.
    pose proof (fwd_pow w (N.to_nat mn) (den m) (den_fwd w m) c) as FP.
    destruct (pow_o (N.to_nat mn) (den m) c) as [|x r] eqn:E; [reflexivity|].
    assert (Lx : fst x <= length w) by (specialize (FP x (or_introl eq_refl) L); lia).
    rewrite first_flat_map. unfold first_ok at 1. rewrite hd_flat_same.
    + change (hd_error (flat_map K ?l)) with (first_ok K l). rewrite (most_first_only K (den m)) by assumption. cbn [flat_map].
      pose proof (tot_most (extra w mn mx) (den m) x) as T. destruct (most_o _ _ x); [congruence|reflexivity].
    + intros y Hy. apply UP; [exact L|now right|now left].
Qed.
Lemma rep_lazy_poss m mn mx F : no_retry m F false = true ->
  oeq F (rep_o w Lz mn mx (den m)) (rep_o w Po mn mx (den m)).
Proof.
  intros H. destruct F as [|P|]; [discriminate| |discriminate].
  eapply oeq_trans; [|apply rep_greedy_poss; exact H].
  intros K HK c L. cbn [no_retry] in H. cbn [rep_o].
  pose proof (no_retry_fails m P K H HK) as NF. apply andb_true_iff in H as [D FD].
  pose proof (det_ok w Hw m D) as UA. pose proof (first_disj_nonnull _ _ FD) as NN.
  assert (PA : prog w (den m)) by (intros x y Hx Lx; eapply nonnull_lt; eauto).
  rewrite !first_seq. apply first_ext. intros d Hd. apply (least_most K (den m) _ d); auto.
  apply (fwd_pow w _ _ (den_fwd w m)) in Hd; lia.
Qed.

(** ** One iteration among others *)
Lemma okK_eps F K c0 : okK F K -> (forall c, c0 c = [c]) -> okK F (seq_o c0 K).
Proof.
  intros H E. destruct F as [|P|]; [| |exact I].
  - intro c. unfold seq_o. rewrite E. cbn. rewrite app_nil_r. apply H.
  - intros c L. unfold seq_o. rewrite E. cbn. rewrite app_nil_r. now apply H.
Qed.
Definition optional (g : greed) : nat -> outs -> outs := match g with Lz => least_o | _ => most_o end.
Lemma optional_0 g a c : optional g 0 a c = [c].
Proof. destruct g; reflexivity. Qed.
Lemma optional_tot g n a : tot (optional g n a).
Proof. destruct g; [apply tot_most| |apply tot_most]. intro c. destruct n; discriminate. Qed.
Lemma optional_in g n a c d : In d (optional g n a c) -> d = c \/ a c <> [].
Proof.
  destruct (a c) as [|x r] eqn:E; [|right; discriminate]. left. destruct n as [|n]; [rewrite optional_0 in H; destruct H as [<-|[]]; reflexivity|].
  destruct g; cbn in H; rewrite E in H; cbn in H; destruct H as [<-|[]]; reflexivity.
Qed.
Lemma pow_in0 n a c d : In d (pow_o n a c) -> d = c \/ a c <> [].
Proof.
  destruct n as [|n]; cbn; [intros [<-|[]]; now left|]. unfold seq_o. destruct (a c) as [|x r] eqn:E; [intros []|right; discriminate].
Qed.
(** Whatever follows an iteration satisfies one of [Fs] when [F] holds of what follows the
    repetition. *)
Definition okKs (Fs : list follow) (K : outs) : Prop := exists F, In F Fs /\ okK F K.
Definition oeqs (Fs : list follow) (a b : outs) : Prop := forall F, In F Fs -> oeq F a b.
Lemma oeqs_ok Fs a b K c : oeqs Fs a b -> okKs Fs K -> fst c <= length w -> first_ok K (a c) = first_ok K (b c).
Proof. intros H (F & I1 & HK) L. now apply (H F I1). Qed.
Lemma okKs_one F K : okK F K -> okKs [F] K.
Proof. intro H. exists F. split; [now left|exact H]. Qed.
Lemma okKs_any K : okKs [FAny] K.
Proof. apply okKs_one. exact I. Qed.
Definition closes (F : follow) (Fs : list follow) (g : greed) (mn ex : nat) (a : outs) : Prop :=
  forall K, okK F K -> (forall n, n < ex -> okKs Fs (seq_o (optional g n a) K))
    /\ (forall k, k < mn -> okKs Fs (seq_o (pow_o k a) (seq_o (optional g ex a) K))).
Lemma in_rep_closes F g mn mx m m' ex : ((mx <= 1)%N -> ex <= N.to_nat (mx - mn)) ->
  closes F (in_rep mn mx m m' F) g (N.to_nat mn) ex (den m).
Proof.
  intros Hex K HK. unfold in_rep. destruct (nonnull m && nonnull m') eqn:NN; [|split; intros; apply okKs_any].
  destruct ((mn <=? 1) && (mx <=? 1))%N eqn:E1.
  - split; intros n Hn; apply okKs_one.
    + assert (n = 0) as -> by lia. now apply okK_eps; [|apply optional_0].
    + assert (n = 0) as -> by lia. apply okK_eps; [|reflexivity].
      assert (ex = 0) as -> by lia. now apply okK_eps; [|apply optional_0].
  - destruct (fst (pre m)) as [|Q l] eqn:EQ; [destruct F; split; intros; apply okKs_any|].
    assert (HQ : forall c x, fst c <= length w -> den m c <> [] -> nth_error w (fst c) = Some x -> Q x = true).
    { intros c x L H Ex. destruct (den m c) as [|d r] eqn:ED; [congruence|].
      destruct (pre_ok w m c d ltac:(rewrite ED; now left) L) as (A & _). rewrite EQ in A. cbn in A. destruct A as ((z & X1 & X2) & _). congruence. }
    destruct F as [|P|]; [| |split; intros; apply okKs_any].
    + assert (T : forall n, okK FTot (seq_o (optional g n (den m)) K)) by (intro; apply tot_seq; [apply optional_tot|exact HK]).
      destruct (mn <=? 1)%N eqn:E2.
      * split; intros n Hn; apply okKs_one; [apply T|]. assert (n = 0) as -> by lia. apply (okK_eps FTot); [apply T|reflexivity].
      * split; intros n Hn; [exists FTot; split; [now left|apply T]|]. destruct n as [|n].
        { exists FTot. split; [now left|]. apply (okK_eps FTot); [apply T|reflexivity]. }
        exists (FSet Q). split; [right; now left|]. intros c x L H. apply HQ; [exact L|]. intro Z. apply H.
        cbn [pow_o]. unfold seq_o. rewrite Z. reflexivity.
    + assert (HQ' : forall c x, fst c <= length w -> den m c <> [] -> nth_error w (fst c) = Some x -> (P x || Q x) = true).
      { intros c x L H Ex. rewrite (HQ c x L H Ex). apply orb_true_r. }
      assert (HP : forall n, okK (FSet (fun x => P x || Q x)) (seq_o (optional g n (den m)) K)).
      { intros n c x L H Ex. unfold seq_o in H. destruct (optional g n (den m) c) as [|d r] eqn:ED; [now cbn in H|].
        destruct (flat_map K (d :: r)) as [|k t] eqn:EF; [congruence|].
        assert (In1 : In k (flat_map K (d :: r))) by (rewrite EF; now left). apply in_flat_map in In1 as (d' & D1 & D2).
        rewrite <- ED in D1. destruct (optional_in _ _ _ _ _ D1) as [->|X]; [|exact (HQ' c x L X Ex)].
        rewrite (HK c x L ltac:(intro Z; rewrite Z in D2; exact D2) Ex). reflexivity. }
      split; intros n Hn; apply okKs_one; [apply HP|].
      intros c x L H Ex. unfold seq_o at 1 in H. destruct (flat_map _ _) as [|k t] eqn:EF; [congruence|].
      assert (In1 : In k (flat_map (seq_o (optional g ex (den m)) K) (pow_o n (den m) c))) by (rewrite EF; now left).
      apply in_flat_map in In1 as (d' & D1 & D2). destruct (pow_in0 _ _ _ _ D1) as [->|X]; [|exact (HQ' c x L X Ex)].
      apply (HP ex c x L); [|exact Ex]. intro Z. rewrite Z in D2. exact D2.
Qed.
Lemma optional_eq F Fs g n0 mn a a' : fwd w a' -> prog w a -> prog w a' -> oeqs Fs a a' -> closes F Fs g mn n0 a ->
  forall n, n <= n0 -> oeq F (optional g n a) (optional g n a').
Proof.
  intros Fa Pa Pa' Ha Hc n. induction n as [|n IH]; intro Hn; [apply oeq_ext; intro; now rewrite !optional_0|].
  intros K HK c L. destruct (Hc K HK) as [Hk _]. specialize (Hk n ltac:(lia)).
  assert (E : first_ok K (flat_map (optional g n a) (a c)) = first_ok K (flat_map (optional g n a') (a' c))).
  { rewrite !first_flat_map. change (fun c0 => flat_map K (optional g n a c0)) with (seq_o (optional g n a) K).
    rewrite (oeqs_ok _ _ _ _ c Ha Hk L). apply first_ext. intros d Hd. apply (IH ltac:(lia) K HK). apply Fa in Hd; lia. }
  destruct g; cbn [optional most_o least_o] in *; rewrite !(progress_id w) by assumption.
  - now rewrite !first_app, E.
  - now rewrite !first_cons, E.
  - now rewrite !first_app, E.
Qed.
Lemma pow_eq F Fs g ex mn a a' : fwd w a' -> oeqs Fs a a' -> oeq F (optional g ex a) (optional g ex a') -> closes F Fs g mn ex a ->
  forall k, k <= mn -> oeq F (seq_o (pow_o k a) (optional g ex a)) (seq_o (pow_o k a') (optional g ex a')).
Proof.
  intros Fa Ha Ho Hc k. induction k as [|k IH]; intro Hk.
  - intros K HK c L. rewrite !first_seq. cbn [pow_o]. unfold eps_o. rewrite !first_cons.
    specialize (Ho K HK c L). unfold first_ok in Ho |- *. rewrite Ho. reflexivity.
  - intros K HK c L. destruct (Hc K HK) as [_ H]. specialize (H k ltac:(lia)). cbn [pow_o].
    rewrite !first_seq.
    match goal with |- first_ok ?A _ = first_ok ?B _ => change A with (fun c0 => flat_map (seq_o (optional g ex a) K) (pow_o k a c0)) end.
    change (fun c0 => flat_map (seq_o (optional g ex a) K) (pow_o k a c0)) with (seq_o (pow_o k a) (seq_o (optional g ex a) K)).
    rewrite (oeqs_ok _ _ _ _ c Ha H L). apply first_ext. intros d Hd. specialize (IH ltac:(lia) K HK d ltac:(apply Fa in Hd; lia)).
    rewrite !first_seq in IH. exact IH.
Qed.
Lemma extra_small mn mx : (mx <= 1)%N -> (extra w mn (mx_opt mx) <= N.to_nat (mx - mn)).
Proof. intro H. unfold mx_opt, UMAX. replace (mx =? 4294967295)%N with false by lia. cbn. lia. Qed.
Lemma all_oeqs m Fs : (forall F, optok m [] F = true -> oeq F (den m) (den (optimize m []))) ->
  forallb (optok m []) Fs = true -> oeqs Fs (den m) (den (optimize m [])).
Proof. intros IH O F HF. apply IH. rewrite forallb_forall in O. now apply O. Qed.
Lemma rep_eq F g mn mx m : (forall F, optok m [] F = true -> oeq F (den m) (den (optimize m []))) ->
  forallb (optok m []) (in_rep mn mx m (optimize m []) F) = true -> g <> Po ->
  oeq F (rep_o w g mn (mx_opt mx) (den m)) (rep_o w g mn (mx_opt mx) (den (optimize m []))).
Proof.
  intros IH O Hg. set (m' := optimize m []) in *.
  destruct (nonnull m && nonnull m') eqn:NN.
  - apply andb_true_iff in NN as [N1 N2].
    assert (P1 : prog w (den m)) by (intros x y Hx Lx; exact (nonnull_lt w m x y N1 Hx Lx)).
    assert (P2 : prog w (den m')) by (intros x y Hx Lx; exact (nonnull_lt w m' x y N2 Hx Lx)).
    pose proof (in_rep_closes F g mn mx m m' (extra w mn (mx_opt mx)) (extra_small mn mx)) as C.
    pose proof (all_oeqs m _ IH O) as Ha. pose proof (optional_eq F _ g _ _ _ _ (den_fwd w m') P1 P2 Ha C _ (le_n _)) as Ho.
    pose proof (pow_eq F _ g _ _ _ _ (den_fwd w m') Ha Ho C _ (le_n _)) as Hp. destruct g; [exact Hp|exact Hp|exfalso; now apply Hg].
  - unfold in_rep in O. rewrite NN in O. apply oeq_any, any_rep; [apply den_fwd|]. apply IH. cbn in O. now rewrite andb_true_r in O.
Qed.
Lemma rep_eq_po F mn mx m : (forall F, optok m [] F = true -> oeq F (den m) (den (optimize m []))) ->
  forallb (optok m []) (in_rep mn mx m (optimize m []) FTot) = true ->
  oeq F (rep_o w Po mn (mx_opt mx) (den m)) (rep_o w Po mn (mx_opt mx) (den (optimize m []))).
Proof.
  intros IH O. pose proof (rep_eq FTot Gr mn mx m IH O ltac:(discriminate)) as H. apply oeq_any.
  intros K _ c L. apply (oeq_hd FTot _ _ c) in H; [|intro; discriminate|exact L].
  change (rep_o w Po mn (mx_opt mx) ?a c) with (firstn 1 (rep_o w Gr mn (mx_opt mx) a c)).
  destruct (rep_o w Gr mn (mx_opt mx) (den m) c), (rep_o w Gr mn (mx_opt mx) (den (optimize m [])) c); cbn in H |- *; try discriminate; [reflexivity|].
  injection H as ->. reflexivity.
Qed.
Lemma pow_eq0 F k m : (forall F, optok m [] F = true -> oeq F (den m) (den (optimize m []))) ->
  forallb (optok m []) (in_rep k k m (optimize m []) F) = true ->
  oeq F (pow_o (N.to_nat k) (den m)) (pow_o (N.to_nat k) (den (optimize m []))).
Proof.
  intros IH O. pose proof (in_rep_closes F Gr k k m (optimize m []) 0 ltac:(lia)) as C.
  pose proof (pow_eq F _ Gr 0 _ _ _ (den_fwd w (optimize m [])) (all_oeqs m _ IH O) (oeq_refl _ _) C _ (le_n _)) as H.
  intros K HK c L. specialize (H K HK c L). cbn [optional most_o] in H.
  change (fun c0 : cfg => [c0]) with eps_o in H. now rewrite !seq_eps_r in H.
Qed.

(** ** The optimiser *)
Lemma opt_ok n : forall inj F, optok n inj F = true -> oeq F (den n) (den (optimize n inj)).
Proof.
  assert (KF : forall cs, Forall (fun n => forall inj F, optok n inj F = true -> oeq F (den n) (den (optimize n inj))) cs ->
     forall F, forallb (fun c => optok c [] F) cs = true ->
     oeq F (kidso (map den cs)) (kidso (map den (map (fun c => optimize c []) cs)))).
  { intros cs H F E. apply oeq_kids. induction H as [|c cs Hc Hcs IH]; [constructor|]. cbn in E. apply andb_true_iff in E as [A B].
    cbn. constructor; auto. }
  assert (FF : forall cs, fwd w (kidso (map den cs))) by (intro; apply fwd_kids, Forall_map, Forall_forall; intros; apply den_fwd).
  induction n using node_ind'; intros inj F O; cbn [optok] in O; cbn [optimize].
  - apply oeq_ext. intro c. cbn [Den.den]. destruct t; try reflexivity; cbn [Den.den]; rewrite ?tset_optimize.
    cbn [term_optimize]. destruct (term_kind tok) eqn:E; cbn; rewrite ?E; reflexivity.
  - destruct cs as [|c [|c2 cs]].
    + apply oeq_refl.
    + inversion H as [|? ? Hc _]; subst. cbn [Den.den map kidso alts]. now apply Hc.
    + change (oeq F (kidso (map den (c :: c2 :: cs))) (kidso (map den (map (fun c => optimize c []) (c :: c2 :: cs))))). now apply KF.
  - destruct cs as [|c cs].
    + cbn [Den.den map kidso]. eapply oeq_trans; [apply oeq_ext, seq_eps_r|]. now apply IHn.
    + apply andb_true_iff in O as [O1 O2]. cbn [Den.den]. eapply oeq_seq; [apply den_fwd|apply IHn; exact O1| |now apply KF].
      intros K HK. now apply folk_ok.
  - apply andb_true_iff in O as [O2 O].
    destruct (adm_empty _).
    + cbn [Den.den]. eapply oeq_seq; [apply fwd_rep, den_fwd| | |now apply KF].
      * apply orb_true_iff in O as [O|O]; apply andb_true_iff in O as [O1 O3].
        { eapply oeq_trans; [apply rep_greedy_poss; exact O3|]. apply rep_eq_po; [intro; apply IHn|exact O1]. }
        { eapply oeq_trans; [apply (rep_eq _ Gr _ _ n); [intro; apply IHn|exact O1|discriminate]|]. apply rep_greedy_poss. exact O3. }
      * intros K HK. now apply folk_ok.
    + cbn [Den.den]. eapply oeq_seq; [apply fwd_rep, den_fwd| | |now apply KF].
      * apply (rep_eq _ Gr); [intro; apply IHn|exact O|discriminate].
      * intros K HK. now apply folk_ok.
  - apply andb_true_iff in O as [O2 O].
    destruct (adm_empty _).
    + cbn [Den.den]. eapply oeq_seq; [apply fwd_rep, den_fwd| | |now apply KF].
      * apply orb_true_iff in O as [O|O]; apply andb_true_iff in O as [O1 O3].
        { eapply oeq_trans; [apply rep_lazy_poss; exact O3|]. apply rep_eq_po; [intro; apply IHn|exact O1]. }
        { eapply oeq_trans; [apply (rep_eq _ Lz _ _ n); [intro; apply IHn|exact O1|discriminate]|]. apply rep_lazy_poss. exact O3. }
      * intros K HK. now apply folk_ok.
    + cbn [Den.den]. eapply oeq_seq; [apply fwd_rep, den_fwd| | |now apply KF].
      * apply (rep_eq _ Lz); [intro; apply IHn|exact O|discriminate].
      * intros K HK. now apply folk_ok.
  - apply andb_true_iff in O as [O1 O2]. cbn [Den.den]. eapply oeq_seq; [apply fwd_rep, den_fwd| | |now apply KF].
    + apply (rep_eq_po FAny); [intro; apply IHn|exact O1].
    + intros; exact I.
  - apply andb_true_iff in O as [O1 O2]. cbn [Den.den]. eapply oeq_seq; [apply fwd_pow, den_fwd| | |now apply KF].
    + apply pow_eq0; [intro; apply IHn|exact O1].
    + intros K HK. now apply folk_ok.
  - apply andb_true_iff in O as [O1 O2]. cbn [Den.den].
    eapply oeq_seq; [apply fwd_cap, den_fwd|apply oeq_cap; apply IHn; exact O1| |now apply KF].
    intros K HK. now apply folk_ok.
  - cbn [Den.den]. apply oeq_any, any_not. now apply IHn.
Qed.
Theorem optimize_first n i : optok n [] FTot = true -> i <= length w ->
  hd_error (den (optimize n []) (i, [])) = hd_error (den n (i, [])).
Proof. intros O L. symmetry. apply (oeq_hd FTot); [intro c; discriminate|now apply opt_ok|exact L]. Qed.
End Opt.
