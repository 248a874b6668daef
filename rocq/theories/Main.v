(** Supported patterns: the public API computes what Spec.v says. *)
From Coq Require Import ZArith NArith List Bool Lia ZifyBool ZifyNat ZifyN.
From Verif Require Import Base Text Ast Builder Engine Api Spec SpecProofs Tree ParseProofs Den Checker CheckerProofs AstProofs BuilderProofs EngineRel EngineProofs EngineOk EngineGood EngineMain OptProofs ApiProofs Runs Scan Supported.
Import ListNotations.
Open Scope nat_scope.

(** ** The numbering of the slots does not matter for the positions *)
Definition peq (a b : outs) : Prop := forall c c', fst c = fst c' -> map fst (a c) = map fst (b c').
Lemma peq_flat (a b : outs) l l' : peq a b -> map fst l = map fst l' -> map fst (flat_map a l) = map fst (flat_map b l').
Proof.
  intro H. revert l'. induction l as [|x l IH]; intros [|y l'] E; try discriminate; [reflexivity|].
  cbn in *. injection E as E1 E2. rewrite !map_app, (H x y E1). f_equal. now apply IH.
Qed.
Section P.
Variable w : str.
Lemma peq_seq a a' b b' : peq a a' -> peq b b' -> peq (seq_o a b) (seq_o a' b').
Proof. intros H1 H2 c c' E. unfold seq_o. apply peq_flat; auto. Qed.
Lemma peq_or a a' b b' : peq a a' -> peq b b' -> peq (or_o a b) (or_o a' b').
Proof. intros H1 H2 c c' E. unfold or_o. rewrite !map_app. f_equal; auto. Qed.
Lemma peq_chr P : peq (chr_o w P) (chr_o w P).
Proof. intros c c' E. unfold chr_o. rewrite E. destruct (nth_error w (fst c')) as [x|]; [|reflexivity]. destruct (P x); reflexivity. Qed.
Lemma peq_eps : peq eps_o eps_o.
Proof. intros c c' E. cbn. now rewrite E. Qed.
Lemma peq_bol : peq bol_o bol_o.
Proof. intros c c' E. unfold bol_o. rewrite E. destruct (Nat.eqb _ _); [|reflexivity]. cbn. now rewrite E. Qed.
Lemma peq_cap i j a a' : peq a a' -> peq (cap_o i a) (cap_o j a').
Proof. intros H c c' E. unfold cap_o. rewrite !map_map. cbn. apply (H c c' E). Qed.
Lemma peq_pow n a a' : peq a a' -> peq (pow_o n a) (pow_o n a').
Proof. intro H. induction n; cbn; [apply peq_eps|now apply peq_seq]. Qed.
Lemma peq_progress c c' l l' : fst c = fst c' -> map fst l = map fst l' -> map fst (progress c l) = map fst (progress c' l').
Proof.
  intro E. unfold progress. rewrite E. clear E c. revert l'. induction l as [|x l IH]; intros [|y l'] H; try discriminate; [reflexivity|].
  cbn in *. injection H as H1 H2. rewrite H1. destruct (negb _); cbn; [rewrite H1; f_equal|]; now apply IH.
Qed.
Lemma peq_most n a a' : peq a a' -> peq (most_o n a) (most_o n a').
Proof.
  intro H. induction n as [|n IH]; intros c c' E; cbn [most_o]; [cbn; now rewrite E|].
  rewrite !map_app. f_equal; [|cbn; now rewrite E]. apply peq_flat; [exact IH|]. apply peq_progress; auto.
Qed.
Lemma peq_least n a a' : peq a a' -> peq (least_o n a) (least_o n a').
Proof.
  intro H. induction n as [|n IH]; intros c c' E; cbn [least_o]; [cbn; now rewrite E|].
  cbn [map]. f_equal; [exact E|]. apply peq_flat; [exact IH|]. apply peq_progress; auto.
Qed.
Lemma peq_atomic a a' : peq a a' -> peq (atomic_o a) (atomic_o a').
Proof. intros H c c' E. unfold atomic_o. rewrite <- !firstn_map. f_equal. auto. Qed.
Lemma peq_rep g mn mx a a' : peq a a' -> peq (rep_o w g mn mx a) (rep_o w g mn mx a').
Proof.
  intro H. destruct g; cbn [rep_o]; [| |apply peq_atomic]; apply peq_seq; auto using peq_pow, peq_most, peq_least.
Qed.
Lemma peq_quant q a a' : peq a a' -> peq (quant_o w q a) (quant_o w q a').
Proof. intro H. destruct q; [exact H|now apply peq_rep]. Qed.
Lemma renumber_peq :
  (forall r i g, peq (sem w (renumber_in i r g)) (sem w r)) /\
  (forall b g, peq (sem_br w (renumber_br b g)) (sem_br w b)) /\
  (forall s g, peq (sem_sq w (renumber_sq s g)) (sem_sq w s)) /\
  (forall a g, peq (sem_atom w (renumber_atom a g)) (sem_atom w a)).
Proof.
  apply rx_all_ind; cbn; intros; auto using peq_or, peq_eps, peq_seq, peq_quant, peq_chr, peq_cap.
  destruct anchored; auto using peq_seq, peq_bol.
Qed.
Lemma renumber_wf :
  (forall r i g, wf (renumber_in i r g) = wf r) /\
  (forall b g, wf_br (renumber_br b g) = wf_br b) /\
  (forall s g, wf_sq (renumber_sq s g) = wf_sq s /\ (renumber_sq s g = SNil <-> s = SNil)) /\
  (forall a g, wf_atom (renumber_atom a g) = wf_atom a).
Proof.
  apply rx_all_ind; cbn; intros; auto.
  - now rewrite H, H0.
  - destruct (H g) as [H1 H2]. destruct s; cbn in *; [reflexivity|]. exact H1.
  - split; [reflexivity|tauto].
  - destruct (H0 (after_atom (renumber_atom a g) g)) as [H1 _]. rewrite H, H1. split; [reflexivity|]. split; discriminate.
Qed.
Definition pos (o : option (nat * list (nat * (nat * nat)))) : option nat := option_map fst o.
Lemma match_at_renumber r i : pos (match_at w (renumber r) i) = pos (match_at w r i).
Proof.
  unfold match_at, renumber. pose proof (proj1 renumber_peq r false 0 (i, []) (i, []) eq_refl) as H.
  destruct (sem w (renumber_in false r 0) (i, [])), (sem w r (i, [])); try discriminate; [reflexivity|].
  cbn in *. injection H as -> _. reflexivity.
Qed.
(** What a search reports, without the captures. *)
Definition spans (o : option (nat * (nat * list (nat * (nat * nat))))) : option (nat * nat) :=
  option_map (fun x => (fst x, fst (snd x))) o.
Lemma search_from_renumber r k : forall i, spans (search_from w (renumber r) k i) = spans (search_from w r k i).
Proof.
  induction k as [|k IH]; intro i; [reflexivity|]. cbn [search_from]. pose proof (match_at_renumber r i) as H.
  destruct (match_at w (renumber r) i) as [[]|], (match_at w r i) as [[]|]; try discriminate; [|apply IH].
  cbn in *. congruence.
Qed.
End P.

Lemma caps_length :
  (forall r i g, length (caps (renumber_in i r g)) = length (caps r)) /\
  (forall b g, length (caps_br (renumber_br b g)) = length (caps_br b)) /\
  (forall s g, length (caps_sq (renumber_sq s g)) = length (caps_sq s)) /\
  (forall a g, length (caps_atom (renumber_atom a g)) = length (caps_atom a)).
Proof. apply rx_all_ind; cbn; intros; rewrite ?app_length; auto. all: now rewrite H, H0. Qed.
Lemma caps_eq :
  (forall r i g, caps (renumber_in i r g) = caps r -> renumber_in i r g = r) /\
  (forall b g, caps_br (renumber_br b g) = caps_br b -> renumber_br b g = b) /\
  (forall s g, caps_sq (renumber_sq s g) = caps_sq s -> renumber_sq s g = s) /\
  (forall a g, caps_atom (renumber_atom a g) = caps_atom a -> renumber_atom a g = a).
Proof.
  assert (S : forall (a a' b b' : list nat), length a = length a' -> a ++ b = a' ++ b' -> a = a' /\ b = b').
  { induction a as [|x a IH]; intros [|y a'] b b' L E; try discriminate; auto. cbn in *. injection E as -> E.
    destruct (IH a' b b' ltac:(lia) E) as [-> ->]. auto. }
  apply rx_all_ind; cbn; intros.
  - f_equal; auto.
  - apply S in H1 as [A B]; [|apply caps_length]. rewrite (H _ A) in *. f_equal. now apply H0.
  - f_equal; auto.
  - reflexivity.
  - apply S in H1 as [A B]; [|apply caps_length]. rewrite (H _ A) in *. f_equal. now apply H0.
  - reflexivity.
  - injection H0 as -> E. f_equal. now apply H.
  - f_equal. now apply H.
Qed.
Lemma nats_eqb_eq a : forall b, nats_eqb a b = true -> a = b.
Proof.
  induction a as [|x a IH]; intros [|y b] H; try discriminate; [reflexivity|]. cbn in H.
  apply andb_true_iff in H as [H1 H2]. apply Nat.eqb_eq in H1. f_equal; auto.
Qed.

(** ** The search of the compiled tree is the search of the specification *)
Section Main.
Variables (r : rx) (pre0 w post : str).
Notation e := (env_of pre0 w post).
Notation n := (ctree r).
Notation at_ := (at_ pre0).
Hypothesis Hs : supported r = true.
Hypothesis Hq : query_ok w.

Lemma sup_wf : wf r = true.
Proof. unfold supported in Hs. apply andb_true_iff in Hs. tauto. Qed.
Lemma q_chars : Forall (fun c => (-128 <= c <= 127)%Z) w.
Proof. clear Hs. destruct Hq as [H _]. rewrite forallb_forall in H. apply Forall_forall. intros c Hc. specialize (H c Hc). unfold is_char in H. lia. Qed.
Lemma q_len : (N.of_nat (length w) < UMAX)%N.
Proof. clear Hs. destruct Hq as [_ H]. unfold UMAX. lia. Qed.
Lemma sup_compile : compile (show r) = Some n.
Proof. rewrite compile_eq, (parse_show r sup_wf). reflexivity. Qed.
Lemma sup_den i : i <= length w -> hd_error (den w n (i, [])) = match_at w (renumber r) i.
Proof.
  intro Hi. unfold ctree. pose proof Hs as Hs'. unfold supported in Hs'. rewrite !andb_true_iff in Hs'. destruct Hs' as (W & (((O & _) & _) & _)).
  rewrite (optimize_first w q_chars _ _ O Hi). unfold match_at. apply eqv_hd. apply den_tree.
  unfold renumber. rewrite (proj1 renumber_wf). exact W.
Qed.
Lemma sup_dsr k : forall i, i + k <= S (length w) -> dsr w n k i = search_from w (renumber r) k i.
Proof.
  induction k as [|k IH]; intros i H; [reflexivity|]. cbn [dsr search_from]. rewrite sup_den by lia.
  destruct (match_at w (renumber r) i); [reflexivity|]. apply IH. lia.
Qed.
Lemma sup_skips : skips pre0 w post (ngroups n) n.
Proof.
  pose proof Hs as Hs'. unfold supported in Hs'. rewrite !andb_true_iff in Hs'. destruct Hs' as (W & (((O & Gd) & A) & C)).
  apply orb_true_iff in C as [C|C]; [apply orb_true_iff in C as [C|C]|].
  - apply (clean_skips _ _ _ _ false); auto using q_chars, q_len, no_end.
  - apply (run_skip _ _ _ _ false); auto using q_chars, q_len, no_end.
  - apply (count_skip _ _ _ _ false); auto using q_chars, q_len, no_end.
Qed.
Hypothesis Hp : post <> [] \/ clean n PFst = true.
Lemma sup_next fuel a i g b : i <= S (length w) -> length w < fuel + i ->
  found pre0 w n (next fuel e n (mk pre0 a i g b)) (length w - i) i (no_groups n).
Proof.
  pose proof sup_skips as SK.
  pose proof Hs as Hs'. unfold supported in Hs'. rewrite !andb_true_iff in Hs'. destruct Hs' as (W & (((O & Gd) & A) & C)).
  intros Hi Hf. apply (next_ok _ _ _ _ false); auto using q_chars, q_len, no_end.
Qed.
Lemma sup_create fuel : length w < fuel -> found pre0 w n (create fuel e n) (Nat.max 1 (length w)) 0 (no_groups n).
Proof.
  pose proof sup_skips as SK.
  pose proof Hs as Hs'. unfold supported in Hs'. rewrite !andb_true_iff in Hs'. destruct Hs' as (W & (((O & Gd) & A) & C)).
  intros Hf. apply (create_ok _ _ _ _ false); auto using q_chars, q_len, no_end.
Qed.
End Main.
