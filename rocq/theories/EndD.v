(** Patterns with [$] at the end of every branch: their tree, and what the search finds. *)
From Coq Require Import ZArith NArith List Bool Lia ZifyBool ZifyNat ZifyN.
From Verif Require Import Base Text TextSpec TextProofs Ast Builder Engine Api Spec SpecProofs SpecEnd Tree ParseProofs Den Checker CheckerProofs AstProofs BuilderProofs EngineRel EngineProofs EngineOk EngineGood EngineMain OptProofs ApiProofs Runs Scan Supported Main Captures Mono Find Sound Anchor End.
Import ListNotations.
Open Scope nat_scope.

(** ** Trees *)
Fixpoint tree_sq_d (s : sq) : node :=
  match s with
  | SNil => Simple (Term TEnd) []
  | SCons a q s' => followed (tree_quant q (tree_atom a)) (Some (tree_sq_d s'))
  end.
Definition tree_br_d (b : br) : node :=
  match b with
  | Br true s => followed (Simple (Term TStart) []) (Some (tree_sq_d s))
  | Br false s => tree_sq_d s
  end.
Fixpoint tree_bs_d (r : rx) : list node :=
  match r with
  | ROne b => [tree_br_d b]
  | ROr b r' => tree_br_d b :: tree_bs_d r'
  end.
Definition tree_d (r : rx) : node := SimpleV (tree_bs_d r).
Definition ctree_d (r : rx) : node := optimize (tree_d (renumber r)) [].

Lemma pushed_d last n : last_ok last -> pushed last (Some n) = Some (match last with None => n | Some v => followed v (Some n) end).
Proof. intros L. destruct last as [v|]; [|reflexivity]. destruct v; cbn in *; try tauto; reflexivity. Qed.
Lemma helper_d s : wf_sq s = true -> forall f g last, last_ok last -> (length (toks_sq s ++ [[c_dollar]]) < f)%nat ->
  helper f last (toks_sq s ++ [[c_dollar]]) g
  = Some (match last with None => tree_sq_d (renumber_sq s g) | Some u => followed u (Some (tree_sq_d (renumber_sq s g))) end).
Proof.
  induction s as [|a q s IH]; intros W f g last L Hf.
  - cbn [toks_sq app renumber_sq tree_sq_d] in *. destruct f as [|[|f]]; [cbn in Hf; lia ..|].
    change (helper (S (S f)) last [[c_dollar]] g) with (pushed last (Some (Simple (Term TEnd) []))). now apply pushed_d.
  - cbn [wf_sq toks_sq] in *. rewrite !andb_true_iff in W. destruct W as [[A B] C]. destruct f as [|f]; [lia|]. rewrite <- !app_assoc in *.
    rewrite (proj2 (proj2 (proj2 helper_all)) a A f g last _ L Hf).
    assert (Hf2 : (length (toks_quant q ++ toks_sq s ++ [[c_dollar]]) < f)%nat).
    { destruct (atom_start a [] A) as (t & tl & E & _). rewrite app_nil_r in E. rewrite E in Hf. rewrite !app_length in *. cbn in Hf. cbn. lia. }
    assert (ST : startok (toks_sq s ++ [[c_dollar]])) by (pose proof (sq_start s C) as X; destruct (toks_sq s); [split; reflexivity|exact X]).
    destruct (helper_quant q (tree_atom (renumber_atom a g)) (toks_sq s ++ [[c_dollar]]) (after_gi a g) f B ST Hf2) as (f' & Hf' & ->).
    rewrite (IH C f' (after_gi a g) (Some (tree_quant q (tree_atom (renumber_atom a g)))) (unit_tree_quant q _ (unit_tree_atom (renumber_atom a g))) Hf').
    rewrite pushed_d by exact L. cbn [renumber_sq tree_sq_d]. unfold after_gi. reflexivity.
Qed.
Lemma helper_br_d b : wf_br b = true -> forall g, helper (S (length (toks_br b ++ [[c_dollar]]))) None (toks_br b ++ [[c_dollar]]) g = Some (tree_br_d (renumber_br b g)).
Proof.
  destruct b as [a s]. intros W g. assert (W' : wf_sq s = true) by (destruct s; [reflexivity|exact W]). cbn [toks_br]. destruct a; cbn [app].
  - cbn [length].
    change (helper (S (S (length (toks_sq s ++ [[c_dollar]])))) None ([c_caret] :: toks_sq s ++ [[c_dollar]]) g)
      with (helper (S (length (toks_sq s ++ [[c_dollar]]))) (Some (Simple (Term TStart) [])) (toks_sq s ++ [[c_dollar]]) g).
    rewrite helper_d; [reflexivity|exact W'|exact Logic.I|lia].
  - rewrite helper_d; [reflexivity|exact W'|exact Logic.I|lia].
Qed.
Lemma next_gi_d b : next_gi (tree_br_d b) = nx_br b.
Proof.
  assert (S : forall s, next_gi (tree_sq_d s) = nx_sq s).
  { induction s as [|a q s IH]; [reflexivity|]. cbn [tree_sq_d nx_sq].
    pose proof (proj2 (proj2 (proj2 next_gi_all)) a) as Ha.
    destruct q as [|k g].
    - destruct a as [x|i r|r]; cbn [tree_quant].
      + rewrite next_gi_followed by (apply unit_tree_atom). rewrite Ha, IH. cbn [nx_atom tree_atom]. destruct x as [| | |[]| |]; reflexivity.
      + cbn [tree_atom followed]. cbn [next_gi]. reflexivity.
      + rewrite next_gi_followed by (apply unit_tree_atom). rewrite Ha, IH. reflexivity.
    - rewrite next_gi_followed by (apply unit_tree_quant, unit_tree_atom). rewrite IH.
      assert (Q : next_gi (tree_quant (QQ k g) (tree_atom a)) = next_gi (tree_atom a)).
      { destruct k, g; cbn; lia. }
      rewrite Q, Ha. destruct k, g, a as [x|i r|r]; reflexivity. }
  destruct b as [[] s]; cbn [tree_br_d nx_br]; [|apply S]. rewrite next_gi_followed by exact Logic.I. rewrite S. reflexivity.
Qed.
Lemma build_d r : wf r = true -> forall g, build_branches (branches_d r) g = Some (tree_bs_d (renumber_in false r g)).
Proof.
  induction r as [b|b r IH]; cbn [wf branches_d build_branches renumber_in tree_bs_d]; intros H g.
  - rewrite helper_br_d by exact H. reflexivity.
  - apply andb_true_iff in H as [A B]. rewrite helper_br_d by exact A. rewrite next_gi_d, IH by exact B. reflexivity.
Qed.
Lemma parse_d r : wf r = true -> parse (show_d r) = Some (tree_d (renumber r)).
Proof.
  intro H. unfold parse. rewrite (proj2 (lex_iff _ _) (lx_lexed _ _ (lx_d r H))). unfold build. rewrite (split_d r H).
  rewrite build_d by exact H. reflexivity.
Qed.
Lemma compile_d r : wf r = true -> compile (show_d r) = Some (ctree_d r).
Proof. intro H. rewrite compile_eq, (parse_d r H). reflexivity. Qed.

(** ** Meaning *)
(** [$] matches at [k] and leaves the text at [j]: at the end of the text, or it takes a line
    feed. *)
Definition line_end (w : str) (k j : nat) : Prop := (k = length w /\ j = k) \/ (nth_error w k = Some c_nl /\ j = S k).
(** The ways to match r followed by $, in priority order; the first one. *)
Definition sem_d (w : str) (r : rx) : outs := seq_o (sem w r) (eol_o w).
Definition match_at_d (w : str) (r : rx) (i : nat) : option (nat * list (nat * (nat * nat))) := hd_error (sem_d w r (i, [])).
Lemma eol_in w c c' : fst c <= length w -> (In c' (eol_o w c) <-> line_end w (fst c) (fst c') /\ snd c' = snd c).
Proof.
  intro L. unfold eol_o, line_end. destruct (Nat.eqb_spec (fst c) (length w)) as [E|E].
  - split.
    + intros [<-|[]]. auto.
    + intros [[[_ A]|[A _]] B].
      * left. destruct c, c'; cbn in *; congruence.
      * assert (fst c < length w) by (apply nth_error_Some; congruence). lia.
  - unfold chr_o. destruct (nth_error w (fst c)) as [x|] eqn:X; [|apply nth_error_None in X; lia].
    destruct (Z.eqb_spec c_nl x) as [<-|N].
    + split.
      * intros [<-|[]]. cbn. auto.
      * intros [[[A _]|[_ A]] B]; [lia|]. left. destruct c'; cbn in *; congruence.
    + split; [intros []|]. intros [[[A _]|[A _]] B]; [lia|congruence].
Qed.
Section Dn.
Variable w : str.
Notation den := (den w).
Lemma seq_assoc (a b d : outs) c : seq_o (seq_o a b) d c = seq_o a (seq_o b d) c.
Proof. unfold seq_o. now rewrite flat_map_flat_map. Qed.
Lemma den_sq_d s : wf_sq s = true -> eqv (den (tree_sq_d s)) (seq_o (sem_sq w s) (eol_o w)).
Proof.
  induction s as [|a q s IH]; intro W.
  - cbn [tree_sq_d Den.den map kidso sem_sq]. eapply eqv_trans; [apply eqv_seq_eps|]. apply eqv_ext. intro c. unfold seq_o, eps_o. cbn. now rewrite app_nil_r.
  - cbn [wf_sq] in W. rewrite !andb_true_iff in W. destruct W as [[A B] C]. cbn [tree_sq_d sem_sq].
    eapply eqv_trans; [apply den_followed, childless_quant, childless_atom|]. cbn [opt_den].
    eapply eqv_trans; [|apply eqv_ext; intro c; symmetry; apply seq_assoc].
    apply eqv_seq; [|now apply IH].
    eapply eqv_trans; [apply den_quant; [exact B|apply childless_atom]|].
    destruct q; cbn [quant_o]; [now apply den_all|]. apply eqv_rep. now apply den_all.
Qed.
Lemma den_br_d b : wf_br b = true -> eqv (den (tree_br_d b)) (seq_o (sem_br w b) (eol_o w)).
Proof.
  destruct b as [a s]. intro W. assert (W' : wf_sq s = true) by (destruct s; [reflexivity|exact W]). destruct a; cbn [tree_br_d sem_br]; [|now apply den_sq_d].
  eapply eqv_trans; [apply den_followed; reflexivity|]. eapply eqv_trans; [|apply eqv_ext; intro c; symmetry; apply seq_assoc].
  apply eqv_seq; [|now apply den_sq_d]. cbn [Den.den map kidso]. apply eqv_seq_eps.
Qed.
Lemma den_d r : wf r = true -> eqv (den (tree_d r)) (sem_d w r).
Proof.
  unfold tree_d, sem_d. cbn [Den.den]. induction r as [b|b r IH]; cbn [wf tree_bs_d sem map kidso]; intro W.
  - now apply den_br_d.
  - apply andb_true_iff in W as [A B]. rewrite alts_cons by (destruct r; discriminate).
    eapply eqv_trans; [|apply eqv_ext; intro c; unfold seq_o, or_o; symmetry; apply flat_map_app].
    change (fun c => flat_map (eol_o w) (sem_br w b c) ++ flat_map (eol_o w) (sem w r c)) with (or_o (seq_o (sem_br w b) (eol_o w)) (seq_o (sem w r) (eol_o w))).
    apply eqv_or; [now apply den_br_d|]. specialize (IH B). destruct r; exact IH.
Qed.
Lemma renumber_d r i : option_map fst (match_at_d w (renumber r) i) = option_map fst (match_at_d w r i).
Proof.
  unfold match_at_d, sem_d, seq_o. pose proof (proj1 (renumber_peq w) r false 0 (i, []) (i, []) eq_refl) as H. fold (renumber r) in H.
  assert (P : peq (eol_o w) (eol_o w)).
  { intros c c' E. unfold eol_o. rewrite E. destruct (Nat.eqb _ _); [cbn; now rewrite E|]. apply peq_chr, E. }
  pose proof (peq_flat _ _ _ _ P H) as F. destruct (flat_map _ _), (flat_map _ _); try discriminate; [reflexivity|]. cbn in *. congruence.
Qed.
(** The chosen way is a match of r up to a line end; and there is one if r matches up to one. *)
Lemma match_d_lang r i j l : wf r = true -> i <= length w -> match_at_d w r i = Some (j, l) -> exists k, lang w r i k /\ line_end w k j /\ In (k, l) (sem w r (i, [])).
Proof.
  intros W L M. apply hd_some_in in M. unfold sem_d, seq_o in M. apply in_flat_map in M as (c & A & B).
  pose proof (sem_sound w r (i, []) c W A) as S. cbn in S. pose proof (lang_forward w r i (fst c) S L) as F.
  apply eol_in in B as [B1 B2]; [|lia]. cbn in B1, B2. exists (fst c). conj; auto. destruct c; cbn in *. congruence.
Qed.
Lemma match_d_none r i : nopos r = true -> i <= length w -> match_at_d w r i = None -> forall k j, lang w r i k -> ~ line_end w k j.
Proof.
  intros N L M k j Hl He. destruct (sem_complete w r i k [] N Hl L) as (l & Hin). apply hd_none in M.
  assert (X : In (j, l) (sem_d w r (i, []))).
  { unfold sem_d, seq_o. apply in_flat_map. exists (k, l). split; [exact Hin|]. apply eol_in; [|now split].
    pose proof (lang_forward w r i k Hl L). cbn. lia. }
  rewrite M in X. exact X.
Qed.
End Dn.

(** ** Patterns matched as specified *)
Definition exact_d (r : rx) : bool :=
  wf r && (let n := ctree_d r in
           optok (tree_d (renumber r)) [] FTot && good (ngroups n) true n PFst && accins n && opt_small n).
Definition supported_d (r : rx) : bool :=
  wf r && (let n := ctree_d r in
           optok (tree_d (renumber r)) [] FTot && good (ngroups n) true n PFst && accins n && (clean n PFst || runroot n || countroot n)).
Section Res.
Variables (r : rx) (pre w post : str).
Notation e := (env_of pre w post).
Notation n := (ctree_d r).
Notation at_ := (EngineOk.at_ pre).
Hypothesis Hq : query_ok w.
Hypothesis Hp : exists c p, post = c :: p /\ c <> c_nl.
Definition base_d : bool := wf r && optok (tree_d (renumber r)) [] FTot && good (ngroups n) true n PFst && accins n.
Lemma exact_d_parts : exact_d r = true -> base_d = true /\ opt_small n = true.
Proof. unfold exact_d, base_d. rewrite !andb_true_iff. tauto. Qed.
Lemma supported_d_parts : supported_d r = true -> base_d = true /\ clean n PFst || runroot n || countroot n = true.
Proof. unfold supported_d, base_d. rewrite !andb_true_iff. tauto. Qed.
Hypothesis Hb : base_d = true.
Lemma base_wf : wf r = true.
Proof. unfold base_d in Hb. rewrite !andb_true_iff in Hb. tauto. Qed.
Lemma d_den i : i <= length w -> hd_error (den w n (i, [])) = match_at_d w (renumber r) i.
Proof.
  intro Hi. unfold ctree_d. pose proof Hb as H. unfold base_d in H. rewrite !andb_true_iff in H. destruct H as (((W & O) & _) & _).
  rewrite (optimize_first w (q_chars w Hq) _ _ O Hi). unfold match_at_d. apply eqv_hd. apply den_d.
  unfold renumber. rewrite (proj1 renumber_wf). exact W.
Qed.
Lemma d_pos i : i <= length w -> option_map fst (hd_error (den w n (i, []))) = option_map fst (match_at_d w r i).
Proof. intro Hi. rewrite d_den by exact Hi. apply renumber_d. Qed.
Lemma groups_d : ngroups n = length (caps r).
Proof.
  assert (S : forall s, length (gidx (tree_sq_d s)) = length (caps_sq s)).
  { induction s as [|a q s IH]; [reflexivity|]. cbn [tree_sq_d caps_sq]. pose proof (ngroups_tree (ROne (Br false (SCons a q SNil)))) as X.
    rewrite ngroups_gidx in X. cbn [tree tree_bs tree_br tree_sq followed gidx flat_map caps caps_br caps_sq] in X. rewrite !app_nil_r in X.
    assert (F : forall u c, childless u -> length (gidx (followed u (Some c))) = length (gidx u) + length (gidx c)).
    { intros u c H. destruct u; cbn in H; try contradiction; subst; cbn; rewrite ?app_nil_r, ?app_length; cbn; lia. }
    rewrite F by apply childless_quant, childless_atom. rewrite app_length, IH. lia. }
  assert (B : forall b, length (gidx (tree_br_d b)) = length (caps_br b)) by (intros [[] s]; cbn [tree_br_d caps_br followed gidx flat_map app]; rewrite ?app_nil_r; apply S).
  unfold ctree_d. rewrite optimize_ngroups, ngroups_gidx. unfold tree_d. cbn [gidx].
  rewrite <- (proj1 caps_length r false 0). fold (renumber r). induction (renumber r) as [b|b r' IH]; cbn [tree_bs_d flat_map caps].
  - rewrite app_nil_r. apply B.
  - rewrite !app_length, B. f_equal. exact IH.
Qed.
(** What an accepted result shows: a match of r from its start to a line end, the first in
    priority order, and its captures. *)
Definition d_result (s : st) (i : nat) : Prop :=
  (is_accepted s = true -> exists p j l, to_view s = Some (place pre p j) /\ s_end s = at_ j /\ i <= p <= j /\ j <= length w
     /\ match_at_d w r p = Some (j, l)
     /\ (nats_eqb (caps (renumber r)) (caps r) && gex n && covers r = true -> shows_captures pre (length (caps r)) s (Some (p, (j, l)))))
  /\ (exists q, s_end s = at_ q /\ i <= q <= S (length w) /\ (s_acc s = false -> length w <= q)).
Lemma d_slots i j l : covers r = true -> i <= length w -> match_at_d w r i = Some (j, l) -> forall k, k < length (caps r) -> slot k l <> None.
Proof.
  intros C L M k Hk. destruct (match_d_lang w r i j l base_wf L M) as (m & _ & _ & IN).
  refine (proj1 (proj1 (fills_sure w) r (i, []) (m, l) IN) k _). unfold covers in C. rewrite forallb_forall in C.
  specialize (C k). rewrite in_seq in C. specialize (C ltac:(lia)). apply existsb_exists in C as (y & Hy & Q). apply Nat.eqb_eq in Q. rewrite Q. exact Hy.
Qed.
Lemma d_any o i : anyf pre w n o i -> exists s, o = RDone s /\ d_result s i.
Proof.
  intros (p & j & g & b & -> & Lg & B & T & F). eexists. split; [reflexivity|]. unfold d_result, is_accepted, to_view, is_accepted, EngineOk.mk. cbn [s_acc s_start s_end].
  split.
  - intros ->. destruct (T eq_refl) as (Bj & d & D & X). rewrite d_den in D by lia.
    pose proof (renumber_d w r p) as MR. rewrite D in MR. cbn in MR.
    destruct (match_at_d w r p) as [[j2 l]|] eqn:M; [|discriminate]. cbn in MR. injection MR as <-.
    exists p, j, l. conj; auto; try lia.
    + unfold place. now rewrite !at_place.
    + rewrite !andb_true_iff. intros [[C1 C2] C3]. apply nats_eqb_eq in C1. pose proof (proj1 caps_eq r false 0 C1) as RE. fold (renumber r) in RE.
      rewrite RE, M in D. injection D as <-. destruct (X C2) as (g0 & L0 & ->). intros k Hk. rewrite groups_d in L0.
      cbn [get_group s_grp]. rewrite nth_upd by lia. destruct (slot k l) as [[a c]|] eqn:SL; [reflexivity|].
      exfalso. exact (d_slots p j l C3 ltac:(lia) M k Hk SL).
  - exists j. destruct b.
    + destruct (T eq_refl) as [Bj _]. conj; auto; try lia; try discriminate.
    + destruct (F eq_refl). conj; auto; lia.
Qed.
Lemma Hne : post <> [].
Proof. destruct Hp as (c & p & -> & _). discriminate. Qed.
Lemma create_d fuel : opt_small n = true -> length w < fuel -> exists s, create fuel e n = RDone s /\ d_result s 0
  /\ (forall j l, match_at_d w r 0 = Some (j, l) -> to_view s = Some (place pre 0 j)).
Proof.
  intros O Hf. pose proof Hb as H. unfold base_d in H. rewrite !andb_true_iff in H. destruct H as (((_ & _) & Gd) & A).
  destruct (create_any pre w post n true (fun _ => Hp) (q_chars w Hq) (q_len w Hq) Gd A O Hne fuel Hf) as [X Y].
  destruct (d_any _ _ X) as (s & E & R). exists s. conj; auto. intros j l M.
  pose proof (d_pos 0 ltac:(lia)) as MR. rewrite M in MR. destruct (hd_error (den w n (0, []))) as [[j2 d]|] eqn:M2; [|discriminate].
  cbn in MR. injection MR as ->. destruct (Y j d eq_refl) as (g & E2 & _). rewrite E in E2. injection E2 as ->.
  unfold to_view, EngineOk.mk, is_accepted. cbn [s_acc s_start s_end]. unfold place. now rewrite !at_place.
Qed.
Lemma reach_d s : opt_small n = true -> reach e n s -> d_result s 0.
Proof.
  intros O. pose proof Hb as HB. unfold base_d in HB. rewrite !andb_true_iff in HB. destruct HB as (((_ & _) & Gd) & A).
  induction 1 as [fuel s H|fuel s s' _ IH H].
  - destruct (create_d (S (length w)) O (Nat.lt_succ_diag_r _)) as (s2 & E2 & X & _).
    apply (create_more _ _ _ (fuel + S (length w))) in H; [|lia]. apply (create_more _ _ _ (fuel + S (length w))) in E2; [|lia].
    rewrite H in E2. injection E2 as <-. exact X.
  - destruct IH as [_ (q & E & B & _)].
    destruct (d_any _ _ (next_any pre w post n true (fun _ => Hp) (q_chars w Hq) (q_len w Hq) Gd A O Hne (S (length w)) s q E ltac:(lia) ltac:(lia))) as (s2 & E2 & [X (q2 & Y)]).
    apply (next_more _ _ _ (fuel + S (length w))) in H; [|lia]. apply (next_more _ _ _ (fuel + S (length w))) in E2; [|lia].
    rewrite H in E2. injection E2 as <-. split.
    + intro Ac. destruct (X Ac) as (p & j & l & Z). exists p, j, l. intuition.
    + exists q2. intuition.
Qed.
(** The search of the compiled tree looks at every position before the end of the text. *)
Lemma dsr_spec k : forall i, i + k <= S (length w) ->
  match dsr w n k i with
  | Some (p, (j, _)) => i <= p < i + k /\ option_map fst (match_at_d w r p) = Some j /\ forall q, i <= q < p -> match_at_d w r q = None
  | None => forall q, i <= q < i + k -> match_at_d w r q = None
  end.
Proof.
  induction k as [|k IH]; intros i Hi; cbn [dsr]; [intros; lia|]. pose proof (d_pos i ltac:(lia)) as P.
  destruct (hd_error (den w n (i, []))) as [[j d]|].
  - cbn in P. conj; auto; try lia.
  - cbn in P. assert (N : match_at_d w r i = None) by (destruct (match_at_d w r i); [discriminate|reflexivity]).
    specialize (IH (S i) ltac:(lia)). destruct (dsr w n k (S i)) as [[p [j d]]|].
    + destruct IH as (A & B & C). conj; auto; try lia. intros q Hq'. destruct (Nat.eq_dec q i) as [->|]; [exact N|]. apply C. lia.
    + intros q Hq'. destruct (Nat.eq_dec q i) as [->|]; [exact N|]. apply IH. lia.
Qed.
Lemma search_d fuel : clean n PFst || runroot n || countroot n = true -> length w < fuel ->
  exists s, create fuel e n = RDone s
  /\ ((exists p j, to_view s = Some (place pre p j) /\ (p < length w \/ p = 0) /\ option_map fst (match_at_d w r p) = Some j
        /\ forall q, q < p -> match_at_d w r q = None)
      \/ (to_view s = None /\ forall q, q < length w \/ q = 0 -> match_at_d w r q = None)).
Proof.
  intros C Hf. pose proof Hb as H. unfold base_d in H. rewrite !andb_true_iff in H. destruct H as (((_ & _) & Gd) & A).
  assert (SK : skips pre w post (ngroups n) n).
  { apply orb_true_iff in C as [C|C]; [apply orb_true_iff in C as [C|C]|].
    - apply (clean_skips _ _ _ _ true); auto using q_chars, q_len.
    - apply (run_skip _ _ _ _ true); auto using q_chars, q_len.
    - apply (count_skip _ _ _ _ true); auto using q_chars, q_len. }
  pose proof (create_ok pre w post n true (fun _ => Hp) (q_chars w Hq) (q_len w Hq) Gd A SK (or_introl Hne) fuel Hf) as F. unfold found in F.
  pose proof (dsr_spec (Nat.max 1 (length w)) 0 ltac:(lia)) as D. destruct (dsr w n (Nat.max 1 (length w)) 0) as [[p [j d]]|].
  - destruct F as (B1 & B2 & g & E & _). eexists. split; [exact E|]. left. exists p, j. destruct D as (D1 & D2 & D3).
    unfold to_view, EngineOk.mk, is_accepted. cbn [s_acc s_start s_end]. unfold place. rewrite !at_place. conj; auto; try lia. intros q Hq'. apply D3. lia.
  - destruct F as (k & g & E & _). eexists. split; [exact E|]. right. split; [reflexivity|]. intros q Hq'. apply D. lia.
Qed.
End Res.
