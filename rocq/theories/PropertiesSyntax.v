(** C09, C10, C15, C16: parsing, group count, optimisation, independence. *)
From Coq Require Import String ZArith NArith List Bool Lia ZifyBool ZifyNat ZifyN.
From Verif Require Import Heads Base Text Ast Builder Engine Api Spec SpecProofs SpecEnd Tree ParseProofs Den Checker CheckerProofs AstProofs BuilderProofs
  EngineOk EngineGood EngineMain OptProofs ApiProofs Runs Scan Supported Main Captures Mono Find Sound First Refuted PropertiesMatch.
Import ListNotations.
Open Scope nat_scope.

(** C09.  Every well-formed pattern is accepted by the parser; the tree has one node per
    construct of the syntax, nested as the syntax says (Tree.v); and it means what the pattern
    means: under any continuation K the first way to go on is the same as for the pattern
    (Spec.v).  The tree is that of the renumbered pattern: capture slots apart (C12). *)
Theorem C09_precedence : forall r, wf r = true ->
  parse (show r) = Some (tree (renumber r))
  /\ (forall (w : str) (K : outs) c, hd_error (flat_map K (den w (tree (renumber r)) c)) = hd_error (flat_map K (sem w (renumber r) c)))
  /\ (forall w c, map fst (sem w (renumber r) c) = map fst (sem w r c)).
Proof.
  intros r W. assert (W' : wf (renumber r) = true) by (unfold renumber; rewrite (proj1 renumber_wf); exact W). split; [now apply parse_show|]. split.
  - intros w K c. exact (den_tree w (renumber r) W' K Logic.I c).
  - intros w c. apply (proj1 (renumber_peq w) r false 0 c c eq_refl).
Qed.
Print Assumptions C09_precedence.
(** ... in particular the text determines the language: two readings of the same text agree. *)
Theorem C09_unambiguous : forall r r', wf r = true -> wf r' = true -> nopos r = true -> nopos r' = true -> show r = show r' ->
  forall w i j, i <= length w -> (lang w r i j <-> lang w r' i j).
Proof.
  assert (H : forall r r', wf r = true -> wf r' = true -> nopos r = true -> show r = show r' -> forall w i j, i <= length w -> lang w r i j -> lang w r' i j).
  { intros r r' W W' N E w i j Hi L. destruct (lang_den w r i j W N L Hi) as (l & I).
    destruct (C09_precedence r W) as (P & _). destruct (C09_precedence r' W') as (P' & D' & PE'). rewrite E, P' in P. assert (P2 : tree (renumber r) = tree (renumber r')) by congruence. rewrite P2 in I.
    set (K := fun c : nat * list (nat * (nat * nat)) => if Nat.eqb (fst c) j then [c] else []).
    specialize (D' w K (i, [])). destruct (flat_map K (den w (tree (renumber r')) (i, []))) as [|x xs] eqn:F.
    - exfalso. assert (X : In (j, l) (flat_map K (den w (tree (renumber r')) (i, [])))) by (apply in_flat_map; exists (j, l); split; [exact I|]; unfold K; cbn; rewrite Nat.eqb_refl; now left).
      rewrite F in X. destruct X.
    - destruct (flat_map K (sem w (renumber r') (i, []))) as [|y ys] eqn:F2; [discriminate|].
      assert (X : In y (flat_map K (sem w (renumber r') (i, [])))) by (rewrite F2; now left).
      apply in_flat_map in X as ((j2 & l2) & I3 & X). unfold K in X. cbn in X. destruct (Nat.eqb_spec j2 j) as [->|]; [|destruct X].
      assert (X2 : In j (map fst (sem w r' (i, [])))) by (rewrite <- PE'; apply in_map_iff; exists (j, l2); auto).
      apply in_map_iff in X2 as ((j3 & l3) & E3 & I4). cbn in E3. subst j3. exact (sem_sound w r' (i, []) (j, l3) W' I4). }
  intros r r' W W' N N' E w i j Hi. split; apply H; auto.
Qed.
Print Assumptions C09_unambiguous.
Example C09_case : exists r, wf r = true /\ nopos r = true /\ show r = S2L "^ab*?c|(d|[e-g]{2,3})+" /\ tree (renumber r) =
  SimpleV [Simple (Term TStart) [Simple (Term (TTerminal (S2L "a"))) [Lazy (Simple (Term (TTerminal (S2L "b"))) []) 0 UMAX [Simple (Term (TTerminal (S2L "c"))) []]]];
           Greedy (Group (SimpleV [Simple (Term (TTerminal (S2L "d"))) [];
                                   Greedy (Simple (SimpleV [Simple (Term (TRange 101 103)) []]) []) 2 3 []]) 0 []) 1 UMAX []].
Proof.
  exists (ROr (Br true (seqs [(lit "a", Q1); (lit "b", QQ QStar Lz); (lit "c", Q1)]))
     (pat [(ACap 0 (ROr (Br false (seqs [(lit "d", Q1)])) (pat [(AEl (EClass false [CRange 101 103]), QQ (QMinMax [2%Z] [3%Z]) Gr)])), plus)])).
  conj; vm_compute; reflexivity.
Qed.

(** C10.  groups() is the number of capturing parentheses of the pattern. *)
Theorem C10_groups : forall r n, wf r = true -> compile (show r) = Some n -> groups_of n = length (caps r).
Proof.
  intros r n W C. rewrite (compile_ctree r n W C). unfold groups_of, ctree. rewrite optimize_ngroups, ngroups_tree. unfold renumber. apply caps_length.
Qed.
Print Assumptions C10_groups.
Example C10_case : exists r n, wf r = true /\ show r = S2L "(a(?:b)(c))|\((d)" /\ compile (show r) = Some n /\ groups_of n = 3.
Proof.
  exists (ROr (Br false (seqs [(ACap 0 (pat [(lit "a", Q1); (ANon (pat [(lit "b", Q1)]), Q1); (ACap 1 (pat [(lit "c", Q1)]), Q1)]), Q1)]))
     (pat [(AEl (EEsc 40), Q1); (ACap 2 (pat [(lit "d", Q1)]), Q1)])), (node_of (S2L "(a(?:b)(c))|\((d)")).
  conj; vm_compute; reflexivity.
Qed.

(** C15.  Two programs in lockstep, one with the parsed and one with the optimised tree, the
    same calls in the same order. *)
Inductive lockstep (e : env) (n n' : node) : st -> st -> Prop :=
| LCreate f f' s s' : create f e n = RDone s -> create f' e n' = RDone s' -> lockstep e n n' s s'
| LNext f f' s s' t t' : lockstep e n n' s s' -> next f e n s = RDone t -> next f' e n' s' = RDone t' -> lockstep e n n' t t'.
(** Trees on which the matcher is a faithful backtracking search. *)
Definition faithful (n : node) : bool :=
  good (ngroups n) false n PFst && accins n && (clean n PFst || runroot n || countroot n).
Lemma faithful_skips pre w post n : query_ok w -> faithful n = true -> skips pre w post (ngroups n) n.
Proof.
  intros Q F. unfold faithful in F. rewrite !andb_true_iff, !orb_true_iff in F. destruct F as [[Gd A] [[C|C]|C]].
  - apply (clean_skips _ _ _ _ false); auto using q_chars, q_len, no_end.
  - apply (run_skip _ _ _ _ false); auto using q_chars, q_len, no_end.
  - apply (count_skip _ _ _ _ false); auto using q_chars, q_len, no_end.
Qed.
(** Either both accepted the same text, or both have run out. *)
Definition agree (pre w : str) (s s' : st) : Prop :=
  (exists p j, to_view s = Some (place pre p j) /\ to_view s' = Some (place pre p j) /\ s_end s = at_ pre j /\ s_end s' = at_ pre j /\ j <= length w)
  \/ (is_accepted s = false /\ is_accepted s' = false /\ exists q q', s_end s = at_ pre q /\ s_end s' = at_ pre q' /\ length w <= q <= S (length w) /\ length w <= q' <= S (length w)).
Lemma found_agree pre w n n' o o' k i g g' : (forall k i, i + k <= S (length w) -> dsr w n k i = dsr w n' k i) -> i + k <= S (length w) ->
  found pre w n o k i g -> found pre w n' o' k i g' -> exists s s', o = RDone s /\ o' = RDone s' /\ agree pre w s s'.
Proof.
  intros D B F F'. unfold found in *. rewrite <- D in F' by exact B. destruct (dsr w n k i) as [[p [j d]]|].
  - destruct F as (_ & L & g1 & -> & _). destruct F' as (_ & _ & g2 & -> & _). do 2 eexists. conj; try reflexivity. left. exists p, j.
    unfold to_view, is_accepted, EngineOk.mk. cbn [s_acc s_start s_end]. unfold place. rewrite !at_place. conj; auto; lia.
  - destruct F as (q & g1 & -> & L1 & L2 & _). destruct F' as (q' & g2 & -> & L3 & L4 & _). do 2 eexists. conj; try reflexivity. right.
    unfold is_accepted, EngineOk.mk. cbn [s_acc s_end]. conj; auto. exists q, q'. conj; auto; lia.
Qed.

Lemma dsr_opt w n : Forall (fun c => (-128 <= c <= 127)%Z) w -> optok n [] FTot = true ->
  forall k i, i + k <= S (length w) -> dsr w n k i = dsr w (optimize n []) k i.
Proof.
  intros Hw O. induction k as [|k IH]; intros i B; [reflexivity|]. cbn [dsr]. rewrite (optimize_first w Hw n i O) by lia.
  destruct (hd_error (den w n (i, []))); [reflexivity|]. apply IH. lia.
Qed.
Theorem C15_optimise_partial : forall p n n' pre w post s s', parse p = Some n -> compile p = Some n' ->
  optok n [] FTot = true -> faithful n = true -> faithful n' = true -> query_ok w -> post <> [] ->
  lockstep (env_of pre w post) n n' s s' ->
  is_accepted s = is_accepted s' /\ to_view s = to_view s'.
Proof.
  intros p n n' pre w post s s' P C O F F' Q Po R. rewrite compile_eq, P in C. injection C as <-.
  assert (X : agree pre w s s').
  { pose proof (dsr_opt w n (q_chars w Q) O) as D.
    pose proof (faithful_skips pre w post n Q F) as K. pose proof (faithful_skips pre w post _ Q F') as K'.
    unfold faithful in F, F'. rewrite !andb_true_iff in F, F'. destruct F as [[Gd A] _], F' as [[Gd' A'] _].
    pose proof (fun m Gm Am Km => create_ok pre w post m false (no_end post) (q_chars w Q) (q_len w Q) Gm Am Km (or_introl Po)) as CO.
    pose proof (fun m Gm Am Km => next_ok pre w post m false (no_end post) (q_chars w Q) (q_len w Q) Gm Am Km (or_introl Po)) as NO.
    induction R as [f f' s s' Hc Hc'|f f' s s' t t' R IH Hn Hn'].
    - set (m := f + f' + S (length w)).
      pose proof (CO n Gd A K m ltac:(lia)) as B. pose proof (CO _ Gd' A' K' m ltac:(lia)) as B'.
      rewrite (create_more _ _ _ m _ Hc) in B by lia. rewrite (create_more _ _ _ m _ Hc') in B' by lia.
      destruct (found_agree pre w _ _ _ _ (Nat.max 1 (length w)) 0 _ _ D ltac:(lia) B B') as (u & u' & [= <-] & [= <-] & Y). exact Y.
    - set (m := f + f' + S (length w)).
      assert (Z : exists q q', s_end s = at_ pre q /\ s_end s' = at_ pre q' /\ q <= S (length w) /\ q' <= S (length w) /\ (q = q' \/ length w <= q /\ length w <= q')).
      { destruct IH as [(a & j & _ & _ & E & E' & L)|(_ & _ & q & q' & E & E' & L & L')]; [exists j, j|exists q, q']; conj; auto; lia. }
      destruct Z as (q & q' & E & E' & L & L' & EQ).
      pose proof (NO n Gd A K m (s_start s) q (s_grp s) (s_acc s) L ltac:(lia)) as B. pose proof (NO _ Gd' A' K' m (s_start s') q' (s_grp s') (s_acc s') L' ltac:(lia)) as B'.
      unfold EngineOk.mk in B, B'. rewrite <- E in B. rewrite <- E' in B'.
      replace (mkSt (s_start s) (s_end s) (s_grp s) (s_acc s)) with s in B by (now destruct s).
      replace (mkSt (s_start s') (s_end s') (s_grp s') (s_acc s')) with s' in B' by (now destruct s').
      rewrite (next_more _ _ _ m _ _ Hn) in B by lia. rewrite (next_more _ _ _ m _ _ Hn') in B' by lia.
      destruct EQ as [<-|[L1 L2]].
      + destruct (found_agree pre w _ _ _ _ (length w - q) q _ _ D ltac:(lia) B B') as (u & u' & [= <-] & [= <-] & Y). exact Y.
      + replace (length w - q) with 0 in B by lia. replace (length w - q') with 0 in B' by lia. unfold found in B, B'. cbn [dsr] in B, B'.
        destruct B as (a & g1 & [= ->] & B1 & _). destruct B' as (a' & g2 & [= ->] & B2 & _). right. unfold is_accepted. cbn [s_acc s_end].
        conj; auto. exists a, a'. conj; auto; lia. }
  destruct X as [(a & j & V & V' & _)|(A & A' & _)].
  - rewrite V, V'. split; [|reflexivity]. unfold to_view in *. destruct (is_accepted s), (is_accepted s'); congruence.
  - split; [congruence|]. unfold to_view. now rewrite A, A'.
Qed.
Print Assumptions C15_optimise_partial.
Example C15_case : exists n n' s s', parse (S2L "(?:ab|c)x[ab]*?y") = Some n /\ compile (S2L "(?:ab|c)x[ab]*?y") = Some n' /\ n <> n'
  /\ optok n [] FTot = true /\ faithful n = true /\ faithful n' = true
  /\ lockstep (env_of [] (S2L "abzabxaby") [0%Z]) n n' s s' /\ to_view s' = Some (place [] 3 9).
Proof.
  set (p := S2L "(?:ab|c)x[ab]*?y"). set (n := match parse p with Some n => n | None => SimpleV [] end).
  exists n, (node_of p). set (e := env_of [] (S2L "abzabxaby") [0%Z]). exists (st_of (create 10 e n)), (st_of (create 10 e (node_of p))).
  conj; try (vm_compute; reflexivity).
  - vm_compute. discriminate.
  - apply (LCreate _ _ _ 10 10); vm_compute; reflexivity.
Qed.

(** C16.  If is_independent says yes, no 7-bit text can be begun by both patterns at the same
    place (empty matches aside).  [heads] (Heads.v) is read off the way the pattern is written:
    classes of one item or complemented, skipping only by [?], [*], [{0,m}], and alternatives
    only behind one that can be empty; outside it the library looks at too few characters
    (C16_independent_refuted). *)
Theorem C16_plain_partial : forall r1 r2 n1 n2 w i j1 j2,
  wf r1 = true -> wf r2 = true -> heads r1 = true -> heads r2 = true ->
  compile (show r1) = Some n1 -> compile (show r2) = Some n2 -> is_independent n1 n2 = true ->
  Forall (fun c => (0 <= c <= 127)%Z) w -> lang w r1 i j1 -> lang w r2 i j2 -> j1 = i \/ j2 = i.
Proof.
  intros r1 r2 n1 n2 w i j1 j2 W1 W2 H1 H2 C1 C2 In W L1 L2. destruct (Nat.eq_dec j1 i) as [|D1]; [now left|]. destruct (Nat.eq_dec j2 i) as [|D2]; [now right|]. exfalso.
  pose proof (proj1 (lang_le w) r1 i j1 L1) as B1. pose proof (proj1 (lang_le w) r2 i j2 L2) as B2.
  destruct (heads_first w r1 i j1 W1 H1 L1 ltac:(lia)) as (x & E & X1). destruct (heads_first w r2 i j2 W2 H2 L2 ltac:(lia)) as (y & E' & X2).
  rewrite E in E'. injection E' as <-. rewrite Forall_forall in W. specialize (W x (nth_error_In _ _ E)). specialize (X1 W). specialize (X2 W).
  rewrite (compile_ctree r1 n1 W1 C1), (compile_ctree r2 n2 W2 C2) in In. unfold is_independent, ctree in In. rewrite !optimize_nadm in In.
  unfold extract_adm in In. cbn [fold_right] in In. rewrite !merge_nil_r in In.
  pose proof (proj2 (inter_in _ _ x (adm_asc r1 W1) (adm_asc r2 W2)) (Logic.conj X1 X2)) as Y. unfold adm_empty in In. destruct (adm_inter _ _); [destruct Y|discriminate].
Qed.
Print Assumptions C16_plain_partial.
Example C16_plain_case : exists r1 r2 n1 n2, wf r1 = true /\ wf r2 = true /\ heads r1 = true /\ heads r2 = true
  /\ show r1 = S2L "\s*\d+(a|b)*" /\ show r2 = S2L "a*|[b-y]z?"
  /\ compile (show r1) = Some n1 /\ compile (show r2) = Some n2 /\ is_independent n1 n2 = true
  /\ lang (S2L " 1a") r1 0 3 /\ lang (S2L "bz") r2 0 2.
Proof.
  exists (pat [(AEl (EEsc 115), star); (AEl (EEsc 100), plus); (ACap 0 (ROr (Br false (seqs [(lit "a", Q1)])) (pat [(lit "b", Q1)])), star)]),
    (ROr (Br false (seqs [(lit "a", star)])) (pat [(AEl (EClass false [CRange 98 121]), Q1); (lit "z", opt)])),
    (node_of (S2L "\s*\d+(a|b)*")), (node_of (S2L "a*|[b-y]z?")).
  conj; try (vm_compute; reflexivity).
  - apply (match_at_lang (S2L " 1a") _ 0 (3, [(0, (2, 3))])); vm_compute; reflexivity.
  - right. apply (match_at_lang (S2L "bz") (pat [(AEl (EClass false [CRange 98 121]), Q1); (lit "z", opt)]) 0 (2, [])); vm_compute; reflexivity.
Qed.

(** The same for every pattern whose first-character set is computed correctly, by whatever
    means ([first_ok_rx] evaluates the model's sets; C16_independent_refuted, C17_* ). *)
Theorem C16_independent_partial : forall r1 r2 n1 n2 w i j1 j2,
  first_ok_rx r1 = true -> first_ok_rx r2 = true -> compile (show r1) = Some n1 -> compile (show r2) = Some n2 -> is_independent n1 n2 = true ->
  Forall (fun c => (0 <= c <= 127)%Z) w -> i <= length w -> lang w r1 i j1 -> lang w r2 i j2 -> j1 = i \/ j2 = i.
Proof.
  intros r1 r2 n1 n2 w i j1 j2 F1 F2 C1 C2 In W Hi L1 L2. destruct (Nat.eq_dec j1 i) as [|D1]; [now left|]. destruct (Nat.eq_dec j2 i) as [|D2]; [now right|]. exfalso.
  pose proof (lang_forward w r1 i j1 L1 Hi) as B1. pose proof (lang_forward w r2 i j2 L2 Hi) as B2.
  destruct (first_char w r1 i j1 F1 L1 ltac:(lia) Hi) as (x & E & X1). destruct (first_char w r2 i j2 F2 L2 ltac:(lia) Hi) as (y & E' & X2).
  rewrite E in E'. injection E' as <-. rewrite Forall_forall in W. specialize (W x (nth_error_In _ _ E)). specialize (X1 W). specialize (X2 W).
  unfold first_ok_rx in F1, F2. rewrite !andb_true_iff in F1, F2. destruct F1 as [[[W1 _] A1] _], F2 as [[[W2 _] A2] _].
  rewrite (compile_ctree r1 n1 W1 C1), (compile_ctree r2 n2 W2 C2) in In. unfold is_independent, ctree in In. rewrite !optimize_nadm in In.
  unfold extract_adm in In. cbn [fold_right] in In. rewrite !merge_nil_r in In.
  pose proof (proj2 (inter_in _ _ x (ascb_ok _ A1) (ascb_ok _ A2)) (Logic.conj X1 X2)) as Y. unfold adm_empty in In. destruct (adm_inter _ _); [destruct Y|discriminate].
Qed.
Print Assumptions C16_independent_partial.
Example C16_case : exists r1 r2 n1 n2, first_ok_rx r1 = true /\ first_ok_rx r2 = true /\ show r1 = S2L "\d+(a|b)*" /\ show r2 = S2L "[^0-9]x|y?z"
  /\ compile (show r1) = Some n1 /\ compile (show r2) = Some n2 /\ is_independent n1 n2 = true
  /\ lang (S2L "12") r1 0 2 /\ lang (S2L "zx") r2 0 2.
Proof.
  exists (pat [(AEl (EEsc 100), plus); (ACap 0 (ROr (Br false (seqs [(lit "a", Q1)])) (pat [(lit "b", Q1)])), star)]),
    (ROr (Br false (seqs [(AEl (EClass true [CRange 48 57]), Q1); (lit "x", Q1)])) (pat [(lit "y", opt); (lit "z", Q1)])),
    (node_of (S2L "\d+(a|b)*")), (node_of (S2L "[^0-9]x|y?z")).
  conj; try (vm_compute; reflexivity).
  - apply (match_at_lang (S2L "12") _ 0 (2, [])); vm_compute; reflexivity.
  - apply (match_at_lang (S2L "zx") _ 0 (2, [])); vm_compute; reflexivity.
Qed.
