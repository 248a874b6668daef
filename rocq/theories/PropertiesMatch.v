(** C18-C25, C28, C30-C32, C35, C36: what the search reports, for every query, every
    surrounding memory and every pattern of the classes of Supported.v.  The pattern is the
    text [show r]; the specification is [lang], [match_at], [search], [find_all] (Spec.v).
    The full statements (every pattern) are false, see Refuted.v. *)
From Coq Require Import String ZArith NArith List Bool Lia.
From Verif Require Import Base Text Ast Builder Engine Api Spec SpecProofs SpecEnd Tree Den Checker AstProofs BuilderProofs
  ApiProofs Runs Supported Main Captures Mono Find Sound Safe Anchor MinSize Refuted.
Import ListNotations.
Open Scope nat_scope.

(** The objects of the statements: pattern text [show r] compiled to [n], searched in query
    [w] lying between [pre] and [post] in memory ([post] nonempty: there is at least one
    byte after the query, such as the NUL of a C string). *)
Definition setting (r : rx) (n : node) (w post : str) : Prop :=
  compile (show r) = Some n /\ query_ok w /\ post <> [].

(** Two patterns used as witnesses: (\d+)-(\d+) and a{3}(?:b|bc). *)
Definition digits : atom := AEl (EEsc 100).
Definition r_range : rx := pat [(ACap 0 (pat [(digits, plus)]), Q1); (lit "-", Q1); (ACap 1 (pat [(digits, plus)]), Q1)].
Definition r_exact : rx := pat [(lit "a", QQ (QExact [3%Z]) Gr); (ANon (ROr (Br false (seqs [(lit "b", Q1)])) (ROne (Br false (seqs [(lit "b", Q1); (lit "c", Q1)])))), Q1)].
(** Witnesses for the concrete cases. *)
Definition node_of (p : str) : node := match compile p with Some n => n | None => SimpleV [] end.
Definition st_of (o : rout) : st := match o with RDone s => s | _ => mkSt 0 0 [] false end.
Ltac setting := unfold setting; conj; [vm_compute; reflexivity|unfold query_ok; conj; vm_compute; reflexivity|discriminate].
Example supported_case : supported r_range = true /\ captures_ok r_range = true /\ nopos r_range = true
  /\ show r_range = S2L "(\d+)-(\d+)" /\ exists n, setting r_range n (S2L "on 12-345 or 6") [0%Z].
Proof. conj; try (vm_compute; reflexivity). eexists. setting. Qed.
Example exact_case : exact r_exact = true /\ supported r_exact = false /\ show r_exact = S2L "a{3}(?:b|bc)"
  /\ exists n, setting r_exact n (S2L "xaaabc") [0%Z].
Proof. conj; try (vm_compute; reflexivity). eexists. setting. Qed.

Lemma compile_ctree r n : wf r = true -> compile (show r) = Some n -> n = ctree r.
Proof. intros W C. rewrite compile_eq, (ParseProofs.parse_show r W) in C. unfold ctree. congruence. Qed.

(** C21.  Every accepted result, however obtained, is a substring of the query in the
    language of the pattern.  Missing: patterns that are not [exact]. *)
Theorem C21_soundness_partial : forall r n pre w post s, exact r = true -> setting r n w post ->
  reach (env_of pre w post) n s -> is_accepted s = true ->
  exists i j, to_view s = Some (place pre i j) /\ i <= j <= length w /\ lang w r i j.
Proof.
  intros r n pre w post s He (C & Q & P) R A. rewrite (exact_compile r He) in C. injection C as <-.
  destruct (reach_sound r pre w post He Q P s R) as [X _]. destruct (X A) as (i & j & l & V & _ & B1 & B2 & M & _).
  exists i, j. conj; auto; try lia. apply (match_at_lang w r i (j, l)); [apply (exact_parts r He)|exact M].
Qed.
Print Assumptions C21_soundness_partial.

(** C24.  ... and it is the match the backtracking priority order chooses at its start
    (greedy: more repetitions first, lazy: fewer first, possessive: never gives back, earlier
    alternatives first).  Missing: patterns that are not [exact]. *)
Theorem C24_priority_partial : forall r n pre w post s, exact r = true -> setting r n w post ->
  reach (env_of pre w post) n s -> is_accepted s = true ->
  exists i j l, to_view s = Some (place pre i j) /\ match_at w r i = Some (j, l).
Proof.
  intros r n pre w post s He (C & Q & P) R A. rewrite (exact_compile r He) in C. injection C as <-.
  destruct (reach_sound r pre w post He Q P s R) as [X _]. destruct (X A) as (i & j & l & V & _ & B1 & B2 & M & _). eauto.
Qed.
Print Assumptions C24_priority_partial.

(** C25.  For b|r' the match reported is the one of the branch b if b matches there at all,
    and otherwise that of the remaining branches.  Missing: as for C24. *)
Theorem C25_alternatives_partial : forall b r n pre w post s, exact (ROr b r) = true -> setting (ROr b r) n w post ->
  reach (env_of pre w post) n s -> is_accepted s = true ->
  exists i j l, to_view s = Some (place pre i j)
    /\ (match_at w (ROne b) i = Some (j, l)
        \/ (match_at w (ROne b) i = None /\ match_at w r i = Some (j, l))).
Proof.
  intros b r n pre w post s He St R A. destruct (C24_priority_partial _ _ _ _ _ _ He St R A) as (i & j & l & V & M).
  exists i, j, l. split; [exact V|]. unfold match_at in *. change (sem w (ROr b r) (i, [])) with (sem_br w b (i, []) ++ sem w r (i, [])) in M.
  change (sem w (ROne b) (i, [])) with (sem_br w b (i, [])). destruct (sem_br w b (i, [])); [right; split; [reflexivity|exact M]|left; exact M].
Qed.
Print Assumptions C25_alternatives_partial.
Example C25_case : exists r2 n s, exact r2 = true /\ show r2 = S2L "ab|a|abc" /\ compile (show r2) = Some n
  /\ create 9 (env_of [] (S2L "xabc") [0%Z]) n = RDone s /\ to_view s = Some (place [] 1 3).
Proof.
  exists (ROr (Br false (seqs [(lit "a", Q1); (lit "b", Q1)])) (ROr (Br false (seqs [(lit "a", Q1)])) (ROne (Br false (seqs [(lit "a", Q1); (lit "b", Q1); (lit "c", Q1)]))))).
  exists (node_of (S2L "ab|a|abc")), (st_of (create 9 (env_of [] (S2L "xabc") [0%Z]) (node_of (S2L "ab|a|abc")))). conj; vm_compute; reflexivity.
Qed.

(** C22.  The search succeeds iff some substring of the query matches; and a match at the
    very beginning is found for every [exact] pattern.  Missing: for patterns that are exact
    but not [supported], matches elsewhere; other patterns. *)
Theorem C22_completeness_partial : forall r n pre w post, setting r n w post ->
  (supported r = true -> nopos r = true ->
     exists s, create (default_fuel w) (env_of pre w post) n = RDone s
       /\ (is_accepted s = true <-> exists i j, i <= length w /\ lang w r i j))
  /\ (exact r = true -> nopos r = true -> (exists j, lang w r 0 j) ->
     exists s j, create (default_fuel w) (env_of pre w post) n = RDone s
       /\ to_view s = Some (place pre 0 j) /\ lang w r 0 j).
Proof.
  intros r n pre w post (C & Q & P). split.
  - intros Hs Hn. rewrite (sup_compile r Hs) in C. injection C as <-.
    destruct (create_found r pre w post Hs Q P (default_fuel w) (Nat.lt_succ_diag_r _)) as (s & E & SH & _).
    exists s. split; [exact E|]. unfold shows in SH. destruct (search w r 0) as [[i [j l]]|] eqn:SR.
    + split.
      * intros _. apply search_some in SR as (B & M & _). exists i, j. split; [lia|].
        apply (match_at_lang w r i (j, l)); [apply (sup_wf r Hs)|exact M].
      * intros _. unfold to_view in SH. destruct (is_accepted s); [reflexivity|discriminate].
    + split.
      * intro A. unfold to_view in SH. rewrite A in SH. discriminate.
      * intros (i & j & Hi & L). exfalso. pose proof (search_none w r 0 SR i ltac:(lia)) as M.
        exact (match_at_none w r i Hn M Hi j L).
  - intros He Hn (j & L). rewrite (exact_compile r He) in C. injection C as <-.
    destruct (create_sound r pre w post He Q P (default_fuel w) (Nat.lt_succ_diag_r _)) as (s & E & _ & X).
    destruct (match_at w r 0) as [c|] eqn:M; [|exfalso; exact (match_at_none w r 0 Hn M (Nat.le_0_l _) j L)].
    exists s, (fst c). conj; auto. apply (match_at_lang w r 0 c); [apply (exact_parts r He)|exact M].
Qed.
Print Assumptions C22_completeness_partial.

(** C23.  The reported match is the leftmost one: nothing before it matches.  Missing:
    patterns that are not [supported]. *)
Theorem C23_leftmost_partial : forall r n pre w post, setting r n w post -> supported r = true ->
  exists s, create (default_fuel w) (env_of pre w post) n = RDone s
    /\ to_view s = match search w r 0 with Some (i, (j, _)) => Some (place pre i j) | None => None end
    /\ forall i j, to_view s = Some (place pre i j) ->
         (forall k, k < i -> match_at w r k = None) /\ (nopos r = true -> forall k j', k < i -> ~ lang w r k j').
Proof.
  intros r n pre w post (C & Q & P) Hs. rewrite (sup_compile r Hs) in C. injection C as <-.
  destruct (create_found r pre w post Hs Q P (default_fuel w) (Nat.lt_succ_diag_r _)) as (s & E & SH & _).
  exists s. split; [exact E|]. split; [exact SH|]. intros i j V. unfold shows in SH.
  destruct (search w r 0) as [[i' [j' l]]|] eqn:SR; [|congruence].
  rewrite SH in V. injection V as Hi Hj. assert (i' = i) as -> by lia. apply search_some in SR as (B & M & N). split.
  - intros k Hk. apply N. lia.
  - intros Hn k j2 Hk. apply (match_at_none w r k Hn); [apply N|]; lia.
Qed.
Print Assumptions C23_leftmost_partial.

(** C18.  minimum_match_size is a lower bound for every text in the language of any
    well-formed pattern, hence for every accepted result of an exact one.  Missing: results
    of patterns that are not [exact]. *)
Theorem C18_min_size_partial : forall r n, compile (show r) = Some n -> wf r = true ->
  (forall w i j, lang w r i j -> (nmin n <= N.of_nat (j - i))%N)
  /\ (forall pre w post s, exact r = true -> query_ok w -> post <> [] -> reach (env_of pre w post) n s -> is_accepted s = true ->
       (Z.of_N (nmin n) <= s_end s - s_start s)%Z).
Proof.
  intros r n C W.
  assert (Ln : forall w i j, lang w r i j -> (nmin n <= N.of_nat (j - i))%N).
  { intros w i j L. rewrite (compile_ctree r n W C). unfold ctree. rewrite optimize_nmin. assert (L' : lang w (renumber r) i j) by (apply (proj1 (lang_renumber w)); exact L).
    assert (W' : wf (renumber r) = true) by (unfold renumber; rewrite (proj1 renumber_wf); exact W).
    pose proof (proj1 (lang_min w) (renumber r) W' i j L') as X. cbn [tree nmin]. lia. }
  split; [exact Ln|]. intros pre w post s He Q P R A.
  destruct (C21_soundness_partial r n pre w post s He (conj C (conj Q P)) R A) as (i & j & V & B & L).
  apply Ln in L. unfold to_view in V. rewrite A in V. injection V as -> ->. lia.
Qed.
Print Assumptions C18_min_size_partial.
Example C18_case : exists n, compile (show r_exact) = Some n /\ nmin n = 3%N /\ wf r_exact = true /\ exact r_exact = true.
Proof. eexists. conj; vm_compute; reflexivity. Qed.

(** C28.  A pattern all of whose branches begin with ^ is only ever accepted at the very
    beginning of the query; for every such pattern (no further restriction on the rest), every
    query and every memory.  Missing: the README's "or line" (false, see C28_line_start_refuted). *)
Theorem C28_anchor_partial : forall r n e s, wf r = true -> anchored r = true -> compile (show r) = Some n ->
  reach e n s -> is_accepted s = true -> s_start s = qb e.
Proof.
  intros r n e s W A C R Ac. pose proof (compile_gidx _ _ C) as Gx.
  rewrite (compile_ctree r n W C) in *.
  apply (reach_far e (ctree r)); auto. now apply ctree_aroot.
Qed.
Print Assumptions C28_anchor_partial.
Example C28_case : exists r n s, wf r = true /\ anchored r = true /\ show r = S2L "^(a|b)*?[^x]" /\ compile (show r) = Some n
  /\ create 9 (env_of [] (S2L "abc") [0%Z]) n = RDone s /\ is_accepted s = true.
Proof.
  exists (ROne (Br true (seqs [(ACap 0 (ROr (Br false (seqs [(lit "a", Q1)])) (pat [(lit "b", Q1)])), QQ QStar Lz); (AEl (EClass true [cch "x"]), Q1)]))).
  exists (node_of (S2L "^(a|b)*?[^x]")), (st_of (create 9 (env_of [] (S2L "abc") [0%Z]) (node_of (S2L "^(a|b)*?[^x]")))). conj; vm_compute; reflexivity.
Qed.

(** C30.  For every pattern string whose optional fixed-size items have size at most one, on
    every query, memory and state: a result of next() starts at or after the end of the
    previous one and ends at or after its start. *)
Theorem C30_no_overlap_partial : forall p n e fuel s s', compile p = Some n -> opt_small n = true ->
  next fuel e n s = RDone s' -> (s_end s <= s_start s' <= s_end s')%Z.
Proof.
  intros p n e fuel s s' _ Ho N. pose proof (next_mono e n (fuel + Z.to_nat (qe e - s_end s + 1)) s Ho ltac:(lia)) as X.
  rewrite (next_more _ _ _ (fuel + Z.to_nat (qe e - s_end s + 1)) _ _ N) in X by lia. exact X.
Qed.
Print Assumptions C30_no_overlap_partial.
Example C30_case : exists n s s', compile (S2L "(?:a|ab)(c?)") = Some n /\ opt_small n = true
  /\ create 9 (env_of [] (S2L "acxabab") [0%Z]) n = RDone s /\ next 9 (env_of [] (S2L "acxabab") [0%Z]) n s = RDone s'
  /\ to_view s = Some (place [] 0 2) /\ to_view s' = Some (place [] 3 4).
Proof.
  set (n := node_of (S2L "(?:a|ab)(c?)")). set (e := env_of [] (S2L "acxabab") [0%Z]).
  exists n, (st_of (create 9 e n)), (st_of (next 9 e n (st_of (create 9 e n)))). conj; vm_compute; reflexivity. Qed.

(** C31.  For the same patterns every construction and every next() returns (or runs into
    undefined behaviour; see C19) after at most as many turns of its loop as characters are
    left; and a result that is not accepted stays not accepted. *)
Theorem C31_terminates_partial : forall p n e s fuel, compile p = Some n -> opt_small n = true ->
  ((qe e - s_end s < Z.of_nat fuel)%Z -> next fuel e n s <> RFuel)
  /\ ((qe e - qb e < Z.of_nat fuel)%Z -> create fuel e n <> RFuel)
  /\ (reach e n s -> is_accepted s = false ->
        exists s', next fuel e n s = RDone s' /\ is_accepted s' = false).
Proof.
  intros p n e s fuel _ Ho. conj.
  - intros Hf X. pose proof (next_mono e n fuel s Ho Hf) as Y. now rewrite X in Y.
  - intros Hf X. pose proof (create_mono e n fuel Ho Hf) as Y. now rewrite X in Y.
  - intros R A. destruct (reach_rejected e n s R A) as [B _]. rewrite next_past by exact B. eexists. split; reflexivity.
Qed.
Print Assumptions C31_terminates_partial.

(** C32.  For supported patterns that do not match the empty text: reading results and
    calling next() until it fails reads exactly the matches of [find_all]: each one the
    leftmost match of what is left; and there are at most as many as characters. *)
Theorem C32_enumerates_partial : forall r n pre w post, setting r n w post -> supported r = true ->
  (forall i, ~ lang w r i i) ->
  exists s l, create (default_fuel w) (env_of pre w post) n = RDone s
    /\ l = find_all w r (S (length w)) 0
    /\ visits (env_of pre w post) n s (map (fun x => Some (place pre (fst x) (snd x))) l)
    /\ length l <= length w
    /\ (forall res, exists steps fuel, range_for steps fuel (env_of pre w post) n res = Some (map (fun x => Some (place pre (fst x) (snd x))) l)).
Proof.
  intros r n pre w post (C & Q & P) Hs NE. rewrite (sup_compile r Hs) in C. injection C as <-.
  assert (NE' : forall i c, match_at w r i = Some c -> i < fst c).
  { intros i c M. pose proof (match_at_lang w r i c (sup_wf r Hs) M) as L. pose proof (proj1 (lang_ge w) r _ _ L).
    destruct (Nat.eq_dec (fst c) i) as [E|]; [|lia]. rewrite E in L. now apply NE in L. }
  destruct (create_visits r pre w post Hs Q P (fun i c _ => NE' i c)) as (s & E & V).
  exists s, (find_all w r (S (length w)) 0). conj; auto.
  - pose proof (find_all_length w r (S (length w)) NE' 0 (Nat.le_0_l _)). lia.
  - intro res. apply range_for_iff. exists (S (length w)), s. auto.
Qed.
Print Assumptions C32_enumerates_partial.
Example C32_case : exists n s, compile (show r_range) = Some n
  /\ create 20 (env_of [] (S2L "on 12-345 or 6-7") [0%Z]) n = RDone s
  /\ find_all (S2L "on 12-345 or 6-7") r_range 17 0 = [(3, 9); (13, 16)]
  /\ range_for 9 20 (env_of [] (S2L "on 12-345 or 6-7") [0%Z]) n s = Some [Some (place [] 3 9); Some (place [] 13 16)].
Proof.
  set (n := node_of (show r_range)). exists n, (st_of (create 20 (env_of [] (S2L "on 12-345 or 6-7") [0%Z]) n)). conj; vm_compute; reflexivity. Qed.
