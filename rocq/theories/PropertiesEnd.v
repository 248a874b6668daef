(** C29 and C43: the end anchor, get_expression. *)
From Coq Require Import String ZArith NArith List Bool Lia ZifyBool ZifyNat ZifyN.
From Verif Require Import Base Text Ast Builder BuilderProofs Engine Api ApiProofs Spec Tree SpecProofs Den Checker Supported Main Find Anchor End EndD Expr Roundtrip Refuted PropertiesMatch.
Import ListNotations.
Open Scope Z_scope.

(** C29.  Whatever the pattern r: when r with $ after each branch accepts (now or after any
    number of next()), the match ends at the end of the query or right after a line feed (the
    line feed itself is part of the match: C29_end_anchor_refuted). *)
Theorem C29_end_partial : forall r, wf r = true -> exists n, compile (show_d r) = Some n
  /\ forall pre w post s a b, reach (env_of pre w post) n s -> to_view s = Some (a, b) ->
     b = Z.of_nat (length pre + length w)
     \/ (nth_error (pre ++ w ++ post) (Z.to_nat (b - 1)) = Some c_nl /\ 0 < b <= Z.of_nat (length pre + length w) + 1).
Proof.
  intros r W. destruct (compile_dollar r W) as (n & C & D). exists n. split; [exact C|]. intros pre w post s a b R V.
  unfold to_view in V. destruct (is_accepted s) eqn:A; [|discriminate]. injection V as _ <-.
  destruct (reach_dollar _ n s D R A) as [E|[E1 E2]]; [left|right].
  - rewrite E. cbn. lia.
  - unfold rd in E1. cbn [env_of buf qe] in E1, E2. destruct (s_end s - 1 <? 0) eqn:Z; [discriminate|]. split; [exact E1|lia].
Qed.
Print Assumptions C29_end_partial.
Example C29_case : exists r s n, wf r = true /\ show_d r = S2L "(a|b)+c$|x$" /\ compile (show_d r) = Some n
  /\ reach (env_of [] (S2L "acabc") [0]) n s /\ to_view s = Some (2, 5).
Proof.
  exists (ROr (Br false (seqs [(ACap 0 (ROr (Br false (seqs [(lit "a", Q1)])) (pat [(lit "b", Q1)])), plus); (lit "c", Q1)])) (pat [(lit "x", Q1)])),
    (st_of (create 9 (env_of [] (S2L "acabc") [0]) (node_of (S2L "(a|b)+c$|x$")))), (node_of (S2L "(a|b)+c$|x$")).
  conj; try (vm_compute; reflexivity). apply (ReachCreate _ _ 9). vm_compute. reflexivity.
Qed.

(** C29.  For the patterns accepted by [exact_d] (a decidable condition on the pattern) whose
    query is followed in memory by a character other than a line feed: every accepted result
    of r$, also after next(), is a match of r that is followed by a line end, the one the
    backtracking priority order chooses among those; and a query that r matches completely from
    its beginning is accepted at its beginning.  So ^r$ accepts exactly the queries r matches
    completely, when there is no line feed in the query. *)
Definition setting_d (r : rx) (n : node) (w post : str) : Prop :=
  compile (show_d r) = Some n /\ query_ok w /\ exists c p, post = c :: p /\ c <> c_nl.
Theorem C47_validate_partial : forall r n pre w post, exact_d r = true -> setting_d r n w post ->
  (forall s, reach (env_of pre w post) n s -> is_accepted s = true ->
     exists i j k l, to_view s = Some (place pre i j) /\ (i <= j <= length w)%nat
       /\ lang w r i k /\ line_end w k j /\ match_at_d w r i = Some (j, l))
  /\ (nopos r = true -> ~ In c_nl w -> forall s, create (default_fuel w) (env_of pre w post) n = RDone s ->
      (lang w r 0 (length w) -> to_view s = Some (place pre 0 (length w)))
      /\ (anchored r = true -> (is_accepted s = true <-> lang w r 0 (length w))))
  /\ exists s, create (default_fuel w) (env_of pre w post) n = RDone s.
Proof.
  intros r n pre w post He (C & Q & P). destruct (exact_d_parts r He) as [B O].
  rewrite (compile_d r (base_wf r B)) in C. injection C as <-.
  assert (SND : forall s, reach (env_of pre w post) (ctree_d r) s -> is_accepted s = true ->
     exists i j k l, to_view s = Some (place pre i j) /\ (i <= j <= length w)%nat
       /\ lang w r i k /\ line_end w k j /\ match_at_d w r i = Some (j, l)).
  { intros s R A. destruct (reach_d r pre w post Q P B s O R) as [X _]. destruct (X A) as (i & j & l & V & _ & B1 & B2 & M & _).
    destruct (match_d_lang w r i j l (base_wf r B) ltac:(lia) M) as (k & K1 & K2 & _). exists i, j, k, l. conj; auto; lia. }
  destruct (create_d r pre w post Q P B (default_fuel w) O (Nat.lt_succ_diag_r _)) as (s & E & _ & F).
  split; [exact SND|]. split; [|exists s; exact E].
  intros N L s' E'. rewrite E in E'. injection E' as <-.
  assert (NL : forall k j, line_end w k j -> k = length w /\ j = length w).
  { intros k j [[-> ->]|[X _]]; [auto|]. exfalso. apply L. eapply nth_error_In. exact X. }
  assert (X : lang w r 0 (length w) -> to_view s = Some (place pre 0 (length w))).
  { intro H. destruct (match_at_d w r 0) as [[j l]|] eqn:M.
    - rewrite (F j l eq_refl). destruct (match_d_lang w r 0 j l (base_wf r B) ltac:(lia) M) as (k & _ & K & _). now destruct (NL k j K) as [_ ->].
    - exfalso. refine (match_d_none w r 0 N ltac:(lia) M (length w) (length w) H _). left. auto. }
  split; [exact X|]. intro An. split.
  - intro A. destruct (SND s (ReachCreate _ _ _ _ E) A) as (i & j & k & l & _ & _ & Hl & He' & _). destruct (NL k j He') as [-> _].
    assert (i = 0%nat) as ->; [|exact Hl]. clear -Hl An. revert Hl. induction r as [b|b r IH]; destruct b as [a sq]; cbn [anchored lang lang_br] in *.
    + subst a. tauto.
    + apply andb_true_iff in An as [-> An]. intros [[H _]|H]; auto.
  - intro H. specialize (X H). unfold to_view in X. destruct (is_accepted s); [reflexivity|discriminate].
Qed.
Print Assumptions C47_validate_partial.
(** ^(\d+)-(\d+)$, ^[A-Za-z_]\w*$ and ^\w+\.txt$|^\w+\.md$ are such patterns. *)
Example C47_validate_case :
  let r := ROne (Br true (seqs [(ACap 0 (pat [(digits, plus)]), Q1); (lit "-", Q1); (ACap 1 (pat [(digits, plus)]), Q1)])) in
  exact_d r = true /\ nopos r = true /\ anchored r = true /\ show_d r = S2L "^(\d+)-(\d+)$"
  /\ setting_d r (ctree_d r) (S2L "12-345") [0]
  /\ to_view (st_of (create 9 (env_of [] (S2L "12-345") [0]) (ctree_d r))) = Some (0, 6)
  /\ is_accepted (st_of (create 9 (env_of [] (S2L "12-345x") [0]) (ctree_d r))) = false
  /\ is_accepted (st_of (create 9 (env_of [] (S2L "x12-345") [0]) (ctree_d r))) = false.
Proof.
  intro r. conj; try (vm_compute; reflexivity). split; [vm_compute; reflexivity|]. split; [split; vm_compute; reflexivity|]. exists 0, []. split; [reflexivity|discriminate].
Qed.
Example C47_validate_case2 :
  let word := AEl (EEsc 119) in let file e := Br true (seqs ((word, plus) :: (esc ".", Q1) :: e)) in
  let r := ROr (file [(lit "t", Q1); (lit "x", Q1); (lit "t", Q1)]) (ROne (file [(lit "m", Q1); (lit "d", Q1)])) in
  exact_d r = true /\ nopos r = true /\ anchored r = true /\ show_d r = S2L "^\w+\.txt$|^\w+\.md$"
  /\ to_view (st_of (create 9 (env_of [] (S2L "note.md") [0]) (ctree_d r))) = Some (0, 7)
  /\ is_accepted (st_of (create 9 (env_of [] (S2L "note.mdx") [0]) (ctree_d r))) = false.
Proof. intros. conj; vm_compute; reflexivity. Qed.

(** C29.  For the patterns accepted by [supported_d] the first match r$ finds is the leftmost
    one that reaches a line end, among those that start before the end of the query: nothing is
    skipped. *)
Theorem C29_search_partial : forall r n pre w post, supported_d r = true -> setting_d r n w post ->
  exists s, create (default_fuel w) (env_of pre w post) n = RDone s
  /\ (forall i j, to_view s = Some (place pre i j) ->
       (exists k, lang w r i k /\ line_end w k j)
       /\ (nopos r = true -> forall i' k j', (i' < i)%nat -> lang w r i' k -> ~ line_end w k j'))
  /\ (nopos r = true -> (is_accepted s = true <-> exists i k j, (i < length w \/ i = 0)%nat /\ lang w r i k /\ line_end w k j)).
Proof.
  intros r n pre w post Hs (C & Q & P). destruct (supported_d_parts r Hs) as [B O]. pose proof (base_wf r B) as W.
  rewrite (compile_d r W) in C. injection C as <-.
  destruct (search_d r pre w post Q P B (default_fuel w) O (Nat.lt_succ_diag_r _)) as (s & E & F). exists s. split; [exact E|].
  destruct F as [(p & j & V & Bp & M & NM)|[V NM]].
  - destruct (match_at_d w r p) as [[j' l]|] eqn:M'; [|discriminate]. cbn in M. injection M as ->.
    destruct (match_d_lang w r p j l W ltac:(lia) M') as (k & K1 & K2 & _). split.
    + intros i j2 V2. rewrite V in V2. injection V2 as V2 V3. assert (p = i) as <- by lia. assert (j = j2) as <- by lia. split; [exists k; auto|].
      intros N i' k' j' Hi. apply (match_d_none w r i' N ltac:(lia)). apply NM. lia.
    + intros _. split; [|intros _; unfold to_view in V; destruct (is_accepted s); [reflexivity|discriminate]]. intros _. exists p, k, j. conj; auto.
  - split; [intros i j V2; congruence|]. intro N. split.
    + intro A. unfold to_view in V. rewrite A in V. discriminate.
    + intros (i & k & j & Hi & Hl & He). exfalso. refine (match_d_none w r i N ltac:(lia) (NM i Hi) k j Hl He).
Qed.
Print Assumptions C29_search_partial.
Example C29_search_case : let r := pat [(lit "a", plus); (lit "b", Q1)] in
  supported_d r = true /\ nopos r = true /\ show_d r = S2L "a+b$"
  /\ to_view (st_of (create 9 (env_of [] (S2L "abaxaab") [0]) (ctree_d r))) = Some (4, 7).
Proof. intros. conj; vm_compute; reflexivity. Qed.

(** C35.  The captures of ^r$. *)
Theorem C35_validate_captures_partial : forall r n pre w post s, exact_d r = true -> setting_d r n w post ->
  nats_eqb (caps (renumber r)) (caps r) = true -> gex n = true -> covers r = true ->
  reach (env_of pre w post) n s -> is_accepted s = true ->
  exists i j l, to_view s = Some (place pre i j) /\ match_at_d w r i = Some (j, l)
    /\ forall k, (k < length (caps r))%nat -> exists a b, slot k l = Some (a, b) /\ get_group s (S k) = Some (Some (place pre a b)).
Proof.
  intros r n pre w post s He (C & Q & P) C1 C2 C3 R A. destruct (exact_d_parts r He) as [B O].
  rewrite (compile_d r (base_wf r B)) in C. injection C as <-.
  destruct (reach_d r pre w post Q P B s O R) as [X _]. destruct (X A) as (i & j & l & V & _ & B1 & B2 & M & SC).
  exists i, j, l. conj; auto. rewrite C1, C2, C3 in SC. specialize (SC eq_refl). intros k Hk. specialize (SC k Hk).
  destruct (slot k l) as [[a b]|] eqn:SL; [exists a, b; auto|]. exfalso. exact (d_slots r w B i j l C3 ltac:(lia) M k Hk SL).
Qed.
Print Assumptions C35_validate_captures_partial.
Example C35_validate_case :
  let r := ROne (Br true (seqs [(ACap 0 (pat [(digits, plus)]), Q1); (lit "-", Q1); (ACap 1 (pat [(digits, plus)]), Q1)])) in
  exact_d r = true /\ nats_eqb (caps (renumber r)) (caps r) = true /\ gex (ctree_d r) = true /\ covers r = true
  /\ match_at_d (S2L "12-345") r 0 = Some (6%nat, [(1, (3, 6)); (0, (0, 2))]%nat)
  /\ get_group (st_of (create 9 (env_of [] (S2L "12-345") [0]) (ctree_d r))) 2 = Some (Some (3, 6)).
Proof. intros. conj; vm_compute; reflexivity. Qed.

(** C43.  The text get_expression returns compiles to the very same matcher (so it matches the
    same texts, with the same groups), for patterns without (?:...) whose classes have one item
    and whose characters need no escape when they are written alone ([writable]; of \d and
    one-character classes, which are rewritten to [0-9] and to the character, only in patterns
    without groups); also with $ at the end.
    Missing: the other patterns; for many of them it is false (C43_expression_refuted,
    C43_roundtrip_refuted). *)
Theorem C43_roundtrip_partial : forall r n, wf r = true -> writable r = true ->
  compile (show r) = Some n -> compile (get_expression n) = Some n.
Proof. exact roundtrip. Qed.
Print Assumptions C43_roundtrip_partial.
Theorem C43_roundtrip_end_partial : forall b n, wf (ROne b) = true -> writable (ROne b) = true ->
  compile (show_d (ROne b)) = Some n -> compile (get_expression n) = Some n.
Proof. exact roundtrip_d. Qed.
Print Assumptions C43_roundtrip_end_partial.
(** The expression of ^(a+|\w*?x{02,7})\t[^\n]{3}$ is another text: runs are possessive now,
    alternatives in (?:), counts canonical, \t and \n written as such. *)
Example C43_roundtrip_case :
  let alt := ROr (Br false (seqs [(lit "a", plus)])) (pat [(AEl (EEsc 119), QQ QStar Lz); (lit "x", QQ (QMinMax [0; 2] [7]) Gr)]) in
  let b := Br true (seqs [(ACap 0 alt, Q1); (esc "t", Q1); (AEl (EClass true [CEsc 110]), QQ (QExact [3]) Gr)]) in
  wf (ROne b) = true /\ writable (ROne b) = true /\ show_d (ROne b) = S2L "^(a+|\w*?x{02,7})\t[^\n]{3}$"
  /\ get_expression (node_of (S2L "^(a+|\w*?x{02,7})\t[^\n]{3}$")) = S2L "^((?:a++)|(?:\w*?x{2,7}+))" ++ [9] ++ S2L "[^" ++ [10] ++ S2L "]{3}$"
  /\ compile (get_expression (node_of (S2L "^(a+|\w*?x{02,7})\t[^\n]{3}$"))) = Some (node_of (S2L "^(a+|\w*?x{02,7})\t[^\n]{3}$")).
Proof. intros. conj; vm_compute; reflexivity. Qed.
(** (a)\d(b) becomes (a)[0-9](b), whose second group is group 1 as well: on "a1b" the first has
    the groups a and b, the second b and nothing. *)
Theorem C43_roundtrip_refuted : exists n n2 s s2,
  compile (S2L "(a)\d(b)") = Some n /\ get_expression n = S2L "(a)[0-9](b)" /\ compile (get_expression n) = Some n2
  /\ create 9 (env_of [] (S2L "a1b") [0]) n = RDone s /\ get_group s 1 = Some (Some (0, 1)) /\ get_group s 2 = Some (Some (2, 3))
  /\ create 9 (env_of [] (S2L "a1b") [0]) n2 = RDone s2 /\ get_group s2 1 = Some (Some (2, 3)) /\ get_group s2 2 = Some None.
Proof.
  exists (node_of (S2L "(a)\d(b)")), (node_of (S2L "(a)[0-9](b)")), (st_of (create 9 (env_of [] (S2L "a1b") [0]) (node_of (S2L "(a)\d(b)")))), (st_of (create 9 (env_of [] (S2L "a1b") [0]) (node_of (S2L "(a)[0-9](b)")))).
  conj; vm_compute; reflexivity.
Qed.
Print Assumptions C43_roundtrip_refuted.

(** C43.  For patterns in which the library has nothing to rewrite (no alternatives, no
    non-capturing groups, only possessive quantifiers, no one-character escapes) the expression
    is the pattern text itself. *)
Theorem C43_expression_partial : forall r n, wf r = true -> plain_rx r = true -> compile (show r) = Some n -> get_expression n = show r.
Proof. exact expr_same. Qed.
Print Assumptions C43_expression_partial.
Example C43_case : exists r n, wf r = true /\ plain_rx r = true /\ show r = S2L "^a(\w++[x-z](.)?+)b*+" /\ compile (show r) = Some n /\ get_expression n = show r.
Proof.
  exists (ROne (Br true (seqs [(lit "a", Q1); (ACap 0 (pat [(AEl (EEsc 119), QQ QPlus Po); (AEl (EClass false [CRange 120 122]), Q1); (ACap 1 (pat [(AEl EDot, Q1)]), QQ QOpt Po)]), Q1); (lit "b", QQ QStar Po)]))),
    (node_of (S2L "^a(\w++[x-z](.)?+)b*+")).
  conj; vm_compute; reflexivity.
Qed.
