(** Properties the code does not have: each theorem gives a concrete pattern and query
    for which the model computes something the property forbids.  The specification side
    ([lang], [match_at], [search]) is that of Spec.v. *)
From Coq Require Import ZArith NArith List Bool Lia String.
From Verif Require Import Base Text Ast Builder Engine Api TokIter Spec SpecProofs.
Import ListNotations.
Open Scope Z_scope.
Local Open Scope string_scope.

(** Shorthands to write pattern objects. *)
Definition lit (c : string) : atom := AEl (ELit (hd 0 (S2L c))).
Definition esc (c : string) : atom := AEl (EEsc (hd 0 (S2L c))).
Definition cch (c : string) : citem := CChar (hd 0 (S2L c)).
Definition star := QQ QStar Gr.
Definition plus := QQ QPlus Gr.
Definition opt := QQ QOpt Gr.
Fixpoint seqs (l : list (atom * quant)) : sq :=
  match l with [] => SNil | (a, q) :: r => SCons a q (seqs r) end.
Definition pat (l : list (atom * quant)) : rx := ROne (Br false (seqs l)).

(** [p] on the C string [w] (followed by its NUL) *)
Definition on (p w : string) : option rout := run_regex (S2L p) [] (S2L w) [0].

(** A property of results is refuted by a pattern the syntax admits. *)
Definition admits (r : rx) (p : string) : Prop := wf r = true /\ numbered r /\ show r = S2L p.
Ltac admits := unfold admits, numbered; conj; vm_compute; reflexivity.

(** C02/C09: a bracket inside a class breaks the splitting at '|': "[(]|a" does not match
    "a", and "([)])" does not even compile. *)
Theorem C02_split_refuted :
  (exists s, on "[(]|a" "a" = Some (RDone s) /\ is_accepted s = false)
  /\ on "([)])" ")" = None.
Proof. split; [eexists; split|]; vm_compute; reflexivity. Qed.
Print Assumptions C02_split_refuted.

(** C05: \x4A is the letter J (0x4A = 74) but matches "Q" and not "J"; with a lower-case
    digit it is read as \x4 followed by the letter. *)
Theorem C05_hex_refuted :
  (exists s, on "\x4A" "J" = Some (RDone s) /\ is_accepted s = false)
  /\ (exists s, on "\x4A" "Q" = Some (RDone s) /\ is_accepted s = true)
  /\ (exists s, on "\x4a" "J" = Some (RDone s) /\ is_accepted s = false).
Proof. repeat split; eexists; split; vm_compute; reflexivity. Qed.
Print Assumptions C05_hex_refuted.

(** C08: [\sa] does not match "a"; [^a] skips a character when it fails, so the match of
    [^a]c in "xabc" is lost. *)
Theorem C08_class_refuted :
  (exists s, on "[\sa]" "a" = Some (RDone s) /\ is_accepted s = false)
  /\ (exists s, on "[^a]c" "xabc" = Some (RDone s) /\ is_accepted s = false).
Proof. repeat split; eexists; split; vm_compute; reflexivity. Qed.
Print Assumptions C08_class_refuted.

(** C12: in (a)(?:b)(c) both groups use slot 0: result[1] is "c", result[2] stays empty. *)
Definition r12 : rx := pat [(ACap 0 (pat [(lit "a", Q1)]), Q1);
                            (ANon (pat [(lit "b", Q1)]), Q1);
                            (ACap 1 (pat [(lit "c", Q1)]), Q1)].
Theorem C12_numbering_refuted : exists s,
  admits r12 "(a)(?:b)(c)"
  /\ on "(a)(?:b)(c)" "abc" = Some (RDone s) /\ is_accepted s = true
  /\ match_at (S2L "abc") r12 0 = Some (3%nat, [(1, (2, 3)); (0, (0, 1))]%nat)
  /\ get_group s 1 = Some (Some (2, 3)) /\ get_group s 2 = Some None.
Proof. eexists. split; [admits|]. conj; vm_compute; reflexivity. Qed.
Print Assumptions C12_numbering_refuted.

(** C15: the parsed tree of (ba+)a matches "baa"; the optimised one does not. *)
Theorem C15_optimise_refuted : exists n n' s s',
  parse (S2L "(ba+)a") = Some n /\ compile (S2L "(ba+)a") = Some n'
  /\ create 10 (env_of [] (S2L "baa") [0]) n = RDone s /\ is_accepted s = true
  /\ create 10 (env_of [] (S2L "baa") [0]) n' = RDone s' /\ is_accepted s' = false.
Proof. do 4 eexists. conj; vm_compute; reflexivity. Qed.
Print Assumptions C15_optimise_refuted.

(** C16: is_independent says that [ba] and a are independent; both match "a". *)
Theorem C16_independent_refuted : exists n1 n2 s1 s2,
  compile (S2L "[ba]") = Some n1 /\ compile (S2L "a") = Some n2
  /\ is_independent n1 n2 = true
  /\ on "[ba]" "a" = Some (RDone s1) /\ to_view s1 = Some (0, 1)
  /\ on "a" "a" = Some (RDone s2) /\ to_view s2 = Some (0, 1).
Proof. do 4 eexists. conj; vm_compute; reflexivity. Qed.
Print Assumptions C16_independent_refuted.

(** C18, C21: aa?a accepts the "a" of "ab": shorter than the minimum 2 and not in the
    language. *)
Definition r21 : rx := pat [(lit "a", Q1); (lit "a", opt); (lit "a", Q1)].
Theorem C18_min_size_refuted : exists n s,
  compile (S2L "aa?a") = Some n /\ nmin n = 2%N
  /\ on "aa?a" "ab" = Some (RDone s) /\ to_view s = Some (0, 1).
Proof. do 2 eexists. conj; vm_compute; reflexivity. Qed.
Print Assumptions C18_min_size_refuted.
Theorem C21_soundness_refuted : exists s,
  admits r21 "aa?a"
  /\ on "aa?a" "ab" = Some (RDone s) /\ is_accepted s = true
  /\ forall i j, (i <= 2)%nat -> ~ lang (S2L "ab") r21 i j.
Proof.
  eexists. split; [admits|]. split; [vm_compute; reflexivity|]. split; [reflexivity|].
  intros i j Hi. apply match_at_none; [reflexivity| |exact Hi].
  destruct i as [|[|[|i]]]; [vm_compute; reflexivity ..|lia].
Qed.
Print Assumptions C21_soundness_refuted.

(** C19: a query that is not followed by readable memory.  a$ on the one-byte buffer "a"
    reads past the end; a+b on "xaa" forms a pointer beyond one-past-the-end;
    a(?:ab)?a on "ac" and the usual pattern for a decimal number on "3x" move a pointer before the buffer; \x{4141} reads past the end. *)
Theorem C19_memory_refuted :
  run_regex (S2L "a$") [] (S2L "a") [] = Some RUB
  /\ run_regex (S2L "a+b") [] (S2L "xaa") [] = Some RUB
  /\ run_regex (S2L "a(?:ab)?a") [] (S2L "ac") [0] = Some RUB
  /\ run_regex (S2L "^\d+(?:\.\d+)?$") [] (S2L "3x") [0] = Some RUB
  /\ run_regex (S2L "\x{4141}") [] (S2L "A") [] = Some RUB.
Proof. conj; vm_compute; reflexivity. Qed.
Print Assumptions C19_memory_refuted.

(** C20: the result of a$ on "a" depends on the byte after the query; so does \x{4141}. *)
Theorem C20_surroundings_refuted : exists s s' t t',
  run_regex (S2L "a$") [] (S2L "a") [0] = Some (RDone s) /\ to_view s = Some (0, 1)
  /\ run_regex (S2L "a$") [] (S2L "a") [10] = Some (RDone s') /\ to_view s' = Some (0, 2)
  /\ run_regex (S2L "\x{4141}") [] (S2L "A") [0] = Some (RDone t) /\ is_accepted t = false
  /\ run_regex (S2L "\x{4141}") [] (S2L "A") [65] = Some (RDone t') /\ is_accepted t' = true.
Proof. do 4 eexists. conj; vm_compute; reflexivity. Qed.
Print Assumptions C20_surroundings_refuted.

(** C22, C32: (a|ab)c does not find "abc"; \s does not find the blank of "aa b";
    [^a]+ does not find the "b" of "aab"; \d{2}a does not find "12a" in "112a". *)
Definition r22 : rx := pat [(ANon (ROr (Br false (seqs [(lit "a", Q1)]))
                                    (pat [(lit "a", Q1); (lit "b", Q1)])), Q1); (lit "c", Q1)].
Theorem C22_completeness_refuted : exists s s2 s3 s4,
  admits r22 "(?:a|ab)c"
  /\ on "(?:a|ab)c" "abc" = Some (RDone s) /\ is_accepted s = false
  /\ lang (S2L "abc") r22 0 3
  /\ on "\s" "aa b" = Some (RDone s2) /\ is_accepted s2 = false
  /\ on "[^a]+" "aab" = Some (RDone s3) /\ is_accepted s3 = false
  /\ on "\d{2}a" "112a" = Some (RDone s4) /\ is_accepted s4 = false.
Proof.
  do 4 eexists. split; [admits|]. split; [vm_compute; reflexivity|]. split; [reflexivity|].
  split.
  - apply (match_at_lang (S2L "abc") r22 0 (3%nat, [])); vm_compute; reflexivity.
  - conj; vm_compute; reflexivity.
Qed.
Print Assumptions C22_completeness_refuted.

(** C23: a{1,2}b reports the match at 2 in "aaab" although one starts at 1. *)
Definition r23 : rx := pat [(lit "a", QQ (QMinMax [1] [2]) Gr); (lit "b", Q1)].
Theorem C23_leftmost_refuted : exists s,
  admits r23 "a{1,2}b"
  /\ on "a{1,2}b" "aaab" = Some (RDone s) /\ to_view s = Some (2, 4)
  /\ search (S2L "aaab") r23 0 = Some (1, (4, []))%nat.
Proof. eexists. split; [admits|]. conj; vm_compute; reflexivity. Qed.
Print Assumptions C23_leftmost_refuted.

(** C24: the lazy a+? reports "aaa". *)
Definition r24 : rx := pat [(lit "a", QQ QPlus Lz)].
Theorem C24_lazy_refuted : exists s,
  admits r24 "a+?"
  /\ on "a+?" "aaa" = Some (RDone s) /\ to_view s = Some (0, 3)
  /\ search (S2L "aaa") r24 0 = Some (0, (1, []))%nat.
Proof. eexists. split; [admits|]. conj; vm_compute; reflexivity. Qed.
Print Assumptions C24_lazy_refuted.

(** C25: \s|b does not match "b": the failed first branch moves the position.
    (a)b|c on "xac" glues the failed first branch to the second: "ac". *)
Definition r25 : rx := ROr (Br false (seqs [(ACap 0 (pat [(lit "a", Q1)]), Q1); (lit "b", Q1)]))
                           (pat [(lit "c", Q1)]).
Theorem C25_alternatives_refuted : exists s s2,
  on "\s|b" "b" = Some (RDone s) /\ is_accepted s = false
  /\ admits r25 "(a)b|c"
  /\ on "(a)b|c" "xac" = Some (RDone s2) /\ to_view s2 = Some (1, 3)
  /\ search (S2L "xac") r25 0 = Some (2, (3, []))%nat.
Proof. do 2 eexists. split; [vm_compute; reflexivity|]. split; [reflexivity|]. split; [admits|].
  conj; vm_compute; reflexivity. Qed.
Print Assumptions C25_alternatives_refuted.

(** C27: [^a]+ misses the run "b" of "aab". *)
Theorem C27_run_refuted : exists s,
  on "[^a]+" "aab" = Some (RDone s) /\ is_accepted s = false.
Proof. eexists. split; vm_compute; reflexivity. Qed.
Print Assumptions C27_run_refuted.

(** C28: ^b does not match at the beginning of the second line (README line 93). *)
Theorem C28_line_start_refuted : exists s,
  run_regex (S2L "^b") [] (S2L "a" ++ [10] ++ S2L "b") [0] = Some (RDone s)
  /\ is_accepted s = false.
Proof. eexists. split; vm_compute; reflexivity. Qed.
Print Assumptions C28_line_start_refuted.

(** C29: a$ includes the line feed in the match, and $ alone finds nothing in "ab". *)
Theorem C29_end_anchor_refuted : exists s s2,
  run_regex (S2L "a$") [] (S2L "a" ++ [10]) [0] = Some (RDone s) /\ to_view s = Some (0, 2)
  /\ on "$" "ab" = Some (RDone s2) /\ is_accepted s2 = false.
Proof. do 2 eexists. conj; vm_compute; reflexivity. Qed.
Print Assumptions C29_end_anchor_refuted.

(** C31: a call that never returns: (a)(?:bb)?b on the view "ac" inside the buffer "xac".
    Every number of turns of the loop of next() is too few. *)
Theorem C31_terminates_refuted : exists n,
  compile (S2L "(a)(?:bb)?b") = Some n
  /\ forall fuel, create fuel (env_of (S2L "x") (S2L "ac") [0]) n = RFuel.
Proof.
  eexists. split; [vm_compute; reflexivity|].
  match goal with |- forall fuel, create fuel ?e ?n = _ => set (E := e); set (N0 := n) end.
  assert (L : forall f, next_loop f E N0 (mkSt 1 1 [Some (1, 2)] false) = RFuel).
  { induction f as [|f IH]; [vm_compute; reflexivity|].
    cbn [next_loop].
    replace (mt E N0 [] (mkSt 1 1 [Some (1, 2)] false))
      with (Ok (mkSt 1 0 [Some (1, 2)] false)) by (vm_compute; reflexivity).
    exact IH. }
  intro fuel. unfold create.
  replace (mt E N0 [] (fresh E N0)) with (Ok (mkSt 1 0 [Some (1, 2)] false))
    by (vm_compute; reflexivity).
  destruct fuel as [|[|f]]; [vm_compute; reflexivity ..|].
  change (next (S (S f)) E N0 (mkSt 1 0 [Some (1, 2)] false))
    with (next_loop (S (S f)) E N0 (mkSt 0 0 [None] false)).
  cbn [next_loop].
  replace (mt E N0 [] (mkSt 0 0 [None] false))
    with (Ok (mkSt 0 0 [None] false)) by (vm_compute; reflexivity).
  change (next_loop (S f) E N0 (mkSt 1 1 [None] false) = RFuel).
  cbn [next_loop].
  replace (mt E N0 [] (mkSt 1 1 [None] false))
    with (Ok (mkSt 1 0 [Some (1, 2)] false)) by (vm_compute; reflexivity).
  apply L.
Qed.
Print Assumptions C31_terminates_refuted.

(** C31, C33: a* on "b" is accepted with the empty match at 0 for ever: next() does not
    move, so the range-for never ends. *)
Theorem C31_empty_match_refuted : exists n s,
  compile (S2L "a*") = Some n
  /\ (forall fuel, create (S fuel) (env_of [] (S2L "b") [0]) n = RDone s)
  /\ is_accepted s = true
  /\ (forall fuel, next (S fuel) (env_of [] (S2L "b") [0]) n s = RDone s).
Proof.
  do 2 eexists. split; [vm_compute; reflexivity|].
  split; [intro fuel; vm_compute; reflexivity|]. split; [reflexivity|].
  intro fuel. vm_compute. reflexivity.
Qed.
Print Assumptions C31_empty_match_refuted.

(** C30, C32: next() can go back: (a)(?:bbbb)?b on "xaba" reports "ab" at 1, and then, after
    every call of next(), the same "ab" again.  The failed attempt at 3 leaves the end four
    characters further left, and the search resumes from there. *)
Definition r30 : rx :=
  pat [(ACap 0 (pat [(lit "a", Q1)]), Q1);
       (ANon (pat [(lit "b", Q1); (lit "b", Q1); (lit "b", Q1); (lit "b", Q1)]), opt); (lit "b", Q1)].
Theorem C30_no_overlap_refuted : exists n s,
  admits r30 "(a)(?:bbbb)?b" /\ compile (S2L "(a)(?:bbbb)?b") = Some n
  /\ create 5 (env_of [] (S2L "xaba") [0]) n = RDone s /\ to_view s = Some (1, 3)
  /\ forall fuel, next (5 + fuel) (env_of [] (S2L "xaba") [0]) n s = RDone s.
Proof.
  do 2 eexists. split; [admits|]. split; [vm_compute; reflexivity|]. split; [vm_compute; reflexivity|].
  split; [reflexivity|]. intro fuel. vm_compute. reflexivity.
Qed.
Print Assumptions C30_no_overlap_refuted.
(** The two matches of (a)(?:bbb)?b on "abba" that next() reports: the second one ends before
    it starts. *)
Theorem C32_enumerates_refuted : exists n s s',
  compile (S2L "(a)(?:bbb)?b") = Some n
  /\ create 5 (env_of [] (S2L "abba") [0]) n = RDone s /\ to_view s = Some (0, 2)
  /\ next 5 (env_of [] (S2L "abba") [0]) n s = RDone s' /\ to_view s' = Some (3, 2).
Proof. do 3 eexists. conj; vm_compute; reflexivity. Qed.
Print Assumptions C32_enumerates_refuted.

(** C40, C50: the same in a tokenizer.  With the token definition x|(a)(?:bbbbb)?b and the
    separator " ", on "dab ac" the first token is "ab" at 1; incrementing the iterator leaves
    it where it is, for ever. *)
Theorem C50_iterators_refuted : exists d it,
  make_defs [DTok 0 (S2L "x|(a)(?:bbbbb)?b"); DSep (S2L " ")] = Some d
  /\ iter_create 6 (env_of [] (S2L "dab ac") [0]) d = Some it
  /\ iter_bool it = true /\ i_last it = Some ((1, 3), 0%nat)
  /\ forall fuel, advance (6 + fuel) (env_of [] (S2L "dab ac") [0]) d it = Some it.
Proof.
  do 2 eexists. split; [vm_compute; reflexivity|]. split; [vm_compute; reflexivity|]. split; [reflexivity|].
  split; [reflexivity|]. intro fuel. vm_compute. reflexivity.
Qed.
Print Assumptions C50_iterators_refuted.

(** C44, C45: a negated class that fails moves on, so the search skips the next position:
    [^a]b does not find "cb" in "aacb", [^a]{2} does not find "cc" in "aacc". *)
Definition r44 : rx := pat [(AEl (EClass true [cch "a"]), Q1); (lit "b", Q1)].
Definition r45 : rx := pat [(AEl (EClass true [cch "a"]), QQ (QExact [2]) Gr)].
Theorem C44_pointwise_refuted : exists s,
  admits r44 "[^a]b" /\ on "[^a]b" "aacb" = Some (RDone s) /\ is_accepted s = false
  /\ search (S2L "aacb") r44 0 = Some (2, (4, []))%nat.
Proof. eexists. split; [admits|]. conj; vm_compute; reflexivity. Qed.
Print Assumptions C44_pointwise_refuted.
Theorem C45_repeat_refuted : exists s,
  admits r45 "[^a]{2}" /\ on "[^a]{2}" "aacc" = Some (RDone s) /\ is_accepted s = false
  /\ search (S2L "aacc") r45 0 = Some (2, (4, []))%nat.
Proof. eexists. split; [admits|]. conj; vm_compute; reflexivity. Qed.
Print Assumptions C45_repeat_refuted.

(** C35: x(a)b|xac on "xac": the match is the second branch, whose capture is unset, but
    result[1] is "a". *)
Definition r35 : rx :=
  ROr (Br false (seqs [(lit "x", Q1); (ACap 0 (pat [(lit "a", Q1)]), Q1); (lit "b", Q1)]))
      (pat [(lit "x", Q1); (lit "a", Q1); (lit "c", Q1)]).
Theorem C35_captures_refuted : exists s,
  admits r35 "x(a)b|xac"
  /\ on "x(a)b|xac" "xac" = Some (RDone s) /\ to_view s = Some (0, 3)
  /\ match_at (S2L "xac") r35 0 = Some (3%nat, [])
  /\ get_group s 1 = Some (Some (1, 2)).
Proof. eexists. split; [admits|]. conj; vm_compute; reflexivity. Qed.
Print Assumptions C35_captures_refuted.

(** C36: (a)b on "xac" is not accepted, but result[1] is "a". *)
Theorem C36_failed_captures_refuted : exists s,
  on "(a)b" "xac" = Some (RDone s) /\ is_accepted s = false
  /\ get_group s 1 = Some (Some (1, 2)).
Proof. eexists. conj; vm_compute; reflexivity. Qed.
Print Assumptions C36_failed_captures_refuted.

(** C38, C42: a token definition b|c is compiled to ^b|c, where c is not anchored: on
    "xc" the first token is "c" at offset 1, and "x" is skipped. *)
Theorem C42_anchor_refuted : exists d it,
  make_defs [DTok 0 (S2L "b|c"); DSep (S2L " ")] = Some d
  /\ iter_create 10 (env_of [] (S2L "xc") [0]) d = Some it
  /\ i_last it = Some ((1, 2), 0%nat).
Proof. do 2 eexists. conj; vm_compute; reflexivity. Qed.
Print Assumptions C42_anchor_refuted.

(** C43: the expression of \. is ".", which matches "x" while \. does not; the expression
    of (?:a|b)c is "(?:a)|(?:b)c", which matches "a". *)
Theorem C43_expression_refuted : exists n n2 s s2 s3 s4,
  compile (S2L "\.") = Some n /\ get_expression n = S2L "."
  /\ on "\." "x" = Some (RDone s) /\ is_accepted s = false
  /\ on "." "x" = Some (RDone s2) /\ is_accepted s2 = true
  /\ compile (S2L "(?:a|b)c") = Some n2 /\ get_expression n2 = S2L "(?:a)|(?:b)c"
  /\ on "(?:a|b)c" "a" = Some (RDone s3) /\ is_accepted s3 = false
  /\ on "(?:a)|(?:b)c" "a" = Some (RDone s4) /\ is_accepted s4 = true.
Proof. do 6 eexists. conj; vm_compute; reflexivity. Qed.
Print Assumptions C43_expression_refuted.
