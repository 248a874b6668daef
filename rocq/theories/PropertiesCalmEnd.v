(** C19, C20, C38, C47: patterns with $ that are [calm_d] (SpecCalmEnd.v) as they are written never
    make the library leave the query; and what [calm] and [honest] (SpecSure.v) give together. *)
From Coq Require Import String ZArith NArith List Bool Lia ZifyBool ZifyNat ZifyN.
From Verif Require Import Base Text Ast Builder Engine Api Spec SpecProofs SpecEnd Tree ParseProofs Den AstProofs BuilderProofs EngineOk ApiProofs Supported Find Main Safe Refuted PropertiesMatch PropertiesSafe SpecTok TokIter Anchor Tok PropertiesTok TokSafe SpecFields SpecChoice SpecLL LL SpecCalm Calm PropertiesCalm End EndD SpecSure PropertiesSure SpecCalmEnd CalmEnd.
Import ListNotations.
Open Scope nat_scope.

(** C19.  A well-formed [calm_d] pattern with $ behind every branch compiles, and on every query
    that a byte other than a newline follows in memory (the terminator of a string, say) no call
    does anything undefined, nor reports anything outside of the query.
    Missing: patterns that are not [calm_d], a newline or nothing behind the query (false,
    C19_memory_refuted). *)
Theorem C19_calm_end_partial : forall r pre w c p, wf r = true -> calm_d r = true -> query_ok w -> c <> c_nl ->
  let e := env_of pre w (c :: p) in
  let inside (v : Z * Z) := (qb e <= fst v <= qe e /\ qb e <= snd v <= qe e)%Z in
  exists n, compile (show_d r) = Some n
  /\ (forall fuel, create fuel e n <> RUB)
  /\ (forall s, reach e n s ->
        (forall fuel, next fuel e n s <> RUB)
        /\ (forall v, to_view s = Some v -> inside v /\ (fst v <= snd v)%Z)
        /\ (forall k v, get_group s (S k) = Some (Some v) -> inside v)).
Proof.
  intros r pre w c p W C Q N e inside. exists (ctree_d r). split; [now apply compile_d|].
  exact (C19_memory_partial true (show_d r) (ctree_d r) pre w (c :: p) (compile_d r W) (calm_safe_d r W C) Q ltac:(discriminate) ltac:(eauto)).
Qed.
Print Assumptions C19_calm_end_partial.

(** C20.  Its results depend on the text of the query only, whatever surrounds it (as long as no
    newline follows it): on the same text at another place every result is the same, up to the
    distance; and every call returns. *)
Theorem C20_calm_end_partial : forall r w pre1 c1 p1 pre2 c2 p2, wf r = true -> calm_d r = true ->
  query_ok w -> c1 <> c_nl -> c2 <> c_nl ->
  let e1 := env_of pre1 w (c1 :: p1) in
  let e2 := env_of pre2 w (c2 :: p2) in
  let d := (qb e2 - qb e1)%Z in
  exists n, compile (show_d r) = Some n
  /\ (forall fuel, length w < fuel -> (exists s, create fuel e1 n = RDone s) /\ create fuel e2 n = shift_rout d (create fuel e1 n))
  /\ (forall s, reach e1 n s -> reach e2 n (shift_st d s)
        /\ forall fuel, length w < fuel -> next fuel e2 n (shift_st d s) = shift_rout d (next fuel e1 n s)).
Proof.
  intros r w pre1 c1 p1 pre2 c2 p2 W C Q N1 N2 e1 e2 d. exists (ctree_d r). split; [now apply compile_d|].
  destruct (C20_surroundings_partial true (show_d r) (ctree_d r) w pre1 (c1 :: p1) pre2 (c2 :: p2) (compile_d r W) (calm_safe_d r W C) Q ltac:(discriminate) ltac:(discriminate) ltac:(eauto) ltac:(eauto)) as [A B].
  split; [|exact B]. intros fuel F. split; [|now apply A].
  destruct (create_two pre1 (c1 :: p1) pre1 (c1 :: p1) w true (ctree_d r) ltac:(eauto) ltac:(eauto) (q_chars w Q) (q_len w Q) (calm_safe_d r W C) ltac:(discriminate) ltac:(discriminate) fuel F) as (t & _ & E & _). eauto.
Qed.
Print Assumptions C20_calm_end_partial.

(** C47, C19.  Validation with ^...$ of a pattern that is [calm_d] and [honest_d]: the check of
    any text without newlines returns, does nothing undefined, and accepts only if the pattern
    matches the text completely. *)
Theorem C47_check_partial : forall r pre w c p, wf r = true -> calm_d r = true -> honest_d r = true -> Anchor.anchored r = true ->
  query_ok w -> c <> c_nl -> ~ In c_nl w ->
  exists n s, compile (show_d r) = Some n /\ create (S (length w)) (env_of pre w (c :: p)) n = RDone s
  /\ (is_accepted s = true -> to_view s = Some (place pre 0 (length w)) /\ lang w r 0 (length w)).
Proof.
  intros r pre w c p W C H An Q N L. destruct (C47_honest_partial r pre w c p W H An N L) as (n & E & X).
  destruct (C20_calm_end_partial r w pre c p pre c p W C Q N N) as (n' & E' & Y & _). rewrite E in E'. injection E' as <-. destruct (Y (S (length w)) ltac:(lia)) as [(s & Es) _].
  exists n, s. split; [exact E|]. split; [exact Es|]. intro A. apply X; [|exact A]. eapply ReachCreate. exact Es.
Qed.
Print Assumptions C47_check_partial.

(** C38, C40, C42.  Definitions that are both [calm] and [honest]: the tokenizer is defined, a
    range-for over any input ends, does nothing undefined, and the tokens shown cut the input:
    each is a non-empty text of a definition of its type and stands at the beginning or behind a
    text of a separator.  Missing: other definitions (false, C42_anchor_refuted). *)
Theorem C38_calm_cut_partial : forall ds pre w post, forallb calm_def ds = true -> forallb honest_def ds = true ->
  tok_defs ds <> [] -> sep_defs ds <> [] -> query_ok w -> post <> [] ->
  exists d ts, make_defs (map def_text ds) = Some d
  /\ tok_range_for (S (length w)) (S (length w)) (env_of pre w post) d = Some (map (fun t => Some (as_shown pre t)) ts)
  /\ cut_of ds w 0 ts.
Proof.
  intros ds pre w post C H NT NS Q P. destruct (C40_calm_partial ds pre w post C NT NS Q P) as (d & l & M & R & _).
  destruct (C42_honest_partial ds d pre w post _ _ l H M R) as (ts & -> & K). eauto.
Qed.
Print Assumptions C38_calm_cut_partial.

(** Cases: ^\w+@\w+$   ^(?:a|ab)c$   (\d+)-x?$|^b+c*$ *)
Definition calm_end_cases : list rx :=
  [ ROne (Br true (seqs [(w1, plus); (lit "@", Q1); (w1, plus)]));
    ROne (Br true (seqs [(ANon (alts2 [(lit "a", Q1)] [(lit "a", Q1); (lit "b", Q1)]), Q1); (lit "c", Q1)]));
    ROr (Br false (seqs [(ACap 0 (pat [(digits, plus)]), Q1); (lit "-", Q1); (lit "x", opt)])) (ROne (Br true (seqs [(lit "b", plus); (lit "c", star)]))) ].
Example C19_calm_end_case : forallb (fun r => wf r && calm_d r) calm_end_cases = true
  /\ map (fun r => honest_d r && Anchor.anchored r) calm_end_cases = [true; true; false]
  /\ map show_d calm_end_cases = map S2L ["^\w+@\w+$"; "^(?:a|ab)c$"; "(\d+)-x?$|^b+c*$"]%string
  /\ map (fun x => match compile (show_d (fst x)) with
                   | Some n => match create 20 (env_of [7%Z] (S2L (snd x)) [0%Z]) n with RDone s => Some (is_accepted s, to_view s) | _ => None end
                   | None => None end)
       (combine calm_end_cases ["me@you"; "abd"; "  42-x"]%string)
     = [Some (true, Some (1, 7)%Z); Some (false, None); Some (true, Some (3, 7)%Z)].
Proof. conj; vm_compute; reflexivity. Qed.
Example C38_calm_cut_case : let ds := [Tok 0 (pat [(w1, plus); (lit "@", Q1); (w1, plus)]); Tok 1 (nth 0 honest_cases (pat [])); Sep (pat [(AEl (EEsc 115), plus)])] in
  forallb calm_def ds = true /\ forallb honest_def ds = true /\ tok_defs ds <> [] /\ sep_defs ds <> []
  /\ match make_defs (map def_text ds) with
     | Some d => tok_range_for 20 20 (env_of [] (S2L "me@you  ac a@b abc"%string) [0%Z]) d = Some [Some ((0, 6)%Z, 0); Some ((8, 10)%Z, 1); Some ((11, 14)%Z, 0)]
     | None => False
     end.
Proof. intro ds. conj; try discriminate; vm_compute; reflexivity. Qed.
