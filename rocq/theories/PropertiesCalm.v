(** C19, C20, C40: patterns that are [calm] (SpecCalm.v) as they are written never make the
    library leave the query. *)
From Coq Require Import String ZArith NArith List Bool Lia ZifyBool ZifyNat ZifyN.
From Verif Require Import Base Text Ast Builder Engine Api Spec SpecProofs Tree ParseProofs Den AstProofs BuilderProofs EngineOk EngineMain ApiProofs Supported Main Safe PropertiesMatch PropertiesSafe SpecTok TokIter Anchor Tok Refuted PropertiesTok TokSafe SpecFields SpecChoice SpecLL LL SpecCalm Calm.
Import ListNotations.
Open Scope nat_scope.

Lemma calm_compile r : wf r = true -> compile (show r) = Some (ctree r).
Proof. intro W. rewrite compile_eq, (parse_show r W). reflexivity. Qed.

(** C19.  A well-formed [calm] pattern compiles, and no call that a program can make on any
    query does anything undefined, nor reports anything outside of the query.
    Missing: patterns that are not [calm] (false, C19_memory_refuted). *)
Theorem C19_calm_partial : forall r pre w post, wf r = true -> calm r none = true -> query_ok w -> post <> [] ->
  let e := env_of pre w post in
  let inside (v : Z * Z) := (qb e <= fst v <= qe e /\ qb e <= snd v <= qe e)%Z in
  exists n, compile (show r) = Some n
  /\ (forall fuel, create fuel e n <> RUB)
  /\ (forall s, reach e n s ->
        (forall fuel, next fuel e n s <> RUB)
        /\ (forall v, to_view s = Some v -> inside v /\ (fst v <= snd v)%Z)
        /\ (forall k v, get_group s (S k) = Some (Some v) -> inside v)).
Proof.
  intros r pre w post W C Q P e inside. exists (ctree r). split; [now apply calm_compile|].
  exact (C19_memory_partial false (show r) (ctree r) pre w post (calm_compile r W) (calm_safe r W C) Q P (no_end post)).
Qed.
Print Assumptions C19_calm_partial.

(** C20.  The results of a well-formed [calm] pattern depend on the text of the query only: on
    the same text at another place every result is the same, up to the distance. *)
Theorem C20_calm_partial : forall r w pre1 post1 pre2 post2, wf r = true -> calm r none = true ->
  query_ok w -> post1 <> [] -> post2 <> [] ->
  let e1 := env_of pre1 w post1 in
  let e2 := env_of pre2 w post2 in
  let d := (qb e2 - qb e1)%Z in
  exists n, compile (show r) = Some n
  /\ (forall fuel, length w < fuel -> create fuel e2 n = shift_rout d (create fuel e1 n))
  /\ (forall s, reach e1 n s -> reach e2 n (shift_st d s)
        /\ forall fuel, length w < fuel -> next fuel e2 n (shift_st d s) = shift_rout d (next fuel e1 n s)).
Proof.
  intros r w pre1 post1 pre2 post2 W C Q P1 P2 e1 e2 d. exists (ctree r). split; [now apply calm_compile|].
  exact (C20_surroundings_partial false (show r) (ctree r) w pre1 post1 pre2 post2 (calm_compile r W) (calm_safe r W C) Q P1 P2 (no_end post1) (no_end post2)).
Qed.
Print Assumptions C20_calm_partial.

(** C40.  Definitions that are well-formed, [calm] and do not begin with ^: the tokenizer is
    defined, a range-for over any input ends, does nothing undefined and shows non-empty
    pieces of the input, in order and without overlap. *)
Definition calm_def (d : tdef) : bool := match d with Tok _ r | Sep r => Tok.bare r && wf r && calm r none end.
Lemma calm_caret r : Tok.bare r && wf r && calm r none = true -> compile (TokIter.anchored (show r)) = Some (ctree (caret r)) /\ safe false (ngroups (ctree (caret r))) (ctree (caret r)) = true.
Proof.
  rewrite !andb_true_iff. intros [[B W] C]. rewrite <- show_caret by exact B.
  assert (W' : wf (caret r) = true) by (destruct r as [[b s]|[b s] r]; exact W).
  assert (C' : calm (caret r) none = true) by (destruct r as [[[] s]|[[] s] r]; exact C).
  split; [now apply calm_compile|now apply calm_safe].
Qed.
Lemma calm_split ds : forallb calm_def ds = true -> exists d, split_defs (map def_text ds) = Some d /\ safe_defs d = true
  /\ length (d_toks d) = length (tok_defs ds) /\ length (d_seps d) = length (sep_defs ds).
Proof.
  induction ds as [|[ty r|r] ds IH]; cbn [forallb map def_text split_defs tok_defs sep_defs calm_def].
  - intros _. eexists. conj; reflexivity.
  - intro H. apply andb_true_iff in H as [H1 H2]. destruct (calm_caret r H1) as [C S]. destruct (IH H2) as (d & E & D & L1 & L2). rewrite C, E. eexists. split; [reflexivity|].
    unfold safe_defs in *. cbn [d_seps d_toks forallb snd length]. apply andb_true_iff in D as [D1 D2]. rewrite D1, D2, S, L1, L2. conj; reflexivity.
  - intro H. apply andb_true_iff in H as [H1 H2]. destruct (calm_caret r H1) as [C S]. destruct (IH H2) as (d & E & D & L1 & L2). rewrite C, E. eexists. split; [reflexivity|].
    unfold safe_defs in *. cbn [d_seps d_toks forallb snd length]. apply andb_true_iff in D as [D1 D2]. rewrite D1, D2, S, L1, L2. conj; reflexivity.
Qed.
Theorem C40_calm_partial : forall ds pre w post, forallb calm_def ds = true -> tok_defs ds <> [] -> sep_defs ds <> [] ->
  query_ok w -> post <> [] ->
  let e := env_of pre w post in
  exists d l, make_defs (map def_text ds) = Some d
  /\ tok_range_for (S (length w)) (S (length w)) e d = Some l /\ length l <= length w /\ pieces (qb e) (qe e) l.
Proof.
  intros ds pre w post C NT NS Q P e. destruct (calm_split ds C) as (d & E & S & L1 & L2).
  assert (M : make_defs (map def_text ds) = Some d).
  { unfold make_defs. rewrite E. destruct (d_toks d); [destruct (tok_defs ds); [congruence|discriminate]|]. destruct (d_seps d); [destruct (sep_defs ds); [congruence|discriminate]|]. reflexivity. }
  destruct (C40_safe_partial (map def_text ds) d pre w post M S Q P) as (l & A & B & D). exists d, l. conj; auto.
Qed.
Print Assumptions C40_calm_partial.

(** C41 (concrete definitions: C40_calm_case below).  Every increment of an exhausted iterator
    of a tokenizer of [calm] definitions returns
    and leaves it exhausted: it equals end(), and is false. *)
Lemma safe_null fuel e n : safe false (ngroups n) n = true -> exists v, run_view fuel e None n = Some v /\ vsize v = 0%Z.
Proof.
  intro S. unfold run_view. change (cur_env e None) with (env_of [] [] []). unfold create, fresh. rewrite <- (at_qb [] [] []).
  assert (HR : R [] [] [] (ngroups n) 0 0 (EngineOk.mk [] (EngineOk.at_ [] 0) 0 (no_groups n) true) (EngineOk.mk [] (EngineOk.at_ [] 0) 0 (no_groups n) true)).
  { exists (no_groups n), (no_groups n), true. conj; auto using none_two. unfold no_groups. apply repeat_length. }
  destruct (mt_safe [] [] [] [] [] false (ngroups n) (no_end []) (no_end []) (Forall_nil _) ltac:(cbn; unfold UMAX; lia) n S [] [] (Forall2_nil _) 0 0 _ _ HR) as (j & t & t' & E1 & _ & Ht & _).
  destruct (R_le _ _ _ _ _ _ _ _ Ht) as [_ Lj]. destruct (R_end _ _ _ _ _ _ _ _ Ht) as [Et _]. destruct (R_start _ _ _ _ _ _ _ _ Ht) as [Es _]. cbn in Lj. assert (j = 0) as -> by lia.
  unfold EngineOk.mk in E1. rewrite E1. destruct (s_acc t) eqn:A.
  - eexists. split; [reflexivity|]. unfold to_view. destruct (is_accepted t); [|reflexivity]. cbn [vsize]. rewrite Et, Es. reflexivity.
  - unfold next. rewrite Et. destruct fuel; cbn [next_loop s_start s_end]; (eexists; split; [reflexivity|]); unfold to_view, is_accepted; cbn; reflexivity.
Qed.
Lemma safe_gone fuel e d : safe_defs d = true -> d_seps d <> [] -> advance fuel e d invalid = Some invalid.
Proof.
  intros S NE. unfold safe_defs in S. apply andb_true_iff in S as [S _]. unfold advance, match_separator. cbn [i_cur invalid].
  destruct (mapM_ok (run_view fuel e None) (fun _ v => vsize v = 0%Z) (d_seps d)) as (vs & -> & F).
  { intros r Hr. rewrite forallb_forall in S. apply safe_null. now apply S. }
  destruct vs as [|v vs]; [inversion F; congruence|].
  assert (V : vsize (max_elem vsize v vs) = 0%Z).
  { destruct (max_elem_split vsize vs v) as (l1 & l2 & E & _). rewrite E in F. apply Forall2_app_inv_r in F as (d1 & d3 & _ & F2 & _). inversion F2; auto. }
  destruct (max_elem vsize v vs) as [[a b]|]; [|reflexivity]. cbn [vsize] in V. replace (0 <? b - a)%Z with false by lia. reflexivity.
Qed.
Theorem C41_calm_partial : forall ds, forallb calm_def ds = true -> tok_defs ds <> [] -> sep_defs ds <> [] ->
  exists d, make_defs (map def_text ds) = Some d
  /\ forall e k fuel, exists it, advances k fuel e d iter_end = Some it /\ iter_eqb e it iter_end = true /\ iter_bool it = false.
Proof.
  intros ds C NT NS. destruct (calm_split ds C) as (d & E & S & L1 & L2). exists d.
  assert (M : make_defs (map def_text ds) = Some d).
  { unfold make_defs. rewrite E. destruct (d_toks d); [destruct (tok_defs ds); [congruence|discriminate]|]. destruct (d_seps d); [destruct (sep_defs ds); [congruence|discriminate]|]. reflexivity. }
  split; [exact M|]. intros e k fuel. exists invalid. assert (A : advance fuel e d invalid = Some invalid) by (apply safe_gone; [exact S|]; destruct (d_seps d); [destruct (sep_defs ds); [congruence|discriminate]|discriminate]).
  split; [|split; reflexivity]. change iter_end with invalid. induction k as [|k IH]; cbn [advances]; [reflexivity|]. now rewrite A.
Qed.
Print Assumptions C41_calm_partial.

(** Cases: a(?:,\w+)*;  (\w+)@(\w+)  a.*?b  (x?y)+z  \s*(\d+)(?:\.\d+)?;  \w*\d  (?:a|ab)c?+[^\w]
    (several of them outside of C56, and not all of them matched exactly). *)
Definition w1 : atom := AEl (EEsc 119).
Definition calm_cases : list rx :=
  [ pat [(lit "a", Q1); (ANon (pat [(lit ",", Q1); (w1, plus)]), star); (lit ";", Q1)];
    pat [(ACap 0 (pat [(w1, plus)]), Q1); (lit "@", Q1); (ACap 1 (pat [(w1, plus)]), Q1)];
    pat [(lit "a", Q1); (AEl EDot, QQ QStar Lz); (lit "b", Q1)];
    pat [(ACap 0 (pat [(lit "x", opt); (lit "y", Q1)]), plus); (lit "z", Q1)];
    pat [(AEl (EEsc 115), star); (ACap 0 (pat [(digits, plus)]), Q1); (ANon (pat [(AEl (EEsc 46), Q1); (digits, plus)]), opt); (lit ";", Q1)];
    pat [(w1, star); (digits, Q1)];
    pat [(ANon (ROr (Br false (seqs [(lit "a", Q1)])) (ROne (Br false (seqs [(lit "a", Q1); (lit "b", Q1)])))), Q1); (lit "c", QQ QOpt Po); (AEl (EClass true [CEsc 119]), Q1)] ].
Example C19_calm_case : forallb (fun r => wf r && calm r none) calm_cases = true
  /\ map show calm_cases = map S2L ["a(?:,\w+)*;"; "(\w+)@(\w+)"; "a.*?b"; "(x?y)+z"; "\s*(\d+)(?:\.\d+)?;"; "\w*\d"; "(?:a|ab)c?+[^\w]"]%string
  /\ map one_look calm_cases = [true; true; false; true; true; false; false].
Proof. conj; vm_compute; reflexivity. Qed.
Example C40_calm_case : let ds := [Tok 0 (nth 1 calm_cases (ROne (Br false SNil))); Tok 1 (nth 6 calm_cases (ROne (Br false SNil))); Sep (pat [(AEl (EEsc 115), plus)])] in
  forallb calm_def ds = true /\ tok_defs ds <> [] /\ sep_defs ds <> []
  /\ match make_defs (map def_text ds) with
     | Some d => tok_range_for 12 12 (env_of [] (S2L "me@you  a* 7"%string) [0%Z]) d = Some [Some ((0, 6)%Z, 0); Some ((8, 10)%Z, 1)]
     | None => False
     end.
Proof. intro ds. conj; try discriminate; vm_compute; reflexivity. Qed.
