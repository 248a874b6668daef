(** C30, C31, C40, C50: patterns in which, as they are written, every greedy x? is [small]
    (SpecSmall.v). *)
From Coq Require Import String ZArith NArith List Bool Lia ZifyBool ZifyNat ZifyN.
From Verif Require Import Base Text Ast Builder Engine Api Spec SpecProofs Tree ParseProofs Den AstProofs BuilderProofs EngineOk ApiProofs Supported Main Mono End EndD PropertiesMatch SpecTok TokIter Anchor Tok Refuted PropertiesTok PropertiesStr SpecFields SpecChoice SpecLL LL SpecCalm PropertiesCalm SpecSure SpecSmall Small.
Import ListNotations.
Open Scope nat_scope.

(** r, or r with $ after every branch. *)
Definition written (r : rx) (dollar : bool) : str := if dollar then show_d r else show r.
Definition small_as (r : rx) (dollar : bool) : bool := wf r && if dollar then small_d r else small r none.
Lemma small_compile r d : small_as r d = true -> exists n, compile (written r d) = Some n /\ opt_small n = true.
Proof.
  unfold small_as, written. intro H. apply andb_true_iff in H as [W H]. destruct d; eexists.
  - split; [now apply compile_d|now apply small_ctree_d].
  - split; [now apply calm_compile|now apply small_ctree].
Qed.

(** C30.  A [small] pattern compiles; on every query and memory, the result of next() begins at
    or after the end of the result it was called on (a view: begin and end). *)
Theorem C30_small_partial : forall r d, small_as r d = true ->
  exists n, compile (written r d) = Some n
  /\ forall e fuel s s' a b a' b', next fuel e n s = RDone s' -> to_view s = Some (a, b) -> to_view s' = Some (a', b') -> (b <= a' <= b')%Z.
Proof.
  intros r d H. destruct (small_compile r d H) as (n & C & O). exists n. split; [exact C|]. intros e fuel s s' a b a' b' N V V'.
  pose proof (C30_no_overlap_partial _ n e fuel s s' C O N) as X. unfold to_view in V, V'. destruct (is_accepted s); [|discriminate]. destruct (is_accepted s'); [|discriminate]. injection V as <- <-. injection V' as <- <-. exact X.
Qed.
Print Assumptions C30_small_partial.

(** C31.  ... and construction and next() end after at most as many turns as characters are
    left; a failed result stays failed. *)
Theorem C31_small_partial : forall r d, small_as r d = true ->
  exists n, compile (written r d) = Some n
  /\ forall e s fuel, ((qe e - s_end s < Z.of_nat fuel)%Z -> next fuel e n s <> RFuel)
     /\ ((qe e - qb e < Z.of_nat fuel)%Z -> create fuel e n <> RFuel)
     /\ (reach e n s -> is_accepted s = false -> exists s', next fuel e n s = RDone s' /\ is_accepted s' = false).
Proof. intros r d H. destruct (small_compile r d H) as (n & C & O). exists n. split; [exact C|]. intros e s fuel. exact (C31_terminates_partial _ n e s fuel C O). Qed.
Print Assumptions C31_small_partial.

(** C40, C50.  A tokenizer of [small] definitions is defined, every increment that finds a token
    consumes input, and iterators are equal iff they stand at the same place or are exhausted. *)
Definition small_def (d : tdef) : bool := match d with Tok _ r | Sep r => Tok.bare r && wf r && small r none end.
Lemma small_caret r : Tok.bare r && wf r && small r none = true -> compile (TokIter.anchored (show r)) = Some (ctree (caret r)) /\ opt_small (ctree (caret r)) = true.
Proof.
  rewrite !andb_true_iff. intros [[B W] C]. rewrite <- show_caret by exact B.
  assert (W' : wf (caret r) = true) by (destruct r as [[b s]|[b s] r]; exact W).
  assert (C' : small (caret r) none = true) by (destruct r as [[[] s]|[[] s] r]; exact C).
  split; [now apply calm_compile|now apply small_ctree].
Qed.
Lemma small_split ds : forallb small_def ds = true -> exists d, split_defs (map def_text ds) = Some d /\ small_defs d = true
  /\ length (d_toks d) = length (tok_defs ds) /\ length (d_seps d) = length (sep_defs ds).
Proof.
  induction ds as [|[ty r|r] ds IH]; cbn [forallb map def_text split_defs tok_defs sep_defs small_def].
  - intros _. eexists. conj; reflexivity.
  - intro H. apply andb_true_iff in H as [H1 H2]. destruct (small_caret r H1) as [C S]. destruct (IH H2) as (d & E & D & L1 & L2). rewrite C, E. eexists. split; [reflexivity|].
    unfold small_defs in *. cbn [d_seps d_toks forallb snd length]. apply andb_true_iff in D as [D1 D2]. rewrite D1, D2, S, L1, L2. conj; reflexivity.
  - intro H. apply andb_true_iff in H as [H1 H2]. destruct (small_caret r H1) as [C S]. destruct (IH H2) as (d & E & D & L1 & L2). rewrite C, E. eexists. split; [reflexivity|].
    unfold small_defs in *. cbn [d_seps d_toks forallb snd length]. apply andb_true_iff in D as [D1 D2]. rewrite D1, D2, S, L1, L2. conj; reflexivity.
Qed.
Theorem C50_small_partial : forall ds, forallb small_def ds = true -> tok_defs ds <> [] -> sep_defs ds <> [] ->
  exists d, make_defs (map def_text ds) = Some d
  /\ forall e fuel s, iter_create fuel e d = Some s ->
     (forall k it, advances k fuel e d s = Some it -> iter_bool it = true ->
        exists a b ty, i_last it = Some ((a, b), ty) /\ i_cur it = Some (b, qe e) /\ (qb e <= a < b)%Z /\ (qb e + Z.of_nat k <= b)%Z)
     /\ (forall i j a b, advances i fuel e d s = Some a -> advances j fuel e d s = Some b ->
          (iter_eqb e a b = true <-> i = j \/ (iter_bool a = false /\ iter_bool b = false)) /\ iter_eqb e a iter_end = negb (iter_bool a)).
Proof.
  intros ds C NT NS. destruct (small_split ds C) as (d & E & S & L1 & L2). exists d.
  assert (M : make_defs (map def_text ds) = Some d).
  { unfold make_defs. rewrite E. destruct (d_toks d); [destruct (tok_defs ds); [congruence|discriminate]|]. destruct (d_seps d); [destruct (sep_defs ds); [congruence|discriminate]|]. reflexivity. }
  split; [exact M|]. intros e fuel s I. split.
  - intros k it A B. exact (C40_progress_partial d e fuel s k it S I A B).
  - intros i j a b A B. exact (C50_iterators_partial d e fuel s i j a b S I A B).
Qed.
Print Assumptions C50_small_partial.

(** Cases: alternatives of different length, an optional group that something else follows, a
    greedy repetition of a group that can be given back, $. *)
Definition small_cases : list (rx * bool) :=
  [ (pat [(ANon (ROr (Br false (seqs [(lit "a", Q1)])) (ROne (Br false (seqs [(lit "a", Q1); (lit "b", Q1)])))), star); (lit "a", opt)], false);
    (pat [(digits, plus); (ANon (pat [(AEl (EEsc 46), Q1); (digits, plus)]), opt); (lit ";", Q1)], false);
    (pat [(ACap 0 (pat [(lit "x", star); (lit "x", Q1)]), plus); (lit "-", opt)], true) ].
Example C30_small_case : forallb (fun x => small_as (fst x) (snd x)) small_cases = true
  /\ map (fun x => written (fst x) (snd x)) small_cases = map S2L ["(?:a|ab)*a?"; "\d+(?:\.\d+)?;"; "(x*x)+-?$"]%string
  /\ match compile (S2L "\d+(?:\.\d+)?;"%string) with
     | Some n => let e := env_of [] (S2L "1;2.5;3"%string) [0%Z] in
                 match create 9 e n with
                 | RDone s => match next 9 e n s with RDone s' => to_view s = Some (0, 2)%Z /\ to_view s' = Some (2, 6)%Z | _ => False end
                 | _ => False end
     | None => False end.
Proof. conj; vm_compute; try reflexivity. split; reflexivity. Qed.
Example C50_small_case : let ds := [Tok 0 (pat [(digits, plus); (ANon (pat [(AEl (EEsc 46), Q1); (digits, plus)]), QQ QOpt Po)]); Tok 1 (pat [(lit "x", star); (lit "x", Q1)]); Sep (pat [(lit ",", Q1); (lit " ", opt)])] in
  forallb small_def ds = true
  /\ match make_defs (map def_text ds) with
     | Some d => let e := env_of [] (S2L "1.5, xx,7"%string) [0%Z] in
                 match iter_create 12 e d with
                 | Some s => match advances 1 12 e d s, advances 2 12 e d s with
                             | Some a, Some b => iter_bool a = true /\ i_last a = Some ((5, 7)%Z, 1) /\ iter_eqb e a b = false
                             | _, _ => False end
                 | None => False end
     | None => False end.
Proof. intro ds. conj; vm_compute; try reflexivity. conj; reflexivity. Qed.
