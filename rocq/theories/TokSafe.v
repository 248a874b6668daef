(** C40, C38, C19: the tokenizer with definitions whose compiled patterns are all [safe]
    (Safe.v): a range-for ends, does nothing undefined, and shows non-empty, ordered, disjoint
    pieces of the input, whether or not the definitions are anchored or matched exactly. *)
From Coq Require Import String ZArith NArith List Bool Lia ZifyBool ZifyNat ZifyN.
From Verif Require Import Base Text Ast Builder Engine Api Spec SpecProofs Den AstProofs BuilderProofs EngineOk EngineMain ApiProofs Supported Main Mono Find Safe TokIter Tok PropertiesTok.
Import ListNotations.
Open Scope nat_scope.

Definition safe_defs (d : defs) : bool :=
  forallb (fun n => safe false (ngroups n) n) (d_seps d) && forallb (fun t => safe false (ngroups (snd t)) (snd t)) (d_toks d).
(** Non-empty, ordered, disjoint pieces between [p] and [q]. *)
Fixpoint pieces (p q : Z) (l : list (option ((Z * Z) * nat))) : Prop :=
  match l with
  | [] => (p <= q)%Z
  | x :: r => exists a b ty, x = Some ((a, b), ty) /\ (p <= a < b)%Z /\ pieces b q r
  end.

Section TS.
Variables (pre w post : str) (d : defs).
Notation e := (env_of pre w post).
Notation L := (length w).
Notation at0 := (at_ pre).
Hypothesis Hq : query_ok w.
Hypothesis Hp : post <> [].
Hypothesis Hs : safe_defs d = true.
Hypothesis Hn : d_toks d <> [] /\ d_seps d <> [].
Definition sub (p : nat) (v : view) : Prop := v = None \/ exists a b, v = Some (at0 a, at0 b) /\ p <= a <= b /\ b <= L.
Lemma run_view_safe fuel p n : safe false (ngroups n) n = true -> p <= L -> L < fuel ->
  exists v, run_view fuel e (Some (at0 p, qe e)) n = Some v /\ sub p v.
Proof.
  intros S H F. unfold run_view. rewrite cur_env_of by exact H.
  pose proof (query_skip p w Hq) as Q.
  destruct (create_two (pre ++ firstn p w) post (pre ++ firstn p w) post (skipn p w) false n (no_end post) (no_end post) (q_chars _ Q) (q_len _ Q) S Hp Hp fuel) as (t & t' & E & _ & R);
    [rewrite skipn_length; lia|]. rewrite E. exists (to_view t). split; [reflexivity|].
  destruct R as (k & i & g & g' & b & -> & _ & B & T & _). unfold to_view, is_accepted, mk. cbn [s_acc s_start s_end].
  destruct b; [|now left]. right. exists (p + k), (p + i). specialize (T eq_refl). rewrite skipn_length in T.
  split; [|lia]. unfold at_. rewrite app_length, firstn_length. do 2 f_equal; lia.
Qed.
Lemma at0_lt a b : (at0 a <? at0 b)%Z = (a <? b).
Proof. unfold at_. lia. Qed.
Lemma sep_safe fuel p : p <= L -> L < fuel ->
  match_separator fuel e d (Some (at0 p, qe e)) = Some None
  \/ exists b, p <= b <= L /\ match_separator fuel e d (Some (at0 p, qe e)) = Some (Some (Some (at0 b, qe e))).
Proof.
  intros H F. unfold match_separator. destruct (proj1 (andb_true_iff _ _) Hs) as [S _]. rewrite forallb_forall in S.
  destruct (mapM_ok (run_view fuel e (Some (at0 p, qe e))) (fun _ v => sub p v) (d_seps d)) as (vs & -> & V).
  { intros n I. apply run_view_safe; auto. }
  destruct vs as [|v vs]; [destruct (proj2 Hn); now inversion V|].
  assert (A : forall x, In x (v :: vs) -> sub p x).
  { clear -V. remember (v :: vs) as l. clear Heql v vs. induction V as [|n0 v0 l0 l1 R0 V0 IH0]; intros x []; subst; auto. }
  pose proof (A _ (max_in vsize vs v)) as X. destruct X as [->|(a & b & -> & B1 & B2)]; [now left|].
  cbn zeta. destruct (0 <? at0 b - at0 a)%Z; [right; exists b; split; [lia|reflexivity]|now left].
Qed.
Lemma tok_safe fuel p : p <= L -> L < fuel ->
  match_token fuel e d (Some (at0 p, qe e)) = Some None
  \/ exists a b ty, p <= a < b /\ b <= L /\ match_token fuel e d (Some (at0 p, qe e)) = Some (Some (Some (at0 b, qe e), ((at0 a, at0 b), ty))).
Proof.
  intros H F. unfold match_token. destruct (proj1 (andb_true_iff _ _) Hs) as [_ S]. rewrite forallb_forall in S.
  destruct (mapM_ok (fun t => match run_view fuel e (Some (at0 p, qe e)) (snd t) with Some v => Some (v, fst t) | None => None end) (fun _ v => sub p (fst v)) (d_toks d)) as (vs & -> & V).
  { intros t I. destruct (run_view_safe fuel p (snd t) (S t I) H F) as (v & -> & X). exists (v, fst t). auto. }
  destruct vs as [|v vs]; [destruct (proj1 Hn); now inversion V|].
  assert (A : forall x, In x (v :: vs) -> sub p (fst x)).
  { clear -V. remember (v :: vs) as l. clear Heql v vs. induction V as [|n0 v0 l0 l1 R0 V0 IH0]; intros x []; subst; auto. }
  pose proof (A _ (max_in (fun x : view * nat => vsize (fst x)) vs v)) as X. cbn zeta. set (m := max_elem _ v vs) in *.
  destruct X as [->|(a & b & -> & B1 & B2)]; [now left|].
  destruct (0 <? at0 b - at0 a)%Z eqn:E; [right; exists a, b, (snd m)|now left]. unfold at_ in E. conj; try lia; reflexivity.
Qed.
Lemma advance_safe fuel p l : p <= L -> L < fuel ->
  advance fuel e d (mkIter (Some (at0 p, qe e)) l) = Some invalid
  \/ exists a b ty, p <= a < b /\ b <= L /\ advance fuel e d (mkIter (Some (at0 p, qe e)) l) = Some (mkIter (Some (at0 b, qe e)) (Some ((at0 a, at0 b), ty))).
Proof.
  intros H F. unfold advance. cbn [i_cur]. destruct (sep_safe fuel p H F) as [->|(b & B & ->)].
  - destruct (negb _); [now left|]. destruct (tok_safe fuel p H F) as [->|(a & b & ty & B1 & B2 & ->)]; [now left|]. right. exists a, b, ty. auto.
  - destruct (tok_safe fuel b ltac:(lia) F) as [->|(a & b1 & ty & B1 & B2 & ->)]; [now left|]. right. exists a, b1, ty. conj; auto; lia.
Qed.
Lemma invalid_end : iter_eqb e invalid iter_end = true.
Proof. reflexivity. Qed.
Lemma tok_loop_safe fuel : L < fuel -> forall steps p0 a p ty, p0 <= a < p -> p <= L -> L < steps + p0 ->
  exists l, tok_loop steps fuel e d (mkIter (Some (at0 p, qe e)) (Some ((at0 a, at0 p), ty))) = Some l
    /\ pieces (at0 p0) (qe e) l /\ p0 + length l <= L.
Proof.
  intro F. induction steps as [|steps IH]; intros p0 a p ty A B S; [lia|]. cbn [tok_loop].
  assert (N : iter_eqb e (mkIter (Some (at0 p, qe e)) (Some ((at0 a, at0 p), ty))) iter_end = false).
  { unfold iter_eqb, view_eqb. cbn [i_cur i_last last_view invalid iter_end vsize]. replace (at0 p - at0 a =? 0)%Z with false by (unfold at_; lia). now rewrite andb_false_r. }
  rewrite N.
  assert (X : forall l, pieces (at0 p) (qe e) l -> pieces (at0 p0) (qe e) (Some ((at0 a, at0 p), ty) :: l)).
  { intros l Hl. cbn [pieces]. exists (at0 a), (at0 p), ty. split; [reflexivity|]. split; [unfold at_; lia|exact Hl]. }
  destruct (advance_safe fuel p (Some ((at0 a, at0 p), ty)) B F) as [->|(a1 & b1 & t1 & B1 & B2 & ->)].
  - assert (Y : tok_loop steps fuel e d invalid = Some []) by (destruct steps; reflexivity). rewrite Y. eexists. split; [reflexivity|].
    split; [|cbn; lia]. apply X. cbn [pieces]. rewrite <- at_qe. unfold at_; lia.
  - destruct (IH p a1 b1 t1) as (l & -> & P & C); try lia. eexists. split; [reflexivity|]. split; [now apply X|]. cbn [length]. lia.
Qed.
Lemma tok_range_safe fuel : L < fuel -> exists l, tok_range_for (S L) fuel e d = Some l /\ pieces (qb e) (qe e) l /\ length l <= L.
Proof.
  intro F. unfold tok_range_for, iter_create. destruct (Z.eqb_spec (qb e) (qe e)) as [E|E].
  - assert (N : tok_loop (S L) fuel e d (mkIter (Some (qb e, qe e)) None) = Some []).
    { cbn [tok_loop]. assert (X : iter_eqb e (mkIter (Some (qb e, qe e)) None) iter_end = true).
      { rewrite E. unfold iter_eqb, view_eqb. cbn [i_cur i_last last_view invalid iter_end vsize text]. rewrite Z.sub_diag. reflexivity. }
      now rewrite X. }
    rewrite N. exists []. split; [reflexivity|]. cbn [pieces length]. split; lia.
  - rewrite <- (at_qb pre w post) in *. destruct (advance_safe fuel 0 None (Nat.le_0_l _) F) as [->|(a & b & ty & B1 & B2 & ->)].
    + exists []. split; [reflexivity|]. split; [|cbn; lia]. cbn [pieces]. rewrite <- at_qe. unfold at_; lia.
    + destruct (tok_loop_safe fuel F (S L) 0 a b ty) as (l & E1 & P & C); try lia. exists l. auto.
Qed.
End TS.

(** C40 (and C38, C19): for every list of definitions (at least one token and one separator)
    whose compiled patterns are [safe], on every input: a range-for over the tokenizer ends
    after at most as many tokens as there are characters, nothing it does is undefined
    behaviour, and it shows non-empty pieces of the input, in order and without overlap.  The
    definitions need not be anchored in every branch nor matched exactly (without either, the
    tokens may be the wrong ones: C42_anchor_refuted). *)
Theorem C40_safe_partial : forall ds d pre w post, make_defs ds = Some d -> safe_defs d = true -> query_ok w -> post <> [] ->
  let e := env_of pre w post in
  exists l, tok_range_for (S (length w)) (S (length w)) e d = Some l /\ length l <= length w /\ pieces (qb e) (qe e) l.
Proof.
  intros ds d pre w post M S Q P e. assert (N : d_toks d <> [] /\ d_seps d <> []).
  { unfold make_defs in M. destruct (split_defs ds) as [d'|]; [|discriminate]. destruct (d_toks d') as [|t ts] eqn:T; [discriminate|]. destruct (d_seps d') as [|s ss] eqn:E; [discriminate|].
    injection M as <-. rewrite T, E. split; discriminate. }
  destruct (tok_range_safe pre w post d Q P S N (Datatypes.S (length w)) ltac:(lia)) as (l & A & B & C). exists l. auto.
Qed.
Print Assumptions C40_safe_partial.
(** Definitions that are neither anchored in every branch nor [exact] (the unanchored "," makes
    the first separator match skip the beginning of the input). *)
Example C40_safe_case : exists d, make_defs [DTok 0 (S2L "(\d+)|b(?:a|ab)c?"%string); DTok 1 (S2L "[^ ]"%string); DSep (S2L "\s+|,"%string)] = Some d
  /\ safe_defs d = true
  /\ tok_range_for 11 11 (env_of [] (S2L "12 bac,*,7"%string) [0%Z]) d
     = Some [Some ((7, 8)%Z, 1); Some ((9, 10)%Z, 0)].
Proof.
  pose (ds := [DTok 0 (S2L "(\d+)|b(?:a|ab)c?"%string); DTok 1 (S2L "[^ ]"%string); DSep (S2L "\s+|,"%string)]).
  exists (match make_defs ds with Some d => d | None => mkDefs [] [] end). conj.
  - vm_compute. reflexivity.
  - vm_compute. reflexivity.
  - vm_compute. reflexivity.
Qed.
