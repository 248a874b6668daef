(** C36: patterns that capture only when nothing can fail any more ([late], SpecLate.v).
    C58: going through all matches, for patterns that are calm, small and honest as written. *)
From Coq Require Import String ZArith NArith List Bool Lia ZifyBool ZifyNat ZifyN.
From Verif Require Import Base Text Ast Builder Engine Api Spec SpecProofs SpecEnd Tree ParseProofs Den AstProofs BuilderProofs EngineOk ApiProofs Supported Find Main Safe Mono MinSize Refuted PropertiesMatch PropertiesSafe SpecTok TokIter Anchor Tok PropertiesTok SpecFields SpecChoice SpecLL LL SpecCalm PropertiesCalm End EndD SpecSure PropertiesSure SpecSmall PropertiesSmall SpecCalmEnd CalmEnd PropertiesCalmEnd SpecLate Late.
Import ListNotations.
Open Scope nat_scope.

(** C36.  A result that is not accepted has no text and no captures: for every well-formed [late]
    pattern, every query and everything around it, after any number of next().
    Missing: patterns that are not [late] (false, C36_failed_captures_refuted). *)
Theorem C36_late_partial : forall r, wf r = true -> late r = true ->
  exists n, compile (show r) = Some n
  /\ forall e s, reach e n s -> is_accepted s = false ->
     to_view s = None /\ forall k v, get_group s (S k) = Some v -> v = None.
Proof.
  intros r W L. exists (ctree r). split; [now apply calm_compile|]. intros e s R A. split; [unfold to_view; now rewrite A|].
  intros k v. cbn [get_group]. rewrite (reach_late e _ s (late_ctree r L) R A). unfold no_groups. intro N. apply nth_error_In, repeat_spec in N. exact N.
Qed.
Print Assumptions C36_late_partial.
(** Cases; the first is not [supported]. *)
Definition late_cases : list rx :=
  [ pat [(AEl (EEsc 115), star); (ANon (ROr (Br false (seqs [(ACap 0 (pat [(digits, plus)]), Q1)])) (ROne (Br false (seqs [(lit "x", Q1); (ACap 1 (pat [(w1, Q1)]), Q1); (lit "y", opt)])))), Q1)];
    pat [(lit "a", plus); (ACap 0 (pat [(lit "b", star)]), Q1); (lit "c", star)] ].
Example C36_late_case : forallb (fun r => wf r && late r) late_cases = true
  /\ map show late_cases = map S2L ["\s*(?:(\d+)|x(\w)y?)"; "a+(b*)c*"]%string
  /\ map supported late_cases = [false; true]
  /\ map (fun x => match compile (show (fst x)) with
                   | Some n => match create 20 (env_of [] (S2L (snd x)) [0%Z]) n with RDone s => Some (is_accepted s, get_group s 1) | _ => None end
                   | None => None end)
       (combine late_cases ["  17"; "bbcd"]%string) = [Some (true, Some (Some (2, 4)%Z)); Some (false, Some None)].
Proof. conj; vm_compute; reflexivity. Qed.

(** C58.  [texts w r d p l]: [l] are non-empty texts of r (with [d]: of r followed by the end of a
    line) in [w], in order and without overlap, from [p] on. *)
Definition text_of (w : str) (r : rx) (d : bool) (i j : nat) : Prop :=
  if d then exists k, lang w r i k /\ line_end w k j else lang w r i j.
Inductive texts (w : str) (r : rx) (d : bool) : nat -> list (nat * nat) -> Prop :=
| texts_nil p : texts w r d p []
| texts_cons p i j l : p <= i -> i < j -> j <= length w -> text_of w r d i j -> texts w r d j l -> texts w r d p ((i, j) :: l).
Definition sure_as (r : rx) (d : bool) : bool :=
  if d then calm_d r && honest_d r else calm r none && honest r none.
(** Going through all results of a pattern that is [small], [calm] and [honest] as written, and
    that does not match the empty text, ends, does nothing undefined, and visits non-empty texts
    of the pattern, from left to right and without overlap.
    Missing: other patterns (false, C21_soundness_refuted, C30_no_overlap_refuted,
    C31_terminates_refuted), and that every text is found (C32, C56). *)
Theorem C58_find_all_partial : forall r d pre w c p, small_as r d = true -> sure_as r d = true -> query_ok w -> (d = true -> c <> c_nl) ->
  (forall i, ~ lang w r i i) ->
  exists n l, compile (written r d) = Some n /\ texts w r d 0 l
  /\ forall s, exists steps fuel, range_for steps fuel (env_of pre w (c :: p)) n s = Some (map (fun x => Some (place pre (fst x) (snd x))) l).
Proof.
  intros r d pre w c p Sm Su Q Nc NE. set (e := env_of pre w (c :: p)). pose proof Sm as Sm'. unfold small_as in Sm'. apply andb_true_iff in Sm' as [W _].
  destruct (C31_small_partial r d Sm) as (n & C & T). destruct (C30_small_partial r d Sm) as (n' & C' & O). rewrite C in C'. injection C' as <-. exists n.
  assert (UB : (forall fuel, create fuel e n <> RUB) /\ forall s, reach e n s -> forall fuel, next fuel e n s <> RUB).
  { unfold sure_as, written in *. destruct d; apply andb_true_iff in Su as [Su _].
    - destruct (C19_calm_end_partial r pre w c p W Su Q (Nc eq_refl)) as (n' & C' & A & B). rewrite C in C'. injection C' as <-. split; [exact A|]. intros s R. now apply B.
    - destruct (C19_calm_partial r pre w (c :: p) W Su Q ltac:(discriminate)) as (n' & C' & A & B). rewrite C in C'. injection C' as <-. split; [exact A|]. intros s R. now apply B. }
  assert (TX : forall s, reach e n s -> is_accepted s = true -> exists i j, to_view s = Some (place pre i j) /\ i < j <= length w /\ text_of w r d i j).
  { unfold sure_as, written, text_of in *. intros s R A. destruct d; apply andb_true_iff in Su as [_ Su].
    - destruct (C29_honest_partial r pre w c p W Su (Nc eq_refl)) as (n' & C' & X). rewrite C in C'. injection C' as <-. destruct (X s R A) as (i & j & k & V & B & K1 & K2). assert (i <> k) by (intros ->; exact (NE k K1)). pose proof (proj1 (lang_ge w) r i k K1). exists i, j. split; [exact V|]. split; [|eauto]. destruct K2 as [[-> ->]|[K2 ->]]; lia.
    - destruct (C21_honest_partial r pre w (c :: p) W Su) as (n' & C' & X). rewrite C in C'. injection C' as <-. destruct (X s R A) as (i & j & V & B & K). assert (i <> j) by (intros ->; exact (NE j K)). exists i, j. split; [exact V|]. split; [lia|exact K]. }
  assert (LE : (qe e - qb e = Z.of_nat (length w))%Z) by (unfold e, env_of; cbn; lia).
  set (VW := fun x : nat * nat => Some (place pre (fst x) (snd x))).
  assert (GO : forall m s i j, reach e n s -> is_accepted s = true -> to_view s = Some (place pre i j) -> j <= length w -> length w - j < m ->
    exists l, visits e n s (VW (i, j) :: map VW l) /\ texts w r d j l).
  { induction m as [|m IH]; intros s i j R A V Hj Hm; [lia|]. destruct (T e s (S (length w))) as [Tn _].
    assert (Es : s_end s = snd (place pre i j)) by (pose proof V as V0; unfold to_view in V0; rewrite A in V0; apply (f_equal (fun v : view => match v with Some x => snd x | None => 0%Z end)) in V0; exact V0).
    destruct (next (S (length w)) e n s) as [s'| |] eqn:N.
    - assert (R' : reach e n s') by (eapply ReachNext; eauto). unfold VW at 1. cbn [fst snd]. rewrite <- V. destruct (is_accepted s') eqn:A'.
      + destruct (TX s' R' A') as (i' & j' & V' & B & X). pose proof (O e _ s s' _ _ _ _ N V V') as Or. unfold place in Or.
        destruct (IH s' i' j' R' A' V' ltac:(lia) ltac:(lia)) as (l & V2 & Tx). exists ((i', j') :: l). split; [eapply VisitGo; eauto|]. constructor; auto; lia.
      + exists []. split; [|constructor]. eapply VisitGo; eauto. now apply VisitStop.
    - now destruct (proj2 UB s R (S (length w))).
    - exfalso. apply Tn; [|reflexivity]. rewrite Es. unfold place. cbn [snd]. unfold e, env_of. cbn. lia. }
  assert (CR : exists s0, create (S (length w)) e n = RDone s0).
  { destruct (create (S (length w)) e n) as [s0| |] eqn:E; [eauto|now destruct (proj1 UB (S (length w)))|]. destruct (T e (fresh e n) (S (length w))) as (_ & Tc & _). exfalso. apply Tc; [lia|exact E]. }
  destruct CR as (s0 & E0). pose proof (ReachCreate _ _ _ _ E0) as R0.
  assert (VS : exists l, visits e n s0 (map VW l) /\ texts w r d 0 l).
  { destruct (is_accepted s0) eqn:A.
    - destruct (TX s0 R0 A) as (i & j & V & B & X). destruct (GO (S (length w)) s0 i j R0 A V ltac:(lia) ltac:(lia)) as (l & V1 & T1). exists ((i, j) :: l). split; [exact V1|]. constructor; auto; lia.
    - exists []. split; [now apply VisitStop|constructor]. }
  destruct VS as (l & V & Tx). exists l. conj; auto. intro s. apply range_for_iff. eauto.
Qed.
Print Assumptions C58_find_all_partial.
(** (?:a|ab)c and (\w+)=\d+$ *)
Definition all_cases : list (rx * bool) :=
  [ (pat [(ANon (alts2 [(lit "a", Q1)] [(lit "a", Q1); (lit "b", Q1)]), Q1); (lit "c", Q1)], false);
    (pat [(ACap 0 (pat [(w1, plus)]), Q1); (lit "=", Q1); (digits, plus)], true) ].
Example C58_case : forallb (fun x => small_as (fst x) (snd x) && sure_as (fst x) (snd x)) all_cases = true
  /\ (forall w i, ~ lang w (fst (nth 0 all_cases (pat [], false))) i i) /\ (forall w i, ~ lang w (fst (nth 1 all_cases (pat [], false))) i i)
  /\ map (fun x => match compile (written (fst (fst x)) (snd (fst x))) with
                   | Some n => range_for 20 20 (env_of [] (S2L (snd x)) [0%Z]) n (fresh (env_of [] (S2L (snd x)) [0%Z]) n) | None => None end)
       (combine all_cases [".ac.abcac"; "a=1 b=22"]%string) = [Some [Some (1, 3)%Z; Some (7, 9)%Z]; Some [Some (4, 8)%Z]].
Proof.
  conj; try (vm_compute; reflexivity).
  - intros w i H. apply (proj1 (lang_min w)) in H; [|vm_compute; reflexivity]. change (minl (map nmin (tree_bs (fst (nth 0 all_cases (pat [], false)))))) with 2%N in H. lia.
  - intros w i H. apply (proj1 (lang_min w)) in H; [|vm_compute; reflexivity]. change (minl (map nmin (tree_bs (fst (nth 1 all_cases (pat [], false)))))) with 1%N in H. lia.
Qed.
