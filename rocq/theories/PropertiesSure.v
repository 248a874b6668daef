(** C18, C21, C29, C42, C47: patterns that are [honest] (SpecSure.v) as they are written are never
    accepted for a text that is not theirs. *)
From Coq Require Import String ZArith NArith List Bool Lia ZifyBool ZifyNat ZifyN.
From Verif Require Import Base Text Ast Builder Engine Api Spec SpecProofs Tree ParseProofs Den AstProofs BuilderProofs EngineRel EngineOk ApiProofs Supported Main Mono Find MinSize End EndD Anchor SpecTok TokIter Tok Refuted PropertiesMatch PropertiesSafe PropertiesTok SpecFields SpecChoice SpecLL SpecCalm LL Calm PropertiesCalm Sure SureApi SpecSure SureSyn.
Import ListNotations.
Open Scope nat_scope.

(** C21.  A well-formed [honest] pattern compiles, and every accepted result, also after any
    number of next(), is a text of the query in the language of the pattern; whatever the query
    and the memory around it.  Missing: patterns that are not [honest] (C21_soundness_refuted). *)
Theorem C21_honest_partial : forall r pre w post, wf r = true -> honest r none = true ->
  exists n, compile (show r) = Some n
  /\ forall s, reach (env_of pre w post) n s -> is_accepted s = true ->
     exists i j, to_view s = Some (place pre i j) /\ i <= j <= length w /\ lang w r i j.
Proof.
  intros r pre w post W H. exists (ctree r). split; [now apply calm_compile|]. intros s R A. pose proof (honest_sure r W H) as S.
  destruct (reach_valid pre w post false (ctree r) ltac:(discriminate) S s R) as [_ V]. destruct (valid_view pre w (ctree r) s A (V A)) as (i & j & B & E & T).
  exists i, j. conj; auto; try lia. now apply lang_ctree.
Qed.
Print Assumptions C21_honest_partial.

(** C18.  ... so it is not shorter than minimum_match_size. *)
Theorem C18_honest_partial : forall r n pre w post s a b, wf r = true -> honest r none = true -> compile (show r) = Some n ->
  reach (env_of pre w post) n s -> to_view s = Some (a, b) -> (Z.of_N (nmin n) <= b - a)%Z.
Proof.
  intros r n pre w post s a b W H C R V. destruct (C21_honest_partial r pre w post W H) as (n' & C' & X). rewrite C in C'. injection C' as <-.
  assert (A : is_accepted s = true) by (unfold to_view in V; destruct (is_accepted s); [reflexivity|discriminate]).
  destruct (X s R A) as (i & j & E & B & L). apply (proj1 (C18_min_size_partial r n C W)) in L. rewrite E in V. injection V as <- <-. lia.
Qed.
Print Assumptions C18_honest_partial.

(** C29.  With $ after each branch, on a query that is not followed in memory by a line feed:
    every accepted result is a text of the pattern up to a line end. *)
Theorem C29_honest_partial : forall r pre w c p, wf r = true -> honest_d r = true -> c <> c_nl ->
  exists n, compile (show_d r) = Some n
  /\ forall s, reach (env_of pre w (c :: p)) n s -> is_accepted s = true ->
     exists i j k, to_view s = Some (place pre i j) /\ i <= j <= length w /\ lang w r i k /\ line_end w k j.
Proof.
  intros r pre w c p W H N. exists (ctree_d r). split; [now apply compile_d|]. intros s R A. pose proof (honest_sure_d r W H) as S.
  destruct (reach_valid pre w (c :: p) true (ctree_d r) ltac:(eauto) S s R) as [_ V]. destruct (valid_view pre w (ctree_d r) s A (V A)) as (i & j & B & E & T).
  destruct (lang_ctree_d w r i j W T) as (k & K1 & K2). exists i, j, k. conj; auto; lia.
Qed.
Print Assumptions C29_honest_partial.

(** C47.  ^...$ never accepts a text that the pattern does not match completely. *)
Lemma anchored_lang w r i j : Anchor.anchored r = true -> lang w r i j -> i = 0.
Proof. induction r as [[a s]|[a s] r IH]; cbn [Anchor.anchored lang lang_br]; [intros -> [X _]; auto|]. intros H [[X _]|X]; apply andb_true_iff in H as [-> H]; auto. Qed.
Theorem C47_honest_partial : forall r pre w c p, wf r = true -> honest_d r = true -> Anchor.anchored r = true -> c <> c_nl -> ~ In c_nl w ->
  exists n, compile (show_d r) = Some n
  /\ forall s, reach (env_of pre w (c :: p)) n s -> is_accepted s = true ->
     to_view s = Some (place pre 0 (length w)) /\ lang w r 0 (length w).
Proof.
  intros r pre w c p W H An N L. destruct (C29_honest_partial r pre w c p W H N) as (n & C & X). exists n. split; [exact C|]. intros s R A. destruct (X s R A) as (i & j & k & V & B & K1 & K2).
  assert (i = 0) as -> by (eapply anchored_lang; eauto). destruct K2 as [[-> ->]|[K2 _]]; [auto|]. exfalso. apply L. eapply nth_error_In. exact K2.
Qed.
Print Assumptions C47_honest_partial.

(** C42, C38.  When a range-for over a tokenizer of [honest] definitions ends, the tokens it has
    shown cut the input (SpecSure.v): each is a text of a definition of its type and stands
    behind a text of a separator. *)
Definition honest_def (d : tdef) : bool := anch_def d && match d with Tok _ r | Sep r => honest (caret r) none end.
Lemma caret_lang u r j : lang u (caret r) 0 j -> lang u r 0 j.
Proof. destruct r as [[[] s]|[[] s] r]; cbn [caret lang lang_br]; auto; intuition. Qed.
Lemma at_front_lang pre w post p b r : p <= length w -> Tok.bare r = true -> wf (caret r) = true -> Anchor.anchored (caret r) = true -> honest (caret r) none = true ->
  at_front (env_of pre w post) (EngineOk.at_ pre p) (qe (env_of pre w post)) b (show r) -> exists k, b = EngineOk.at_ pre (p + k) /\ p + k <= length w /\ lang (skipn p w) r 0 k.
Proof.
  intros Hp B W An H (n & fuel & C & V). change (c_caret :: show r) with (TokIter.anchored (show r)) in C. rewrite <- show_caret in C by exact B. unfold run_view in V. rewrite cur_env_of in V by exact Hp.
  destruct (create fuel _ n) as [s| |] eqn:E; try discriminate. injection V as V. destruct (C21_honest_partial (caret r) (pre ++ firstn p w) (skipn p w) post W H) as (n' & C' & X). rewrite C in C'. injection C' as <-.
  assert (A : is_accepted s = true) by (unfold to_view in V; destruct (is_accepted s); [reflexivity|discriminate]).
  destruct (X s (ReachCreate _ _ _ _ E) A) as (i & j & V' & Bo & L). rewrite V in V'. injection V' as E1 E2. assert (i = 0) as -> by (eapply anchored_lang; eauto).
  rewrite app_length, firstn_length in E2. rewrite skipn_length in Bo. exists j. split; [unfold EngineOk.at_; lia|]. split; [lia|]. now apply caret_lang.
Qed.
Lemma honest_in ds d : forallb honest_def ds = true -> In d ds -> let r := match d with Tok _ r | Sep r => r end in
  Tok.bare r = true /\ wf (caret r) = true /\ Anchor.anchored (caret r) = true /\ honest (caret r) none = true.
Proof. intros H I. rewrite forallb_forall in H. specialize (H d I). unfold honest_def, anch_def in H. destruct d; cbn; rewrite !andb_true_iff in H; intuition. Qed.
Lemma honest_anch ds : forallb honest_def ds = true -> forallb anch_def ds = true.
Proof. rewrite !forallb_forall. intros H d I. specialize (H d I). unfold honest_def in H. now apply andb_true_iff in H. Qed.
Lemma step_cut ds d pre w post fuel p it it' l : forallb honest_def ds = true -> make_defs (map def_text ds) = Some d -> p <= length w ->
  i_cur it = Some (EngineOk.at_ pre p, qe (env_of pre w post)) -> advance fuel (env_of pre w post) d it = Some it' -> i_last it' = Some l ->
  exists q k ty, l = ((EngineOk.at_ pre q, EngineOk.at_ pre (q + k)), ty) /\ i_cur it' = Some (EngineOk.at_ pre (q + k), qe (env_of pre w post)) /\ q + k <= length w /\ 0 < k
  /\ forall ts, cut_of ds w (q + k) ts -> cut_of ds w p ((q, q + k, ty) :: ts).
Proof.
  intros H M Hp Ec Ad Ls. destruct l as [[a b] ty]. destruct (C42_anchored_partial ds d _ fuel it it' _ _ a b ty (honest_anch ds H) M Ec Ad Ls) as ((r & Ir & Fr) & Sp & Ec' & Lt & Le).
  assert (Q : exists q, q <= length w /\ a = EngineOk.at_ pre q /\ ((p = 0 /\ q = 0) \/ exists rs, In (Sep rs) ds /\ p < q /\ lang (skipn p w) rs 0 (q - p))).
  { destruct Sp as [[-> E0]|(Lc & rs & Is & Fs)]; [exists p; conj; auto; left; unfold EngineOk.at_ in E0; cbn in E0; lia|]. destruct (honest_in ds (Sep rs) H Is) as (B & W & An & Ho). destruct (at_front_lang pre w post p a rs Hp B W An Ho Fs) as (k & K1 & K2 & K3). exists (p + k). conj; auto. right. exists rs. replace (p + k - p) with k by lia. conj; auto. unfold EngineOk.at_ in *. lia. }
  destruct Q as (q & Hq & -> & Sq). destruct (honest_in ds (Tok ty r) H Ir) as (B & W & An & Ho). destruct (at_front_lang pre w post q b r Hq B W An Ho Fr) as (k & -> & K2 & K3).
  assert (Kp : 0 < k) by (unfold EngineOk.at_ in Lt; lia). exists q, k, ty. conj; auto. intros ts Hts. exact (cut_tok ds w p q k ty r ts Sq Ir Kp K2 K3 Hts).
Qed.
Lemma advance_shape fuel e d it it' : advance fuel e d it = Some it' -> it' = invalid \/ exists l, i_last it' = Some l.
Proof.
  unfold advance. destruct (match_separator _ _ _ _) as [[c1|]|]; [| |discriminate].
  - destruct (match_token _ _ _ _) as [[[c' l]|]|]; [| |discriminate]; intros [= <-]; [right; eexists; reflexivity|now left].
  - destruct (negb _); [intros [= <-]; now left|]. destruct (match_token _ _ _ _) as [[[c' l]|]|]; [| |discriminate]; intros [= <-]; [right; eexists; reflexivity|now left].
Qed.
Lemma loop_invalid k fuel e d : tok_loop k fuel e d invalid = Some [].
Proof. destruct k; reflexivity. Qed.
Lemma shown_at pre q k ty : as_shown pre (q, q + k, ty) = ((EngineOk.at_ pre q, EngineOk.at_ pre (q + k)), ty).
Proof. unfold as_shown, place, EngineOk.at_. cbn [fst snd]. do 2 f_equal; lia. Qed.
Lemma loop_cut ds d pre w post fuel : forallb honest_def ds = true -> make_defs (map def_text ds) = Some d ->
  forall steps it vs p l, p <= length w -> i_cur it = Some (EngineOk.at_ pre p, qe (env_of pre w post)) -> i_last it = Some l ->
  tok_loop steps fuel (env_of pre w post) d it = Some vs ->
  vs = [] \/ exists ts, vs = Some l :: map (fun t => Some (as_shown pre t)) ts /\ cut_of ds w p ts.
Proof.
  intros H M. induction steps as [|k IH]; intros it vs p l Hp Ec El X; cbn [tok_loop] in X; destruct (iter_eqb _ it iter_end); try discriminate; try (left; congruence).
  destruct (advance fuel _ d it) as [it'|] eqn:Ad; [|discriminate]. destruct (tok_loop k fuel _ d it') as [vs'|] eqn:Lo; [|discriminate]. injection X as <-. rewrite El. right.
  destruct (advance_shape _ _ _ _ _ Ad) as [->|(l' & El')].
  - exists []. split; [|constructor]. f_equal. rewrite loop_invalid in Lo. now injection Lo as <-.
  - destruct (step_cut ds d pre w post fuel p it it' l' H M Hp Ec Ad El') as (q & j & ty & -> & Ec' & Hq & Hj & St). destruct (IH it' vs' (q + j) _ Hq Ec' El' Lo) as [->|(ts & -> & Ct)].
    + exists []. split; [reflexivity|constructor].
    + exists ((q, q + j, ty) :: ts). split; [|now apply St]. cbn [map]. do 2 f_equal. now rewrite shown_at.
Qed.
Theorem C42_honest_partial : forall ds d pre w post steps fuel l, forallb honest_def ds = true -> make_defs (map def_text ds) = Some d ->
  tok_range_for steps fuel (env_of pre w post) d = Some l ->
  exists ts, l = map (fun t => Some (as_shown pre t)) ts /\ cut_of ds w 0 ts.
Proof.
  intros ds d pre w post steps fuel l H M X. unfold tok_range_for, iter_create in X. destruct (qb _ =? qe _)%Z eqn:Z.
  - exists []. split; [|constructor]. assert (E : iter_eqb (env_of pre w post) (mkIter (Some (qb (env_of pre w post), qe (env_of pre w post))) None) iter_end = true).
    { apply Z.eqb_eq in Z. unfold iter_eqb, view_eqb, iter_end, invalid. cbn [i_cur last_view i_last vsize]. replace (qe _ - qb _)%Z with 0%Z by lia. cbn [Z.eqb andb]. unfold text. replace (qe _ - qb _)%Z with 0%Z by lia. reflexivity. }
    destruct steps; cbn [tok_loop] in X; rewrite E in X; now injection X as <-.
  - destruct (advance fuel _ d _) as [it|] eqn:Ad; [|discriminate].
    assert (E0 : qb (env_of pre w post) = EngineOk.at_ pre 0) by (unfold EngineOk.at_; cbn; lia). rewrite E0 in Ad.
    destruct (advance_shape _ _ _ _ _ Ad) as [->|(l' & El')].
    + exists []. split; [|constructor]. rewrite loop_invalid in X. now injection X as <-.
    + destruct (step_cut ds d pre w post fuel 0 (mkIter (Some (EngineOk.at_ pre 0, qe (env_of pre w post))) None) it l' H M ltac:(lia) eq_refl Ad El') as (q & j & ty & -> & Ec' & Hq & Hj & St). destruct (loop_cut ds d pre w post fuel H M steps it l (q + j) _ Hq Ec' El' X) as [->|(ts & -> & Ct)].
      * exists []. split; [reflexivity|constructor].
      * exists ((q, q + j, ty) :: ts). split; [|now apply St]. cbn [map]. do 2 f_equal. now rewrite shown_at.
Qed.
Print Assumptions C42_honest_partial.

(** Concrete cases: honest patterns that the semantic test of C21_soundness_partial ([exact]) does
    not admit; accepted results; a tokenizer. *)
Definition alts2 (a b : list (atom * quant)) : rx := ROr (Br false (seqs a)) (ROne (Br false (seqs b))).
Definition honest_cases : list rx :=
  [ pat [(ANon (alts2 [(lit "a", Q1)] [(lit "a", Q1); (lit "b", Q1)]), Q1); (lit "c", Q1)];
    pat [(ACap 0 (alts2 [(ANon (alts2 [(lit "x", Q1)] [(lit "x", Q1); (lit "y", Q1)]), Q1)] [(w1, star); (lit "z", Q1)]), Q1); (lit "c", QQ QOpt Po); (AEl (EClass true [CEsc 119]), Q1)] ].
Example C21_honest_case : forallb (fun r => wf r && honest r none) honest_cases = true
  /\ map show honest_cases = map S2L ["(?:a|ab)c"; "((?:x|xy)|\w*z)c?+[^\w]"]%string
  /\ map exact honest_cases = [false; false] /\ map one_look honest_cases = [false; false]
  /\ map (fun r => match compile (show r) with
                   | Some n => match create 20 (env_of [] (S2L "..ac.xc;"%string) [0%Z]) n with RDone s => to_view s | _ => None end
                   | None => None end) honest_cases = [Some (2, 4)%Z; Some (5, 8)%Z].
Proof. conj; vm_compute; reflexivity. Qed.
Example C47_honest_case : let r := ROne (Br true (seqs [(ANon (alts2 [(lit "a", Q1)] [(lit "a", Q1); (lit "b", Q1)]), Q1); (lit "@", Q1); (ACap 0 (pat [(w1, plus)]), Q1)])) in
  wf r = true /\ honest_d r = true /\ Anchor.anchored r = true /\ show_d r = S2L "^(?:a|ab)@(\w+)$"%string
  /\ match compile (show_d r) with
     | Some n => match create 20 (env_of [] (S2L "a@you"%string) [0%Z]) n with RDone s => to_view s = Some (0, 5)%Z | _ => False end
     | None => False
     end.
Proof. intro r. conj; vm_compute; reflexivity. Qed.
Example C42_honest_case : let ds := [Tok 0 (nth 0 honest_cases (ROne (Br false SNil))); Tok 1 (pat [(w1, plus)]); Sep (pat [(AEl (EEsc 115), plus)])] in
  forallb honest_def ds = true
  /\ match make_defs (map def_text ds) with
     | Some d => tok_range_for 12 12 (env_of [] (S2L "ac  abc x1"%string) [0%Z]) d = Some (map (fun t => Some (as_shown [] t)) [(0, 2, 0); (4, 7, 1); (8, 10, 1)])
     | None => False
     end.
Proof. intro ds. conj; vm_compute; reflexivity. Qed.
