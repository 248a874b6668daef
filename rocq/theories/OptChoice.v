(** C15 with a domain read off the way the pattern is written (SpecChoice.v). *)
From Coq Require Import String ZArith NArith List Bool Lia ZifyBool ZifyNat ZifyN.
From Verif Require Import Base Text Ast Builder BuilderProofs Engine Api Spec Tree ParseProofs SpecProofs Den Checker Supported Main Families Refuted PropertiesMatch PropertiesSyntax Find Sound SpecFields SpecChoice Fields FieldsPre ChoiceSem Choice.
Import ListNotations.

(** No parentheses, no bracketed classes. *)
Definition bare (c : choice) : bool := negb (f_cap (ch_f c)) && match f_el (ch_f c) with EClass _ _ => false | _ => true end.
(** Every run is followed by a single character. *)
Fixpoint spaced (cs : list choice) : bool :=
  match cs with
  | c :: r => (negb (is_run (ch_f c)) || match r with h :: _ => single (ch_f h) && steady (f_el (ch_f h)) && (ch_lazy c || steady (f_el (ch_f c))) | [] => false end) && spaced r
  | [] => true
  end.

(** The single node of such an element. *)
Lemma bare_body c : bare c = true -> cok c = true -> exists t, body (f_el (ch_f c)) = Term t /\ is_some (tset t) = true /\ t <> TEnd /\ t <> TStart
  /\ (steady (f_el (ch_f c)) = true -> clean (Term t) PAny = true).
Proof.
  unfold bare. rewrite andb_true_iff. intros [_ B] K. destruct (fok_eok _ (cok_fok c K)) as [E _]. assert (O : elem_ok (f_el (ch_f c)) = true) by (unfold eok in E; rewrite !andb_true_iff in E; tauto).
  destruct (body_set _ O) as (Q & U & _). destruct (f_el (ch_f c)) as [a|a| |neg items|a b d|a b]; try discriminate B; cbn [body] in *; eexists; (split; [reflexivity|]);
    (split; [cbn [uset] in U; now rewrite U|]); (split; [discriminate|]); (split; [discriminate|]); intro T; try reflexivity.
  - cbn [clean]. unfold term_kind, is1, is_esc. cbn [str_eqb]. rewrite !andb_false_r. destruct (_ && _)%bool; reflexivity.
  - cbn [steady] in T. apply negb_true_iff in T. now apply esc_space.
Qed.
Section G.
Variable G : nat.
Lemma chain0_good cs : forall g n, cokl cs = true -> forallb bare cs = true -> spaced cs = true -> cchain0 cs g false = Some n -> forall pv, good G false n pv = true.
Proof.
  induction cs as [|c r IH]; intros g n F B S E pv; [discriminate E|]. cbn [cokl forallb] in F, B. cbn [spaced] in S. apply andb_true_iff in F as [F1 F2]. apply andb_true_iff in B as [B1 B2]. apply andb_true_iff in S as [S1 S2].
  cbn [cchain0] in E. injection E as <-. destruct (bare_body c B1 F1) as (t & BB & Ts & T1 & T2 & TC).
  pose proof B1 as B0. unfold bare in B0. apply andb_true_iff in B0 as [Cp _]. apply negb_true_iff in Cp.
  unfold cunit0. rewrite Cp. assert (NG : nextg (ch_f c) g = g) by (unfold nextg; now rewrite Cp). rewrite NG.
  assert (T : forall n, cchain0 r g false = Some n -> forall pv, good G false n pv = true) by (intros m Em; exact (IH g m F2 B2 S2 Em)).
  destruct (tset t) as [Q|] eqn:Us; [|discriminate Ts].
  assert (LU : uset (leaf (ch_f c)) = Some Q) by (unfold leaf; rewrite BB; exact Us).
  assert (Gd : forall pv, good G false (Term t) pv = true) by (intro; cbn [good]; rewrite Us; destruct t; try reflexivity; now elim T1).
  assert (LG : forall pv, good G false (leaf (ch_f c)) pv = true) by (intro; unfold leaf; rewrite BB; cbn [good]; apply (Gd PAny)).
  assert (LA : accins (leaf (ch_f c)) = true) by (unfold leaf; rewrite BB; reflexivity).
  assert (DT : Checker.det (Term t) = true) by (cbn [Checker.det uset]; now rewrite Us).
  assert (LD : Checker.det (leaf (ch_f c)) = true) by (unfold leaf; rewrite BB; cbn [Checker.det uset]; now rewrite Us).
  assert (LN : nonnull (leaf (ch_f c)) = true) by (unfold nonnull, leaf; rewrite BB; cbn [pre uset]; rewrite Us; reflexivity).
  assert (LC : ch_lazy c = false -> is_run (ch_f c) = true -> clean (leaf (ch_f c)) PAny = true).
  { intros Lz R. rewrite R in S1. cbn [negb orb] in S1. destruct r as [|h r]; [discriminate S1|]. rewrite Lz in S1. rewrite !andb_true_iff in S1. destruct S1 as [_ S1].
    unfold leaf. rewrite BB. cbn [clean]. exact (TC S1). }
  assert (KC : is_run (ch_f c) = true -> exists m, cchain0 r g false = Some m /\ clean m PAny = true).
  { intro R. rewrite R in S1. cbn [negb orb] in S1. destruct r as [|h r]; [discriminate S1|]. rewrite !andb_true_iff in S1. destruct S1 as [[Sh Th] _].
    cbn [forallb] in F2, B2. apply andb_true_iff in F2 as [Fh _]. apply andb_true_iff in B2 as [Bh _].
    cbn [cchain0]. eexists. split; [reflexivity|]. unfold cunit0, cinner0, cq. pose proof Sh as Sh'. unfold single in Sh'.
    destruct (ch_lazy h) eqn:Lh; [pose proof (cok_lazy h Fh Lh) as Rh; unfold is_run in Rh; destruct (f_am (ch_f h)); discriminate|].
    destruct (f_am (ch_f h)); try discriminate Sh'. apply negb_true_iff in Sh'. rewrite Sh'. cbn [am_quant tree_quant]. unfold leaf. destruct (bare_body h Bh Fh) as (t' & -> & _ & _ & _ & TC').
    destruct (cchain0 r _ false); cbn [followed app clean]; exact (TC' Th). }
  assert (RUN : forall mn, is_run (ch_f c) = true -> cinner0 c = (if ch_lazy c then Lazy (leaf (ch_f c)) mn UMAX [] else Greedy (leaf (ch_f c)) mn UMAX []) ->
    good G false (followed (cinner0 c) (cchain0 r g false)) pv = true).
  { intros mn R ->. destruct (KC R) as (m & Em & Cm). rewrite Em. specialize (T m Em). destruct (ch_lazy c) eqn:Lz; cbn [followed app good].
    - now rewrite LG, LD, LN, LA, T, Cm.
    - rewrite LG, (LC eq_refl R), LA, T, Cm. unfold greedy_item, opt_good, opt_case. rewrite LU. change (N.eqb UMAX 1) with false. now rewrite andb_false_r. }
  unfold cinner0, cq, is_run in *. destruct (f_am (ch_f c)) as [|ds| |] eqn:Am.
  - destruct (ch_lazy c) eqn:Lz; [pose proof (cok_lazy c F1 Lz) as R; unfold is_run in R; rewrite Am in R; discriminate R|].
    cbn [am_quant tree_quant]. destruct (cchain0 r g false) as [m|] eqn:Em; [|apply LG].
    unfold leaf. rewrite BB. cbn [followed app]. change (good G false (Simple (Term t) [m]) pv) with (if is_start (Term t) then Checker.eats m && good G false m pv else good G false (Term t) pv && good G false m (lastp (Term t) pv) && (Checker.det (Term t) || total m)).
    rewrite Gd, DT, !(T m eq_refl). destruct t; try reflexivity. now elim T2.
  - destruct (ch_lazy c) eqn:Lz; [pose proof (cok_lazy c F1 Lz) as R; unfold is_run in R; rewrite Am in R; discriminate R|].
    cbn [am_quant tree_quant]. destruct (cchain0 r g false) as [m|] eqn:Em; cbn [followed app good]; rewrite LG, LD, ?(T m eq_refl); reflexivity.
  - apply (RUN 1%N); auto. destruct (ch_lazy c); cbn; auto.
  - apply (RUN 0%N); auto. destruct (ch_lazy c); cbn; auto.
Qed.
End G.

Lemma chain0_eats cs g n : cokl cs = true -> forallb bare cs = true -> starts cs = true -> cchain0 cs g false = Some n -> Checker.eats n = true.
Proof.
  intros F B Hs E. destruct cs as [|c r]; [discriminate Hs|]. cbn [cchain0] in E. injection E as <-. cbn [cokl forallb] in F, B. apply andb_true_iff in F as [F1 F2]. apply andb_true_iff in B as [B1 B2]. cbn [starts] in Hs.
  destruct (required (ch_f c)) eqn:R.
  - unfold Checker.eats, nonnull. destruct (chead0 c g (cchain0 r (nextg (ch_f c) g) false) F1 R) as (P & l & -> & _). reflexivity.
  - cbn [orb] in Hs. destruct r as [|h r]; [discriminate Hs|]. cbn [forallb] in F2. apply andb_true_iff in F2 as [F2 _]. cbn [cchain0].
    set (m := followed (cunit0 h _) _). assert (Nm : exists P l, fst (pre m) = P :: l). { destruct (chead0 h (nextg (ch_f c) g) (cchain0 r (nextg (ch_f h) (nextg (ch_f c) g)) false) F2 Hs) as (P & l & X & _). exists P, l. exact X. }
    destruct Nm as (P & l & Pm). clearbody m. destruct (bare_body c B1 F1) as (t & BB & Ts & _). unfold bare in B1. apply andb_true_iff in B1 as [Cp _]. apply negb_true_iff in Cp.
    unfold cunit0, cinner0, cq. rewrite Cp. unfold required in R. destruct (f_am (ch_f c)); try discriminate R.
    assert (PL : exists Q, fst (pre (leaf (ch_f c))) = [Q]). { destruct (tset t) as [Q|] eqn:Us; [|discriminate Ts]. exists Q. unfold leaf. rewrite BB. cbn [pre uset]. now rewrite Us. }
    destruct PL as (Q & PL). unfold Checker.eats, nonnull.
    destruct (ch_lazy c); cbn [am_quant tree_quant mkq pol_of kind_min kind_max umax_of followed app].
    + change (fst (pre (Lazy (leaf (ch_f c)) 0 UMAX [m]))) with (firstn 1 (zipu (fst (pre (leaf (ch_f c)))) (fst (pre m)))). rewrite PL, Pm. reflexivity.
    + change (fst (pre (Greedy (leaf (ch_f c)) 0 UMAX [m]))) with (firstn 1 (zipu (fst (pre (leaf (ch_f c)))) (fst (pre m)))). rewrite PL, Pm. reflexivity.
Qed.

(** C15 for such patterns behind ^: whatever the optimiser decides for each run, the observable
    results are those of the pattern that was not optimised, after every sequence of calls. *)
Theorem C15_overlap_partial : forall cs n n' pre w post s s', choice_ok false cs = true -> forallb bare cs = true -> spaced cs = true ->
  parse ([94%Z] ++ show_choices cs) = Some n -> compile ([94%Z] ++ show_choices cs) = Some n' ->
  query_ok w -> post <> [] -> lockstep (env_of pre w post) n n' s s' ->
  is_accepted s = is_accepted s' /\ to_view s = to_view s'.
Proof.
  intros cs n n' pre w post s s' H B S P C Q Po R. destruct (choice_parts false cs H) as (F & Gp & Cn & O & N). destruct (crx_exact true cs H eq_refl) as (Ex & _ & _).
  assert (SH : show (crx true cs) = [94%Z] ++ show_choices cs) by (unfold crx; cbn [show show_br]; rewrite show_csq by exact F; reflexivity).
  pose proof (parse_show (crx true cs) (wf_crx true cs N F)) as PS. rewrite SH in PS. pose proof (exact_compile _ Ex) as CO. rewrite SH in CO.
  destruct (cchain_some cs false F N) as (n0 & m & E0 & E).
  assert (En : n = SimpleV [Simple (Term TStart) [n0]]) by (rewrite (tree_crx true cs n0 Cn E0) in PS; congruence).
  assert (En' : n' = Simple (Term TStart) [m]) by (rewrite (ctree_crx true cs m H E) in CO; congruence).
  unfold exact in Ex. rewrite (ctree_crx true cs m H E), (tree_crx true cs n0 Cn E0), <- En, <- En' in Ex. rewrite !andb_true_iff in Ex. destruct Ex as [_ [[[OK Gd] Ac] _]].
  refine (C15_optimise_partial _ n n' pre w post s s' P C OK _ _ Q Po R).
  - rewrite En. unfold faithful. cbn [good is_start forallb is_nil negb accins clean]. rewrite (chain0_eats cs 0 n0 F B O E0), (chain0_good _ cs 0 n0 F B S E0). reflexivity.
  - rewrite En' in *. unfold faithful. rewrite Gd, Ac. reflexivity.
Qed.
Print Assumptions C15_overlap_partial.

(** A run before a character it contains (kept greedy, kept lazy) and one before a character it
    does not contain (made possessive). *)
Definition overlap_fields : list choice :=
  [Ch (Fld false EDot Star) false; Ch (Fld false (ELit 44) One) false; Ch (Fld false EDot Star) true; Ch (Fld false (ELit 44) One) false; Ch (Fld false (EEsc 100) Plus) false; Ch (Fld false (ELit 33) One) false].
Example C15_overlap_case : choice_ok false overlap_fields = true /\ forallb bare overlap_fields = true /\ spaced overlap_fields = true
  /\ show_choices overlap_fields = S2L ".*,.*?,\d+!"
  /\ (exists n n' s s', parse (S2L "^.*,.*?,\d+!") = Some n /\ compile (S2L "^.*,.*?,\d+!") = Some n' /\ n <> n'
      /\ lockstep (env_of [] (S2L "a,b,12!,c") [0%Z]) n n' s s' /\ to_view s' = Some (place [] 0 7)).
Proof.
  conj; try (vm_compute; reflexivity). set (p := S2L "^.*,.*?,\d+!"). set (n := match parse p with Some n => n | None => SimpleV [] end).
  exists n, (node_of p). set (e := env_of [] (S2L "a,b,12!,c") [0%Z]). exists (st_of (create 10 e n)), (st_of (create 10 e (node_of p))).
  conj; try (vm_compute; reflexivity).
  - vm_compute. discriminate.
  - apply (LCreate _ _ _ 10 10); vm_compute; reflexivity.
Qed.
