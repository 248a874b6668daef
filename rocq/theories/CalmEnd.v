(** Patterns with $ that satisfy [calm_d] (SpecCalmEnd.v) compile to safe trees (Safe.v). *)
From Coq Require Import ZArith NArith List Bool Lia ZifyBool ZifyNat ZifyN.
From Verif Require Import Base Text Ast Builder BuilderProofs Engine Api Spec SpecProofs Tree ParseProofs Den Checker CheckerProofs AstProofs EngineOk EngineMain Captures Supported Main Safe MinSize Heads Families SpecFields SpecChoice SpecLL Fields Choice SpecCalm LL Calm End EndD LLEnd Sure SpecSure SureSyn SpecCalmEnd.
Import ListNotations.
Open Scope nat_scope.

(** ** No optional item of fixed size *)
Lemma noopt_unit a q cs inj : no_opt_atom a = true -> negb (match q with QQ k Gr => is_opt k | _ => false end) = true ->
  forallb noopt (map (fun c => optimize c []) cs) = true -> noopt (optimize (unitn a q cs) inj) = true.
Proof.
  intros Ha H2 Hs. pose proof (proj2 (proj2 (proj2 noopts)) a Ha) as A. clear Ha.
  assert (M : noopt (optimize (tree_atom a) []) = true) by (rewrite opt_atom; destruct a; cbn [wrap noopt forallb]; rewrite ?(A []); reflexivity).
  destruct q as [|k g].
  - cbn [unitn]. destruct a as [x|i r|r].
    + rewrite opt_simple. destruct cs; [apply A|]. cbn [noopt]. now rewrite A, Hs.
    + change (noopt (Group (optimize (core (ACap i r)) (cs ++ inj)) i (map (fun c => optimize c []) cs)) = true). cbn [noopt]. now rewrite A, Hs.
    + rewrite opt_simple. destruct cs; [apply A|]. cbn [noopt]. now rewrite A, Hs.
  - assert (PO : forall mn mx, noopt (Possessive (optimize (tree_atom a) []) mn mx (map (fun c => optimize c []) cs)) = true) by (intros; cbn [noopt]; now rewrite M, Hs).
    assert (LZ : forall mn mx, noopt (Lazy (optimize (tree_atom a) []) mn mx (map (fun c => optimize c []) cs)) = true) by (intros; cbn [noopt]; now rewrite M, Hs).
    assert (GR : is_opt k = false -> noopt (Greedy (optimize (tree_atom a) []) (kind_min k) (umax_of (kind_max k)) (map (fun c => optimize c []) cs)) = true).
    { intro O. cbn [noopt]. rewrite M, Hs, !andb_true_r. apply negb_true_iff. unfold opt_case. unfold is_opt in O. destruct (kind_max k) as [m|]; [cbn [umax_of]; now rewrite O|]. cbn [umax_of]. unfold UMAX. now rewrite andb_false_r. }
    destruct k as [| | |t|t|t t'].
    4:{ cbn [unitn optimize noopt]. now rewrite M, Hs. }
    all: destruct g; unfold unitn; [cbn [optimize]; destruct (adm_empty _); [apply PO|apply GR; now apply negb_true_iff]|cbn [optimize]; destruct (adm_empty _); [apply PO|apply LZ]|apply PO].
Qed.
Lemma noopt_sq_d s : no_opt_sq s = true -> noopt (optimize (tree_sq_d s) []) = true.
Proof.
  induction s as [|a q s IH]; cbn [no_opt_sq]; intro H; [reflexivity|]. rewrite !andb_true_iff in H. destruct H as [[H1 H2] H3]. rewrite tree_unit_d. apply noopt_unit; auto. cbn [map forallb]. now rewrite (IH H3).
Qed.
(** ** Safe trees *)
Section Safe.
Variable G : nat.
Notation lowc := (lowc G).
Notation safe := (safe true G).
Lemma calm_sq_tree_d s : wf_sq s = true -> calm_sq_d s = true -> lowc (caps_sq s) -> safe (optimize (tree_sq_d s) []) = true.
Proof.
  induction s as [|a q s IH]; intros W C L; [reflexivity|]. cbn [wf_sq calm_sq_d caps_sq] in *. rewrite !andb_true_iff in W. destruct W as [[W1 W2] W3]. rewrite !andb_true_iff in C. destruct C as [[C1 C2] C3]. apply Forall_app in L as [L1 L2]. specialize (IH W3 C1 L2).
  assert (K : forallb safe (map (fun c => optimize c []) [tree_sq_d s]) = true) by (cbn [map forallb]; now rewrite IH). rewrite tree_unit_d.
  pose proof (proj2 (proj2 (proj2 (calms true G))) a) as HA. pose proof (next_inj_d s W3) as IN.
  destruct q as [|k g].
  - cbn [unitn]. destruct a as [x|i r|r].
    + rewrite opt_simple. cbn [Safe.safe]. now rewrite (HA none W1 C2 L1 [] inj_nil), K.
    + change (optimize (Group (core (ACap i r)) i [tree_sq_d s]) []) with (Group (optimize (core (ACap i r)) [tree_sq_d s]) i (map (fun c => optimize c []) [tree_sq_d s])). cbn [Safe.safe]. rewrite K, (HA _ W1 C2 L1 _ IN). inversion L1 as [|? ? Lt]; subst. apply Nat.ltb_lt in Lt. now rewrite Lt.
    + rewrite opt_simple. cbn [Safe.safe]. now rewrite (HA none W1 C2 L1 [] inj_nil), K.
  - pose proof (HA none W1 C2 L1 [] inj_nil) as X. set (m := optimize (tree_atom a) []). set (cs' := map (fun c => optimize c []) [tree_sq_d s]) in *.
    assert (M : safe m = true). { unfold m. rewrite opt_atom. destruct a as [x|i r|r]; cbn [wrap]; [exact X| |exact X]. cbn [Safe.safe forallb]. rewrite X. inversion L1 as [|? ? Lt]; subst. apply Nat.ltb_lt in Lt. now rewrite Lt. }
    assert (PO : forall mn mx, safe (Possessive m mn mx cs') = true) by (intros; cbn [Safe.safe]; now rewrite M, K).
    assert (LZ : forall mn mx, safe (optimize (Lazy (tree_atom a) mn mx [tree_sq_d s]) []) = true).
    { intros. cbn [optimize]. fold m. destruct (adm_empty _); [apply PO|]. change (safe (Lazy m mn mx cs') = true). cbn [Safe.safe]. now rewrite M, K. }
    assert (GR : (match a with AEl x => clear x && (is_opt k || (steady x && no_opt_sq s)) | _ => false end || settled a (next_d s)) = true ->
                 safe (optimize (Greedy (tree_atom a) (kind_min k) (umax_of (kind_max k)) [tree_sq_d s]) []) = true).
    { intro X0. cbn [optimize]. fold m. destruct (adm_empty _) eqn:AE; [apply PO|]. apply orb_true_iff in X0 as [X0|X0].
      - destruct a as [x|i r|r]; [|discriminate X0|discriminate X0]. apply andb_true_iff in X0 as [D1 D2]. change (safe (Greedy m (kind_min k) (umax_of (kind_max k)) cs') = true). cbn [Safe.safe]. rewrite M, K. cbn [andb].
        assert (U : okunit m (elem_set x)) by (unfold m; rewrite opt_atom; cbn [wrap core]; rewrite opt_body; apply elem_unit; [exact W1|now apply clear_fine]).
        destruct (opt_case _ _ _) eqn:O; [now rewrite (ou_min _ _ U)|]. apply orb_true_iff in D2 as [D2|D2].
        + exfalso. unfold opt_case in O. rewrite (ou_min _ _ U), (ou_max _ _ U) in O. unfold is_opt in D2. apply andb_true_iff in D2 as [D2 D3]. destruct (kind_max k) as [j|]; [|discriminate D3]. cbn [umax_of] in O. rewrite D2, D3 in O. discriminate O.
        + apply andb_true_iff in D2 as [D2 D3]. assert (Eu : m = unode x) by (unfold m; rewrite opt_atom; cbn [wrap core]; apply opt_body). rewrite Eu, (unit_elem G x W1 D1 D2). unfold cs'. cbn [map forallb]. now rewrite (noopt_sq_d s D3).
      - exfalso. rewrite (settled_possessive a [tree_sq_d s] [] _ W1 X0 IN) in AE. discriminate AE. }
    destruct k as [| | |t|t|t t'].
    4:{ cbn [unitn]. change (optimize (Repeated (tree_atom a) (Z.to_N (num_val t)) [tree_sq_d s]) []) with (Repeated m (Z.to_N (num_val t)) cs'). cbn [Safe.safe]. now rewrite M, K. }
    all: destruct g; unfold unitn; [now apply GR|now apply LZ|apply PO].
Qed.
Lemma calm_br_tree_d b : wf_br b = true -> calm_br_d b = true -> lowc (caps_br b) -> safe (optimize (tree_br_d b) []) = true.
Proof.
  destruct b as [a s]. cbn [wf_br calm_br_d caps_br]. intros W C L. assert (W' : wf_sq s = true) by (destruct s; [reflexivity|exact W]). pose proof (calm_sq_tree_d s W' C L) as X. destruct a; cbn [tree_br_d]; [|exact X].
  cbn [followed]. change (safe (Simple (Term TStart) [optimize (tree_sq_d s) []]) = true). cbn [Safe.safe forallb]. now rewrite X.
Qed.
Lemma calm_all_d r : wf r = true -> calm_d r = true -> lowc (caps r) -> forallb safe (map (fun n => optimize n []) (tree_bs_d r)) = true.
Proof.
  induction r as [b|b r IH]; cbn [wf calm_d tree_bs_d map caps]; intros W C L.
  - cbn [forallb]. now rewrite (calm_br_tree_d b W C L).
  - apply andb_true_iff in W as [W1 W2]. apply andb_true_iff in C as [C1 C3]. apply Forall_app in L as [L1 L2]. cbn [forallb]. now rewrite (calm_br_tree_d b W1 C1 L1), (IH W2 C3 L2).
Qed.
Lemma calm_tree_d r : wf r = true -> calm_d r = true -> lowc (caps r) -> safe (optimize (tree_d r) []) = true.
Proof.
  intros W C L. pose proof (calm_all_d r W C L) as A. unfold tree_d. destruct (tree_bs_d r) as [|n [|m l]] eqn:E; [now apply tree_bs_d_nil in E| |].
  - cbn [map forallb] in A. rewrite andb_true_r in A. exact A.
  - change (optimize (SimpleV (n :: m :: l)) []) with (SimpleV (map (fun n => optimize n []) (n :: m :: l))). exact A.
Qed.
End Safe.
(** ** The numbers of the slots do not matter *)
Lemma renumber_calm_sq_d s : forall g, calm_sq_d (renumber_sq s g) = calm_sq_d s.
Proof.
  induction s as [|a q s IH]; intro g; [reflexivity|]. cbn [renumber_sq]. cbv zeta. cbn [calm_sq_d]. set (g' := after_atom (renumber_atom a g) g). rewrite IH. f_equal; [f_equal|].
  - destruct q; [destruct a; cbn [renumber_atom]; [reflexivity|exact (proj2 (proj2 (proj2 renumber_calm)) (ACap _ _) g _ _ (renumber_next_d s g'))|exact (proj2 (proj2 (proj2 renumber_calm)) (ANon _) g _ _ (fun c => eq_refl))]|]. destruct a; exact (proj2 (proj2 (proj2 renumber_calm)) _ g _ _ (fun c => eq_refl)).
  - rewrite (renumber_settled a g _ _ (renumber_next_d s g')). destruct q as [|k []]; [reflexivity| |destruct k; reflexivity|destruct k; reflexivity]. destruct a; cbn [renumber_atom]; [now rewrite (proj1 (proj2 (proj2 renumber_noopt)))|reflexivity|reflexivity].
Qed.
Lemma renumber_calm_d r : forall i g, calm_d (renumber_in i r g) = calm_d r.
Proof.
  induction r as [[a s]|[a s] r IH]; intros i g; cbn [renumber_in renumber_br calm_d calm_br_d]; [apply renumber_calm_sq_d|]. cbv zeta. cbn [calm_d calm_br_d]. now rewrite renumber_calm_sq_d, IH.
Qed.
Theorem calm_safe_d r : wf r = true -> calm_d r = true -> safe true (ngroups (ctree_d r)) (ctree_d r) = true.
Proof.
  intros W C. assert (W' : wf (renumber r) = true) by (unfold renumber; now rewrite (proj1 renumber_wf)). assert (C' : calm_d (renumber r) = true) by (unfold renumber; now rewrite renumber_calm_d).
  exact (calm_tree_d (ngroups (ctree_d r)) (renumber r) W' C' (caps_low_d r W)).
Qed.
