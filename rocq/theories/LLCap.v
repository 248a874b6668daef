(** Captures of the patterns of SpecLL.v. *)
From Coq Require Import ZArith NArith List Bool Lia ZifyBool ZifyNat ZifyN.
From Verif Require Import Base Text Ast Builder BuilderProofs Engine Spec SpecProofs Tree ParseProofs Den Checker AstProofs EngineOk EngineMain Captures MinSize Mono Supported Main Heads Families SpecFields Fields SpecChoice Choice SpecLL LL.
Import ListNotations.
Open Scope nat_scope.

Lemma bare_nil l : bare l = true -> l = [].
Proof. destruct l; [reflexivity|discriminate]. Qed.
(** The builder numbers the captures as written. *)
Lemma renumber_bare :
  (forall r i g, caps r = [] -> renumber_in i r g = r) /\ (forall b g, caps_br b = [] -> renumber_br b g = b) /\
  (forall s g, caps_sq s = [] -> renumber_sq s g = s) /\ (forall a g, caps_atom a = [] -> renumber_atom a g = a).
Proof.
  apply rx_all_ind; cbn [renumber_in renumber_br renumber_sq renumber_atom caps caps_br caps_sq caps_atom]; cbv zeta; auto.
  - intros b Hb i g E. now rewrite Hb.
  - intros b Hb r Hr i g E. apply app_eq_nil in E as [E1 E2]. now rewrite Hb, Hr.
  - intros a s Hs g E. now rewrite Hs.
  - intros a Ha q s Hs g E. apply app_eq_nil in E as [E1 E2]. now rewrite Ha, Hs.
  - discriminate.
  - intros r Hr g E. now rewrite Hr.
Qed.
Lemma bare_nx :
  (forall r, caps r = [] -> nx r = 0) /\ (forall b, caps_br b = [] -> nx_br b = 0) /\
  (forall s, caps_sq s = [] -> nx_sq s = 0) /\ (forall a, caps_atom a = [] -> nx_atom a = 0).
Proof.
  apply rx_all_ind; cbn [nx nx_br nx_sq nx_atom caps caps_br caps_sq caps_atom]; auto.
  - intros b Hb r Hr E. apply app_eq_nil in E as [E1 E2]. now rewrite Hb, Hr.
  - intros a Ha q s Hs E. apply app_eq_nil in E as [E1 E2]. destruct a as [x|i r|r]; [rewrite Hs by exact E2; destruct q; reflexivity|discriminate E1|].
    rewrite Ha, Hs by assumption. destruct q; reflexivity.
  - discriminate.
Qed.
Lemma caught_renumber s : forall g, caught s g = true -> renumber_sq s g = s.
Proof.
  induction s as [|a q s IH]; intros g H; [reflexivity|]. cbn [caught] in H. cbn [renumber_sq]. cbv zeta.
  assert (RESET : (Nat.eqb g 0 || bare (caps_sq s)) = true -> caught s g = true -> renumber_sq s 0 = s).
  { intros B C. apply orb_true_iff in B as [B|B]; [apply Nat.eqb_eq in B as ->; now apply IH|]. apply renumber_bare. now apply bare_nil. }
  destruct a as [x|k r|r].
  - cbn [renumber_atom]. destruct x; cbn [after_atom]; try (f_equal; now apply IH). apply andb_true_iff in H as [H1 H2]. now rewrite RESET.
  - destruct q; [|discriminate H]. rewrite !andb_true_iff in H. destruct H as [[H1 H2] H3]. apply Nat.eqb_eq in H1 as ->. apply bare_nil in H2.
    cbn [renumber_atom after_atom]. rewrite (proj1 renumber_bare r true (g + 1) H2). now rewrite Nat.add_1_r, IH.
  - rewrite !andb_true_iff in H. destruct H as [[H1 H2] H3]. apply bare_nil in H1. cbn [renumber_atom]. rewrite (proj1 renumber_bare r true g H1).
    change (after_atom (ANon r) g) with (nx r). rewrite (proj1 bare_nx r H1). now rewrite RESET.
Qed.
Lemma catches_renumber r : catches r = true -> renumber r = r.
Proof. destruct r as [[a s]|]; [|discriminate]. intro H. cbn [catches] in H. unfold renumber. cbn [renumber_in renumber_br]. now rewrite caught_renumber. Qed.
Lemma bare_sure :
  (forall r, caps r = [] -> sure r = []) /\ (forall b, caps_br b = [] -> sure_br b = []) /\
  (forall s, caps_sq s = [] -> sure_sq s = []) /\ (forall a, caps_atom a = [] -> sure_atom a = []).
Proof.
  apply rx_all_ind; cbn [sure sure_br sure_sq sure_atom caps caps_br caps_sq caps_atom]; auto.
  - intros b Hb r Hr E. apply app_eq_nil in E as [E1 E2]. now rewrite Hb.
  - intros a Ha q s Hs E. apply app_eq_nil in E as [E1 E2]. rewrite Ha, Hs by assumption. destruct q as [|k]; [reflexivity|]. now destruct (N.eqb (kind_min k) 0).
  - discriminate.
Qed.
Lemma caught_caps s : forall g, caught s g = true -> caps_sq s = seq g (length (caps_sq s)) /\ sure_sq s = caps_sq s.
Proof.
  induction s as [|a q s IH]; intros g H; [split; reflexivity|]. cbn [caught] in H. cbn [caps_sq sure_sq].
  assert (NONE : caps_atom a = [] -> caught s g = true -> caps_atom a ++ caps_sq s = seq g (length (caps_atom a ++ caps_sq s)) /\ (match q with Q1 => sure_atom a | QQ k _ => if N.eqb (kind_min k) 0 then [] else sure_atom a end) ++ sure_sq s = caps_atom a ++ caps_sq s).
  { intros E C. rewrite (proj2 (proj2 (proj2 bare_sure)) a E), E. destruct (IH g C) as [A B]. split; [exact A|]. rewrite B. destruct q as [|k]; [reflexivity|]. now destruct (N.eqb (kind_min k) 0). }
  destruct a as [x|k r|r].
  - apply NONE; [reflexivity|]. destruct x; try exact H. now apply andb_true_iff in H.
  - destruct q; [|discriminate H]. rewrite !andb_true_iff in H. destruct H as [[H1 H2] H3]. apply Nat.eqb_eq in H1 as ->. apply bare_nil in H2. destruct (IH _ H3) as [A B]. cbn [caps_atom sure_atom]. rewrite (proj1 bare_sure r H2), H2. cbn [app length seq]. now rewrite B, <- A.
  - rewrite !andb_true_iff in H. destruct H as [[H1 H2] H3]. apply bare_nil in H1. now apply NONE.
Qed.
Lemma catches_covers r : catches r = true -> covers r = true /\ numbered r.
Proof.
  destruct r as [[a s]|]; [|discriminate]. intro H. cbn [catches] in H. destruct (caught_caps s 0 H) as [A B]. split; [|exact A].
  unfold covers. cbn [caps caps_br sure sure_br]. rewrite B, <- A. apply forallb_forall. intros k Hk. apply existsb_exists. exists k. split; [exact Hk|apply Nat.eqb_refl].
Qed.

(** The captures stored are those of the chosen match. *)
Lemma nog_core a inj : match a with ACap _ r => caps r = [] | _ => caps_atom a = [] end -> nog (optimize (core a) inj) = true.
Proof.
  intro E. unfold nog. rewrite optimize_gidx. destruct a as [x|k r|r]; cbn [core].
  - pose proof (proj2 (proj2 (proj2 gidx_tree)) (AEl x)) as X. rewrite tree_core in X. cbn [core gidx flat_map caps_atom] in X. rewrite app_nil_r in X. now rewrite X.
  - cbn [gidx]. rewrite (proj1 gidx_tree), E. reflexivity.
  - cbn [gidx caps_atom] in *. rewrite (proj1 gidx_tree), E. reflexivity.
Qed.

Section Gex.
Variable G : nat.
Lemma gex_seq s : forall g fol I, wf_sq s = true -> ll_sq s fol I = true -> lowc G (caps_sq s) -> caught s g = true ->
  forall inj n, injok inj I -> tree_sq s = Some n -> gex (optimize n inj) = true.
Proof.
  induction s as [|a q s IH]; intros g fol I W H Lo C inj n Hi E; [discriminate E|].
  pose proof (proj1 (proj2 (proj2 (nodes G))) _ fol I W H Lo inj n Hi E) as X.
  pose proof (proj1 (proj2 (proj2 ll_shape)) _ _ _ W H) as Sh. cbn [wf_sq ll_sq caps_sq shape_sq caught] in *. rewrite !andb_true_iff in W. rewrite !andb_true_iff in Sh. destruct W as [[W1 W2] W3]. destruct Sh as [[[S1 S2] S3] S4]. cbv zeta in H. apply andb_true_iff in H as [H1 H2]. apply Forall_app in Lo as [L1 L2].
  rewrite tree_unit in E. injection E as <-. set (cs := kids (tree_sq s)) in *. set (cs' := map (fun c => optimize c []) cs) in *.
  assert (C' : exists g', caught s g' = true).
  { destruct a as [x|k r|r]; [exists g; destruct x; try exact C; now apply andb_true_iff in C|exists (S g)|exists g]; [destruct q; [|discriminate C]|]; now apply andb_true_iff in C. }
  destruct C' as (g' & C').
  assert (K : forallb gex cs' = true).
  { unfold cs', cs. destruct (tree_sq s) as [m|] eqn:E; [|reflexivity]. cbn [kids map forallb]. rewrite andb_true_r. exact (IH g' fol none W3 H1 L2 C' [] m inj_nil eq_refl). }
  assert (N : forall inj, nog (optimize (core a) inj) = true).
  { intro j. apply nog_core. destruct a as [x|k r|r]; [reflexivity| |]; [destruct q; [|discriminate C]|]; rewrite !andb_true_iff in C; destruct C as [[C1 C2] C3]; now apply bare_nil. }
  destruct q as [|k gr].
  - cbn [unitn] in *. assert (SIMPLE : forall m, nog m = true -> gex (Simple m cs') = true).
    { intros m Hm. change (gex (Simple m cs')) with (nog (Simple m cs') || (gex m && forallb gex cs')). now rewrite K, (gex_nog m Hm), orb_true_r. }
    destruct a as [x|i r|r].
    + change (optimize (Simple (core (AEl x)) cs) inj) with (match cs with [] => optimize (core (AEl x)) inj | _ => Simple (optimize (core (AEl x)) inj) cs' end). unfold cs' in *. destruct cs as [|c l]; [now apply gex_nog|]. now apply SIMPLE.
    + change (optimize (Group (core (ACap i r)) i cs) inj) with (Group (optimize (core (ACap i r)) (cs ++ inj)) i cs') in *.
      pose proof (kn_good _ _ _ _ X PFst) as GG. assert (LK : looky (optimize (core (ACap i r)) (cs ++ inj)) = false).
      { destruct (proj2 (proj2 (proj2 (nodes G))) (ACap i r) _ _ W1 H2 L1 _ (inj_app s inj I W3 S4 Hi)) as [_ _ _ _ _ _ KT _]. fold cs in KT. destruct (optimize (core (ACap i r)) (cs ++ inj)); try reflexivity; try (now destruct KT). }
      rewrite (looky_gex _ i cs' LK), K, andb_true_r. now apply gex_nog.
    + change (optimize (Simple (core (ANon r)) cs) inj) with (match cs with [] => optimize (core (ANon r)) inj | _ => Simple (optimize (core (ANon r)) inj) cs' end). unfold cs' in *. destruct cs as [|c l]; [now apply gex_nog|]. now apply SIMPLE.
  - rewrite !andb_true_iff in H2. destruct H2 as [[H2 H3] H4]. set (m := optimize (tree_atom a) []) in *.
    assert (M : nog m = true). { unfold m. rewrite opt_atom. destruct a as [x|i r|r]; cbn [wrap]; [apply N|discriminate C|apply N]. }
    assert (PO : forall mn mx, gex (Possessive m mn mx cs') = true).
    { intros mn mx. change (gex (Possessive m mn mx cs')) with (nog (Possessive m mn mx cs') || (gex m && gcl m && forallb gex cs')). now rewrite K, (gex_nog m M), (gcl_nog m M), orb_true_r. }
    assert (PG : once_more k gr = true -> forall mn mx, optimize (Greedy (tree_atom a) mn mx cs) inj = Possessive m mn mx cs').
    { intros O mn mx. rewrite O in H4. cbn [negb orb] in H4. apply andb_true_iff in H4 as [_ H4]. cbn [optimize]. rewrite (inter_loop a (cs ++ inj) _ W1 S1 (inj_app s inj I W3 S4 Hi) H4). reflexivity. }
    destruct k as [| | |t|t|t t'].
    4:{ cbn [unitn]. change (optimize (Repeated (tree_atom a) (Z.to_N (num_val t)) cs) inj) with (Repeated m (Z.to_N (num_val t)) cs').
        change (gex (Repeated m (Z.to_N (num_val t)) cs')) with (nog (Repeated m (Z.to_N (num_val t)) cs') || (gex m && forallb gex cs')). now rewrite K, (gex_nog m M), orb_true_r. }
    all: destruct gr; try (cbn [often] in H2; rewrite ?andb_false_r in H2; discriminate H2); unfold unitn; [rewrite (PG eq_refl); apply PO|apply PO].
Qed.
End Gex.
Theorem look_captures r : wf r = true -> one_look r = true -> catches r = true ->
  nats_eqb (caps (renumber r)) (caps r) && gex (ctree r) && covers r = true.
Proof.
  intros W H C. rewrite (catches_renumber r C), (proj1 (catches_covers r C)), andb_true_r. apply andb_true_iff. split.
  - clear. induction (caps r) as [|k l IH]; [reflexivity|]. cbn [nats_eqb]. now rewrite Nat.eqb_refl.
  - unfold ctree. pose proof (caps_low r W) as Lo. rewrite (catches_renumber r C) in *. destruct r as [[a s]|]; [|discriminate C]. cbn [catches wf wf_br one_look top_br caps caps_br] in *.
    apply andb_true_iff in H as [E H]. apply negb_true_iff in E. assert (W' : wf_sq s = true) by (destruct s; [reflexivity|exact W]).
    assert (T : exists n, tree_sq s = Some n) by (destruct s; [discriminate E|rewrite tree_unit; eauto]). destruct T as (n & T).
    pose proof (gex_seq _ s 0 none none W' H Lo C [] n inj_nil T) as X. unfold tree. cbn [tree_bs tree_br]. rewrite T. destruct a; [|exact X].
    set (t := optimize n []) in *. change (nog (Simple (Term TStart) [t]) || (true && (gex t && true)) = true). rewrite X. apply orb_true_r.
Qed.
