(** Patterns that satisfy [calm] (SpecCalm.v) compile to safe trees (Safe.v). *)
From Coq Require Import ZArith NArith List Bool Lia ZifyBool ZifyNat ZifyN.
From Verif Require Import Base Text Ast Builder BuilderProofs Engine Api Spec SpecProofs Tree ParseProofs Den Checker CheckerProofs AstProofs EngineOk EngineMain Captures Supported Main Safe Heads Families SpecFields SpecChoice SpecLL Fields Choice SpecCalm LL.
Import ListNotations.
Open Scope nat_scope.

Lemma tame_shape : (forall r, tame r = shape r) /\ (forall b, tame_br b = shape_br b) /\ (forall s, tame_sq s = shape_sq s) /\ (forall a, tame_atom a = shape_atom a).
Proof. apply rx_all_ind; cbn [tame tame_br tame_sq tame_atom shape shape_br shape_sq shape_atom]; intros; congruence. Qed.
(** ** Elements *)
Lemma safe_opt_term D G t : safe_term D t = true -> safe D G (Term (term_optimize t)) = true.
Proof. destruct t as [tok|s|a b| |]; cbn [term_optimize safe safe_term]; try reflexivity; try discriminate; auto. intro H. destruct (term_kind tok) eqn:E; cbn [safe safe_term]; auto. now rewrite E. Qed.
Lemma safe_cterm D G i : safe D G (Term (term_optimize (cterm i))) = true.
Proof.
  apply safe_opt_term. destruct i as [c|a b|c]; cbn [cterm safe_term]; try reflexivity. unfold term_kind. repeat (destruct (is_esc _ _); [reflexivity|]). destruct (is1 _ _); [reflexivity|]. reflexivity.
Qed.
Lemma safe_class D G items : safe D G (cnodes items) = true.
Proof.
  unfold cnodes. assert (A : forall i, safe D G (cnode i) = true) by (intro i; exact (safe_cterm D G i)). destruct items as [|i [|j l]]; [reflexivity|apply A|]. cbn [safe]. apply forallb_forall. intros n Hn. apply in_map_iff in Hn as (k & <- & _). apply A.
Qed.
Lemma clear_fine x : clear x = true -> fine x = true.
Proof. destruct x as [c|c| |[] items|a b c|a b]; auto. Qed.
Lemma safe_elem D G x : elem_ok x = true -> calm_atom (AEl x) none = true -> safe D G (unode x) = true.
Proof.
  intros H C. unfold unode. destruct x as [c|c| |[] items|a b c|a b]; cbn [body elem_ok calm_atom] in *.
  - cbn [optimize]. apply safe_opt_term. cbn [safe_term]. unfold term_kind. destruct (is1 _ _); [reflexivity|]. repeat (destruct (is_esc _ _); [reflexivity|]). reflexivity.
  - cbn [optimize]. apply safe_opt_term. cbn [safe_term]. unfold term_kind. destruct (is1 _ _); [reflexivity|]. repeat (destruct (is_esc _ _); [reflexivity|]). reflexivity.
  - reflexivity.
  - change (optimize (Negated (SimpleV (map tree_citem items))) []) with (Negated (optimize (SimpleV (map tree_citem items)) [])). rewrite opt_class. cbn [safe]. unfold unit_ok.
    apply andb_true_iff in H as [H N]. assert (NN : items <> []) by (destruct items; discriminate). apply negb_true_iff in C.
    assert (S : existsb is_space (removelast items) = false).
    { clear -C. induction items as [|i [|j items] IH]; try reflexivity.
      change (existsb is_space (removelast (i :: j :: items))) with (is_space i || existsb is_space (removelast (j :: items))).
      change (is_space i || existsb is_space (j :: items) = false) in C. apply orb_false_iff in C as [A B]. rewrite A. now apply IH. }
    pose proof (class_unit items NN H S) as [(Q & U & X) G0 A0 _ _ _ _]. rewrite U, G0, A0, class_clean by exact C. reflexivity.
  - rewrite opt_class. apply safe_class.
  - reflexivity.
  - reflexivity.
Qed.
Lemma unit_elem G x : elem_ok x = true -> clear x = true -> steady x = true -> unit_ok G (unode x) = true.
Proof.
  intros H C S. pose proof (elem_unit x H (clear_fine x C)) as U. unfold unit_ok. destruct (ou_set _ _ U) as (Q & -> & _). now rewrite (ou_good _ _ U), (ou_acc _ _ U), (elem_clean x PAny (steady_tidy x S)).
Qed.

(** ** No optional item of fixed size *)
Lemma noopt_body x inj : noopt (optimize (body x) inj) = true.
Proof.
  assert (A : forall i, noopt (cnode i) = true) by reflexivity. assert (B : forall items, noopt (cnodes items) = true) by (intro items; unfold cnodes; destruct items as [|i [|j l]]; [reflexivity|apply A|]; cbn [noopt]; apply forallb_forall; intros n Hn; apply in_map_iff in Hn as (k & <- & _); apply A).
  rewrite opt_body. unfold unode. destruct x as [c|c| |[] items|a b c|a b]; cbn [body]; try reflexivity.
  - change (optimize (Negated (SimpleV (map tree_citem items))) []) with (Negated (optimize (SimpleV (map tree_citem items)) [])). rewrite opt_class. apply B.
  - rewrite opt_class. apply B.
Qed.
Lemma noopts :
  (forall r, no_opt r = true -> (forall n inj, In n (tree_bs r) -> noopt (optimize n inj) = true) /\ forall inj, noopt (optimize (SimpleV (tree_bs r)) inj) = true) /\
  (forall b, no_opt_br b = true -> forall inj, noopt (optimize (tree_br b) inj) = true) /\
  (forall s, no_opt_sq s = true -> forall inj, forallb noopt (map (fun c => optimize c inj) (kids (tree_sq s))) = true) /\
  (forall a, no_opt_atom a = true -> forall inj, noopt (optimize (core a) inj) = true).
Proof.
  assert (V : forall r, (forall n inj, In n (tree_bs r) -> noopt (optimize n inj) = true) -> forall inj, noopt (optimize (SimpleV (tree_bs r)) inj) = true).
  { intros r X inj. destruct (opt_alts r inj) as [(n & E & ->)|[_ ->]]; [apply X; rewrite E; now left|]. cbn [noopt]. apply forallb_forall. intros y Hy. apply in_map_iff in Hy as (z & <- & Hz). now apply X. }
  apply rx_all_ind; cbn [no_opt no_opt_br no_opt_sq no_opt_atom].
  - intros b Hb H. assert (X : forall n inj, In n (tree_bs (ROne b)) -> noopt (optimize n inj) = true) by (intros n inj [<-|[]]; now apply Hb). split; [exact X|now apply V].
  - intros b Hb r Hr H. apply andb_true_iff in H as [H1 H2]. destruct (Hr H2) as [Hr' _]. assert (X : forall n inj, In n (tree_bs (ROr b r)) -> noopt (optimize n inj) = true) by (intros n inj [<-|Hn]; [now apply Hb|now apply Hr']). split; [exact X|now apply V].
  - intros a s Hs H inj. specialize (Hs H). destruct a; cbn [tree_br].
    + specialize (Hs []). destruct (tree_sq s) as [n|]; [|reflexivity]. exact Hs.
    + specialize (Hs inj). destruct (tree_sq s) as [n|]; [|reflexivity]. cbn [kids map forallb] in Hs. now apply andb_true_iff in Hs.
  - reflexivity.
  - intros a Ha q s Hs H inj. rewrite !andb_true_iff in H. destruct H as [[H1 H2] H3]. specialize (Ha H1). specialize (Hs H3 []). rewrite tree_unit. cbn [kids map forallb]. rewrite andb_true_r. set (cs := kids (tree_sq s)) in *.
    assert (M : noopt (optimize (tree_atom a) []) = true) by (rewrite opt_atom; destruct a; cbn [wrap noopt forallb]; rewrite ?(Ha []); reflexivity).
    destruct q as [|k g].
    + cbn [unitn]. destruct a as [x|i r|r]; [|change (noopt (Group (optimize (core (ACap i r)) (cs ++ inj)) i (map (fun c => optimize c []) cs)) = true); cbn [noopt]; now rewrite Ha, Hs|].
      * change (optimize (Simple (core (AEl x)) cs) inj) with (match cs with [] => optimize (core (AEl x)) inj | _ => Simple (optimize (core (AEl x)) inj) (map (fun c => optimize c []) cs) end). destruct cs; [apply Ha|]. cbn [noopt]. now rewrite Ha, Hs.
      * change (optimize (Simple (core (ANon r)) cs) inj) with (match cs with [] => optimize (core (ANon r)) inj | _ => Simple (optimize (core (ANon r)) inj) (map (fun c => optimize c []) cs) end). destruct cs; [apply Ha|]. cbn [noopt]. now rewrite Ha, Hs.
    + assert (PO : forall mn mx, noopt (Possessive (optimize (tree_atom a) []) mn mx (map (fun c => optimize c []) cs)) = true) by (intros; cbn [noopt]; now rewrite M, Hs).
      assert (LZ : forall mn mx, noopt (Lazy (optimize (tree_atom a) []) mn mx (map (fun c => optimize c []) cs)) = true) by (intros; cbn [noopt]; now rewrite M, Hs).
      assert (GR : is_opt k = false -> noopt (Greedy (optimize (tree_atom a) []) (kind_min k) (umax_of (kind_max k)) (map (fun c => optimize c []) cs)) = true).
      { intro O. cbn [noopt]. rewrite M, Hs, !andb_true_r. apply negb_true_iff. unfold opt_case. unfold is_opt in O. destruct (kind_max k) as [m|]; [cbn [umax_of]; now rewrite O|]. cbn [umax_of]. unfold UMAX. now rewrite andb_false_r. }
      destruct k as [| | |t|t|t t'].
      4:{ cbn [unitn optimize noopt]. now rewrite M, Hs. }
      all: destruct g; unfold unitn; [cbn [optimize]; destruct (adm_empty _); [apply PO|apply GR; now apply negb_true_iff]|cbn [optimize]; destruct (adm_empty _); [apply PO|apply LZ]|apply PO].
  - intros x _ inj. apply noopt_body.
  - intros i r Hr H inj. now apply Hr.
  - intros r Hr H inj. now apply Hr.
Qed.

(** ** Safe trees *)
Lemma inj_all inj I : injok inj I -> forall J : chr -> bool, (forall c, I c = true -> J c = true) -> injok inj J.
Proof. intros [A B] J H. split; [exact A|]. intros n c Hn Hc. apply H. now apply (B n). Qed.
Lemma inj_empty I : injok [] I.
Proof. split; [constructor|intros n c []]. Qed.
Lemma inj_next s inj I : wf_sq s = true -> injok inj I -> injok (kids (tree_sq s) ++ inj) (if tame_sq s then or_set (first_sq s) I else fun _ => true).
Proof.
  intros W H. destruct (tame_sq s) eqn:T.
  - rewrite (proj1 (proj2 (proj2 tame_shape))) in T. now apply inj_app.
  - destruct H as [A _]. split; [|reflexivity]. apply Forall_app. split; [|exact A]. destruct (tree_sq s) as [n|] eqn:E; [|constructor]. constructor; [|constructor]. now apply (proj1 (proj2 (proj2 tree_asc)) s).
Qed.
Section Safe.
Variables (D : bool) (G : nat).
Notation lowc := (lowc G).
Lemma calms :
  (forall r I, wf r = true -> calm r I = true -> lowc (caps r) -> (forall n, In n (tree_bs r) -> safe D G (optimize n []) = true) /\ forall inj, injok inj I -> safe D G (optimize (SimpleV (tree_bs r)) inj) = true) /\
  (forall b I, wf_br b = true -> calm_br b I = true -> lowc (caps_br b) -> forall inj, injok inj I -> safe D G (optimize (tree_br b) inj) = true) /\
  (forall s I, wf_sq s = true -> calm_sq s I = true -> lowc (caps_sq s) -> forall inj, injok inj I -> forallb (safe D G) (map (fun c => optimize c inj) (kids (tree_sq s))) = true) /\
  (forall a I, wf_atom a = true -> calm_atom a I = true -> lowc (caps_atom a) -> forall inj, injok inj I -> safe D G (optimize (core a) inj) = true).
Proof.
  apply rx_all_ind; cbn [wf wf_br wf_sq wf_atom calm calm_br calm_sq calm_atom caps caps_br caps_sq caps_atom].
  - intros b Hb I W C L. split; [intros n [<-|[]]; apply (Hb I W C L), inj_empty|]. intros inj Hi. exact (Hb I W C L inj Hi).
  - intros b Hb r Hr I W C L. apply andb_true_iff in W as [W1 W2]. apply andb_true_iff in C as [C1 C2]. apply Forall_app in L as [L1 L2].
    assert (X : forall n, In n (tree_bs (ROr b r)) -> safe D G (optimize n []) = true) by (intros n [<-|Hn]; [apply (Hb none W1 C1 L1), inj_nil|now apply (proj1 (Hr none W2 C2 L2))]). split; [exact X|].
    intros inj _. destruct (opt_alts (ROr b r) inj) as [(n & E & _)|[_ ->]]; [cbn [tree_bs] in E; injection E as _ E; now apply tree_bs_nil in E|]. cbn [safe]. apply forallb_forall. intros y Hy. apply in_map_iff in Hy as (z & <- & Hz). now apply X.
  - intros a s Hs I W C L inj Hi. assert (W' : wf_sq s = true) by (destruct s; [reflexivity|exact W]). destruct a; cbn [tree_br].
    + pose proof (Hs none W' C L [] inj_nil) as X. destruct (tree_sq s) as [n|]; [|reflexivity]. exact X.
    + pose proof (Hs I W' C L inj Hi) as X. destruct (tree_sq s) as [n|]; [|reflexivity]. cbn [kids map forallb] in X. now apply andb_true_iff in X.
  - reflexivity.
  - intros a Ha q s Hs I W C L inj Hi. rewrite !andb_true_iff in W. destruct W as [[W1 W2] W3]. cbv zeta in C. apply andb_true_iff in C as [C C3]. apply andb_true_iff in C as [C1 C2]. apply Forall_app in L as [L1 L2].
    pose proof (Hs none W3 C1 L2 [] inj_nil) as K. pose proof (inj_next s inj I W3 Hi) as IN. set (next := if tame_sq s then or_set (first_sq s) I else fun _ => true) in *. rewrite tree_unit. cbn [kids map forallb]. rewrite andb_true_r. set (cs := kids (tree_sq s)) in *. set (cs' := map (fun c => optimize c []) cs) in *.
    destruct q as [|k g].
    + cbn [unitn]. destruct a as [x|i r|r].
      * pose proof (Ha I W1 C2 L1 inj Hi) as X. change (optimize (Simple (core (AEl x)) cs) inj) with (match cs with [] => optimize (core (AEl x)) inj | _ => Simple (optimize (core (AEl x)) inj) (map (fun c => optimize c []) cs) end). unfold cs' in K. destruct cs; [exact X|]. cbn [safe]. now rewrite X, K.
      * change (optimize (Group (core (ACap i r)) i cs) inj) with (Group (optimize (core (ACap i r)) (cs ++ inj)) i cs'). cbn [safe]. rewrite K, (Ha next W1 C2 L1 _ IN). inversion L1 as [|? ? Lt]; subst. apply Nat.ltb_lt in Lt. now rewrite Lt.
      * pose proof (Ha I W1 C2 L1 inj Hi) as X. change (optimize (Simple (core (ANon r)) cs) inj) with (match cs with [] => optimize (core (ANon r)) inj | _ => Simple (optimize (core (ANon r)) inj) (map (fun c => optimize c []) cs) end). unfold cs' in K. destruct cs; [exact X|]. cbn [safe]. now rewrite X, K.
    + pose proof (Ha none W1 ltac:(destruct a; exact C2) L1 [] inj_nil) as X. set (m := optimize (tree_atom a) []).
      assert (M : safe D G m = true). { unfold m. rewrite opt_atom. destruct a as [x|i r|r]; cbn [wrap]; [exact X| |exact X]. cbn [safe forallb]. rewrite X. inversion L1 as [|? ? Lt]; subst. apply Nat.ltb_lt in Lt. now rewrite Lt. }
      assert (PO : forall mn mx, safe D G (Possessive m mn mx cs') = true) by (intros; cbn [safe]; now rewrite M, K).
      assert (LZ : forall mn mx, safe D G (Lazy m mn mx cs') = true) by (intros; cbn [safe]; now rewrite M, K).
      assert (GR : (match a with AEl x => clear x && (is_opt k || (steady x && no_opt_sq s)) | _ => false end || (tame_atom a && apart (first_atom a) next)) = true ->
                   safe D G (optimize (Greedy (tree_atom a) (kind_min k) (umax_of (kind_max k)) cs) inj) = true).
      { intro X0. cbn [optimize]. fold m cs'. destruct (adm_empty _) eqn:AE; [apply PO|]. apply orb_true_iff in X0 as [X0|X0].
        - destruct a as [x|i r|r]; [|discriminate X0|discriminate X0]. apply andb_true_iff in X0 as [D1 D2]. cbn [safe]. rewrite M, K. cbn [andb].
          assert (U : okunit m (elem_set x)) by (unfold m; rewrite opt_atom; cbn [wrap core]; rewrite opt_body; apply elem_unit; [exact W1|now apply clear_fine]).
          destruct (opt_case _ _ _) eqn:O; [now rewrite (ou_min _ _ U)|]. apply orb_true_iff in D2 as [D2|D2].
          + exfalso. unfold opt_case in O. rewrite (ou_min _ _ U), (ou_max _ _ U) in O. unfold is_opt in D2. apply andb_true_iff in D2 as [D2 D3]. destruct (kind_max k) as [j|]; [|discriminate D3]. cbn [umax_of] in O. rewrite D2, D3 in O. discriminate O.
          + apply andb_true_iff in D2 as [D2 D3]. assert (Eu : m = unode x) by (unfold m; rewrite opt_atom; cbn [wrap core]; apply opt_body). rewrite Eu, (unit_elem G x W1 D1 D2). exact (proj1 (proj2 (proj2 noopts)) s D3 []).
        - exfalso. apply andb_true_iff in X0 as [D1 D2]. rewrite (proj2 (proj2 (proj2 tame_shape))) in D1. pose proof (inter_loop a (cs ++ inj) next W1 D1 IN D2) as Y. rewrite Y in AE. discriminate AE. }
      destruct k as [| | |t|t|t t'].
      4:{ cbn [unitn]. change (optimize (Repeated (tree_atom a) (Z.to_N (num_val t)) cs) inj) with (Repeated m (Z.to_N (num_val t)) cs'). cbn [safe]. now rewrite M, K. }
      all: destruct g; unfold unitn; [now apply GR|cbn [optimize]; fold m cs'; destruct (adm_empty _); [apply PO|apply LZ]|apply PO].
  - intros x I W C _ inj _. cbn [core]. rewrite opt_body. now apply safe_elem.
  - intros i r Hr I W C L inj Hi. cbn [core]. inversion L; subst. now apply (proj2 (Hr I W C ltac:(assumption))).
  - intros r Hr I W C L inj Hi. cbn [core]. now apply (proj2 (Hr I W C L)).
Qed.
End Safe.
(** ** The numbers of the slots do not matter *)
Lemma renumber_noopt :
  (forall r i g, no_opt (renumber_in i r g) = no_opt r) /\ (forall b g, no_opt_br (renumber_br b g) = no_opt_br b) /\
  (forall s g, no_opt_sq (renumber_sq s g) = no_opt_sq s) /\ (forall a g, no_opt_atom (renumber_atom a g) = no_opt_atom a).
Proof.
  apply rx_all_ind; intros; cbn [renumber_in renumber_br renumber_sq renumber_atom no_opt no_opt_br no_opt_sq no_opt_atom]; cbv zeta; auto.
  - cbn [no_opt]. now rewrite H, H0.
  - cbn [no_opt_sq]. now rewrite H, H0.
Qed.
Lemma renumber_tame :
  (forall r i g, tame (renumber_in i r g) = tame r) /\ (forall b g, tame_br (renumber_br b g) = tame_br b) /\
  (forall s g, tame_sq (renumber_sq s g) = tame_sq s) /\ (forall a g, tame_atom (renumber_atom a g) = tame_atom a).
Proof.
  apply rx_all_ind; intros; cbn [renumber_in renumber_br renumber_sq renumber_atom tame tame_br tame_sq tame_atom]; cbv zeta; auto.
  - cbn [tame]. now rewrite H, H0.
  - now rewrite renumber_empties, H.
  - cbn [tame_sq]. now rewrite H, H0.
  - rewrite (proj1 renumber_weight). now rewrite H.
  - rewrite (proj1 renumber_weight). now rewrite H.
Qed.
Lemma renumber_calm :
  (forall r i g I I', (forall c, I c = I' c) -> calm (renumber_in i r g) I = calm r I') /\
  (forall b g I I', (forall c, I c = I' c) -> calm_br (renumber_br b g) I = calm_br b I') /\
  (forall s g I I', (forall c, I c = I' c) -> calm_sq (renumber_sq s g) I = calm_sq s I') /\
  (forall a g I I', (forall c, I c = I' c) -> calm_atom (renumber_atom a g) I = calm_atom a I').
Proof.
  apply rx_all_ind; cbn [renumber_in renumber_br renumber_sq renumber_atom calm calm_br calm_sq calm_atom].
  - intros b Hb i g I I' E. now apply Hb.
  - intros b Hb r Hr i g I I' E. cbv zeta. cbn [calm]. rewrite (Hb g none none) by reflexivity. f_equal. now apply Hr.
  - intros a s Hs g I I' E. destruct a; [now apply Hs|now apply Hs].
  - reflexivity.
  - intros a Ha q s Hs g I I' E. cbv zeta. cbn [calm_sq]. set (g' := after_atom (renumber_atom a g) g).
    set (nx := if tame_sq (renumber_sq s g') then or_set (first_sq (renumber_sq s g')) I else fun _ => true). set (nx' := if tame_sq s then or_set (first_sq s) I' else fun _ => true).
    assert (EN : forall c, nx c = nx' c). { intro c. unfold nx, nx'. rewrite (proj1 (proj2 (proj2 renumber_tame))). destruct (tame_sq s); [|reflexivity]. unfold or_set. now rewrite (proj1 (proj2 (proj2 renumber_first))), E. }
    rewrite (Hs g' none none (fun c => eq_refl)). f_equal.
    + f_equal. destruct q; [destruct a; cbn [renumber_atom]; [exact (Ha g _ _ E)|exact (Ha g _ _ EN)|exact (Ha g _ _ E)]|]. destruct a; exact (Ha g _ _ (fun c => eq_refl)).
    + assert (D : (tame_atom (renumber_atom a g) && apart (first_atom (renumber_atom a g)) nx) = (tame_atom a && apart (first_atom a) nx')) by (rewrite (proj2 (proj2 (proj2 renumber_tame))); f_equal; apply apart_ext; [apply (proj2 (proj2 (proj2 renumber_first)))|exact EN]).
      destruct q as [|k []]; [reflexivity| |destruct k; reflexivity|destruct k; reflexivity]. rewrite D. destruct a; cbn [renumber_atom]; [now rewrite (proj1 (proj2 (proj2 renumber_noopt)))|reflexivity|reflexivity].
  - reflexivity.
  - intros i r Hr g I I' E. now apply Hr.
  - intros r Hr g I I' E. now apply Hr.
Qed.
Theorem calm_safe r : wf r = true -> calm r none = true -> safe false (ngroups (ctree r)) (ctree r) = true.
Proof.
  intros W C. assert (W' : wf (renumber r) = true) by (unfold renumber; now rewrite (proj1 renumber_wf)). assert (C' : calm (renumber r) none = true) by (unfold renumber; now rewrite (proj1 renumber_calm r false 0 none none (fun c => eq_refl))).
  pose proof (proj2 (proj1 (calms false (ngroups (ctree r))) (renumber r) none W' C' (caps_low r W)) [] inj_nil) as X. exact X.
Qed.
