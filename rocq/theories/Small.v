(** Patterns that satisfy [small] (SpecSmall.v) compile to trees with [opt_small] (Mono.v). *)
From Coq Require Import ZArith NArith List Bool Lia ZifyBool ZifyNat ZifyN.
From Verif Require Import Base Text Ast Builder BuilderProofs Engine Api Spec SpecProofs Tree ParseProofs Den Checker CheckerProofs AstProofs EngineOk EngineMain Captures Supported Main Safe Mono MinSize Heads Families SpecFields SpecChoice SpecLL Fields Choice SpecCalm LL Calm End EndD LLEnd Sure SpecSure SureSyn SpecSmall.
Import ListNotations.
Open Scope nat_scope.

Lemma body_small x : opt_small (unode x) = true.
Proof.
  assert (C : forall items, opt_small (cnodes items) = true).
  { intro items. assert (X : forallb opt_small (map cnode items) = true) by (apply forallb_forall; intros n I; apply in_map_iff in I as (i & <- & _); reflexivity). unfold cnodes. destruct items as [|i [|j l]]; [exact X|reflexivity|exact X]. }
  unfold unode. destruct x as [c|c| |[] items|a b c|a b]; cbn [body]; try reflexivity.
  - change (optimize (Negated (SimpleV (map tree_citem items))) []) with (Negated (optimize (SimpleV (map tree_citem items)) [])). rewrite opt_class. cbn [opt_small]. apply C.
  - rewrite opt_class. apply C.
Qed.
Lemma unit_small a cs inj : opt_small (optimize (core a) (match a with ACap _ _ => cs ++ inj | _ => inj end)) = true -> forallb opt_small (map (fun c => optimize c []) cs) = true ->
  opt_small (optimize (unitn a Q1 cs) inj) = true.
Proof.
  intros X K. cbn [unitn]. destruct a as [x|i r|r].
  - rewrite opt_simple. destruct cs; [exact X|]. cbn [opt_small]. now rewrite X, K.
  - change (optimize (Group (core (ACap i r)) i cs) inj) with (Group (optimize (core (ACap i r)) (cs ++ inj)) i (map (fun c => optimize c []) cs)). cbn [opt_small]. now rewrite X, K.
  - rewrite opt_simple. destruct cs; [exact X|]. cbn [opt_small]. now rewrite X, K.
Qed.
Lemma loop_small a k g cs inj next : wf_atom a = true -> injok (cs ++ inj) next -> opt_ok a (QQ k g) next = true ->
  opt_small (optimize (tree_atom a) []) = true -> forallb opt_small (map (fun c => optimize c []) cs) = true ->
  opt_small (optimize (unitn a (QQ k g) cs) inj) = true.
Proof.
  intros W IN C M K. set (m := optimize (tree_atom a) []) in *. set (cs' := map (fun c => optimize c []) cs) in *.
  assert (PO : forall mn mx, opt_small (Possessive m mn mx cs') = true) by (intros; cbn [opt_small]; now rewrite M, K).
  assert (LZ : forall mn mx, opt_small (optimize (Lazy (tree_atom a) mn mx cs) inj) = true).
  { intros. cbn [optimize]. fold m cs'. destruct (adm_empty _); [apply PO|]. cbn [opt_small]. now rewrite M, K. }
  assert (GR : g = Gr -> opt_small (optimize (Greedy (tree_atom a) (kind_min k) (umax_of (kind_max k)) cs) inj) = true).
  { intros ->. cbn [optimize]. fold m cs'. destruct (adm_empty _) eqn:AE; [now apply PO|]. cbn [opt_small]. rewrite M, K, !andb_true_r. cbn [opt_ok] in C. rewrite !orb_true_iff in C. destruct C as [[C|C]|C].
    - apply orb_true_iff. left. apply negb_true_iff in C. apply negb_true_iff. unfold is_opt in C. unfold opt_case. destruct (kind_max k) as [j|]; cbn [umax_of]; [now rewrite C|]. unfold UMAX. now rewrite andb_false_r.
    - apply orb_true_iff. right. apply N.leb_le. destruct a as [x| |]; try discriminate. unfold m. rewrite optimize_nmin. exact (elem_min x W).
    - pose proof (settled_possessive a cs inj next W C IN) as Y. rewrite Y in AE. discriminate AE. }
  destruct k as [| | |t|t|t t'].
  4:{ cbn [unitn]. change (optimize (Repeated (tree_atom a) (Z.to_N (num_val t)) cs) inj) with (Repeated m (Z.to_N (num_val t)) cs'). cbn [opt_small]. now rewrite M, K. }
  all: destruct g; unfold unitn; [now apply GR|now apply LZ|now apply PO].
Qed.
Lemma atom_small a : opt_small (optimize (core a) []) = true -> opt_small (optimize (tree_atom a) []) = true.
Proof. rewrite opt_atom. destruct a; cbn [wrap opt_small forallb]; rewrite ?andb_true_r; auto. Qed.
Lemma small_tree :
  (forall r I, wf r = true -> small r I = true -> (forall n, In n (tree_bs r) -> opt_small (optimize n []) = true) /\ forall inj, injok inj I -> opt_small (optimize (SimpleV (tree_bs r)) inj) = true) /\
  (forall b I, wf_br b = true -> small_br b I = true -> forall inj, injok inj I -> opt_small (optimize (tree_br b) inj) = true) /\
  (forall s I, wf_sq s = true -> small_sq s I = true -> forall inj, injok inj I -> forallb opt_small (map (fun c => optimize c inj) (kids (tree_sq s))) = true) /\
  (forall a I, wf_atom a = true -> small_atom a I = true -> forall inj, injok inj I -> opt_small (optimize (core a) inj) = true).
Proof.
  apply rx_all_ind; cbn [wf wf_br wf_sq wf_atom small small_br small_sq small_atom].
  - intros b Hb I W C. split; [intros n [<-|[]]; apply (Hb I W C), inj_empty|]. intros inj Hi. exact (Hb I W C inj Hi).
  - intros b Hb r Hr I W C. apply andb_true_iff in W as [W1 W2]. apply andb_true_iff in C as [C1 C3]. destruct (Hr none W2 C3) as [R1 _].
    assert (X : forall n, In n (tree_bs (ROr b r)) -> opt_small (optimize n []) = true) by (intros n [<-|Hn]; [apply (Hb none W1 C1), inj_nil|now apply R1]).
    split; [exact X|]. intros inj _. destruct (opt_alts (ROr b r) inj) as [(n & E & _)|[_ ->]]; [cbn [tree_bs] in E; injection E as _ E; now apply tree_bs_nil in E|]. cbn [opt_small]. apply forallb_forall. intros y Hy. apply in_map_iff in Hy as (z & <- & Hz). now apply X.
  - intros a s Hs I W C inj Hi. assert (W' : wf_sq s = true) by (destruct s; [reflexivity|exact W]). destruct a; cbn [tree_br].
    + pose proof (Hs none W' C [] inj_nil) as X. destruct (tree_sq s) as [n|]; [|reflexivity]. cbn [kids map forallb] in X. cbn [followed]. change (opt_small (Simple (Term TStart) [optimize n []]) = true). cbn [opt_small forallb]. exact X.
    + pose proof (Hs I W' C inj Hi) as X. destruct (tree_sq s) as [n|]; [|reflexivity]. cbn [kids map forallb] in X. now apply andb_true_iff in X.
  - reflexivity.
  - intros a Ha q s Hs I W C inj Hi. rewrite !andb_true_iff in W. destruct W as [[W1 W2] W3]. rewrite !andb_true_iff in C. destruct C as [[C1 C2] C3].
    pose proof (Hs none W3 C1 [] inj_nil) as K. pose proof (next_inj s inj I W3 Hi) as IN. rewrite tree_unit. cbn [kids map forallb]. rewrite andb_true_r.
    destruct q as [|k g].
    + apply unit_small; [|exact K]. destruct a as [x|i r|r]; [exact (Ha I W1 C2 inj Hi)|exact (Ha _ W1 C2 _ IN)|exact (Ha I W1 C2 inj Hi)].
    + eapply loop_small; [exact W1|exact IN|exact C3| |exact K]. apply atom_small. apply (Ha none W1); [destruct a; exact C2|apply inj_nil].
  - intros x I W C inj _. cbn [core]. rewrite opt_body. apply body_small.
  - intros i r Hr I W C inj Hi. cbn [core]. now apply (proj2 (Hr I W C)).
  - intros r Hr I W C inj Hi. cbn [core]. now apply (proj2 (Hr I W C)).
Qed.
(** ** With $ *)
Lemma small_sq_tree_d s : wf_sq s = true -> small_sq_d s = true -> opt_small (optimize (tree_sq_d s) []) = true.
Proof.
  induction s as [|a q s IH]; intros W C; [reflexivity|]. cbn [wf_sq small_sq_d] in *. rewrite !andb_true_iff in W. destruct W as [[W1 W2] W3]. rewrite !andb_true_iff in C. destruct C as [[C1 C2] C3]. specialize (IH W3 C1).
  assert (K : forallb opt_small (map (fun c => optimize c []) [tree_sq_d s]) = true) by (cbn [map forallb]; now rewrite IH). rewrite tree_unit_d. destruct q as [|k g].
  - apply unit_small; [|exact K]. rewrite app_nil_r. destruct a as [x|i r|r]; [exact (proj2 (proj2 (proj2 small_tree)) (AEl x) none W1 C2 [] inj_nil)|exact (proj2 (proj2 (proj2 small_tree)) (ACap i r) _ W1 C2 _ (next_inj_d s W3))|exact (proj2 (proj2 (proj2 small_tree)) (ANon r) none W1 C2 [] inj_nil)].
  - eapply loop_small; [exact W1| |exact C3| |exact K].
    + rewrite app_nil_r. now apply next_inj_d.
    + apply atom_small. apply (proj2 (proj2 (proj2 small_tree)) a none W1); [exact C2|apply inj_nil].
Qed.
Lemma small_br_tree_d b : wf_br b = true -> small_br_d b = true -> opt_small (optimize (tree_br_d b) []) = true.
Proof.
  destruct b as [a s]. cbn [wf_br small_br_d]. intros W C. assert (W' : wf_sq s = true) by (destruct s; [reflexivity|exact W]). pose proof (small_sq_tree_d s W' C) as X. destruct a; cbn [tree_br_d]; [|exact X].
  cbn [followed]. change (opt_small (Simple (Term TStart) [optimize (tree_sq_d s) []]) = true). cbn [opt_small forallb]. now rewrite X.
Qed.
Lemma small_all_d r : wf r = true -> small_d r = true -> forallb opt_small (map (fun n => optimize n []) (tree_bs_d r)) = true.
Proof.
  induction r as [b|b r IH]; cbn [wf small_d tree_bs_d map]; intros W C.
  - cbn [forallb]. now rewrite (small_br_tree_d b W C).
  - apply andb_true_iff in W as [W1 W2]. apply andb_true_iff in C as [C1 C3]. cbn [forallb]. now rewrite (small_br_tree_d b W1 C1), (IH W2 C3).
Qed.
Lemma small_tree_d r : wf r = true -> small_d r = true -> opt_small (optimize (tree_d r) []) = true.
Proof.
  intros W C. pose proof (small_all_d r W C) as A. unfold tree_d. destruct (tree_bs_d r) as [|n [|m l]] eqn:E; [now apply tree_bs_d_nil in E| |].
  - cbn [map forallb] in A. rewrite andb_true_r in A. exact A.
  - change (optimize (SimpleV (n :: m :: l)) []) with (SimpleV (map (fun n => optimize n []) (n :: m :: l))). exact A.
Qed.
(** ** The numbers of the slots do not matter *)
Lemma renumber_opt_ok a g q I I' : (forall c, I c = I' c) -> opt_ok (renumber_atom a g) q I = opt_ok a q I'.
Proof. intro E. unfold opt_ok. rewrite (renumber_settled a g I I' E). destruct q as [|[] []]; try reflexivity; destruct a; reflexivity. Qed.
Lemma renumber_small :
  (forall r i g I I', (forall c, I c = I' c) -> small (renumber_in i r g) I = small r I') /\
  (forall b g I I', (forall c, I c = I' c) -> small_br (renumber_br b g) I = small_br b I') /\
  (forall s g I I', (forall c, I c = I' c) -> small_sq (renumber_sq s g) I = small_sq s I') /\
  (forall a g I I', (forall c, I c = I' c) -> small_atom (renumber_atom a g) I = small_atom a I').
Proof.
  apply rx_all_ind; cbn [renumber_in renumber_br renumber_sq renumber_atom small small_br small_sq small_atom].
  - intros b Hb i g I I' E. now apply Hb.
  - intros b Hb r Hr i g I I' E. cbv zeta. cbn [small]. rewrite (Hb g none none) by reflexivity. f_equal. now apply Hr.
  - intros a s Hs g I I' E. destruct a; now apply Hs.
  - reflexivity.
  - intros a Ha q s Hs g I I' E. cbv zeta. cbn [small_sq]. set (g' := after_atom (renumber_atom a g) g). pose proof (renumber_next s g' I I' E) as EN. rewrite (Hs g' none none (fun c => eq_refl)). f_equal; [f_equal|].
    + destruct q; [destruct a; cbn [renumber_atom]; [exact (Ha g _ _ E)|exact (Ha g _ _ EN)|exact (Ha g _ _ E)]|]. destruct a; exact (Ha g _ _ (fun c => eq_refl)).
    + now apply renumber_opt_ok.
  - reflexivity.
  - intros i r Hr g I I' E. now apply Hr.
  - intros r Hr g I I' E. now apply Hr.
Qed.
Lemma renumber_small_sq_d s : forall g, small_sq_d (renumber_sq s g) = small_sq_d s.
Proof.
  induction s as [|a q s IH]; intro g; [reflexivity|]. cbn [renumber_sq]. cbv zeta. cbn [small_sq_d]. set (g' := after_atom (renumber_atom a g) g). rewrite IH, (renumber_opt_ok a g q _ _ (renumber_next_d s g')). f_equal. f_equal.
  destruct q; [destruct a; cbn [renumber_atom]; [reflexivity|exact (proj2 (proj2 (proj2 renumber_small)) (ACap _ _) g _ _ (renumber_next_d s g'))|exact (proj2 (proj2 (proj2 renumber_small)) (ANon _) g _ _ (fun c => eq_refl))]|]. destruct a; exact (proj2 (proj2 (proj2 renumber_small)) _ g _ _ (fun c => eq_refl)).
Qed.
Lemma renumber_small_d r : forall i g, small_d (renumber_in i r g) = small_d r.
Proof.
  induction r as [[a s]|[a s] r IH]; intros i g; cbn [renumber_in renumber_br small_d small_br_d]; [apply renumber_small_sq_d|]. cbv zeta. cbn [small_d small_br_d]. now rewrite renumber_small_sq_d, IH.
Qed.
Theorem small_ctree r : wf r = true -> small r none = true -> opt_small (ctree r) = true.
Proof.
  intros W C. assert (W' : wf (renumber r) = true) by (unfold renumber; now rewrite (proj1 renumber_wf)). assert (C' : small (renumber r) none = true) by (unfold renumber; now rewrite (proj1 renumber_small r false 0 none none (fun c => eq_refl))).
  exact (proj2 (proj1 small_tree (renumber r) none W' C') [] inj_nil).
Qed.
Theorem small_ctree_d r : wf r = true -> small_d r = true -> opt_small (ctree_d r) = true.
Proof.
  intros W C. assert (W' : wf (renumber r) = true) by (unfold renumber; now rewrite (proj1 renumber_wf)). assert (C' : small_d (renumber r) = true) by (unfold renumber; now rewrite renumber_small_d).
  exact (small_tree_d (renumber r) W' C').
Qed.
