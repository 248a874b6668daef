(** Patterns that satisfy [honest] (SpecSure.v) compile to [sure] trees (Sure.v). *)
From Coq Require Import ZArith NArith List Bool Lia ZifyBool ZifyNat ZifyN.
From Verif Require Import Base Text Ast Builder BuilderProofs Engine Api Spec SpecProofs Tree ParseProofs Den Checker CheckerProofs AstProofs EngineOk EngineMain Captures Supported Main Safe Heads Families SpecFields SpecChoice SpecLL Fields Choice SpecCalm LL Calm End EndD LLEnd Sure SpecSure.
Import ListNotations.
Open Scope nat_scope.

Lemma next_inj s inj I : wf_sq s = true -> injok inj I -> injok (kids (tree_sq s) ++ inj) (next_set s I).
Proof. exact (inj_next s inj I). Qed.
(** ** Elements *)
Lemma opt_one t : one (Term t) = true -> one (Term (term_optimize t)) = true.
Proof.
  cbn [one]. unfold char_term. destruct t as [tok|s|a b| |]; cbn [term_optimize]; auto. destruct (term_kind tok) as [s|a b|k] eqn:E; cbn [tset spaced_term]; rewrite ?E; auto.
Qed.
Lemma opt_sure t d : term_sure d t = true -> term_sure d (term_optimize t) = true.
Proof.
  unfold term_sure, char_term. destruct t as [tok|s|a b| |]; cbn [term_optimize]; auto. destruct (term_kind tok) as [s|a b|k] eqn:E; cbn [tset spaced_term]; rewrite ?E; auto.
Qed.
Lemma esc_not_space c : (c =? 115)%Z = false -> spaced_term (TTerminal [c_bslash; c]) = false.
Proof. intro H. pose proof (esc_space c H) as X. cbn [clean spaced_term] in *. destruct (term_kind _) as [s|a b|[]]; auto. Qed.
Lemma cnode_sure d i : citem_ok i = true -> sure d (cnode i) = true.
Proof.
  intro H. unfold cnode. cbn [sure]. apply opt_sure. unfold term_sure, char_term. destruct i as [c|a b|c]; cbn [cterm citem_ok] in *; try reflexivity. cbn [tset]. now destruct (kset_esc c H) as (P & -> & _).
Qed.
Lemma cnode_one i : citem_ok i = true -> blank i = false -> one (cnode i) = true.
Proof.
  intros H B. unfold cnode. apply opt_one. cbn [one]. unfold char_term. destruct i as [c|a b|c]; cbn [cterm citem_ok blank] in *; try reflexivity. cbn [tset]. destruct (kset_esc c H) as (P & -> & _). now rewrite esc_not_space.
Qed.
Lemma cnodes_one items : items <> [] -> forallb citem_ok items = true -> existsb blank items = false -> one (cnodes items) = true.
Proof.
  intros N H B. assert (A : forallb one (map cnode items) = true).
  { clear N. induction items as [|i items IH]; [reflexivity|]. cbn [forallb existsb map] in *. apply andb_true_iff in H as [H1 H2]. apply orb_false_iff in B as [B1 B2]. now rewrite cnode_one, IH. }
  unfold cnodes. destruct items as [|i [|j l]]; [congruence| |]; cbn [map forallb one] in *; [now rewrite andb_true_r in A|exact A].
Qed.
Lemma existsb_removelast {A} (f : A -> bool) l : existsb f l = false -> existsb f (removelast l) = false.
Proof. induction l as [|a [|b l] IH]; auto. intro H. cbn [existsb] in H. apply orb_false_iff in H as [X Y]. change (removelast (a :: b :: l)) with (a :: removelast (b :: l)). cbn [existsb]. rewrite X. now apply IH. Qed.
Lemma removelast_map {A B} (f : A -> B) l : removelast (map f l) = map f (removelast l).
Proof. induction l as [|a [|b l] IH]; auto. change (removelast (map f (a :: b :: l))) with (f a :: removelast (map f (b :: l))). now rewrite IH. Qed.
Lemma cnodes_sure d items : forallb citem_ok items = true -> existsb blank (removelast items) = false -> sure d (cnodes items) = true.
Proof.
  intros H B. assert (A : forallb (sure d) (map cnode items) = true) by (apply forallb_forall; intros n I; apply in_map_iff in I as (i & <- & I); apply cnode_sure; rewrite forallb_forall in H; auto).
  assert (S : forallb stay (removelast (map cnode items)) = true).
  { rewrite removelast_map. apply forallb_forall. intros n I. apply in_map_iff in I as (i & <- & I). apply (one_stay). apply cnode_one.
    - rewrite forallb_forall in H. apply H. clear -I. induction items as [|a [|b l] IH]; [destruct I|destruct I|]. change (removelast (a :: b :: l)) with (a :: removelast (b :: l)) in I. destruct I as [->|I]; [now left|right; auto].
    - destruct (blank i) eqn:E; [|reflexivity]. assert (existsb blank (removelast items) = true) by (apply existsb_exists; eauto). congruence. }
  unfold cnodes. destruct items as [|i [|j l]]; [reflexivity| |]; [cbn [map forallb] in A; now rewrite andb_true_r in A|]. cbn [sure]. now rewrite A, S.
Qed.
Lemma steady_one x : elem_ok x = true -> steady x = true -> one (unode x) = true.
Proof.
  intros H S. unfold unode. destruct x as [c|c| |[] items|a b c|a b]; cbn [body elem_ok steady] in *; try discriminate; try reflexivity.
  - cbn [optimize]. apply opt_one. cbn [one]. unfold char_term. cbn [tset]. rewrite (kset_lit c H). unfold spaced_term. pose proof (kset_lit c H) as K. destruct (term_kind [c]) as [s|a b|[]] eqn:E; try reflexivity. exfalso. cbn [kset] in K. injection K as K. pose proof (f_equal (fun f => f c) K) as X1. pose proof (f_equal (fun f => f (if Z.eqb c 9 then 10 else 9)%Z) K) as X2. cbv beta in X1, X2. destruct (c =? 9)%Z eqn:Z9; [|cbn in X2; lia]. cbn in X2. lia.
  - cbn [optimize]. apply opt_one. cbn [one]. unfold char_term. destruct (kset_esc c H) as (P & E & _). cbn [tset] in *. rewrite E. rewrite esc_not_space; [reflexivity|]. now apply negb_true_iff.
  - rewrite opt_class. apply andb_true_iff in H as [H N]. apply cnodes_one; [destruct items; discriminate|exact H|]. now apply negb_true_iff.
Qed.
Lemma clear_sure d x : elem_ok x = true -> clear x = true -> sure d (unode x) = true.
Proof.
  intros H S. destruct x as [c|c| |[] items|a b c|a b]; cbn [elem_ok clear] in *; try (apply one_sure, steady_one; [exact H|reflexivity]).
  - unfold unode. cbn [body optimize sure]. apply opt_sure. unfold term_sure, char_term. destruct (kset_esc c H) as (P & E & _). cbn [tset] in *. now rewrite E.
  - unfold unode. cbn [body]. change (optimize (Negated (SimpleV (map tree_citem items))) []) with (Negated (optimize (SimpleV (map tree_citem items)) [])). rewrite opt_class. cbn [sure]. apply andb_true_iff in H as [H N]. apply cnodes_one; [destruct items; discriminate|exact H|]. now apply negb_true_iff.
  - unfold unode. cbn [body]. rewrite opt_class. apply andb_true_iff in H as [H N]. apply cnodes_sure; [exact H|]. now apply negb_true_iff.
Qed.

(** ** Positions after a failure *)
Lemma opt_simple m cs inj : optimize (Simple m cs) inj = match cs with [] => optimize m inj | _ => Simple (optimize m inj) (map (fun c => optimize c []) cs) end.
Proof. destruct cs; reflexivity. Qed.
Lemma stay_simple m cs : stay m = true -> stay (match cs with [] => m | _ => Simple m (map (fun c => optimize c []) cs) end) = true.
Proof. destruct cs; auto. Qed.
Lemma settled_possessive a cs inj next : wf_atom a = true -> settled a next = true -> injok (cs ++ inj) next -> adm_empty (adm_inter (nadm (tree_atom a)) (extract_adm (map nadm (cs ++ inj)))) = true.
Proof.
  intros W D IN. unfold settled in D. apply andb_true_iff in D as [D1 D2]. rewrite (proj2 (proj2 (proj2 tame_shape))) in D1. exact (inter_loop a (cs ++ inj) next W D1 IN D2).
Qed.
Lemma keep_stay :
  (forall r I, wf r = true -> keeps r I = true -> (forall n, In n (tree_bs r) -> stay (optimize n []) = true) /\ forall inj, injok inj I -> stay (optimize (SimpleV (tree_bs r)) inj) = true) /\
  (forall b I, wf_br b = true -> keeps_br b I = true -> forall inj, injok inj I -> stay (optimize (tree_br b) inj) = true) /\
  (forall s I, wf_sq s = true -> keeps_sq s I = true -> forall inj, injok inj I -> forallb stay (map (fun c => optimize c inj) (kids (tree_sq s))) = true) /\
  (forall a I, wf_atom a = true -> keeps_atom a I = true -> forall inj, injok inj I -> stay (optimize (core a) inj) = true).
Proof.
  apply rx_all_ind; cbn [wf wf_br wf_sq wf_atom keeps keeps_br keeps_sq keeps_atom].
  - intros b Hb I W C. split; [intros n [<-|[]]; apply (Hb I W C), inj_empty|]. intros inj Hi. exact (Hb I W C inj Hi).
  - intros b Hb r Hr I W C. apply andb_true_iff in W as [W1 W2]. apply andb_true_iff in C as [C1 C2].
    assert (X : forall n, In n (tree_bs (ROr b r)) -> stay (optimize n []) = true) by (intros n [<-|Hn]; [apply (Hb none W1 C1), inj_nil|now apply (proj1 (Hr none W2 C2))]). split; [exact X|].
    intros inj _. destruct (opt_alts (ROr b r) inj) as [(n & E & _)|[_ ->]]; [cbn [tree_bs] in E; injection E as _ E; now apply tree_bs_nil in E|]. cbn [stay]. apply forallb_forall. intros y Hy. apply in_map_iff in Hy as (z & <- & Hz). now apply X.
  - intros a s Hs I W C inj Hi. assert (W' : wf_sq s = true) by (destruct s; [reflexivity|exact W]). destruct a; cbn [tree_br].
    + destruct (tree_sq s); reflexivity.
    + pose proof (Hs I W' C inj Hi) as X. destruct (tree_sq s) as [n|]; [|reflexivity]. cbn [kids map forallb] in X. now apply andb_true_iff in X.
  - discriminate.
  - intros a Ha q s Hs I W C inj Hi. rewrite !andb_true_iff in W. destruct W as [[W1 W2] W3]. rewrite tree_unit. cbn [kids map forallb]. rewrite andb_true_r. clear Hs. destruct q as [|k g].
    + cbn [unitn]. destruct a as [x|i r|r].
      * rewrite opt_simple. apply stay_simple. apply (Ha I W1 C inj Hi).
      * destruct s as [|a' q' s']; [|discriminate C]. cbn [tree_sq kids]. change (optimize (Group (core (ACap i r)) i []) inj) with (Group (optimize (core (ACap i r)) inj) i []). cbn [stay]. rewrite andb_true_r. exact (Ha I W1 C inj Hi).
      * rewrite opt_simple. apply stay_simple. apply (Ha I W1 C inj Hi).
    + assert (C' : s = SNil /\ (forall t, k <> QExact t) /\ keeps_atom a none = true /\ (kind_min k <= 1)%N /\ (g <> Lz) /\ (g = Gr -> settled a I = true)).
      { destruct k; try discriminate C; (destruct s; [|discriminate C]); rewrite !andb_true_iff in C; destruct C as [[C1 C2] C3]; (split; [reflexivity|]); (split; [discriminate|]); (split; [exact C1|]); (split; [now apply N.leb_le|]); destruct g; (split; congruence). }
      destruct C' as (-> & NE & C1 & C2 & NL & C3). cbn [tree_sq kids].
      assert (M : stay (optimize (tree_atom a) []) = true) by (rewrite opt_atom; pose proof (Ha none W1 C1 [] inj_nil) as X; destruct a; cbn [wrap stay]; rewrite ?andb_true_r; exact X).
      assert (P : forall mx, stay (Possessive (optimize (tree_atom a) []) (kind_min k) mx []) = true) by (intro mx; cbn [stay]; rewrite M; apply N.leb_le in C2; now rewrite C2).
      assert (AE : g = Gr -> adm_empty (adm_inter (nadm (tree_atom a)) (extract_adm (map nadm inj))) = true) by (intro Y; exact (settled_possessive a [] inj I W1 (C3 Y) Hi)).
      destruct k as [| | |t|t|t t']; [| | |now destruct (NE t)| |]; (destruct g; unfold unitn; [cbn [optimize]; destruct (adm_empty _) eqn:AE2; [apply P|exfalso; specialize (AE eq_refl); congruence]|congruence|apply P]).
  - intros x I W C inj _. cbn [core]. rewrite opt_body. now apply one_stay, steady_one.
  - intros i r Hr I W C inj Hi. cbn [core]. now apply (proj2 (Hr I W C)).
  - intros r Hr I W C inj Hi. cbn [core]. now apply (proj2 (Hr I W C)).
Qed.

(** ** Sure trees *)
Lemma le_quant k g : quant_ok (QQ k g) = true -> (forall t, k <> QExact t) -> (kind_min k <=? umax_of (kind_max k))%N = true.
Proof.
  assert (NB : forall n, num_ok n = true -> (Z.to_N (num_val n) < 4294967295)%N) by (intros n Hn; unfold num_ok in Hn; rewrite !andb_true_iff in Hn; lia).
  destruct k as [| | |n|n|n m]; cbn [quant_ok kind_ok kind_min kind_max umax_of]; intros Q O; try reflexivity.
  - now destruct (O n).
  - specialize (NB n Q). unfold UMAX. lia.
  - rewrite !andb_true_iff in Q. lia.
Qed.
Section Loop.
Variable d : bool.
(** One item: [m] the item, [cs] what comes after it in the tree. *)
Lemma loop_sure a q cs inj next kept : wf_atom a = true -> quant_ok q = true -> injok (cs ++ inj) next ->
  loop_ok a q next kept = true -> (kept = true -> forallb stay (map (fun c => optimize c []) cs) = true) ->
  sure d (optimize (tree_atom a) []) = true -> forallb (sure d) (map (fun c => optimize c []) cs) = true -> length cs <= 1 -> q <> Q1 ->
  sure d (optimize (unitn a q cs) inj) = true.
Proof.
  intros W Q IN C KP M K L1 NQ. destruct q as [|k g]; [congruence|]. set (m := optimize (tree_atom a) []) in *. set (cs' := map (fun c => optimize c []) cs) in *.
  assert (R : forallb stay (removelast cs') = true) by (unfold cs'; destruct cs as [|c [|]]; [reflexivity|reflexivity|cbn in L1; lia]).
  assert (PO : (forall t, k <> QExact t) -> sure d (Possessive m (kind_min k) (umax_of (kind_max k)) cs') = true) by (intro NE; cbn [sure]; now rewrite (le_quant k g Q NE), M, K, R).
  assert (LZ : (forall t, k <> QExact t) -> kept = true -> sure d (optimize (Lazy (tree_atom a) (kind_min k) (umax_of (kind_max k)) cs) inj) = true).
  { intros NE D. cbn [optimize]. fold m cs'. destruct (adm_empty _) eqn:AE; [now apply PO|]. cbn [sure]. now rewrite (le_quant k g Q NE), M, K, (KP D). }
  assert (GR : (forall t, k <> QExact t) -> match a with AEl x => steady x && negb (is_opt k) && kept | _ => false end || settled a next = true -> sure d (optimize (Greedy (tree_atom a) (kind_min k) (umax_of (kind_max k)) cs) inj) = true).
  { intros NE D. cbn [optimize]. fold m cs'. destruct (adm_empty _) eqn:AE; [now apply PO|]. apply orb_true_iff in D as [D|D]; [|pose proof (settled_possessive a cs inj next W D IN) as Y; rewrite Y in AE; discriminate AE].
    destruct a as [x|i r|r]; [|discriminate D|discriminate D]. rewrite !andb_true_iff in D. destruct D as [[D1 D2] D3].
    assert (Eu : m = unode x) by (unfold m; rewrite opt_atom; cbn [wrap core]; apply opt_body).
    assert (O : opt_case m (kind_min k) (umax_of (kind_max k)) = false).
    { apply negb_true_iff in D2. unfold is_opt in D2. unfold opt_case. destruct (kind_max k) as [j|]; cbn [umax_of]; [now rewrite D2|]. unfold UMAX. now rewrite andb_false_r. }
    cbn [sure]. rewrite (le_quant k g Q NE), O, Eu, (steady_one x W D1), K, (KP D3). reflexivity. }
  destruct k as [| | |t|t|t t'].
  4:{ cbn [unitn]. change (optimize (Repeated (tree_atom a) (Z.to_N (num_val t)) cs) inj) with (Repeated m (Z.to_N (num_val t)) cs'). cbn [sure]. now rewrite M, K, R. }
  all: destruct g; unfold unitn; [now apply GR|now apply LZ|now apply PO].
Qed.
Lemma kids_one t : length (kids t) <= 1.
Proof. destruct t; cbn; lia. Qed.
Lemma atom_sure a : sure d (optimize (core a) []) = true -> sure d (optimize (tree_atom a) []) = true.
Proof. rewrite opt_atom. destruct a; cbn [wrap sure forallb removelast]; rewrite ?andb_true_r; auto. Qed.
Lemma unit_sure a cs inj : sure d (optimize (core a) (match a with ACap _ _ => cs ++ inj | _ => inj end)) = true -> forallb (sure d) (map (fun c => optimize c []) cs) = true -> length cs <= 1 ->
  sure d (optimize (unitn a Q1 cs) inj) = true.
Proof.
  intros X K L1. assert (R : forallb stay (removelast (map (fun c => optimize c []) cs)) = true) by (destruct cs as [|c [|]]; [reflexivity|reflexivity|cbn in L1; lia]).
  cbn [unitn]. destruct a as [x|i r|r].
  - rewrite opt_simple. destruct cs; [exact X|]. cbn [sure]. now rewrite X, K, R.
  - change (optimize (Group (core (ACap i r)) i cs) inj) with (Group (optimize (core (ACap i r)) (cs ++ inj)) i (map (fun c => optimize c []) cs)). cbn [sure]. now rewrite X, K, R.
  - rewrite opt_simple. destruct cs; [exact X|]. cbn [sure]. now rewrite X, K, R.
Qed.
Lemma hon_sure :
  (forall r I, wf r = true -> honest r I = true -> ((forall n, In n (tree_bs r) -> sure d (optimize n []) = true) /\ forallb stay (removelast (map (fun n => optimize n []) (tree_bs r))) = true) /\ forall inj, injok inj I -> sure d (optimize (SimpleV (tree_bs r)) inj) = true) /\
  (forall b I, wf_br b = true -> honest_br b I = true -> forall inj, injok inj I -> sure d (optimize (tree_br b) inj) = true) /\
  (forall s I, wf_sq s = true -> honest_sq s I = true -> forall inj, injok inj I -> forallb (sure d) (map (fun c => optimize c inj) (kids (tree_sq s))) = true) /\
  (forall a I, wf_atom a = true -> honest_atom a I = true -> forall inj, injok inj I -> sure d (optimize (core a) inj) = true).
Proof.
  apply rx_all_ind; cbn [wf wf_br wf_sq wf_atom honest honest_br honest_sq honest_atom].
  - intros b Hb I W C. split; [split; [intros n [<-|[]]; apply (Hb I W C), inj_empty|reflexivity]|]. intros inj Hi. exact (Hb I W C inj Hi).
  - intros b Hb r Hr I W C. apply andb_true_iff in W as [W1 W2]. rewrite !andb_true_iff in C. destruct C as [[C1 C2] C3]. destruct (Hr none W2 C3) as [[R1 R2] _].
    assert (X : forall n, In n (tree_bs (ROr b r)) -> sure d (optimize n []) = true) by (intros n [<-|Hn]; [apply (Hb none W1 C1), inj_nil|now apply R1]).
    assert (Y : forallb stay (removelast (map (fun n => optimize n []) (tree_bs (ROr b r)))) = true).
    { cbn [tree_bs map]. pose proof (tree_bs_nil r) as N. destruct (tree_bs r) as [|n l]; [congruence|]. cbn [map] in *. change (removelast (optimize (tree_br b) [] :: optimize n [] :: map (fun n => optimize n []) l)) with (optimize (tree_br b) [] :: removelast (optimize n [] :: map (fun n => optimize n []) l)). cbn [forallb]. rewrite R2, (proj1 (proj2 keep_stay) b none W1 C2 [] inj_nil). reflexivity. }
    split; [split; [exact X|exact Y]|]. intros inj _. destruct (opt_alts (ROr b r) inj) as [(n & E & _)|[_ ->]]; [cbn [tree_bs] in E; injection E as _ E; now apply tree_bs_nil in E|]. cbn [sure]. rewrite Y, andb_true_r. apply forallb_forall. intros y Hy. apply in_map_iff in Hy as (z & <- & Hz). now apply X.
  - intros a s Hs I W C inj Hi. assert (W' : wf_sq s = true) by (destruct s; [reflexivity|exact W]). destruct a; cbn [tree_br].
    + pose proof (Hs none W' C [] inj_nil) as X. destruct (tree_sq s) as [n|]; [|reflexivity]. cbn [kids map forallb] in X. cbn [followed]. change (sure d (Simple (Term TStart) [optimize n []]) = true). cbn [sure forallb removelast]. unfold term_sure. rewrite orb_true_r. cbn [andb]. now rewrite andb_true_r.
    + pose proof (Hs I W' C inj Hi) as X. destruct (tree_sq s) as [n|]; [|reflexivity]. cbn [kids map forallb] in X. now apply andb_true_iff in X.
  - reflexivity.
  - intros a Ha q s Hs I W C inj Hi. rewrite !andb_true_iff in W. destruct W as [[W1 W2] W3]. rewrite !andb_true_iff in C. destruct C as [[C1 C2] C3].
    pose proof (Hs none W3 C1 [] inj_nil) as K. pose proof (next_inj s inj I W3 Hi) as IN. rewrite tree_unit. cbn [kids map forallb]. rewrite andb_true_r.
    destruct q as [|k g].
    + apply unit_sure; [|exact K|apply kids_one]. destruct a as [x|i r|r]; [exact (Ha I W1 C2 inj Hi)|exact (Ha _ W1 C2 _ IN)|exact (Ha I W1 C2 inj Hi)].
    + eapply loop_sure; [exact W1|exact W2|exact IN|exact C3| | |exact K|apply kids_one|discriminate].
      * intro X. destruct s as [|a' q' s']; [reflexivity|]. exact (proj1 (proj2 (proj2 keep_stay)) _ none W3 X [] inj_nil).
      * apply atom_sure. apply (Ha none W1); [destruct a; exact C2|apply inj_nil].
  - intros x I W C inj _. cbn [core]. rewrite opt_body. now apply clear_sure.
  - intros i r Hr I W C inj Hi. cbn [core]. now apply (proj2 (Hr I W C)).
  - intros r Hr I W C inj Hi. cbn [core]. now apply (proj2 (Hr I W C)).
Qed.
End Loop.

(** ** With $ *)
Lemma next_inj_d s : wf_sq s = true -> injok [tree_sq_d s] (next_d s).
Proof.
  intro W. unfold next_d, next_set. assert (A : injok [tree_sq_d s] all) by (split; [repeat constructor; now apply asc_d|reflexivity]). destruct (empties s) eqn:E; [exact A|]. destruct (tame_sq s) eqn:T; [|exact A]. rewrite (proj1 (proj2 (proj2 tame_shape))) in T. now apply inj_d.
Qed.
Lemma keep_stay_d s : wf_sq s = true -> keeps_sq_d s = true -> stay (optimize (tree_sq_d s) []) = true.
Proof.
  destruct s as [|a [|k g] s]; intros W K; [reflexivity| |destruct a; discriminate K]. rewrite tree_unit_d. cbn [wf_sq] in W. rewrite !andb_true_iff in W. destruct W as [[W1 W2] W3]. destruct a as [x|i r|r]; [|discriminate K|]; unfold unitn; rewrite opt_simple; exact (proj2 (proj2 (proj2 keep_stay)) _ none W1 K [] inj_nil).
Qed.
Lemma hon_sure_sq_d s : wf_sq s = true -> honest_sq_d s = true -> sure true (optimize (tree_sq_d s) []) = true.
Proof.
  induction s as [|a q s IH]; intros W C; [reflexivity|]. cbn [wf_sq honest_sq_d] in *. rewrite !andb_true_iff in W. destruct W as [[W1 W2] W3]. rewrite !andb_true_iff in C. destruct C as [[C1 C2] C3]. specialize (IH W3 C1).
  assert (K : forallb (sure true) (map (fun c => optimize c []) [tree_sq_d s]) = true) by (cbn [map forallb]; now rewrite IH). rewrite tree_unit_d. destruct q as [|k g].
  - apply unit_sure; [|exact K|cbn; lia]. rewrite app_nil_r. destruct a as [x|i r|r]; [exact (proj2 (proj2 (proj2 (hon_sure true))) (AEl x) none W1 C2 [] inj_nil)|exact (proj2 (proj2 (proj2 (hon_sure true))) (ACap i r) _ W1 C2 _ (next_inj_d s W3))|exact (proj2 (proj2 (proj2 (hon_sure true))) (ANon r) none W1 C2 [] inj_nil)].
  - eapply loop_sure; [exact W1|exact W2| |exact C3| | |exact K|cbn; lia|discriminate].
    + rewrite app_nil_r. now apply next_inj_d.
    + intro X. cbn [map forallb]. now rewrite (keep_stay_d s W3 X).
    + apply atom_sure. apply (proj2 (proj2 (proj2 (hon_sure true))) a none W1); [exact C2|apply inj_nil].
Qed.
Lemma hon_sure_br_d b : wf_br b = true -> honest_br_d b = true -> sure true (optimize (tree_br_d b) []) = true.
Proof.
  destruct b as [a s]. cbn [wf_br honest_br_d]. intros W C. assert (W' : wf_sq s = true) by (destruct s; [reflexivity|exact W]). pose proof (hon_sure_sq_d s W' C) as X. destruct a; cbn [tree_br_d]; [|exact X].
  cbn [followed]. change (sure true (Simple (Term TStart) [optimize (tree_sq_d s) []]) = true). cbn [sure forallb removelast]. now rewrite X.
Qed.
Lemma keep_br_d b : wf_br b = true -> keeps_br_d b = true -> stay (optimize (tree_br_d b) []) = true.
Proof.
  destruct b as [a s]. cbn [wf_br keeps_br_d]. intros W C. assert (W' : wf_sq s = true) by (destruct s; [reflexivity|exact W]). destruct a; [reflexivity|]. now apply keep_stay_d.
Qed.
Lemma hon_all_d r : wf r = true -> honest_d r = true -> forallb (sure true) (map (fun n => optimize n []) (tree_bs_d r)) = true /\ forallb stay (removelast (map (fun n => optimize n []) (tree_bs_d r))) = true.
Proof.
  induction r as [b|b r IH]; cbn [wf honest_d tree_bs_d map]; intros W C.
  - cbn [forallb removelast]. rewrite (hon_sure_br_d b W C). auto.
  - apply andb_true_iff in W as [W1 W2]. rewrite !andb_true_iff in C. destruct C as [[C1 C2] C3]. destruct (IH W2 C3) as [I1 I2]. cbn [forallb]. rewrite (hon_sure_br_d b W1 C1), I1. split; [reflexivity|].
    pose proof (tree_bs_d_nil r) as N. destruct (tree_bs_d r) as [|n l]; [congruence|]. cbn [map] in *. change (removelast (optimize (tree_br_d b) [] :: optimize n [] :: map (fun n => optimize n []) l)) with (optimize (tree_br_d b) [] :: removelast (optimize n [] :: map (fun n => optimize n []) l)). cbn [forallb]. now rewrite I2, (keep_br_d b W1 C2).
Qed.
Lemma hon_tree_d r : wf r = true -> honest_d r = true -> sure true (optimize (tree_d r) []) = true.
Proof.
  intros W C. destruct (hon_all_d r W C) as [A B]. unfold tree_d. destruct (tree_bs_d r) as [|n [|m l]] eqn:E; [now apply tree_bs_d_nil in E| |].
  - cbn [map forallb] in A. rewrite andb_true_r in A. exact A.
  - change (optimize (SimpleV (n :: m :: l)) []) with (SimpleV (map (fun n => optimize n []) (n :: m :: l))). cbn [sure]. now rewrite A, B.
Qed.

(** ** The numbers of the slots do not matter *)
Lemma renumber_next s g I I' : (forall c, I c = I' c) -> forall c, next_set (renumber_sq s g) I c = next_set s I' c.
Proof. intros E c. unfold next_set. rewrite (proj1 (proj2 (proj2 renumber_tame))). destruct (tame_sq s); [|reflexivity]. unfold or_set. now rewrite (proj1 (proj2 (proj2 renumber_first))), E. Qed.
Lemma renumber_settled a g I I' : (forall c, I c = I' c) -> settled (renumber_atom a g) I = settled a I'.
Proof. intro E. unfold settled. rewrite (proj2 (proj2 (proj2 renumber_tame))). f_equal. apply apart_ext; [apply (proj2 (proj2 (proj2 renumber_first)))|exact E]. Qed.
Lemma renumber_loop a g q I I' k : (forall c, I c = I' c) -> loop_ok (renumber_atom a g) q I k = loop_ok a q I' k.
Proof. intro E. unfold loop_ok. rewrite (renumber_settled a g I I' E). destruct q as [|[] []]; try reflexivity; destruct a; reflexivity. Qed.
Lemma renumber_nil s g : match renumber_sq s g with SNil => true | _ => false end = match s with SNil => true | _ => false end.
Proof. destruct s; reflexivity. Qed.
Lemma renumber_keeps :
  (forall r i g I I', (forall c, I c = I' c) -> keeps (renumber_in i r g) I = keeps r I') /\
  (forall b g I I', (forall c, I c = I' c) -> keeps_br (renumber_br b g) I = keeps_br b I') /\
  (forall s g I I', (forall c, I c = I' c) -> keeps_sq (renumber_sq s g) I = keeps_sq s I') /\
  (forall a g I I', (forall c, I c = I' c) -> keeps_atom (renumber_atom a g) I = keeps_atom a I').
Proof.
  apply rx_all_ind; cbn [renumber_in renumber_br renumber_sq renumber_atom keeps keeps_br keeps_sq keeps_atom].
  - intros b Hb i g I I' E. now apply Hb.
  - intros b Hb r Hr i g I I' E. cbv zeta. cbn [keeps]. rewrite (Hb g none none) by reflexivity. f_equal. now apply Hr.
  - intros a s Hs g I I' E. now rewrite (Hs g I I' E).
  - reflexivity.
  - intros a Ha q s Hs g I I' E. cbv zeta. cbn [keeps_sq]. destruct q as [|k h].
    + assert (X : forall r' s', match r', s' with ACap _ _, SCons _ _ _ => false | _, _ => keeps_atom r' I end = match r', (match s' with SNil => true | _ => false end) with ACap _ _, false => false | _, _ => keeps_atom r' I end) by (intros [] []; reflexivity).
      rewrite X, renumber_nil. rewrite (Ha g I I' E). destruct a, s; reflexivity.
    + rewrite (Ha g none none) by reflexivity. rewrite (renumber_settled a g I I' E). destruct k, s; reflexivity.
  - reflexivity.
  - intros i r Hr g I I' E. now apply Hr.
  - intros r Hr g I I' E. now apply Hr.
Qed.
Lemma renumber_honest :
  (forall r i g I I', (forall c, I c = I' c) -> honest (renumber_in i r g) I = honest r I') /\
  (forall b g I I', (forall c, I c = I' c) -> honest_br (renumber_br b g) I = honest_br b I') /\
  (forall s g I I', (forall c, I c = I' c) -> honest_sq (renumber_sq s g) I = honest_sq s I') /\
  (forall a g I I', (forall c, I c = I' c) -> honest_atom (renumber_atom a g) I = honest_atom a I').
Proof.
  apply rx_all_ind; cbn [renumber_in renumber_br renumber_sq renumber_atom honest honest_br honest_sq honest_atom].
  - intros b Hb i g I I' E. now apply Hb.
  - intros b Hb r Hr i g I I' E. cbv zeta. cbn [honest]. rewrite (Hb g none none), (proj1 (proj2 renumber_keeps) b g none none) by reflexivity. f_equal. now apply Hr.
  - intros a s Hs g I I' E. destruct a; now apply Hs.
  - reflexivity.
  - intros a Ha q s Hs g I I' E. cbv zeta. cbn [honest_sq]. set (g' := after_atom (renumber_atom a g) g). pose proof (renumber_next s g' I I' E) as EN. rewrite (Hs g' none none (fun c => eq_refl)). f_equal; [f_equal|].
    + destruct q; [destruct a; cbn [renumber_atom]; [exact (Ha g _ _ E)|exact (Ha g _ _ EN)|exact (Ha g _ _ E)]|]. destruct a; exact (Ha g _ _ (fun c => eq_refl)).
    + rewrite (renumber_loop a g q _ _ _ EN). f_equal. pose proof (proj1 (proj2 (proj2 renumber_keeps)) s g' none none (fun c => eq_refl)) as X. destruct s; [reflexivity|]. exact X.
  - reflexivity.
  - intros i r Hr g I I' E. now apply Hr.
  - intros r Hr g I I' E. now apply Hr.
Qed.
Lemma renumber_next_d s g c : next_d (renumber_sq s g) c = next_d s c.
Proof. unfold next_d. rewrite renumber_empties. destruct (empties s); [reflexivity|]. now apply renumber_next. Qed.
Lemma renumber_keeps_d s g : keeps_sq_d (renumber_sq s g) = keeps_sq_d s.
Proof. destruct s as [|a [|k h] s]; try (destruct a; reflexivity); [reflexivity|]. cbn [renumber_sq keeps_sq_d]. cbv zeta. cbn [keeps_sq_d]. pose proof (proj2 (proj2 (proj2 renumber_keeps)) a g none none (fun c => eq_refl)) as X. destruct a; exact X || reflexivity. Qed.
Lemma renumber_honest_sq_d s : forall g, honest_sq_d (renumber_sq s g) = honest_sq_d s.
Proof.
  induction s as [|a q s IH]; intro g; [reflexivity|]. cbn [renumber_sq]. cbv zeta. cbn [honest_sq_d]. set (g' := after_atom (renumber_atom a g) g). rewrite IH, (renumber_loop a g q _ _ _ (renumber_next_d s g')), renumber_keeps_d. f_equal. f_equal.
  destruct q; [destruct a; cbn [renumber_atom]; [reflexivity|exact (proj2 (proj2 (proj2 renumber_honest)) (ACap _ _) g _ _ (renumber_next_d s g'))|exact (proj2 (proj2 (proj2 renumber_honest)) (ANon _) g _ _ (fun c => eq_refl))]|]. destruct a; exact (proj2 (proj2 (proj2 renumber_honest)) _ g _ _ (fun c => eq_refl)).
Qed.
Lemma renumber_honest_d r : forall i g, honest_d (renumber_in i r g) = honest_d r.
Proof.
  induction r as [[a s]|[a s] r IH]; intros i g; cbn [renumber_in renumber_br honest_d honest_br_d]; [apply renumber_honest_sq_d|]. cbv zeta. cbn [honest_d honest_br_d keeps_br_d]. now rewrite renumber_honest_sq_d, renumber_keeps_d, IH.
Qed.
Theorem honest_sure r : wf r = true -> honest r none = true -> sure false (ctree r) = true.
Proof.
  intros W C. assert (W' : wf (renumber r) = true) by (unfold renumber; now rewrite (proj1 renumber_wf)). assert (C' : honest (renumber r) none = true) by (unfold renumber; now rewrite (proj1 renumber_honest r false 0 none none (fun c => eq_refl))).
  exact (proj2 (proj1 (hon_sure false) (renumber r) none W' C') [] inj_nil).
Qed.
Theorem honest_sure_d r : wf r = true -> honest_d r = true -> sure true (ctree_d r) = true.
Proof.
  intros W C. assert (W' : wf (renumber r) = true) by (unfold renumber; now rewrite (proj1 renumber_wf)). assert (C' : honest_d (renumber r) = true) by (unfold renumber; now rewrite renumber_honest_d).
  exact (hon_tree_d (renumber r) W' C').
Qed.
