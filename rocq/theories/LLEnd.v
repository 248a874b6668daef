(** Patterns that need one character of lookahead and end with $ (SpecLLEnd.v): the optimiser
    and the matcher handle them as specified. *)
From Coq Require Import ZArith NArith List Bool Lia ZifyBool ZifyNat ZifyN.
From Verif Require Import Base Text Ast Builder BuilderProofs Engine Spec SpecProofs Tree ParseProofs Den Checker AstProofs EngineOk EngineMain Captures MinSize Mono Supported Main Heads Families EndD SpecFields Fields SpecChoice Choice Parts SpecLL LL LLCap SpecLLEnd.
Import ListNotations.
Open Scope nat_scope.
Notation det := Checker.det.

(** * What is allowed without $ is allowed with it *)
Lemma good_end_ G n : (forall pv, good G false n pv = true -> good G true n pv = true)
  /\ match n with Greedy x _ _ _ | Lazy x _ _ _ => forall pv, good G false x pv = true -> good G true x pv = true | _ => True end.
Proof.
  induction n as [t|cs IH|m cs IHm IH|m mn mx cs IHm IH|m mn mx cs IHm IH|m mn mx cs IHm IH|m k cs IHm IH|m i cs IHm IH|m IHm] using node_ind'; try rewrite Forall_forall in IH; try destruct IHm as [IHm IHx]; (split; [|try exact Logic.I; try exact IHm]); intros pv H.
  - destruct t; cbn [good] in *; try exact H; discriminate H.
  - cbn [good] in *. rewrite !andb_true_iff in *. destruct H as [[H1 H2] H3]. split; [split; [exact H1|]|exact H3]. rewrite forallb_forall in *. intros c Hc. apply IH; auto.
  - cbn [good] in *. destruct cs as [|c [|]]; [now apply IHm| |discriminate H]. destruct (is_start m).
    + rewrite !andb_true_iff in *. destruct H as [H1 H2]. split; [exact H1|]. apply IH; [now left|exact H2].
    + rewrite !andb_true_iff in *. destruct H as [[H1 H2] H3]. split; [split; [now apply IHm|]|exact H3]. apply IH; [now left|exact H2].
  - cbn [good] in *. destruct cs as [|c [|]]; try discriminate H. rewrite !andb_true_iff in *. destruct H as [[[[[[H1 H2] H3] H4] H5] H6] H7]. assert (X : good G true c PAny = true) by (apply IH; [now left|exact H5]). repeat (split; auto).
  - cbn [good] in *. destruct cs as [|c [|]]; try discriminate H. rewrite !andb_true_iff in *. destruct H as [[[[[H1 H2] H3] H4] H5] H6]. assert (X : good G true c PAny = true) by (apply IH; [now left|exact H5]). repeat (split; auto).
  - cbn [good] in *. rewrite !andb_true_iff in *. destruct H as [[[[H1 H2] H3] H4] H5]. split; [repeat (split; auto)|]. destruct cs as [|c [|]]; auto. apply IH; [now left|exact H5].
  - cbn [good] in *. rewrite !andb_true_iff in *. destruct H as [[H1 H2] H3]. split; [repeat (split; auto)|]. destruct cs as [|c [|]]; auto. apply IH; [now left|exact H3].
  - cbn [good] in *. apply andb_true_iff in H as [H1 H]. rewrite H1. cbn [andb]. destruct cs as [|c [|]]; [now apply IHm| |discriminate H]. apply andb_true_iff in H as [H2 H]. rewrite H2. cbn [andb].
    assert (IHc : forall pv, good G false c pv = true -> good G true c pv = true) by (apply IH; now left).
    assert (D : good G false m pv && noinj m && good G false c (lastp m pv) && (det m || total c) = true -> good G true m pv && noinj m && good G true c (lastp m pv) && (det m || total c) = true).
    { rewrite !andb_true_iff. intros [[[A B] C] E]. repeat (split; auto). }
    destruct m as [| | |x mn mx [|]|x mn mx [|]| | | |]; try (exact (D H)).
    + rewrite !andb_true_iff in *. destruct H as [[[[[[A1 A2] A3] A4] A5] A6] A7]. repeat (split; auto).
    + rewrite !andb_true_iff in *. destruct H as [[[[A1 A2] A3] A4] A5]. repeat (split; auto).
  - cbn [good] in *. rewrite !andb_true_iff in *. destruct H as [[[H1 H2] H3] H4]. repeat (split; auto).
Qed.
Lemma good_end G n pv : good G false n pv = true -> good G true n pv = true.
Proof. apply good_end_. Qed.

(** * Characters inside of a repeated part *)
Lemma uset_first n P S : uset n = Some P -> hd_in n S -> forall c, P c = true -> S c = true.
Proof. intros U (Q & l & E & X) c Hc. rewrite (pre_uset n P U) in E. cbn [fst] in E. injection E as <- _. now apply X. Qed.
Definition sub (o : option cset) (S : chr -> bool) : Prop := exists P, o = Some P /\ forall c, P c = true -> S c = true.
Lemma sub_wide o (S S' : chr -> bool) : (forall c, S c = true -> S' c = true) -> sub o S -> sub o S'.
Proof. intros H (P & E & X). exists P. auto. Qed.
Lemma sub_union a b (S : chr -> bool) : sub a S -> sub b S -> sub (ounion a b) S.
Proof. intros (P & -> & X) (Q & -> & Y). eexists. split; [reflexivity|]. cbv beta. intros c Hc. apply orb_true_iff in Hc as [Hc|Hc]; auto. Qed.
Lemma sub_unions l (S : chr -> bool) : (forall o, In o l -> sub o S) -> sub (ounions l) S.
Proof.
  induction l as [|o l IH]; intro H; [exists (fun _ => false); split; [reflexivity|discriminate]|]. cbn [ounions fold_right]. apply sub_union; [apply H; now left|apply IH; intros x Hx; apply H; now right].
Qed.
Lemma first_any :
  (forall r c, first r c = true -> any r c = true) /\ (forall b c, first_br b c = true -> any_br b c = true) /\
  (forall s c, first_sq s c = true -> any_sq s c = true) /\ (forall a c, first_atom a c = true -> any_atom a c = true).
Proof.
  apply rx_all_ind; cbn [first first_br first_sq first_atom any any_br any_sq any_atom]; auto.
  - intros b Hb r Hr c H. apply orb_true_iff in H as [H|H]; [now rewrite Hb|rewrite Hr by exact H; apply orb_true_r].
  - intros a Ha q s Hs c H. apply orb_true_iff in H as [H|H]; [now rewrite Ha|]. apply andb_true_iff in H as [_ H]. rewrite Hs by exact H. apply orb_true_r.
Qed.
Lemma aset_low n : aset n = match uset n with Some P => Some P | None => match n with Term TStart => Some (fun _ => false) | Term _ | Negated _ => None | SimpleV cs => ounions (map aset cs)
  | Simple m cs | Group m _ cs | Greedy m _ _ cs | Lazy m _ _ cs | Possessive m _ _ cs | Repeated m _ cs => ounion (aset m) (ounions (map aset cs)) end end.
Proof. destruct n; reflexivity. Qed.
Lemma inj_any I : injok [] I.
Proof. split; [constructor|intros n c []]. Qed.
Lemma usets_sub cs : forall P (S : chr -> bool), usets (map uset cs) = Some P -> (forall n, In n cs -> sub (aset n) S) -> forall c, P c = true -> S c = true.
Proof.
  induction cs as [|a cs IH]; intros P S U H c Hc; [discriminate|]. assert (A : forall P, uset a = Some P -> forall c, P c = true -> S c = true).
  { intros P' U' y Hy. destruct (H a (or_introl eq_refl)) as (Q & E & X). rewrite aset_low, U' in E. injection E as <-. auto. }
  destruct cs as [|b cs]; [cbn [map usets] in U; now apply (A P)|]. change (match uset a, usets (map uset (b :: cs)) with Some P, Some Q => Some (fun x => P x || Q x) | _, _ => None end = Some P) in U.
  destruct (uset a) as [P1|]; [|discriminate]. destruct (usets (map uset (b :: cs))) as [P2|] eqn:U2; [|discriminate]. injection U as <-. apply orb_true_iff in Hc as [Hc|Hc]; [now apply (A P1)|].
  apply (IH P2 S eq_refl); [intros n Hn; apply H; now right|exact Hc].
Qed.
Lemma aset_alts cs S : (forall n, In n cs -> sub (aset n) S) -> sub (aset (SimpleV cs)) S.
Proof.
  intro H. rewrite aset_low. destruct (uset (SimpleV cs)) as [P|] eqn:U.
  - exists P. split; [reflexivity|]. exact (usets_sub cs P S U H).
  - apply sub_unions. intros o Ho. apply in_map_iff in Ho as (n & <- & Hn). now apply H.
Qed.
Lemma sub_kids cs (S : chr -> bool) : (forall n, In n cs -> sub (aset n) S) -> sub (ounions (map aset cs)) S.
Proof. intro H. apply sub_unions. intros o Ho. apply in_map_iff in Ho as (n & <- & Hn). now apply H. Qed.
Lemma aset_node m cs S : sub (aset m) S -> (forall n, In n cs -> sub (aset n) S) ->
  (cs <> [] -> sub (aset (Simple m cs)) S) /\ (forall i, sub (aset (Group m i cs)) S) /\ (forall mn mx, sub (aset (Greedy m mn mx cs)) S /\ sub (aset (Possessive m mn mx cs)) S /\ sub (aset (Lazy m mn mx cs)) S) /\ (forall k, sub (aset (Repeated m k cs)) S).
Proof.
  intros M K. pose proof (sub_union _ _ _ M (sub_kids cs S K)) as X. split; [|split; [|split]].
  - intro N. destruct cs; [congruence|exact X].
  - intro i. exact X.
  - intros mn mx. split; [exact X|split; exact X].
  - intro k. exact X.
Qed.
Lemma sub_body x : field_elem x = true -> sub (aset (unode x)) (wide x).
Proof.
  intro H. pose proof (eok_unit x (field_ok x H)) as U. destruct (pre_okunit _ _ U) as (Q & E & X). rewrite aset_low. destruct (uset (unode x)) as [P|] eqn:UE.
  - exists P. split; [reflexivity|]. rewrite (pre_uset _ _ UE) in E. injection E as ->. intros c Hc. apply elem_wide. now rewrite <- X.
  - pose proof (ou_set _ _ U) as N. destruct N as (Q' & N & _). congruence.
Qed.
Lemma asets :
  (forall r, shape r = true -> (forall n inj, In n (tree_bs r) -> sub (aset (optimize n inj)) (any r)) /\ forall inj, sub (aset (optimize (SimpleV (tree_bs r)) inj)) (any r)) /\
  (forall b, shape_br b = true -> forall inj, sub (aset (optimize (tree_br b) inj)) (any_br b)) /\
  (forall s, shape_sq s = true -> forall n inj, tree_sq s = Some n -> sub (aset (optimize n inj)) (any_sq s)) /\
  (forall a, shape_atom a = true -> forall inj, sub (aset (optimize (core a) inj)) (any_atom a)).
Proof.
  apply rx_all_ind; cbn [shape shape_br shape_sq shape_atom].
  - intros b Hb H. split; [intros n inj [<-|[]]; now apply Hb|intro inj; exact (Hb H inj)].
  - intros b Hb r Hr H. apply andb_true_iff in H as [H1 H2]. destruct (Hr H2) as [R _].
    assert (A : forall n inj, In n (tree_bs (ROr b r)) -> sub (aset (optimize n inj)) (any (ROr b r))).
    { intros n inj [<-|Hn]; [apply (sub_wide _ (any_br b)); [cbn [any]; intros c ->; reflexivity|now apply Hb]|apply (sub_wide _ (any r)); [cbn [any]; intros c ->; apply orb_true_r|now apply R]]. }
    split; [exact A|]. intro inj. destruct (opt_alts (ROr b r) inj) as [(n & E & ->)|[E ->]]; [apply A; rewrite E; now left|]. apply aset_alts. intros n Hn. apply in_map_iff in Hn as (y & <- & Hy). now apply A.
  - intros a s Hs H inj. rewrite !andb_true_iff, !negb_true_iff in H. destruct H as [[-> E] H]. cbn [tree_br any_br]. destruct (tree_sq s) as [n|] eqn:T; [now apply Hs|destruct s; [discriminate E|rewrite tree_unit in T; discriminate T]].
  - discriminate.
  - intros a Ha q s Hs H n inj E. rewrite !andb_true_iff in H. destruct H as [[[H1 H2] H3] H4]. rewrite tree_unit in E. injection E as <-. specialize (Ha H1). specialize (Hs H4). set (cs := kids (tree_sq s)). set (cs' := map (fun c => optimize c []) cs).
    assert (A : forall inj, sub (aset (optimize (core a) inj)) (any_sq (SCons a q s))) by (intro j; apply (sub_wide _ (any_atom a)); [cbn [any_sq]; intros c ->; reflexivity|apply Ha]).
    assert (K : forall n, In n cs' -> sub (aset n) (any_sq (SCons a q s))).
    { unfold cs', cs. destruct (tree_sq s) as [m|]; [|intros n []]. intros n [<-|[]]. apply (sub_wide _ (any_sq s)); [cbn [any_sq]; intros c ->; apply orb_true_r|now apply Hs]. }
    assert (At : sub (aset (optimize (tree_atom a) [])) (any_sq (SCons a q s))). { rewrite opt_atom. destruct a as [x|i r|r]; cbn [wrap]; [apply A| |apply A]. destruct (aset_node _ [] _ (A []) ltac:(intros n [])) as (_ & X & _). apply X. }
    destruct q as [|k g].
    + assert (Sm : sub (aset (optimize (Simple (core a) cs) inj)) (any_sq (SCons a Q1 s))).
      { change (optimize (Simple (core a) cs) inj) with (match cs with [] => optimize (core a) inj | _ => Simple (optimize (core a) inj) cs' end). unfold cs' in *. destruct cs as [|c l]; [apply A|]. destruct (aset_node _ _ _ (A inj) K) as (X & _). apply X. discriminate. }
      cbn [unitn]. destruct a as [x|i r|r]; [exact Sm| |exact Sm].
      change (optimize (Group (core (ACap i r)) i cs) inj) with (Group (optimize (core (ACap i r)) (cs ++ inj)) i cs'). destruct (aset_node _ _ _ (A (cs ++ inj)) K) as (_ & X & _). apply X.
    + destruct (aset_node _ _ _ At K) as (_ & _ & X & Y).
      assert (L : forall mn mx, sub (aset (optimize (Greedy (tree_atom a) mn mx cs) inj)) (any_sq (SCons a (QQ k g) s)) /\ sub (aset (optimize (Possessive (tree_atom a) mn mx cs) inj)) (any_sq (SCons a (QQ k g) s)) /\ sub (aset (optimize (Lazy (tree_atom a) mn mx cs) inj)) (any_sq (SCons a (QQ k g) s))).
      { intros mn mx. destruct (X mn mx) as (X1 & X2 & X3). cbn [optimize]. fold cs'. split; [destruct (adm_empty _); assumption|]. split; [assumption|]. destruct (adm_empty _); assumption. }
      destruct k as [| | |t|t|t t']; try (destruct g; apply L). exact (Y _).
  - intros x H inj. cbn [core any_atom]. rewrite opt_body. now apply sub_body.
  - intros i r Hr H inj. apply andb_true_iff in H as [_ H]. now apply Hr.
  - intros r Hr H inj. apply andb_true_iff in H as [_ H]. now apply Hr.
Qed.
Lemma tail_low n : tailset n = match uset n with Some _ => Some (fun _ => false) | None => match n with Term _ | Negated _ => None | SimpleV cs => ounions (map tailset cs)
  | Simple m cs | Group m _ cs => if nonnull m then ounion (tailset m) (ounions (map aset cs)) else None
  | Greedy m k _ cs | Lazy m k _ cs | Possessive m k _ cs | Repeated m k cs => if nonnull m && negb (N.eqb k 0) then ounion (tailset m) (ounion (aset m) (ounions (map aset cs))) else None end end.
Proof. destruct n; reflexivity. Qed.
Lemma sub_nil (S : chr -> bool) : sub (Some (fun _ => false)) S.
Proof. eexists. split; [reflexivity|discriminate]. Qed.
Lemma tail_alts cs S : (forall n, In n cs -> sub (tailset n) S) -> sub (tailset (SimpleV cs)) S.
Proof.
  intro H. rewrite tail_low. destruct (uset (SimpleV cs)); [apply sub_nil|]. apply sub_unions. intros o Ho. apply in_map_iff in Ho as (n & <- & Hn). now apply H.
Qed.
Lemma tail_seq m cs S : nonnull m = true -> sub (tailset m) S -> (forall n, In n cs -> sub (aset n) S) -> (cs <> [] -> sub (tailset (Simple m cs)) S) /\ forall i, sub (tailset (Group m i cs)) S.
Proof.
  intros N M K. pose proof (sub_union _ _ _ M (sub_kids cs S K)) as X. split; intro i; rewrite tail_low.
  - destruct (uset (Simple m cs)); [apply sub_nil|]. now rewrite N.
  - cbn [uset]. now rewrite N.
Qed.
Lemma tail_rep m k cs S : nonnull m = true -> k <> 0%N -> sub (tailset m) S -> sub (aset m) S -> (forall n, In n cs -> sub (aset n) S) ->
  sub (tailset (Repeated m k cs)) S /\ forall mx, sub (tailset (Greedy m k mx cs)) S /\ sub (tailset (Possessive m k mx cs)) S /\ sub (tailset (Lazy m k mx cs)) S.
Proof.
  intros N Z M A K. apply N.eqb_neq in Z. pose proof (sub_union _ _ _ M (sub_union _ _ _ A (sub_kids cs S K))) as X. split; [|intro mx; split; [|split]]; rewrite tail_low; cbn [uset]; now rewrite N, Z.
Qed.
Lemma later_any :
  (forall r c, later r c = true -> any r c = true) /\ (forall b c, later_br b c = true -> any_br b c = true) /\
  (forall s c, later_sq s c = true -> any_sq s c = true) /\ (forall a c, later_atom a c = true -> any_atom a c = true).
Proof.
  apply rx_all_ind; cbn [later later_br later_sq later_atom any any_br any_sq any_atom]; auto.
  - intros b Hb r Hr c H. apply orb_true_iff in H as [H|H]; [now rewrite Hb|rewrite Hr by exact H; apply orb_true_r].
  - intros a Ha q s Hs c H. apply orb_true_iff in H as [H|H]; [|rewrite H; apply orb_true_r]. apply orb_true_iff in H as [H|H]; [now rewrite (Ha c H)|]. destruct q; [discriminate|now rewrite H].
  - discriminate.
Qed.
Lemma tails G :
  (forall r fol I, wf r = true -> ll r fol I = true -> lowc G (caps r) -> opens r = true -> (forall n, In n (tree_bs r) -> sub (tailset (optimize n [])) (later r)) /\ sub (tailset (optimize (SimpleV (tree_bs r)) [])) (later r)) /\
  (forall b fol I, wf_br b = true -> ll_br b fol I = true -> lowc G (caps_br b) -> opens_br b = true -> sub (tailset (optimize (tree_br b) [])) (later_br b)) /\
  (forall s fol I, wf_sq s = true -> ll_sq s fol I = true -> lowc G (caps_sq s) -> opens_sq s = true -> forall n, tree_sq s = Some n -> sub (tailset (optimize n [])) (later_sq s)) /\
  (forall a fol I, wf_atom a = true -> ll_atom a fol I = true -> lowc G (caps_atom a) -> opens_atom a = true -> sub (tailset (optimize (core a) [])) (later_atom a)).
Proof.
  apply rx_all_ind.
  - intros b Hb fol I W H Lo O. cbn [wf ll caps opens] in *. split; [intros n [<-|[]]; now apply (Hb fol I)|exact (Hb fol I W H Lo O)].
  - intros b Hb r Hr fol I W H Lo O. cbn [wf ll caps opens] in *. apply andb_true_iff in W as [W1 W2]. rewrite !andb_true_iff in H. destruct H as [[[H1 H2] H3] H4]. apply Forall_app in Lo as [L1 L2]. apply andb_true_iff in O as [O1 O2]. destruct (Hr _ _ W2 H4 L2 O2) as [R _].
    assert (A : forall n, In n (tree_bs (ROr b r)) -> sub (tailset (optimize n [])) (later (ROr b r))).
    { intros n [<-|Hn]; [apply (sub_wide _ (later_br b)); [cbn [later]; intros c ->; reflexivity|now apply (Hb fol none)]|apply (sub_wide _ (later r)); [cbn [later]; intros c ->; apply orb_true_r|now apply R]]. }
    split; [exact A|]. destruct (opt_alts (ROr b r) []) as [(n & E & ->)|[E ->]]; [apply A; rewrite E; now left|]. apply tail_alts. intros n Hn. apply in_map_iff in Hn as (y & <- & Hy). now apply A.
  - intros a s Hs fol I W H Lo O. cbn [ll_br caps_br opens_br] in *. rewrite !andb_true_iff, !negb_true_iff in H. destruct H as [[-> E] H]. cbn [orb] in O. assert (W' : wf_sq s = true) by (destruct s; [reflexivity|exact W]). cbn [tree_br later_br]. destruct (tree_sq s) as [n|] eqn:T; [now apply (Hs fol I)|destruct s; [discriminate E|rewrite tree_unit in T; discriminate T]].
  - discriminate.
  - intros a Ha q s Hs fol I W H Lo O n E. pose proof (proj1 (proj2 (proj2 ll_shape)) _ _ _ W H) as Sh. cbn [wf_sq ll_sq caps_sq shape_sq opens_sq] in *. rewrite !andb_true_iff in W. rewrite !andb_true_iff in Sh. destruct W as [[W1 W2] W3]. destruct Sh as [[[S1 S2] S3] S4]. cbv zeta in H. apply andb_true_iff in H as [H1 H2]. apply Forall_app in Lo as [L1 L2]. apply andb_true_iff in O as [O1 O2].
    rewrite tree_unit in E. injection E as <-. set (cs := kids (tree_sq s)). set (cs' := map (fun c => optimize c []) cs).
    assert (K : forall n, In n cs' -> sub (aset n) (later_sq (SCons a q s))).
    { unfold cs', cs. destruct (tree_sq s) as [m|] eqn:T; [|intros n []]. intros n [<-|[]]. apply (sub_wide _ (any_sq s)); [cbn [later_sq]; intros c ->; apply orb_true_r|]. now apply (proj1 (proj2 (proj2 asets)) s S4). }
    assert (F : exists f' I', ll_atom a f' I' = true) by (destruct q; [eauto|rewrite !andb_true_iff in H2; destruct H2 as [[_ H2] _]; eauto]). destruct F as (f' & I' & F).
    assert (A : sub (tailset (optimize (core a) [])) (later_sq (SCons a q s))) by (apply (sub_wide _ (later_atom a)); [cbn [later_sq]; intros c ->; reflexivity|now apply (Ha f' I')]).
    pose proof (hd_nonnull _ _ (kn_head _ _ _ _ (proj2 (proj2 (proj2 (nodes G))) a f' I' W1 F L1 [] (inj_any I')) eq_refl)) as Nn.
    destruct q as [|k g].
    + assert (Sm : sub (tailset (optimize (Simple (core a) cs) [])) (later_sq (SCons a Q1 s))).
      { change (optimize (Simple (core a) cs) []) with (match cs with [] => optimize (core a) [] | _ => Simple (optimize (core a) []) cs' end). unfold cs' in *. destruct cs as [|c l]; [exact A|]. destruct (tail_seq _ _ _ Nn A K) as [X _]. apply X. discriminate. }
      cbn [unitn]. destruct a as [x|i r|r]; [exact Sm| |exact Sm]. destruct s; [|discriminate O2].
      change (optimize (Group (core (ACap i r)) i cs) []) with (Group (optimize (core (ACap i r)) []) i cs'). destruct (tail_seq _ _ _ Nn A K) as [_ X]. apply X.
    + assert (K1 : kind_min k <> 0%N) by (destruct a, s; try discriminate O2; apply N.eqb_eq in O2; rewrite O2; discriminate).
      assert (At : sub (tailset (optimize (tree_atom a) [])) (later_sq (SCons a (QQ k g) s)) /\ nonnull (optimize (tree_atom a) []) = true /\ sub (aset (optimize (tree_atom a) [])) (later_sq (SCons a (QQ k g) s))).
      { assert (Y : sub (aset (optimize (core a) [])) (later_sq (SCons a (QQ k g) s))) by (apply (sub_wide _ (any_atom a)); [cbn [later_sq]; intros c ->; now rewrite orb_true_r|now apply asets]).
        rewrite opt_atom. destruct a as [x|i r|r]; cbn [wrap]; [auto| |auto]. split; [|split].
        - destruct (tail_seq _ [] _ Nn A ltac:(intros y [])) as [_ X]. apply X.
        - apply (hd_nonnull _ (first_atom (ACap i r))). apply hd_group. exact (kn_head _ _ _ _ (proj2 (proj2 (proj2 (nodes G))) _ f' I' W1 F L1 [] (inj_any I')) eq_refl).
        - destruct (aset_node _ [] _ Y ltac:(intros y [])) as (_ & X & _). apply X. }
      destruct At as (T1 & T2 & T3). destruct (tail_rep _ _ _ _ T2 K1 T1 T3 K) as [Y X].
      assert (L : forall mx, sub (tailset (optimize (Greedy (tree_atom a) (kind_min k) mx cs) [])) (later_sq (SCons a (QQ k g) s)) /\ sub (tailset (optimize (Possessive (tree_atom a) (kind_min k) mx cs) [])) (later_sq (SCons a (QQ k g) s)) /\ sub (tailset (optimize (Lazy (tree_atom a) (kind_min k) mx cs) [])) (later_sq (SCons a (QQ k g) s))).
      { intros mx. destruct (X mx) as (X1 & X2 & X3). cbn [optimize]. fold cs'. split; [destruct (adm_empty _); assumption|]. split; [assumption|]. destruct (adm_empty _); assumption. }
      destruct k as [| | |t|t|t t']; try (destruct g; apply L). exact Y.
  - intros x fol I W H Lo O. cbn [core later_atom ll_atom] in *. rewrite opt_body. rewrite tail_low. destruct (ou_set _ _ (eok_unit x (field_ok x H))) as (Q & -> & _). apply sub_nil.
  - intros i r Hr fol I W H Lo O. cbn [core later_atom ll_atom wf_atom caps_atom opens_atom] in *. apply andb_true_iff in H as [_ H]. apply (Hr fol I W H); [inversion Lo; assumption|exact O].
  - intros r Hr fol I W H Lo O. cbn [core later_atom ll_atom wf_atom caps_atom opens_atom] in *. apply andb_true_iff in H as [_ H]. now apply (Hr fol I W H).
Qed.
Lemma markers G r fol I : wf r = true -> ll_atom (ANon r) fol I = true -> lowc G (caps r) -> opens r = true -> apart (first r) (later r) = true -> marker (optimize (core (ANon r)) []) = true.
Proof.
  intros W H Lo O A. destruct (proj2 (proj2 (proj2 (tails G))) (ANon r) fol I W H Lo O) as (T & ET & XT). destruct (kn_head _ _ _ _ (proj2 (proj2 (proj2 (nodes G))) (ANon r) fol I W H Lo [] (inj_any I)) eq_refl) as (P & l & EP & XP).
  unfold marker. rewrite ET, EP. apply (apart_disj (later r) (first r)); [exact XT|exact XP|now apply apart_sym].
Qed.

(** * Chains that end with $ *)
Lemma tree_unit_d a q s : tree_sq_d (SCons a q s) = unitn a q [tree_sq_d s].
Proof.
  cbn [tree_sq_d]. destruct q as [|k g].
  - cbn [tree_quant unitn]. destruct a as [x|i r|r]; cbn [tree_atom core]; [rewrite tree_body|..]; reflexivity.
  - destruct k, g; reflexivity.
Qed.
Lemma held_form r fol : held r fol = true -> exists x k, r = ROne (Br false (SCons (AEl x) (QQ k Gr) SNil)) /\ field_elem x = true /\ steady x = true /\ shown_atom (AEl x) = true /\ often k Gr = true /\ skips (QQ k Gr) = false /\ (forall n, k <> QExact n) /\ many k = true /\ apart (wide x) fol = true.
Proof.
  unfold held. destruct r as [[[] [|[x| |] [|k []] []]]|]; try discriminate. rewrite !andb_true_iff. intros [[[[[[[A B] C] D] E0] E] F] H]. exists x, k. split; [reflexivity|]. split; [exact A|]. split; [exact B|]. split; [exact C|]. split; [exact D|]. split; [now apply negb_true_iff|]. split; [|auto]. destruct k; discriminate.
Qed.
Lemma kind_small k g : quant_ok (QQ k g) = true -> (kind_min k < 4294967296)%N.
Proof.
  assert (NB : forall n, num_ok n = true -> (Z.to_N (num_val n) < 4294967295)%N) by (intros n Hn; unfold num_ok in Hn; rewrite !andb_true_iff in Hn; lia).
  destruct k as [| | |n|n|n m]; cbn [quant_ok kind_ok kind_min]; intro Q; try lia; rewrite ?andb_true_iff in Q; try (specialize (NB n ltac:(tauto)); lia).
Qed.
Lemma ll_d_shape s : wf_sq s = true -> ll_d s = true -> shape_sq s = true.
Proof.
  induction s as [|a q s IH]; intros W H; [reflexivity|]. cbn [wf_sq ll_d shape_sq] in *. rewrite !andb_true_iff in W. destruct W as [[W1 W2] W3]. cbv zeta in H. apply andb_true_iff in H as [H1 H2]. rewrite (IH W3 H1), W2, !andb_true_r.
  assert (A : forall f I, ll_atom a f I = true -> shape_atom a = true) by (intros f I X; exact (proj2 (proj2 (proj2 ll_shape)) a f I W1 X)).
  destruct q as [|k g].
  - destruct a as [x|i r|r]; [now rewrite (A _ _ H2)| |now rewrite (A _ _ H2)]. destruct (empties s); [|now rewrite (A _ _ H2)]. apply orb_true_iff in H2 as [H2|H2]; [|now rewrite (A _ _ H2)].
    destruct (held_form _ _ H2) as (x & k & -> & Fe & St & Sn & Of & Sk & Nx & My & Ap). cbn [shape_atom weight weight_br weight_sq weight_atom least shape shape_br shape_sq empties negb andb]. rewrite Sk. cbn [wf_atom wf wf_br wf_sq wf_atom] in W1. rewrite !andb_true_iff in W1. destruct W1 as [[W1 W4] _].
    pose proof (kind_small k Gr W4) as Ks. rewrite Fe, W4, Of, !andb_true_r. cbn [andb]. assert (Z : (1 * kind_min k + 0 <? 4294967296)%N = true) by (rewrite N.mul_1_l, N.add_0_r; now apply N.ltb_lt). rewrite Z. cbn [andb]. reflexivity.
  - rewrite !andb_true_iff in H2. destruct H2 as [[[H2 H3] H4] _]. now rewrite (A _ _ H3), H2.
Qed.
Lemma asc_d s : wf_sq s = true -> asc (nadm (tree_sq_d s)).
Proof.
  induction s as [|a q s IH]; intro W; [exact dollar_asc|]. cbn [wf_sq] in W. rewrite !andb_true_iff in W. destruct W as [[W1 W2] W3]. specialize (IH W3). rewrite tree_unit_d. pose proof (proj2 (proj2 (proj2 tree_asc)) a W1) as A.
  assert (C : asc (nadm (core a))) by (rewrite tree_core in A; destruct a; exact A).
  assert (X : forall b : bool, asc (if b then extract_adm [nadm (tree_atom a); nadm (tree_sq_d s)] else nadm (tree_atom a))) by (intros []; [apply Heads.extract_asc; repeat constructor; assumption|exact A]).
  assert (Y : forall b : bool, asc (if b then extract_adm [nadm (core a); nadm (tree_sq_d s)] else nadm (core a))) by (intros []; [apply Heads.extract_asc; repeat constructor; assumption|exact C]).
  destruct q as [|k g]; [destruct a; cbn [unitn nadm map]; [apply Y|exact C|apply Y]|]. destruct k, g; cbn [unitn nadm map]; try apply X; exact A.
Qed.
Lemma adms_d s : shape_sq s = true -> empties s = false -> forall c, In c (nadm (tree_sq_d s)) -> okc (first_sq s c) c.
Proof.
  induction s as [|a q s IH]; intros H E c Hc; [discriminate|]. pose proof (proj2 (proj2 (proj2 sizes)) a) as Sz. cbn [shape_sq empties] in *. rewrite !andb_true_iff in H. destruct H as [[[H1 H2] H3] H4]. rewrite tree_unit_d in Hc. destruct (proj2 (proj2 (proj2 adms)) a H1 c) as [A A']. specialize (Sz H1). specialize (IH H4). cbn [first_sq].
  assert (M : forall mn, N.eqb mn 0 = skips q -> In c (if N.eqb mn 0 then extract_adm [nadm (tree_atom a); nadm (tree_sq_d s)] else nadm (tree_atom a)) -> okc (first_atom a c || skips q && first_sq s c) c).
  { intros mn Em X. rewrite <- Em in *. destruct (mn =? 0)%N; [|apply okc_l, A; now rewrite <- A']. cbn [andb] in *. apply extract_in in X as (z & [<-|[<-|[]]] & X); [apply okc_l, A; now rewrite <- A'|apply okc_r; now apply IH]. }
  destruct q as [|k g].
  - apply okc_l, A. assert (Z : (nmin (core a) =? 0)%N = false) by (apply N.eqb_neq; lia). destruct a as [x|i r|r]; cbn [unitn nadm] in Hc; [|exact Hc|]; rewrite Z in Hc; exact Hc.
  - specialize (M (kind_min k) eq_refl). destruct k as [| | |n|n|n m]; try (destruct g; exact (M Hc)). cbn [unitn nadm] in Hc. apply okc_l, A. now rewrite <- A'.
Qed.
Lemma alls_d s : shape_sq s = true -> empties s = true -> forall c, (0 <= c <= 127)%Z -> c <> 10%Z -> In c (nadm (tree_sq_d s)).
Proof.
  induction s as [|a q s IH]; intros H E c R N; [now apply dollar_adm|]. destruct (empties_unit a q s H E) as (mx & U & E' & _). cbn [shape_sq] in H. rewrite !andb_true_iff in H. destruct H as [_ H].
  rewrite tree_unit_d. specialize (IH H E' c R N). destruct U as [-> | ->]; cbn [nadm N.eqb map]; apply extract_in; exists (nadm (tree_sq_d s)); (split; [right; now left|exact IH]).
Qed.
Lemma hds_d s : shape_sq s = true -> empties s = false -> hd_in (tree_sq_d s) (first_sq s).
Proof.
  induction s as [|a q s IH]; intros H E; [discriminate|]. cbn [shape_sq] in H. rewrite !andb_true_iff in H. destruct H as [[[H1 H2] H3] H4]. rewrite tree_unit_d. pose proof (proj2 (proj2 (proj2 hds)) a H1) as Ha. specialize (IH H4).
  assert (A : hd_in (core a) (first_sq (SCons a q s))) by (apply (hd_sub _ (first_atom a)); [cbn [first_sq]; intros c ->; reflexivity|exact Ha]). pose proof (hd_tree_atom _ _ A) as A'.
  destruct q as [|k g]; [destruct a; [now apply hd_simple|now apply hd_group|now apply hd_simple]|].
  assert (M : forall mx, let cs := [tree_sq_d s] in let m := tree_atom a in let S := first_sq (SCons a (QQ k g) s) in hd_in (Greedy m (kind_min k) mx cs) S /\ hd_in (Possessive m (kind_min k) mx cs) S /\ hd_in (Lazy m (kind_min k) mx cs) S).
  { intros mx cs m S. destruct (N.eq_dec (kind_min k) 0) as [Z|Z]; [|now apply hd_loop]. cbn [empties skips] in E. rewrite Z in E. cbn [N.eqb andb] in E. unfold cs. rewrite Z. apply hd_opt; [exact A'|].
    apply (hd_sub _ (first_sq s)); [|exact (IH E)]. intros c Hc. unfold S. cbn [first_sq skips]. rewrite Z, Hc. apply orb_true_r. }
  specialize (M (umax_of (kind_max k))). cbv zeta in M. destruct M as (M1 & M2 & M3). destruct k as [| | |n|n|n m]; try (destruct g; assumption).
  cbn [unitn]. apply hd_repeated; [exact (often_exact n g H3)|exact A'].
Qed.
Lemma null_pre_d s : shape_sq s = true -> empties s = true -> fst (pre (tree_sq_d s)) = [].
Proof.
  induction s as [|a q s IH]; intros H E; [reflexivity|]. rewrite tree_unit_d. destruct (empties_unit a q s H E) as (mx & U & E' & _).
  assert (H' : shape_sq s = true) by (cbn [shape_sq] in H; rewrite !andb_true_iff in H; tauto). specialize (IH H' E'). assert (Z : forall l : list (Z -> bool), firstn 1 (zipu l []) = []) by (intros [|]; reflexivity).
  destruct U as [-> | ->]; cbn [pre uset N.eqb map orsp fst]; rewrite IH; apply Z.
Qed.
Lemma efirst_d s : shape_sq s = true -> forall S, exists Q, efirst (tree_sq_d s) S = Some Q /\ forall c, Q c = true -> after s is_nl c = true.
Proof.
  induction s as [|a q s IH]; intros H S.
  - exists (Z.eqb c_nl). split; [reflexivity|]. intros c Hc. unfold after, is_nl, c_nl in *. cbn [first_sq empties orb andb]. lia.
  - destruct (empties (SCons a q s)) eqn:E.
    + pose proof (null_pre_d _ H E) as PN. rewrite tree_unit_d in *. destruct (empties_unit a q s H E) as (mx & U & E' & Sk).
      cbn [shape_sq] in H. rewrite !andb_true_iff in H. destruct H as [[[H1 _] _] H']. destruct (hd_tree_atom a (first_atom a) (proj2 (proj2 (proj2 hds)) a H1)) as (Q & l & PE & X). destruct (IH H' S) as (R & ER & XR).
      exists (fun c => Q c || (R c || false)). split.
      * revert PN. destruct U as [-> | ->]; intro PN; cbn [efirst]; rewrite PN, PE; cbn [hd_error map ounions fold_right]; rewrite ER; reflexivity.
      * intros c Hc. rewrite orb_false_r in Hc. unfold after in *. cbn [first_sq empties]. rewrite Sk, E'. rewrite E' in XR. cbn [andb] in *. apply orb_true_iff in Hc as [Hc|Hc]; [now rewrite (X c Hc)|]. rewrite <- orb_assoc, (XR c Hc). apply orb_true_r.
    + destruct (hds_d _ H E) as (Q & l & PE & X). exists Q. rewrite (efirst_hd _ Q l _ PE). split; [reflexivity|]. intros c Hc. unfold after. now rewrite (X c Hc).
Qed.
Lemma folk_d s : shape_sq s = true -> okF (after s is_nl) (folk [tree_sq_d s] FTot).
Proof.
  intro H. destruct (efirst_d s H None) as (Q & E & X). unfold folk, efk. cbn [map ounions fold_right fset]. rewrite E. cbn [ounion okF]. intros c Hc. rewrite orb_false_r in Hc. now apply X.
Qed.

(** ** The optimised chains *)
Lemma asciis c : (0 <= c <= 127)%Z -> c <> 10%Z -> ascii c = true.
Proof. unfold ascii, is_nl. lia. Qed.
Lemma ascii_in c : ascii c = true -> (0 <= c <= 127)%Z /\ c <> 10%Z.
Proof. unfold ascii, is_nl. lia. Qed.
Lemma shown_el x : field_elem x = true -> negb (apart (seen x) ascii) = true -> exists c, In c (nadm (body x)) /\ (0 <= c <= 127)%Z /\ c <> 10%Z.
Proof.
  intros F H. apply negb_true_iff in H. apply not_apart in H as (c & A & B). exists c. split; [now apply seen_adm|now apply ascii_in].
Qed.
Lemma shown_adm :
  (forall r, shape r = true -> opens r = true -> shown r = true -> exists c, In c (nadm (SimpleV (tree_bs r))) /\ (0 <= c <= 127)%Z /\ c <> 10%Z) /\
  (forall b, shape_br b = true -> opens_br b = true -> shown_br b = true -> exists c, In c (nadm (tree_br b)) /\ (0 <= c <= 127)%Z /\ c <> 10%Z) /\
  (forall s, shape_sq s = true -> opens_sq s = true -> shown_sq s = true -> exists n c, tree_sq s = Some n /\ In c (nadm n) /\ (0 <= c <= 127)%Z /\ c <> 10%Z) /\
  (forall a, shape_atom a = true -> opens_atom a = true -> shown_atom a = true -> exists c, In c (nadm (core a)) /\ (0 <= c <= 127)%Z /\ c <> 10%Z).
Proof.
  apply rx_all_ind; cbn [shape shape_br shape_sq shape_atom opens opens_br opens_sq opens_atom shown shown_br shown_sq shown_atom].
  - intros b Hb S O H. exact (Hb S O H).
  - intros b Hb r Hr S O H. apply andb_true_iff in S as [S1 S2]. apply andb_true_iff in O as [O1 O2]. destruct (Hb S1 O1 H) as (c & A & B). exists c. split; [|exact B]. change (tree_bs (ROr b r)) with (tree_br b :: tree_bs r). cbn [nadm]. destruct (tree_bs r) eqn:E; [exact A|]. destruct (_ =? _)%N; [|exact A]. apply extract_in. exists (nadm (tree_br b)). split; [now left|exact A].
  - intros a s Hs S O H. rewrite !andb_true_iff, !negb_true_iff in S. destruct S as [[-> E] S]. cbn [orb] in O. destruct (Hs S O H) as (n & c & T & X). cbn [tree_br]. rewrite T. eauto.
  - discriminate.
  - intros a Ha q s Hs S O H. rewrite !andb_true_iff in S. destruct S as [[[S1 S2] S3] S4]. apply andb_true_iff in O as [O1 O2]. destruct (Ha S1 O1 H) as (c & A & B). rewrite tree_unit. eexists _, c. split; [reflexivity|]. split; [|exact B]. pose proof (proj2 (proj2 (proj2 adms)) a S1 c) as [_ A']. rewrite <- A' in A.
    assert (X : forall (b : bool) l, In c (if b then extract_adm (nadm (tree_atom a) :: l) else nadm (tree_atom a))) by (intros [] l; [apply extract_in; exists (nadm (tree_atom a)); split; [now left|exact A]|exact A]).
    assert (Y : forall (b : bool) l, In c (if b then extract_adm (nadm (core a) :: l) else nadm (core a))) by (rewrite <- A'; exact X). rewrite A' in A.
    destruct q as [|k g]; [destruct a; cbn [unitn nadm]; [destruct (kids (tree_sq s)); [exact A|apply Y]|exact A|destruct (kids (tree_sq s)); [exact A|apply Y]]|]. destruct k, g; cbn [unitn nadm]; try apply X; rewrite A'; exact A.
  - intros x S O H. cbn [core]. now apply shown_el.
  - intros i r Hr S O H. apply andb_true_iff in S as [_ S]. cbn [core]. now apply Hr.
  - intros r Hr S O H. apply andb_true_iff in S as [_ S]. cbn [core]. now apply Hr.
Qed.
Lemma inter_end l s : wf_sq s = true -> shape_sq s = true -> empties s = true -> asc l -> (exists c, In c l /\ (0 <= c <= 127)%Z /\ c <> 10%Z) -> adm_empty (adm_inter l (extract_adm (map nadm [tree_sq_d s]))) = false.
Proof.
  intros W H E A (c & I & R & N). cbn [map]. assert (X : extract_adm [nadm (tree_sq_d s)] = nadm (tree_sq_d s)) by (unfold extract_adm; cbn [fold_right]; apply merge_nil_r). rewrite X.
  assert (Z : In c (adm_inter l (nadm (tree_sq_d s)))) by (apply inter_in; [exact A|now apply asc_d|split; [exact I|now apply alls_d]]). destruct (adm_inter l (nadm (tree_sq_d s))); [destruct Z|reflexivity].
Qed.
Lemma ok_tail_nil G : okt G [].
Proof. constructor; [apply Nat.le_0_1|intros c []]. Qed.
Section NodesD.
Variable G : nat.
Record okd (n : node) (nul : bool) (S : chr -> bool) : Prop := {
  kd_good : forall pv, good G true n pv = true;
  kd_acc : accins n = true;
  kd_inj : noinj n = true;
  kd_small : opt_small n = true;
  kd_head : nul = false -> hd_in n S;
  kd_clean : nul = true -> clean n PAny = true }.
Lemma okd_sub n e (S S' : chr -> bool) : (forall c, S c = true -> S' c = true) -> okd n e S -> okd n e S'.
Proof. intros H [A B C D E F]. constructor; auto. intro X. apply (hd_sub _ S); auto. Qed.
Lemma d_end : okd (Term TEnd) true none.
Proof. constructor; try reflexivity. discriminate. Qed.
Lemma d_simple m c S e S' : okn G m false S -> okd c e S' -> okd (Simple m [c]) false S.
Proof.
  intros M K. constructor.
  - intro pv. cbn [good]. rewrite (kn_start _ _ _ _ M), (kd_good _ _ _ K), (kn_det _ _ _ _ M), (good_end _ _ _ (kn_good _ _ _ _ M pv)). reflexivity.
  - exact (kn_acc _ _ _ _ M).
  - exact (kd_inj _ _ _ K).
  - cbn [opt_small forallb]. now rewrite (kn_small _ _ _ _ M), (kd_small _ _ _ K).
  - intros _. apply hd_simple. now apply (kn_head _ _ _ _ M).
  - discriminate.
Qed.
Lemma d_group m i c S e S' : i < G -> okn G m false S -> okd c e S' -> okd (Group m i [c]) false S.
Proof.
  intros Hi M K. pose proof (kn_top _ _ _ _ M) as Tp. apply Nat.ltb_lt in Hi. constructor.
  - intro pv. cbn [good]. rewrite Hi, (kd_inj _ _ _ K). cbn [andb].
    assert (X : good G true m pv && noinj m && good G true c (lastp m pv) && (det m || total c) = true) by (rewrite (good_end _ _ _ (kn_good _ _ _ _ M pv)), (kn_inj _ _ _ _ M), (kd_good _ _ _ K), (kn_det _ _ _ _ M); reflexivity).
    destruct m; try exact X; destruct Tp.
  - cbn [accins]. pose proof (kn_acc _ _ _ _ M) as A. destruct m; try exact A; destruct Tp.
  - exact (kd_inj _ _ _ K).
  - cbn [opt_small forallb]. now rewrite (kn_small _ _ _ _ M), (kd_small _ _ _ K).
  - intros _. apply hd_group. now apply (kn_head _ _ _ _ M).
  - discriminate.
Qed.
Lemma d_held m i mn mx c S S' : i < G -> okn G m false S -> clean m PAny = true -> greedy_item m mn mx = true -> opt_case m mn mx = false -> mn <> 0%N -> okd c true S' -> okd (Group (Greedy m mn mx []) i [c]) false S.
Proof.
  intros Hi M Cm It Oc Mn K. apply Nat.ltb_lt in Hi. pose proof (kd_clean _ _ _ K eq_refl) as Cc. constructor.
  - intro pv. cbn [good]. rewrite Hi, (kd_inj _ _ _ K), It, Cm, Cc, (good_end _ _ _ (kn_good _ _ _ _ M PAny)), (kn_acc _ _ _ _ M), (kd_good _ _ _ K). unfold opt_good. rewrite Oc. reflexivity.
  - reflexivity.
  - exact (kd_inj _ _ _ K).
  - cbn [opt_small forallb]. now rewrite Oc, (kn_small _ _ _ _ M), (kd_small _ _ _ K).
  - intros _. apply hd_group. apply hd_loop; [exact Mn|now apply (kn_head _ _ _ _ M)].
  - discriminate.
Qed.
Lemma d_possessive m mn mx c S e S0 S' : okn G m false S -> okd c e S0 -> (mn <= mx)%N -> mx <> 0%N -> hd_in (Possessive m mn mx [c]) S' -> okd (Possessive m mn mx [c]) false S'.
Proof.
  intros M K Le Nz Hd. pose proof (kn_head _ _ _ _ M eq_refl) as Hm. constructor.
  - intro pv. cbn [good]. rewrite (good_end _ _ _ (kn_good _ _ _ _ M PAny)), (hd_nonnull _ _ Hm), (kn_det _ _ _ _ M), orb_true_r. apply N.leb_le in Le. rewrite Le. cbn [andb]. apply (kd_good _ _ _ K).
  - cbn [accins]. apply N.eqb_neq in Nz. now rewrite Nz, (kn_acc _ _ _ _ M).
  - exact (kn_inj _ _ _ _ M).
  - cbn [opt_small forallb]. now rewrite (kn_small _ _ _ _ M), (kd_small _ _ _ K).
  - intros _. exact Hd.
  - discriminate.
Qed.
Lemma d_repeated m k c S e S0 : okn G m false S -> okd c e S0 -> k <> 0%N -> okd (Repeated m k [c]) false S.
Proof.
  intros M K Nz. constructor.
  - intro pv. cbn [good]. rewrite (good_end _ _ _ (kn_good _ _ _ _ M PAny)), (kn_det _ _ _ _ M). apply (kd_good _ _ _ K).
  - cbn [accins]. apply N.eqb_neq in Nz. now rewrite Nz, (kn_acc _ _ _ _ M).
  - reflexivity.
  - cbn [opt_small forallb]. now rewrite (kn_small _ _ _ _ M), (kd_small _ _ _ K).
  - intros _. apply hd_repeated; [exact Nz|now apply (kn_head _ _ _ _ M)].
  - discriminate.
Qed.
Lemma d_greedy m mn mx c S S0 e S' : okn G m false S -> clean m PAny = true -> greedy_item m mn mx = true -> opt_case m mn mx = false -> okd c true S0 ->
  (e = false -> hd_in (Greedy m mn mx [c]) S') -> (e = true -> mn = 0%N) -> okd (Greedy m mn mx [c]) e S'.
Proof.
  intros M Cm It Oc K Hd Mn. pose proof (kd_clean _ _ _ K eq_refl) as Cc. constructor.
  - intro pv. cbn [good]. rewrite It, Cm, Cc, (good_end _ _ _ (kn_good _ _ _ _ M PAny)), (kn_acc _ _ _ _ M), (kd_good _ _ _ K). unfold opt_good. rewrite Oc. reflexivity.
  - reflexivity.
  - reflexivity.
  - cbn [opt_small forallb]. now rewrite Oc, (kn_small _ _ _ _ M), (kd_small _ _ _ K).
  - exact Hd.
  - intro E. rewrite (Mn E). cbn [clean N.eqb is_nil negb andb forallb]. rewrite Cc. unfold opt_clean. now rewrite <- (Mn E), Oc.
Qed.
Lemma many_opt m k : many k = true -> opt_case m (kind_min k) (umax_of (kind_max k)) = false.
Proof.
  unfold many, opt_case. intro H. assert (X : N.eqb (umax_of (kind_max k)) 1 = false); [|rewrite X, andb_false_r; reflexivity]. apply N.eqb_neq. destruct (kind_max k) as [mx|]; cbn [umax_of]; [apply N.ltb_lt in H; lia|discriminate].
Qed.
Lemma inj_d s : wf_sq s = true -> shape_sq s = true -> empties s = false -> injok [tree_sq_d s] (or_set (first_sq s) none).
Proof.
  intros W H E. split; [repeat constructor; now apply asc_d|]. intros n c [<-|[]] Hc. unfold or_set. destruct (adms_d s H E c Hc) as [-> _]. reflexivity.
Qed.
Lemma nodes_d s : wf_sq s = true -> ll_d s = true -> lowc G (caps_sq s) -> okd (optimize (tree_sq_d s) []) (empties s) (first_sq s).
Proof.
  induction s as [|a q s IH]; intros W H Lo; [apply (okd_sub _ _ none); [discriminate|exact d_end]|].
  pose proof (ll_d_shape _ W H) as Sh. cbn [wf_sq ll_d caps_sq shape_sq] in *. rewrite !andb_true_iff in W. rewrite !andb_true_iff in Sh. destruct W as [[W1 W2] W3]. destruct Sh as [[[S1 S2] S3] S4]. cbv zeta in H. apply andb_true_iff in H as [H1 H2]. apply Forall_app in Lo as [L1 L2]. specialize (IH W3 H1 L2).
  rewrite tree_unit_d. set (n := tree_sq_d s) in *. set (c := optimize n []) in *.
  assert (Na : forall fol I, ll_atom a fol I = true -> forall inj, injok inj I -> okn G (optimize (core a) inj) false (first_atom a)) by (intros fol I X; exact (proj2 (proj2 (proj2 (nodes G))) a fol I W1 X L1)).
  assert (As : asc (nadm (core a))) by (pose proof (proj2 (proj2 (proj2 tree_asc)) a W1) as A; rewrite tree_core in A; destruct a; exact A).
  destruct q as [|k g].
  - cbn [skips empties andb]. assert (F : forall c, first_atom a c = true -> first_sq (SCons a Q1 s) c = true) by (intros y Hy; cbn [first_sq]; now rewrite Hy). apply (okd_sub _ _ (first_atom a) _ F). cbn [unitn]. destruct a as [x|i r|r].
    + change (optimize (Simple (core (AEl x)) [n]) []) with (Simple (optimize (core (AEl x)) []) [c]). eapply d_simple; [exact (Na _ _ H2 [] inj_nil)|exact IH].
    + change (optimize (Group (core (ACap i r)) i [n]) []) with (Group (optimize (core (ACap i r)) [n]) i [c]). assert (Hi : i < G) by (inversion L1; assumption). destruct (empties s) eqn:E.
      * apply orb_true_iff in H2 as [H2|H2].
        -- destruct (held_form _ _ H2) as (x & k & -> & Fe & St & Sn & Of & Sk & Nx & My & Ap). cbn [wf_atom wf wf_br wf_sq] in W1. rewrite !andb_true_iff in W1. destruct W1 as [[W1 W4] _]. 
           assert (Ex : optimize (core (ACap i (ROne (Br false (SCons (AEl x) (QQ k Gr) SNil))))) [n] = Greedy (unode x) (kind_min k) (umax_of (kind_max k)) []).
           { assert (T : optimize (core (ACap i (ROne (Br false (SCons (AEl x) (QQ k Gr) SNil))))) [n] = optimize (Greedy (tree_elem x) (kind_min k) (umax_of (kind_max k)) []) [n]) by (destruct k as [| | |t|t|t t']; try reflexivity; now elim (Nx t)).
             rewrite T, tree_body. cbn [optimize]. rewrite opt_body. change (nadm (Simple (body x) [])) with (nadm (body x)). cbn [app]. unfold n. rewrite (inter_end _ _ W3 S4 E); [reflexivity|now apply body_asc|now apply shown_el]. }
           rewrite Ex. pose proof (ok_body G x Fe) as B. apply (okd_sub _ _ (wide x)); [intros y Hy; cbn [first_atom first first_br first_sq]; now rewrite Hy|]. apply (d_held _ _ _ _ _ (wide x) (first_sq s)); [exact Hi|exact B|apply elem_clean; now apply steady_tidy| |now apply many_opt| |exact IH].
           ++ unfold greedy_item. destruct (ou_set _ _ (eok_unit x (field_ok x Fe))) as (Q & -> & _). reflexivity.
           ++ apply N.eqb_neq. exact Sk.
        -- apply (d_group _ _ _ (first_atom (ACap i r)) true (first_sq s)); [exact Hi| |exact IH]. apply (Na _ _ H2). split; [repeat constructor; now apply asc_d|reflexivity].
      * apply (d_group _ _ _ (first_atom (ACap i r)) false (first_sq s)); [exact Hi| |exact IH]. apply (Na _ _ H2). split; [repeat constructor; now apply asc_d|]. intros m y [<-|[]] Hy. now apply (adms_d s S4 E y).
    + change (optimize (Simple (core (ANon r)) [n]) []) with (Simple (optimize (core (ANon r)) []) [c]). eapply d_simple; [exact (Na _ _ H2 [] inj_nil)|exact IH].
  - rewrite !andb_true_iff in H2. destruct H2 as [[[H2 H3] H5] H4]. pose proof (Na _ _ H3 [] inj_nil) as M. set (m := optimize (tree_atom a) []).
    assert (M' : okn G m false (first_atom a)). { unfold m. rewrite opt_atom. destruct a as [x|i r|r]; cbn [wrap]; [exact M| |exact M]. apply ok_group; [inversion L1; assumption|exact M|exact (ok_tail_nil G)]. }
    pose proof (kn_head _ _ _ _ M' eq_refl) as Hm. assert (Hm' : hd_in m (first_sq (SCons a (QQ k g) s))) by (apply (hd_sub _ (first_atom a)); [intros y Hy; cbn [first_sq]; now rewrite Hy|exact Hm]).
    assert (Hd : empties (SCons a (QQ k g) s) = false -> forall mx, hd_in (Greedy m (kind_min k) mx [c]) (first_sq (SCons a (QQ k g) s)) /\ hd_in (Possessive m (kind_min k) mx [c]) (first_sq (SCons a (QQ k g) s)) /\ hd_in (Lazy m (kind_min k) mx [c]) (first_sq (SCons a (QQ k g) s))).
    { intros E mx. cbn [empties skips] in E. destruct (N.eqb (kind_min k) 0) eqn:Z; [|apply N.eqb_neq in Z; now apply hd_loop]. apply N.eqb_eq in Z as Z'. rewrite Z'. cbn [andb] in E. apply hd_opt; [exact Hm'|].
      apply (hd_sub _ (first_sq s)); [|now apply (kd_head _ _ _ IH)]. intros y Hy. cbn [first_sq skips]. rewrite Z, Hy. apply orb_true_r. }
    destruct (often_max k g S2 H2) as [B1 B2].
    assert (P : empties (SCons a (QQ k g) s) = false -> okd (Possessive m (kind_min k) (umax_of (kind_max k)) [c]) (empties (SCons a (QQ k g) s)) (first_sq (SCons a (QQ k g) s))).
    { intro E. rewrite E. apply (d_possessive _ _ _ _ (first_atom a) (empties s) (first_sq s)); [exact M'|exact IH|exact B1|exact B2|]. apply (Hd E). }
    assert (PG : once_more k g = true -> okd (optimize (Greedy (tree_atom a) (kind_min k) (umax_of (kind_max k)) [n]) []) (empties (SCons a (QQ k g) s)) (first_sq (SCons a (QQ k g) s))).
    { intro O. rewrite O in H4. cbn [negb orb] in H4. apply andb_true_iff in H4 as [H4 H6]. destruct (empties s) eqn:E.
      - cbn [negb orb] in H6. unfold last_loop in H6. rewrite !andb_true_iff in H6. destruct H6 as [[My Sn] H6]. pose proof (proj2 (proj2 (proj2 adms)) a S1 0%Z) as [_ A'].
        assert (X : adm_empty (adm_inter (nadm (tree_atom a)) (extract_adm (map nadm ([n] ++ [])))) = false).
        { cbn [app]. rewrite A'. unfold n. apply inter_end; [exact W3|exact S4|exact E|exact As|]. destruct a as [x|i r|r]; [now apply shown_el|discriminate H6|]. rewrite !andb_true_iff in H6. destruct H6 as [[H6 _] _]. exact (proj2 (proj2 (proj2 shown_adm)) (ANon r) S1 H6 Sn). }
        cbn [optimize]. rewrite X. cbn [map]. fold c m. apply (d_greedy _ _ _ _ (first_atom a) (first_sq s)); [exact M'| | |now apply many_opt|exact IH|intro Y; now apply (Hd Y)|].
        + unfold m. rewrite opt_atom. destruct a as [x|i r|r]; cbn [wrap]; [cbn [core]; rewrite opt_body; apply elem_clean; now apply steady_tidy|discriminate H6|]. rewrite !andb_true_iff in H6. destruct H6 as [[H6 _] _]. exact (proj2 (proj2 (proj2 opens_clean)) (ANon r) H6 PAny).
        + unfold greedy_item. rewrite (kn_det _ _ _ _ M'), (hd_nonnull _ _ Hm), (many_opt m k My). unfold m. rewrite opt_atom. destruct a as [x|i r|r]; cbn [wrap]; [cbn [core]; rewrite opt_body; cbn [ll_atom] in H3; destruct (ou_set _ _ (eok_unit x (field_ok x H3))) as (Q & -> & _); reflexivity|discriminate H6|].
          rewrite !andb_true_iff in H6. destruct H6 as [[H6 H7] H8]. rewrite (markers G r _ _ W1 H3 L1 H6 H8). assert (Ng : nog (optimize (core (ANon r)) []) = true). { unfold nog. rewrite optimize_gidx. cbn [core gidx]. rewrite (proj1 gidx_tree). destruct (caps r); [reflexivity|discriminate H7]. } rewrite Ng. apply orb_true_r.
        + intro Y. cbn [empties skips] in Y. apply andb_true_iff in Y as [Y _]. now apply N.eqb_eq.
      - assert (Ap : apart (first_atom a) (or_set (first_sq s) none) = true). { rewrite <- H4. apply apart_ext; [reflexivity|]. intro y. unfold or_set, after. rewrite E. reflexivity. }
        cbn [optimize]. cbn [app]. rewrite (inter_loop a [n] _ W1 S1 (inj_d s W3 S4 E) Ap). apply P. cbn [empties]. rewrite E. apply andb_false_r. }
    destruct k as [| | |t|t|t t'].
    4:{ cbn [unitn]. change (optimize (Repeated (tree_atom a) (Z.to_N (num_val t)) [n]) []) with (Repeated m (Z.to_N (num_val t)) [c]). pose proof (often_exact t g H2) as Nz.
        assert (X : empties (SCons a (QQ (QExact t) g) s) = false) by (cbn [empties skips kind_min]; apply N.eqb_neq in Nz; now rewrite Nz). rewrite X. apply (okd_sub _ _ (first_atom a)); [intros y Hy; cbn [first_sq]; now rewrite Hy|]. now apply (d_repeated _ _ _ _ (empties s) (first_sq s)). }
    all: destruct g; try (cbn [often] in H2; rewrite ?andb_false_r in H2; discriminate H2); unfold unitn; [apply PG; reflexivity|].
    all: apply P; destruct (empties (SCons _ _ s)) eqn:E; [|reflexivity]; cbn [empties] in E; rewrite E in H5; discriminate H5.
Qed.
End NodesD.

(** ** The optimiser keeps the meaning *)
Lemma optoks_d G s : wf_sq s = true -> ll_d s = true -> lowc G (caps_sq s) -> optok (tree_sq_d s) [] FTot = true.
Proof.
  induction s as [|a q s IH]; intros W H Lo; [reflexivity|].
  pose proof (ll_d_shape _ W H) as Sh. cbn [wf_sq ll_d caps_sq shape_sq] in *. rewrite !andb_true_iff in W. rewrite !andb_true_iff in Sh. destruct W as [[W1 W2] W3]. destruct Sh as [[[S1 S2] S3] S4]. cbv zeta in H. apply andb_true_iff in H as [H1 H2]. apply Forall_app in Lo as [L1 L2]. specialize (IH W3 H1 L2).
  rewrite tree_unit_d. pose proof (folk_d s S4) as FO. set (n := tree_sq_d s) in *.
  assert (K : forallb (fun c => optok c [] FTot) [n] = true) by (cbn [forallb]; now rewrite IH).
  assert (Oa : forall fol I, ll_atom a fol I = true -> forall F, okF fol F -> forall inj, injok inj I -> optok (core a) inj F = true) by (intros fol I X; exact (proj2 (proj2 (proj2 (optoks G))) a fol I W1 X L1)).
  destruct q as [|k g].
  - cbn [unitn]. destruct a as [x|i r|r].
    + cbn [optok core]. now rewrite body_optok, K.
    + cbn [optok]. rewrite K, andb_true_r. cbn [app]. destruct (empties s) eqn:E.
      * apply orb_true_iff in H2 as [H2|H2].
        -- destruct (held_form _ _ H2) as (x & k & -> & Fe & St & Sn & Of & Sk & Nx & My & Ap).
           assert (T : optok (core (ACap i (ROne (Br false (SCons (AEl x) (QQ k Gr) SNil))))) [n] (folk [n] FTot) = optok (Greedy (tree_elem x) (kind_min k) (umax_of (kind_max k)) []) [n] (folk [n] FTot)) by (destruct k as [| | |t|t|t t']; try reflexivity; now elim (Nx t)).
           rewrite T, tree_body. cbn [optok forallb]. change (nadm (Simple (body x) [])) with (nadm (body x)). cbn [app]. unfold n at 1. rewrite (inter_end _ _ W3 S4 E); [|now apply body_asc|now apply shown_el]. cbn [andb]. apply forallb_forall. intros F' _. apply body_optok.
        -- apply (Oa _ _ H2); [exact FO|]. split; [repeat constructor; now apply asc_d|reflexivity].
      * apply (Oa _ _ H2); [exact FO|]. split; [repeat constructor; now apply asc_d|]. intros m y [<-|[]] Hy. now apply (adms_d s S4 E y).
    + cbn [optok]. rewrite K, andb_true_r. apply (Oa _ _ H2); [exact FO|exact inj_nil].
  - rewrite !andb_true_iff in H2. destruct H2 as [[[H2 H3] H5] H4]. pose proof (proj2 (proj2 (proj2 (nodes G))) a _ _ W1 H3 L1 [] inj_nil) as M. set (m := optimize (tree_atom a) []).
    assert (M' : okn G m false (first_atom a)). { unfold m. rewrite opt_atom. destruct a as [x|i r|r]; cbn [wrap]; [exact M| |exact M]. apply ok_group; [inversion L1; assumption|exact M|exact (ok_tail_nil G)]. }
    pose proof (hd_tree_atom a _ (proj2 (proj2 (proj2 hds)) a S1)) as Ht. pose proof (hd_nonnull _ _ (kn_head _ _ _ _ M' eq_refl)) as Nn.
    assert (At : forall F', okF (or_set (after s is_nl) (first_atom a)) F' -> optok (tree_atom a) [] F' = true).
    { intros F' O'. rewrite tree_core. pose proof (Oa _ _ H3 F' O' [] inj_nil) as X. destruct a as [x|i r|r]; [exact X| |exact X]. apply andb_true_iff. split; [exact X|reflexivity]. }
    assert (R : forall F0, okF (after s is_nl) F0 -> forall mn mx, forallb (optok (tree_atom a) []) (Checker.in_rep mn mx (tree_atom a) m F0) = true).
    { intros F0 O0 mn mx. apply forallb_forall. intros F' HF. apply At. exact (in_rep_ok mn mx (tree_atom a) m F0 _ _ Ht Nn O0 F' HF). }
    assert (PG : once_more k g = true -> forall mn mx, optok (Greedy (tree_atom a) mn mx [n]) [] FTot = true).
    { intros Om mn mx. rewrite Om in H4. cbn [negb orb] in H4. apply andb_true_iff in H4 as [H4 _]. cbn [optok]. fold m. rewrite (R _ FO mn mx), (no_retry_ok m _ _ _ (kn_head _ _ _ _ M' eq_refl) (kn_det _ _ _ _ M') FO H4), K. cbn [andb]. rewrite orb_true_r. destruct (adm_empty _); reflexivity. }
    assert (PP : forall mn mx, optok (Possessive (tree_atom a) mn mx [n]) [] FTot = true) by (intros mn mx; cbn [optok]; fold m; rewrite (R FTot Logic.I mn mx); exact K).
    destruct k as [| | |t|t|t t'].
    4:{ cbn [unitn optok]. fold m. rewrite (R _ FO). exact K. }
    all: destruct g; try (cbn [often] in H2; rewrite ?andb_false_r in H2; discriminate H2); unfold unitn; [apply PG; reflexivity|apply PP].
Qed.

(** * Whole patterns *)
Definition topnode_d (G : nat) (n : node) : Prop := (forall pv, good G true n pv = true) /\ accins n = true /\ opt_small n = true.
Lemma top_branch_d G b : wf_br b = true -> top_d b = true -> lowc G (caps_br b) -> topnode_d G (optimize (tree_br_d b) []) /\ optok (tree_br_d b) [] FTot = true.
Proof.
  destruct b as [a s]. intros W H Lo. unfold top_d in H. apply andb_true_iff in H as [E H]. apply negb_true_iff in E. assert (W' : wf_sq s = true) by (destruct s; [reflexivity|exact W]). cbn [caps_br] in Lo.
  pose proof (nodes_d G s W' H Lo) as X. rewrite E in X. pose proof (optoks_d G s W' H Lo) as Y. destruct a; unfold tree_br_d.
  - cbn [followed app optimize map optok forallb folk]. split; [|now rewrite Y]. unfold topnode_d. cbn [good is_start accins opt_small forallb]. split; [|split].
    + intro pv. change (term_optimize TStart) with TStart. cbn [is_start]. rewrite (kd_good _ _ _ _ X), andb_true_r. unfold Checker.eats. now rewrite (hd_nonnull _ _ (kd_head _ _ _ _ X eq_refl)).
    + reflexivity.
    + now rewrite (kd_small _ _ _ _ X).
  - split; [|exact Y]. split; [apply (kd_good _ _ _ _ X)|]. split; [apply (kd_acc _ _ _ _ X)|apply (kd_small _ _ _ _ X)].
Qed.
Lemma opens_top_clean b : opens_top b = true -> forall pv, clean (optimize (tree_br_d b) []) pv = true.
Proof.
  destruct b as [[] s]; intros H pv; [reflexivity|]. cbn [opens_top orb] in H. unfold tree_br_d. destruct s as [|a [|k g] s]; [discriminate| |destruct a; discriminate]. rewrite tree_unit_d. destruct a as [x|i r|r]; [|discriminate|].
  - exact (proj2 (proj2 (proj2 opens_clean)) (AEl x) H pv).
  - exact (proj2 (proj2 (proj2 opens_clean)) (ANon r) H pv).
Qed.
Lemma tree_bs_d_nil r : tree_bs_d r <> [].
Proof. destruct r; discriminate. Qed.
Lemma top_all_d G r : wf r = true -> look_d r = true -> lowc G (caps r) -> (forall n, In n (tree_bs_d r) -> topnode_d G (optimize n []) /\ optok n [] FTot = true) /\ forall pv, butlast_clean (map (fun n => optimize n []) (tree_bs_d r)) pv = true.
Proof.
  induction r as [b|b r IH]; intros W H Lo; cbn [wf look_d caps] in *.
  - split; [|reflexivity]. intros n [<-|[]]. now apply top_branch_d.
  - apply andb_true_iff in W as [W1 W2]. rewrite !andb_true_iff in H. destruct H as [[H1 H2] H3]. apply Forall_app in Lo as [L1 L2]. destruct (IH W2 H3 L2) as [A B]. change (tree_bs_d (ROr b r)) with (tree_br_d b :: tree_bs_d r). split.
    + intros n [<-|Hn]; [now apply top_branch_d|now apply A].
    + intro pv. cbn [map butlast_clean]. specialize (B pv). destruct (map (fun n => optimize n []) (tree_bs_d r)); [reflexivity|]. now rewrite (opens_top_clean b H1 pv).
Qed.
Lemma top_tree_d G r : wf r = true -> look_d r = true -> lowc G (caps r) -> topnode_d G (optimize (tree_d r) []) /\ optok (tree_d r) [] FTot = true.
Proof.
  intros W H Lo. destruct (top_all_d G r W H Lo) as [A B]. unfold tree_d. destruct (tree_bs_d r) as [|n [|m l]] eqn:E; [now apply tree_bs_d_nil in E| |].
  - destruct (A n (or_introl eq_refl)) as [A1 A2]. split; [exact A1|exact A2].
  - change (optimize (SimpleV (n :: m :: l)) []) with (SimpleV (map (fun n => optimize n []) (n :: m :: l))). set (L := map (fun n => optimize n []) (n :: m :: l)) in *.
    assert (A' : forall x, In x L -> topnode_d G x) by (intros x Hx; apply in_map_iff in Hx as (y & <- & Hy); now apply A). split.
    + split; [|split].
      * intro pv. cbn [good]. rewrite B. assert (X : forallb (fun c => good G true c pv) L = true) by (apply forallb_forall; intros x Hx; now apply A'). rewrite X. reflexivity.
      * apply (A' (optimize n [])). now left.
      * cbn [opt_small]. apply forallb_forall. intros x Hx. now apply A'.
    + change (forallb (fun c => optok c [] FTot) (n :: m :: l) = true). apply forallb_forall. intros x Hx. now apply A.
Qed.

(** ** The numbers of the slots do not matter *)
Lemma renumber_any :
  (forall r i g c, any (renumber_in i r g) c = any r c) /\ (forall b g c, any_br (renumber_br b g) c = any_br b c) /\
  (forall s g c, any_sq (renumber_sq s g) c = any_sq s c) /\ (forall a g c, any_atom (renumber_atom a g) c = any_atom a c).
Proof.
  apply rx_all_ind; intros; cbn [renumber_in renumber_br renumber_sq renumber_atom any any_br any_sq any_atom]; cbv zeta; auto.
  - cbn [any]. now rewrite H, H0.
  - cbn [any_sq]. now rewrite H, H0.
Qed.
Lemma renumber_later :
  (forall r i g c, later (renumber_in i r g) c = later r c) /\ (forall b g c, later_br (renumber_br b g) c = later_br b c) /\
  (forall s g c, later_sq (renumber_sq s g) c = later_sq s c) /\ (forall a g c, later_atom (renumber_atom a g) c = later_atom a c).
Proof.
  apply rx_all_ind; intros; cbn [renumber_in renumber_br renumber_sq renumber_atom later later_br later_sq later_atom]; cbv zeta; auto.
  - cbn [later]. now rewrite H, H0.
  - cbn [later_sq]. rewrite H, (proj1 (proj2 (proj2 renumber_any))). destruct q; [reflexivity|]. now rewrite (proj2 (proj2 (proj2 renumber_any))).
Qed.
Lemma renumber_shown :
  (forall r i g, shown (renumber_in i r g) = shown r) /\ (forall b g, shown_br (renumber_br b g) = shown_br b) /\
  (forall s g, shown_sq (renumber_sq s g) = shown_sq s) /\ (forall a g, shown_atom (renumber_atom a g) = shown_atom a).
Proof. apply rx_all_ind; intros; cbn [renumber_in renumber_br renumber_sq renumber_atom shown shown_br shown_sq shown_atom]; cbv zeta; auto. Qed.
Lemma renumber_held r i g f f' : (forall c, f c = f' c) -> held (renumber_in i r g) f = held r f'.
Proof.
  intro E. destruct r as [[b s]|b r]; [|reflexivity]. cbn [renumber_in renumber_br held]. destruct b; [reflexivity|]. destruct s as [|a q s]; [reflexivity|]. cbn [renumber_sq]. cbv zeta. destruct a as [x|j r|r]; [|reflexivity|reflexivity]. cbn [renumber_atom]. destruct q as [|k []]; try reflexivity. destruct s; [|reflexivity]. cbn [renumber_sq held]. f_equal. now apply apart_ext.
Qed.
Lemma renumber_last a k g : last_loop (renumber_atom a g) k = last_loop a k.
Proof.
  unfold last_loop. rewrite (proj2 (proj2 (proj2 renumber_shown))). f_equal. destruct a as [x|i r|r]; try reflexivity. cbn [renumber_atom]. rewrite (proj1 renumber_opens). assert (B : bare (caps (renumber_in true r g)) = bare (caps r)) by (pose proof (proj1 caps_length r true g) as X; destruct (caps (renumber_in true r g)), (caps r); [reflexivity|discriminate X|discriminate X|reflexivity]). rewrite B. f_equal. apply apart_ext; intro c; [apply (proj1 renumber_first)|apply (proj1 renumber_later)].
Qed.
Lemma renumber_ll_d s : forall g, ll_d (renumber_sq s g) = ll_d s.
Proof.
  destruct renumber_first as (F1 & F2 & F3 & F4). destruct renumber_ll as (_ & _ & _ & R4).
  induction s as [|a q s IH]; intro g; [reflexivity|]. cbn [renumber_sq]. cbv zeta. cbn [ll_d]. set (g' := after_atom (renumber_atom a g) g). rewrite IH. f_equal.
  assert (EA : forall c, after (renumber_sq s g') is_nl c = after s is_nl c) by (intro c; unfold after; now rewrite F3, renumber_empties).
  destruct q as [|k gr].
  - destruct a as [x|i r|r]; [reflexivity| |exact (R4 (ANon r) g _ _ _ _ EA (fun c => eq_refl))]. cbn [renumber_atom]. rewrite renumber_empties. rewrite (renumber_held r _ _ _ _ EA). 
    pose proof (R4 (ACap i r) g _ _ (fun _ => true) (fun _ => true) EA (fun c => eq_refl)) as X1. pose proof (R4 (ACap i r) g _ _ (first_sq (renumber_sq s g')) (first_sq s) EA (F3 s g')) as X2. cbn [renumber_atom] in X1, X2. now rewrite X1, X2.
  - assert (EU : forall c, or_set (after (renumber_sq s g') is_nl) (first_atom (renumber_atom a g)) c = or_set (after s is_nl) (first_atom a) c) by (intro c; unfold or_set; now rewrite EA, F4).
    rewrite (R4 a g _ _ none none EU (fun c => eq_refl)), renumber_empties, renumber_last. now rewrite (apart_ext (first_atom (renumber_atom a g)) (after (renumber_sq s g') is_nl) (first_atom a) (after s is_nl) (F4 a g) EA).
Qed.
Lemma renumber_opens_top b g : opens_top (renumber_br b g) = opens_top b.
Proof.
  destruct b as [a s]. cbn [renumber_br opens_top]. f_equal. destruct s as [|x q s]; [reflexivity|]. cbn [renumber_sq]. cbv zeta. destruct x as [x|i r|r]; try reflexivity. destruct q; [|reflexivity]. cbn [renumber_atom opens_atom]. apply (proj1 renumber_opens).
Qed.
Lemma renumber_look_d r : forall i g, look_d (renumber_in i r g) = look_d r /\ opens_all (renumber_in i r g) = opens_all r.
Proof.
  assert (T : forall b g, top_d (renumber_br b g) = top_d b) by (intros [a s] g; cbn [renumber_br top_d]; now rewrite renumber_empties, renumber_ll_d).
  induction r as [b|b r IH]; intros i g; cbn [renumber_in look_d opens_all]; cbv zeta; [now rewrite T, renumber_opens_top|]. cbn [look_d opens_all]. rewrite T, renumber_opens_top. split; f_equal; apply IH.
Qed.

(** * The matcher and the optimiser handle them as specified *)
Lemma gidx_tree_d r : flat_map gidx (tree_bs_d r) = caps r.
Proof.
  assert (Q : forall s, gidx (tree_sq_d s) = caps_sq s).
  { induction s as [|a q s IH]; [reflexivity|]. cbn [tree_sq_d caps_sq]. rewrite gidx_followed by apply childless_quant, childless_atom. now rewrite gidx_quant, (proj2 (proj2 (proj2 gidx_tree))), IH. }
  assert (B : forall b, gidx (tree_br_d b) = caps_br b) by (intros [[] s]; cbn [tree_br_d caps_br followed gidx flat_map app]; rewrite ?app_nil_r; apply Q).
  induction r as [b|b r IH]; cbn [tree_bs_d flat_map caps]; rewrite B; [apply app_nil_r|now rewrite IH].
Qed.
Lemma caps_low_d r : wf r = true -> lowc (ngroups (ctree_d r)) (caps (renumber r)).
Proof.
  intro W. pose proof (compile_gidx _ _ (compile_d r W)) as B. unfold lowc. apply Forall_forall. intros i Hi. apply B. unfold ctree_d. rewrite optimize_gidx. unfold tree_d. cbn [gidx]. now rewrite gidx_tree_d.
Qed.
Theorem look_d_exact r : wf r = true -> look_d r = true -> exact_d r = true.
Proof.
  intros W H. assert (W' : wf (renumber r) = true) by (unfold renumber; now rewrite (proj1 renumber_wf)). assert (H' : look_d (renumber r) = true) by (unfold renumber; now rewrite (proj1 (renumber_look_d r false 0))).
  destruct (top_tree_d _ _ W' H' (caps_low_d r W)) as [(A & B & C) D]. unfold exact_d. cbv zeta. rewrite W, D. cbn [andb]. fold (ctree_d r) in A, B, C. now rewrite A, B, C.
Qed.
Theorem look_d_supported r : wf r = true -> look_d r = true -> opens_all r = true -> supported_d r = true.
Proof.
  intros W H O. pose proof (look_d_exact r W H) as E. unfold exact_d in E. cbv zeta in E. rewrite !andb_true_iff in E. destruct E as [_ [[[E1 E2] E3] E4]]. unfold supported_d. cbv zeta. rewrite W, E1, E2, E3. cbn [andb].
  assert (C : clean (ctree_d r) PFst = true).
  { assert (O' : opens_all (renumber r) = true) by (unfold renumber; now rewrite (proj2 (renumber_look_d r false 0))).
    assert (X : forall x, In x (tree_bs_d (renumber r)) -> clean (optimize x []) PFst = true).
    { clear - O'. induction (renumber r) as [b|b r' IH]; cbn [opens_all tree_bs_d] in *; [intros x [<-|[]]; now apply opens_top_clean|]. apply andb_true_iff in O' as [O1 O2]. intros x [<-|Hx]; [now apply opens_top_clean|now apply IH]. }
    unfold ctree_d, tree_d. destruct (tree_bs_d (renumber r)) as [|n [|m l]]; [reflexivity|apply (X n); now left|].
    change (forallb (fun c => clean c PFst) (map (fun c => optimize c []) (n :: m :: l)) = true). apply forallb_forall. intros y Hy. apply in_map_iff in Hy as (z & <- & Hz). now apply X. }
  now rewrite C.
Qed.

(** * Captures *)
Lemma apart_less P Q Q' : (forall c, Q' c = true -> Q c = true) -> apart P Q = true -> apart P Q' = true.
Proof. intros S H. unfold apart in *. rewrite forallb_forall in *. intros c Hc. specialize (H c Hc). destruct (P c), (Q' c) eqn:E; auto. now rewrite (S _ E) in H. Qed.
Lemma ll_less :
  (forall r fol I I', (forall c, I' c = true -> I c = true) -> ll r fol I = true -> ll r fol I' = true) /\
  (forall b fol I I', (forall c, I' c = true -> I c = true) -> ll_br b fol I = true -> ll_br b fol I' = true) /\
  (forall s fol I I', (forall c, I' c = true -> I c = true) -> ll_sq s fol I = true -> ll_sq s fol I' = true) /\
  (forall a fol I I', (forall c, I' c = true -> I c = true) -> ll_atom a fol I = true -> ll_atom a fol I' = true).
Proof.
  apply rx_all_ind.
  - intros b Hb fol I I' S H. cbn [ll] in *. now apply (Hb fol I).
  - intros b Hb r Hr fol I I' S H. cbn [ll] in *. exact H.
  - intros a s Hs fol I I' S H. cbn [ll_br] in *. apply andb_true_iff in H as [H1 H2]. rewrite H1. now apply (Hs fol I).
  - reflexivity.
  - intros a Ha q s Hs fol I I' S H. cbn [ll_sq] in *. cbv zeta in *. apply andb_true_iff in H as [H1 H2]. rewrite H1. cbn [andb].
    assert (S' : forall c, or_set (first_sq s) I' c = true -> or_set (first_sq s) I c = true) by (intros c; unfold or_set; rewrite !orb_true_iff; intros [X|X]; auto).
    destruct q as [|k g].
    + refine (Ha _ _ _ _ H2). destruct a; auto.
    + apply andb_true_iff in H2 as [H2 H3]. rewrite H2. cbn [andb]. destruct (once_more k g); [|reflexivity]. cbn [negb orb] in *. apply andb_true_iff in H3 as [H3 H4]. rewrite H3. exact (apart_less _ _ _ S' H4).
  - auto.
  - intros i r H fol I I' S X. cbn [ll_atom] in *. apply andb_true_iff in X as [X1 X2]. rewrite X1. now apply (H fol I).
  - intros r H fol I I' S X. cbn [ll_atom] in *. apply andb_true_iff in X as [X1 X2]. rewrite X1. now apply (H fol I).
Qed.
Lemma ll_d_sq s : wf_sq s = true -> ll_d s = true -> ll_sq s is_nl none = true.
Proof.
  induction s as [|a q s IH]; intros W H; [reflexivity|]. cbn [wf_sq ll_d ll_sq] in *. cbv zeta in *. rewrite !andb_true_iff in W. destruct W as [[W1 W2] W3]. apply andb_true_iff in H as [H1 H2]. rewrite (IH W3 H1). cbn [andb].
  assert (S : forall c, or_set (first_sq s) none c = true -> first_sq s c = true) by (intro c; unfold or_set, none; now rewrite orb_false_r).
  assert (A : forall c, first_sq s c = true -> after s is_nl c = true) by (intros c Hc; unfold after; now rewrite Hc).
  destruct q as [|k g].
  - destruct a as [x|i r|r]; [exact H2| |exact H2]. destruct (empties s).
    + apply orb_true_iff in H2 as [H2|H2]; [|exact (proj2 (proj2 (proj2 ll_less)) _ _ _ _ (fun c _ => eq_refl) H2)].
      destruct (held_form _ _ H2) as (x & k & -> & Fe & St & Sn & Of & Sk & Nx & My & Ap). cbn [wf_atom wf wf_br wf_sq] in W1. rewrite !andb_true_iff in W1. destruct W1 as [[W1 W4] _].
      pose proof (kind_small k Gr W4) as Ks. cbn [ll_atom ll ll_br ll_sq weight weight_br weight_sq weight_atom least negb andb empties first_atom]. cbv zeta. rewrite Sk, Of, Fe. cbn [andb negb].
      assert (Z : (1 * kind_min k + 0 <? 4294967296)%N = true) by (rewrite N.mul_1_l, N.add_0_r; now apply N.ltb_lt). rewrite Z. cbn [andb]. apply orb_true_iff. right. apply andb_true_iff. split.
      * apply (apart_less _ (after s is_nl)); [|exact Ap]. intros c Hc. exact Hc.
      * apply (apart_less _ (after s is_nl)); [|exact Ap]. intros c Hc. apply A, S. exact Hc.
    + exact (proj2 (proj2 (proj2 ll_less)) _ _ _ _ S H2).
  - rewrite !andb_true_iff in H2. destruct H2 as [[[H2 H3] _] H4]. rewrite H2, H3. cbn [andb]. destruct (once_more k g); [|reflexivity]. cbn [negb orb] in *. apply andb_true_iff in H4 as [H4 _]. rewrite H4. apply (apart_less _ (after s is_nl)); [|exact H4]. intros c Hc. apply A, S, Hc.
Qed.
Lemma empties_caps s : forall g, empties s = true -> caught s g = true -> caps_sq s = [].
Proof.
  induction s as [|a q s IH]; intros g E C; [reflexivity|]. cbn [empties caught caps_sq] in *. apply andb_true_iff in E as [E1 E2].
  destruct a as [x|k r|r]; [|destruct q; discriminate|].
  - destruct x; try (apply andb_true_iff in C as [_ C]); exact (IH g E2 C).
  - rewrite !andb_true_iff in C. destruct C as [[C1 C2] C3]. cbn [caps_atom]. now rewrite (bare_nil _ C1), (IH g E2 C3).
Qed.
Lemma gidx_sq_d s : gidx (tree_sq_d s) = caps_sq s.
Proof. induction s as [|a q s IH]; [reflexivity|]. cbn [tree_sq_d caps_sq]. rewrite gidx_followed by apply childless_quant, childless_atom. now rewrite gidx_quant, (proj2 (proj2 (proj2 gidx_tree))), IH. Qed.
Lemma gex_seq_d G s : forall g, wf_sq s = true -> ll_d s = true -> lowc G (caps_sq s) -> caught s g = true -> gex (optimize (tree_sq_d s) []) = true.
Proof.
  induction s as [|a q s IH]; intros g W H Lo C; [reflexivity|].
  pose proof (ll_d_shape _ W H) as Sh. cbn [wf_sq ll_d caps_sq shape_sq caught] in *. rewrite !andb_true_iff in W. rewrite !andb_true_iff in Sh. destruct W as [[W1 W2] W3]. destruct Sh as [[[S1 S2] S3] S4]. cbv zeta in H. apply andb_true_iff in H as [H1 H2]. apply Forall_app in Lo as [L1 L2].
  assert (C' : exists g', caught s g' = true).
  { destruct a as [x|k r|r]; [exists g; destruct x; try exact C; now apply andb_true_iff in C|exists (S g)|exists g]; [destruct q; [|discriminate C]|]; now apply andb_true_iff in C. }
  destruct C' as (g' & C'). pose proof (IH g' W3 H1 L2 C') as K.
  assert (Ng : empties s = true -> nog (optimize (tree_sq_d s) []) = true) by (intro E; unfold nog; now rewrite optimize_gidx, gidx_sq_d, (empties_caps s g' E C')).
  rewrite tree_unit_d. set (n := tree_sq_d s) in *. set (c := optimize n []) in *.
  assert (N : forall inj, nog (optimize (core a) inj) = true).
  { intro j. apply nog_core. destruct a as [x|k r|r]; [reflexivity| |]; [destruct q; [|discriminate C]|]; rewrite !andb_true_iff in C; destruct C as [[C1 C2] C3]; now apply bare_nil. }
  destruct q as [|k gr].
  - cbn [unitn] in *. assert (SIMPLE : forall m, nog m = true -> gex (Simple m [c]) = true).
    { intros m Hm. change (gex (Simple m [c])) with (nog (Simple m [c]) || (gex m && (gex c && true))). now rewrite K, (gex_nog m Hm), orb_true_r. }
    destruct a as [x|i r|r].
    + change (optimize (Simple (core (AEl x)) [n]) []) with (Simple (optimize (core (AEl x)) []) [c]). now apply SIMPLE.
    + change (optimize (Group (core (ACap i r)) i [n]) []) with (Group (optimize (core (ACap i r)) [n]) i [c]).
      assert (LK : forall fol I, ll_atom (ACap i r) fol I = true -> injok [n] I -> gex (Group (optimize (core (ACap i r)) [n]) i [c]) = true).
      { intros fol I X Hi. assert (LK : looky (optimize (core (ACap i r)) [n]) = false).
        { destruct (proj2 (proj2 (proj2 (nodes G))) (ACap i r) _ _ W1 X L1 _ Hi) as [_ _ _ _ _ _ KT _]. destruct (optimize (core (ACap i r)) [n]); try reflexivity; try (now destruct KT). }
        rewrite (looky_gex _ i [c] LK). cbn [forallb]. rewrite K, andb_true_r. now apply gex_nog. }
      destruct (empties s) eqn:E.
      * apply orb_true_iff in H2 as [H2|H2]; [|apply (LK _ _ H2); split; [repeat constructor; now apply asc_d|reflexivity]].
        specialize (Ng eq_refl). pose proof (N [n]) as Nm. destruct (optimize (core (ACap i r)) [n]) as [t|cs|x cs|x mn mx cs|x mn mx cs|x mn mx cs|x mk cs|x k cs|x] eqn:Eo; try (rewrite looky_gex by reflexivity; cbn [forallb]; rewrite K, andb_true_r; now apply gex_nog).
        1, 2: destruct cs; [|rewrite looky_gex by reflexivity; cbn [forallb]; rewrite K, andb_true_r; now apply gex_nog]; assert (Nx : nog x = true) by (unfold nog in *; cbn [gidx flat_map] in Nm; rewrite app_nil_r in Nm; exact Nm); apply orb_true_iff; right; change (nog x && (gex c && true) && (gcs c && true) = true); unfold gcs; now rewrite K, (gcl_nog c Ng), Nx.
      * apply (LK _ _ H2). split; [repeat constructor; now apply asc_d|]. intros m y [<-|[]] Hy. now apply (adms_d s S4 E y).
    + change (optimize (Simple (core (ANon r)) [n]) []) with (Simple (optimize (core (ANon r)) []) [c]). now apply SIMPLE.
  - rewrite !andb_true_iff in H2. destruct H2 as [[[H2 H3] H5] H4]. set (m := optimize (tree_atom a) []).
    assert (M : nog m = true). { unfold m. rewrite opt_atom. destruct a as [x|i r|r]; cbn [wrap]; [apply N|discriminate C|apply N]. }
    assert (PO : forall mn mx, gex (Possessive m mn mx [c]) = true).
    { intros mn mx. change (gex (Possessive m mn mx [c])) with (nog (Possessive m mn mx [c]) || (gex m && gcl m && (gex c && true))). now rewrite K, (gex_nog m M), (gcl_nog m M), orb_true_r. }
    assert (GR : empties s = true -> forall mn mx, gex (Greedy m mn mx [c]) = true).
    { intros E mn mx. change (gex (Greedy m mn mx [c])) with (nog (Greedy m mn mx [c]) || (nog m && (gex c && true) && (gcs c && true))). unfold gcs. now rewrite K, M, (gcl_nog c (Ng E)), orb_true_r. }
    assert (PG : once_more k gr = true -> forall mn mx, gex (optimize (Greedy (tree_atom a) mn mx [n]) []) = true).
    { intros O mn mx. rewrite O in H4. cbn [negb orb] in H4. apply andb_true_iff in H4 as [H4 _]. destruct (empties s) eqn:E.
      - cbn [optimize]. destruct (adm_empty _); cbn [map]; fold c m; [apply PO|now apply GR].
      - assert (Ap : apart (first_atom a) (or_set (first_sq s) none) = true). { rewrite <- H4. apply apart_ext; [reflexivity|]. intro y. unfold or_set, after. rewrite E. reflexivity. }
        cbn [optimize]. cbn [app]. rewrite (inter_loop a [n] _ W1 S1 (inj_d s W3 S4 E) Ap). apply PO. }
    destruct k as [| | |t|t|t t'].
    4:{ cbn [unitn]. change (optimize (Repeated (tree_atom a) (Z.to_N (num_val t)) [n]) []) with (Repeated m (Z.to_N (num_val t)) [c]).
        change (gex (Repeated m (Z.to_N (num_val t)) [c])) with (nog (Repeated m (Z.to_N (num_val t)) [c]) || (gex m && (gex c && true))). now rewrite K, (gex_nog m M), orb_true_r. }
    all: destruct gr; try (cbn [often] in H2; rewrite ?andb_false_r in H2; discriminate H2); unfold unitn; [apply (PG eq_refl)|apply PO].
Qed.
Theorem look_d_captures r : wf r = true -> look_d r = true -> catches r = true ->
  nats_eqb (caps (renumber r)) (caps r) = true /\ gex (ctree_d r) = true /\ covers r = true.
Proof.
  intros W H C. split; [|split; [|exact (proj1 (catches_covers r C))]].
  - rewrite (catches_renumber r C). clear. induction (caps r) as [|k l IH]; [reflexivity|]. cbn [nats_eqb]. now rewrite Nat.eqb_refl.
  - unfold ctree_d. pose proof (caps_low_d r W) as Lo. rewrite (catches_renumber r C) in *. destruct r as [[a s]|]; [|discriminate C]. cbn [catches wf wf_br look_d top_d caps caps_br] in *.
    apply andb_true_iff in H as [E H]. apply negb_true_iff in E. assert (W' : wf_sq s = true) by (destruct s; [reflexivity|exact W]).
    pose proof (gex_seq_d _ s 0 W' H Lo C) as X. unfold tree_d. cbn [tree_bs_d tree_br_d]. destruct a; [|exact X].
    change (nog (Simple (Term TStart) [optimize (tree_sq_d s) []]) || (true && (gex (optimize (tree_sq_d s) []) && true)) = true). rewrite X. apply orb_true_r.
Qed.
