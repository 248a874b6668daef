(** Lemmas for C55 (SpecAlts.v). *)
From Coq Require Import String ZArith NArith List Bool Lia ZifyBool ZifyNat ZifyN.
From Verif Require Import Base Text Ast Builder BuilderProofs Engine Api Spec Tree ParseProofs SpecProofs Den Checker Supported Main Families Mono SpecFields SpecChoice SpecAlts Fields FieldsPre ChoiceSem Choice.
Import ListNotations.

Fixpoint arx (cs : list choice) (r : list (list choice)) : rx :=
  match r with
  | [] => ROne (Br false (csq cs 0))
  | c' :: r' => ROr (Br false (csq cs 0)) (arx c' r')
  end.
Definition nocap (cs : list choice) : bool := forallb (fun c => negb (f_cap (ch_f c))) cs.
Lemma item_parts cs : item_ok cs = true -> choice_ok false cs = true /\ nocap cs = true /\ opening cs = true.
Proof. unfold item_ok. rewrite !andb_true_iff. tauto. Qed.
Lemma show_arx r : forall cs, forallb item_ok (cs :: r) = true -> show (arx cs r) = show_alts (cs :: r).
Proof.
  induction r as [|c r IH]; intros cs H; cbn [forallb] in H; apply andb_true_iff in H as [H1 H2]; destruct (item_parts cs H1) as (C & _ & _); destruct (choice_parts false cs C) as (F & _).
  - cbn [arx show show_br show_alts app]. now rewrite show_csq.
  - cbn [arx show show_br app]. rewrite (IH c H2), show_csq by exact F. reflexivity.
Qed.
Lemma wf_arx r : forall cs, forallb item_ok (cs :: r) = true -> wf (arx cs r) = true.
Proof.
  induction r as [|c r IH]; intros cs H; cbn [forallb] in H; apply andb_true_iff in H as [H1 H2]; destruct (item_parts cs H1) as (C & _ & _); destruct (choice_parts false cs C) as (F & _ & _ & _ & N);
    pose proof (wf_crx false cs N F) as W; unfold crx in W; cbn [wf] in W.
  - exact W.
  - cbn [arx wf]. rewrite W. exact (IH c H2).
Qed.
Lemma renumber_nocap cs : forall g g', nocap cs = true -> renumber_sq (csq cs g) g' = csq cs g.
Proof.
  induction cs as [|c cs IH]; intros g g' H; [reflexivity|]. cbn [nocap forallb] in H. apply andb_true_iff in H as [H1 H2]. apply negb_true_iff in H1. cbn [csq]. rewrite H1.
  cbn [renumber_sq renumber_atom]. now rewrite IH.
Qed.
Lemma renumber_arx r : forall cs g, forallb item_ok (cs :: r) = true -> renumber_in false (arx cs r) g = arx cs r.
Proof.
  induction r as [|c r IH]; intros cs g H; cbn [forallb] in H; apply andb_true_iff in H as [H1 H2]; destruct (item_parts cs H1) as (_ & Nc & _); cbn [arx renumber_in renumber_br];
    rewrite renumber_nocap by exact Nc; [reflexivity|]. now rewrite (IH c).
Qed.
Definition node0 (cs : list choice) : node := match cchain0 cs 0 false with Some n => n | None => SimpleV [] end.
Definition node1 (cs : list choice) : node := match cchain cs 0 false with Some n => n | None => SimpleV [] end.
Lemma tree_arx r : forall cs, tree_bs (arx cs r) = map node0 (cs :: r).
Proof. induction r as [|c r IH]; intro cs; cbn [arx tree_bs tree_br map]; rewrite cchain0_n; [reflexivity|]. now rewrite (IH c). Qed.
Lemma item_opt cs : item_ok cs = true -> optimize (node0 cs) [] = node1 cs.
Proof.
  intro H. destruct (item_parts cs H) as (C & _). destruct (choice_parts false cs C) as (F & _ & _ & _ & N). destruct (cchain_some cs false F N) as (n0 & n & E0 & E).
  unfold node0, node1. rewrite E0, E. exact (copt cs false n0 n F E0 E).
Qed.
Lemma ctree_arx cs r : forallb item_ok (cs :: r) = true -> ctree (arx cs r) = match r with [] => node1 cs | _ => SimpleV (map node1 (cs :: r)) end.
Proof.
  intro H. unfold ctree, renumber. rewrite (renumber_arx r cs 0 H). unfold tree. rewrite tree_arx.
  assert (M : map (fun n => optimize n []) (map node0 (cs :: r)) = map node1 (cs :: r)).
  { rewrite map_map. apply map_ext_in. intros x Hx. apply item_opt. rewrite forallb_forall in H. now apply H. }
  destruct r as [|c r].
  - change (optimize (node0 cs) [] = node1 cs). cbn [map] in M. congruence.
  - change (SimpleV (map (fun n => optimize n []) (map node0 (cs :: c :: r))) = SimpleV (map node1 (cs :: c :: r))). now rewrite M.
Qed.
Record itemok (n : node) : Prop := {
  ik_good : forall G pv, good G false n pv = true;
  ik_small : opt_small n = true;
  ik_acc : accins n = true;
  ik_clean : forall pv, clean n pv = true }.
Lemma nocap_ccap cs : nocap cs = true -> ccap cs = 0.
Proof.
  induction cs as [|c cs IH]; intro H; [reflexivity|]. cbn [nocap forallb] in H. apply andb_true_iff in H as [H1 H2]. apply negb_true_iff in H1. rewrite ccap_cons, H1. now apply IH.
Qed.
Lemma opening_begins cs : opening cs = true -> begins cs = true.
Proof. destruct cs as [|c r]; [discriminate|]. cbn [opening begins]. rewrite andb_true_iff. intros [_ H]. unfold required. destruct (f_am (ch_f c)); try discriminate H; reflexivity. Qed.
Lemma item_node cs : item_ok cs = true -> itemok (node1 cs).
Proof.
  intro H. destruct (item_parts cs H) as (C & Nc & O). destruct (choice_parts false cs C) as (F & Gp & _ & _ & N). destruct (cchain_some cs false F N) as (n0 & n & E0 & E).
  unfold node1. rewrite E. constructor.
  - intros G pv. apply (ck_good _ _ _ (cchain_ok G false cs 0 n F Gp N ltac:(rewrite (nocap_ccap cs Nc); lia) E)).
  - apply (ck_small _ _ _ (cchain_ok 0 false cs 0 n F Gp N ltac:(rewrite (nocap_ccap cs Nc); lia) E)).
  - apply (cchain_acc cs n F Gp (opening_begins cs O) E).
  - intro pv. destruct cs as [|c r]; [congruence|]. cbn [cchain] in E. injection E as <-. cbn [cokl forallb] in F. apply andb_true_iff in F as [F1 F2]. cbn [nocap forallb] in Nc. apply andb_true_iff in Nc as [Nc _]. apply negb_true_iff in Nc.
    cbn [opening] in O. apply andb_true_iff in O as [St O]. unfold cunit, funit, inner, runnode. rewrite Nc.
    destruct (f_am (ch_f c)) eqn:Am; try discriminate O.
    + destruct (ch_lazy c) eqn:Lz; [pose proof (cok_lazy c F1 Lz) as R; unfold is_run in R; rewrite Am in R; discriminate R|]. cbn [andb].
      pose proof (elem_clean _ pv (steady_tidy _ St)) as X. destruct (kids _); exact X.
    + destruct r; [|discriminate O]. destruct Gp as [G1 _]. unfold cgap, is_run in G1. rewrite Am in G1. specialize (G1 eq_refl). unfold last_run in G1. apply negb_true_iff in G1. rewrite G1.
      cbn [andb cchain0]. assert (cp c None = true) as ->. { unfold cp. rewrite G1. unfold pempty. cbn [kids map]. change (extract_adm []) with (@nil chr). now rewrite inter_nil. }
      cbn [cchain kids clean]. rewrite (elem_clean _ PAny (steady_tidy _ St)). reflexivity.
Qed.
Lemma item_optok cs : item_ok cs = true -> optok (node0 cs) [] FTot = true.
Proof.
  intro H. destruct (item_parts cs H) as (C & Nc & O). destruct (choice_parts false cs C) as (F & Gp & _ & _ & N). destruct (cchain_some cs false F N) as (n0 & n & E0 & E).
  unfold node0. rewrite E0. exact (cchain_optok cs 0 false n0 F Gp N E0).
Qed.
Theorem arx_supported cs r : forallb item_ok (cs :: r) = true -> supported (arx cs r) = true /\ nopos (arx cs r) = true.
Proof.
  intro H. split.
  - unfold supported. rewrite (wf_arx r cs H), (ctree_arx cs r H). unfold renumber. rewrite (renumber_arx r cs 0 H). unfold tree. rewrite tree_arx. cbn [andb].
    assert (I : forall x, In x (cs :: r) -> itemok (node1 x)) by (intros x Hx; apply item_node; rewrite forallb_forall in H; now apply H).
    assert (OK : optok (SimpleV (map node0 (cs :: r))) [] FTot = true).
    { assert (A : forallb (fun c => optok c [] FTot) (map node0 (cs :: r)) = true) by (apply forallb_forall; intros n Hn; apply in_map_iff in Hn as (x & <- & Hx); apply item_optok; rewrite forallb_forall in H; now apply H).
      destruct r as [|c r]; cbn [map] in *; cbn [optok]; [cbn [forallb] in A; now rewrite andb_true_r in A|exact A]. }
    rewrite OK. destruct r as [|c r].
    + destruct (I cs (or_introl eq_refl)) as [Ig _ Ia Ic]. now rewrite Ig, Ia, Ic.
    + set (l := cs :: c :: r) in *. set (G := ngroups _).
      assert (A1 : forallb (fun x => good G false x PFst) (map node1 l) = true) by (apply forallb_forall; intros n Hn; apply in_map_iff in Hn as (x & <- & Hx); apply (ik_good _ (I x Hx))).
      assert (A2 : forallb (fun x => clean x PFst) (map node1 l) = true) by (apply forallb_forall; intros n Hn; apply in_map_iff in Hn as (x & <- & Hx); apply (ik_clean _ (I x Hx))).
      assert (A3 : butlast_clean (map node1 l) PFst = true).
      { clear -A2. induction (map node1 l) as [|a k IH]; [reflexivity|]. cbn [forallb] in A2. apply andb_true_iff in A2 as [B1 B2]. cbn [butlast_clean]. destruct k; [reflexivity|]. rewrite B1. now apply IH. }
      assert (A4 : accins (SimpleV (map node1 l)) = true) by (exact (ik_acc _ (I cs (or_introl eq_refl)))).
      cbn [good clean]. rewrite A1, A2, A3, A4. reflexivity.
  - clear H. revert cs. induction r as [|c r IH]; intro cs; pose proof (nopos_crx false cs) as X; unfold crx in X; cbn [nopos] in X; cbn [arx nopos]; rewrite X; [reflexivity|]. apply IH.
Qed.
