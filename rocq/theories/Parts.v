(** Patterns with repeated parts (SpecParts.v): their trees, and that the optimiser and the
    matcher handle them as specified. *)
From Coq Require Import ZArith NArith List Bool Lia ZifyBool ZifyNat ZifyN.
From Verif Require Import Base Text Ast Builder Engine Spec SpecProofs SpecEnd Tree Den Checker AstProofs EngineMain Runs Mono Supported Heads Families EndD SpecFields Fields FieldsPre SpecParts.
Import ListNotations.
Open Scope nat_scope.
Notation det := Checker.det.

(** * As patterns of Spec.v *)
Definition lp_quant (plus : bool) : quant := QQ (if plus then QPlus else QStar) Gr.
Fixpoint psq (ps : list part) (g : nat) : sq :=
  match ps with
  | [] => SNil
  | PF f :: r => if f_cap f then SCons (ACap g (ROne (Br false (one_sq f)))) Q1 (psq r (S g))
                 else SCons (AEl (f_el f)) (am_quant (f_am f)) (psq r g)
  | PL gs plus :: r => SCons (ANon (ROne (Br false (fsq gs 0)))) (lp_quant plus) (psq r g)
  end.
Definition prx (a : bool) (ps : list part) : rx := ROne (Br a (psq ps 0)).
Definition pcap (ps : list part) : nat := length (filter p_cap ps).

Lemma show_psq ps : forall g, show_sq (psq ps g) = show_parts ps.
Proof.
  induction ps as [|[f|gs plus] ps IH]; intro g; [reflexivity| |]; unfold show_parts; cbn [psq flat_map]; fold (show_parts ps); cbn [show_part].
  - unfold show_field. destruct (f_cap f).
    + cbn [show_sq show_atom show show_br one_sq show_quant]. rewrite IH, show_am. cbn [app]. now rewrite app_nil_r.
    + cbn [show_sq show_atom]. rewrite IH, show_am. now rewrite app_assoc.
  - cbn [show_sq show_atom show show_br]. rewrite IH, show_fsq. unfold lp_quant. destruct plus; cbn [show_quant show_kind show_greed app]; rewrite <- ?app_assoc; reflexivity.
Qed.

(** * The repeated part *)
Definition unwrap (o : option node) : node := match o with Some n => n | None => Term TStart end.
Definition b0 (gs : list field) : node := unwrap (chain0 gs 0 false).
Definition m0 (gs : list field) : node := Simple (SimpleV [b0 gs]) [].
Definition bm (gs : list field) : node := unwrap (chain gs 0 false).
Record loopok (h : field) (t : list field) : Prop := {
  lo_one : f_am h = One;
  lo_sep : sep_elem (f_el h) = true;
  lo_cap : existsb f_cap (h :: t) = false;
  lo_fok : forallb fok (h :: t) = true;
  lo_gaps : gaps (h :: t);
  lo_off : forall f, In f t -> apart (wide (f_el f)) (wide (f_el h)) = true }.
Lemma loop_parts gs : loop_ok gs = true -> exists h t, gs = h :: t /\ loopok h t.
Proof.
  destruct gs as [|h t]; [discriminate|]. intro H. exists h, t. split; [reflexivity|]. unfold loop_ok in H. rewrite !andb_true_iff in H. destruct H as [[[[A B] C] D] E].
  assert (X : existsb f_cap (h :: t) = false /\ forallb fok (h :: t) = true).
  { clear -C. induction (h :: t) as [|f l IH]; [split; reflexivity|]. cbn [forallb existsb] in *. rewrite !andb_true_iff in C. destruct C as [[[C1 C2] C3] C4]. destruct (IH C4) as [I1 I2].
    apply negb_true_iff in C1. split; [now rewrite C1, I1|]. rewrite I2, andb_true_r. unfold fok. now rewrite C2, C3. }
  destruct X as [X Y]. constructor; auto.
  - destruct (f_am h); (reflexivity || discriminate).
  - now apply spaced_gaps.
  - intros f Hf. rewrite forallb_forall in E. now apply E.
Qed.
Lemma b0_chain h t : chain0 (h :: t) 0 false = Some (b0 (h :: t)).
Proof. reflexivity. Qed.
Lemma bm_chain h t : chain (h :: t) 0 false = Some (bm (h :: t)).
Proof. reflexivity. Qed.
Lemma tree_loop h t : tree_atom (ANon (ROne (Br false (fsq (h :: t) 0)))) = m0 (h :: t).
Proof. cbn [tree_atom tree_bs tree_br]. rewrite chain0_n. reflexivity. Qed.
Lemma pre_wrap n : fst (pre (Simple (SimpleV [n]) [])) = fst (pre n).
Proof.
  destruct (uset n) as [P|] eqn:U.
  - assert (X : pre (Simple (SimpleV [n]) []) = ([P], true)) by (cbn [pre uset map usets]; rewrite U; reflexivity). rewrite X. destruct n; cbn [pre]; rewrite U; reflexivity.
  - cbn [pre uset map usets]. rewrite U. cbn [orsp map]. unfold seqp. destruct (snd (pre n)); cbn [fst]; [apply app_nil_r|reflexivity].
Qed.
Section Loop.
Variables (h : field) (t : list field).
Hypothesis K : loopok h t.
Notation gs := (h :: t).
Lemma lk_req : required h = true.
Proof. unfold required. now rewrite (lo_one _ _ K). Qed.
Lemma lk_fok : fok h = true.
Proof. pose proof (lo_fok _ _ K) as H. cbn [forallb] in H. now apply andb_true_iff in H. Qed.
Lemma lk_fe : field_elem (f_el h) = true.
Proof. pose proof lk_fok as H. unfold fok in H. now apply andb_true_iff in H. Qed.
Lemma lk_hcap : f_cap h = false.
Proof. pose proof (lo_cap _ _ K) as H. cbn [existsb] in H. now apply orb_false_iff in H. Qed.
Lemma m0_adm : nadm (m0 gs) = nadm (body (f_el h)).
Proof. unfold m0. cbn [nadm]. unfold b0. cbn [chain0 unwrap]. apply followed_adm; [apply lk_fe|apply lk_req]. Qed.
Lemma m0_opt : optimize (m0 gs) [] = bm gs.
Proof.
  pose proof (opt_chain gs 0 false (lo_fok _ _ K) (lo_gaps _ _ K)) as X. rewrite b0_chain, bm_chain in X. cbn [option_map] in X.
  unfold m0. change (optimize (b0 gs) [] = bm gs). congruence.
Qed.
Lemma m0_head : exists P l, fst (pre (m0 gs)) = P :: l /\ forall c, P c = elem_set (f_el h) c.
Proof. unfold m0. rewrite pre_wrap. unfold b0. cbn [chain0 unwrap]. apply head0; [apply lk_fok|apply lk_req]. Qed.
Lemma bm_form : bm gs = inner true h (kids (chain t 0 false)).
Proof. unfold bm. cbn [chain unwrap]. unfold funit, nextg. rewrite lk_hcap. unfold inner. now rewrite (lo_one _ _ K). Qed.
Lemma bm_head : exists P l, fst (pre (bm gs)) = P :: l /\ forall c, P c = elem_set (f_el h) c.
Proof.
  rewrite bm_form. unfold inner. rewrite (lo_one _ _ K). destruct (fok_eok h lk_fok) as [E _]. destruct (pre_okunit _ _ (eok_unit _ E)) as (Q & PQ & X). exists Q.
  destruct (kids (chain t 0 false)) as [|c cs]; [exists []; now rewrite PQ|].
  change (pre (Simple (unode (f_el h)) (c :: cs))) with (seqp (pre (unode (f_el h))) (orsp (map pre (c :: cs)))). destruct (seqp_head (pre (unode (f_el h))) (orsp (map pre (c :: cs))) Q []) as (l & Hl); [now rewrite PQ|]. eauto.
Qed.
Lemma bm_nonnull : nonnull (bm gs) = true.
Proof. destruct bm_head as (P & l & H & _). unfold nonnull. now rewrite H. Qed.
Lemma m0_nonnull : nonnull (m0 gs) = true.
Proof. destruct m0_head as (P & l & H & _). unfold nonnull. now rewrite H. Qed.
Lemma sep_tidy : tidy (f_el h) = true.
Proof. pose proof (lo_sep _ _ K) as H. unfold sep_elem in H. destruct (f_el h); try discriminate H; try reflexivity. cbn [tidy]. rewrite !andb_true_iff in H. tauto. Qed.
Lemma bm_clean : clean (bm gs) PAny = true.
Proof. rewrite bm_form. unfold inner. rewrite (lo_one _ _ K). destruct (kids _); [|cbn [clean]]; apply elem_clean, sep_tidy. Qed.
Lemma chain_gidx0 fs g : existsb f_cap fs = false -> flat_map gidx (kids (chain fs g false)) = [].
Proof. intro H. apply length_zero_iff_nil. rewrite chain_gidx. unfold ncap. induction fs as [|f fs IH]; [reflexivity|]. cbn [existsb] in H. apply orb_false_iff in H as [A B]. cbn [filter]. rewrite A. now apply IH. Qed.
Lemma bm_nog : nog (bm gs) = true.
Proof. pose proof (chain_gidx0 gs 0 (lo_cap _ _ K)) as X. rewrite bm_chain in X. cbn [kids flat_map] in X. rewrite app_nil_r in X. unfold nog. now rewrite X. Qed.
Lemma chain_det fs : forall g, forallb fok fs = true -> existsb f_cap fs = false -> forallb det (kids (chain fs g false)) = true.
Proof.
  induction fs as [|f r IH]; intros g F C; [reflexivity|]. cbn [forallb] in F. apply andb_true_iff in F as [F1 F2]. cbn [existsb] in C. apply orb_false_iff in C as [C1 C2]. specialize (IH (nextg f g) F2 C2).
  cbn [chain kids forallb]. rewrite andb_true_r. unfold funit. rewrite C1. destruct (fok_eok f F1) as [E _]. pose proof (unit_det _ _ (eok_unit _ E)) as D.
  assert (X : posq f r false = true) by (unfold posq, ends; destruct r; reflexivity). rewrite X. clear X. unfold inner, runnode.
  assert (Y : forallb det (kids (chain r (nextg f g) false)) && excl_all (map (fun c => fst (pre c)) (kids (chain r (nextg f g) false))) = true).
  { rewrite IH. destruct (chain r (nextg f g) false); reflexivity. }
  destruct (f_am f).
  - destruct (kids (chain r (nextg f g) false)) as [|c cs]; [exact D|]. cbn [Checker.det uset is_some orb]. rewrite D. exact Y.
  - cbn [Checker.det uset is_some orb]. rewrite D. exact Y.
  - cbn [Checker.det uset is_some orb]. exact Y.
  - cbn [Checker.det uset is_some orb]. exact Y.
Qed.
Lemma bm_det : det (bm gs) = true.
Proof. pose proof (chain_det gs 0 (lo_fok _ _ K) (lo_cap _ _ K)) as X. rewrite bm_chain in X. cbn [kids forallb] in X. now rewrite andb_true_r in X. Qed.
Definition within (fs : list field) (P : cset) : Prop := forall c, P c = true -> exists f, In f fs /\ elem_set (f_el f) c = true.
Lemma aset_uset n P : uset n = Some P -> aset n = Some P.
Proof. intro H. destruct n; cbn [aset]; rewrite H; reflexivity. Qed.
Lemma inner_aset p f cs T : eok (f_el f) = true -> ounions (map aset cs) = Some T -> exists U, aset (inner p f cs) = Some U /\ forall c, U c = true -> elem_set (f_el f) c = true \/ T c = true.
Proof.
  intros E H. destruct (ou_set _ _ (eok_unit _ E)) as (Q & S & X). pose proof (aset_uset _ _ S) as A.
  assert (Z : exists U, ounion (aset (unode (f_el f))) (ounions (map aset cs)) = Some U /\ forall c, U c = true -> elem_set (f_el f) c = true \/ T c = true).
  { rewrite A, H. cbn [ounion]. eexists. split; [reflexivity|]. intros c Hc. apply orb_true_iff in Hc as [Hc|Hc]; [left; now rewrite <- X|now right]. }
  unfold inner, runnode. destruct (f_am f).
  - destruct cs as [|c cs]; [exists Q; split; [exact A|intros c Hc; left; now rewrite <- X]|]. exact Z.
  - exact Z.
  - destruct p; exact Z.
  - destruct p; exact Z.
Qed.
Lemma chain_aset fs : forall g, forallb fok fs = true -> existsb f_cap fs = false ->
  exists T, ounions (map aset (kids (chain fs g false))) = Some T /\ within fs T.
Proof.
  induction fs as [|f r IH]; intros g F C; [eexists; split; [reflexivity|discriminate]|]. cbn [forallb] in F. apply andb_true_iff in F as [F1 F2]. cbn [existsb] in C. apply orb_false_iff in C as [C1 C2].
  destruct (IH (nextg f g) F2 C2) as (T & HT & WT). destruct (fok_eok f F1) as [E _]. destruct (inner_aset (posq f r false) f (kids (chain r (nextg f g) false)) T E HT) as (U & HU & WU).
  cbn [chain kids map]. unfold funit. rewrite C1, HU. cbn [ounions fold_right ounion]. eexists. split; [reflexivity|]. intros c Hc. rewrite orb_false_r in Hc.
  destruct (WU c Hc) as [X|X]; [exists f; split; [now left|exact X]|]. destruct (WT c X) as (f' & I & S). exists f'. split; [now right|exact S].
Qed.
Lemma bm_marker : marker (bm gs) = true.
Proof.
  destruct bm_head as (P & l & HP & XP). unfold marker. rewrite HP. pose proof (lo_fok _ _ K) as F. cbn [forallb] in F. apply andb_true_iff in F as [F1 F2].
  pose proof (lo_cap _ _ K) as C. cbn [existsb] in C. apply orb_false_iff in C as [C1 C2]. destruct (chain_aset t 0 F2 C2) as (T & HT & WT).
  destruct (fok_eok h F1) as [E _]. pose proof (eok_unit _ E) as U. destruct (ou_set _ _ U) as (Q & S & X).
  assert (TU : tailset (unode (f_el h)) = Some (fun _ => false)) by (destruct (unode (f_el h)); cbn [tailset]; rewrite S; reflexivity).
  assert (Z : exists R, tailset (bm gs) = Some R /\ forall c, R c = true -> exists f, In f t /\ elem_set (f_el f) c = true).
  { rewrite bm_form. unfold inner. rewrite (lo_one _ _ K). destruct (kids (chain t 0 false)) as [|c cs] eqn:Kc.
    - eexists. split; [exact TU|]. discriminate.
    - cbn [tailset uset]. rewrite (unit_nonnull _ _ U), TU, HT. cbn [ounion]. eexists. split; [reflexivity|]. intros y Hy. cbn [orb] in Hy. now apply WT. }
  destruct Z as (R & -> & HR). unfold disj. apply forallb_forall. intros c Hc. destruct (R c) eqn:Rc; [|reflexivity]. destruct (HR c Rc) as (f & If & Sf).
  rewrite XP. destruct (elem_set (f_el h) c) eqn:Sh; [|reflexivity]. exfalso. pose proof (lo_off _ _ K f If) as A. unfold apart in A. rewrite forallb_forall in A. specialize (A c Hc).
  rewrite (elem_wide _ _ Sf), (elem_wide _ _ Sh) in A. discriminate.
Qed.
Lemma bm_item mn : greedy_item (bm gs) mn UMAX = true.
Proof.
  unfold greedy_item. rewrite bm_det, bm_nonnull, bm_nog, bm_marker. unfold opt_case. change (N.eqb UMAX 1) with false. rewrite andb_false_r. cbn. apply orb_true_r.
Qed.
Lemma chain_nodeok G d fs : forall g n, forallb fok fs = true -> existsb f_cap fs = false -> chain fs g false = Some n -> nodeok G d n.
Proof.
  induction fs as [|f r IH]; intros g n F C E; [discriminate|]. cbn [forallb] in F. apply andb_true_iff in F as [F1 F2]. cbn [existsb] in C. apply orb_false_iff in C as [C1 C2].
  cbn [chain] in E. assert (n = funit true f g (kids (chain r (nextg f g) false))) as ->.
  { assert (X : posq f r false = true) by (unfold posq, ends; destruct r; reflexivity). congruence. }
  apply funit_ok; [exact F1| |intros X; discriminate X|congruence].
  destruct (chain r (nextg f g) false) as [m|] eqn:Em; [|apply tail_nil]. apply tail_node. now apply (IH (nextg f g)).
Qed.
Lemma bm_ok G d : nodeok G d (bm gs).
Proof. exact (chain_nodeok G d gs 0 _ (lo_fok _ _ K) (lo_cap _ _ K) (bm_chain h t)). Qed.

(** The optimiser on the body, whatever follows. *)
Definition last_run (fs : list field) (F : follow) : Prop := forall f, In (f_el f) (end_run fs) -> no_retry (unode (f_el f)) F true = true.
Lemma end_run_cons f g r : end_run (f :: g :: r) = end_run (g :: r).
Proof. unfold end_run. cbn [rev]. destruct (rev r ++ [g]) as [|y l] eqn:E; [now destruct (rev r)|]. reflexivity. Qed.
Lemma folk_head n P l F : fst (pre n) = P :: l -> folk [n] F = FSet (fun x => P x || false).
Proof. intro H. assert (E : forall S, efirst n S = Some P) by (intro S; destruct n; cbn [efirst]; rewrite H; reflexivity). unfold folk, efk. cbn [map ounions fold_right]. rewrite E. reflexivity. Qed.
Lemma unit_optok_F f g t' F : fok f = true -> f_cap f = false -> (is_run f = true -> no_retry (unode (f_el f)) (folk (kids t') F) true = true) ->
  forallb (fun c => optok c [] F) (kids t') = true -> optok (followed (funit0 f g) t') [] F = true.
Proof.
  intros Kf Cf H C. unfold funit0. rewrite Cf. destruct t' as [n|]; [|now apply inner_optok]. cbn [kids] in *. unfold inner0, is_run in *. destruct (f_am f); cbn [am_quant tree_quant mkq pol_of followed app].
  + unfold leaf. cbn [followed app optok]. rewrite body_optok, C. reflexivity.
  + cbn [optok]. now rewrite leaf_all, C.
  + specialize (H eq_refl). cbn [optok]. rewrite !leaf_all, C. rewrite opt_leaf, H. rewrite orb_true_r. destruct (adm_empty _); reflexivity.
  + specialize (H eq_refl). cbn [optok]. rewrite !leaf_all, C. rewrite opt_leaf, H. rewrite orb_true_r. destruct (adm_empty _); reflexivity.
Qed.
Lemma chain_optok_F F fs : forall g n, forallb fok fs = true -> existsb f_cap fs = false -> gaps fs -> last_run fs F -> chain0 fs g false = Some n -> optok n [] F = true.
Proof.
  induction fs as [|f r IH]; intros g n Fk C G L E; [discriminate|]. cbn [forallb] in Fk. apply andb_true_iff in Fk as [F1 F2]. cbn [existsb] in C. apply orb_false_iff in C as [C1 C2]. destruct G as [G1 G2].
  cbn [chain0] in E. injection E as <-. destruct (fok_eok f F1) as [EF _]. apply unit_optok_F; [exact F1|exact C1| |].
  - intro R. destruct r as [|k r].
    + cbn [chain0 kids]. apply (L f). unfold end_run. cbn. rewrite R. now left.
    + destruct (G1 R) as [Q A]. cbn [forallb] in F2. apply andb_true_iff in F2 as [F2 _]. destruct (head0 k (nextg f g) (chain0 r (nextg k (nextg f g)) false) F2 Q) as (P & l & PH & X).
      cbn [chain0 kids]. rewrite (folk_head _ P l F PH). apply retry_set; [exact EF|]. apply (apart_disj (wide (f_el k)) (wide (f_el f))).
      * intros c Hc. rewrite orb_false_r, X in Hc. now apply elem_wide.
      * intros c Hc. now apply elem_wide.
      * now apply apart_sym.
  - destruct r as [|k r]; [reflexivity|]. destruct (chain0 (k :: r) (nextg f g) false) as [m|] eqn:E; [|reflexivity]. cbn [kids forallb].
    assert (Lr : last_run (k :: r) F) by (intros f' Hf'; apply L; now rewrite end_run_cons). rewrite (IH (nextg f g) m F2 C2 G2 Lr E). reflexivity.
Qed.
Lemma m0_optok F : last_run gs F -> optok (m0 gs) [] F = true.
Proof. intro L. unfold m0. cbn [optok]. exact (chain_optok_F F gs 0 _ (lo_fok _ _ K) (lo_cap _ _ K) (lo_gaps _ _ K) L (b0_chain h t)). Qed.
End Loop.

(** * The trees *)
Fixpoint pchain0 (ps : list part) (g : nat) (d : bool) : option node :=
  match ps with
  | [] => if d then Some dollar else None
  | PF f :: r => Some (followed (funit0 f g) (pchain0 r (nextg f g) d))
  | PL gs plus :: r => Some (Greedy (m0 gs) (if plus then 1 else 0)%N UMAX (kids (pchain0 r g d)))
  end.
Definition lempty (gs : list field) (t : option node) : bool := adm_empty (adm_inter (nadm (m0 gs)) (extract_adm (map nadm (kids t)))).
Definition lnode (p : bool) (gs : list field) (plus : bool) (cs : list node) : node :=
  if p then Possessive (bm gs) (if plus then 1 else 0)%N UMAX cs else Greedy (bm gs) (if plus then 1 else 0)%N UMAX cs.
Fixpoint pchain (ps : list part) (g : nat) (d : bool) : option node :=
  match ps with
  | [] => if d then Some (Term TEnd) else None
  | PF f :: r => Some (funit (pempty (f_el f) (pchain0 r (nextg f g) d)) f g (kids (pchain r (nextg f g) d)))
  | PL gs plus :: r => Some (lnode (lempty gs (pchain0 r g d)) gs plus (kids (pchain r g d)))
  end.
(** What the condition says. *)
Lemma parted_f d f r : parted d (PF f :: r) = true -> fok f = true /\ parted d r = true
  /\ (is_run f = true -> goes_on r = true /\ apart_all (f_el f) (heads r) = true /\ (d && open_end r = true -> last_ok f = true)).
Proof.
  cbn [parted]. intro H. rewrite !andb_true_iff in H. destruct H as [[[A B] C] D]. unfold fok. rewrite A, B. split; [reflexivity|]. split; [exact D|]. intro R. rewrite R in C. cbn [negb orb] in C.
  rewrite !andb_true_iff in C. destruct C as [[C1 C2] C3]. split; [exact C1|]. split; [exact C2|]. intro X. rewrite X in C3. exact C3.
Qed.
Lemma parted_l d gs plus r : parted d (PL gs plus :: r) = true -> exists h t, gs = h :: t /\ loopok h t /\ goes_on r = true /\ apart_all (f_el h) (heads r) = true
  /\ (forall z, In z (end_run gs) -> apart_all z (heads r) = true /\ (d && open_end r = true -> elem_set z 10 = false)) /\ parted d r = true.
Proof.
  cbn [parted]. intro H. rewrite !andb_true_iff in H. destruct H as [[[[A B] C] D] E]. destruct (loop_parts gs A) as (h & t & -> & K). exists h, t. split; [reflexivity|]. split; [exact K|]. split; [exact B|]. split; [exact C|].
  split; [|exact E]. intros z Hz. rewrite forallb_forall in D. specialize (D z Hz). apply andb_true_iff in D as [D1 D2]. split; [exact D1|]. intro X. rewrite X in D2. cbn [negb orb] in D2. now apply negb_true_iff.
Qed.
Lemma opt_pchain ps : forall g d, parted d ps = true -> option_map (fun n => optimize n []) (pchain0 ps g d) = pchain ps g d.
Proof.
  induction ps as [|[f|gs plus] r IH]; intros g d H; [destruct d; reflexivity| |].
  - apply parted_f in H as (F & H & _). specialize (IH (nextg f g) d H). cbn [pchain0 pchain option_map]. rewrite opt_unit. f_equal. f_equal. rewrite <- IH. destruct (pchain0 r (nextg f g) d); reflexivity.
  - apply parted_l in H as (h & t & -> & K & _ & _ & _ & H). specialize (IH g d H). cbn [pchain0 pchain option_map]. f_equal.
    assert (X : optimize (Greedy (m0 (h :: t)) (if plus then 1 else 0)%N UMAX (kids (pchain0 r g d))) []
              = lnode (lempty (h :: t) (pchain0 r g d)) (h :: t) plus (map (fun c => optimize c []) (kids (pchain0 r g d)))).
    { unfold lnode, lempty. rewrite <- (m0_opt h t K). destruct (pchain0 r g d) as [n|]; cbn [kids].
      - change (optimize (Greedy (m0 (h :: t)) (if plus then 1 else 0)%N UMAX [n]) []) with
          (if adm_empty (adm_inter (nadm (m0 (h :: t))) (extract_adm (map nadm ([n] ++ [])))) then Possessive (optimize (m0 (h :: t)) []) (if plus then 1 else 0)%N UMAX (map (fun c => optimize c []) [n])
           else Greedy (optimize (m0 (h :: t)) []) (if plus then 1 else 0)%N UMAX (map (fun c => optimize c []) [n])). reflexivity.
      - change (optimize (Greedy (m0 (h :: t)) (if plus then 1 else 0)%N UMAX []) []) with
          (if adm_empty (adm_inter (nadm (m0 (h :: t))) (extract_adm (map nadm ([] ++ [])))) then Possessive (optimize (m0 (h :: t)) []) (if plus then 1 else 0)%N UMAX (map (fun c => optimize c []) [])
           else Greedy (optimize (m0 (h :: t)) []) (if plus then 1 else 0)%N UMAX (map (fun c => optimize c []) [])). reflexivity. }
    rewrite X. f_equal. rewrite <- IH. destruct (pchain0 r g d); reflexivity.
Qed.

(** * The tail: its admitted characters and what it needs first *)
Lemma body_asc x : field_elem x = true -> asc (nadm (body x)).
Proof. intro Z. unfold field_elem in Z. apply andb_true_iff in Z as [Z _]. pose proof (elem_asc x Z) as A. rewrite tree_body in A. exact A. Qed.
Lemma dollar_asc : asc (nadm dollar).
Proof. unfold dollar. cbn [nadm term_adm]. unfold adm_complement. apply diff_asc; [apply asc_one|apply adm_range_asc]. Qed.
Lemma dollar_adm c : (0 <= c <= 127)%Z -> c <> 10%Z -> In c (nadm dollar).
Proof.
  intros A B. unfold dollar. cbn [nadm term_adm]. apply complement_in; [apply asc_one|repeat constructor; discriminate|]. split; [exact A|]. intros [E|[]]. now apply B.
Qed.
Definition wides (ps : list part) (c : chr) : Prop := exists x, In x (heads ps) /\ wide x c = true.
Lemma tail_adm ps : forall g d n, parted d ps = true -> goes_on ps = true -> pchain0 ps g d = Some n ->
  asc (nadm n) /\ forall c, In c (nadm n) -> wides ps c \/ d && open_end ps = true.
Proof.
  induction ps as [|[f|gs plus] r IH]; intros g d n H Go E.
  - destruct d; [|discriminate]. injection E as <-. split; [apply dollar_asc|intros; now right].
  - apply parted_f in H as (F & H & _). cbn [goes_on] in Go. cbn [pchain0] in E. injection E as <-. unfold fok in F. apply andb_true_iff in F as [F _].
    rewrite (followed_adm f g _ F Go). split; [now apply body_asc|]. intros c Hc. left. exists (f_el f). split; [now left|]. now apply body_adm.
  - apply parted_l in H as (h & t & -> & K & Gr & _ & _ & H). cbn [pchain0] in E. injection E as <-. pose proof (lk_fe h t K) as Fe.
    assert (X : forall c, In c (nadm (body (f_el h))) -> wides (PL (h :: t) plus :: r) c) by (intros c Hc; exists (f_el h); split; [now left|now apply body_adm]).
    destruct plus.
    + cbn [nadm N.eqb]. rewrite (m0_adm h t K). split; [now apply body_asc|]. auto.
    + change (nadm (Greedy (m0 (h :: t)) 0 UMAX (kids (pchain0 r g d)))) with (extract_adm (nadm (m0 (h :: t)) :: map nadm (kids (pchain0 r g d)))). rewrite (m0_adm h t K).
      destruct (pchain0 r g d) as [m|] eqn:Em.
      * destruct (IH g d m H Gr Em) as [A B]. cbn [kids map]. split; [apply Heads.extract_asc; repeat constructor; [now apply body_asc|exact A]|].
        intros c Hc. apply extract_in in Hc as (s & [<-|[<-|[]]] & Hc); [left; now apply X|]. destruct (B c Hc) as [(x & Ix & Wx)|O]; [left; exists x; split; [now right|exact Wx]|right].
        cbn [open_end forallb p_req negb andb]. exact O.
      * cbn [kids map]. split; [apply Heads.extract_asc; repeat constructor; now apply body_asc|]. intros c Hc. apply extract_in in Hc as (s & [<-|[]] & Hc). left. now apply X.
Qed.
Lemma apart_wides x ps c : apart_all x (heads ps) = true -> (-128 <= c <= 127)%Z -> wide x c = true -> ~ wides ps c.
Proof.
  intros A R W (y & I & Y). unfold apart_all in A. rewrite forallb_forall in A. specialize (A y I). unfold apart in A. rewrite forallb_forall in A. specialize (A c (chars_in c R)). rewrite W, Y in A. discriminate.
Qed.
(** A run or a repetition before [ps] stays greedy only before $. *)
Lemma inter_open x ps g d : field_elem x = true -> parted d ps = true -> goes_on ps = true -> apart_all x (heads ps) = true ->
  adm_empty (adm_inter (nadm (body x)) (extract_adm (map nadm (kids (pchain0 ps g d))))) = false -> d && open_end ps = true.
Proof.
  intros F H Go A E. destruct (pchain0 ps g d) as [n|] eqn:En.
  - destruct (tail_adm ps g d n H Go En) as [As B]. cbn [kids map] in E. assert (X : extract_adm [nadm n] = nadm n) by (unfold extract_adm; cbn [fold_right]; apply merge_nil_r). rewrite X in E.
    destruct (adm_inter (nadm (body x)) (nadm n)) as [|c l] eqn:I; [discriminate E|]. assert (Ic : In c (adm_inter (nadm (body x)) (nadm n))) by (rewrite I; now left).
    apply (inter_in _ _ c (body_asc x F) As) in Ic as [I1 I2]. destruct (B c I2) as [W|O]; [|exact O]. exfalso. now apply (apart_wides x ps c A (body_range x c F I1) (body_adm x c F I1)).
  - cbn [kids map] in E. change (extract_adm []) with (@nil chr) in E. rewrite inter_nil in E. discriminate.
Qed.
Definition sets (ps : list part) (d : bool) (c : chr) : Prop := (exists x, In x (heads ps) /\ elem_set x c = true) \/ (d && open_end ps = true /\ c = 10%Z).
Lemma efirst_pre n P l S : fst (pre n) = P :: l -> efirst n S = Some P.
Proof. intro H. destruct n; cbn [efirst]; rewrite H; reflexivity. Qed.
Lemma tail_first ps : forall g d n, parted d ps = true -> goes_on ps = true -> pchain0 ps g d = Some n ->
  (exists P, efirst n None = Some P /\ forall c, P c = true -> sets ps d c) \/ (d && open_end ps = false /\ open_end ps = true /\ efirst n None = None /\ total n = true).
Proof.
  induction ps as [|[f|gs plus] r IH]; intros g d n H Go E.
  - destruct d; [|discriminate]. injection E as <-. left. exists (Z.eqb c_nl). split; [reflexivity|]. intros c Hc. right. split; [reflexivity|]. apply Z.eqb_eq in Hc. now subst.
  - apply parted_f in H as (F & H & _). cbn [goes_on] in Go. cbn [pchain0] in E. injection E as <-. left. destruct (head0 f g (pchain0 r (nextg f g) d) F Go) as (P & l & PH & X).
    exists P. split; [now apply (efirst_pre _ P l)|]. intros c Hc. left. exists (f_el f). split; [now left|now rewrite <- X].
  - apply parted_l in H as (h & t & -> & K & Gr & _ & _ & H). cbn [pchain0] in E. injection E as <-. destruct (m0_head h t K) as (P & l & PH & X).
    assert (Y : forall c, P c = true -> sets (PL (h :: t) plus :: r) d c) by (intros c Hc; left; exists (f_el h); split; [now left|now rewrite <- X]).
    destruct plus.
    + left. exists P. split; [|exact Y]. apply (efirst_pre _ P (tl (minp 1 (pre (m0 (h :: t)))))). cbn [pre uset N.eqb fst]. unfold minp. change (N.to_nat (N.min 1 8)) with 1. cbn [powp]. unfold seqp.
      destruct (snd (pre (m0 (h :: t)))); cbn [fst]; rewrite PH; reflexivity.
    + set (m := m0 (h :: t)) in *. assert (EF : forall cs, efirst (Greedy m 0 UMAX cs) None = match firstn 1 (zipu (fst (pre m)) (fst (orsp (map pre cs)))) with P :: _ => Some P | [] => ounion (hd_error (fst (pre m))) (match cs with [] => None | _ => ounions (map (fun c => efirst c None) cs) end) end) by reflexivity.
      destruct (pchain0 r g d) as [k|] eqn:Ek; cbn [kids].
      * destruct (IH g d k H Gr Ek) as [(Q & EQ & XQ)|(O1 & O2 & EN & T)].
        -- left. assert (SQ : forall c, Q c = true -> sets (PL (h :: t) false :: r) d c).
           { intros c Hc. destruct (XQ c Hc) as [(x & I & Sx)|[O ->]]; [left; exists x; split; [now right|exact Sx]|right; split; [exact O|reflexivity]]. }
           rewrite EF, PH. cbn [orsp map zipu]. destruct (fst (pre k)) as [|R l'] eqn:PK.
           ++ cbn [firstn hd_error map ounions fold_right]. rewrite EQ. cbn [ounion]. eexists. split; [reflexivity|]. intros c Hc. cbv beta in Hc. rewrite orb_false_r in Hc. apply orb_true_iff in Hc as [Hc|Hc]; auto.
           ++ cbn [firstn]. eexists. split; [reflexivity|]. intros c Hc. apply orb_true_iff in Hc as [Hc|Hc]; [auto|]. apply SQ. pose proof (efirst_pre k R l' None PK) as Z. congruence.
        -- right. split; [exact O1|]. split; [exact O2|]. split; [|cbn [total N.eqb is_nil existsb orb andb]; now rewrite T].
           rewrite EF, PH. cbn [orsp map zipu]. destruct (fst (pre k)) as [|R l'] eqn:PK; [|pose proof (efirst_pre k R l' None PK); congruence].
           cbn [firstn hd_error map ounions fold_right]. rewrite EN. reflexivity.
      * right. assert (d = false /\ r = []) as [-> ->] by (destruct r as [|[|] r]; [destruct d; [discriminate|auto]|discriminate|discriminate]).
        split; [reflexivity|]. split; [reflexivity|]. split; [|reflexivity]. rewrite EF, PH. reflexivity.
Qed.
Lemma tail_folk ps g d : parted d ps = true -> goes_on ps = true ->
  folk (kids (pchain0 ps g d)) FTot = FTot \/ exists P, folk (kids (pchain0 ps g d)) FTot = FSet P /\ forall c, P c = true -> sets ps d c.
Proof.
  intros H Go. destruct (pchain0 ps g d) as [n|] eqn:E; [|now left]. cbn [kids]. unfold folk, efk. cbn [map ounions fold_right fset].
  destruct (tail_first ps g d n H Go E) as [(P & EP & X)|(_ & _ & EN & T)].
  - right. rewrite EP. cbn [ounion]. eexists. split; [reflexivity|]. intros c Hc. cbv beta in Hc. rewrite orb_false_r in Hc. now apply X.
  - left. rewrite EN. cbn [ounion totk is_nil existsb orb]. now rewrite T.
Qed.

(** * The matcher handles them as specified *)
(** Before $: repetitions stay greedy, and fail without a trace. *)
Lemma esc_ascii c : is_char c = true -> escapable c = true -> (0 <= c)%Z -> c <> 115%Z -> esc_set c 10 = false -> exists x, In x (nadm (body (EEsc c))) /\ (0 <= x <= 127)%Z /\ x <> 10%Z.
Proof.
  intros Ic E C N Q.
  assert (X : forallb (fun k => let c := Z.of_nat k in negb (escapable c) || (c =? 115)%Z || esc_set c 10 || existsb (fun x => (0 <=? x)%Z && (x <=? 127)%Z && negb (x =? 10)%Z) (nadm (body (EEsc c)))) (seq 0 128) = true) by (vm_compute; reflexivity).
  rewrite forallb_forall in X. specialize (X (Z.to_nat c)). cbv zeta in X. rewrite Z2Nat.id in X by exact C. assert (I : In (Z.to_nat c) (seq 0 128)) by (apply in_seq; unfold is_char in Ic; lia). specialize (X I).
  rewrite E, Q in X. destruct (Z.eqb_spec c 115) as [|_]; [contradiction|]. cbn [negb orb] in X. apply existsb_exists in X as (x & Ix & Hx). exists x. split; [exact Ix|lia].
Qed.
Lemma sep_ascii x : field_elem x = true -> sep_elem x = true -> exists c, In c (nadm (body x)) /\ (0 <= c <= 127)%Z /\ c <> 10%Z.
Proof.
  intros F S. unfold field_elem in F. apply andb_true_iff in F as [F _]. destruct x as [c|c| |neg items|a b c|a b]; try discriminate S; cbn [sep_elem elem_ok] in *.
  - exists c. cbn [body nadm term_adm]. rewrite (kind_lit c F). unfold plain, is_char in F. split; [now left|]. lia.
  - rewrite !andb_true_iff, !negb_true_iff in S. destruct S as [[S1 S2] S3]. apply Z.leb_le in S1. apply Z.eqb_neq in S2. apply esc_ascii; [|exact F|exact S1|exact S2|exact S3].
    unfold escapable in F. rewrite !andb_true_iff in F. tauto.
Qed.
Lemma tail_dollar ps : forall g, parted true ps = true -> goes_on ps = true -> open_end ps = true -> exists n n0,
  pchain0 ps g true = Some n0 /\ pchain ps g true = Some n /\ clean n PAny = true /\ gcl n = true /\ forall c, (0 <= c <= 127)%Z -> c <> 10%Z -> In c (nadm n0).
Proof.
  induction ps as [|[f|gs plus] r IH]; intros g H Go O.
  - exists (Term TEnd), dollar. split; [reflexivity|]. split; [reflexivity|]. split; [reflexivity|]. split; [reflexivity|]. apply dollar_adm.
  - cbn [goes_on] in Go. cbn [open_end forallb p_req] in O. rewrite Go in O. discriminate.
  - apply parted_l in H as (h & t & -> & K & Gr & _ & _ & H). cbn [open_end forallb p_req] in O. apply andb_true_iff in O as [O1 O]. apply negb_true_iff in O1. subst plus.
    destruct (IH g H Gr O) as (n & n0 & E0 & E & Cl & Gc & Ad). cbn [pchain0 pchain]. rewrite E0, E. cbn [kids].
    assert (P : lempty (h :: t) (Some n0) = false).
    { unfold lempty. cbn [kids map]. assert (X : extract_adm [nadm n0] = nadm n0) by (unfold extract_adm; cbn [fold_right]; apply merge_nil_r). rewrite X, (m0_adm h t K).
      destruct (sep_ascii _ (lk_fe h t K) (lo_sep _ _ K)) as (c & I & R & N). assert (Z : In c (adm_inter (nadm (body (f_el h))) (nadm n0))).
      { apply inter_in; [apply body_asc, (lk_fe h t K)|apply (tail_adm r g true n0 H Gr E0)|]. split; [exact I|now apply Ad]. }
      destruct (adm_inter _ _); [destruct Z|reflexivity]. }
    rewrite P. unfold lnode. eexists _, _. split; [reflexivity|]. split; [reflexivity|]. split; [|split].
    + cbn [clean N.eqb is_nil negb andb forallb]. rewrite Cl. unfold opt_clean, opt_case. change (N.eqb UMAX 1) with false. rewrite andb_false_r. reflexivity.
    + cbn [gcl forallb]. rewrite (bm_nog h t K), Gc. apply orb_true_r.
    + intros c A B. change (nadm (Greedy (m0 (h :: t)) 0 UMAX [n0])) with (extract_adm [nadm (m0 (h :: t)); nadm n0]). apply extract_in. exists (nadm n0). split; [right; now left|now apply Ad].
Qed.
Section Nodes.
Variables (G : nat) (d : bool).
Lemma lnode_ok p h t plus cs : loopok h t -> tailok G d cs -> (p = false -> exists c, cs = [c] /\ clean c PAny = true /\ gcl c = true) -> nodeok G d (lnode p (h :: t) plus cs).
Proof.
  intros K [TL TG TI TS TX] Hp. destruct (bm_ok h t K G d) as [BG BA BI BS BX]. pose proof (bm_nonnull h t K) as Nn. pose proof (bm_nog h t K) as Ng.
  assert (Gc : gcl (bm (h :: t)) = true) by (destruct (bm (h :: t)); cbn [gcl]; rewrite Ng; reflexivity).
  set (mn := (if plus then 1 else 0)%N). assert (Hm : (mn <=? 1)%N = true) by (unfold mn; destruct plus; reflexivity). assert (Hx : (mn <=? UMAX)%N = true) by (unfold mn; destruct plus; reflexivity).
  unfold lnode. fold mn. destruct p; constructor.
  - intro pv. cbn [good]. rewrite BG, Nn, Hm, Hx. cbn [orb andb]. destruct (tail_cases cs TL) as [->|(c & ->)]; [reflexivity|]. apply TG. now left.
  - cbn [accins]. now rewrite BA.
  - cbn [noinj]. exact BI.
  - cbn [opt_small]. now rewrite BS, TS.
  - cbn [gex]. rewrite BX, Gc, TX. apply orb_true_r.
  - intro pv. destruct (Hp eq_refl) as (c & -> & Cc & Gl). cbn [good]. rewrite (bm_item h t K mn), BG, (bm_clean h t K), BA, Cc, (TG c (or_introl eq_refl)). unfold opt_good, opt_case. change (N.eqb UMAX 1) with false. rewrite andb_false_r. reflexivity.
  - destruct (Hp eq_refl) as (c & -> & Cc & Gl). reflexivity.
  - destruct (Hp eq_refl) as (c & -> & Cc & Gl). reflexivity.
  - cbn [opt_small]. unfold opt_case. change (N.eqb UMAX 1) with false. rewrite andb_false_r. now rewrite BS, TS.
  - destruct (Hp eq_refl) as (c & -> & Cc & Gl). cbn [gex forallb] in *. rewrite andb_true_r in TX. unfold gcs. rewrite Ng, TX, Gl. apply orb_true_r.
Qed.
Lemma pchain_ok ps : forall g, parted d ps = true -> g + pcap ps <= G -> tailok G d (kids (pchain ps g d)).
Proof.
  induction ps as [|[f|gs plus] r IH]; intros g H B.
  - cbn [pchain]. destruct (Bool.bool_dec d true) as [D|D].
    + rewrite D at 2. cbn [kids]. now apply tail_end.
    + assert (d = false) as E by (destruct d; [now elim D|reflexivity]). rewrite E at 2. apply tail_nil.
  - apply parted_f in H as (F & H & R). unfold pcap in B. cbn [filter p_cap] in B. cbn [pchain]. apply tail_node. apply funit_ok; [exact F| | |].
    + apply IH; [exact H|]. unfold nextg, pcap. destruct (f_cap f); cbn [length] in B; lia.
    + intros P Ru. destruct (R Ru) as (Gr & Ap & La). assert (Fe : field_elem (f_el f) = true) by (unfold fok in F; now apply andb_true_iff in F).
      pose proof (inter_open (f_el f) r (nextg f g) d Fe H Gr Ap P) as O. specialize (La O). split; [now apply last_tidy|]. apply andb_true_iff in O as [D O]. rewrite D in H |- *.
      destruct (tail_dollar r (nextg f g) H Gr O) as (n & n0 & _ & E & Cl & Gc & _). rewrite E. exists n. unfold gcs. rewrite Gc. split; [reflexivity|]. split; [exact Cl|reflexivity].
    + intro Cp. rewrite Cp in B. cbn [length] in B. lia.
  - apply parted_l in H as (h & t & -> & K & Gr & Ap & _ & H). unfold pcap in B. cbn [filter p_cap] in B. cbn [pchain]. apply tail_node. apply lnode_ok; [exact K|now apply IH|].
    intro P. unfold lempty in P. rewrite (m0_adm h t K) in P. pose proof (inter_open (f_el h) r g d (lk_fe h t K) H Gr Ap P) as O. apply andb_true_iff in O as [D O]. rewrite D in H |- *.
    destruct (tail_dollar r g H Gr O) as (n & n0 & _ & E & Cl & Gc & _). rewrite E. exists n. auto.
Qed.
End Nodes.

(** * The optimiser keeps the meaning *)
Lemma sets_disj x ps d P : apart_all x (heads ps) = true -> (d && open_end ps = true -> elem_set x 10 = false) -> (forall c, P c = true -> sets ps d c) -> disj P (elem_set x) = true.
Proof.
  intros A L H. unfold disj. apply forallb_forall. intros c Hc. destruct (P c) eqn:Pc; [|reflexivity]. destruct (elem_set x c) eqn:Sx; [|reflexivity]. exfalso.
  destruct (H c Pc) as [(y & I & Sy)|[O ->]]; [|rewrite (L O) in Sx; discriminate]. unfold apart_all in A. rewrite forallb_forall in A. specialize (A y I). unfold apart in A. rewrite forallb_forall in A. specialize (A c Hc).
  rewrite (elem_wide _ _ Sx), (elem_wide _ _ Sy) in A. discriminate.
Qed.
Lemma last_nl f : is_run f = true -> last_ok f = true -> elem_set (f_el f) 10 = false.
Proof. intros R L. unfold last_ok in L. rewrite R in L. cbn [negb orb] in L. apply andb_true_iff in L as [L _]. now apply negb_true_iff. Qed.
Lemma end_run_in gs z : In z (end_run gs) -> exists f, In f gs /\ f_el f = z.
Proof.
  unfold end_run. intro H. destruct (rev gs) as [|f l] eqn:E; [destruct H|]. destruct (is_run f); [|destruct H]. destruct H as [<-|[]]. exists f. split; [|reflexivity]. apply in_rev. rewrite E. now left.
Qed.
Lemma end_off h t z : loopok h t -> In z (end_run (h :: t)) -> eok z = true /\ apart (wide z) (wide (f_el h)) = true.
Proof.
  intros K Hz. destruct (end_run_in _ _ Hz) as (f & If & <-). split.
  - pose proof (lo_fok _ _ K) as F. rewrite forallb_forall in F. now apply fok_eok, F.
  - destruct If as [<-|If]; [|now apply (lo_off _ _ K)]. exfalso. unfold end_run in Hz. destruct (rev (h :: t)) as [|y l] eqn:E; [destruct Hz|]. destruct (is_run y) eqn:R; [|destruct Hz]. destruct Hz as [Ey|[]].
    assert (Iy : In y (h :: t)) by (apply in_rev; rewrite E; now left). destruct Iy as [<-|Iy]; [unfold is_run in R; rewrite (lo_one _ _ K) in R; discriminate|].
    pose proof (lo_off _ _ K y Iy) as A. rewrite Ey in A. destruct (sep_ascii _ (lk_fe h t K) (lo_sep _ _ K)) as (c & Ic & Rc & _). unfold apart in A. rewrite forallb_forall in A. specialize (A c (chars_in c ltac:(lia))).
    rewrite (body_adm _ _ (lk_fe h t K) Ic) in A. discriminate.
Qed.
Lemma pchain_optok ps : forall g d, parted d ps = true -> forallb (fun c => optok c [] FTot) (kids (pchain0 ps g d)) = true.
Proof.
  induction ps as [|[f|gs plus] r IH]; intros g d H; [destruct d; reflexivity| |].
  - apply parted_f in H as (F & H & R). cbn [pchain0 kids forallb]. rewrite andb_true_r. apply unit_optok; [exact F| |now apply IH]. intro Ru. destruct (R Ru) as (Gr & Ap & La).
    destruct (tail_folk r (nextg f g) d H Gr) as [->|(P & -> & X)]; [reflexivity|]. apply retry_set; [now apply fok_eok|]. apply (sets_disj _ r d P Ap); [|exact X]. intro O. apply last_nl; auto.
  - apply parted_l in H as (h & t & -> & K & Gr & Ap & En & H). specialize (IH g d H). cbn [pchain0 kids forallb]. rewrite andb_true_r.
    set (mn := (if plus then 1 else 0)%N). set (m := m0 (h :: t)). set (cs := kids (pchain0 r g d)) in *.
    assert (Hm : (mn <=? 1)%N = true) by (unfold mn; destruct plus; reflexivity).
    assert (KEY : exists Fs, Checker.in_rep mn UMAX m (optimize m []) (folk cs FTot) = Fs /\ forallb (optok m []) Fs = true /\ no_retry (optimize m []) (folk cs FTot) true = true).
    { eexists. split; [reflexivity|]. unfold Checker.in_rep, m. rewrite (m0_opt h t K), (m0_nonnull h t K), (bm_nonnull h t K), Hm. change (UMAX <=? 1)%N with false. rewrite andb_false_r. cbn [andb].
      destruct (m0_head h t K) as (Q & l & PQ & XQ). rewrite PQ.
      destruct (tail_folk r g d H Gr) as [E|(P & E & X)]; fold cs in E; rewrite E.
      - split; [|reflexivity]. cbn [forallb]. rewrite andb_true_r. apply (m0_optok h t K). intros f Hf. reflexivity.
      - split.
        + cbn [forallb]. rewrite andb_true_r. apply (m0_optok h t K). intros f Hf. destruct (end_off h t _ K Hf) as [Ez Az]. destruct (En _ Hf) as [E1 E2]. apply retry_set; [exact Ez|].
          unfold disj. apply forallb_forall. intros c Hc. destruct (elem_set (f_el f) c) eqn:Sf; [|now rewrite andb_false_r]. rewrite andb_true_r, negb_orb. apply andb_true_iff. split.
          * pose proof (sets_disj (f_el f) r d P E1 E2 X) as D. unfold disj in D. rewrite forallb_forall in D. specialize (D c Hc). rewrite Sf, andb_true_r in D. exact D.
          * rewrite XQ. unfold apart in Az. rewrite forallb_forall in Az. specialize (Az c Hc). rewrite (elem_wide _ _ Sf) in Az. destruct (elem_set (f_el h) c) eqn:Sh; [|reflexivity]. rewrite (elem_wide _ _ Sh) in Az. discriminate.
        + cbn [no_retry]. rewrite (bm_det h t K). unfold first_disj. destruct (bm_head h t K) as (B & l' & PB & XB). rewrite PB. cbn [andb].
          assert (D : disj P (elem_set (f_el h)) = true).
          { apply (sets_disj _ r d P Ap); [|exact X]. intro O. pose proof (lo_sep _ _ K) as S. unfold sep_elem in S. destruct (f_el h); try discriminate S; cbn [elem_set].
            - lia.
            - destruct (esc_set c 10); [lia|reflexivity]. }
          unfold disj in *. rewrite forallb_forall in *. intros c Hc. rewrite XB. now apply D. }
    destruct KEY as (Fs & E1 & E2 & E3).
    assert (OK : optok (Greedy m mn UMAX cs) [] FTot = forallb (fun c => optok c [] FTot) cs
      && (if adm_empty (adm_inter (nadm m) (extract_adm (map nadm (cs ++ []))))
          then (forallb (optok m []) (Checker.in_rep mn UMAX m (optimize m []) FTot) && no_retry m (folk cs FTot) true)
               || (forallb (optok m []) (Checker.in_rep mn UMAX m (optimize m []) (folk cs FTot)) && no_retry (optimize m []) (folk cs FTot) true)
          else forallb (optok m []) (Checker.in_rep mn UMAX m (optimize m []) (folk cs FTot)))) by reflexivity.
    rewrite OK, IH, E1, E2, E3. cbn [andb]. rewrite orb_true_r. destruct (adm_empty _); reflexivity.
Qed.

(** * The whole pattern *)
Lemma parts_split d ps : parts_ok d ps = true -> parted d ps = true /\ pcounted false ps = true /\ p_first ps = true /\ ps <> [].
Proof. unfold parts_ok. rewrite !andb_true_iff. intros [[A B] C]. assert (ps <> []) by (intros ->; discriminate C). auto. Qed.
Lemma nocap_psq r : existsb p_cap r = false -> forall g h, psq r g = psq r h.
Proof.
  induction r as [|[f|gs plus] r IH]; intros H g h; [reflexivity| |]; cbn [existsb p_cap] in H; cbn [psq].
  - apply orb_false_iff in H as [A B]. rewrite A. f_equal. now apply IH.
  - f_equal. now apply IH.
Qed.
Lemma renumber_nocap fs : existsb f_cap fs = false -> forall g e, renumber_sq (fsq fs g) e = fsq fs g.
Proof.
  induction fs as [|f fs IH]; intros H g e; [reflexivity|]. cbn [existsb] in H. apply orb_false_iff in H as [A B]. cbn [fsq]. rewrite A. cbn [renumber_sq renumber_atom]. f_equal. now apply IH.
Qed.
Lemma nx_nocap fs : existsb f_cap fs = false -> forall g, nx_sq (fsq fs g) = 0.
Proof. induction fs as [|f fs IH]; intros H g; [reflexivity|]. cbn [existsb] in H. apply orb_false_iff in H as [A B]. cbn [fsq]. rewrite A. cbn [nx_sq nx_atom]. now rewrite IH. Qed.
Definition nocap_loops (ps : list part) : Prop := Forall (fun p => match p with PL gs _ => existsb f_cap gs = false | _ => True end) ps.
Lemma renumber_pnocap r : existsb p_cap r = false -> nocap_loops r -> forall g e, renumber_sq (psq r g) e = psq r g.
Proof.
  induction r as [|[f|gs plus] r IH]; intros H N g e; [reflexivity| |]; inversion N; subst; cbn [existsb p_cap] in H; cbn [psq].
  - apply orb_false_iff in H as [A B]. rewrite A. cbn [renumber_sq renumber_atom]. f_equal. now apply IH.
  - cbn [renumber_sq renumber_atom renumber_in renumber_br]. rewrite renumber_nocap by assumption. f_equal. now apply IH.
Qed.
Lemma renumber_psq ps : forall g seen, nocap_loops ps -> (seen = false -> g = 0) -> pcounted seen ps = true -> renumber_sq (psq ps g) g = psq ps g.
Proof.
  induction ps as [|p ps IH]; intros g seen N Hs C; [reflexivity|]. inversion N; subst. cbn [pcounted] in C. apply andb_true_iff in C as [C1 C2].
  assert (RES : p_bare p = true -> p_cap p = false -> renumber_sq (psq ps g) 0 = psq ps g).
  { intros B Cp. rewrite B in C1. cbn [negb orb] in C1. rewrite Cp, orb_false_r in C2. apply orb_true_iff in C1 as [C1|C1]; apply negb_true_iff in C1.
    - subst seen. rewrite (Hs eq_refl). apply (IH 0 false); auto.
    - now apply renumber_pnocap. }
  destruct p as [f|gs plus]; cbn [psq p_cap p_bare] in *.
  - destruct (f_cap f) eqn:F.
    + cbn [renumber_sq renumber_atom after_atom one_sq renumber_in renumber_br]. rewrite Nat.add_1_r. f_equal. apply (IH (S g) true); [assumption|discriminate|]. now rewrite orb_true_r in C2.
    + cbn [renumber_sq renumber_atom]. f_equal. rewrite orb_false_r in C2. unfold bare_class in RES. rewrite F in RES. cbn [negb andb] in RES.
      destruct (f_el f) as [c|c| |neg items|a b c|a b]; cbn [after_atom]; try (apply (IH g seen); assumption). now apply RES.
  - cbn [renumber_sq renumber_atom renumber_in renumber_br]. rewrite renumber_nocap by assumption. f_equal. cbn [after_atom nx_atom nx nx_br]. rewrite nx_nocap by assumption. now apply RES.
Qed.
Lemma parted_nocap d ps : parted d ps = true -> nocap_loops ps.
Proof.
  induction ps as [|[f|gs plus] r IH]; intro H; [constructor| |].
  - apply parted_f in H as (_ & H & _). constructor; [exact Logic.I|now apply IH].
  - apply parted_l in H as (h & t & -> & K & _ & _ & _ & H). constructor; [apply (lo_cap _ _ K)|now apply IH].
Qed.
Lemma renumber_prx a d ps : parts_ok d ps = true -> renumber (prx a ps) = prx a ps.
Proof. intro H. destruct (parts_split d ps H) as (P & C & _). unfold renumber, prx. cbn [renumber_in renumber_br]. rewrite (renumber_psq ps 0 false); auto. now apply (parted_nocap d). Qed.
Lemma caps_fnocap fs g : existsb f_cap fs = false -> caps_sq (fsq fs g) = [].
Proof. intro H. rewrite caps_fsq. unfold ncap. assert (X : filter f_cap fs = []); [|now rewrite X]. induction fs as [|f fs IH]; [reflexivity|]. cbn [existsb] in H. apply orb_false_iff in H as [A B]. cbn [filter]. rewrite A. now apply IH. Qed.
Lemma caps_psq ps : nocap_loops ps -> forall g, caps_sq (psq ps g) = seq g (pcap ps).
Proof.
  induction ps as [|[f|gs plus] ps IH]; intros N g; [reflexivity| |]; inversion N; subst; unfold pcap in *; cbn [psq filter p_cap].
  - destruct (f_cap f); cbn [caps_sq caps_atom caps caps_br one_sq length seq app]; [|now apply IH]. f_equal. now apply IH.
  - cbn [caps_sq caps_atom caps caps_br]. rewrite caps_fnocap by assumption. cbn [app]. now apply IH.
Qed.
Lemma sure_psq ps : forall g k, g <= k < g + pcap ps -> existsb (Nat.eqb k) (sure_sq (psq ps g)) = true.
Proof.
  unfold pcap. induction ps as [|[f|gs plus] ps IH]; intros g k Hk; cbn [filter p_cap length] in Hk; [lia| |]; cbn [psq].
  - destruct (f_cap f); cbn [length] in Hk.
    + cbn [sure_sq sure_atom]. cbn [app existsb]. rewrite existsb_app. destruct (Nat.eqb_spec k g); [reflexivity|]. rewrite IH by lia. now rewrite orb_true_r.
    + cbn [sure_sq sure_atom]. destruct (am_quant _); cbn [app]; [now apply IH|]. destruct (_ =? _)%N; cbn [app]; now apply IH.
  - cbn [sure_sq sure_atom]. unfold lp_quant. rewrite existsb_app, (IH g k) by exact Hk. apply orb_true_r.
Qed.
Lemma prx_caps a d ps : parted d ps = true -> caps (prx a ps) = seq 0 (pcap ps).
Proof. intro H. cbn [prx caps caps_br]. apply caps_psq. now apply (parted_nocap d). Qed.
Lemma prx_covers a d ps : parted d ps = true -> covers (prx a ps) = true.
Proof.
  intro H. unfold covers. rewrite (prx_caps a d ps H), seq_length. cbn [prx sure sure_br]. apply forallb_forall. intros k Hk. apply in_seq in Hk. apply sure_psq. lia.
Qed.
Lemma wf_psq d ps : forall g, parted d ps = true -> wf_sq (psq ps g) = true.
Proof.
  induction ps as [|[f|gs plus] ps IH]; intros g H; [reflexivity| |].
  - apply parted_f in H as (F & H & _). destruct (fok_eok f F) as [E Q]. unfold eok in E. apply andb_true_iff in E as [E _].
    cbn [psq]. destruct (f_cap f); cbn [wf_sq wf_atom wf wf_br one_sq quant_ok]; rewrite E, Q, IH by exact H; reflexivity.
  - apply parted_l in H as (h & t & -> & K & _ & _ & _ & H). cbn [psq wf_sq wf_atom]. rewrite IH by exact H. pose proof (wf_fsq (h :: t) 0 (lo_fok _ _ K)) as W.
    assert (X : wf (ROne (Br false (fsq (h :: t) 0))) = true).
    { cbn [wf wf_br]. cbn [fsq] in *. rewrite (lk_hcap h t K) in *. exact W. }
    rewrite X. unfold lp_quant. destruct plus; reflexivity.
Qed.
Lemma wf_prx a d ps : ps <> [] -> parted d ps = true -> wf (prx a ps) = true.
Proof.
  intros N H. unfold prx. cbn [wf wf_br]. pose proof (wf_psq d ps 0 H). destruct (psq ps 0) eqn:E; [|assumption].
  destruct ps as [|[f|gs plus] ps]; [congruence| |]; cbn [psq] in E; [destruct (f_cap f)|]; discriminate.
Qed.
Lemma nopos_fsq fs : forall g, nopos_sq (fsq fs g) = true.
Proof. induction fs as [|f fs IH]; intro g; [reflexivity|]. cbn [fsq]. unfold one_sq. destruct (f_cap f), (f_am f); cbn [nopos_sq nopos_atom nopos nopos_br am_quant]; rewrite IH; reflexivity. Qed.
Lemma nopos_prx a ps : nopos (prx a ps) = true.
Proof.
  assert (S : forall ps g, nopos_sq (psq ps g) = true).
  { clear. induction ps as [|[f|gs plus] ps IH]; intro g; [reflexivity| |]; cbn [psq].
    - unfold one_sq. destruct (f_cap f), (f_am f); cbn [nopos_sq nopos_atom nopos nopos_br am_quant]; rewrite IH; reflexivity.
    - cbn [nopos_sq nopos_atom nopos nopos_br]. rewrite nopos_fsq, IH. reflexivity. }
  unfold prx. cbn [nopos nopos_br]. apply S.
Qed.
Lemma pchain0_d d ps : parted d ps = true -> forall g, tree_sq_d (psq ps g) = match pchain0 ps g true with Some n => n | None => dollar end.
Proof.
  induction ps as [|[f|gs plus] ps IH]; intros H g; [reflexivity| |].
  - apply parted_f in H as (F & H & _). specialize (IH H). cbn [psq pchain0]. unfold funit0, nextg. destruct (f_cap f).
    + cbn [tree_sq_d tree_quant tree_atom tree_bs tree_br tree_sq one_sq followed]. rewrite IH. unfold inner0, leaf. rewrite tree_body.
      destruct (pchain0 ps (S g) true) eqn:E; [reflexivity|]. destruct ps as [|[]]; discriminate.
    + cbn [tree_sq_d tree_atom]. rewrite IH. unfold inner0, leaf. rewrite tree_body. destruct (pchain0 ps g true) eqn:E; [reflexivity|]. destruct ps as [|[]]; discriminate.
  - apply parted_l in H as (h & t & -> & K & _ & _ & _ & H). specialize (IH H). cbn [psq pchain0 tree_sq_d]. rewrite tree_loop, IH.
    destruct (pchain0 ps g true) eqn:E; [|destruct ps as [|[]]; discriminate]. unfold lp_quant. destruct plus; reflexivity.
Qed.
Lemma pchain0_n d ps : parted d ps = true -> forall g, tree_sq (psq ps g) = pchain0 ps g false.
Proof.
  induction ps as [|[f|gs plus] ps IH]; intros H g; [reflexivity| |].
  - apply parted_f in H as (F & H & _). specialize (IH H). cbn [psq pchain0]. unfold funit0, nextg. destruct (f_cap f).
    + cbn [tree_sq tree_quant tree_atom tree_bs tree_br one_sq]. rewrite IH. unfold inner0, leaf. rewrite tree_body. reflexivity.
    + cbn [tree_sq tree_atom]. rewrite IH. unfold inner0, leaf. now rewrite tree_body.
  - apply parted_l in H as (h & t & -> & K & _ & _ & _ & H). specialize (IH H). cbn [psq pchain0]. 
    change (Some (followed (tree_quant (lp_quant plus) (tree_atom (ANon (ROne (Br false (fsq (h :: t) 0)))))) (tree_sq (psq ps g))) = Some (Greedy (m0 (h :: t)) (if plus then 1 else 0)%N UMAX (kids (pchain0 ps g false)))).
    rewrite tree_loop, IH. destruct (pchain0 ps g false); unfold lp_quant; destruct plus; reflexivity.
Qed.
Lemma pchain0_some ps g d : ps <> [] -> exists n, pchain0 ps g d = Some n.
Proof. destruct ps as [|[]]; [congruence| |]; cbn; eauto. Qed.
Lemma pchain_null ps g d n : parted d ps = true -> p_first ps = true -> pchain ps g d = Some n -> nonnull n = true.
Proof.
  intros H P E. destruct ps as [|[f|gs plus] r]; [discriminate P| |]; cbn [p_first p_req] in P; cbn [pchain] in E.
  - apply parted_f in H as (F & H & _). assert (X : n = funit (pempty (f_el f) (pchain0 r (nextg f g) d)) f g (kids (pchain r (nextg f g) d))) by congruence. subst n.
    unfold nonnull. destruct (unit_head (pempty (f_el f) (pchain0 r (nextg f g) d)) f g (kids (pchain r (nextg f g) d)) F P) as (Q & l & ->). reflexivity.
  - apply parted_l in H as (h & t & -> & K & _). assert (X : n = lnode (lempty (h :: t) (pchain0 r g d)) (h :: t) plus (kids (pchain r g d))) by congruence. subst n plus.
    destruct (bm_head h t K) as (Q & l & HQ & _). unfold nonnull, lnode.
    assert (M1 : minp 1 (pre (bm (h :: t))) <> []).
    { unfold minp. change (N.to_nat (N.min 1 8)) with 1. cbn [powp]. unfold seqp. destruct (snd (pre (bm (h :: t)))); cbn [fst]; rewrite HQ; discriminate. }
    destruct (lempty _ _); cbn [pre uset N.eqb fst]; destruct (minp 1 (pre (bm (h :: t)))); congruence.
Qed.
Lemma lnode_gidx p h t plus cs : loopok h t -> gidx (lnode p (h :: t) plus cs) = flat_map gidx cs.
Proof. intro K. pose proof (bm_nog h t K) as N. unfold nog in N. destruct (gidx (bm (h :: t))) eqn:E; [|discriminate]. unfold lnode. destruct p; cbn [gidx]; rewrite E; reflexivity. Qed.
Lemma pchain_gidx d ps : parted d ps = true -> forall g, length (flat_map gidx (kids (pchain ps g d))) = pcap ps.
Proof.
  unfold pcap. induction ps as [|[f|gs plus] r IH]; intros H g; [destruct d; reflexivity| |]; cbn [pchain kids flat_map filter p_cap]; rewrite app_nil_r.
  - apply parted_f in H as (F & H & _). specialize (IH H (nextg f g)). unfold funit. destruct (f_cap f).
    + cbn [gidx]. rewrite inner_gidx. cbn [flat_map app length]. now rewrite IH.
    + now rewrite inner_gidx.
  - apply parted_l in H as (h & t & -> & K & _ & _ & _ & H). rewrite (lnode_gidx _ h t plus _ K). now apply IH.
Qed.
(** With $ ... *)
Lemma tree_prx_d ps n0 : parts_ok true ps = true -> pchain0 ps 0 true = Some n0 -> tree_d (renumber (prx true ps)) = SimpleV [Simple (Term TStart) [n0]].
Proof. intros H E. rewrite (renumber_prx true true ps H). destruct (parts_split true ps H) as (P & _). unfold tree_d, prx. cbn [tree_bs_d tree_br_d]. rewrite (pchain0_d true ps P), E. reflexivity. Qed.
Lemma ctree_prx_d ps n : parts_ok true ps = true -> pchain ps 0 true = Some n -> ctree_d (prx true ps) = Simple (Term TStart) [n].
Proof.
  intros H E. destruct (parts_split true ps H) as (P & C & O & N). destruct (pchain0_some ps 0 true N) as (n0 & E0). pose proof (opt_pchain ps 0 true P) as X.
  rewrite E0, E in X. cbn [option_map] in X. assert (X' : optimize n0 [] = n) by congruence. unfold ctree_d. rewrite (tree_prx_d ps n0 H E0).
  change (Simple (Term TStart) [optimize n0 []] = Simple (Term TStart) [n]). now rewrite X'.
Qed.
Lemma prx_groups_d ps n : parts_ok true ps = true -> pchain ps 0 true = Some n -> ngroups (ctree_d (prx true ps)) = pcap ps.
Proof.
  intros H E. rewrite (ctree_prx_d ps n H E), ngroups_gidx. cbn [gidx]. destruct (parts_split true ps H) as (P & _). pose proof (pchain_gidx true ps P 0) as X. rewrite E in X. exact X.
Qed.
Lemma pchain_some ps g d : ps <> [] -> exists n, pchain ps g d = Some n.
Proof. destruct ps as [|[]]; [congruence| |]; cbn; eauto. Qed.
Lemma pchain_node G d ps g n : parted d ps = true -> p_first ps = true -> g + pcap ps <= G -> pchain ps g d = Some n -> nodeok G d n.
Proof.
  intros H P B E. destruct ps as [|[f|gs plus] r]; [discriminate P| |].
  - (* as in pchain_ok *)
    pose proof (pchain_ok G d (PF f :: r) g H B) as T. apply parted_f in H as (F & H & R). unfold pcap in B. cbn [filter p_cap] in B. cbn [pchain] in E.
    assert (X : n = funit (pempty (f_el f) (pchain0 r (nextg f g) d)) f g (kids (pchain r (nextg f g) d))) by congruence. subst n. apply funit_ok; [exact F| | |].
    + apply pchain_ok; [exact H|]. unfold nextg, pcap. destruct (f_cap f); cbn [length] in B; lia.
    + intros Pe Ru. destruct (R Ru) as (Gr & Ap & La). assert (Fe : field_elem (f_el f) = true) by (unfold fok in F; now apply andb_true_iff in F).
      pose proof (inter_open (f_el f) r (nextg f g) d Fe H Gr Ap Pe) as O. specialize (La O). split; [now apply last_tidy|]. apply andb_true_iff in O as [D O]. rewrite D in H |- *.
      destruct (tail_dollar r (nextg f g) H Gr O) as (n & n0 & _ & E' & Cl & Gc & _). rewrite E'. exists n. unfold gcs. rewrite Gc. split; [reflexivity|]. split; [exact Cl|reflexivity].
    + intro Cp. rewrite Cp in B. cbn [length] in B. lia.
  - apply parted_l in H as (h & t & -> & K & Gr & Ap & _ & H). unfold pcap in B. cbn [filter p_cap] in B. cbn [pchain] in E.
    assert (X : n = lnode (lempty (h :: t) (pchain0 r g d)) (h :: t) plus (kids (pchain r g d))) by congruence. subst n. apply lnode_ok; [exact K|now apply pchain_ok|].
    intro Pe. unfold lempty in Pe. rewrite (m0_adm h t K) in Pe. pose proof (inter_open (f_el h) r g d (lk_fe h t K) H Gr Ap Pe) as O. apply andb_true_iff in O as [D O]. rewrite D in H |- *.
    destruct (tail_dollar r g H Gr O) as (n & n0 & _ & E' & Cl & Gc & _). rewrite E'. exists n. auto.
Qed.
Theorem prx_exact_d ps : parts_ok true ps = true -> exact_d (prx true ps) = true /\ gex (ctree_d (prx true ps)) = true.
Proof.
  intro H. destruct (parts_split true ps H) as (P & C & O & N). destruct (pchain0_some ps 0 true N) as (n0 & E0). destruct (pchain_some ps 0 true N) as (n & E).
  destruct (pchain_node (pcap ps) true ps 0 n P O (Nat.le_refl _) E) as [NG NA NI NS NX]. unfold exact_d. rewrite (prx_groups_d ps n H E), (ctree_prx_d ps n H E), (tree_prx_d ps n0 H E0), (wf_prx true true ps N P).
  pose proof (pchain_optok ps 0 true P) as OK. rewrite E0 in OK. cbn [kids forallb] in OK. rewrite andb_true_r in OK.
  assert (Kk : optok (SimpleV [Simple (Term TStart) [n0]]) [] FTot = true) by (cbn [optok forallb]; rewrite OK; reflexivity).
  rewrite Kk. split.
  - cbn [andb good is_start accins opt_small forallb]. unfold Checker.eats. rewrite (pchain_null ps 0 true n P O E), NG, NS. reflexivity.
  - cbn [gex forallb]. rewrite NX. apply orb_true_r.
Qed.
(** ... and without. *)
Lemma tree_prx a ps n0 : parts_ok false ps = true -> pchain0 ps 0 false = Some n0 -> tree (renumber (prx a ps)) = SimpleV [if a then Simple (Term TStart) [n0] else n0].
Proof. intros H E. rewrite (renumber_prx a false ps H). destruct (parts_split false ps H) as (P & _). unfold tree, prx. cbn [tree_bs tree_br]. rewrite (pchain0_n false ps P), E. destruct a; reflexivity. Qed.
Lemma ctree_prx a ps n : parts_ok false ps = true -> pchain ps 0 false = Some n -> ctree (prx a ps) = if a then Simple (Term TStart) [n] else n.
Proof.
  intros H E. destruct (parts_split false ps H) as (P & C & O & N). destruct (pchain0_some ps 0 false N) as (n0 & E0). pose proof (opt_pchain ps 0 false P) as X.
  rewrite E0, E in X. cbn [option_map] in X. assert (X' : optimize n0 [] = n) by congruence. unfold ctree. rewrite (tree_prx a ps n0 H E0). destruct a.
  - change (Simple (Term TStart) [optimize n0 []] = Simple (Term TStart) [n]). now rewrite X'.
  - change (optimize n0 [] = n). exact X'.
Qed.
Lemma prx_groups a ps n : parts_ok false ps = true -> pchain ps 0 false = Some n -> ngroups (ctree (prx a ps)) = pcap ps.
Proof.
  intros H E. rewrite (ctree_prx a ps n H E), ngroups_gidx. destruct (parts_split false ps H) as (P & _). pose proof (pchain_gidx false ps P 0) as X. rewrite E in X. cbn [kids flat_map] in X. rewrite app_nil_r in X.
  destruct a; [|exact X]. cbn [gidx flat_map]. rewrite app_nil_r. exact X.
Qed.
Theorem prx_exact a ps : parts_ok false ps = true -> exact (prx a ps) = true /\ gex (ctree (prx a ps)) = true.
Proof.
  intro H. destruct (parts_split false ps H) as (P & C & O & N). destruct (pchain0_some ps 0 false N) as (n0 & E0). destruct (pchain_some ps 0 false N) as (n & E).
  destruct (pchain_node (pcap ps) false ps 0 n P O (Nat.le_refl _) E) as [NG NA NI NS NX]. unfold exact. rewrite (prx_groups a ps n H E), (ctree_prx a ps n H E), (tree_prx a ps n0 H E0), (wf_prx a false ps N P).
  pose proof (pchain_optok ps 0 false P) as OK. rewrite E0 in OK. cbn [kids forallb] in OK. rewrite andb_true_r in OK. pose proof (pchain_null ps 0 false n P O E) as NN. destruct a.
  - assert (Kk : optok (SimpleV [Simple (Term TStart) [n0]]) [] FTot = true) by (cbn [optok forallb]; rewrite OK; reflexivity).
    rewrite Kk. split.
    + cbn [andb good is_start accins opt_small forallb]. unfold Checker.eats. rewrite NN, NG, NS. reflexivity.
    + cbn [gex forallb]. rewrite NX. apply orb_true_r.
  - assert (Kk : optok (SimpleV [n0]) [] FTot = true) by (cbn [optok forallb]; rewrite OK; reflexivity).
    rewrite Kk, NG, NA, NS. split; [reflexivity|exact NX].
Qed.
