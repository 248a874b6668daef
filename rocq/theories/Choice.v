(** Patterns of fields that may overlap (SpecChoice.v): their trees, and that the optimiser and
    the matcher handle them as specified. *)
From Coq Require Import ZArith NArith List Bool Lia ZifyBool ZifyNat ZifyN.
From Verif Require Import Base Text Ast Builder Engine Spec SpecProofs SpecEnd Tree Den Checker AstProofs EngineMain Runs Mono Supported Heads Families End EndD SpecFields SpecChoice Fields FieldsPre ChoiceSem.
Import ListNotations.
Open Scope nat_scope.

(** * The characters the library compares *)
Lemma seen_adm x c : field_elem x = true -> seen x c = true -> In c (nadm (body x)).
Proof.
  unfold field_elem. rewrite andb_true_iff. intros [O F] S. destruct x as [a|a| |neg items|p q r|p q]; cbn [body elem_ok seen elem_set] in *.
  - cbn [nadm term_adm]. rewrite (kind_lit a O). left. now apply Z.eqb_eq in S.
  - apply (esc_adm a c O). exact S.
  - cbn [nadm]. change (In c (adm_range 0 127)). apply adm_range_in. lia.
  - apply andb_true_iff in O as [O N]. destruct items as [|i items]; [discriminate N|]. assert (Oi : citem_ok i = true) by (cbn [forallb] in O; lia). destruct neg; cbn [seen] in S.
    + change (In c (adm_complement (nadm (SimpleV (map tree_citem (i :: items)))))). rewrite class_adm by exact O. apply andb_true_iff in F as [_ F].
      apply andb_true_iff in S as [S1 S2]. apply complement_in; [now apply citem_asc| |].
      * apply Forall_forall. intros y Hy. apply citem_adm in Hy; [|exact Oi]. apply (head7 i items y Oi); [|exact Hy]. destruct i; exact F.
      * split; [lia|]. intro I. apply citem_adm in I; [|exact Oi]. rewrite I in S2. discriminate.
    + rewrite class_adm by exact O. now apply citem_adm.
  - cbn [nadm term_adm In]. left. now apply Z.eqb_eq in S.
  - cbn [nadm term_adm In]. left. now apply Z.eqb_eq in S.
Qed.
Lemma body_asc x : field_elem x = true -> asc (nadm (body x)).
Proof. unfold field_elem. rewrite andb_true_iff. intros [O _]. pose proof (elem_asc x O) as A. rewrite tree_body in A. exact A. Qed.
Lemma not_apart P Q : apart P Q = false -> exists c, P c = true /\ Q c = true.
Proof.
  unfold apart. intro H. assert (X : existsb (fun c => P c && Q c) chars = true).
  { revert H. generalize chars. induction l as [|c l IH]; cbn; [discriminate|]. destruct (P c && Q c); [reflexivity|]. exact IH. }
  apply existsb_exists in X as (c & _ & X). apply andb_true_iff in X. eauto.
Qed.
Lemma empty_out (c : chr) s : In c s -> adm_empty s = true -> False.
Proof. destruct s; [intros []|]. discriminate. Qed.

(** * The trees *)
Definition cinner0 (c : choice) : node := tree_quant (cq c) (leaf (ch_f c)).
Definition cunit0 (c : choice) (g : nat) : node := if f_cap (ch_f c) then Group (SimpleV [cinner0 c]) g [] else cinner0 c.
Fixpoint cchain0 (cs : list choice) (g : nat) (d : bool) : option node :=
  match cs with
  | [] => if d then Some dollar else None
  | c :: r => Some (followed (cunit0 c g) (cchain0 r (nextg (ch_f c) g) d))
  end.
Lemma cchain0_d cs : forall g, tree_sq_d (csq cs g) = match cchain0 cs g true with Some n => n | None => dollar end.
Proof.
  induction cs as [|c cs IH]; intro g; [reflexivity|]. cbn [csq cchain0]. unfold cunit0, nextg. destruct (f_cap (ch_f c)).
  - cbn [tree_sq_d tree_quant tree_atom tree_bs tree_br tree_sq cone followed]. rewrite IH. unfold cinner0, leaf. rewrite tree_body.
    destruct (cchain0 cs (S g) true) eqn:E; [reflexivity|]. destruct cs; discriminate.
  - cbn [tree_sq_d tree_atom]. rewrite IH. unfold cinner0, leaf. rewrite tree_body.
    destruct (cchain0 cs g true) eqn:E; [reflexivity|]. destruct cs; discriminate.
Qed.
Lemma cchain0_n cs : forall g, tree_sq (csq cs g) = cchain0 cs g false.
Proof.
  induction cs as [|c cs IH]; intro g; [reflexivity|]. cbn [csq cchain0]. unfold cunit0, nextg. destruct (f_cap (ch_f c)).
  - cbn [tree_sq tree_quant tree_atom tree_bs tree_br cone]. rewrite IH. unfold cinner0, leaf. rewrite tree_body. reflexivity.
  - cbn [tree_sq tree_atom]. rewrite IH. unfold cinner0, leaf. now rewrite tree_body.
Qed.
Definition cmin (c : choice) : N := match f_am (ch_f c) with Plus => 1 | _ => 0 end.
(** Is the run made possessive? *)
Definition cp (c : choice) (t : option node) : bool :=
  if ch_lazy c
  then adm_empty (adm_inter (nadm (Lazy (leaf (ch_f c)) (cmin c) UMAX (if f_cap (ch_f c) then [] else kids t))) (extract_adm (map nadm (kids t))))
  else pempty (f_el (ch_f c)) t.
Definition cunit (p : bool) (c : choice) (g : nat) (cs : list node) : node :=
  if ch_lazy c && negb p
  then if f_cap (ch_f c) then Group (Lazy (unode (f_el (ch_f c))) (cmin c) UMAX []) g cs else Lazy (unode (f_el (ch_f c))) (cmin c) UMAX cs
  else funit p (ch_f c) g cs.
Fixpoint cchain (cs : list choice) (g : nat) (d : bool) : option node :=
  match cs with
  | [] => if d then Some (Term TEnd) else None
  | c :: r => Some (cunit (cp c (cchain0 r (nextg (ch_f c) g) d)) c g (kids (cchain r (nextg (ch_f c) g) d)))
  end.
Lemma cunit0_eager c g : ch_lazy c = false -> cunit0 c g = funit0 (ch_f c) g.
Proof. intro Lz. unfold cunit0, funit0, cinner0, inner0, cq. now rewrite Lz. Qed.
Lemma opt_cunit c g t : cok c = true -> optimize (followed (cunit0 c g) t) [] = cunit (cp c t) c g (map (fun n => optimize n []) (kids t)).
Proof.
  intro K. unfold cunit, cp. destruct (ch_lazy c) eqn:Lz; [|rewrite cunit0_eager by exact Lz; apply opt_unit]. pose proof (cok_lazy c K Lz) as R.
  unfold cunit0, funit, cinner0, inner, leaf, runnode, cq, cmin, is_run in *. rewrite Lz. destruct (f_cap (ch_f c)), (f_am (ch_f c)); try discriminate R;
  destruct t as [n|]; cbn [tree_quant mkq pol_of kind_min kind_max umax_of followed app optimize map kids]; rewrite ?opt_body; cbn [andb negb]; destruct (adm_empty _); reflexivity.
Qed.
Lemma opt_cchain cs : forall g d, cokl cs = true -> option_map (fun n => optimize n []) (cchain0 cs g d) = cchain cs g d.
Proof.
  induction cs as [|c r IH]; intros g d F; [destruct d; reflexivity|]. cbn [cokl forallb] in F. apply andb_true_iff in F as [F1 F2].
  specialize (IH (nextg (ch_f c) g) d F2). cbn [cchain0 cchain option_map]. rewrite (opt_cunit c g _ F1). f_equal. f_equal.
  rewrite <- IH. destruct (cchain0 r (nextg (ch_f c) g) d); reflexivity.
Qed.
(** The characters of a required field. *)
Lemma cfollowed_adm c g t : cok c = true -> required (ch_f c) = true -> nadm (followed (cunit0 c g) t) = nadm (body (f_el (ch_f c))).
Proof.
  intros K R. pose proof (cok_fok c K) as Kf. unfold fok in Kf. apply andb_true_iff in Kf as [Kf _]. destruct (ch_lazy c) eqn:Lz; [|rewrite cunit0_eager by exact Lz; now apply followed_adm].
  pose proof (cok_lazy c K Lz) as Ru. unfold cunit0, cinner0, cq, leaf, is_run, required in *. rewrite Lz. destruct (f_cap (ch_f c)), (f_am (ch_f c)); try discriminate Ru; try discriminate R;
  destruct t as [n|]; reflexivity.
Qed.
(** A possessive run shares none of the characters the library sees. *)
Lemma cp_apart c h g t : cok c = true -> cok h = true -> required (ch_f h) = true -> cp c (Some (followed (cunit0 h g) t)) = true ->
  apart (seen (f_el (ch_f c))) (seen (f_el (ch_f h))) = true.
Proof.
  intros Kc Kh R P. destruct (apart _ _) eqn:A; [reflexivity|exfalso]. destruct (not_apart _ _ A) as (z & S1 & S2).
  pose proof (cok_fok c Kc) as K1. pose proof (cok_fok h Kh) as K2. unfold fok in K1, K2. apply andb_true_iff in K1 as [K1 _], K2 as [K2 _].
  apply (seen_adm _ _ K1) in S1. apply (seen_adm _ _ K2) in S2. pose proof (body_asc _ K1) as A1. pose proof (body_asc _ K2) as A2.
  pose proof (cfollowed_adm h g t Kh R) as N. unfold cp in P. set (n := followed (cunit0 h g) t) in *. destruct (ch_lazy c).
  - revert P. cbn [kids map]. unfold extract_adm at 1. cbn [fold_right]. rewrite merge_nil_r, N. apply (empty_out z). apply inter_in.
    + cbn [nadm leaf]. destruct (N.eqb (cmin c) 0); [|exact A1]. unfold extract_adm. cbn [fold_right]. apply merge_asc; [exact A1|].
      destruct (f_cap (ch_f c)); cbn [map fold_right]; [constructor|]. now rewrite merge_nil_r, N.
    + exact A2.
    + split; [|exact S2]. cbn [nadm leaf]. destruct (N.eqb (cmin c) 0); [|exact S1]. unfold extract_adm. cbn [fold_right]. apply merge_in. now left.
  - revert P. rewrite pempty_one, N. apply (empty_out z). now apply inter_in.
Qed.
Lemma cp_wide c h g t : cok c = true -> cok h = true -> ch_lazy c = false -> required (ch_f h) = true -> apart (wide (f_el (ch_f c))) (wide (f_el (ch_f h))) = true ->
  cp c (Some (followed (cunit0 h g) t)) = true.
Proof.
  intros Kc Kh Lz R A. pose proof (cok_fok c Kc) as K1. pose proof (cok_fok h Kh) as K2. unfold fok in K1, K2. apply andb_true_iff in K1 as [K1 _], K2 as [K2 _].
  unfold cp. rewrite Lz, pempty_one, (cfollowed_adm h g t Kh R), (inter_apart _ _ K1 K2 A). reflexivity.
Qed.
(** What comes after a field. *)
Definition cgap (d : bool) (c : choice) (r : list choice) : Prop :=
  is_run (ch_f c) = true -> match r with h :: _ => run_ok (ch_f c) (ch_f h) (ch_lazy c) = true | [] => last_run d c = true end.
Fixpoint cgaps (d : bool) (cs : list choice) : Prop := match cs with [] => True | c :: r => cgap d c r /\ cgaps d r end.
Lemma chosen_gaps d cs : chosen d cs = true -> cgaps d cs.
Proof.
  induction cs as [|c r IH]; intro H; [exact Logic.I|]. cbn [chosen] in H. apply andb_true_iff in H as [H1 H2]. split; [|now apply IH].
  intro R. rewrite R in H1. cbn [negb orb] in H1. destruct r; exact H1.
Qed.
Lemma single_req h : single h = true -> required h = true.
Proof. unfold single, required. destruct (f_am h); (discriminate || reflexivity). Qed.
(** [run_ok] and the decision of the optimiser. *)
Lemma gap_cases c h g t : cok c = true -> cok h = true -> run_ok (ch_f c) (ch_f h) (ch_lazy c) = true ->
  required (ch_f h) = true
  /\ (cp c (Some (followed (cunit0 h g) t)) = true -> apart (elem_set (f_el (ch_f c))) (elem_set (f_el (ch_f h))) = true)
  /\ (cp c (Some (followed (cunit0 h g) t)) = false -> single (ch_f h) = true /\ steady (f_el (ch_f h)) = true /\ (ch_lazy c || steady (f_el (ch_f c))) = true).
Proof.
  intros Kc Kh H. unfold run_ok in H. apply orb_true_iff in H as [H|H].
  - rewrite !andb_true_iff in H. destruct H as [[Lz R] A]. apply negb_true_iff in Lz. split; [exact R|]. rewrite (cp_wide c h g t Kc Kh Lz R A). split; [|discriminate]. intros _.
    unfold apart in *. rewrite forallb_forall in *. intros z Hz. specialize (A z Hz). pose proof (elem_wide (f_el (ch_f c)) z) as E1. pose proof (elem_wide (f_el (ch_f h)) z) as E2.
    destruct (elem_set (f_el (ch_f c)) z), (elem_set (f_el (ch_f h)) z); try reflexivity. now rewrite E1, E2 in A by reflexivity.
  - rewrite !andb_true_iff in H. destruct H as [[[S1 S2] S3] S4]. pose proof (single_req _ S1) as R. split; [exact R|]. split; [|auto].
    intro P. pose proof (cp_apart c h g t Kc Kh R P) as A. rewrite A in S4. cbn [negb] in S4. now rewrite orb_false_r in S4.
Qed.

(** * The optimiser keeps the meaning *)
Lemma chead0 c g t : cok c = true -> required (ch_f c) = true -> exists P l, fst (pre (followed (cunit0 c g) t)) = P :: l /\ forall z, P z = elem_set (f_el (ch_f c)) z.
Proof.
  intros K R. pose proof (cok_fok c K) as Kf. destruct (ch_lazy c) eqn:Lz; [|rewrite cunit0_eager by exact Lz; now apply head0].
  destruct (fok_eok _ Kf) as [E _]. assert (O : elem_ok (f_el (ch_f c)) = true) by (unfold eok in E; lia).
  destruct (body_set _ O) as (P & U & X). assert (PL : pre (leaf (ch_f c)) = ([P], true)) by (unfold leaf; cbn [pre uset]; rewrite U; reflexivity).
  pose proof (cok_lazy c K Lz) as Ru. exists P, []. split; [|exact X].
  assert (PP : forall cs, fst (pre (Lazy (leaf (ch_f c)) 1 UMAX cs)) = [P]) by (intro cs; change (minp 1 (pre (leaf (ch_f c))) = [P]); now rewrite PL).
  assert (SP : forall cs, snd (pre (Lazy (leaf (ch_f c)) 1 UMAX cs)) = false) by reflexivity.
  unfold cunit0, cinner0, cq, is_run, required in *. rewrite Lz. destruct (f_cap (ch_f c)), (f_am (ch_f c)); try discriminate Ru; try discriminate R;
    cbn [tree_quant mkq pol_of kind_min kind_max umax_of]; destruct t as [n|]; cbn [followed app]; try apply PP.
  - change (fst (seqp (pre (Lazy (leaf (ch_f c)) 1 UMAX [])) (orsp (map pre [n]))) = [P]). unfold seqp. rewrite SP. apply PP.
  - change (fst (seqp (pre (Lazy (leaf (ch_f c)) 1 UMAX [])) (orsp (map pre []))) = [P]). unfold seqp. rewrite SP. apply PP.
Qed.
Lemma cinner_optok c inj F (R : is_run (ch_f c) = true) : cok c = true ->
  ((if ch_lazy c then adm_empty (adm_inter (nadm (Lazy (leaf (ch_f c)) (cmin c) UMAX [])) (extract_adm (map nadm inj)))
    else adm_empty (adm_inter (nadm (body (f_el (ch_f c)))) (extract_adm (map nadm inj)))) = true -> no_retry (unode (f_el (ch_f c))) F (negb (ch_lazy c)) = true) ->
  optok (cinner0 c) inj F = true.
Proof.
  intros K H. unfold cinner0, cq, cmin, is_run in *. destruct (ch_lazy c), (f_am (ch_f c)); try discriminate R; cbn [am_quant tree_quant mkq pol_of kind_min kind_max umax_of optok forallb app]; rewrite !leaf_all;
    change (folk [] F) with F; rewrite opt_leaf; cbn [negb] in H; destruct (adm_empty _) eqn:E; try reflexivity; rewrite H by (exact E || reflexivity); now rewrite orb_true_r.
Qed.
Lemma cunit_optok c g t : cok c = true -> (is_run (ch_f c) = true -> cp c t = true -> no_retry (unode (f_el (ch_f c))) (folk (kids t) FTot) (negb (ch_lazy c)) = true) ->
  forallb (fun n => optok n [] FTot) (kids t) = true -> optok (followed (cunit0 c g) t) [] FTot = true.
Proof.
  intros K H C. destruct (is_run (ch_f c)) eqn:R.
  - specialize (H eq_refl). unfold cunit0, cp in *. destruct (f_cap (ch_f c)) eqn:Cp.
    + assert (X : optok (Group (SimpleV [cinner0 c]) g (kids t)) [] FTot = true).
      { cbn [optok]. rewrite C, app_nil_r. rewrite cinner_optok; [reflexivity|exact R|exact K|]. intro E. apply H. destruct (ch_lazy c); exact E. }
      destruct t; exact X.
    + destruct t as [n|].
      * cbn [kids] in *. unfold pempty in H. cbn [kids] in H. unfold cinner0, cq, cmin, is_run in *. destruct (ch_lazy c), (f_am (ch_f c)); try discriminate R; cbn [am_quant tree_quant mkq pol_of kind_min kind_max umax_of followed app optok];
          rewrite !leaf_all, C, opt_leaf; cbn [negb app] in *; destruct (adm_empty _) eqn:E; try reflexivity; rewrite H by (exact E || reflexivity); now rewrite orb_true_r.
      * apply cinner_optok; [exact R|exact K|]. intro E. apply H. destruct (ch_lazy c); exact E.
  - assert (Lz : ch_lazy c = false) by (destruct (ch_lazy c) eqn:Lz; [rewrite (cok_lazy c K Lz) in R; discriminate|reflexivity]).
    rewrite cunit0_eager by exact Lz. apply unit_optok; [now apply cok_fok|rewrite R; discriminate|exact C].
Qed.
Lemma cchain_optok cs : forall g d n, cokl cs = true -> cgaps d cs -> cs <> [] -> cchain0 cs g d = Some n -> optok n [] FTot = true.
Proof.
  induction cs as [|c r IH]; intros g d n F G N E; [congruence|]. cbn [cokl forallb] in F. apply andb_true_iff in F as [F1 F2]. destruct G as [G1 G2].
  cbn [cchain0] in E. injection E as <-. destruct (fok_eok _ (cok_fok c F1)) as [EF _]. apply cunit_optok; [exact F1| |].
  - intros R P. specialize (G1 R). destruct r as [|h r].
    + unfold last_run in G1. destruct d.
      * cbn [cchain0 kids]. apply andb_true_iff in G1 as [G1 _].
        change (folk [dollar] FTot) with (FSet (fun x => Z.eqb c_nl x || false)).
        assert (X : no_retry (unode (f_el (ch_f c))) (FSet (fun x => Z.eqb c_nl x || false)) true = true); [|exact X].
        apply retry_set; [exact EF|]. unfold disj. apply forallb_forall. intros z _.
        rewrite orb_false_r. destruct (Z.eqb_spec c_nl z) as [<-|]; [|reflexivity]. apply negb_true_iff in G1. change c_nl with 10%Z. rewrite G1. reflexivity.
      * cbn [cchain0 kids]. rewrite G1. reflexivity.
    + cbn [forallb] in F2. apply andb_true_iff in F2 as [F2 _]. cbn [cchain0] in P. destruct (gap_cases c h (nextg (ch_f c) g) (cchain0 r (nextg (ch_f h) (nextg (ch_f c) g)) d) F1 F2 G1) as (Q & A & _). specialize (A P).
      destruct (chead0 h (nextg (ch_f c) g) (cchain0 r (nextg (ch_f h) (nextg (ch_f c) g)) d) F2 Q) as (P0 & l & PH & X).
      cbn [cchain0 kids]. set (n := followed (cunit0 h (nextg (ch_f c) g)) (cchain0 r (nextg (ch_f h) (nextg (ch_f c) g)) d)) in *.
      assert (EF1 : efirst n None = Some P0) by (destruct n; cbn [efirst]; rewrite PH; reflexivity).
      assert (FK : folk [n] FTot = FSet (fun x => P0 x || false)) by (unfold folk, efk; cbn [map ounions fold_right fset]; rewrite EF1; reflexivity).
      rewrite FK. assert (Y : no_retry (unode (f_el (ch_f c))) (FSet (fun x => P0 x || false)) true = true); [|exact Y].
      apply retry_set; [exact EF|]. apply (apart_disj (elem_set (f_el (ch_f h))) (elem_set (f_el (ch_f c)))).
      * intros z Hz. now rewrite orb_false_r, X in Hz.
      * auto.
      * now apply apart_sym.
  - destruct r as [|h r]; [destruct d; reflexivity|]. destruct (cchain0 (h :: r) (nextg (ch_f c) g) d) as [m|] eqn:E; [|reflexivity]. cbn [kids forallb].
    rewrite (IH (nextg (ch_f c) g) d m F2 G2 ltac:(discriminate) E). reflexivity.
Qed.

(** * The matcher handles them as specified *)
Lemma steady_tidy x : steady x = true -> tidy x = true.
Proof. destruct x as [| | |[] items| |]; cbn [steady tidy]; auto. Qed.
Section G.
Variables (G : nat) (d : bool).
Record choiceok (n : node) : Prop := {
  ck_good : forall pv, good G d n pv = true;
  ck_inj : noinj n = true;
  ck_small : opt_small n = true;
  ck_gex : gex n = true;
  ck_sure : forall k, In k (gidx n) -> In k (nsure n) }.
Lemma ck_tail n : choiceok n -> tailok G d [n].
Proof. intros [A B C D _]. constructor; [cbn; lia| | |cbn; now rewrite C|cbn; now rewrite D]; intros c [<-|[]]; assumption. Qed.
Lemma ck_gcs n : choiceok n -> gcs n = true.
Proof.
  intros [_ _ _ _ S]. unfold gcs, allsure. apply orb_true_iff. right. apply forallb_forall. intros k Hk. apply existsb_exists. exists k. split; [now apply S|apply Nat.eqb_refl].
Qed.
Lemma inner_sure p f cs k : length cs <= 1 -> (forall c, In c cs -> forall j, In j (gidx c) -> In j (nsure c)) -> In k (gidx (inner p f cs)) -> In k (nsure (inner p f cs)).
Proof.
  intros Ln S I. rewrite inner_gidx in I. destruct (tail_cases cs Ln) as [->|(c & ->)]; [destruct I|]. cbn [flat_map] in I. rewrite app_nil_r in I. apply (S c) in I; [|now left].
  unfold inner, runnode. destruct (f_am f); try destruct p; cbn [nsure]; auto; apply in_or_app; now right.
Qed.
Lemma cunit_sure p c g cs k : length cs <= 1 -> (forall n, In n cs -> forall j, In j (gidx n) -> In j (nsure n)) -> In k (gidx (cunit p c g cs)) -> In k (nsure (cunit p c g cs)).
Proof.
  intros Ln S I. unfold cunit, funit in *. destruct (ch_lazy c && negb p), (f_cap (ch_f c)).
  - cbn [gidx nsure flat_map] in *. rewrite unode_gidx in I. destruct I as [<-|I]; [now left|]. right. cbn [app] in *.
    destruct (tail_cases cs Ln) as [->|(n & ->)]; [destruct I|]. cbn [flat_map] in I. rewrite app_nil_r in I. apply (S n); [now left|exact I].
  - cbn [gidx nsure flat_map] in *. rewrite unode_gidx in I. cbn [app] in *. destruct (tail_cases cs Ln) as [->|(n & ->)]; [destruct I|]. cbn [flat_map] in I. rewrite app_nil_r in I. apply (S n); [now left|exact I].
  - cbn [gidx nsure]. destruct I as [<-|I]; [now left|]. right. rewrite inner_gidx in I. cbn [flat_map app] in I. apply in_or_app. right.
    destruct (tail_cases cs Ln) as [->|(n & ->)]; [destruct I|]. cbn [flat_map] in I. rewrite app_nil_r in I. apply (S n); [now left|exact I].
  - now apply inner_sure.
Qed.
(** A lazy run. *)
Lemma lazy_unit c g n : cok c = true -> ch_lazy c = true -> choiceok n -> clean n PAny = true -> (f_cap (ch_f c) = true -> g < G) -> choiceok (cunit false c g [n]).
Proof.
  intros K Lz N Cl Hg. destruct (fok_eok _ (cok_fok c K)) as [E _]. pose proof (eok_unit _ E) as U.
  assert (SU : forall k, In k (gidx (cunit false c g [n])) -> In k (nsure (cunit false c g [n]))).
  { intros k. apply cunit_sure; [cbn; lia|]. intros m [<-|[]]. apply (ck_sure _ N). }
  pose proof (ck_gcs n N) as Gc. destruct N as [NG NI NS NX NU]. unfold cunit in *. rewrite Lz in *. cbn [andb negb] in *. destruct (f_cap (ch_f c)).
  - specialize (Hg eq_refl). constructor; [| | | |exact SU].
    + intro pv. cbn [good]. rewrite !unit_good by exact E. rewrite (unit_det _ _ U), (unit_nonnull _ _ U), (ou_acc _ _ U), NG, NI. rewrite (proj2 (Nat.ltb_lt g G) Hg). reflexivity.
    + exact NI.
    + cbn [opt_small forallb]. now rewrite (ou_small _ _ U), NS.
    + cbn [gex forallb]. rewrite unode_nog, NX, Gc. apply orb_true_r.
  - constructor; [| | | |exact SU].
    + intro pv. cbn [good]. rewrite !unit_good by exact E. now rewrite (unit_det _ _ U), (unit_nonnull _ _ U), (ou_acc _ _ U), NG, Cl.
    + reflexivity.
    + cbn [opt_small forallb]. now rewrite (ou_small _ _ U), NS.
    + cbn [gex forallb]. rewrite gex_unit, NX, Gc. apply orb_true_r.
Qed.
Lemma eager_unit p c g cs : cok c = true -> ch_lazy c && negb p = false -> tailok G d cs -> (forall n, In n cs -> forall j, In j (gidx n) -> In j (nsure n)) ->
  greedy_ok p (ch_f c) cs -> (f_cap (ch_f c) = true -> g < G) -> choiceok (cunit p c g cs).
Proof.
  intros K Lz T S GO Hg. assert (SU : forall k, In k (gidx (cunit p c g cs)) -> In k (nsure (cunit p c g cs))) by (intro k; apply cunit_sure; [exact (tk_len _ _ _ T)|exact S]).
  unfold cunit in *. rewrite Lz in *. destruct (funit_ok G d p (ch_f c) g cs (cok_fok c K) T GO Hg) as [A B C D F]. constructor; assumption.
Qed.
Lemma end_ok : d = true -> choiceok (Term TEnd).
Proof. intro D. constructor; [intro; exact D|reflexivity|reflexivity|reflexivity|]. intros k []. Qed.
Lemma single_clean p h g cs : cok h = true -> single (ch_f h) = true -> steady (f_el (ch_f h)) = true -> clean (cunit p h g cs) PAny = true.
Proof.
  intros K S T. unfold single in S. destruct (ch_lazy h) eqn:Lz; [pose proof (cok_lazy h K Lz) as R; unfold is_run in R; destruct (f_am (ch_f h)); discriminate|].
  unfold cunit, funit, inner. rewrite Lz. cbn [andb]. destruct (f_am (ch_f h)); try discriminate S. apply negb_true_iff in S. rewrite S.
  pose proof (elem_clean _ PAny (steady_tidy _ T)) as X. destruct cs; exact X.
Qed.
Lemma cchain_ok cs : forall g n, cokl cs = true -> cgaps d cs -> cs <> [] -> g + ccap cs <= G -> cchain cs g d = Some n -> choiceok n.
Proof.
  induction cs as [|c r IH]; intros g n F Gp N B E; [congruence|]. cbn [cokl forallb] in F. apply andb_true_iff in F as [F1 F2]. destruct Gp as [G1 G2].
  cbn [cchain] in E. injection E as <-. rewrite ccap_cons in B.
  assert (Hg : f_cap (ch_f c) = true -> g < G) by (intro Cp; rewrite Cp in B; lia).
  destruct r as [|h r].
  - cbn [cchain cchain0]. destruct (Bool.bool_dec d true) as [D|D].
    + rewrite D. cbn [kids]. destruct (ch_lazy c && negb (cp c (Some dollar))) eqn:Z.
      * apply andb_true_iff in Z as [Z1 Z2]. apply negb_true_iff in Z2. rewrite Z2. apply lazy_unit; auto. now apply end_ok.
      * apply eager_unit; auto; [now apply tail_end| |].
        -- intros n [<-|[]] j [].
        -- intros P R. specialize (G1 R). unfold last_run in G1. rewrite D in G1. apply andb_true_iff in G1 as [_ G1]. rewrite P in Z. cbn [negb] in Z. rewrite andb_true_r in Z. rewrite Z in G1.
           split; [now apply steady_tidy|]. exists (Term TEnd). conj; reflexivity.
    + assert (d = false) as D' by (destruct d; [now elim D|reflexivity]). rewrite D'. cbn [kids].
      assert (PT : is_run (ch_f c) = true -> ch_lazy c = false /\ cp c None = true).
      { intro R. specialize (G1 R). unfold last_run in G1. rewrite D' in G1. apply negb_true_iff in G1. split; [exact G1|]. unfold cp. rewrite G1. unfold pempty. cbn [kids map]. change (extract_adm []) with (@nil chr). now rewrite inter_nil. }
      apply eager_unit; auto.
      * destruct (ch_lazy c) eqn:Lz; [|reflexivity]. destruct (PT (cok_lazy c F1 Lz)) as [X _]. discriminate X.
      * apply tail_nil.
      * intros n [].
      * intros P R. destruct (PT R) as [_ X]. congruence.
  - destruct (cchain (h :: r) (nextg (ch_f c) g) d) as [m|] eqn:E; [|discriminate E]. cbn [kids].
    assert (M : choiceok m) by (refine (IH (nextg (ch_f c) g) m F2 G2 ltac:(discriminate) _ E); unfold nextg; destruct (f_cap (ch_f c)); lia).
    cbn [forallb] in F2. apply andb_true_iff in F2 as [F2 _]. cbn [cchain0].
    assert (GC : is_run (ch_f c) = true -> cp c (Some (followed (cunit0 h (nextg (ch_f c) g)) (cchain0 r (nextg (ch_f h) (nextg (ch_f c) g)) d))) = false -> (ch_lazy c || steady (f_el (ch_f c))) = true /\ clean m PAny = true).
    { intros R P. specialize (G1 R). destruct (gap_cases c h (nextg (ch_f c) g) (cchain0 r (nextg (ch_f h) (nextg (ch_f c) g)) d) F1 F2 G1) as (_ & _ & Z). destruct (Z P) as (Z1 & Z2 & Z3). split; [exact Z3|]. cbn [cchain] in E. injection E as <-. now apply single_clean. }
    set (p := cp c _) in *. destruct (ch_lazy c && negb p) eqn:Z.
    + apply andb_true_iff in Z as [Z1 Z2]. apply negb_true_iff in Z2. rewrite Z2. apply lazy_unit; auto. apply GC; [now apply cok_lazy|exact Z2].
    + apply eager_unit; auto; [now apply ck_tail| |].
      * intros n [<-|[]]. apply (ck_sure _ M).
      * intros P R. destruct (GC R P) as [X Y]. rewrite P in Z. cbn [negb] in Z. rewrite andb_true_r in Z. rewrite Z in X. split; [now apply steady_tidy|]. exists m. split; [reflexivity|]. split; [exact Y|now apply ck_gcs].
Qed.
End G.

(** * The whole pattern *)
Lemma cunit_head p c g cs : cok c = true -> required (ch_f c) = true -> exists P l, fst (pre (cunit p c g cs)) = P :: l.
Proof.
  intros K R. pose proof (cok_fok c K) as F. unfold cunit. destruct (ch_lazy c) eqn:Lz; cbn [andb]; [|now apply unit_head]. destruct p; cbn [negb]; [now apply unit_head|].
  destruct (fok_eok _ F) as [E _]. destruct (pre_okunit _ _ (eok_unit _ E)) as (Q & PQ & _). exists Q, [].
  pose proof (cok_lazy c K Lz) as Ru. unfold cmin, is_run, required in *. destruct (f_am (ch_f c)); try discriminate Ru; try discriminate R.
  assert (PP : forall cs, fst (pre (Lazy (unode (f_el (ch_f c))) 1 UMAX cs)) = [Q]) by (intro x; change (minp 1 (pre (unode (f_el (ch_f c)))) = [Q]); now rewrite PQ).
  destruct (f_cap (ch_f c)); [|apply PP]. change (fst (seqp (pre (Lazy (unode (f_el (ch_f c))) 1 UMAX [])) (orsp (map pre cs))) = [Q]). unfold seqp.
  change (snd (pre (Lazy (unode (f_el (ch_f c))) 1 UMAX []))) with false. apply PP.
Qed.
Lemma cunit_eats p c g n : cok c = true -> is_run (ch_f c) = true -> nonnull n = true -> Checker.eats (cunit p c g [n]) = true.
Proof.
  intros K R Nn. destruct (required (ch_f c)) eqn:Rq.
  - unfold Checker.eats, nonnull. destruct (cunit_head p c g [n] K Rq) as (P & l & ->). reflexivity.
  - destruct (fok_eok _ (cok_fok c K)) as [E _]. destruct (pre_okunit _ _ (eok_unit _ E)) as (Q & PQ & _).
    unfold nonnull in Nn. destruct (fst (pre n)) as [|P l] eqn:Pn; [discriminate|].
    unfold cunit, funit, inner, runnode, cmin, is_run, required in *. destruct (f_cap (ch_f c)).
    + destruct (ch_lazy c && negb p); unfold Checker.eats, nonnull; rewrite Pn; apply orb_true_r.
    + destruct (f_am (ch_f c)); try discriminate R; try discriminate Rq. unfold Checker.eats, nonnull.
      destruct (ch_lazy c && negb p); [|destruct p].
      * change (fst (pre (Lazy (unode (f_el (ch_f c))) 0 UMAX [n]))) with (firstn 1 (zipu (fst (pre (unode (f_el (ch_f c))))) (fst (pre n)))). rewrite PQ, Pn. reflexivity.
      * change (fst (pre (Possessive (unode (f_el (ch_f c))) 0 UMAX [n]))) with (firstn 1 (zipu (fst (pre (unode (f_el (ch_f c))))) (fst (pre n)))). rewrite PQ, Pn. reflexivity.
      * change (fst (pre (Greedy (unode (f_el (ch_f c))) 0 UMAX [n]))) with (firstn 1 (zipu (fst (pre (unode (f_el (ch_f c))))) (fst (pre n)))). rewrite PQ, Pn. reflexivity.
Qed.
Lemma cchain_eats cs g d n : cokl cs = true -> starts cs = true -> cchain cs g d = Some n -> Checker.eats n = true.
Proof.
  intros F Hs E. destruct cs as [|c r]; [discriminate Hs|]. cbn [cchain] in E. injection E as <-. cbn [cokl forallb] in F. apply andb_true_iff in F as [F1 F2]. cbn [starts] in Hs.
  destruct (required (ch_f c)) eqn:R.
  - set (p := cp _ _). unfold Checker.eats, nonnull. destruct (cunit_head p c g (kids (cchain r (nextg (ch_f c) g) d)) F1 R) as (P & l & ->). reflexivity.
  - cbn [orb] in Hs. destruct r as [|h r]; [discriminate Hs|]. cbn [forallb] in F2. apply andb_true_iff in F2 as [F2 _].
    assert (Ru : is_run (ch_f c) = true) by (unfold required, is_run in *; destruct (f_am (ch_f c)); (discriminate || reflexivity)).
    cbn [cchain kids]. apply cunit_eats; auto. set (p := cp h _). unfold nonnull. destruct (cunit_head p h (nextg (ch_f c) g) (kids (cchain r (nextg (ch_f h) (nextg (ch_f c) g)) d)) F2 Hs) as (P & l & ->). reflexivity.
Qed.
Lemma choice_parts d cs : choice_ok d cs = true -> cokl cs = true /\ cgaps d cs /\ counted false (fields cs) = true /\ starts cs = true /\ cs <> [].
Proof.
  unfold choice_ok. rewrite !andb_true_iff. intros [[[A B] C] D]. split; [|split; [now apply chosen_gaps|]].
  - unfold cokl. rewrite forallb_forall in *. intros c Hc. specialize (A c Hc). unfold cok, fok. exact A.
  - conj; auto. intros ->. discriminate D.
Qed.
Lemma cchain0_some cs g d : cs <> [] -> exists n, cchain0 cs g d = Some n.
Proof. destruct cs; [congruence|]. cbn. eauto. Qed.
Lemma tree_crx a cs n0 : counted false (fields cs) = true -> cchain0 cs 0 false = Some n0 -> tree (renumber (crx a cs)) = SimpleV [if a then Simple (Term TStart) [n0] else n0].
Proof. intros C E. rewrite (renumber_crx a cs C). unfold tree, crx. cbn [tree_bs tree_br]. rewrite cchain0_n, E. destruct a; reflexivity. Qed.
Lemma tree_d_crx cs n0 : counted false (fields cs) = true -> cchain0 cs 0 true = Some n0 -> tree_d (renumber (crx true cs)) = SimpleV [Simple (Term TStart) [n0]].
Proof. intros C E. rewrite (renumber_crx true cs C). unfold tree_d, crx. cbn [tree_bs_d tree_br_d]. rewrite cchain0_d, E. reflexivity. Qed.
Lemma copt cs d n0 n : cokl cs = true -> cchain0 cs 0 d = Some n0 -> cchain cs 0 d = Some n -> optimize n0 [] = n.
Proof. intros F E0 E. pose proof (opt_cchain cs 0 d F) as X. rewrite E0, E in X. cbn [option_map] in X. congruence. Qed.
Lemma ctree_crx a cs n : choice_ok false cs = true -> cchain cs 0 false = Some n -> ctree (crx a cs) = if a then Simple (Term TStart) [n] else n.
Proof.
  intros H E. destruct (choice_parts false cs H) as (F & G & C & O & N). destruct (cchain0_some cs 0 false N) as (n0 & E0). pose proof (copt cs false n0 n F E0 E) as X.
  unfold ctree. rewrite (tree_crx a cs n0 C E0). destruct a.
  - change (Simple (Term TStart) [optimize n0 []] = Simple (Term TStart) [n]). now rewrite X.
  - change (optimize n0 [] = n). exact X.
Qed.
Lemma ctree_d_crx cs n : choice_ok true cs = true -> cchain cs 0 true = Some n -> ctree_d (crx true cs) = Simple (Term TStart) [n].
Proof.
  intros H E. destruct (choice_parts true cs H) as (F & G & C & O & N). destruct (cchain0_some cs 0 true N) as (n0 & E0). pose proof (copt cs true n0 n F E0 E) as X.
  unfold ctree_d. rewrite (tree_d_crx cs n0 C E0). change (Simple (Term TStart) [optimize n0 []] = Simple (Term TStart) [n]). now rewrite X.
Qed.
Lemma cunit_gidx p c g cs : gidx (cunit p c g cs) = (if f_cap (ch_f c) then [g] else []) ++ flat_map gidx cs.
Proof.
  unfold cunit, funit. destruct (ch_lazy c && negb p), (f_cap (ch_f c)); cbn [gidx flat_map]; rewrite ?unode_gidx, ?inner_gidx; reflexivity.
Qed.
Lemma cchain_gidx cs d : forall g, length (flat_map gidx (kids (cchain cs g d))) = ccap cs.
Proof.
  induction cs as [|c r IH]; intro g; [destruct d; reflexivity|]. specialize (IH (nextg (ch_f c) g)). rewrite ccap_cons. cbn [cchain kids flat_map]. rewrite app_nil_r, cunit_gidx, app_length, IH.
  destruct (f_cap (ch_f c)); reflexivity.
Qed.
Lemma crx_groups a cs n : choice_ok false cs = true -> cchain cs 0 false = Some n -> ngroups (ctree (crx a cs)) = ccap cs.
Proof.
  intros H E. rewrite (ctree_crx a cs n H E), ngroups_gidx. pose proof (cchain_gidx cs false 0) as X. rewrite E in X. cbn [kids flat_map] in X. rewrite app_nil_r in X. destruct a; [|exact X]. cbn [gidx flat_map]. rewrite app_nil_r. exact X.
Qed.
Lemma crx_groups_d cs n : choice_ok true cs = true -> cchain cs 0 true = Some n -> ngroups (ctree_d (crx true cs)) = ccap cs.
Proof.
  intros H E. rewrite (ctree_d_crx cs n H E), ngroups_gidx. cbn [gidx]. pose proof (cchain_gidx cs true 0) as X. rewrite E in X. exact X.
Qed.
Lemma cchain_some cs d : cokl cs = true -> cs <> [] -> exists n0 n, cchain0 cs 0 d = Some n0 /\ cchain cs 0 d = Some n.
Proof. intros F N. destruct (cchain0_some cs 0 d N) as (n0 & E). pose proof (opt_cchain cs 0 d F) as X. rewrite E in X. cbn in X. eauto. Qed.
Theorem crx_exact_d cs : choice_ok true cs = true -> exact_d (crx true cs) = true /\ gex (ctree_d (crx true cs)) = true /\ ngroups (ctree_d (crx true cs)) = ccap cs.
Proof.
  intro H. destruct (choice_parts true cs H) as (F & G & C & O & N). destruct (cchain_some cs true F N) as (n0 & n & E0 & E).
  destruct (cchain_ok (ccap cs) true cs 0 n F G N (Nat.le_refl _) E) as [NG NI NS NX NU]. unfold exact_d. rewrite (crx_groups_d cs _ H E), (ctree_d_crx cs _ H E), (tree_d_crx cs n0 C E0), (wf_crx true cs N F).
  assert (K : optok (SimpleV [Simple (Term TStart) [n0]]) [] FTot = true) by (cbn [optok forallb]; rewrite (cchain_optok cs 0 true n0 F G N E0); reflexivity).
  rewrite K. split; [|split].
  - cbn [andb good is_start accins opt_small forallb]. rewrite (cchain_eats cs 0 true _ F O E), NG, NS. reflexivity.
  - cbn [gex forallb]. rewrite NX. apply orb_true_r.
  - reflexivity.
Qed.
(** Without ^ the flag on entry must not matter. *)
Lemma inner_acc p f cs : fok f = true -> (p = false -> is_run f = true -> exists n, cs = [n]) -> accins (inner p f cs) = true.
Proof.
  intros F H. destruct (fok_eok f F) as [E _]. pose proof (ou_acc _ _ (eok_unit _ E)) as Ac. unfold fok in F. apply andb_true_iff in F as [_ A].
  unfold inner, runnode, is_run in *. destruct (f_am f) as [|ds| |].
  - destruct cs; exact Ac.
  - pose proof (num_pos _ ds A eq_refl) as Np. cbn [accins]. rewrite Ac, andb_true_r. now apply negb_true_iff, N.eqb_neq.
  - destruct p; [cbn [accins]; now rewrite Ac|]. destruct (H eq_refl eq_refl) as (n & ->). reflexivity.
  - destruct p; [cbn [accins]; now rewrite Ac|]. destruct (H eq_refl eq_refl) as (n & ->). reflexivity.
Qed.
Lemma funit_acc p f g cs : fok f = true -> (p = false -> is_run f = true -> exists n, cs = [n]) -> accins (funit p f g cs) = true.
Proof.
  intros F H. unfold funit. destruct (f_cap f); [|now apply inner_acc]. destruct (fok_eok f F) as [E _]. pose proof (unit_not _ E) as U. pose proof (ou_acc _ _ (eok_unit _ E)) as Ac.
  destruct p.
  - pose proof (inner_acc true f [] F ltac:(intro; discriminate)) as A. cbn [accins]. unfold inner, runnode in *. destruct (f_am f); try exact A. destruct (unode (f_el f)); auto; now elim U.
  - destruct (is_run f) eqn:R.
    + unfold inner, runnode, is_run in *. destruct (f_am f); try discriminate R; reflexivity.
    + pose proof (inner_acc false f [] F ltac:(intros _; rewrite R; discriminate)) as A. cbn [accins]. unfold inner, runnode, is_run in *. destruct (f_am f); try discriminate R; try exact A. destruct (unode (f_el f)); auto; now elim U.
Qed.
Lemma cchain_acc cs n : cokl cs = true -> cgaps false cs -> begins cs = true -> cchain cs 0 false = Some n -> accins n = true.
Proof.
  intros F G Hb E. destruct cs as [|c r]; [discriminate Hb|]. cbn [cchain] in E. injection E as <-. cbn [cokl forallb] in F. apply andb_true_iff in F as [F1 F2]. destruct G as [G1 _]. cbn [begins] in Hb.
  set (t := cchain0 r (nextg (ch_f c) 0) false). unfold cunit. destruct (ch_lazy c && negb (cp c t)) eqn:Z.
  - apply andb_true_iff in Z as [Lz P]. apply negb_true_iff in P. pose proof (cok_lazy c F1 Lz) as Ru. specialize (G1 Ru). destruct (fok_eok _ (cok_fok c F1)) as [E _]. pose proof (ou_acc _ _ (eok_unit _ E)) as Ac.
    destruct r as [|h r]; [unfold last_run in G1; rewrite Lz in G1; discriminate G1|]. cbn [forallb] in F2. apply andb_true_iff in F2 as [F2 _].
    destruct (f_cap (ch_f c)).
    + rewrite Lz in Hb. cbn [negb] in Hb. rewrite !orb_false_r in Hb. cbn [accins]. unfold cmin, required, is_run in *. destruct (f_am (ch_f c)); try discriminate Hb; try discriminate Ru. exact Ac.
    + cbn [cchain kids accins]. rewrite Ac. cbn [andb]. destruct (gap_cases c h (nextg (ch_f c) 0) (cchain0 r (nextg (ch_f h) (nextg (ch_f c) 0)) false) F1 F2 G1) as (_ & _ & Z). destruct (Z P) as (Z1 & _ & _).
      unfold cunit. assert (ch_lazy h = false) as ->. { destruct (ch_lazy h) eqn:Lh; [|reflexivity]. pose proof (cok_lazy h F2 Lh) as Rh. unfold single, is_run in *. destruct (f_am (ch_f h)); discriminate. }
      cbn [andb]. apply funit_acc; [now apply cok_fok|]. intros _ Rh. unfold single, is_run in *. destruct (f_am (ch_f h)); discriminate.
  - apply funit_acc; [now apply cok_fok|]. intros P R. specialize (G1 R). destruct r as [|h r]; [|cbn [cchain kids]; eauto].
    unfold last_run in G1. apply negb_true_iff in G1. exfalso. unfold t, cp in P. rewrite G1 in P. cbn [cchain0] in P. unfold pempty in P. cbn [kids map] in P. change (extract_adm []) with (@nil chr) in P. rewrite inter_nil in P. discriminate P.
Qed.
Theorem crx_exact a cs : choice_ok false cs = true -> a || begins cs = true ->
  exact (crx a cs) = true /\ gex (ctree (crx a cs)) = true /\ ngroups (ctree (crx a cs)) = ccap cs.
Proof.
  intros H Hb. destruct (choice_parts false cs H) as (F & G & C & O & N). destruct (cchain_some cs false F N) as (n0 & n & E0 & E).
  destruct (cchain_ok (ccap cs) false cs 0 n F G N (Nat.le_refl _) E) as [NG NI NS NX NU]. unfold exact. rewrite (crx_groups a cs _ H E), (ctree_crx a cs _ H E), (tree_crx a cs n0 C E0), (wf_crx a cs N F).
  pose proof (cchain_optok cs 0 false n0 F G N E0) as OK. destruct a.
  - assert (K : optok (SimpleV [Simple (Term TStart) [n0]]) [] FTot = true) by (cbn [optok forallb]; rewrite OK; reflexivity).
    rewrite K. split; [|split; [|reflexivity]].
    + cbn [andb good is_start accins opt_small forallb]. rewrite (cchain_eats cs 0 false _ F O E), NG, NS. reflexivity.
    + cbn [gex forallb]. rewrite NX. apply orb_true_r.
  - assert (K : optok (SimpleV [n0]) [] FTot = true) by (cbn [optok forallb]; rewrite OK; reflexivity).
    rewrite K, NG, (cchain_acc cs n F G Hb E), NS. auto.
Qed.

(** * The match at a position *)
Lemma reads_divides w cs i q : reads w cs i q <-> exists k, k <= length (skipn i w) /\ divides (fields cs) q (firstn k (skipn i w)) /\ k = length (concat q) /\ i + k <= length w.
Proof.
  split.
  - intros (A & B & C). exists (length (concat q)). rewrite skipn_length. split; [lia|]. split; [split; [exact A|now symmetry]|]. auto.
  - intros (k & A & [B C] & -> & D). split; [exact B|]. split; [now symmetry|exact D].
Qed.
Lemma crx_match w cs i : cokl cs = true -> i <= length w ->
  match match_at w (crx false cs) i with
  | Some (j, l) => exists p, reads w cs i p /\ j = i + length (concat p) /\ best_front cs (skipn i w) p /\ length (spans (fields cs) p i) = ccap cs /\ l = clogs cs 0 i p
  | None => forall q, ~ reads w cs i q
  end.
Proof.
  intros F Hi. pose proof (best_sem w cs 0 i [] eps_o F ltac:(intros j l1 l2; discriminate) Hi) as B. rewrite first_eps in B.
  unfold match_at. cbn [crx sem sem_br]. destruct (hd_error _) as [[j l]|].
  - destruct B as (p & B1 & B2 & B3 & B4). cbn in B3. injection B3 as <- <-. rewrite app_nil_r. exists p. split; [exact B1|]. split; [reflexivity|]. split; [|auto]. split.
    + destruct (proj1 (reads_divides w cs i p) B1) as (k & K1 & K2 & _). eauto.
    + intros k q Hk D. apply (B4 q []); [|discriminate]. apply reads_divides. exists k. split; [exact Hk|]. split; [exact D|]. destruct D as [_ D]. rewrite D, firstn_length. rewrite skipn_length in *. lia.
  - intros q Rq. specialize (B q [] Rq). discriminate B.
Qed.
Lemma match_crx w cs : match_at w (crx true cs) 0 = match_at w (crx false cs) 0.
Proof. unfold match_at, crx. cbn [sem sem_br]. unfold seq_o, bol_o. cbn [fst Nat.eqb flat_map]. now rewrite app_nil_r. Qed.
Lemma crx_match_d w cs : cokl cs = true -> ~ In c_nl w ->
  match match_at_d w (crx true cs) 0 with
  | Some (j, l) => exists p, divides (fields cs) p w /\ j = length w /\ (forall q, divides (fields cs) q w -> before cs p q) /\ length (spans (fields cs) p 0) = ccap cs /\ l = clogs cs 0 0 p
  | None => forall q, ~ divides (fields cs) q w
  end.
Proof.
  intros F NL. assert (EO : forall j l, eol_o w (j, l) = if Nat.eqb j (length w) then [(j, l)] else []).
  { intros j l. unfold eol_o. cbn [fst]. destruct (Nat.eqb j (length w)); [reflexivity|]. unfold chr_o. cbn [fst]. destruct (nth_error w j) as [c|] eqn:Nj; [|reflexivity].
    destruct (Z.eqb_spec c_nl c) as [<-|]; [|reflexivity]. exfalso. apply NL. exact (nth_error_In _ _ Nj). }
  assert (RD : forall q, reads w cs 0 q /\ length (concat q) = length w <-> divides (fields cs) q w).
  { intro q. unfold reads, divides. cbn [skipn Nat.add]. split.
    - intros [(A & B & _) C]. rewrite C, firstn_all in B. auto.
    - intros [A B]. rewrite B, firstn_all. auto. }
  pose proof (best_sem w cs 0 0 [] (eol_o w) F ltac:(intros j l1 l2; rewrite !EO; destruct (Nat.eqb j _); [discriminate|reflexivity]) (Nat.le_0_l _)) as B.
  assert (MD : match_at_d w (crx true cs) 0 = Den.first_ok (eol_o w) (sem_sq w (csq cs 0) (0, []))).
  { unfold match_at_d, sem_d, crx. cbn [sem sem_br]. unfold seq_o, bol_o. cbn [fst Nat.eqb flat_map]. rewrite app_nil_r. reflexivity. }
  rewrite MD.
  destruct (Den.first_ok _ _) as [[j l]|].
  - destruct B as (p & B1 & B2 & B3 & B4). rewrite EO in B3. cbn [Nat.add] in B3. destruct (Nat.eqb_spec (length (concat p)) (length w)) as [Le|]; [|discriminate B3]. cbn [hd_error] in B3. rewrite app_nil_r in B3. injection B3 as <- <-.
    exists p. split; [apply RD; auto|]. split; [exact Le|]. split; [|auto]. intros q D. apply RD in D as [D1 D2]. apply (B4 q [] D1). rewrite EO. cbn [Nat.add]. rewrite D2, Nat.eqb_refl. discriminate.
  - intros q D. apply RD in D as [D1 D2]. specialize (B q [] D1). rewrite EO in B. cbn [Nat.add] in B. rewrite D2, Nat.eqb_refl in B. discriminate.
Qed.
