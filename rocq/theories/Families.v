(** Families of patterns of every size that are [supported]: alternatives of sequences of
    one-character elements, and one quantified element; and what they match, in plain terms. *)
From Coq Require Import ZArith NArith List Bool Lia ZifyBool ZifyNat ZifyN.
From Verif Require Import Base Text Ast Builder Engine Spec SpecProofs Tree Den Checker AstProofs EngineMain Runs Mono Supported.
Import ListNotations.
Open Scope nat_scope.

(** * The patterns *)
Definition eseq (l : list elem) : sq := fold_right (fun x s => SCons (AEl x) Q1 s) SNil l.
(** An optional ^ and a sequence of elements. *)
Definition ebr (b : bool * list elem) : br := Br (fst b) (eseq (snd b)).
Fixpoint ealt (b : bool * list elem) (bs : list (bool * list elem)) : rx :=
  match bs with [] => ROne (ebr b) | c :: r => ROr (ebr b) (ealt c r) end.
(** One element with a quantifier. *)
Definition erep (x : elem) (k : qkind) (g : greed) : rx := ROne (Br false (SCons (AEl x) (QQ k g) SNil)).

(** * Which elements *)
Definition is_space (i : citem) : bool := match i with CEsc c => (c =? 115)%Z | _ => false end.
(** \s is the only escape with a defect: after a failed test it has consumed the character.
    In a class it may only be the last item; in a negated class it may not be used. *)
Definition fine (x : elem) : bool :=
  match x with
  | EClass false items => negb (existsb is_space (removelast items))
  | EClass true items => negb (existsb is_space items)
  | _ => true
  end.
(** Elements whose failed test leaves the position alone. *)
Definition tidy (x : elem) : bool :=
  match x with
  | EEsc c => negb (c =? 115)%Z
  | EClass false items => negb (existsb is_space items)
  | EClass true _ => false
  | _ => true
  end.
(** Only the last branch may begin with an untidy element (without ^). *)
Definition first_tidy (b : bool * list elem) : bool :=
  fst b || match snd b with x :: _ => tidy x | [] => true end.
Definition ebr_ok (b : bool * list elem) : bool :=
  forallb (fun x => elem_ok x && fine x) (snd b) && negb (is_nil (snd b)).

(** * Their nodes *)
Definition cterm (i : citem) : term :=
  match i with CChar c => TExact [c] | CRange a b => TRange a b | CEsc c => TTerminal [c_bslash; c] end.
Lemma tree_cterm i : tree_citem i = Simple (Term (cterm i)) [].
Proof. destruct i; reflexivity. Qed.
Definition body (x : elem) : node :=
  match x with
  | ELit c => Term (TTerminal [c])
  | EEsc c => Term (TTerminal [c_bslash; c])
  | EDot => Term (TTerminal [c_dot])
  | EClass false items => SimpleV (map tree_citem items)
  | EClass true items => Negated (SimpleV (map tree_citem items))
  | EOct a b c => Term (TExact [byte_chr (64 * a + 8 * b + c)])
  | EHex a b => Term (TExact [byte_chr (16 * a + b)])
  end.
Lemma tree_body x : tree_elem x = Simple (body x) [].
Proof. destruct x as [c|c| |[] items|a b c|a b]; reflexivity. Qed.
Definition unode (x : elem) : node := optimize (body x) [].
Lemma opt_body x inj : optimize (body x) inj = unode x.
Proof.
  unfold unode. destruct x as [c|c| |[] items|a b c|a b]; try reflexivity. cbn [body optimize].
  destruct items as [|i [|j items]]; try reflexivity. cbn [map]. rewrite tree_cterm. reflexivity.
Qed.

Record okunit (n : node) (P : Z -> bool) : Prop := {
  ou_set : exists Q, uset n = Some Q /\ forall c, Q c = P c;
  ou_good : forall G pv, good G false n pv = true;
  ou_acc : accins n = true;
  ou_inj : noinj n = true;
  ou_min : nmin n = 1%N;
  ou_max : nmax n = 1%N;
  ou_small : opt_small n = true }.
Lemma term_unit t P Q : tset t = Some Q -> (forall c, Q c = P c) -> okunit (Term t) P.
Proof.
  intros T E. assert (M : term_min t = 1%N /\ term_max t = 1%N).
  { unfold tset, kset in T. unfold term_min, term_max. destruct t as [tok|s|a b| |]; try discriminate.
    - destruct (term_kind tok) as [[|c [|]]|a b|[]]; try discriminate; split; reflexivity.
    - destruct s as [|c [|]]; try discriminate; split; reflexivity.
    - split; reflexivity. }
  split; cbn; try reflexivity; try apply M; [eauto|]. intros. destruct t; try discriminate; now rewrite T.
Qed.
Lemma unit_start n P : okunit n P -> is_start n = false.
Proof. intros [(Q & U & _) _ _ _ _ _ _]. destruct n as [[]| | | | | | | |]; try reflexivity. discriminate. Qed.
Lemma unit_det n P : okunit n P -> det n = true.
Proof. intros [(Q & U & _) _ _ _ _ _ _]. destruct n; cbn [det]; rewrite U; reflexivity. Qed.
Lemma unit_nonnull n P : okunit n P -> nonnull n = true.
Proof. intros [(Q & U & _) _ _ _ _ _ _]. unfold nonnull. destruct n; cbn [pre]; rewrite U; reflexivity. Qed.

(** Items of a class. *)
Lemma cterm_set i : citem_ok i = true -> exists Q, tset (term_optimize (cterm i)) = Some Q /\ forall c, Q c = citem_set i c.
Proof.
  intro H. rewrite tset_optimize. destruct i as [c|a b|c]; cbn [cterm tset citem_set citem_ok] in *.
  - eexists. split; [reflexivity|]. intro; apply Z.eqb_sym.
  - eexists. split; [reflexivity|]. reflexivity.
  - apply kset_esc. exact H.
Qed.
Lemma esc_space c : (c =? 115)%Z = false -> match term_kind [c_bslash; c] with KSelf KSpace => false | _ => true end = true.
Proof.
  intro H. unfold term_kind. unfold is1. cbn [str_eqb]. rewrite andb_false_r. cbv iota.
  unfold is_esc. cbn [str_eqb]. rewrite !Z.eqb_refl. cbn [andb]. rewrite !andb_true_r. rewrite H.
  repeat (match goal with |- context [if ?b then _ else _] => destruct b; try reflexivity end).
Qed.
Lemma clean_optimize t pv : clean (Term t) pv = true -> clean (Term (term_optimize t)) pv = true.
Proof.
  destruct t as [tok|s|a b| |]; cbn; try reflexivity; try discriminate. destruct (term_kind tok) as [s|a b|[]] eqn:E; cbn; rewrite ?E; auto.
Qed.
Lemma cterm_clean i pv : is_space i = false -> clean (Term (term_optimize (cterm i))) pv = true.
Proof.
  intro H. apply clean_optimize. destruct i as [c|a b|c]; cbn [cterm clean is_space] in *; try reflexivity. now apply esc_space.
Qed.
Definition cnode (i : citem) : node := Term (term_optimize (cterm i)).
Lemma opt_citem i inj : optimize (tree_citem i) inj = cnode i.
Proof. rewrite tree_cterm. reflexivity. Qed.
(** A class as the optimiser leaves it. *)
Definition cnodes (items : list citem) : node := match items with [i] => cnode i | _ => SimpleV (map cnode items) end.
Lemma opt_class items inj : optimize (SimpleV (map tree_citem items)) inj = cnodes items.
Proof.
  destruct items as [|i [|j items]]; cbn [map optimize].
  - reflexivity.
  - apply opt_citem.
  - unfold cnodes. rewrite map_map. cbn [map]. f_equal. f_equal; [apply opt_citem|]. f_equal; [apply opt_citem|].
    apply map_ext. intro. apply opt_citem.
Qed.
Lemma items_set items : items <> [] -> forallb citem_ok items = true ->
  exists Q, usets (map uset (map cnode items)) = Some Q /\ forall c, Q c = existsb (fun i => citem_set i c) items.
Proof.
  intros N. destruct items as [|i items]; [congruence|]. clear N. revert i. induction items as [|j items IH]; intros i H; cbn [forallb] in H; apply andb_true_iff in H as [A B].
  - cbn. destruct (cterm_set i A) as (Q & E & X). exists Q. split; [exact E|]. intro c. now rewrite X, orb_false_r.
  - destruct (cterm_set i A) as (Q & E & X). destruct (IH j B) as (Q2 & E2 & X2).
    exists (fun x => Q x || Q2 x). split.
    + change (usets (map uset (map cnode (i :: j :: items)))) with
        (match tset (term_optimize (cterm i)), usets (map uset (map cnode (j :: items))) with Some P, Some Q => Some (fun x => P x || Q x) | _, _ => None end).
      now rewrite E, E2.
    + intro c. now rewrite X, X2.
Qed.
Lemma items_min items : items <> [] -> forallb citem_ok items = true -> minl (map nmin (map cnode items)) = 1%N /\ maxl (map nmin (map cnode items)) = 1%N.
Proof.
  intros N H. assert (E : map nmin (map cnode items) = repeat 1%N (length items)).
  { induction items as [|i items IH]; [reflexivity|]. cbn [forallb] in H. apply andb_true_iff in H as [A B]. cbn [map length repeat].
    destruct (cterm_set i A) as (Q & E & X). pose proof (ou_min _ _ (term_unit _ _ Q E X)) as M. fold (cnode i) in M. rewrite M. f_equal.
    destruct items; [reflexivity|]. apply IH; [discriminate|exact B]. }
  rewrite E. destruct items as [|i items]; [congruence|]. cbn [length repeat minl maxl].
  assert (F : forall k, fold_left N.min (repeat 1%N k) 1%N = 1%N /\ fold_left N.max (repeat 1%N k) 1%N = 1%N) by (induction k; [split; reflexivity|exact IHk]).
  apply F.
Qed.
Lemma bl_clean items pv : existsb is_space (removelast items) = false -> butlast_clean (map cnode items) pv = true.
Proof.
  induction items as [|i [|j items] IH]; intro H; try reflexivity.
  change (existsb is_space (removelast (i :: j :: items))) with (is_space i || existsb is_space (removelast (j :: items))) in H.
  apply orb_false_iff in H as [A B]. specialize (IH B).
  change (butlast_clean (map cnode (i :: j :: items)) pv) with (clean (cnode i) pv && butlast_clean (map cnode (j :: items)) pv).
  rewrite IH. unfold cnode at 1. now rewrite cterm_clean.
Qed.
Lemma all_clean items pv : existsb is_space items = false -> forallb (fun c => clean c pv) (map cnode items) = true.
Proof.
  induction items as [|i items IH]; intro H; [reflexivity|]. cbn in H. apply orb_false_iff in H as [A B].
  cbn [map forallb]. rewrite IH by exact B. unfold cnode at 1. now rewrite cterm_clean.
Qed.
Lemma class_unit items : items <> [] -> forallb citem_ok items = true -> existsb is_space (removelast items) = false ->
  okunit (cnodes items) (fun c => existsb (fun i => citem_set i c) items).
Proof.
  intros N H S. unfold cnodes. destruct items as [|i [|j items]]; [congruence| |].
  - cbn [forallb] in H. rewrite andb_true_r in H. destruct (cterm_set i H) as (Q & E & X). apply (term_unit _ _ Q E).
    intro c. cbn. now rewrite X, orb_false_r.
  - set (l := i :: j :: items) in *. assert (A1 : forall n, In n (map cnode l) -> exists t, n = Term t /\ is_some (tset t) = true).
    { intros n Hn. apply in_map_iff in Hn as (z & <- & Hz). rewrite forallb_forall in H. destruct (cterm_set z (H z Hz)) as (Q & E & X).
      eexists. split; [reflexivity|]. now rewrite E. }
    split.
    + cbn [uset]. apply items_set; auto.
    + intros G pv. cbn [good]. rewrite bl_clean by exact S. rewrite andb_true_r. change (negb (is_nil (map cnode l))) with true. cbn [andb].
      apply forallb_forall. intros n Hn. destruct (A1 n Hn) as (t & -> & T). destruct t; exact T || discriminate T.
    + reflexivity.
    + reflexivity.
    + cbn [nmin]. now apply items_min.
    + cbn [nmax]. now apply items_min.
    + cbn [opt_small]. apply forallb_forall. intros n Hn. destruct (A1 n Hn) as (t & -> & T). reflexivity.
Qed.
Lemma class_clean items pv : existsb is_space items = false -> clean (cnodes items) pv = true.
Proof.
  intro H. unfold cnodes. pose proof (all_clean items pv H) as A. destruct items as [|i [|j items]]; auto.
  cbn [map forallb] in A. rewrite andb_true_r in A. exact A.
Qed.

Lemma elem_unit x : elem_ok x = true -> fine x = true -> okunit (unode x) (elem_set x).
Proof.
  intros H F. unfold unode. destruct x as [c|c| |neg items|a b c|a b]; cbn [body elem_ok fine] in *.
  - cbn [optimize]. eapply term_unit; [rewrite tset_optimize; cbn [tset]; now apply kset_lit|]. intro. apply Z.eqb_sym.
  - cbn [optimize]. destruct (kset_esc c H) as (Q & E & X). eapply term_unit; [rewrite tset_optimize; exact E|exact X].
  - apply (term_unit (TTerminal [c_dot]) _ test_any eq_refl). reflexivity.
  - apply andb_true_iff in H as [H N]. assert (NN : items <> []) by (destruct items; discriminate).
    destruct neg.
    + apply negb_true_iff in F.
      assert (S : existsb is_space (removelast items) = false).
      { clear -F. induction items as [|i [|j items] IH]; try reflexivity.
        change (existsb is_space (removelast (i :: j :: items))) with (is_space i || existsb is_space (removelast (j :: items))).
        change (is_space i || existsb is_space (j :: items) = false) in F. apply orb_false_iff in F as [A B]. rewrite A. now apply IH. }
      change (optimize (Negated (SimpleV (map tree_citem items))) []) with (Negated (optimize (SimpleV (map tree_citem items)) [])). rewrite opt_class.
      pose proof (class_unit items NN H S) as [(Q & U & X) G0 A0 I0 M0 X0 S0]. split; cbn [uset good accins noinj nmin nmax opt_small]; auto.
      * rewrite U. eexists. split; [reflexivity|]. intro c. cbn. rewrite X. now destruct (existsb _ items).
      * intros G pv. rewrite U, G0, A0, class_clean by exact F. reflexivity.
    + rewrite opt_class. apply negb_true_iff in F. pose proof (class_unit items NN H F) as [(Q & U & X) G0 A0 I0 M0 X0 S0]. split; auto.
      exists Q. split; [exact U|]. intro c. rewrite X. cbn. now destruct (existsb _ items).
  - cbn [optimize]. eapply term_unit; [reflexivity|]. intro. apply Z.eqb_sym.
  - cbn [optimize]. eapply term_unit; [reflexivity|]. intro. apply Z.eqb_sym.
Qed.
Lemma elem_clean x pv : tidy x = true -> clean (unode x) pv = true.
Proof.
  intro T. unfold unode. destruct x as [c|c| |[] items|a b c|a b]; cbn [body tidy] in *; try discriminate.
  - cbn [optimize]. apply clean_optimize. cbn [clean]. unfold term_kind, is1, is_esc. cbn [str_eqb]. rewrite !andb_false_r.
    destruct (_ && _)%bool; reflexivity.
  - cbn [optimize]. apply clean_optimize. apply negb_true_iff in T. now apply esc_space.
  - reflexivity.
  - rewrite opt_class. apply class_clean. now apply negb_true_iff.
  - reflexivity.
  - reflexivity.
Qed.
Lemma tidy_fine x : tidy x = true -> fine x = true.
Proof.
  destruct x as [c|c| |[] items|a b c|a b]; cbn; auto; try discriminate. intro F. apply negb_true_iff in F. apply negb_true_iff.
  induction items as [|i [|j items] IH]; try reflexivity.
  change (existsb is_space (removelast (i :: j :: items))) with (is_space i || existsb is_space (removelast (j :: items))).
  change (is_space i || existsb is_space (j :: items) = false) in F. apply orb_false_iff in F as [A B]. rewrite A. now apply IH.
Qed.
Lemma items_optok items F : forallb (fun c => optok c [] F) (map tree_citem items) = true.
Proof. apply forallb_forall. intros n Hn. apply in_map_iff in Hn as (z & <- & _). now rewrite tree_cterm. Qed.
Lemma body_optok x inj F : optok (body x) inj F = true.
Proof.
  destruct x as [c|c| |[] items|a b c|a b]; cbn [body optok]; try reflexivity.
  - destruct items as [|i [|j items]]; [reflexivity| |exact (items_optok _ _)]. cbn [map]. now rewrite tree_cterm.
  - destruct items as [|i [|j items]]; [reflexivity| |exact (items_optok _ _)]. cbn [map]. now rewrite tree_cterm.
Qed.

(** * Sequences *)
Fixpoint chain0 (x : elem) (l : list elem) : node :=
  match l with [] => Simple (body x) [] | y :: l' => Simple (body x) [chain0 y l'] end.
Fixpoint chain (x : elem) (l : list elem) : node :=
  match l with [] => unode x | y :: l' => Simple (unode x) [chain y l'] end.
Lemma tree_eseq l : forall x, tree_sq (eseq (x :: l)) = Some (chain0 x l).
Proof.
  induction l as [|y l IH]; intro x.
  - cbn. now rewrite tree_body.
  - change (tree_sq (eseq (x :: y :: l))) with (Some (followed (tree_elem x) (tree_sq (eseq (y :: l))))). rewrite IH, tree_body. reflexivity.
Qed.
Lemma opt_chain l : forall x inj, optimize (chain0 x l) inj = chain x l.
Proof.
  induction l as [|y l IH]; intros x inj; cbn [chain0 optimize map chain]; rewrite opt_body; [reflexivity|]. now rewrite IH.
Qed.
Lemma optok_all m (H : forall F, optok m [] F = true) l : forallb (optok m []) l = true.
Proof. apply forallb_forall. intros F _. apply H. Qed.
Lemma chain_optok l : forall x inj F, optok (chain0 x l) inj F = true.
Proof.
  induction l as [|y l IH]; intros x inj F; cbn [chain0 optok]; rewrite body_optok; [reflexivity|]. cbn [forallb]. now rewrite IH.
Qed.
Definition eok (x : elem) : bool := elem_ok x && fine x.
Lemma eok_unit x : eok x = true -> okunit (unode x) (elem_set x).
Proof. intro H. apply andb_true_iff in H as [A B]. now apply elem_unit. Qed.
Lemma chain_good l : forall x G pv, forallb eok (x :: l) = true -> good G false (chain x l) pv = true.
Proof.
  induction l as [|y l IH]; intros x G pv H; cbn [forallb] in H; apply andb_true_iff in H as [A B]; pose proof (eok_unit x A) as U; cbn [chain].
  - apply (ou_good _ _ U).
  - cbn [good]. rewrite (unit_start _ _ U), (ou_good _ _ U), (IH y) by exact B. now rewrite (unit_det _ _ U).
Qed.
Lemma chain_accins x l : eok x = true -> accins (chain x l) = true.
Proof. intro H. pose proof (ou_acc _ _ (eok_unit x H)). destruct l; cbn [chain accins]; assumption. Qed.
Lemma chain_clean x l pv : tidy x = true -> clean (chain x l) pv = true.
Proof. intro H. pose proof (elem_clean x pv H). destruct l; cbn [chain clean]; assumption. Qed.
Lemma chain_small l : forall x, forallb eok (x :: l) = true -> opt_small (chain x l) = true.
Proof.
  induction l as [|y l IH]; intros x H; cbn [forallb] in H; apply andb_true_iff in H as [A B]; pose proof (eok_unit x A) as U; cbn [chain].
  - apply (ou_small _ _ U).
  - cbn [opt_small forallb]. rewrite (ou_small _ _ U), (IH y) by exact B. reflexivity.
Qed.
Lemma chain_nonnull x l : eok x = true -> nonnull (chain x l) = true.
Proof.
  intro H. pose proof (eok_unit x H) as U. pose proof (unit_nonnull _ _ U) as N. destruct l as [|y l]; cbn [chain]; [exact N|].
  unfold nonnull in *. cbn [pre uset]. unfold seqp. destruct (pre (unode x)) as [[|p ps] []]; cbn in *; auto; discriminate.
Qed.
(** With an optional ^. *)
Definition bnode0 (b : bool * list elem) : node :=
  match b with (a, x :: l) => if a then Simple (Term TStart) [chain0 x l] else chain0 x l | _ => SimpleV [] end.
Definition bnode (b : bool * list elem) : node :=
  match b with (a, x :: l) => if a then Simple (Term TStart) [chain x l] else chain x l | _ => SimpleV [] end.
Lemma tree_ebr b : ebr_ok b = true -> tree_br (ebr b) = bnode0 b.
Proof.
  destruct b as [a [|x l]]; [intro H; unfold ebr_ok in H; cbn in H; discriminate|]. intros _. unfold ebr. cbn [fst snd tree_br]. rewrite tree_eseq.
  destruct a; reflexivity.
Qed.
Lemma opt_bnode b inj : ebr_ok b = true -> optimize (bnode0 b) inj = bnode b.
Proof.
  destruct b as [a [|x l]]; [intro H; unfold ebr_ok in H; cbn in H; discriminate|]. intros _. cbn [bnode0 bnode]. destruct a; [|apply opt_chain].
  cbn [optimize map term_optimize]. now rewrite opt_chain.
Qed.
Lemma bnode_facts b : ebr_ok b = true -> (forall inj F, optok (bnode0 b) inj F = true) /\ (forall G pv, good G false (bnode b) pv = true)
  /\ accins (bnode b) = true /\ opt_small (bnode b) = true /\ (first_tidy b = true -> forall pv, clean (bnode b) pv = true).
Proof.
  destruct b as [a [|x l]]; [intro H; unfold ebr_ok in H; cbn in H; discriminate|]. intro H. unfold ebr_ok in H. cbn [snd] in H.
  apply andb_true_iff in H as [H _]. change (forallb eok (x :: l) = true) in H.
  assert (E : eok x = true) by (cbn [forallb] in H; apply andb_true_iff in H; tauto).
  cbn [bnode0 bnode]. destruct a; conj.
  - intros inj F. cbn [optok forallb]. now rewrite chain_optok.
  - intros G pv. cbn [good is_start]. unfold eats. now rewrite chain_nonnull, chain_good.
  - reflexivity.
  - cbn [opt_small forallb]. now rewrite chain_small.
  - reflexivity.
  - intros inj F. apply chain_optok.
  - intros. now apply chain_good.
  - now apply chain_accins.
  - now apply chain_small.
  - intros T pv. cbn in T. now apply chain_clean.
Qed.

(** * Alternatives *)
Lemma tree_ealt bs : forall b, forallb ebr_ok (b :: bs) = true -> tree_bs (ealt b bs) = map bnode0 (b :: bs).
Proof.
  induction bs as [|c bs IH]; intros b H; cbn [forallb] in H; apply andb_true_iff in H as [A B].
  - cbn [ealt tree_bs map]. now rewrite tree_ebr.
  - change (tree_bs (ealt b (c :: bs))) with (tree_br (ebr b) :: tree_bs (ealt c bs)). rewrite IH by exact B. now rewrite tree_ebr.
Qed.
Lemma renumber_eseq l : forall g, renumber_sq (eseq l) g = eseq l.
Proof. induction l as [|x l IH]; intro g; [reflexivity|]. change (eseq (x :: l)) with (SCons (AEl x) Q1 (eseq l)). cbn [renumber_sq renumber_atom]. now rewrite IH. Qed.
Lemma renumber_ealt bs : forall b g, renumber_in false (ealt b bs) g = ealt b bs.
Proof.
  induction bs as [|c bs IH]; intros b g.
  - cbn [ealt renumber_in renumber_br ebr]. now rewrite renumber_eseq.
  - change (ealt b (c :: bs)) with (ROr (ebr b) (ealt c bs)). cbn [renumber_in renumber_br ebr]. rewrite renumber_eseq. now rewrite IH.
Qed.
Definition anode (b : bool * list elem) (bs : list (bool * list elem)) : node :=
  match bs with [] => bnode b | _ => SimpleV (map bnode (b :: bs)) end.
Lemma ctree_ealt b bs : forallb ebr_ok (b :: bs) = true -> ctree (ealt b bs) = anode b bs.
Proof.
  intro H. unfold ctree, renumber. rewrite renumber_ealt. unfold tree. rewrite tree_ealt by exact H. unfold anode.
  cbn [forallb] in H. apply andb_true_iff in H as [A B]. destruct bs as [|c bs].
  - cbn [map optimize]. now apply opt_bnode.
  - cbn [map optimize]. cbn [forallb] in B. apply andb_true_iff in B as [B C]. rewrite !opt_bnode by assumption. do 3 f_equal.
    rewrite map_map. apply map_ext_in. intros d Hd. apply opt_bnode. rewrite forallb_forall in C. now apply C.
Qed.
Lemma wf_eseq l : forallb (fun x => elem_ok x && fine x) l = true -> wf_sq (eseq l) = true.
Proof.
  induction l as [|x l IH]; intro H; [reflexivity|]. cbn [forallb] in H. rewrite !andb_true_iff in H. destruct H as [[A _] B].
  change (eseq (x :: l)) with (SCons (AEl x) Q1 (eseq l)). cbn [wf_sq wf_atom quant_ok]. now rewrite A, IH.
Qed.
Lemma wf_ebr b : ebr_ok b = true -> wf_br (ebr b) = true.
Proof.
  destruct b as [a [|x l]]; unfold ebr_ok; cbn [snd]; [cbn; discriminate|]. intro H. apply andb_true_iff in H as [H _].
  unfold ebr. cbn [fst snd]. change (wf_sq (eseq (x :: l)) = true). now apply wf_eseq.
Qed.
Lemma wf_ealt bs : forall b, forallb ebr_ok (b :: bs) = true -> wf (ealt b bs) = true.
Proof.
  induction bs as [|c bs IH]; intros b H; cbn [forallb] in H; apply andb_true_iff in H as [A B].
  - cbn [ealt wf]. now apply wf_ebr.
  - change (ealt b (c :: bs)) with (ROr (ebr b) (ealt c bs)). cbn [wf]. now rewrite wf_ebr, IH.
Qed.
Lemma anode_facts b bs : forallb ebr_ok (b :: bs) = true -> forallb first_tidy (removelast (b :: bs)) = true ->
  optok (tree (renumber (ealt b bs))) [] FTot = true /\ (forall G pv, good G false (anode b bs) pv = true)
  /\ accins (anode b bs) = true /\ opt_small (anode b bs) = true /\ (forallb first_tidy (b :: bs) = true -> forall pv, clean (anode b bs) pv = true).
Proof.
  intros H T. unfold renumber. rewrite renumber_ealt. unfold tree. rewrite tree_ealt by exact H.
  assert (FA : forall d, In d (b :: bs) -> ebr_ok d = true) by (apply forallb_forall; exact H). unfold anode. destruct bs as [|c bs].
  - destruct (bnode_facts b (FA b (or_introl eq_refl))) as (O & Gd & A & S & C). cbn [map optok]. conj; auto.
    intros Tb. cbn [forallb] in Tb. rewrite andb_true_r in Tb. auto.
  - set (l := b :: c :: bs) in *. conj.
    + change (optok (SimpleV (map bnode0 l)) [] FTot) with (forallb (fun c => optok c [] FTot) (map bnode0 l)).
      apply forallb_forall. intros n Hn. apply in_map_iff in Hn as (d & <- & Hd). now apply (bnode_facts d (FA d Hd)).
    + intros G pv. change (good G false (SimpleV (map bnode l)) pv) with (negb (is_nil (map bnode l)) && forallb (fun c => good G false c pv) (map bnode l) && butlast_clean (map bnode l) pv).
      rewrite !andb_true_iff. conj; [reflexivity| |].
      * apply forallb_forall. intros n Hn. apply in_map_iff in Hn as (d & <- & Hd). now apply (bnode_facts d (FA d Hd)).
      * clear H. clearbody l. clear b c bs. induction l as [|d [|d2 l] IH]; try reflexivity.
        change (butlast_clean (map bnode (d :: d2 :: l)) pv) with (clean (bnode d) pv && butlast_clean (map bnode (d2 :: l)) pv).
        change (first_tidy d && forallb first_tidy (removelast (d2 :: l)) = true) in T. apply andb_true_iff in T as [T1 T2].
        rewrite IH; [|exact T2|intros; apply FA; now right]. rewrite andb_true_r. apply (bnode_facts d (FA d (or_introl eq_refl))). exact T1.
    + cbn [map accins]. apply (bnode_facts b). apply FA. now left.
    + change (opt_small (SimpleV (map bnode l))) with (forallb opt_small (map bnode l)).
      apply forallb_forall. intros n Hn. apply in_map_iff in Hn as (d & <- & Hd). now apply (bnode_facts d (FA d Hd)).
    + intros Ta pv. change (clean (SimpleV (map bnode l)) pv) with (forallb (fun c => clean c pv) (map bnode l)).
      apply forallb_forall. intros n Hn. apply in_map_iff in Hn as (d & <- & Hd). apply (bnode_facts d (FA d Hd)).
      rewrite forallb_forall in Ta. now apply Ta.
Qed.
Lemma ealt_exact b bs : forallb ebr_ok (b :: bs) = true -> forallb first_tidy (removelast (b :: bs)) = true -> exact (ealt b bs) = true.
Proof.
  intros H T. unfold exact. rewrite wf_ealt by exact H. rewrite ctree_ealt by exact H.
  destruct (anode_facts b bs H T) as (O & Gd & A & S & _). now rewrite O, Gd, A, S.
Qed.
Lemma removelast_all {A} (f : A -> bool) l : forallb f l = true -> forallb f (removelast l) = true.
Proof.
  induction l as [|x [|y l] IH]; intro H; try reflexivity. change (f x && forallb f (removelast (y :: l)) = true).
  change (f x && forallb f (y :: l) = true) in H. apply andb_true_iff in H as [B C]. now rewrite B, IH.
Qed.
Lemma ealt_supported b bs : forallb ebr_ok (b :: bs) = true -> forallb first_tidy (b :: bs) = true -> supported (ealt b bs) = true.
Proof.
  intros H T. unfold supported. rewrite wf_ealt by exact H. rewrite ctree_ealt by exact H.
  destruct (anode_facts b bs H (removelast_all _ _ T)) as (O & Gd & A & S & C). now rewrite O, Gd, A, C.
Qed.
Lemma ealt_nopos bs : forall b, nopos (ealt b bs) = true.
Proof.
  assert (E : forall l, nopos_sq (eseq l) = true) by (induction l as [|x l IH]; [reflexivity|exact IH]).
  induction bs as [|c bs IH]; intro b.
  - unfold ealt, ebr. cbn [nopos nopos_br]. apply E.
  - change (nopos (ealt b (c :: bs))) with (nopos_br (ebr b) && nopos (ealt c bs)). rewrite IH. unfold ebr. cbn [nopos_br]. now rewrite E.
Qed.

(** * One quantified element *)
Definition rep_ok (x : elem) (k : qkind) (g : greed) : bool :=
  elem_ok x && fine x && quant_ok (QQ k g) && match g with Lz => false | _ => true end
  && match kind_max k with Some m => negb (N.eqb m 0) | None => true end.
Definition rnode (x : elem) (k : qkind) : node :=
  match k with
  | QExact n => Repeated (unode x) (Z.to_N (num_val n)) []
  | _ => Possessive (unode x) (kind_min k) (umax_of (kind_max k)) []
  end.
Lemma inter_nil a : adm_inter a [] = [].
Proof. destruct a; reflexivity. Qed.
Lemma ctree_erep x k g : rep_ok x k g = true -> ctree (erep x k g) = rnode x k.
Proof.
  intro H. unfold rep_ok in H. rewrite !andb_true_iff in H. destruct H as [[[_ _] Hg] _]. unfold ctree, renumber, erep, tree.
  cbn [renumber_in renumber_br renumber_sq renumber_atom tree_bs tree_br tree_sq tree_atom followed tree_quant]. rewrite tree_body.
  destruct k; cbn [optimize tree_quant rnode followed map]; rewrite ?opt_body; try reflexivity;
    destruct g; try discriminate; cbn [pol_of mkq optimize map app]; rewrite ?opt_body; try reflexivity;
    change (extract_adm []) with (@nil chr); rewrite inter_nil; reflexivity.
Qed.
Lemma rep_bounds x k g : rep_ok x k g = true -> (kind_min k <= umax_of (kind_max k))%N /\ (umax_of (kind_max k) <> 0)%N
  /\ (match k with QExact n => Z.to_N (num_val n) <> 0%N | _ => True end).
Proof.
  unfold rep_ok. rewrite !andb_true_iff. intros [[[_ Q] _] M].
  assert (NB : forall n, num_ok n = true -> (Z.to_N (num_val n) < 4294967295)%N).
  { intros n Hn. unfold num_ok in Hn. rewrite !andb_true_iff in Hn. lia. }
  destruct k as [| | |n|n|n m]; cbn [kind_min kind_max umax_of quant_ok kind_ok] in *; unfold UMAX; conj; try lia; try exact I;
    try (apply NB in Q; lia); try (rewrite !andb_true_iff in Q; lia).
Qed.
Lemma rnode_facts x k g : rep_ok x k g = true ->
  optok (tree (renumber (erep x k g))) [] FTot = true /\ (forall G, good G false (rnode x k) PFst = true)
  /\ accins (rnode x k) = true /\ opt_small (rnode x k) = true /\ (tidy x = true -> countroot (rnode x k) = true).
Proof.
  intro H. pose proof (rep_bounds x k g H) as (B1 & B2 & B3). unfold rep_ok in H. rewrite !andb_true_iff in H. destruct H as [[[[E F] Q] Hg] _].
  pose proof (elem_unit x E F) as U. conj.
  - unfold renumber, erep, tree.
    cbn [renumber_in renumber_br renumber_sq renumber_atom tree_bs tree_br tree_sq tree_atom followed tree_quant]. rewrite tree_body.
    assert (OB : forall inj F, optok (Simple (body x) []) inj F = true) by (intros; cbn [optok]; apply body_optok).
    pose proof (optok_all _ (OB [])) as OA.
    destruct k; cbn [tree_quant optok]; rewrite ?OA, ?OB, ?body_optok; try reflexivity; destruct g; try discriminate; cbn [pol_of mkq optok]; rewrite ?OA, ?OB, ?body_optok; try reflexivity;
      cbn [map app forallb]; change (extract_adm []) with (@nil chr); rewrite ?inter_nil; cbn [andb adm_empty folk no_retry]; try reflexivity.
  - intro G. destruct k; cbn [rnode good]; rewrite !(ou_good _ _ U), ?(unit_det _ _ U), ?(unit_nonnull _ _ U), ?orb_true_r, ?andb_true_r; try reflexivity; cbn [andb];
      try (apply N.leb_le; exact B1).
  - destruct k; cbn [rnode accins]; rewrite (ou_acc _ _ U), ?andb_true_r; apply negb_true_iff, N.eqb_neq; assumption.
  - destruct k; cbn [rnode opt_small forallb]; rewrite (ou_small _ _ U); reflexivity.
  - intro T. assert (CI : count_item (unode x) = true).
    { unfold count_item. destruct (ou_set _ _ U) as (P & -> & _). now rewrite (elem_clean x _ T), (ou_acc _ _ U), (ou_inj _ _ U). }
    destruct k; cbn [rnode countroot]; rewrite CI; cbn [totk is_nil orb andb]; try reflexivity; apply N.leb_le; exact B1.
Qed.
Lemma wf_erep x k g : rep_ok x k g = true -> wf (erep x k g) = true.
Proof. intro H. unfold rep_ok in H. rewrite !andb_true_iff in H. destruct H as [[[[E F] Q] _] _]. unfold erep. cbn [wf wf_br wf_sq wf_atom]. now rewrite E, Q. Qed.
Lemma erep_exact x k g : rep_ok x k g = true -> exact (erep x k g) = true.
Proof.
  intros H. unfold exact. rewrite (wf_erep _ _ _ H), (ctree_erep _ _ _ H). destruct (rnode_facts x k g H) as (O & Gd & A & S & _). now rewrite O, Gd, A, S.
Qed.
Lemma erep_supported x k g : rep_ok x k g = true -> tidy x = true -> supported (erep x k g) = true.
Proof.
  intros H T. unfold supported. rewrite (wf_erep _ _ _ H), (ctree_erep _ _ _ H). destruct (rnode_facts x k g H) as (O & Gd & A & S & C).
  now rewrite O, Gd, A, (C T), !orb_true_r.
Qed.

(** * What they match *)
Section Meaning.
Variable w : str.
(** The characters of [w] from [i] on belong to the elements of [l], one by one. *)
Definition pointwise (l : list elem) (i : nat) : Prop :=
  forall k x, nth_error l k = Some x -> exists c, nth_error w (i + k) = Some c /\ elem_set x c = true.
Fixpoint pw (l : list elem) (i : nat) : bool :=
  match l with
  | [] => true
  | x :: r => match nth_error w i with Some c => elem_set x c && pw r (S i) | None => false end
  end.
Lemma pw_ok l : forall i, pw l i = true <-> pointwise l i.
Proof.
  induction l as [|x l IH]; intro i; cbn [pw].
  - split; [intros _ [|k] y; discriminate|reflexivity].
  - split.
    + intros H [|k] y E; cbn in E.
      * injection E as <-. rewrite Nat.add_0_r. destruct (nth_error w i) as [c|]; [|discriminate]. exists c. apply andb_true_iff in H. tauto.
      * destruct (nth_error w i) as [c|]; [|discriminate]. apply andb_true_iff in H as [_ H]. apply IH in H. specialize (H k y E).
        now rewrite Nat.add_succ_r.
    + intro H. destruct (H 0 x eq_refl) as (c & E & Sx). rewrite Nat.add_0_r in E. rewrite E, Sx. cbn. apply IH. intros k y Ey.
      specialize (H (S k) y Ey). now rewrite Nat.add_succ_r in H.
Qed.
Lemma sem_eseq l : forall i d, sem_sq w (eseq l) (i, d) = if pw l i then [(i + length l, d)] else [].
Proof.
  induction l as [|x l IH]; intros i d.
  - cbn. unfold eps_o. now rewrite Nat.add_0_r.
  - change (sem_sq w (eseq (x :: l)) (i, d)) with (flat_map (sem_sq w (eseq l)) (chr_o w (elem_set x) (i, d))).
    unfold chr_o. cbn [fst snd pw]. destruct (nth_error w i) as [c|]; [|reflexivity]. destruct (elem_set x c); [|reflexivity].
    cbn [flat_map andb]. rewrite IH, app_nil_r. cbn [length]. now rewrite Nat.add_succ_r.
Qed.
(** A branch matches at [i]. *)
Definition branch_at (b : bool * list elem) (i : nat) : Prop := (fst b = true -> i = 0) /\ pointwise (snd b) i.
Definition bat (b : bool * list elem) (i : nat) : bool := (negb (fst b) || Nat.eqb i 0) && pw (snd b) i.
Lemma bat_ok b i : bat b i = true <-> branch_at b i.
Proof.
  unfold bat, branch_at. rewrite andb_true_iff, pw_ok. destruct (fst b); cbn; [rewrite Nat.eqb_eq|]; intuition congruence.
Qed.
Lemma sem_ebr b i d : sem_br w (ebr b) (i, d) = if bat b i then [(i + length (snd b), d)] else [].
Proof.
  destruct b as [a l]. unfold ebr, bat. cbn [fst snd sem_br]. destruct a; cbn [negb orb andb].
  - unfold seq_o, bol_o. cbn [fst]. destruct (Nat.eqb i 0); [|reflexivity]. cbn [flat_map andb]. now rewrite sem_eseq, app_nil_r.
  - apply sem_eseq.
Qed.
(** The first branch that matches at [i]. *)
Fixpoint first_branch (bs : list (bool * list elem)) (i : nat) : option (list elem) :=
  match bs with [] => None | b :: r => if bat b i then Some (snd b) else first_branch r i end.
Lemma match_ealt bs : forall b i, match_at w (ealt b bs) i = option_map (fun l => (i + length l, [])) (first_branch (b :: bs) i).
Proof.
  unfold match_at. induction bs as [|c bs IH]; intros b i.
  - cbn [ealt]. change (sem w (ROne (ebr b)) (i, [])) with (sem_br w (ebr b) (i, [])). rewrite sem_ebr. cbn [first_branch]. destruct (bat b i); reflexivity.
  - change (sem w (ealt b (c :: bs)) (i, [])) with (sem_br w (ebr b) (i, []) ++ sem w (ealt c bs) (i, [])). rewrite hd_app, sem_ebr.
    change (first_branch (b :: c :: bs) i) with (if bat b i then Some (snd b) else first_branch (c :: bs) i). destruct (bat b i); [reflexivity|]. cbn [hd_error]. apply IH.
Qed.
End Meaning.

Section Counting.
Variable w : str.
(** How many characters of [w] from [i] on are in [P]. *)
Fixpoint run_len (P : chr -> bool) (l : str) : nat :=
  match l with c :: r => if P c then S (run_len P r) else 0 | [] => 0 end.
Definition run_at (P : chr -> bool) (i : nat) : nat := run_len P (skipn i w).
Lemma skipn_nth {A} (l : list A) i : skipn i l = match nth_error l i with Some x => x :: skipn (S i) l | None => [] end.
Proof. revert i. induction l as [|x l IH]; intros [|i]; try reflexivity. cbn [skipn nth_error]. rewrite IH. destruct (nth_error l i); reflexivity. Qed.
Lemma run_step P i : run_at P i = match nth_error w i with Some c => if P c then S (run_at P (S i)) else 0 | None => 0 end.
Proof. unfold run_at. rewrite (skipn_nth w i). destruct (nth_error w i); reflexivity. Qed.
Lemma run_spec P i n : run_at P i = n <->
  (forall k, k < n -> exists c, nth_error w (i + k) = Some c /\ P c = true) /\ (forall c, nth_error w (i + n) = Some c -> P c = false).
Proof.
  revert i. induction n as [|n IH]; intro i; rewrite run_step.
  - rewrite Nat.add_0_r. destruct (nth_error w i) as [c|] eqn:E.
    + destruct (P c) eqn:Pc; split; try discriminate.
      * intros [_ H]. specialize (H c eq_refl). congruence.
      * intros _. split; [intros k Hk; lia|]. now intros d [= <-].
      * reflexivity.
    + split; [intros _; split; [intros k Hk; lia|discriminate]|reflexivity].
  - destruct (nth_error w i) as [c|] eqn:E.
    + destruct (P c) eqn:Pc.
      * specialize (IH (S i)). split.
        -- intros [= H]. apply IH in H as [A B]. split.
           ++ intros [|k] Hk; [rewrite Nat.add_0_r; eauto|]. rewrite Nat.add_succ_r. apply (A k). lia.
           ++ rewrite Nat.add_succ_r. exact B.
        -- intros [A B]. f_equal. apply IH. split.
           ++ intros k Hk. specialize (A (S k) ltac:(lia)). now rewrite Nat.add_succ_r in A.
           ++ now rewrite Nat.add_succ_r in B.
      * split; [discriminate|]. intros [A _]. destruct (A 0 ltac:(lia)) as (d & D & Q). rewrite Nat.add_0_r in D. congruence.
    + split; [discriminate|]. intros [A _]. destruct (A 0 ltac:(lia)) as (d & D & Q). rewrite Nat.add_0_r in D. congruence.
Qed.
Lemma run_le P i : run_at P i <= length w - i.
Proof. unfold run_at. rewrite <- skipn_length. generalize (skipn i w) as l. induction l as [|c l IH]; cbn; [lia|]. destruct (P c); lia. Qed.
Lemma run_ge P i n : n <= run_at P i <-> forall k, k < n -> exists c, nth_error w (i + k) = Some c /\ P c = true.
Proof.
  split.
  - intros H k Hk. pose proof (proj1 (run_spec P i (run_at P i)) eq_refl) as [A _]. apply A. lia.
  - intro H. destruct (Nat.le_gt_cases n (run_at P i)) as [L|L]; [exact L|]. exfalso.
    pose proof (proj1 (run_spec P i (run_at P i)) eq_refl) as [_ B]. destruct (H (run_at P i) L) as (c & E & Pc). specialize (B c E). congruence.
Qed.
Lemma chr_run_at P i d : chr_o w P (i, d) = match run_at P i with 0 => [] | S _ => [(S i, d)] end.
Proof. unfold chr_o. cbn [fst snd]. rewrite run_step. destruct (nth_error w i) as [c|]; [|reflexivity]. destruct (P c); reflexivity. Qed.
Lemma run_S P i n : run_at P i = S n -> run_at P (S i) = n.
Proof. rewrite run_step. destruct (nth_error w i) as [c|]; [|discriminate]. destruct (P c); [|discriminate]. congruence. Qed.
Lemma pow_run_at P n : forall i d, pow_o n (chr_o w P) (i, d) = if n <=? run_at P i then [(i + n, d)] else [].
Proof.
  induction n as [|n IH]; intros i d; cbn [pow_o].
  - unfold eps_o. now rewrite Nat.add_0_r.
  - unfold seq_o. rewrite chr_run_at. destruct (run_at P i) as [|q] eqn:E; [reflexivity|]. cbn [flat_map]. rewrite IH, app_nil_r, (run_S _ _ _ E).
    cbn [Nat.leb]. now rewrite Nat.add_succ_r.
Qed.
Lemma most_run_at P n : forall i d, hd_error (most_o n (chr_o w P) (i, d)) = Some (i + Nat.min n (run_at P i), d).
Proof.
  induction n as [|n IH]; intros i d; cbn [most_o].
  - cbn. now rewrite Nat.add_0_r.
  - rewrite chr_run_at. destruct (run_at P i) as [|q] eqn:E.
    + cbn. now rewrite Nat.add_0_r.
    + assert (PR : progress (i, d) [(S i, d)] = [(S i, d)]) by (unfold progress; cbn [filter fst]; destruct (Nat.eqb_spec (S i) i); [lia|reflexivity]).
      rewrite PR. cbn [flat_map]. rewrite app_nil_r, hd_app, IH, (run_S _ _ _ E). rewrite <- Nat.succ_min_distr, Nat.add_succ_r. reflexivity.
Qed.
(** [x] taken between [kind_min] and [kind_max] times, as often as possible. *)
Definition rep_end (k : qkind) (r : nat) : option nat :=
  if (kind_min k <=? N.of_nat r)%N
  then Some (match kind_max k with None => r | Some m => N.to_nat (N.min m (N.of_nat r)) end) else None.
Lemma match_erep x k g i : match g with Lz => False | _ => True end -> (match kind_max k with Some m => (kind_min k <= m)%N | None => True end) ->
  match_at w (erep x k g) i = option_map (fun n => (i + n, [])) (rep_end k (run_at (elem_set x) i)).
Proof.
  intros Hg Hm. unfold match_at, erep.
  assert (SE : forall a c, seq_o a eps_o c = a c) by (intros a c; unfold seq_o, eps_o; induction (a c) as [|y l IH]; [reflexivity|cbn; now rewrite IH]).
  change (sem w (ROne (Br false (SCons (AEl x) (QQ k g) SNil))) (i, [])) with (seq_o (rep_o w g (kind_min k) (kind_max k) (chr_o w (elem_set x))) eps_o (i, [])).
  rewrite SE. set (P := elem_set x). unfold rep_end.
  assert (X : hd_error (seq_o (pow_o (N.to_nat (kind_min k)) (chr_o w P)) (most_o (extra w (kind_min k) (kind_max k)) (chr_o w P)) (i, []))
     = option_map (fun n => (i + n, [])) (if (kind_min k <=? N.of_nat (run_at P i))%N
         then Some (match kind_max k with None => run_at P i | Some m => N.to_nat (N.min m (N.of_nat (run_at P i))) end) else None)).
  { unfold seq_o. rewrite pow_run_at. destruct (N.leb_spec (kind_min k) (N.of_nat (run_at P i))) as [L|L];
      destruct (Nat.leb_spec (N.to_nat (kind_min k)) (run_at P i)) as [L'|L']; try lia; [|reflexivity].
    cbn [flat_map option_map]. rewrite app_nil_r, most_run_at. do 2 f_equal.
    assert (RR : run_at P (i + N.to_nat (kind_min k)) = run_at P i - N.to_nat (kind_min k)).
    { apply run_spec. pose proof (proj1 (run_spec P i (run_at P i)) eq_refl) as [A B]. split.
      - intros q Hq. rewrite <- Nat.add_assoc. apply A. lia.
      - replace (i + N.to_nat (kind_min k) + (run_at P i - N.to_nat (kind_min k))) with (i + run_at P i) by lia. exact B. }
    rewrite RR. pose proof (run_le P i). unfold extra. destruct (kind_max k) as [m|]; lia. }
  destruct g; [exact X|destruct Hg|]. cbn [rep_o]. unfold atomic_o. rewrite <- X. destruct (seq_o _ _ _); reflexivity.
Qed.
End Counting.

(** * One quantified element after ^ *)
Definition arep (x : elem) (k : qkind) (g : greed) : rx := ROne (Br true (SCons (AEl x) (QQ k g) SNil)).
Lemma ctree_arep x k g : rep_ok x k g = true -> ctree (arep x k g) = Simple (Term TStart) [rnode x k].
Proof.
  intro H. unfold rep_ok in H. rewrite !andb_true_iff in H. destruct H as [[[_ _] Hg] _]. unfold ctree, renumber, arep, tree.
  cbn [renumber_in renumber_br renumber_sq renumber_atom tree_bs tree_br tree_sq tree_atom followed tree_quant]. rewrite tree_body.
  destruct k, g; try discriminate; cbn [mkq pol_of optimize map rnode app followed term_optimize]; rewrite ?opt_body;
    change (extract_adm []) with (@nil chr); rewrite ?inter_nil; reflexivity.
Qed.
Lemma arep_supported x k g : rep_ok x k g = true -> kind_min k <> 0%N -> supported (arep x k g) = true.
Proof.
  intros H M. pose proof (rnode_facts x k g H) as (O & Gd & A & S & C). unfold supported. rewrite (ctree_arep x k g H).
  pose proof H as H'. unfold rep_ok in H'. rewrite !andb_true_iff in H'. destruct H' as [[[[E F] Q] Hg] _]. pose proof (elem_unit x E F) as U.
  assert (W : wf (arep x k g) = true) by (unfold arep; cbn [wf wf_br wf_sq wf_atom]; now rewrite E, Q). rewrite W.
  assert (OB : forall inj F, optok (Simple (body x) []) inj F = true) by (intros; cbn [optok]; rewrite body_optok; reflexivity).
  pose proof (optok_all _ (OB [])) as OA.
  assert (OK : optok (tree (renumber (arep x k g))) [] FTot = true).
  { clear - H O Hg OB OA. unfold renumber, erep, arep, tree in *.
    cbn [renumber_in renumber_br renumber_sq renumber_atom tree_bs tree_br tree_sq tree_atom followed tree_quant] in *. rewrite tree_body in *.
    set (M := Simple (body x) []) in *. clearbody M. clear O.
    destruct k, g; try discriminate; cbn [mkq pol_of followed app optok forallb map] in *;
    cbn [map app]; change (extract_adm []) with (@nil chr) in *; rewrite ?inter_nil in *; cbn [andb adm_empty folk no_retry forallb] in *;
    rewrite ?OA; reflexivity. }
  rewrite OK. cbn [good is_start accins clean andb]. rewrite Gd.
  assert (NN : nonnull (rnode x k) = true).
  { destruct (ou_set _ _ U) as (P & UP & _). assert (PU : pre (unode x) = ([P], true)) by (destruct (unode x); cbn [pre]; rewrite UP; reflexivity).
    assert (PW : forall q, q <> 0 -> fst (powp q (pre (unode x))) <> []) by (intros [|q] Hq; [congruence|]; rewrite PU; cbn; discriminate).
    assert (MP : forall q, q <> 0%N -> minp q (pre (unode x)) <> []) by (intros q Hq; unfold minp; apply PW; lia).
    assert (NE : forall l : list cset, l <> [] -> match l with [] => false | _ => true end = true) by (intros []; congruence).
    assert (PS : forall mx cs q, q <> 0%N -> match fst (pre (Possessive (unode x) q mx cs)) with [] => false | _ => true end = true).
    { intros mx cs q Hq. cbn [pre uset]. destruct (N.eqb_spec q 0); [contradiction|]. cbn [fst]. apply NE, MP, Hq. }
    unfold nonnull. destruct k; cbn [rnode]; cbn [kind_min] in *; try congruence; auto.
    cbn [pre uset]. destruct (_ <=? 8)%N; [|cbn [fst]; apply NE, MP, M]. apply NE. unfold seqp.
    assert (Z : Z.to_N (num_val n) <> 0%N) by exact M. specialize (PW (N.to_nat (Z.to_N (num_val n))) ltac:(lia)).
    destruct (powp _ _) as [[|p ps] []]; cbn in *; congruence. }
  unfold eats. rewrite NN. reflexivity.
Qed.
Lemma match_arep w x k g i : match_at w (arep x k g) i = if Nat.eqb i 0 then match_at w (erep x k g) i else None.
Proof.
  unfold match_at, arep, erep. change (sem w (ROne (Br true (SCons (AEl x) (QQ k g) SNil))) (i, [])) with (flat_map (sem_sq w (SCons (AEl x) (QQ k g) SNil)) (bol_o (i, []))).
  unfold bol_o. cbn [fst]. destruct (Nat.eqb i 0); [|reflexivity]. cbn [flat_map]. rewrite app_nil_r. reflexivity.
Qed.
