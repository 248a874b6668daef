(** Patterns made of delimited fields (SpecFields.v): their trees, and that the optimiser and
    the matcher handle them as specified. *)
From Coq Require Import ZArith NArith List Bool Lia ZifyBool ZifyNat ZifyN.
From Verif Require Import Base Text Ast Builder Engine Spec SpecProofs SpecEnd Tree Den Checker AstProofs EngineMain Runs Mono Supported Heads Families EndD SpecFields.
Import ListNotations.
Open Scope nat_scope.

(** * As patterns of Spec.v *)
Definition am_quant (a : amount) : quant :=
  match a with One => Q1 | Times ds => QQ (QExact ds) Gr | Plus => QQ QPlus Gr | Star => QQ QStar Gr end.
Definition one_sq (f : field) : sq := SCons (AEl (f_el f)) (am_quant (f_am f)) SNil.
Fixpoint fsq (fs : list field) (g : nat) : sq :=
  match fs with
  | [] => SNil
  | f :: r => if f_cap f then SCons (ACap g (ROne (Br false (one_sq f)))) Q1 (fsq r (S g))
              else SCons (AEl (f_el f)) (am_quant (f_am f)) (fsq r g)
  end.
Definition frx (fs : list field) : rx := ROne (Br true (fsq fs 0)).
Definition ncap (fs : list field) : nat := length (filter f_cap fs).

Lemma show_am a : show_quant (am_quant a) = show_amount a.
Proof. destruct a; cbn; rewrite ?app_nil_r; reflexivity. Qed.
Lemma show_fsq fs : forall g, show_sq (fsq fs g) = show_fields fs.
Proof.
  induction fs as [|f fs IH]; intro g; [reflexivity|]. unfold show_fields. cbn [fsq flat_map]. fold (show_fields fs). unfold show_field. destruct (f_cap f).
  - cbn [show_sq show_atom show show_br one_sq show_quant]. rewrite IH, show_am. cbn [app]. now rewrite app_nil_r.
  - cbn [show_sq show_atom]. rewrite IH, show_am. now rewrite app_assoc.
Qed.
Lemma filter_cap r : existsb f_cap r = false -> forall g h, fsq r g = fsq r h.
Proof.
  induction r as [|f r IH]; intros H g h; [reflexivity|]. cbn in H. apply orb_false_iff in H as [A B]. cbn [fsq]. rewrite A. f_equal. now apply IH.
Qed.
Lemma renumber_fsq fs : forall g seen, (seen = false -> g = 0) -> counted seen fs = true -> renumber_sq (fsq fs g) g = fsq fs g.
Proof.
  induction fs as [|f fs IH]; intros g seen Hs C; [reflexivity|]. cbn [counted] in C. apply andb_true_iff in C as [C1 C2]. cbn [fsq]. destruct (f_cap f) eqn:F.
  - cbn [renumber_sq renumber_atom after_atom one_sq renumber_in renumber_br]. rewrite Nat.add_1_r. f_equal. apply (IH (S g) true); [discriminate|].
    now rewrite orb_true_r in C2.
  - cbn [renumber_sq renumber_atom]. f_equal. rewrite orb_false_r in C2.
    assert (K : forall e, renumber_sq (fsq fs g) e = fsq fs g \/ True) by (intro; now right). clear K.
    unfold bare_class in C1. rewrite F in C1. cbn [negb andb] in C1.
    destruct (f_el f) as [c|c| |neg items|a b c|a b]; cbn [after_atom]; try (apply (IH g seen Hs C2)).
    cbn [negb orb] in C1. apply orb_true_iff in C1 as [C1|C1].
    + apply negb_true_iff in C1. subst seen. rewrite (Hs eq_refl). apply (IH 0 false); auto.
    + apply negb_true_iff in C1. rewrite (filter_cap fs C1 g 0). destruct seen; [|apply (IH 0 false); auto].
      assert (K : forall h, renumber_sq (fsq fs 0) h = fsq fs 0); [|apply K]. clear -C1. induction fs as [|f fs IH]; intro h; [reflexivity|]. cbn in C1. apply orb_false_iff in C1 as [A B].
      cbn [fsq]. rewrite A. cbn [renumber_sq renumber_atom]. f_equal. now apply IH.
Qed.
Lemma renumber_frx fs : counted false fs = true -> renumber (frx fs) = frx fs.
Proof. intro C. unfold renumber, frx. cbn [renumber_in renumber_br]. now rewrite (renumber_fsq fs 0 false). Qed.
Lemma caps_fsq fs : forall g, caps_sq (fsq fs g) = seq g (ncap fs).
Proof.
  induction fs as [|f fs IH]; intro g; [reflexivity|]. unfold ncap in *. cbn [fsq filter]. destruct (f_cap f); cbn [caps_sq caps_atom caps caps_br one_sq length seq app]; [|apply IH].
  f_equal. apply IH.
Qed.
Lemma sure_fsq fs : forall g k, g <= k < g + ncap fs -> existsb (Nat.eqb k) (sure_sq (fsq fs g)) = true.
Proof.
  unfold ncap. induction fs as [|f fs IH]; intros g k Hk; cbn [filter length] in Hk; [lia|]. cbn [fsq]. destruct (f_cap f); cbn [length] in Hk.
  - cbn [sure_sq sure_atom]. cbn [app existsb]. rewrite existsb_app. destruct (Nat.eqb_spec k g); [reflexivity|]. rewrite IH by lia. now rewrite orb_true_r.
  - cbn [sure_sq sure_atom]. destruct (am_quant _); cbn [app]; [now apply IH|]. destruct (_ =? _)%N; cbn [app]; now apply IH.
Qed.
Lemma frx_covers fs : covers (frx fs) = true.
Proof.
  unfold covers. cbn [frx caps caps_br sure sure_br]. rewrite caps_fsq, seq_length. apply forallb_forall. intros k Hk. apply in_seq in Hk. apply sure_fsq. lia.
Qed.
Definition fok (f : field) : bool := field_elem (f_el f) && amount_ok (f_am f).
Lemma fok_eok f : fok f = true -> eok (f_el f) = true /\ quant_ok (am_quant (f_am f)) = true.
Proof.
  unfold fok, field_elem, eok, amount_ok. rewrite !andb_true_iff. intros [[A B] C]. split.
  - split; [exact A|]. destruct (f_el f) as [| | |[] items| |]; try reflexivity; cbn [fine] in *; [|exact B]. apply andb_true_iff in B as [B _]. exact B.
  - destruct (f_am f); try reflexivity. cbn. apply andb_true_iff in C as [C _]. now rewrite C.
Qed.
Lemma wf_fsq fs : forall g, forallb fok fs = true -> wf_sq (fsq fs g) = true.
Proof.
  induction fs as [|f fs IH]; intros g H; [reflexivity|]. cbn [forallb] in H. apply andb_true_iff in H as [A B]. destruct (fok_eok f A) as [E Q].
  unfold eok in E. apply andb_true_iff in E as [E _]. cbn [fsq]. destruct (f_cap f); cbn [wf_sq wf_atom wf wf_br one_sq quant_ok]; rewrite E, Q, IH by exact B; reflexivity.
Qed.
Lemma wf_frx fs : fs <> [] -> forallb fok fs = true -> wf (frx fs) = true.
Proof.
  intros N H. unfold frx. cbn [wf wf_br]. pose proof (wf_fsq fs 0 H). destruct (fsq fs 0) eqn:E; [|assumption].
  destruct fs as [|f fs]; [congruence|]. cbn [fsq] in E. destruct (f_cap f); discriminate.
Qed.
Lemma nopos_frx fs : nopos (frx fs) = true.
Proof.
  assert (S : forall fs g, nopos_sq (fsq fs g) = true).
  { clear. induction fs as [|f fs IH]; intro g; [reflexivity|]. cbn [fsq]. unfold one_sq. destruct (f_cap f), (f_am f); cbn [nopos_sq nopos_atom nopos nopos_br am_quant]; rewrite IH; reflexivity. }
  unfold frx. cbn [nopos nopos_br]. apply S.
Qed.

(** * One field *)
Lemma body_set x : elem_ok x = true -> exists Q, uset (body x) = Some Q /\ forall c, Q c = elem_set x c.
Proof.
  intro H. destruct x as [c|c| |neg items|a b c|a b]; cbn [body elem_ok uset] in *.
  - cbn [tset]. rewrite kset_lit by exact H. eexists. split; [reflexivity|]. intro; apply Z.eqb_sym.
  - destruct (kset_esc c H) as (Q & E & X). exists Q. split; [exact E|exact X].
  - eexists. split; [reflexivity|]. reflexivity.
  - apply andb_true_iff in H as [H N]. assert (NN : items <> []) by (destruct items; discriminate).
    assert (X : exists Q, usets (map uset (map tree_citem items)) = Some Q /\ forall c, Q c = existsb (fun i => citem_set i c) items).
    { destruct (items_set items NN H) as (Q & E & X). exists Q. split; [|exact X]. rewrite <- E. f_equal. rewrite !map_map. apply map_ext. intro i.
      rewrite tree_cterm. cbn [uset cnode]. now rewrite tset_optimize. }
    destruct X as (Q & E & X). destruct neg; cbn [uset]; rewrite E; eexists; (split; [reflexivity|]); intro c; cbn [elem_set]; rewrite X; now destruct (existsb _ items).
  - eexists. split; [reflexivity|]. intro; apply Z.eqb_sym.
  - eexists. split; [reflexivity|]. intro; apply Z.eqb_sym.
Qed.
Lemma body_adm x c : field_elem x = true -> In c (nadm (body x)) -> wide x c = true.
Proof.
  unfold field_elem. rewrite andb_true_iff. intros [O F] I. destruct x as [a|a| |neg items|p q r|p q]; cbn [body elem_ok wide] in *.
  - cbn [nadm term_adm] in I. rewrite (kind_lit a O) in I. cbn [elem_set]. destruct I as [<-|[]]. apply Z.eqb_refl.
  - apply (esc_adm a c O). exact I.
  - reflexivity.
  - apply andb_true_iff in O as [O N]. destruct items as [|i items]; [discriminate N|]. assert (Oi : citem_ok i = true) by (cbn [forallb] in O; lia). destruct neg.
    + change (In c (adm_complement (nadm (SimpleV (map tree_citem (i :: items)))))) in I. rewrite class_adm in I by exact O. apply andb_true_iff in F as [_ F].
      apply complement_in in I; [|now apply citem_asc|].
      * apply negb_true_iff. destruct (citem_set i c) eqn:E; [|reflexivity]. exfalso. apply (proj2 I). now apply citem_adm.
      * apply Forall_forall. intros y Hy. apply citem_adm in Hy; [|exact Oi]. apply (head7 i items y Oi); [|exact Hy]. destruct i; exact F.
    + rewrite class_adm in I by exact O. apply citem_adm in I; [|exact Oi]. cbn [elem_set existsb xorb]. now rewrite I.
  - cbn [nadm term_adm In elem_set] in *. destruct I as [<-|[]]. apply Z.eqb_refl.
  - cbn [nadm term_adm In elem_set] in *. destruct I as [<-|[]]. apply Z.eqb_refl.
Qed.
Lemma elem_wide x c : elem_set x c = true -> wide x c = true.
Proof.
  destruct x as [a|a| |[] [|i items]|p q r|p q]; cbn [wide]; auto. cbn [elem_set existsb]. destruct (citem_set i c); [discriminate|reflexivity].
Qed.
Lemma citem_range i c : citem_ok i = true -> citem_set i c = true -> (-128 <= c <= 127)%Z.
Proof.
  intros O S. destruct i as [a|a b|a]; cbn [citem_ok citem_set] in *.
  - unfold class_plain, is_char in O. lia.
  - unfold class_plain, is_char in O. lia.
  - unfold escapable, is_char in O. unfold esc_set in S.
    repeat match type of S with context [if ?b then _ else _] => destruct b end; cbn [existsb] in S; lia.
Qed.
Lemma body_range x c : field_elem x = true -> In c (nadm (body x)) -> (-128 <= c <= 127)%Z.
Proof.
  unfold field_elem. rewrite andb_true_iff. intros [O F] I. destruct x as [a|a| |neg items|p q r|p q]; cbn [body elem_ok] in *.
  - cbn [nadm term_adm] in I. rewrite (kind_lit a O) in I. destruct I as [<-|[]]. unfold plain, is_char in O. lia.
  - apply (esc_adm a c O) in I. apply (citem_range (CEsc a) c O I).
  - apply (adm_range_in 0 127) in I. lia.
  - apply andb_true_iff in O as [O N]. destruct items as [|i items]; [discriminate N|]. assert (Oi : citem_ok i = true) by (cbn [forallb] in O; lia). destruct neg.
    + change (In c (adm_complement (nadm (SimpleV (map tree_citem (i :: items)))))) in I. rewrite class_adm in I by exact O. apply andb_true_iff in F as [_ F].
      apply complement_in in I; [lia|now apply citem_asc|].
      apply Forall_forall. intros y Hy. apply citem_adm in Hy; [|exact Oi]. apply (head7 i items y Oi); [|exact Hy]. destruct i; exact F.
    + rewrite class_adm in I by exact O. apply citem_adm in I; [|exact Oi]. now apply (citem_range i).
  - cbn [nadm term_adm In] in *. destruct I as [<-|[]]. unfold digit_ok, byte_chr in *. destruct (_ <? 128)%Z eqn:E; lia.
  - cbn [nadm term_adm In] in *. destruct I as [<-|[]]. unfold digit_ok, byte_chr in *. destruct (_ <? 128)%Z eqn:E; lia.
Qed.
Lemma chars_in c : (-128 <= c <= 127)%Z -> In c all_chars.
Proof. intro H. unfold all_chars. apply in_map_iff. exists (Z.to_nat (c + 128)). split; [lia|]. apply in_seq. lia. Qed.
Lemma apart_disj P Q P' Q' : (forall c, P' c = true -> P c = true) -> (forall c, Q' c = true -> Q c = true) -> apart P Q = true -> disj P' Q' = true.
Proof.
  intros A B H. unfold disj. apply forallb_forall. intros c Hc. unfold apart in H. rewrite forallb_forall in H. specialize (H c Hc).
  specialize (A c). specialize (B c). destruct (P' c), (Q' c); try reflexivity. rewrite A, B in H by reflexivity. discriminate.
Qed.
Lemma inter_apart x y : field_elem x = true -> field_elem y = true -> apart (wide x) (wide y) = true -> adm_inter (nadm (body x)) (nadm (body y)) = [].
Proof.
  intros X Y H. destruct (adm_inter (nadm (body x)) (nadm (body y))) as [|c l] eqn:E; [reflexivity|]. exfalso.
  assert (I : In c (adm_inter (nadm (body x)) (nadm (body y)))) by (rewrite E; now left).
  assert (AX : forall z, field_elem z = true -> asc (nadm (body z))).
  { intros z Z. unfold field_elem in Z. apply andb_true_iff in Z as [Z _]. pose proof (elem_asc z Z) as A. rewrite tree_body in A. exact A. }
  apply (inter_in _ _ c (AX x X) (AX y Y)) in I as [I1 I2]. unfold apart in H. rewrite forallb_forall in H.
  specialize (H c (chars_in c (body_range x c X I1))). rewrite (body_adm x c X I1), (body_adm y c Y I2) in H. discriminate.
Qed.
Lemma unode_gidx x : gidx (unode x) = [].
Proof.
  unfold unode. destruct x as [c|c| |neg items|a b c|a b]; try reflexivity. cbn [body]. destruct neg.
  - change (gidx (optimize (SimpleV (map tree_citem items)) []) = []). rewrite opt_class. unfold cnodes. destruct items as [|i [|j items]]; try reflexivity.
    cbn [gidx]. induction (i :: j :: items) as [|k l IH]; [reflexivity|]. exact IH.
  - rewrite opt_class. unfold cnodes. destruct items as [|i [|j items]]; try reflexivity.
    cbn [gidx]. induction (i :: j :: items) as [|k l IH]; [reflexivity|]. exact IH.
Qed.

(** * The trees *)
Definition leaf (f : field) : node := Simple (body (f_el f)) [].
Definition inner0 (f : field) : node := tree_quant (am_quant (f_am f)) (leaf f).
Definition funit0 (f : field) (g : nat) : node := if f_cap f then Group (SimpleV [inner0 f]) g [] else inner0 f.
Definition nextg (f : field) (g : nat) : nat := if f_cap f then S g else g.
Definition kids (t : option node) : list node := match t with None => [] | Some n => [n] end.
Definition dollar : node := Simple (Term TEnd) [].
Fixpoint chain0 (fs : list field) (g : nat) (d : bool) : option node :=
  match fs with
  | [] => if d then Some dollar else None
  | f :: r => Some (followed (funit0 f g) (chain0 r (nextg f g) d))
  end.
Lemma chain0_d fs : forall g, tree_sq_d (fsq fs g) = match chain0 fs g true with Some n => n | None => dollar end.
Proof.
  induction fs as [|f fs IH]; intro g; [reflexivity|]. cbn [fsq chain0]. unfold funit0, nextg. destruct (f_cap f).
  - cbn [tree_sq_d tree_quant tree_atom tree_bs tree_br tree_sq one_sq followed]. rewrite IH. unfold inner0, leaf. rewrite tree_body.
    destruct (chain0 fs (S g) true) eqn:E; [reflexivity|]. destruct fs; discriminate.
  - cbn [tree_sq_d tree_atom]. rewrite IH. unfold inner0, leaf. rewrite tree_body.
    destruct (chain0 fs g true) eqn:E; [reflexivity|]. destruct fs; discriminate.
Qed.
Lemma chain0_n fs : forall g, tree_sq (fsq fs g) = chain0 fs g false.
Proof.
  induction fs as [|f fs IH]; intro g; [reflexivity|]. cbn [fsq chain0]. unfold funit0, nextg. destruct (f_cap f).
  - cbn [tree_sq tree_quant tree_atom tree_bs tree_br one_sq]. rewrite IH. unfold inner0, leaf. rewrite tree_body. reflexivity.
  - cbn [tree_sq tree_atom]. rewrite IH. unfold inner0, leaf. now rewrite tree_body.
Qed.
(** The optimised ones: a run is possessive ([p]) or, before $, greedy. *)
Definition runnode (p : bool) (x : elem) (mn : N) (cs : list node) : node :=
  if p then Possessive (unode x) mn UMAX cs else Greedy (unode x) mn UMAX cs.
Definition inner (p : bool) (f : field) (cs : list node) : node :=
  match f_am f with
  | One => match cs with [] => unode (f_el f) | _ => Simple (unode (f_el f)) cs end
  | Times ds => Repeated (unode (f_el f)) (Z.to_N (num_val ds)) cs
  | Plus => runnode p (f_el f) 1 cs
  | Star => runnode p (f_el f) 0 cs
  end.
Definition funit (p : bool) (f : field) (g : nat) (cs : list node) : node :=
  if f_cap f then Group (inner p f []) g cs else inner p f cs.
(** Is the run made possessive? *)
Definition ends (d : bool) (x : elem) : bool :=
  if d then adm_empty (adm_inter (nadm (body x)) (extract_adm [nadm dollar])) else true.
Definition posq (f : field) (r : list field) (d : bool) : bool := match r with [] => ends d (f_el f) | _ => true end.
Fixpoint chain (fs : list field) (g : nat) (d : bool) : option node :=
  match fs with
  | [] => if d then Some (Term TEnd) else None
  | f :: r => Some (funit (posq f r d) f g (kids (chain r (nextg f g) d)))
  end.
Definition gap (f : field) (r : list field) : Prop :=
  match r with g :: _ => is_run f = true -> required g = true /\ apart (wide (f_el f)) (wide (f_el g)) = true | [] => True end.
Lemma followed_adm f g t : field_elem (f_el f) = true -> required f = true -> nadm (followed (funit0 f g) t) = nadm (body (f_el f)).
Proof.
  intros F R. assert (E : eok (f_el f) = true).
  { unfold eok, field_elem in *. rewrite !andb_true_iff in *. destruct F as [A B]. split; [exact A|]. destruct (f_el f) as [| | |[] items| |]; try reflexivity; cbn [fine]; [|exact B]. apply andb_true_iff in B as [B _]. exact B. }
  pose proof (ou_min _ _ (eok_unit _ E)) as M. unfold unode in M. rewrite optimize_nmin in M.
  unfold required in R. unfold funit0, inner0, leaf. destruct (f_cap f), (f_am f); try discriminate R; cbn [am_quant tree_quant mkq pol_of kind_min kind_max umax_of].
  all: destruct t as [n|]; cbn [followed app nadm map]; try reflexivity; rewrite ?M; try reflexivity.
Qed.
Definition pempty (x : elem) (t : option node) : bool := adm_empty (adm_inter (nadm (body x)) (extract_adm (map nadm (kids t)))).
Lemma opt_unit f g t : optimize (followed (funit0 f g) t) [] = funit (pempty (f_el f) t) f g (map (fun c => optimize c []) (kids t)).
Proof.
  unfold funit0, funit, inner0, inner, leaf, runnode, pempty. destruct (f_cap f), (f_am f); cbn [am_quant tree_quant mkq pol_of kind_min kind_max umax_of];
  destruct t as [n|]; cbn [followed app optimize map kids]; rewrite ?opt_body; cbn [nadm]; try reflexivity; destruct (adm_empty _); reflexivity.
Qed.
Lemma pempty_one x n : pempty x (Some n) = adm_empty (adm_inter (nadm (body x)) (nadm n)).
Proof. unfold pempty, extract_adm. cbn [kids map fold_right]. now rewrite merge_nil_r. Qed.
Lemma unrun p q f g cs : is_run f = false -> funit p f g cs = funit q f g cs.
Proof. unfold is_run, funit, inner. destruct (f_am f); (discriminate || reflexivity). Qed.
Fixpoint gaps (fs : list field) : Prop := match fs with [] => True | f :: r => gap f r /\ gaps r end.
Lemma opt_chain fs : forall g d, forallb fok fs = true -> gaps fs -> option_map (fun n => optimize n []) (chain0 fs g d) = chain fs g d.
Proof.
  induction fs as [|f r IH]; intros g d F G; [destruct d; reflexivity|]. cbn [forallb] in F. apply andb_true_iff in F as [F1 F2]. destruct G as [G1 G2].
  specialize (IH (nextg f g) d F2 G2). cbn [chain0 chain option_map]. rewrite opt_unit. f_equal.
  assert (K : map (fun c => optimize c []) (kids (chain0 r (nextg f g) d)) = kids (chain r (nextg f g) d)).
  { rewrite <- IH. destruct (chain0 r (nextg f g) d); reflexivity. }
  rewrite K. destruct (is_run f) eqn:R; [|now apply unrun]. f_equal. destruct r as [|h r].
  - destruct d; [reflexivity|]. unfold pempty, posq, ends. cbn [chain0 kids map]. change (extract_adm []) with (@nil chr). now rewrite inter_nil.
  - cbn [posq]. destruct (G1 R) as [Q A]. cbn [chain0]. rewrite pempty_one. cbn [forallb] in F2. apply andb_true_iff in F2 as [F2 _].
    unfold fok in F1, F2. apply andb_true_iff in F1 as [F1 _], F2 as [F2 _]. rewrite (followed_adm h _ _ F2 Q), (inter_apart _ _ F1 F2 A). reflexivity.
Qed.

(** * What a chain needs first *)
Lemma pre_unit x : elem_ok x = true -> exists P, pre (body x) = ([P], true) /\ forall c, P c = elem_set x c.
Proof. intro H. destruct (body_set x H) as (P & U & X). exists P. split; [|exact X]. destruct (body x); cbn [pre]; rewrite U; reflexivity. Qed.
Lemma pre_okunit n P : okunit n P -> exists Q, pre n = ([Q], true) /\ forall c, Q c = P c.
Proof. intros [(Q & U & X) _ _ _ _ _ _]. exists Q. split; [|exact X]. destruct n; cbn [pre]; rewrite U; reflexivity. Qed.
Lemma powp_head k P : k <> 0 -> exists l, fst (powp k ([P], true)) = P :: l.
Proof. destruct k as [|k]; [congruence|]. intros _. cbn [powp seqp fst snd]. cbn. eauto. Qed.
Lemma seqp_head a b P l : fst a = P :: l -> exists l', fst (seqp a b) = P :: l'.
Proof. intro H. unfold seqp. destruct (snd a); cbn [fst]; rewrite H; cbn; eauto. Qed.
Lemma rep_head (m : node) k cs P : pre m = ([P], true) -> k <> 0%N -> uset (Repeated m k cs) = None -> exists l, fst (pre (Repeated m k cs)) = P :: l.
Proof.
  intros H K _. cbn [pre uset]. rewrite H. destruct (k <=? 8)%N eqn:E.
  - destruct (powp_head (N.to_nat k) P ltac:(lia)) as (l & Q). now apply (seqp_head _ _ _ l).
  - unfold minp. cbn [fst]. destruct (powp_head (N.to_nat (N.min k 8)) P ltac:(lia)) as (l & Q). eauto.
Qed.
Lemma num_pos a ds : amount_ok a = true -> a = Times ds -> Z.to_N (num_val ds) <> 0%N.
Proof. intros H ->. cbn in H. apply andb_true_iff in H as [_ H]. lia. Qed.
(** The unoptimised tree of a required field. *)
Lemma head0 f g t : fok f = true -> required f = true -> exists P l, fst (pre (followed (funit0 f g) t)) = P :: l /\ forall c, P c = elem_set (f_el f) c.
Proof.
  intros F R. destruct (fok_eok f F) as [E _]. unfold fok in F. apply andb_true_iff in F as [F A]. assert (O : elem_ok (f_el f) = true) by (unfold eok in E; lia).
  destruct (body_set _ O) as (P & U & X).
  assert (PL : pre (leaf f) = ([P], true)) by (unfold leaf; cbn [pre uset]; rewrite U; reflexivity).
  destruct (pre_unit _ O) as (P2 & PB & X2). assert (UL : uset (leaf f) = Some P) by exact U.
  assert (IN : exists l, fst (pre (inner0 f)) = P :: l).
  { unfold inner0, required in *. destruct (f_am f) as [|ds| |] eqn:Am; try discriminate R; cbn [am_quant tree_quant].
    - rewrite PL. eexists. reflexivity.
    - apply rep_head; [exact PL|eapply num_pos; [exact A|reflexivity]|reflexivity].
    - cbn [mkq pol_of kind_min]. cbn [pre uset]. cbn [N.eqb]. unfold minp. rewrite PL. eexists. reflexivity. }
  unfold funit0. destruct (f_cap f).
  - destruct IN as (l & IN). assert (GP : fst (pre (SimpleV [inner0 f])) = P :: l).
    { cbn [pre]. destruct (uset (SimpleV [inner0 f])) as [Q|] eqn:UQ; [|exact IN]. cbn [uset map usets] in UQ. cbn [fst].
      unfold inner0 in *. destruct (f_am f); cbn [am_quant tree_quant mkq pol_of] in *; try discriminate UQ. rewrite UL in UQ. injection UQ as <-. rewrite PL in IN. cbn in IN. exact IN. }
    exists P. assert (GG : forall cs, exists l', fst (pre (Group (SimpleV [inner0 f]) g cs)) = P :: l').
    { intro cs. change (pre (Group (SimpleV [inner0 f]) g cs)) with (seqp (pre (SimpleV [inner0 f])) (orsp (map pre cs))). now apply (seqp_head _ _ P l). }
    destruct t as [n|]; cbn [followed app]; [destruct (GG [n]) as (l' & Z)|destruct (GG []) as (l' & Z)]; exists l'; auto.
  - destruct t as [n|]; [|destruct IN as (l & IN); exists P, l; auto].
    unfold inner0, required in *. destruct (f_am f) as [|ds| |] eqn:Am; try discriminate R; cbn [am_quant tree_quant followed mkq pol_of].
    + unfold leaf. cbn [followed app]. exists P2. change (pre (Simple (body (f_el f)) [n])) with (seqp (pre (body (f_el f))) (orsp (map pre [n]))). rewrite PB.
      eexists. split; [reflexivity|exact X2].
    + destruct (rep_head (leaf f) (Z.to_N (num_val ds)) [n] P PL (num_pos _ ds A eq_refl) eq_refl) as (l & Z). exists P, l. auto.
    + exists P. assert (Z : fst (pre (Greedy (leaf f) 1 UMAX [n])) = minp 1 (pre (leaf f))) by reflexivity. rewrite PL in Z. exists []. split; [exact Z|exact X].
Qed.

(** * The optimiser keeps the meaning *)
Lemma leaf_optok f inj F : optok (leaf f) inj F = true.
Proof. unfold leaf. cbn [optok]. apply body_optok. Qed.
Lemma leaf_all f l : forallb (optok (leaf f) []) l = true.
Proof. apply forallb_forall. intros F _. apply leaf_optok. Qed.
Lemma opt_leaf f : optimize (leaf f) [] = unode (f_el f).
Proof. unfold leaf. cbn [optimize]. apply opt_body. Qed.
Lemma inner_optok f inj F : fok f = true -> (is_run f = true -> no_retry (unode (f_el f)) F true = true) -> optok (inner0 f) inj F = true.
Proof.
  intros K H. unfold inner0, is_run in *. destruct (f_am f); cbn [am_quant tree_quant mkq pol_of].
  - apply leaf_optok.
  - cbn [optok forallb]. now rewrite leaf_all.
  - specialize (H eq_refl). cbn [optok forallb]. rewrite !leaf_all. change (folk [] F) with F. rewrite opt_leaf, H. rewrite orb_true_r. destruct (adm_empty _); reflexivity.
  - specialize (H eq_refl). cbn [optok forallb]. rewrite !leaf_all. change (folk [] F) with F. rewrite opt_leaf, H. rewrite orb_true_r. destruct (adm_empty _); reflexivity.
Qed.
Lemma unit_optok f g t : fok f = true -> (is_run f = true -> no_retry (unode (f_el f)) (folk (kids t) FTot) true = true) ->
  forallb (fun c => optok c [] FTot) (kids t) = true -> optok (followed (funit0 f g) t) [] FTot = true.
Proof.
  intros K H C. unfold funit0. destruct (f_cap f).
  - assert (X : optok (Group (SimpleV [inner0 f]) g (kids t)) [] FTot = true).
    { cbn [optok]. rewrite C. rewrite inner_optok; [reflexivity|exact K|exact H]. }
    destruct t; exact X.
  - destruct t as [n|]; [|now apply inner_optok]. cbn [kids] in *. unfold inner0, is_run in *. destruct (f_am f); cbn [am_quant tree_quant mkq pol_of followed app].
    + unfold leaf. cbn [followed app optok]. rewrite body_optok, C. reflexivity.
    + cbn [optok]. now rewrite leaf_all, C.
    + specialize (H eq_refl). cbn [optok]. rewrite !leaf_all, C. rewrite opt_leaf, H. rewrite orb_true_r. destruct (adm_empty _); reflexivity.
    + specialize (H eq_refl). cbn [optok]. rewrite !leaf_all, C. rewrite opt_leaf, H. rewrite orb_true_r. destruct (adm_empty _); reflexivity.
Qed.
Lemma retry_set x P : eok x = true -> disj P (elem_set x) = true -> no_retry (unode x) (FSet P) true = true.
Proof.
  intros E D. pose proof (eok_unit x E) as U. cbn [no_retry]. rewrite (unit_det _ _ U). unfold first_disj. destruct (pre_okunit _ _ U) as (Q & PQ & X). rewrite PQ. cbn [fst andb].
  unfold disj in *. rewrite forallb_forall in *. intros c Hc. rewrite X. now apply D.
Qed.
Lemma disj_sub P Q P' : (forall c, P' c = true -> P c = true) -> disj P Q = true -> disj P' Q = true.
Proof.
  intros S D. unfold disj in *. rewrite forallb_forall in *. intros c Hc. specialize (D c Hc). specialize (S c). destruct (P' c), (Q c); try reflexivity. rewrite S in D by reflexivity. discriminate.
Qed.
Lemma apart_sym P Q : apart P Q = true -> apart Q P = true.
Proof. unfold apart. rewrite !forallb_forall. intros H c Hc. specialize (H c Hc). destruct (P c), (Q c); auto. Qed.
Definition lastd (d : bool) (fs : list field) : Prop := d = true -> match rev fs with f :: _ => last_ok f = true | [] => True end.
Lemma lastd_tail d f g r : lastd d (f :: g :: r) -> lastd d (g :: r).
Proof.
  unfold lastd. intros H D. specialize (H D). cbn [rev] in *. destruct ((rev r ++ [g]) ++ [f]) as [|y l] eqn:E; [destruct (rev r ++ [g]); discriminate|].
  destruct (rev r ++ [g]) as [|y' l'] eqn:E'; [exact Logic.I|]. cbn in E. injection E as -> _. exact H.
Qed.
Lemma chain_optok fs : forall g d n, forallb fok fs = true -> gaps fs -> lastd d fs -> fs <> [] -> chain0 fs g d = Some n -> optok n [] FTot = true.
Proof.
  induction fs as [|f r IH]; intros g d n F G L N E; [congruence|]. cbn [forallb] in F. apply andb_true_iff in F as [F1 F2]. destruct G as [G1 G2].
  cbn [chain0] in E. injection E as <-. destruct (fok_eok f F1) as [EF _]. apply unit_optok; [exact F1| |].
  - intro R. destruct r as [|h r].
    + destruct d; [|reflexivity]. cbn [chain0 kids]. specialize (L eq_refl). cbn in L. unfold last_ok in L. rewrite R in L. cbn [negb orb] in L. apply andb_true_iff in L as [L _].
      change (folk [dollar] FTot) with (FSet (fun x => Z.eqb c_nl x || false)). apply retry_set; [exact EF|]. unfold disj. apply forallb_forall. intros c _.
      rewrite orb_false_r. destruct (Z.eqb_spec c_nl c) as [<-|]; [|reflexivity]. apply negb_true_iff in L. change c_nl with 10%Z. rewrite L. reflexivity.
    + destruct (G1 R) as [Q A]. cbn [forallb] in F2. apply andb_true_iff in F2 as [F2 _]. destruct (head0 h (nextg f g) (chain0 r (nextg h (nextg f g)) d) F2 Q) as (P & l & PH & X).
      cbn [chain0 kids]. set (n := followed (funit0 h (nextg f g)) (chain0 r (nextg h (nextg f g)) d)) in *.
      assert (EF1 : efirst n None = Some P) by (destruct n; cbn [efirst]; rewrite PH; reflexivity).
      assert (FK : folk [n] FTot = FSet (fun x => P x || false)) by (unfold folk, efk; cbn [map ounions fold_right fset]; rewrite EF1; reflexivity).
      rewrite FK. apply retry_set; [exact EF|]. apply (apart_disj (wide (f_el h)) (wide (f_el f))).
      * intros c Hc. rewrite orb_false_r, X in Hc. now apply elem_wide.
      * intros c Hc. now apply elem_wide.
      * now apply apart_sym.
  - destruct r as [|h r]; [destruct d; reflexivity|]. destruct (chain0 (h :: r) (nextg f g) d) as [m|] eqn:E; [|reflexivity]. cbn [kids forallb].
    rewrite (IH (nextg f g) d m F2 G2 (lastd_tail d f h r L) ltac:(discriminate) E). reflexivity.
Qed.

(** * The matcher handles them as specified *)
Lemma usets_all l P : usets l = Some P -> Forall (fun o => is_some o = true) l.
Proof.
  revert P. induction l as [|o l IH]; intros P H; [constructor|]. cbn [usets] in H. destruct l as [|o' l].
  - constructor; [now subst|constructor].
  - destruct o as [Q|]; [|discriminate]. destruct (usets (o' :: l)) as [R|] eqn:E; [|discriminate]. constructor; [reflexivity|]. now apply (IH R).
Qed.
Lemma uset_good G E n : forall pv, is_some (uset n) = true -> good G E n pv = good G false n pv.
Proof.
  induction n using node_ind'; intros pv U; cbn [uset] in U; try discriminate U.
  - destruct t; try reflexivity. discriminate U.
  - cbn [good]. f_equal. f_equal. destruct (usets (map uset cs)) as [P|] eqn:Q; [|discriminate]. apply usets_all in Q. rewrite Forall_map in Q. clear U.
    induction cs as [|c cs IH]; [reflexivity|]. inversion H; subst. inversion Q; subst. cbn [forallb]. rewrite H2 by assumption. f_equal. now apply IH.
  - destruct cs; [|discriminate U]. cbn [good]. now apply IHn.
  - cbn [good]. destruct (uset n) as [P|] eqn:Q; [|discriminate U]. now rewrite IHn.
Qed.
Lemma unit_good x G E pv : eok x = true -> good G E (unode x) pv = true.
Proof.
  intro H. pose proof (eok_unit x H) as U. destruct (ou_set _ _ U) as (Q & S & _). rewrite uset_good by (rewrite S; reflexivity). apply (ou_good _ _ U).
Qed.
Lemma unit_not x : eok x = true -> match unode x with Greedy _ _ _ _ | Lazy _ _ _ _ | Group _ _ _ => False | _ => True end.
Proof. intro H. destruct (ou_set _ _ (eok_unit x H)) as (Q & S & _). destruct (unode x); try exact Logic.I; discriminate. Qed.

Section G.
Variables (G : nat) (d : bool).
(** What is known of the tail. *)
Record tailok (cs : list node) : Prop := {
  tk_len : length cs <= 1;
  tk_good : forall c, In c cs -> forall pv, good G d c pv = true;
  tk_inj : forall c, In c cs -> noinj c = true;
  tk_small : forallb opt_small cs = true;
  tk_gex : forallb gex cs = true }.
Lemma tail_cases (cs : list node) : length cs <= 1 -> cs = [] \/ exists c, cs = [c].
Proof. destruct cs as [|c [|]]; cbn; intro H; [now left|right; eauto|lia]. Qed.
Definition greedy_ok (p : bool) (f : field) (cs : list node) : Prop :=
  p = false -> is_run f = true -> tidy (f_el f) = true /\ exists c, cs = [c] /\ clean c PAny = true /\ gcs c = true.
Lemma num_mx ds : num_ok ds = true -> (Z.to_N (num_val ds) < 4294967295)%N.
Proof. intro Hn. unfold num_ok in Hn. rewrite !andb_true_iff in Hn. lia. Qed.
Record nodeok (n : node) : Prop := {
  nk_good : forall pv, good G d n pv = true;
  nk_acc : accins n = true;
  nk_inj : noinj n = true;
  nk_small : opt_small n = true;
  nk_gex : gex n = true }.
Lemma unode_nog x : nog (unode x) = true.
Proof. unfold nog. now rewrite unode_gidx. Qed.
Lemma gex_unit x : gex (unode x) = true.
Proof. pose proof (unode_nog x) as H. destruct (unode x); cbn [gex]; rewrite H; reflexivity. Qed.
Lemma gcl_unit x : gcl (unode x) = true.
Proof. pose proof (unode_nog x) as H. destruct (unode x); cbn [gcl]; rewrite H; reflexivity. Qed.
Lemma inner_ok p f cs : fok f = true -> tailok cs -> greedy_ok p f cs -> nodeok (inner p f cs).
Proof.
  intros F T GO. destruct (fok_eok f F) as [E _]. pose proof (eok_unit _ E) as U. unfold fok in F. apply andb_true_iff in F as [_ A].
  pose proof (unit_det _ _ U) as Dt. pose proof (unit_nonnull _ _ U) as Nn. pose proof (ou_acc _ _ U) as Ac. pose proof (ou_inj _ _ U) as Ij. pose proof (ou_small _ _ U) as Sm.
  pose proof (gex_unit (f_el f)) as Ge. pose proof (gcl_unit (f_el f)) as Gc. pose proof (unode_nog (f_el f)) as Ng.
  assert (Gd : forall pv, good G d (unode (f_el f)) pv = true) by (intro; now apply unit_good).
  destruct T as [TL TG TI TS TX]. unfold inner, greedy_ok, is_run in *. destruct (tail_cases cs TL) as [->|(c & ->)].
  - destruct (f_am f) as [|ds| |].
    + constructor; assumption.
    + pose proof (num_pos _ ds A eq_refl) as Np. constructor.
      * intro pv. cbn [good]. rewrite Gd, Dt. reflexivity.
      * cbn [accins]. rewrite Ac, andb_true_r. now apply negb_true_iff, N.eqb_neq.
      * reflexivity.
      * cbn [opt_small forallb]. now rewrite Sm.
      * cbn [gex]. rewrite Ge. apply orb_true_r.
    + destruct p; [|destruct (GO eq_refl eq_refl) as (_ & c & Hc & _); discriminate Hc]. constructor; cbn [runnode].
      * intro pv. cbn [good]. rewrite Gd, Nn. reflexivity.
      * cbn [accins]. now rewrite Ac.
      * cbn [noinj]. exact Ij.
      * cbn [opt_small forallb]. now rewrite Sm.
      * cbn [gex]. rewrite Ge, Gc. apply orb_true_r.
    + destruct p; [|destruct (GO eq_refl eq_refl) as (_ & c & Hc & _); discriminate Hc]. constructor; cbn [runnode].
      * intro pv. cbn [good]. rewrite Gd, Nn. reflexivity.
      * cbn [accins]. now rewrite Ac.
      * cbn [noinj]. exact Ij.
      * cbn [opt_small forallb]. now rewrite Sm.
      * cbn [gex]. rewrite Ge, Gc. apply orb_true_r.
  - specialize (TG c (or_introl eq_refl)). specialize (TI c (or_introl eq_refl)). cbn [forallb] in TS, TX. rewrite andb_true_r in TS, TX.
    assert (RUN : forall mn, (mn <= 1)%N -> (p = false -> tidy (f_el f) = true /\ clean c PAny = true /\ gcs c = true) -> nodeok (runnode p (f_el f) mn [c])).
    { intros mn Hm GO'. destruct p; cbn [runnode]; constructor.
      - intro pv. cbn [good]. rewrite Gd, Nn, TG. rewrite (proj2 (N.leb_le mn 1) Hm). cbn [orb andb]. rewrite andb_true_r. apply N.leb_le. apply (N.le_trans _ 1); [exact Hm|discriminate].
      - cbn [accins]. now rewrite Ac.
      - cbn [noinj]. exact Ij.
      - cbn [opt_small forallb]. now rewrite Sm, TS.
      - cbn [gex forallb]. rewrite Ge, Gc, TX. apply orb_true_r.
      - destruct (GO' eq_refl) as (Td & Cc & Gl). intro pv. cbn [good]. unfold greedy_item, opt_good, opt_case. destruct (ou_set _ _ U) as (Q & -> & _). rewrite !Gd, (elem_clean _ _ Td), Ac, TG, Cc.
        change (N.eqb UMAX 1) with false. rewrite andb_false_r. reflexivity.
      - reflexivity.
      - reflexivity.
      - cbn [opt_small forallb]. unfold opt_case. change (N.eqb UMAX 1) with false. rewrite andb_false_r. now rewrite Sm, TS.
      - destruct (GO' eq_refl) as (Td & Cc & Gl). cbn [gex forallb]. rewrite Ng, TX, Gl. apply orb_true_r. }
    destruct (f_am f) as [|ds| |].
    + constructor.
      * intro pv. cbn [good]. rewrite (unit_start _ _ U), Gd, TG, Dt. reflexivity.
      * exact Ac.
      * cbn [noinj]. exact TI.
      * cbn [opt_small forallb]. now rewrite Sm, TS.
      * cbn [gex forallb]. rewrite Ge, TX. apply orb_true_r.
    + pose proof (num_pos _ ds A eq_refl) as Np. constructor.
      * intro pv. cbn [good]. rewrite Gd, Dt, TG. reflexivity.
      * cbn [accins]. rewrite Ac, andb_true_r. now apply negb_true_iff, N.eqb_neq.
      * reflexivity.
      * cbn [opt_small forallb]. now rewrite Sm, TS.
      * cbn [gex forallb]. rewrite Ge, TX. apply orb_true_r.
    + apply RUN; [discriminate|]. intro Hp. destruct (GO Hp eq_refl) as (Td & c' & Hc & Cc & Gl). injection Hc as <-. auto.
    + apply RUN; [discriminate|]. intro Hp. destruct (GO Hp eq_refl) as (Td & c' & Hc & Cc & Gl). injection Hc as <-. auto.
Qed.
Lemma tail_nil : tailok [].
Proof. constructor; [cbn; lia|intros c []|intros c []|reflexivity|reflexivity]. Qed.
Lemma funit_ok p f g cs : fok f = true -> tailok cs -> greedy_ok p f cs -> (f_cap f = true -> g < G) -> nodeok (funit p f g cs).
Proof.
  intros F T GO Hg. unfold funit. destruct (f_cap f) eqn:Cp; [|now apply inner_ok]. specialize (Hg eq_refl).
  destruct (Bool.bool_dec p false) as [->|Np]; [destruct (Bool.bool_dec (is_run f) true) as [R|R]|].
  - (* greedy, in parentheses *)
    destruct (fok_eok f F) as [E _]. pose proof (eok_unit _ E) as U. destruct (GO eq_refl R) as (Td & c & -> & Cc & Gl). destruct T as [TL TG TI TS TX].
    specialize (TG c (or_introl eq_refl)). specialize (TI c (or_introl eq_refl)). cbn [forallb] in TS, TX. rewrite andb_true_r in TS, TX.
    assert (X : forall mn, nodeok (Group (Greedy (unode (f_el f)) mn UMAX []) g [c])).
    { intro mn. constructor.
      - intro pv. cbn [good]. unfold greedy_item, opt_good, opt_case. destruct (ou_set _ _ U) as (Q & -> & _). rewrite !unit_good by exact E.
        rewrite (elem_clean _ _ Td), (ou_acc _ _ U), TG, Cc, TI. change (N.eqb UMAX 1) with false. rewrite andb_false_r. rewrite (proj2 (Nat.ltb_lt g G) Hg). reflexivity.
      - reflexivity.
      - cbn [noinj]. exact TI.
      - cbn [opt_small forallb]. unfold opt_case. change (N.eqb UMAX 1) with false. rewrite andb_false_r. now rewrite (ou_small _ _ U), TS.
      - cbn [gex forallb]. rewrite unode_nog, TX, Gl. apply orb_true_r. }
    unfold inner, is_run in *. destruct (f_am f); try discriminate R; apply X.
  - (* not a run *)
    assert (GN : greedy_ok false f []) by (intros _ X; congruence).
    pose proof (inner_ok false f [] F tail_nil GN) as [Ng Na Ni Ns Nx]. destruct T as [TL TG TI TS TX]. assert (Dt : det (inner false f []) = true).
    { destruct (fok_eok f F) as [E _]. pose proof (unit_det _ _ (eok_unit _ E)) as Dt. unfold inner, is_run in *. destruct (f_am f); try (elim R; reflexivity); [exact Dt|]. cbn [det uset is_some orb forallb map excl_all]. now rewrite Dt. }
    assert (SH : match inner false f [] with Greedy _ _ _ _ | Lazy _ _ _ _ => False | _ => True end).
    { destruct (fok_eok f F) as [E _]. pose proof (unit_not _ E). unfold inner, is_run in *. destruct (f_am f); try (elim R; reflexivity); [|exact Logic.I]. destruct (unode (f_el f)); auto. }
    constructor.
    + intro pv. set (m := inner false f []) in *. destruct (tail_cases cs TL) as [->|(c & ->)]; cbn [good]; rewrite (proj2 (Nat.ltb_lt g G) Hg); cbn [andb]; [apply Ng|].
      rewrite (TI c (or_introl eq_refl)). cbn [andb]. specialize (Ng pv). destruct m; try (now elim SH); rewrite Ng, Ni, (TG c (or_introl eq_refl)), Dt; reflexivity.
    + set (m := inner false f []) in *. cbn [accins]. destruct m; try (now elim SH); exact Na.
    + cbn [noinj]. destruct (tail_cases cs TL) as [->|(c & ->)]; [reflexivity|apply TI; now left].
    + cbn [opt_small]. now rewrite Ns, TS.
    + set (m := inner false f []) in *. cbn [gex]. destruct m; try (now elim SH); rewrite Nx, TX; apply orb_true_r.
  - assert (p = true) as -> by (destruct p; [reflexivity|congruence]). clear Np.
    assert (GN : greedy_ok true f []) by (intros X; discriminate X).
    pose proof (inner_ok true f [] F tail_nil GN) as [Ng Na Ni Ns Nx]. destruct T as [TL TG TI TS TX]. assert (Dt : det (inner true f []) = true).
    { destruct (fok_eok f F) as [E _]. pose proof (unit_det _ _ (eok_unit _ E)) as Dt. unfold inner. destruct (f_am f); [exact Dt| | |]; cbn [runnode det uset is_some orb forallb map excl_all]; rewrite ?Dt; reflexivity. }
    assert (SH : match inner true f [] with Greedy _ _ _ _ | Lazy _ _ _ _ => False | _ => True end).
    { destruct (fok_eok f F) as [E _]. pose proof (unit_not _ E). unfold inner. destruct (f_am f); [|exact Logic.I ..]. destruct (unode (f_el f)); auto. }
    constructor.
    + intro pv. set (m := inner true f []) in *. destruct (tail_cases cs TL) as [->|(c & ->)]; cbn [good]; rewrite (proj2 (Nat.ltb_lt g G) Hg); cbn [andb]; [apply Ng|].
      rewrite (TI c (or_introl eq_refl)). cbn [andb]. specialize (Ng pv). destruct m; try (now elim SH); rewrite Ng, Ni, (TG c (or_introl eq_refl)), Dt; reflexivity.
    + set (m := inner true f []) in *. cbn [accins]. destruct m; try (now elim SH); exact Na.
    + cbn [noinj]. destruct (tail_cases cs TL) as [->|(c & ->)]; [reflexivity|apply TI; now left].
    + cbn [opt_small]. now rewrite Ns, TS.
    + set (m := inner true f []) in *. cbn [gex]. destruct m; try (now elim SH); rewrite Nx, TX; apply orb_true_r.
Qed.
Lemma tail_end : d = true -> tailok [Term TEnd].
Proof. intro D. constructor; [cbn; lia| | |reflexivity|reflexivity]; intros c [<-|[]]; [intro; cbn; exact D|reflexivity]. Qed.
Lemma tail_node n : nodeok n -> tailok [n].
Proof. intros [A B C D E]. constructor; [cbn; lia| | |cbn; now rewrite D|cbn; now rewrite E]; intros c [<-|[]]; assumption. Qed.
Lemma last_tidy f : is_run f = true -> last_ok f = true -> tidy (f_el f) = true.
Proof. intros R L. unfold last_ok in L. rewrite R in L. cbn [negb orb] in L. apply andb_true_iff in L as [_ L]. destruct (f_el f) as [| | |[] items| |]; try exact L; reflexivity || discriminate. Qed.
Lemma chain_ok fs : forall g n, forallb fok fs = true -> lastd d fs -> fs <> [] -> g + ncap fs <= G -> chain fs g d = Some n -> nodeok n.
Proof.
  induction fs as [|f r IH]; intros g n F L N B E; [congruence|]. cbn [forallb] in F. apply andb_true_iff in F as [F1 F2].
  cbn [chain] in E. injection E as <-. unfold ncap in B. cbn [filter] in B.
  assert (Hg : f_cap f = true -> g < G) by (intro Cp; rewrite Cp in B; cbn [length] in B; lia).
  destruct r as [|h r].
  - cbn [chain]. destruct (Bool.bool_dec d true) as [D|D].
    + rewrite D. apply funit_ok; [exact F1|now apply tail_end| |exact Hg]. intros _ R. specialize (L D). cbn in L. split; [now apply last_tidy|]. exists (Term TEnd). conj; reflexivity.
    + assert (d = false) as -> by (destruct d; [now elim D|reflexivity]). apply funit_ok; [exact F1|apply tail_nil| |exact Hg]. intros X. discriminate X.
  - destruct (chain (h :: r) (nextg f g) d) as [m|] eqn:E; [|discriminate E]. apply funit_ok; [exact F1| | |exact Hg].
    + apply tail_node. refine (IH (nextg f g) m F2 (lastd_tail d f h r L) ltac:(discriminate) _ E). unfold nextg. unfold ncap. destruct (f_cap f); cbn [length] in B; lia.
    + intros X. discriminate X.
Qed.
End G.

(** * The whole pattern *)
Lemma sep_gaps fs : separated fs = true -> gaps fs.
Proof.
  induction fs as [|f [|h r] IH]; intro H; [exact Logic.I|split; exact Logic.I|]. cbn [separated] in H. apply andb_true_iff in H as [H1 H2]. split; [|now apply IH].
  intro R. rewrite R in H1. cbn [negb orb] in H1. now apply andb_true_iff in H1.
Qed.
Lemma sep_last fs d : separated fs = true -> lastd d fs.
Proof.
  intros H _. induction fs as [|f [|h r] IH]; [exact Logic.I|exact H|]. cbn [separated] in H. apply andb_true_iff in H as [_ H]. specialize (IH H).
  cbn [rev] in *. destruct (rev r ++ [h]) as [|y l] eqn:E; [now destruct (rev r)|]. exact IH.
Qed.
Lemma inner_head p f cs : fok f = true -> required f = true -> exists P l, fst (pre (inner p f cs)) = P :: l.
Proof.
  intros F R. destruct (fok_eok f F) as [E _]. destruct (pre_okunit _ _ (eok_unit _ E)) as (Q & PQ & _). unfold fok in F. apply andb_true_iff in F as [_ A].
  exists Q. unfold inner, required in *. destruct (f_am f) as [|ds| |] eqn:Am; try discriminate R.
  - destruct cs as [|c cs]; [rewrite PQ; now exists []|]. change (pre (Simple (unode (f_el f)) (c :: cs))) with (seqp (pre (unode (f_el f))) (orsp (map pre (c :: cs)))).
    apply (seqp_head _ _ Q []). now rewrite PQ.
  - apply rep_head; [exact PQ|eapply num_pos; [exact A|reflexivity]|reflexivity].
  - exists []. unfold runnode. destruct p; cbn [pre uset N.eqb fst]; unfold minp; rewrite PQ; reflexivity.
Qed.
Lemma unit_head p f g cs : fok f = true -> required f = true -> exists P l, fst (pre (funit p f g cs)) = P :: l.
Proof.
  intros F R. unfold funit. destruct (f_cap f); [|now apply inner_head]. destruct (inner_head p f [] F R) as (P & l & H). exists P.
  change (pre (Group (inner p f []) g cs)) with (seqp (pre (inner p f [])) (orsp (map pre cs))). now apply (seqp_head _ _ P l).
Qed.
Lemma chain_null fs g d n : forallb fok fs = true -> gaps fs -> first_ok fs = true -> chain fs g d = Some n -> nonnull n = true.
Proof.
  intros F G Hf E. destruct fs as [|f r]; [discriminate Hf|]. cbn [chain] in E. injection E as <-. cbn [forallb] in F. apply andb_true_iff in F as [F1 F2]. cbn [first_ok] in Hf.
  unfold nonnull. destruct (required f) eqn:R.
  - destruct (unit_head (posq f r d) f g (kids (chain r (nextg f g) d)) F1 R) as (P & l & ->). reflexivity.
  - cbn [orb] in Hf. apply andb_true_iff in Hf as [Hc Hr]. apply negb_true_iff in Hc. destruct r as [|h r]; [discriminate Hr|]. destruct G as [G1 _].
    assert (Ru : is_run f = true) by (unfold required, is_run in *; destruct (f_am f); (discriminate || reflexivity)). destruct (G1 Ru) as [Q _].
    cbn [forallb] in F2. apply andb_true_iff in F2 as [F2 _]. cbn [chain kids]. set (m := funit _ h _ _). destruct (unit_head (posq h r d) h (nextg f g) (kids (chain r (nextg h (nextg f g)) d)) F2 Q) as (P & l & H).
    fold m in H. destruct (fok_eok f F1) as [E _]. destruct (pre_okunit _ _ (eok_unit _ E)) as (Q' & PQ & _).
    unfold funit, inner, runnode, required in *. rewrite Hc. destruct (f_am f); try discriminate R. cbn [posq]. 
    change (fst (pre (Possessive (unode (f_el f)) 0 UMAX [m]))) with (firstn 1 (zipu (fst (pre (unode (f_el f)))) (fst (pre m)))). rewrite PQ, H. reflexivity.
Qed.
Lemma fields_parts fs : fields_ok fs = true -> forallb fok fs = true /\ separated fs = true /\ counted false fs = true /\ first_ok fs = true /\ fs <> [].
Proof.
  unfold fields_ok. rewrite !andb_true_iff. intros [[[A B] C] D]. assert (fs <> []) by (intros ->; discriminate D). auto.
Qed.
Lemma chain0_some fs g d : fs <> [] -> exists n, chain0 fs g d = Some n.
Proof. destruct fs; [congruence|]. cbn. eauto. Qed.
Lemma tree_frx fs n0 : counted false fs = true -> chain0 fs 0 true = Some n0 -> tree_d (renumber (frx fs)) = SimpleV [Simple (Term TStart) [n0]].
Proof. intros C E. rewrite (renumber_frx fs C). unfold tree_d, frx. cbn [tree_bs_d tree_br_d]. rewrite chain0_d, E. reflexivity. Qed.
Lemma ctree_frx fs n : fields_ok fs = true -> chain fs 0 true = Some n -> ctree_d (frx fs) = Simple (Term TStart) [n].
Proof.
  intros H E. destruct (fields_parts fs H) as (F & S & C & O & N). destruct (chain0_some fs 0 true N) as (n0 & E0). pose proof (opt_chain fs 0 true F (sep_gaps fs S)) as X.
  rewrite E0, E in X. cbn [option_map] in X. injection X as X. unfold ctree_d. rewrite (tree_frx fs n0 C E0). cbn [optimize map]. now rewrite X.
Qed.
Lemma frx_caps fs : caps (frx fs) = seq 0 (ncap fs).
Proof. cbn [frx caps caps_br]. apply caps_fsq. Qed.
Lemma inner_gidx p f cs : gidx (inner p f cs) = flat_map gidx cs.
Proof.
  unfold inner, runnode. destruct (f_am f); [destruct cs|..]; try destruct p; cbn [gidx flat_map]; rewrite unode_gidx; reflexivity.
Qed.
Lemma chain_gidx fs d : forall g, length (flat_map gidx (kids (chain fs g d))) = ncap fs.
Proof.
  unfold ncap. induction fs as [|f r IH]; intro g; [destruct d; reflexivity|]. specialize (IH (nextg f g)). cbn [chain kids flat_map filter]. rewrite app_nil_r. unfold funit. destruct (f_cap f).
  - cbn [gidx]. rewrite inner_gidx. cbn [flat_map app length]. now rewrite IH.
  - now rewrite inner_gidx.
Qed.
Lemma frx_groups fs n : fields_ok fs = true -> chain fs 0 true = Some n -> ngroups (ctree_d (frx fs)) = ncap fs.
Proof.
  intros H E. rewrite (ctree_frx fs n H E), ngroups_gidx. cbn [gidx]. pose proof (chain_gidx fs true 0) as X. rewrite E in X. exact X.
Qed.
Theorem frx_exact fs : fields_ok fs = true -> exact_d (frx fs) = true /\ gex (ctree_d (frx fs)) = true.
Proof.
  intro H. destruct (fields_parts fs H) as (F & S & C & O & N). pose proof (sep_gaps fs S) as Gp. pose proof (sep_last fs true S) as Ld.
  destruct (chain0_some fs 0 true N) as (n0 & E0). pose proof (opt_chain fs 0 true F Gp) as X. rewrite E0 in X. cbn [option_map] in X. symmetry in X.
  destruct (chain_ok (ncap fs) true fs 0 _ F Ld N (Nat.le_refl _) X) as [NG NA NI NS NX]. unfold exact_d. rewrite (frx_groups fs _ H X), (ctree_frx fs _ H X), (tree_frx fs n0 C E0), (wf_frx fs N F).
  assert (K : optok (SimpleV [Simple (Term TStart) [n0]]) [] FTot = true) by (cbn [optok forallb]; rewrite (chain_optok fs 0 true n0 F Gp Ld N E0); reflexivity).
  rewrite K. split.
  - cbn [andb good is_start accins opt_small forallb]. unfold Checker.eats. rewrite (chain_null fs 0 true _ F Gp O X), NG, NS. reflexivity.
  - cbn [gex forallb]. rewrite NX. apply orb_true_r.
Qed.

(** * What the pattern means *)
Section M.
Variable w : str.
Notation L := (length w).
Definition keeps (a : outs) : Prop := forall c c', In c' (a c) -> snd c' = snd c.
Lemma keeps_chr P : keeps (chr_o w P).
Proof. intros c c'. unfold chr_o. destruct (nth_error w (fst c)) as [y|]; [|intros []]. destruct (P y); [|intros []]. intros [<-|[]]. reflexivity. Qed.
Lemma keeps_seq a b : keeps a -> keeps b -> keeps (seq_o a b).
Proof. intros A B c c' H. apply in_flat_map in H as (y & Hy & Hx). rewrite (B _ _ Hx). now apply A. Qed.
Lemma keeps_pow a k : keeps a -> keeps (pow_o k a).
Proof. intro A. induction k; cbn [pow_o]; [intros c c' [<-|[]]; reflexivity|]. now apply keeps_seq. Qed.
Lemma keeps_most a k : keeps a -> keeps (most_o k a).
Proof.
  intro A. induction k as [|k IH]; intros c c' H; cbn [most_o] in H; [destruct H as [<-|[]]; reflexivity|]. apply in_app_or in H as [H|[<-|[]]]; [|reflexivity].
  apply in_flat_map in H as (y & Hy & Hx). apply progress_in in Hy as [Hy _]. rewrite (IH _ _ Hx). now apply A.
Qed.
Lemma keeps_am a P : keeps (quant_o w (am_quant a) (chr_o w P)).
Proof. destruct a; cbn [am_quant quant_o rep_o]; auto using keeps_chr, keeps_seq, keeps_pow, keeps_most. Qed.

Definition cut (i j : nat) : str := firstn (j - i) (skipn i w).
Lemma cut_skip (i k : nat) : skipn i w = firstn k (skipn i w) ++ skipn (i + k) w.
Proof.
  assert (S : forall (l : str) a b, skipn b (skipn a l) = skipn (a + b) l).
  { clear. induction l as [|x l IH]; intros [|a] b; cbn [skipn Nat.add]; auto. now rewrite !skipn_nil. }
  rewrite <- S. symmetry. apply firstn_skipn.
Qed.
Lemma nth_skip i c : nth_error w i = Some c -> skipn i w = c :: skipn (S i) w.
Proof.
  revert i. induction w as [|x l IH]; intros [|i] H; try discriminate H; cbn in *; [now injection H as ->|]. now apply IH.
Qed.
Lemma run_chars x k : forall i j, pieces (lang_atom w (AEl x)) k i j -> i <= L ->
  j = i + k /\ i + k <= L /\ Forall (fun c => elem_set x c = true) (firstn k (skipn i w)).
Proof.
  induction k as [|k IH]; intros i j H Hi; inversion H as [|k' i' m l' H1 H2]; subst.
  - split; [lia|]. split; [lia|constructor].
  - cbn [lang_atom] in H1. destruct H1 as [-> (c & N & S)]. assert (i < L) by (apply nth_error_Some; congruence). destruct (IH _ _ H2 ltac:(lia)) as (-> & B & F).
    split; [lia|]. split; [lia|]. rewrite (nth_skip i c N). cbn [firstn]. constructor; assumption.
Qed.
Lemma chars_run x u : forall i, Forall (fun c => elem_set x c = true) u -> firstn (length u) (skipn i w) = u ->
  pieces (lang_atom w (AEl x)) (length u) i (i + length u).
Proof.
  induction u as [|c u IH]; intros i F E; cbn [length] in *.
  - rewrite Nat.add_0_r. constructor.
  - inversion F; subst. destruct (nth_error w i) as [y|] eqn:N.
    + rewrite (nth_skip i y N) in E. cbn [firstn] in E. injection E as -> E. rewrite <- E at 1. apply (PS _ _ i (S i)).
      * cbn [lang_atom]. split; [reflexivity|]. eauto.
      * rewrite E. rewrite Nat.add_succ_r. change (S (i + length u)) with (S i + length u). now apply IH.
    + apply nth_error_None in N. rewrite skipn_all2 in E by lia. rewrite firstn_nil in E. discriminate.
Qed.
Lemma fits_bounds f u : fok f = true -> (fits f u <-> Forall (fun c => elem_set (f_el f) c = true) u /\ in_bounds (am_quant (f_am f)) (length u)).
Proof.
  intro K. unfold fok in K. apply andb_true_iff in K as [_ K]. unfold fits. destruct (f_am f) as [|ds| |]; cbn [am_quant in_bounds kind_min kind_max].
  - tauto.
  - cbn in K. apply andb_true_iff in K as [_ K]. split; intros [A B]; (split; [exact A|lia]).
  - split; intros [A B]; (split; [exact A|]); [destruct u; [congruence|cbn [length]; split; [lia|exact Logic.I]]|]. intros ->. cbn [length] in B. lia.
  - split; intros [A B]; (split; [exact A|]); [split; [lia|exact Logic.I]|exact Logic.I].
Qed.
(** One field: from the ways to match to a part. *)
Lemma unit_part f i l j l' : fok f = true -> In (j, l') (quant_o w (am_quant (f_am f)) (chr_o w (elem_set (f_el f))) (i, l)) -> i <= L ->
  exists u, fits f u /\ j = i + length u /\ j <= L /\ firstn (length u) (skipn i w) = u /\ l' = l.
Proof.
  intros K H Hi. pose proof (keeps_am _ _ _ _ H) as Kl. cbn in Kl. destruct (fok_eok f K) as [_ Q].
  assert (W : wf (ROne (Br false (one_sq f))) = true).
  { destruct (fok_eok f K) as [E _]. unfold eok in E. apply andb_true_iff in E as [E _]. cbn [wf wf_br one_sq wf_sq wf_atom]. now rewrite E, Q. }
  assert (S : In (j, l') (sem w (ROne (Br false (one_sq f))) (i, l))).
  { cbn [sem sem_br one_sq sem_sq sem_atom]. apply in_flat_map. exists (j, l'). split; [exact H|now left]. }
  apply sem_sound in S; [|exact W]. cbn [fst lang lang_br one_sq lang_sq] in S. destruct S as [_ (m & k & B & P & ->)].
  destruct (run_chars _ _ _ _ P Hi) as (-> & Bd & F). assert (Ln : length (firstn k (skipn i w)) = k) by (rewrite firstn_length, skipn_length; lia).
  exists (firstn k (skipn i w)). rewrite Ln. split; [apply fits_bounds; [exact K|]; rewrite Ln; auto|]. auto.
Qed.
Lemma sem_parts fs : forall g i l j l', forallb fok fs = true -> In (j, l') (sem_sq w (fsq fs g) (i, l)) -> i <= L ->
  exists parts, Forall2 fits fs parts /\ j = i + length (concat parts) /\ j <= L /\ firstn (length (concat parts)) (skipn i w) = concat parts
    /\ length (spans fs parts i) = ncap fs /\ l' = rev (combine (seq g (ncap fs)) (spans fs parts i)) ++ l.
Proof.
  induction fs as [|f r IH]; intros g i l j l' F H Hi.
  - cbn in H. destruct H as [[= <- <-]|[]]. exists []. cbn. rewrite Nat.add_0_r. conj; auto.
  - cbn [forallb] in F. apply andb_true_iff in F as [F1 F2]. unfold ncap in *. cbn [fsq filter] in *.
    assert (X : exists j1 l1, (exists u, fits f u /\ j1 = i + length u /\ j1 <= L /\ firstn (length u) (skipn i w) = u /\ l1 = (if f_cap f then [(g, (i, j1))] else []) ++ l)
                 /\ In (j, l') (sem_sq w (fsq r (nextg f g)) (j1, l1))).
    { unfold nextg. destruct (f_cap f).
      - cbn [sem_sq] in H. unfold seq_o in H. apply in_flat_map in H as ([j1 l1] & H1 & H2). exists j1, l1. split; [|exact H2].
        cbn [quant_o sem_atom sem sem_br] in H1. unfold cap_o in H1. apply in_map_iff in H1 as ([j2 l2] & E & H1). cbn [fst snd] in E. injection E as <- <-.
        cbn [one_sq sem_sq sem_atom] in H1. unfold seq_o in H1. apply in_flat_map in H1 as (c & H1 & H3). destruct H3 as [->|[]].
        destruct (unit_part f i l j2 l2 F1 H1 Hi) as (u & A & B & C & D & E). exists u. conj; auto. cbn. now subst.
      - cbn [sem_sq sem_atom] in H. unfold seq_o in H. apply in_flat_map in H as ([j1 l1] & H1 & H2). exists j1, l1. split; [|exact H2].
        destruct (unit_part f i l j1 l1 F1 H1 Hi) as (u & A & B & C & D & E). exists u. conj; auto. }
    destruct X as (j1 & l1 & (u & Fu & -> & Bu & Eu & ->) & H2). destruct (IH _ _ _ _ _ F2 H2 Bu) as (parts & P1 & -> & P3 & P4 & P5 & ->).
    exists (u :: parts). cbn [concat spans]. rewrite app_length. split; [now constructor|]. split; [lia|]. split; [lia|]. split.
    { assert (NN : length (u ++ concat parts) = length u + length (concat parts)) by apply app_length. rewrite (cut_skip i (length u)), Eu. rewrite firstn_app.
      rewrite firstn_all2 by lia. f_equal. replace (length u + length (concat parts) - length u) with (length (concat parts)) by lia. exact P4. }
    unfold nextg. destruct (f_cap f); cbn [app length].
    + rewrite P5. split; [reflexivity|]. cbn [seq combine rev]. rewrite <- !app_assoc. reflexivity.
    + split; [exact P5|reflexivity].
Qed.
Lemma parts_lang fs : forall g i parts, forallb fok fs = true -> Forall2 fits fs parts -> firstn (length (concat parts)) (skipn i w) = concat parts -> i + length (concat parts) <= L ->
  lang_sq w (fsq fs g) i (i + length (concat parts)).
Proof.
  induction fs as [|f r IH]; intros g i parts F H E B; inversion H; subst.
  - cbn. lia.
  - cbn [forallb] in F. apply andb_true_iff in F as [F1 F2]. cbn [concat] in *. rewrite app_length in *. rename y into u, l' into us.
    assert (E1 : firstn (length u) (skipn i w) = u).
    { assert (Z : firstn (length u) (firstn (length u + length (concat us)) (skipn i w)) = u) by (rewrite E, firstn_app, Nat.sub_diag, firstn_all, firstn_O, app_nil_r; reflexivity).
      rewrite firstn_firstn in Z. replace (Init.Nat.min (length u) (length u + length (concat us))) with (length u) in Z by lia. exact Z. }
    assert (E2 : firstn (length (concat us)) (skipn (i + length u) w) = concat us).
    { rewrite (cut_skip i (length u)), E1 in E. rewrite firstn_app in E. rewrite firstn_all2 in E by lia. apply app_inv_head in E.
      replace (length u + length (concat us) - length u) with (length (concat us)) in E by lia. exact E. }
    rewrite Nat.add_assoc. specialize (fun g => IH g (i + length u) us F2 H4 E2 ltac:(lia)). apply fits_bounds in H2 as [A1 A2]; [|exact F1].
    pose proof (chars_run _ _ i A1 E1) as P. cbn [fsq]. destruct (f_cap f); cbn [lang_sq].
    + exists (i + length u), 1. split; [reflexivity|]. split; [|apply IH]. apply (PS _ _ i (i + length u)); [|constructor]. cbn [lang_atom lang lang_br one_sq lang_sq].
      split; [discriminate|]. exists (i + length u), (length u). auto.
    + exists (i + length u), (length u). split; [exact A2|]. split; [exact P|apply IH].
Qed.
Lemma divides_lang fs parts : forallb fok fs = true -> divides fs parts w -> lang w (frx fs) 0 L.
Proof.
  intros F [D E]. unfold frx. cbn [lang lang_br]. split; [reflexivity|].
  assert (X : lang_sq w (fsq fs 0) 0 (0 + length (concat parts))); [|rewrite E in X; exact X].
  apply parts_lang; [exact F|exact D| |rewrite E; lia]. cbn [skipn]. rewrite E. apply firstn_all.
Qed.
Lemma sem_divides fs j l : forallb fok fs = true -> In (j, l) (sem w (frx fs) (0, [])) -> j = L ->
  exists parts, divides fs parts w /\ length (spans fs parts 0) = ncap fs /\ l = rev (combine (seq 0 (ncap fs)) (spans fs parts 0)).
Proof.
  intros F H ->. unfold frx in H. cbn [sem sem_br] in H. unfold seq_o, bol_o in H. cbn [fst Nat.eqb flat_map] in H. rewrite app_nil_r in H.
  destruct (sem_parts fs 0 0 [] _ l F H ltac:(lia)) as (parts & P1 & P2 & _ & P4 & P5 & P6). exists parts. split; [|rewrite app_nil_r in P6; auto]. split; [exact P1|].
  cbn [Nat.add skipn] in *. rewrite <- P2 in P4. rewrite <- P4. apply firstn_all.
Qed.
End M.

(** The parts are unique. *)
Lemma fixed_len f u v : is_run f = false -> fits f u -> fits f v -> length u = length v.
Proof. unfold is_run, fits. intros R [_ A] [_ B]. destruct (f_am f); try discriminate R; lia. Qed.
Lemma req_head f u : fok f = true -> required f = true -> fits f u -> exists c v, u = c :: v /\ elem_set (f_el f) c = true.
Proof.
  intros K R [A B]. destruct u as [|c v]; [|inversion A; eauto]. exfalso. unfold fok, amount_ok, required in *. destruct (f_am f); try discriminate; cbn in *; [lia|congruence].
Qed.
Lemma prefix_short (u1 u2 r1 r2 : str) : u1 ++ r1 = u2 ++ r2 -> length u1 < length u2 -> exists c v, r1 = c :: v /\ In c u2.
Proof.
  revert u2. induction u1 as [|x u1 IH]; intros [|y u2] E Ln; cbn in *; try lia; [exists y, (u2 ++ r2); auto|]. injection E as -> E. destruct (IH u2 E ltac:(lia)) as (c & v & -> & I). eauto.
Qed.
Lemma parts_unique fs : forall p1 p2, forallb fok fs = true -> gaps fs -> Forall2 fits fs p1 -> Forall2 fits fs p2 -> concat p1 = concat p2 ->
  Forall (fun c => (-128 <= c <= 127)%Z) (concat p1) -> p1 = p2.
Proof.
  induction fs as [|f r IH]; intros p1 p2 F G A B E C; inversion A; inversion B; subst; [reflexivity|]. cbn [forallb] in F. apply andb_true_iff in F as [F1 F2]. destruct G as [G1 G2].
  rename y into u1, y0 into u2, l' into q1, l'0 into q2. cbn [concat] in *.
  assert (SH : forall (v1 v2 : str) (s1 s2 : list str), fits f v2 -> Forall2 fits r s1 -> v1 ++ concat s1 = v2 ++ concat s2 -> Forall (fun c => (-128 <= c <= 127)%Z) (v1 ++ concat s1) -> length v1 < length v2 -> is_run f = true -> False).
  { clear -F2 G1. intros v1 v2 s1 s2 K2 K1 Q Rg Ln Ru. destruct (prefix_short _ _ _ _ Q Ln) as (c & v & Z & I). destruct r as [|h r].
    - inversion K1; subst. discriminate Z.
    - destruct (G1 Ru) as [Rq Ap]. inversion K1; subst. cbn [forallb] in F2. apply andb_true_iff in F2 as [F2 _]. destruct (req_head h y F2 Rq H1) as (c' & v' & -> & Sc). cbn in Z. injection Z as -> _.
      unfold apart in Ap. rewrite forallb_forall in Ap. specialize (Ap c). rewrite (elem_wide _ _ Sc) in Ap. destruct K2 as [K2 _]. rewrite Forall_forall in K2. rewrite (elem_wide _ _ (K2 c I)) in Ap.
      discriminate Ap. apply chars_in. rewrite Forall_forall in Rg. apply Rg. apply in_or_app. right. now left. }
  assert (Ln : length u1 = length u2).
  { destruct (is_run f) eqn:R; [|now apply (fixed_len f)]. destruct (Nat.lt_trichotomy (length u1) (length u2)) as [X|[X|X]]; [|exact X|].
    - exfalso. now apply (SH u1 u2 q1 q2).
    - exfalso. apply (SH u2 u1 q2 q1); auto. now rewrite <- E. }
  assert (U : u1 = u2 /\ concat q1 = concat q2).
  { clear -E Ln. revert u2 E Ln. induction u1 as [|x u1 IH]; intros [|y u2] E Ln; cbn in *; try lia; [auto|]. injection E as -> E. destruct (IH u2 E ltac:(lia)) as [-> ->]. auto. }
  destruct U as [-> U]. f_equal. apply IH; auto. apply Forall_app in C. tauto.
Qed.
Lemma slot_rev (sp : list (nat * nat)) : forall g n k v, length sp = n -> nth_error sp k = Some v -> forall l, slot (g + k) (rev (combine (seq g n) sp) ++ l) = Some v.
Proof.
  induction sp as [|x sp IH]; intros g n k v Hn Hk l; [destruct k; discriminate|]. cbn in Hn. subst n. cbn [seq combine rev]. rewrite <- app_assoc. cbn [app].
  destruct k as [|k]; cbn in Hk.
  - injection Hk as ->. rewrite Nat.add_0_r.
    assert (S : forall (sp : list (nat * nat)) h n l', g < h -> slot g (rev (combine (seq h n) sp) ++ l') = slot g l').
    { clear. induction sp as [|y sp IH]; intros h n l' H; [destruct n; reflexivity|]. destruct n as [|n]; [reflexivity|]. cbn [seq combine rev]. rewrite <- app_assoc. cbn [app]. rewrite IH by lia. cbn [slot].
      destruct (Nat.eqb_spec h g); [lia|reflexivity]. }
    rewrite S by lia. cbn [slot]. now rewrite Nat.eqb_refl.
  - rewrite Nat.add_succ_r. change (S (g + k)) with (S g + k). now apply IH.
Qed.
