(** What follows a run cannot start like what is repeated: the optimiser then makes the run possessive
    whatever its policy. *)
From Coq Require Import ZArith NArith List Bool Lia ZifyBool ZifyNat ZifyN.
From Verif Require MinSize LL Main.
From Verif Require Import Base Text Ast AstProofs Builder BuilderProofs Engine Spec Tree Supported Heads Laws Ranges SpecRun SpecPut Middle Inside.
Import ListNotations.
Open Scope N_scope.

Lemma may_adm x c : elem_ok x = true -> In c (nadm (tree_elem x)) -> may x c = true.
Proof.
  intros O S. destruct x as [a|a| |neg items|p q r|p q]; cbn [elem_ok elem_set may] in *.
  - cbn [tree_elem nadm term_adm] in S. rewrite (kind_lit a O) in S. cbn [In] in S. lia.
  - change (nadm (tree_elem (EEsc a))) with (term_adm (TTerminal [c_bslash; a])) in S. now apply esc_adm.
  - reflexivity.
  - apply andb_true_iff in O as [O NE]. destruct items as [|i items]; [discriminate NE|]. assert (Oi : citem_ok i = true) by (cbn [forallb] in O; lia). destruct neg.
    + change (nadm (tree_elem (EClass true (i :: items)))) with (adm_complement (nadm (SimpleV (map tree_citem (i :: items))))) in S.
      rewrite class_adm in S by exact O. destruct (seven i) eqn:SI; [|reflexivity]. apply complement_in in S; [|now apply citem_asc|].
      * cbn [andb]. destruct (citem_set i c) eqn:E; [|reflexivity]. exfalso. apply (proj2 S). now apply citem_adm.
      * apply Forall_forall. intros y Hy. apply citem_adm in Hy; [|exact Oi]. apply (head7 i [] y Oi); [|exact Hy]. destruct i; exact SI.
    + change (nadm (tree_elem (EClass false (i :: items)))) with (nadm (SimpleV (map tree_citem (i :: items)))) in S. rewrite class_adm in S by exact O.
      apply citem_adm in S; [|exact Oi]. cbn [elem_set existsb]. rewrite S. reflexivity.
  - cbn [tree_elem nadm term_adm In] in S. lia.
  - cbn [tree_elem nadm term_adm In] in S. lia.
Qed.
Lemma unit_min x : elem_ok x = true -> exists m, tree_elem x = Simple m [] /\ nmin m <> 0.
Proof.
  intro O. destruct x as [a|a| |neg items|p q r|p q]; cbn [elem_ok] in *; try (eexists; split; [reflexivity|]; discriminate).
  - eexists; split; [reflexivity|]. cbn [nmin term_min]. rewrite (kind_lit a O). discriminate.
  - eexists; split; [reflexivity|]. pose proof (citem_min (CEsc a) O) as M. cbn [tree_citem] in M. intro Z0. 
    rewrite <- MinSize.simple0, M in Z0. discriminate.
  - apply andb_true_iff in O as [O NE]. destruct items as [|i items]; [discriminate NE|].
    assert (M : nmin (SimpleV (map tree_citem (i :: items))) <> 0).
    { cbn [nmin]. assert (P : (1 <= minl (map nmin (map tree_citem (i :: items))))%N); [|lia]. apply LL.minl_low; [discriminate|].
      intros n Hn. rewrite map_map in Hn. apply in_map_iff in Hn as (j & <- & Hj). rewrite citem_min; [lia|]. rewrite forallb_forall in O. now apply O. }
    destruct neg; (eexists; split; [reflexivity|]); [cbn [nmin]|]; exact M.
Qed.
Lemma after_adm q z o c : elem_ok z = true -> In c (nadm (followed (tree_quant q (tree_elem z)) o)) ->
  In c (nadm (tree_elem z)) \/ (least q = 0 /\ exists n, o = Some n /\ In c (nadm n)).
Proof.
  intros O H. destruct (unit_min z O) as (m & E & M).
  destruct q as [|k g].
  - cbn [tree_quant] in H. destruct o as [n|]; cbn [followed] in H; [|now left]. rewrite E in *. cbn [followed app nadm map] in *. left.
    destruct (N.eqb_spec (nmin m) 0); [contradiction|exact H].
  - destruct o as [n|].
    + assert (K : In c (nadm (tree_elem z)) \/ (kind_min k = 0 /\ (In c (nadm (tree_elem z)) \/ In c (nadm n)))).
      { assert (G : forall mx, In c (nadm (followed (mkq (pol_of g) (tree_elem z) (kind_min k) mx) (Some n))) -> In c (nadm (tree_elem z)) \/ (kind_min k = 0 /\ (In c (nadm (tree_elem z)) \/ In c (nadm n)))).
        { intros mx X. destruct g; cbn [pol_of mkq followed app nadm map] in X; (destruct (N.eqb_spec (kind_min k) 0) as [Z0|Z0]; [|now left]);
          apply extract_in in X as (l & [<-|[<-|[]]] & X); right; split; auto. }
        destruct k; try exact (G _ H). now left. }
      destruct K as [K|[K [K'|K']]]; [now left|now left|]. right. split; [exact K|]. now exists n.
    + cbn [followed] in H. left. assert (G : forall mn mx, In c (nadm (mkq (pol_of g) (tree_elem z) mn mx)) -> In c (nadm (tree_elem z))).
      { intros mn mx X. destruct g; cbn [pol_of mkq nadm map] in X; (destruct (mn =? 0); [|exact X]); apply extract_in in X as (l & [<-|[]] & X); exact X. }
      destruct k; try exact (G _ _ H). exact H.
Qed.
(** Any part: its own first characters, or those of what follows. *)
Lemma next_adm q x o c : In c (nadm (followed (tree_quant q (tree_atom x)) o)) ->
  In c (nadm (tree_atom x)) \/ (exists n, o = Some n /\ In c (nadm n)).
Proof.
  intros H. assert (A : (exists m, tree_atom x = Simple m []) \/ (exists m i, tree_atom x = Group m i [])).
  { destruct x as [y|i r|r]; cbn [tree_atom]; [left; destruct y as [| | |[]| |]; cbn [tree_elem]; eauto|right; eauto|left; eauto]. }
  destruct q as [|k g].
  - cbn [tree_quant] in H. destruct o as [n|]; cbn [followed] in H; [|now left]. destruct A as [(m & E)|(m & i & E)]; rewrite E in *; cbn [followed app nadm map] in *.
    + destruct (nmin m =? 0); [|now left]. apply extract_in in H as (l & [<-|[<-|[]]] & X); [now left|right; eauto].
    + now left.
  - destruct o as [n|].
    + assert (G : forall mn mx, In c (nadm (followed (mkq (pol_of g) (tree_atom x) mn mx) (Some n))) -> In c (nadm (tree_atom x)) \/ In c (nadm n)).
      { intros mn mx X. destruct g; cbn [pol_of mkq followed app nadm map] in X; (destruct (mn =? 0); [|now left]);
        apply extract_in in X as (l & [<-|[<-|[]]] & X); auto. }
      assert (K : In c (nadm (tree_atom x)) \/ In c (nadm n)) by (destruct k; try exact (G _ _ H); now left). destruct K; [now left|right; eauto].
    + cbn [followed] in H. left. assert (G : forall mn mx, In c (nadm (mkq (pol_of g) (tree_atom x) mn mx)) -> In c (nadm (tree_atom x))).
      { intros mn mx X. destruct g; cbn [pol_of mkq nadm map] in X; (destruct (mn =? 0); [|exact X]); apply extract_in in X as (l & [<-|[]] & X); exact X. }
      destruct k; try exact (G _ _ H). exact H.
Qed.
Lemma alt_adm l c : In c (nadm (SimpleV l)) -> exists n, In n l /\ In c (nadm n).
Proof.
  destruct l as [|a [|b l]]; cbn [nadm]; [intros []|intro H; exists a; split; [now left|exact H]|].
  destruct (nmin a =? 0); [|intro H; exists a; split; [now left|exact H]]. intro H. apply extract_in in H as (s & H & X). apply in_map_iff in H as (n & <- & H). eauto.
Qed.
(** The first characters of a pattern. *)
Lemma leads_adm :
  (forall r c, wf r = true -> In c (nadm (SimpleV (tree_bs r))) \/ (exists n, In n (tree_bs r) /\ In c (nadm n)) -> leads r c)
  /\ (forall b c, wf_br b = true -> In c (nadm (tree_br b)) -> leads_br b c)
  /\ (forall s c, wf_sq s = true -> forall n, tree_sq s = Some n -> In c (nadm n) -> leads_sq s c)
  /\ (forall x c, wf_atom x = true -> In c (nadm (tree_atom x)) -> leads_atom x c).
Proof.
  apply rx_all_ind.
  - intros b H c W X. cbn [leads]. apply H; [exact W|]. destruct X as [X|(n & [<-|[]] & X)]; exact X.
  - intros b Hb r Hr c W X. cbn [wf] in W. apply andb_true_iff in W as [Wb Wr]. cbn [leads tree_bs] in *.
    assert (Y : exists n, In n (tree_br b :: tree_bs r) /\ In c (nadm n)) by (destruct X as [X|X]; [now apply alt_adm|exact X]).
    destruct Y as (n & [<-|Hn] & Y); [left; now apply Hb|right]. apply Hr; [exact Wr|]. right. eauto.
  - intros a s H c W X. cbn [leads_br]. destruct a; [now left|]. right. cbn [tree_br] in X. destruct (tree_sq s) as [n|] eqn:E; [|destruct X].
    apply (H c) with n; auto. cbn [wf_br] in W. destruct s; [discriminate|exact W].
  - intros c _ n E. discriminate.
  - intros x Hx q s Hs c W n E X. cbn [wf_sq] in W. rewrite !andb_true_iff in W. destruct W as [[Wx Wq] Ws]. cbn [tree_sq] in E. injection E as <-. cbn [leads_sq].
    destruct x as [y|i r|r].
    + cbn [tree_atom] in X. apply after_adm in X; [|exact Wx]. destruct X as [X|(L & m & E & X)]; [left; now apply Hx|right]. split; [now left|]. now apply (Hs c Ws m).
    + apply next_adm in X. destruct X as [X|(m & E & X)]; [left; now apply Hx|right]. split; [right; discriminate|]. now apply (Hs c Ws m).
    + apply next_adm in X. destruct X as [X|(m & E & X)]; [left; now apply Hx|right]. split; [right; discriminate|]. now apply (Hs c Ws m).
  - intros y c W X. now apply may_adm.
  - intros i r H c W X. cbn [leads_atom]. apply H; [exact W|]. left. exact X.
  - intros r H c W X. cbn [leads_atom]. apply H; [exact W|]. left. exact X.
Qed.
(** Numbering the captures does not change them. *)
Lemma leads_renumber : (forall r i g c, leads (renumber_in i r g) c <-> leads r c) /\ (forall b g c, leads_br (renumber_br b g) c <-> leads_br b c)
  /\ (forall s g c, leads_sq (renumber_sq s g) c <-> leads_sq s c) /\ (forall x g c, leads_atom (renumber_atom x g) c <-> leads_atom x c).
Proof.
  apply rx_all_ind.
  - intros b H i g c. cbn [renumber_in leads]. apply H.
  - intros b Hb r Hr i g c. cbn [renumber_in]. set (g' := if i then g else _). cbn [leads]. rewrite Hb, Hr. reflexivity.
  - intros a s H g c. cbn [renumber_br leads_br]. rewrite H. reflexivity.
  - intros g c. reflexivity.
  - intros x Hx q s Hs g c. cbn [renumber_sq]. set (g' := after_atom _ g). cbn [leads_sq]. rewrite Hx, Hs.
    assert (E : (forall y, renumber_atom x g <> AEl y) <-> (forall y, x <> AEl y)) by (destruct x; cbn [renumber_atom]; split; intros K y; try discriminate; intro F; exact (K _ F)).
    rewrite E. reflexivity.
  - intros y g c. reflexivity.
  - intros i r H g c. cbn [renumber_atom leads_atom]. apply H.
  - intros r H g c. cbn [renumber_atom leads_atom]. apply H.
Qed.
Lemma no_common a b : asc a -> asc b -> (forall c, In c a -> In c b -> False) -> adm_empty (adm_inter a b) = true.
Proof.
  intros A B H. destruct (adm_inter a b) as [|c l] eqn:E; [reflexivity|]. exfalso.
  assert (X : In c (adm_inter a b)) by (rewrite E; now left). apply inter_in in X; [|assumption..]. now apply (H c).
Qed.
(** ** In the middle of a sequence *)
Lemma run_tail x q g s k : wf_atom x = true -> wf_sq s = true -> apart x s -> (forall n, q <> QExact n) -> (g = Lz -> kind_min q <> 0) ->
  exists n, tree_sq (renumber_sq (SCons x (QQ q g) s) k) = Some n
  /\ optimize n [] = Possessive (optimize (tree_atom (renumber_atom x k)) []) (kind_min q) (umax_of (kind_max q))
       (kids (tree_sq (renumber_sq s (after_atom (renumber_atom x k) k))))
  /\ nadm n = nadm (followed (mkq PPoss (tree_atom (renumber_atom x k)) (kind_min q) (umax_of (kind_max q))) (tree_sq (renumber_sq s (after_atom (renumber_atom x k) k)))).
Proof.
  intros Wx W A Q L. set (x' := renumber_atom x k). set (s' := renumber_sq s (after_atom x' k)).
  assert (Wx' : wf_atom x' = true) by (unfold x'; rewrite (proj2 (proj2 (proj2 Main.renumber_wf))); exact Wx).
  assert (W' : wf_sq s' = true) by (unfold s'; destruct (proj1 (proj2 (proj2 Main.renumber_wf)) s (after_atom x' k)) as [-> _]; exact W).
  assert (AP : forall c, leads_atom x' c -> leads_sq s' c -> False).
  { intros c H1 H2. apply (A c). split; [now apply (proj2 (proj2 (proj2 leads_renumber)) x k)|now apply (proj1 (proj2 (proj2 leads_renumber)) s (after_atom x' k))]. }
  exists (followed (mkq (pol_of g) (tree_atom x') (kind_min q) (umax_of (kind_max q))) (tree_sq s')).
  split; [|split].
  - cbn [renumber_sq tree_sq]. fold x'. fold s'. replace (tree_quant (QQ q g) (tree_atom x')) with (mkq (pol_of g) (tree_atom x') (kind_min q) (umax_of (kind_max q))) by (destruct q; try reflexivity; exfalso; eapply Q; reflexivity). reflexivity.
  - assert (Ax : asc (nadm (tree_atom x'))) by now apply (proj2 (proj2 (proj2 tree_asc))).
    destruct (tree_sq s') as [n|] eqn:TS; cbn [kids].
    + assert (D : adm_empty (adm_inter (nadm (tree_atom x')) (extract_adm (map nadm ([n] ++ [])))) = true).
      { apply no_common; [exact Ax| |].
        - apply extract_asc. constructor; [|constructor]. exact (proj1 (proj2 (proj2 tree_asc)) s' W' n TS).
        - intros c Hy Hn. apply extract_in in Hn as (l & [<-|[]] & Hn). apply (AP c); [now apply (proj2 (proj2 (proj2 leads_adm)))|exact (proj1 (proj2 (proj2 leads_adm)) s' c W' n TS Hn)]. }
      destruct g; cbn [pol_of mkq followed app optimize map].
      * cbn [app map] in D. rewrite D. reflexivity.
      * change (nadm (Lazy (tree_atom x') (kind_min q) (umax_of (kind_max q)) [n])) with (if kind_min q =? 0 then extract_adm (map nadm [tree_atom x'; n]) else nadm (tree_atom x')).
        destruct (N.eqb_spec (kind_min q) 0) as [Z0|_]; [exfalso; now apply L|]. cbn [app map] in D. rewrite D. reflexivity.
      * reflexivity.
    + destruct g; cbn [pol_of]; [destruct (run_opt (tree_atom x') None) as (b & H); destruct (H (kind_min q) (umax_of (kind_max q))) as [-> B]; now rewrite (B eq_refl)| |apply poss_opt].
      destruct (lazy_opt (tree_atom x') None (kind_min q) (umax_of (kind_max q))) as (b & -> & B). now rewrite (B eq_refl).
  - destruct g, (tree_sq s'); reflexivity.
Qed.
Lemma same_put s s' : (forall k, exists n n', tree_sq (renumber_sq s k) = Some n /\ tree_sq (renumber_sq s' k) = Some n' /\ optimize n [] = optimize n' [] /\ nadm n = nadm n') ->
  forall p k, exists n n', tree_sq (renumber_sq (put p s) k) = Some n /\ tree_sq (renumber_sq (put p s') k) = Some n' /\ optimize n [] = optimize n' [] /\ nadm n = nadm n'.
Proof.
  intros H. induction p as [|x q p IH]; intro k; cbn [put]; [apply H|]. cbn [renumber_sq tree_sq]. set (x' := renumber_atom x k).
  destruct (IH (after_atom x' k)) as (n & n' & -> & -> & O & A). do 2 eexists. split; [reflexivity|]. split; [reflexivity|].
  destruct (unit_shape q x') as [(m & ->)|[(m & a & b & ->)|[(m & a & b & ->)|[(m & a & b & ->)|[(m & j & ->)|(m & i & ->)]]]]]; cbn [followed app]; (split; [|cbn [nadm map]; rewrite ?A; reflexivity]).
  - cbn [optimize map]. now rewrite O.
  - cbn [optimize map app]. rewrite A, O. reflexivity.
  - cbn [optimize map app nadm]. rewrite A, O. reflexivity.
  - cbn [optimize map]. now rewrite O.
  - cbn [optimize map]. now rewrite O.
  - cbn [optimize map]. rewrite O. f_equal. apply opt_inj. cbn [app map]. now rewrite A.
Qed.

(** One branch among others. *)
Lemma same_among a p s s' : (forall k, exists n n', tree_sq (renumber_sq s k) = Some n /\ tree_sq (renumber_sq s' k) = Some n' /\ optimize n [] = optimize n' [] /\ nadm n = nadm n') ->
  (forall k, nx_sq (renumber_sq s k) = nx_sq (renumber_sq s' k)) -> forall l t,
  ctree (among l (Br a (put p s)) t) = ctree (among l (Br a (put p s')) t).
Proof.
  intros H X l t. unfold ctree, tree, renumber.
  assert (B : forall g, optimize (tree_br (renumber_br (Br a (put p s)) g)) [] = optimize (tree_br (renumber_br (Br a (put p s')) g)) []).
  { intro g. cbn [renumber_br tree_br]. destruct (same_put s s' H p g) as (n & n' & -> & -> & O & A). destruct a; [|exact O]. cbn [followed app optimize map]. now rewrite O. }
  assert (G : forall l g, map (fun c => optimize c []) (tree_bs (renumber_in false (among l (Br a (put p s)) t) g)) = map (fun c => optimize c []) (tree_bs (renumber_in false (among l (Br a (put p s')) t) g))).
  { clear l. induction l as [|c l IH]; intro g; cbn [among].
    - destruct t as [r|]; cbn [renumber_in tree_bs map]; rewrite B; [|reflexivity]. cbn [renumber_br nx_br]. now rewrite (put_nx s s' X p g).
    - cbn [renumber_in tree_bs map]. f_equal. apply IH. }
  specialize (G l 0%nat). destruct (tree_bs (renumber_in false (among l (Br a (put p s)) t) 0)) as [|x [|y k]], (tree_bs (renumber_in false (among l (Br a (put p s')) t) 0)) as [|x' [|y' k']]; try discriminate G; [reflexivity| |].
  - injection G as G. exact G.
  - change (SimpleV (map (fun c => optimize c []) (x :: y :: k)) = SimpleV (map (fun c => optimize c []) (x' :: y' :: k'))). now rewrite G.
Qed.
