(** A choice between characters compiles to the class of these characters. *)
From Coq Require Import ZArith NArith List Bool Lia.
From Verif Require Import Base Text Ast AstProofs Builder BuilderProofs Engine Spec Tree Supported Heads Laws SpecFuse Middle Inside Apart.
Import ListNotations.
Open Scope N_scope.

(** Nodes that may replace each other before the optimisation. *)
Definition eqv (n n' : node) : Prop := nadm n = nadm n' /\ nmin n = nmin n' /\ forall i, optimize n i = optimize n' i.
Lemma eqv_refl n : eqv n n.
Proof. repeat split. Qed.
Lemma eqv_all n n' i i' : eqv n n' -> map nadm i = map nadm i' -> optimize n i = optimize n' i'.
Proof. intros (_ & _ & O) E. rewrite O. now apply opt_inj. Qed.
Lemma eqv_map l l' : Forall2 eqv l l' -> map nadm l = map nadm l' /\ map nmin l = map nmin l' /\ map (fun c => optimize c []) l = map (fun c => optimize c []) l'.
Proof.
  induction 1 as [|n n' l l' (A & M & O) F (IA & IM & IO)]; [auto|]. cbn [map]. now rewrite A, M, (O []), IA, IM, IO.
Qed.
Lemma eqv_choice l l' : Forall2 eqv l l' -> eqv (SimpleV l) (SimpleV l').
Proof.
  intro F. destruct (eqv_map l l' F) as (A & M & O). split; [|split].
  - destruct F as [|n n' l l' (A1 & M1 & O1) F]; [reflexivity|]. destruct F as [|n2 n2' l l' E2 F]; [exact A1|]. cbn [nadm]. rewrite M1.  cbn [map]; rewrite A1.
    cbn [map] in A. injection A as A0 A2 A3. cbn [map]. now rewrite A2, A3.
  - cbn [nmin]. now rewrite M.
  - intro i. destruct F as [|n n' l l' (A1 & M1 & O1) F]; [reflexivity|]. destruct F as [|n2 n2' l l' E2 F]; [apply O1|].
    change (SimpleV (map (fun c => optimize c []) (n :: n2 :: l)) = SimpleV (map (fun c => optimize c []) (n' :: n2' :: l'))). now rewrite O.
Qed.
Lemma eqv_simple n n' l l' : eqv n n' -> Forall2 eqv l l' -> eqv (Simple n l) (Simple n' l').
Proof.
  intros (A0 & M0 & O0) F. destruct (eqv_map l l' F) as (A & M & O). split; [|split].
  - destruct F as [|x x' l l' E F]; [exact A0|]. change (nadm (Simple n (x :: l))) with (if nmin n =? 0 then extract_adm (nadm n :: map nadm (x :: l)) else nadm n).
    change (nadm (Simple n' (x' :: l'))) with (if nmin n' =? 0 then extract_adm (nadm n' :: map nadm (x' :: l')) else nadm n'). now rewrite A0, M0, A.
  - cbn [nmin]. now rewrite M0, M.
  - intro i. destruct F as [|x x' l l' E F]; [apply O0|].
    change (Simple (optimize n i) (map (fun c => optimize c []) (x :: l)) = Simple (optimize n' i) (map (fun c => optimize c []) (x' :: l'))). now rewrite O0, O.
Qed.
Lemma eqv_run p n n' a b l l' : eqv n n' -> Forall2 eqv l l' -> 
  let run n l := match p with PGreedy => Greedy n a b l | PLazy => Lazy n a b l | PPoss => Possessive n a b l end in eqv (run n l) (run n' l').
Proof.
  intros (A0 & M0 & O0) F run. destruct (eqv_map l l' F) as (A & M & O).
  assert (NA : nadm (run n l) = nadm (run n' l')) by (destruct p; unfold run; cbn [nadm]; now rewrite A0, A).
  split; [exact NA|split].
  - destruct p; unfold run; cbn [nmin]; now rewrite M0, M.
  - intro i. destruct p; unfold run in *; cbn [optimize]; rewrite ?NA, ?map_app, ?A0, ?A, ?O0, ?O; reflexivity.
Qed.
Definition eqv_opt (o o' : option node) : Prop := match o, o' with Some n, Some n' => eqv n n' | None, None => True | _, _ => False end.
Definition opt_list (o : option node) : list node := match o with Some n => [n] | None => [] end.
Lemma eqv_list o o' : eqv_opt o o' -> Forall2 eqv (opt_list o) (opt_list o').
Proof. destruct o, o'; cbn; try contradiction; repeat constructor; auto; apply H. Qed.
Lemma followed_list u o : followed u o = match u with SimpleV cs => SimpleV (cs ++ opt_list o) | Simple m cs => Simple m (cs ++ opt_list o) | Greedy m a b cs => Greedy m a b (cs ++ opt_list o)
  | Lazy m a b cs => Lazy m a b (cs ++ opt_list o) | Possessive m a b cs => Possessive m a b (cs ++ opt_list o) | Repeated m k cs => Repeated m k (cs ++ opt_list o)
  | Group m i cs => Group m i (cs ++ opt_list o) | _ => u end.
Proof. destruct o; [destruct u; reflexivity|]. destruct u; cbn [followed opt_list]; rewrite ?app_nil_r; reflexivity. Qed.
(** One part and what follows it. *)
Definition part (u u' : node) : Prop :=
  (exists m m', u = Simple m [] /\ u' = Simple m' [] /\ eqv m m') \/ (exists m m' i, u = Group m i [] /\ u' = Group m' i [] /\ eqv m m').
Lemma part_eqv u u' : part u u' -> eqv u u'.
Proof.
  intros [(m & m' & -> & -> & E)|(m & m' & i & -> & -> & E)]; [apply eqv_simple; [exact E|constructor]|].
  destruct E as (A & M & O). split; [exact A|]. split; [exact M|]. intro inj. cbn [optimize map app]. now rewrite O.
Qed.
Lemma run_followed u u' k g o o' : eqv u u' -> eqv_opt o o' -> eqv (followed (tree_quant (QQ k g) u) o) (followed (tree_quant (QQ k g) u') o').
Proof.
  intros EU EO. pose proof (eqv_list o o' EO) as F. rewrite !followed_list.
  destruct k; try (cbn [tree_quant]; destruct g; cbn [pol_of mkq app]; [apply (eqv_run PGreedy)|apply (eqv_run PLazy)|apply (eqv_run PPoss)]; assumption).
  cbn [tree_quant app]. destruct EU as (A0 & M0 & O0). destruct (eqv_map _ _ F) as (A & M & O). split; [exact A0|]. split; [cbn [nmin]; now rewrite M0|]. intro inj. cbn [optimize]. now rewrite O0, O.
Qed.
Lemma part_followed u u' q o o' : part u u' -> eqv_opt o o' -> eqv (followed (tree_quant q u) o) (followed (tree_quant q u') o').
Proof.
  intros P EO. destruct q as [|k g]; [|apply run_followed; [now apply part_eqv|exact EO]]. pose proof (eqv_list o o' EO) as F. rewrite !followed_list.
  cbn [tree_quant]. destruct P as [(m & m' & -> & -> & E)|(m & m' & i & -> & -> & E)]; cbn [app]; [now apply eqv_simple|].
  destruct E as (A0 & M0 & O0). destruct (eqv_map _ _ F) as (A & M & O). split; [exact A0|]. split; [exact M0|]. intro inj. cbn [optimize]. rewrite O. f_equal.
  rewrite O0. apply opt_inj. rewrite !map_app. now rewrite A.
Qed.
Lemma eqv_trans a b c : eqv a b -> eqv b c -> eqv a c.
Proof. intros (A & M & O) (A' & M' & O'). split; [congruence|]. split; [congruence|]. intro i. now rewrite O. Qed.
(** A group around a single part. *)
Lemma eqv_wrap m : eqv (SimpleV [Simple m []]) m.
Proof.
  split; [reflexivity|]. split; [|reflexivity]. cbn [nmin map minl fold_left]. rewrite N.add_0_r. unfold wrap32. apply N.mod_small, nmin_lt.
Qed.
Lemma eqv_pack m : eqv (Simple (SimpleV [m]) []) m.
Proof.
  split; [reflexivity|]. split; [|reflexivity]. cbn [nmin map minl fold_left]. rewrite N.add_0_r. unfold wrap32. apply N.mod_small, nmin_lt.
Qed.
(** ** Elements and items *)
Lemma item_eqv y i : elem_ok y = true -> citem_ok i = true -> item_of y i -> eqv (tree_elem y) (tree_citem i).
Proof.
  intros Y I H. destruct y as [c|c| |[] [|j [|k l]]|a b c|a b]; cbn [item_of] in H; try contradiction; subst i; cbn [tree_elem tree_citem map].
  - split; [cbn [nadm term_adm]; now rewrite (Heads.kind_lit c Y)|]. split; [cbn [nmin term_min]; now rewrite (Heads.kind_lit c Y)|]. intro i. cbn [optimize term_optimize]. now rewrite (Heads.kind_lit c Y).
  - apply eqv_refl.
  - split; [reflexivity|]. split; [|reflexivity]. cbn [nmin map minl fold_left]. now rewrite (citem_min j I).
Qed.
Lemma either_tree y ys b g : tree_bs (renumber_in b (either y ys) g) = map tree_elem (y :: ys) /\ nx (renumber_in b (either y ys) g) = 0%nat.
Proof.
  revert y g. induction ys as [|z zs IH]; intros y g; [split; reflexivity|]. cbn [either renumber_in]. set (g' := if b then g else _). destruct (IH z g') as [T X]. split.
  - change (tree_elem y :: tree_bs (renumber_in b (either z zs) g') = map tree_elem (y :: z :: zs)). now rewrite T.
  - change (Nat.max 0 (nx (renumber_in b (either z zs) g')) = 0%nat). now rewrite X.
Qed.
Lemma either_wf y ys : wf (either y ys) = forallb elem_ok (y :: ys).
Proof.
  revert y. induction ys as [|z zs IH]; intro y; cbn [either wf wf_br wf_sq wf_atom quant_ok forallb]; rewrite ?andb_true_r; [reflexivity|]. rewrite IH. reflexivity.
Qed.
Lemma items_eqv l l' : Forall2 item_of l l' -> forallb elem_ok l = true -> forallb citem_ok l' = true -> Forall2 eqv (map tree_elem l) (map tree_citem l').
Proof.
  induction 1 as [|y i l l' H F IH]; intros L L'; [constructor|]. cbn [forallb] in L, L'. apply andb_true_iff in L as [Y L]. apply andb_true_iff in L' as [I L']. cbn [map]. constructor; auto. now apply item_eqv.
Qed.
Lemma elem_part y : part (tree_elem y) (tree_elem y).
Proof. left. destruct y as [| | |[]| |]; cbn [tree_elem]; do 2 eexists; repeat split. Qed.
(** ** The whole pattern *)
Lemma fused_parts :
  (forall r r', fused r r' -> wf r = true -> wf r' = true -> forall b g, Forall2 eqv (tree_bs (renumber_in b r g)) (tree_bs (renumber_in b r' g)) /\ nx (renumber_in b r g) = nx (renumber_in b r' g))
  /\ (forall b b', fused_br b b' -> wf_br b = true -> wf_br b' = true -> forall g, eqv (tree_br (renumber_br b g)) (tree_br (renumber_br b' g)) /\ nx_br (renumber_br b g) = nx_br (renumber_br b' g))
  /\ (forall s s', fused_sq s s' -> wf_sq s = true -> wf_sq s' = true -> forall g, eqv_opt (tree_sq (renumber_sq s g)) (tree_sq (renumber_sq s' g)) /\ nx_sq (renumber_sq s g) = nx_sq (renumber_sq s' g))
  /\ (forall x x', fused_atom x x' -> wf_atom x = true -> wf_atom x' = true -> forall g, part (tree_atom (renumber_atom x g)) (tree_atom (renumber_atom x' g))
      /\ after_atom (renumber_atom x g) g = after_atom (renumber_atom x' g) g
      /\ forall q s s', nx_sq s = nx_sq s' -> nx_sq (SCons (renumber_atom x g) q s) = nx_sq (SCons (renumber_atom x' g) q s')).
Proof.
  apply fused_all_ind.
  - intros b b' _ IH W W' i g. destruct (IH W W' g) as [E N]. split; [constructor; [exact E|constructor]|exact N].
  - intros b b' r r' _ IHb _ IHr W W' i g. cbn [wf] in W, W'. apply andb_true_iff in W as [Wb Wr]. apply andb_true_iff in W' as [Wb' Wr'].
    destruct (IHb Wb Wb' g) as [E N]. cbn [renumber_in]. rewrite <- N. destruct (IHr Wr Wr' i (if i then g else nx_br (renumber_br b g))) as [F M]. cbn [tree_bs nx]. split; [now constructor|]. now rewrite M, N.
  - intros a s s' _ IH W W' g. assert (V : wf_sq s = true) by (destruct s; [discriminate W|exact W]). assert (V' : wf_sq s' = true) by (destruct s'; [discriminate W'|exact W']).
    destruct (IH V V' g) as [E N]. split; [|exact N]. cbn [renumber_br tree_br]. destruct a.
    + rewrite !followed_list. cbn [app]. apply eqv_simple; [apply eqv_refl|now apply eqv_list].
    + destruct (tree_sq (renumber_sq s g)), (tree_sq (renumber_sq s' g)); cbn [eqv_opt] in E; try contradiction; [exact E|apply eqv_refl].
  - intros b b' _ IH W W' g. cbn [alone wf_br wf_sq wf_atom wf] in W. apply andb_true_iff in W as [W _]. apply andb_true_iff in W as [W _]. destruct (IH W W' g) as [E N]. split.
    + change (eqv (Simple (SimpleV [tree_br (renumber_br b g)]) []) (tree_br (renumber_br b' g))). eapply eqv_trans; [apply eqv_pack|exact E].
    + change (Nat.max (nx_br (renumber_br b g)) 0 = nx_br (renumber_br b' g)). now rewrite N, Nat.max_0_r.
  - intros _ _ g. split; [exact Logic.I|reflexivity].
  - intros x x' q s s' _ IHx _ IHs W W' g. cbn [wf_sq] in W, W'. rewrite !andb_true_iff in W, W'. destruct W as [[Wx _] Ws], W' as [[Wx' _] Ws'].
    destruct (IHx Wx Wx' g) as (P & A & X). cbn [renumber_sq]. rewrite <- A. destruct (IHs Ws Ws' (after_atom (renumber_atom x g) g)) as [E N].
    split; [cbn [tree_sq eqv_opt]; now apply part_followed|now apply X].
  - intros i r r' k p s s' _ IHr _ IHs W W' g. cbn [alone wf_sq wf_atom wf wf_br] in W, W'. rewrite !andb_true_iff in W, W'. destruct W as [[W _] Ws], W' as [[Wr' _] Ws']. apply andb_true_iff in W as [W _]. apply andb_true_iff in W as [Wr _].
    destruct (IHr Wr Wr' true (g + 1)%nat) as [F N]. cbn [renumber_sq]. set (x := renumber_atom (ANon _) g). set (x' := renumber_atom (ACap i r') g).
    assert (AX : after_atom x g = after_atom x' g) by reflexivity. rewrite AX. destruct (IHs Ws Ws' (after_atom x' g)) as [E M]. split.
    + cbn [tree_sq eqv_opt]. apply run_followed; [|exact E]. unfold x, x'. cbn [alone renumber_atom renumber_in renumber_br renumber_sq tree_atom tree_bs tree_br tree_sq tree_quant followed].
      eapply eqv_trans; [apply eqv_pack|]. apply part_eqv. right. do 3 eexists. split; [reflexivity|]. split; [reflexivity|]. now apply eqv_choice.
    + change (Nat.max (g + 1) (nx_sq (renumber_sq s (after_atom x' g))) = Nat.max (g + 1) (nx_sq (renumber_sq s' (after_atom x' g))))%nat. now rewrite M.
  - intros s s' NE _ IH W W' g. cbn [wf_sq wf_atom wf wf_br] in W. apply andb_true_iff in W as [W _]. apply andb_true_iff in W as [W _]. assert (V : wf_sq s = true) by (destruct s; [contradiction|exact W]). destruct (IH V W' g) as [E N].
    assert (T : exists n, tree_sq (renumber_sq s g) = Some n) by (destruct s; [contradiction|]; cbn [renumber_sq tree_sq]; eauto). destruct T as [n T]. split.
    + change (eqv_opt (Some (Simple (SimpleV [match tree_sq (renumber_sq s g) with Some n => n | None => SimpleV [] end]) [])) (tree_sq (renumber_sq s' g))).
      rewrite T in *. destruct (tree_sq (renumber_sq s' g)) as [n'|]; [|contradiction]. cbn [eqv_opt] in *. eapply eqv_trans; [apply eqv_pack|exact E].
    + change (Nat.max (nx_sq (renumber_sq s g)) 0 = nx_sq (renumber_sq s' g)). now rewrite N, Nat.max_0_r.
  - intros y _ _ g. split; [apply elem_part|]. split; [reflexivity|]. intros q s s' N. cbn [renumber_atom nx_sq]. now rewrite N.
  - intros i r r' _ IH W W' g. destruct (IH W W' true (g + 1)%nat) as [F N]. split; [|split].
    + right. cbn [renumber_atom tree_atom]. do 3 eexists. split; [reflexivity|]. split; [reflexivity|]. now apply eqv_choice.
    + reflexivity.
    + intros q s s' M. cbn [renumber_atom nx_sq nx_atom]. now rewrite M.
  - intros r r' _ IH W W' g. destruct (IH W W' true g) as [F N]. split; [|split].
    + left. cbn [renumber_atom tree_atom]. do 2 eexists. split; [reflexivity|]. split; [reflexivity|]. now apply eqv_choice.
    + cbn [renumber_atom after_atom nx_atom]. exact N.
    + intros q s s' M. cbn [renumber_atom nx_sq nx_atom]. now rewrite M, N.
  - intros r r' _ IH W W' g. cbn [alone wf_sq wf_atom wf wf_br] in W, W'. apply andb_true_iff in W as [W _]. apply andb_true_iff in W as [W _]. destruct (IH W W' true g) as [F N].
    assert (X : nx (renumber_in true (ROne (alone (ANon r))) g) = nx (renumber_in true r' g)).
    { cbn [alone renumber_in renumber_br renumber_sq renumber_atom nx nx_br nx_sq nx_atom]. now rewrite N, Nat.max_0_r. }
    split; [|split].
    + left. cbn [alone renumber_atom renumber_in renumber_br renumber_sq tree_atom tree_bs tree_br tree_sq tree_quant followed]. do 2 eexists. split; [reflexivity|]. split; [reflexivity|].
      eapply eqv_trans; [apply eqv_wrap|]. now apply eqv_choice.
    + exact X.
    + intros q s s' M. change (Nat.max (nx (renumber_in true (ROne (alone (ANon r))) g)) (nx_sq s) = Nat.max (nx (renumber_in true r' g)) (nx_sq s')). now rewrite M, X.
  - intros i r r' _ IH W W' g. cbn [alone wf_sq wf_atom wf wf_br] in W, W'. apply andb_true_iff in W as [W _]. apply andb_true_iff in W as [W _]. destruct (IH W W' true (g + 1)%nat) as [F N]. split; [|split].
    + right. cbn [alone renumber_atom renumber_in renumber_br renumber_sq tree_atom tree_bs tree_br tree_sq tree_quant followed]. do 3 eexists. split; [reflexivity|]. split; [reflexivity|].
      eapply eqv_trans; [apply eqv_wrap|]. now apply eqv_choice.
    + reflexivity.
    + intros q s s' M. cbn [renumber_atom nx_sq nx_atom]. now rewrite M.
  - intros n l _ _ g. split; [|split].
    + left. cbn [alone renumber_atom renumber_in renumber_br renumber_sq tree_atom tree_bs tree_br tree_sq tree_quant followed].
      destruct n; cbn [tree_elem]; do 2 eexists; (split; [reflexivity|]); (split; [reflexivity|]); apply eqv_wrap.
    + reflexivity.
    + intros q s s' M. change (Nat.max 0 (nx_sq s) = Nat.max 0 (nx_sq s')). now rewrite M.
  - intros y ys i l F W W' g. cbn [wf_atom] in W. rewrite either_wf in W. cbn [wf_atom elem_ok] in W'. apply andb_true_iff in W' as [W' _]. destruct (either_tree y ys true g) as [T N]. split; [|split].
    + left. cbn [renumber_atom tree_atom tree_elem]. rewrite T. do 2 eexists. split; [reflexivity|]. split; [reflexivity|]. apply eqv_choice. now apply items_eqv.
    + cbn [renumber_atom after_atom nx_atom]. exact N.
    + intros q s s' M. cbn [renumber_atom nx_sq nx_atom]. now rewrite M, N.
Qed.
Lemma fused_ctree r r' : fused r r' -> wf r = true -> wf r' = true -> ctree r = ctree r'.
Proof.
  intros F W W'. unfold ctree, tree, renumber. destruct (proj1 fused_parts r r' F W W' false 0%nat) as [E _]. now apply eqv_choice.
Qed.
