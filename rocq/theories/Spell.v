(** Proofs for PropertiesSpell.v: the compiled matcher depends on the leaves of the parsed tree
    only through what the optimiser makes of them. *)
From Coq Require Import String ZArith NArith List Bool Lia ZifyBool ZifyNat ZifyN.
From Verif Require Import Base Text TextProofs Ast AstProofs Builder BuilderProofs Api Spec Tree ParseProofs Supported Main Captures Heads Families End EndD Roundtrip SpecSpell.
Import ListNotations.
Open Scope Z_scope.

(** A one-character item in (?:...) or a class of its own. *)
Definition flat (t : term) : bool :=
  match t with
  | TExact [_] | TRange _ _ => true
  | TTerminal tok => match term_kind tok with KSelf _ => true | _ => false end
  | _ => false
  end.
Definition core (n : node) : node :=
  match n with SimpleV [Simple (Term t) []] => if flat t then Term t else n | _ => n end.
Lemma core_cases n : core n = n \/ exists t, flat t = true /\ n = SimpleV [Simple (Term t) []] /\ core n = Term t.
Proof.
  unfold core. destruct n as [| cs | | | | | | |]; auto. destruct cs as [|[|cs0|m ms|a1 a2 a3 a4|a1 a2 a3 a4|a1 a2 a3 a4|a1 a2 a3|a1 a2 a3|a1] [|c cs]]; auto.
  - destruct m; auto. destruct ms; auto. destruct (flat t) eqn:F; eauto.
  - destruct m; auto. destruct ms; auto.
Qed.
Lemma core_min n : nmin (core n) = nmin n.
Proof.
  destruct (core_cases n) as [->|(t & F & -> & ->)]; [reflexivity|]. destruct t as [tok|[|c [|d s]]|a b| |]; try discriminate; try reflexivity.
  cbn [flat] in F. cbn [map nmin term_min minl]. destruct (term_kind tok); try discriminate. reflexivity.
Qed.
Lemma core_adm n : nadm (core n) = nadm n.
Proof. destruct (core_cases n) as [->|(t & F & -> & ->)]; reflexivity. Qed.
Lemma core_optimize n inj : optimize (core n) inj = optimize n inj.
Proof. destruct (core_cases n) as [->|(t & F & -> & ->)]; reflexivity. Qed.
Fixpoint leaf (n : node) : node :=
  match n with
  | Term t => Term (term_optimize t)
  | SimpleV cs => SimpleV (map leaf cs)
  | Simple m cs => Simple (core (leaf m)) (map leaf cs)
  | Greedy m a b cs => Greedy (leaf m) a b (map leaf cs)
  | Lazy m a b cs => Lazy (leaf m) a b (map leaf cs)
  | Possessive m a b cs => Possessive (leaf m) a b (map leaf cs)
  | Repeated m k cs => Repeated (leaf m) k (map leaf cs)
  | Group m i cs => Group (leaf m) i (map leaf cs)
  | Negated m => Negated (leaf m)
  end.
Lemma map_leaf {A} (f : node -> A) cs : Forall (fun c => f (leaf c) = f c) cs -> map f (map leaf cs) = map f cs.
Proof. induction 1 as [|c cs H _ IH]; [reflexivity|]. cbn [map]. now rewrite H, IH. Qed.
Lemma term_opt_opt t : term_optimize (term_optimize t) = term_optimize t.
Proof. destruct t; try reflexivity. cbn [term_optimize]. destruct (term_kind tok) eqn:K; cbn [term_optimize]; rewrite ?K; reflexivity. Qed.
Lemma leaf_min n : nmin (leaf n) = nmin n.
Proof.
  induction n using node_ind'; cbn [leaf nmin]; rewrite ?core_min, ?IHn; try (rewrite (map_leaf nmin) by assumption); try reflexivity.
  destruct t; try reflexivity. cbn [term_optimize term_min]. destruct (term_kind tok) eqn:K; cbn [term_min]; rewrite ?K; reflexivity.
Qed.
Lemma leaf_adm n : nadm (leaf n) = nadm n.
Proof.
  induction n using node_ind'; cbn [leaf]; try (cbn [nadm]; rewrite ?core_adm, ?IHn; try (rewrite (map_leaf nadm) by assumption); reflexivity).
  - cbn [nadm]. destruct t; try reflexivity. cbn [term_optimize term_adm]. destruct (term_kind tok) eqn:K; cbn [term_adm]; rewrite ?K; reflexivity.
  - destruct cs as [|c [|d cs]]; [reflexivity|now inversion H|]. change (map leaf (c :: d :: cs)) with (leaf c :: map leaf (d :: cs)).
    cbn [nadm]. change (map leaf (d :: cs)) with (leaf d :: map leaf cs) at 1. cbv iota. change (leaf c :: map leaf (d :: cs)) with (map leaf (c :: d :: cs)).
    rewrite leaf_min, (map_leaf nadm) by assumption. inversion H as [|? ? Hc _ E]; subst. now rewrite Hc.
  - destruct cs as [|c cs]; cbn [map nadm]; [rewrite core_adm; exact IHn|]. rewrite core_min, core_adm, leaf_min, IHn. change (leaf c :: map leaf cs) with (map leaf (c :: cs)).
    change (nadm (leaf c) :: map nadm (map leaf cs)) with (map nadm (map leaf (c :: cs))). rewrite (map_leaf nadm) by assumption. reflexivity.
Qed.
Lemma map_opt cs : Forall (fun n => forall inj, optimize (leaf n) (map leaf inj) = optimize n inj) cs ->
  map (fun c => optimize c []) (map leaf cs) = map (fun c => optimize c []) cs.
Proof. induction 1 as [|c cs H _ IH]; [reflexivity|]. cbn [map]. rewrite IH. f_equal. exact (H []). Qed.
Lemma adm_leaf l : map nadm (map leaf l) = map nadm l.
Proof. apply map_leaf. apply Forall_forall. intros. apply leaf_adm. Qed.
Lemma leaf_optimize n : forall inj, optimize (leaf n) (map leaf inj) = optimize n inj.
Proof.
  induction n using node_ind'; intro inj.
  - cbn [leaf optimize]. now rewrite term_opt_opt.
  - destruct cs as [|c [|d cs]].
    + reflexivity.
    + inversion H as [|? ? Hc _ E]; subst. exact (Hc inj).
    + change (optimize (leaf (SimpleV (c :: d :: cs))) (map leaf inj)) with (SimpleV (map (fun c => optimize c []) (map leaf (c :: d :: cs)))).
      rewrite map_opt by assumption. reflexivity.
  - destruct cs as [|c cs].
    + change (optimize (leaf (Simple n [])) (map leaf inj)) with (optimize (core (leaf n)) (map leaf inj)). rewrite core_optimize. exact (IHn inj).
    + change (optimize (leaf (Simple n (c :: cs))) (map leaf inj)) with (Simple (optimize (core (leaf n)) (map leaf inj)) (map (fun c => optimize c []) (map leaf (c :: cs)))).
      rewrite map_opt by assumption. rewrite core_optimize, IHn. reflexivity.
  - cbn [leaf optimize]. rewrite map_opt by assumption. rewrite <- map_app, adm_leaf, leaf_adm. rewrite <- (IHn []). reflexivity.
  - change (leaf (Lazy n a b cs)) with (Lazy (leaf n) a b (map leaf cs)). cbn [optimize].
    change (Lazy (leaf n) a b (map leaf cs)) with (leaf (Lazy n a b cs)). rewrite map_opt by assumption. rewrite <- map_app, adm_leaf, leaf_adm. rewrite <- (IHn []). reflexivity.
  - cbn [leaf optimize]. rewrite map_opt by assumption. rewrite <- (IHn []). reflexivity.
  - cbn [leaf optimize]. rewrite map_opt by assumption. rewrite <- (IHn []). reflexivity.
  - cbn [leaf optimize]. rewrite map_opt by assumption. rewrite <- map_app, IHn. reflexivity.
  - cbn [leaf optimize]. rewrite <- (IHn []). reflexivity.
Qed.
Lemma leaf_same n n' : leaf n = leaf n' -> optimize n [] = optimize n' [].
Proof. intro H. rewrite <- (leaf_optimize n []), <- (leaf_optimize n' []), H. reflexivity. Qed.

(** ** Trees of patterns *)
Lemma leaf_followed u o : leaf (followed u o) = followed (leaf u) (option_map leaf o).
Proof. destruct o as [c|]; [|reflexivity]. destruct u; cbn [followed leaf option_map]; rewrite ?map_app; reflexivity. Qed.
Lemma esc_byte_spec c x : esc_byte c = Some x -> esc_class c = false /\ esc_chr c = x.
Proof.
  unfold esc_byte, esc_class, esc_chr. destruct (c =? 100), (c =? 115), (c =? 119); cbn [orb]; try discriminate. intros [= <-]. auto.
Qed.
Lemma leaf_elem x c : elem_ok x = true -> elem_byte x = Some c -> leaf (tree_elem x) = Simple (Term (TExact [c])) [].
Proof.
  intros Ok B. destruct x as [d|d| |neg l|a b d|a b]; cbn [elem_ok elem_byte tree_elem] in *; try discriminate.
  - injection B as <-. cbn [leaf map]. cbn [term_optimize]. now rewrite (kind_lit d Ok).
  - apply esc_byte_spec in B as [E <-]. cbn [leaf map]. now rewrite (esc_node d Ok E).
  - injection B as <-. reflexivity.
  - injection B as <-. reflexivity.
Qed.
Lemma leaf_citem i c : citem_ok i = true -> citem_byte i = Some c -> leaf (tree_citem i) = Simple (Term (TExact [c])) [].
Proof.
  intros Ok B. destruct i as [d|a b|d]; cbn [citem_ok citem_byte tree_citem] in *; try discriminate.
  - injection B as <-. reflexivity.
  - apply esc_byte_spec in B as [E <-]. cbn [leaf map]. now rewrite (esc_node d Ok E).
Qed.
Lemma same_citem_leaf i j : citem_ok i = true -> citem_ok j = true -> same_citem i j -> leaf (tree_citem i) = leaf (tree_citem j).
Proof.
  intros A B [->|[N E]]; [reflexivity|]. destruct (citem_byte i) as [c|] eqn:K; [|congruence].
  rewrite (leaf_citem i c A K), (leaf_citem j c B (eq_sym E)). reflexivity.
Qed.
Lemma same_elem_leaf x y : elem_ok x = true -> elem_ok y = true -> same_elem x y -> leaf (tree_elem x) = leaf (tree_elem y).
Proof.
  intros A B [->|[[N E]|(neg & l & l' & -> & -> & F)]]; [reflexivity| |].
  - destruct (elem_byte x) as [c|] eqn:K; [|congruence]. rewrite (leaf_elem x c A K), (leaf_elem y c B (eq_sym E)). reflexivity.
  - cbn [elem_ok] in A, B. apply andb_true_iff in A as [A _]. apply andb_true_iff in B as [B _].
    assert (M : map leaf (map tree_citem l) = map leaf (map tree_citem l')).
    { induction F as [|i j l l' H F IH]; [reflexivity|]. cbn [forallb] in A, B. apply andb_true_iff in A as [A1 A2]. apply andb_true_iff in B as [B1 B2].
      cbn [map]. rewrite (same_citem_leaf i j A1 B1 H), IH by assumption. reflexivity. }
    destruct neg; cbn [tree_elem leaf map]; rewrite M; reflexivity.
Qed.
Lemma citem_flat i : citem_ok i = true -> exists t, flat t = true /\ leaf (tree_citem i) = Simple (Term t) [].
Proof.
  intro Ok. destruct i as [d|a b|d]; cbn [tree_citem leaf map core].
  - eexists. split; [|reflexivity]. reflexivity.
  - eexists. split; [|reflexivity]. reflexivity.
  - eexists. split; [|reflexivity]. cbn [citem_ok] in Ok. destruct (esc_class d) eqn:E; [|now rewrite (esc_node d Ok E)].
    unfold esc_class in E. destruct (Z.eqb_spec d 100) as [->|]; [reflexivity|]. destruct (Z.eqb_spec d 115) as [->|]; [reflexivity|].
    destruct (Z.eqb_spec d 119) as [->|]; [reflexivity|discriminate].
Qed.
Lemma same_item_leaf i x : citem_ok i = true -> elem_ok x = true -> same_item i x -> leaf (tree_citem i) = leaf (tree_elem x).
Proof.
  intros A B [[NN E]|[(c & -> & ->)| ->]].
  - destruct (citem_byte i) as [c|] eqn:K; [|congruence]. now rewrite (leaf_citem i c A K), (leaf_elem x c B (eq_sym E)).
  - reflexivity.
  - destruct (citem_flat i A) as (t & F & E). cbn [tree_elem leaf map]. rewrite E. cbn [core]. now rewrite F.
Qed.
Lemma choice_leaf : forall l r, forallb citem_ok l = true -> wf r = true -> choice_of l r ->
  map leaf (tree_bs r) = map leaf (map tree_citem l) /\ nx r = 0%nat /\ forall i g, renumber_in i r g = r.
Proof.
  assert (H1 : forall i b, match b with Br false (SCons (AEl x) Q1 SNil) => same_item i x | _ => False end -> citem_ok i = true -> wf_br b = true ->
     leaf (tree_br b) = leaf (tree_citem i) /\ nx_br b = 0%nat /\ forall g, renumber_br b g = b).
  { intros i [[] s] S A W; [destruct s; tauto|]. destruct s as [|[x| |] [|] [|]]; try tauto. cbn [wf_br wf_sq wf_atom quant_ok] in W. rewrite !andb_true_iff in W.
    cbn [tree_br tree_sq tree_quant tree_atom followed]. rewrite (same_item_leaf i x) by tauto. auto. }
  induction l as [|i l IH]; intros r A W C; [destruct r; destruct C|]. cbn [forallb] in A. apply andb_true_iff in A as [A1 A2]. destruct r as [b|b r].
  - destruct l as [|j l]; [|destruct C]. assert (S : match b with Br false (SCons (AEl x) Q1 SNil) => same_item i x | _ => False end).
    { destruct b as [[] [|[x| |] [|] [|]]]; cbn [choice_of] in C; try tauto. }
    destruct (H1 i b S A1 W) as (E & N0 & R). cbn [tree_bs map nx renumber_in]. rewrite E, N0. conj; try reflexivity. intros k g. now rewrite R.
  - cbn [wf] in W. apply andb_true_iff in W as [W1 W2].
    assert (S : match b with Br false (SCons (AEl x) Q1 SNil) => same_item i x | _ => False end /\ choice_of l r).
    { destruct b as [[] [|[x| |] [|] [|]]]; cbn [choice_of] in C; destruct l as [|j l]; try tauto. }
    destruct S as [S C']. destruct (H1 i b S A1 W1) as (E & N0 & R). destruct (IH r A2 W2 C') as (E' & N1 & R'). cbn [tree_bs map nx renumber_in]. rewrite E, E', N0, N1. conj; try reflexivity.
    intros k g. now rewrite R, R'.
Qed.
Lemma leaf_quant q q' u u' : same_quant q q' -> leaf u = leaf u' -> leaf (tree_quant q u) = leaf (tree_quant q' u').
Proof.
  intros S E. destruct q as [|k g], q' as [|k' g']; cbn [same_quant] in S; try tauto. destruct S as (Mn & Mx & On & G).
  assert (T : forall k g u, one_number k = false -> tree_quant (QQ k g) u = mkq (pol_of g) u (kind_min k) (umax_of (kind_max k))) by (intros k0 g0 u0 H; destruct k0; try discriminate; reflexivity).
  destruct (one_number k) eqn:O.
  - destruct k; try discriminate. destruct k'; try discriminate. cbn [tree_quant leaf map]. cbn [kind_min] in Mn. now rewrite E, Mn.
  - rewrite (T k) by exact O. rewrite (T k') by congruence. subst g'. rewrite Mn, Mx. destruct g; cbn [pol_of mkq leaf map]; now rewrite E.
Qed.
Lemma same_tree :
  (forall r r' i g, wf r = true -> wf r' = true -> same r r' ->
     map leaf (tree_bs (renumber_in i r g)) = map leaf (tree_bs (renumber_in i r' g)) /\ nx (renumber_in i r g) = nx (renumber_in i r' g))
  /\ (forall b b' g, wf_br b = true -> wf_br b' = true -> same_br b b' ->
     leaf (tree_br (renumber_br b g)) = leaf (tree_br (renumber_br b' g)) /\ nx_br (renumber_br b g) = nx_br (renumber_br b' g))
  /\ (forall s s' g, wf_sq s = true -> wf_sq s' = true -> same_sq s s' ->
     option_map leaf (tree_sq (renumber_sq s g)) = option_map leaf (tree_sq (renumber_sq s' g)) /\ nx_sq (renumber_sq s g) = nx_sq (renumber_sq s' g))
  /\ (forall a a' g, wf_atom a = true -> wf_atom a' = true -> same_atom a a' ->
     leaf (tree_atom (renumber_atom a g)) = leaf (tree_atom (renumber_atom a' g)) /\ nx_atom (renumber_atom a g) = nx_atom (renumber_atom a' g)
        /\ after_atom (renumber_atom a g) g = after_atom (renumber_atom a' g) g).
Proof.
  apply rx_all_ind.
  - intros b IH [b'|] i g W W' S; cbn [same] in S; try tauto. cbn [wf] in W, W'. cbn [renumber_in tree_bs nx map]. destruct (IH b' g W W' S) as [-> ->]. auto.
  - intros b IHb r IHr [|b' r'] i g W W' S; cbn [same] in S; try tauto. destruct S as [Sb Sr]. cbn [wf] in W, W'. apply andb_true_iff in W as [W1 W2]. apply andb_true_iff in W' as [W1' W2'].
    cbn [renumber_in tree_bs nx map]. destruct (IHb b' g W1 W1' Sb) as [Eb Nb]. rewrite Nb.
    destruct (IHr r' i (if i then g else nx_br (renumber_br b' g)) W2 W2' Sr) as [Er Nr]. rewrite Nr, Er, Eb. auto.
  - intros a s IH [a' s'] g W W' [<- S]. cbn [wf_br] in W, W'.
    assert (Ws : wf_sq s = true /\ wf_sq s' = true) by (split; [destruct s; [discriminate|exact W]|destruct s'; [discriminate|exact W']]). destruct Ws as [Ws Ws'].
    destruct (IH s' g Ws Ws' S) as [E N]. cbn [renumber_br tree_br nx_br]. split; [|exact N]. destruct a.
    + rewrite !leaf_followed, E. reflexivity.
    + destruct (tree_sq (renumber_sq s g)), (tree_sq (renumber_sq s' g)); cbn [option_map] in E; try discriminate; [injection E as E; exact E|reflexivity].
  - intros [|? ? ?] g W W' S; cbn [same_sq] in S; [split; reflexivity|tauto].
  - intros a IHa q s IHs [|a' q' s'] g W W' S; cbn [same_sq] in S; try tauto. destruct S as (Sa & Sq & Ss). cbn [wf_sq] in W, W'. rewrite !andb_true_iff in W. rewrite !andb_true_iff in W'.
    cbn [renumber_sq tree_sq option_map].
    destruct (IHa a' g) as (Ea & Na & Aa); [tauto|tauto|exact Sa|]. rewrite Aa. destruct (IHs s' (after_atom (renumber_atom a' g) g)) as [Es Ns]; [tauto|tauto|exact Ss|]. split.
    + rewrite !leaf_followed, Es. f_equal. f_equal. exact (leaf_quant q q' _ _ Sq Ea).
    + cbn [nx_sq]. rewrite Na, Ns.
      destruct q as [|k0 g0], q' as [|k1 g1]; cbn [same_quant] in Sq; try tauto;
        destruct a as [x|i0 r0|r0], a' as [x'|i1 r1|r1]; cbn [same_atom] in Sa; try tauto; cbn [renumber_atom nx_atom] in *; try lia; try reflexivity.
  - intros x [y| |r] g W W' S; cbn [same_atom] in S; try tauto.
    2:{ unfold class_choice in S. destruct x as [c|c| |[] l|c1 c2 c3|c1 c2]; try tauto. cbn [wf_atom elem_ok] in W, W'. apply andb_true_iff in W as [W _]. destruct (choice_leaf l r W W' S) as (E & N0 & R).
        cbn [renumber_atom]. rewrite R. cbn [tree_atom tree_elem leaf nx_atom after_atom map]. rewrite E, N0. auto. }
    cbn [wf_atom] in W, W'. cbn [renumber_atom tree_atom nx_atom after_atom]. split; [now apply same_elem_leaf|]. split; [reflexivity|].
    destruct S as [->|[[N E]|(neg & l & l' & -> & -> & F)]]; [reflexivity| |reflexivity]. destruct x, y; cbn [elem_byte] in *; try congruence; reflexivity.
  - intros i r IH [|i' r'|] g W W' S; cbn [same_atom] in S; try tauto. cbn [wf_atom] in W, W'. cbn [renumber_atom tree_atom nx_atom after_atom]. destruct (IH r' true (g + 1)%nat W W' S) as [E N].
    cbn [leaf map]. rewrite E. auto.
  - intros r IH [y| |r'] g W W' S; cbn [same_atom] in S; try tauto.
    1:{ unfold class_choice in S. destruct y as [c|c| |[] l|c1 c2 c3|c1 c2]; try tauto. cbn [wf_atom elem_ok] in W, W'. apply andb_true_iff in W' as [W' _]. destruct (choice_leaf l r W' W S) as (E & N0 & R).
        cbn [renumber_atom]. rewrite R. cbn [tree_atom tree_elem leaf nx_atom after_atom map]. rewrite E, N0. auto. }
    cbn [wf_atom] in W, W'. cbn [renumber_atom tree_atom nx_atom after_atom]. destruct (IH r' true g W W' S) as [E N].
    cbn [leaf map]. rewrite E. auto.
Qed.
Lemma same_ctree r r' : wf r = true -> wf r' = true -> same r r' -> ctree r = ctree r'.
Proof.
  intros W W' S. unfold ctree, renumber, tree. apply leaf_same. cbn [leaf]. f_equal. apply (proj1 same_tree); assumption.
Qed.
(** ** With $ *)
Lemma same_tree_sq_d : forall s s' g, wf_sq s = true -> wf_sq s' = true -> same_sq s s' ->
  leaf (tree_sq_d (renumber_sq s g)) = leaf (tree_sq_d (renumber_sq s' g)).
Proof.
  destruct same_tree as (_ & _ & _ & ST). fix IH 1. intros [|a q s] [|a' q' s'] g W W' S; cbn [same_sq] in S; try tauto.
  destruct S as (Sa & Sq & Ss). cbn [wf_sq] in W, W'. rewrite !andb_true_iff in W. rewrite !andb_true_iff in W'. cbn [renumber_sq tree_sq_d].
  destruct (ST a a' g) as (Ea & Na & Aa); [tauto|tauto|exact Sa|]. rewrite Aa, !leaf_followed. cbn [option_map]. rewrite (IH s s' _); [|tauto|tauto|exact Ss].
  f_equal. exact (leaf_quant q q' _ _ Sq Ea).
Qed.
Lemma same_tree_d : forall r r' g, wf r = true -> wf r' = true -> same r r' ->
  map leaf (tree_bs_d (renumber_in false r g)) = map leaf (tree_bs_d (renumber_in false r' g)).
Proof.
  assert (B : forall b b' g, wf_br b = true -> wf_br b' = true -> same_br b b' -> leaf (tree_br_d (renumber_br b g)) = leaf (tree_br_d (renumber_br b' g))).
  { intros [a s] [a' s'] g W W' [<- S]. cbn [wf_br] in W, W'.
    assert (Ws : wf_sq s = true /\ wf_sq s' = true) by (split; [destruct s; [discriminate|exact W]|destruct s'; [discriminate|exact W']]). destruct Ws as [Ws Ws'].
    pose proof (same_tree_sq_d s s' g Ws Ws' S) as E. cbn [renumber_br tree_br_d]. destruct a; [|exact E]. rewrite !leaf_followed. cbn [option_map]. now rewrite E. }
  fix IH 1. intros [b|b r] [b'|b' r'] g W W' S; cbn [same] in S; try tauto; cbn [wf] in W, W'; cbn [renumber_in tree_bs_d map].
  - now rewrite (B b b' g W W' S).
  - destruct S as [Sb Sr]. apply andb_true_iff in W as [W1 W2]. apply andb_true_iff in W' as [W1' W2']. rewrite (B b b' g W1 W1' Sb).
    destruct same_tree as (_ & ST & _ & _). destruct (ST b b' g W1 W1' Sb) as [_ ->]. rewrite (IH r r' _ W2 W2' Sr). reflexivity.
Qed.
Lemma same_ctree_d r r' : wf r = true -> wf r' = true -> same r r' -> ctree_d r = ctree_d r'.
Proof.
  intros W W' S. unfold ctree_d, renumber, tree_d. apply leaf_same. cbn [leaf]. f_equal. apply same_tree_d; assumption.
Qed.
