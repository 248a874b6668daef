(** Proofs for PropertiesGroup.v. *)
From Coq Require Import String ZArith NArith List Bool Lia ZifyBool ZifyNat ZifyN.
From Verif Require Import Base Text TextProofs Ast AstProofs Builder BuilderProofs Engine EngineProofs Api Spec Tree ParseProofs Supported Main Captures Wrap Spell SpecGroup.
Import ListNotations.
Open Scope nat_scope.

(** ** Wrappers that the optimiser removes *)
Fixpoint nf (n : node) : node :=
  match n with
  | Term t => Term t
  | SimpleV cs => match cs with [c] => nf c | _ => SimpleV (map nf cs) end
  | Simple m cs => match cs with [] => nf m | _ => Simple (nf m) (map nf cs) end
  | Greedy m a b cs => Greedy (nf m) a b (map nf cs)
  | Lazy m a b cs => Lazy (nf m) a b (map nf cs)
  | Possessive m a b cs => Possessive (nf m) a b (map nf cs)
  | Repeated m k cs => Repeated (nf m) k (map nf cs)
  | Group m i cs => Group (nf m) i (map nf cs)
  | Negated m => Negated (nf m)
  end.
Lemma wrap_lt n : (wrap32 n < 4294967296)%N.
Proof. unfold wrap32. apply N.mod_lt. lia. Qed.
Lemma wrap_id n : (n < 4294967296)%N -> wrap32 n = n.
Proof. intro H. unfold wrap32. now apply N.mod_small. Qed.
Lemma minl_lt l : Forall (fun x => (x < 4294967296)%N) l -> (minl l < 4294967296)%N.
Proof.
  intro H. destruct l as [|a l]; [cbn; lia|]. inversion H as [|? ? Ha Hl E]; subst. cbn [minl]. clear H. revert a Ha. induction Hl as [|b l Hb Hl IH]; intros a Ha; cbn [fold_left]; [exact Ha|]. apply IH. lia.
Qed.
Lemma nmin_lt n : (nmin n < 4294967296)%N.
Proof.
  induction n using node_ind'; cbn [nmin]; try apply wrap_lt; try assumption.
  - destruct t as [tok|s|a b| |]; cbn [term_min]; try lia; [destruct (term_kind tok); try lia|]; apply wrap_lt.
  - apply minl_lt. induction H; cbn [map]; constructor; assumption.
Qed.
Lemma nf_map {A} (f : node -> A) cs : Forall (fun c => f (nf c) = f c) cs -> map f (map nf cs) = map f cs.
Proof. induction 1 as [|c cs H _ IH]; [reflexivity|]. cbn [map]. now rewrite H, IH. Qed.
Lemma nf_min n : nmin (nf n) = nmin n.
Proof.
  induction n using node_ind'.
  - reflexivity.
  - destruct cs as [|c [|d cs]]; [reflexivity|now inversion H|]. change (nf (SimpleV (c :: d :: cs))) with (SimpleV (map nf (c :: d :: cs))). cbn [nmin]. now rewrite (nf_map nmin) by assumption.
  - destruct cs as [|c cs].
    + change (nf (Simple n [])) with (nf n). cbn [nmin map minl]. rewrite N.add_0_r, IHn, wrap_id; [reflexivity|apply nmin_lt].
    + change (nf (Simple n (c :: cs))) with (Simple (nf n) (map nf (c :: cs))). cbn [nmin]. now rewrite IHn, (nf_map nmin) by assumption.
  - cbn [nf nmin]. now rewrite IHn, (nf_map nmin) by assumption.
  - cbn [nf nmin]. now rewrite IHn, (nf_map nmin) by assumption.
  - cbn [nf nmin]. now rewrite IHn, (nf_map nmin) by assumption.
  - cbn [nf nmin]. now rewrite IHn.
  - exact IHn.
  - exact IHn.
Qed.
Lemma nf_adm n : nadm (nf n) = nadm n.
Proof.
  induction n using node_ind'.
  - reflexivity.
  - destruct cs as [|c [|d cs]]; [reflexivity|now inversion H|]. change (nf (SimpleV (c :: d :: cs))) with (SimpleV (map nf (c :: d :: cs))).
    change (nadm (SimpleV (map nf (c :: d :: cs)))) with (if N.eqb (nmin (nf c)) 0 then extract_adm (map nadm (map nf (c :: d :: cs))) else nadm (nf c)).
    rewrite nf_min, (nf_map nadm) by assumption. inversion H as [|? ? Hc _ E]; subst. rewrite Hc. reflexivity.
  - destruct cs as [|c cs]; [exact IHn|]. change (nf (Simple n (c :: cs))) with (Simple (nf n) (map nf (c :: cs))).
    change (nadm (Simple (nf n) (map nf (c :: cs)))) with (if N.eqb (nmin (nf n)) 0 then extract_adm (nadm (nf n) :: map nadm (map nf (c :: cs))) else nadm (nf n)).
    rewrite nf_min, IHn, (nf_map nadm) by assumption. reflexivity.
  - cbn [nf nadm]. now rewrite IHn, (nf_map nadm) by assumption.
  - cbn [nf nadm]. now rewrite IHn, (nf_map nadm) by assumption.
  - cbn [nf nadm]. now rewrite IHn, (nf_map nadm) by assumption.
  - exact IHn.
  - exact IHn.
  - cbn [nf nadm]. now rewrite IHn.
Qed.
Lemma nf_opt cs : Forall (fun n => forall inj, optimize (nf n) (map nf inj) = optimize n inj) cs ->
  map (fun c => optimize c []) (map nf cs) = map (fun c => optimize c []) cs.
Proof. induction 1 as [|c cs H _ IH]; [reflexivity|]. cbn [map]. rewrite IH. f_equal. exact (H []). Qed.
Lemma nf_adms l : map nadm (map nf l) = map nadm l.
Proof. apply nf_map. apply Forall_forall. intros. apply nf_adm. Qed.
Lemma nf_optimize n : forall inj, optimize (nf n) (map nf inj) = optimize n inj.
Proof.
  induction n using node_ind'; intro inj.
  - reflexivity.
  - destruct cs as [|c [|d cs]].
    + reflexivity.
    + inversion H as [|? ? Hc _ E]; subst. exact (Hc inj).
    + change (optimize (nf (SimpleV (c :: d :: cs))) (map nf inj)) with (SimpleV (map (fun c => optimize c []) (map nf (c :: d :: cs)))).
      rewrite nf_opt by assumption. reflexivity.
  - destruct cs as [|c cs].
    + exact (IHn inj).
    + change (optimize (nf (Simple n (c :: cs))) (map nf inj)) with (Simple (optimize (nf n) (map nf inj)) (map (fun c => optimize c []) (map nf (c :: cs)))).
      rewrite nf_opt by assumption. rewrite IHn. reflexivity.
  - cbn [nf optimize]. rewrite nf_opt by assumption. rewrite <- map_app, nf_adms, nf_adm. rewrite <- (IHn []). reflexivity.
  - change (nf (Lazy n a b cs)) with (Lazy (nf n) a b (map nf cs)). cbn [optimize].
    change (Lazy (nf n) a b (map nf cs)) with (nf (Lazy n a b cs)). rewrite nf_opt by assumption. rewrite <- map_app, nf_adms, nf_adm. rewrite <- (IHn []). reflexivity.
  - cbn [nf optimize]. rewrite nf_opt by assumption. rewrite <- (IHn []). reflexivity.
  - cbn [nf optimize]. rewrite nf_opt by assumption. rewrite <- (IHn []). reflexivity.
  - cbn [nf optimize]. rewrite nf_opt by assumption. rewrite <- map_app, IHn. reflexivity.
  - cbn [nf optimize]. rewrite <- (IHn []). reflexivity.
Qed.
Lemma nf_same n n' : nf n = nf n' -> optimize n [] = optimize n' [].
Proof. intro H. rewrite <- (nf_optimize n []), <- (nf_optimize n' []), H. reflexivity. Qed.

(** ** The trees of a pattern and of its stripped form *)
Lemma atom_simple a : caps_atom a = [] -> exists m, tree_atom a = Simple m [].
Proof. destruct a as [x|i r|r]; intro C; [|discriminate C|eexists; reflexivity]. destruct x as [| | |[]| |]; eexists; reflexivity. Qed.
Definition nf_seq (q : quant) (u : node) (o : option node) : node :=
  match q with
  | Q1 => match o with None => nf u | Some c => Simple (nf u) [nf c] end
  | QQ (QExact n) _ => Repeated (nf u) (Z.to_N (num_val n)) (match o with None => [] | Some c => [nf c] end)
  | QQ k g => let cs := match o with None => [] | Some c => [nf c] end in
      match g with Gr => Greedy (nf u) (kind_min k) (umax_of (kind_max k)) cs | Lz => Lazy (nf u) (kind_min k) (umax_of (kind_max k)) cs
      | Po => Possessive (nf u) (kind_min k) (umax_of (kind_max k)) cs end
  end.
Lemma nf_followed q m o : nf (followed (tree_quant q (Simple m [])) o) = nf_seq q (Simple m []) o.
Proof. destruct q as [|[] []], o as [c|]; reflexivity. Qed.
Lemma seq_nf q u v o o' : nf u = nf v -> option_map nf o = option_map nf o' -> nf_seq q u o = nf_seq q v o'.
Proof. intros E F. unfold nf_seq. rewrite E. destruct o, o'; cbn [option_map] in F; try discriminate; [injection F as ->|]; reflexivity. Qed.
Lemma strip_tree :
  (forall r, wf r = true -> caps r = [] -> map nf (tree_bs (strip r)) = map nf (tree_bs r) /\ wf (strip r) = true /\ caps (strip r) = [])
  /\ (forall b, wf_br b = true -> caps_br b = [] -> nf (tree_br (strip_br b)) = nf (tree_br b) /\ wf_br (strip_br b) = true /\ caps_br (strip_br b) = [])
  /\ (forall s, wf_sq s = true -> caps_sq s = [] -> option_map nf (tree_sq (strip_sq s)) = option_map nf (tree_sq s) /\ wf_sq (strip_sq s) = true /\ caps_sq (strip_sq s) = []
       /\ (strip_sq s = SNil <-> s = SNil))
  /\ (forall a, wf_atom a = true -> caps_atom a = [] -> nf (tree_atom (strip_atom a)) = nf (tree_atom a) /\ wf_atom (strip_atom a) = true /\ caps_atom (strip_atom a) = []).
Proof.
  apply rx_all_ind.
  - intros b IH W C. cbn [wf caps] in W, C. destruct (IH W C) as (E & W' & C'). cbn [strip tree_bs map wf caps]. rewrite E. auto.
  - intros b IHb r IHr W C. cbn [wf caps] in W, C. apply andb_true_iff in W as [W1 W2]. apply app_eq_nil in C as [C1 C2].
    destruct (IHb W1 C1) as (E & W' & C'). destruct (IHr W2 C2) as (E2 & W2' & C2'). cbn [strip tree_bs map wf caps]. rewrite E, E2, W', W2', C', C2'. auto.
  - intros a s IH W C. cbn [wf_br caps_br] in W, C. assert (Ws : wf_sq s = true) by (destruct s; [discriminate|exact W]). assert (NE : s <> SNil) by (intros ->; discriminate).
    destruct (IH Ws C) as (E & W' & C' & NI). cbn [strip_br tree_br wf_br caps_br]. assert (NE' : strip_sq s <> SNil) by tauto. conj; [|destruct (strip_sq s); [congruence|exact W']|exact C'].
    destruct (tree_sq (strip_sq s)) as [n|], (tree_sq s) as [n'|]; cbn [option_map] in E; try discriminate; destruct a; try reflexivity; injection E as E; cbn [followed app nf map]; now rewrite E.
  - intros _ _. cbn [strip_sq]. tauto.
  - intros a IHa q s IHs W C. cbn [wf_sq caps_sq] in W, C. rewrite !andb_true_iff in W. destruct W as [[Wa Wq] Ws]. apply app_eq_nil in C as [Ca Cs].
    destruct (IHa Wa Ca) as (Ea & Wa' & Ca'). destruct (IHs Ws Cs) as (Es & Ws' & Cs' & _). destruct (atom_simple a Ca) as [m Hm]. destruct (atom_simple _ Ca') as [m' Hm'].
    assert (K : strip_sq (SCons a q s) = SCons (strip_atom a) q (strip_sq s) \/ exists s0, strip_atom a = ANon (ROne (Br false s0)) /\ q = Q1 /\ s = SNil /\ strip_sq (SCons a q s) = s0).
    { cbn [strip_sq]. destruct (strip_atom a) as [x|i r|[[[] s0]|b r]]; auto. destruct q, s; auto. right. eauto. }
    destruct K as [->|(s0 & Hs & -> & -> & ->)].
    + cbn [tree_sq option_map wf_sq caps_sq]. rewrite Hm, Hm', !nf_followed, (seq_nf q (Simple m' []) (Simple m []) _ (tree_sq s)); [|now rewrite <- Hm, <- Hm'|exact Es].
      rewrite Wa', Wq, Ws', Ca', Cs'. conj; auto. split; discriminate.
    + rewrite Hs in *. cbn [wf_atom wf wf_br] in Wa'. cbn [caps_atom caps caps_br] in Ca'. assert (NE : s0 <> SNil) by (intros ->; discriminate). cbn [tree_sq tree_quant followed option_map].
      cbn [tree_atom tree_bs tree_br nf map] in Ea. rewrite <- Ea. destruct s0 as [|a0 q0 s0]; [congruence|]. conj; auto. split; [congruence|discriminate].
  - intros x W C. auto.
  - intros i r IH W C. discriminate C.
  - intros r IH W C. cbn [wf_atom caps_atom] in W, C. destruct (IH W C) as (E & W' & C').
    assert (T : forall r0, map nf (tree_bs r0) = map nf (tree_bs r) -> nf (tree_atom (ANon r0)) = nf (tree_atom (ANon r))).
    { intros r0 H. cbn [tree_atom]. change (nf (Simple (SimpleV (tree_bs r0)) [])) with (nf (SimpleV (tree_bs r0))). change (nf (Simple (SimpleV (tree_bs r)) [])) with (nf (SimpleV (tree_bs r))).
      destruct (tree_bs r0) as [|c [|d cs]], (tree_bs r) as [|c' [|d' cs']]; try discriminate H; try reflexivity; cbn [map] in H; [injection H as H; exact H|].
      change (SimpleV (nf c :: nf d :: map nf cs) = SimpleV (nf c' :: nf d' :: map nf cs')). now rewrite H. }
    assert (K : strip_atom (ANon r) = ANon (strip r) \/ exists a', strip r = ROne (Br false (SCons a' Q1 SNil)) /\ strip_atom (ANon r) = a').
    { cbn [strip_atom]. destruct (strip r) as [[[] [|a0 [] []]]|b r0]; eauto. }
    destruct K as [->|(a' & Hr & ->)].
    + conj; [now apply T|exact W'|exact C'].
    + rewrite Hr in *. cbn [wf wf_br wf_sq] in W'. rewrite !andb_true_iff in W'. cbn [caps caps_br caps_sq] in C'. rewrite app_nil_r in C'. conj; [|tauto|exact C'].
      rewrite <- (T _ E). reflexivity.
Qed.
Lemma strip_ctree r : wf r = true -> caps r = [] -> ctree (strip r) = ctree r.
Proof.
  intros W C. destruct (proj1 strip_tree r W C) as (E & W' & C'). unfold ctree, renumber. rewrite !(proj1 renumber_id) by assumption. apply nf_same. unfold tree.
  destruct (tree_bs (strip r)) as [|c [|d cs]], (tree_bs r) as [|c' [|d' cs']]; try discriminate E; try reflexivity; cbn [map] in E; [injection E as E; exact E|].
  change (SimpleV (nf c :: nf d :: map nf cs) = SimpleV (nf c' :: nf d' :: map nf cs')). now rewrite E.
Qed.

(** ** Alternatives in a group *)
Section Alts.
Variable e : env.
Definition kid (n : node) : list clo -> clo := fun i => mt e n i.
Definition opt0 (cs : list node) : list node := map (fun c => optimize c []) cs.
Lemma dfs_flat : forall l2 l3 s, l2 <> [] -> dfs ((fun i => dfs l2 i) :: l3) [] s = dfs (l2 ++ l3) [] s.
Proof.
  induction l2 as [|c l2 IH]; intros l3 s NE; [congruence|]. destruct l3 as [|d l3]; [now rewrite app_nil_r|].
  destruct l2 as [|c2 l2]; [reflexivity|]. change ((c :: c2 :: l2) ++ d :: l3) with (c :: (c2 :: l2) ++ d :: l3).
  change (dfs ((fun i => dfs (c :: c2 :: l2) i) :: d :: l3) [] s)
    with (bind (bind (c [] s) (fun s1 => if s_acc s1 then Ok s1 else dfs (c2 :: l2) [] (set_acc true s1))) (fun s1 => if s_acc s1 then Ok s1 else dfs (d :: l3) [] (set_acc true s1))).
  change (dfs (c :: (c2 :: l2) ++ d :: l3) [] s) with (bind (c [] s) (fun s1 => if s_acc s1 then Ok s1 else dfs ((c2 :: l2) ++ d :: l3) [] (set_acc true s1))).
  destruct (c [] s) as [s1|]; [|reflexivity]. cbn [bind]. destruct (s_acc s1) eqn:A; [cbn [bind]; now rewrite A|]. rewrite <- IH by discriminate. reflexivity.
Qed.
Lemma dfs_prefix l x y : x <> [] -> y <> [] -> (forall s, dfs x [] s = dfs y [] s) -> forall s, dfs (l ++ x) [] s = dfs (l ++ y) [] s.
Proof.
  intros Nx Ny H. induction l as [|c l IH]; intro s; [apply H|]. cbn [app].
  assert (K : forall z, z <> [] -> dfs (c :: l ++ z) [] s = bind (c [] s) (fun s1 => if s_acc s1 then Ok s1 else dfs (l ++ z) [] (set_acc true s1))).
  { intros z Nz. destruct (l ++ z) eqn:E; [apply app_eq_nil in E as [_ E]; congruence|reflexivity]. }
  rewrite !K by assumption. destruct (c [] s) as [s1|]; [|reflexivity]. cbn [bind]. destruct (s_acc s1); [reflexivity|]. apply IH.
Qed.
Lemma opt_group q : tree_bs q <> [] -> exists n, optimize (tree_br (group q)) [] = n /\ forall i s, mt e n i s = dfs (map kid (opt0 (tree_bs q))) i s.
Proof.
  intro NE. eexists. split; [reflexivity|]. intros i s. unfold group. cbn [tree_br tree_sq tree_quant tree_atom followed].
  change (optimize (Simple (SimpleV (tree_bs q)) []) []) with (optimize (SimpleV (tree_bs q)) []). destruct (tree_bs q) as [|c [|d cs]]; [congruence|reflexivity|].
  reflexivity.
Qed.
End Alts.
Lemma tree_alt p q : tree_bs (alt p q) = tree_bs p ++ tree_bs q.
Proof. induction p as [b|b p IH]; cbn [alt tree_bs app]; [reflexivity|now rewrite IH]. Qed.
Lemma bs_nonempty q : tree_bs q <> [].
Proof. destruct q; discriminate. Qed.
Lemma alt_wf p q : wf (alt p q) = wf p && wf q.
Proof. induction p as [b|b p IH]; cbn [alt wf]; [reflexivity|rewrite IH; now rewrite andb_assoc]. Qed.
Lemma alt_caps p q : caps (alt p q) = caps p ++ caps q.
Proof. induction p as [b|b p IH]; cbn [alt caps]; [reflexivity|rewrite IH; now rewrite app_assoc]. Qed.
(** The compiled form of two or more alternatives without captures. *)
Lemma alts_ctree r c d cs : caps r = [] -> tree_bs r = c :: d :: cs -> ctree r = SimpleV (opt0 (tree_bs r)).
Proof. intros C E. unfold ctree, renumber. rewrite (proj1 renumber_id) by exact C. unfold tree. rewrite E. reflexivity. Qed.
Lemma alts_mt e r r' l q t : caps r = [] -> caps r' = [] -> wf q = true ->
  tree_bs r = l ++ tree_br (group q) :: t -> tree_bs r' = l ++ tree_bs q ++ t -> l <> [] \/ t <> [] ->
  forall s, mt e (ctree r) [] s = mt e (ctree r') [] s.
Proof.
  intros C C' W E E' NE s. pose proof (bs_nonempty q) as NQ.
  assert (L : exists c d cs, tree_bs r = c :: d :: cs) by (rewrite E; destruct NE; [destruct l as [|c [|d l]]; [congruence|..]; cbn; eauto|destruct t as [|x t]; [congruence|]; destruct l as [|c [|d l]]; cbn; eauto]).
  assert (L' : exists c d cs, tree_bs r' = c :: d :: cs).
  { rewrite E'. destruct (tree_bs q) as [|y q0]; [congruence|]. destruct NE; [destruct l as [|c [|d l]]; [congruence|..]; cbn; eauto|destruct t as [|x t]; [congruence|]; destruct l as [|c [|d l]]; cbn; eauto].
    destruct q0; cbn; eauto. }
  destruct L as (c & d & cs & L), L' as (c' & d' & cs' & L'). rewrite (alts_ctree r _ _ _ C L), (alts_ctree r' _ _ _ C' L'), E, E'. cbn [mt].
  destruct (opt_group e q NQ) as (n & On & Mn). unfold opt0. rewrite !map_app. cbn [map]. rewrite On.
  apply dfs_prefix; [discriminate|destruct (tree_bs q); [congruence|discriminate]|]. clear s. intro s.
  rewrite <- (dfs_flat (map (fun c0 i => mt e c0 i) (map (fun c0 => optimize c0 []) (tree_bs q)))) by (destruct (tree_bs q); [congruence|discriminate]).
  cbn [dfs]. destruct (map (fun c0 (i : list clo) => mt e c0 i) (map (fun c0 => optimize c0 []) t)); [apply Mn|]. now rewrite Mn.
Qed.
