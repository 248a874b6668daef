(** Patterns that need one character of lookahead (SpecLL.v): the optimiser and the matcher
    handle them as specified. *)
From Coq Require Import ZArith NArith List Bool Lia ZifyBool ZifyNat ZifyN.
From Verif Require Import Base Text Ast Builder BuilderProofs Engine Spec SpecProofs Tree ParseProofs Den Checker AstProofs EngineOk Captures MinSize Mono Supported Main Heads Families SpecFields Fields SpecChoice Choice SpecLL.
Import ListNotations.
Open Scope nat_scope.
Notation det := Checker.det.
Notation eats := Checker.eats.

(** * Trees *)
Definition core (a : atom) : node := match a with AEl x => body x | ACap _ r => SimpleV (tree_bs r) | ANon r => SimpleV (tree_bs r) end.
Definition unitn (a : atom) (q : quant) (cs : list node) : node :=
  match q with
  | Q1 => match a with ACap i _ => Group (core a) i cs | _ => Simple (core a) cs end
  | QQ (QExact n) _ => Repeated (tree_atom a) (Z.to_N (num_val n)) cs
  | QQ k Gr => Greedy (tree_atom a) (kind_min k) (umax_of (kind_max k)) cs
  | QQ k Lz => Lazy (tree_atom a) (kind_min k) (umax_of (kind_max k)) cs
  | QQ k Po => Possessive (tree_atom a) (kind_min k) (umax_of (kind_max k)) cs
  end.
Lemma tree_unit a q s : tree_sq (SCons a q s) = Some (unitn a q (kids (tree_sq s))).
Proof.
  cbn [tree_sq]. f_equal. destruct q as [|k g].
  - cbn [tree_quant unitn]. destruct a as [x|i r|r]; cbn [tree_atom core]; [rewrite tree_body|..]; destruct (tree_sq s); reflexivity.
  - destruct k, g; cbn [tree_quant unitn pol_of mkq]; destruct (tree_sq s); reflexivity.
Qed.
Definition wrap (a : atom) (m : node) : node := match a with ACap i _ => Group m i [] | _ => m end.
Lemma tree_core a : tree_atom a = match a with ACap i _ => Group (core a) i [] | _ => Simple (core a) [] end.
Proof. destruct a as [x|i r|r]; cbn [tree_atom core]; [apply tree_body|reflexivity|reflexivity]. Qed.
Lemma opt_atom a : optimize (tree_atom a) [] = wrap a (optimize (core a) []).
Proof. rewrite tree_core. destruct a; reflexivity. Qed.

(** * The conditions that do not depend on what follows *)
Fixpoint shape (r : rx) : bool :=
  match r with ROne b => shape_br b | ROr b r' => shape_br b && shape r' end
with shape_br (b : br) : bool := match b with Br a s => negb a && negb (empties s) && shape_sq s end
with shape_sq (s : sq) : bool :=
  match s with
  | SNil => true
  | SCons a q s' => shape_atom a && quant_ok q && match q with Q1 => true | QQ k g => often k g end && shape_sq s'
  end
with shape_atom (a : atom) : bool :=
  match a with AEl x => field_elem x | ACap _ r => (weight r <? 4294967296)%N && shape r | ANon r => (weight r <? 4294967296)%N && shape r end.
Lemma ll_shape :
  (forall r fol inj, wf r = true -> ll r fol inj = true -> shape r = true) /\
  (forall b fol inj, wf_br b = true -> ll_br b fol inj = true -> shape_br b = true) /\
  (forall s fol inj, wf_sq s = true -> ll_sq s fol inj = true -> shape_sq s = true) /\
  (forall a fol inj, wf_atom a = true -> ll_atom a fol inj = true -> shape_atom a = true).
Proof.
  apply rx_all_ind; cbn [wf wf_br wf_sq wf_atom ll ll_br ll_sq ll_atom shape shape_br shape_sq shape_atom].
  - eauto.
  - intros b Hb r Hr fol inj W H. apply andb_true_iff in W as [W1 W2]. apply andb_true_iff in H as [H H2]. apply andb_true_iff in H as [_ H1]. rewrite (Hb _ _ W1 H1). exact (Hr _ _ W2 H2).
  - intros a s Hs fol inj W H. rewrite !andb_true_iff in H. destruct H as [[-> ->] H]. apply (Hs fol inj); [destruct s; [reflexivity|exact W]|exact H].
  - reflexivity.
  - intros a Ha q s Hs fol inj W H. rewrite !andb_true_iff in W. destruct W as [[W1 W2] W3]. cbv zeta in H. apply andb_true_iff in H as [H1 H2]. rewrite W2, (Hs _ _ W3 H1).
    destruct q as [|k g]; [now rewrite (Ha _ _ W1 H2)|]. rewrite !andb_true_iff in H2. destruct H2 as [[H2 H3] _]. now rewrite (Ha _ _ W1 H3), H2.
  - intros x fol inj _ H. exact H.
  - intros i r Hr fol inj W H. apply andb_true_iff in H as [-> H]. exact (Hr _ _ W H).
  - intros r Hr fol inj W H. apply andb_true_iff in H as [-> H]. exact (Hr _ _ W H).
Qed.
Lemma often_max k g : quant_ok (QQ k g) = true -> often k g = true -> (kind_min k <= umax_of (kind_max k))%N /\ umax_of (kind_max k) <> 0%N.
Proof.
  assert (NB : forall n, num_ok n = true -> (Z.to_N (num_val n) < 4294967295)%N) by (intros n Hn; unfold num_ok in Hn; rewrite !andb_true_iff in Hn; lia).
  destruct k as [| | |n|n|n m]; cbn [quant_ok kind_ok often kind_min kind_max umax_of]; intros Q O; try (split; [|discriminate]; unfold UMAX; lia).
  - rewrite andb_true_iff in Q. lia.
  - specialize (NB n Q). unfold UMAX. lia.
  - rewrite !andb_true_iff in Q. rewrite andb_true_iff in O. lia.
Qed.
Lemma often_exact n g : often (QExact n) g = true -> Z.to_N (num_val n) <> 0%N.
Proof. cbn [often]. lia. Qed.

(** * Sizes *)
Lemma minl_low l : l <> [] -> (forall x, In x l -> (1 <= x)%N) -> (1 <= minl l)%N.
Proof.
  destruct l as [|a l]; [congruence|]. intros _ H. cbn [minl]. assert (A : (1 <= a)%N) by (apply H; now left). assert (B : forall x, In x l -> (1 <= x)%N) by (intros x Hx; apply H; now right). clear H. revert a A.
  induction l as [|b l IH]; intros a A; cbn [fold_left]; [exact A|]. apply IH; [intros x Hx; apply B; now right|]. specialize (B b (or_introl eq_refl)). lia.
Qed.
Lemma wrap_small x : (x < 4294967296)%N -> wrap32 x = x.
Proof. intro H. unfold wrap32. now apply N.mod_small. Qed.
Lemma field_ok x : field_elem x = true -> eok x = true.
Proof.
  unfold field_elem, eok. rewrite !andb_true_iff. intros [A B]. split; [exact A|]. destruct x as [| | |[] items| |]; try reflexivity; cbn [fine] in *; [|exact B]. apply andb_true_iff in B as [B _]. exact B.
Qed.
Lemma body_min x : field_elem x = true -> nmin (body x) = 1%N.
Proof. intro H. rewrite <- (optimize_nmin (body x) []). exact (ou_min _ _ (eok_unit x (field_ok x H))). Qed.
Lemma tree_bs_nil r : tree_bs r <> [].
Proof. destruct r; discriminate. Qed.
Lemma minl_cons2 x l : (minl (x :: l) <= x)%N.
Proof. apply minl_le. now left. Qed.
Definition kmin (cs : list node) : N := minl (map nmin cs).
Lemma kmin_kids t : kmin (kids t) = match t with Some n => nmin n | None => 0%N end.
Proof. destruct t; reflexivity. Qed.
Lemma sizes :
  (forall r, shape r = true -> (weight r < 4294967296)%N -> forall n, In n (tree_bs r) -> (1 <= nmin n <= weight r)%N) /\
  (forall b, shape_br b = true -> (weight_br b < 4294967296)%N -> (1 <= nmin (tree_br b) <= weight_br b)%N) /\
  (forall s, shape_sq s = true -> (weight_sq s < 4294967296)%N -> (kmin (kids (tree_sq s)) <= weight_sq s /\ (empties s = false -> 1 <= kmin (kids (tree_sq s))))%N) /\
  (forall a, shape_atom a = true -> (1 <= nmin (core a) <= weight_atom a)%N /\ nmin (tree_atom a) = nmin (core a) /\ (weight_atom a < 4294967296)%N).
Proof.
  apply rx_all_ind; cbn [shape shape_br shape_sq shape_atom weight weight_br weight_sq weight_atom].
  - intros b Hb H W n [<-|[]]. now apply Hb.
  - intros b Hb r Hr H W n Hn. apply andb_true_iff in H as [H1 H2]. destruct Hn as [<-|Hn]; [specialize (Hb H1 ltac:(lia)); lia|specialize (Hr H2 ltac:(lia) n Hn); lia].
  - intros a s Hs H W. rewrite !andb_true_iff, !negb_true_iff in H. destruct H as [[-> E] H]. destruct (Hs H W) as [A B]. cbn [tree_br]. specialize (B E). rewrite kmin_kids in A, B.
    destruct (tree_sq s); [lia|]. cbn in B. lia.
  - intros _ _. split; [reflexivity|discriminate].
  - intros a Ha q s Hs H W. rewrite !andb_true_iff in H. destruct H as [[[H1 H2] H3] H4]. destruct (Ha H1) as (A & A' & _). pose proof (N.le_0_l (weight_atom a * least q)) as Z0. destruct (Hs H4 ltac:(lia)) as [B C]. rewrite tree_unit. cbn [kids]. change (kmin [unitn a q (kids (tree_sq s))]) with (nmin (unitn a q (kids (tree_sq s)))).
    set (K := kmin (kids (tree_sq s))) in *. cbn [empties].
    assert (M : forall mn, (weight_atom a * mn + weight_sq s < 4294967296)%N -> (wrap32 (nmin (tree_atom a) * mn + K) <= weight_atom a * mn + weight_sq s /\ ((mn =? 0)%N && empties s = false -> 1 <= wrap32 (nmin (tree_atom a) * mn + K)))%N).
    { intros mn Wm. assert (L : (nmin (tree_atom a) * mn <= weight_atom a * mn)%N) by (apply N.mul_le_mono_r; lia). rewrite wrap_small by lia. split; [lia|]. intro X. apply andb_false_iff in X as [X|X]; [|specialize (C X); lia].
      assert (1 * 1 <= nmin (tree_atom a) * mn)%N by (apply N.mul_le_mono; lia). lia. }
    destruct q as [|k g].
    + cbn [unitn least skips] in *. rewrite N.mul_1_r in *. destruct a as [x|i r|r].
      * cbn [nmin]. change (minl (map nmin (kids (tree_sq s)))) with K. destruct (M 1%N ltac:(lia)) as [M1 M2]. rewrite A' in *. rewrite N.mul_1_r in *. split; [lia|]. intros _. apply M2. reflexivity.
      * cbn [nmin]. split; [lia|intros; lia].
      * cbn [nmin]. change (minl (map nmin (kids (tree_sq s)))) with K. destruct (M 1%N ltac:(lia)) as [M1 M2]. rewrite A' in *. rewrite N.mul_1_r in *. split; [lia|]. intros _. apply M2. reflexivity.
    + cbn [least skips] in *. assert (G : forall n, n = wrap32 (nmin (tree_atom a) * kind_min k + K) -> (n <= weight_atom a * kind_min k + weight_sq s /\ ((kind_min k =? 0)%N && empties s = false -> 1 <= n))%N) by (intros n ->; now apply M).
      destruct k as [| | |n|n|n m]; try (destruct g; [apply G; reflexivity|apply G; reflexivity|apply G; reflexivity]).
      cbn [unitn nmin kind_min]. pose proof (often_exact n g H3) as Nz. cbn [kind_min] in W. set (t := Z.to_N (num_val n)) in *. assert (L : (nmin (tree_atom a) * t <= weight_atom a * t)%N) by (apply N.mul_le_mono_r; lia). rewrite wrap_small by lia. split; [lia|]. intros _.
      assert (1 * 1 <= nmin (tree_atom a) * t)%N by (apply N.mul_le_mono; lia). lia.
  - intros x H. cbn [core]. rewrite (body_min x H). split; [lia|]. split; [|lia]. cbn [tree_atom]. rewrite tree_body. cbn [nmin map minl]. now rewrite (body_min x H).
  - intros i r Hr H. apply andb_true_iff in H as [H1 H2]. apply N.ltb_lt in H1. specialize (Hr H2 H1). cbn [core tree_atom nmin]. split; [|split; [reflexivity|exact H1]]. split.
    + apply minl_low; [destruct r; discriminate|]. intros x Hx. apply in_map_iff in Hx as (n & <- & Hn). apply Hr, Hn.
    + destruct (tree_bs r) as [|n l] eqn:E; [now apply tree_bs_nil in E|]. specialize (Hr n (or_introl eq_refl)). pose proof (minl_cons2 (nmin n) (map nmin l)). cbn [map]. lia.
  - intros r Hr H. apply andb_true_iff in H as [H1 H2]. apply N.ltb_lt in H1. specialize (Hr H2 H1).
    assert (X : (1 <= minl (map nmin (tree_bs r)) <= weight r)%N). { split.
    + apply minl_low; [destruct r; discriminate|]. intros x Hx. apply in_map_iff in Hx as (n & <- & Hn). apply Hr, Hn.
    + destruct (tree_bs r) as [|n l] eqn:E; [now apply tree_bs_nil in E|]. specialize (Hr n (or_introl eq_refl)). pose proof (minl_cons2 (nmin n) (map nmin l)). cbn [map]. lia. }
    cbn [core tree_atom nmin map minl]. split; [exact X|]. split; [|exact H1]. rewrite N.add_0_r. apply wrap_small. lia.
Qed.

(** * First characters: what the library computes *)
Lemma alt_adm l c : In c (nadm (SimpleV l)) -> exists n, In n l /\ In c (nadm n).
Proof.
  destruct l as [|a [|b l]]; cbn [nadm]; [intros []|intro H; exists a; split; [now left|exact H]|].
  destruct (_ =? _)%N; intro H; [|exists a; split; [now left|exact H]]. apply extract_in in H as (s & Hs & H). apply in_map_iff in Hs as (n & <- & Hn). eauto.
Qed.
Definition okc (b : bool) (c : chr) : Prop := b = true /\ (-128 <= c <= 127)%Z.
Lemma okc_l a b c : okc a c -> okc (a || b) c.
Proof. intros [-> R]. split; [reflexivity|exact R]. Qed.
Lemma okc_r a b c : okc b c -> okc (a || b) c.
Proof. intros [-> R]. split; [apply orb_true_r|exact R]. Qed.
Lemma kids_adm t c (S : chr -> bool) : (forall n, t = Some n -> In c (nadm n) -> okc (S c) c) -> forall s, In s (map nadm (kids t)) -> In c s -> okc (S c) c.
Proof. destruct t as [n|]; intros H s Hs Hc; [|destruct Hs]. destruct Hs as [<-|[]]. now apply (H n). Qed.
Lemma adms :
  (forall r, shape r = true -> forall n c, In n (tree_bs r) -> In c (nadm n) -> okc (first r c) c) /\
  (forall b, shape_br b = true -> forall c, In c (nadm (tree_br b)) -> okc (first_br b c) c) /\
  (forall s, shape_sq s = true -> forall n c, tree_sq s = Some n -> In c (nadm n) -> okc (first_sq s c) c) /\
  (forall a, shape_atom a = true -> forall c, (In c (nadm (core a)) -> okc (first_atom a c) c) /\ nadm (tree_atom a) = nadm (core a)).
Proof.
  apply rx_all_ind; cbn [shape shape_br shape_sq shape_atom first first_br first_sq first_atom].
  - intros b Hb H n c [<-|[]]. now apply Hb.
  - intros b Hb r Hr H n c Hn Hc. apply andb_true_iff in H as [H1 H2]. destruct Hn as [<-|Hn]; [apply okc_l; now apply Hb|apply okc_r; now apply (Hr H2 n)].
  - intros a s Hs H c Hc. rewrite !andb_true_iff, !negb_true_iff in H. destruct H as [[-> E] H]. cbn [tree_br] in Hc. destruct (tree_sq s) as [n|] eqn:T; [now apply (Hs H n)|destruct Hc].
  - discriminate.
  - intros a Ha q s Hs H n c E Hc. pose proof (proj2 (proj2 (proj2 sizes)) a) as Sz. rewrite !andb_true_iff in H. destruct H as [[[H1 H2] H3] H4]. rewrite tree_unit in E. injection E as <-. destruct (Ha H1 c) as [A A']. specialize (Sz H1). specialize (Hs H4).
    pose proof (kids_adm (tree_sq s) c (first_sq s) (fun n E => Hs n c E)) as K.
    assert (M : forall mn, In c (if N.eqb mn 0 then extract_adm (nadm (tree_atom a) :: map nadm (kids (tree_sq s))) else nadm (tree_atom a)) -> okc (first_atom a c || (mn =? 0)%N && first_sq s c) c).
    { intros mn X. destruct (mn =? 0)%N; [|apply okc_l, A; now rewrite <- A']. apply extract_in in X as (z & [<-|Hz] & X); [apply okc_l, A; now rewrite <- A'|apply okc_r; cbn [andb]; now apply (K z)]. }
    destruct q as [|k g].
    + apply okc_l, A. assert (Z : (nmin (core a) =? 0)%N = false) by (apply N.eqb_neq; lia). destruct a as [x|i r|r]; cbn [unitn nadm] in Hc; [|exact Hc|].
      * destruct (kids (tree_sq s)); [exact Hc|]. rewrite Z in Hc. exact Hc.
      * destruct (kids (tree_sq s)); [exact Hc|]. rewrite Z in Hc. exact Hc.
    + cbn [skips]. specialize (M (kind_min k)). destruct k as [| | |n|n|n m]; try (destruct g; exact (M Hc)).
      cbn [unitn nadm] in Hc. apply okc_l, A. now rewrite <- A'.
  - intros x H c. cbn [core]. split; [intro X; split; [now apply body_adm|now apply (body_range x)]|]. cbn [tree_atom]. now rewrite tree_body.
  - intros i r Hr H c. apply andb_true_iff in H as [_ H]. cbn [core]. split; [|reflexivity]. intro X. apply alt_adm in X as (n & Hn & X). now apply (Hr H n).
  - intros r Hr H c. apply andb_true_iff in H as [_ H]. cbn [core]. split; [|reflexivity]. intro X. apply alt_adm in X as (n & Hn & X). now apply (Hr H n).
Qed.

(** * First characters: what the analysis computes *)
Definition hd_in (n : node) (S : chr -> bool) : Prop := exists Q l, fst (pre n) = Q :: l /\ forall c, Q c = true -> S c = true.
Lemma hd_sub n (S S' : chr -> bool) : (forall c, S c = true -> S' c = true) -> hd_in n S -> hd_in n S'.
Proof. intros H (Q & l & E & X). exists Q, l. auto. Qed.
Lemma hd_nonnull n S : hd_in n S -> nonnull n = true.
Proof. intros (Q & l & E & _). unfold nonnull. now rewrite E. Qed.
Lemma pre_uset n P : uset n = Some P -> pre n = ([P], true).
Proof. intro H. destruct n; cbn [pre]; rewrite H; reflexivity. Qed.
Lemma hd_simple m cs S : hd_in m S -> hd_in (Simple m cs) S.
Proof.
  intros (Q & l & E & X). destruct (uset (Simple m cs)) as [P|] eqn:U.
  - cbn [uset] in U. destruct cs; [|discriminate]. pose proof (pre_uset _ _ U) as Y. rewrite Y in E. injection E as <- <-. exists P, []. split; [|exact X]. apply (f_equal fst) with (y := ([P], true)). now apply pre_uset.
  - assert (Y : pre (Simple m cs) = seqp (pre m) (orsp (map pre cs))) by (cbn [pre]; rewrite U; reflexivity). destruct (seqp_head (pre m) (orsp (map pre cs)) Q l E) as (l' & Z). exists Q, l'. rewrite Y. auto.
Qed.
Lemma hd_group m i cs S : hd_in m S -> hd_in (Group m i cs) S.
Proof. intros (Q & l & E & X). destruct (seqp_head (pre m) (orsp (map pre cs)) Q l E) as (l' & Z). exists Q, l'. split; [exact Z|exact X]. Qed.
Lemma powp_hd k p Q l : fst p = Q :: l -> k <> 0 -> exists l', fst (powp k p) = Q :: l'.
Proof. intros E K. destruct k as [|k]; [congruence|]. cbn [powp]. now apply (seqp_head _ _ _ l). Qed.
Lemma minp_hd k p Q l : fst p = Q :: l -> k <> 0%N -> exists l', minp k p = Q :: l'.
Proof. intros E K. unfold minp. apply (powp_hd _ _ _ l E). lia. Qed.
Lemma hd_repeated m k cs S : k <> 0%N -> hd_in m S -> hd_in (Repeated m k cs) S.
Proof.
  intros K (Q & l & E & X). unfold hd_in. cbn [pre uset]. destruct (k <=? 8)%N.
  - destruct (powp_hd (N.to_nat k) _ _ _ E ltac:(lia)) as (l' & Y). destruct (seqp_head _ (orsp (map pre cs)) _ _ Y) as (l2 & Z). eauto.
  - destruct (minp_hd k _ _ _ E K) as (l' & Y). cbn [fst]. eauto.
Qed.
Lemma hd_loop m mn mx cs S : mn <> 0%N -> hd_in m S -> hd_in (Greedy m mn mx cs) S /\ hd_in (Possessive m mn mx cs) S /\ hd_in (Lazy m mn mx cs) S.
Proof.
  intros K (Q & l & E & X). apply N.eqb_neq in K as K'. destruct (minp_hd mn _ _ _ E K) as (l' & Y). unfold hd_in. cbn [pre uset]. rewrite K'. cbn [fst]. rewrite Y. split; [|split]; eauto.
Qed.
Lemma hd_opt m mx c S : hd_in m S -> hd_in c S -> hd_in (Greedy m 0 mx [c]) S /\ hd_in (Possessive m 0 mx [c]) S /\ hd_in (Lazy m 0 mx [c]) S.
Proof.
  intros (Q & l & E & X) (Q' & l' & E' & X'). unfold hd_in. cbn [pre uset N.eqb fst map orsp]. rewrite E, E'. cbn [zipu firstn].
  assert (Y : forall c, Q c || Q' c = true -> S c = true) by (intros y Hy; apply orb_true_iff in Hy as [|]; auto). split; [|split]; eauto.
Qed.
Lemma orsp_hd l (S : chr -> bool) : l <> [] -> (forall p, In p l -> exists Q t, fst p = Q :: t /\ forall c, Q c = true -> S c = true) -> exists Q t, fst (orsp l) = Q :: t /\ forall c, Q c = true -> S c = true.
Proof.
  induction l as [|a l IH]; [congruence|]. intros _ H. destruct (H a (or_introl eq_refl)) as (Q & t & E & X). destruct l as [|b l]; [cbn [orsp]; eauto|].
  destruct (IH ltac:(discriminate) ltac:(intros p Hp; apply H; now right)) as (Q' & t' & E' & X'). change (orsp (a :: b :: l)) with (orp a (orsp (b :: l))). unfold orp. cbn [fst]. rewrite E, E'. cbn [zipu].
  eexists _, _. split; [reflexivity|]. intros c Hc. cbv beta in Hc. apply orb_true_iff in Hc as [|]; auto.
Qed.
Lemma usets_hd cs : forall P (S : chr -> bool), usets (map uset cs) = Some P -> (forall n, In n cs -> hd_in n S) -> forall c, P c = true -> S c = true.
Proof.
  induction cs as [|a cs IH]; intros P S U H c Hc; [discriminate|]. assert (A : forall P, uset a = Some P -> forall c, P c = true -> S c = true).
  { intros P' U' y Hy. destruct (H a (or_introl eq_refl)) as (Q & l & E & X). rewrite (pre_uset _ _ U') in E. injection E as <- <-. auto. }
  destruct cs as [|b cs]; [cbn [map usets] in U; now apply (A P)|]. change (match uset a, usets (map uset (b :: cs)) with Some P, Some Q => Some (fun x => P x || Q x) | _, _ => None end = Some P) in U.
  destruct (uset a) as [P1|]; [|discriminate]. destruct (usets (map uset (b :: cs))) as [P2|] eqn:U2; [|discriminate]. injection U as <-. apply orb_true_iff in Hc as [Hc|Hc]; [now apply (A P1)|].
  apply (IH P2 S eq_refl); [intros n Hn; apply H; now right|exact Hc].
Qed.
Lemma hd_alts cs S : cs <> [] -> (forall n, In n cs -> hd_in n S) -> hd_in (SimpleV cs) S.
Proof.
  intros N H. destruct (usets (map uset cs)) as [P|] eqn:U.
  - exists P, []. split; [|now apply (usets_hd cs P S U)]. rewrite (pre_uset (SimpleV cs) P); [reflexivity|exact U].
  - unfold hd_in. cbn [pre uset]. rewrite U. apply orsp_hd; [destruct cs; [congruence|discriminate]|]. intros p Hp. apply in_map_iff in Hp as (n & <- & Hn). exact (H n Hn).
Qed.

(** ** Of the trees *)
Lemma hd_body x : field_elem x = true -> hd_in (body x) (wide x).
Proof. intro H. unfold field_elem in H. apply andb_true_iff in H as [H _]. destruct (pre_unit x H) as (P & E & X). exists P, []. rewrite E. split; [reflexivity|]. intros c Hc. apply elem_wide. now rewrite <- X. Qed.
Lemma hd_tree_atom a S : hd_in (core a) S -> hd_in (tree_atom a) S.
Proof. intro H. rewrite tree_core. destruct a; [now apply hd_simple|now apply hd_group|now apply hd_simple]. Qed.
Lemma hds :
  (forall r, shape r = true -> forall n, In n (tree_bs r) -> hd_in n (first r)) /\
  (forall b, shape_br b = true -> hd_in (tree_br b) (first_br b)) /\
  (forall s, shape_sq s = true -> empties s = false -> exists n, tree_sq s = Some n /\ hd_in n (first_sq s)) /\
  (forall a, shape_atom a = true -> hd_in (core a) (first_atom a)).
Proof.
  apply rx_all_ind; cbn [shape shape_br shape_sq shape_atom].
  - intros b Hb H n [<-|[]]. now apply Hb.
  - intros b Hb r Hr H n Hn. apply andb_true_iff in H as [H1 H2]. destruct Hn as [<-|Hn].
    + apply (hd_sub _ (first_br b)); [cbn [first]; intros c ->; reflexivity|now apply Hb].
    + apply (hd_sub _ (first r)); [cbn [first]; intros c ->; apply orb_true_r|now apply Hr].
  - intros a s Hs H. rewrite !andb_true_iff, !negb_true_iff in H. destruct H as [[-> E] H]. destruct (Hs H E) as (n & T & X). cbn [tree_br]. now rewrite T.
  - intros _ E. discriminate E.
  - intros a Ha q s Hs H E. rewrite !andb_true_iff in H. destruct H as [[[H1 H2] H3] H4]. rewrite tree_unit. eexists. split; [reflexivity|]. specialize (Ha H1). specialize (Hs H4).
    assert (A : hd_in (core a) (first_sq (SCons a q s))) by (apply (hd_sub _ (first_atom a)); [cbn [first_sq]; intros c ->; reflexivity|exact Ha]). pose proof (hd_tree_atom _ _ A) as A'.
    destruct q as [|k g]; [destruct a; [now apply hd_simple|now apply hd_group|now apply hd_simple]|].
    assert (M : forall mx, let cs := kids (tree_sq s) in let m := tree_atom a in let S := first_sq (SCons a (QQ k g) s) in hd_in (Greedy m (kind_min k) mx cs) S /\ hd_in (Possessive m (kind_min k) mx cs) S /\ hd_in (Lazy m (kind_min k) mx cs) S).
    { intros mx cs m S. destruct (N.eq_dec (kind_min k) 0) as [Z|Z]; [|now apply hd_loop]. cbn [empties skips] in E. rewrite Z in E. cbn [N.eqb andb] in E. destruct (Hs E) as (n & T & X). unfold cs. rewrite T, Z. cbn [kids]. apply hd_opt; [exact A'|].
      apply (hd_sub _ (first_sq s)); [|exact X]. intros c Hc. unfold S. cbn [first_sq skips]. rewrite Z, Hc. apply orb_true_r. }
    specialize (M (umax_of (kind_max k))). cbv zeta in M. destruct M as (M1 & M2 & M3). destruct k as [| | |n|n|n m]; try (destruct g; assumption).
    cbn [unitn]. apply hd_repeated; [exact (often_exact n g H3)|exact A'].
  - intros x H. now apply hd_body.
  - intros i r Hr H. apply andb_true_iff in H as [_ H]. cbn [core]. apply hd_alts; [apply tree_bs_nil|]. intros n Hn. apply (Hr H n Hn).
  - intros r Hr H. apply andb_true_iff in H as [_ H]. cbn [core]. apply hd_alts; [apply tree_bs_nil|]. intros n Hn. apply (Hr H n Hn).
Qed.
(** A sequence that may be empty. *)
Lemma empties_unit a q s : shape_sq (SCons a q s) = true -> empties (SCons a q s) = true -> exists mx,
  (unitn a q = Greedy (tree_atom a) 0 mx \/ unitn a q = Possessive (tree_atom a) 0 mx) /\ empties s = true /\ skips q = true.
Proof.
  intros H E. cbn [shape_sq empties] in *. rewrite !andb_true_iff in H. destruct H as [[[H1 H2] H3] H4]. apply andb_true_iff in E as [E1 E2]. destruct q as [|k g]; [discriminate|]. cbn [skips] in *. apply N.eqb_eq in E1 as Z. exists (umax_of (kind_max k)).
  split; [|auto]. destruct k as [| | |n|n|n m]; try (exfalso; pose proof (often_exact n g H3); cbn [kind_min] in Z; congruence).
  all: destruct g; try (cbn [often] in H3; rewrite ?andb_false_r in H3; discriminate H3).
  all: unfold unitn; rewrite Z; auto.
Qed.
Lemma null_pre s n : shape_sq s = true -> empties s = true -> tree_sq s = Some n -> fst (pre n) = [] /\ total n = true.
Proof.
  revert n. induction s as [|a q s IH]; intros n H E T; [discriminate|]. rewrite tree_unit in T. injection T as <-. destruct (empties_unit a q s H E) as (mx & U & E' & _).
  assert (H' : shape_sq s = true) by (cbn [shape_sq] in H; rewrite !andb_true_iff in H; tauto).
  assert (K : fst (orsp (map pre (kids (tree_sq s)))) = [] /\ totk (kids (tree_sq s)) = true).
  { destruct (tree_sq s) as [m|]; [|split; reflexivity]. destruct (IH m H' E' eq_refl) as [A B]. cbn [kids map orsp]. split; [exact A|]. unfold totk. cbn [is_nil existsb]. now rewrite B. }
  destruct K as [K1 K2]. assert (Z : forall l : list (Z -> bool), firstn 1 (zipu l []) = []) by (intros [|]; reflexivity). unfold totk in K2.
  destruct U as [-> | ->]; cbn [pre uset N.eqb fst total andb]; rewrite K1; split; auto.
Qed.
Lemma null_first s n : shape_sq s = true -> empties s = true -> tree_sq s = Some n ->
  efirst n None = None /\ forall P, exists Q, efirst n (Some P) = Some Q /\ forall c, Q c = true -> first_sq s c || P c = true.
Proof.
  revert n. induction s as [|a q s IH]; intros n H E T; [discriminate|]. destruct (null_pre _ _ H E T) as [PN _]. rewrite tree_unit in T. injection T as <-. destruct (empties_unit a q s H E) as (mx & U & E' & Sk).
  cbn [shape_sq] in H. rewrite !andb_true_iff in H. destruct H as [[[H1 _] _] H']. destruct (hd_tree_atom a (first_atom a) (proj2 (proj2 (proj2 hds)) a H1)) as (Q & l & PE & X).
  assert (EF : forall S, efirst (unitn a q (kids (tree_sq s))) S = ounion (Some Q) (efk (kids (tree_sq s)) S)).
  { intro S. revert PN. destruct U as [-> | ->]; intro PN; cbn [efirst]; rewrite PN, PE; reflexivity. }
  rewrite EF. split.
  - destruct (tree_sq s) as [m|]; [|reflexivity]. destruct (IH m H' E' eq_refl) as [A _]. unfold efk. cbn [kids map ounions fold_right]. now rewrite A.
  - intro P. rewrite EF. cbn [first_sq]. rewrite Sk. cbn [andb]. destruct (tree_sq s) as [m|].
    + destruct (IH m H' E' eq_refl) as [_ B]. destruct (B P) as (R & ER & XR). unfold efk. cbn [kids map ounions fold_right]. rewrite ER. cbn [ounion]. eexists. split; [reflexivity|]. intros c Hc. cbv beta in Hc. rewrite orb_false_r in Hc.
      apply orb_true_iff in Hc as [Hc|Hc]; [now rewrite (X c Hc)|]. rewrite <- orb_assoc, (XR c Hc). apply orb_true_r.
    + unfold efk. cbn [kids ounion]. eexists. split; [reflexivity|]. intros c Hc. cbv beta in Hc. apply orb_true_iff in Hc as [Hc| ->]; [now rewrite (X c Hc)|apply orb_true_r].
Qed.
(** What is known of what follows: no more than [fol]. *)
Definition okF (fol : chr -> bool) (F : follow) : Prop :=
  match F with FTot => True | FSet P => forall c, P c = true -> fol c = true | FAny => False end.
Lemma okF_sub (f g : chr -> bool) F : (forall c, f c = true -> g c = true) -> okF f F -> okF g F.
Proof. destruct F; cbn; auto. Qed.
Lemma efirst_hd n P l S : fst (pre n) = P :: l -> efirst n S = Some P.
Proof. intro H. destruct n; cbn [efirst]; rewrite H; reflexivity. Qed.
Lemma folk_ok s fol F : shape_sq s = true -> okF fol F -> okF (after s fol) (folk (kids (tree_sq s)) F).
Proof.
  intros H O. destruct s as [|a q s]; [cbn [tree_sq kids folk]; apply (okF_sub fol); [intros c Hc; exact Hc|exact O]|]. set (t := SCons a q s) in *. destruct (empties t) eqn:E.
  - assert (T : exists n, tree_sq t = Some n) by (unfold t; rewrite tree_unit; eauto). destruct T as (n & T). destruct (null_first t n H E T) as [N1 N2]. destruct (null_pre t n H E T) as [_ Tt]. rewrite T. cbn [kids]. unfold folk, efk. cbn [map ounions fold_right].
    destruct F as [|P|]; [|destruct (N2 P) as (Q & EQ & X)|destruct O]; cbn [fset].
    + rewrite N1. cbn [ounion]. unfold totk. cbn [is_nil existsb orb]. rewrite Tt. exact Logic.I.
    + rewrite EQ. cbn [ounion okF]. intros c Hc. rewrite orb_false_r in Hc. unfold after. rewrite E. cbn [andb]. specialize (X c Hc). apply orb_true_iff in X as [-> | Y]; [reflexivity|]. rewrite (O c Y). apply orb_true_r.
  - destruct (proj1 (proj2 (proj2 hds)) t H E) as (n & T & Q & l & PE & X). rewrite T. cbn [kids]. unfold folk, efk. cbn [map ounions fold_right]. rewrite (efirst_hd n Q l _ PE). cbn [ounion okF]. intros c Hc. rewrite orb_false_r in Hc. unfold after. now rewrite (X c Hc).
Qed.

(** * The optimised trees *)
Lemma opens_clean :
  (forall r, opens r = true -> forall n, In n (tree_bs r) -> forall pv, clean (optimize n []) pv = true) /\
  (forall b, opens_br b = true -> forall pv, clean (optimize (tree_br b) []) pv = true) /\
  (forall s, opens_sq s = true -> exists n, tree_sq s = Some n /\ forall pv, clean (optimize n []) pv = true) /\
  (forall a, opens_atom a = true -> forall pv, clean (optimize (core a) []) pv = true).
Proof.
  apply rx_all_ind; cbn [opens opens_br opens_sq opens_atom].
  - intros b Hb H n [<-|[]]. now apply Hb.
  - intros b Hb r Hr H n Hn. apply andb_true_iff in H as [H1 H2]. destruct Hn as [<-|Hn]; [now apply Hb|now apply Hr].
  - intros a s Hs H pv. destruct a; cbn [tree_br].
    + destruct (tree_sq s); reflexivity.
    + cbn [orb] in H. destruct (Hs H) as (n & -> & X). apply X.
  - discriminate.
  - intros a Ha q s Hs H. apply andb_true_iff in H as [H1 H2]. specialize (Ha H1). rewrite tree_unit. eexists. split; [reflexivity|]. intro pv.
    assert (A : forall pv, clean (wrap a (optimize (core a) [])) pv = true) by (intro p; destruct a; [apply Ha|exact (Ha p)|apply Ha]).
    destruct q as [|k g].
    + cbn [unitn]. destruct a as [x|i r|r].
      * destruct (kids (tree_sq s)); exact (Ha pv).
      * destruct s; [|discriminate H2]. exact (Ha pv).
      * destruct (kids (tree_sq s)) as [|c cs]; exact (Ha pv).
    + destruct s; [|destruct a; discriminate H2]. assert (K1 : kind_min k = 1%N) by (apply N.eqb_eq; destruct a; exact H2). cbn [tree_sq kids].
      assert (X : forall l, adm_empty (adm_inter l (extract_adm (map nadm ([] ++ [])))) = true) by (intro l; cbn [app map]; change (extract_adm []) with (@nil chr); rewrite inter_nil; reflexivity).
      assert (P : forall mx, clean (Possessive (optimize (tree_atom a) []) (kind_min k) mx []) pv = true) by (intro mx; cbn [clean]; rewrite opt_atom, K1, (A PAny); reflexivity).
      destruct k as [| | |n|n|n m].
      4:{ cbn [unitn optimize map clean]. rewrite opt_atom. cbn [kind_min] in K1. rewrite K1, (A PAny). reflexivity. }
      all: destruct g; cbn [unitn optimize]; rewrite ?X; apply P.
  - intros x H pv. cbn [core]. rewrite opt_body. now apply elem_clean, steady_tidy.
  - intros i r Hr H pv. cbn [core]. specialize (Hr H). destruct (tree_bs r) as [|n [|m l]]; [reflexivity|apply (Hr n); now left|]. cbn [optimize clean]. apply forallb_forall. intros y Hy. apply in_map_iff in Hy as (z & <- & Hz). now apply Hr.
  - intros r Hr H pv. cbn [core]. specialize (Hr H). destruct (tree_bs r) as [|n [|m l]]; [reflexivity|apply (Hr n); now left|]. cbn [optimize clean]. apply forallb_forall. intros y Hy. apply in_map_iff in Hy as (z & <- & Hz). now apply Hr.
Qed.
Lemma det_simple m cs : det m = true -> forallb det cs && excl_all (map (fun c => fst (pre c)) cs) = true -> det (Simple m cs) = true.
Proof. intros D K. cbn [Checker.det]. rewrite D, K. apply orb_true_r. Qed.
Section Nodes.
Variable G : nat.
Record okn (n : node) (nul : bool) (S : chr -> bool) : Prop := {
  kn_good : forall pv, good G false n pv = true;
  kn_acc : accins n = true;
  kn_inj : noinj n = true;
  kn_small : opt_small n = true;
  kn_det : det n = true;
  kn_head : nul = false -> hd_in n S;
  kn_top : match n with Greedy _ _ _ _ | Lazy _ _ _ _ => False | _ => True end;
  kn_start : is_start n = false }.
Lemma okn_sub n e (S S' : chr -> bool) : (forall c, S c = true -> S' c = true) -> okn n e S -> okn n e S'.
Proof. intros H [A B C D E F I J]. constructor; auto. intro X. apply (hd_sub _ S); auto. Qed.
(** What is known of the continuation. *)
Record okt (cs : list node) : Prop := {
  kt_len : length cs <= 1;
  kt_all : forall c, In c cs -> exists e S, okn c e S }.
Lemma okt_cases cs : okt cs -> cs = [] \/ exists c e S, cs = [c] /\ okn c e S.
Proof. intros [L A]. destruct cs as [|c [|d cs]]; [now left| |cbn in L; lia]. right. destruct (A c (or_introl eq_refl)) as (e & S & K). eauto. Qed.
Lemma okt_det cs : okt cs -> forallb det cs && excl_all (map (fun c => fst (pre c)) cs) = true.
Proof. intro K. destruct (okt_cases cs K) as [->|(c & e & S & -> & N)]; [reflexivity|]. cbn [forallb map excl_all]. now rewrite (kn_det _ _ _ N). Qed.
Lemma okt_small cs : okt cs -> forallb opt_small cs = true.
Proof. intro K. destruct (okt_cases cs K) as [->|(c & e & S & -> & N)]; [reflexivity|]. cbn [forallb]. now rewrite (kn_small _ _ _ N). Qed.
Lemma ok_simple m cs S : okn m false S -> okt cs -> cs <> [] -> okn (Simple m cs) false S.
Proof.
  intros M T N. pose proof (okt_det _ T) as D. pose proof (okt_small _ T) as Sm. destruct (okt_cases cs T) as [->|(c & e & S' & -> & K)]; [congruence|]. constructor.
  - intro pv. cbn [good]. rewrite (kn_start _ _ _ M), (kn_good _ _ _ M), (kn_good _ _ _ K), (kn_det _ _ _ M). reflexivity.
  - exact (kn_acc _ _ _ M).
  - exact (kn_inj _ _ _ K).
  - cbn [opt_small]. now rewrite (kn_small _ _ _ M), Sm.
  - apply det_simple; [exact (kn_det _ _ _ M)|exact D].
  - intros _. apply hd_simple. now apply (kn_head _ _ _ M).
  - exact Logic.I.
  - reflexivity.
Qed.
Lemma ok_group m i cs S : i < G -> okn m false S -> okt cs -> okn (Group m i cs) false S.
Proof.
  intros Hi M T. pose proof (okt_det _ T) as D. pose proof (okt_small _ T) as Sm. pose proof (kn_top _ _ _ M) as Tp. apply Nat.ltb_lt in Hi. constructor.
  - intro pv. cbn [good]. rewrite Hi. cbn [andb]. destruct (okt_cases cs T) as [->|(c & e & S' & -> & K)]; [apply (kn_good _ _ _ M)|]. rewrite (kn_inj _ _ _ K). cbn [andb].
    assert (X : good G false m pv && noinj m && good G false c (lastp m pv) && (det m || total c) = true) by (rewrite (kn_good _ _ _ M), (kn_inj _ _ _ M), (kn_good _ _ _ K), (kn_det _ _ _ M); reflexivity).
    destruct m; try exact X; destruct Tp.
  - cbn [accins]. pose proof (kn_acc _ _ _ M) as A. destruct m; try exact A; destruct Tp.
  - cbn [noinj]. destruct (okt_cases cs T) as [->|(c & e & S' & -> & K)]; [reflexivity|apply (kn_inj _ _ _ K)].
  - cbn [opt_small]. now rewrite (kn_small _ _ _ M), Sm.
  - cbn [Checker.det uset is_some orb]. now rewrite (kn_det _ _ _ M), D.
  - intros _. apply hd_group. now apply (kn_head _ _ _ M).
  - exact Logic.I.
  - reflexivity.
Qed.
Lemma ok_possessive m mn mx cs S e S' : okn m false S -> okt cs -> (mn <= mx)%N -> mx <> 0%N -> (e = false -> hd_in (Possessive m mn mx cs) S') -> okn (Possessive m mn mx cs) e S'.
Proof.
  intros M T Le Nz He. pose proof (okt_det _ T) as D. pose proof (okt_small _ T) as Sm. pose proof (kn_head _ _ _ M eq_refl) as Hd. constructor.
  - intro pv. cbn [good]. rewrite (kn_good _ _ _ M), (hd_nonnull _ _ Hd), (kn_det _ _ _ M), orb_true_r. apply N.leb_le in Le. rewrite Le. cbn [andb]. destruct (okt_cases cs T) as [->|(c & e' & S0 & -> & K)]; [reflexivity|apply (kn_good _ _ _ K)].
  - cbn [accins]. apply N.eqb_neq in Nz. now rewrite Nz, (kn_acc _ _ _ M).
  - exact (kn_inj _ _ _ M).
  - cbn [opt_small]. now rewrite (kn_small _ _ _ M), Sm.
  - cbn [Checker.det uset is_some orb]. exact D.
  - exact He.
  - exact Logic.I.
  - reflexivity.
Qed.
Lemma ok_repeated m k cs S : okn m false S -> okt cs -> k <> 0%N -> okn (Repeated m k cs) false S.
Proof.
  intros M T Nz. pose proof (okt_det _ T) as D. pose proof (okt_small _ T) as Sm. pose proof (kn_head _ _ _ M eq_refl) as Hd. constructor.
  - intro pv. cbn [good]. rewrite (kn_good _ _ _ M), (kn_det _ _ _ M). cbn [andb]. destruct (okt_cases cs T) as [->|(c & e & S0 & -> & K)]; [reflexivity|apply (kn_good _ _ _ K)].
  - cbn [accins]. apply N.eqb_neq in Nz. now rewrite Nz, (kn_acc _ _ _ M).
  - reflexivity.
  - cbn [opt_small]. now rewrite (kn_small _ _ _ M), Sm.
  - cbn [Checker.det uset is_some orb]. now rewrite (kn_det _ _ _ M), D.
  - intros _. now apply hd_repeated.
  - exact Logic.I.
  - reflexivity.
Qed.
Lemma ok_body x : field_elem x = true -> okn (unode x) false (wide x).
Proof.
  intro H. pose proof (eok_unit x (field_ok x H)) as U. constructor.
  - intro pv. apply (ou_good _ _ U).
  - apply (ou_acc _ _ U).
  - apply (ou_inj _ _ U).
  - apply (ou_small _ _ U).
  - apply (unit_det _ _ U).
  - intros _. destruct (pre_okunit _ _ U) as (Q & E & X). exists Q, []. rewrite E. split; [reflexivity|]. intros c Hc. apply elem_wide. now rewrite <- X.
  - pose proof (unit_not x (field_ok x H)) as N. destruct (unode x); try exact Logic.I; destruct N.
  - apply (unit_start _ _ U).
Qed.

(** What the optimiser is told about what comes after a group. *)
Definition injok (inj : list node) (I : chr -> bool) : Prop :=
  Forall (fun n => asc (nadm n)) inj /\ forall n c, In n inj -> In c (nadm n) -> I c = true.
Lemma inj_nil : injok [] none.
Proof. split; [constructor|intros n c []]. Qed.
Lemma inj_app s inj I : wf_sq s = true -> shape_sq s = true -> injok inj I -> injok (kids (tree_sq s) ++ inj) (or_set (first_sq s) I).
Proof.
  intros W H [A B]. split.
  - apply Forall_app. split; [|exact A]. destruct (tree_sq s) as [n|] eqn:E; [|constructor]. constructor; [|constructor]. now apply (proj1 (proj2 (proj2 tree_asc)) s).
  - intros n c Hn Hc. unfold or_set. apply orb_true_iff. apply in_app_or in Hn as [Hn|Hn]; [left|right; now apply (B n)]. destruct (tree_sq s) as [m|] eqn:E; [|destruct Hn]. destruct Hn as [<-|[]]. now apply (proj1 (proj2 (proj2 adms)) s H m c E Hc).
Qed.
Lemma inter_loop a inj I : wf_atom a = true -> shape_atom a = true -> injok inj I -> apart (first_atom a) I = true ->
  adm_empty (adm_inter (nadm (tree_atom a)) (extract_adm (map nadm inj))) = true.
Proof.
  intros W H [A B] P. destruct (proj2 (proj2 (proj2 adms)) a H 0%Z) as [_ E]. rewrite E. destruct (adm_inter (nadm (core a)) (extract_adm (map nadm inj))) as [|c l] eqn:X; [reflexivity|]. exfalso.
  assert (Ic : In c (adm_inter (nadm (core a)) (extract_adm (map nadm inj)))) by (rewrite X; now left).
  apply inter_in in Ic as [I1 I2].
  - destruct (proj2 (proj2 (proj2 adms)) a H c) as [F _]. destruct (F I1) as [F1 R]. apply extract_in in I2 as (z & Hz & I2). apply in_map_iff in Hz as (n & <- & Hn). specialize (B n c Hn I2).
    unfold apart in P. rewrite forallb_forall in P. specialize (P c (chars_in c R)). rewrite F1, B in P. discriminate.
  - rewrite <- E. now apply tree_asc.
  - apply Heads.extract_asc. now apply Forall_map.
Qed.
Definition lowc (l : list nat) : Prop := Forall (fun i => i < G) l.
Definition branches (r : rx) : Prop :=
  Forall (fun n => okn (optimize n []) false (first r)) (tree_bs r)
  /\ excl_all (map (fun n => fst (pre (optimize n []))) (tree_bs r)) = true
  /\ forall pv, butlast_clean (map (fun n => optimize n []) (tree_bs r)) pv = true.
Lemma ok_alts r : branches r -> (exists n m l, tree_bs r = n :: m :: l) -> okn (SimpleV (map (fun n => optimize n []) (tree_bs r))) false (first r).
Proof.
  intros (A & B & C) (n & m & l & E). set (L := map (fun n => optimize n []) (tree_bs r)) in *.
  assert (A' : forall x, In x L -> okn x false (first r)). { intros x Hx. apply in_map_iff in Hx as (y & <- & Hy). rewrite Forall_forall in A. now apply A. }
  assert (N : exists c L', L = c :: L') by (unfold L; rewrite E; cbn [map]; eauto). destruct N as (c & L' & N). assert (Oc : okn c false (first r)) by (apply A'; rewrite N; now left).
  constructor.
  - intro pv. cbn [good]. rewrite C. assert (X : forallb (fun c => good G false c pv) L = true) by (apply forallb_forall; intros x Hx; apply (kn_good _ _ _ (A' x Hx))). rewrite X. rewrite N. reflexivity.
  - cbn [accins]. rewrite N. apply (kn_acc _ _ _ Oc).
  - cbn [noinj]. rewrite N. apply (kn_inj _ _ _ Oc).
  - cbn [opt_small]. apply forallb_forall. intros x Hx. apply (kn_small _ _ _ (A' x Hx)).
  - cbn [Checker.det]. assert (X : forallb det L = true) by (apply forallb_forall; intros x Hx; apply (kn_det _ _ _ (A' x Hx))). rewrite X. cbn [andb]. unfold L at 2. rewrite map_map, B. apply orb_true_r.
  - intros _. apply hd_alts; [rewrite N; discriminate|]. intros x Hx. now apply (kn_head _ _ _ (A' x Hx)).
  - exact Logic.I.
  - reflexivity.
Qed.
Lemma ll_none r : forall fol, (exists b, r = ROne b) \/ (forall I, ll r fol I = ll r fol none).
Proof. destruct r; [left; eauto|right; reflexivity]. Qed.
Lemma opt_alts r inj : (exists n, tree_bs r = [n] /\ optimize (SimpleV (tree_bs r)) inj = optimize n inj) \/ ((exists n m l, tree_bs r = n :: m :: l) /\ optimize (SimpleV (tree_bs r)) inj = SimpleV (map (fun n => optimize n []) (tree_bs r))).
Proof.
  destruct (tree_bs r) as [|n [|m l]] eqn:E; [now apply tree_bs_nil in E| |].
  - left. exists n. split; reflexivity.
  - right. split; [eauto|reflexivity].
Qed.
Lemma excl_hd n m P Q : hd_in n P -> hd_in m Q -> apart P Q = true -> excl (fst (pre n)) (fst (pre m)) = true.
Proof. intros (A & l & -> & X) (B & k & -> & Y) H. cbn [excl]. now rewrite (apart_disj P Q A B X Y H). Qed.
Lemma nodes :
  (forall r fol I, wf r = true -> ll r fol I = true -> lowc (caps r) -> (forall inj, injok inj I -> okn (optimize (SimpleV (tree_bs r)) inj) false (first r)) /\ (ll r fol none = true -> branches r)) /\
  (forall b fol I, wf_br b = true -> ll_br b fol I = true -> lowc (caps_br b) -> forall inj, injok inj I -> okn (optimize (tree_br b) inj) false (first_br b)) /\
  (forall s fol I, wf_sq s = true -> ll_sq s fol I = true -> lowc (caps_sq s) -> forall inj n, injok inj I -> tree_sq s = Some n -> okn (optimize n inj) (empties s) (first_sq s)) /\
  (forall a fol I, wf_atom a = true -> ll_atom a fol I = true -> lowc (caps_atom a) -> forall inj, injok inj I -> okn (optimize (core a) inj) false (first_atom a)).
Proof.
  apply rx_all_ind.
  - intros b Hb fol I W H Lo. cbn [wf ll caps] in *. split.
    + intros inj Hi. exact (Hb fol I W H Lo inj Hi).
    + intro H'. cbn [ll] in H'. pose proof (Hb fol none W H' Lo [] inj_nil) as X. split; [constructor; [exact X|constructor]|]. split; reflexivity.
  - intros b Hb r Hr fol I W H Lo. cbn [wf ll caps] in *. apply andb_true_iff in W as [W1 W2]. rewrite !andb_true_iff in H. destruct H as [[[H1 H2] H3] H4]. apply Forall_app in Lo as [L1 L2].
    assert (B : branches (ROr b r)).
    { destruct (Hr fol none W2 H4 L2) as [_ Rb]. destruct (Rb H4) as (R1 & R2 & R3). pose proof (Hb fol none W1 H3 L1 [] inj_nil) as X. unfold branches. change (tree_bs (ROr b r)) with (tree_br b :: tree_bs r). split; [|split].
      - constructor; [apply (okn_sub _ _ (first_br b)); [cbn [first]; intros c ->; reflexivity|exact X]|]. eapply Forall_impl; [|exact R1]. intros n. apply okn_sub. cbn [first]. intros c ->. apply orb_true_r.
      - apply andb_true_iff. split; [|exact R2]. apply forallb_forall. intros l Hl. apply in_map_iff in Hl as (n & <- & Hn). rewrite Forall_forall in R1.
        exact (excl_hd _ _ _ _ (kn_head _ _ _ X eq_refl) (kn_head _ _ _ (R1 n Hn) eq_refl) H2).
      - intro pv. cbn [map butlast_clean]. specialize (R3 pv). destruct (map (fun n => optimize n []) (tree_bs r)); [reflexivity|]. now rewrite (proj1 (proj2 opens_clean) b H1 pv). }
    split; [|intros _; exact B]. intros inj _. destruct (opt_alts (ROr b r) inj) as [(n & E & _)|[E ->]].
    + cbn [tree_bs] in E. injection E as _ E. now apply tree_bs_nil in E.
    + now apply ok_alts.
  - intros a s Hs fol I W H Lo inj Hi. cbn [ll_br caps_br] in *. rewrite !andb_true_iff, !negb_true_iff in H. destruct H as [[-> E] H]. assert (W' : wf_sq s = true) by (destruct s; [reflexivity|exact W]).
    cbn [tree_br first_br]. destruct (tree_sq s) as [n|] eqn:T; [|destruct s; [discriminate E|rewrite tree_unit in T; discriminate T]]. pose proof (Hs fol I W' H Lo inj n Hi eq_refl) as X. now rewrite E in X.
  - discriminate.
  - intros a Ha q s Hs fol I W H Lo inj n Hi E. pose proof (proj1 (proj2 (proj2 ll_shape)) _ _ _ W H) as Sh. cbn [wf_sq ll_sq caps_sq shape_sq] in *. rewrite !andb_true_iff in W. rewrite !andb_true_iff in Sh. destruct W as [[W1 W2] W3]. destruct Sh as [[[S1 S2] S3] S4]. cbv zeta in H. apply andb_true_iff in H as [H1 H2]. apply Forall_app in Lo as [L1 L2].
    rewrite tree_unit in E. injection E as <-. set (cs := kids (tree_sq s)) in *. set (cs' := map (fun c => optimize c []) cs).
    assert (T : okt cs').
    { unfold cs', cs. destruct (tree_sq s) as [m|] eqn:E; [|constructor; [cbn; lia|intros c []]]. constructor; [cbn; lia|]. intros c [<-|[]]. eexists _, _. exact (Hs fol none W3 H1 L2 [] m inj_nil eq_refl). }
    assert (Hd : empties s = false -> exists c, cs' = [c] /\ hd_in c (first_sq s)).
    { intro E. unfold cs', cs. destruct (tree_sq s) as [m|] eqn:Es; [|destruct s; [discriminate E|rewrite tree_unit in Es; discriminate Es]]. exists (optimize m []). split; [reflexivity|]. pose proof (Hs fol none W3 H1 L2 [] m inj_nil eq_refl) as X. now apply (kn_head _ _ _ X). }
    destruct q as [|k g].
    + cbn [skips empties andb]. assert (F : forall c, first_atom a c = true -> first_sq (SCons a Q1 s) c = true) by (intros c Hc; cbn [first_sq]; now rewrite Hc). apply (okn_sub _ _ (first_atom a) _ F). cbn [unitn]. destruct a as [x|i r|r].
      * change (optimize (Simple (core (AEl x)) cs) inj) with (match cs with [] => optimize (core (AEl x)) inj | _ => Simple (optimize (core (AEl x)) inj) cs' end). pose proof (Ha _ I W1 H2 L1 inj Hi) as X.
        unfold cs' in *. destruct cs as [|c l]; [exact X|]. apply ok_simple; [exact X|exact T|discriminate].
      * change (optimize (Group (core (ACap i r)) i cs) inj) with (Group (optimize (core (ACap i r)) (cs ++ inj)) i cs'). apply ok_group; [inversion L1; assumption| |exact T]. apply (Ha _ _ W1 H2 L1). now apply inj_app.
      * change (optimize (Simple (core (ANon r)) cs) inj) with (match cs with [] => optimize (core (ANon r)) inj | _ => Simple (optimize (core (ANon r)) inj) cs' end). pose proof (Ha _ I W1 H2 L1 inj Hi) as X.
        unfold cs' in *. destruct cs as [|c l]; [exact X|]. apply ok_simple; [exact X|exact T|discriminate].
    + rewrite !andb_true_iff in H2. destruct H2 as [[H2 H3] H4]. pose proof (Ha _ _ W1 H3 L1 [] inj_nil) as M. set (m := optimize (tree_atom a) []).
      assert (M' : okn m false (first_atom a)). { unfold m. rewrite opt_atom. destruct a as [x|i r|r]; cbn [wrap]; [exact M| |exact M]. apply ok_group; [inversion L1; assumption|exact M|constructor; [cbn; lia|intros c []]]. }
      assert (P : kind_min k = kind_min k -> forall mx, (kind_min k <= mx)%N -> mx <> 0%N -> okn (Possessive m (kind_min k) mx cs') (empties (SCons a (QQ k g) s)) (first_sq (SCons a (QQ k g) s))).
      { intros _ mx Le Nz. apply (ok_possessive _ _ _ _ (first_atom a)); [exact M'|exact T|exact Le|exact Nz|]. intro E. cbn [empties skips] in E. pose proof (kn_head _ _ _ M' eq_refl) as Hm.
        assert (Hm' : hd_in m (first_sq (SCons a (QQ k g) s))) by (apply (hd_sub _ (first_atom a)); [intros c Hc; cbn [first_sq]; now rewrite Hc|exact Hm]).
        destruct (N.eqb (kind_min k) 0) eqn:Z; [|apply N.eqb_neq in Z; now apply hd_loop]. apply N.eqb_eq in Z as Z'. rewrite Z'. cbn [andb] in E. destruct (Hd E) as (c & -> & X). apply hd_opt; [exact Hm'|].
        apply (hd_sub _ (first_sq s)); [|exact X]. intros y Hy. cbn [first_sq skips]. rewrite Z, Hy. apply orb_true_r. }
      assert (PG : once_more k g = true -> forall mn mx, optimize (Greedy (tree_atom a) mn mx cs) inj = Possessive m mn mx cs').
      { intros O mn mx. rewrite O in H4. cbn [negb orb] in H4. apply andb_true_iff in H4 as [_ H4]. cbn [optimize]. rewrite (inter_loop a (cs ++ inj) _ W1 S1 (inj_app s inj I W3 S4 Hi) H4). reflexivity. }
      specialize (P eq_refl). destruct (often_max k g S2 H2) as [B1 B2]. specialize (P _ B1 B2). destruct k as [| | |t|t|t t'].
      4:{ cbn [unitn]. change (optimize (Repeated (tree_atom a) (Z.to_N (num_val t)) cs) inj) with (Repeated m (Z.to_N (num_val t)) cs'). pose proof (often_exact t g H2) as Nz.
          assert (X : empties (SCons a (QQ (QExact t) g) s) = false) by (cbn [empties skips kind_min]; apply N.eqb_neq in Nz; now rewrite Nz). rewrite X. apply (okn_sub _ _ (first_atom a)); [intros c Hc; cbn [first_sq]; now rewrite Hc|]. now apply ok_repeated. }
      all: destruct g; try (cbn [often] in H2; rewrite ?andb_false_r in H2; discriminate H2); unfold unitn; [rewrite (PG eq_refl); exact P|exact P].
  - intros x fol I W H Lo inj Hi. cbn [core first_atom ll_atom] in *. rewrite opt_body. now apply ok_body.
  - intros i r Hr fol I W H Lo inj Hi. cbn [core first_atom ll_atom wf_atom caps_atom] in *. apply andb_true_iff in H as [_ H]. apply (Hr fol I W H); [inversion Lo; assumption|exact Hi].
  - intros r Hr fol I W H Lo inj Hi. cbn [core first_atom ll_atom wf_atom caps_atom] in *. apply andb_true_iff in H as [_ H]. now apply (Hr fol I W H).
Qed.
End Nodes.

(** * The optimiser keeps the meaning *)
Lemma in_rep_ok mn mx m m' F fol S : hd_in m S -> nonnull m' = true -> okF fol F -> forall F', In F' (Checker.in_rep mn mx m m' F) -> okF (or_set fol S) F'.
Proof.
  intros Hm N O F' HF. unfold Checker.in_rep in HF. rewrite (hd_nonnull _ _ Hm), N in HF. cbn [andb] in HF. destruct Hm as (Q & l & E & X). rewrite E in HF.
  assert (A : okF (or_set fol S) F) by (apply (okF_sub fol); [unfold or_set; intros c ->; reflexivity|exact O]).
  destruct ((mn <=? 1) && (mx <=? 1))%N; [destruct HF as [<-|[]]; exact A|]. destruct F as [|P|]; [|destruct HF as [<-|[]]|destruct O].
  - destruct (mn <=? 1)%N; [destruct HF as [<-|[]]; exact Logic.I|]. destruct HF as [<-|[<-|[]]]; [exact Logic.I|]. cbn [okF]. intros c Hc. unfold or_set. rewrite (X c Hc). apply orb_true_r.
  - cbn [okF] in *. intros c Hc. unfold or_set. apply orb_true_iff in Hc as [Hc|Hc]; [now rewrite (O c Hc)|]. rewrite (X c Hc). apply orb_true_r.
Qed.
Lemma no_retry_ok m' F fol S : hd_in m' S -> det m' = true -> okF fol F -> apart S fol = true -> no_retry m' F true = true.
Proof.
  intros (Q & l & E & X) D O A. destruct F as [|P|]; [reflexivity| |destruct O]. cbn [no_retry okF] in *. rewrite D. unfold first_disj. rewrite E. cbn [andb].
  apply (apart_disj fol S P Q); [exact O|exact X|]. unfold apart in *. rewrite forallb_forall in *. intros c Hc. specialize (A c Hc). now rewrite andb_comm.
Qed.
Lemma optoks G :
  (forall r fol I, wf r = true -> ll r fol I = true -> lowc G (caps r) -> forall F, okF fol F -> (forall inj, injok inj I -> optok (SimpleV (tree_bs r)) inj F = true) /\ (ll r fol none = true -> forall n, In n (tree_bs r) -> optok n [] F = true)) /\
  (forall b fol I, wf_br b = true -> ll_br b fol I = true -> lowc G (caps_br b) -> forall F, okF fol F -> forall inj, injok inj I -> optok (tree_br b) inj F = true) /\
  (forall s fol I, wf_sq s = true -> ll_sq s fol I = true -> lowc G (caps_sq s) -> forall F, okF fol F -> forall inj n, injok inj I -> tree_sq s = Some n -> optok n inj F = true) /\
  (forall a fol I, wf_atom a = true -> ll_atom a fol I = true -> lowc G (caps_atom a) -> forall F, okF fol F -> forall inj, injok inj I -> optok (core a) inj F = true).
Proof.
  apply rx_all_ind.
  - intros b Hb fol I W H Lo F O. cbn [wf ll caps] in *. split.
    + intros inj Hi. exact (Hb fol I W H Lo F O inj Hi).
    + intros H' n [<-|[]]. exact (Hb fol none W H' Lo F O [] inj_nil).
  - intros b Hb r Hr fol I W H Lo F O. cbn [wf ll caps] in *. apply andb_true_iff in W as [W1 W2]. rewrite !andb_true_iff in H. destruct H as [[[H1 H2] H3] H4]. apply Forall_app in Lo as [L1 L2].
    assert (B : forall n, In n (tree_bs (ROr b r)) -> optok n [] F = true).
    { intros n [<-|Hn]; [exact (Hb fol none W1 H3 L1 F O [] inj_nil)|]. destruct (Hr fol none W2 H4 L2 F O) as [_ R]. now apply R. }
    split; [|intros _; exact B]. intros inj _. change (tree_bs (ROr b r)) with (tree_br b :: tree_bs r) in *. destruct (tree_bs r) as [|c l] eqn:E; [now apply tree_bs_nil in E|].
    change (forallb (fun c => optok c [] F) (tree_br b :: c :: l) = true). apply forallb_forall. exact B.
  - intros a s Hs fol I W H Lo F O inj Hi. cbn [ll_br caps_br] in *. rewrite !andb_true_iff, !negb_true_iff in H. destruct H as [[-> E] H]. assert (W' : wf_sq s = true) by (destruct s; [reflexivity|exact W]).
    cbn [tree_br]. destruct (tree_sq s) as [n|] eqn:T; [|destruct s; [discriminate E|rewrite tree_unit in T; discriminate T]]. exact (Hs fol I W' H Lo F O inj n Hi eq_refl).
  - discriminate.
  - intros a Ha q s Hs fol I W H Lo F O inj n Hi E. pose proof (proj1 (proj2 (proj2 ll_shape)) _ _ _ W H) as Sh. cbn [wf_sq ll_sq caps_sq shape_sq] in *. rewrite !andb_true_iff in W. rewrite !andb_true_iff in Sh. destruct W as [[W1 W2] W3]. destruct Sh as [[[S1 S2] S3] S4]. cbv zeta in H. apply andb_true_iff in H as [H1 H2]. apply Forall_app in Lo as [L1 L2].
    rewrite tree_unit in E. injection E as <-. pose proof (folk_ok s fol F S4 O) as FO. set (cs := kids (tree_sq s)) in *.
    assert (K : forallb (fun c => optok c [] F) cs = true).
    { unfold cs. destruct (tree_sq s) as [m|] eqn:E; [|reflexivity]. cbn [kids forallb]. rewrite (Hs fol none W3 H1 L2 F O [] m inj_nil eq_refl). reflexivity. }
    destruct q as [|k g].
    + cbn [unitn]. destruct a as [x|i r|r].
      * cbn [optok core]. destruct cs; [apply body_optok|]. now rewrite body_optok, K.
      * cbn [optok]. rewrite K, andb_true_r. apply (Ha (after s fol) _ W1 H2 L1); [exact FO|]. now apply inj_app.
      * cbn [optok]. assert (X : optok (core (ANon r)) inj (folk cs F) = true) by (now apply (Ha (after s fol) I W1 H2 L1)). destruct cs; [exact X|]. now rewrite X, K.
    + rewrite !andb_true_iff in H2. destruct H2 as [[H2 H3] H4]. pose proof (proj2 (proj2 (proj2 (nodes G))) a _ _ W1 H3 L1 [] inj_nil) as M. set (m := optimize (tree_atom a) []).
      assert (M' : okn G m false (first_atom a)). { unfold m. rewrite opt_atom. destruct a as [x|i r|r]; cbn [wrap]; [exact M| |exact M]. apply ok_group; [inversion L1; assumption|exact M|constructor; [cbn; lia|intros c []]]. }
      pose proof (hd_tree_atom a _ (proj2 (proj2 (proj2 hds)) a S1)) as Ht. pose proof (hd_nonnull _ _ (kn_head _ _ _ _ M' eq_refl)) as Nn.
      assert (At : forall F', okF (or_set (after s fol) (first_atom a)) F' -> optok (tree_atom a) [] F' = true).
      { intros F' O'. rewrite tree_core. pose proof (Ha _ _ W1 H3 L1 F' O' [] inj_nil) as X. destruct a as [x|i r|r]; [exact X| |exact X]. apply andb_true_iff. split; [exact X|reflexivity]. }
      assert (R : forall F0, okF (after s fol) F0 -> forall mn mx, forallb (optok (tree_atom a) []) (Checker.in_rep mn mx (tree_atom a) m F0) = true).
      { intros F0 O0 mn mx. apply forallb_forall. intros F' HF. apply At. exact (in_rep_ok mn mx (tree_atom a) m F0 _ _ Ht Nn O0 F' HF). }
      assert (PG : once_more k g = true -> forall mn mx, optok (Greedy (tree_atom a) mn mx cs) inj F = true).
      { intros Om mn mx. rewrite Om in H4. cbn [negb orb] in H4. apply andb_true_iff in H4 as [H4 H5]. cbn [optok]. rewrite (inter_loop a (cs ++ inj) _ W1 S1 (inj_app s inj I W3 S4 Hi) H5). fold m. rewrite (R _ FO mn mx).
        rewrite (no_retry_ok m _ _ _ (kn_head _ _ _ _ M' eq_refl) (kn_det _ _ _ _ M') FO H4). rewrite K. apply orb_true_r. }
      assert (PP : forall mn mx, optok (Possessive (tree_atom a) mn mx cs) inj F = true) by (intros mn mx; cbn [optok]; fold m; rewrite (R FTot Logic.I mn mx); exact K).
      destruct k as [| | |t|t|t t'].
      4:{ cbn [unitn optok]. fold m. rewrite (R _ FO). exact K. }
      all: destruct g; try (cbn [often] in H2; rewrite ?andb_false_r in H2; discriminate H2); unfold unitn; [apply PG; reflexivity|apply PP].
  - intros x fol I W H Lo F O inj Hi. apply body_optok.
  - intros i r Hr fol I W H Lo F O inj Hi. cbn [core ll_atom wf_atom caps_atom] in *. apply andb_true_iff in H as [_ H]. apply (Hr fol I W H); [inversion Lo; assumption|exact O|exact Hi].
  - intros r Hr fol I W H Lo F O inj Hi. cbn [core ll_atom wf_atom caps_atom] in *. apply andb_true_iff in H as [_ H]. now apply (Hr fol I W H).
Qed.

(** * Whole patterns *)
Definition topnode (G : nat) (n : node) : Prop := (forall pv, good G false n pv = true) /\ accins n = true /\ opt_small n = true.
Lemma top_branch G b : wf_br b = true -> top_br b = true -> lowc G (caps_br b) -> topnode G (optimize (tree_br b) []) /\ optok (tree_br b) [] FTot = true.
Proof.
  destruct b as [a s]. intros W H Lo. unfold top_br in H. apply andb_true_iff in H as [E H]. apply negb_true_iff in E. assert (W' : wf_sq s = true) by (destruct s; [reflexivity|exact W]). cbn [caps_br] in Lo.
  assert (T : exists n, tree_sq s = Some n) by (destruct s; [discriminate E|rewrite tree_unit; eauto]). destruct T as (n & T).
  pose proof (proj1 (proj2 (proj2 (nodes G))) s none none W' H Lo [] n inj_nil T) as X. rewrite E in X. pose proof (proj1 (proj2 (proj2 (optoks G))) s none none W' H Lo FTot Logic.I [] n inj_nil T) as Y.
  cbn [tree_br]. rewrite T. destruct a.
  - cbn [followed app optimize map optok forallb folk]. split; [|now rewrite Y]. unfold topnode. cbn [good is_start accins opt_small forallb]. split; [|split].
    + intro pv. change (term_optimize TStart) with TStart. cbn [is_start]. rewrite (kn_good _ _ _ _ X), andb_true_r. unfold Checker.eats. now rewrite (hd_nonnull _ _ (kn_head _ _ _ _ X eq_refl)).
    + reflexivity.
    + now rewrite (kn_small _ _ _ _ X).
  - split; [|exact Y]. split; [apply (kn_good _ _ _ _ X)|]. split; [apply (kn_acc _ _ _ _ X)|apply (kn_small _ _ _ _ X)].
Qed.
Lemma top_all G r : wf r = true -> one_look r = true -> lowc G (caps r) -> (forall n, In n (tree_bs r) -> topnode G (optimize n []) /\ optok n [] FTot = true) /\ forall pv, butlast_clean (map (fun n => optimize n []) (tree_bs r)) pv = true.
Proof.
  induction r as [b|b r IH]; intros W H Lo; cbn [wf one_look caps] in *.
  - split; [|reflexivity]. intros n [<-|[]]. now apply top_branch.
  - apply andb_true_iff in W as [W1 W2]. rewrite !andb_true_iff in H. destruct H as [[H1 H2] H3]. apply Forall_app in Lo as [L1 L2]. destruct (IH W2 H3 L2) as [A B]. change (tree_bs (ROr b r)) with (tree_br b :: tree_bs r). split.
    + intros n [<-|Hn]; [now apply top_branch|now apply A].
    + intro pv. cbn [map butlast_clean]. specialize (B pv). destruct (map (fun n => optimize n []) (tree_bs r)); [reflexivity|]. now rewrite (proj1 (proj2 opens_clean) b H1 pv).
Qed.
Lemma top_tree G r : wf r = true -> one_look r = true -> lowc G (caps r) -> topnode G (optimize (tree r) []) /\ optok (tree r) [] FTot = true.
Proof.
  intros W H Lo. destruct (top_all G r W H Lo) as [A B]. unfold tree. destruct (tree_bs r) as [|n [|m l]] eqn:E; [now apply tree_bs_nil in E| |].
  - destruct (A n (or_introl eq_refl)) as [A1 A2]. split; [exact A1|exact A2].
  - change (optimize (SimpleV (n :: m :: l)) []) with (SimpleV (map (fun n => optimize n []) (n :: m :: l))). set (L := map (fun n => optimize n []) (n :: m :: l)) in *.
    assert (A' : forall x, In x L -> topnode G x) by (intros x Hx; apply in_map_iff in Hx as (y & <- & Hy); now apply A). split.
    + split; [|split].
      * intro pv. cbn [good]. rewrite B. assert (X : forallb (fun c => good G false c pv) L = true) by (apply forallb_forall; intros x Hx; now apply A'). rewrite X. reflexivity.
      * apply (A' (optimize n [])). now left.
      * cbn [opt_small]. apply forallb_forall. intros x Hx. now apply A'.
    + change (forallb (fun c => optok c [] FTot) (n :: m :: l) = true). apply forallb_forall. intros x Hx. now apply A.
Qed.

(** ** The numbers of the slots do not matter *)
Lemma apart_ext P Q P' Q' : (forall c, P c = P' c) -> (forall c, Q c = Q' c) -> apart P Q = apart P' Q'.
Proof. intros A B. unfold apart. induction chars as [|c l IH]; [reflexivity|]. cbn [forallb]. now rewrite A, B, IH. Qed.
Lemma renumber_first :
  (forall r i g c, first (renumber_in i r g) c = first r c) /\ (forall b g c, first_br (renumber_br b g) c = first_br b c) /\
  (forall s g c, first_sq (renumber_sq s g) c = first_sq s c) /\ (forall a g c, first_atom (renumber_atom a g) c = first_atom a c).
Proof.
  apply rx_all_ind; intros; cbn [renumber_in renumber_br renumber_sq renumber_atom first first_br first_sq first_atom]; cbv zeta; auto.
  - cbn [first]. now rewrite H, H0.
  - now rewrite H, H0.
Qed.
Lemma renumber_empties s : forall g, empties (renumber_sq s g) = empties s.
Proof. induction s as [|a q s IH]; intro g; [reflexivity|]. cbn [renumber_sq empties]. cbv zeta. cbn [empties]. now rewrite IH. Qed.
Lemma renumber_nil s g : match renumber_sq s g with SNil => true | _ => false end = match s with SNil => true | _ => false end.
Proof. destruct s; reflexivity. Qed.
Lemma renumber_opens :
  (forall r i g, opens (renumber_in i r g) = opens r) /\ (forall b g, opens_br (renumber_br b g) = opens_br b) /\
  (forall s g, opens_sq (renumber_sq s g) = opens_sq s) /\ (forall a g, opens_atom (renumber_atom a g) = opens_atom a).
Proof.
  apply rx_all_ind; intros; cbn [renumber_in renumber_br renumber_sq renumber_atom opens opens_br opens_sq opens_atom]; cbv zeta; auto.
  - cbn [opens]. now rewrite H, H0.
  - now rewrite H.
  - cbn [opens_sq]. rewrite H. destruct q, a, s; reflexivity.
Qed.
Lemma renumber_weight :
  (forall r i g, weight (renumber_in i r g) = weight r) /\ (forall b g, weight_br (renumber_br b g) = weight_br b) /\
  (forall s g, weight_sq (renumber_sq s g) = weight_sq s) /\ (forall a g, weight_atom (renumber_atom a g) = weight_atom a).
Proof.
  apply rx_all_ind; intros; cbn [renumber_in renumber_br renumber_sq renumber_atom weight weight_br weight_sq weight_atom]; cbv zeta; auto.
  - cbn [weight]. now rewrite H, H0.
  - cbn [weight_sq]. now rewrite H, H0.
Qed.
Lemma renumber_ll :
  (forall r i g f f' I I', (forall c, f c = f' c) -> (forall c, I c = I' c) -> ll (renumber_in i r g) f I = ll r f' I') /\
  (forall b g f f' I I', (forall c, f c = f' c) -> (forall c, I c = I' c) -> ll_br (renumber_br b g) f I = ll_br b f' I') /\
  (forall s g f f' I I', (forall c, f c = f' c) -> (forall c, I c = I' c) -> ll_sq (renumber_sq s g) f I = ll_sq s f' I') /\
  (forall a g f f' I I', (forall c, f c = f' c) -> (forall c, I c = I' c) -> ll_atom (renumber_atom a g) f I = ll_atom a f' I').
Proof.
  destruct renumber_first as (F1 & F2 & F3 & F4).
  apply rx_all_ind; cbn [renumber_in renumber_br renumber_sq renumber_atom ll ll_br ll_sq ll_atom].
  - intros b Hb i g f f' I I' Ef EI. now apply Hb.
  - intros b Hb r Hr i g f f' I I' Ef EI. cbv zeta. cbn [ll]. rewrite (Hb g f f' none none Ef (fun c => eq_refl)), (Hr i _ f f' none none Ef (fun c => eq_refl)). rewrite (proj1 (proj2 renumber_opens)). f_equal. f_equal. f_equal. apply apart_ext; auto.
  - intros a s Hs g f f' I I' Ef EI. now rewrite (Hs g f f' I I'), renumber_empties.
  - reflexivity.
  - intros a Ha q s Hs g f f' I I' Ef EI. cbv zeta. cbn [ll_sq]. set (g' := after_atom (renumber_atom a g) g). rewrite (Hs g' f f' none none Ef (fun c => eq_refl)). f_equal.
    assert (EA : forall c, after (renumber_sq s g') f c = after s f' c) by (intro c; unfold after; now rewrite F3, renumber_empties, Ef).
    assert (EO : forall c, or_set (first_sq (renumber_sq s g')) I c = or_set (first_sq s) I' c) by (intro c; unfold or_set; now rewrite F3, EI).
    destruct q as [|k gr].
    + destruct a as [x|i r|r]; [reflexivity|exact (Ha g _ _ _ _ EA EO)|exact (Ha g _ _ _ _ EA EI)].
    + assert (EU : forall c, or_set (after (renumber_sq s g') f) (first_atom (renumber_atom a g)) c = or_set (after s f') (first_atom a) c) by (intro c; unfold or_set; now rewrite EA, F4).
      rewrite (Ha g _ _ none none EU (fun c => eq_refl)). rewrite (apart_ext (first_atom (renumber_atom a g)) (after (renumber_sq s g') f) (first_atom a) (after s f') (F4 a g) EA). now rewrite (apart_ext _ _ (first_atom a) (or_set (first_sq s) I') (F4 a g) EO).
  - reflexivity.
  - intros i r Hr g f f' I I' Ef EI. rewrite (Hr true (g + 1) f f' I I' Ef EI). now rewrite (proj1 renumber_weight).
  - intros r Hr g f f' I I' Ef EI. rewrite (Hr true g f f' I I' Ef EI). now rewrite (proj1 renumber_weight).
Qed.
Lemma renumber_top_br b g : top_br (renumber_br b g) = top_br b.
Proof. destruct b as [a s]. cbn [renumber_br top_br]. rewrite renumber_empties. f_equal. now apply (proj1 (proj2 (proj2 renumber_ll))). Qed.
Lemma renumber_look r : forall i g, one_look (renumber_in i r g) = one_look r.
Proof.
  induction r as [b|b r IH]; intros i g; cbn [renumber_in one_look]; cbv zeta; [apply renumber_top_br|]. cbn [one_look]. now rewrite renumber_top_br, IH, (proj1 (proj2 renumber_opens)).
Qed.

(** * The matcher and the optimiser handle them as specified *)
Lemma caps_low r : wf r = true -> lowc (ngroups (ctree r)) (caps (renumber r)).
Proof.
  intro W. assert (C : compile (show r) = Some (ctree r)) by (rewrite compile_eq, (parse_show r W); reflexivity). pose proof (compile_gidx _ _ C) as B. unfold lowc. apply Forall_forall. intros i Hi. apply B. unfold ctree. rewrite optimize_gidx. cbn [tree gidx]. now rewrite (proj1 gidx_tree).
Qed.
Theorem look_exact r : wf r = true -> one_look r = true -> exact r = true.
Proof.
  intros W H. assert (W' : wf (renumber r) = true) by (unfold renumber; now rewrite (proj1 renumber_wf)). assert (H' : one_look (renumber r) = true) by (unfold renumber; now rewrite renumber_look).
  destruct (top_tree _ _ W' H' (caps_low r W)) as [(A & B & C) D]. unfold exact. cbv zeta. rewrite W, D. cbn [andb]. fold (ctree r) in A, B, C. now rewrite A, B, C.
Qed.
Theorem look_supported r : wf r = true -> one_look r = true -> opens r = true -> supported r = true.
Proof.
  intros W H O. pose proof (look_exact r W H) as E. unfold exact in E. cbv zeta in E. rewrite !andb_true_iff in E. destruct E as [_ [[[E1 E2] E3] E4]]. unfold supported. cbv zeta. rewrite W, E1, E2, E3. cbn [andb].
  assert (C : clean (ctree r) PFst = true).
  { assert (O' : opens (renumber r) = true) by (unfold renumber; now rewrite (proj1 renumber_opens)). pose proof (proj1 opens_clean _ O') as X. unfold ctree, tree. destruct (tree_bs (renumber r)) as [|n [|m l]]; [reflexivity|apply (X n); now left|].
    change (forallb (fun c => clean c PFst) (map (fun c => optimize c []) (n :: m :: l)) = true). apply forallb_forall. intros y Hy. apply in_map_iff in Hy as (z & <- & Hz). now apply X. }
  now rewrite C.
Qed.
