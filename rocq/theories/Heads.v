(** First characters, from the way a pattern is written: where the sets the library computes
    hold every possible first character. *)
From Coq Require Import ZArith NArith List Bool Lia ZifyBool ZifyNat ZifyN.
From Verif Require Import Base Text Ast Builder Engine Api Spec SpecProofs SpecEnd Tree AstProofs BuilderProofs Main Den First.
Import ListNotations.
Open Scope nat_scope.

(** * The patterns meant (surface syntax only) *)
(** Must consume something. *)
Definition quant_min (q : quant) : N := match q with Q1 => 1 | QQ k _ => kind_min k end.
Definition skippable (q : quant) : bool :=
  match q with Q1 => false | QQ (QExact _) _ => false | QQ k _ => N.eqb (kind_min k) 0 end.
Fixpoint eats (r : rx) : bool :=
  match r with ROne b => eats_br b | ROr b r' => eats_br b && eats r' end
with eats_br (b : br) : bool := match b with Br _ s => eats_sq s end
with eats_sq (s : sq) : bool :=
  match s with SNil => false | SCons a q s' => (eats_atom a && negb (N.eqb (quant_min q) 0)) || eats_sq s' end
with eats_atom (a : atom) : bool :=
  match a with AEl _ => true | ACap _ r => eats r | ANon r => eats r end.
(** A class has one item; a complemented class begins with a 7-bit item; in a sequence, what
    can be skipped is skipped by its own [?], [*] or [{0,m}], or is the last part; with
    alternatives, the first one can be empty. *)
Definition head_elem (x : elem) : bool :=
  match x with
  | EClass false [_] => true
  | EClass false _ => false
  | EClass true (CChar c :: _) => (0 <=? c)%Z
  | EClass true (CRange a b :: _) => (0 <=? a)%Z
  | EClass true (CEsc c :: _) => (0 <=? c)%Z
  | EClass true [] => false
  | _ => true
  end.
Fixpoint heads (r : rx) : bool :=
  match r with ROne b => heads_br b | ROr b r' => negb (eats_br b) && heads_br b && heads_all r' end
with heads_all (r : rx) : bool :=
  match r with ROne b => heads_br b | ROr b r' => heads_br b && heads_all r' end
with heads_br (b : br) : bool := match b with Br a s => a || heads_sq s end
with heads_sq (s : sq) : bool :=
  match s with
  | SNil => true
  | SCons a q s' =>
      heads_atom a
      && ((eats_atom a && negb (N.eqb (quant_min q) 0))
          || (match s' with SNil => true | _ => false end)
          || (skippable q && heads_sq s'))
  end
with heads_atom (a : atom) : bool :=
  match a with AEl x => head_elem x | ACap _ r => heads r | ANon r => heads r end.

(** * What must consume does *)
Section W.
Variable w : str.
Lemma pieces_le (R : nat -> nat -> Prop) : (forall i j, R i j -> i <= j) -> forall k i j, pieces R k i j -> i <= j.
Proof. intros H k i j P. induction P; [lia|]. apply H in H0. lia. Qed.
Lemma lang_le : (forall r i j, lang w r i j -> i <= j) /\ (forall b i j, lang_br w b i j -> i <= j)
  /\ (forall s i j, lang_sq w s i j -> i <= j) /\ (forall a i j, lang_atom w a i j -> i <= j).
Proof.
  apply rx_all_ind; cbn [lang lang_br lang_sq lang_atom]; intros.
  - eauto.
  - destruct H1; eauto.
  - destruct H0; eauto.
  - lia.
  - destruct H1 as (m & k & _ & P & L). apply (pieces_le _ H) in P. apply H0 in L. lia.
  - lia.
  - eauto.
  - eauto.
Qed.
Lemma pieces_lt (R : nat -> nat -> Prop) : (forall i j, R i j -> i <= j) -> (forall i j, R i j -> i < j) -> forall k i j, pieces R k i j -> k <> 0 -> i < j.
Proof. intros H L k i j P. destruct P; [congruence|]. intros _. apply L in H0. apply (pieces_le _ H) in P. lia. Qed.
Lemma in_bounds_pos q k : in_bounds q k -> quant_min q <> 0%N -> k <> 0.
Proof. destruct q; cbn [in_bounds quant_min]; lia. Qed.
Lemma eats_lt : (forall r, eats r = true -> forall i j, lang w r i j -> i < j) /\ (forall b, eats_br b = true -> forall i j, lang_br w b i j -> i < j)
  /\ (forall s, eats_sq s = true -> forall i j, lang_sq w s i j -> i < j) /\ (forall a, eats_atom a = true -> forall i j, lang_atom w a i j -> i < j).
Proof.
  apply rx_all_ind; cbn [eats eats_br eats_sq eats_atom lang lang_br lang_sq lang_atom].
  - eauto.
  - intros b Hb r Hr E i j [L|L]; apply andb_true_iff in E as [E1 E2]; eauto.
  - intros a s H E i j [_ L]; eauto.
  - discriminate.
  - intros a Ha q s Hs E i j (m & k & B & P & L). pose proof (proj1 (proj2 (proj2 lang_le)) s _ _ L). pose proof (pieces_le _ (proj2 (proj2 (proj2 lang_le)) a) _ _ _ P).
    apply orb_true_iff in E as [E|E].
    + apply andb_true_iff in E as [E1 E2]. apply negb_true_iff, N.eqb_neq in E2. pose proof (pieces_lt _ (proj2 (proj2 (proj2 lang_le)) a) (Ha E1) _ _ _ P (in_bounds_pos _ _ B E2)). lia.
    + specialize (Hs E _ _ L). lia.
  - intros x _ i j [-> _]. lia.
  - eauto.
  - eauto.
Qed.

(** * A positive computed size means it must consume *)
Lemma wrap_pos x : wrap32 x <> 0%N -> x <> 0%N.
Proof. intros H ->. apply H. reflexivity. Qed.
Lemma quant_nmin q m : (nmin (tree_quant q m) <> 0%N -> nmin m <> 0%N /\ quant_min q <> 0%N).
Proof.
  destruct q as [|k g]; cbn [tree_quant quant_min]; [lia|].
  assert (M : forall p mn mx, nmin (mkq p m mn mx) = wrap32 (nmin m * mn + 0)) by (intros [] ? ?; reflexivity).
  destruct k; rewrite ?M; cbn [nmin map minl kind_min]; intro H; apply wrap_pos in H; lia.
Qed.
Lemma unit_shape q a : let u := tree_quant q (tree_atom a) in
  (exists m, u = Simple m []) \/ (exists m a b, u = Greedy m a b []) \/ (exists m a b, u = Lazy m a b []) \/ (exists m a b, u = Possessive m a b [])
  \/ (exists m k, u = Repeated m k []) \/ (exists m i, u = Group m i []).
Proof.
  assert (A : (exists m, tree_atom a = Simple m []) \/ (exists m i, tree_atom a = Group m i [])).
  { destruct a as [x|i r|r]; cbn [tree_atom]; [left; destruct x as [| | |[]| |]; cbn [tree_elem]; eauto|right; eauto|left; eauto]. }
  destruct q as [|k g]; cbn [tree_quant]; [destruct A as [A|A]; [left; exact A|do 5 right; exact A]|].
  assert (M : forall mn mx m, let u := mkq (pol_of g) m mn mx in (exists m a b, u = Greedy m a b []) \/ (exists m a b, u = Lazy m a b []) \/ (exists m a b, u = Possessive m a b [])).
  { intros mn mx m. destruct g; cbn; eauto 8. }
  destruct k; try (destruct (M (kind_min QStar) (umax_of (kind_max QStar)) (tree_atom a)) as [X|[X|X]]; eauto 8; fail); eauto 10.
  all: right; destruct g; cbn; eauto 9.
Qed.
Lemma followed_nmin q a c : let u := tree_quant q (tree_atom a) in nmin (followed u (Some c)) <> 0%N -> nmin u <> 0%N \/ nmin c <> 0%N.
Proof.
  intros u. destruct (unit_shape q a) as [(m & E)|[(m & x & b & E)|[(m & x & b & E)|[(m & x & b & E)|[(m & k & E)|(m & i & E)]]]]]; fold u in E; rewrite E; intro H;
  cbn [followed app] in H; cbn [nmin map minl fold_left] in *; try (left; exact H);
  (destruct (N.eq_dec (nmin c) 0) as [Z|Z]; [left|right; exact Z]; rewrite Z in H; exact H).
Qed.
Lemma minl_pos l : minl l <> 0%N -> forall x, In x l -> x <> 0%N.
Proof.
  destruct l as [|a l]; [intros _ x []|]. cbn [minl]. revert a. induction l as [|b l IH]; intros a H x Hx; cbn [fold_left] in H.
  - destruct Hx as [<-|[]]. exact H.
  - assert (P : N.min a b <> 0%N) by (apply (IH _ H); now left). destruct Hx as [<-|[<-|Hx]]; [lia|lia|]. apply (IH _ H). now right.
Qed.
Lemma nmin_eats : (forall r, (forall n, In n (tree_bs r) -> nmin n <> 0%N) -> eats r = true) /\ (forall b, nmin (tree_br b) <> 0%N -> eats_br b = true)
  /\ (forall s n, tree_sq s = Some n -> nmin n <> 0%N -> eats_sq s = true) /\ (forall a, nmin (tree_atom a) <> 0%N -> eats_atom a = true).
Proof.
  apply rx_all_ind; cbn [eats eats_br eats_sq eats_atom].
  - intros b H X. apply H, X. now left.
  - intros b Hb r Hr X. apply andb_true_iff. split; [apply Hb, X; now left|apply Hr; intros n I; apply X; now right].
  - intros a s H X. destruct a; cbn [tree_br] in X.
    + destruct (tree_sq s) as [c|] eqn:E; cbn in X; [|now elim X]. apply (H c eq_refl). intro Z. rewrite Z in X. now apply X.
    + destruct (tree_sq s) as [c|] eqn:E; [now apply (H c)|now elim X].
  - discriminate.
  - intros a Ha q s Hs n E X. cbn [tree_sq] in E. injection E as <-. apply orb_true_iff.
    assert (U : nmin (tree_quant q (tree_atom a)) <> 0%N -> eats_atom a && negb (quant_min q =? 0)%N = true).
    { intro U. apply quant_nmin in U as [U1 U2]. apply andb_true_iff. split; [now apply Ha|now apply negb_true_iff, N.eqb_neq]. }
    destruct (tree_sq s) as [c|] eqn:E; [|left; now apply U]. apply followed_nmin in X as [X|X]; [left; now apply U|right; now apply (Hs c)].
  - reflexivity.
  - intros i r H X. apply H. cbn [tree_atom nmin] in X. intros n I. apply (minl_pos _ X). now apply in_map.
  - intros r H X. apply H. cbn [tree_atom nmin] in X. apply wrap_pos in X. cbn [map minl] in X. rewrite N.add_0_r in X. intros n I. apply (minl_pos _ X). now apply in_map.
Qed.

(** * The computed sets *)
Definition has (A : list Z) (x : Z) : Prop := (0 <= x <= 127)%Z -> In x A.
Lemma followed_sup q a c x : let u := tree_quant q (tree_atom a) in In x (nadm u) -> In x (nadm (followed u (Some c))).
Proof.
  intros u. destruct (unit_shape q a) as [(m & E)|[(m & y & b & E)|[(m & y & b & E)|[(m & y & b & E)|[(m & k & E)|(m & i & E)]]]]]; fold u in E; rewrite E; cbn [followed app nadm map];
  try (exact (fun H => H)).
  - intro H. destruct (_ =? _)%N; [|exact H]. apply extract_in. exists (nadm m). split; [now left|exact H].
  - destruct (_ =? _)%N; [|exact (fun H => H)]. intro H. apply extract_in in H as (s & [<-|[]] & H). apply extract_in. exists (nadm m). split; [now left|exact H].
  - destruct (_ =? _)%N; [|exact (fun H => H)]. intro H. apply extract_in in H as (s & [<-|[]] & H). apply extract_in. exists (nadm m). split; [now left|exact H].
  - destruct (_ =? _)%N; [|exact (fun H => H)]. intro H. apply extract_in in H as (s & [<-|[]] & H). apply extract_in. exists (nadm m). split; [now left|exact H].
Qed.
Lemma quant_sup q m x : In x (nadm m) -> In x (nadm (tree_quant q m)).
Proof.
  intro H. destruct q as [|k g]; cbn [tree_quant]; [exact H|].
  assert (M : forall mn mx, In x (nadm (mkq (pol_of g) m mn mx))).
  { intros mn mx. destruct g; cbn [pol_of mkq nadm map]; (destruct (mn =? 0)%N; [apply extract_in; exists (nadm m); split; [now left|exact H]|exact H]). }
  destruct k; try apply M. exact H.
Qed.
Lemma skip_sup q a c x : skippable q = true -> In x (nadm c) -> In x (nadm (followed (tree_quant q (tree_atom a)) (Some c))).
Proof.
  intros S H. destruct q as [|k g]; [discriminate|]. cbn [skippable] in S.
  assert (M : forall mx, In x (nadm (followed (mkq (pol_of g) (tree_atom a) 0 mx) (Some c)))).
  { intro mx. destruct g; cbn [pol_of mkq followed app nadm map N.eqb]; apply extract_in; exists (nadm c); (split; [right; now left|exact H]). }
  destruct k; try discriminate S; try (apply N.eqb_eq in S; cbn [tree_quant]; rewrite S); apply M.
Qed.
Lemma esc_adm c x : escapable c = true -> In x (term_adm (TTerminal [c_bslash; c])) <-> esc_set c x = true.
Proof.
  intro H. unfold term_adm, term_kind, esc_set. unfold is1. cbn [str_eqb]. rewrite andb_false_r. cbv iota.
  unfold is_esc. cbn [str_eqb]. rewrite !Z.eqb_refl. cbn [andb]. rewrite !andb_true_r.
  destruct (Z.eqb_spec c 115) as [->|N1].
  { change (115 =? 100)%Z with false. change (115 =? 119)%Z with false. change (115 =? 115)%Z with true. cbv iota.
    cbn [selfk_adm In existsb]. rewrite !orb_true_iff, !Z.eqb_eq. intuition congruence. }
  destruct (Z.eqb_spec c 119) as [->|N2].
  { change (119 =? 100)%Z with false. change (119 =? 119)%Z with true. cbv iota.
    unfold selfk_adm. rewrite !merge_in, !adm_range_in. cbn [In]. lia. }
  destruct (Z.eqb_spec c 100) as [->|N3]; [rewrite adm_range_in; lia|].
  destruct (Z.eqb_spec c 97) as [->|N4]; [cbn [In]; lia|].
  destruct (Z.eqb_spec c 101) as [->|N5]; [cbn [In]; lia|].
  destruct (Z.eqb_spec c 102) as [->|N6]; [cbn [In]; lia|].
  destruct (Z.eqb_spec c 110) as [->|N7]; [cbn [In]; lia|].
  destruct (Z.eqb_spec c 114) as [->|N8]; [cbn [In]; lia|].
  destruct (Z.eqb_spec c 116) as [->|N9]; [cbn [In]; lia|].
  cbn [In]. lia.
Qed.
Lemma asc_one c : asc [c].
Proof. apply asc_cons; [constructor|constructor]. Qed.
Lemma word_asc : asc (selfk_adm KWord).
Proof. apply ascb_ok. vm_compute. reflexivity. Qed.
Lemma esc_asc c : escapable c = true -> asc (term_adm (TTerminal [c_bslash; c])).
Proof.
  intro H. unfold term_adm, term_kind. unfold is1. cbn [str_eqb]. rewrite andb_false_r. cbv iota.
  unfold is_esc. cbn [str_eqb]. rewrite !Z.eqb_refl. cbn [andb]. rewrite !andb_true_r.
  destruct (c =? 115)%Z; [apply ascb_ok; reflexivity|]. destruct (c =? 119)%Z; [apply word_asc|].
  destruct (c =? 100)%Z; [apply adm_range_asc|].
  destruct (c =? 97)%Z; [apply asc_one|]. destruct (c =? 101)%Z; [apply asc_one|]. destruct (c =? 102)%Z; [apply asc_one|].
  destruct (c =? 110)%Z; [apply asc_one|]. destruct (c =? 114)%Z; [apply asc_one|]. destruct (c =? 116)%Z; apply asc_one.
Qed.
Lemma citem_adm i x : citem_ok i = true -> In x (nadm (tree_citem i)) <-> citem_set i x = true.
Proof.
  intro H. destruct i as [c|a b|c]; cbn [tree_citem nadm citem_set citem_ok] in *.
  - cbn [term_adm In]. lia.
  - cbn [term_adm]. rewrite adm_range_in. lia.
  - now apply esc_adm.
Qed.
Lemma citem_asc i : citem_ok i = true -> asc (nadm (tree_citem i)).
Proof.
  intro H. destruct i as [c|a b|c]; cbn [tree_citem nadm citem_ok] in *; [apply asc_one|apply adm_range_asc|now apply esc_asc].
Qed.
Lemma citem_min i : citem_ok i = true -> nmin (tree_citem i) = 1%N.
Proof.
  intro H. destruct i as [c|a b|c]; cbn [tree_citem]; try reflexivity. cbn [nmin map minl]. cbn [citem_ok] in H.
  assert (T : term_min (TTerminal [c_bslash; c]) = 1%N); [|rewrite T; reflexivity].
  unfold term_min, term_kind. unfold is1. cbn [str_eqb]. rewrite andb_false_r. cbv iota.
  unfold is_esc. cbn [str_eqb]. rewrite !Z.eqb_refl. cbn [andb]. rewrite !andb_true_r.
  destruct (c =? 115)%Z; [reflexivity|]. destruct (c =? 119)%Z; [reflexivity|].
  destruct (c =? 100)%Z; [reflexivity|].
  destruct (c =? 97)%Z; [reflexivity|]. destruct (c =? 101)%Z; [reflexivity|]. destruct (c =? 102)%Z; [reflexivity|].
  destruct (c =? 110)%Z; [reflexivity|]. destruct (c =? 114)%Z; [reflexivity|]. destruct (c =? 116)%Z; reflexivity.
Qed.
Lemma class_adm i items : forallb citem_ok (i :: items) = true -> nadm (SimpleV (map tree_citem (i :: items))) = nadm (tree_citem i).
Proof.
  intro H. cbn [forallb] in H. apply andb_true_iff in H as [H _]. cbn [map nadm]. destruct items; [reflexivity|]. cbn [map]. rewrite (citem_min i H). reflexivity.
Qed.
Lemma head7 i items c : citem_ok i = true -> head_elem (EClass true (i :: items)) = true -> citem_set i c = true -> (0 <= c <= 127)%Z.
Proof.
  intros O H S. destruct i as [a|a b|a]; cbn [citem_ok head_elem citem_set] in *.
  - unfold class_plain, is_char in O. lia.
  - unfold class_plain, is_char in O. lia.
  - unfold escapable, is_char in O. unfold esc_set in S.
    repeat match type of S with context [if ?b then _ else _] => destruct b end; cbn [existsb] in S; lia.
Qed.
Lemma kind_lit c : plain c = true -> term_kind [c] = KExact [c].
Proof.
  intro H. unfold term_kind, is1. cbn [str_eqb].
  assert (D : (c =? c_dot)%Z = false) by (apply Z.eqb_neq; intros ->; discriminate).
  rewrite D. cbn [andb]. unfold is_esc. cbn [str_eqb]. rewrite !andb_false_r. reflexivity.
Qed.
Lemma elem_adm x : elem_ok x = true -> head_elem x = true -> forall c, elem_set x c = true -> has (nadm (tree_elem x)) c.
Proof.
  intros O H c S A. destruct x as [a|a| |neg items|p q r|p q]; cbn [tree_elem elem_ok elem_set] in *.
  - cbn [nadm term_adm]. rewrite (kind_lit a O). cbn [In]. lia.
  - change (nadm (Simple (Term (TTerminal [c_bslash; a])) [])) with (term_adm (TTerminal [c_bslash; a])). now apply esc_adm.
  - apply (adm_range_in 0 127). exact A.
  - apply andb_true_iff in O as [O _]. destruct neg; [|destruct items as [|i [|? ?]]; try discriminate H].
    + destruct items as [|i items]; [discriminate H|]. assert (Oi : citem_ok i = true) by (cbn [forallb] in O; lia).
      change (nadm (Simple (Negated (SimpleV (map tree_citem (i :: items)))) [])) with (adm_complement (nadm (SimpleV (map tree_citem (i :: items))))).
      rewrite class_adm by exact O. apply complement_in; [now apply citem_asc| |].
      * apply Forall_forall. intros y Hy. apply citem_adm in Hy; [|exact Oi]. exact (head7 i items y Oi H Hy).
      * split; [exact A|]. intro Hx. apply citem_adm in Hx; [|exact Oi]. cbn [existsb] in S. rewrite Hx in S. discriminate S.
    + cbn [existsb xorb] in S. rewrite orb_false_r in S. assert (S2 : citem_set i c = true) by (destruct (citem_set i c); [reflexivity|discriminate S]). cbn [forallb] in O. rewrite andb_true_r in O. apply (citem_adm i c O). exact S2.
  - cbn [nadm term_adm In]. lia.
  - cbn [nadm term_adm In]. lia.
Qed.
Lemma elem_asc x : elem_ok x = true -> asc (nadm (tree_elem x)).
Proof.
  intro O. destruct x as [a|a| |neg items|p q r|p q]; cbn [tree_elem elem_ok] in *.
  - cbn [nadm term_adm]. rewrite (kind_lit a O). apply asc_one.
  - now apply (esc_asc a).
  - apply (adm_range_asc 0 127).
  - apply andb_true_iff in O as [O N]. destruct items as [|i items]; [discriminate N|]. assert (Oi : citem_ok i = true) by (cbn [forallb] in O; lia). destruct neg.
    + change (nadm (Simple (Negated (SimpleV (map tree_citem (i :: items)))) [])) with (adm_complement (nadm (SimpleV (map tree_citem (i :: items))))). rewrite class_adm by exact O.
      unfold adm_complement. apply diff_asc; [now apply citem_asc|apply adm_range_asc].
    + change (nadm (Simple (SimpleV (map tree_citem (i :: items))) [])) with (nadm (SimpleV (map tree_citem (i :: items)))). rewrite class_adm by exact O. now apply citem_asc.
  - apply asc_one.
  - apply asc_one.
Qed.
Lemma extract_asc l : Forall asc l -> asc (extract_adm l).
Proof. induction 1; cbn; [constructor|now apply merge_asc]. Qed.
Lemma alt_asc l : Forall (fun n => asc (nadm n)) l -> asc (nadm (SimpleV l)).
Proof.
  intro H. destruct l as [|a [|b l]]; cbn [nadm]; [constructor|now inversion H|]. destruct (_ =? _)%N; [|now inversion H]. apply extract_asc. now apply Forall_map.
Qed.
Lemma quant_asc q m : asc (nadm m) -> asc (nadm (tree_quant q m)).
Proof.
  intro H. destruct q as [|k g]; cbn [tree_quant]; [exact H|].
  assert (M : forall mn mx, asc (nadm (mkq (pol_of g) m mn mx))).
  { intros mn mx. destruct g; cbn [pol_of mkq nadm map]; (destruct (mn =? 0)%N; [apply extract_asc; repeat constructor; exact H|exact H]). }
  destruct k; try apply M. exact H.
Qed.
Lemma followed_asc q a c : let u := tree_quant q (tree_atom a) in asc (nadm u) -> asc (nadm (tree_atom a)) -> asc (nadm c) -> asc (nadm (followed u (Some c))).
Proof.
  intros u. destruct q as [|k g].
  - intros Hu Ha Hc. subst u. cbn [tree_quant] in *. destruct a as [x|i r|r]; cbn [tree_atom] in *.
    + destruct x as [| | |[]| |]; cbn [tree_elem followed app] in *; cbn [nadm map] in *; (destruct (_ =? _)%N; [apply extract_asc; constructor; [exact Ha|constructor; [exact Hc|constructor]]|exact Ha]).
    + exact Ha.
    + cbn [followed app]. set (m := SimpleV (tree_bs r)) in *. cbn [nadm map] in *. destruct (_ =? _)%N; [apply extract_asc; constructor; [exact Ha|constructor; [exact Hc|constructor]]|exact Ha].
  - intros Hu Ha Hc. subst u. cbn [tree_quant] in *.
    assert (M : forall mn mx, asc (nadm (followed (mkq (pol_of g) (tree_atom a) mn mx) (Some c)))).
    { intros mn mx. destruct g; cbn [pol_of mkq followed app nadm map]; (destruct (mn =? 0)%N; [apply extract_asc; constructor; [exact Ha|constructor; [exact Hc|constructor]]|exact Ha]). }
    destruct k; try apply M. exact Ha.
Qed.
Lemma tree_asc : (forall r, wf r = true -> Forall (fun n => asc (nadm n)) (tree_bs r)) /\ (forall b, wf_br b = true -> asc (nadm (tree_br b)))
  /\ (forall s, wf_sq s = true -> forall n, tree_sq s = Some n -> asc (nadm n)) /\ (forall a, wf_atom a = true -> asc (nadm (tree_atom a))).
Proof.
  apply rx_all_ind; cbn [wf wf_br wf_sq wf_atom tree_bs].
  - intros b H W. constructor; [now apply H|constructor].
  - intros b Hb r Hr W. apply andb_true_iff in W as [W1 W2]. constructor; auto.
  - intros a s H W. assert (W' : wf_sq s = true) by (destruct s; [discriminate|exact W]). specialize (H W'). cbn [tree_br]. destruct a.
    + destruct (tree_sq s) as [c|] eqn:E; cbn [followed app].
      * change (asc (nadm (Simple (Term TStart) [c]))). cbn [nadm map]. change (nmin (Term TStart) =? 0)%N with true. cbv iota. apply extract_asc. constructor; [apply ascb_ok; vm_compute; reflexivity|]. constructor; [now apply H|constructor].
      * apply ascb_ok. vm_compute. reflexivity.
    + destruct (tree_sq s) as [c|] eqn:E; [now apply H|constructor].
  - discriminate.
  - intros a Ha q s Hs W n E. rewrite !andb_true_iff in W. destruct W as [[Wa Wq] Ws]. cbn [tree_sq] in E. injection E as <-. specialize (Ha Wa). specialize (Hs Ws).
    destruct (tree_sq s) as [c|]; [|now apply quant_asc]. apply followed_asc; [now apply quant_asc|exact Ha|now apply Hs].
  - intros x W. now apply elem_asc.
  - intros i r H W. cbn [tree_atom]. change (asc (nadm (SimpleV (tree_bs r)))). apply alt_asc. now apply H.
  - intros r H W. cbn [tree_atom]. change (asc (nadm (SimpleV (tree_bs r)))). apply alt_asc. now apply H.
Qed.

(** * Every first character is in the computed set *)
Definition starts (A : list Z) (R : nat -> nat -> Prop) : Prop := forall i j, R i j -> i < j -> exists x, nth_error w i = Some x /\ has A x.
Lemma starts_sub A B R : (forall x, In x A -> In x B) -> starts A R -> starts B R.
Proof. intros S H i j L Lt. destruct (H i j L Lt) as (x & E & X). exists x. split; [exact E|]. intro Y. apply S, X, Y. Qed.
Lemma starts_pieces A (R : nat -> nat -> Prop) k : (forall i j, R i j -> i <= j) -> starts A R -> starts A (pieces R k).
Proof.
  intros F H. induction k as [|k IH]; intros i j P Lt; inversion P; subst; [lia|]. pose proof (F _ _ H1).
  destruct (Nat.eq_dec i j0) as [<-|]; [now apply (IH i j)|]. apply (H i j0); [assumption|lia].
Qed.
Lemma alt_first b r x : In x (nadm (tree_br b)) -> In x (nadm (SimpleV (tree_br b :: tree_bs r))).
Proof.
  cbn [nadm]. destruct (tree_bs r) as [|n l]; [exact (fun H => H)|]. destruct (_ =? _)%N; [|exact (fun H => H)].
  intro H. apply extract_in. exists (nadm (tree_br b)). split; [now left|exact H].
Qed.
Lemma heads_starts :
  (forall r, wf r = true -> (heads r = true -> starts (nadm (SimpleV (tree_bs r))) (lang w r)) /\ (heads_all r = true -> starts (extract_adm (map nadm (tree_bs r))) (lang w r)))
  /\ (forall b, wf_br b = true -> heads_br b = true -> starts (nadm (tree_br b)) (lang_br w b))
  /\ (forall s, wf_sq s = true -> heads_sq s = true -> forall n, tree_sq s = Some n -> starts (nadm n) (lang_sq w s))
  /\ (forall a, wf_atom a = true -> heads_atom a = true -> starts (nadm (tree_atom a)) (lang_atom w a)).
Proof.
  apply rx_all_ind; cbn [wf wf_br wf_sq wf_atom heads heads_all heads_br heads_sq heads_atom tree_bs lang lang_br lang_sq lang_atom].
  - intros b H W. split; intro D; [exact (H W D)|]. apply (starts_sub (nadm (tree_br b))); [|exact (H W D)].
    intros x Hx. apply extract_in. exists (nadm (tree_br b)). split; [now left|exact Hx].
  - intros b Hb r Hr W. apply andb_true_iff in W as [W1 W2]. specialize (Hb W1). destruct (Hr W2) as [Hr1 Hr2]. clear Hr.
    assert (X : forall A, heads_br b = true -> heads_all r = true -> (forall x, In x (nadm (tree_br b)) -> In x A) -> (forall x, In x (extract_adm (map nadm (tree_bs r))) -> In x A) ->
      starts A (fun i j => lang_br w b i j \/ lang w r i j)).
    { intros A D1 D2 S1 S2 i j [L|L] Lt; [exact (starts_sub _ A _ S1 (Hb D1) i j L Lt)|exact (starts_sub _ A _ S2 (Hr2 D2) i j L Lt)]. }
    split; intro D.
    + rewrite !andb_true_iff in D. destruct D as [[D0 D1] D2]. apply X; [exact D1|exact D2|apply alt_first|].
      intros x Hx. assert (Z : (nmin (tree_br b) =? 0)%N = true).
      { apply N.eqb_eq. destruct (N.eq_dec (nmin (tree_br b)) 0) as [|N]; [assumption|]. apply (proj1 (proj2 nmin_eats)) in N. rewrite N in D0. discriminate D0. }
      cbn [nadm]. destruct (tree_bs r) as [|n l] eqn:E; [destruct r; discriminate E|]. rewrite Z. cbn [map extract_adm fold_right]. apply merge_in. right. exact Hx.
    + apply andb_true_iff in D as [D1 D2]. apply X; [exact D1|exact D2| |]; intros x Hx; cbn [map extract_adm fold_right]; apply merge_in; [now left|now right].
  - intros a s H W D. assert (W' : wf_sq s = true) by (destruct s; [discriminate|exact W]). specialize (H W'). cbn [tree_br].
    destruct a.
    + intros i j [Z L] Lt. specialize (Z eq_refl). subst i.
      assert (Hn : exists x, nth_error w 0 = Some x).
      { destruct w as [|x v] eqn:E; [|eexists; reflexivity]. exfalso. pose proof (lang_forward [] (ROne (Br false s)) 0 j). cbn [lang lang_br] in H0. specialize (H0 (conj (fun _ => eq_refl) L)). cbn [length] in H0. lia. }
      destruct Hn as (x & E). exists x. split; [exact E|]. intro B. destruct (tree_sq s) as [c|]; cbn [followed app]; cbn [nadm map].
      * change (nmin (Term TStart) =? 0)%N with true. cbv iota. apply extract_in. exists (nadm (Term TStart)). split; [now left|]. apply (proj2 (complement_in [] x ltac:(constructor) ltac:(constructor))). split; [exact B|exact (fun F => F)].
      * apply (proj2 (complement_in [] x ltac:(constructor) ltac:(constructor))). split; [exact B|exact (fun F => F)].
    + cbn [orb] in D. specialize (H D). destruct (tree_sq s) as [c|] eqn:E; [|destruct s; [discriminate W|discriminate E]].
      intros i j [_ L] Lt. exact (H c eq_refl i j L Lt).
  - discriminate.
  - intros a Ha q s Hs W D n E. rewrite !andb_true_iff in W. destruct W as [[Wa Wq] Ws]. cbn [tree_sq] in E. injection E as <-.
    apply andb_true_iff in D as [Da D]. specialize (Ha Wa Da). specialize (Hs Ws). intros i j (m & k & B & P & L) Lt.
    pose proof (proj2 (proj2 (proj2 lang_le)) a) as FA.
    pose proof (pieces_le _ FA _ _ _ P) as L1. pose proof (proj1 (proj2 (proj2 lang_le)) s _ _ L) as L2.
    assert (Hd : i < m -> exists x, nth_error w i = Some x /\ has (nadm (followed (tree_quant q (tree_atom a)) (tree_sq s))) x).
    { intro Lm. destruct (starts_pieces _ _ k FA Ha i m P Lm) as (x & Ex & X). exists x. split; [exact Ex|]. intro Y. specialize (X Y). apply (quant_sup q) in X.
      destruct (tree_sq s); [now apply followed_sup|exact X]. }
    destruct (Nat.eq_dec i m) as [<-|NE]; [|apply Hd; lia].
    apply orb_true_iff in D as [D|D]; [apply orb_true_iff in D as [D|D]|].
    + exfalso. apply andb_true_iff in D as [D1 D2]. apply negb_true_iff, N.eqb_neq in D2.
      pose proof (pieces_lt _ FA (proj2 (proj2 (proj2 eats_lt)) a D1) _ _ _ P (in_bounds_pos _ _ B D2)). lia.
    + destruct s; [|discriminate D]. cbn [lang_sq] in L. lia.
    + apply andb_true_iff in D as [D1 D2]. destruct (tree_sq s) as [c|] eqn:E; [|destruct s; [cbn [lang_sq] in L; lia|discriminate E]].
      destruct (Hs D2 c eq_refl i j L Lt) as (x & Ex & X). exists x. split; [exact Ex|]. intro Y. apply skip_sup; [exact D1|now apply X].
  - intros x W D i j [-> (c & E & S)] _. exists c. split; [exact E|]. now apply elem_adm.
  - intros i r H W D. cbn [tree_atom]. exact (proj1 (H W) D).
  - intros r H W D. cbn [tree_atom]. exact (proj1 (H W) D).
Qed.
End W.

(** * Renumbering the groups changes nothing here *)
Lemma renumber_heads : (forall r n g, (eats (renumber_in n r g) = eats r /\ heads (renumber_in n r g) = heads r /\ heads_all (renumber_in n r g) = heads_all r))
  /\ (forall b g, eats_br (renumber_br b g) = eats_br b /\ heads_br (renumber_br b g) = heads_br b)
  /\ (forall s g, eats_sq (renumber_sq s g) = eats_sq s /\ heads_sq (renumber_sq s g) = heads_sq s)
  /\ (forall a g, eats_atom (renumber_atom a g) = eats_atom a /\ heads_atom (renumber_atom a g) = heads_atom a).
Proof.
  apply rx_all_ind.
  - intros b H n g. cbn [renumber_in eats heads heads_all]. destruct (H g) as [A B]. rewrite A, B. auto.
  - intros b Hb r Hr n g. cbn [renumber_in]. set (b' := renumber_br b g). set (g' := if n then g else _). cbn [eats heads heads_all]. destruct (Hb g) as [A B]. fold b' in A, B. destruct (Hr n g') as (C & D & E). rewrite A, B, C, E. auto.
  - intros a s H g. cbn [renumber_br eats_br heads_br]. destruct (H g) as [A B]. rewrite A, B. auto.
  - auto.
  - intros a Ha q s Hs g. cbn [renumber_sq]. set (a' := renumber_atom a g). set (g' := after_atom a' g). cbn [eats_sq heads_sq]. destruct (Ha g) as [A B]. fold a' in A, B. destruct (Hs g') as [C D]. rewrite A, B, C, D. split; [reflexivity|].
    do 2 f_equal. f_equal. destruct s; reflexivity.
  - auto.
  - intros i r H g. cbn [renumber_atom eats_atom heads_atom]. destruct (H true (g + 1)) as (A & B & _). auto.
  - intros r H g. cbn [renumber_atom eats_atom heads_atom]. destruct (H true g) as (A & B & _). auto.
Qed.
Lemma renumber_lang w : (forall r n g i j, lang w (renumber_in n r g) i j <-> lang w r i j) /\ (forall b g i j, lang_br w (renumber_br b g) i j <-> lang_br w b i j)
  /\ (forall s g i j, lang_sq w (renumber_sq s g) i j <-> lang_sq w s i j) /\ (forall a g i j, lang_atom w (renumber_atom a g) i j <-> lang_atom w a i j).
Proof.
  apply rx_all_ind.
  - intros b H n g i j. apply H.
  - intros b Hb r Hr n g i j. cbn [renumber_in lang]. rewrite Hb, Hr. reflexivity.
  - intros a s H g i j. cbn [renumber_br lang_br]. rewrite H. reflexivity.
  - reflexivity.
  - intros a Ha q s Hs g i j. cbn [renumber_sq lang_sq].
    assert (PP : forall k x y, pieces (lang_atom w (renumber_atom a g)) k x y <-> pieces (lang_atom w a) k x y).
    { intros k x y. split; induction 1; econstructor; eauto; apply (Ha g); eassumption. }
    split; intros (m & k & B & P & L); exists m, k; (split; [exact B|split; [now apply PP|]]); eapply Hs; exact L.
  - reflexivity.
  - intros x r H g i j. cbn [renumber_atom lang_atom]. apply H.
  - intros r H g i j. cbn [renumber_atom lang_atom]. apply H.
Qed.
Lemma heads_first w r i j : wf r = true -> heads r = true -> lang w r i j -> i < j ->
  exists x, nth_error w i = Some x /\ ((0 <= x <= 127)%Z -> In x (nadm (tree (renumber r)))).
Proof.
  intros W H L Lt. unfold tree, renumber. apply (proj1 (renumber_lang w) r false 0) in L.
  pose proof (proj1 (heads_starts w) (renumber_in false r 0)) as X. rewrite (proj1 renumber_wf) in X. destruct (X W) as [X1 _]. destruct (proj1 renumber_heads r false 0) as (_ & B & _). rewrite B in X1.
  exact (X1 H i j L Lt).
Qed.
Lemma adm_asc r : wf r = true -> asc (nadm (tree (renumber r))).
Proof. intro W. apply alt_asc. apply (proj1 tree_asc). unfold renumber. rewrite (proj1 renumber_wf). exact W. Qed.
