(** The text returned by get_expression compiles to the same matcher, for patterns in which
    alternatives stand in parentheses (or are the whole pattern) and whose characters can be
    written without an escape. *)
From Coq Require Import ZArith NArith List Bool Lia ZifyBool ZifyNat ZifyN.
From Verif Require Import Base Text TextProofs Ast AstProofs Builder BuilderProofs Api Spec Tree ParseProofs Supported Main Captures Heads Families End EndD.
Import ListNotations.
Open Scope Z_scope.

(** * Which patterns *)
(** The character an escape stands for. *)
Definition esc_chr (c : chr) : chr :=
  if c =? 97 then 7 else if c =? 101 then 27 else if c =? 102 then 12 else if c =? 110 then 10
  else if c =? 114 then 13 else if c =? 116 then 9 else c.
Definition esc_class (c : chr) : bool := (c =? 115) || (c =? 119) || (c =? 100).
Definition writable_elem (x : elem) : bool :=
  match x with
  | ELit _ | EDot => true
  | EEsc c | EClass false [CEsc c] => esc_class c || plain (esc_chr c)
  | EClass false [CRange _ _] | EClass true [CChar _] => true
  | EClass false [CChar c] => plain c
  | EClass true [CEsc c] => negb (c =? 100) && (esc_class c || class_plain (esc_chr c))
  | EClass _ _ => false
  | EOct a b c => plain (byte_chr (64 * a + 8 * b + c))
  | EHex a b => plain (byte_chr (16 * a + b))
  end.
(** Written as a class before and after, or neither. *)
Definition steady_elem (x : elem) : bool :=
  match x with
  | EEsc c => negb (c =? 100)
  | EClass false [CChar _] => false
  | EClass false [CEsc c] => c =? 100
  | _ => true
  end.
Fixpoint all_elems (p : elem -> bool) (r : rx) : bool :=
  match r with ROne b => all_br p b | ROr b r' => all_br p b && all_elems p r' end
with all_br (p : elem -> bool) (b : br) : bool := match b with Br _ s => all_sq p s end
with all_sq (p : elem -> bool) (s : sq) : bool :=
  match s with SNil => true | SCons a _ s' => all_atom p a && all_sq p s' end
with all_atom (p : elem -> bool) (a : atom) : bool :=
  match a with AEl x => p x | ACap _ r | ANon r => all_elems p r end.
(** No (?:...). *)
Fixpoint no_non (r : rx) : bool :=
  match r with ROne b => no_non_br b | ROr b r' => no_non_br b && no_non r' end
with no_non_br (b : br) : bool := match b with Br _ s => no_non_sq s end
with no_non_sq (s : sq) : bool :=
  match s with SNil => true | SCons a _ s' => no_non_atom a && no_non_sq s' end
with no_non_atom (a : atom) : bool :=
  match a with AEl x => true | ACap _ r => no_non r | ANon r => false end.
Definition writable (r : rx) : bool :=
  all_elems writable_elem r && no_non r && (all_elems steady_elem r || match caps r with [] => true | _ => false end).

(** * Elements *)
Lemma esc_node c : escapable c = true -> esc_class c = false -> term_optimize (TTerminal [c_bslash; c]) = TExact [esc_chr c].
Proof.
  intros E H. unfold esc_class in H. rewrite !orb_false_iff in H. destruct H as [[H1 H2] H3]. cbn [term_optimize]. unfold term_kind, is_esc, esc_chr. cbn [is1 str_eqb].
  rewrite !Z.eqb_refl. cbn [andb]. rewrite !andb_true_r, H1, H2, H3. change (is1 c_dot [c_bslash; c]) with false.
  repeat (match goal with |- context [if c =? ?k then _ else _] => destruct (c =? k); [reflexivity|] end). reflexivity.
Qed.
Lemma lit_node c : plain c = true -> unode (ELit c) = Term (TExact [c]).
Proof. intro H. unfold unode. cbn [body optimize term_optimize]. now rewrite (kind_lit c H). Qed.
Lemma elem_back x : elem_ok x = true -> writable_elem x = true ->
  exists y, elem_ok y = true /\ show_elem y = nexpr (unode x) /\ unode y = unode x
    /\ (steady_elem x = true -> forall g, after_atom (AEl y) g = after_atom (AEl x) g).
Proof.
  intros O W.
  assert (ESC : forall c, escapable c = true -> esc_class c || plain (esc_chr c) = true -> (c =? 100) = false ->
     exists y, elem_ok y = true /\ show_elem y = nexpr (Term (term_optimize (TTerminal [c_bslash; c]))) /\ unode y = Term (term_optimize (TTerminal [c_bslash; c]))
       /\ forall g, after_atom (AEl y) g = g).
  { intros c E P H. destruct (esc_class c) eqn:K.
    - exists (EEsc c). unfold esc_class in K. rewrite H, orb_false_r in K. apply orb_true_iff in K as [K|K]; apply Z.eqb_eq in K; subst c; conj; reflexivity.
    - cbn [orb] in P. exists (ELit (esc_chr c)). rewrite (esc_node c E K), (lit_node _ P). conj; auto. }
  destruct x as [c|c| |neg items|a b c|a b]; cbn [elem_ok writable_elem] in O, W.
  - exists (ELit c). rewrite (lit_node c O). conj; auto.
  - destruct (c =? 100) eqn:K.
    + apply Z.eqb_eq in K. subst c. exists (EClass false [CRange 48 57]). conj; try reflexivity. discriminate.
    + destruct (ESC c O W K) as (y & A & B & C & D). exists y. conj; auto.
  - exists EDot. conj; reflexivity.
  - destruct neg, items as [|i [|j items]]; try discriminate W; try (destruct i; discriminate W); cbn [forallb] in O.
    + rewrite andb_true_r in O. destruct i as [c|p q|c]; try discriminate W.
      * exists (EClass true [CChar c]). conj; try reflexivity. cbn [elem_ok forallb citem_ok] in *. lia.
      * apply andb_true_iff in W as [W1 W2]. apply negb_true_iff in W1. cbn [citem_ok] in O. apply andb_true_iff in O as [O _]. destruct (esc_class c) eqn:K.
        -- exists (EClass true [CEsc c]). unfold esc_class in K. rewrite W1, orb_false_r in K. apply orb_true_iff in K as [K|K]; apply Z.eqb_eq in K; subst c; conj; reflexivity.
        -- cbn [orb] in W2. exists (EClass true [CChar (esc_chr c)]). unfold unode. cbn [body optimize map tree_citem]. rewrite (esc_node c O K). conj; try reflexivity. cbn. now rewrite W2.
    + rewrite andb_true_r in O. destruct i as [c|p q|c]; cbn [citem_ok] in O; apply andb_true_iff in O as [O _].
      * exists (ELit c). rewrite (lit_node c W). conj; auto. discriminate.
      * exists (EClass false [CRange p q]). conj; try reflexivity. cbn [elem_ok forallb citem_ok]. now rewrite O.
      * destruct (c =? 100) eqn:K.
        -- apply Z.eqb_eq in K. subst c. exists (EClass false [CRange 48 57]). conj; reflexivity.
        -- destruct (ESC c O W K) as (y & A & B & C & D). exists y. conj; auto. cbn [steady_elem]. now rewrite K.
  - exists (ELit (byte_chr (64 * a + 8 * b + c))). rewrite (lit_node _ W). conj; auto.
  - exists (ELit (byte_chr (16 * a + b))). rewrite (lit_node _ W). conj; auto.
Qed.

(** * Quantifiers *)
Lemma num_back k : (k < 4294967295)%N -> exists ds, show_num ds = number_to_pack_string k /\ num_ok ds = true /\ num_val ds = Z.of_N k.
Proof.
  intro H. destruct (number_to_pack_string_ok k ltac:(lia)) as (ds & E & (N & D & _) & V). exists ds. split; [now rewrite E|]. split; [|exact V].
  unfold num_ok. rewrite V. destruct ds; [congruence|]. cbn [negb andb]. apply andb_true_iff. split; [|lia]. apply forallb_forall. intros d Hd. rewrite Forall_forall in D. specialize (D d Hd). lia.
Qed.
Lemma num_lt ds : num_ok ds = true -> (Z.to_N (num_val ds) < 4294967295)%N.
Proof. intro Hn. unfold num_ok in Hn. rewrite !andb_true_iff in Hn. lia. Qed.
Definition inexact (k : qkind) : bool := match k with QExact _ => false | _ => true end.
Lemma kind_back k g : inexact k = true -> kind_ok k = true ->
  exists k', inexact k' = true /\ kind_ok k' = true /\ show_kind k' ++ show_greed g = quant_expr (kind_min k) (umax_of (kind_max k)) (show_greed g)
    /\ kind_min k' = kind_min k /\ umax_of (kind_max k') = umax_of (kind_max k).
Proof.
  intros I K. set (mn := kind_min k). set (mx := umax_of (kind_max k)).
  assert (B : (mn < 4294967295 /\ (mx = UMAX \/ (mx < 4294967295 /\ mn <= mx)))%N).
  { subst mn mx. destruct k as [| | |n|n|n m]; cbn [kind_min kind_max umax_of kind_ok inexact] in *; try discriminate I; try (split; [reflexivity|]; auto).
    - right. lia.
    - split; [now apply num_lt|auto].
    - rewrite !andb_true_iff in K. destruct K as [[K1 K2] K3]. split; [now apply num_lt|right]. split; [now apply num_lt|lia]. }
  destruct B as [B1 B2]. unfold quant_expr.
  destruct (N.eqb_spec mn 0) as [E0|E0]; destruct (N.eqb_spec mx UMAX) as [EM|EM]; cbn [andb].
  - exists QStar. rewrite E0, EM. conj; reflexivity.
  - destruct (N.eqb_spec mn 1) as [E1|E1]; [lia|]. cbn [andb]. destruct (N.eqb_spec mx 1) as [M1|M1].
    + exists QOpt. rewrite E0, M1. conj; reflexivity.
    + destruct B2 as [B2|[B2 B3]]; [contradiction|]. destruct (num_back mn B1) as (d1 & S1 & O1 & V1), (num_back mx B2) as (d2 & S2 & O2 & V2).
      exists (QMinMax d1 d2). cbn [inexact kind_ok show_kind kind_min kind_max umax_of]. rewrite S1, S2, O1, O2. conj; auto; lia.
  - destruct (N.eqb_spec mn 1) as [E1|E1]; cbn [andb].
    + exists QPlus. rewrite E1, EM. conj; reflexivity.
    + destruct (num_back mn B1) as (d1 & S1 & O1 & V1). exists (QMin d1). cbn [inexact kind_ok show_kind kind_min kind_max umax_of]. rewrite S1, EM. conj; auto; lia.
  - destruct B2 as [B2|[B2 B3]]; [contradiction|]. rewrite andb_false_r. destruct (num_back mn B1) as (d1 & S1 & O1 & V1), (num_back mx B2) as (d2 & S2 & O2 & V2).
    exists (QMinMax d1 d2). cbn [inexact kind_ok show_kind kind_min kind_max umax_of]. rewrite S1, S2, O1, O2. conj; auto; lia.
Qed.

(** * Sequences *)
Definition kid (t : option node) : list node := match t with None => [] | Some n => [n] end.
Definition opt0 (l : list node) : list node := map (fun c => optimize c []) l.
Fixpoint tl (s : sq) (t : option node) : option node :=
  match s with SNil => t | SCons a q s' => Some (followed (tree_quant q (tree_atom a)) (tl s' t)) end.
Lemma tl_none s : tl s None = tree_sq s.
Proof. induction s; cbn; [reflexivity|]. now rewrite IHs. Qed.
Lemma tl_dollar s : tl s (Some (Simple (Term TEnd) [])) = Some (tree_sq_d s).
Proof. induction s; cbn; [reflexivity|]. now rewrite IHs. Qed.
Definition texts (l : list node) : str := flat_map nexpr (opt0 l).
Lemma opt_inj n : forall i1 i2, map nadm i1 = map nadm i2 -> optimize n i1 = optimize n i2.
Proof.
  induction n using node_ind'; intros i1 i2 E; cbn [optimize]; try reflexivity.
  - destruct cs as [|c [|c2 cs]]; try reflexivity. inversion H; subst. auto.
  - destruct cs as [|c cs]; [auto|]. now rewrite (IHn i1 i2 E).
  - now rewrite !map_app, E.
  - now rewrite !map_app, E.
  - f_equal. apply IHn. now rewrite !map_app, E.
Qed.
Lemma same_nadm (l l' : list node) : opt0 l' = opt0 l -> map nadm l' = map nadm l.
Proof. intro E. unfold opt0 in E. rewrite <- (map_nadm_opt l), <- (map_nadm_opt l'), E. reflexivity. Qed.
Lemma one_nadm n m : optimize n [] = optimize m [] -> nadm n = nadm m.
Proof. intro E. rewrite <- (optimize_nadm n []), <- (optimize_nadm m []), E. reflexivity. Qed.

(** What the induction shows. *)
Definition okr (r : rx) : bool := wf r && all_elems writable_elem r && no_non r.
Definition P_rx (r : rx) : Prop := forall inj, okr r = true ->
  (exists r', wf r' = true /\ show r' = nexpr (optimize (SimpleV (tree_bs r)) inj)
    /\ (forall inj', map nadm inj' = map nadm inj -> optimize (SimpleV (tree_bs r')) inj' = optimize (SimpleV (tree_bs r)) inj)
    /\ caps r' = caps r
    /\ (all_elems steady_elem r = true -> forall i g, caps (renumber_in i r' g) = caps (renumber_in i r g) /\ nx (renumber_in i r' g) = nx (renumber_in i r g)))
  /\ (exists r', wf r' = true /\ show r' = join_bar (map (fun e => nc_open ++ e ++ [c_rpar]) (map nexpr (opt0 (tree_bs r))))
    /\ opt0 (tree_bs r') = opt0 (tree_bs r) /\ caps r' = caps r
    /\ (all_elems steady_elem r = true -> forall i g, caps (renumber_in i r' g) = caps (renumber_in i r g) /\ nx (renumber_in i r' g) = nx (renumber_in i r g))).
Definition P_br (b : br) : Prop := forall inj, wf_br b && all_br writable_elem b && no_non_br b = true ->
  exists b', wf_br b' = true /\ show_br b' = nexpr (optimize (tree_br b) inj)
    /\ (forall inj', map nadm inj' = map nadm inj -> optimize (tree_br b') inj' = optimize (tree_br b) inj)
    /\ caps_br b' = caps_br b
    /\ (all_br steady_elem b = true -> forall g, caps_br (renumber_br b' g) = caps_br (renumber_br b g) /\ nx_br (renumber_br b' g) = nx_br (renumber_br b g)).
Definition P_sq (s : sq) : Prop := forall t inj, wf_sq s && all_sq writable_elem s && no_non_sq s = true ->
  (s = SNil -> inj = []) ->
  exists s', wf_sq s' = true /\ (s' = SNil <-> s = SNil)
    /\ show_sq s' ++ texts (kid t) = flat_map nexpr (map (fun c => optimize c inj) (kid (tl s t)))
    /\ (forall t' inj', opt0 (kid t') = opt0 (kid t) -> map nadm inj' = map nadm inj ->
          map (fun c => optimize c inj') (kid (tl s' t')) = map (fun c => optimize c inj) (kid (tl s t)))
    /\ caps_sq s' = caps_sq s
    /\ (all_sq steady_elem s = true -> forall g, caps_sq (renumber_sq s' g) = caps_sq (renumber_sq s g) /\ nx_sq (renumber_sq s' g) = nx_sq (renumber_sq s g)).
Definition same_head (a a' : atom) : Prop := match a, a' with ACap i _, ACap j _ => i = j | ACap _ _, _ => False | _, ACap _ _ => False | _, _ => True end.
Definition P_atom (a : atom) : Prop := forall rest inj, wf_atom a && all_atom writable_elem a && no_non_atom a = true ->
  exists a', wf_atom a' = true
    /\ show_atom a' ++ texts (kid rest) = nexpr (optimize (followed (tree_atom a) rest) inj)
    /\ (forall rest' inj', opt0 (kid rest') = opt0 (kid rest) -> map nadm inj' = map nadm inj ->
          optimize (followed (tree_atom a') rest') inj' = optimize (followed (tree_atom a) rest) inj)
    /\ caps_atom a' = caps_atom a /\ same_head a a'
    /\ (all_atom steady_elem a = true -> forall g, caps_atom (renumber_atom a' g) = caps_atom (renumber_atom a g)
          /\ nx_atom (renumber_atom a' g) = nx_atom (renumber_atom a g) /\ after_atom (renumber_atom a' g) g = after_atom (renumber_atom a g) g).
Lemma texts_one c : texts [c] = nexpr (optimize c []).
Proof. unfold texts. cbn. apply app_nil_r. Qed.
Lemma tail_texts t : tail_expr (map nexpr (opt0 (kid t))) = texts (kid t).
Proof. destruct t; cbn; [now rewrite app_nil_r|reflexivity]. Qed.
Lemma children_texts t : children_expr (map nexpr (opt0 (kid t))) = texts (kid t).
Proof. destruct t; cbn; [now rewrite app_nil_r|reflexivity]. Qed.
Lemma fol_simple m t : followed (Simple m []) t = Simple m (kid t). Proof. destruct t; reflexivity. Qed.
Lemma fol_group m i t : followed (Group m i []) t = Group m i (kid t). Proof. destruct t; reflexivity. Qed.
Lemma fol_rep m k t : followed (Repeated m k []) t = Repeated m k (kid t). Proof. destruct t; reflexivity. Qed.
Definition qn (p : pol) (m : node) (mn mx : N) (cs : list node) : node :=
  match p with PGreedy => Greedy m mn mx cs | PLazy => Lazy m mn mx cs | PPoss => Possessive m mn mx cs end.
Lemma fol_q p m mn mx t : followed (mkq p m mn mx) t = qn p m mn mx (kid t). Proof. destruct p, t; reflexivity. Qed.
Definition greed_of (p : pol) : greed := match p with PGreedy => Gr | PLazy => Lz | PPoss => Po end.
(** A quantified node after optimisation: which policy it has does not depend on more than the first sets. *)
Lemma opt_qn p m mn mx cs inj : exists p', optimize (qn p m mn mx cs) inj = qn p' (optimize m []) mn mx (opt0 cs)
  /\ forall m' cs' inj', optimize m' [] = optimize m [] -> opt0 cs' = opt0 cs -> map nadm inj' = map nadm inj ->
     optimize (qn p' m' mn mx cs') inj' = qn p' (optimize m []) mn mx (opt0 cs).
Proof.
  destruct p; cbn [qn optimize].
  - destruct (adm_empty (adm_inter (nadm m) (extract_adm (map nadm (cs ++ inj))))) eqn:E.
    + exists PPoss. split; [reflexivity|]. intros m' cs' inj' A B C. cbn [qn optimize]. fold (opt0 cs'). now rewrite A, B.
    + exists PGreedy. split; [reflexivity|]. intros m' cs' inj' A B C. cbn [qn optimize]. fold (opt0 cs'). rewrite (one_nadm _ _ A), map_app, (same_nadm _ _ B), C, <- map_app, E, A, B. reflexivity.
  - destruct (adm_empty (adm_inter (nadm (Lazy m mn mx cs)) (extract_adm (map nadm (cs ++ inj))))) eqn:E.
    + exists PPoss. split; [reflexivity|]. intros m' cs' inj' A B C. cbn [qn optimize]. fold (opt0 cs'). now rewrite A, B.
    + exists PLazy. split; [reflexivity|]. intros m' cs' inj' A B C. cbn [qn optimize]. fold (opt0 cs'). cbn [nadm] in *.
      rewrite (one_nadm _ _ A), !map_app, (same_nadm _ _ B), C, <- map_app, E, A, B. reflexivity.
  - exists PPoss. split; [reflexivity|]. intros m' cs' inj' A B C. cbn [qn optimize]. fold (opt0 cs'). now rewrite A, B.
Qed.
Lemma qn_expr p m mn mx cs : nexpr (qn p m mn mx cs) = nexpr m ++ quant_expr mn mx (show_greed (greed_of p)) ++ tail_expr (map nexpr cs).
Proof. destruct p; reflexivity. Qed.
Lemma pol_greed p : pol_of (greed_of p) = p. Proof. destruct p; reflexivity. Qed.
Lemma exact_or k : inexact k = true \/ exists n, k = QExact n.
Proof. destruct k; eauto. Qed.
Lemma tree_inexact k g m : inexact k = true -> tree_quant (QQ k g) m = mkq (pol_of g) m (kind_min k) (umax_of (kind_max k)).
Proof. destruct k; (discriminate || reflexivity). Qed.
Lemma back_all : (forall r, P_rx r) /\ (forall b, P_br b) /\ (forall s, P_sq s) /\ (forall a, P_atom a).
Proof.
  apply rx_all_ind.
  - (* ROne *)
    intros b Hb inj H. unfold okr in H. cbn [wf all_elems no_non] in H. split.
    + destruct (Hb inj H) as (b' & A & B & C & D & E). exists (ROne b'). cbn [wf show tree_bs caps all_elems renumber_in nx]. split; [exact A|]. split; [exact B|]. split; [exact C|]. split; [exact D|]. intros S i g. now apply E.
    + destruct (Hb [] H) as (b' & A & B & C & D & E). exists (ROne (Br false (SCons (ANon (ROne b')) Q1 SNil))).
      cbn [wf wf_br wf_sq wf_atom show show_br show_sq show_atom show_quant tree_bs tree_br tree_sq tree_quant tree_atom followed caps caps_br caps_sq caps_atom quant_ok opt0 map optimize join_bar].
      rewrite A. split; [reflexivity|]. rewrite B, (C [] eq_refl), D, !app_nil_r. split; [reflexivity|]. split; [reflexivity|]. split; [reflexivity|].
      intros S i g. destruct (E S g) as [E1 E2]. cbn [renumber_in renumber_br renumber_sq renumber_atom caps caps_br caps_sq caps_atom nx nx_br nx_sq nx_atom]. rewrite E1, E2, app_nil_r. split; [reflexivity|lia].
  - (* ROr *)
    intros b Hb r Hr inj H. unfold okr in H. cbn [wf all_elems no_non] in H.
    assert (H1 : wf_br b && all_br writable_elem b && no_non_br b = true) by lia. assert (H2 : okr r = true) by (unfold okr; lia).
    destruct (Hb [] H1) as (b' & A & B & C & D & E). destruct (Hr [] H2) as [_ (r' & A2 & B2 & C2 & D2 & E2)].
    set (rr := ROr (Br false (SCons (ANon (ROne b')) Q1 SNil)) r').
    assert (X : wf rr = true /\ show rr = join_bar (map (fun e => nc_open ++ e ++ [c_rpar]) (map nexpr (opt0 (tree_bs (ROr b r)))))
      /\ opt0 (tree_bs rr) = opt0 (tree_bs (ROr b r)) /\ caps rr = caps (ROr b r)
      /\ (all_elems steady_elem (ROr b r) = true -> forall i g, caps (renumber_in i rr g) = caps (renumber_in i (ROr b r) g) /\ nx (renumber_in i rr g) = nx (renumber_in i (ROr b r) g))).
    { subst rr. split; [cbn [wf wf_br wf_sq wf_atom quant_ok]; rewrite A, A2; reflexivity|]. split.
      { cbn [show show_br show_sq show_atom show_quant app tree_bs opt0 map join_bar]. change (map (fun c => optimize c []) (tree_bs r)) with (opt0 (tree_bs r)). rewrite B2, B.
        destruct (map (fun e => nc_open ++ e ++ [c_rpar]) (map nexpr (opt0 (tree_bs r)))) as [|e l] eqn:Z; [destruct r; discriminate Z|]. unfold nc_open. cbn [app]. rewrite !app_nil_r. rewrite <- !app_assoc. reflexivity. }
      split; [cbn [tree_bs tree_br tree_sq tree_quant tree_atom followed opt0 map optimize]; fold (opt0 (tree_bs r)) (opt0 (tree_bs r')); rewrite (C [] eq_refl), C2; reflexivity|].
      split; [cbn [caps caps_br caps_sq caps_atom]; rewrite D, D2, app_nil_r; reflexivity|].
      cbn [all_elems]. intros S i g. apply andb_true_iff in S as [S1 S2]. destruct (E S1 g) as [E1 E3].
      cbn [renumber_in renumber_br renumber_sq renumber_atom]. cbn zeta. cbn [caps caps_br caps_sq caps_atom nx nx_br nx_sq nx_atom].
      rewrite Nat.max_0_r, app_nil_r, E1, E3. destruct (E2 S2 i (if i then g else nx_br (renumber_br b g))) as [F1 F2]. rewrite F1, F2. auto. }
    destruct X as (X1 & X2 & X3 & X4 & X5). split; [|exists rr; auto]. exists rr. split; [exact X1|].
    assert (Sh : forall r inj, (match r with ROr _ _ => True | _ => False end) -> optimize (SimpleV (tree_bs r)) inj = SimpleV (opt0 (tree_bs r))) by (intros [|? []] ? []; reflexivity).
    assert (Sh2 : match rr with ROr _ _ => True | _ => False end) by exact Logic.I. rewrite (Sh (ROr b r) inj Logic.I). split.
    { rewrite X2. cbn [nexpr]. unfold children_expr. destruct (map nexpr (opt0 (tree_bs (ROr b r)))) as [|e [|e2 l]] eqn:Z; [destruct r; discriminate Z|destruct r; discriminate Z|reflexivity]. }
    split; [|split; [exact X4|exact X5]]. intros inj' _. rewrite (Sh rr inj' Sh2), X3. reflexivity.
  - (* Br *)
    intros a s Hs inj H. cbn [wf_br all_br no_non_br] in H. assert (N : s <> SNil) by (intros ->; discriminate H).
    assert (H1 : wf_sq s && all_sq writable_elem s && no_non_sq s = true) by (destruct s; [congruence|exact H]).
    destruct a.
    + destruct (Hs None [] H1 (fun _ => eq_refl)) as (s' & A & B & C & D & E & F). exists (Br true s'). rewrite tl_none in *. specialize (D None [] eq_refl eq_refl). rewrite !tl_none in D.
      assert (N' : s' <> SNil) by (rewrite B; exact N). destruct (tree_sq s) as [n|] eqn:T; [|destruct s; [congruence|discriminate T]]. destruct (tree_sq s') as [n'|] eqn:T'; [|destruct s'; [congruence|discriminate T']].
      cbn [kid map] in C, D. injection D as D. cbn [texts opt0 map flat_map] in C. rewrite !app_nil_r in C.
      split; [cbn [wf_br]; destruct s'; [congruence|exact A]|]. cbn [tree_br show_br]. rewrite T, T'. cbn [followed app optimize map term_optimize nexpr term_expr tail_expr children_expr].
      split; [now rewrite C|]. split; [intros; now rewrite D|]. split; [exact E|]. intros S g. cbn [renumber_br caps_br nx_br]. now apply F.
    + destruct (Hs None inj H1 ltac:(congruence)) as (s' & A & B & C & D & E & F). exists (Br false s'). rewrite tl_none in *.
      assert (N' : s' <> SNil) by (rewrite B; exact N). destruct (tree_sq s) as [n|] eqn:T; [|destruct s; [congruence|discriminate T]].
      cbn [texts opt0 map flat_map kid] in C. rewrite !app_nil_r in C.
      split; [cbn [wf_br]; destruct s'; [congruence|exact A]|]. cbn [tree_br show_br app]. rewrite T. split; [exact C|]. split.
      { intros inj' I. specialize (D None inj' eq_refl I). rewrite tl_none in D. destruct (tree_sq s') as [n'|] eqn:T'; [|destruct s'; [congruence|discriminate T']]. cbn [kid map] in D. now injection D. }
      split; [exact E|]. intros S g. cbn [renumber_br caps_br nx_br]. now apply F.
  - (* SNil *)
    intros t inj _ I. rewrite (I eq_refl) in *. exists SNil. split; [reflexivity|]. split; [tauto|]. split; [reflexivity|]. split; [|split; [reflexivity|intros _ g; split; reflexivity]]. intros t' inj' A B. apply map_eq_nil in B. subst inj'. exact A.
  - (* SCons *)
    intros a Ha q s Hs t inj H _. cbn [wf_sq all_sq no_non_sq] in H. assert (H1 : wf_atom a && all_atom writable_elem a && no_non_atom a = true) by lia. assert (H2 : wf_sq s && all_sq writable_elem s && no_non_sq s = true) by lia.
    assert (Q : quant_ok q = true) by lia. destruct (Hs t [] H2 (fun _ => eq_refl)) as (s' & A & B & C & D & E & F).
    assert (C' : show_sq s' ++ texts (kid t) = texts (kid (tl s t))) by exact C.
    assert (D' : forall t', opt0 (kid t') = opt0 (kid t) -> opt0 (kid (tl s' t')) = opt0 (kid (tl s t))) by (intros t' X; apply (D t' [] X eq_refl)).
    assert (NUM : forall a' q' , same_head a a' -> (q = Q1 <-> q' = Q1) ->
       (all_atom steady_elem a = true -> forall g, caps_atom (renumber_atom a' g) = caps_atom (renumber_atom a g) /\ nx_atom (renumber_atom a' g) = nx_atom (renumber_atom a g) /\ after_atom (renumber_atom a' g) g = after_atom (renumber_atom a g) g) ->
       all_sq steady_elem (SCons a q s) = true -> forall g, caps_sq (renumber_sq (SCons a' q' s') g) = caps_sq (renumber_sq (SCons a q s) g) /\ nx_sq (renumber_sq (SCons a' q' s') g) = nx_sq (renumber_sq (SCons a q s) g)).
    { intros a' q' SH QQ' NA S g. cbn [all_sq] in S. apply andb_true_iff in S as [S1 S2]. destruct (NA S1 g) as (N1 & N2 & N3). cbn [renumber_sq]. cbn zeta. rewrite N3.
      destruct (F S2 (after_atom (renumber_atom a g) g)) as [F1 F2]. cbn [caps_sq nx_sq]. rewrite N1, F1. split; [reflexivity|].
      destruct a, a'; cbn in SH; try contradiction; cbn [renumber_atom] in *; rewrite ?N2, ?F2; auto.
      destruct q, q'; try reflexivity; try (destruct QQ' as [Z1 Z2]; (specialize (Z1 eq_refl); discriminate) || (specialize (Z2 eq_refl); discriminate)). }
    destruct q as [|k g].
    + (* Q1 *)
      destruct (Ha (tl s t) inj H1) as (a' & A1 & A2 & A3 & A4 & A5 & A6). exists (SCons a' Q1 s'). cbn [wf_sq]. rewrite A1, A. split; [reflexivity|]. split; [split; discriminate|].
      cbn [show_sq show_quant app tl kid map flat_map tree_quant]. split; [rewrite <- app_assoc, C', A2, app_nil_r; reflexivity|].
      split; [intros t' inj' X Y; f_equal; apply A3; [now apply D'|exact Y]|]. split; [cbn [caps_sq]; now rewrite A4, E|]. apply NUM; auto. tauto.
    + destruct (Ha None [] H1) as (a' & A1 & A2 & A3 & A4 & A5 & A6). cbn [texts kid opt0 map flat_map followed] in A2, A3. rewrite app_nil_r in A2.
      assert (A3' : optimize (tree_atom a') [] = optimize (tree_atom a) []) by (apply (A3 None []); reflexivity).
      destruct (exact_or k) as [I|(ds & ->)].
      * assert (K : kind_ok k = true) by (destruct k; try discriminate I; exact Q).
        destruct (opt_qn (pol_of g) (tree_atom a) (kind_min k) (umax_of (kind_max k)) (kid (tl s t)) inj) as (p' & O1 & O2).
        destruct (kind_back k (greed_of p') I K) as (k' & I' & K' & S' & M1 & M2). exists (SCons a' (QQ k' (greed_of p')) s').
        assert (Q' : quant_ok (QQ k' (greed_of p')) = true) by (destruct k'; try discriminate I'; exact K').
        cbn [wf_sq]. rewrite A1, A, Q'. split; [reflexivity|]. split; [split; discriminate|].
        cbn [show_sq show_quant app tl kid map flat_map]. rewrite (tree_inexact k g _ I), fol_q, O1. split.
        { rewrite qn_expr, tail_texts, <- A2, app_nil_r, <- !app_assoc, C'. f_equal. rewrite app_assoc, S'. reflexivity. }
        split.
        { intros t' inj' X Y. f_equal. rewrite (tree_inexact k' _ _ I'), fol_q, pol_greed, M1, M2. apply O2; auto. }
        split; [cbn [caps_sq]; now rewrite A4, E|]. apply NUM; auto. split; discriminate.
      * cbn [quant_ok] in Q. apply andb_true_iff in Q as [Q1' Q2']. destruct (num_back (Z.to_N (num_val ds)) (num_lt ds Q1')) as (ds' & S' & O' & V').
        exists (SCons a' (QQ (QExact ds') Gr) s'). cbn [wf_sq quant_ok]. rewrite A1, A, O'. split; [reflexivity|]. split; [split; discriminate|].
        cbn [show_sq show_quant show_kind show_greed tl kid map flat_map tree_quant]. rewrite fol_rep. split.
        { cbn [optimize nexpr]. fold (opt0 (kid (tl s t))). rewrite tail_texts, <- A2, S', !app_nil_r, <- !app_assoc, C'. reflexivity. }
        split.
        { intros t' inj' X Y. f_equal. rewrite fol_rep. cbn [optimize]. fold (opt0 (kid (tl s t))) (opt0 (kid (tl s' t'))). rewrite A3', (D' t' X). f_equal. now rewrite V', N2Z.id. }
        split; [cbn [caps_sq]; now rewrite A4, E|]. apply NUM; auto. split; discriminate.
  - (* AEl *)
    intros x rest inj H. cbn [wf_atom all_atom no_non_atom] in H. rewrite andb_true_r in H. apply andb_true_iff in H as [HX HW]. destruct (elem_back x HX HW) as (y & A & B & C & D). exists (AEl y). cbn [wf_atom show_atom tree_atom caps_atom same_head renumber_atom nx_atom all_atom]. split; [exact A|].
    assert (OPT : forall z r i, optimize (followed (tree_elem z) r) i = match kid r with [] => unode z | cs => Simple (unode z) (opt0 cs) end).
    { intros z r i. rewrite tree_body, fol_simple. destruct r; cbn [kid optimize]; now rewrite opt_body. }
    rewrite OPT. split; [destruct rest; cbn [kid]; [cbn [nexpr]; change [n] with (kid (Some n)); rewrite tail_texts, B; reflexivity|cbn; rewrite app_nil_r; exact B]|].
    split; [|split; [reflexivity|split; [exact Logic.I|intros S g; split; [reflexivity|split; [reflexivity|exact (D S g)]]]]].
    intros rest' inj' X Y. rewrite OPT, C. destruct rest, rest'; cbn [kid] in *; try discriminate X; [now rewrite X|reflexivity].
  - (* ACap *)
    intros i r Hr rest inj H. cbn [wf_atom all_atom no_non_atom] in H. destruct (Hr (kid rest ++ inj) H) as [(r' & A & B & C & D & E) _]. exists (ACap i r').
    cbn [wf_atom show_atom tree_atom caps_atom same_head renumber_atom nx_atom all_atom after_atom]. split; [exact A|]. rewrite fol_group. change (optimize (Group (SimpleV (tree_bs r)) i (kid rest)) inj) with (Group (optimize (SimpleV (tree_bs r)) (kid rest ++ inj)) i (opt0 (kid rest))). cbn [nexpr]. rewrite children_texts. split; [rewrite <- B, <- !app_assoc; reflexivity|].
    split.
    { intros rest' inj' X Y. rewrite fol_group. change (optimize (Group (SimpleV (tree_bs r')) i (kid rest')) inj') with (Group (optimize (SimpleV (tree_bs r')) (kid rest' ++ inj')) i (opt0 (kid rest'))). rewrite X. f_equal. apply C. rewrite !map_app, Y. f_equal. now apply same_nadm. }
    split; [now rewrite D|]. split; [reflexivity|]. intros S g. destruct (E S true (g + 1)%nat) as [E1 _]. rewrite E1. auto.
  - (* ANon *)
    intros r _ rest inj H. cbn [no_non_atom] in H. rewrite andb_false_r in H. discriminate H.
Qed.

(** * The whole pattern *)
Lemma renumber_idem :
  (forall r i g, renumber_in i (renumber_in i r g) g = renumber_in i r g)
  /\ (forall b g, renumber_br (renumber_br b g) g = renumber_br b g)
  /\ (forall s g, renumber_sq (renumber_sq s g) g = renumber_sq s g)
  /\ (forall a g, renumber_atom (renumber_atom a g) g = renumber_atom a g).
Proof.
  apply rx_all_ind; cbn [renumber_in renumber_br renumber_sq renumber_atom]; cbn zeta; intros; try reflexivity; rewrite ?H, ?H0; reflexivity.
Qed.
Lemma renumber_dom p :
  (forall r i g, all_elems p (renumber_in i r g) = all_elems p r /\ no_non (renumber_in i r g) = no_non r)
  /\ (forall b g, all_br p (renumber_br b g) = all_br p b /\ no_non_br (renumber_br b g) = no_non_br b)
  /\ (forall s g, all_sq p (renumber_sq s g) = all_sq p s /\ no_non_sq (renumber_sq s g) = no_non_sq s)
  /\ (forall a g, all_atom p (renumber_atom a g) = all_atom p a /\ no_non_atom (renumber_atom a g) = no_non_atom a).
Proof.
  apply rx_all_ind; cbn [renumber_in renumber_br renumber_sq renumber_atom all_elems all_br all_sq all_atom no_non no_non_br no_non_sq no_non_atom]; cbn zeta; intros;
  repeat match goal with H : forall _ _, _ /\ _ |- _ => pose proof (fun i g => proj1 (H i g)); pose proof (fun i g => proj2 (H i g)); clear H
                    | H : forall _, _ /\ _ |- _ => pose proof (fun g => proj1 (H g)); pose proof (fun g => proj2 (H g)); clear H end;
  split; try reflexivity; repeat match goal with H : _ |- _ => rewrite H end; reflexivity.
Qed.
Lemma back_number r r' : caps r' = caps r -> renumber r = r ->
  (all_elems steady_elem r = true -> forall i g, caps (renumber_in i r' g) = caps (renumber_in i r g) /\ nx (renumber_in i r' g) = nx (renumber_in i r g)) ->
  all_elems steady_elem r || match caps r with [] => true | _ => false end = true -> renumber r' = r'.
Proof.
  intros C R N S. apply (proj1 caps_eq). destruct (all_elems steady_elem r).
  - rewrite (proj1 (N eq_refl false 0%nat)). fold (renumber r). now rewrite R.
  - cbn [orb] in S. pose proof (proj1 caps_length r' false 0%nat) as L. rewrite C in *. destruct (caps r); [|discriminate S]. now destruct (caps (renumber_in false r' 0)).
Qed.
Theorem roundtrip r n : wf r = true -> writable r = true -> compile (show r) = Some n -> compile (get_expression n) = Some n.
Proof.
  intros W D C. assert (n = optimize (tree (renumber r)) []) as -> by (rewrite compile_eq, (parse_show r W) in C; cbn [option_map] in C; congruence). clear C. unfold get_expression. unfold writable in D. rewrite !andb_true_iff in D. destruct D as [[D1 D2] D3].
  pose proof (proj1 (renumber_dom writable_elem) r false 0%nat) as [R1 R2]. pose proof (proj1 (renumber_dom steady_elem) r false 0%nat) as [R3 _]. fold (renumber r) in *.
  assert (W' : wf (renumber r) = true) by (unfold renumber; now rewrite (proj1 renumber_wf)).
  assert (O : okr (renumber r) = true) by (unfold okr; now rewrite W', R1, R2, D1, D2).
  destruct (proj1 (proj1 back_all (renumber r) [] O)) as (r' & A1 & A2 & A3 & A4 & A5). change (SimpleV (tree_bs (renumber r))) with (tree (renumber r)) in A2, A3. rewrite <- A2, compile_eq, (parse_show r' A1).
  rewrite (back_number (renumber r) r' A4 (proj1 renumber_idem r false 0%nat) A5).
  - f_equal. exact (A3 [] eq_refl).
  - rewrite R3. pose proof (proj1 caps_length r false 0%nat) as L. fold (renumber r) in L. destruct (caps r), (caps (renumber r)); try discriminate L; exact D3.
Qed.
Theorem roundtrip_d b n : wf (ROne b) = true -> writable (ROne b) = true -> compile (show_d (ROne b)) = Some n -> compile (get_expression n) = Some n.
Proof.
  intros W D C. rewrite (compile_d _ W) in C. injection C as <-. unfold writable in D. rewrite !andb_true_iff in D. destruct D as [[D1 D2] D3].
  pose proof (proj1 (renumber_dom writable_elem) (ROne b) false 0%nat) as [R1 R2]. pose proof (proj1 (renumber_dom steady_elem) (ROne b) false 0%nat) as [R3 _]. 
  assert (W' : wf (renumber (ROne b)) = true) by (unfold renumber; now rewrite (proj1 renumber_wf)). fold (renumber (ROne b)) in *.
  pose proof (proj1 renumber_idem (ROne b) false 0%nat) as ID. fold (renumber (ROne b)) in ID.
  assert (D3' : all_elems steady_elem (renumber (ROne b)) || match caps (renumber (ROne b)) with [] => true | _ => false end = true).
  { rewrite R3. pose proof (proj1 caps_length (ROne b) false 0%nat) as L. fold (renumber (ROne b)) in L. destruct (caps (ROne b)), (caps (renumber (ROne b))); try discriminate L; exact D3. }
  unfold ctree_d. rewrite D1 in R1. rewrite D2 in R2. clear -W' R1 R2 ID D3'. assert (E : exists b0, renumber (ROne b) = ROne b0) by (eexists; reflexivity). destruct E as (b0 & E). rewrite E in *. clear E b. destruct b0 as [a s].
  cbn [wf wf_br] in W'. assert (N : s <> SNil) by (intros ->; discriminate W'). assert (H1 : wf_sq s && all_sq writable_elem s && no_non_sq s = true).
  { cbn [all_elems all_br no_non no_non_br] in R1, R2. rewrite R1, R2. destruct s; [congruence|]. rewrite W'. reflexivity. }
  set (t := Some (Simple (Term TEnd) [])). destruct (proj1 (proj2 (proj2 back_all)) s t [] H1 (fun _ => eq_refl)) as (s' & A1 & A2 & A3 & A4 & A5 & A6).
  assert (N' : s' <> SNil) by (rewrite A2; exact N). specialize (A4 t [] eq_refl eq_refl). subst t. rewrite !tl_dollar in *. cbn [kid map texts opt0 flat_map] in A3, A4. injection A4 as A4. rewrite app_nil_r in A3.
  cbn [optimize term_optimize nexpr term_expr map] in A3. rewrite app_nil_r in A3.
  assert (X : optimize (tree_d (ROne (Br a s'))) [] = optimize (tree_d (ROne (Br a s))) []).
  { unfold tree_d. cbn [tree_bs_d]. destruct a; cbn [tree_br_d]; [cbn [followed app optimize map]; now rewrite A4|]. change (optimize (tree_sq_d s') [] = optimize (tree_sq_d s) []). exact A4. }
  assert (Y : get_expression (optimize (tree_d (ROne (Br a s))) []) = show_d (ROne (Br a s'))).
  { unfold get_expression, tree_d. cbn [tree_bs_d show_d show_br]. destruct a; cbn [tree_br_d].
    - cbn [followed app optimize map term_optimize nexpr term_expr tail_expr children_expr]. rewrite <- A3. reflexivity.
    - change (nexpr (optimize (tree_sq_d s) []) = show_sq s' ++ [c_dollar]). now rewrite <- A3. }
  rewrite Y, compile_d by (cbn [wf wf_br]; destruct s'; [congruence|exact A1]). unfold ctree_d. rewrite (back_number (ROne (Br a s)) (ROne (Br a s'))); auto; [now rewrite X|].
  intros S i g. exact (A6 S g).
Qed.
