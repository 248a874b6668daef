(** Patterns of delimited fields that do not end with $: they are handled exactly, and the match
    is the longest one. *)
From Coq Require Import ZArith NArith List Bool Lia ZifyBool ZifyNat ZifyN.
From Verif Require Import Base Text Ast Builder BuilderProofs Engine Api ApiProofs Spec Tree SpecProofs Den Checker CheckerProofs AstProofs Supported Main Mono Sound Anchor Find End EndD SpecFields Fields.
Import ListNotations.
Open Scope nat_scope.

Definition grx (a : bool) (fs : list field) : rx := ROne (Br a (fsq fs 0)).
Lemma prefix_parts fs : prefix_ok fs = true -> forallb fok fs = true /\ spaced fs = true /\ counted false fs = true /\ first_ok fs = true /\ fs <> [].
Proof.
  unfold prefix_ok. rewrite !andb_true_iff. intros [[[A B] C] D]. assert (fs <> []) by (intros ->; discriminate D). auto.
Qed.
Lemma spaced_gaps fs : spaced fs = true -> gaps fs.
Proof.
  induction fs as [|f [|h r] IH]; intro H; [exact Logic.I|split; exact Logic.I|]. cbn [spaced] in H. apply andb_true_iff in H as [H1 H2]. split; [|now apply IH].
  intro R. rewrite R in H1. cbn [negb orb] in H1. now apply andb_true_iff in H1.
Qed.
Lemma show_grx a fs : show (grx a fs) = (if a then [94%Z] else []) ++ show_fields fs.
Proof. unfold grx. cbn [show show_br]. destruct a; rewrite show_fsq; reflexivity. Qed.
Lemma renumber_grx a fs : counted false fs = true -> renumber (grx a fs) = grx a fs.
Proof. intro C. pose proof (renumber_frx fs C) as H. unfold frx, renumber, grx in *. cbn [renumber_in renumber_br] in *. congruence. Qed.
Lemma tree_grx a fs n0 : counted false fs = true -> chain0 fs 0 false = Some n0 -> tree (renumber (grx a fs)) = SimpleV [if a then Simple (Term TStart) [n0] else n0].
Proof. intros C E. rewrite (renumber_grx a fs C). unfold tree, grx. cbn [tree_bs tree_br]. rewrite chain0_n, E. destruct a; reflexivity. Qed.
Lemma ctree_grx a fs n : prefix_ok fs = true -> chain fs 0 false = Some n -> ctree (grx a fs) = if a then Simple (Term TStart) [n] else n.
Proof.
  intros H E. destruct (prefix_parts fs H) as (F & S & C & O & N). destruct (chain0_some fs 0 false N) as (n0 & E0). pose proof (opt_chain fs 0 false F (spaced_gaps fs S)) as X.
  rewrite E0, E in X. cbn [option_map] in X. assert (X' : optimize n0 [] = n) by congruence. unfold ctree. rewrite (tree_grx a fs n0 C E0). destruct a.
  - change (Simple (Term TStart) [optimize n0 []] = Simple (Term TStart) [n]). now rewrite X'.
  - change (optimize n0 [] = n). exact X'.
Qed.
Lemma grx_caps a fs : caps (grx a fs) = seq 0 (ncap fs).
Proof. cbn [grx caps caps_br]. apply caps_fsq. Qed.
Lemma grx_groups a fs n : prefix_ok fs = true -> chain fs 0 false = Some n -> ngroups (ctree (grx a fs)) = ncap fs.
Proof.
  intros H E. rewrite (ctree_grx a fs n H E), ngroups_gidx. pose proof (chain_gidx fs false 0) as X. rewrite E in X. cbn [kids flat_map] in X. rewrite app_nil_r in X. destruct a; [|exact X]. cbn [gidx flat_map]. rewrite app_nil_r. exact X.
Qed.
Lemma wf_grx a fs : fs <> [] -> forallb fok fs = true -> wf (grx a fs) = true.
Proof. intros N F. pose proof (wf_frx fs N F) as H. exact H. Qed.
Theorem grx_exact a fs : prefix_ok fs = true -> exact (grx a fs) = true /\ gex (ctree (grx a fs)) = true.
Proof.
  intro H. destruct (prefix_parts fs H) as (F & S & C & O & N). pose proof (spaced_gaps fs S) as Gp. assert (Ld : lastd false fs) by (intro; discriminate).
  destruct (chain0_some fs 0 false N) as (n0 & E0). pose proof (opt_chain fs 0 false F Gp) as X. rewrite E0 in X. cbn [option_map] in X. symmetry in X.
  destruct (chain_ok (ncap fs) false fs 0 _ F Ld N (Nat.le_refl _) X) as [NG NA NI NS NX]. unfold exact. rewrite (grx_groups a fs _ H X), (ctree_grx a fs _ H X), (tree_grx a fs n0 C E0), (wf_grx a fs N F).
  pose proof (chain_optok fs 0 false n0 F Gp Ld N E0) as OK. pose proof (chain_null fs 0 false _ F Gp O X) as NN. destruct a.
  - assert (K : optok (SimpleV [Simple (Term TStart) [n0]]) [] FTot = true) by (cbn [optok forallb]; rewrite OK; reflexivity).
    rewrite K. split.
    + cbn [andb good is_start accins opt_small forallb]. unfold Checker.eats. rewrite NN, NG, NS. reflexivity.
    + cbn [gex forallb]. rewrite NX. apply orb_true_r.
  - assert (K : optok (SimpleV [n0]) [] FTot = true) by (cbn [optok forallb]; rewrite OK; reflexivity).
    rewrite K, NG, NA, NS. split; [reflexivity|exact NX].
Qed.

(** * The first outcome is the longest *)
Section M.
Variable w : str.
Notation L := (length w).
Definition top (a : outs) : Prop := forall c c0 c', hd_error (a c) = Some c0 -> In c' (a c) -> fst c' <= fst c0.
Definition det (a : outs) : Prop := forall c, a c = [] \/ exists y, a c = [y].
Definition up (a : outs) : Prop := forall c c', In c' (a c) -> fst c <= fst c'.
Lemma det_top a : det a -> top a.
Proof. intros D c c0 c' H I. destruct (D c) as [E|(y & E)]; rewrite E in *; [discriminate|]. cbn in H. injection H as ->. destruct I as [->|[]]. lia. Qed.
Lemma det_chr P : det (chr_o w P).
Proof. intro c. unfold chr_o. destruct (nth_error w (fst c)) as [y|]; [|now left]. destruct (P y); [right; eauto|now left]. Qed.
Lemma up_chr P : up (chr_o w P).
Proof. intros c c'. unfold chr_o. destruct (nth_error w (fst c)) as [y|]; [|intros []]. destruct (P y); [|intros []]. intros [<-|[]]. cbn. lia. Qed.
Lemma det_seq a b : det a -> det b -> det (seq_o a b).
Proof. intros A B c. unfold seq_o. destruct (A c) as [->|(y & ->)]; [now left|]. cbn [flat_map]. rewrite app_nil_r. apply B. Qed.
Lemma det_pow a k : det a -> det (pow_o k a).
Proof. intro A. induction k as [|k IH]; cbn [pow_o]; [intro c; right; unfold eps_o; eauto|]. now apply det_seq. Qed.
Lemma top_seq a b : det a -> top b -> top (seq_o a b).
Proof. intros A B c c0 c'. unfold seq_o. destruct (A c) as [->|(y & ->)]; [discriminate|]. cbn [flat_map]. rewrite app_nil_r. apply B. Qed.
Lemma hd_in {A} (l : list A) x : hd_error l = Some x -> In x l.
Proof. destruct l; [discriminate|]. cbn. intros [= ->]. now left. Qed.
Lemma up_most a k : up a -> up (most_o k a).
Proof.
  intro A. induction k as [|k IH]; intros c c' H; cbn [most_o] in H; [destruct H as [<-|[]]; lia|]. apply in_app_or in H as [H|[<-|[]]]; [|lia].
  apply in_flat_map in H as (y & Hy & H). apply progress_in in Hy as [Hy _]. specialize (A _ _ Hy). specialize (IH _ _ H). lia.
Qed.
Lemma top_most a k : det a -> up a -> top (most_o k a).
Proof.
  intros D U. induction k as [|k IH]; intros c c0 c' H I; cbn [most_o] in H, I; [cbn in H; injection H as ->; destruct I as [->|[]]; lia|].
  destruct (D c) as [E|(y & E)]; rewrite E in *; [cbn in H, I; injection H as ->; destruct I as [->|[]]; lia|].
  unfold progress in *. cbn [filter] in *. destruct (negb (fst y =? fst c)); cbn [flat_map app] in *; [|cbn in H, I; injection H as ->; destruct I as [->|[]]; lia].
  rewrite app_nil_r in *. assert (Uy : fst c <= fst y) by (apply U; rewrite E; now left).
  destruct (most_o k a y) as [|z zs] eqn:M.
  - destruct k; cbn in M; [discriminate|]. now apply app_eq_nil in M as [_ M].
  - cbn [app hd_error] in H. injection H as <-. specialize (IH y z). rewrite M in IH. cbn [hd_error] in IH. apply in_app_or in I as [I|[<-|[]]]; [now apply IH|].
    pose proof (up_most a k U y z) as Z. rewrite M in Z. specialize (Z (or_introl eq_refl)). lia.
Qed.
Lemma top_am a P : top (quant_o w (am_quant a) (chr_o w P)).
Proof. destruct a; cbn [am_quant quant_o rep_o]; auto using det_top, det_chr, top_seq, det_pow, top_most, up_chr. Qed.
Definition fstep (f : field) (g : nat) : outs :=
  if f_cap f then cap_o g (sem w (ROne (Br false (one_sq f)))) else quant_o w (am_quant (f_am f)) (chr_o w (elem_set (f_el f))).
Lemma sem_step f r g c : sem_sq w (fsq (f :: r) g) c = seq_o (fstep f g) (sem_sq w (fsq r (nextg f g))) c.
Proof. unfold fstep, nextg. cbn [fsq]. destruct (f_cap f); reflexivity. Qed.
Lemma one_eps f c : sem w (ROne (Br false (one_sq f))) c = quant_o w (am_quant (f_am f)) (chr_o w (elem_set (f_el f))) c.
Proof.
  cbn [sem sem_br one_sq sem_sq sem_atom]. unfold seq_o. generalize (quant_o w (am_quant (f_am f)) (chr_o w (elem_set (f_el f))) c). intro l.
  induction l as [|x l IH]; [reflexivity|]. cbn [flat_map]. now rewrite IH.
Qed.
Lemma top_step f g : top (fstep f g).
Proof.
  unfold fstep. destruct (f_cap f); [|apply top_am]. intros c c0 c' H I. unfold cap_o in *. rewrite one_eps in *.
  apply in_map_iff in I as (y & <- & I). destruct (quant_o _ _ _ c) as [|z zs] eqn:E; [discriminate|]. cbn in H. injection H as <-. cbn [fst].
  apply (top_am (f_am f) (elem_set (f_el f)) c z y); rewrite E; [reflexivity|exact I].
Qed.
Lemma step_part f g i l j l' : fok f = true -> In (j, l') (fstep f g (i, l)) -> i <= L ->
  (exists u, fits f u /\ j = i + length u /\ j <= L /\ firstn (length u) (skipn i w) = u) /\ l' = (if f_cap f then [(g, (i, j))] else []) ++ l.
Proof.
  intros F H Hi. unfold fstep in H. destruct (f_cap f).
  - unfold cap_o in H. rewrite one_eps in H. apply in_map_iff in H as ([j2 l2] & E & H). cbn [fst snd] in E. injection E as <- <-.
    destruct (unit_part w f i l j2 l2 F H Hi) as (u & A & B & C & D & E). split; [eauto|]. cbn. now subst.
  - destruct (unit_part w f i l j l' F H Hi) as (u & A & B & C & D & E). split; eauto.
Qed.
Lemma hd_flat {A B} (b : A -> list B) l c : hd_error (flat_map b l) = Some c -> exists y, In y l /\ hd_error (b y) = Some c.
Proof.
  induction l as [|x l IH]; cbn [flat_map]; [discriminate|]. destruct (b x) as [|z zs] eqn:E; cbn [app]; intro H.
  - destruct (IH H) as (y & I & Y). exists y. split; [now right|exact Y].
  - exists x. split; [now left|]. rewrite E. exact H.
Qed.
Lemma nth_cut (u : str) i k c : firstn (length u) (skipn i w) = u -> nth_error u k = Some c -> nth_error w (i + k) = Some c.
Proof.
  intros E H. rewrite <- E in H. clear E. revert i H. generalize (length u) as n. intros n i H.
  assert (k < n) by (assert (k < length (firstn n (skipn i w))) by (apply nth_error_Some; congruence); rewrite firstn_length in *; lia).
  rewrite <- (firstn_skipn i w). destruct (Nat.le_gt_cases i L) as [Le|Gt].
  - rewrite nth_error_app2 by (rewrite firstn_length; lia). rewrite firstn_length. replace (i + k - Nat.min i L) with k by lia.
    rewrite <- (firstn_skipn n (skipn i w)). rewrite nth_error_app1; [exact H|]. apply nth_error_Some. congruence.
  - rewrite skipn_all2 in H by lia. rewrite firstn_nil in H. destruct k; discriminate.
Qed.
Hypothesis Hw : Forall (fun c => (-128 <= c <= 127)%Z) w.
Lemma fields_top fs : forall g, forallb fok fs = true -> gaps fs -> forall i l c0 c', i <= L ->
  hd_error (sem_sq w (fsq fs g) (i, l)) = Some c0 -> In c' (sem_sq w (fsq fs g) (i, l)) -> fst c' <= fst c0.
Proof.
  induction fs as [|f r IH]; intros g F G i l c0 c' Hi H I.
  - cbn in H, I. injection H as <-. destruct I as [<-|[]]. lia.
  - cbn [forallb] in F. apply andb_true_iff in F as [F1 F2]. destruct G as [G1 G2]. rewrite sem_step in *. unfold seq_o in *.
    destruct r as [|h r].
    + assert (E : flat_map (sem_sq w (fsq [] (nextg f g))) (fstep f g (i, l)) = fstep f g (i, l)).
      { generalize (fstep f g (i, l)). intro m. induction m as [|x m IHm]; [reflexivity|]. cbn [flat_map]. rewrite IHm. reflexivity. }
      rewrite E in *. exact (top_step f g (i, l) c0 c' H I).
    + apply hd_flat in H as ([j0 l0] & Y0 & H). apply in_flat_map in I as ([j1 l1] & Y1 & I).
      destruct (step_part f g i l j0 l0 F1 Y0 Hi) as ((u0 & U0 & J0 & B0 & E0) & ->). destruct (step_part f g i l j1 l1 F1 Y1 Hi) as ((u1 & U1 & J1 & B1 & E1) & ->).
      assert (SH : forall (v1 v2 : str) m1 x1, fits f v2 -> firstn (length v2) (skipn i w) = v2 -> i + length v1 <= L -> In x1 (sem_sq w (fsq (h :: r) (nextg f g)) (i + length v1, m1)) -> length v1 < length v2 -> is_run f = true -> False).
      { clear - F2 G1 Hw. intros v1 v2 m1 [q m2] K2 Q Hb X Ln Ru. destruct (sem_parts w (h :: r) _ _ _ _ _ F2 X Hb) as (parts & P1 & P2 & P3 & P4 & _).
        destruct (G1 Ru) as [Rq Ap]. inversion P1; subst. cbn [forallb] in F2. apply andb_true_iff in F2 as [F2 _]. destruct (req_head h y F2 Rq H1) as (c & v' & -> & Sc).
        assert (N1 : nth_error w (i + length v1) = Some c).
        { pose proof (nth_cut (concat ((c :: v') :: l')) (i + length v1) 0 c P4 eq_refl) as Z. now rewrite Nat.add_0_r in Z. }
        destruct (nth_error v2 (length v1)) as [c2|] eqn:N2; [|apply nth_error_None in N2; lia]. pose proof (nth_cut v2 i (length v1) c2 Q N2) as N3.
        rewrite N1 in N3. injection N3 as <-. unfold apart in Ap. rewrite forallb_forall in Ap. specialize (Ap c). rewrite (elem_wide _ _ Sc) in Ap. destruct K2 as [K2 _].
        rewrite Forall_forall in K2. rewrite (elem_wide _ _ (K2 c (nth_error_In _ _ N2))) in Ap. discriminate Ap. apply chars_in. rewrite Forall_forall in Hw. apply Hw. exact (nth_error_In _ _ N1). }
      assert (Ln : length u0 = length u1).
      { destruct (is_run f) eqn:R; [|now apply (fixed_len f)]. destruct (Nat.lt_trichotomy (length u0) (length u1)) as [X|[X|X]]; [|exact X|]; exfalso.
        - subst j0. exact (SH u0 u1 _ c0 U1 E1 B0 (hd_in _ _ H) X eq_refl).
        - subst j1. exact (SH u1 u0 _ c' U0 E0 B1 I X eq_refl). }
      assert (j0 = j1) as -> by lia. exact (IH (nextg f g) F2 G2 j1 _ c0 c' B1 H I).
Qed.
End M.

(** * The match at a position *)
Lemma nopos_grx a fs : nopos (grx a fs) = true.
Proof. pose proof (nopos_frx fs) as H. exact H. Qed.
Lemma query_range w : query_ok w -> Forall (fun c => (-128 <= c <= 127)%Z) w.
Proof. intros [Q _]. apply Forall_forall. intros c Hc. rewrite forallb_forall in Q. specialize (Q c Hc). unfold is_char in Q. lia. Qed.
Lemma front_lang w fs i k : forallb fok fs = true -> i <= length w -> front fs (skipn i w) k -> lang w (grx false fs) i (i + k).
Proof.
  intros F Hi (Hk & parts & D & E). rewrite skipn_length in Hk. assert (Ln : length (concat parts) = k) by (rewrite E, firstn_length, skipn_length; lia).
  unfold grx. cbn [lang lang_br]. split; [discriminate|]. rewrite <- Ln. apply parts_lang; [exact F|exact D|rewrite Ln; now symmetry|lia].
Qed.
Lemma fields_match w fs i : prefix_ok fs = true -> query_ok w -> i <= length w ->
  match match_at w (grx false fs) i with
  | Some (j, l) => exists k parts, j = i + k /\ front_most fs (skipn i w) k /\ divides fs parts (firstn k (skipn i w))
      /\ length (spans fs parts i) = ncap fs /\ l = rev (combine (seq 0 (ncap fs)) (spans fs parts i))
  | None => forall k, ~ front fs (skipn i w) k
  end.
Proof.
  intros H Q Hi. destruct (prefix_parts fs H) as (F & S & C & O & N). pose proof (spaced_gaps fs S) as Gp.
  destruct (match_at w (grx false fs) i) as [[j l]|] eqn:M.
  - unfold match_at in M. pose proof (hd_in _ _ M) as I. cbn [grx sem sem_br] in M, I.
    destruct (sem_parts w fs 0 i [] j l F I Hi) as (parts & P1 & P2 & P3 & P4 & P5 & P6). rewrite app_nil_r in P6.
    assert (D : divides fs parts (firstn (length (concat parts)) (skipn i w))) by (split; [exact P1|now symmetry]).
    exists (length (concat parts)), parts. conj; auto. split.
    + split; [rewrite skipn_length; lia|eauto].
    + intros k' Fr. apply front_lang in Fr; auto. apply (sem_complete w (grx false fs) i (i + k') [] (nopos_grx false fs)) in Fr as (l' & Fr); auto.
      cbn [grx sem sem_br] in Fr. pose proof (fields_top w (query_range w Q) fs 0 F Gp i [] _ _ Hi M Fr) as T. cbn [fst] in T. lia.
  - intros k Fr. apply front_lang in Fr; auto. exact (match_at_none w _ i (nopos_grx false fs) M Hi _ Fr).
Qed.
Lemma match_grx w fs : match_at w (grx true fs) 0 = match_at w (grx false fs) 0.
Proof. unfold match_at, grx. cbn [sem sem_br]. unfold seq_o, bol_o. cbn [fst Nat.eqb flat_map]. now rewrite app_nil_r. Qed.
Lemma grx_covers a fs : counted false fs = true -> gex (ctree (grx a fs)) = true -> nats_eqb (caps (renumber (grx a fs))) (caps (grx a fs)) && gex (ctree (grx a fs)) && covers (grx a fs) = true.
Proof.
  intros C G. rewrite G, (renumber_grx a fs C). pose proof (frx_covers fs) as K. unfold frx in K. change (covers (grx a fs)) with (covers (ROne (Br true (fsq fs 0)))). rewrite K, grx_caps. clear.
  rewrite !andb_true_r. generalize (seq 0 (ncap fs)). induction l as [|x l IH]; cbn; [reflexivity|]. now rewrite Nat.eqb_refl, IH.
Qed.
