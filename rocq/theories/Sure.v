(** Soundness alone: on [sure] trees (alternatives, groups and repetitions nested at will) every
    accepted match is in the language of the tree, even where the priorities or completeness
    of the search are lost. *)
From Coq Require Import ZArith NArith List Bool Lia ZifyBool ZifyNat ZifyN.
From Verif Require Import Base Text Ast Builder Engine Api Spec SpecProofs Tree ParseProofs Den AstProofs BuilderProofs EngineRel EngineProofs EngineOk ApiProofs Supported Checker Runs Mono Find End EndD.
Import ListNotations.
Open Scope nat_scope.
Notation mt := Engine.mt.

(** ** The conditions *)
(** One character, and the position stays when it fails. *)
Definition spaced_term (t : term) : bool :=
  match t with TTerminal tok => match term_kind tok with KSelf KSpace => true | _ => false end | _ => false end.
Definition char_term (t : term) : bool := match tset t with Some _ => true | None => false end.
Fixpoint one (n : node) : bool :=
  match n with
  | Term t => char_term t && negb (spaced_term t)
  | SimpleV cs => match cs with [] => false | _ => forallb one cs end
  | Simple m cs => one m && match cs with [] => true | _ => false end
  | Group m _ cs => one m && match cs with [] => true | _ => false end
  | _ => false
  end.
(** The position is unchanged when the match fails. *)
Fixpoint stay (n : node) : bool :=
  match n with
  | Term t => negb (spaced_term t)
  | SimpleV cs => forallb stay cs
  | Simple m _ => stay m
  | Group m _ cs => stay m && match cs with [] => true | _ => false end
  | Possessive m mn _ cs => stay m && (mn <=? 1)%N && match cs with [] => true | _ => false end
  | _ => false
  end.
Definition term_sure (d : bool) (t : term) : bool :=
  char_term t || match t with TStart => true | TEnd => d | _ => false end.
Fixpoint sure (d : bool) (n : node) : bool :=
  match n with
  | Term t => term_sure d t
  | SimpleV cs => forallb (sure d) cs && forallb stay (removelast cs)
  | Simple m cs | Repeated m _ cs | Group m _ cs => sure d m && forallb (sure d) cs && forallb stay (removelast cs)
  | Possessive m mn mx cs => (mn <=? mx)%N && sure d m && forallb (sure d) cs && forallb stay (removelast cs)
  | Greedy m mn mx cs => (mn <=? mx)%N && negb (opt_case m mn mx) && one m && forallb (sure d) cs && forallb stay cs
  | Lazy m mn mx cs => (mn <=? mx)%N && sure d m && forallb (sure d) cs && forallb stay cs
  | Negated m => one m
  end.

(** ** The language of a tree *)
Definition rel := nat -> nat -> Prop.
Definition kidsR (l : list rel) : rel := match l with [] => fun i j => i = j | _ => fun i j => Exists (fun R => R i j) l end.
Definition thenR (a b : rel) : rel := fun i j => exists k, a i k /\ b k j.
Definition within (mn mx : N) (k : nat) : Prop := (mn <= N.of_nat k)%N /\ (mx = UMAX \/ (N.of_nat k <= mx)%N).
Definition manyR (mn mx : N) (a : rel) : rel := fun i j => exists k, within mn mx k /\ pieces a k i j.
Section Lang.
Variable w : str.
Notation L := (length w).
Definition chrR (P : chr -> bool) : rel := fun i j => j = S i /\ exists c, nth_error w i = Some c /\ P c = true.
Definition termR (t : term) : rel :=
  match t with
  | TStart => fun i j => i = 0 /\ j = 0
  | TEnd => fun i j => line_end w i j
  | _ => match tset t with Some P => chrR P | None => fun _ _ => False end
  end.
Fixpoint tl (n : node) : rel :=
  match n with
  | Term t => termR t
  | SimpleV cs => kidsR (map tl cs)
  | Simple m cs | Group m _ cs => thenR (tl m) (kidsR (map tl cs))
  | Greedy m mn mx cs | Lazy m mn mx cs | Possessive m mn mx cs => thenR (manyR mn mx (tl m)) (kidsR (map tl cs))
  | Repeated m k cs => thenR (pieces (tl m) (N.to_nat k)) (kidsR (map tl cs))
  | Negated m => fun i j => i < L /\ j = S i /\ ~ tl m i (S i)
  end.
Lemma kidsR_in cs i j : cs <> [] -> (kidsR (map tl cs) i j <-> exists n, In n cs /\ tl n i j).
Proof.
  intro N. destruct cs as [|c cs]; [congruence|]. cbn [map kidsR]. rewrite Exists_exists. split.
  - intros (R & H & X). change (tl c :: map tl cs) with (map tl (c :: cs)) in H. apply in_map_iff in H as (n & <- & H). eauto.
  - intros (n & H & X). exists (tl n). split; [|exact X]. change (tl c :: map tl cs) with (map tl (c :: cs)). apply in_map_iff. eauto.
Qed.
Lemma kidsR_one n i j : kidsR [tl n] i j <-> tl n i j.
Proof. cbn [kidsR]. rewrite Exists_exists. split; [intros (R & [<-|[]] & X); exact X|intro X; exists (tl n); split; [now left|exact X]]. Qed.
Lemma thenR_nil a i j : thenR a (kidsR []) i j <-> a i j.
Proof. unfold thenR. cbn [kidsR]. split; [intros (k & X & <-); exact X|intro X; exists j; auto]. Qed.
Lemma one_tl n : one n = true -> forall i j, tl n i j -> j = S i.
Proof.
  induction n using node_ind'; cbn [one tl]; try discriminate.
  - intros O i j X. apply andb_true_iff in O as [O _]. unfold char_term in O. destruct (tset t) as [P|] eqn:E; [|discriminate].
    assert (chrR P i j) as [-> _]; [|reflexivity]. destruct t; try (cbn [tset] in E; discriminate); cbn [termR] in X; rewrite E in X; exact X.
  - destruct cs as [|c cs]; [discriminate|]. intros O i j X. apply kidsR_in in X as (n & I & X); [|discriminate]. rewrite Forall_forall in H. rewrite forallb_forall in O. exact (H n I (O n I) i j X).
  - intros O i j X. apply andb_true_iff in O as [O C]. destruct cs; [|discriminate]. cbn [map] in X; apply (proj1 (thenR_nil _ _ _)) in X. exact (IHn O _ _ X).
  - intros O i0 j X. apply andb_true_iff in O as [O C]. destruct cs; [|discriminate]. cbn [map] in X; apply (proj1 (thenR_nil _ _ _)) in X. exact (IHn O _ _ X).
Qed.

(** ** The optimiser keeps the language *)
Lemma pieces_map (a b : rel) : (forall i j, a i j -> b i j) -> forall k i j, pieces a k i j -> pieces b k i j.
Proof. intros H k. induction k as [|k IH]; intros i j X; inversion X; subst; econstructor; eauto. Qed.
Definition same (a b : rel) : Prop := forall i j, a i j <-> b i j.
Lemma same_pieces a b k : same a b -> same (pieces a k) (pieces b k).
Proof. intros H i j. split; apply pieces_map; intros ? ?; apply H. Qed.
Lemma same_many mn mx a b : same a b -> same (manyR mn mx a) (manyR mn mx b).
Proof. intros H i j. unfold manyR. split; intros (k & X & Y); exists k; (split; [exact X|]); now apply (same_pieces a b k H). Qed.
Lemma same_then a a' b b' : same a a' -> same b b' -> same (thenR a b) (thenR a' b').
Proof. intros A B i j. unfold thenR. split; intros (k & X & Y); exists k; (split; [now apply A|now apply B]). Qed.
Lemma same_kids l l' : Forall2 same l l' -> same (kidsR l) (kidsR l').
Proof.
  intros F i j. destruct F as [|a b l l' H F]; [reflexivity|]. cbn [kidsR]. assert (G : Forall2 same (a :: l) (b :: l')) by (constructor; auto). clear H F.
  induction G as [|x y l0 l0' H G IH]; [split; intro X; inversion X|]. split; intro X; inversion X; subst; [left; now apply H|right; now apply IH|left; now apply H|right; now apply IH].
Qed.
Lemma same_refl a : same a a. Proof. intros i j. reflexivity. Qed.
Lemma same_opt0 cs : Forall (fun n => forall inj, same (tl (optimize n inj)) (tl n)) cs ->
  same (kidsR (map tl (map (fun c => optimize c []) cs))) (kidsR (map tl cs)).
Proof. intro F. apply same_kids. induction F as [|n cs H F IH]; cbn [map]; constructor; auto. Qed.
Lemma termR_opt t : same (termR (term_optimize t)) (termR t).
Proof.
  destruct t as [tok|s|a b| |]; try exact (same_refl _). cbn [term_optimize]. destruct (term_kind tok) as [s|a b|k] eqn:E; intros i j; cbn [termR tset]; rewrite ?E; reflexivity.
Qed.
Lemma tl_opt n : forall inj, same (tl (optimize n inj)) (tl n).
Proof.
  induction n using node_ind'; intro inj.
  - cbn [optimize tl]. apply termR_opt.
  - destruct cs as [|c [|c' cs]].
    + apply same_refl.
    + inversion H as [|? ? Hc _]; subst. intros i j. change (optimize (SimpleV [c]) inj) with (optimize c inj). cbn [tl map]. rewrite (Hc inj i j). symmetry. apply kidsR_one.
    + cbn [optimize tl]. now apply same_opt0.
  - destruct cs as [|c cs].
    + intros i j. change (optimize (Simple n []) inj) with (optimize n inj). rewrite (IHn inj i j). cbn [tl map]. symmetry. apply thenR_nil.
    + cbn [optimize tl]. apply same_then; [apply IHn|now apply same_opt0].
  - cbn [optimize]. destruct (adm_empty _); cbn [tl]; (apply same_then; [apply same_many, IHn|now apply same_opt0]).
  - cbn [optimize]. destruct (adm_empty _); cbn [tl]; (apply same_then; [apply same_many, IHn|now apply same_opt0]).
  - cbn [optimize tl]. apply same_then; [apply same_many, IHn|now apply same_opt0].
  - cbn [optimize tl]. apply same_then; [apply same_pieces, IHn|now apply same_opt0].
  - cbn [optimize tl]. apply same_then; [apply IHn|now apply same_opt0].
  - cbn [optimize tl]. intros i j. rewrite (IHn [] i (S i)). reflexivity.
Qed.

(** ** The language of the tree of a pattern *)
Definition restR (r : option node) : rel := match r with Some n => tl n | None => fun i j => i = j end.
Lemma tl_followed u r : childless u -> same (tl (followed u r)) (thenR (tl u) (restR r)).
Proof.
  intros H i j. destruct r as [c|]; cbn [followed restR].
  - destruct u; cbn in H; try contradiction; subst; cbn [app tl map]; rewrite (same_then _ _ _ _ (same_refl _) (kidsR_one c) i j);
      symmetry; (apply same_then; [intros a b; apply thenR_nil|exact (same_refl _)]).
  - symmetry. apply thenR_nil.
Qed.
Lemma termR_set t P : tset t = Some P -> termR t = chrR P.
Proof. intro E. destruct t; try discriminate E; cbn [termR]; now rewrite E. Qed.
Lemma tl_citem i : citem_ok i = true -> same (tl (tree_citem i)) (chrR (citem_set i)).
Proof.
  intros H a b. destruct i as [c|x y|c]; cbn [tree_citem tl map citem_ok] in *; rewrite thenR_nil.
  - rewrite (termR_set _ (Z.eqb c)) by reflexivity. unfold chrR. cbn [citem_set]. split; intros (-> & z & N & X); (split; [reflexivity|]); exists z; (split; [exact N|]); now rewrite Z.eqb_sym.
  - rewrite (termR_set _ (test_range x y)) by reflexivity. reflexivity.
  - destruct (kset_esc c H) as (P & E & HP). rewrite (termR_set _ P) by exact E. unfold chrR. cbn [citem_set]. split; intros (-> & z & N & X); (split; [reflexivity|]); exists z; (split; [exact N|]); congruence.
Qed.
Lemma tl_citems items : items <> [] -> forallb citem_ok items = true ->
  same (kidsR (map tl (map tree_citem items))) (chrR (fun x => existsb (fun i => citem_set i x) items)).
Proof.
  intros N H i j. rewrite kidsR_in by (destruct items; [congruence|discriminate]). rewrite forallb_forall in H. unfold chrR. split.
  - intros (n & I & X). apply in_map_iff in I as (c & <- & I). apply (tl_citem c (H c I)) in X. destruct X as (-> & z & Z1 & Z2). split; [reflexivity|]. exists z. split; [exact Z1|]. apply existsb_exists. eauto.
  - intros (-> & z & Z1 & Z2). apply existsb_exists in Z2 as (c & I & Z2). exists (tree_citem c). split; [now apply in_map|]. apply (tl_citem c (H c I)). split; [reflexivity|]. eauto.
Qed.
Lemma chrR_ext P Q : (forall x, P x = Q x) -> same (chrR P) (chrR Q).
Proof. intros H i j. unfold chrR. split; intros (-> & z & N & X); (split; [reflexivity|]); exists z; (split; [exact N|]); congruence. Qed.
Lemma tl_elem x : elem_ok x = true -> same (tl (tree_elem x)) (chrR (elem_set x)).
Proof.
  intros H i j. destruct x as [c|c| |neg items|a b c|a b]; cbn [tree_elem elem_ok] in *.
  - cbn [tl map]. rewrite thenR_nil, (termR_set _ (Z.eqb c)) by (exact (kset_lit c H)). apply chrR_ext. intro y. apply Z.eqb_sym.
  - cbn [tl map]. destruct (kset_esc c H) as (P & E & HP). rewrite thenR_nil, (termR_set _ P) by exact E. now apply chrR_ext.
  - cbn [tl map]. rewrite thenR_nil, (termR_set _ test_any) by reflexivity. now apply chrR_ext.
  - apply andb_true_iff in H as [H N]. assert (NN : items <> []) by (destruct items; discriminate). pose proof (tl_citems items NN H) as D.
    destruct neg; cbn [tl map]; rewrite thenR_nil.
    + unfold chrR in *. cbn [elem_set xorb]. split.
      * intros (B & -> & X). split; [reflexivity|]. destruct (nth_error w i) as [z|] eqn:E; [|apply nth_error_None in E; lia]. exists z. split; [reflexivity|]. destruct (existsb _ items) eqn:F; [|reflexivity].
        elim X. apply D. split; [reflexivity|]. eauto.
      * intros (-> & z & E & X). split; [apply nth_error_Some; congruence|]. split; [reflexivity|]. intro Y. apply D in Y as (_ & z' & E' & Y). rewrite E in E'. injection E' as <-. now rewrite Y in X.
    + rewrite (D i j). apply chrR_ext. intro y. cbn [elem_set xorb]. now destruct (existsb _ _).
  - cbn [tl map]. rewrite thenR_nil, (termR_set _ (Z.eqb (byte_chr (64 * a + 8 * b + c)))) by reflexivity. apply chrR_ext. intro y. apply Z.eqb_sym.
  - cbn [tl map]. rewrite thenR_nil, (termR_set _ (Z.eqb (byte_chr (16 * a + b)))) by reflexivity. apply chrR_ext. intro y. apply Z.eqb_sym.
Qed.
Lemma within_bounds k g n : quant_ok (QQ k g) = true -> within (kind_min k) (umax_of (kind_max k)) n -> in_bounds (QQ k g) n.
Proof.
  intros H [A B]. split; [exact A|]. pose proof (mx_opt_kind k g H) as M. destruct (kind_max k) as [m|]; cbn [umax_of] in *; [|exact Logic.I].
  destruct B as [B|B]; [|exact B]. rewrite B in M. discriminate.
Qed.
Lemma tl_quant q m i j : quant_ok q = true -> childless m -> tl (tree_quant q m) i j -> exists k, in_bounds q k /\ pieces (tl m) k i j.
Proof.
  intros H C X. destruct q as [|k g].
  - exists 1. split; [reflexivity|]. econstructor; [exact X|constructor].
  - assert (G : tl (mkq (pol_of g) m (kind_min k) (umax_of (kind_max k))) i j -> exists n, in_bounds (QQ k g) n /\ pieces (tl m) n i j).
    { intro Y. assert (Z : manyR (kind_min k) (umax_of (kind_max k)) (tl m) i j) by (destruct g; cbn [pol_of mkq tl map] in Y; exact (proj1 (thenR_nil _ _ _) Y)). destruct Z as (n & B & P). exists n. split; [now apply within_bounds|exact P]. }
    destruct k as [| | |n|n|n n2]; try (apply G; exact X). cbn [tree_quant tl map] in X. apply (proj1 (thenR_nil _ _ _)) in X. exists (N.to_nat (Z.to_N (num_val n))). split; [|exact X]. cbn [in_bounds kind_min kind_max]. rewrite N2Nat.id. split; apply N.le_refl.
Qed.
Lemma tl_lang :
  (forall r, wf r = true -> forall i j, kidsR (map tl (tree_bs r)) i j -> lang w r i j)
  /\ (forall b, wf_br b = true -> forall i j, tl (tree_br b) i j -> lang_br w b i j)
  /\ (forall s, wf_sq s = true -> forall i j, restR (tree_sq s) i j -> lang_sq w s i j)
  /\ (forall a, wf_atom a = true -> forall i j, tl (tree_atom a) i j -> lang_atom w a i j).
Proof.
  apply rx_all_ind; cbn [wf wf_br wf_sq wf_atom lang lang_br lang_sq lang_atom tree_bs tree_br tree_sq tree_atom].
  - intros b Hb H i j X. cbn [map] in X. apply (proj1 (kidsR_one _ _ _)) in X. exact (Hb H i j X).
  - intros b Hb r Hr H i j X. apply andb_true_iff in H as [A B]. apply (proj1 (kidsR_in (_ :: _) _ _ ltac:(discriminate))) in X. destruct X as (n & [<-|I] & X); [left; exact (Hb A i j X)|]. right. apply (Hr B). apply (proj2 (kidsR_in (tree_bs r) i j ltac:(destruct r; discriminate))). exists n. split; [exact I|exact X].
  - intros a s Hs H i j X. assert (W : wf_sq s = true) by (destruct s; [discriminate|exact H]). destruct a.
    + apply (tl_followed _ _ (eq_refl : childless (Simple (Term TStart) []))) in X. destruct X as (k & X & Y). cbn [tl map] in X. apply (proj1 (thenR_nil _ _ _)) in X. destruct X as [-> ->]. split; [reflexivity|]. now apply Hs.
    + split; [discriminate|]. apply (Hs W). destruct (tree_sq s) as [n|] eqn:E; [exact X|]. destruct s; [discriminate H|discriminate E].
  - intros _ i j X. exact X.
  - intros a Ha q s Hs H i j X. rewrite !andb_true_iff in H. destruct H as [[A B] C]. cbn [restR] in X. apply (tl_followed _ _ (childless_quant q _ (childless_atom a))) in X. destruct X as (m & X & Y).
    apply tl_quant in X as (k & K & X); [|exact B|apply childless_atom]. exists m, k. split; [exact K|]. split; [|now apply Hs]. eapply pieces_map; [|exact X]. intros; now apply Ha.
  - intros x H i j X. apply (tl_elem x H) in X. exact X.
  - intros c r Hr H i j X. cbn [tl map] in X. apply (proj1 (thenR_nil _ _ _)) in X. now apply Hr.
  - intros r Hr H i j X. cbn [tl map] in X. apply (proj1 (thenR_nil _ _ _)) in X. now apply Hr.
Qed.
Lemma tl_tree r i j : wf r = true -> tl (tree r) i j -> lang w r i j.
Proof. intros W X. exact (proj1 tl_lang r W i j X). Qed.
(** with $ *)
Lemma tl_sq_d s : wf_sq s = true -> forall i j, tl (tree_sq_d s) i j -> exists k, lang_sq w s i k /\ line_end w k j.
Proof.
  induction s as [|a q s IH]; intros W i j X; cbn [tree_sq_d wf_sq] in *.
  - cbn [tl map] in X. apply (proj1 (thenR_nil _ _ _)) in X. exists i. split; [reflexivity|exact X].
  - rewrite !andb_true_iff in W. destruct W as [[A B] C]. apply (tl_followed _ (Some _) (childless_quant q _ (childless_atom a))) in X. destruct X as (m & X & Y).
    apply tl_quant in X as (k & K & X); [|exact B|apply childless_atom]. destruct (IH C m j Y) as (p & P1 & P2). exists p. split; [|exact P2]. cbn [lang_sq]. exists m, k. split; [exact K|]. split; [|exact P1]. eapply pieces_map; [|exact X]. intros; now apply (proj2 (proj2 (proj2 tl_lang)) a A).
Qed.
Lemma tl_tree_d r : wf r = true -> forall i j, tl (tree_d r) i j -> exists k, lang w r i k /\ line_end w k j.
Proof.
  assert (BR : forall b, wf_br b = true -> forall i j, tl (tree_br_d b) i j -> exists k, lang_br w b i k /\ line_end w k j).
  { intros [a s] W i j X. assert (W' : wf_sq s = true) by (destruct s; [discriminate W|exact W]). cbn [tree_br_d lang_br] in *. destruct a.
    - apply (tl_followed _ (Some _) (eq_refl : childless (Simple (Term TStart) []))) in X. destruct X as (k & X & Y). cbn [tl map] in X. apply (proj1 (thenR_nil _ _ _)) in X. destruct X as [-> ->].
      destruct (tl_sq_d s W' 0 j Y) as (p & P1 & P2). exists p. auto.
    - destruct (tl_sq_d s W' i j X) as (p & P1 & P2). exists p. split; [split; [discriminate|exact P1]|exact P2]. }
  unfold tree_d. cbn [tl]. induction r as [b|b r IH]; cbn [wf tree_bs_d lang]; intros W i j X.
  - cbn [map] in X. apply (proj1 (kidsR_one _ _ _)) in X. exact (BR b W i j X).
  - apply andb_true_iff in W as [A B]. apply (proj1 (kidsR_in (_ :: _) _ _ ltac:(discriminate))) in X. destruct X as (n & [<-|I] & X).
    + destruct (BR b A i j X) as (k & K1 & K2). eauto.
    + destruct (IH B i j) as (k & K1 & K2); [apply (proj2 (kidsR_in (tree_bs_d r) i j ltac:(destruct r; discriminate))); exists n; split; [exact I|exact X]|]. eauto.
Qed.
End Lang.

(** ** The matcher *)
Section Run.
Variables (pre w post : str) (d : bool).
Notation e := (env_of pre w post).
Notation L := (length w).
Notation at_ := (EngineOk.at_ pre).
Notation tl := (tl w).
Hypothesis Hd : d = true -> exists c0 p0, post = c0 :: p0 /\ c0 <> c_nl.
(** [M], started at [i]: if it accepts it has gone along [R]; if [b] and it fails it is at [i]. *)
Definition okm (M : clo) (R : rel) (b : bool) : Prop := forall i s s', i <= L -> s_end s = at_ i -> M s = Ok s' ->
  (s_acc s' = true -> exists j, j <= L /\ s_end s' = at_ j /\ R i j) /\ (b = true -> s_acc s' = false -> s_end s' = at_ i).
Lemma okm_weaken M (R R' : rel) b b' : okm M R b -> (forall i j, R i j -> R' i j) -> (b' = true -> b = true) -> okm M R' b'.
Proof.
  intros H A B i s s' Hi E X. destruct (H i s s' Hi E X) as [Y Z]. split; [|auto]. intro Q. destruct (Y Q) as (j & J1 & J2 & J3). eauto.
Qed.
Lemma okm_id : okm (fun s => Ok s) (fun i j => i = j) true.
Proof. intros i s s' Hi E [= <-]. split; [eauto|auto]. Qed.
(** Terminals *)
Lemma test_okm P : okm (guarded e (match_test e P)) (chrR w P) true.
Proof.
  intros i s s' Hi E. unfold guarded. rewrite E, (qe_le pre w post). destruct (Nat.leb_spec L i).
  - intros [= <-]. split; [discriminate|intros; exact E].
  - unfold match_test. destruct (nth_error w i) as [c|] eqn:N; [|apply nth_error_None in N; lia]. rewrite E, (at_rd pre w post i c N). destruct (P c) eqn:Pc.
    + rewrite (at_S pre), (at_move pre w post) by lia. intros [= <-]. cbn. split; [|discriminate]. intros _. exists (S i). split; [lia|]. split; [reflexivity|]. split; [reflexivity|]. eauto.
    + intros [= <-]. cbn. split; [discriminate|intros; exact E].
Qed.
Lemma exact_okm c : okm (guarded e (match_exact e [c])) (chrR w (Z.eqb c)) true.
Proof.
  intros i s s' Hi E. unfold guarded. rewrite E, (qe_le pre w post). destruct (Nat.leb_spec L i).
  - intros [= <-]. split; [discriminate|intros; exact E].
  - unfold match_exact. cbn [exact_loop set_acc s_end]. destruct (nth_error w i) as [x|] eqn:N; [|apply nth_error_None in N; lia]. rewrite E, (at_rd pre w post i x N). destruct (c =? x)%Z eqn:Pc.
    + rewrite (at_S pre), (at_move pre w post) by lia. cbn [bind]. intros [= <-]. cbn. split; [|discriminate]. intros _. exists (S i). split; [lia|]. split; [reflexivity|]. split; [reflexivity|]. eauto.
    + intros [= <-]. cbn. split; [discriminate|reflexivity].
Qed.
Lemma space_okm : okm (guarded e (match_space e)) (chrR w test_space) false.
Proof.
  intros i s s' Hi E. unfold guarded. rewrite E, (qe_le pre w post). destruct (Nat.leb_spec L i).
  - intros [= <-]. split; [discriminate|discriminate].
  - unfold match_space. destruct (nth_error w i) as [c|] eqn:N; [|apply nth_error_None in N; lia]. rewrite E, (at_rd pre w post i c N), (at_S pre), (at_move pre w post) by lia.
    intros [= <-]. cbn. split; [|discriminate]. intros X. exists (S i). split; [lia|]. split; [reflexivity|]. split; [reflexivity|]. eauto.
Qed.
Lemma start_okm : okm (match_start e) (fun i j => i = 0 /\ j = 0) true.
Proof.
  intros i s s' Hi E. unfold match_start. rewrite E, (qe_le pre w post). destruct (Nat.leb_spec L i).
  - intros [= <-]. split; [discriminate|intros; exact E].
  - intros [= <-]. cbn [s_acc s_end set_acc]. split; [|intros; exact E]. intro X. apply Z.eqb_eq in X. assert (i = 0) as -> by (unfold EngineOk.at_ in X; cbn in X; lia). exists 0. split; [lia|]. split; [exact E|auto].
Qed.
Lemma end_okm : d = true -> okm (match_end e) (line_end w) true.
Proof.
  intros D i s s' Hi E. destruct (Hd D) as (c0 & p0 & Ep & Np). unfold match_end. rewrite E. replace (qe e <? at_ i)%Z with false by (unfold EngineOk.at_; cbn; lia).
  destruct (Nat.eq_dec i L) as [->|Ni].
  - assert (R : rd e (at_ L) = Some c0).
    { unfold rd, EngineOk.at_. cbn [buf env_of]. replace (_ <? 0)%Z with false by lia. replace (Z.to_nat _) with (length pre + L) by lia.
      rewrite nth_error_app2 by lia. rewrite nth_error_app2 by lia. rewrite Ep. now replace (_ - _ - _) with 0 by lia. }
    rewrite R. replace (c0 =? c_nl)%Z with false by lia. intros [= <-]. cbn [s_acc s_end set_acc]. split; [|intros; exact E]. intros _. exists L. split; [lia|]. split; [exact E|]. left. auto.
  - destruct (nth_error w i) as [x|] eqn:N; [|apply nth_error_None in N; lia]. rewrite (at_rd pre w post _ _ N). replace (at_ i =? qe e)%Z with false by (unfold EngineOk.at_; cbn; lia). cbn [orb].
    destruct (x =? c_nl)%Z eqn:X.
    + rewrite (at_S pre), (at_move pre w post) by lia. intros [= <-]. cbn [s_acc s_end set_acc set_end]. split; [|discriminate]. intros _. exists (S i). split; [lia|]. split; [reflexivity|]. right. apply Z.eqb_eq in X. subst. auto.
    + intros [= <-]. cbn. split; [discriminate|intros; exact E].
Qed.
Lemma term_okm t : term_sure d t = true -> okm (match_term e t) (termR w t) (stay (Term t)).
Proof.
  intro S. unfold term_sure in S. destruct t as [tok|s|a b| |]; cbn [match_term termR stay spaced_term negb].
  - unfold char_term in S. cbn [tset orb] in *. destruct (term_kind tok) as [s|a b|[]] eqn:K; cbn [kset] in *.
    + destruct s as [|c [|]]; try discriminate. apply exact_okm.
    + apply test_okm.
    + apply test_okm.
    + apply space_okm.
    + apply test_okm.
  - unfold char_term in S. cbn [tset kset orb] in *. destruct s as [|c [|]]; try discriminate. apply exact_okm.
  - apply test_okm.
  - apply start_okm.
  - apply end_okm. exact S.
Qed.
(** Alternatives *)
Definition good_kid (n : node) : Prop := forall inj, okm (mt e n inj) (tl n) (stay n).
Lemma dfs_okm cs : Forall good_kid cs -> forallb stay (removelast cs) = true -> forall inj,
  okm (dfs (map (fun c i => mt e c i) cs) inj) (kidsR (map tl cs)) (forallb stay cs).
Proof.
  induction cs as [|c cs IH]; intros F S inj.
  - exact okm_id.
  - inversion F as [|? ? Fc Fcs]; subst. destruct cs as [|c' cs].
    + cbn [map dfs forallb]. eapply okm_weaken; [apply Fc| |intro X; now rewrite andb_true_r in X]. intros i j X. now apply kidsR_one.
    + assert (S' : stay c = true /\ forallb stay (removelast (c' :: cs)) = true) by (change (removelast (c :: c' :: cs)) with (c :: removelast (c' :: cs)) in S; cbn [forallb] in S; now apply andb_true_iff in S).
      destruct S' as [Sc Scs]. specialize (IH Fcs Scs). intros i s s' Hi E X. cbn [map dfs] in X. destruct (mt e c inj s) as [s1|] eqn:M; [|discriminate]. cbn [bind] in X.
      destruct (Fc inj i s s1 Hi E M) as [A B]. destruct (s_acc s1) eqn:Ac.
      * injection X as <-. split; [|congruence]. intros _. destruct (A eq_refl) as (j & J1 & J2 & J3). exists j. split; [exact J1|]. split; [exact J2|]. cbn [map kidsR]. now left.
      * specialize (B Sc eq_refl). destruct (IH [] i (set_acc true s1) s' Hi B X) as [C D]. split.
        -- intro Q. destruct (C Q) as (j & J1 & J2 & J3). exists j. split; [exact J1|]. split; [exact J2|]. cbn [map kidsR] in *. now right.
        -- intros Q. cbn [forallb] in Q. apply andb_true_iff in Q as [_ Q]. now apply D.
Qed.
(** The parts *)
Lemma simple_okm M K A B b b' : okm M A b -> okm K B b' -> okm (simple_m M K) (thenR A B) b.
Proof.
  intros HM HK i s s' Hi E X. unfold simple_m in X. destruct (M s) as [s1|] eqn:Ms; [|discriminate]. cbn [bind] in X. destruct (HM i s s1 Hi E Ms) as [A1 A2]. destruct (s_acc s1) eqn:Ac.
  - destruct (A1 eq_refl) as (j & J1 & J2 & J3). destruct (K s1) as [s2|] eqn:Ks; [|discriminate]. cbn [bind] in X. destruct (HK j s1 s2 J1 J2 Ks) as [B1 B2]. destruct (s_acc s2) eqn:Ac2; injection X as <-.
    + split; [|congruence]. intros _. destruct (B1 eq_refl) as (l & L1 & L2 & L3). exists l. split; [exact L1|]. split; [exact L2|]. exists j. auto.
    + cbn. split; [congruence|]. intros; exact E.
  - injection X as <-. split; [congruence|]. intros; auto.
Qed.
Lemma reps_okm M R b : okm M R b -> forall k i s, i <= L -> s_end s = at_ i ->
  match nl k (req_step M) s with
  | inl s1 => exists j, j <= L /\ s_end s1 = at_ j /\ pieces R k i j
  | inr (Ok s1) => s_acc s1 = false
  | inr UB => True
  end.
Proof.
  intros HM k. induction k as [|k IH]; intros i s Hi E; cbn [nl].
  - exists i. split; [exact Hi|]. split; [exact E|constructor].
  - unfold req_step at 1. destruct (M s) as [s1|] eqn:Ms; [|exact Logic.I]. destruct (HM i s s1 Hi E Ms) as [A1 _]. destruct (s_acc s1) eqn:Ac; [|exact Ac].
    destruct (A1 eq_refl) as (j & J1 & J2 & J3). specialize (IH j s1 J1 J2). destruct (nl k (req_step M) s1) as [s2|[s2|]]; auto. destruct IH as (l & L1 & L2 & L3). exists l. split; [exact L1|]. split; [exact L2|]. econstructor; eauto.
Qed.
Lemma repeated_okm M K A B b b' k : okm M A b -> okm K B b' -> okm (repeated_m M k K) (thenR (pieces A (N.to_nat k)) B) false.
Proof.
  intros HM HK i s s' Hi E X. unfold repeated_m, reps in X. rewrite loopN_nl in X. pose proof (reps_okm M A b HM (N.to_nat k) i s Hi E) as G. split; [|discriminate]. intro Ac.
  destruct (nl _ _ s) as [s1|[s1|]]; [|injection X as <-; congruence|discriminate]. destruct G as (j & J1 & J2 & J3). destruct (HK j s1 s' J1 J2 X) as [B1 _]. destruct (B1 Ac) as (l & L1 & L2 & L3). exists l. split; [exact L1|]. split; [exact L2|]. exists j. auto.
Qed.
Lemma set_group_end k v s s1 : set_group k v s = Ok s1 -> s_end s1 = s_end s /\ s_acc s1 = s_acc s.
Proof. unfold set_group. destruct (set_nth _ _ _); [|discriminate]. intros [= <-]. auto. Qed.
Lemma group_okm M K A B b b' k : okm M A b -> okm K B b' -> okm (group_m M k K) (thenR A B) false.
Proof.
  intros HM HK i s s' Hi E X. unfold group_m in X. split; [|discriminate]. intro Ac. destruct (M s) as [s1|] eqn:Ms; [|discriminate]. cbn [bind] in X. destruct (HM i s s1 Hi E Ms) as [A1 _]. destruct (s_acc s1) eqn:Ac1; [|injection X as <-; congruence].
  destruct (A1 eq_refl) as (j & J1 & J2 & J3). destruct (set_group k _ s1) as [s2|] eqn:G; [|discriminate]. cbn [bind] in X. apply set_group_end in G as [G1 G2]. destruct (HK j s2 s' J1 ltac:(congruence) X) as [B1 _].
  destruct (B1 Ac) as (l & L1 & L2 & L3). exists l. split; [exact L1|]. split; [exact L2|]. exists j. auto.
Qed.
Lemma group_nil_okm M A b k : okm M A b -> okm (group_m M k (fun s => Ok s)) A b.
Proof.
  intros HM i s s' Hi E X. unfold group_m in X. destruct (M s) as [s1|] eqn:Ms; [|discriminate]. cbn [bind] in X. destruct (HM i s s1 Hi E Ms) as [A1 A2]. destruct (s_acc s1) eqn:Ac1; [|injection X as <-; split; [congruence|auto]].
  destruct (set_group k _ s1) as [s2|] eqn:G; [|discriminate]. cbn [bind] in X. injection X as <-. apply set_group_end in G as [G1 G2]. split; [|congruence]. intros _. destruct (A1 eq_refl) as (j & J1 & J2 & J3). exists j. split; [exact J1|]. split; [congruence|exact J3].
Qed.
(** possessive repetition *)
Lemma poss_loop M R b mn : okm M R b -> forall k c i0 i s, i <= L -> s_end s = at_ i -> pieces R c i0 i ->
  match nl k (poss_step M mn) (N.of_nat c, s_end s, s) with
  | inl (_, _, s1) => exists j, j <= L /\ s_end s1 = at_ j /\ pieces R (k + c) i0 j
  | inr (inl s1) => exists j k', j <= L /\ s_end s1 = at_ j /\ pieces R k' i0 j /\ k' <= k + c /\ (mn <= N.of_nat k')%N
  | inr (inr (Ok s1)) => s_acc s1 = false
  | inr (inr UB) => True
  end.
Proof.
  intros HM k. induction k as [|k IH]; intros c i0 i s Hi E P; cbn [nl].
  - exists i. auto.
  - unfold poss_step at 1. destruct (M s) as [s1|] eqn:Ms; [|exact Logic.I]. destruct (HM i s s1 Hi E Ms) as [A1 _]. destruct (s_acc s1) eqn:Ac.
    + destruct (A1 eq_refl) as (j & J1 & J2 & J3). assert (P' : pieces R (S c) i0 j) by (replace (S c) with (c + 1) by lia; eapply pieces_app; [exact P|]; econstructor; [exact J3|constructor]).
      specialize (IH (S c) i0 j s1 J1 J2 P'). replace (N.of_nat c + 1)%N with (N.of_nat (S c)) by lia. destruct (nl k _ _) as [[[c2 e2] s2]|[s2|[s2|]]]; auto.
      * destruct IH as (l & L1 & L2 & L3). exists l. replace (S k + c) with (k + S c) by lia. auto.
      * destruct IH as (l & k' & L1 & L2 & L3 & L4 & L5). exists l, k'. split; [exact L1|]. split; [exact L2|]. split; [exact L3|]. split; [lia|exact L5].
    + destruct (N.ltb_spec (N.of_nat c) mn).
      * exact Ac.
      * cbn [s_end set_end]. exists i, c. split; [exact Hi|]. split; [exact E|]. split; [exact P|]. split; [lia|exact H].
Qed.
Lemma possessive_okm M K A B b b' mn mx : (mn <= mx)%N -> okm M A b -> okm K B b' -> okm (possessive_m M mn mx K) (thenR (manyR mn mx A) B) false.
Proof.
  intros Hmx HM HK i s s' Hi E X. split; [|discriminate]. intro Ac. unfold possessive_m in X. rewrite loopN_nl in X. pose proof (poss_loop M A b mn HM (N.to_nat mx) 0 i i s Hi E (P0 _ _)) as G. change (N.of_nat 0) with 0%N in G.
  assert (F : forall s1 j k, j <= L -> s_end s1 = at_ j -> pieces A k i j -> k <= N.to_nat mx -> (mn <= N.of_nat k)%N -> K s1 = Ok s' -> exists j, j <= L /\ s_end s' = at_ j /\ thenR (manyR mn mx A) B i j).
  { intros s1 j k J1 J2 J3 J4 J5 Y. destruct (HK j s1 s' J1 J2 Y) as [B1 _]. destruct (B1 Ac) as (l & L1 & L2 & L3). exists l. split; [exact L1|]. split; [exact L2|]. exists j. split; [|exact L3]. exists k. split; [|exact J3]. split; [exact J5|right; lia]. }
  destruct (nl _ _ _) as [[[c2 e2] s2]|[s2|[s2|]]]; [| |injection X as <-; congruence|discriminate].
  - destruct G as (j & J1 & J2 & J3). eapply F; [exact J1|exact J2|exact J3|lia|lia|exact X].
  - destruct G as (j & k' & J1 & J2 & J3 & J4 & J5). eapply F; [exact J1|exact J2|exact J3|lia|exact J5|exact X].
Qed.
(** at most one obligatory copy and nothing after it: the position stays *)
Lemma possessive_stay M A mn mx : (mn <= 1)%N -> okm M A true -> forall i s s', i <= L -> s_end s = at_ i -> possessive_m M mn mx (fun s => Ok s) s = Ok s' -> s_acc s' = false -> s_end s' = at_ i.
Proof.
  intros Hmn HM i s s' Hi E X Ac. unfold possessive_m in X. rewrite loopN_nl in X.
  assert (G : forall k c i s, (mn <= c)%N -> i <= L -> s_end s = at_ i -> s_acc s = true -> match nl k (poss_step M mn) (c, s_end s, s) with
    | inl (_, _, s1) => s_acc s1 = true | inr (inl s1) => s_acc s1 = true | inr (inr (Ok _)) => False | inr (inr UB) => True end).
  { clear - HM. intros k. induction k as [|k IH]; intros c i s Hc Hi E Ac; cbn [nl]; [exact Ac|]. unfold poss_step at 1. destruct (M s) as [s1|] eqn:Ms; [|exact Logic.I]. destruct (HM i s s1 Hi E Ms) as [A1 _]. destruct (s_acc s1) eqn:Ac1.
    - destruct (A1 eq_refl) as (j & J1 & J2 & J3). exact (IH (c + 1)%N j s1 ltac:(lia) J1 J2 Ac1).
    - replace (c <? mn)%N with false by lia. reflexivity. }
  destruct (N.to_nat mx) as [|k].
  - cbn [nl] in X. injection X as <-. exact E.
  - cbn [nl] in X. unfold poss_step at 1 in X. destruct (M s) as [s1|] eqn:Ms; [|discriminate]. destruct (HM i s s1 Hi E Ms) as [A1 A2]. destruct (s_acc s1) eqn:Ac1.
    + destruct (A1 eq_refl) as (j & J1 & J2 & J3). specialize (G k (0 + 1)%N j s1 ltac:(lia) J1 J2 Ac1). destruct (nl k _ _) as [[[c2 e2] s2]|[s2|[s2|]]]; [| |destruct G|discriminate]; injection X as <-; congruence.
    + destruct (0 <? mn)%N; injection X as <-; [apply A2; auto|]. cbn. exact E.
Qed.
(** lazy repetition *)
Lemma lazy_loop M K A B b hc inj start : okm M A b -> (hc = true -> okm K B true) -> forall k c i0 i s, i <= L -> s_end s = at_ i -> pieces A c i0 i ->
  match nl k (lazy_step e M hc K inj start) s with
  | inl s1 => exists j, j <= L /\ s_end s1 = at_ j /\ pieces A (k + c) i0 j
  | inr (inl s1) => exists j k', j <= L /\ s_end s1 = at_ j /\ pieces A k' i0 j /\ k' <= k + c /\ c <= k'
  | inr (inr (Ok s1)) => s_acc s1 = true -> exists j l k', l <= L /\ s_end s1 = at_ l /\ pieces A k' i0 j /\ k' <= k + c /\ c <= k' /\ B j l
  | inr (inr UB) => True
  end.
Proof.
  intros HM HK k. induction k as [|k IH]; intros c i0 i s Hi E P; cbn [nl].
  - exists i. auto.
  - assert (MORE : forall s1, s_end s1 = at_ i ->
      match (match (if s_acc s1 then inr (inl s1) else match M s1 with UB => inr (inr UB) | Ok s2 => if s_acc s2 then inl s2 else inr (inr (Ok (set_end start s2))) end) with
        | inl a' => nl k (lazy_step e M hc K inj start) a' | inr b' => inr b' end) with
      | inl s1 => exists j, j <= L /\ s_end s1 = at_ j /\ pieces A (S k + c) i0 j
      | inr (inl s1) => exists j k', j <= L /\ s_end s1 = at_ j /\ pieces A k' i0 j /\ k' <= S k + c /\ c <= k'
      | inr (inr (Ok s1)) => s_acc s1 = true -> exists j l k', l <= L /\ s_end s1 = at_ l /\ pieces A k' i0 j /\ k' <= S k + c /\ c <= k' /\ B j l
      | inr (inr UB) => True end).
    { intros s1 E1. destruct (s_acc s1) eqn:Ac1.
      - exists i, c. split; [exact Hi|]. split; [exact E1|]. split; [exact P|]. lia.
      - destruct (M s1) as [s2|] eqn:Ms; [|exact Logic.I]. destruct (HM i s1 s2 Hi E1 Ms) as [A1 _]. destruct (s_acc s2) eqn:Ac2; [|intro Q; cbn in Q; congruence].
        destruct (A1 eq_refl) as (j & J1 & J2 & J3). assert (P' : pieces A (S c) i0 j) by (replace (S c) with (c + 1) by lia; eapply pieces_app; [exact P|]; econstructor; [exact J3|constructor]).
        specialize (IH (S c) i0 j s2 J1 J2 P'). replace (S k + c) with (k + S c) by lia. destruct (nl k _ s2) as [s3|[s3|[s3|]]]; auto.
        + destruct IH as (l & k' & L1 & L2 & L3 & L4 & L5). exists l, k'. split; [exact L1|]. split; [exact L2|]. split; [exact L3|]. lia.
        + intro Q. destruct (IH Q) as (x & l & k' & L1 & L2 & L3 & L4 & L5 & L6). exists x, l, k'. split; [exact L1|]. split; [exact L2|]. split; [exact L3|]. split; [lia|]. split; [lia|exact L6]. }
    unfold lazy_step at 1. destruct (s_end s <? qe e)%Z eqn:Q; cbn [negb].
    + destruct hc.
      * specialize (HK eq_refl). destruct (K s) as [s1|] eqn:Ks; [|exact Logic.I]. destruct (HK i s s1 Hi E Ks) as [B1 B2]. destruct (s_acc s1) eqn:Ac1.
        -- intros _. destruct (B1 eq_refl) as (l & L1 & L2 & L3). exists i, l, c. split; [exact L1|]. split; [exact L2|]. split; [exact P|]. split; [lia|]. split; [lia|exact L3].
        -- specialize (MORE s1 (B2 eq_refl eq_refl)). rewrite Ac1 in MORE. exact MORE.
      * destruct (dfs0 inj s) as [s1|] eqn:Ks; [|exact Logic.I]. apply (MORE (set_end (s_end s) s1)). exact E.
    + exists i, c. split; [exact Hi|]. split; [exact E|]. split; [exact P|]. lia.
Qed.
Lemma lazy_okm M K A B b b' hc inj mn mx : (mn <= mx)%N -> okm M A b -> okm K B b' -> (hc = true -> okm K B true) -> okm (lazy_m e M mn mx hc K inj) (thenR (manyR mn mx A) B) false.
Proof.
  intros Hmx HM HK0 HK i s s' Hi E X. split; [|discriminate]. intro Ac. unfold lazy_m, reps in X. rewrite loopN_nl in X. pose proof (reps_okm M A b HM (N.to_nat mn) i s Hi E) as G.
  destruct (nl _ (req_step M) s) as [s0|[s0|]]; [|injection X as <-; congruence|discriminate]. destruct G as (i0 & I1 & I2 & I3). rewrite loopN_nl in X.
  pose proof (lazy_loop M K A B b hc inj (s_end s) HM HK (N.to_nat (mx - mn)) (N.to_nat mn) i i0 s0 I1 I2 I3) as G.
  assert (F : forall s1 j k, j <= L -> s_end s1 = at_ j -> pieces A k i j -> k <= N.to_nat mx -> (mn <= N.of_nat k)%N -> K s1 = Ok s' -> exists j, j <= L /\ s_end s' = at_ j /\ thenR (manyR mn mx A) B i j).
  { intros s1 j k J1 J2 J3 J4 J5 Y. destruct (HK0 j s1 s' J1 J2 Y) as [B1 _]. destruct (B1 Ac) as (l & L1 & L2 & L3). exists l. split; [exact L1|]. split; [exact L2|]. exists j. split; [|exact L3]. exists k. split; [|exact J3]. split; [exact J5|right; lia]. }
  destruct (nl _ _ s0) as [s2|[s2|[s2|]]]; [| | |discriminate].
  - destruct G as (j & J1 & J2 & J3). eapply F; [exact J1|exact J2|exact J3|lia|lia|exact X].
  - destruct G as (j & k' & J1 & J2 & J3 & J4 & J5). eapply F; [exact J1|exact J2|exact J3|lia|lia|exact X].
  - injection X as <-. destruct (G Ac) as (j & l & k' & L1 & L2 & L3 & L4 & L5 & L6). exists l. split; [exact L1|]. split; [exact L2|]. exists j. split; [|exact L6]. exists k'. split; [|exact L3]. split; [lia|right; lia].
Qed.
(** greedy repetition of single characters *)
Lemma pieces_ones (A : rel) : (forall i j, A i j -> j = S i) -> forall k i j, pieces A k i j -> j = i + k.
Proof. intros H k. induction k as [|k IH]; intros i j X; inversion X; subst; [lia|]. apply H in H1. subst. apply IH in H2. lia. Qed.
Lemma greedy_loop M A mn : okm M A true -> forall k c i0 i s, i <= L -> s_end s = at_ i -> pieces A c i0 i ->
  match nl k (greedy_step M) ((mn + N.of_nat c)%N, s) with
  | inl x | inr (Some x) => exists j k', j <= L /\ s_end (snd x) = at_ j /\ fst x = (mn + N.of_nat k')%N /\ pieces A k' i0 j /\ k' <= k + c
  | inr None => True
  end.
Proof.
  intros HM k. induction k as [|k IH]; intros c i0 i s Hi E P; cbn [nl].
  - exists i, c. split; [exact Hi|]. split; [exact E|]. split; [reflexivity|]. split; [exact P|lia].
  - unfold greedy_step at 1. cbn [fst snd]. destruct (M s) as [s1|] eqn:Ms; [|exact Logic.I]. destruct (HM i s s1 Hi E Ms) as [A1 A2]. destruct (s_acc s1) eqn:Ac.
    + destruct (A1 eq_refl) as (j & J1 & J2 & J3). assert (P' : pieces A (S c) i0 j) by (replace (S c) with (c + 1) by lia; eapply pieces_app; [exact P|]; econstructor; [exact J3|constructor]).
      specialize (IH (S c) i0 j s1 J1 J2 P'). replace (mn + N.of_nat c + 1)%N with (mn + N.of_nat (S c))%N by lia. destruct (nl k _ _) as [x|[x|]]; auto; destruct IH as (l & k' & L1 & L2 & L3 & L4 & L5); exists l, k'; (split; [exact L1|]); (split; [exact L2|]); (split; [exact L3|]); (split; [exact L4|lia]).
    + exists i, c. cbn [snd fst s_end set_acc]. split; [exact Hi|]. split; [auto|]. split; [reflexivity|]. split; [exact P|lia].
Qed.
Lemma back_scan_pos M A lo hi : okm M A true -> hi <= L -> forall k s s', lo + k <= hi -> (exists q, lo <= q <= hi /\ s_end s = at_ q) ->
  back_scan e M k (at_ (lo + k) - 1)%Z s = Ok s' -> exists q, lo <= q <= hi /\ s_end s' = at_ q.
Proof.
  intros HM Hh k. induction k as [|k IH]; intros s s' Hk Q X; cbn [back_scan] in X.
  - injection X as <-. exact Q.
  - assert (EQ : (at_ (lo + S k) - 1)%Z = at_ (lo + k)) by (unfold EngineOk.at_; lia). rewrite EQ in X. destruct (M (set_end (at_ (lo + k)) s)) as [s1|] eqn:Ms; [|discriminate]. cbn [bind] in X.
    destruct (HM (lo + k) (set_end (at_ (lo + k)) s) s1 ltac:(lia) eq_refl Ms) as [_ A2]. destruct (s_acc s1) eqn:Ac.
    + injection X as <-. exists (lo + k). cbn. split; [lia|reflexivity].
    + destruct (ptr_ok e _); [|discriminate]. eapply IH; [lia| |exact X]. exists (lo + k). split; [lia|]. now apply A2.
Qed.
Lemma bt_loop M BT A B lo hi : okm M A true -> okm BT B true -> hi <= L -> forall k s, (exists q, lo <= q <= hi /\ s_end s = at_ q) ->
  match nl k (bt_step e M BT (at_ lo)) s with
  | inl s1 => exists q, lo <= q <= hi /\ s_end s1 = at_ q
  | inr (Ok s1) => s_acc s1 = true -> exists q j, lo <= q <= hi /\ j <= L /\ s_end s1 = at_ j /\ B q j
  | inr UB => True
  end.
Proof.
  intros HM HB Hh k. induction k as [|k IH]; intros s (q & Q1 & Q2); cbn [nl]; [eauto|].
  unfold bt_step at 1. destruct (BT s) as [s1|] eqn:Bs; [|exact Logic.I]. destruct (HB q s s1 ltac:(lia) Q2 Bs) as [B1 B2]. destruct (s_acc s1) eqn:Ac.
  - intros _. destruct (B1 eq_refl) as (j & J1 & J2 & J3). exists q, j. auto.
  - specialize (B2 eq_refl eq_refl). unfold back_for. destruct (ptr_ok e _); [|exact Logic.I]. rewrite B2. destruct (back_scan e M _ _ s1) as [s2|] eqn:X; [|exact Logic.I]. apply IH.
    replace (Z.to_nat (at_ q - at_ lo)) with (q - lo) in X by (unfold EngineOk.at_; lia). replace (at_ q) with (at_ (lo + (q - lo))) in X by (f_equal; lia).
    eapply back_scan_pos; [exact HM|exact Hh| |  |exact X]; [lia|]. exists q. auto.
Qed.
Lemma bt_okm K B hc inj : (hc = true -> okm K B true) -> (hc = false -> forall i, B i i) -> okm (greedy_bt hc K inj) B true.
Proof.
  intros HK Z i s s' Hi E X. unfold greedy_bt in X. destruct hc; [exact (HK eq_refl i s s' Hi E X)|]. destruct (dfs0 inj s) as [s1|]; [|discriminate]. cbn [bind] in X. injection X as <-. cbn. split; [|auto]. intros _. exists i. auto.
Qed.
Lemma greedy_gen_okm M BT K (A B : rel) mn mx b : (mn <= mx)%N -> (forall i j, A i j -> j = S i) -> okm M A true -> okm BT B true -> okm K B b -> okm (greedy_gen e M mn mx BT K) (thenR (manyR mn mx A) B) false.
Proof.
  intros Hmx H1 HM HB HK i s s' Hi E X. split; [|discriminate]. intro Ac. unfold greedy_gen, reps in X. rewrite loopN_nl in X. pose proof (reps_okm M A true HM (N.to_nat mn) i s Hi E) as G.
  destruct (nl _ (req_step M) s) as [s0|[s0|]]; [|injection X as <-; congruence|discriminate]. destruct G as (i0 & I1 & I2 & I3). rewrite loopN_nl in X.
  pose proof (greedy_loop M A mn HM (N.to_nat (mx - mn)) 0 i0 i0 s0 I1 I2 (P0 _ _)) as G. change (N.of_nat 0) with 0%N in G. rewrite N.add_0_r in G.
  assert (F : forall x, (exists j k', j <= L /\ s_end (snd x) = at_ j /\ fst x = (mn + N.of_nat k')%N /\ pieces A k' i0 j /\ k' <= N.to_nat (mx - mn) + 0) ->
     match loopN (fst x - mn) (bt_step e M BT (s_end s0)) (snd x) with inr o => o | inl s2 => K (set_acc true s2) end = Ok s' ->
     exists j, j <= L /\ s_end s' = at_ j /\ thenR (manyR mn mx A) B i j).
  { intros x (p & k & P1 & P2 & P3 & P4 & P5) Y. rewrite loopN_nl, I2 in Y. pose proof (pieces_ones A H1 _ _ _ P4) as Ep. subst p.
    assert (T : forall q j, i0 <= q <= i0 + k -> B q j -> thenR (manyR mn mx A) B i j).
    { intros q j Q W. exists q. split; [|exact W]. replace k with ((q - i0) + (k - (q - i0))) in P4 by lia. apply pieces_split in P4 as (m & M1 & M2). assert (m = q) as -> by (apply (pieces_ones A H1) in M1; lia).
      exists (N.to_nat mn + (q - i0)). split; [|eapply pieces_app; eauto]. clear - P5 Q Hmx. split; [lia|right; lia]. }
    assert (QQ0 : exists q, i0 <= q <= i0 + k /\ s_end (snd x) = at_ q) by (exists (i0 + k); split; [lia|exact P2]).
    pose proof (bt_loop M BT A B i0 (i0 + k) HM HB P1 (N.to_nat (fst x - mn)) (snd x) QQ0) as U.
    destruct (nl _ _ (snd x)) as [s2|[s2|]]; [| |discriminate].
    - destruct U as (q & Q1 & Q2). destruct (HK q (set_acc true s2) s' ltac:(lia) Q2 Y) as [B1 _]. destruct (B1 Ac) as (j & J1 & J2 & J3). exists j. split; [exact J1|]. split; [exact J2|]. eapply T; eauto.
    - injection Y as <-. destruct (U Ac) as (q & j & Q1 & J1 & J2 & J3). exists j. split; [exact J1|]. split; [exact J2|]. eapply T; eauto. }
  destruct (nl _ _ _) as [x|[x|]]; [apply (F x G X)|apply (F x G X)|discriminate].
Qed.
(** negation *)
Lemma dfs_none cs : forallb stay cs = true -> Forall good_kid cs -> Forall (fun n => forall inj i s s', i < L -> s_end s = at_ i -> mt e n inj s = Ok s' -> s_acc s' = false -> ~ tl n i (S i)) cs -> cs <> [] ->
  forall inj i s s', i < L -> s_end s = at_ i -> dfs (map (fun c i => mt e c i) cs) inj s = Ok s' -> s_acc s' = false -> forall n, In n cs -> ~ tl n i (S i).
Proof.
  induction cs as [|c cs IH]; intros S F G N inj i s s' Hi E X Ac; [congruence|]. inversion F as [|? ? Fc Fcs]; subst. inversion G as [|? ? Gc Gcs]; subst. cbn [forallb] in S. apply andb_true_iff in S as [Sc Scs]. destruct cs as [|c' cs].
  - cbn [map dfs] in X. intros y [Iy|[]]. subst y. exact (Gc inj i s s' Hi E X Ac).
  - cbn [map dfs] in X. destruct (mt e c inj s) as [s1|] eqn:M; [|discriminate]. cbn [bind] in X. destruct (s_acc s1) eqn:Ac1; [injection X as <-; congruence|].
    destruct (Fc inj i s s1 ltac:(lia) E M) as [_ B]. specialize (B Sc Ac1). intros y [Iy|Iy]; [subst y; exact (Gc inj i s s1 Hi E M Ac1)|].
    exact (IH Scs Fcs Gcs ltac:(discriminate) [] i (set_acc true s1) s' Hi B X Ac y Iy).
Qed.
Lemma one_stay n : one n = true -> stay n = true.
Proof.
  induction n using node_ind'; cbn [one stay]; intro O; try discriminate.
  - now apply andb_true_iff in O as [_ O].
  - destruct cs as [|c cs]; [discriminate|]. rewrite forallb_forall in O |- *. rewrite Forall_forall in H. auto.
  - apply andb_true_iff in O as [O _]. auto.
  - apply andb_true_iff in O as [O C]. rewrite (IHn O). exact C.
Qed.
Lemma forallb_removelast {A} (f : A -> bool) l : forallb f l = true -> forallb f (removelast l) = true.
Proof.
  induction l as [|a l IH]; [auto|]. intro H. cbn [forallb] in H. apply andb_true_iff in H as [X Y]. destruct l as [|b l]; [reflexivity|]. change (removelast (a :: b :: l)) with (a :: removelast (b :: l)). cbn [forallb]. now rewrite X, (IH Y).
Qed.
Lemma one_sure n : one n = true -> sure d n = true.
Proof.
  induction n using node_ind'; cbn [one sure]; intro O; try discriminate.
  - apply andb_true_iff in O as [O _]. unfold term_sure. now rewrite O.
  - assert (P : forallb one cs = true) by (destruct cs; [discriminate|exact O]). apply andb_true_iff. split.
    + rewrite forallb_forall in P |- *. rewrite Forall_forall in H. auto.
    + apply forallb_removelast. rewrite forallb_forall in P |- *. auto using one_stay.
  - apply andb_true_iff in O as [O C]. destruct cs; [|discriminate]. cbn. now rewrite (IHn O).
  - apply andb_true_iff in O as [O C]. destruct cs; [|discriminate]. cbn. now rewrite (IHn O).
Qed.
Lemma forall_impl_b (P : node -> Prop) f cs : Forall (fun n => f n = true -> P n) cs -> forallb f cs = true -> Forall P cs.
Proof. intros F H. rewrite forallb_forall in H. rewrite Forall_forall in F |- *. auto. Qed.
Definition refuses (n : node) : Prop := forall inj i s s', i < L -> s_end s = at_ i -> mt e n inj s = Ok s' -> s_acc s' = false -> ~ tl n i (S i).
Lemma one_none n : one n = true -> good_kid n /\ refuses n.
Proof.
  induction n using node_ind'; cbn [one]; intro O; try discriminate.
  - assert (T : term_sure d t = true) by (apply andb_true_iff in O as [O _]; unfold term_sure; now rewrite O). split; [intro inj; exact (term_okm t T)|].
    intros inj i s s' Hi E X Ac Y. apply andb_true_iff in O as [O NS]. unfold char_term in O. destruct (tset t) as [P|] eqn:Et; [|discriminate]. cbn [tl] in Y. rewrite (termR_set _ t P Et) in Y. destruct Y as (_ & c & Nc & Pc).
    cbn [mt] in X.
    assert (TT : forall Q, guarded e (match_test e Q) s = Ok s' -> Q c = false).
    { intros Q Z. unfold guarded in Z. rewrite E, (qe_le pre w post) in Z. replace (L <=? i) with false in Z by lia. unfold match_test in Z. rewrite E, (at_rd pre w post i c Nc) in Z. destruct (Q c); [|reflexivity]. rewrite (at_S pre), (at_move pre w post) in Z by lia. injection Z as <-. discriminate Ac. }
    assert (TE : forall x, guarded e (match_exact e [x]) s = Ok s' -> (x =? c)%Z = false).
    { intros x Z. unfold guarded in Z. rewrite E, (qe_le pre w post) in Z. replace (L <=? i) with false in Z by lia. unfold match_exact in Z. cbn [exact_loop set_acc s_end] in Z. rewrite E, (at_rd pre w post i c Nc) in Z. destruct (x =? c)%Z; [|reflexivity]. rewrite (at_S pre), (at_move pre w post) in Z by lia. cbn [bind] in Z. injection Z as <-. discriminate Ac. }
    destruct t as [tok|x|a b| |]; cbn [tset match_term] in *; try discriminate.
    + unfold spaced_term in NS. destruct (term_kind tok) as [x|a b|[]] eqn:K; cbn [kset] in *; try discriminate.
      * destruct x as [|x [|]]; try discriminate. injection Et as <-. apply TE in X. congruence.
      * injection Et as <-. apply TT in X. congruence.
      * injection Et as <-. apply TT in X. congruence.
      * injection Et as <-. apply TT in X. congruence.
    + destruct x as [|x [|]]; try discriminate. injection Et as <-. apply TE in X. congruence.
    + injection Et as <-. apply TT in X. congruence.
  - assert (P : forallb one cs = true) by (destruct cs; [discriminate|exact O]). pose proof (forall_impl_b _ _ _ H P) as F.
    assert (F1 : Forall good_kid cs) by (eapply Forall_impl; [|exact F]; now intros ? []). assert (F2 : Forall refuses cs) by (eapply Forall_impl; [|exact F]; now intros ? []).
    assert (ST : forallb stay cs = true) by (rewrite forallb_forall in P |- *; auto using one_stay). split.
    + intro inj. cbn [mt stay Sure.tl]. apply dfs_okm; [exact F1|now apply forallb_removelast].
    + intros inj i s s' Hi E X Ac Y. cbn [tl mt] in *. assert (N : cs <> []) by (destruct cs; [discriminate O|discriminate]). apply (proj1 (kidsR_in w cs i (S i) N)) in Y as (n & I & Y). exact (dfs_none cs ST F1 F2 N inj i s s' Hi E X Ac n I Y).
  - apply andb_true_iff in O as [O C]. destruct cs; [|discriminate]. destruct (IHn O) as [G R]. split.
    + intro inj. cbn [mt stay Sure.tl map]. eapply okm_weaken; [apply G|intros i j X; now apply thenR_nil|auto].
    + intros inj i s s' Hi E X Ac Y. cbn [Sure.tl map] in Y. apply (proj1 (thenR_nil _ _ _)) in Y. exact (R [] i s s' Hi E X Ac Y).
  - apply andb_true_iff in O as [O C]. destruct cs; [|discriminate]. destruct (IHn O) as [G R]. split.
    + intro inj. cbn [mt stay Sure.tl map dfs]. rewrite andb_true_r. eapply okm_weaken; [apply (group_nil_okm _ _ _ _ (G _))|intros a b X; now apply thenR_nil|auto].
    + intros inj a s s' Hi E X Ac Y. cbn [Sure.tl map] in Y. apply (proj1 (thenR_nil _ _ _)) in Y. cbn [mt map dfs] in X. unfold group_m in X. destruct (mt e n [] s) as [s1|] eqn:M; [|discriminate]. cbn [bind] in X.
      destruct (s_acc s1) eqn:Ac1.
      * destruct (set_group _ _ s1) as [s2|] eqn:Sg; [|discriminate]. cbn [bind] in X. injection X as <-. apply set_group_end in Sg as [_ Sg]. congruence.
      * exact (R [] a s s1 Hi E M Ac1 Y).
Qed.
Lemma negated_okm m : one m = true -> okm (negated_m e (mt e m [])) (tl (Negated m)) false.
Proof.
  intros O i s s' Hi E X. split; [|discriminate]. intro Ac. destruct (one_none m O) as [G R]. unfold negated_m in X. rewrite E, (qe_le pre w post) in X. destruct (Nat.leb_spec L i); [injection X as <-; discriminate|].
  destruct (mt e m [] s) as [s1|] eqn:M; [|discriminate]. cbn [bind] in X. destruct (s_acc s1) eqn:Ac1; [injection X as <-; discriminate|]. destruct (G [] i s s1 Hi E M) as [_ B]. specialize (B (one_stay _ O) Ac1). rewrite B, (at_S pre), (at_move pre w post) in X by lia. injection X as <-.
  exists (S i). split; [lia|]. split; [reflexivity|]. split; [lia|]. split; [reflexivity|]. exact (R [] i s s1 ltac:(lia) E M Ac1).
Qed.
Lemma nonempty_nil {A} (l : list A) : nonempty l = false -> l = [].
Proof. destruct l; [auto|discriminate]. Qed.
Lemma greedy_gen_case (m : node) mn mx hc K inj : opt_case m mn mx = false -> greedy_m e (mt e m []) (nmin m) (nmax m) mn mx hc K inj = greedy_gen e (mt e m []) mn mx (greedy_bt hc K inj) K.
Proof. unfold opt_case, greedy_m. intros ->. reflexivity. Qed.
Theorem sure_okm n : sure d n = true -> good_kid n.
Proof.
  induction n using node_ind'; cbn [sure]; intros O inj; rewrite ?andb_true_iff in O.
  - exact (term_okm t O).
  - destruct O as [O1 O2]. cbn [mt stay Sure.tl]. apply dfs_okm; [exact (forall_impl_b _ _ _ H O1)|exact O2].
  - destruct O as [[O1 O2] O3]. pose proof (dfs_okm cs (forall_impl_b _ _ _ H O2) O3) as K. cbn [stay Sure.tl]. destruct cs as [|c cs].
    + cbn [mt map]. eapply okm_weaken; [exact (IHn O1 [])|intros i j X; now apply thenR_nil|auto].
    + cbn [mt]. eapply simple_okm; [exact (IHn O1 [])|apply K].
  - destruct O as [[[[O1 O2] O3] O4] O5]. assert (O6 : forallb stay (removelast cs) = true) by now apply forallb_removelast. pose proof (dfs_okm cs (forall_impl_b _ _ _ H O4) O6 []) as K. rewrite O5 in K. destruct (one_none n O3) as [G _]. specialize (G []). rewrite (one_stay n O3) in G.
    cbn [mt stay Sure.tl]. rewrite greedy_gen_case by (now apply negb_true_iff).
    eapply greedy_gen_okm; [lia|exact (one_tl w n O3)|exact G| |exact K]. apply bt_okm; [intros _; exact K|]. intros N. apply nonempty_nil in N. subst. intro i. reflexivity.
  - destruct O as [[[O1 O2] O3] O4]. assert (O6 : forallb stay (removelast cs) = true) by now apply forallb_removelast. pose proof (dfs_okm cs (forall_impl_b _ _ _ H O3) O6 []) as K. rewrite O4 in K.
    cbn [mt stay Sure.tl]. eapply lazy_okm; [lia|exact (IHn O2 [])|exact K|intros _; exact K].
  - destruct O as [[[O1 O2] O3] O4]. pose proof (dfs_okm cs (forall_impl_b _ _ _ H O3) O4 []) as K. cbn [mt stay Sure.tl]. intros i s s' Hi E X. split.
    + exact (proj1 (possessive_okm _ _ _ _ _ _ _ _ (proj1 (N.leb_le _ _) O1) (IHn O2 inj) K i s s' Hi E X)).
    + intro Q. rewrite !andb_true_iff in Q. destruct Q as [[Q1 Q2] Q3]. destruct cs; [|discriminate]. specialize (IHn O2 inj). rewrite Q1 in IHn. exact (possessive_stay _ _ _ _ (proj1 (N.leb_le _ _) Q2) IHn i s s' Hi E X).
  - destruct O as [[O1 O2] O3]. pose proof (dfs_okm cs (forall_impl_b _ _ _ H O2) O3 []) as K. cbn [mt stay Sure.tl]. eapply repeated_okm; [exact (IHn O1 [])|exact K].
  - destruct O as [[O1 O2] O3]. cbn [mt stay Sure.tl]. destruct cs as [|c cs].
    + cbn [map dfs]. rewrite andb_true_r. eapply okm_weaken; [apply (group_nil_okm _ _ _ _ (IHn O1 _))|intros a b X; now apply thenR_nil|auto].
    + eapply okm_weaken; [eapply group_okm; [exact (IHn O1 _)|exact (dfs_okm _ (forall_impl_b _ _ _ H O2) O3 _)]|auto|]. rewrite andb_false_r. auto.
  - exact (negated_okm n O).
Qed.
End Run.
