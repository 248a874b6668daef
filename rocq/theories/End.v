(** Patterns that end with $ in every branch. *)
From Coq Require Import ZArith NArith List Bool Lia ZifyBool ZifyNat ZifyN.
From Verif Require Import Base Text TextSpec TextProofs Ast AstProofs Builder BuilderProofs Engine EngineRel Api ApiProofs Spec Tree ParseProofs EngineProofs Checker Runs Supported Main.
Import ListNotations.
Open Scope Z_scope.

(** Every path through the tree ends with $. *)
Fixpoint dollar (n : node) : bool :=
  match n with
  | Term TEnd => true
  | Term _ | Negated _ => false
  | SimpleV cs => negb (is_nil cs) && forallb dollar cs
  | Simple m cs => if is_nil cs then dollar m else forallb dollar cs
  | Greedy _ _ _ cs | Lazy _ _ _ cs | Possessive _ _ _ cs | Repeated _ _ cs | Group _ _ cs => negb (is_nil cs) && forallb dollar cs
  end.
Section E.
Variable e : env.
(** The end of the query, or just after a line feed that is not behind the end of the query's
    last-plus-one position. *)
Definition at_end (s : st) : Prop := s_end s = qe e \/ (rd e (s_end s - 1) = Some c_nl /\ s_end s - 1 <= qe e).
Definition ends (c : clo) : Prop := forall s s1, c s = Ok s1 -> s_acc s1 = true -> at_end s1.
Definition OE (o : out) : Prop := forall s1, o = Ok s1 -> s_acc s1 = true -> at_end s1.
Lemma ends_O c : ends c <-> forall s, OE (c s).
Proof. unfold ends, OE. firstorder. Qed.
Lemma OE_UB : OE UB.
Proof. discriminate. Qed.
Lemma OE_rej s : s_acc s = false -> OE (Ok s).
Proof. intros H s1 [= <-] A. congruence. Qed.
Lemma OE_bind o f : (forall s, o = Ok s -> OE (f s)) -> OE (bind o f).
Proof. destruct o as [s|]; cbn; [auto|intros; apply OE_UB]. Qed.
Lemma loop_end {A B} (J : B -> Prop) (f : A -> A + B) k a : (forall a, match f a with inl _ => True | inr b => J b end) ->
  match loopN k f a with inl _ => True | inr b => J b end.
Proof. intro H. exact (loopN_inv (fun _ => True) J f (fun a _ => H a) k a Logic.I). Qed.
Lemma reps_end n m s : match reps n m s with inl _ => True | inr o => OE o end.
Proof.
  apply loop_end. intro t. unfold req_step. destruct (m t) as [s1|]; [|apply OE_UB]. destruct (s_acc s1) eqn:A; [exact Logic.I|now apply OE_rej].
Qed.
Lemma end_ends : ends (match_end e).
Proof.
  intros s s1 H A. unfold match_end in H. destruct (Z.ltb_spec (qe e) (s_end s)) as [L|L]; [injection H as <-; discriminate|].
  destruct (rd e (s_end s)) as [c|] eqn:R; [|discriminate]. destruct (Z.eqb_spec c c_nl) as [->|N].
  - unfold move in H. destruct (ptr_ok e _); [|discriminate]. injection H as <-. right. cbn [s_end set_end set_acc]. rewrite Z.add_simpl_r. auto.
  - injection H as <-. cbn [s_acc set_acc] in A. apply orb_true_iff in A as [A|A]; [left; cbn [s_end set_acc]; now apply Z.eqb_eq|]. discriminate.
Qed.
Lemma dfs_end l : l <> [] -> Forall (fun k => forall i, ends (k i)) l -> forall i, ends (dfs l i).
Proof.
  intros N F. induction F as [|c r Hc F IH]; [congruence|]. intro i. apply ends_O. intro s. cbn [dfs].
  destruct r as [|d r]; [apply ends_O; apply Hc|]. apply OE_bind. intros s1 E1. destruct (s_acc s1) eqn:A.
  - intros s2 [= <-] _. exact (Hc i s s1 E1 A).
  - apply ends_O. apply IH. discriminate.
Qed.
Lemma simple_end m r : ends r -> ends (simple_m m r).
Proof.
  intro H. apply ends_O. intro s. unfold simple_m. apply OE_bind. intros s1 _. destruct (s_acc s1) eqn:A; [|now apply OE_rej].
  apply OE_bind. intros s2 E. destruct (s_acc s2) eqn:A2; [|now apply OE_rej]. intros s3 [= <-] _. exact (H s1 s2 E A2).
Qed.
Lemma repeated_end m k r : ends r -> ends (repeated_m m k r).
Proof. intro H. apply ends_O. intro s. unfold repeated_m. pose proof (reps_end k m s) as R. destruct (reps k m s); [now apply ends_O|exact R]. Qed.
Lemma greedy_end m a b mn mx r i : ends r -> ends (greedy_m e m a b mn mx true r i).
Proof.
  intro H. apply ends_O. intro s. unfold greedy_m. set (bt := greedy_bt true r i).
  assert (B : ends bt) by (intros t t1 E A; exact (H t t1 E A)). destruct (_ && _)%bool.
  - unfold greedy_opt. apply OE_bind. intros s1 _. apply OE_bind. intros s2 E2. destruct (_ && _)%bool.
    + apply OE_bind. intros s3 _. now apply ends_O.
    + intros s3 [= <-] A. exact (B s1 s2 E2 A).
  - unfold greedy_gen. pose proof (reps_end mn m s) as R. destruct (reps mn m s) as [s0|o]; [|exact R].
    assert (FIN : forall x : N * st, OE match loopN (fst x - mn) (bt_step e m bt (s_end s0)) (snd x) with inr o => o | inl s2 => r (set_acc true s2) end).
    { intro x. pose proof (loop_end OE (bt_step e m bt (s_end s0)) (fst x - mn) (snd x)) as L.
      destruct (loopN (fst x - mn) (bt_step e m bt (s_end s0)) (snd x)); [now apply ends_O|]. apply L. intro t. unfold bt_step.
      destruct (bt t) as [t1|] eqn:Eb; [|apply OE_UB]. destruct (s_acc t1) eqn:A; [intros s3 [= <-] _; exact (B t t1 Eb A)|].
      destruct (back_for e m (s_end s0) t1); [exact Logic.I|apply OE_UB]. }
    destruct (loopN (mx - mn) (greedy_step m) (mn, s0)) as [x|[x|]]; [apply FIN|apply FIN|apply OE_UB].
Qed.
Lemma lazy_end m mn mx r i : ends r -> ends (lazy_m e m mn mx true r i).
Proof.
  intro H. apply ends_O. intro s. unfold lazy_m. pose proof (reps_end mn m s) as R. destruct (reps mn m s) as [s0|o]; [|exact R].
  set (J := fun x : st + out => match x with inl _ => True | inr o => OE o end).
  pose proof (loop_end J (lazy_step e m true r i (s_end s)) (mx - mn) s0) as L.
  destruct (loopN (mx - mn) (lazy_step e m true r i (s_end s)) s0) as [x|[x|o]]; [now apply ends_O|now apply ends_O|]. apply L. intro t. unfold lazy_step.
  destruct (negb _); [exact Logic.I|]. destruct (r t) as [t1|] eqn:Er; [|apply OE_UB]. destruct (s_acc t1) eqn:A; [intros t2 [= <-] _; exact (H t t1 Er A)|].
  destruct (m t1) as [t2|]; [|apply OE_UB]. destruct (s_acc t2) eqn:A2; [exact Logic.I|]. now apply OE_rej.
Qed.
Lemma poss_end m mn mx r : ends r -> ends (possessive_m m mn mx r).
Proof.
  intro H. apply ends_O. intro s. unfold possessive_m. set (J := fun x : st + out => match x with inl _ => True | inr o => OE o end).
  pose proof (loop_end J (poss_step m mn) mx (0%N, s_end s, s)) as L.
  destruct (loopN mx (poss_step m mn) (0%N, s_end s, s)) as [[[? ?] x]|[x|o]]; [now apply ends_O|now apply ends_O|]. apply L. intros [[k z] t]. unfold poss_step.
  destruct (m t) as [t1|]; [|apply OE_UB]. destruct (s_acc t1) eqn:A; [exact Logic.I|]. destruct (_ <? _)%N; [now apply OE_rej|exact Logic.I].
Qed.
Lemma group_end m i r : ends r -> ends (group_m m i r).
Proof.
  intro H. apply ends_O. intro s. unfold group_m. apply OE_bind. intros s1 _. destruct (s_acc s1) eqn:A; [|now apply OE_rej].
  apply OE_bind. intros s2 _. now apply ends_O.
Qed.
Lemma mt_end_dollar n : dollar n = true -> forall i, ends (mt e n i).
Proof.
  assert (K : forall cs, Forall (fun n => dollar n = true -> forall i, ends (mt e n i)) cs -> forallb dollar cs = true ->
     Forall (fun k => forall i, ends (k i)) (map (fun c i => mt e c i) cs)).
  { intros cs F D. apply Forall_map. rewrite forallb_forall in D. rewrite Forall_forall in *. auto. }
  assert (NE : forall cs : list node, is_nil cs = false -> map (fun c (i : list clo) => mt e c i) cs <> []) by (intros [|]; discriminate).
  assert (NN : forall cs : list node, is_nil cs = false -> nonempty cs = true) by (intros [|]; [discriminate|reflexivity]).
  induction n using node_ind'; cbn [dollar]; intros D inj.
  - destruct t; try discriminate. exact end_ends.
  - apply andb_true_iff in D as [D1 D2]. cbn [mt]. apply dfs_end; [apply NE; now destruct (is_nil cs)|now apply K].
  - cbn [mt]. destruct cs as [|c cs]; [now apply IHn|]. apply simple_end. apply dfs_end; [discriminate|]. apply K; auto.
  - apply andb_true_iff in D as [D1 D2]. apply negb_true_iff in D1. cbn [mt]. rewrite (NN _ D1). apply greedy_end. apply dfs_end; auto.
  - apply andb_true_iff in D as [D1 D2]. apply negb_true_iff in D1. cbn [mt]. rewrite (NN _ D1). apply lazy_end. apply dfs_end; auto.
  - apply andb_true_iff in D as [D1 D2]. apply negb_true_iff in D1. cbn [mt]. apply poss_end. apply dfs_end; auto.
  - apply andb_true_iff in D as [D1 D2]. apply negb_true_iff in D1. cbn [mt]. apply repeated_end. apply dfs_end; auto.
  - apply andb_true_iff in D as [D1 D2]. apply negb_true_iff in D1. cbn [mt]. apply group_end. apply dfs_end; auto.
  - discriminate.
Qed.
Lemma loop_dollar n : dollar n = true -> forall fuel s s1, next_loop fuel e n s = RDone s1 -> s_acc s1 = true -> at_end s1.
Proof.
  intros D. induction fuel as [|f IH]; intros s s1 H A; cbn [next_loop] in H; (destruct (_ <? _); [|injection H as <-; discriminate]); [discriminate|].
  destruct (mt e n [] s) as [t|] eqn:M; [|discriminate]. destruct (s_acc t) eqn:At.
  - injection H as <-. exact (mt_end_dollar n D [] s t M At).
  - destruct (ptr_ok e _); [|discriminate]. exact (IH _ _ H A).
Qed.
Lemma reach_dollar n s : dollar n = true -> reach e n s -> s_acc s = true -> at_end s.
Proof.
  intros D R A. destruct R as [fuel s H|fuel s s' _ H].
  - unfold create in H. destruct (mt e n [] (fresh e n)) as [t|] eqn:M; [|discriminate]. destruct (s_acc t) eqn:At.
    + injection H as <-. exact (mt_end_dollar n D [] _ t M At).
    + exact (loop_dollar n D _ _ _ H A).
  - exact (loop_dollar n D _ _ _ H A).
Qed.
End E.

Lemma optimize_dollar n : forall inj, dollar n = true -> dollar (optimize n inj) = true.
Proof.
  assert (K : forall cs, Forall (fun n => forall inj, dollar n = true -> dollar (optimize n inj) = true) cs -> forallb dollar cs = true ->
     forallb dollar (map (fun c => optimize c []) cs) = true).
  { intros cs F D. rewrite forallb_forall in *. rewrite Forall_forall in F. intros x Hx. apply in_map_iff in Hx as (y & <- & Hy). auto. }
  assert (Z : forall cs, is_nil (map (fun c => optimize c []) cs) = is_nil cs) by (intros [|]; reflexivity).
  induction n using node_ind'; intro inj; cbn [dollar optimize]; intro D.
  - destruct t; try discriminate. reflexivity.
  - apply andb_true_iff in D as [D1 D2]. destruct cs as [|c [|d cs]]; [discriminate| |].
    + inversion H; subst. cbn [forallb] in D2. rewrite andb_true_r in D2. auto.
    + cbn [dollar]. rewrite K by auto. reflexivity.
  - destruct cs as [|c cs]; [now apply IHn|]. cbn [is_nil] in D. cbn [dollar]. rewrite Z. cbn [is_nil]. now apply K.
  - apply andb_true_iff in D as [D1 D2]. destruct (adm_empty _); cbn [dollar]; rewrite Z, D1, K; auto.
  - apply andb_true_iff in D as [D1 D2]. destruct (adm_empty _); cbn [dollar]; rewrite Z, D1, K; auto.
  - apply andb_true_iff in D as [D1 D2]. cbn [dollar]; rewrite Z, D1, K; auto.
  - apply andb_true_iff in D as [D1 D2]. cbn [dollar]; rewrite Z, D1, K; auto.
  - apply andb_true_iff in D as [D1 D2]. cbn [dollar]; rewrite Z, D1, K; auto.
  - discriminate.
Qed.

(** ** The text *)
(** The pattern with $ at the end of every branch. *)
Fixpoint show_d (r : rx) : str :=
  match r with
  | ROne b => show_br b ++ [c_dollar]
  | ROr b r' => show_br b ++ [c_dollar; c_bar] ++ show_d r'
  end.
Fixpoint branches_d (r : rx) : list (list str) :=
  match r with
  | ROne b => [toks_br b ++ [[c_dollar]]]
  | ROr b r' => (toks_br b ++ [[c_dollar]]) :: branches_d r'
  end.
Lemma lx_d r : wf r = true -> lx (show_d r) (join c_bar (branches_d r)).
Proof.
  induction r as [b|b r IH]; cbn [wf show_d branches_d]; intro H.
  - cbn [join]. apply lx_app; [now apply lx_all|apply lx_chr; discriminate].
  - apply andb_true_iff in H as [A B].
    assert (J : join c_bar ((toks_br b ++ [[c_dollar]]) :: branches_d r) = toks_br b ++ ([[c_dollar]] ++ [[c_bar]]) ++ join c_bar (branches_d r)).
    { destruct r; cbn [branches_d join]; rewrite <- !app_assoc; reflexivity. }
    rewrite J. apply lx_app; [now apply lx_all|]. change [c_dollar; c_bar] with ([c_dollar] ++ [c_bar]). apply lx_app; [apply lx_app; apply lx_chr; discriminate|auto].
Qed.
Lemma split_d r : wf r = true -> split c_bar (join c_bar (branches_d r)) = branches_d r.
Proof.
  intro H. apply split_flat_join; [cbn; intuition discriminate|destruct r; discriminate|].
  assert (F : forall b, wf_br b = true -> flat c_bar (toks_br b ++ [[c_dollar]])).
  { intros b W. apply flt_flat, flt_app; [now apply nest_all|]. apply flt_tok. now apply plaintok_b. }
  induction r as [b|b r IH]; cbn [wf branches_d] in *; [constructor; auto|]. apply andb_true_iff in H as [A B]. constructor; auto.
Qed.
Definition unit0 (u : node) : Prop :=
  match u with Simple _ [] | Greedy _ _ _ [] | Lazy _ _ _ [] | Possessive _ _ _ [] | Repeated _ _ [] | Group _ _ [] => True | _ => False end.
Definition last0 (last : option node) : Prop := match last with None => True | Some u => unit0 u end.
Lemma unit0_atom a : unit0 (tree_atom a).
Proof. destruct a as [x|i r|r]; [destruct x as [| | |[]| |]|..]; exact I. Qed.
Lemma unit0_quant q m : unit0 m -> unit0 (tree_quant q m).
Proof. destruct q as [|[] []]; cbn; auto. Qed.
Lemma pushed_dollar last n : last0 last -> dollar n = true -> exists m, pushed last (Some n) = Some m /\ dollar m = true.
Proof.
  intros L D. destruct last as [u|]; [|eexists; split; [reflexivity|exact D]].
  destruct u as [t|cs|m [|]|m a b [|]|m a b [|]|m a b [|]|m k [|]|m i [|]|m]; try (destruct L); (eexists; split; [reflexivity|]); cbn; now rewrite D.
Qed.
Lemma last0_ok last : last0 last -> last_ok last.
Proof. destruct last as [[]|]; cbn; auto. Qed.
Lemma helper_dollar s : wf_sq s = true -> forall f g last, last0 last -> (length (toks_sq s ++ [[c_dollar]]) < f)%nat ->
  exists n, helper f last (toks_sq s ++ [[c_dollar]]) g = Some n /\ dollar n = true.
Proof.
  induction s as [|a q s IH]; intros W f g last L Hf.
  - cbn [toks_sq app] in *. destruct f as [|[|f]]; [cbn in Hf; lia ..|].
    change (helper (S (S f)) last [[c_dollar]] g) with (pushed last (Some (Simple (Term TEnd) []))). now apply pushed_dollar.
  - cbn [wf_sq toks_sq] in *. rewrite !andb_true_iff in W. destruct W as [[A B] C]. destruct f as [|f]; [lia|]. rewrite <- !app_assoc in *.
    rewrite (proj2 (proj2 (proj2 helper_all)) a A f g last _ (last0_ok _ L) Hf).
    assert (Hf2 : (length (toks_quant q ++ toks_sq s ++ [[c_dollar]]) < f)%nat).
    { destruct (atom_start a [] A) as (t & tl & E & _). rewrite app_nil_r in E. rewrite E in Hf. rewrite !app_length in *. cbn in Hf. cbn. lia. }
    assert (ST : startok (toks_sq s ++ [[c_dollar]])) by (pose proof (sq_start s C) as X; destruct (toks_sq s); [split; reflexivity|exact X]).
    destruct (helper_quant q (tree_atom (renumber_atom a g)) (toks_sq s ++ [[c_dollar]]) (after_gi a g) f B ST Hf2) as (f' & Hf' & ->).
    destruct (IH C f' (after_gi a g) (Some (tree_quant q (tree_atom (renumber_atom a g)))) (unit0_quant q _ (unit0_atom _)) Hf') as (n & -> & D).
    now apply pushed_dollar.
Qed.
Lemma helper_dollar_br b : wf_br b = true -> forall g, exists n, helper (S (length (toks_br b ++ [[c_dollar]]))) None (toks_br b ++ [[c_dollar]]) g = Some n /\ dollar n = true.
Proof.
  destruct b as [a s]. intros W g. assert (W' : wf_sq s = true) by (destruct s; [reflexivity|exact W]). cbn [toks_br]. destruct a; cbn [app].
  - cbn [length].
    change (helper (S (S (length (toks_sq s ++ [[c_dollar]])))) None ([c_caret] :: toks_sq s ++ [[c_dollar]]) g)
      with (helper (S (length (toks_sq s ++ [[c_dollar]]))) (Some (Simple (Term TStart) [])) (toks_sq s ++ [[c_dollar]]) g).
    apply helper_dollar; [exact W'|exact I|lia].
  - apply helper_dollar; [exact W'|exact I|lia].
Qed.
Lemma build_dollar r : wf r = true -> forall g, exists ns, build_branches (branches_d r) g = Some ns /\ forallb dollar ns = true /\ ns <> [].
Proof.
  induction r as [b|b r IH]; cbn [wf branches_d build_branches]; intros H g.
  - destruct (helper_dollar_br b H g) as (n & -> & D). exists [n]. cbn. rewrite D. conj; [reflexivity|reflexivity|discriminate].
  - apply andb_true_iff in H as [A B]. destruct (helper_dollar_br b A g) as (n & -> & D). destruct (IH B (next_gi n)) as (ns & -> & D2 & _).
    exists (n :: ns). cbn. rewrite D. conj; [reflexivity|exact D2|discriminate].
Qed.
Lemma compile_dollar r : wf r = true -> exists n, compile (show_d r) = Some n /\ dollar n = true.
Proof.
  intro H. rewrite compile_eq. unfold parse. rewrite (proj2 (lex_iff _ _) (lx_lexed _ _ (lx_d r H))). unfold build. rewrite (split_d r H).
  destruct (build_dollar r H 0%nat) as (ns & -> & D & N). eexists. split; [reflexivity|]. apply optimize_dollar. cbn [dollar]. rewrite D. now destruct ns.
Qed.
