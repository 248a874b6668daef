(** x{i}x{j,k} and x{i+j,i+k} (C70). *)
From Coq Require Import String ZArith NArith List Bool Lia ZifyBool ZifyNat ZifyN.
From Verif Require Import Base Text Ast AstProofs Builder BuilderProofs Engine EngineProofs Api ApiProofs Spec Tree Supported Captures Wrap Laws.
Import ListNotations.
Open Scope N_scope.

(** ** Possessive *)
Lemma poss_prefix m mn : forall i t d s, t + N.of_nat i <= mn -> d = s_end s ->
  nl i (poss_step m mn) (t, d, s) = match nl i (req_step m) s with
                                    | inl s1 => inl (t + N.of_nat i, s_end s1, s1) | inr o => inr (inr o) end.
Proof.
  induction i as [|i IH]; intros t d s H D; cbn [nl].
  - subst d. now rewrite N.add_0_r.
  - unfold poss_step at 1, req_step at 1. destruct (m s) as [s1|]; [|reflexivity]. destruct (s_acc s1) eqn:A.
    + rewrite (IH (t + 1) (s_end s1) s1) by (try reflexivity; lia). destruct (nl i (req_step m) s1); [|reflexivity]. do 3 f_equal. lia.
    + destruct (N.ltb_spec t mn); [reflexivity|lia].
Qed.
Definition shifted (i : N) (x : N * Z * st) : N * Z * st := let '(t, d, s) := x in (i + t, d, s).
Lemma poss_shift m mn i : forall k x, nl k (poss_step m (i + mn)) (shifted i x)
  = match nl k (poss_step m mn) x with inl y => inl (shifted i y) | inr o => inr o end.
Proof.
  induction k as [|k IH]; intros [[t d] s]; cbn [nl]; [reflexivity|]. unfold shifted at 1, poss_step at 1 3. destruct (m s) as [s1|]; [|reflexivity].
  destruct (s_acc s1).
  - replace (i + t + 1) with (i + (t + 1)) by lia. apply (IH (t + 1, s_end s1, s1)).
  - replace (i + t <? i + mn) with (t <? mn) by lia. now destruct (t <? mn).
Qed.
Lemma poss_add m i mn mx r s : possessive_m m (i + mn) (i + mx) r s = repeated_m m i (possessive_m m mn mx r) s.
Proof.
  unfold possessive_m, repeated_m, reps. rewrite !loopN_nl, N2Nat.inj_add, Laws.nl_add, (poss_prefix m (i + mn) (N.to_nat i) 0 (s_end s) s) by (try reflexivity; lia).
  destruct (nl (N.to_nat i) (req_step m) s) as [s1|o]; [|reflexivity]. rewrite !loopN_nl.
  replace (0 + N.of_nat (N.to_nat i), s_end s1, s1) with (shifted i (0, s_end s1, s1)) by (unfold shifted; do 2 f_equal; lia).
  rewrite poss_shift. now destruct (nl (N.to_nat mx) (poss_step m mn) (0, s_end s1, s1)) as [[[t d] s2]|[s2|o]].
Qed.
(** ** Greedy *)
Definition lifted (i : N) (x : N * st) : N * st := (i + fst x, snd x).
Lemma greedy_shift m i : forall k x, nl k (greedy_step m) (lifted i x)
  = match nl k (greedy_step m) x with inl y => inl (lifted i y) | inr (Some y) => inr (Some (lifted i y)) | inr None => inr None end.
Proof.
  induction k as [|k IH]; intros [t s]; cbn [nl]; [reflexivity|]. unfold greedy_step at 1 3, lifted at 1 2. cbn [fst snd]. destruct (m s) as [s1|]; [|reflexivity].
  destruct (s_acc s1); [|reflexivity]. replace (i + t + 1) with (i + (t + 1)) by lia. apply (IH (t + 1, s1)).
Qed.
Lemma gen_add e m i mn mx bt r s : greedy_gen e m (i + mn) (i + mx) bt r s = repeated_m m i (greedy_gen e m mn mx bt r) s.
Proof.
  unfold greedy_gen, repeated_m. rewrite reps_add. destruct (reps i m s) as [s1|o]; [|reflexivity]. destruct (reps mn m s1) as [s2|o]; [|reflexivity].
  replace (i + mx - (i + mn)) with (mx - mn) by lia. rewrite !loopN_nl. change (i + mn, s2) with (lifted i (mn, s2)). rewrite greedy_shift.
  destruct (nl (N.to_nat (mx - mn)) (greedy_step m) (mn, s2)) as [y|[y|]]; [| |reflexivity]; unfold lifted; cbn [fst snd]; replace (i + fst y - (i + mn)) with (fst y - mn) by lia; reflexivity.
Qed.
Lemma node_poss e m i mn mx cs s : mt e (Repeated m i [Possessive m mn mx cs]) [] s = mt e (Possessive m (i + mn) (i + mx) cs) [] s.
Proof. cbn [mt map dfs]. now rewrite poss_add. Qed.
Lemma node_greedy e m i mn mx cs s : ~ (mn = 0 /\ mx = 1) ->
  mt e (Repeated m i [Greedy m mn mx cs]) [] s = mt e (Greedy m (i + mn) (i + mx) cs) [] s.
Proof.
  intro H. cbn [mt map dfs]. unfold greedy_m. replace (N.eqb mn 0 && N.eqb mx 1 && N.eqb (nmin m) (nmax m))%bool with false.
  2:{ destruct (N.eqb_spec mn 0), (N.eqb_spec mx 1); try reflexivity. tauto. }
  destruct (N.eqb (i + mn) 0 && N.eqb (i + mx) 1 && N.eqb (nmin m) (nmax m))%bool eqn:E; [|now rewrite gen_add].
  exfalso. apply H. lia.
Qed.

(** ** A loop that cannot go on for long *)
Lemma nl_long {A B} (f : A -> A + B) (mu : A -> nat) : (forall a b, f a = inl b -> (mu b < mu a)%nat) ->
  forall k k' a, (mu a < k)%nat -> (mu a < k')%nat -> nl k f a = nl k' f a.
Proof.
  intro D. induction k as [|k IH]; intros [|k'] a H H'; try lia. cbn [nl]. destruct (f a) as [b|o] eqn:E; [|reflexivity].
  specialize (D _ _ E). apply IH; lia.
Qed.
(** [m] moves forward inside the memory whenever it accepts. *)
Definition forward (e : env) (m : clo) : Prop := forall s s1, m s = Ok s1 -> s_acc s1 = true ->
  (0 <= s_end s < s_end s1)%Z /\ (s_end s1 <= Z.of_nat (length (buf e)))%Z.
Definition left_over (e : env) (s : st) : nat := Z.to_nat (Z.of_nat (length (buf e)) - Z.max 0 (s_end s)).
Lemma left_len e s : (left_over e s <= length (buf e))%nat.
Proof. unfold left_over. lia. Qed.
Lemma forward_less e m s s1 : forward e m -> m s = Ok s1 -> s_acc s1 = true -> (left_over e s1 < left_over e s)%nat.
Proof. intros F M A. destruct (F _ _ M A). unfold left_over. lia. Qed.
Lemma gen_long e m mn mx mx' bt r s : forward e m -> N.of_nat (length (buf e)) < mx - mn -> N.of_nat (length (buf e)) < mx' - mn ->
  greedy_gen e m mn mx bt r s = greedy_gen e m mn mx' bt r s.
Proof.
  intros F L L'. unfold greedy_gen. destruct (reps mn m s) as [s2|o]; [|reflexivity]. rewrite !loopN_nl.
  rewrite (nl_long (greedy_step m) (fun x => left_over e (snd x))) with (k' := N.to_nat (mx' - mn)); [reflexivity| | |].
  - intros [t a] b E. unfold greedy_step in E. cbn [fst snd] in *. destruct (m a) as [a1|] eqn:M; [|discriminate]. destruct (s_acc a1) eqn:A; [|discriminate].
    injection E as <-. cbn [snd]. now apply (forward_less e m).
  - cbn [snd]. pose proof (left_len e s2). lia.
  - cbn [snd]. pose proof (left_len e s2). lia.
Qed.
Lemma poss_long e m mn mx mx' r s : forward e m -> N.of_nat (length (buf e)) < mx -> N.of_nat (length (buf e)) < mx' ->
  possessive_m m mn mx r s = possessive_m m mn mx' r s.
Proof.
  intros F L L'. unfold possessive_m. rewrite !loopN_nl.
  rewrite (nl_long (poss_step m mn) (fun x => left_over e (snd x))) with (k' := N.to_nat mx'); [reflexivity| | |].
  - intros [[t d] a] b E. unfold poss_step in E. destruct (m a) as [a1|] eqn:M; [|discriminate]. destruct (s_acc a1) eqn:A.
    + injection E as <-. cbn [snd]. now apply (forward_less e m).
    + destruct (t <? mn); discriminate.
  - cbn [snd]. pose proof (left_len e s). lia.
  - cbn [snd]. pose proof (left_len e s). lia.
Qed.
Lemma node_poss_long e m i mn mx mx' cs s : forward e (mt e m []) -> N.of_nat (length (buf e)) < mx -> N.of_nat (length (buf e)) < mx' ->
  mt e (Repeated m i [Possessive m mn mx cs]) [] s = mt e (Possessive m (i + mn) mx' cs) [] s.
Proof.
  intros F L L'. cbn [mt map dfs]. rewrite (poss_long e _ _ mx' (i + mx)) by (auto; lia). now rewrite poss_add.
Qed.
Lemma node_greedy_long e m i mn mx mx' cs s : forward e (mt e m []) -> N.of_nat (length (buf e)) < mx - mn -> N.of_nat (length (buf e)) < mx' - (i + mn) ->
  1 < mx -> 1 < mx' ->
  mt e (Repeated m i [Greedy m mn mx cs]) [] s = mt e (Greedy m (i + mn) mx' cs) [] s.
Proof.
  intros F L L' M M'. rewrite node_greedy by lia. cbn [mt]. unfold greedy_m.
  destruct (N.eqb_spec (i + mx) 1); [lia|]. destruct (N.eqb_spec mx' 1); [lia|]. rewrite !andb_false_r. cbn [andb].
  apply gen_long; auto; lia.
Qed.

(** ** Elements move forward *)
Section Elem.
Open Scope Z_scope.
Variable e : env.
Definition steps (m : clo) : Prop := forall s s1, m s = Ok s1 ->
  s_end s <= s_end s1 /\ (s_end s < 0 -> qe e <= s_end s /\ s_acc s1 = false /\ s_end s1 = s_end s)
  /\ (s_acc s1 = true -> s_end s < s_end s1 <= Z.of_nat (length (buf e))).
Lemma steps_forward m : steps m -> forward e m.
Proof.
  intros H s s1 M A. destruct (H s s1 M) as (L & B & C). specialize (C A). destruct (Z.ltb_spec (s_end s) 0) as [N0|]; [|lia].
  destruct (B N0) as (_ & X & _). congruence.
Qed.
Lemma rd_pos p x : rd e p = Some x -> 0 <= p.
Proof. unfold rd. destruct (Z.ltb_spec p 0); [discriminate|lia]. Qed.
Lemma move_steps p s s1 : move e p s = Ok s1 -> s1 = set_end p s /\ p <= Z.of_nat (length (buf e)).
Proof. unfold move. destruct (ptr_ok e p) eqn:P; [|discriminate]. intros [= <-]. split; [reflexivity|]. unfold ptr_ok in P. lia. Qed.
Lemma guard_steps m : (forall s s1, m s = Ok s1 -> 0 <= s_end s /\ s_end s <= s_end s1 /\ (s_acc s1 = true -> s_end s < s_end s1 <= Z.of_nat (length (buf e)))) ->
  steps (guarded e m).
Proof.
  intros H s s1 M. unfold guarded in M. destruct (Z.leb_spec (qe e) (s_end s)).
  - injection M as <-. cbn [set_acc s_end s_acc]. split; [lia|]. split; [auto|discriminate].
  - destruct (H s s1 M) as (P & L & C). split; [exact L|]. split; [lia|exact C].
Qed.
Lemma test_steps f : steps (guarded e (match_test e f)).
Proof.
  apply guard_steps. intros s s1 M. unfold match_test in M. destruct (rd e (s_end s)) as [c|] eqn:R; [|discriminate]. apply rd_pos in R.
  destruct (f c); [|injection M as <-; cbn [set_acc s_end s_acc]; split; [exact R|split; [lia|discriminate]]].
  apply move_steps in M as [-> P]. cbn [set_end set_acc s_end s_acc]. lia.
Qed.
Lemma space_steps : steps (guarded e (match_space e)).
Proof.
  apply guard_steps. intros s s1 M. unfold match_space in M. destruct (rd e (s_end s)) as [c|] eqn:R; [|discriminate]. apply rd_pos in R.
  apply move_steps in M as [-> P]. cbn [set_end set_acc s_end s_acc]. lia.
Qed.
Lemma exact_steps cs : forall start s s1, start <= s_end s -> exact_loop e cs start s = Ok s1 ->
  start <= s_end s1 /\ (s_acc s1 = true -> s_end s + Z.of_nat (length cs) = s_end s1 /\ (cs <> [] -> s_end s1 <= Z.of_nat (length (buf e)))).
Proof.
  induction cs as [|c cs IH]; intros start s s1 L M; cbn [exact_loop] in M.
  - injection M as <-. split; [lia|]. intros _. split; [cbn [length]; lia|congruence].
  - destruct (rd e (s_end s)) as [x|] eqn:R; [|discriminate]. destruct (c =? x).
    + destruct (move e (s_end s + 1) s) as [s2|] eqn:Mv; [|discriminate]. cbn [bind] in M. apply move_steps in Mv as [-> P].
      destruct (IH start (set_end (s_end s + 1) s) s1 ltac:(cbn [set_end s_end]; lia) M) as [A B]. split; [exact A|]. intro K. specialize (B K). cbn [set_end s_end] in B.
      split; [cbn [length]; lia|]. intros _. destruct cs as [|d cs]; [cbn [length] in B; lia|apply B; discriminate].
    + injection M as <-. cbn [set_acc set_end s_end s_acc]. split; [lia|discriminate].
Qed.
Lemma literal_steps cs : cs <> [] -> steps (guarded e (match_exact e cs)).
Proof.
  intro NE. apply guard_steps. intros s s1 M. unfold match_exact in M.
  assert (P : 0 <= s_end s) by (destruct cs; [congruence|]; cbn [exact_loop set_acc s_end] in M; destruct (rd e (s_end s)) eqn:R; [exact (rd_pos _ _ R)|discriminate]).
  destruct (exact_steps cs (s_end s) (set_acc true s) s1 ltac:(cbn [set_acc s_end]; lia) M) as [A B]. cbn [set_acc s_end] in B. conj; try lia.
  intro K. specialize (B K). destruct cs; [congruence|]. cbn [length] in B. destruct B as [B B']. specialize (B' ltac:(discriminate)). lia.
Qed.
Definition one_char (t : term) : bool :=
  match t with TTerminal tok => negb (match tok with [] => true | _ => false end) | TExact cs => negb (match cs with [] => true | _ => false end) | TRange _ _ => true | _ => false end.
Lemma kind_exact tok cs : tok <> [] -> term_kind tok = KExact cs -> cs <> [].
Proof.
  intros NE. unfold term_kind. repeat match goal with |- context [if ?b then _ else _] => destruct b; try discriminate; try (intros [= <-]; discriminate) end.
  destruct tok as [|b [|c [|d tok]]]; try congruence; try (intros [= <-]; discriminate).
  all: try (destruct (b =? c_bslash); intros [= <-]; discriminate).
Qed.
Lemma term_steps t : one_char t = true -> steps (match_term e t).
Proof.
  destruct t as [tok|cs|a b| |]; cbn [one_char match_term]; intro H; try discriminate H.
  - assert (NE : tok <> []) by (intros ->; discriminate). destruct (term_kind tok) as [cs|a b|[]] eqn:K; try apply test_steps; [|apply space_steps].
    apply literal_steps. exact (kind_exact tok cs NE K).
  - apply literal_steps. intros ->. discriminate.
  - apply test_steps.
Qed.
Lemma opt_one_char t : one_char t = true -> one_char (term_optimize t) = true.
Proof.
  destruct t as [tok|cs|a b| |]; cbn [one_char term_optimize]; intro H; try exact H. assert (NE : tok <> []) by (intros ->; discriminate).
  destruct (term_kind tok) as [cs|a b|k] eqn:K; try reflexivity; [|exact H]. apply kind_exact in K; [|exact NE]. destruct cs; [congruence|reflexivity].
Qed.
Lemma dfs_steps : forall (l : list term) inj, l <> [] -> forallb one_char l = true -> steps (dfs (map (fun t (_ : list clo) => match_term e t) l) inj).
Proof.
  induction l as [|t l IH]; intros inj NE H; [congruence|]. cbn [forallb] in H. apply andb_true_iff in H as [Ht H]. pose proof (term_steps t Ht) as S.
  destruct l as [|u l]; [exact S|]. intros s s1 M. cbn [map dfs] in M. destruct (match_term e t s) as [s2|] eqn:E; [|discriminate]. destruct (S s s2 E) as (L & B & C). cbn [bind] in M.
  destruct (s_acc s2) eqn:A2.
  - injection M as <-. rewrite A2. auto.
  - destruct (IH [] ltac:(discriminate) H _ _ M) as (L' & B' & C'). cbn [set_acc s_end] in *. conj; [lia| |intro K; specialize (C' K); lia].
    intro N0. destruct (B N0) as (Q & _ & E2). rewrite E2 in *. destruct (B' N0) as (_ & X & Y). auto.
Qed.
Lemma negated_steps m : steps m -> steps (negated_m e m).
Proof.
  intros H s s1 M. unfold negated_m in M. destruct (Z.leb_spec (qe e) (s_end s)).
  - injection M as <-. cbn [set_acc s_end s_acc]. split; [lia|]. split; [auto|discriminate].
  - destruct (m s) as [s2|] eqn:E; [|discriminate]. destruct (H s s2 E) as (L & B & C). cbn [bind] in M. destruct (s_acc s2).
    + injection M as <-. cbn [set_acc s_end s_acc]. split; [lia|]. split; [|discriminate]. intro N0. destruct (B N0). lia.
    + apply move_steps in M as [-> P]. cbn [set_acc set_end s_end s_acc]. conj; try lia.
Qed.
Lemma class_node items : items <> [] -> forall inj0, exists t0 l, forallb one_char (t0 :: l) = true
  /\ forall inj s, mt e (optimize (SimpleV (map tree_citem items)) inj0) inj s = dfs (map (fun t (_ : list clo) => match_term e t) (t0 :: l)) inj s.
Proof.
  intros NE inj0. assert (T : forall i, exists t, one_char t = true /\ forall j, optimize (tree_citem i) j = Term t).
  { intros [c|a b|c]; cbn [tree_citem optimize]; eexists; (split; [|reflexivity]); try reflexivity. apply opt_one_char. reflexivity. }
  assert (TL : forall l, exists ts, length ts = length l /\ forallb one_char ts = true /\ map (fun c => optimize c []) (map tree_citem l) = map Term ts).
  { induction l as [|i l IH]; [exists []; auto|]. destruct IH as (ts & L & F & E). destruct (T i) as (t & Ft & Et). exists (t :: ts). cbn [length forallb map]. now rewrite L, Ft, F, Et, E. }
  destruct items as [|i [|j items]]; [congruence| |].
  - destruct (T i) as (t & Ft & Et). exists t, []. split; [cbn [forallb]; now rewrite Ft|]. intros inj s. cbn [map]. change (optimize (SimpleV [tree_citem i]) inj0) with (optimize (tree_citem i) inj0). now rewrite Et.
  - destruct (TL (i :: j :: items)) as (ts & L & F & E). destruct ts as [|t0 ts]; [discriminate|]. exists t0, ts. split; [exact F|]. intros inj s.
    change (optimize (SimpleV (map tree_citem (i :: j :: items))) inj0) with (SimpleV (map (fun c => optimize c []) (map tree_citem (i :: j :: items)))). rewrite E. cbn [mt]. f_equal. rewrite map_map. reflexivity.
Qed.
Lemma elem_steps x : elem_ok x = true -> steps (mt e (optimize (tree_elem x) []) []).
Proof.
  assert (TS : forall t, one_char t = true -> steps (mt e (Term (term_optimize t)) [])) by (intros t H; exact (term_steps _ (opt_one_char t H))).
  destruct x as [c|c| |[] items|a b c|a b]; cbn [elem_ok tree_elem optimize]; intro H; try (now apply TS).
  - apply andb_true_iff in H as [_ H]. assert (NE : items <> []) by (intros ->; discriminate). destruct (class_node items NE []) as (t0 & l & F & E).
    change (steps (negated_m e (mt e (optimize (SimpleV (map tree_citem items)) []) []))). apply negated_steps. intros s s1 M. rewrite E in M. exact (dfs_steps (t0 :: l) [] ltac:(discriminate) F s s1 M).
  - apply andb_true_iff in H as [_ H]. assert (NE : items <> []) by (intros ->; discriminate). destruct (class_node items NE []) as (t0 & l & F & E).
    change (steps (mt e (optimize (SimpleV (map tree_citem items)) []) [])). intros s s1 M. rewrite E in M. exact (dfs_steps (t0 :: l) [] ltac:(discriminate) F s s1 M).
Qed.
End Elem.

(** ** Sequences that begin with a quantified item *)
Definition many (x : atom) (q : qkind) (g : greed) (s : sq) : sq := SCons x (QQ q g) s.
Definition others (s : sq) : list node := match s with SNil => [] | _ => [seq_node s] end.
Lemma followed_mkq p m a b c : followed (mkq p m a b) (Some c) = match p with PGreedy => Greedy m a b [c] | PLazy => Lazy m a b [c] | PPoss => Possessive m a b [c] end.
Proof. destruct p; reflexivity. Qed.
Lemma many_node x q g s : caps_atom x = [] -> (forall n, q <> QExact n) -> g = Gr \/ g = Po ->
  let m := optimize (tree_atom x) [] in
  (forall q', (forall n, q' <> QExact n) -> seq_node (many x q' g s) = Possessive m (kind_min q') (umax_of (kind_max q')) (others s))
  \/ (g = Gr /\ forall q', (forall n, q' <> QExact n) -> seq_node (many x q' g s) = Greedy m (kind_min q') (umax_of (kind_max q')) (others s)).
Proof.
  intros C Q G m.
  assert (E : forall q', (forall n, q' <> QExact n) -> seq_node (many x q' g s)
     = optimize (followed (mkq (pol_of g) (tree_atom x) (kind_min q') (umax_of (kind_max q'))) (tree_sq (renumber_sq s 0))) []).
  { intros q' Q'. unfold seq_node, many. cbn [renumber_sq tree_sq]. rewrite (no_caps_renumber x 0 C), (after_zero x C).
    replace (tree_quant (QQ q' g) (tree_atom x)) with (mkq (pol_of g) (tree_atom x) (kind_min q') (umax_of (kind_max q'))) by (destruct q'; try reflexivity; exfalso; eapply Q'; reflexivity). reflexivity. }
  assert (O : match tree_sq (renumber_sq s 0) with None => others s = [] | Some c => others s = [optimize c []] end).
  { destruct s as [|y q0 s]; [reflexivity|]. unfold others, seq_node. cbn [renumber_sq tree_sq]. reflexivity. }
  destruct (tree_sq (renumber_sq s 0)) as [c|] eqn:TS.
  - destruct G as [->| ->].
    + set (d := adm_empty (adm_inter (nadm (tree_atom x)) (extract_adm (map nadm ([c] ++ []))))). destruct d eqn:D.
      * left. intros q' Q'. rewrite (E q' Q'). cbn [pol_of mkq followed app optimize]. unfold d in D. cbn [app] in D. cbn [app]. rewrite D. now rewrite O.
      * right. split; [reflexivity|]. intros q' Q'. rewrite (E q' Q'). cbn [pol_of mkq followed app optimize]. unfold d in D. cbn [app] in D. cbn [app]. rewrite D. now rewrite O.
    + left. intros q' Q'. rewrite (E q' Q'). cbn [pol_of mkq followed app optimize map]. now rewrite O.
  - destruct G as [->| ->].
    + set (d := adm_empty (adm_inter (nadm (tree_atom x)) (extract_adm (map nadm ([] ++ []))))). destruct d eqn:D.
      * left. intros q' Q'. rewrite (E q' Q'). cbn [pol_of mkq followed optimize]. unfold d in D. rewrite D. now rewrite O.
      * right. split; [reflexivity|]. intros q' Q'. rewrite (E q' Q'). cbn [pol_of mkq followed optimize]. unfold d in D. rewrite D. now rewrite O.
    + left. intros q' Q'. rewrite (E q' Q'). cbn [pol_of mkq followed optimize map]. now rewrite O.
Qed.
Lemma many_groups x q g s : caps_atom x = [] -> (forall n, q <> QExact n) -> g = Gr \/ g = Po -> ngroups (seq_node (many x q g s)) = ngroups (seq_node s).
Proof.
  intros C Q G. assert (Z0 : ngroups (optimize (tree_atom x) []) = 0%nat) by (rewrite ngroups_gidx, optimize_gidx, (proj2 (proj2 (proj2 gidx_tree))), C; reflexivity).
  destruct (many_node x q g s C Q G) as [H|[_ H]]; rewrite (H q Q); cbn [ngroups]; rewrite Z0; destruct s; cbn [others map list_sum fold_right]; try reflexivity; lia.
Qed.
Lemma many_add e x i q q' g s : caps_atom x = [] -> (forall n, q <> QExact n) -> (forall n, q' <> QExact n) -> g = Gr \/ g = Po -> (0 <= num_val i)%Z ->
  kind_min q' = Z.to_N (num_val i) + kind_min q ->
  (exists m, kind_max q = Some m /\ kind_max q' = Some (Z.to_N (num_val i) + m) /\ ~ (g = Gr /\ kind_min q = 0 /\ m = 1))
  \/ (kind_max q = None /\ kind_max q' = None /\ (exists y, x = AEl y /\ elem_ok y = true) /\ N.of_nat (length (buf e)) < UMAX - kind_min q') ->
  forall t, mt e (seq_node (times x i (many x q g s))) [] t = mt e (seq_node (many x q' g s)) [] t.
Proof.
  intros C Q Q' G I K D t. rewrite (times_node x i _ C). change (match many x q g s with SNil => [] | _ => [seq_node (many x q g s)] end) with [seq_node (many x q g s)].
  destruct (many_node x q g s C Q G) as [H|[Hg H]]; rewrite (H q Q), (H q' Q'), K.
  - destruct D as [(m & -> & -> & _)|(-> & -> & (y & -> & Y) & L)]; cbn [umax_of]; [apply node_poss|].
    apply node_poss_long; try lia. apply steps_forward. now apply elem_steps.
  - destruct D as [(m & -> & -> & X)|(-> & -> & (y & -> & Y) & L)]; cbn [umax_of]; [apply node_greedy; intro B; apply X; tauto|].
    apply node_greedy_long; try lia; try (unfold UMAX; lia). apply steps_forward. now apply elem_steps.
Qed.
