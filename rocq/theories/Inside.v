(** Laws of counts, in the middle of a sequence. *)
From Coq Require Import ZArith NArith List Bool Lia ZifyBool ZifyNat ZifyN.
From Verif Require Import Base Text Ast AstProofs Builder BuilderProofs Engine EngineProofs Api Spec Tree Checker Supported Captures Wrap PropertiesCalm Laws Ranges SpecPut Middle.
Import ListNotations.
Open Scope N_scope.

Definition kids (o : option node) : list node := match o with None => [] | Some c => [optimize c []] end.
Lemma after_twice x g : caps_atom x = [] -> after_atom x (after_atom x g) = after_atom x g.
Proof. intro C. destruct x as [y|i r|r]; [destruct y; reflexivity|discriminate C|reflexivity]. Qed.
Lemma no_groups_in x : caps_atom x = [] -> ngroups (optimize (tree_atom x) []) = 0%nat.
Proof. intro C. rewrite ngroups_gidx, optimize_gidx, (proj2 (proj2 (proj2 gidx_tree))), C. reflexivity. Qed.
Lemma rep_opt X k o : optimize (followed (Repeated X k []) o) [] = Repeated (optimize X []) k (kids o).
Proof. destruct o; reflexivity. Qed.
Lemma rep_adm X k o : nadm (followed (Repeated X k []) o) = nadm X.
Proof. destruct o; reflexivity. Qed.
Lemma run_adm p X mn mx o : mn <> 0 -> nadm (followed (mkq p X mn mx) o) = nadm X.
Proof. intro H. destruct o, p; cbn [mkq followed app nadm]; (destruct (N.eqb_spec mn 0); [contradiction|reflexivity]). Qed.
(** What the optimiser makes of a run depends on neither bound. *)
Lemma run_opt X o : exists b : bool, forall mn mx,
  optimize (followed (mkq PGreedy X mn mx) o) [] = (if b then Possessive else Greedy) (optimize X []) mn mx (kids o) /\ (o = None -> b = true).
Proof.
  destruct o as [c|].
  - exists (adm_empty (adm_inter (nadm X) (extract_adm (map nadm ([c] ++ []))))). intros mn mx. split; [|discriminate]. cbn [mkq followed app optimize].
    destruct (adm_empty _); reflexivity.
  - exists true. intros mn mx. split; [|reflexivity]. cbn [mkq followed app optimize]. replace (adm_inter (nadm X) (extract_adm (map nadm []))) with (@nil chr); [reflexivity|]. destruct (nadm X); reflexivity.
Qed.
Lemma poss_opt X o mn mx : optimize (followed (mkq PPoss X mn mx) o) [] = Possessive (optimize X []) mn mx (kids o).
Proof. destruct o; reflexivity. Qed.
Lemma lazy_opt X o mn mx : (exists b : bool, optimize (followed (mkq PLazy X mn mx) o) [] = (if b then Possessive else Lazy) (optimize X []) mn mx (kids o) /\ (o = None -> b = true)).
Proof.
  destruct o as [c|].
  - set (n := Lazy X mn mx [c]). exists (adm_empty (adm_inter (nadm n) (extract_adm (map nadm ([c] ++ []))))). split; [|discriminate].
    change (optimize (followed (mkq PLazy X mn mx) (Some c)) []) with (if adm_empty (adm_inter (nadm n) (extract_adm (map nadm ([c] ++ [])))) then Possessive (optimize X []) mn mx (kids (Some c)) else Lazy (optimize X []) mn mx (kids (Some c))).
    destruct (adm_empty _); reflexivity.
  - exists true. split; [|reflexivity]. set (n := Lazy X mn mx []). change (optimize (followed (mkq PLazy X mn mx) None) []) with (if adm_empty (adm_inter (nadm n) (extract_adm (map nadm []))) then Possessive (optimize X []) mn mx [] else Lazy (optimize X []) mn mx []).
    replace (adm_inter (nadm n) (extract_adm (map nadm []))) with (@nil chr); [reflexivity|]. destruct (nadm n); reflexivity.
Qed.
Lemma elem_noinj y : noinj (optimize (tree_elem y) []) = true.
Proof. destruct y as [c|c| |[] [|i [|j l]]|a b c|a b]; try reflexivity; destruct i; reflexivity. Qed.

(** ** x{n,n} *)
Lemma reps_acc m k s t : k <> 0 -> reps k m s = inl t -> s_acc t = true.
Proof.
  intros K H. unfold reps in H. rewrite loopN_nl in H. assert (P : forall n s, nl (S n) (req_step m) s = inl t -> s_acc t = true).
  { induction n as [|n IH]; intros u; cbn [nl]; unfold req_step at 1; destruct (m u) as [s1|] eqn:E; try discriminate; destruct (s_acc s1) eqn:A; try discriminate.
    - intro X. injection X as <-. exact A.
    - intro X. apply (IH s1). exact X. }
  destruct (N.to_nat k) as [|n] eqn:E; [lia|]. exact (P n s H).
Qed.
Lemma acc_id s : s_acc s = true -> set_acc true s = s.
Proof. destruct s as [a b g k]. cbn. now intros ->. Qed.
Lemma exact_greedy e m x y k h r i s : k <> 0 -> greedy_m e m x y k k h r i s = repeated_m m k r s.
Proof.
  intro K. unfold greedy_m. destruct (N.eqb_spec k 0); [contradiction|]. cbn [andb]. unfold greedy_gen, repeated_m. destruct (reps k m s) as [t|o] eqn:E; [|reflexivity].
  rewrite N.sub_diag. change (loopN 0 (greedy_step m) (k, t)) with (@inl (N * st) (option (N * st)) (k, t)). cbn [fst snd]. rewrite N.sub_diag.
  change (loopN 0 (bt_step e m (greedy_bt h r i) (s_end t)) t) with (@inl st out t). cbv beta iota. now rewrite (acc_id t (reps_acc m k s t K E)).
Qed.
Lemma exact_lazy e m k h r i s : lazy_m e m k k h r i s = repeated_m m k r s.
Proof. unfold lazy_m, repeated_m. destruct (reps k m s); [|reflexivity]. now rewrite N.sub_diag. Qed.
Lemma exact_poss m k r s : possessive_m m k k r s = repeated_m m k r s.
Proof. replace k with (k + 0) at 1 2 by lia. rewrite poss_add. unfold repeated_m. destruct (reps k m s); reflexivity. Qed.
Lemma exact_mt e g X k o i s : k <> 0 -> noinj (optimize X []) = true \/ i = [] ->
  mt e (optimize (followed (mkq (pol_of g) X k k) o) []) i s = mt e (optimize (followed (Repeated X k []) o) []) i s.
Proof.
  intros K NI. assert (P : mt e (Possessive (optimize X []) k k (kids o)) i s = mt e (Repeated (optimize X []) k (kids o)) i s).
  { cbn [mt]. rewrite exact_poss. destruct NI as [NI| ->]; [|reflexivity]. apply repeated_ceq; [|now intro]. intro t. now apply noinj_ok. }
  rewrite rep_opt. destruct g; cbn [pol_of].
  - destruct (run_opt X o) as (b & H). rewrite (proj1 (H k k)). destruct b; [exact P|]. cbn [mt]. now apply exact_greedy.
  - destruct (lazy_opt X o k k) as (b & H & _). rewrite H. destruct b; [exact P|]. cbn [mt]. apply exact_lazy.
  - rewrite poss_opt. exact P.
Qed.
Lemma run_groups p X mn mx o : ngroups (optimize (followed (mkq p X mn mx) o) []) = (ngroups (optimize X []) + list_sum (map ngroups (kids o)))%nat.
Proof.
  destruct p.
  - destruct (run_opt X o) as (b & H). rewrite (proj1 (H mn mx)). destruct b; reflexivity.
  - destruct (lazy_opt X o mn mx) as (b & H & _). rewrite H. destruct b; reflexivity.
  - rewrite poss_opt. reflexivity.
Qed.
Lemma rep_groups X k o : ngroups (optimize (followed (Repeated X k []) o) []) = (ngroups (optimize X []) + list_sum (map ngroups (kids o)))%nat.
Proof. rewrite rep_opt. reflexivity. Qed.
Lemma exact_tails e g y k o : k <> 0 -> tails e (followed (mkq (pol_of g) (tree_elem y) k k) o) (followed (Repeated (tree_elem y) k []) o).
Proof.
  intro K. split; [|split].
  - rewrite run_adm, rep_adm by exact K. reflexivity.
  - now rewrite run_groups, rep_groups.
  - intros i i' I s. rewrite (mt_ceq e _ i i' I s). apply exact_mt; [exact K|]. left. apply elem_noinj.
Qed.
(** ** x{i}x{j} *)
Lemma sum_tails e x i j o : caps_atom x = [] ->
  tails e (followed (Repeated (tree_atom x) i []) (Some (followed (Repeated (tree_atom x) j []) o))) (followed (Repeated (tree_atom x) (i + j) []) o).
Proof.
  intro C. split; [|split].
  - now rewrite !rep_adm.
  - rewrite !rep_groups. cbn [kids map list_sum fold_right]. rewrite rep_groups, no_groups_in by exact C. lia.
  - intros u u' I s. rewrite !rep_opt. cbn [kids]. rewrite rep_opt. apply (repeated_add e (optimize (tree_atom x) []) i j (kids o) s).
Qed.
(** ** x{i}x{j,k} *)
Definition adds (e : env) (i mn mx mn' mx' : N) : Prop :=
  mn' = i + mn /\ ((mx' = i + mx /\ ~ (mn = 0 /\ mx = 1)) \/ (mx = UMAX /\ mx' = UMAX /\ N.of_nat (length (buf e)) < UMAX - mn')).
Lemma range_tails e p y i mn mx mn' mx' o : elem_ok y = true -> p = PGreedy \/ p = PPoss -> i <> 0 -> adds e i mn mx mn' mx' ->
  tails e (followed (Repeated (tree_elem y) i []) (Some (followed (mkq p (tree_elem y) mn mx) o))) (followed (mkq p (tree_elem y) mn' mx') o).
Proof.
  intros Y P I0 (K & D).
  assert (E : exists b : bool, forall mn mx, optimize (followed (mkq p (tree_elem y) mn mx) o) [] = (if b then Possessive else Greedy) (optimize (tree_elem y) []) mn mx (kids o) /\ (o = None -> b = true)).
  { destruct P as [-> | ->]; [apply run_opt|]. exists true. intros a b. split; [apply poss_opt|reflexivity]. }
  destruct E as (b & E).
  split; [|split].
  - rewrite rep_adm, run_adm; [reflexivity|lia].
  - rewrite rep_groups, run_groups. cbn [kids map list_sum fold_right]. rewrite run_groups. pose proof (no_groups_in (AEl y) eq_refl) as Z0. cbn [tree_atom] in Z0. rewrite Z0. lia.
  - intros u u' I s. rewrite rep_opt. cbn [kids]. rewrite (proj1 (E mn mx)), (proj1 (E mn' mx')), K.
    change (mt e (Repeated (optimize (tree_elem y) []) i [(if b then Possessive else Greedy) (optimize (tree_elem y) []) mn mx (kids o)]) [] s
      = mt e ((if b then Possessive else Greedy) (optimize (tree_elem y) []) (i + mn) mx' (kids o)) u' s).
    assert (NI : noinj ((if b then Possessive else Greedy) (optimize (tree_elem y) []) (i + mn) mx' (kids o)) = true).
    { destruct b; [apply elem_noinj|]. destruct o as [c|]; [reflexivity|]. now destruct (proj2 (E mn mx) eq_refl). }
    rewrite (noinj_ok e _ NI u' s). assert (FW : forward e (mt e (optimize (tree_elem y) []) [])) by (apply steps_forward; now apply elem_steps).
    destruct b.
    + destruct D as [(-> & _)|(-> & -> & L)]; [apply node_poss|]. apply node_poss_long; auto; lia.
    + destruct D as [(-> & X)|(-> & -> & L)]; [now apply node_greedy|]. apply node_greedy_long; auto; try lia; try (unfold UMAX; lia).
Qed.
(** ** The whole pattern *)
Lemma tails_refl e n : tails e n n.
Proof. split; [reflexivity|]. split; [reflexivity|]. intros i i' I. now apply mt_ceq. Qed.
Lemma tails_simple e m n n' : tails e n n' -> tails e (Simple m [n]) (Simple m [n']).
Proof.
  intros (A & G & M). split; [|split].
  - cbn [nadm map]. now rewrite A.
  - cbn [optimize map ngroups]. now rewrite G.
  - intros i i' I s. cbn [optimize map mt]. apply simple_ceq; [now intro|]. intro t. cbn [dfs]. now apply M.
Qed.
Lemma put_nx s s' : (forall k, nx_sq (renumber_sq s k) = nx_sq (renumber_sq s' k)) -> forall p k, nx_sq (renumber_sq (put p s) k) = nx_sq (renumber_sq (put p s') k).
Proof.
  intro H. induction p as [|x q p IH]; intro k; cbn [put]; [apply H|]. cbn [renumber_sq]. set (x' := renumber_atom x k). cbn [nx_sq]. now rewrite IH.
Qed.
Definition same_tail e (s s' : sq) : Prop :=
  (forall k, match tree_sq (renumber_sq s k), tree_sq (renumber_sq s' k) with Some n, Some n' => tails e n n' | _, _ => False end)
  /\ forall k, nx_sq (renumber_sq s k) = nx_sq (renumber_sq s' k).
Lemma among_tails e a p s s' : same_tail e s s' -> forall l t g,
  Forall2 (tails e) (tree_bs (renumber_in false (among l (Br a (put p s)) t) g)) (tree_bs (renumber_in false (among l (Br a (put p s')) t) g)).
Proof.
  intros [H X]. assert (N : s <> SNil) by (intros ->; exact (H 0%nat)). assert (N' : s' <> SNil) by (intros ->; specialize (H 0%nat); cbn in H; destruct (tree_sq _); exact H).
  assert (B : forall g, tails e (tree_br (renumber_br (Br a (put p s)) g)) (tree_br (renumber_br (Br a (put p s')) g))).
  { intro g. cbn [renumber_br tree_br]. pose proof (tails_put e s s' N N' H p g) as T. destruct (tree_sq (renumber_sq (put p s) g)) as [n|]; [|contradiction].
    destruct (tree_sq (renumber_sq (put p s') g)) as [n'|]; [|contradiction]. destruct a; [|exact T]. now apply tails_simple. }
  assert (R : forall l, Forall2 (tails e) l l) by (induction l; constructor; auto using tails_refl).
  induction l as [|c l IH]; intros t g; cbn [among].
  - destruct t as [r|]; cbn [renumber_in tree_bs].
    + constructor; [apply B|]. cbn [renumber_br nx_br]. rewrite (put_nx s s' X p g). apply R.
    + constructor; [apply B|constructor].
  - cbn [renumber_in tree_bs]. constructor; [apply tails_refl|]. apply IH.
Qed.
Lemma put_same e l a p s s' t : same_tail e s s' ->
  let r := among l (Br a (put p s)) t in let r' := among l (Br a (put p s')) t in
  ngroups (ctree r) = ngroups (ctree r') /\ forall t, mt e (ctree r) [] t = mt e (ctree r') [] t.
Proof.
  intros H r r'. unfold ctree, tree, renumber. pose proof (among_tails e a p s s' H l t 0%nat) as F. fold r r' in F. destruct F as [|n n' k k' T F]; [split; reflexivity|].
  destruct F as [|n2 n2' k k' T2 F].
  - destruct T as (_ & G & M). split; [exact G|]. apply M. constructor.
  - assert (F' : Forall2 (tails e) (n :: n2 :: k) (n' :: n2' :: k')) by (constructor; [exact T|constructor; assumption]). clear T T2 F.
    change (optimize (SimpleV (n :: n2 :: k)) []) with (SimpleV (map (fun c => optimize c []) (n :: n2 :: k))).
    change (optimize (SimpleV (n' :: n2' :: k')) []) with (SimpleV (map (fun c => optimize c []) (n' :: n2' :: k'))).
    set (L := n :: n2 :: k) in *. set (L' := n' :: n2' :: k') in *. split.
    + cbn [ngroups]. f_equal. clear -F'. induction F' as [|x y l l' (_ & G & _) F IH]; [reflexivity|]. cbn [map]. now rewrite G, IH.
    + cbn [mt]. apply dfs_ceq; [|constructor]. clear -F'. induction F' as [|x y l l' (_ & _ & M) F IH]; cbn [map]; constructor; auto.
Qed.
