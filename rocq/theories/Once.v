(** x{1} and x. *)
From Coq Require Import ZArith NArith List Bool Lia ZifyBool ZifyNat ZifyN.
From Verif Require Import Base Text Ast AstProofs Builder BuilderProofs Engine EngineProofs Api Spec Tree Checker Supported Captures Wrap PropertiesCalm Laws Ranges SpecPut SpecOnce Middle Inside Apart.
Import ListNotations.
Open Scope N_scope.

(** The same answers, except for the position left behind by a failure. *)
Definition near (o o' : out) : Prop :=
  match o, o' with
  | Ok a, Ok b => s_acc a = s_acc b /\ (s_acc a = true -> a = b) /\ set_end 0 a = set_end 0 b
  | UB, UB => True
  | _, _ => False
  end.
Definition near_tail (e : env) (n n' : node) : Prop :=
  nadm n = nadm n' /\ ngroups (optimize n []) = ngroups (optimize n' []) /\ forall s, near (mt e (optimize n []) [] s) (mt e (optimize n' []) [] s).
Definition plain_tail (e : env) (n n' : node) : Prop :=
  nadm n = nadm n' /\ ngroups (optimize n []) = ngroups (optimize n' []) /\ ceq (mt e (optimize n []) []) (mt e (optimize n' []) []).
Lemma near_refl o : near o o.
Proof. destruct o; cbn [near]; auto. Qed.
Lemma tails_plain e n n' : tails e n n' -> plain_tail e n n'.
Proof. intros (A & G & M). split; [exact A|]. split; [exact G|]. apply M. constructor. Qed.
Lemma plain_refl e n : plain_tail e n n.
Proof. apply tails_plain, tails_refl. Qed.
Lemma end_any a b z : set_end 0 a = set_end 0 b -> set_end z a = set_end z b.
Proof. destruct a, b. unfold set_end. cbn. intro H. injection H as -> -> ->. reflexivity. Qed.
Lemma near_simple e m n n' : near_tail e n n' -> plain_tail e (Simple m [n]) (Simple m [n']).
Proof.
  intros (A & G & M). split; [|split].
  - cbn [nadm map]. now rewrite A.
  - cbn [optimize map ngroups]. now rewrite G.
  - intro s. cbn [optimize map mt]. unfold simple_m. destruct (mt e (optimize m []) [] s) as [s1|]; [|reflexivity]. cbn [bind]. destruct (s_acc s1); [|reflexivity]. cbn [dfs].
    pose proof (M s1) as N. destruct (mt e (optimize n []) [] s1) as [a|], (mt e (optimize n' []) [] s1) as [b|]; cbn [near bind] in *; try contradiction; [|reflexivity].
    destruct N as (N1 & N2 & N3). rewrite <- N1. destruct (s_acc a) eqn:AC; [now rewrite N2|]. now rewrite (end_any a b _ N3).
Qed.
Lemma simple_plain e m n n' : plain_tail e n n' -> plain_tail e (Simple m [n]) (Simple m [n']).
Proof.
  intros (A & G & M). split; [|split].
  - cbn [nadm map]. now rewrite A.
  - cbn [optimize map ngroups]. now rewrite G.
  - intro s. cbn [optimize map mt]. apply simple_ceq; [now intro|]. intro s0. cbn [map dfs]. apply M.
Qed.
Definition not_cap (x : atom) : Prop := match x with ACap _ _ => False | _ => True end.
Lemma plain_follow e q x n n' : not_cap x \/ (exists k g, q = QQ k g) -> plain_tail e n n' ->
  plain_tail e (followed (tree_quant q (tree_atom x)) (Some n)) (followed (tree_quant q (tree_atom x)) (Some n')).
Proof.
  intros NC (A & G & M).
  assert (D : ceq (dfs (map (fun c i => mt e c i) [optimize n []]) []) (dfs (map (fun c i => mt e c i) [optimize n' []]) [])).
  { intros s. cbn [map dfs]. apply M. }
  destruct (Heads.unit_shape q x) as [(m & E)|[(m & a & b & E)|[(m & a & b & E)|[(m & a & b & E)|[(m & k & E)|(m & i & E)]]]]]; try rewrite E; cbn [followed app].
  - split; [|split].
    + cbn [nadm map]. now rewrite A.
    + cbn [optimize map ngroups]. now rewrite G.
    + intros s. cbn [optimize map mt]. apply simple_ceq; [now intro|]. apply D.
  - split; [|split].
    + cbn [nadm map]. now rewrite A.
    + cbn [optimize map app]. rewrite A. destruct (adm_empty _); cbn [ngroups map]; now rewrite G.
    + intros s. cbn [optimize map app]. rewrite A. destruct (adm_empty _); cbn [mt nonempty map].
      * apply poss_ceq; [now intro|]. apply D.
      * apply greedy_ceq; [now intro|apply D|constructor].
  - split; [|split].
    + cbn [nadm map]. now rewrite A.
    + cbn [optimize map app nadm]. rewrite A. destruct (adm_empty _); cbn [ngroups map]; now rewrite G.
    + intros s. cbn [optimize map app nadm]. rewrite A. destruct (adm_empty _); cbn [mt nonempty map].
      * apply poss_ceq; [now intro|]. apply D.
      * apply lazy_ceq; [now intro|apply D|constructor].
  - split; [|split].
    + cbn [nadm map]. now rewrite A.
    + cbn [optimize map ngroups]. now rewrite G.
    + intros s. cbn [optimize map mt]. apply poss_ceq; [now intro|]. apply D.
  - split; [|split].
    + reflexivity.
    + cbn [optimize map ngroups]. now rewrite G.
    + intros s. cbn [optimize map mt]. apply repeated_ceq; [now intro|]. apply D.
  - exfalso. destruct NC as [NC|(k & g & ->)].
    + destruct q as [|k g]; [destruct x as [[| | |[]| |]| |]; try discriminate E; exact NC|destruct k, g; discriminate E].
    + destruct k, g; discriminate E.
Qed.
(** One time. *)
Lemma once_near e y o : elem_ok y = true -> near_tail e (followed (Repeated (tree_elem y) 1 []) o) (followed (tree_elem y) o)
  /\ (o = None -> tails e (followed (Repeated (tree_elem y) 1 []) o) (followed (tree_elem y) o)).
Proof.
  intro O. destruct (unit_min y O) as (m & E & MN). pose proof (elem_noinj y) as NI. rewrite E in *. change (optimize (Simple m []) []) with (optimize m []) in NI.
  assert (R1 : forall M (R : clo) s, repeated_m M 1 R s = bind (M s) (fun s1 => if s_acc s1 then R s1 else Ok s1)).
  { intros M R s. unfold repeated_m, reps. rewrite loopN_nl. change (N.to_nat 1) with 1%nat. cbn [nl]. unfold req_step. destruct (M s) as [s1|]; [|reflexivity]. cbn [bind]. destruct (s_acc s1); reflexivity. }
  destruct o as [c|].
  - split; [|discriminate]. cbn [followed app]. split; [|split].
    + cbn [nadm map]. destruct (N.eqb_spec (nmin m) 0); [contradiction|reflexivity].
    + reflexivity.
    + intro s. change (near (repeated_m (mt e (optimize m []) []) 1 (dfs (map (fun c i => mt e c i) [optimize c []]) []) s) (simple_m (mt e (optimize m []) []) (dfs (map (fun c i => mt e c i) [optimize c []]) []) s)).
      rewrite R1. unfold simple_m. destruct (mt e (optimize m []) [] s) as [s1|]; [|exact Logic.I]. cbn [bind]. destruct (s_acc s1) eqn:A1; [|apply near_refl].
      destruct (dfs _ [] s1) as [s2|]; [|exact Logic.I]. cbn [bind]. destruct (s_acc s2) eqn:A2; [apply near_refl|].
      destruct s2 as [x1 x2 x3 x4]. cbn in A2. subst. cbn. split; [reflexivity|]. split; [discriminate|reflexivity].
  - assert (T : tails e (followed (Repeated (Simple m []) 1 []) None) (followed (Simple m []) None)).
    { cbn [followed]. split; [reflexivity|]. split; [cbn; lia|]. intros i i' I s.
      change (repeated_m (mt e (optimize m []) []) 1 (dfs [] []) s = mt e (optimize m []) i' s). rewrite R1, (noinj_ok e _ NI i' s).
      destruct (mt e (optimize m []) [] s) as [s1|]; [|reflexivity]. cbn [bind dfs]. destruct (s_acc s1); reflexivity. }
    split; [|auto]. destruct T as (A & G & M). split; [exact A|]. split; [exact G|]. intro s. rewrite (M [] [] (Forall2_nil _) s).
    destruct (mt e (optimize (followed (Simple m []) None) []) [] s); cbn [near]; auto.
Qed.
(** ** The whole pattern *)
Lemma plain_put e s s' : (forall k, match tree_sq (renumber_sq s k), tree_sq (renumber_sq s' k) with Some n, Some n' => plain_tail e n n' | _, _ => False end) ->
  forall p, bare p -> forall k, match tree_sq (renumber_sq (put p s) k), tree_sq (renumber_sq (put p s') k) with Some n, Some n' => plain_tail e n n' | _, _ => False end.
Proof.
  intros H. induction p as [|x q p IH]; intros B k; cbn [put]; [apply H|]. cbn [bare] in B. destruct B as [Bx B]. cbn [renumber_sq tree_sq]. set (x' := renumber_atom x k).
  specialize (IH B (after_atom x' k)). destruct (tree_sq (renumber_sq (put p s) _)) as [n|]; [|contradiction].
  destruct (tree_sq (renumber_sq (put p s') _)) as [n'|]; [|contradiction]. apply plain_follow; [|exact IH].
  destruct Bx as [Bx|Bx]; [left; unfold x'; destruct x; try exact Logic.I; now destruct (Bx i r)|right]. destruct q as [|j g]; [congruence|eauto].
Qed.
Lemma branch_same e b b' : (forall g, plain_tail e (tree_br (renumber_br b g)) (tree_br (renumber_br b' g))) -> (forall g, nx_br (renumber_br b g) = nx_br (renumber_br b' g)) ->
  forall l t, let r := among l b t in let r' := among l b' t in ngroups (ctree r) = ngroups (ctree r') /\ forall s, mt e (ctree r) [] s = mt e (ctree r') [] s.
Proof.
  intros B X l t r r'. unfold ctree, tree, renumber.
  assert (R : forall l, Forall2 (plain_tail e) l l) by (induction l0; constructor; auto using plain_refl).
  assert (F : forall l g, Forall2 (plain_tail e) (tree_bs (renumber_in false (among l b t) g)) (tree_bs (renumber_in false (among l b' t) g))).
  { clear l r r'. induction l as [|c l IH]; intros g; cbn [among].
    - destruct t as [r|]; cbn [renumber_in tree_bs]; (constructor; [apply B|]); [rewrite (X g); apply R|constructor].
    - cbn [renumber_in tree_bs]. constructor; [apply plain_refl|]. apply IH. }
  specialize (F l 0%nat). fold r r' in F. destruct F as [|n n' k k' T F]; [split; reflexivity|].
  destruct F as [|n2 n2' k k' T2 F].
  - destruct T as (_ & G & M). split; [exact G|exact M].
  - assert (F' : Forall2 (plain_tail e) (n :: n2 :: k) (n' :: n2' :: k')) by (constructor; [exact T|constructor; assumption]). clear T T2 F.
    change (optimize (SimpleV (n :: n2 :: k)) []) with (SimpleV (map (fun c => optimize c []) (n :: n2 :: k))).
    change (optimize (SimpleV (n' :: n2' :: k')) []) with (SimpleV (map (fun c => optimize c []) (n' :: n2' :: k'))).
    set (L := n :: n2 :: k) in *. set (L' := n' :: n2' :: k') in *. split.
    + cbn [ngroups]. f_equal. clear -F'. induction F' as [|x y l l' (_ & G & _) F IH]; [reflexivity|]. cbn [map]. now rewrite G, IH.
    + cbn [mt]. clear -F'. induction F' as [|x y l l' (_ & _ & M) F IH]; intro s; [reflexivity|]. cbn [map dfs].
      destruct F as [|x2 y2 l l' T2 F]; [apply M|]. cbn [map]. rewrite (M s). apply bind_ceq. intro s1. destruct (s_acc s1); [reflexivity|]. apply IH.
Qed.
