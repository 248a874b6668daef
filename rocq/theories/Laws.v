(** Proofs for PropertiesLaws.v. *)
From Coq Require Import String ZArith NArith List Bool Lia ZifyBool ZifyNat ZifyN.
From Verif Require Import Base Text Ast AstProofs Builder BuilderProofs Engine EngineProofs EngineRel Api ApiProofs Spec Tree Supported Captures PropertiesCalm Wrap.
Import ListNotations.
Open Scope nat_scope.

(** ** Matchers that behave alike *)
Section Alike.
Variables (e : env) (n n' : node).
Hypothesis NG : ngroups n = ngroups n'.
Hypothesis MT : forall s, mt e n [] s = mt e n' [] s.
Lemma loop_alike : forall fuel s, next_loop fuel e n s = next_loop fuel e n' s.
Proof.
  induction fuel as [|f IH]; intro s; cbn [next_loop]; [reflexivity|]. destruct (s_start s <? qe e)%Z; [|reflexivity].
  rewrite MT. destruct (mt e n' [] s) as [t|]; [|reflexivity]. destruct (s_acc t); [reflexivity|]. destruct (ptr_ok e (s_end t + 1)); [apply IH|reflexivity].
Qed.
Lemma next_alike fuel s : next fuel e n s = next fuel e n' s.
Proof. unfold next, no_groups. rewrite NG. apply loop_alike. Qed.
Lemma create_alike fuel : create fuel e n = create fuel e n'.
Proof.
  unfold create, fresh, no_groups. rewrite NG, MT. destruct (mt e n' [] _) as [t|]; [|reflexivity]. destruct (s_acc t); [reflexivity|apply next_alike].
Qed.
Lemma range_alike : forall steps fuel r, range_for steps fuel e n r = range_for steps fuel e n' r.
Proof.
  intros steps fuel r. unfold range_for, r_begin. rewrite create_alike. destruct (create fuel e n') as [i| |]; [|reflexivity..].
  revert i. induction steps as [|k IH]; intro i; cbn [range_loop]; [reflexivity|]. destruct (r_neq i (r_end r)); [|reflexivity].
  rewrite next_alike. destruct (next fuel e n' i) as [i'| |]; [|reflexivity..]. now rewrite IH.
Qed.
End Alike.

(** ** Counts *)
Lemma nl_add {A B} (f : A -> A + B) k : forall j a, nl (k + j) f a = match nl k f a with inl b => nl j f b | inr o => inr o end.
Proof. induction k as [|k IH]; intros j a; cbn [nl Nat.add]; [reflexivity|]. destruct (f a) as [b|o]; [apply IH|reflexivity]. Qed.
Lemma reps_add i j m s : reps (i + j) m s = match reps i m s with inl t => reps j m t | inr o => inr o end.
Proof.
  unfold reps. rewrite !loopN_nl, N2Nat.inj_add, nl_add. destruct (nl (N.to_nat i) (req_step m) s); [now rewrite loopN_nl|reflexivity].
Qed.
Lemma repeated_add e m i j cs s : mt e (Repeated m i [Repeated m j cs]) [] s = mt e (Repeated m (i + j) cs) [] s.
Proof.
  cbn [mt map dfs]. unfold repeated_m. rewrite reps_add. now destruct (reps i (mt e m []) s).
Qed.
Lemma repeated_zero e m c s : mt e (Repeated m 0 [c]) [] s = mt e c [] s.
Proof. reflexivity. Qed.

Definition caret (a : bool) (x : node) : node := if a then Simple (Term TStart) [x] else x.
Lemma caret_ngroups a x : ngroups (caret a x) = ngroups x.
Proof. destruct a; cbn; lia. Qed.
Lemma caret_mt e a x y : (forall s, mt e x [] s = mt e y [] s) -> forall s, mt e (caret a x) [] s = mt e (caret a y) [] s.
Proof.
  intros H s. destruct a; [|apply H]. cbn [caret mt map dfs]. unfold simple_m. destruct (match_term e TStart s) as [t|]; [|reflexivity].
  cbn [bind]. destruct (s_acc t); [now rewrite H|reflexivity].
Qed.
(** The compiled form of a branch, by its sequence. *)
Definition seq_node (s : sq) : node := match tree_sq (renumber_sq s 0) with Some n => optimize n [] | None => SimpleV [] end.
Lemma caret_ctree a s : wf (ROne (Br a s)) = true -> ctree (ROne (Br a s)) = caret a (seq_node s).
Proof.
  intro W. destruct s as [|x q s]; [discriminate|]. destruct a; [|reflexivity].
  rewrite (start_ctree (SCons x q s)) by exact W. reflexivity.
Qed.
Lemma no_caps_renumber x g : caps_atom x = [] -> renumber_atom x g = x.
Proof. intro C. exact (proj2 (proj2 (proj2 renumber_id)) x C g). Qed.
Lemma nx_none : (forall r, caps r = [] -> nx r = 0) /\ (forall b, caps_br b = [] -> nx_br b = 0) /\ (forall s, caps_sq s = [] -> nx_sq s = 0)
  /\ (forall a, caps_atom a = [] -> nx_atom a = 0).
Proof.
  apply rx_all_ind.
  - intros b IH C. cbn [caps] in C. cbn [nx]. now apply IH.
  - intros b IHb r IHr C. cbn [caps] in C. apply app_eq_nil in C as [Cb Cr]. cbn [nx]. rewrite IHb, IHr; auto.
  - intros a s IH C. cbn [caps_br] in C. cbn [nx_br]. now apply IH.
  - reflexivity.
  - intros a IHa q s IHs C. cbn [caps_sq] in C. apply app_eq_nil in C as [Ca Cs]. cbn [nx_sq].
    rewrite (IHa Ca), (IHs Cs). destruct a; [reflexivity|discriminate Ca|reflexivity].
  - reflexivity.
  - intros i r IH C. discriminate C.
  - intros r IH C. cbn [caps_atom] in C. cbn [nx_atom]. now apply IH.
Qed.
Lemma after_zero x : caps_atom x = [] -> after_atom x 0 = 0.
Proof.
  intro C. destruct x as [y|i r|r]; [destruct y; reflexivity|discriminate C|]. cbn [after_atom]. exact (proj2 (proj2 (proj2 nx_none)) (ANon r) C).
Qed.
Definition times (x : atom) (i : list Z) (s : sq) : sq := SCons x (QQ (QExact i) Gr) s.
Lemma times_node x i s : caps_atom x = [] -> seq_node (times x i s)
  = Repeated (optimize (tree_atom x) []) (Z.to_N (num_val i)) (match s with SNil => [] | _ => [seq_node s] end).
Proof.
  intro C. unfold seq_node, times. cbn [renumber_sq tree_sq tree_quant]. rewrite (no_caps_renumber x 0 C), (after_zero x C).
  destruct s as [|y q s]; [reflexivity|]. cbn [renumber_sq tree_sq followed app optimize map]. reflexivity.
Qed.
Lemma times_groups x i s : caps_atom x = [] -> ngroups (seq_node (times x i s)) = ngroups (seq_node s).
Proof.
  intro C. rewrite (times_node x i s C). cbn [ngroups map list_sum fold_right]. rewrite (ngroups_gidx (optimize _ _)), optimize_gidx, (proj2 (proj2 (proj2 gidx_tree))), C.
  destruct s; cbn; lia.
Qed.
Lemma times_add e x i j k s : caps_atom x = [] -> (0 <= num_val i)%Z -> (0 <= num_val j)%Z -> num_val k = (num_val i + num_val j)%Z ->
  forall t, mt e (seq_node (times x i (times x j s))) [] t = mt e (seq_node (times x k s)) [] t.
Proof.
  intros C I J K t. rewrite (times_node x i _ C). change (match times x j s with SNil => [] | _ => [seq_node (times x j s)] end) with [seq_node (times x j s)].
  rewrite (times_node x j s C), (times_node x k s C), K, Z2N.inj_add by assumption. apply repeated_add.
Qed.
Lemma times_zero e x i s : caps_atom x = [] -> num_val i = 0%Z -> s <> SNil -> forall t, mt e (seq_node (times x i s)) [] t = mt e (seq_node s) [] t.
Proof.
  intros C I NE t. rewrite (times_node x i s C), I. destruct s; [congruence|]. apply repeated_zero.
Qed.

(** ** The first of several alternatives *)
Section First.
Variables (e : env) (n1 : node) (c : node) (cs : list node).
Hypothesis GB1 : forall i, In i (gidx n1) -> i < ngroups n1.
Let n := SimpleV (n1 :: c :: cs).
Let x : list (option (Z * Z)) := repeat None (list_sum (map ngroups (c :: cs))).
Lemma first_pad a b k : mkSt a b (no_groups n) k = pad x (mkSt a b (no_groups n1) k).
Proof. unfold pad, no_groups, x, n. cbn [s_start s_end s_grp s_acc ngroups map list_sum fold_right]. now rewrite repeat_app. Qed.
Lemma first_attempt a b k : match mt e n1 [] (mkSt a b (no_groups n1) k) with
  | UB => mt e n [] (mkSt a b (no_groups n) k) = UB
  | Ok t => s_acc t = true -> mt e n [] (mkSt a b (no_groups n) k) = Ok (pad x t) end.
Proof.
  destruct (mt_pad e x (ngroups n1) n1 GB1 (mkSt a b (no_groups n1) k)) as [P _]; [cbn; unfold no_groups; apply repeat_length|].
  rewrite <- first_pad in P. set (t0 := mkSt a b (no_groups n) k) in *. assert (M : mt e n [] t0 = bind (mt e n1 [] t0) (fun s1 => if s_acc s1 then Ok s1 else dfs (map (fun c i => mt e c i) (c :: cs)) [] (set_acc true s1))) by reflexivity.
  rewrite P in M. clearbody t0. clear P. destruct (mt e n1 [] (mkSt a b (no_groups n1) k)) as [t|]; [|exact M]. intro AC. rewrite M. cbn [pad_out bind pad s_acc]. now rewrite AC.
Qed.
End First.

(** ** The order of the two patterns asked about *)
Lemma merge_nil s : adm_merge s [] = s.
Proof. now destruct s. Qed.
Lemma inter_comm : forall s1 s2, adm_inter s1 s2 = adm_inter s2 s1.
Proof.
  induction s1 as [|a s1 IH1]; [intros [|b s2]; reflexivity|]. induction s2 as [|b s2 IH2]; [reflexivity|].
  change (adm_inter (a :: s1) (b :: s2)) with (if (a =? b)%Z then a :: adm_inter s1 s2 else if (a <? b)%Z then adm_inter s1 (b :: s2) else adm_inter (a :: s1) s2).
  change (adm_inter (b :: s2) (a :: s1)) with (if (b =? a)%Z then b :: adm_inter s2 s1 else if (b <? a)%Z then adm_inter s2 (a :: s1) else adm_inter (b :: s2) s1).
  destruct (Z.eqb_spec a b) as [->|D]; [now rewrite Z.eqb_refl, IH1|]. destruct (Z.eqb_spec b a) as [->|_]; [congruence|].
  destruct (Z.ltb_spec a b), (Z.ltb_spec b a); try lia; [apply IH1|exact IH2].
Qed.
