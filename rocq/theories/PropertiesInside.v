(** C73: x{n,n} is x{n}; and the laws of C66 and C70 in the middle of a sequence. *)
From Coq Require Import String ZArith NArith List Bool Lia ZifyBool ZifyNat ZifyN.
From Verif Require Import Base Text Ast AstProofs Builder BuilderProofs Engine Api ApiProofs Spec Tree Supported Refuted PropertiesCalm PropertiesMatch Wrap Laws PropertiesLaws Ranges PropertiesRanges SpecPut Middle Inside.
Import ListNotations.
Open Scope nat_scope.

Lemma same_of e n n' : ngroups n = ngroups n' -> (forall t, mt e n [] t = mt e n' [] t) -> same_results_in e n n'.
Proof. intros NG M. unfold same_results_in, groups_of. conj; [exact NG|intros; now apply create_alike|intros; now apply next_alike|intros; now apply range_alike]. Qed.
Lemma wf_put p s : wf_sq (put p s) = (wf_sq p && wf_sq s)%bool.
Proof. induction p as [|x q p IH]; cbn [put wf_sq]; [reflexivity|]. rewrite IH, !andb_assoc. reflexivity. Qed.
Lemma wf_inside l a p x q s t : wf (among l (Br a (put p (SCons x q s))) t) = true -> wf_sq (SCons x q s) = true.
Proof.
  intro W0. assert (W : wf_br (Br a (put p (SCons x q s))) = true).
  { induction l as [|c l IH]; cbn [among] in W0; [destruct t; cbn [wf] in W0; [now apply andb_true_iff in W0|exact W0]|]. cbn [wf] in W0. apply IH. now apply andb_true_iff in W0. } assert (V : wf_sq (put p (SCons x q s)) = true) by (destruct p; cbn [put wf_br] in *; exact W). rewrite wf_put in V. now apply andb_true_iff in V.
Qed.

(** C73 (partial).  For every element y, every count n from 1 and every policy, wherever y{n,n} stands in a sequence (after any p,
    before any s), with or without ^: y{n,n} and y{n} give the same results on every query in every memory. *)
Theorem C73_exact_partial : forall l a p y i j g s t, num_val i = num_val j -> num_val i <> 0%Z ->
  let range := among l (Br a (put p (SCons (AEl y) (QQ (QMinMax i j) g) s))) t in
  let count := among l (Br a (put p (SCons (AEl y) (QQ (QExact i) Gr) s))) t in
  wf range = true -> wf count = true ->
  exists n n', compile (show range) = Some n /\ compile (show count) = Some n' /\ forall e, same_results_in e n n'.
Proof.
  intros l a p y i j g s t E Z0 range count W W'. exists (ctree range), (ctree count). split; [now apply calm_compile|]. split; [now apply calm_compile|].
  assert (P : (0 <= num_val i)%Z).
  { apply wf_inside in W'. cbn [wf_sq quant_ok] in W'. rewrite !andb_true_iff in W'. apply num_pos. tauto. }
  intro e. assert (ST : same_tail e (SCons (AEl y) (QQ (QMinMax i j) g) s) (SCons (AEl y) (QQ (QExact i) Gr) s)).
  { split; [|reflexivity]. intro gg. cbn [renumber_sq tree_sq renumber_atom tree_atom]. set (o := tree_sq _). cbn [tree_quant kind_min kind_max umax_of]. rewrite <- E. apply exact_tails. lia. }
  destruct (put_same e l a p _ _ t ST) as [NG M]. now apply same_of.
Qed.
Print Assumptions C73_exact_partial.
(** At the head of a pattern, for every element and every group, captures included. *)
Theorem C73_exact_head_partial : forall a x i j g s, num_val i = num_val j -> num_val i <> 0%Z ->
  let range := ROne (Br a (SCons x (QQ (QMinMax i j) g) s)) in
  let count := ROne (Br a (SCons x (QQ (QExact i) Gr) s)) in
  wf range = true -> wf count = true ->
  exists n n', compile (show range) = Some n /\ compile (show count) = Some n' /\ forall e, same_results_in e n n'.
Proof.
  intros a x i j g s E Z0 range count W W'. exists (ctree range), (ctree count). split; [now apply calm_compile|]. split; [now apply calm_compile|].
  assert (P : (0 <= num_val i)%Z).
  { apply (wf_inside [] a SNil x _ s None) in W'. cbn [wf_sq quant_ok] in W'. rewrite !andb_true_iff in W'. apply num_pos. tauto. }
  intro e. unfold range, count. rewrite !caret_ctree by assumption. unfold seq_node. cbn [renumber_sq tree_sq]. set (x' := renumber_atom x 0). set (o := tree_sq _). cbn [tree_quant kind_min kind_max umax_of]. rewrite <- E.
  apply same_of.
  - now rewrite !caret_ngroups, run_groups, rep_groups.
  - apply caret_mt. intro t. apply exact_mt; [lia|now right].
Qed.
Print Assumptions C73_exact_head_partial.

(** C66 in the middle of a sequence: x{i}x{j} is x{i+j} wherever it stands. *)
Theorem C66_counts_add_inside : forall l a p x i j k s t, caps_atom x = [] ->
  let twice := among l (Br a (put p (SCons x (QQ (QExact i) Gr) (SCons x (QQ (QExact j) Gr) s)))) t in
  let once := among l (Br a (put p (SCons x (QQ (QExact k) Gr) s))) t in
  wf twice = true -> wf once = true -> num_val k = (num_val i + num_val j)%Z ->
  exists n n', compile (show twice) = Some n /\ compile (show once) = Some n' /\ forall e, same_results_in e n n'.
Proof.
  intros l a p x i j k s t C twice once W W' K. exists (ctree twice), (ctree once). split; [now apply calm_compile|]. split; [now apply calm_compile|].
  assert (P : (0 <= num_val i)%Z /\ (0 <= num_val j)%Z).
  { apply wf_inside in W. cbn [wf_sq quant_ok] in W. rewrite !andb_true_iff in W. split; apply num_pos; tauto. }
  intro e. assert (ST : same_tail e (SCons x (QQ (QExact i) Gr) (SCons x (QQ (QExact j) Gr) s)) (SCons x (QQ (QExact k) Gr) s)).
  { split; intro g; [|cbn [renumber_sq]; rewrite !(no_caps_renumber x _ C), (after_twice x g C); destruct x; [reflexivity|discriminate C|cbn [nx_sq]; lia]].
    cbn [renumber_sq tree_sq]. rewrite !(no_caps_renumber x _ C), (after_twice x g C). set (o := tree_sq _). cbn [tree_quant]. rewrite K, Z2N.inj_add by tauto. now apply sum_tails. }
  destruct (put_same e l a p _ _ t ST) as [NG M]. now apply same_of.
Qed.
Print Assumptions C66_counts_add_inside.

(** C70 in the middle of a sequence, for every element y and i from 1. *)
Lemma range_inside e l a p y i q q' g s t : ranged q -> ranged q' -> g = Gr \/ g = Po -> num_val i <> 0%Z ->
  let split := among l (Br a (put p (SCons (AEl y) (QQ (QExact i) Gr) (SCons (AEl y) (QQ q g) s)))) t in
  let joint := among l (Br a (put p (SCons (AEl y) (QQ q' g) s))) t in
  wf split = true -> wf joint = true ->
  ((0 <= num_val i)%Z -> adds e (Z.to_N (num_val i)) (kind_min q) (umax_of (kind_max q)) (kind_min q') (umax_of (kind_max q'))) ->
  same_results_in e (ctree split) (ctree joint).
Proof.
  intros R R' G I split joint W W' A.
  assert (V : wf_sq (SCons (AEl y) (QQ (QExact i) Gr) (SCons (AEl y) (QQ q g) s)) = true) by exact (wf_inside _ _ _ _ _ _ _ W).
  cbn [wf_sq wf_atom quant_ok] in V. rewrite !andb_true_iff in V. destruct V as [[Y [NI _]] _]. apply num_pos in NI.
  assert (ST : same_tail e (SCons (AEl y) (QQ (QExact i) Gr) (SCons (AEl y) (QQ q g) s)) (SCons (AEl y) (QQ q' g) s)); [|destruct (put_same e l a p _ _ t ST) as [NG M]; now apply same_of].
  split; intro gg; [|cbn [renumber_sq renumber_atom]; replace (after_atom (AEl y) (after_atom (AEl y) gg)) with (after_atom (AEl y) gg) by (symmetry; now apply after_twice); reflexivity].
  cbn [renumber_sq tree_sq renumber_atom tree_atom]. replace (after_atom (AEl y) (after_atom (AEl y) gg)) with (after_atom (AEl y) gg) by (symmetry; now apply after_twice). set (o := tree_sq _).
  assert (T : forall q, ranged q -> tree_quant (QQ q g) (tree_elem y) = mkq (pol_of g) (tree_elem y) (kind_min q) (umax_of (kind_max q)))
    by (intros q0 R0; destruct q0; try reflexivity; exfalso; eapply R0; reflexivity).
  rewrite (T q R), (T q' R'). apply range_tails; [exact Y| |lia|now apply A]. destruct G as [-> | ->]; [now left|now right].
Qed.
Theorem C70_ranges_add_inside_partial : forall l a p y i q q' g s t m, ranged q -> ranged q' -> g = Gr \/ g = Po -> num_val i <> 0%Z ->
  let split := among l (Br a (put p (SCons (AEl y) (QQ (QExact i) Gr) (SCons (AEl y) (QQ q g) s)))) t in
  let joint := among l (Br a (put p (SCons (AEl y) (QQ q' g) s))) t in
  wf split = true -> wf joint = true -> kind_min q' = (Z.to_N (num_val i) + kind_min q)%N ->
  kind_max q = Some m -> kind_max q' = Some (Z.to_N (num_val i) + m)%N -> ~ (kind_min q = 0%N /\ m = 1%N) ->
  exists n n', compile (show split) = Some n /\ compile (show joint) = Some n' /\ forall e, same_results_in e n n'.
Proof.
  intros l a p y i q q' g s t m R R' G I split joint W W' K M M' X. exists (ctree split), (ctree joint). split; [now apply calm_compile|]. split; [now apply calm_compile|].
  intro e. apply range_inside; auto. intros _. split; [exact K|]. left. rewrite M, M'. cbn [umax_of]. split; [reflexivity|exact X].
Qed.
Print Assumptions C70_ranges_add_inside_partial.
Theorem C70_unbounded_inside_partial : forall l a p y i q q' g s t, ranged q -> ranged q' -> g = Gr \/ g = Po -> num_val i <> 0%Z ->
  let split := among l (Br a (put p (SCons (AEl y) (QQ (QExact i) Gr) (SCons (AEl y) (QQ q g) s)))) t in
  let joint := among l (Br a (put p (SCons (AEl y) (QQ q' g) s))) t in
  wf split = true -> wf joint = true -> kind_min q' = (Z.to_N (num_val i) + kind_min q)%N ->
  kind_max q = None -> kind_max q' = None ->
  exists n n', compile (show split) = Some n /\ compile (show joint) = Some n'
    /\ forall e, (N.of_nat (length (buf e)) + kind_min q' < 4294967295)%N -> same_results_in e n n'.
Proof.
  intros l a p y i q q' g s t R R' G I split joint W W' K M M'. exists (ctree split), (ctree joint). split; [now apply calm_compile|]. split; [now apply calm_compile|].
  intros e L. apply range_inside; auto. intros _. split; [exact K|]. right. rewrite M, M'. cbn [umax_of]. unfold UMAX. split; [reflexivity|]. split; [reflexivity|lia].
Qed.
Print Assumptions C70_unbounded_inside_partial.
(** The cases: after a capture and a run, before another capture. *)
Definition ins_p : sq := seqs [(ACap 0 (ROne (Br false (seqs [(lit "c", plus)]))), Q1); (AEl (EEsc 115), star)].
Definition ins_l : list br := [Br true (seqs [(lit "x", Q1)])].
Definition ins_t : option rx := Some (ROne (Br false (seqs [(lit "y", Q1)]))).
Definition ins_s : sq := seqs [(ACap 0 (ROne (Br false (seqs [(lit "b", opt)]))), Q1)].
Example C73_case : exists range count x range2 count2,
  range = among [] (Br true (put ins_p (SCons (AEl (EEsc 100)) (QQ (QMinMax [3]%Z [3]%Z) Lz) ins_s))) None
  /\ count = among [] (Br true (put ins_p (SCons (AEl (EEsc 100)) (QQ (QExact [3]%Z) Gr) ins_s))) None
  /\ show range = S2L "^(c+)\s*\d{3,3}?(b?)" /\ show count = S2L "^(c+)\s*\d{3}(b?)" /\ wf range = true /\ wf count = true
  /\ x = ACap 0 (ROr (Br false (seqs [(lit "a", Q1)])) (ROne (Br false (seqs [(lit "b", plus)]))))
  /\ range2 = ROne (Br false (SCons x (QQ (QMinMax [2]%Z [0; 2]%Z) Gr) (seqs [(lit "c", Q1)])))
  /\ count2 = ROne (Br false (SCons x (QQ (QExact [2]%Z) Gr) (seqs [(lit "c", Q1)])))
  /\ show range2 = S2L "(a|b+){2,02}c" /\ show count2 = S2L "(a|b+){2}c" /\ wf range2 = true /\ wf count2 = true
  /\ exists s, on "^(c+)\s*\d{3,3}?(b?)" "cc 1234b" = Some (RDone s) /\ to_view s = Some (0, 6)%Z /\ get_group s 1 = Some (Some (0, 2)%Z).
Proof.
  do 5 eexists. split; [reflexivity|]. split; [reflexivity|]. split; [vm_compute; reflexivity|]. split; [vm_compute; reflexivity|]. split; [vm_compute; reflexivity|].
  split; [vm_compute; reflexivity|]. split; [reflexivity|]. split; [reflexivity|]. split; [reflexivity|]. split; [vm_compute; reflexivity|]. split; [vm_compute; reflexivity|].
  split; [vm_compute; reflexivity|]. split; [vm_compute; reflexivity|]. eexists. split; [|split]; vm_compute; reflexivity.
Qed.
Example C66_inside_case : exists twice once,
  twice = among ins_l (Br false (put ins_p (SCons count_x (QQ (QExact [1; 0]%Z) Gr) (SCons count_x (QQ (QExact [2]%Z) Gr) ins_s)))) ins_t
  /\ once = among ins_l (Br false (put ins_p (SCons count_x (QQ (QExact [1; 2]%Z) Gr) ins_s))) ins_t
  /\ show twice = S2L "^x|(c+)\s*(?:a|b+){10}(?:a|b+){2}(b?)|y" /\ show once = S2L "^x|(c+)\s*(?:a|b+){12}(b?)|y"
  /\ wf twice = true /\ wf once = true /\ caps_atom count_x = [].
Proof. do 2 eexists. split; [reflexivity|]. split; [reflexivity|]. conj; vm_compute; reflexivity. Qed.
Example C70_inside_case : exists split joint split2 joint2,
  split = among ins_l (Br false (put ins_p (SCons (lit "a") (QQ (QExact [2]%Z) Gr) (SCons (lit "a") (QQ (QMinMax [0]%Z [3]%Z) Po) ins_s)))) ins_t
  /\ joint = among ins_l (Br false (put ins_p (SCons (lit "a") (QQ (QMinMax [2]%Z [5]%Z) Po) ins_s))) ins_t
  /\ show split = S2L "^x|(c+)\s*a{2}a{0,3}+(b?)|y" /\ show joint = S2L "^x|(c+)\s*a{2,5}+(b?)|y" /\ wf split = true /\ wf joint = true
  /\ split2 = among ins_l (Br false (put ins_p (SCons (AEl (EEsc 100)) (QQ (QExact [1]%Z) Gr) (SCons (AEl (EEsc 100)) (QQ QStar Gr) ins_s)))) ins_t
  /\ joint2 = among ins_l (Br false (put ins_p (SCons (AEl (EEsc 100)) (QQ QPlus Gr) ins_s))) ins_t
  /\ show split2 = S2L "^x|(c+)\s*\d{1}\d*(b?)|y" /\ show joint2 = S2L "^x|(c+)\s*\d+(b?)|y" /\ wf split2 = true /\ wf joint2 = true.
Proof.
  do 4 eexists. split; [reflexivity|]. split; [reflexivity|]. split; [vm_compute; reflexivity|]. split; [vm_compute; reflexivity|]. split; [vm_compute; reflexivity|].
  split; [vm_compute; reflexivity|]. split; [reflexivity|]. split; [reflexivity|]. conj; vm_compute; reflexivity.
Qed.
(** Inside an optional group it is false: (?:a{2,2}b)?[abc] finds "a" in "aab", (?:a{2}b)?[abc] finds "aa". *)
Theorem C73_refuted : exists range count n n' s s',
  range = ROne (Br false (seqs [(ANon (ROne (Br false (SCons (lit "a") (QQ (QMinMax [2]%Z [2]%Z) Gr) (seqs [(lit "b", Q1)])))), opt); (AEl (EClass false [CChar 97; CChar 98; CChar 99]), Q1)]))
  /\ count = ROne (Br false (seqs [(ANon (ROne (Br false (SCons (lit "a") (QQ (QExact [2]%Z) Gr) (seqs [(lit "b", Q1)])))), opt); (AEl (EClass false [CChar 97; CChar 98; CChar 99]), Q1)]))
  /\ show range = S2L "(?:a{2,2}b)?[abc]" /\ show count = S2L "(?:a{2}b)?[abc]" /\ wf range = true /\ wf count = true
  /\ compile (show range) = Some n /\ compile (show count) = Some n'
  /\ create 4 (env_of [] (S2L "aab") [0%Z]) n = RDone s /\ to_view s = Some (0, 1)%Z
  /\ create 4 (env_of [] (S2L "aab") [0%Z]) n' = RDone s' /\ to_view s' = Some (0, 2)%Z.
Proof.
  do 2 eexists. exists (node_of (S2L "(?:a{2,2}b)?[abc]")), (node_of (S2L "(?:a{2}b)?[abc]")),
    (st_of (create 4 (env_of [] (S2L "aab") [0%Z]) (node_of (S2L "(?:a{2,2}b)?[abc]")))), (st_of (create 4 (env_of [] (S2L "aab") [0%Z]) (node_of (S2L "(?:a{2}b)?[abc]")))).
  split; [reflexivity|]. split; [reflexivity|]. conj; vm_compute; reflexivity.
Qed.
Print Assumptions C73_refuted.
