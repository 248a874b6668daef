(** C70: x{i}x{j,k} is x{i+j,i+k}. *)
From Coq Require Import String ZArith NArith List Bool Lia ZifyBool ZifyNat ZifyN.
From Verif Require Import Base Text Ast AstProofs Builder BuilderProofs Engine Api ApiProofs Spec Tree Supported Refuted PropertiesCalm PropertiesMatch Laws PropertiesLaws Ranges.
Import ListNotations.
Open Scope nat_scope.

(** Two patterns whose results are the same object whatever is asked, in the memory [e]. *)
Definition same_results_in (e : env) (n n' : node) : Prop :=
  groups_of n = groups_of n'
  /\ (forall fuel, create fuel e n = create fuel e n') /\ (forall fuel s, next fuel e n s = next fuel e n' s)
  /\ (forall steps fuel r, range_for steps fuel e n r = range_for steps fuel e n' r).
(** The quantifier has two bounds: it is not {n}. *)
Definition ranged (q : qkind) : Prop := forall n, q <> QExact n.

Lemma num_pos l : num_ok l = true -> (0 <= num_val l)%Z.
Proof.
  intro H. unfold num_ok in H. apply andb_true_iff in H as [H _]. apply andb_true_iff in H as [_ H]. unfold num_val.
  assert (G : forall l acc, forallb (fun d => (0 <=? d) && (d <=? 9))%Z l = true -> (0 <= acc)%Z -> (0 <= fold_left (fun acc d => 10 * acc + d) l acc)%Z).
  { clear. induction l as [|d l IH]; intros acc H A; cbn [fold_left forallb] in *; [exact A|]. apply andb_true_iff in H as [D H]. apply IH; [exact H|lia]. }
  apply G; [exact H|lia].
Qed.
Lemma ranges_same e a x i q q' g s : caps_atom x = [] -> ranged q -> ranged q' -> g = Gr \/ g = Po ->
  let split := ROne (Br a (SCons x (QQ (QExact i) Gr) (SCons x (QQ q g) s))) in
  let joint := ROne (Br a (SCons x (QQ q' g) s)) in
  wf split = true -> wf joint = true -> kind_min q' = (Z.to_N (num_val i) + kind_min q)%N ->
  (exists m, kind_max q = Some m /\ kind_max q' = Some (Z.to_N (num_val i) + m)%N /\ ~ (g = Gr /\ kind_min q = 0%N /\ m = 1%N))
  \/ (kind_max q = None /\ kind_max q' = None /\ (exists y, x = AEl y /\ elem_ok y = true) /\ (N.of_nat (length (buf e)) < UMAX - kind_min q')%N) ->
  same_results_in e (ctree split) (ctree joint).
Proof.
  intros C R R' G split joint W W' K D. pose proof W as W2. unfold split in W2. cbn [wf wf_br wf_sq quant_ok] in W2. rewrite !andb_true_iff in W2. destruct W2 as [[_ [NI _]] _].
  unfold split, joint. rewrite !caret_ctree by assumption. fold (many x q' g s) (many x q g s). fold (times x i (many x q g s)).
  assert (NG : ngroups (caret a (seq_node (times x i (many x q g s)))) = ngroups (caret a (seq_node (many x q' g s))))
    by (rewrite !caret_ngroups, times_groups, !many_groups by assumption; reflexivity).
  assert (M : forall t, mt e (caret a (seq_node (times x i (many x q g s)))) [] t = mt e (caret a (seq_node (many x q' g s))) [] t).
  { apply caret_mt. apply many_add; auto. now apply num_pos. }
  unfold same_results_in, groups_of. conj; [exact NG|intros; now apply create_alike|intros; now apply next_alike|intros; now apply range_alike].
Qed.
(** C70 (partial).  For every element or (?:...) without captures x, every greedy or possessive quantifier with bounds j and k
    (other than the greedy x?), and every well-formed rest (or none), with or without ^ in front: x{i}x{j,k}... and
    x{i+j,i+k}... give the same results on every query in every memory. *)
Theorem C70_ranges_add_partial : forall a x i q q' g s m, caps_atom x = [] -> ranged q -> ranged q' -> g = Gr \/ g = Po ->
  let split := ROne (Br a (SCons x (QQ (QExact i) Gr) (SCons x (QQ q g) s))) in
  let joint := ROne (Br a (SCons x (QQ q' g) s)) in
  wf split = true -> wf joint = true -> kind_min q' = (Z.to_N (num_val i) + kind_min q)%N ->
  kind_max q = Some m -> kind_max q' = Some (Z.to_N (num_val i) + m)%N -> ~ (g = Gr /\ kind_min q = 0%N /\ m = 1%N) ->
  exists n n', compile (show split) = Some n /\ compile (show joint) = Some n' /\ forall e, same_results_in e n n'.
Proof.
  intros a x i q q' g s m C R R' G split joint W W' K M M' X. exists (ctree split), (ctree joint). split; [now apply calm_compile|]. split; [now apply calm_compile|].
  intro e. apply ranges_same; auto. left. now exists m.
Qed.
Print Assumptions C70_ranges_add_partial.
(** Without an upper bound (x*, x+, x{j,}): for every element x, in every memory of less than 2^32-1-(i+j) bytes. *)
Theorem C70_unbounded_partial : forall a y i q q' g s, ranged q -> ranged q' -> g = Gr \/ g = Po ->
  let split := ROne (Br a (SCons (AEl y) (QQ (QExact i) Gr) (SCons (AEl y) (QQ q g) s))) in
  let joint := ROne (Br a (SCons (AEl y) (QQ q' g) s)) in
  wf split = true -> wf joint = true -> kind_min q' = (Z.to_N (num_val i) + kind_min q)%N ->
  kind_max q = None -> kind_max q' = None ->
  exists n n', compile (show split) = Some n /\ compile (show joint) = Some n'
    /\ forall e, (N.of_nat (length (buf e)) + kind_min q' < 4294967295)%N -> same_results_in e n n'.
Proof.
  intros a y i q q' g s R R' G split joint W W' K M M'. exists (ctree split), (ctree joint). split; [now apply calm_compile|]. split; [now apply calm_compile|].
  intros e L. apply ranges_same; auto. right. conj; auto.
  - exists y. split; [reflexivity|]. pose proof W' as W2. unfold joint in W2. cbn [wf wf_br wf_sq wf_atom] in W2. rewrite !andb_true_iff in W2. apply W2.
  - unfold UMAX. lia.
Qed.
Print Assumptions C70_unbounded_partial.
Example C70_case : exists split joint split2 joint2,
  split = ROne (Br true (SCons count_x (QQ (QExact [2]%Z) Gr) (SCons count_x (QQ (QMinMax [0]%Z [3]%Z) Gr) count_s)))
  /\ joint = ROne (Br true (SCons count_x (QQ (QMinMax [2]%Z [5]%Z) Gr) count_s))
  /\ show split = S2L "^(?:a|b+){2}(?:a|b+){0,3}(c)+" /\ show joint = S2L "^(?:a|b+){2,5}(c)+"
  /\ wf split = true /\ wf joint = true /\ caps_atom count_x = []
  /\ split2 = ROne (Br false (SCons (lit "a") (QQ (QExact [2]%Z) Gr) (SCons (lit "a") (QQ QStar Gr) (seqs [(lit "b", opt)]))))
  /\ joint2 = ROne (Br false (SCons (lit "a") (QQ (QMin [2]%Z) Gr) (seqs [(lit "b", opt)])))
  /\ show split2 = S2L "a{2}a*b?" /\ show joint2 = S2L "a{2,}b?" /\ wf split2 = true /\ wf joint2 = true
  /\ exists s, on "^(?:a|b+){2}(?:a|b+){0,3}(c)+" "aabbacc" = Some (RDone s) /\ to_view s = Some (0, 7)%Z /\ get_group s 1 = Some (Some (6, 7)%Z).
Proof. do 4 eexists. split; [reflexivity|]. split; [reflexivity|]. split; [vm_compute; reflexivity|]. split; [vm_compute; reflexivity|].
  split; [vm_compute; reflexivity|]. split; [vm_compute; reflexivity|]. split; [vm_compute; reflexivity|]. split; [reflexivity|]. split; [reflexivity|].
  split; [vm_compute; reflexivity|]. split; [vm_compute; reflexivity|]. split; [vm_compute; reflexivity|]. split; [vm_compute; reflexivity|].
  eexists. conj; vm_compute; reflexivity.
Qed.
(** x{i}x? is not x{i,i+1}: a{1}a?[ab] finds a match in "a", a{1,2}[ab] does not. *)
Theorem C70_refuted : exists split joint n n' s s',
  split = ROne (Br false (SCons (lit "a") (QQ (QExact [1]%Z) Gr) (SCons (lit "a") (QQ QOpt Gr) (seqs [(AEl (EClass false [CChar 97; CChar 98]), Q1)]))))
  /\ joint = ROne (Br false (SCons (lit "a") (QQ (QMinMax [1]%Z [2]%Z) Gr) (seqs [(AEl (EClass false [CChar 97; CChar 98]), Q1)])))
  /\ show split = S2L "a{1}a?[ab]" /\ show joint = S2L "a{1,2}[ab]" /\ wf split = true /\ wf joint = true
  /\ compile (show split) = Some n /\ compile (show joint) = Some n'
  /\ create 2 (env_of [] (S2L "a") [0%Z]) n = RDone s /\ to_view s = Some (0, 1)%Z
  /\ create 2 (env_of [] (S2L "a") [0%Z]) n' = RDone s' /\ is_accepted s' = false.
Proof.
  do 2 eexists. exists (node_of (S2L "a{1}a?[ab]")), (node_of (S2L "a{1,2}[ab]")),
    (st_of (create 2 (env_of [] (S2L "a") [0%Z]) (node_of (S2L "a{1}a?[ab]")))), (st_of (create 2 (env_of [] (S2L "a") [0%Z]) (node_of (S2L "a{1,2}[ab]")))).
  split; [reflexivity|]. split; [reflexivity|]. conj; vm_compute; reflexivity.
Qed.
Print Assumptions C70_refuted.
