(** C64-C66 and the symmetry of C16: laws that hold for every pattern, whether or not the
    library matches it correctly. *)
From Coq Require Import String ZArith NArith List Bool Lia ZifyBool ZifyNat ZifyN.
From Verif Require Import Base Text Ast AstProofs Builder BuilderProofs Engine Api ApiProofs Spec Tree Supported Refuted PropertiesCalm PropertiesWrap PropertiesMatch PropertiesMatch Laws.
Import ListNotations.
Open Scope nat_scope.

(** C64.  Whatever the pattern, the query and the history: once a result is not accepted, every
    further next() returns at once, leaves it not accepted, with no text and no captures, and
    visiting it yields nothing. *)
Theorem C64_exhausted : forall p n e s, compile p = Some n -> reach e n s -> is_accepted s = false ->
  visits e n s []
  /\ exists s', (forall fuel, next fuel e n s = RDone s') /\ (forall fuel, next fuel e n s' = RDone s')
     /\ is_accepted s' = false /\ to_view s' = None /\ (forall i, i <= groups_of n -> get_group s' i = Some None).
Proof.
  intros p n e s C R A. split; [now constructor|]. destruct (reach_rejected e n s R A) as [L _].
  exists (mkSt (s_end s) (s_end s) (no_groups n) false). conj; try reflexivity.
  - intro fuel. now apply next_past.
  - intro fuel. rewrite next_past by exact L. reflexivity.
  - intros [|i] Hi; [reflexivity|]. cbn [get_group s_grp]. unfold no_groups, groups_of in *. now apply nth_error_repeat.
Qed.
Print Assumptions C64_exhausted.
Example C64_case : exists n s0 s1 s2, compile (S2L "(a)|b") = Some n /\ let e := env_of [] (S2L "abc") [0%Z] in
  create 4 e n = RDone s0 /\ next 4 e n s0 = RDone s1 /\ next 4 e n s1 = RDone s2
  /\ is_accepted s0 = true /\ is_accepted s1 = true /\ is_accepted s2 = false /\ reach e n s2.
Proof.
  set (n := node_of (S2L "(a)|b")). set (e := env_of [] (S2L "abc") [0%Z]).
  assert (C : create 4 e n = RDone (st_of (create 4 e n))) by (vm_compute; reflexivity). set (s0 := st_of (create 4 e n)) in *.
  assert (N1 : next 4 e n s0 = RDone (st_of (next 4 e n s0))) by (vm_compute; reflexivity). set (s1 := st_of (next 4 e n s0)) in *.
  assert (N2 : next 4 e n s1 = RDone (st_of (next 4 e n s1))) by (vm_compute; reflexivity). set (s2 := st_of (next 4 e n s1)) in *.
  exists n, s0, s1, s2. split; [vm_compute; reflexivity|]. cbv zeta. fold e. conj; try assumption; try (vm_compute; reflexivity).
  eapply ReachNext; [eapply ReachNext; [eapply ReachCreate; exact C|exact N1]|exact N2].
Qed.

(** [t'] reports what [t] reports, and nothing for the captures [t] has not. *)
Definition extends (k k' : nat) (t t' : st) : Prop :=
  is_accepted t' = is_accepted t /\ to_view t' = to_view t
  /\ (forall i, i <= k -> get_group t' i = get_group t i) /\ (forall i, k < i -> i <= k' -> get_group t' i = Some None).
(** C65.  For every well-formed pattern b|r: whenever b alone matches where the search begins (at
    the first attempt: no turn of the loop of next(), or one for a later match), b|r reports that
    same match with the same captures, whatever r is. *)
Theorem C65_first_alternative : forall b r, wf (ROne b) = true -> wf r = true ->
  exists n1 n, compile (show (ROne b)) = Some n1 /\ compile (show (ROne b) ++ S2L "|" ++ show r) = Some n /\ groups_of n1 <= groups_of n
    /\ (forall e t, create 0 e n1 = RDone t -> is_accepted t = true ->
          exists t', extends (groups_of n1) (groups_of n) t t' /\ forall fuel, create fuel e n = RDone t')
    /\ (forall e, create 0 e n1 = RUB -> forall fuel, create fuel e n = RUB)
    /\ (forall e s1 s t, reach e n1 s1 -> reach e n s -> is_accepted s = true -> to_view s1 = to_view s ->
          next 1 e n1 s1 = RDone t -> is_accepted t = true ->
          exists t', extends (groups_of n1) (groups_of n) t t' /\ forall fuel, 1 <= fuel -> next fuel e n s = RDone t').
Proof.
  intros b r W1 W2. assert (W : wf (ROr b r) = true) by (cbn [wf] in *; now rewrite W1, W2).
  pose proof (calm_compile _ W1) as C1. pose proof (calm_compile _ W) as C.
  assert (T : exists c cs, ctree (ROr b r) = SimpleV (ctree (ROne b) :: c :: cs)).
  { unfold ctree, renumber, tree. cbn [renumber_in tree_bs optimize]. destruct (renumber_in false r _) as [b'|b' r']; cbn [tree_bs map]; eexists _, _; reflexivity. }
  destruct T as (c & cs & T). exists (ctree (ROne b)), (ctree (ROr b r)). split; [exact C1|]. split; [exact C|].
  pose proof (compile_gidx _ _ C1) as GB. rewrite T in *. set (n1 := ctree (ROne b)) in *. set (n := SimpleV (n1 :: c :: cs)) in *.
  assert (NG : ngroups n = ngroups n1 + list_sum (map ngroups (c :: cs))) by reflexivity.
  assert (EX : forall t, length (s_grp t) = ngroups n1 -> extends (groups_of n1) (groups_of n) t (EngineRel.pad (repeat None (list_sum (map ngroups (c :: cs)))) t)).
  { intros t Lt. unfold extends, groups_of. rewrite NG. conj; try reflexivity.
    - intros [|i] Hi; [reflexivity|]. cbn [get_group EngineRel.pad s_grp]. now rewrite nth_error_app1 by lia.
    - intros [|i] Hi Hk; [lia|]. cbn [get_group EngineRel.pad s_grp]. rewrite nth_error_app2 by lia. apply nth_error_repeat. lia. }
  split; [unfold groups_of; lia|].
  assert (FR : forall a z k t, mt a n1 [] (mkSt z z (no_groups n1) k) = Ok t -> length (s_grp t) = ngroups n1).
  { intros a z k t M. refine (proj2 (EngineRel.mt_frame a (ngroups n1) n1 GB _ t _ M)). cbn. unfold no_groups. apply repeat_length. }
  conj.
  - intros e t K A. unfold create in K. unfold fresh in K. pose proof (first_attempt e n1 c cs GB (qb e) (qb e) true) as F. fold n in F. pose proof (FR e (qb e) true) as L.
    destruct (mt e n1 [] (mkSt (qb e) (qb e) (no_groups n1) true)) as [t0|]; [|discriminate].
    destruct (s_acc t0) eqn:A0.
    + injection K as <-. eexists. split; [apply EX, L; reflexivity|]. intro fuel. unfold create, fresh. rewrite (F eq_refl). cbn [EngineRel.pad s_acc]. now rewrite A0.
    + exfalso. unfold next in K. cbn [next_loop s_start] in K. destruct (s_end t0 <? qe e)%Z; [discriminate|]. injection K as <-. discriminate A.
  - intros e K fuel. unfold create in K. unfold fresh in K. pose proof (first_attempt e n1 c cs GB (qb e) (qb e) true) as F. fold n in F.
    destruct (mt e n1 [] (mkSt (qb e) (qb e) (no_groups n1) true)) as [t0|].
    + exfalso. destruct (s_acc t0); [discriminate|]. unfold next in K. cbn [next_loop s_start] in K. destruct (s_end t0 <? qe e)%Z; discriminate.
    + unfold create, fresh. now rewrite F.
  - intros e s1 s t R1 R A V K At. assert (A1 : is_accepted s1 = true) by (unfold to_view in V; rewrite A in V; destruct (is_accepted s1); [reflexivity|discriminate]).
    assert (E : s_end s1 = s_end s) by (unfold to_view in V; rewrite A, A1 in V; congruence). unfold is_accepted in A, A1.
    unfold next in K. rewrite A1, E in K. cbn [next_loop s_start] in K. destruct (s_end s <? qe e)%Z eqn:Q; [|injection K as <-; discriminate At].
    pose proof (first_attempt e n1 c cs GB (s_end s) (s_end s) true) as F. fold n in F. pose proof (FR e (s_end s) true) as L.
    destruct (mt e n1 [] (mkSt (s_end s) (s_end s) (no_groups n1) true)) as [t0|]; [|discriminate]. destruct (s_acc t0) eqn:A0.
    + injection K as <-. eexists. split; [apply EX, L; reflexivity|]. intros [|fuel] Hf; [lia|]. unfold next. cbn [next_loop s_start]. rewrite Q, A, (F eq_refl). cbn [EngineRel.pad s_acc]. now rewrite A0.
    + exfalso. destruct (ptr_ok e (s_end t0 + 1)); [|discriminate]. cbn [next_loop s_start] in K. destruct (s_end t0 + 1 <? qe e)%Z; [discriminate|]. injection K as <-. discriminate At.
Qed.
Print Assumptions C65_first_alternative.
(** (a+)b|(c)d on "aabcd": the first alternative matches at once, the second one later. *)
Definition first_b : br := Br false (seqs [(ACap 0 (pat [(lit "a", plus)]), Q1); (lit "b", Q1)]).
Definition first_r : rx := pat [(ACap 0 (pat [(lit "c", Q1)]), Q1); (lit "d", Q1)].
Example C65_case : wf (ROne first_b) = true /\ wf first_r = true /\ show (ROne first_b) = S2L "(a+)b" /\ show first_r = S2L "(c)d"
  /\ exists n1 n t s s2, let e := env_of [] (S2L "aabcd") [0%Z] in
     compile (S2L "(a+)b") = Some n1 /\ compile (S2L "(a+)b|(c)d") = Some n
     /\ create 0 e n1 = RDone t /\ is_accepted t = true
     /\ create 0 e n = RDone s /\ to_view s = Some (0, 3)%Z /\ get_group s 1 = Some (Some (0, 2)%Z) /\ get_group s 2 = Some None
     /\ next 5 e n s = RDone s2 /\ to_view s2 = Some (3, 5)%Z /\ get_group s2 2 = Some (Some (3, 4)%Z).
Proof.
  conj; try (vm_compute; reflexivity). set (e := env_of [] (S2L "aabcd") [0%Z]).
  exists (node_of (S2L "(a+)b")), (node_of (S2L "(a+)b|(c)d")). set (n1 := node_of (S2L "(a+)b")). set (n := node_of (S2L "(a+)b|(c)d")).
  exists (st_of (create 0 e n1)), (st_of (create 0 e n)), (st_of (next 5 e n (st_of (create 0 e n)))). cbv zeta. conj; vm_compute; reflexivity.
Qed.

(** Two patterns whose results are the same object whatever is asked. *)
Definition same_results (n n' : node) : Prop :=
  groups_of n = groups_of n'
  /\ (forall e fuel, create fuel e n = create fuel e n') /\ (forall e fuel s, next fuel e n s = next fuel e n' s)
  /\ (forall e steps fuel r, range_for steps fuel e n r = range_for steps fuel e n' r).
(** C66.  x{i}x{j}... is x{i+j}..., for every element or (?:...) without captures and every well-formed
    rest (or none), with or without ^ in front, on every query in every memory. *)
Theorem C66_counts_add : forall a x i j k s, caps_atom x = [] ->
  let twice := ROne (Br a (SCons x (QQ (QExact i) Gr) (SCons x (QQ (QExact j) Gr) s))) in
  let once := ROne (Br a (SCons x (QQ (QExact k) Gr) s)) in
  wf twice = true -> wf once = true -> num_val k = (num_val i + num_val j)%Z ->
  exists n n', compile (show twice) = Some n /\ compile (show once) = Some n' /\ same_results n n'.
Proof.
  intros a x i j k s C twice once W W' K. exists (ctree twice), (ctree once). split; [now apply calm_compile|]. split; [now apply calm_compile|].
  assert (P : forall l, num_ok l = true -> (0 <= num_val l)%Z).
  { intros l H. unfold num_ok in H. apply andb_true_iff in H as [H _]. apply andb_true_iff in H as [_ H]. unfold num_val.
    assert (G : forall l acc, forallb (fun d => (0 <=? d) && (d <=? 9))%Z l = true -> (0 <= acc)%Z -> (0 <= fold_left (fun acc d => 10 * acc + d) l acc)%Z).
    { clear. induction l as [|d l IH]; intros acc H A; cbn [fold_left forallb] in *; [exact A|]. apply andb_true_iff in H as [D H]. apply IH; [exact H|lia]. }
    apply G; [exact H|lia]. }
  pose proof W as W2. unfold twice in W2. cbn [wf wf_br wf_sq quant_ok] in W2. rewrite !andb_true_iff in W2. destruct W2 as [[_ [NI _]] [[_ [NJ _]] _]].
  unfold twice, once. rewrite !caret_ctree by assumption. fold (times x j s) (times x k s). fold (times x i (times x j s)).
  assert (NG : ngroups (caret a (seq_node (times x i (times x j s)))) = ngroups (caret a (seq_node (times x k s)))) by (rewrite !caret_ngroups, !times_groups by exact C; reflexivity).
  assert (M : forall e t, mt e (caret a (seq_node (times x i (times x j s)))) [] t = mt e (caret a (seq_node (times x k s))) [] t).
  { intros e. apply caret_mt. apply times_add; auto. }
  unfold same_results, groups_of. conj; [exact NG|intros; now apply create_alike|intros; now apply next_alike|intros; now apply range_alike].
Qed.
Print Assumptions C66_counts_add.
(** and x{0} in front of something disappears. *)
Theorem C66_count_zero : forall a x i s, caps_atom x = [] -> num_val i = 0%Z ->
  let with_x := ROne (Br a (SCons x (QQ (QExact i) Gr) s)) in
  let without := ROne (Br a s) in
  wf with_x = true -> wf without = true ->
  exists n n', compile (show with_x) = Some n /\ compile (show without) = Some n' /\ same_results n n'.
Proof.
  intros a x i s C I with_x without W W'. exists (ctree with_x), (ctree without). split; [now apply calm_compile|]. split; [now apply calm_compile|].
  assert (NE : s <> SNil) by (intros ->; discriminate W'). unfold with_x, without. rewrite !caret_ctree by assumption. fold (times x i s).
  assert (NG : ngroups (caret a (seq_node (times x i s))) = ngroups (caret a (seq_node s))) by (rewrite !caret_ngroups, times_groups by exact C; reflexivity).
  assert (M : forall e t, mt e (caret a (seq_node (times x i s))) [] t = mt e (caret a (seq_node s)) [] t).
  { intros e. apply caret_mt. now apply times_zero. }
  unfold same_results, groups_of. conj; [exact NG|intros; now apply create_alike|intros; now apply next_alike|intros; now apply range_alike].
Qed.
Print Assumptions C66_count_zero.
Definition count_x : atom := ANon (ROr (Br false (seqs [(lit "a", Q1)])) (pat [(lit "b", plus)])).
Definition count_s : sq := seqs [(ACap 0 (pat [(lit "c", Q1)]), plus)].
Example C66_case : exists twice once,
  twice = ROne (Br true (SCons count_x (QQ (QExact [2]%Z) Gr) (SCons count_x (QQ (QExact [1; 0]%Z) Gr) count_s)))
  /\ once = ROne (Br true (SCons count_x (QQ (QExact [1; 2]%Z) Gr) count_s))
  /\ show twice = S2L "^(?:a|b+){2}(?:a|b+){10}(c)+" /\ show once = S2L "^(?:a|b+){12}(c)+"
  /\ wf twice = true /\ wf once = true /\ caps_atom count_x = [] /\ num_val [1; 2]%Z = (num_val [2]%Z + num_val [1; 0]%Z)%Z
  /\ exists s, on "^(?:a|b+){2}(?:a|b+){10}(c)+" "aabbaaaaaaaabcc" = Some (RDone s) /\ to_view s = Some (0, 15)%Z /\ get_group s 1 = Some (Some (14, 15)%Z).
Proof. do 2 eexists. split; [reflexivity|]. split; [reflexivity|]. conj; try (vm_compute; reflexivity). eexists. conj; vm_compute; reflexivity. Qed.

(** C16.  is_independent does not depend on which of the two patterns is asked: for all patterns. *)
Theorem C16_symmetric_partial : forall p1 p2 n1 n2, compile p1 = Some n1 -> compile p2 = Some n2 ->
  is_independent n1 n2 = is_independent n2 n1.
Proof. intros p1 p2 n1 n2 _ _. unfold is_independent. now rewrite inter_comm. Qed.
Print Assumptions C16_symmetric_partial.
Example C16_symmetric_case : exists n1 n2 n3, compile (S2L "a+|[b-d]x") = Some n1 /\ compile (S2L "[e-z]+") = Some n2 /\ compile (S2L "\w") = Some n3
  /\ is_independent n1 n2 = true /\ is_independent n2 n1 = true /\ is_independent n1 n3 = false /\ is_independent n3 n1 = false.
Proof. exists (node_of (S2L "a+|[b-d]x")), (node_of (S2L "[e-z]+")), (node_of (S2L "\w")). conj; vm_compute; reflexivity. Qed.
