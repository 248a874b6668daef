(** C67 (a larger memory changes nothing that is defined), C20 for what precedes the query, and
    C68 (a match that follows at once is a match of the rest). *)
From Coq Require Import String ZArith NArith List Bool Lia ZifyBool ZifyNat ZifyN.
From Verif Require Import Base Text Ast AstProofs Builder Engine Api ApiProofs Spec Tree Supported Refuted Safe Mono Shift PropertiesMatch PropertiesCalm SpecSmall PropertiesSmall.
Import ListNotations.
Open Scope nat_scope.

(** Whatever is defined in [e1] happens, [d] bytes further, in [e2]: construction, every next(),
    every iteration; [shift_st] adds [d] to the ends of the match and of every capture and nothing
    else, and the texts seen are the same. *)
Definition carried (e1 e2 : env) (n : node) (d : Z) : Prop :=
  (forall fuel s, create fuel e1 n = RDone s -> create fuel e2 n = RDone (shift_st d s))
  /\ (forall s, reach e1 n s -> reach e2 n (shift_st d s)
        /\ (forall fuel t, next fuel e1 n s = RDone t -> next fuel e2 n (shift_st d s) = RDone (shift_st d t))
        /\ (forall l, visits e1 n s l -> visits e2 n (shift_st d s) (map (shift_view d) l))
        /\ is_accepted (shift_st d s) = is_accepted s
        /\ to_view (shift_st d s) = shift_view d (to_view s) /\ text e2 (to_view (shift_st d s)) = text e1 (to_view s)
        /\ (forall i, get_group (shift_st d s) i = option_map (shift_view d) (get_group s i))).
Lemma carry e1 e2 n d a : (qe e2 = qe e1 + d)%Z -> (qb e2 = qb e1 + d)%Z ->
  (forall p x, (a <= p)%Z -> rd e1 p = Some x -> rd e2 (p + d) = Some x) ->
  (forall p, (a - 1 <= p)%Z -> ptr_ok e1 p = true -> ptr_ok e2 (p + d) = true) ->
  (opt_small n = true \/ a <= 0)%Z -> (a <= qb e1 <= Z.of_nat (length (buf e1)))%Z -> (0 <= a /\ 0 <= a + d)%Z -> carried e1 e2 n d.
Proof.
  intros QE QB RD PT O L A. split.
  - intros fuel s C. pose proof (create_shift e1 e2 d a true QE (fun _ => QB) RD PT n O eq_refl L fuel) as X. rewrite C in X. cbn [rrel] in X.
    destruct (create fuel e2 n) as [s'| |]; try tauto. now destruct X as [-> _].
  - intros s Hs. destruct (reach_shift e1 e2 d a true QE (fun _ => QB) RD PT n O eq_refl L s Hs) as [X1 X2]. split; [exact X2|]. conj.
    + intros fuel t N. pose proof (next_shift e1 e2 d a true QE (fun _ => QB) RD PT n O eq_refl fuel _ _ X1) as X. rewrite N in X. cbn [rrel] in X.
      destruct (next fuel e2 n (shift_st d s)) as [t'| |]; try tauto. now destruct X as [-> _].
    + intros l V. exact (visits_shift e1 e2 d a true QE (fun _ => QB) RD PT n O eq_refl s l V X1).
    + reflexivity.
    + apply Shift.view_shift.
    + rewrite Shift.view_shift. unfold to_view. destruct (is_accepted s); [|reflexivity]. destruct X1 as (_ & L1 & L2). unfold hi in L2. cbn [shift_view].
      apply (text_shift e1 e2 d a true (fun _ => QB) RD); unfold hi; lia.
    + intros [|i]; cbn [get_group option_map]; [now rewrite Shift.view_shift|]. cbn [shift_st s_grp]. apply nth_error_map.
Qed.

(** C67.  For every pattern that compiles and every query in every memory: embedding that memory
    in a larger one leaves every defined outcome as it is.  (Outcomes that are undefined in the
    smaller memory are those that leave it.) *)
Theorem C67_larger_memory : forall p n pre w post before after, compile p = Some n ->
  carried (env_of pre w post) (env_of (before ++ pre) w (post ++ after)) n (Z.of_nat (length before)).
Proof.
  intros p n pre w post before after C.
  assert (B : buf (env_of (before ++ pre) w (post ++ after)) = before ++ (pre ++ w ++ post) ++ after) by (cbn [env_of buf]; now rewrite <- !app_assoc).
  apply (carry _ _ n _ 0%Z).
  - cbn [env_of qe]. rewrite app_length. lia.
  - cbn [env_of qb]. rewrite app_length. lia.
  - intros q x Q H. unfold rd in *. destruct (Z.ltb_spec q 0); [lia|]. destruct (Z.ltb_spec (q + Z.of_nat (length before)) 0); [lia|].
    rewrite B, nth_error_app2 by lia. replace (Z.to_nat (q + Z.of_nat (length before)) - length before) with (Z.to_nat q) by lia.
    change (buf (env_of pre w post)) with (pre ++ w ++ post) in H. rewrite nth_error_app1; [exact H|]. apply nth_error_Some. congruence.
  - intros q Q H. unfold ptr_ok in *. rewrite B, !app_length. change (buf (env_of pre w post)) with (pre ++ w ++ post) in H. rewrite !app_length in H. lia.
  - right. lia.
  - cbn [env_of qb buf]. rewrite app_length. lia.
  - lia.
Qed.
Print Assumptions C67_larger_memory.
(** (b)c? on "abc" in a memory of three bytes, and the same in a larger one; $ needs the
    byte after the query. *)
Example C67_case : exists n n2 s s2, compile (S2L "(b)c?") = Some n /\ compile (S2L "b$") = Some n2
  /\ create 4 (env_of [] (S2L "abc") []) n = RDone s /\ to_view s = Some (1, 3)%Z
  /\ create 4 (env_of (S2L "xx") (S2L "abc") (S2L "yy")) n = RDone s2 /\ to_view s2 = Some (3, 5)%Z /\ get_group s2 1 = Some (Some (3, 4)%Z)
  /\ create 4 (env_of [] (S2L "ab") []) n2 = RUB.
Proof.
  exists (node_of (S2L "(b)c?")), (node_of (S2L "b$")), (st_of (create 4 (env_of [] (S2L "abc") []) (node_of (S2L "(b)c?")))), (st_of (create 4 (env_of (S2L "xx") (S2L "abc") (S2L "yy")) (node_of (S2L "(b)c?")))).
  conj; vm_compute; reflexivity.
Qed.

(** C20.  A [small] pattern (SpecSmall.v: written so that every greedy x? is of one character or
    followed by other characters) does not look at what precedes the query: every outcome defined
    with one preceding text is the outcome with any other.  (With nothing before it, some calls form the
    pointer before the first byte, which is undefined.)  Memory may also be added behind. *)
Theorem C20_before_partial : forall r dollar, small_as r dollar = true ->
  exists n, compile (written r dollar) = Some n
  /\ forall pre1 pre2 w post after, pre2 <> [] \/ pre1 = [] ->
     carried (env_of pre1 w post) (env_of pre2 w (post ++ after)) n (Z.of_nat (length pre2) - Z.of_nat (length pre1)).
Proof.
  intros r dl S. destruct (small_compile r dl S) as (n & C & O). exists n. split; [exact C|]. intros pre1 pre2 w post after P.
  assert (P0 : length pre2 > 0 \/ length pre1 = 0) by (destruct P as [P| ->]; [left; destruct pre2; [congruence|cbn; lia]|now right]).
  apply (carry _ _ n _ (Z.of_nat (length pre1))).
  - cbn [env_of qe]. lia.
  - cbn [env_of qb]. lia.
  - intros q x Q H. unfold rd in *. destruct (Z.ltb_spec q 0); [lia|]. destruct (Z.ltb_spec (q + (Z.of_nat (length pre2) - Z.of_nat (length pre1))) 0); [lia|].
    cbn [env_of buf] in *. rewrite nth_error_app2 in H by lia. rewrite nth_error_app2 by lia.
    replace (Z.to_nat (q + (Z.of_nat (length pre2) - Z.of_nat (length pre1))) - length pre2) with (Z.to_nat q - length pre1) by lia.
    rewrite app_assoc. rewrite nth_error_app1; [exact H|]. apply nth_error_Some. congruence.
  - intros q Q H. unfold ptr_ok in *. cbn [env_of buf] in *. rewrite !app_length in *. lia.
  - now left.
  - cbn [env_of qb buf]. rewrite app_length. lia.
  - lia.
Qed.
Print Assumptions C20_before_partial.
Example C20_before_case : exists r n s, small_as r true = true /\ written r true = S2L "(a+)b?$|\s*c*$" /\ compile (written r true) = Some n
  /\ create 4 (env_of (S2L "a") (S2L "aab") [0%Z]) n = RDone s /\ to_view s = Some (1, 4)%Z /\ get_group s 1 = Some (Some (1, 3)%Z).
Proof.
  exists (ROr (Br false (seqs [(ACap 0 (pat [(lit "a", plus)]), Q1); (lit "b", opt)])) (pat [(AEl (EEsc 115), star); (lit "c", star)])), (node_of (S2L "(a+)b?$|\s*c*$")), (st_of (create 4 (env_of (S2L "a") (S2L "aab") [0%Z]) (node_of (S2L "(a+)b?$|\s*c*$")))).
  conj; vm_compute; reflexivity.
Qed.

(** No ^ is written in the pattern. *)
Fixpoint no_caret (r : rx) : bool :=
  match r with ROne b => no_caret_br b | ROr b r' => no_caret_br b && no_caret r' end
with no_caret_br (b : br) : bool := match b with Br a s => negb a && no_caret_sq s end
with no_caret_sq (s : sq) : bool := match s with SNil => true | SCons a _ s' => no_caret_atom a && no_caret_sq s' end
with no_caret_atom (a : atom) : bool := match a with AEl _ => true | ACap _ r => no_caret r | ANon r => no_caret r end.
Lemma no_caret_renumber :
  (forall r i g, no_caret (renumber_in i r g) = no_caret r) /\ (forall b g, no_caret_br (renumber_br b g) = no_caret_br b)
  /\ (forall s g, no_caret_sq (renumber_sq s g) = no_caret_sq s) /\ (forall a g, no_caret_atom (renumber_atom a g) = no_caret_atom a).
Proof.
  apply rx_all_ind.
  - intros b IH i g. cbn [renumber_in no_caret]. apply IH.
  - intros b IHb r IHr i g. cbn [renumber_in no_caret]. now rewrite IHb, IHr.
  - intros a s IH g. cbn [renumber_br no_caret_br]. now rewrite IH.
  - reflexivity.
  - intros a IHa q s IHs g. cbn [renumber_sq no_caret_sq]. now rewrite IHa, IHs.
  - reflexivity.
  - intros i r IH g. cbn [renumber_atom no_caret_atom]. apply IH.
  - intros r IH g. cbn [renumber_atom no_caret_atom]. apply IH.
Qed.
Lemma followed_no_start u c : no_start u = true -> match c with Some x => no_start x = true | None => True end -> no_start (followed u c) = true.
Proof.
  intros U C. destruct c as [c|]; [|exact U]. destruct u; cbn [followed no_start] in *; rewrite ?forallb_app; cbn [forallb]; rewrite ?C; rewrite ?andb_true_iff in *; try tauto; now rewrite ?U.
Qed.
Lemma no_caret_tree :
  (forall r, no_caret r = true -> forallb no_start (tree_bs r) = true) /\ (forall b, no_caret_br b = true -> no_start (tree_br b) = true)
  /\ (forall s, no_caret_sq s = true -> match tree_sq s with Some x => no_start x = true | None => True end) /\ (forall a, no_caret_atom a = true -> no_start (tree_atom a) = true).
Proof.
  apply rx_all_ind.
  - intros b IH H. cbn [no_caret tree_bs forallb] in *. now rewrite (IH H).
  - intros b IHb r IHr H. cbn [no_caret tree_bs forallb] in *. apply andb_true_iff in H as [H1 H2]. now rewrite (IHb H1), (IHr H2).
  - intros a s IH H. cbn [no_caret_br] in H. apply andb_true_iff in H as [H1 H2]. destruct a; [discriminate|]. cbn [tree_br]. specialize (IH H2). destruct (tree_sq s); [exact IH|reflexivity].
  - intros _. exact Logic.I.
  - intros a IHa q s IHs H. cbn [no_caret_sq tree_sq] in *. apply andb_true_iff in H as [H1 H2]. apply followed_no_start; [|exact (IHs H2)].
    destruct q as [|k g]; [exact (IHa H1)|]. destruct k, g; cbn [tree_quant pol_of mkq no_start forallb]; rewrite (IHa H1); reflexivity.
  - intros x _. destruct x as [c|c| |neg l|x y z|x y]; try reflexivity.
    assert (A : forallb no_start (map tree_citem l) = true) by (apply forallb_forall; intros m M; apply in_map_iff in M as (i & <- & _); now destruct i).
    destruct neg; cbn [tree_atom tree_elem no_start forallb]; now rewrite A.
  - intros i r IH H. cbn [no_caret_atom tree_atom no_start forallb] in *. now rewrite (IH H).
  - intros r IH H. cbn [no_caret_atom tree_atom no_start forallb] in *. now rewrite (IH H).
Qed.
Lemma optimize_no_start n : no_start n = true -> forall inj, no_start (optimize n inj) = true.
Proof.
  assert (K : forall cs, Forall (fun n => no_start n = true -> forall inj, no_start (optimize n inj) = true) cs -> forallb no_start cs = true ->
     forallb no_start (map (fun c => optimize c []) cs) = true).
  { induction 1 as [|c cs Hc HF IH]; cbn [forallb map]; intro H; [reflexivity|]. apply andb_true_iff in H as [H1 H2]. now rewrite (Hc H1), (IH H2). }
  induction n using node_ind'; cbn [no_start]; intros Hn inj; cbn [optimize].
  - destruct t; cbn [term_optimize no_start]; try exact Hn; try reflexivity. destruct (term_kind tok); reflexivity.
  - destruct cs as [|c [|c2 cs]]; [reflexivity| |].
    + cbn [forallb] in Hn. rewrite andb_true_r in Hn. inversion H as [|? ? Hc _]; subst. now apply Hc.
    + cbn [no_start]. exact (K _ H Hn).
  - apply andb_true_iff in Hn as [H1 H2]. destruct cs as [|c cs]; [now apply IHn|]. cbn [no_start]. now rewrite (IHn H1), (K _ H H2).
  - apply andb_true_iff in Hn as [H1 H2]. destruct (adm_empty _); cbn [no_start]; now rewrite (IHn H1), (K _ H H2).
  - apply andb_true_iff in Hn as [H1 H2]. destruct (adm_empty _); cbn [no_start]; now rewrite (IHn H1), (K _ H H2).
  - apply andb_true_iff in Hn as [H1 H2]. cbn [no_start]. now rewrite (IHn H1), (K _ H H2).
  - apply andb_true_iff in Hn as [H1 H2]. cbn [no_start]. now rewrite (IHn H1), (K _ H H2).
  - apply andb_true_iff in Hn as [H1 H2]. cbn [no_start]. now rewrite (IHn H1), (K _ H H2).
  - cbn [no_start]. now apply IHn.
Qed.
Lemma no_caret_ctree r : no_caret r = true -> no_start (ctree r) = true.
Proof.
  intro H. unfold ctree. apply optimize_no_start. unfold tree. cbn [no_start]. apply (proj1 no_caret_tree). unfold renumber. now rewrite (proj1 no_caret_renumber).
Qed.
(** Two queries that end at the same place in the same memory; the matcher without ^ does not see where they begin. *)
Lemma mt_begin b q1 q2 z n s : opt_small n = true -> no_start n = true -> (0 <= s_start s <= s_end s)%Z -> (s_end s <= Z.of_nat (length b))%Z ->
  mt (mkEnv b q1 z) n [] s = mt (mkEnv b q2 z) n [] s.
Proof.
  intros O NS L U. set (e := mkEnv b q1 z). set (e' := mkEnv b q2 z).
  assert (ID : forall t, shift_st 0 t = t).
  { intros [x y g k]. unfold shift_st. cbn [s_start s_end s_grp s_acc]. rewrite !Z.add_0_r. f_equal. rewrite <- (map_id g) at 2. apply map_ext. intros [[u v]|]; cbn; [now rewrite !Z.add_0_r|reflexivity]. }
  assert (X : forall e e', buf e = b -> buf e' = b -> qe e = z -> qe e' = z -> orel e 0 (s_start s) (mt e n [] s) (mt e' n [] s)).
  { clear e e'. intros e e' B B' Q Q'. refine (mt_shift e e' 0 (s_start s) false _ _ _ _ n _ _ [] [] (Forall2_nil _) s s _).
    - lia.
    - discriminate.
    - intros p x _ H. rewrite Z.add_0_r. unfold rd in *. now rewrite B' , <- B.
    - intros p _ H. rewrite Z.add_0_r. unfold ptr_ok in *. now rewrite B', <- B.
    - now left.
    - exact NS.
    - split; [now rewrite ID|]. unfold hi. rewrite B. lia. }
  pose proof (X e e' eq_refl eq_refl eq_refl eq_refl) as X1. pose proof (X e' e eq_refl eq_refl eq_refl eq_refl) as X2. unfold orel in X1, X2.
  destruct (mt e n [] s) as [t|], (mt e' n [] s) as [t'|]; try tauto. destruct X1 as [-> _]. now rewrite ID.
Qed.
(** C68.  For a [small] pattern in which no ^ is written, any result s that ends before the query does, and
    any result t that matches: next() gets t from s by its first attempt iff the constructor gets t by
    its first attempt from the rest of the query alone, where it is.  Missing: later attempts, which
    may differ (C68_rest_refuted). *)
Theorem C68_rest_partial : forall r, small_as r false = true -> no_caret r = true ->
  exists n, compile (show r) = Some n
  /\ forall pre w post s x y, let e := env_of pre w post in reach e n s -> to_view s = Some (x, y) -> (y < qe e)%Z ->
     let k := Z.to_nat y - length pre in
     let rest := env_of (pre ++ firstn k w) (skipn k w) post in
     qb rest = y /\ buf rest = buf e /\ qe rest = qe e
     /\ forall t, is_accepted t = true -> (next 1 e n s = RDone t <-> create 0 rest n = RDone t).
Proof.
  intros r S NC. destruct (small_compile r false S) as (n & C & O). exists n. cbn [written] in C. split; [exact C|].
  assert (W : wf r = true) by (unfold small_as in S; now apply andb_true_iff in S as [W _]).
  assert (NS : no_start n = true) by (rewrite (calm_compile r W) in C; injection C as <-; now apply no_caret_ctree).
  intros pre w post s x y e Hs V Y k rest.
  assert (A : is_accepted s = true) by (unfold to_view in V; destruct (is_accepted s); [reflexivity|discriminate]).
  assert (E : s_end s = y) by (unfold to_view in V; rewrite A in V; congruence).
  assert (B : (qb e <= y <= Z.of_nat (length (buf e)))%Z).
  { assert (IN : (qb e <= qb e <= Z.of_nat (length (buf e)))%Z) by (unfold e; cbn [env_of qb buf]; rewrite app_length; lia).
    destruct (reach_shift e e 0 (qb e) true) with (n := n) (s := s) as [X _]; try lia; auto.
    - intros p c _ H. now rewrite Z.add_0_r.
    - intros p _ H. now rewrite Z.add_0_r.
    - destruct X as (_ & _ & X). unfold hi in X. rewrite E in X. exact X. }
  assert (K : (Z.of_nat k = y - qb e)%Z /\ k <= length w) by (unfold k, e in *; cbn [env_of qb qe] in *; lia). destruct K as [K1 K2].
  assert (R1 : qb rest = y) by (unfold rest; cbn [env_of qb]; rewrite app_length, firstn_length_le by exact K2; unfold e in *; cbn [env_of qb] in *; lia).
  assert (R2 : buf rest = buf e) by (unfold rest, e; cbn [env_of buf]; now rewrite <- app_assoc, (app_assoc (firstn k w)), firstn_skipn).
  assert (R3 : qe rest = qe e) by (unfold rest, e; cbn [env_of qe]; rewrite app_length, firstn_length_le, skipn_length by exact K2; lia).
  split; [exact R1|]. split; [exact R2|]. split; [exact R3|]. intros t At.
  set (s0 := mkSt y y (no_groups n) true).
  assert (M : mt e n [] s0 = mt rest n [] s0).
  { replace e with (mkEnv (buf e) (qb e) (qe e)) by reflexivity. replace rest with (mkEnv (buf e) (qb rest) (qe e)) by (rewrite <- R2, <- R3; reflexivity).
    apply mt_begin; auto; cbn [s0 s_start s_end]; unfold e in *; cbn [env_of qb] in *; lia. }
  assert (NX : next 1 e n s = match mt e n [] s0 with UB => RUB | Ok s1 => if s_acc s1 then RDone s1 else if ptr_ok e (s_end s1 + 1) then next_loop 0 e n (mkSt (s_end s1 + 1) (s_end s1 + 1) (s_grp s1) (s_acc s1)) else RUB end).
  { unfold next. unfold is_accepted in A. rewrite A, E. cbn [next_loop]. fold s0. change (s_start s0) with y. destruct (Z.ltb_spec y (qe e)); [reflexivity|lia]. }
  assert (CR : create 0 rest n = match mt rest n [] s0 with UB => RUB | Ok s1 => if s_acc s1 then RDone s1 else next 0 rest n s1 end).
  { unfold create, fresh. now rewrite R1. }
  rewrite NX, CR, <- M. destruct (mt e n [] s0) as [s1|]; [|tauto]. destruct (s_acc s1); [tauto|]. split; intro H; exfalso.
  - destruct (ptr_ok e (s_end s1 + 1)); [|discriminate]. cbn [next_loop s_start] in H. destruct (_ <? _)%Z; [discriminate|]. injection H as <-. discriminate At.
  - unfold next in H. cbn [next_loop s_start] in H. destruct (_ <? _)%Z; [discriminate|]. injection H as <-. discriminate At.
Qed.
Print Assumptions C68_rest_partial.
Example C68_case : exists r n s t, small_as r false = true /\ no_caret r = true /\ show r = S2L "(a|b)+c?" /\ compile (show r) = Some n
  /\ let e := env_of [] (S2L "abcba.") [0%Z] in create 7 e n = RDone s /\ to_view s = Some (0, 3)%Z
  /\ next 1 e n s = RDone t /\ to_view t = Some (3, 5)%Z /\ create 0 (env_of (S2L "abc") (S2L "ba.") [0%Z]) n = RDone t.
Proof.
  exists (pat [(ACap 0 (ROr (Br false (seqs [(lit "a", Q1)])) (pat [(lit "b", Q1)])), plus); (lit "c", opt)]). set (n := node_of (S2L "(a|b)+c?")). set (e := env_of [] (S2L "abcba.") [0%Z]).
  exists n, (st_of (create 7 e n)), (st_of (next 1 e n (st_of (create 7 e n)))). cbv zeta. fold e. conj; vm_compute; reflexivity.
Qed.
(** a{2}b on "aabaaaab": after the first match next() finds nothing; a search of the rest, "aaaab",
    finds "aab". *)
Theorem C68_rest_refuted : exists n s s2 s3, compile (S2L "a{2}b") = Some n
  /\ (let e := env_of [] (S2L "aabaaaab") [0%Z] in create 9 e n = RDone s /\ to_view s = Some (0, 3)%Z /\ next 9 e n s = RDone s2 /\ is_accepted s2 = false)
  /\ create 9 (env_of (S2L "aab") (S2L "aaaab") [0%Z]) n = RDone s3 /\ to_view s3 = Some (5, 8)%Z.
Proof.
  set (n := node_of (S2L "a{2}b")). set (e := env_of [] (S2L "aabaaaab") [0%Z]).
  exists n, (st_of (create 9 e n)), (st_of (next 9 e n (st_of (create 9 e n)))), (st_of (create 9 (env_of (S2L "aab") (S2L "aaaab") [0%Z]) n)). cbv zeta. fold e. conj; vm_compute; reflexivity.
Qed.
Print Assumptions C68_rest_refuted.
