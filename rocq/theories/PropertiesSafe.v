(** C12, C19, C20, C35, C36: memory, surroundings and captures. *)
From Coq Require Import String ZArith NArith List Bool Lia.
From Verif Require Import Base Text Ast Builder Engine Api Spec SpecProofs SpecEnd Tree Den Checker AstProofs BuilderProofs
  EngineOk ApiProofs Runs Supported Main Captures Mono Find Sound Safe Anchor MinSize Refuted PropertiesMatch.
Import ListNotations.
Open Scope nat_scope.

Lemma next_loop_ub e n : forall f s, next_loop f e n s = RUB -> forall g, f <= g -> next_loop g e n s = RUB.
Proof.
  induction f as [|f IH]; intros s H g Hg; destruct g as [|g]; try lia; cbn [next_loop] in *;
    destruct (s_start s <? qe e)%Z; try discriminate; auto.
  destruct (mt e n [] s) as [s1|]; [|reflexivity]. destruct (s_acc s1); [discriminate|].
  destruct (ptr_ok e (s_end s1 + 1)); [|reflexivity]. apply (IH _ H). lia.
Qed.
Lemma create_ub e n f : create f e n = RUB -> forall g, f <= g -> create g e n = RUB.
Proof.
  unfold create. destruct (mt e n [] (fresh e n)) as [s1|]; [|auto]. destruct (s_acc s1); [discriminate|].
  intros H g Hg. eapply next_loop_ub; eauto.
Qed.

Section Two.
Variables (pre1 post1 pre2 post2 w : str) (D : bool) (n : node).
Hypothesis HD1 : D = true -> exists c p, post1 = c :: p /\ c <> c_nl.
Hypothesis HD2 : D = true -> exists c p, post2 = c :: p /\ c <> c_nl.
Notation e1 := (env_of pre1 w post1).
Notation e2 := (env_of pre2 w post2).
Hypothesis Hq : query_ok w.
Hypothesis Hsafe : safe D (ngroups n) n = true.
Hypothesis Hp1 : post1 <> [].
Hypothesis Hp2 : post2 <> [].
Notation RR := (RR pre1 pre2 w n).
Lemma RR_room s s' : RR s s' -> (qe e1 - s_end s <= Z.of_nat (length w))%Z.
Proof.
  clear Hq Hsafe Hp1 Hp2 HD1 HD2. intros (k & i & g & g' & b & -> & _). unfold mk. cbn [s_end]. pose proof (at_qe pre1 w post1). unfold at_ in *. lia.
Qed.
Lemma next_RR fuel s s' t : RR s s' -> next fuel e1 n s = RDone t ->
  exists t', next (S (fuel + length w)) e2 n s' = RDone t' /\ RR t t'.
Proof.
  intros H N. pose proof (RR_room _ _ H).
  destruct (next_two pre1 post1 pre2 post2 w D n HD1 HD2 (q_chars w Hq) (q_len w Hq) Hsafe Hp1 Hp2 (S (fuel + length w)) s s' H ltac:(lia)) as (t1 & t2 & A & B & C).
  apply (next_more _ _ _ (S (fuel + length w))) in N; [|lia]. rewrite N in A. injection A as ->. eauto.
Qed.
Lemma reach_RR s : reach e1 n s -> exists s', RR s s' /\ reach e2 n s'.
Proof.
  induction 1 as [fuel s H|fuel s s1 _ (s' & R & R2) H].
  - destruct (create_two pre1 post1 pre2 post2 w D n HD1 HD2 (q_chars w Hq) (q_len w Hq) Hsafe Hp1 Hp2 (S (fuel + length w)) ltac:(lia)) as (t & t' & A & B & C).
    apply (create_more _ _ _ (S (fuel + length w))) in H; [|lia]. rewrite H in A. injection A as ->.
    exists t'. split; [exact C|]. eapply ReachCreate. exact B.
  - destruct (next_RR _ _ _ _ R H) as (t' & B & C). exists t'. split; [exact C|]. eapply ReachNext; eauto.
Qed.
End Two.

(** C19.  No undefined behaviour (reading outside the buffer, forming a pointer more than
    one past it), in any call a program can make; and everything reported lies in the query.
    [safe] is a decidable condition on the compiled pattern (no \x{..} of two bytes,
    quantified items over one character, optional items of size at most one; $ only if [D]);
    one byte behind the query has to exist, and for $ ([D]) it must not be a newline.  Missing: other patterns (false, C19_memory_refuted). *)
Theorem C19_memory_partial : forall D p n pre w post, compile p = Some n -> safe D (ngroups n) n = true ->
  query_ok w -> post <> [] -> (D = true -> exists c q, post = c :: q /\ c <> c_nl) ->
  let e := env_of pre w post in
  let inside (v : Z * Z) := (qb e <= fst v <= qe e /\ qb e <= snd v <= qe e)%Z in
  (forall fuel, create fuel e n <> RUB)
  /\ (forall s, reach e n s ->
        (forall fuel, next fuel e n s <> RUB)
        /\ (forall v, to_view s = Some v -> inside v /\ (fst v <= snd v)%Z)
        /\ (forall k v, get_group s (S k) = Some (Some v) -> inside v)).
Proof.
  intros D p n pre w post _ Hs Hq Hp HD e inside. split.
  - intros fuel H. apply (create_ub _ _ _) with (g := S (fuel + length w)) in H; [|lia].
    destruct (create_two pre post pre post w D n HD HD (q_chars w Hq) (q_len w Hq) Hs Hp Hp (S (fuel + length w)) ltac:(lia)) as (t & t' & A & _).
    unfold e in H. congruence.
  - intros s R. destruct (reach_RR pre post pre post w D n HD HD Hq Hs Hp Hp s R) as (s' & RS & _). conj.
    + intros fuel H. pose proof (RR_room pre post pre w n s s' RS).
      destruct (next_two pre post pre post w D n HD HD (q_chars w Hq) (q_len w Hq) Hs Hp Hp (S (fuel + length w)) s s' RS ltac:(lia)) as (t & t' & A & _).
      assert (next (S (fuel + length w)) e n s = RUB) by (eapply next_loop_ub; [exact H|lia]). unfold e in *. congruence.
    + intros v. destruct RS as (k & i & g & g' & b & -> & _ & B & T & _). unfold to_view, is_accepted, mk. cbn [s_acc s_start s_end].
      destruct b; [|discriminate]. intros [= <-]. specialize (T eq_refl). unfold inside, e. cbn [fst snd].
      rewrite <- at_qb, <- at_qe. unfold at_. lia.
    + intros k v. destruct RS as (k0 & i & g & g' & b & -> & _ & B & T & F & _). unfold get_group, mk. cbn [s_grp].
      intro N. assert (X : exists y, gr1 pre pre w (Some v) y).
      { clear -F N. revert k N. induction F as [|x y g g' H F IH]; intros [|k] N; try discriminate; [injection N as ->; eauto|eauto]. }
      destruct X as [[[c d]|] X]; destruct v as [a b0]; cbn in X; [|tauto]. destruct X as (i0 & j0 & A1 & A2 & -> & -> & _).
      unfold inside, e. cbn [fst snd]. rewrite <- at_qb, <- at_qe. unfold at_. lia.
Qed.
Print Assumptions C19_memory_partial.
Example C19_case : forallb (fun p => match compile (S2L p) with Some n => safe false (ngroups n) n | None => false end)
  ["(\d+)-(\d+)"; "(?:0|1|2){2,7}[^a-f]+?\."; "(\w+)=(\d*);?"; "(?:\d{1,3}\.){3}\d{1,3}"; "[\w.]+@(\w+)\.com|x?y"]%string = true.
Proof. vm_compute. reflexivity. Qed.

(** C20.  Two queries with the same text, in different memory: every result is the same up
    to the distance of the two queries, and so is every further one. *)
Theorem C20_surroundings_partial : forall D p n w pre1 post1 pre2 post2, compile p = Some n -> safe D (ngroups n) n = true ->
  query_ok w -> post1 <> [] -> post2 <> [] ->
  (D = true -> exists c q, post1 = c :: q /\ c <> c_nl) -> (D = true -> exists c q, post2 = c :: q /\ c <> c_nl) ->
  let e1 := env_of pre1 w post1 in
  let e2 := env_of pre2 w post2 in
  let d := (qb e2 - qb e1)%Z in
  (forall fuel, length w < fuel -> create fuel e2 n = shift_rout d (create fuel e1 n))
  /\ (forall s, reach e1 n s -> reach e2 n (shift_st d s)
        /\ forall fuel, length w < fuel -> next fuel e2 n (shift_st d s) = shift_rout d (next fuel e1 n s)).
Proof.
  intros D p n w pre1 post1 pre2 post2 _ Hs Hq H1 H2 X1 X2 e1 e2 d.
  assert (Dd : (d = Z.of_nat (length pre2) - Z.of_nat (length pre1))%Z) by (unfold d, e1, e2; rewrite <- !at_qb; unfold at_; lia).
  rewrite Dd. clearbody d. split.
  - intros fuel Hf. destruct (create_two pre1 post1 pre2 post2 w D n X1 X2 (q_chars w Hq) (q_len w Hq) Hs H1 H2 fuel Hf) as (t & t' & A & B & C).
    unfold e1, e2. rewrite A, B. cbn [shift_rout]. f_equal. eapply RR_shift. exact C.
  - intros s R. destruct (reach_RR pre1 post1 pre2 post2 w D n X1 X2 Hq Hs H1 H2 s R) as (s' & RS & R2).
    rewrite <- (RR_shift _ _ _ _ _ _ RS). split; [exact R2|]. intros fuel Hf. pose proof (RR_room pre1 post1 pre2 w n s s' RS).
    destruct (next_two pre1 post1 pre2 post2 w D n X1 X2 (q_chars w Hq) (q_len w Hq) Hs H1 H2 fuel s s' RS ltac:(lia)) as (t & t' & A & B & C).
    unfold e1, e2. rewrite A, B. cbn [shift_rout]. f_equal. eapply RR_shift. exact C.
Qed.
Print Assumptions C20_surroundings_partial.

(** C35, C12.  The captures of an accepted result are those of the match the specification
    chooses, slot by slot in the order of the opening parentheses, and lie inside the match.
    Missing: patterns without [captures_ok] (false, C12_/C35_..._refuted) or not [supported]. *)
Theorem C35_captures_partial : forall r n pre w post, setting r n w post -> supported r = true -> captures_ok r = true ->
  forall s, reach (env_of pre w post) n s -> is_accepted s = true ->
  groups_of n = length (caps r)
  /\ exists i j l, to_view s = Some (place pre i j) /\ match_at w r i = Some (j, l)
      /\ forall k, k < length (caps r) ->
           get_group s (S k) = Some (match slot k l with Some (a, b) => Some (place pre a b) | None => None end)
           /\ (forall a b, slot k l = Some (a, b) -> i <= a <= b /\ b <= j).
Proof.
  intros r n pre w post (C & Q & P) Hs Hc s R A. rewrite (sup_compile r Hs) in C. injection C as <-.
  split; [exact (ctree_groups r)|].
  assert (X : exists o q, good_result r pre w s o q /\ forall i c, o = Some (i, c) -> match_at w r i = Some c).
  { clear A. induction R as [fuel s H|fuel s s' R IH H].
    - destruct (create_found r pre w post Hs Q P (S (fuel + length w)) ltac:(lia)) as (s2 & E & GR).
      apply (create_more _ _ _ (S (fuel + length w))) in H; [|lia]. rewrite H in E. injection E as ->.
      exists (search w r 0), 0. split; [exact GR|]. intros i c S. apply search_some in S. tauto.
    - destruct IH as (o & q & (_ & _ & (q2 & E2 & B2 & _) & _) & _).
      destruct (next_found r pre w post Hs Q P (S (fuel + length w)) s q2 E2 ltac:(lia) ltac:(lia)) as (s2 & E & GR).
      apply (next_more _ _ _ (S (fuel + length w))) in H; [|lia]. rewrite H in E. injection E as ->.
      exists (search_from w r (length w - q2) q2), q2. split; [exact GR|]. intros i c S. apply search_from_some in S. tauto. }
  destruct X as (o & q & (SH & _ & _ & CA & _) & M). specialize (CA Hc). unfold shows in SH.
  destruct o as [[i [j l]]|]; [|unfold to_view in SH; rewrite A in SH; discriminate].
  exists i, j, l. split; [exact SH|]. specialize (M i (j, l) eq_refl). split; [exact M|]. intros k Hk. split; [exact (CA k Hk)|].
  intros a b. apply (match_at_slot w r i j l k a b M).
Qed.
Print Assumptions C35_captures_partial.
(** The same for all exact patterns in which every match fills every slot. *)
Theorem C35_captures_exact_partial : forall r n pre w post, setting r n w post -> exact r = true ->
  nats_eqb (caps (renumber r)) (caps r) && gex (ctree r) && covers r = true ->
  forall s, reach (env_of pre w post) n s -> is_accepted s = true ->
  groups_of n = length (caps r)
  /\ exists i j l, to_view s = Some (place pre i j) /\ match_at w r i = Some (j, l)
      /\ forall k, k < length (caps r) -> exists a b, slot k l = Some (a, b)
           /\ get_group s (S k) = Some (Some (place pre a b)) /\ i <= a <= b /\ b <= j.
Proof.
  intros r n pre w post (C & Q & P) He Hc s R A. rewrite (exact_compile r He) in C. injection C as <-.
  split; [exact (ctree_groups r)|]. destruct (reach_sound r pre w post He Q P s R) as [X _].
  destruct (X A) as (i & j & l & V & _ & B1 & B2 & M & CA). specialize (CA Hc). exists i, j, l. split; [exact V|]. split; [exact M|].
  intros k Hk. specialize (CA k Hk). rewrite !andb_true_iff in Hc. pose proof (covers_slots w r i (j, l) (proj2 Hc) M k Hk) as SL. cbn in SL.
  destruct (slot k l) as [[a b]|] eqn:S; [|congruence]. exists a, b. conj; auto; apply (match_at_slot w r i j l k a b M S).
Qed.
Print Assumptions C35_captures_exact_partial.

(** C12.  Captures are numbered by opening parenthesis ([numbered r]: the slots of r are
    written 0, 1, 2, ... in that order): different groups use different slots, and result[k+1]
    is the text matched by the k-th opening parenthesis.  Missing: as for C35; in particular
    a class or a (?:...) before a group can make two groups share a slot. *)
Theorem C12_numbering_partial : forall r n pre w post, setting r n w post -> numbered r ->
  supported r = true -> captures_ok r = true ->
  NoDup (gidx n) /\ gidx n = seq 0 (length (caps r)) /\
  forall s, reach (env_of pre w post) n s -> is_accepted s = true ->
  exists i j l, to_view s = Some (place pre i j) /\ match_at w r i = Some (j, l)
      /\ forall k, k < length (caps r) ->
           get_group s (S k) = Some (match slot (nth k (caps r) 0) l with Some (a, b) => Some (place pre a b) | None => None end).
Proof.
  intros r n pre w post St NU Hs Hc.
  assert (GI : gidx n = caps r).
  { destruct St as (C & _). rewrite (sup_compile r Hs) in C. injection C as <-. unfold ctree. rewrite optimize_gidx.
    cbn [tree gidx]. rewrite (proj1 gidx_tree). unfold captures_ok in Hc. rewrite !andb_true_iff in Hc. destruct Hc as [[C1 _] _].
    now apply nats_eqb_eq in C1. }
  unfold numbered in NU. rewrite GI, NU. conj.
  - apply seq_NoDup.
  - now rewrite seq_length.
  - intros s R A. destruct (C35_captures_partial r n pre w post St Hs Hc s R A) as (_ & i & j & l & V & M & X).
    exists i, j, l. conj; auto. rewrite seq_length. intros k Hk. rewrite seq_nth by lia. exact (proj1 (X k Hk)).
Qed.
Print Assumptions C12_numbering_partial.
Example C12_case : numbered r_range /\ captures_ok r_range = true /\ supported r_range = true
  /\ exists n s, compile (show r_range) = Some n /\ create 20 (env_of [] (S2L "on 12-345") [0%Z]) n = RDone s
  /\ get_group s 1 = Some (Some (3, 5)%Z) /\ get_group s 2 = Some (Some (6, 9)%Z).
Proof.
  unfold numbered. conj; try (vm_compute; reflexivity).
  set (n := node_of (show r_range)). exists n, (st_of (create 20 (env_of [] (S2L "on 12-345") [0%Z]) n)). conj; vm_compute; reflexivity.
Qed.

(** C36.  A result that is not accepted shows no captures: for supported patterns in which no
    failed attempt leaves a capture behind ([gcl]), and for every pattern when next() is
    called at the end of the query.  Missing: other patterns (false, C36_..._refuted). *)
Theorem C36_failed_captures_partial : forall r n pre w post, setting r n w post -> supported r = true -> gcl (ctree r) = true ->
  forall s, reach (env_of pre w post) n s -> is_accepted s = false ->
  to_view s = None /\ forall k v, get_group s (S k) = Some v -> v = None.
Proof.
  intros r n pre w post (C & Q & P) Hs Hc s R A. rewrite (sup_compile r Hs) in C. injection C as <-.
  split; [unfold to_view; now rewrite A|].
  assert (X : s_grp s = no_groups (ctree r)).
  { destruct R as [fuel s H|fuel s s' R H].
    - destruct (create_found r pre w post Hs Q P (S (fuel + length w)) ltac:(lia)) as (s2 & E & GR).
      apply (create_more _ _ _ (S (fuel + length w))) in H; [|lia]. rewrite H in E. injection E as ->. now apply GR.
    - destruct (reach_place r pre w post Hs Q P s R) as (q2 & E2 & B2 & _).
      destruct (next_found r pre w post Hs Q P (S (fuel + length w)) s q2 E2 ltac:(lia) ltac:(lia)) as (s2 & E & GR).
      apply (next_more _ _ _ (S (fuel + length w))) in H; [|lia]. rewrite H in E. injection E as ->. now apply GR. }
  intros k v. cbn [get_group]. rewrite X. unfold no_groups. intro N. apply nth_error_In, repeat_spec in N. exact N.
Qed.
Print Assumptions C36_failed_captures_partial.
Definition r_xd : rx := pat [(lit "x", Q1); (ACap 0 (pat [(digits, plus)]), Q1)].
Example C36_case : show r_xd = S2L "x(\d+)" /\ supported r_xd = true /\ gcl (ctree r_xd) = true
  /\ exists n s, compile (show r_xd) = Some n /\ create 20 (env_of [] (S2L "x12y") [0%Z]) n = RDone s
  /\ is_accepted s = true /\ get_group s 1 = Some (Some (1, 3)%Z)
  /\ exists s', next 20 (env_of [] (S2L "x12y") [0%Z]) n s = RDone s' /\ is_accepted s' = false.
Proof.
  conj; try (vm_compute; reflexivity). set (n := node_of (show r_xd)). set (e := env_of [] (S2L "x12y") [0%Z]).
  exists n, (st_of (create 20 e n)). conj; try (vm_compute; reflexivity).
  exists (st_of (next 20 e n (st_of (create 20 e n)))). conj; vm_compute; reflexivity.
Qed.

(** C31, second part: for exact patterns that do not match the empty text, calling next()
    until it fails takes at most as many calls as the query has characters. *)
Theorem C31_runs_out_partial : forall r n pre w post, setting r n w post -> exact r = true -> (forall i, ~ lang w r i i) ->
  exists s l, create (default_fuel w) (env_of pre w post) n = RDone s
    /\ visits (env_of pre w post) n s l /\ length l <= length w.
Proof.
  intros r n pre w post (C & Q & P) He NE. rewrite (exact_compile r He) in C. injection C as <-.
  assert (GO : forall m q s, length w - q < m -> q <= S (length w) -> s_end s = at_ pre q -> is_accepted s = true ->
    exists l, visits (env_of pre w post) (ctree r) s (to_view s :: l) /\ length l <= length w - q).
  { induction m as [|m IH]; intros q s Hm Hq E A; [lia|].
    destruct (next_sound r pre w post He Q P (S (length w)) s q E Hq ltac:(lia)) as (s' & N & X & _).
    destruct (is_accepted s') eqn:A'.
    - destruct (X eq_refl) as (p & j & l & V & E' & B1 & B2 & M & _).
      pose proof (match_at_lang w r p (j, l) (proj1 (exact_parts r He)) M) as Lg. cbn in Lg.
      assert (p <> j) by (intros ->; exact (NE j Lg)).
      destruct (IH j s' ltac:(lia) ltac:(lia) E' A') as (l' & V' & Ll). exists (to_view s' :: l'). split; [|cbn; lia].
      eapply VisitGo; eauto.
    - exists []. split; [|cbn; lia]. eapply VisitGo; eauto. now apply VisitStop. }
  destruct (create_sound r pre w post He Q P (default_fuel w) (Nat.lt_succ_diag_r _)) as (s & E & [X _] & _).
  exists s. destruct (is_accepted s) eqn:A.
  - destruct (X eq_refl) as (p & j & l & V & E' & B1 & B2 & M & _).
    pose proof (match_at_lang w r p (j, l) (proj1 (exact_parts r He)) M) as Lg. cbn in Lg.
    assert (p <> j) by (intros ->; exact (NE j Lg)).
    destruct (GO (S (length w)) j s ltac:(lia) ltac:(lia) E' A) as (l' & V' & Ll). exists (to_view s :: l'). conj; auto. cbn. lia.
  - exists []. conj; auto; [now apply VisitStop|cbn; lia].
Qed.
Print Assumptions C31_runs_out_partial.
Example C31_case : exact r_exact = true /\ forall w i, ~ lang w r_exact i i.
Proof.
  split; [vm_compute; reflexivity|]. intros w i L. apply (proj1 (lang_min w)) in L; [|vm_compute; reflexivity].
  change (minl (map nmin (tree_bs r_exact))) with 3%N in L. lia.
Qed.
