(** C56: patterns that can be matched by looking at one character (SpecLL.v).  The conditions
    are on the pattern as written; the matches are described by the language alone. *)
From Coq Require Import String ZArith NArith List Bool Lia.
From Verif Require Import Base Text Ast Builder BuilderProofs Engine Api ApiProofs Spec Tree SpecProofs SpecEnd Den Checker Captures Supported Main Find Sound Refuted PropertiesMatch PropertiesSafe SpecFields SpecChoice SpecLL LL LLCap LLSem.
Import ListNotations.
Open Scope nat_scope.

(** C56.  If every repetition and every alternative inside of a group can be decided by the next
    character and the pattern opens with a single character: create() reports the leftmost text
    of the language, and of those that begin there the longest one (with | on the outside, the
    longest one of the first branch that has one); next() and range-for report one after the
    other, all of them, each time the leftmost longest text from the end of the last one on.
    Missing: other patterns (false, C56_lookahead_refuted). *)
Theorem C56_search_partial : forall r pre w post, wf r = true -> nopos r = true -> one_look r = true -> opens r = true ->
  query_ok w -> post <> [] ->
  exists n s l, compile (show r) = Some n
  /\ create (default_fuel w) (env_of pre w post) n = RDone s
  /\ all_taken w r 0 l
  /\ to_view s = match l with (i, j) :: _ => Some (place pre i j) | [] => None end
  /\ visits (env_of pre w post) n s (map (fun x => Some (place pre (fst x) (snd x))) l)
  /\ (forall res, exists steps fuel, range_for steps fuel (env_of pre w post) n res = Some (map (fun x => Some (place pre (fst x) (snd x))) l)).
Proof.
  intros r pre w post W N H O Q P. pose proof (look_supported r W H O) as S. pose proof (proj1 Q) as Hw.
  assert (NE : forall i c, i <= length w -> match_at w r i = Some c -> i < fst c).
  { intros i c Hi M. pose proof (top_taken w Hw r W N H i Hi) as X. rewrite M in X. apply X. }
  destruct (create_visits r pre w post S Q P NE) as (s & E & V).
  exists (ctree r), s, (find_all w r (Datatypes.S (length w)) 0). split; [exact (sup_compile r S)|]. split; [exact E|]. split; [apply top_all_taken; auto; lia|]. split; [|split; [exact V|]].
  - destruct (create_found r pre w post S Q P (default_fuel w) (Nat.lt_succ_diag_r _)) as (s2 & E2 & SH & _). change (create (Datatypes.S (length w)) (env_of pre w post) (ctree r) = RDone s2) in E2. rewrite E in E2. injection E2 as <-. unfold shows in SH. rewrite SH. cbn [find_all]. destruct (search w r 0) as [[i [j l]]|]; reflexivity.
  - intro res. apply range_for_iff. exists (Datatypes.S (length w)), s. auto.
Qed.
Print Assumptions C56_search_partial.
(** The list is determined by the language. *)
Lemma taken_unique w r i j j' : taken w r i j -> taken w r i j' -> j = j'.
Proof.
  induction r as [b|b r IH]; cbn [taken].
  - intros [A B] [A' B']. specialize (B _ A'). specialize (B' _ A). lia.
  - intros [[A B]|[A B]] [[A' B']|[A' B']]; [specialize (B _ A'); specialize (B' _ A); lia|now elim (A' j)|now elim (A j')|now apply IH].
Qed.
Lemma taken_lang w r i j : taken w r i j -> lang w r i j.
Proof. induction r as [b|b r IH]; cbn [taken lang]; [intros [A _]; exact A|]. intros [[A _]|[_ A]]; auto. Qed.
Theorem C56_unique : forall w r i l l', all_taken w r i l -> all_taken w r i l' -> l = l'.
Proof.
  intros w r i l l' H. revert l'. induction H as [i N|i k j l B T L H IH]; intros l' H'.
  - inversion H' as [|i' k j l B T]; subst; [reflexivity|]. elim (N k j B). now apply taken_lang.
  - inversion H' as [i' N'|i' k' j' m B' T' L' H'']; subst; [elim (N' k j B); now apply taken_lang|].
    assert (k = k') as <-. { destruct (Nat.lt_trichotomy k k') as [X|[X|X]]; [|exact X|]; [elim (L' k j ltac:(lia))|elim (L k' j' ltac:(lia))]; now apply taken_lang. }
    assert (j = j') as <- by exact (taken_unique w r k j j' T T'). f_equal. now apply IH.
Qed.
Print Assumptions C56_unique.

(** C56, without the condition on the opening: whatever is reported is the longest text of the
    first branch that has one at that place; and if a text of the language begins with the
    query, it is reported.  Missing: as above; texts elsewhere may be overlooked. *)
Theorem C56_report_partial : forall r pre w post, wf r = true -> nopos r = true -> one_look r = true -> query_ok w -> post <> [] ->
  exists n s, compile (show r) = Some n /\ create (default_fuel w) (env_of pre w post) n = RDone s
  /\ (forall s', reach (env_of pre w post) n s' -> is_accepted s' = true ->
        exists i j, to_view s' = Some (place pre i j) /\ i <= length w /\ taken w r i j)
  /\ (forall j, taken w r 0 j -> to_view s = Some (place pre 0 j)).
Proof.
  intros r pre w post W N H Q P. pose proof (look_exact r W H) as Ex. pose proof (proj1 Q) as Hw. pose proof (exact_compile r Ex) as C.
  destruct (create_sound r pre w post Ex Q P (default_fuel w) (Nat.lt_succ_diag_r _)) as (s & E & _ & X).
  exists (ctree r), s. split; [exact C|]. split; [exact E|]. split.
  - intros s' R A. destruct (reach_sound r pre w post Ex Q P s' R) as [Y _]. destruct (Y A) as (i & j & l & V & _ & B1 & B2 & M & _). exists i, j. split; [exact V|]. split; [lia|].
    pose proof (top_taken w Hw r W N H i ltac:(lia)) as Z. rewrite M in Z. apply Z.
  - intros j T. pose proof (top_taken w Hw r W N H 0 (Nat.le_0_l _)) as Z. destruct (match_at w r 0) as [c|] eqn:M; [|elim (Z j); now apply taken_lang].
    destruct Z as (Z & _). rewrite (taken_unique w r 0 j (fst c) T Z). now apply X.
Qed.
Print Assumptions C56_report_partial.

(** C56, captures: there is only one way to divide the reported text along the pattern, and
    result[k+1] is its k-th captured part.  Missing: captures inside of repetitions,
    alternatives or other captures. *)
Theorem C56_captures_partial : forall a s n pre w post, let r := ROne (Br a s) in wf r = true -> nopos r = true -> one_look r = true -> catches r = true ->
  setting r n w post -> forall t, reach (env_of pre w post) n t -> is_accepted t = true ->
  groups_of n = length (caps r)
  /\ exists i j l, to_view t = Some (place pre i j) /\ longest w (Br a s) i j
     /\ length l = length (caps r) /\ splits w s i j l /\ (forall l', splits w s i j l' -> l' = l)
     /\ forall k v, nth_error l k = Some v -> get_group t (S k) = Some (Some (place pre (fst v) (snd v))).
Proof.
  intros a s n pre w post r W N H C St t R A. pose proof (look_exact r W H) as Ex. pose proof (look_captures r W H C) as Co.
  destruct (C35_captures_exact_partial r n pre w post St Ex Co t R A) as (G & i & j & l & V & M & K). split; [exact G|].
  destruct St as (Cm & Q & P). pose proof (proj1 Q) as Hw.
  assert (Hi : i <= length w).
  { rewrite (exact_compile r Ex) in Cm. injection Cm as <-. destruct (reach_sound r pre w post Ex Q P t R) as [Y _]. destruct (Y A) as (i' & j' & l' & V' & _ & B1 & B2 & M' & _). rewrite V in V'. injection V' as V1 V2. lia. }
  pose proof (top_taken w Hw r W N H i Hi) as Z. rewrite M in Z. cbn [fst] in Z. destruct Z as (Z & _ & Z2).
  assert (Ws : wf_sq s = true) by (cbn [r wf wf_br] in W; destruct s; [reflexivity|exact W]).
  assert (IN : In (j, l) (sem_sq w s (i, []))).
  { unfold match_at in M. assert (IN : In (j, l) (sem w r (i, []))) by (destruct (sem w r (i, [])); [discriminate M|injection M as ->; now left]). change (sem w r) with (sem_br w (Br a s)) in IN. cbn [sem_br] in IN. destruct a; [|exact IN]. unfold seq_o, bol_o in IN. cbn [fst] in IN. destruct (Nat.eqb i 0); [|destruct IN]. cbn [flat_map] in IN. now rewrite app_nil_r in IN. }
  destruct (caught_splits w Hw s 0 (i, []) (j, l) Ws C IN) as (d & D1 & D2 & D3). cbn [fst snd] in *.
  exists i, j, d. split; [exact V|]. split; [exact Z|]. split; [exact D2|]. split; [exact D1|]. split.
  - intros l' D'. unfold r in H, N. cbn [one_look top_br nopos nopos_br] in H, N. apply andb_true_iff in H as [_ H]. exact (splits_unique w Hw s none none i j l' d Ws N H Hi D' D1).
  - intros k v E. assert (Hk : k < length (caps r)) by (change (length (caps r)) with (length (caps_sq s)); rewrite <- D2; apply nth_error_Some; congruence).
    destruct (K k Hk) as (x & y & S1 & S2 & _). specialize (D3 k). rewrite E in D3. cbn [Nat.add] in D3. rewrite S1 in D3. injection D3 as <-. exact S2.
Qed.
Print Assumptions C56_captures_partial.

(** Concrete cases: a(?:b(?:c|d)?)*e, and a date #(\d{4})-(\d{2}). *)
Definition chs (s : string) : list (atom * quant) := map (fun c => (AEl (ELit c), Q1)) (S2L s).
Definition or2 (x y : list (atom * quant)) : rx := ROr (Br false (seqs x)) (ROne (Br false (seqs y))).
Definition star : quant := QQ QStar Gr.
Definition opt : quant := QQ QOpt Gr.
Definition r_nest : rx := pat [(lit "a", Q1); (ANon (pat [(lit "b", Q1); (ANon (or2 (chs "c") (chs "d")), opt)]), star); (lit "e", Q1)].
Definition num (z : Z) : quant := QQ (QExact [z]) Gr.
Definition r_date : rx := pat [(lit "#", Q1); (ACap 0 (pat [(digits, num 4)]), Q1); (lit "-", Q1); (ACap 1 (pat [(digits, num 2)]), Q1)].
Example C56_search_case : wf r_nest = true /\ nopos r_nest = true /\ one_look r_nest = true /\ opens r_nest = true
  /\ show r_nest = S2L "a(?:b(?:c|d)?)*e" /\ all_taken (S2L "abx abbcbde ae") r_nest 0 [(4, 11); (12, 14)]
  /\ exists steps fuel, range_for steps fuel (env_of [] (S2L "abx abbcbde ae") [0%Z]) (node_of (show r_nest)) (mkSt 0 0 [] false)
     = Some [Some (place [] 4 11); Some (place [] 12 14)].
Proof.
  conj; try (vm_compute; reflexivity).
  - pose proof (top_all_taken (S2L "abx abbcbde ae") eq_refl r_nest eq_refl eq_refl eq_refl 15 0 ltac:(vm_compute; lia) ltac:(vm_compute; lia)) as X.
    assert (E : find_all (S2L "abx abbcbde ae") r_nest 15 0 = [(4, 11); (12, 14)]) by (vm_compute; reflexivity). rewrite E in X. exact X.
  - exists 9, 20. vm_compute. reflexivity.
Qed.
Example C56_captures_case : wf r_date = true /\ nopos r_date = true /\ one_look r_date = true /\ catches r_date = true
  /\ show r_date = S2L "#(\d{4})-(\d{2})" /\ exists s, create 30 (env_of [] (S2L "on #2024-11 x") [0%Z]) (node_of (show r_date)) = RDone s
  /\ is_accepted s = true /\ get_group s 1 = Some (Some (place [] 4 8)) /\ get_group s 2 = Some (Some (place [] 9 11)).
Proof. conj; try (vm_compute; reflexivity). eexists. conj; vm_compute; reflexivity. Qed.

(** When one character does not decide: the language of (?:x|xy)z has "xyz"; the search in
    "xyz" fails. *)
Definition r_two : rx := pat [(ANon (or2 (chs "x") (chs "xy")), Q1); (lit "z", Q1)].
Theorem C56_lookahead_refuted : exists r w n s, wf r = true /\ nopos r = true /\ opens r = true /\ one_look r = false
  /\ show r = S2L "(?:x|xy)z" /\ compile (show r) = Some n /\ lang w r 0 (length w)
  /\ create (default_fuel w) (env_of [] w [0%Z]) n = RDone s /\ to_view s = None.
Proof.
  exists r_two, (S2L "xyz"), (node_of (show r_two)), (st_of (create 4 (env_of [] (S2L "xyz") [0%Z]) (node_of (show r_two)))).
  conj; try (vm_compute; reflexivity).
  apply (match_at_lang (S2L "xyz") r_two 0 (3, []) eq_refl). vm_compute. reflexivity.
Qed.
Print Assumptions C56_lookahead_refuted.
