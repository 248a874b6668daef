(** C54: of several ways to divide the text, the preferred one is chosen (SpecChoice.v). *)
From Coq Require Import String ZArith NArith List Bool Lia ZifyBool ZifyNat ZifyN.
From Verif Require Import Base Text Ast Builder BuilderProofs Engine Api ApiProofs Spec Tree SpecProofs Den Checker Supported Main Find Anchor End EndD Refuted PropertiesMatch PropertiesEnd Sound PropertiesSafe SpecFields SpecChoice Fields FieldsPre ChoiceSem Choice.
Import ListNotations.
Open Scope Z_scope.

(** At most one division is preferred to all others. *)
Lemma before_len cs : forall p q, length p = length cs -> length q = length cs -> before cs p q -> before cs q p -> map (@length chr) p = map (@length chr) q.
Proof.
  induction cs as [|c cs IH]; intros [|u p] [|v q] Hp Hq A B; try discriminate; [reflexivity|]. cbn [before] in A, B. cbn [map].
  assert (length u = length v /\ before cs p q /\ before cs q p) as (E & X & Y) by (destruct (ch_lazy c); lia || (destruct A as [A|[A1 A2]], B as [B|[B1 B2]]; try lia; auto)).
  f_equal; [exact E|]. apply IH; auto.
Qed.
Lemma same_lens (p : list str) : forall q, map (@length chr) p = map (@length chr) q -> concat p = concat q -> p = q.
Proof.
  induction p as [|u p IH]; intros [|v q] H E; try discriminate; [reflexivity|]. cbn [map concat] in *. injection H as H1 H2.
  assert (u = v /\ concat p = concat q) as [-> X].
  { clear -H1 E. revert v H1 E. induction u as [|x u IH]; intros [|y v] H1 E; try discriminate; [auto|]. cbn in *. injection E as -> E. destruct (IH v ltac:(lia) E) as [-> ->]. auto. }
  f_equal. now apply IH.
Qed.
Lemma divides_len fs parts w : divides fs parts w -> length parts = length fs.
Proof. intros [H _]. induction H; cbn; [reflexivity|now f_equal]. Qed.
Lemma lens_concat (p : list str) : forall q, map (@length chr) p = map (@length chr) q -> length (concat p) = length (concat q).
Proof. induction p as [|u p IH]; intros [|v q] H; try discriminate; [reflexivity|]. cbn [map concat] in *. injection H as H1 H2. rewrite !app_length, H1. now rewrite (IH q H2). Qed.
Theorem C54_unique : forall cs u p q, best_front cs u p -> best_front cs u q -> p = q.
Proof.
  intros cs u p q [(k & Hk & D) Bp] [(m & Hm & D') Bq]. pose proof (divides_len _ _ _ D) as L1. pose proof (divides_len _ _ _ D') as L2. unfold fields in L1, L2. rewrite map_length in L1, L2.
  pose proof (before_len cs p q L1 L2 (Bp m q Hm D') (Bq k p Hk D)) as X. apply (same_lens p q X). destruct D as [_ D], D' as [_ D']. pose proof (lens_concat p q X) as Y.
  rewrite D, D', !firstn_length in Y. rewrite D, D'. f_equal. lia.
Qed.
Print Assumptions C54_unique.

(** C54.  The pattern ^ fields $ accepts a text without line feeds exactly if it can be divided
    into the fields; the captures are those of the division that is preferred: the first field
    as long as possible (if lazy: as short as possible), then the second, and so on.  The fields
    may overlap, as in ^(.+)\.(\w+)$ or ^(.+?)=(.+)$. *)
Theorem C54_choice_partial : forall cs pre w post, choice_ok true cs = true ->
  query_ok w -> ~ In 10 w -> (exists c p, post = c :: p /\ c <> 10) ->
  exists n s, compile ([94] ++ show_choices cs ++ [36]) = Some n
  /\ groups_of n = length (filter f_cap (fields cs))
  /\ create (default_fuel w) (env_of pre w post) n = RDone s
  /\ (is_accepted s = true <-> exists parts, divides (fields cs) parts w)
  /\ (is_accepted s = true ->
      exists parts, divides (fields cs) parts w /\ (forall q, divides (fields cs) q w -> before cs parts q)
        /\ to_view s = Some (place pre 0 (length w))
        /\ length (spans (fields cs) parts 0) = groups_of n
        /\ forall k a b, nth_error (spans (fields cs) parts 0) k = Some (a, b) -> get_group s (S k) = Some (Some (place pre a b))).
Proof.
  intros cs pre w post H Q NL P. destruct (choice_parts true cs H) as (F & Gp & C & O & N). destruct (crx_exact_d cs H) as (Ex & Gx & Gr).
  assert (W : wf (crx true cs) = true) by now apply wf_crx.
  assert (SH : show_d (crx true cs) = [94] ++ show_choices cs ++ [36]) by (unfold crx; cbn [show_d show_br]; rewrite show_csq by exact F; reflexivity).
  pose proof (compile_d _ W) as CO. rewrite SH in CO.
  assert (ST : setting_d (crx true cs) (ctree_d (crx true cs)) w post) by (split; [now rewrite SH|]; split; [exact Q|exact P]).
  destruct (C47_validate_partial _ _ pre w post Ex ST) as (SND & V & s & CR). destruct (V (nopos_crx true cs) NL s CR) as [V1 V2]. specialize (V2 eq_refl).
  pose proof (crx_match_d w cs F NL) as MD.
  assert (ACC : is_accepted s = true -> exists parts, divides (fields cs) parts w /\ (forall q, divides (fields cs) q w -> before cs parts q)
        /\ to_view s = Some (place pre 0 (length w)) /\ length (spans (fields cs) parts 0) = ccap cs
        /\ forall k a b, nth_error (spans (fields cs) parts 0) k = Some (a, b) -> get_group s (Datatypes.S k) = Some (Some (place pre a b))).
  { intro A. destruct (C35_validate_captures_partial (crx true cs) _ pre w post s Ex ST) as (i & j & l & TV & M & SL); auto using crx_covers.
    - rewrite (renumber_crx true cs C). rewrite crx_caps. clear. generalize (seq 0 (ccap cs)). induction l as [|x l IH]; cbn; [reflexivity|]. now rewrite Nat.eqb_refl, IH.
    - exact (ReachCreate _ _ _ _ CR).
    - pose proof (V1 (proj1 V2 A)) as LG. rewrite LG in TV. unfold place in TV. assert (i = 0 /\ j = length w)%nat as [-> ->] by (injection TV; lia).
      rewrite M in MD. destruct MD as (p & D & _ & B & Ls & ->). exists p. conj; auto. intros k a b Hk.
      assert (Kl : (k < ccap cs)%nat) by (rewrite <- Ls; apply nth_error_Some; congruence). destruct (SL k) as (a' & b' & E1 & E2); [rewrite crx_caps, seq_length; exact Kl|].
      pose proof (slot_rev _ 0%nat (ccap cs) k (a, b) Ls Hk []) as X. rewrite app_nil_r in X. change (0 + k)%nat with k in X. unfold clogs in E1. rewrite X in E1. injection E1 as <- <-. exact E2. }
  assert (GR : groups_of (ctree_d (crx true cs)) = ccap cs) by exact Gr.
  exists (ctree_d (crx true cs)), s. split; [exact CO|]. split; [exact GR|]. split; [exact CR|]. split.
  - split; [intro A; destruct (ACC A) as (parts & D & _); eauto|]. intros (parts & D). apply V2.
    destruct (match_at_d w (crx true cs) 0) as [[j l]|] eqn:M; [|now elim (MD parts)]. destruct (match_d_lang w (crx true cs) 0 j l W ltac:(lia) M) as (k & K1 & LE & _).
    destruct MD as (p & _ & -> & _). destruct LE as [[-> _]|[LE _]]; [exact K1|]. exfalso. apply NL. apply nth_error_In in LE. exact LE.
  - intro A. rewrite GR. now apply ACC.
Qed.
Print Assumptions C54_choice_partial.
(** A file name with its extension (greedy), and a name with a value (lazy). *)
Definition gr (cap : bool) (x : elem) (a : amount) : choice := Ch (Fld cap x a) false.
Definition lz (cap : bool) (x : elem) (a : amount) : choice := Ch (Fld cap x a) true.
Definition file_fields : list choice := [gr true EDot Star; gr false (EEsc 46) One; gr true (EEsc 119) Plus].
Example C54_case : choice_ok true file_fields = true /\ show_choices file_fields = S2L "(.*)\.(\w+)"
  /\ divides (fields file_fields) [S2L "a.tar"; S2L "."; S2L "gz"] (S2L "a.tar.gz")
  /\ spans (fields file_fields) [S2L "a.tar"; S2L "."; S2L "gz"] 0 = [(0, 5); (6, 8)]%nat
  /\ (let s := st_of (create 20 (env_of [] (S2L "a.tar.gz") [0]) (node_of (S2L "^(.*)\.(\w+)$"))) in
      is_accepted s = true /\ get_group s 1 = Some (Some (0, 5)) /\ get_group s 2 = Some (Some (6, 8))).
Proof.
  split; [vm_compute; reflexivity|]. split; [vm_compute; reflexivity|]. split; [|split; [|split; [|split]]; vm_compute; reflexivity].
  split; [|vm_compute; reflexivity]. vm_compute. repeat (constructor; [split; [repeat constructor|first [reflexivity|discriminate|exact Logic.I]]|]). constructor.
Qed.
Definition pair_fields : list choice := [lz true EDot Star; gr false (ELit 61) One; gr true EDot Star].
Example C54_case2 : choice_ok true pair_fields = true /\ show_choices pair_fields = S2L "(.*?)=(.*)"
  /\ before pair_fields [S2L "a"; S2L "="; S2L "b=c"] [S2L "a=b"; S2L "="; S2L "c"]
  /\ ~ before pair_fields [S2L "a=b"; S2L "="; S2L "c"] [S2L "a"; S2L "="; S2L "b=c"]
  /\ (let s := st_of (create 20 (env_of [] (S2L "a=b=c") [0]) (node_of (S2L "^(.*?)=(.*)$"))) in
      is_accepted s = true /\ get_group s 1 = Some (Some (0, 1)) /\ get_group s 2 = Some (Some (2, 5))).
Proof.
  split; [vm_compute; reflexivity|]. split; [vm_compute; reflexivity|]. split; [left; vm_compute; lia|]. split; [|split; [|split]; vm_compute; reflexivity].
  cbn [before pair_fields lz gr ch_lazy]. vm_compute. lia.
Qed.
(** More of them. *)
Example C54_case3 :
  let comma := gr false (ELit 44) One in let word s := map (fun c => gr false (ELit c) One) (S2L s) in
  let a := [gr true EDot Star; comma; gr true EDot Star; comma; gr true EDot Star] in
  let b := [gr true EDot Plus] ++ word "@"%string ++ [gr true EDot Plus; gr false (EEsc 46) One] ++ word "com"%string in
  let c := word "<"%string ++ [lz true EDot Star] ++ word ">"%string ++ [gr true EDot Star] in
  choice_ok true a = true /\ show_choices a = S2L "(.*),(.*),(.*)"
  /\ choice_ok true b = true /\ show_choices b = S2L "(.+)@(.+)\.com"
  /\ choice_ok true c = true /\ show_choices c = S2L "<(.*?)>(.*)".
Proof. intros comma word a b c. conj; vm_compute; reflexivity. Qed.
(** Outside of [run_ok]: [^.*(a)b] does not match "abac" -- after the group
    has taken the second a and the b is missing, the position is not restored. *)
Theorem C54_choice_refuted : exists cs w n s,
  forallb (fun c => field_elem (f_el (ch_f c)) && amount_ok (f_am (ch_f c))) cs = true /\ counted false (fields cs) = true /\ starts cs = true /\ last_run false (List.last cs (gr false EDot One)) = true
  /\ divides (fields cs) [[]; [97]; [98]] (firstn 2 w)
  /\ compile ([94] ++ show_choices cs) = Some n /\ create (default_fuel w) (env_of [] w [0]) n = RDone s /\ is_accepted s = false.
Proof.
  exists [gr false EDot Star; gr true (ELit 97) One; gr false (ELit 98) One], (S2L "abac"), (node_of (S2L "^.*(a)b")), (st_of (create 9 (env_of [] (S2L "abac") [0]) (node_of (S2L "^.*(a)b")))).
  split; [vm_compute; reflexivity|]. split; [vm_compute; reflexivity|]. split; [vm_compute; reflexivity|]. split; [vm_compute; reflexivity|].
  split; [|split; [|split]; vm_compute; reflexivity]. split; [|reflexivity]. repeat (constructor; [split; [repeat constructor|first [reflexivity|exact Logic.I]]|]). constructor.
Qed.
Print Assumptions C54_choice_refuted.

(** ... without $: the match is the preferred division of a front of the text (line feeds do not
    matter), and there is a match exactly if a front can be divided. *)
Theorem C54_prefix_partial : forall cs pre w post, choice_ok false cs = true -> query_ok w -> post <> [] ->
  exists n s, compile ([94] ++ show_choices cs) = Some n
  /\ groups_of n = length (filter f_cap (fields cs))
  /\ create (default_fuel w) (env_of pre w post) n = RDone s
  /\ (is_accepted s = true <-> exists k parts, (k <= length w)%nat /\ divides (fields cs) parts (firstn k w))
  /\ (is_accepted s = true ->
      exists parts, best_front cs w parts /\ to_view s = Some (place pre 0 (length (concat parts)))
        /\ length (spans (fields cs) parts 0) = groups_of n
        /\ forall k a b, nth_error (spans (fields cs) parts 0) k = Some (a, b) -> get_group s (S k) = Some (Some (place pre a b))).
Proof.
  intros cs pre w post H Q P. destruct (choice_parts false cs H) as (F & Gp & C & O & N). destruct (crx_exact true cs H eq_refl) as (Ex & Gx & Gr).
  assert (SH : show (crx true cs) = [94] ++ show_choices cs) by (unfold crx; cbn [show show_br]; rewrite show_csq by exact F; reflexivity).
  pose proof (exact_compile _ Ex) as CO. rewrite SH in CO.
  assert (ST : setting (crx true cs) (ctree (crx true cs)) w post) by (split; [now rewrite SH|]; split; [exact Q|exact P]).
  destruct (create_sound (crx true cs) pre w post Ex Q P (default_fuel w) (Nat.lt_succ_diag_r _)) as (s & CR & R & M).
  pose proof (crx_match w cs 0 F (Nat.le_0_l _)) as FM. cbn [skipn] in FM. rewrite match_crx in M.
  assert (CV : nats_eqb (caps (renumber (crx true cs))) (caps (crx true cs)) && gex (ctree (crx true cs)) && covers (crx true cs) = true).
  { rewrite Gx, (renumber_crx true cs C), crx_covers, crx_caps. clear. rewrite !andb_true_r. generalize (seq 0 (ccap cs)). induction l as [|x l IH]; cbn; [reflexivity|]. now rewrite Nat.eqb_refl, IH. }
  assert (ACC : is_accepted s = true -> exists parts, best_front cs w parts /\ to_view s = Some (place pre 0 (length (concat parts)))
        /\ length (spans (fields cs) parts 0) = ccap cs /\ forall i a b, nth_error (spans (fields cs) parts 0) i = Some (a, b) -> get_group s (Datatypes.S i) = Some (Some (place pre a b))).
  { intro A. destruct (C35_captures_exact_partial (crx true cs) _ pre w post ST Ex CV s (ReachCreate _ _ _ _ CR) A) as (_ & i & j & l & V & Ma & SL).
    assert (i = 0%nat) as ->.
    { pose proof (reach_far _ _ s (ctree_aroot (crx true cs) eq_refl) (compile_gidx _ _ (exact_compile _ Ex)) (ReachCreate _ _ _ _ CR) A) as Fa.
      unfold to_view in V. rewrite A in V. unfold place in V. injection V as V _. cbn [env_of qb] in Fa. lia. }
    rewrite match_crx in Ma. rewrite Ma in FM. destruct FM as (p & _ & -> & B & Ls & ->). exists p. conj; auto.
    intros i a b Hi. assert (Kl : (i < ccap cs)%nat) by (rewrite <- Ls; apply nth_error_Some; congruence). destruct (SL i) as (a' & b' & E1 & E2 & _); [rewrite crx_caps, seq_length; exact Kl|].
    pose proof (slot_rev _ 0%nat (ccap cs) i (a, b) Ls Hi []) as X. rewrite app_nil_r in X. change (0 + i)%nat with i in X. unfold clogs in E1. rewrite X in E1. injection E1 as <- <-. exact E2. }
  assert (GR : groups_of (ctree (crx true cs)) = ccap cs) by exact Gr.
  exists (ctree (crx true cs)), s. split; [exact CO|]. split; [exact GR|]. split; [exact CR|]. split.
  - split; [intro A; destruct (ACC A) as (parts & [(k & Hk & D) _] & _); eauto|]. intros (k & parts & Hk & D).
    destruct (match_at w (crx false cs) 0) as [[j l]|]; [specialize (M _ eq_refl); unfold to_view in M; destruct (is_accepted s); [reflexivity|discriminate]|].
    elim (FM parts). apply reads_divides. cbn [skipn]. exists k. conj; auto. destruct D as [_ D]. rewrite D, firstn_length. lia.
  - intro A. rewrite GR. now apply ACC.
Qed.
Print Assumptions C54_prefix_partial.
(** ... without ^: every match found by the constructor and by next() is the preferred division of
    a front of the text from its beginning on, with its captures. *)
Theorem C54_found_partial : forall cs n pre w post s, choice_ok false cs = true -> begins cs = true -> query_ok w -> post <> [] ->
  compile (show_choices cs) = Some n -> reach (env_of pre w post) n s -> is_accepted s = true ->
  exists i parts, (i + length (concat parts) <= length w)%nat /\ to_view s = Some (place pre i (i + length (concat parts)))
    /\ best_front cs (skipn i w) parts /\ length (spans (fields cs) parts i) = groups_of n
    /\ forall m a b, nth_error (spans (fields cs) parts i) m = Some (a, b) -> get_group s (S m) = Some (Some (place pre a b)).
Proof.
  intros cs n pre w post s H Hb Q P Cn R A. destruct (choice_parts false cs H) as (F & Gp & C & O & N). destruct (crx_exact false cs H Hb) as (Ex & Gx & Gr).
  assert (SH : show (crx false cs) = show_choices cs) by (unfold crx; cbn [show show_br]; rewrite show_csq by exact F; reflexivity).
  assert (ST : setting (crx false cs) n w post) by (split; [now rewrite SH|]; split; [exact Q|exact P]).
  assert (n = ctree (crx false cs)) as -> by (pose proof (exact_compile _ Ex) as X; rewrite SH in X; congruence).
  assert (CV : nats_eqb (caps (renumber (crx false cs))) (caps (crx false cs)) && gex (ctree (crx false cs)) && covers (crx false cs) = true).
  { rewrite Gx, (renumber_crx false cs C), crx_covers, crx_caps. clear. rewrite !andb_true_r. generalize (seq 0 (ccap cs)). induction l as [|x l IH]; cbn; [reflexivity|]. now rewrite Nat.eqb_refl, IH. }
  destruct (C35_captures_exact_partial (crx false cs) _ pre w post ST Ex CV s R A) as (GR & i & j & l & V & Ma & SL).
  destruct (C21_soundness_partial _ _ pre w post s Ex ST R A) as (i' & j' & V' & B & _). rewrite V in V'. unfold place in V'. assert (i' = i /\ j' = j) as [-> ->] by (injection V'; lia). clear V'.
  pose proof (crx_match w cs i F ltac:(lia)) as FM. rewrite Ma in FM. destruct FM as (p & Rd & -> & Bf & Ls & ->). rewrite crx_caps, seq_length in *.
  exists i, p. rewrite GR. split; [lia|]. split; [exact V|]. split; [exact Bf|]. split; [exact Ls|].
  intros m a b Hm. assert (Kl : (m < ccap cs)%nat) by (rewrite <- Ls; apply nth_error_Some; congruence). destruct (SL m Kl) as (a' & b' & E1 & E2 & _).
  pose proof (slot_rev _ 0%nat (ccap cs) m (a, b) Ls Hm []) as X. rewrite app_nil_r in X. change (0 + m)%nat with m in X. unfold clogs in E1. rewrite X in E1. injection E1 as <- <-. exact E2.
Qed.
Print Assumptions C54_found_partial.
(** <(.+?)> and (\w+)\d are such patterns. *)
Definition tag_fields : list choice := [gr false (ELit 60) One; lz true EDot Plus; gr false (ELit 62) One].
Example C54_found_case : choice_ok false tag_fields = true /\ begins tag_fields = true /\ show_choices tag_fields = S2L "<(.+?)>"
  /\ (let s := st_of (create 20 (env_of [] (S2L "x<ab><c>") [0]) (node_of (S2L "<(.+?)>"))) in to_view s = Some (place [] 1 5) /\ get_group s 1 = Some (Some (2, 4)))
  /\ (let w := [gr true (EEsc 119) Plus; gr false (EEsc 100) One] in choice_ok false w = true /\ begins w = true /\ show_choices w = S2L "(\w+)\d")
  /\ (let s := st_of (create 20 (env_of [] (S2L "-ab12c") [0]) (node_of (S2L "(\w+)\d"))) in to_view s = Some (place [] 1 5) /\ get_group s 1 = Some (Some (1, 4))).
Proof. split; [|split; [|split; [|split; [split|split; [split; [|split]|split]]]]]; vm_compute; reflexivity. Qed.
(** Outside of [last_run]: a lazy run at the end is made possessive; in [^a(.*?)] the group is the
    whole rest of the text instead of nothing. *)
Theorem C54_prefix_refuted : exists cs w n s,
  forallb (fun c => field_elem (f_el (ch_f c)) && amount_ok (f_am (ch_f c))) cs = true /\ counted false (fields cs) = true /\ starts cs = true
  /\ best_front cs w [[97]; []]
  /\ compile ([94] ++ show_choices cs) = Some n /\ create (default_fuel w) (env_of [] w [0]) n = RDone s
  /\ to_view s = Some (place [] 0 3) /\ get_group s 1 = Some (Some (1, 3)).
Proof.
  exists [gr false (ELit 97) One; lz true EDot Star], (S2L "abc"), (node_of (S2L "^a(.*?)")), (st_of (create 9 (env_of [] (S2L "abc") [0]) (node_of (S2L "^a(.*?)")))).
  split; [vm_compute; reflexivity|]. split; [vm_compute; reflexivity|]. split; [vm_compute; reflexivity|]. split; [|split; [|split; [|split]]; vm_compute; reflexivity].
  split.
  - exists 1%nat. split; [vm_compute; lia|]. split; [|reflexivity]. repeat (constructor; [split; [repeat constructor|first [reflexivity|exact Logic.I]]|]). constructor.
  - intros k q _ [D _]. inversion D as [|f u fs q' A1 A2]; subst. inversion A2 as [|f' v fs' q'' B1 B2]; subst. inversion B2; subst. destruct A1 as [_ A1]. cbn in A1.
    cbn [before lz gr ch_lazy length]. right. split; [now symmetry|]. destruct v; [right; split; [reflexivity|exact Logic.I]|left; cbn; lia].
Qed.
Print Assumptions C54_prefix_refuted.
