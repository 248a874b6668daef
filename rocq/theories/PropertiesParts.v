(** C53: texts with repeated parts. *)
From Coq Require Import String ZArith NArith List Bool Lia ZifyBool ZifyNat.
From Verif Require Import Base Text Ast Builder BuilderProofs Engine Api ApiProofs Spec Tree SpecProofs SpecEnd Checker CheckerProofs Supported Main Mono Sound Anchor Find Families End EndD Refuted PropertiesMatch PropertiesEnd PropertiesSafe SpecFields Fields FieldsPre SpecParts Parts PartsSem PartsPre PropertiesFields.
Import ListNotations.
Open Scope Z_scope.

(** ** C53: ^...$ around fields and repeated groups of fields - (?:...)* or (?:...)+, each
    repetition beginning with a separator - accepts exactly the texts that consist of such
    parts; there is at most one way to divide a text like that, and the captured fields are
    those of this division. *)
Theorem C53_parts_partial : forall ps pre w post, parts_ok true ps = true ->
  query_ok w -> ~ In 10 w -> (exists c p, post = c :: p /\ c <> 10) ->
  exists n s, compile ([94] ++ show_parts ps ++ [36]) = Some n
  /\ groups_of n = length (filter p_cap ps)
  /\ create (default_fuel w) (env_of pre w post) n = RDone s
  /\ (is_accepted s = true <-> exists us, pdivides ps us w)
  /\ (forall u1 u2, pdivides ps u1 w -> pdivides ps u2 w -> u1 = u2)
  /\ (forall us, pdivides ps us w ->
        to_view s = Some (place pre 0 (length w))
        /\ length (pspans ps us 0) = groups_of n
        /\ forall k a b, nth_error (pspans ps us 0) k = Some (a, b) -> get_group s (S k) = Some (Some (place pre a b))).
Proof.
  intros ps pre w post H Q NL P. destruct (parts_split true ps H) as (F & C & O & N). destruct (prx_exact_d ps H) as [Ex Gx].
  assert (W : wf (prx true ps) = true) by now apply (wf_prx true true).
  assert (SH : show_d (prx true ps) = [94] ++ show_parts ps ++ [36]) by (unfold prx; cbn [show_d show_br]; rewrite show_psq; reflexivity).
  pose proof (compile_d _ W) as CO. rewrite SH in CO.
  assert (ST : setting_d (prx true ps) (ctree_d (prx true ps)) w post) by (split; [now rewrite SH|]; split; [exact Q|exact P]).
  destruct (C47_validate_partial _ _ pre w post Ex ST) as (SND & V & s & CR). destruct (V (nopos_prx true ps) NL s CR) as [V1 V2]. specialize (V2 eq_refl).
  assert (GR : groups_of (ctree_d (prx true ps)) = pcap ps).
  { destruct (pchain_some ps 0 true N) as (n & E). exact (prx_groups_d ps _ H E). }
  assert (UN : forall p1 p2, pdivides ps p1 w -> pdivides ps p2 w -> p1 = p2).
  { intros p1 p2 [A1 B1] [A2 B2]. apply (pparts_unique true ps); auto; [now rewrite B1, B2|]. rewrite B1. now apply query_range. }
  assert (ACC : is_accepted s = true -> exists us, pdivides ps us w /\ length (pspans ps us 0) = pcap ps
            /\ forall k a b, nth_error (pspans ps us 0) k = Some (a, b) -> get_group s (Datatypes.S k) = Some (Some (place pre a b))).
  { intro A. destruct (C35_validate_captures_partial (prx true ps) _ pre w post s Ex ST) as (i & j & l & TV & M & SL); auto.
    - rewrite (renumber_prx true true ps H), (prx_caps true true ps F). clear. generalize (seq 0 (pcap ps)). induction l as [|x l IH]; cbn; [reflexivity|]. now rewrite Nat.eqb_refl, IH.
    - now apply (prx_covers true true).
    - exact (ReachCreate _ _ _ _ CR).
    - pose proof (proj1 V2 A) as LG. specialize (V1 LG). rewrite V1 in TV. unfold place in TV. assert (i = 0 /\ j = length w)%nat as [-> ->] by (injection TV; lia).
      destruct (match_d_lang w (prx true ps) 0 (length w) l W ltac:(lia) M) as (k & _ & LE & IN). assert (k = length w) as ->.
      { destruct LE as [[-> _]|[LE _]]; [reflexivity|]. exfalso. apply NL. apply nth_error_In in LE. exact LE. }
      destruct (sem_pdivides w true ps (length w) l F IN eq_refl) as (us & D & Ls & ->). exists us. conj; auto. intros k a b Hk.
      assert (Kl : (k < pcap ps)%nat) by (rewrite <- Ls; apply nth_error_Some; congruence). destruct (SL k) as (a' & b' & E1 & E2); [rewrite (prx_caps true true ps F), seq_length; exact Kl|].
      pose proof (slot_rev _ 0%nat (pcap ps) k (a, b) Ls Hk []) as X. rewrite app_nil_r in X. change (0 + k)%nat with k in X. rewrite X in E1. injection E1 as <- <-. exact E2. }
  exists (ctree_d (prx true ps)), s. split; [exact CO|]. split; [exact GR|]. split; [exact CR|]. split.
  { split; [intro A; destruct (ACC A) as (us & D & _); eauto|]. intros (us & D). apply V2. now apply (pdivides_lang w true true ps us). }
  split; [exact UN|]. intros us D. assert (LG : lang w (prx true ps) 0 (length w)) by now apply (pdivides_lang w true true ps us). split; [now apply V1|].
  destruct (ACC (proj2 V2 LG)) as (us' & D' & X & Y). rewrite (UN us us' D D'). split; [now rewrite GR|exact Y].
Qed.
Print Assumptions C53_parts_partial.
(** ^(\w+)(?:\.\w+)*@\w+(?:\.\w+)+$ is such a pattern, and ^\d+(?:,\d+)*$. *)
Definition word_f : field := Fld false (EEsc 119) Plus.
Definition dot_word : list field := [Fld false (EEsc 46) One; word_f].
Definition mail_parts : list part :=
  [PF (Fld true (EEsc 119) Plus); PL dot_word false; PF (Fld false (ELit 64) One); PF word_f; PL dot_word true].
Example C53_case : parts_ok true mail_parts = true /\ show_parts mail_parts = S2L "(\w+)(?:\.\w+)*@\w+(?:\.\w+)+"
  /\ query_ok (S2L "a.b@cd.ef.org") /\ ~ In 10 (S2L "a.b@cd.ef.org")
  /\ pdivides mail_parts (map S2L ["a"; ".b"; "@"; "cd"; ".ef.org"]%string) (S2L "a.b@cd.ef.org")
  /\ pspans mail_parts (map S2L ["a"; ".b"; "@"; "cd"; ".ef.org"]%string) 0 = [(0, 1)]%nat.
Proof.
  split; [vm_compute; reflexivity|]. split; [vm_compute; reflexivity|]. split; [split; vm_compute; reflexivity|]. split; [vm_compute; intuition discriminate|]. split; [|vm_compute; reflexivity].
  assert (F : forall x (s : str), forallb (elem_set x) s = true -> Forall (fun c => elem_set x c = true) s) by (intros x s Hs; apply Forall_forall; intros c Hc; rewrite forallb_forall in Hs; now apply Hs).
  assert (B : forall v : string, S2L v <> [] -> forallb (elem_set (EEsc 119)) (S2L v) = true -> exists vs, divides dot_word vs ([46] ++ S2L v)).
  { intros v Nv Hv. exists [[46]; S2L v]. split; [|cbn; now rewrite app_nil_r]. constructor; [split; [apply F; reflexivity|reflexivity]|]. constructor; [split; [now apply F|exact Nv]|constructor]. }
  split; [|vm_compute; reflexivity]. cbn [map]. unfold mail_parts.
  constructor; [split; [apply F; vm_compute; reflexivity|discriminate]|]. constructor; [|constructor; [|constructor; [|constructor; [|constructor]]]].
  - exists [S2L ".b"]. split; [|split; [reflexivity|discriminate]]. constructor; [apply (B "b"%string); [discriminate|vm_compute; reflexivity]|constructor].
  - split; [apply F; vm_compute; reflexivity|reflexivity].
  - split; [apply F; vm_compute; reflexivity|discriminate].
  - exists [S2L ".ef"; S2L ".org"]. split; [|split; [reflexivity|discriminate]]. constructor; [apply (B "ef"%string); [discriminate|vm_compute; reflexivity]|].
    constructor; [apply (B "org"%string); [discriminate|vm_compute; reflexivity]|constructor].
Qed.
Example C53_case2 : parts_ok true [PF (Fld false digit Plus); PL [Fld false (ELit 44) One; Fld false digit Plus] false] = true
  /\ show_parts [PF (Fld false digit Plus); PL [Fld false (ELit 44) One; Fld false digit Plus] false] = S2L "\d+(?:,\d+)*"
  /\ is_accepted (st_of (create 9 (env_of [] (S2L "1,22,3") [0]) (node_of (S2L "^\d+(?:,\d+)*$")))) = true
  /\ is_accepted (st_of (create 9 (env_of [] (S2L "1,,3") [0]) (node_of (S2L "^\d+(?:,\d+)*$")))) = false.
Proof. conj; vm_compute; reflexivity. Qed.
(** ... ^... without $: the match is the longest front of the text that consists of such parts,
    and the captured fields are those of a division of it. *)
Theorem C53_prefix_partial : forall ps pre w post, parts_ok false ps = true -> query_ok w -> post <> [] ->
  exists n s, compile ([94] ++ show_parts ps) = Some n
  /\ groups_of n = length (filter p_cap ps)
  /\ create (default_fuel w) (env_of pre w post) n = RDone s
  /\ (is_accepted s = true <-> exists k, pfront ps w k)
  /\ (forall k, pfront_most ps w k -> to_view s = Some (place pre 0 k))
  /\ (is_accepted s = true -> exists k us, pfront_most ps w k /\ pdivides ps us (firstn k w)
        /\ length (pspans ps us 0) = groups_of n
        /\ forall i a b, nth_error (pspans ps us 0) i = Some (a, b) -> get_group s (S i) = Some (Some (place pre a b))).
Proof.
  intros ps pre w post H Q P. destruct (parts_split false ps H) as (F & C & O & N). destruct (prx_exact true ps H) as [Ex Gx].
  pose proof (exact_compile _ Ex) as CO. rewrite show_prx in CO.
  assert (ST : setting (prx true ps) (ctree (prx true ps)) w post) by (split; [now rewrite show_prx|]; split; [exact Q|exact P]).
  assert (GR : groups_of (ctree (prx true ps)) = pcap ps).
  { destruct (pchain_some ps 0 false N) as (n0 & E0). exact (prx_groups true ps _ H E0). }
  destruct (create_sound (prx true ps) pre w post Ex Q P (default_fuel w) (Nat.lt_succ_diag_r _)) as (s & CR & R & M).
  pose proof (parts_match w false ps 0 H Q (Nat.le_0_l _)) as FM. cbn [skipn] in FM. rewrite match_prx in M.
  assert (ACC : is_accepted s = true -> exists k us, to_view s = Some (place pre 0 k) /\ pfront_most ps w k /\ pdivides ps us (firstn k w)
        /\ length (pspans ps us 0) = pcap ps /\ forall i a b, nth_error (pspans ps us 0) i = Some (a, b) -> get_group s (Datatypes.S i) = Some (Some (place pre a b))).
  { intro A. destruct (C35_captures_exact_partial (prx true ps) _ pre w post ST Ex (prx_allcovers true ps H Gx) s (ReachCreate _ _ _ _ CR) A) as (_ & i & j & l & V & Ma & SL).
    assert (i = 0%nat) as ->.
    { pose proof (reach_far _ _ s (ctree_aroot (prx true ps) eq_refl) (compile_gidx _ _ (exact_compile _ Ex)) (ReachCreate _ _ _ _ CR) A) as Fa.
      unfold to_view in V. rewrite A in V. unfold place in V. injection V as V _. cbn [env_of qb] in Fa. lia. }
    rewrite match_prx in Ma. rewrite Ma in FM. destruct FM as (k & us & -> & FM & D & Ls & ->). exists k, us. split; [exact V|]. split; [exact FM|]. split; [exact D|]. split; [exact Ls|].
    intros i a b Hi. assert (Kl : (i < pcap ps)%nat) by (rewrite <- Ls; apply nth_error_Some; congruence). destruct (SL i) as (a' & b' & E1 & E2 & _); [rewrite (prx_caps true false ps F), seq_length; exact Kl|].
    pose proof (slot_rev _ 0%nat (pcap ps) i (a, b) Ls Hi []) as X. rewrite app_nil_r in X. change (0 + i)%nat with i in X. rewrite X in E1. injection E1 as <- <-. exact E2. }
  exists (ctree (prx true ps)), s. split; [exact CO|]. split; [exact GR|]. split; [exact CR|].
  assert (TOP : forall k, pfront ps w k -> is_accepted s = true).
  { intros k Fr. destruct (match_at w (prx false ps) 0) as [[j l]|]; [|now elim (FM k)]. specialize (M _ eq_refl). unfold to_view in M. destruct (is_accepted s); [reflexivity|discriminate]. }
  split; [split|split].
  - intro A. destruct (ACC A) as (k & us & _ & [Fr _] & _). eauto.
  - intros (k & Fr). eauto.
  - intros k [Fr Mx]. destruct (ACC (TOP k Fr)) as (k' & us & V & [Fr' Mx'] & _). assert (k' = k) as <- by (specialize (Mx _ Fr'); specialize (Mx' _ Fr); lia). exact V.
  - intro A. destruct (ACC A) as (k & us & _ & X & Y & Z & U). exists k, us. rewrite GR. auto.
Qed.
Print Assumptions C53_prefix_partial.
(** ... without ^ as well: each match found by the constructor or by next() is the longest piece
    from its beginning on that consists of such parts, with their captures. *)
Theorem C53_found_partial : forall ps n pre w post s, parts_ok false ps = true -> query_ok w -> post <> [] ->
  compile (show_parts ps) = Some n -> reach (env_of pre w post) n s -> is_accepted s = true ->
  exists i k us, (i + k <= length w)%nat /\ to_view s = Some (place pre i (i + k)) /\ pfront_most ps (skipn i w) k
    /\ pdivides ps us (firstn k (skipn i w)) /\ length (pspans ps us i) = groups_of n
    /\ forall m a b, nth_error (pspans ps us i) m = Some (a, b) -> get_group s (S m) = Some (Some (place pre a b)).
Proof.
  intros ps n pre w post s H Q P Cn R A. destruct (parts_split false ps H) as (F & C & O & N). destruct (prx_exact false ps H) as [Ex Gx].
  assert (ST : setting (prx false ps) n w post) by (split; [now rewrite show_prx|]; split; [exact Q|exact P]).
  assert (n = ctree (prx false ps)) as -> by (pose proof (exact_compile _ Ex) as X; rewrite show_prx in X; cbn [app] in X; congruence).
  destruct (C35_captures_exact_partial (prx false ps) _ pre w post ST Ex (prx_allcovers false ps H Gx) s R A) as (GR & i & j & l & V & Ma & SL).
  destruct (C21_soundness_partial _ _ pre w post s Ex ST R A) as (i' & j' & V' & B & _). rewrite V in V'. unfold place in V'. assert (i' = i /\ j' = j) as [-> ->] by (injection V'; lia). clear V'.
  pose proof (parts_match w false ps i H Q ltac:(lia)) as FM. rewrite Ma in FM. destruct FM as (k & us & -> & FM & D & Ls & ->). rewrite (prx_caps false false ps F), seq_length in *.
  exists i, k, us. rewrite GR. split; [lia|]. split; [exact V|]. split; [exact FM|]. split; [exact D|]. split; [exact Ls|].
  intros m a b Hm. assert (Kl : (m < pcap ps)%nat) by (rewrite <- Ls; apply nth_error_Some; congruence). destruct (SL m Kl) as (a' & b' & E1 & E2 & _).
  pose proof (slot_rev _ 0%nat (pcap ps) m (a, b) Ls Hm []) as X. rewrite app_nil_r in X. change (0 + m)%nat with m in X. rewrite X in E1. injection E1 as <- <-. exact E2.
Qed.
Print Assumptions C53_found_partial.
(** (\w+)(?:\.\w+)* : of "a.b.-" the first three characters are matched, though "a" alone would
    do; in "-ab.c." the match is "ab.c". *)
Definition path_parts : list part := [PF (Fld true (EEsc 119) Plus); PL dot_word false].
Example C53_prefix_case : parts_ok false path_parts = true /\ show_parts path_parts = S2L "(\w+)(?:\.\w+)*"
  /\ query_ok (S2L "a.b.-") /\ pfront path_parts (S2L "a.b.-") 1 /\ pfront path_parts (S2L "a.b.-") 3
  /\ (let s := st_of (create 9 (env_of [] (S2L "a.b.-") [0]) (node_of (S2L "^(\w+)(?:\.\w+)*"))) in
      to_view s = Some (place [] 0 3) /\ get_group s 1 = Some (Some (0, 1)))
  /\ (let s := st_of (create 9 (env_of [] (S2L "-ab.c.") [0]) (node_of (S2L "(\w+)(?:\.\w+)*"))) in
      to_view s = Some (place [] 1 5) /\ get_group s 1 = Some (Some (1, 3))).
Proof.
  assert (F : forall x (s : str), forallb (elem_set x) s = true -> Forall (fun c => elem_set x c = true) s) by (intros x s Hs; apply Forall_forall; intros c Hc; rewrite forallb_forall in Hs; now apply Hs).
  split; [vm_compute; reflexivity|]. split; [vm_compute; reflexivity|]. split; [split; vm_compute; reflexivity|].
  split; [split; [vm_compute; lia|]; exists [S2L "a"; []]; split; [|vm_compute; reflexivity]|].
  { constructor; [split; [apply F; vm_compute; reflexivity|discriminate]|]. constructor; [|constructor]. exists []. split; [constructor|]. split; [reflexivity|discriminate]. }
  split; [split; [vm_compute; lia|]; exists [S2L "a"; S2L ".b"]; split; [|vm_compute; reflexivity]|].
  { constructor; [split; [apply F; vm_compute; reflexivity|discriminate]|]. constructor; [|constructor]. exists [S2L ".b"]. split; [|split; [reflexivity|discriminate]]. constructor; [|constructor].
    exists [[46]; S2L "b"]. split; [|reflexivity]. constructor; [split; [apply F; reflexivity|reflexivity]|]. constructor; [split; [apply F; vm_compute; reflexivity|discriminate]|constructor]. }
  split; [split; vm_compute; reflexivity|]. split; vm_compute; reflexivity.
Qed.
(** Not every such pattern: if the separator ends the repeated part, the beginning of a
    repetition that fails is not given back.  ^(?:\w+=\w+;)*$ accepts "a=b;c". *)
Theorem C53_parts_refuted : exists gs w n s,
  show_parts [PL gs false] = S2L "(?:\w+=\w+;)*"
  /\ compile ([94] ++ show_parts [PL gs false] ++ [36]) = Some n /\ create (default_fuel w) (env_of [] w [0]) n = RDone s
  /\ is_accepted s = true /\ forall us, ~ pdivides [PL gs false] us w.
Proof.
  exists [word_f; Fld false (ELit 61) One; word_f; Fld false (ELit 59) One], (S2L "a=b;c"), (node_of (S2L "^(?:\w+=\w+;)*$")),
    (st_of (create 9 (env_of [] (S2L "a=b;c") [0]) (node_of (S2L "^(?:\w+=\w+;)*$")))).
  split; [vm_compute; reflexivity|]. split; [vm_compute; reflexivity|]. split; [vm_compute; reflexivity|]. split; [vm_compute; reflexivity|].
  intros us [D E]. inversion D as [|? u ? q X Y]; subst. inversion Y; subst. cbn [concat] in E. rewrite app_nil_r in E. subst u. destruct X as (bs & B & Eb & _).
  assert (LE : forall b, (exists vs, divides [word_f; Fld false (ELit 61) One; word_f; Fld false (ELit 59) One] vs b) -> exists b', b = b' ++ [59]).
  { intros b (vs & Dv & <-). inversion Dv as [|? v1 ? q1 A1 R1]; subst. inversion R1 as [|? v2 ? q2 A2 R2]; subst. inversion R2 as [|? v3 ? q3 A3 R3]; subst. inversion R3 as [|? v4 ? q4 A4 R4]; subst. inversion R4; subst.
    destruct A4 as [A4 L4]. cbn in L4. destruct v4 as [|c [|]]; try discriminate L4. inversion A4; subst. cbn in H1. apply Z.eqb_eq in H1. subst c. exists (v1 ++ v2 ++ v3). cbn [concat]. rewrite app_nil_r. now rewrite !app_assoc. }
  destruct bs as [|b bs] using rev_ind; [discriminate Eb|]. apply Forall_app in B as [_ B]. inversion B as [|? ? Bl _]; subst. destruct (LE b Bl) as (b' & ->). rewrite concat_app in Eb. cbn [concat] in Eb.
  rewrite app_nil_r, app_assoc in Eb. apply (f_equal (fun l => last l 0)) in Eb. rewrite last_last in Eb. discriminate Eb.
Qed.
Print Assumptions C53_parts_refuted.
