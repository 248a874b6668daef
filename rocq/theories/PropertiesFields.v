(** C51: validating a text that consists of delimited fields, and taking it apart. *)
From Coq Require Import String ZArith NArith List Bool Lia ZifyBool ZifyNat ZifyN.
From Verif Require Import Base Text Ast Builder BuilderProofs Engine Api ApiProofs Spec Tree SpecProofs Den Checker Supported Main Find Anchor End EndD Refuted PropertiesMatch PropertiesEnd Sound PropertiesSafe SpecFields Fields FieldsPre.
Import ListNotations.
Open Scope Z_scope.

(** C51.  Let [fs] be fields (SpecFields.v: a character set with an amount x, x{n}, x+ or x*,
    possibly in parentheses) such that every run x+ or x* is followed by a field that cannot be
    empty and shares no character with it.  The pattern ^fields$ compiles, matching a query
    without line feeds returns, and accepts exactly the queries that consist of such fields;
    the parts are determined by the query, the whole query is the match, and group k is the
    k-th captured part.
    Missing: fields that are not separated, alternatives between fields; and what [fields_ok]
    excludes because the library handles it otherwise (C08, C12). *)
Theorem C51_fields_partial : forall fs pre w post, fields_ok fs = true ->
  query_ok w -> ~ In 10 w -> (exists c p, post = c :: p /\ c <> 10) ->
  exists n s, compile ([94] ++ show_fields fs ++ [36]) = Some n
  /\ groups_of n = length (filter f_cap fs)
  /\ create (default_fuel w) (env_of pre w post) n = RDone s
  /\ (is_accepted s = true <-> exists parts, divides fs parts w)
  /\ (forall p1 p2, divides fs p1 w -> divides fs p2 w -> p1 = p2)
  /\ (forall parts, divides fs parts w ->
        to_view s = Some (place pre 0 (length w))
        /\ length (spans fs parts 0) = groups_of n
        /\ forall k a b, nth_error (spans fs parts 0) k = Some (a, b) -> get_group s (S k) = Some (Some (place pre a b))).
Proof.
  intros fs pre w post H Q NL P. destruct (fields_parts fs H) as (F & S & C & O & N). destruct (frx_exact fs H) as [Ex Gx].
  assert (W : wf (frx fs) = true) by now apply wf_frx.
  assert (SH : show_d (frx fs) = [94] ++ show_fields fs ++ [36]) by (unfold frx; cbn [show_d show_br]; rewrite show_fsq; reflexivity).
  pose proof (compile_d _ W) as CO. rewrite SH in CO.
  assert (ST : setting_d (frx fs) (ctree_d (frx fs)) w post) by (split; [now rewrite SH|]; split; [exact Q|exact P]).
  destruct (C47_validate_partial _ _ pre w post Ex ST) as (SND & V & s & CR). destruct (V (nopos_frx fs) NL s CR) as [V1 V2]. specialize (V2 eq_refl).
  assert (GR : groups_of (ctree_d (frx fs)) = ncap fs).
  { destruct (chain0_some fs 0 true N) as (n0 & E0). pose proof (opt_chain fs 0 true F (sep_gaps fs S)) as X. rewrite E0 in X. cbn [option_map] in X. symmetry in X. exact (frx_groups fs _ H X). }
  assert (UN : forall p1 p2, divides fs p1 w -> divides fs p2 w -> p1 = p2).
  { intros p1 p2 [A1 B1] [A2 B2]. apply (parts_unique fs); auto; [now apply sep_gaps|now rewrite B1, B2|]. rewrite B1. apply Forall_forall. intros c Hc.
    destruct Q as [Q _]. rewrite forallb_forall in Q. specialize (Q c Hc). unfold is_char in Q. lia. }
  assert (ACC : is_accepted s = true -> exists parts, divides fs parts w /\ length (spans fs parts 0) = ncap fs
            /\ forall k a b, nth_error (spans fs parts 0) k = Some (a, b) -> get_group s (Datatypes.S k) = Some (Some (place pre a b))).
  { intro A. destruct (C35_validate_captures_partial (frx fs) _ pre w post s Ex ST) as (i & j & l & TV & M & SL); auto using frx_covers.
    - rewrite (renumber_frx fs C). rewrite frx_caps. clear. generalize (seq 0 (ncap fs)). induction l as [|x l IH]; cbn; [reflexivity|]. now rewrite Nat.eqb_refl, IH.
    - exact (ReachCreate _ _ _ _ CR).
    - pose proof (proj1 V2 A) as LG. specialize (V1 LG). rewrite V1 in TV. unfold place in TV. assert (i = 0 /\ j = length w)%nat as [-> ->] by (injection TV; lia).
      destruct (match_d_lang w (frx fs) 0 (length w) l W ltac:(lia) M) as (k & _ & LE & IN). assert (k = length w) as ->.
      { destruct LE as [[-> _]|[LE _]]; [reflexivity|]. exfalso. apply NL. apply nth_error_In in LE. exact LE. }
      destruct (sem_divides w fs (length w) l F IN eq_refl) as (parts & D & Ls & ->). exists parts. conj; auto. intros k a b Hk.
      assert (Kl : (k < ncap fs)%nat) by (rewrite <- Ls; apply nth_error_Some; congruence). destruct (SL k) as (a' & b' & E1 & E2); [rewrite frx_caps, seq_length; exact Kl|].
      pose proof (slot_rev _ 0%nat (ncap fs) k (a, b) Ls Hk []) as X. rewrite app_nil_r in X. change (0 + k)%nat with k in X. rewrite X in E1. injection E1 as <- <-. exact E2. }
  exists (ctree_d (frx fs)), s. split; [exact CO|]. split; [exact GR|]. split; [exact CR|]. split.
  { split; [intro A; destruct (ACC A) as (parts & D & _); eauto|]. intros (parts & D). apply V2. now apply (divides_lang w fs parts). }
  split; [exact UN|]. intros parts D. assert (LG : lang w (frx fs) 0 (length w)) by now apply (divides_lang w fs parts). split; [now apply V1|].
  destruct (ACC (proj2 V2 LG)) as (parts' & D' & X & Y). rewrite (UN parts parts' D D'). split; [now rewrite GR|exact Y].
Qed.
Print Assumptions C51_fields_partial.
(** ^(\d{4})-(\d{2})-(\d{2})$ and ^(\w+)=([^;]+);$ are such patterns. *)
Definition digit : elem := EEsc 100.
Definition field_lit (s : string) : list field := map (fun c => Fld false (ELit c) One) (S2L s).
Definition date_fields : list field :=
  [Fld true digit (Times [4])] ++ field_lit "-" ++ [Fld true digit (Times [2])] ++ field_lit "-" ++ [Fld true digit (Times [2])].
Example C51_case : fields_ok date_fields = true /\ show_fields date_fields = S2L "(\d{4})-(\d{2})-(\d{2})"
  /\ query_ok (S2L "2026-11-18") /\ ~ In 10 (S2L "2026-11-18")
  /\ divides date_fields (map S2L ["2026"; "-"; "11"; "-"; "18"]%string) (S2L "2026-11-18")
  /\ spans date_fields (map S2L ["2026"; "-"; "11"; "-"; "18"]%string) 0 = [(0, 4); (5, 7); (8, 10)]%nat.
Proof.
  split; [vm_compute; reflexivity|]. split; [vm_compute; reflexivity|]. split; [split; vm_compute; reflexivity|]. split; [vm_compute; intuition discriminate|]. split; [|vm_compute; reflexivity].
  split; [|vm_compute; reflexivity]. vm_compute. repeat (constructor; [split; [repeat constructor|vm_compute; reflexivity]|]). constructor.
Qed.
Definition assign_fields : list field :=
  [Fld true (EEsc 119) Plus] ++ field_lit "=" ++ [Fld true (EClass true [CChar 59]) Plus] ++ field_lit ";".
Example C51_case2 : fields_ok assign_fields = true /\ show_fields assign_fields = S2L "(\w+)=([^;]+);"
  /\ (let s := st_of (create 9 (env_of [] (S2L "ab=x y;") [0]) (node_of (S2L "^(\w+)=([^;]+);$"))) in
      is_accepted s = true /\ get_group s 1 = Some (Some (0, 2)) /\ get_group s 2 = Some (Some (3, 6)))
  /\ is_accepted (st_of (create 9 (env_of [] (S2L "ab=;") [0]) (node_of (S2L "^(\w+)=([^;]+);$")))) = false.
Proof. conj; try (vm_compute; reflexivity). split; [|split]; vm_compute; reflexivity. Qed.
(** Without [counted]: after a class outside of parentheses the groups are counted from the
    beginning again; in ^(a)[b](c)$ group 1 is the c and group 2 is never set. *)
Theorem C51_fields_refuted : exists fs w n s,
  forallb (fun f => field_elem (f_el f) && amount_ok (f_am f)) fs = true /\ separated fs = true /\ first_ok fs = true
  /\ divides fs [[97]; [98]; [99]] w /\ spans fs [[97]; [98]; [99]] 0 = [(0, 1); (2, 3)]%nat
  /\ compile ([94] ++ show_fields fs ++ [36]) = Some n /\ create (default_fuel w) (env_of [] w [0]) n = RDone s
  /\ is_accepted s = true /\ get_group s 1 = Some (Some (2, 3)) /\ get_group s 2 = Some None.
Proof.
  exists [Fld true (ELit 97) One; Fld false (EClass false [CChar 98]) One; Fld true (ELit 99) One], [97; 98; 99],
    (node_of (S2L "^(a)[b](c)$")), (st_of (create 9 (env_of [] [97; 98; 99] [0]) (node_of (S2L "^(a)[b](c)$")))).
  conj; try (vm_compute; reflexivity). split; [|vm_compute; reflexivity]. repeat (constructor; [split; [repeat constructor|vm_compute; reflexivity]|]). constructor.
Qed.
Print Assumptions C51_fields_refuted.

(** ... without $, the match is the longest front of the query that consists of such fields
    (line feeds do not matter), and there is a match exactly if there is such a front. *)
Theorem C51_prefix_partial : forall fs pre w post, prefix_ok fs = true -> query_ok w -> post <> [] ->
  exists n s, compile ([94] ++ show_fields fs) = Some n
  /\ groups_of n = length (filter f_cap fs)
  /\ create (default_fuel w) (env_of pre w post) n = RDone s
  /\ (is_accepted s = true <-> exists k, front fs w k)
  /\ (forall k, front_most fs w k -> to_view s = Some (place pre 0 k))
  /\ (is_accepted s = true -> exists k parts, front_most fs w k /\ divides fs parts (firstn k w)
        /\ length (spans fs parts 0) = groups_of n
        /\ forall i a b, nth_error (spans fs parts 0) i = Some (a, b) -> get_group s (S i) = Some (Some (place pre a b))).
Proof.
  intros fs pre w post H Q P. destruct (prefix_parts fs H) as (F & S & C & O & N). destruct (grx_exact true fs H) as [Ex Gx].
  pose proof (exact_compile _ Ex) as CO. rewrite show_grx in CO.
  assert (ST : setting (grx true fs) (ctree (grx true fs)) w post) by (split; [now rewrite show_grx|]; split; [exact Q|exact P]).
  assert (GR : groups_of (ctree (grx true fs)) = ncap fs).
  { destruct (chain0_some fs 0 false N) as (n0 & E0). pose proof (opt_chain fs 0 false F (spaced_gaps fs S)) as X. rewrite E0 in X. cbn [option_map] in X. symmetry in X. exact (grx_groups true fs _ H X). }
  destruct (create_sound (grx true fs) pre w post Ex Q P (default_fuel w) (Nat.lt_succ_diag_r _)) as (s & CR & R & M).
  pose proof (fields_match w fs 0 H Q (Nat.le_0_l _)) as FM. cbn [skipn] in FM. rewrite match_grx in M.
  assert (ACC : is_accepted s = true -> exists k parts, to_view s = Some (place pre 0 k) /\ front_most fs w k /\ divides fs parts (firstn k w)
        /\ length (spans fs parts 0) = ncap fs /\ forall i a b, nth_error (spans fs parts 0) i = Some (a, b) -> get_group s (Datatypes.S i) = Some (Some (place pre a b))).
  { intro A. destruct (C35_captures_exact_partial (grx true fs) _ pre w post ST Ex (grx_covers true fs C Gx) s (ReachCreate _ _ _ _ CR) A) as (_ & i & j & l & V & Ma & SL).
    assert (i = 0%nat) as ->.
    { pose proof (reach_far _ _ s (ctree_aroot (grx true fs) eq_refl) (compile_gidx _ _ (exact_compile _ Ex)) (ReachCreate _ _ _ _ CR) A) as Fa.
      unfold to_view in V. rewrite A in V. unfold place in V. injection V as V _. cbn [env_of qb] in Fa. lia. }
    rewrite match_grx in Ma. rewrite Ma in FM. destruct FM as (k & parts & -> & FM & D & Ls & ->). exists k, parts. conj; auto.
    intros i a b Hi. assert (Kl : (i < ncap fs)%nat) by (rewrite <- Ls; apply nth_error_Some; congruence). destruct (SL i) as (a' & b' & E1 & E2 & _); [rewrite grx_caps, seq_length; exact Kl|].
    pose proof (slot_rev _ 0%nat (ncap fs) i (a, b) Ls Hi []) as X. rewrite app_nil_r in X. change (0 + i)%nat with i in X. rewrite X in E1. injection E1 as <- <-. exact E2. }
  exists (ctree (grx true fs)), s. split; [exact CO|]. split; [exact GR|]. split; [exact CR|].
  assert (TOP : forall k, front fs w k -> is_accepted s = true).
  { intros k Fr. destruct (match_at w (grx false fs) 0) as [[j l]|]; [|now elim (FM k)]. specialize (M _ eq_refl). unfold to_view in M. destruct (is_accepted s); [reflexivity|discriminate]. }
  split; [split|split].
  - intro A. destruct (ACC A) as (k & parts & _ & [Fr _] & _). eauto.
  - intros (k & Fr). eauto.
  - intros k [Fr Mx]. destruct (ACC (TOP k Fr)) as (k' & parts & V & [Fr' Mx'] & _). assert (k' = k) as <- by (specialize (Mx _ Fr'); specialize (Mx' _ Fr); lia). exact V.
  - intro A. destruct (ACC A) as (k & parts & _ & X & Y & Z & U). exists k, parts. rewrite GR. auto.
Qed.
Print Assumptions C51_prefix_partial.
(** ... without ^, whatever matches are found by the constructor and by next(): each is the
    longest piece from its beginning on that consists of such fields, with their captures. *)
Theorem C51_found_partial : forall fs n pre w post s, prefix_ok fs = true -> query_ok w -> post <> [] ->
  compile (show_fields fs) = Some n -> reach (env_of pre w post) n s -> is_accepted s = true ->
  exists i k parts, (i + k <= length w)%nat /\ to_view s = Some (place pre i (i + k)) /\ front_most fs (skipn i w) k
    /\ divides fs parts (firstn k (skipn i w)) /\ length (spans fs parts i) = groups_of n
    /\ forall m a b, nth_error (spans fs parts i) m = Some (a, b) -> get_group s (S m) = Some (Some (place pre a b)).
Proof.
  intros fs n pre w post s H Q P Cn R A. destruct (prefix_parts fs H) as (F & S & C & O & N). destruct (grx_exact false fs H) as [Ex Gx].
  assert (ST : setting (grx false fs) n w post) by (split; [now rewrite show_grx|]; split; [exact Q|exact P]).
  assert (n = ctree (grx false fs)) as -> by (pose proof (exact_compile _ Ex) as X; rewrite show_grx in X; cbn [app] in X; congruence).
  destruct (C35_captures_exact_partial (grx false fs) _ pre w post ST Ex (grx_covers false fs C Gx) s R A) as (GR & i & j & l & V & Ma & SL).
  destruct (C21_soundness_partial _ _ pre w post s Ex ST R A) as (i' & j' & V' & B & _). rewrite V in V'. unfold place in V'. assert (i' = i /\ j' = j) as [-> ->] by (injection V'; lia). clear V'.
  pose proof (fields_match w fs i H Q ltac:(lia)) as FM. rewrite Ma in FM. destruct FM as (k & parts & -> & FM & D & Ls & ->). rewrite grx_caps, seq_length in *.
  exists i, k, parts. rewrite GR. split; [lia|]. split; [exact V|]. split; [exact FM|]. split; [exact D|]. split; [exact Ls|].
  intros m a b Hm. assert (Kl : (m < ncap fs)%nat) by (rewrite <- Ls; apply nth_error_Some; congruence). destruct (SL m Kl) as (a' & b' & E1 & E2 & _).
  pose proof (slot_rev _ 0%nat (ncap fs) m (a, b) Ls Hm []) as X. rewrite app_nil_r in X. change (0 + m)%nat with m in X. rewrite X in E1. injection E1 as <- <-. exact E2.
Qed.
Print Assumptions C51_found_partial.
(** ([a-z]+)(\d+) is such a pattern; of "ab12c" the first four characters are matched. *)
Definition word_fields : list field := [Fld true (EClass false [CRange 97 122]) Plus; Fld true digit Plus].
Example C51_prefix_case : prefix_ok word_fields = true /\ show_fields word_fields = S2L "([a-z]+)(\d+)"
  /\ query_ok (S2L "ab12c") /\ front word_fields (S2L "ab12c") 3 /\ front word_fields (S2L "ab12c") 4
  /\ (let s := st_of (create 9 (env_of [] (S2L "ab12c") [0]) (node_of (S2L "^([a-z]+)(\d+)"))) in
      to_view s = Some (place [] 0 4) /\ get_group s 1 = Some (Some (0, 2)) /\ get_group s 2 = Some (Some (2, 4)))
  /\ (let s := st_of (create 9 (env_of [] (S2L "-ab12c") [0]) (node_of (S2L "([a-z]+)(\d+)"))) in
      to_view s = Some (place [] 1 5) /\ get_group s 2 = Some (Some (3, 5))).
Proof.
  split; [vm_compute; reflexivity|]. split; [vm_compute; reflexivity|]. split; [split; vm_compute; reflexivity|].
  split; [split; [vm_compute; lia|]; exists [S2L "ab"; S2L "1"]; split; [|vm_compute; reflexivity]; vm_compute; repeat (constructor; [split; [repeat constructor|discriminate]|]); constructor|].
  split; [split; [vm_compute; lia|]; exists [S2L "ab"; S2L "12"]; split; [|vm_compute; reflexivity]; vm_compute; repeat (constructor; [split; [repeat constructor|discriminate]|]); constructor|].
  split; [split; [|split]; vm_compute; reflexivity|]. split; vm_compute; reflexivity.
Qed.
(** A search may miss fields that are there: after a failed attempt the library goes on where it
    got stuck.  \d{3}c is not found in "1111c". *)
Theorem C51_found_refuted : exists fs w n s, prefix_ok fs = true /\ query_ok w /\ front fs (skipn 1 w) 4
  /\ compile (show_fields fs) = Some n /\ create (default_fuel w) (env_of [] w [0]) n = RDone s /\ is_accepted s = false.
Proof.
  exists [Fld false digit (Times [3]); Fld false (ELit 99) One], (S2L "1111c"), (node_of (S2L "\d{3}c")),
    (st_of (create 9 (env_of [] (S2L "1111c") [0]) (node_of (S2L "\d{3}c")))).
  split; [vm_compute; reflexivity|]. split; [split; vm_compute; reflexivity|].
  split; [split; [vm_compute; lia|]; exists [[49; 49; 49]; [99]]; split; [|vm_compute; reflexivity]; vm_compute; repeat (constructor; [split; [repeat constructor|reflexivity]|]); constructor|].
  split; [vm_compute; reflexivity|]. split; vm_compute; reflexivity.
Qed.
Print Assumptions C51_found_refuted.
