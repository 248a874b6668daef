(** C47 and C29: validating whole texts with patterns that need one character of lookahead
    (SpecLL.v, SpecLLEnd.v).  The conditions are on the pattern as written. *)
From Coq Require Import String ZArith NArith List Bool Lia.
From Verif Require Import Base Text Ast Builder BuilderProofs Engine Api ApiProofs Spec Tree SpecProofs SpecEnd Den Checker Captures Supported Main Find Anchor End EndD Refuted PropertiesMatch PropertiesEnd SpecFields SpecChoice SpecLL SpecLLEnd LL LLCap LLSem LLEnd PropertiesLL.
Import ListNotations.
Open Scope nat_scope.

(** C47.  ^r$ (each branch of r begins with ^ and is followed by $), where every repetition and
    every alternative inside of a group is decided by the next character: create() accepts
    exactly the queries (without line feed) that are texts of r, and reports them completely.
    Missing: other patterns (C47 is false for some of them: C56_lookahead_refuted,
    C47_lookahead_refuted). *)
Theorem C47_lookahead_partial : forall r pre w post, wf r = true -> nopos r = true -> look_d r = true -> anchored r = true ->
  query_ok w -> ~ In c_nl w -> (exists c p, post = c :: p /\ c <> c_nl) ->
  exists n s, compile (show_d r) = Some n /\ create (default_fuel w) (env_of pre w post) n = RDone s
  /\ (is_accepted s = true <-> lang w r 0 (length w))
  /\ (is_accepted s = true -> to_view s = Some (place pre 0 (length w))).
Proof.
  intros r pre w post W N H A Q L P. pose proof (look_d_exact r W H) as E. pose proof (compile_d r W) as C.
  destruct (C47_validate_partial r (ctree_d r) pre w post E (conj C (conj Q P))) as (_ & V & s & Cr). exists (ctree_d r), s.
  destruct (V N L s Cr) as [V1 V2]. specialize (V2 A). split; [exact C|]. split; [exact Cr|]. split; [exact V2|]. intro X. now apply V1, V2.
Qed.
Print Assumptions C47_lookahead_partial.

(** C47, captures: there is only one way to divide the query along the pattern, and result[k+1]
    is the k-th captured part.  Missing: captures inside of repetitions, alternatives or other
    captures. *)
Theorem C47_lookahead_captures_partial : forall s pre w post, let r := ROne (Br true s) in
  wf r = true -> nopos r = true -> look_d r = true -> catches r = true ->
  query_ok w -> ~ In c_nl w -> (exists c p, post = c :: p /\ c <> c_nl) ->
  exists n t, compile (show_d r) = Some n /\ create (default_fuel w) (env_of pre w post) n = RDone t
  /\ (is_accepted t = true -> exists l, length l = length (caps r) /\ splits w s 0 (length w) l
       /\ (forall l', splits w s 0 (length w) l' -> l' = l)
       /\ forall k v, nth_error l k = Some v -> get_group t (S k) = Some (Some (place pre (fst v) (snd v)))).
Proof.
  intros s pre w post r W N H C Q L P. pose proof (look_d_exact r W H) as E. pose proof (compile_d r W) as Cm.
  destruct (C47_validate_partial r (ctree_d r) pre w post E (conj Cm (conj Q P))) as (_ & V & t & Cr). exists (ctree_d r), t. split; [exact Cm|]. split; [exact Cr|]. intro A.
  destruct (V N L t Cr) as [V1 V2]. specialize (V2 eq_refl). pose proof (V1 (proj1 V2 A)) as TV.
  destruct (look_d_captures r W H C) as (C1 & C2 & C3).
  destruct (C35_validate_captures_partial r (ctree_d r) pre w post t E (conj Cm (conj Q P)) C1 C2 C3 (ReachCreate _ _ _ _ Cr) A) as (i & j & l & TV' & M & K).
  rewrite TV in TV'. injection TV' as X1 X2. assert (i = 0) as -> by lia. assert (j = length w) as -> by lia. clear X1 X2.
  destruct (match_d_lang w r 0 (length w) l W (Nat.le_0_l _) M) as (k & K1 & K2 & IN).
  assert (k = length w) as -> by (destruct K2 as [[X _]|[X _]]; [exact X|exfalso; apply L; eapply nth_error_In; exact X]).
  assert (Ws : wf_sq s = true) by (cbn [r wf wf_br] in W; destruct s; [reflexivity|exact W]).
  assert (IN' : In (length w, l) (sem_sq w s (0, []))).
  { change (sem w r) with (sem_br w (Br true s)) in IN. cbn [sem_br] in IN. unfold seq_o, bol_o in IN. cbn [fst Nat.eqb flat_map] in IN. now rewrite app_nil_r in IN. }
  destruct (caught_splits w (proj1 Q) s 0 (0, []) (length w, l) Ws C IN') as (d & D1 & D2 & D3). cbn [fst snd] in *.
  exists d. split; [exact D2|]. split; [exact D1|]. split.
  - intros l' D'. unfold r in H, N. cbn [look_d top_d nopos nopos_br] in H, N. apply andb_true_iff in H as [_ H]. exact (splits_unique w (proj1 Q) s is_nl none 0 (length w) l' d Ws N (ll_d_sq s Ws H) (Nat.le_0_l _) D' D1).
  - intros k v X. assert (Hk : k < length (caps r)) by (change (length (caps r)) with (length (caps_sq s)); rewrite <- D2; apply nth_error_Some; congruence).
    destruct (K k Hk) as (x & y & S1 & S2). specialize (D3 k). rewrite X in D3. cbn [Nat.add] in D3. rewrite S1 in D3. injection D3 as <-. exact S2.
Qed.
Print Assumptions C47_lookahead_captures_partial.

(** C29.  r$ where moreover each branch begins with ^ or with a single character: create()
    reports the leftmost text of r that is followed by a line end, if there is one. *)
Theorem C29_lookahead_partial : forall r pre w post, wf r = true -> nopos r = true -> look_d r = true -> opens_all r = true ->
  query_ok w -> (exists c p, post = c :: p /\ c <> c_nl) ->
  exists n s, compile (show_d r) = Some n /\ create (default_fuel w) (env_of pre w post) n = RDone s
  /\ (forall i j, to_view s = Some (place pre i j) ->
       (exists k, lang w r i k /\ line_end w k j) /\ forall i' k j', i' < i -> lang w r i' k -> ~ line_end w k j')
  /\ (is_accepted s = true <-> exists i k j, (i < length w \/ i = 0) /\ lang w r i k /\ line_end w k j).
Proof.
  intros r pre w post W N H O Q P. pose proof (look_d_supported r W H O) as S. pose proof (compile_d r W) as C. exists (ctree_d r).
  destruct (C29_search_partial r (ctree_d r) pre w post S (conj C (conj Q P))) as (s & E & A & B). exists s. split; [exact C|]. split; [exact E|]. split; [|now apply B].
  intros i j V. destruct (A i j V) as [X Y]. split; [exact X|]. now apply Y.
Qed.
Print Assumptions C29_lookahead_partial.

(** Concrete cases: ^-?\d+(?:,\d+)*$, ^\w+(?:-\w+)*@\w+$, ^(?:yes|no)$|^[a-f]+$ and ^(\w+)=(\d+)$. *)
Definition anch (l : list (atom * quant)) : br := Br true (seqs l).
Definition word : atom := AEl (EEsc 119).
Definition r_nums : rx := ROne (anch [(lit "-", opt); (digits, plus); (ANon (pat [(lit ",", Q1); (digits, plus)]), star)]).
Definition r_mail : rx := ROne (anch [(word, plus); (ANon (pat [(lit "-", Q1); (word, plus)]), star); (lit "@", Q1); (word, plus)]).
Definition r_yes : rx := ROr (anch [(ANon (or2 (chs "yes") (chs "no")), Q1)]) (ROne (anch [(AEl (EClass false [CRange 97 102]), plus)])).
Definition r_pair : sq := seqs [(ACap 0 (pat [(word, plus)]), Q1); (lit "=", Q1); (ACap 1 (pat [(digits, plus)]), Q1)].
Definition accepts (r : rx) (w : str) : bool := is_accepted (st_of (create (default_fuel w) (env_of [] w [0%Z]) (node_of (show_d r)))).
Example C47_lookahead_case :
  (forall r, In r [r_nums; r_mail; r_yes; ROne (Br true r_pair)] -> wf r = true /\ nopos r = true /\ look_d r = true /\ anchored r = true)
  /\ show_d r_nums = S2L "^-?\d+(?:,\d+)*$" /\ show_d r_mail = S2L "^\w+(?:-\w+)*@\w+$" /\ show_d r_yes = S2L "^(?:yes|no)$|^[a-f]+$"
  /\ map (accepts r_nums) [S2L "-12,3"; S2L "7"; S2L "12,"; S2L "-"; S2L "1,2,34"] = [true; true; false; false; true]
  /\ map (accepts r_mail) [S2L "a-b@c"; S2L "a-@c"; S2L "ab@"; S2L "ab@cd"] = [true; false; false; true]
  /\ map (accepts r_yes) [S2L "yes"; S2L "no"; S2L "nof"; S2L "fade"] = [true; true; false; true].
Proof. split; [intros r [<-|[<-|[<-|[<-|[]]]]]; conj; vm_compute; reflexivity|]. conj; vm_compute; reflexivity. Qed.
Example C47_lookahead_captures_case : let r := ROne (Br true r_pair) in
  wf r = true /\ nopos r = true /\ look_d r = true /\ catches r = true /\ show_d r = S2L "^(\w+)=(\d+)$"
  /\ splits (S2L "key=42") r_pair 0 6 [(0, 3); (4, 6)]
  /\ exists t, create 30 (env_of [] (S2L "key=42") [0%Z]) (node_of (show_d r)) = RDone t /\ is_accepted t = true
     /\ get_group t 1 = Some (Some (place [] 0 3)) /\ get_group t 2 = Some (Some (place [] 4 6)).
Proof.
  intro r. split; [vm_compute; reflexivity|]. split; [vm_compute; reflexivity|]. split; [vm_compute; reflexivity|]. split; [vm_compute; reflexivity|]. split; [vm_compute; reflexivity|]. split.
  - assert (IN : In (6, [(1, (4, 6)); (0, (0, 3))]) (sem_sq (S2L "key=42") r_pair (0, []))) by (vm_compute; left; reflexivity).
    destruct (caught_splits (S2L "key=42") eq_refl r_pair 0 (0, []) _ eq_refl eq_refl IN) as (l & D1 & D2 & D3). pose proof (D3 0) as X. pose proof (D3 1) as Y. destruct l as [|u [|v [|z l]]]; try discriminate D2. cbn in X, Y. injection X as <-. injection Y as <-. exact D1.
  - eexists. conj; vm_compute; reflexivity.
Qed.
Example C29_lookahead_case : let r := pat [(lit "#", Q1); (word, plus); (ANon (pat [(lit "-", Q1); (word, plus)]), star)] in
  wf r = true /\ nopos r = true /\ look_d r = true /\ opens_all r = true /\ show_d r = S2L "#\w+(?:-\w+)*$"
  /\ to_view (st_of (create 30 (env_of [] (S2L "#a b #c-d") [0%Z]) (node_of (show_d r)))) = Some (5, 9)%Z.
Proof. intro r. conj; vm_compute; reflexivity. Qed.

(** Without the condition: ^(?:x|xy)z$ does not accept its text "xyz". *)
Theorem C47_lookahead_refuted : exists r w n s, wf r = true /\ nopos r = true /\ anchored r = true /\ look_d r = false
  /\ show_d r = S2L "^(?:x|xy)z$" /\ compile (show_d r) = Some n /\ lang w r 0 (length w)
  /\ create (default_fuel w) (env_of [] w [0%Z]) n = RDone s /\ is_accepted s = false.
Proof.
  exists (ROne (anch [(ANon (or2 (chs "x") (chs "xy")), Q1); (lit "z", Q1)])), (S2L "xyz"), (node_of (S2L "^(?:x|xy)z$")), (st_of (create 4 (env_of [] (S2L "xyz") [0%Z]) (node_of (S2L "^(?:x|xy)z$")))).
  conj; try (vm_compute; reflexivity).
  apply (match_at_lang (S2L "xyz") (ROne (anch [(ANon (or2 (chs "x") (chs "xy")), Q1); (lit "z", Q1)])) 0 (3, []) eq_refl). vm_compute. reflexivity.
Qed.
Print Assumptions C47_lookahead_refuted.
