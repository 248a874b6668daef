(** C55: searching for items of several kinds (SpecAlts.v). *)
From Coq Require Import String ZArith NArith List Bool Lia ZifyBool ZifyNat ZifyN.
From Verif Require Import Base Text Ast Builder BuilderProofs Engine Api ApiProofs Spec Tree SpecProofs SpecEnd Den Checker Supported Main Find Refuted PropertiesMatch SpecFields SpecChoice SpecAlts Fields FieldsPre ChoiceSem Choice Alts PropertiesChoice.
Import ListNotations.
Open Scope nat_scope.

Lemma fronts_reads w cs i : i <= length w -> fronts cs (skipn i w) <-> exists q, reads w cs i q.
Proof.
  intro Hi. split.
  - intros (k & p & Hk & D). exists p. apply reads_divides. exists k. split; [exact Hk|]. split; [exact D|]. destruct D as [_ D]. rewrite D, firstn_length. rewrite skipn_length in *. lia.
  - intros (q & R). apply reads_divides in R as (k & Hk & D & _). exists k, q. auto.
Qed.
Lemma picks_unique alts u p q : picks alts u p -> picks alts u q -> p = q.
Proof.
  intro H. revert q. induction H as [cs r u p B|cs r u p N H IH]; intros q Q; inversion Q as [cs' r' u' q' B'|cs' r' u' q' N' H']; subst.
  - exact (C54_unique cs u p q B B').
  - elim N'. destruct B as [(k & Hk & D) _]. now exists k, p.
  - elim N. destruct B' as [(k & Hk & D) _]. now exists k, q.
  - now apply IH.
Qed.
(** The specified match at a position is the item there. *)
Lemma arx_match w i : i <= length w -> forall r cs, forallb item_ok (cs :: r) = true ->
  match match_at w (arx cs r) i with
  | Some (j, _) => exists p, picks (cs :: r) (skipn i w) p /\ j = i + length (concat p) /\ 0 < length (concat p)
  | None => forall p, ~ picks (cs :: r) (skipn i w) p
  end.
Proof.
  intro Hi.
  assert (ONE : forall cs, item_ok cs = true -> match hd_error (sem_br w (Br false (csq cs 0)) (i, [])) with
    | Some (j, _) => exists p, best_front cs (skipn i w) p /\ j = i + length (concat p) /\ 0 < length (concat p)
    | None => ~ fronts cs (skipn i w) end).
  { intros cs H. destruct (item_parts cs H) as (C & _ & O). destruct (choice_parts false cs C) as (F & _). pose proof (crx_match w cs i F Hi) as M.
    change (match_at w (crx false cs) i) with (hd_error (sem_br w (Br false (csq cs 0)) (i, []))) in M. destruct (hd_error _) as [[j l]|].
    - destruct M as (p & _ & -> & B & _). exists p. split; [exact B|]. split; [reflexivity|]. destruct B as [(k & _ & [D _]) _]. apply opening_begins in O.
      destruct cs as [|c r]; [discriminate O|]. cbn [fields map] in D. inversion D as [|f u fs us X Y]; subst. cbn [concat]. rewrite app_length.
      destruct (item_parts _ H) as (_ & _ & O'). cbn [opening] in O'. apply andb_true_iff in O' as [_ O']. destruct X as [_ X]. destruct (f_am (ch_f c)); try discriminate O'; [lia|]. destruct u; [congruence|cbn [length]; lia].
    - intro X. apply fronts_reads in X as (q & R); [|exact Hi]. exact (M q R). }
  induction r as [|c r IH]; intros cs H; cbn [forallb] in H; apply andb_true_iff in H as [H1 H2]; specialize (ONE cs H1).
  - change (match_at w (arx cs []) i) with (hd_error (sem_br w (Br false (csq cs 0)) (i, []))). destruct (hd_error _) as [[j l]|].
    + destruct ONE as (p & B & E). exists p. split; [now apply pick_here|exact E].
    + intros p P. inversion P as [a b u q B|a b u q N P']; subst; [|inversion P']. apply ONE. destruct B as [(k & Hk & D) _]. now exists k, p.
  - specialize (IH c H2). unfold match_at in *. change (sem w (arx cs (c :: r)) (i, [])) with (sem_br w (Br false (csq cs 0)) (i, []) ++ sem w (arx c r) (i, [])).
    destruct (sem_br w (Br false (csq cs 0)) (i, [])) as [|[j l] o]; cbn [hd_error app] in *.
    + destruct (hd_error (sem w (arx c r) (i, []))) as [[j l]|].
      * destruct IH as (p & P & E). exists p. split; [now apply pick_later|exact E].
      * intros p P. inversion P as [a b u q B|a b u q N P']; subst; [|exact (IH p P')]. apply ONE. destruct B as [(k & Hk & D) _]. now exists k, p.
    + destruct ONE as (p & B & E). exists p. split; [now apply pick_here|exact E].
Qed.
Lemma arx_items w cs r : forallb item_ok (cs :: r) = true -> forall m i, i <= length w -> length w - i < m -> items (cs :: r) w i (find_all w (arx cs r) m i).
Proof.
  intro H. induction m as [|m IH]; intros i Hi Hm; [lia|]. cbn [find_all]. destruct (search w (arx cs r) i) as [[p [j l]]|] eqn:S.
  - apply search_some in S as (B & M & L). pose proof (arx_match w p ltac:(lia) r cs H) as X. rewrite M in X. destruct X as (q & P & -> & Pos).
    apply one_item; [exact B|exact P| |].
    + intros k' q' Hk. pose proof (arx_match w k' ltac:(lia) r cs H) as Y. rewrite (L k' Hk) in Y. apply Y.
    + destruct P as [a b u t Bf|a b u t N P'] eqn:E; clear E.
      all: assert (p + length (concat t) <= length w) by (pose proof (match_at_fwd w _ _ _ M ltac:(lia)) as Z; cbn [fst] in Z; lia); apply IH; lia.
  - apply no_items. intros k q Hk. pose proof (arx_match w k ltac:(lia) r cs H) as Y. rewrite (search_none w _ i S k Hk) in Y. apply Y.
Qed.
Lemma items_unique alts w i l : items alts w i l -> forall l', items alts w i l' -> l = l'.
Proof.
  intro H. induction H as [i N|i k p l B P L H IH]; intros l' H'.
  - inversion H' as [|i' k p l B P]; subst; [reflexivity|]. now elim (N k p B).
  - inversion H' as [i' N'|i' k' p' m B' P' L' H'']; subst; [now elim (N' k p B)|].
    assert (k = k') as <-. { destruct (Nat.lt_trichotomy k k') as [X|[X|X]]; [|exact X|]; [now elim (L' k p ltac:(lia))|now elim (L k' p' ltac:(lia))]. }
    rewrite (picks_unique _ _ _ _ P P') in *. f_equal. now apply IH.
Qed.

(** C55.  Searching with a|b|c, where every alternative is a list of fields that opens with a
    single character or is x+: create() finds the leftmost item, next() and range-for the items
    one after the other, each at the leftmost position from the end of the last one on; at that
    position the first alternative that fits is taken, in the division that is preferred. *)
Theorem C55_items_partial : forall alts pre w post, alts <> [] -> forallb item_ok alts = true -> query_ok w -> post <> [] ->
  exists n s l, compile (show_alts alts) = Some n
  /\ create (default_fuel w) (env_of pre w post) n = RDone s
  /\ items alts w 0 l
  /\ visits (env_of pre w post) n s (map (fun x => Some (place pre (fst x) (snd x))) l)
  /\ (forall res, exists steps fuel, range_for steps fuel (env_of pre w post) n res = Some (map (fun x => Some (place pre (fst x) (snd x))) l)).
Proof.
  intros alts pre w post N H Q P. destruct alts as [|cs r]; [congruence|]. destruct (arx_supported cs r H) as [S NP]. pose proof (sup_compile _ S) as C. rewrite (show_arx r cs H) in C.
  assert (NE : forall i c, i <= length w -> match_at w (arx cs r) i = Some c -> i < fst c).
  { intros i [j l] Hi M. pose proof (arx_match w i Hi r cs H) as X. rewrite M in X. destruct X as (p & _ & -> & Z). cbn [fst]. lia. }
  destruct (create_visits (arx cs r) pre w post S Q P NE) as (s & E & V).
  exists (ctree (arx cs r)), s, (find_all w (arx cs r) (Datatypes.S (length w)) 0). split; [exact C|]. split; [exact E|]. split; [apply arx_items; [exact H|lia|lia]|]. split; [exact V|].
  intro res. apply range_for_iff. exists (Datatypes.S (length w)), s. auto.
Qed.
Print Assumptions C55_items_partial.
(** The items of a text are determined by the specification. *)
Theorem C55_unique : forall alts w i l l', items alts w i l -> items alts w i l' -> l = l'.
Proof. intros alts w i l l' A B. exact (items_unique alts w i l A l' B). Qed.
Print Assumptions C55_unique.
(** Strings, comments, words and numbers. *)
Definition ex_alts : list (list choice) :=
  [ [gr false (ELit 34) One; gr false (EClass true [CChar 34]) Star; gr false (ELit 34) One];
    [gr false (ELit 35) One; gr false EDot Star];
    [gr false (EClass false [CRange 97 122]) Plus];
    [gr false (EEsc 100) Plus] ].
Definition ex_text : str := S2L "ab ""c 1"" 23#x".
Lemma ex_fit f u : forallb (elem_set (f_el f)) u = true -> match f_am f with One => length u =? 1 | Times ds => (Z.of_nat (length u) =? num_val ds)%Z | Plus => negb (length u =? 0) | Star => true end = true -> fits f u.
Proof.
  intros A B. split; [apply Forall_forall; now apply forallb_forall|]. destruct (f_am f).
  - now apply Nat.eqb_eq.
  - now apply Z.eqb_eq.
  - intros ->. discriminate B.
  - exact Logic.I.
Qed.
Example C55_case : forallb item_ok ex_alts = true /\ show_alts ex_alts = S2L """[^""]*""|#.*|[a-z]+|\d+"
  /\ items ex_alts ex_text 0 [(0, 2); (3, 8); (9, 11); (11, 13)]
  /\ exists steps fuel, range_for steps fuel (env_of [] ex_text [0%Z]) (node_of (show_alts ex_alts)) (mkSt 0 0 [] false)
     = Some [Some (place [] 0 2); Some (place [] 3 8); Some (place [] 9 11); Some (place [] 11 13)].
Proof.
  assert (K : forallb item_ok ex_alts = true) by (vm_compute; reflexivity).
  split; [exact K|]. split; [vm_compute; reflexivity|]. split; [|exists 9, 20; vm_compute; reflexivity].
  pose proof (arx_items ex_text _ _ K 14 0 ltac:(vm_compute; lia) ltac:(vm_compute; lia)) as X.
  change (items ex_alts ex_text 0 (find_all ex_text (arx (hd [] ex_alts) (tl ex_alts)) 14 0)) in X.
  assert (E : find_all ex_text (arx (hd [] ex_alts) (tl ex_alts)) 14 0 = [(0, 2); (3, 8); (9, 11); (11, 13)]) by (vm_compute; reflexivity).
  rewrite E in X. exact X.
Qed.
(** An alternative that opens with a run: after a+b has failed on "aac" the position is behind
    the run, and c is found there -- the view begins with the run.  The only item is "c". *)
Theorem C55_items_refuted : exists alts w n s,
  forallb (fun cs => choice_ok false cs && forallb (fun c => negb (f_cap (ch_f c))) cs) alts = true
  /\ picks alts (skipn 2 w) [[99%Z]] /\ (forall k p, k < 2 -> ~ picks alts (skipn k w) p)
  /\ compile (show_alts alts) = Some n /\ create (default_fuel w) (env_of [] w [0%Z]) n = RDone s
  /\ to_view s = Some (place [] 0 3).
Proof.
  set (ab := [gr false (ELit 97) Plus; gr false (ELit 98) One]). set (c := [gr false (ELit 99) One]).
  exists [ab; c], (S2L "aac"), (node_of (S2L "a+b|c")), (st_of (create 9 (env_of [] (S2L "aac") [0%Z]) (node_of (S2L "a+b|c")))).
  split; [vm_compute; reflexivity|].
  assert (NB : forall k, k <= 3 -> ~ fronts ab (skipn k (S2L "aac"))).
  { intros k Hk F. apply fronts_reads in F as (q & R); [|exact Hk]. pose proof (crx_match (S2L "aac") ab k ltac:(vm_compute; reflexivity) Hk) as M.
    assert (E : match_at (S2L "aac") (crx false ab) k = None) by (destruct k as [|[|[|[|k]]]]; try lia; vm_compute; reflexivity). rewrite E in M. exact (M q R). }
  assert (NC : forall k, k < 2 -> ~ fronts c (skipn k (S2L "aac"))).
  { intros k Hk F. assert (Hk' : k <= length (S2L "aac")) by (cbn; lia). apply fronts_reads in F as (q & R); [|exact Hk']. pose proof (crx_match (S2L "aac") c k ltac:(vm_compute; reflexivity) Hk') as M.
    assert (E : match_at (S2L "aac") (crx false c) k = None) by (destruct k as [|[|k]]; try lia; vm_compute; reflexivity). rewrite E in M. exact (M q R). }
  split; [|split; [|split; [|split]; vm_compute; reflexivity]].
  - apply pick_later; [apply NB; lia|]. apply pick_here. pose proof (crx_match (S2L "aac") c 2 ltac:(vm_compute; reflexivity) ltac:(cbn; lia)) as M.
    split.
    + exists 1. split; [cbn; lia|]. split; [|reflexivity]. constructor; [apply ex_fit; reflexivity|constructor].
    + intros k q _ [D _]. inversion D as [|f u fs us X Y]; subst. inversion Y; subst. destruct X as [_ X]. cbn [before]. right. split; [now symmetry|exact Logic.I].
  - intros k p Hk X. inversion X as [a b u q B|a b u q N X']; subst.
    + apply (NB k ltac:(lia)). destruct B as [(m & Hm & D) _]. now exists m, p.
    + inversion X' as [a b u q B|a b u q N' X'']; subst; [|inversion X'']. apply (NC k Hk). destruct B as [(m & Hm & D) _]. now exists m, p.
Qed.
Print Assumptions C55_items_refuted.
