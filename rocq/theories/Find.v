(** What the public API reports for a supported pattern. *)
From Coq Require Import ZArith NArith List Bool Lia ZifyBool ZifyNat ZifyN.
From Verif Require Import Base Text Ast Builder Engine Api Spec SpecProofs SpecEnd Tree ParseProofs Den Checker CheckerProofs AstProofs BuilderProofs EngineRel EngineProofs EngineOk EngineGood EngineMain OptProofs ApiProofs Runs Scan Supported Main Captures.
Import ListNotations.
Open Scope nat_scope.

(** The view of characters [i..j) of a query that is preceded by [pre] in memory. *)
Definition place (pre : str) (i j : nat) : Z * Z :=
  (Z.of_nat (length pre + i), Z.of_nat (length pre + j)).
(** The result [s] shows what the search found: nothing, or the text [i..j). *)
Definition shows (pre : str) (s : st) (o : option (nat * (nat * list (nat * (nat * nat))))) : Prop :=
  to_view s = match o with Some (i, (j, _)) => Some (place pre i j) | None => None end.
(** The captures of [s] are those of the match found (slot k is result[k+1]). *)
Definition shows_captures (pre : str) (n : nat) (s : st) (o : option (nat * (nat * list (nat * (nat * nat))))) : Prop :=
  match o with
  | Some (_, (_, l)) => forall k, k < n ->
      get_group s (S k) = Some (match slot k l with Some (a, b) => Some (place pre a b) | None => None end)
  | None => True
  end.

Lemma at_place pre i : at_ pre i = Z.of_nat (length pre + i).
Proof. unfold at_. lia. Qed.
Lemma nth_upd pre d : forall g k, k < length g ->
  nth_error (upd pre d g) k = match slot k d with Some (a, b) => Some (Some (place pre a b)) | None => nth_error g k end.
Proof.
  induction d as [|[x [a b]] d IH]; intros g k Hk; cbn [upd slot]; [reflexivity|].
  rewrite nth_upd1, upd_length. rewrite (proj2 (Nat.ltb_lt k (length g)) Hk), andb_true_r, (Nat.eqb_sym k x).
  destruct (Nat.eqb_spec x k); [|now apply IH]. cbn [fst snd]. unfold place. now rewrite !at_place.
Qed.

Section Find.
Variables (r : rx) (pre w post : str).
Notation e := (env_of pre w post).
Notation n := (ctree r).
Hypothesis Hs : supported r = true.
Hypothesis Hq : query_ok w.
Hypothesis Hp : post <> [].

Lemma ctree_groups : ngroups n = length (caps r).
Proof.
  unfold ctree. rewrite optimize_ngroups, ngroups_tree. unfold renumber. apply caps_length.
Qed.
(** What is known about a result [s] of a search over [k] positions from [i] on. *)
Definition good_result (s : st) (o : option (nat * (nat * list (nat * (nat * nat))))) (i : nat) : Prop :=
  shows pre s o
  /\ (is_accepted s = true -> exists j q, to_view s = Some (place pre j q) /\ s_end s = at_ pre q /\ i <= j <= q /\ q <= length w)
  /\ (exists q, s_end s = at_ pre q /\ i <= q <= S (length w) /\ (s_acc s = false -> length w <= q))
  /\ (captures_ok r = true -> shows_captures pre (length (caps r)) s o)
  /\ (is_accepted s = false -> gcl n = true -> s_grp s = no_groups n).
Lemma shows_found o k i g : i + k <= S (length w) -> (g = no_groups n) -> found pre w n o k i g ->
  exists s, o = RDone s /\ good_result s (search_from w r k i) i.
Proof.
  intros Hk Hg F. unfold found in F. rewrite (sup_dsr r w Hs Hq) in F by exact Hk.
  pose proof (search_from_renumber w r k i) as SP. unfold good_result.
  destruct (search_from w (renumber r) k i) as [[p [j d]]|] eqn:S1; destruct (search_from w r k i) as [[p2 [j2 d2]]|] eqn:S2;
    cbn in SP; try discriminate.
  - injection SP as <- <-. destruct F as (B1 & B2 & g' & -> & LG & X). eexists. split; [reflexivity|].
    unfold shows, to_view, is_accepted, EngineOk.mk. cbn [s_acc s_start s_end]. conj.
    + unfold place. now rewrite !at_place.
    + intros _. exists p, j. conj; try lia. unfold place. now rewrite !at_place.
    + exists j. conj; try lia; try discriminate.
    + intro C. unfold captures_ok in C. rewrite !andb_true_iff in C. destruct C as [[C1 C2] C3].
      apply nats_eqb_eq in C1. pose proof (proj1 caps_eq r false 0 C1) as RE. fold (renumber r) in RE.
      rewrite RE in S1. rewrite S1 in S2. injection S2 as <-.
      destruct (X C2) as (g0 & L0 & -> & Y). unfold shows_captures. intros k0 Hk0.
      rewrite ctree_groups in L0. cbn [get_group s_grp]. rewrite nth_upd by lia.
      destruct (slot k0 d) as [[a b]|] eqn:SL; [reflexivity|].
      apply orb_true_iff in C3 as [C3|C3].
      * rewrite (Y C3), Hg. unfold no_groups. rewrite nth_error_repeat; [reflexivity|]. rewrite ctree_groups. exact Hk0.
      * exfalso. apply search_from_some in S1. destruct S1 as (_ & M & _). exact (covers_slots w r p (j, d) C3 M k0 Hk0 SL).
    + discriminate.
  - destruct F as (q & g' & -> & B1 & B2 & LG & X). eexists. split; [reflexivity|].
    unfold shows, to_view, is_accepted, EngineOk.mk. cbn [s_acc s_start s_end]. conj; auto; try discriminate.
    + exists q. conj; auto; lia.
    + exact (fun _ => I).
    + intros _ C. cbn [s_grp]. rewrite (X C). exact Hg.
Qed.
Lemma create_found fuel : length w < fuel -> exists s, create fuel e n = RDone s /\ good_result s (search w r 0) 0.
Proof.
  intro Hf. rewrite <- search_first. apply (shows_found _ _ _ (no_groups n)); [lia|reflexivity|].
  apply (sup_create r pre w post Hs Hq (or_introl Hp)). exact Hf.
Qed.
Lemma next_found fuel s q : s_end s = at_ pre q -> q <= S (length w) -> length w < fuel + q ->
  exists s', next fuel e n s = RDone s' /\ good_result s' (search_from w r (length w - q) q) q.
Proof.
  intros E Hq' Hf. apply (shows_found _ _ _ (no_groups n)); [lia|reflexivity|].
  pose proof (sup_next r pre w post Hs Hq (or_introl Hp) fuel (s_start s) q (s_grp s) (s_acc s) Hq' Hf) as F.
  unfold EngineOk.mk in F. rewrite <- E in F. destruct s; exact F.
Qed.
(** Every result a program can obtain stopped somewhere in the query (or just past it). *)
Lemma reach_place s : reach e n s -> exists q, s_end s = at_ pre q /\ q <= S (length w) /\ (s_acc s = false -> length w <= q).
Proof.
  induction 1 as [fuel s H|fuel s s' _ (q & E & B & _) H].
  - destruct (create_found (S (length w)) (Nat.lt_succ_diag_r _)) as (s2 & E2 & _ & _ & (q & E & B) & _).
    apply (create_more _ _ _ (fuel + S (length w))) in H; [|lia]. apply (create_more _ _ _ (fuel + S (length w))) in E2; [|lia].
    rewrite H in E2. injection E2 as <-. exists q. intuition.
  - destruct (next_found (S (length w)) s q E B ltac:(lia)) as (s2 & E2 & _ & _ & (q2 & E3 & B2) & _).
    apply (next_more _ _ _ (fuel + S (length w))) in H; [|lia]. apply (next_more _ _ _ (fuel + S (length w))) in E2; [|lia].
    rewrite H in E2. injection E2 as <-. exists q2. intuition.
Qed.
(** The texts read by calling next() until it fails. *)
Lemma visits_found : (forall i c, i <= length w -> match_at w r i = Some c -> i < fst c) ->
  forall m q s, length w - q < m -> q <= S (length w) -> s_end s = at_ pre q -> is_accepted s = true ->
  visits e n s (to_view s :: map (fun x => Some (place pre (fst x) (snd x))) (find_all w r m q)).
Proof.
  intros NE. assert (NL : match_at w r (length w) = None).
  { destruct (match_at w r (length w)) as [c|] eqn:M; [|reflexivity]. pose proof (NE (length w) c (Nat.le_refl _) M).
    pose proof (match_at_fwd w r _ _ M (Nat.le_refl _)). lia. }
  induction m as [|m IH]; intros q s Hm Hq' E A; [lia|].
  destruct (next_found (S (length w)) s q E Hq' ltac:(lia)) as (s' & N & SH & AC & (q2 & E2 & B2 & R2) & _).
  eapply VisitGo; [exact A|exact N|].
  assert (SE : search_from w r (length w - q) q = search w r q).
  { destruct (Nat.lt_ge_cases q (length w)) as [Q|Q]; [now apply search_short|].
    unfold search. destruct (Nat.eq_dec q (length w)) as [->|].
    - rewrite Nat.sub_diag. replace (S (length w) - length w) with 1 by lia. cbn [search_from]. now rewrite NL.
    - replace (length w - q) with 0 by lia. replace (S (length w) - q) with 0 by lia. reflexivity. }
  rewrite SE in SH. unfold shows in SH. cbn [find_all]. destruct (search w r q) as [[i [j l]]|] eqn:SR.
  - assert (A' : is_accepted s' = true) by (unfold to_view in SH; destruct (is_accepted s'); [reflexivity|discriminate]).
    destruct (AC A') as (i2 & j2 & V & E3 & B3 & B4). rewrite V in SH. injection SH as Hi Hj.
    assert (i2 = i) as -> by lia. assert (j2 = j) as -> by lia.
    assert (i < j). { apply search_some in SR. destruct SR as (B5 & M & _). apply (NE i (j, l)); [lia|exact M]. }
    cbn [map fst snd]. rewrite <- V. apply IH; auto; lia.
  - cbn [map]. apply VisitStop. unfold to_view in SH. destruct (is_accepted s'); [discriminate|reflexivity].
Qed.
Lemma create_visits : (forall i c, i <= length w -> match_at w r i = Some c -> i < fst c) ->
  exists s, create (S (length w)) e n = RDone s
    /\ visits e n s (map (fun x => Some (place pre (fst x) (snd x))) (find_all w r (S (length w)) 0)).
Proof.
  intro NE. destruct (create_found (S (length w)) (Nat.lt_succ_diag_r _)) as (s & C & SH & AC & (q2 & E2 & B2 & R2) & _).
  exists s. split; [exact C|]. unfold shows in SH. cbn [find_all]. destruct (search w r 0) as [[i [j l]]|] eqn:SR.
  - assert (A' : is_accepted s = true) by (unfold to_view in SH; destruct (is_accepted s); [reflexivity|discriminate]).
    destruct (AC A') as (i2 & j2 & V & E3 & B3 & B4). rewrite V in SH. injection SH as Hi Hj.
    assert (i2 = i) as -> by lia. assert (j2 = j) as -> by lia.
    assert (i < j). { apply search_some in SR. destruct SR as (B5 & M & _). apply (NE i (j, l)); [lia|exact M]. }
    cbn [map fst snd]. rewrite <- V. apply visits_found; auto; lia.
  - cbn [map]. apply VisitStop. unfold to_view in SH. destruct (is_accepted s); [discriminate|reflexivity].
Qed.
End Find.
