(** C57: structured bindings. *)
From Coq Require Import String ZArith NArith List Bool Lia ZifyBool ZifyNat ZifyN.
From Verif Require Import Base Text Ast Builder Engine Api Spec Tree ApiProofs Safe Supported Main Find Refuted PropertiesMatch PropertiesTree SpecFields PropertiesFields.
Import ListNotations.
Open Scope nat_scope.

Lemma bind_list (f : nat -> option view) k : forall a, (forall i, a <= i < a + k -> f i <> None) ->
  exists l, fold_right (fun i acc => match f i, acc with Some v, Some l => Some (v :: l) | _, _ => None end) (Some []) (seq a k) = Some l
  /\ length l = k /\ forall i, i < k -> nth_error l i = f (a + i).
Proof.
  induction k as [|k IH]; intros a H; cbn [seq fold_right].
  - exists []. split; [reflexivity|]. split; [reflexivity|]. intros i Hi. lia.
  - destruct (IH (S a)) as (l & -> & L & N); [intros i Hi; apply H; lia|]. destruct (f a) as [v|] eqn:E; [|exfalso; apply (H a); [lia|exact E]].
    exists (v :: l). split; [reflexivity|]. split; [cbn; lia|]. intros [|i] Hi; cbn [nth_error]; [now rewrite Nat.add_0_r|]. rewrite N by lia. f_equal. lia.
Qed.
(** C57.  For every pattern with at least one capture (every pattern that does not compile to a
    single terminal), and every result that can be reached: auto [x0, ..., xk] = result compiles
    with exactly groups() + 1 names, x0 is the match and xi is result[i]; and get<i>() compiles
    for exactly these i.
    Missing: patterns of a single character (C57_bindings_refuted). *)
Theorem C57_bindings_partial : forall p n e s, compile p = Some n -> 0 < groups_of n \/ has_groups n = true -> reach e n s ->
  exists l, tuple_size n = Some (groups_of n + 1) /\ bindings n s = Some l /\ length l = groups_of n + 1
  /\ nth_error l 0 = Some (to_view s)
  /\ (forall i, i <= groups_of n -> nth_error l i = get_group s i /\ get_static n s i = get_group s i /\ get_group s i <> None)
  /\ (forall i, groups_of n < i -> get_static n s i = None).
Proof.
  intros p n e s C H R. assert (G : has_groups n = true) by (destruct H as [H|H]; [destruct n; [cbn in H; lia|reflexivity..]|exact H]). clear H.
  destruct (proj1 (C11_captures_in_bounds p n C) e s R) as [L B]. unfold bindings, tuple_size. rewrite G. unfold groups_of in *. replace (S (ngroups n)) with (ngroups n + 1) by lia.
  assert (GS : forall i, i <= ngroups n -> get_static n s i = get_group s i) by (intros i Hi; unfold get_static; rewrite G; apply Nat.leb_le in Hi; now rewrite Hi).
  destruct (bind_list (get_static n s) (ngroups n + 1) 0) as (l & E & Ll & N).
  { intros i Hi. rewrite GS by lia. apply B. lia. }
  exists l. split; [reflexivity|]. split; [exact E|]. split; [exact Ll|]. split.
  - rewrite N by lia. now rewrite GS by lia.
  - split; [intros i Hi; rewrite N by lia; rewrite GS by lia; auto|]. intros i Hi. unfold get_static. rewrite G. cbn [andb]. now replace (i <=? ngroups n) with false by lia.
Qed.
Print Assumptions C57_bindings_partial.

(** ... and for the patterns ^fields$ of C51 with a captured field: the names of
    auto [whole, f1, ..., fk] = match are bound to the query and to the captured parts, in order,
    if the query consists of such fields. *)
Theorem C57_fields_partial : forall fs pre w post parts, fields_ok fs = true -> existsb f_cap fs = true ->
  query_ok w -> ~ In 10%Z w -> (exists c p, post = c :: p /\ c <> 10%Z) -> divides fs parts w ->
  exists n s, compile ([94%Z] ++ show_fields fs ++ [36%Z]) = Some n
  /\ create (default_fuel w) (env_of pre w post) n = RDone s
  /\ bindings n s = Some (Some (place pre 0 (length w)) :: map (fun x => Some (place pre (fst x) (snd x))) (spans fs parts 0)).
Proof.
  intros fs pre w post parts F CP Q NL P D. destruct (C51_fields_partial fs pre w post F Q NL P) as (n & s & C & G & CR & _ & _ & X). destruct (X parts D) as (V & LS & GG). exists n, s. split; [exact C|]. split; [exact CR|].
  assert (GP : 0 < groups_of n). { rewrite G. apply existsb_exists in CP as (f & I & Hf). assert (Y : In f (filter f_cap fs)) by (apply filter_In; auto). destruct (filter f_cap fs); [destruct Y|cbn; lia]. }
  destruct (C57_bindings_partial _ n _ s C (or_introl GP) (ReachCreate _ _ _ _ CR)) as (l & _ & B & LL & N0 & NI & _). rewrite B. f_equal.
  destruct l as [|v l]; [discriminate N0|]. cbn in N0. injection N0 as ->. rewrite V. f_equal. cbn [length] in LL.
  assert (E : forall k, nth_error l k = nth_error (map (fun x => Some (place pre (fst x) (snd x))) (spans fs parts 0)) k).
  { intro k. destruct (nth_error (spans fs parts 0) k) as [[a b]|] eqn:K.
    - rewrite (map_nth_error _ k _ K). assert (Hk : k < groups_of n) by (rewrite <- LS; apply nth_error_Some; congruence). destruct (NI (S k) ltac:(lia)) as [N1 _]. cbn [nth_error] in N1. rewrite N1. now apply GG.
    - apply nth_error_None in K. rewrite (proj2 (nth_error_None l k)) by lia. symmetry. apply nth_error_None. now rewrite map_length. }
  clear -E. revert E. generalize (map (fun x => Some (place pre (fst x) (snd x))) (spans fs parts 0)). induction l as [|x l IH]; intros [|y l'] E; [reflexivity|discriminate (E 0)|discriminate (E 0)|]. pose proof (E 0) as E0. cbn in E0. injection E0 as ->. f_equal. apply IH. intro k. exact (E (S k)).
Qed.
Print Assumptions C57_fields_partial.
(** The example of the README. *)
Example C57_case : existsb f_cap date_fields = true /\ fields_ok date_fields = true
  /\ match compile (S2L "^(\d{4})-(\d{2})-(\d{2})$"%string) with
     | Some n => match create 20 (env_of [] (S2L "1970-01-01"%string) [0%Z]) n with
                 | RDone s => tuple_size n = Some 4 /\ bindings n s = Some [Some (0, 10); Some (0, 4); Some (5, 7); Some (8, 10)]%Z
                 | _ => False end
     | None => False end.
Proof. conj; vm_compute; try reflexivity. split; reflexivity. Qed.
Example C57_bare_case : match compile (S2L "a+"%string) with Some n => groups_of n = 0 /\ has_groups n = true | None => False end.
Proof. vm_compute. split; reflexivity. Qed.

(** A pattern of a single character compiles to a terminal, which has no member [groups]:
    auto [x] = match and get<0>() do not compile, although result[0] is defined. *)
Theorem C57_bindings_refuted : exists n s, compile (S2L "a"%string) = Some n
  /\ create 2 (env_of [] (S2L "a"%string) [0%Z]) n = RDone s /\ is_accepted s = true
  /\ get_group s 0 = Some (Some (0, 1)%Z) /\ tuple_size n = None /\ bindings n s = None /\ get_static n s 0 = None.
Proof. eexists. eexists. conj; vm_compute; reflexivity. Qed.
Print Assumptions C57_bindings_refuted.
