(** The sets of first characters the library computes, and when they contain every possible
    first character. *)
From Coq Require Import ZArith NArith List Bool Lia ZifyBool ZifyNat ZifyN.
From Verif Require Import Base Text Ast Builder Engine Api Spec SpecProofs SpecEnd Tree Den Checker CheckerProofs AstProofs BuilderProofs Main.
Import ListNotations.
Open Scope nat_scope.

Definition memb (c : Z) (l : list Z) : bool := existsb (Z.eqb c) l.
Definition subb (a b : list Z) : bool := forallb (fun c => memb c b) a.
Fixpoint ascb (l : list Z) : bool :=
  match l with [] => true | a :: r => forallb (Z.ltb a) r && ascb r end.
Lemma memb_in c l : memb c l = true <-> In c l.
Proof. unfold memb. rewrite existsb_exists. split; [intros (x & Hx & E); apply Z.eqb_eq in E; now subst|intro H; exists c; split; [exact H|apply Z.eqb_refl]]. Qed.
Lemma subb_in a b : subb a b = true <-> forall c, In c a -> In c b.
Proof. unfold subb. rewrite forallb_forall. split; intros H c Hc; apply memb_in; auto. Qed.
Lemma ascb_ok l : ascb l = true -> asc l.
Proof.
  induction l as [|a l IH]; intro H; [constructor|]. cbn in H. apply andb_true_iff in H as [A B]. constructor; [now apply IH|].
  apply Forall_forall. intros x Hx. rewrite forallb_forall in A. specialize (A x Hx). lia.
Qed.

(** [admok n]: the set the library computes for [n] has all the ASCII characters a match of
    [n] can begin with.  What fails: alternatives and classes with several items, of which
    only the first is looked at (unless it can be empty). *)
Fixpoint admok (n : node) : bool :=
  match n with
  | Term t => match tset t with Some P => forallb (fun c => implb (P c) (memb c (term_adm t))) (adm_range 0 127) | None => match t with TEnd => false | _ => true end end
  | SimpleV cs => forallb admok cs && forallb (fun c => subb (nadm c) (nadm n)) cs
  | Simple m cs => admok m && (is_nil cs || (if N.eqb (nmin m) 0 then forallb admok cs else nonnull m))
  | Greedy m mn _ cs | Lazy m mn _ cs | Possessive m mn _ cs => admok m && (if N.eqb mn 0 then forallb admok cs else nonnull m)
  | Repeated m k cs => admok m && nonnull m && negb (N.eqb k 0)
  | Group m _ cs => admok m && (is_nil cs || nonnull m)
  | Negated m => match uset m with
                 | Some P => ascb (nadm m) && forallb (fun c => (0 <=? c)%Z && (c <=? 127)%Z && P c) (nadm m)
                 | None => false
                 end
  end.

Section F.
Variable w : str.
Notation den := (den w).
(** Every nonempty match of [a] begins with a character of [A] (or one that is not ASCII). *)
Definition begins (A : list Z) (a : outs) : Prop :=
  forall c c', In c' (a c) -> fst c <= length w -> fst c < fst c' ->
  exists x, nth_error w (fst c) = Some x /\ ((0 <= x <= 127)%Z -> In x A).
Definition strict (a : outs) : Prop := forall c c', In c' (a c) -> fst c <= length w -> fst c < fst c'.
Lemma begins_sub A B a : (forall x, In x A -> In x B) -> begins A a -> begins B a.
Proof. intros S H c c' I L Lt. destruct (H c c' I L Lt) as (x & E & X). exists x. auto. Qed.
Lemma begins_seq A a b : fwd w a -> begins A a -> begins A b -> begins A (seq_o a b).
Proof.
  intros F Ha Hb c c' I L Lt. unfold seq_o in I. apply in_flat_map in I as (c1 & I1 & I2). pose proof (F _ _ I1 L).
  destruct (Nat.eq_dec (fst c1) (fst c)) as [E|].
  - rewrite <- E. apply (Hb c1 c'); auto; lia.
  - apply (Ha c c1); auto; lia.
Qed.
Lemma begins_strict A a b : strict a -> begins A a -> begins A (seq_o a b).
Proof.
  intros S Ha c c' I L Lt. unfold seq_o in I. apply in_flat_map in I as (c1 & I1 & I2). apply (Ha c c1); auto.
Qed.
Lemma begins_eps A : begins A eps_o.
Proof. intros c c' [<-|[]] L Lt. lia. Qed.
Lemma begins_pow A a n : fwd w a -> begins A a -> begins A (pow_o n a).
Proof. intros F H. induction n; cbn [pow_o]; [apply begins_eps|now apply begins_seq]. Qed.
Lemma begins_most A a n : fwd w a -> begins A a -> begins A (most_o n a).
Proof.
  intros F H. induction n as [|n IH]; intros c c' I L Lt; cbn [most_o] in I.
  - destruct I as [<-|[]]. lia.
  - apply in_app_iff in I as [I|[<-|[]]]; [|lia]. apply in_flat_map in I as (c1 & I1 & I2). apply progress_in in I1 as [I1 N].
    pose proof (F _ _ I1 L). apply (H c c1); auto; lia.
Qed.
Lemma begins_least A a n : fwd w a -> begins A a -> begins A (least_o n a).
Proof.
  intros F H. induction n as [|n IH]; intros c c' I L Lt; cbn [least_o] in I.
  - destruct I as [<-|[]]. lia.
  - destruct I as [<-|I]; [lia|]. apply in_flat_map in I as (c1 & I1 & I2). apply progress_in in I1 as [I1 N].
    pose proof (F _ _ I1 L). apply (H c c1); auto; lia.
Qed.
Lemma begins_rep A a g mn mx : fwd w a -> begins A a -> begins A (rep_o w g mn mx a).
Proof.
  intros F H. pose proof (begins_seq A _ _ (fwd_pow w (N.to_nat mn) a F) (begins_pow A a (N.to_nat mn) F H) (begins_most A a (extra w mn mx) F H)) as M.
  destruct g; cbn [rep_o]; [exact M| |].
  - apply begins_seq; [now apply fwd_pow|now apply begins_pow|now apply begins_least].
  - intros c c' I. apply firstn1_in in I. now apply M.
Qed.
Lemma strict_pow a k : fwd w a -> strict a -> k <> 0 -> strict (pow_o k a).
Proof.
  intros F S N. destruct k as [|k]; [congruence|]. intros c c' I L. cbn [pow_o] in I. unfold seq_o in I. apply in_flat_map in I as (c1 & I1 & I2).
  pose proof (S _ _ I1 L). pose proof (F _ _ I1 L) as B. pose proof (fwd_pow w k a F _ _ I2 ltac:(lia)). lia.
Qed.
Lemma strict_rep a g mn mx : fwd w a -> strict a -> mn <> 0%N -> strict (rep_o w g mn mx a).
Proof.
  intros F S N. assert (X : forall b, fwd w b -> strict (seq_o (pow_o (N.to_nat mn) a) b)).
  { intros b Fb c c' I L. unfold seq_o in I. apply in_flat_map in I as (c1 & I1 & I2).
    pose proof (strict_pow a (N.to_nat mn) F S ltac:(lia) _ _ I1 L). pose proof (fwd_pow w (N.to_nat mn) a F _ _ I1 L). pose proof (Fb _ _ I2 ltac:(lia)). lia. }
  destruct g; cbn [rep_o]; [apply X; now apply fwd_most|apply X; now apply fwd_least|].
  intros c c' I. apply firstn1_in in I. revert c c' I. apply X. now apply fwd_most.
Qed.
Lemma begins_alts A l : Forall (begins A) l -> begins A (alts l).
Proof.
  induction 1 as [|a l H F IH]; [intros c c' []|]. cbn [alts]. destruct l as [|b l]; [exact H|]. intros c c' I L Lt. unfold or_o in I.
  apply in_app_iff in I as [I|I]; [now apply (H c c')|now apply (IH c c')].
Qed.
Lemma begins_kids A cs : Forall (fun n => begins (nadm n) (den n)) cs -> (forall n, In n cs -> forall x, In x (nadm n) -> In x A) -> begins A (kidso (map den cs)).
Proof.
  intros H S. destruct cs as [|c cs]; [apply begins_eps|]. cbn [map kidso]. change (den c :: map den cs) with (map den (c :: cs)). apply begins_alts.
  apply Forall_forall. intros a Ha. apply in_map_iff in Ha as (n & <- & Hn). rewrite Forall_forall in H. apply (begins_sub (nadm n)); [exact (S n Hn)|exact (H n Hn)].
Qed.
Lemma strict_den n : nonnull n = true -> strict (den n).
Proof. intros H c c' I L. pose proof (nonnull_lt w n c c' H I L). lia. Qed.
Lemma quant_begins g n mn mx cs : begins (nadm n) (den n) -> Forall (fun n => admok n = true -> begins (nadm n) (den n)) cs -> (if N.eqb mn 0 then forallb admok cs else nonnull n) = true ->
  begins (if N.eqb mn 0 then extract_adm (nadm n :: map nadm cs) else nadm n) (seq_o (rep_o w g mn mx (den n)) (kidso (map den cs))).
Proof.
  intros IHn KF C. destruct (N.eqb_spec mn 0) as [Z|Z].
  - rewrite forallb_forall in C. assert (KF2 : Forall (fun n => begins (nadm n) (den n)) cs) by (rewrite Forall_forall in *; auto). clear KF; rename KF2 into KF. apply begins_seq; [apply fwd_rep, den_fwd| |].
    + apply (begins_sub (nadm n)); [|apply begins_rep; [apply den_fwd|exact IHn]]. intros x Hx. apply extract_in. exists (nadm n). split; [now left|exact Hx].
    + apply begins_kids; [exact KF|]. intros m Hm x Hx. apply extract_in. exists (nadm m). split; [right; now apply in_map|exact Hx].
  - apply begins_strict; [apply strict_rep; [apply den_fwd|now apply strict_den|exact Z]|]. apply begins_rep; [apply den_fwd|exact IHn].
Qed.
Lemma adm_first n : admok n = true -> begins (nadm n) (den n).
Proof.
  induction n using node_ind'; intro Hk; cbn [admok] in Hk.
  - intros c c' I L Lt. cbn [Den.den] in I. cbn [nadm]. destruct (tset t) as [P|] eqn:T.
    + assert (I' : In c' (chr_o w P c)) by (destruct t; cbn [tset] in T; try discriminate; exact I). unfold chr_o in I'.
      destruct (nth_error w (fst c)) as [x|]; [|destruct I']. exists x. split; [reflexivity|]. intro B. destruct (P x) eqn:Px; [|destruct I'].
      rewrite forallb_forall in Hk. specialize (Hk x). rewrite Px in Hk. cbn [implb] in Hk. apply memb_in, Hk. apply adm_range_in. exact B.
    + exfalso. destruct t; cbn [tset] in T; try discriminate; cbn [tset] in I; try discriminate Hk; try (rewrite T in I); try (destruct I).
      unfold bol_o in I. destruct (Nat.eqb (fst c) 0); [|destruct I]. destruct I as [<-|[]]. lia.
  - cbn [Den.den]. apply andb_true_iff in Hk as [A B]. rewrite forallb_forall in A, B. apply begins_kids.
    + rewrite Forall_forall in *. intros n Hn. apply H; auto.
    + intros n Hn. apply subb_in, B, Hn.
  - apply andb_true_iff in Hk as [A C]. specialize (IHn A). cbn [Den.den nadm]. destruct cs as [|k cs].
    + apply begins_seq; [apply den_fwd|exact IHn|apply begins_eps].
    + change (is_nil (k :: cs)) with false in C. rewrite orb_false_l in C. destruct (N.eqb (nmin n) 0) eqn:Z.
      * assert (KF : Forall (fun n => begins (nadm n) (den n)) (k :: cs)) by (rewrite forallb_forall in C; rewrite Forall_forall in *; auto). apply begins_seq; [apply den_fwd| |].
        -- apply (begins_sub (nadm n)); [|exact IHn]. intros x Hx. apply extract_in. exists (nadm n). split; [now left|exact Hx].
        -- apply begins_kids; [exact KF|]. intros m Hm x Hx. apply extract_in. exists (nadm m). split; [right; now apply in_map|exact Hx].
      * apply begins_strict; [now apply strict_den|exact IHn].
  - apply andb_true_iff in Hk as [A C]. specialize (IHn A). now apply quant_begins.
  - apply andb_true_iff in Hk as [A C]. specialize (IHn A). now apply quant_begins.
  - apply andb_true_iff in Hk as [A C]. specialize (IHn A). now apply quant_begins.
  - rewrite !andb_true_iff in Hk. destruct Hk as [[A N] K]. cbn [Den.den nadm]. apply begins_strict.
    + apply strict_pow; [apply den_fwd|now apply strict_den|]. apply negb_true_iff, N.eqb_neq in K. lia.
    + apply begins_pow; [apply den_fwd|now apply IHn].
  - rewrite !andb_true_iff in Hk. destruct Hk as [A N]. specialize (IHn A). cbn [Den.den nadm].
    assert (B : begins (nadm n) (cap_o i (den n))).
    { intros c c' I L Lt. unfold cap_o in I. apply in_map_iff in I as (c1 & <- & I). apply (IHn c c1); auto. }
    destruct cs as [|k cs].
    + apply begins_seq; [apply fwd_cap, den_fwd|exact B|apply begins_eps].
    + apply begins_strict; [|exact B]. intros c c' I L. unfold cap_o in I. apply in_map_iff in I as (c1 & <- & I). exact (strict_den n N c c1 I L).
  - destruct (uset n) as [P|] eqn:U; [|discriminate]. apply andb_true_iff in Hk as [A B]. intros c c' I L Lt. cbn [Den.den nadm] in *.
    unfold not_o in I. destruct (nth_error w (fst c)) as [x|] eqn:E; [|destruct I]. exists x. split; [reflexivity|]. intro Bx.
    destruct (den n c) as [|d l] eqn:D; [|destruct I]. rewrite forallb_forall in B.
    apply complement_in; [now apply ascb_ok| |].
    + apply Forall_forall. intros y Hy. specialize (B y Hy). lia.
    + split; [exact Bx|]. intro Hx. specialize (B x Hx). destruct (uset_den w n P U c) as [_ X].
      apply (X x E); [lia|exact D].
Qed.
End F.

(** A pattern whose first characters the library computes correctly. *)
Definition first_ok_rx (r : rx) : bool := wf r && nopos r && ascb (nadm (tree (renumber r))) && admok (tree (renumber r)).
Lemma lang_den w r i j : wf r = true -> nopos r = true -> lang w r i j -> i <= length w -> exists l, In (j, l) (den w (tree (renumber r)) (i, [])).
Proof.
  intros W N L Hi. destruct (sem_complete w r i j [] N L Hi) as (l & I).
  pose proof (proj1 (renumber_peq w) r false 0 (i, []) (i, []) eq_refl) as PE. fold (renumber r) in PE.
  assert (I2 : In j (map fst (sem w (renumber r) (i, [])))) by (rewrite PE; apply in_map_iff; exists (j, l); auto).
  apply in_map_iff in I2 as ((j' & l') & E & I2). cbn in E. subst j'.
  assert (W' : wf (renumber r) = true) by (unfold renumber; rewrite (proj1 renumber_wf); exact W).
  set (K := fun c : nat * list (nat * (nat * nat)) => if Nat.eqb (fst c) j then [c] else []).
  pose proof (den_tree w (renumber r) W' K Logic.I (i, [])) as Q. unfold first_ok in Q.
  destruct (flat_map K (sem w (renumber r) (i, []))) as [|x xs] eqn:F.
  - exfalso. assert (X : In (j, l') (flat_map K (sem w (renumber r) (i, [])))) by (apply in_flat_map; exists (j, l'); split; [exact I2|]; unfold K; cbn; rewrite Nat.eqb_refl; now left).
    rewrite F in X. destruct X.
  - destruct (flat_map K (den w (tree (renumber r)) (i, []))) as [|y ys] eqn:F2; [discriminate|].
    assert (X : In y (flat_map K (den w (tree (renumber r)) (i, [])))) by (rewrite F2; now left).
    apply in_flat_map in X as ((j2 & l2) & I3 & X). unfold K in X. cbn in X. destruct (Nat.eqb_spec j2 j) as [->|]; [|destruct X]. eauto.
Qed.
Lemma first_char w r i j : first_ok_rx r = true -> lang w r i j -> i < j -> i <= length w ->
  exists x, nth_error w i = Some x /\ ((0 <= x <= 127)%Z -> In x (nadm (tree (renumber r)))).
Proof.
  unfold first_ok_rx. rewrite !andb_true_iff. intros [[[W N] A] O] L Lt Hi. destruct (lang_den w r i j W N L Hi) as (l & I).
  exact (adm_first w _ O _ _ I Hi Lt).
Qed.
