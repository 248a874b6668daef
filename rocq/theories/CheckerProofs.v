(** The analyses of Checker.v are right about the semantics of Den.v. *)
From Coq Require Import ZArith NArith List Bool Lia ZifyBool ZifyNat ZifyN.
From Verif Require Import Base Text Ast Builder Engine Spec SpecProofs Den Checker AstProofs.
Import ListNotations.
Open Scope nat_scope.

Lemma Forall_map_iff {A B} (f : A -> B) (P : B -> Prop) l : Forall P (map f l) <-> Forall (fun x => P (f x)) l.
Proof. apply Forall_map. Qed.

Ltac in1 H := first [destruct H as [<-|[]] | destruct H].
Section Sem.
Variable w : str.
Notation den := (den w).

(** ** The log only grows, and nothing depends on it *)
Definition shift (l : list (nat * (nat * nat))) (c : nat * list (nat * (nat * nat))) := (fst c, snd c ++ l).
Definition logp (a : outs) : Prop := forall j d l, a (j, d ++ l) = map (shift l) (a (j, d)).
Lemma logp_shift a c l : logp a -> a (shift l c) = map (shift l) (a c).
Proof. intro H. destruct c as [j d]. apply H. Qed.
Lemma flat_map_shift b l x : logp b -> flat_map b (map (shift l) x) = map (shift l) (flat_map b x).
Proof.
  intro H. induction x as [|c x IH]; [reflexivity|]. cbn. now rewrite map_app, IH, logp_shift.
Qed.
Lemma logp_eps : logp eps_o.
Proof. intros j d l. reflexivity. Qed.
Lemma logp_none : logp none_o.
Proof. intros j d l. reflexivity. Qed.
Lemma logp_chr P : logp (chr_o w P).
Proof. intros j d l. unfold chr_o. cbn. destruct (nth_error w j) as [x|]; [|reflexivity]. destruct (P x); reflexivity. Qed.
Lemma logp_bol : logp bol_o.
Proof. intros j d l. unfold bol_o. cbn. destruct (Nat.eqb j 0); reflexivity. Qed.
Lemma logp_eol : logp (eol_o w).
Proof. intros j d l. unfold eol_o. cbn [fst]. destruct (Nat.eqb j (length w)); [reflexivity|apply logp_chr]. Qed.
Lemma logp_seq a b : logp a -> logp b -> logp (seq_o a b).
Proof. intros Ha Hb j d l. unfold seq_o. rewrite Ha. now apply flat_map_shift. Qed.
Lemma logp_or a b : logp a -> logp b -> logp (or_o a b).
Proof. intros Ha Hb j d l. unfold or_o. now rewrite Ha, Hb, map_app. Qed.
Lemma logp_cap i a : logp a -> logp (cap_o i a).
Proof.
  intros Ha j d l. unfold cap_o. cbn [fst snd]. rewrite Ha, !map_map. apply map_ext. intros [k x]. reflexivity.
Qed.
Lemma logp_pow n a : logp a -> logp (pow_o n a).
Proof. intro Ha. induction n as [|n IH]; cbn; [apply logp_eps|now apply logp_seq]. Qed.
Lemma progress_shift l c x : progress (shift l c) (map (shift l) x) = map (shift l) (progress c x).
Proof.
  unfold progress. change (fst (shift l c)) with (fst c). induction x as [|y x IH]; [reflexivity|].
  cbn [map filter]. change (fst (shift l y)) with (fst y). destruct (negb _); cbn [map]; now rewrite IH.
Qed.
Lemma logp_most n a : logp a -> logp (most_o n a).
Proof.
  intro Ha. induction n as [|n IH]; intros j d l; [reflexivity|]. cbn [most_o].
  rewrite Ha. change (j, d ++ l) with (shift l (j, d)). rewrite progress_shift, flat_map_shift by exact IH.
  now rewrite map_app.
Qed.
Lemma logp_least n a : logp a -> logp (least_o n a).
Proof.
  intro Ha. induction n as [|n IH]; intros j d l; [reflexivity|]. cbn [least_o].
  rewrite Ha. change (j, d ++ l) with (shift l (j, d)). rewrite progress_shift, flat_map_shift by exact IH.
  reflexivity.
Qed.
Lemma logp_atomic a : logp a -> logp (atomic_o a).
Proof. intros Ha j d l. unfold atomic_o. rewrite Ha. destruct (a (j, d)); reflexivity. Qed.
Lemma logp_rep g mn mx a : logp a -> logp (rep_o w g mn mx a).
Proof.
  intro Ha. destruct g; cbn; [| |apply logp_atomic]; apply logp_seq; auto using logp_pow, logp_most, logp_least.
Qed.
Lemma logp_not a : logp a -> logp (not_o w a).
Proof. intros Ha j d l. unfold not_o. cbn. destruct (nth_error w j); [|reflexivity]. rewrite Ha. destruct (a (j, d)); reflexivity. Qed.
Lemma logp_alts l : Forall logp l -> logp (alts l).
Proof.
  induction 1 as [|a l Ha Hl IH]; [apply logp_none|]. destruct l; [exact Ha|]. rewrite alts_cons by discriminate.
  now apply logp_or.
Qed.
Lemma logp_kids l : Forall logp l -> logp (kidso l).
Proof. intro H. pose proof (logp_alts _ H). destruct l; [apply logp_eps|assumption]. Qed.
Lemma den_log n : logp (den n).
Proof.
  induction n using node_ind'; cbn [Den.den];
    try (match goal with H : @Forall node _ ?cs |- _ => rewrite <- Forall_map_iff in H; apply logp_kids in H end);
    auto using logp_seq, logp_rep, logp_pow, logp_cap, logp_not.
  destruct t; try apply logp_bol; try apply logp_eol; (destruct (tset _); [apply logp_chr|apply logp_none]).
Qed.
Lemma den_at n i l : den n (i, l) = map (shift l) (den n (i, [])).
Proof. apply (den_log n i [] l). Qed.
Lemma hd_map {A B} (f : A -> B) l : hd_error (map f l) = option_map f (hd_error l).
Proof. destruct l; reflexivity. Qed.
Lemma den_hd n i l : hd_error (den n (i, l)) = option_map (shift l) (hd_error (den n (i, []))).
Proof. now rewrite den_at, hd_map. Qed.
Lemma den_nil n i l l' : den n (i, l) = [] -> den n (i, l') = [].
Proof. rewrite (den_at n i l), (den_at n i l'). destruct (den n (i, [])); [reflexivity|discriminate]. Qed.

(** ** Positions move forward, inside the text *)
Definition fwd (a : outs) : Prop := forall c c', In c' (a c) -> fst c <= length w -> fst c <= fst c' <= length w.
Lemma fwd_chr P : fwd (chr_o w P).
Proof.
  intros c c' H L. unfold chr_o in H. destruct (nth_error w (fst c)) as [x|] eqn:E; [|destruct H].
  destruct (P x); in1 H. cbn.
  assert (fst c < length w) by (apply nth_error_Some; congruence). lia.
Qed.
Lemma fwd_eps : fwd eps_o.
Proof. intros c c' [<-|[]] L. lia. Qed.
Lemma fwd_bol : fwd bol_o.
Proof. intros c c' H L. unfold bol_o in H. destruct (Nat.eqb _ _); in1 H. lia. Qed.
Lemma fwd_eol : fwd (eol_o w).
Proof.
  intros c c' H L. unfold eol_o in H. destruct (Nat.eqb _ _); [in1 H; lia|]. exact (fwd_chr _ _ _ H L).
Qed.
Lemma fwd_none : fwd none_o.
Proof. intros c c' []. Qed.
Lemma fwd_seq a b : fwd a -> fwd b -> fwd (seq_o a b).
Proof.
  intros Ha Hb c c' H L. unfold seq_o in H. apply in_flat_map in H as (d & A & B).
  apply Ha in A; auto. apply Hb in B; lia.
Qed.
Lemma fwd_or a b : fwd a -> fwd b -> fwd (or_o a b).
Proof. intros Ha Hb c c' H L. apply in_app_iff in H as [H|H]; [now apply Ha|now apply Hb]. Qed.
Lemma fwd_cap i a : fwd a -> fwd (cap_o i a).
Proof. intros Ha c c' H L. apply in_map_iff in H as (d & <- & H). apply Ha in H; auto. Qed.
Lemma fwd_pow n a : fwd a -> fwd (pow_o n a).
Proof. intro Ha. induction n as [|n IH]; cbn; [apply fwd_eps|now apply fwd_seq]. Qed.
Lemma fwd_most n a : fwd a -> fwd (most_o n a).
Proof.
  intro Ha. induction n as [|n IH]; intros c c' H L; cbn in H; [in1 H; lia|].
  apply in_app_iff in H as [H|[<-|[]]]; [|lia].
  apply in_flat_map in H as (d & A & B). apply progress_in in A as [A _]. apply Ha in A; auto. apply IH in B; lia.
Qed.
Lemma fwd_least n a : fwd a -> fwd (least_o n a).
Proof.
  intro Ha. induction n as [|n IH]; intros c c' H L; cbn in H; [in1 H; lia|].
  destruct H as [<-|H]; [lia|].
  apply in_flat_map in H as (d & A & B). apply progress_in in A as [A _]. apply Ha in A; auto. apply IH in B; lia.
Qed.
Lemma fwd_atomic a : fwd a -> fwd (atomic_o a).
Proof. intros Ha c c' H L. apply firstn1_in in H. apply Ha in H; auto. Qed.
Lemma fwd_rep g mn mx a : fwd a -> fwd (rep_o w g mn mx a).
Proof. intro Ha. destruct g; cbn; [| |apply fwd_atomic]; apply fwd_seq; auto using fwd_pow, fwd_most, fwd_least. Qed.
Lemma fwd_not a : fwd (not_o w a).
Proof.
  intros c c' H L. unfold not_o in H. destruct (nth_error w (fst c)) as [x|] eqn:E; [|destruct H].
  destruct (a c); in1 H. cbn.
  assert (fst c < length w) by (apply nth_error_Some; congruence). lia.
Qed.
Lemma fwd_alts l : Forall fwd l -> fwd (alts l).
Proof.
  induction 1 as [|a l Ha Hl IH]; [apply fwd_none|]. destruct l; [exact Ha|]. rewrite alts_cons by discriminate.
  now apply fwd_or.
Qed.
Lemma fwd_kids l : Forall fwd l -> fwd (kidso l).
Proof. intro H. pose proof (fwd_alts _ H). destruct l; [apply fwd_eps|assumption]. Qed.
Lemma den_fwd n : fwd (den n).
Proof.
  induction n using node_ind'; cbn [Den.den];
    try (match goal with H : @Forall node _ ?cs |- _ => rewrite <- Forall_map_iff in H; apply fwd_kids in H end);
    auto using fwd_seq, fwd_rep, fwd_pow, fwd_cap, fwd_not.
  destruct t; try apply fwd_bol; try apply fwd_eol; (destruct (tset _); [apply fwd_chr|apply fwd_none]).
Qed.

(** ** One-character nodes *)
Definition unit_like (a : outs) (P : Z -> bool) : Prop :=
  forall c, (forall c', In c' (a c) -> c' = (S (fst c), snd c) /\ exists x, nth_error w (fst c) = Some x /\ P x = true)
  /\ (forall x, nth_error w (fst c) = Some x -> P x = true -> a c <> []).
Lemma unit_chr P : unit_like (chr_o w P) P.
Proof.
  intro c. unfold chr_o. destruct (nth_error w (fst c)) as [x|]; split.
  - intros c' H. destruct (P x) eqn:E; in1 H. split; [reflexivity|eauto].
  - intros y [= ->] ->. discriminate.
  - intros c' [].
  - discriminate.
Qed.
Lemma unit_or a b P Q : unit_like a P -> unit_like b Q -> unit_like (or_o a b) (fun x => P x || Q x).
Proof.
  intros Ha Hb c. destruct (Ha c) as [A1 A2], (Hb c) as [B1 B2]. unfold or_o. split.
  - intros c' H. apply in_app_iff in H as [H|H].
    + destruct (A1 _ H) as (-> & x & E & Px). split; [reflexivity|]. exists x. now rewrite E, Px.
    + destruct (B1 _ H) as (-> & x & E & Px). split; [reflexivity|]. exists x. now rewrite E, Px, orb_true_r.
  - intros x E H. apply orb_true_iff in H as [H|H].
    + specialize (A2 x E H). destruct (a c); [congruence|discriminate].
    + specialize (B2 x E H). destruct (a c), (b c); try congruence; discriminate.
Qed.
Lemma unit_not a P : unit_like a P -> unit_like (not_o w a) (fun x => negb (P x)).
Proof.
  intros Ha c. destruct (Ha c) as [A1 A2]. unfold not_o. destruct (nth_error w (fst c)) as [x|] eqn:E; split.
  - intros c' H. destruct (a c) eqn:AE; [|destruct H]. in1 H. split; [reflexivity|].
    exists x. split; [reflexivity|]. destruct (P x) eqn:Px; [|reflexivity]. exfalso. now apply (A2 x eq_refl Px).
  - intros y [= ->] Hy. destruct (a c) as [|d l] eqn:AE; [discriminate|]. exfalso.
    destruct (A1 d (or_introl eq_refl)) as (_ & z & Ez & Pz). injection Ez as ->. now rewrite Pz in Hy.
  - intros c' [].
  - discriminate.
Qed.
Lemma unit_ext a b P : (forall c, a c = b c) -> unit_like a P -> unit_like b P.
Proof. intros E H c. rewrite <- E. apply H. Qed.
Lemma unit_alts cs P : Forall (fun n => forall P, uset n = Some P -> unit_like (den n) P) cs ->
  usets (map uset cs) = Some P -> unit_like (kidso (map den cs)) P.
Proof.
  intros H. destruct cs as [|c cs]; [discriminate|]. cbn [map kidso].
  revert c P H. induction cs as [|d cs IH]; intros c P H U; inversion H as [|? ? Hc Hcs]; subst.
  - cbn in *. now apply Hc.
  - cbn [map] in *. rewrite alts_cons by discriminate.
    cbn [usets] in U. destruct (uset c) as [Q|] eqn:Ec; [|discriminate].
    destruct (usets (uset d :: map uset cs)) as [R|] eqn:Er; [|cbn [usets] in Er; rewrite Er in U; discriminate].
    cbn [usets] in Er. rewrite Er in U. injection U as <-. apply unit_or; [now apply Hc|].
    apply IH; [assumption|exact Er].
Qed.
Lemma uset_den n : forall P, uset n = Some P -> unit_like (den n) P.
Proof.
  induction n using node_ind'; intros P0 U; cbn [uset] in U; try discriminate.
  - cbn [Den.den]. destruct t; try discriminate; rewrite U; apply unit_chr.
  - cbn [Den.den]. now apply unit_alts.
  - destruct cs; [|discriminate]. cbn [Den.den map kidso].
    eapply unit_ext; [intro c; symmetry; apply seq_eps_r|]. now apply IHn.
  - destruct (uset n) as [Q|]; [|discriminate]. injection U as <-. cbn [Den.den]. apply unit_not. now apply IHn.
Qed.
Lemma unit_hd a P i l : unit_like a P ->
  hd_error (a (i, l)) = match nth_error w i with Some x => if P x then Some (S i, l) else None | None => None end.
Proof.
  intro H. destruct (H (i, l)) as [A B]. cbn [fst snd] in *. destruct (a (i, l)) as [|d r] eqn:E; cbn.
  - destruct (nth_error w i) as [x|]; [|reflexivity]. destruct (P x) eqn:Px; [|reflexivity]. exfalso. now apply (B x).
  - destruct (A d (or_introl eq_refl)) as (-> & x & -> & ->). reflexivity.
Qed.

(** ** Prefixes *)
Fixpoint hasp (l : list (Z -> bool)) (i : nat) : Prop :=
  match l with [] => True | P :: r => (exists x, nth_error w i = Some x /\ P x = true) /\ hasp r (S i) end.
Definition pok (p : pfx) (i j : nat) : Prop :=
  hasp (fst p) i /\ i + length (fst p) <= j /\ (snd p = true -> j = i + length (fst p)).
Definition pre_for (a : outs) (p : pfx) : Prop := forall c c', In c' (a c) -> fst c <= length w -> pok p (fst c) (fst c').
Lemma hasp_app l1 l2 : forall i, hasp (l1 ++ l2) i <-> hasp l1 i /\ hasp l2 (i + length l1).
Proof.
  induction l1 as [|P l1 IH]; intro i; cbn.
  - rewrite Nat.add_0_r. tauto.
  - rewrite IH. replace (S i + length l1) with (i + S (length l1)) by lia. tauto.
Qed.
Lemma hasp_zip_l l1 : forall l2 i, hasp l1 i -> hasp (zipu l1 l2) i.
Proof.
  induction l1 as [|P l1 IH]; intros [|Q l2] i H; cbn in *; auto. destruct H as [(x & E & Px) H].
  split; [|now apply IH]. exists x. now rewrite E, Px.
Qed.
Lemma hasp_zip_r l1 : forall l2 i, hasp l2 i -> hasp (zipu l1 l2) i.
Proof.
  induction l1 as [|P l1 IH]; intros [|Q l2] i H; cbn in *; auto. destruct H as [(x & E & Px) H].
  split; [|now apply IH]. exists x. now rewrite E, Px, orb_true_r.
Qed.
Lemma zipu_length l1 : forall l2, length (zipu l1 l2) = Nat.min (length l1) (length l2).
Proof. induction l1 as [|P l1 IH]; intros [|Q l2]; cbn; auto. Qed.
Lemma hasp_firstn k l i : hasp l i -> hasp (firstn k l) i.
Proof. revert l i. induction k as [|k IH]; intros [|P l] i H; cbn in *; auto. destruct H. auto. Qed.
Lemma pre_seq a b p q : fwd a -> pre_for a p -> fwd b -> pre_for b q -> pre_for (seq_o a b) (seqp p q).
Proof.
  intros Fa Pa Fb Pb c c' H L. unfold seq_o in H. apply in_flat_map in H as (d & A & B).
  pose proof (Fa _ _ A L) as LA. pose proof (Pa _ _ A L) as (A1 & A2 & A3).
  pose proof (Fb _ _ B ltac:(lia)) as LB. pose proof (Pb _ _ B ltac:(lia)) as (B1 & B2 & B3).
  unfold seqp. destruct (snd p) eqn:E.
  - specialize (A3 eq_refl). unfold pok. cbn. rewrite hasp_app, app_length. rewrite <- A3.
    split; [tauto|]. split; [lia|]. intro S. specialize (B3 S). lia.
  - repeat split; auto; [lia|]. congruence.
Qed.
Lemma pre_or a b p q : pre_for a p -> pre_for b q -> pre_for (or_o a b) (orp p q).
Proof.
  intros Pa Pb c c' H L. unfold or_o in H. unfold pok, orp. cbn [fst snd]. rewrite zipu_length.
  apply in_app_iff in H as [H|H].
  - destruct (Pa _ _ H L) as (A1 & A2 & A3). split; [now apply hasp_zip_l|]. split; [lia|].
    rewrite !andb_true_iff, Nat.eqb_eq. intros [[S1 S2] S3]. rewrite A3 by exact S1. lia.
  - destruct (Pb _ _ H L) as (A1 & A2 & A3). split; [now apply hasp_zip_r|]. split; [lia|].
    rewrite !andb_true_iff, Nat.eqb_eq. intros [[S1 S2] S3]. rewrite A3 by exact S2. lia.
Qed.
Lemma pre_eps : pre_for eps_o ([], true).
Proof. intros c c' [<-|[]] L. split; [exact I|]. cbn. lia. Qed.
Lemma pre_nil a : fwd a -> pre_for a ([], false).
Proof. intros F c c' H L. split; [exact I|]. apply F in H; auto. cbn. split; [lia|discriminate]. Qed.
Lemma pre_pow a p n : fwd a -> pre_for a p -> pre_for (pow_o n a) (powp n p).
Proof.
  intros Fa Pa. induction n as [|n IH]; cbn; [apply pre_eps|]. apply pre_seq; auto. now apply fwd_pow.
Qed.
Lemma pok_weaken p i j : pok p i j -> pok (fst p, false) i j.
Proof. intros (A & B & _). repeat split; auto. discriminate. Qed.
Lemma pow_add a n m c : pow_o (n + m) a c = seq_o (pow_o n a) (pow_o m a) c.
Proof.
  revert c. induction n as [|n IH]; intro c.
  - cbn. unfold seq_o, eps_o. cbn. now rewrite app_nil_r.
  - cbn [Nat.add pow_o]. unfold seq_o. rewrite flat_map_flat_map. apply flat_map_ext. intro x. exact (IH x).
Qed.
Lemma pre_min a p n : fwd a -> pre_for a p -> pre_for (pow_o (N.to_nat n) a) (minp n p, false).
Proof.
  intros Fa Pa c c' H L. set (m := N.to_nat (N.min n 8)).
  replace (N.to_nat n) with (m + (N.to_nat n - m)) in H by lia. rewrite pow_add in H.
  unfold seq_o in H. apply in_flat_map in H as (d & A & B).
  pose proof (pre_pow a p m Fa Pa _ _ A L) as (A1 & A2 & A3).
  pose proof (fwd_pow m a Fa _ _ A L). pose proof (fwd_pow _ a Fa _ _ B ltac:(lia)).
  split; [exact A1|]. cbn [fst snd]. split; [|discriminate]. unfold minp. fold m. lia.
Qed.
Lemma pre_rep_min g mn mx a p b : fwd a -> pre_for a p -> fwd b ->
  pre_for (seq_o (rep_o w g mn mx a) b) (minp mn p, false).
Proof.
  intros Fa Pa Fb.
  assert (X : forall b', fwd b' -> pre_for (seq_o (pow_o (N.to_nat mn) a) b') (minp mn p, false)).
  { intros b' Fb' c c' H L. unfold seq_o in H. apply in_flat_map in H as (d & A & B).
    pose proof (pre_min a p mn Fa Pa _ _ A L) as (A1 & A2 & _). pose proof (fwd_pow _ a Fa _ _ A L).
    pose proof (Fb' _ _ B ltac:(lia)). split; [exact A1|]. cbn [fst snd] in *. split; [lia|discriminate]. }
  intros c c' H L. unfold seq_o at 1 in H. apply in_flat_map in H as (d & A & B).
  assert (A' : pok (minp mn p, false) (fst c) (fst d)).
  { destruct g; cbn [rep_o] in A.
    - refine (X _ _ _ _ A L). now apply fwd_most.
    - refine (X _ _ _ _ A L). now apply fwd_least.
    - unfold atomic_o in A. apply firstn1_in in A. refine (X _ _ _ _ A L). now apply fwd_most. }
  destruct A' as (A1 & A2 & _). assert (LD : fst d <= length w).
  { apply (fwd_rep g mn mx a Fa) in A; lia. }
  pose proof (Fb _ _ B LD). split; [exact A1|]. cbn [fst snd] in *. split; [lia|discriminate].
Qed.
Lemma most_first n a p c c' : fwd a -> pre_for a p -> In c' (most_o n a c) -> fst c <= length w -> c' = c \/ hasp (fst p) (fst c).
Proof.
  intros Fa Pa H L. destruct n as [|n]; cbn in H; [in1 H; auto|].
  apply in_app_iff in H as [H|[<-|[]]]; [|auto].
  apply in_flat_map in H as (d & A & B). apply progress_in in A as [A _]. right. now apply (Pa _ _ A L).
Qed.
Lemma least_first n a p c c' : fwd a -> pre_for a p -> In c' (least_o n a c) -> fst c <= length w -> c' = c \/ hasp (fst p) (fst c).
Proof.
  intros Fa Pa H L. destruct n as [|n]; cbn in H; [in1 H; auto|].
  destruct H as [<-|H]; [auto|].
  apply in_flat_map in H as (d & A & B). apply progress_in in A as [A _]. right. now apply (Pa _ _ A L).
Qed.
Lemma rep_first g mx a p c c' : fwd a -> pre_for a p -> In c' (rep_o w g 0 mx a c) -> fst c <= length w -> c' = c \/ hasp (fst p) (fst c).
Proof.
  intros Fa Pa H L.
  assert (S : forall b, In c' (seq_o (pow_o 0 a) b c) -> In c' (b c)).
  { intros b Hb. unfold seq_o in Hb. cbn in Hb. now rewrite app_nil_r in Hb. }
  destruct g; cbn [rep_o] in H.
  - apply S in H. eapply most_first; eassumption.
  - apply S in H. eapply least_first; eassumption.
  - unfold atomic_o in H. apply firstn1_in in H. apply S in H. eapply most_first; eassumption.
Qed.
Lemma hasp_len l : forall i, hasp l i -> i <= length w -> i + length l <= length w.
Proof.
  induction l as [|P l IH]; intros i H L; cbn in *; [lia|]. destruct H as [(x & E & _) H].
  assert (i < length w) by (apply nth_error_Some; congruence). specialize (IH _ H). lia.
Qed.
Lemma progress_first g mx a p b q : fwd a -> pre_for a p -> fwd b -> pre_for b q ->
  pre_for (seq_o (rep_o w g 0 mx a) b) (firstn 1 (zipu (fst p) (fst q)), false).
Proof.
  intros Fa Pa Fb Pb c c' H L. unfold seq_o at 1 in H. apply in_flat_map in H as (d & A & B).
  pose proof (fwd_rep g 0 mx a Fa _ _ A L) as LD. pose proof (Fb _ _ B ltac:(lia)) as LB.
  destruct (rep_first g mx a p c d Fa Pa A L) as [->|Hp].
  - destruct (Pb _ _ B L) as (B1 & B2 & _). split; [apply hasp_firstn, hasp_zip_r, B1|].
    cbn [fst snd]. split; [|discriminate]. rewrite firstn_length, zipu_length. lia.
  - split; [apply hasp_firstn, hasp_zip_l, Hp|]. cbn [fst snd]. split; [|discriminate].
    rewrite firstn_length, zipu_length.
    destruct (fst p) as [|P p'] eqn:Ep; [cbn; lia|]. destruct (fst q) as [|Q q'] eqn:Eq; [cbn; lia|].
    destruct (Pb _ _ B ltac:(lia)) as (_ & B2 & _). rewrite Eq in B2. cbn in B2 |- *. lia.
Qed.
Lemma pre_alts cs : Forall (fun n => pre_for (den n) (pre n)) cs -> pre_for (kidso (map den cs)) (prek cs).
Proof.
  intro H. destruct cs as [|c cs]; [apply pre_eps|]. unfold prek. cbn [map kidso].
  revert c H. induction cs as [|d cs IH]; intros c H; inversion H as [|? ? Hc Hcs]; subst.
  - exact Hc.
  - cbn [map]. rewrite alts_cons by discriminate. change (orsp (pre c :: pre d :: map pre cs)) with (orp (pre c) (orsp (pre d :: map pre cs))).
    apply pre_or; [exact Hc|]. now apply IH.
Qed.
Lemma fwd_kids_den cs : fwd (kidso (map den cs)).
Proof. apply fwd_kids. apply Forall_map. apply Forall_forall. intros; apply den_fwd. Qed.
Lemma pre_unit n P : uset n = Some P -> pre_for (den n) ([P], true).
Proof.
  intros U c c' H L. destruct (uset_den n P U c) as [A _]. destruct (A _ H) as (-> & x & E & Px).
  split; [cbn; split; [eauto|exact I]|]. cbn. lia.
Qed.
Lemma pre_ok n : pre_for (den n) (pre n).
Proof.
  induction n using node_ind';
  match goal with |- pre_for _ (pre ?n) =>
    destruct (uset n) as [P0|] eqn:U; [assert (E : pre n = ([P0], true)) by (cbn [pre]; rewrite U; reflexivity); rewrite E; now apply pre_unit|] end;
  try (match goal with H : @Forall node _ ?cs |- _ => apply pre_alts in H end).
  - cbn [pre]. rewrite U. destruct t; cbn in *; try discriminate U; try rewrite U; try (apply pre_nil; apply fwd_none).
    + intros c c' H L. unfold bol_o in H. destruct (Nat.eqb _ _); in1 H. split; [exact I|]. cbn. lia.
    + apply pre_nil, fwd_eol.
  - cbn [pre]. rewrite U. assumption.
  - cbn [pre]. rewrite U. cbn [Den.den]. apply pre_seq; auto using den_fwd, fwd_kids_den.
  - cbn [pre]. rewrite U. cbn [Den.den]. destruct (N.eqb_spec a 0) as [->|].
    + apply progress_first; auto using den_fwd, fwd_kids_den.
    + apply pre_rep_min; auto using den_fwd, fwd_kids_den.
  - cbn [pre]. rewrite U. cbn [Den.den]. destruct (N.eqb_spec a 0) as [->|].
    + apply progress_first; auto using den_fwd, fwd_kids_den.
    + apply pre_rep_min; auto using den_fwd, fwd_kids_den.
  - cbn [pre]. rewrite U. cbn [Den.den]. destruct (N.eqb_spec a 0) as [->|].
    + apply progress_first; auto using den_fwd, fwd_kids_den.
    + apply pre_rep_min; auto using den_fwd, fwd_kids_den.
  - cbn [pre]. rewrite U. cbn [Den.den]. destruct (N.leb_spec k 8).
    + apply pre_seq; auto using den_fwd, fwd_kids_den, fwd_pow, pre_pow.
    + intros c c' Hin L. unfold seq_o in Hin. apply in_flat_map in Hin as (d & A & B).
      pose proof (pre_min _ _ k (den_fwd n) IHn _ _ A L) as (A1 & A2 & _).
      pose proof (fwd_pow _ _ (den_fwd n) _ _ A L). pose proof (fwd_kids_den _ _ _ B ltac:(lia)).
      split; [exact A1|]. cbn [fst snd] in *. split; [lia|discriminate].
  - cbn [pre]. rewrite U. cbn [Den.den]. apply pre_seq; auto using den_fwd, fwd_kids_den, fwd_cap.
    intros c c' Hin L. unfold cap_o in Hin. apply in_map_iff in Hin as (d & <- & Hin). exact (IHn _ _ Hin L).
  - cbn [pre]. rewrite U. apply pre_nil, den_fwd.
Qed.
Lemma nonnull_lt n c c' : nonnull n = true -> In c' (den n c) -> fst c <= length w -> fst c < fst c' <= length w.
Proof.
  intros N H L. pose proof (pre_ok n _ _ H L) as (_ & B & _). pose proof (den_fwd n _ _ H L).
  unfold nonnull in N. destruct (fst (pre n)); [discriminate|]. cbn in B. lia.
Qed.
Lemma nonnull_end n l : nonnull n = true -> den n (length w, l) = [].
Proof.
  intro N. destruct (den n (length w, l)) as [|c r] eqn:E; [reflexivity|]. exfalso.
  assert (H : In c (den n (length w, l))) by (rewrite E; now left).
  apply nonnull_lt in H; auto. cbn in H. lia.
Qed.

(** ** Disjointness *)
Hypothesis Hw : Forall (fun c => (-128 <= c <= 127)%Z) w.
Lemma in_all_chars x : (-128 <= x <= 127)%Z -> In x all_chars.
Proof.
  intro H. unfold all_chars. apply in_map_iff. exists (Z.to_nat (x + 128)). split; [lia|]. apply in_seq. lia.
Qed.
Lemma disj_at P Q i x : disj P Q = true -> nth_error w i = Some x -> P x = true -> Q x = true -> False.
Proof.
  intros D E HP HQ. apply nth_error_In in E. rewrite Forall_forall in Hw. apply Hw in E.
  unfold disj in D. rewrite forallb_forall in D. specialize (D x (in_all_chars x E)). rewrite HP, HQ in D. discriminate.
Qed.
Lemma excl_ok l1 : forall l2 i, excl l1 l2 = true -> hasp l1 i -> hasp l2 i -> False.
Proof.
  induction l1 as [|P l1 IH]; intros [|Q l2] i H H1 H2; cbn [excl hasp] in *; try discriminate.
  destruct H1 as [(x & E & Px) H1], H2 as [(y & E2 & Qy) H2]. apply orb_true_iff in H as [H|H].
  - rewrite E in E2. injection E2 as <-. eapply disj_at; eassumption.
  - eapply IH; eassumption.
Qed.
Lemma first_disj_ok P n i l x : first_disj P n = true -> nth_error w i = Some x -> P x = true -> den n (i, l) = [].
Proof.
  intros D E Px. unfold first_disj in D. destruct (fst (pre n)) as [|Q r] eqn:F; [discriminate|].
  destruct (den n (i, l)) as [|c t] eqn:N; [reflexivity|]. exfalso.
  assert (H : In c (den n (i, l))) by (rewrite N; now left).
  assert (L : i <= length w) by (assert (i < length w) by (apply nth_error_Some; congruence); lia).
  pose proof (pre_ok n _ _ H L) as (B & _). rewrite F in B. cbn in B. destruct B as [(y & Ey & Qy) _].
  rewrite E in Ey. injection Ey as <-. eapply disj_at; eassumption.
Qed.

(** ** Determinism *)
Definition uniq (a : outs) : Prop := forall c x y, fst c <= length w -> In x (a c) -> In y (a c) -> x = y.
Lemma uniq_seq a b : fwd a -> uniq a -> uniq b -> uniq (seq_o a b).
Proof.
  intros Fa Ha Hb c x y L Hx Hy. unfold seq_o in *. apply in_flat_map in Hx as (d & A & B), Hy as (d' & A' & B').
  assert (d = d') as <- by (eapply Ha; eassumption). eapply Hb; [|eassumption|eassumption]. apply Fa in A; lia.
Qed.
Lemma uniq_eps : uniq eps_o.
Proof. intros c x y L [<-|[]] [<-|[]]. reflexivity. Qed.
Lemma uniq_pow n a : fwd a -> uniq a -> uniq (pow_o n a).
Proof. intros F H. induction n as [|n IH]; cbn; [apply uniq_eps|now apply uniq_seq]. Qed.
Lemma uniq_cap i a : uniq a -> uniq (cap_o i a).
Proof.
  intros H c x y L Hx Hy. apply in_map_iff in Hx as (d & <- & A), Hy as (d' & <- & A').
  now rewrite (H c d d' L A A').
Qed.
Lemma uniq_atomic a : uniq (atomic_o a).
Proof. intros c x y L Hx Hy. unfold atomic_o in *. destruct (a c) as [|d l]; [destruct Hx|]. in1 Hx; in1 Hy. reflexivity. Qed.
Lemma in_alts cs c x : In x (kidso (map den cs) c) -> (cs = [] /\ x = c) \/ exists n, In n cs /\ In x (den n c).
Proof.
  destruct cs as [|n cs]; [intros [<-|[]]; auto|]. cbn [map kidso]. intro H. right.
  revert n H. induction cs as [|m cs IH]; intros n H; cbn [map] in H.
  - exists n. split; [now left|exact H].
  - rewrite alts_cons in H by discriminate. apply in_app_iff in H as [H|H].
    + exists n. split; [now left|exact H].
    + destruct (IH m H) as (k & A & B). exists k. split; [now right|exact B].
Qed.
Lemma excl_all_in l a b : excl_all l = true -> forall i j, i < j -> nth_error l i = Some a -> nth_error l j = Some b -> excl a b = true.
Proof.
  revert a b. induction l as [|x l IH]; intros a b H i j L Ea Eb; [destruct i; discriminate|].
  cbn in H. apply andb_true_iff in H as [A B]. destruct j as [|j]; [lia|]. destruct i as [|i]; cbn in *.
  - injection Ea as ->. rewrite forallb_forall in A. apply A. eapply nth_error_In; eassumption.
  - eapply IH; [exact B| |exact Ea|exact Eb]. lia.
Qed.
Lemma uniq_kids cs : Forall (fun n => uniq (den n)) cs ->
  excl_all (map (fun c => fst (pre c)) cs) = true -> uniq (kidso (map den cs)).
Proof.
  intros H E c x y L Hx Hy. apply in_alts in Hx, Hy.
  destruct Hx as [[-> ->]|(n & Hn & Hx)]; destruct Hy as [[N ->]|(m & Hm & Hy)]; subst; try reflexivity; try contradiction.
  apply In_nth_error in Hn as [i Hi], Hm as [j Hj].
  assert (F : forall k o, nth_error cs k = Some o -> nth_error (map (fun c => fst (pre c)) cs) k = Some (fst (pre o))).
  { intros k o Ho. now rewrite nth_error_map, Ho. }
  pose proof (pre_ok n _ _ Hx L) as (Px & _). pose proof (pre_ok m _ _ Hy L) as (Py & _).
  destruct (Nat.lt_trichotomy i j) as [Lt|[->|Lt]].
  - exfalso. eapply excl_ok; [|exact Px|exact Py]. eapply excl_all_in; [exact E|exact Lt|now apply F|now apply F].
  - assert (n = m) as -> by congruence. rewrite Forall_forall in H. eapply H; [|exact L|exact Hx|exact Hy].
    eapply nth_error_In; eassumption.
  - exfalso. eapply excl_ok; [|exact Py|exact Px]. eapply excl_all_in; [exact E|exact Lt|now apply F|now apply F].
Qed.
Lemma det_ok n : det n = true -> uniq (den n).
Proof.
  assert (HU : forall n, is_some (uset n) = true -> uniq (den n)).
  { intros m Hm. destruct (uset m) as [P|] eqn:U; [|discriminate]. intros c x y L Hx Hy.
    destruct (uset_den m P U c) as [A _]. destruct (A _ Hx) as [-> _], (A _ Hy) as [-> _]. reflexivity. }
  assert (DK : forall cs, Forall (fun n => det n = true -> uniq (den n)) cs ->
    forallb det cs && excl_all (map (fun c => fst (pre c)) cs) = true -> uniq (kidso (map den cs))).
  { intros cs H E. apply andb_true_iff in E as [E1 E2]. apply uniq_kids; [|exact E2].
    rewrite Forall_forall in *. intros x Hx. apply H; [exact Hx|]. rewrite forallb_forall in E1. now apply E1. }
  induction n using node_ind'; intro D; cbn [det] in D; apply orb_true_iff in D as [D|D];
    try (now apply HU); try discriminate; cbn [Den.den].
  - destruct t; try (destruct (tset _); intros c x y L Hx Hy;
      [unfold chr_o in *; destruct (nth_error w (fst c)) as [z|]; [|destruct Hx]; destruct (_ z); in1 Hx; in1 Hy; reflexivity|destruct Hx]).
    + intros c x y L Hx Hy. unfold bol_o in *. destruct (Nat.eqb _ _); [|destruct Hx]. in1 Hx; in1 Hy. reflexivity.
    + intros c x y L Hx Hy. unfold eol_o, chr_o in *. destruct (Nat.eqb _ _); [in1 Hx; in1 Hy; reflexivity|].
      destruct (nth_error w (fst c)) as [z|]; [|destruct Hx]. destruct (Z.eqb c_nl z); [|destruct Hx]. in1 Hx; in1 Hy. reflexivity.
  - now apply DK.
  - apply andb_true_iff in D as [D1 D2]. apply uniq_seq; auto using den_fwd.
  - apply uniq_seq; [apply fwd_rep, den_fwd|apply uniq_atomic|now apply DK].
  - apply andb_true_iff in D as [D1 D2]. apply uniq_seq; auto using den_fwd, fwd_pow, uniq_pow.
  - apply andb_true_iff in D as [D1 D2]. apply uniq_seq; auto using den_fwd, fwd_cap, uniq_cap.
  - intros c x y L Hx Hy. unfold not_o in *. destruct (nth_error w (fst c)); [|destruct Hx].
    destruct (Den.den w n c); [|destruct Hx]. in1 Hx; in1 Hy. reflexivity.
Qed.

(** ** Totality *)
Definition tot (a : outs) : Prop := forall c, a c <> [].
Lemma tot_seq a b : tot a -> tot b -> tot (seq_o a b).
Proof.
  intros Ha Hb c. unfold seq_o. specialize (Ha c). destruct (a c) as [|d l]; [congruence|]. cbn.
  specialize (Hb d). destruct (b d); [congruence|discriminate].
Qed.
Lemma tot_rep0 g mx a : tot (rep_o w g 0 mx a).
Proof.
  assert (M : forall n, tot (most_o n a)).
  { intros [|n] c; cbn; [discriminate|]. destruct (flat_map _ _); discriminate. }
  assert (E : tot (pow_o (N.to_nat 0) a)) by (intro c; discriminate).
  destruct g; cbn [rep_o].
  - now apply tot_seq.
  - apply tot_seq; [exact E|]. intros c. destruct (extra w 0 mx); discriminate.
  - intro c. unfold atomic_o. pose proof (tot_seq _ _ E (M (extra w 0 mx)) c) as T.
    destruct (seq_o _ _ c); [congruence|discriminate].
Qed.
Lemma tot_kids cs : Forall (fun n => total n = true -> tot (den n)) cs -> totk cs = true -> tot (kidso (map den cs)).
Proof.
  intros H T. destruct cs as [|c cs]; [intro x; discriminate|]. unfold totk in T. cbn [is_nil orb] in T. cbn [map kidso].
  revert c H T. induction cs as [|d cs IH]; intros c H T; inversion H as [|? ? Hc Hcs]; subst; cbn [existsb] in T.
  - rewrite orb_false_r in T. now apply Hc.
  - cbn [map]. rewrite alts_cons by discriminate. intros x. unfold or_o. apply orb_true_iff in T as [T|T].
    + specialize (Hc T x). destruct (den c x); [congruence|discriminate].
    + specialize (IH d Hcs T x). cbn [map] in IH. destruct (den c x); [exact IH|discriminate].
Qed.
Lemma total_ok n : total n = true -> tot (den n).
Proof.
  induction n using node_ind'; intro T; cbn [total] in T; try discriminate; cbn [Den.den];
    try (match goal with H : @Forall node _ ?cs |- _ => apply tot_kids in H; [|unfold totk; try apply andb_true_iff in T; tauto] end).
  - assumption.
  - apply andb_true_iff in T as [T1 T2]. apply tot_seq; auto.
  - apply andb_true_iff in T as [T1 T2]. apply N.eqb_eq in T1. subst. apply tot_seq; auto using tot_rep0.
  - apply andb_true_iff in T as [T1 T2]. apply N.eqb_eq in T1. subst. apply tot_seq; auto using tot_rep0.
  - apply andb_true_iff in T as [T1 T2]. apply N.eqb_eq in T1. subst. apply tot_seq; auto using tot_rep0.
  - apply andb_true_iff in T as [T1 T2]. apply N.eqb_eq in T1. subst. apply tot_seq; [intro c; discriminate|assumption].
  - apply andb_true_iff in T as [T1 T2]. apply tot_seq; [|assumption].
    intro c. unfold cap_o. specialize (IHn T1 c). destruct (Den.den w n c); [congruence|discriminate].
Qed.
Lemma totk_ok cs : totk cs = true -> tot (kidso (map den cs)).
Proof. intro H. apply tot_kids; [|exact H]. apply Forall_forall. intros. now apply total_ok. Qed.
End Sem.
