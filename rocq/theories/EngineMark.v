(** Greedy repetitions of items longer than one character, when no match of the item starts
    inside a match of it: going back from the end, the loop finds the starts of the
    iterations, so it tries the same ends as a backtracking matcher. *)
From Coq Require Import ZArith NArith List Bool Lia ZifyBool ZifyNat ZifyN.
From Verif Require Import Base Text Ast Builder Engine Spec SpecProofs Den Checker CheckerProofs AstProofs EngineRel EngineProofs EngineOk.
Import ListNotations.
Open Scope nat_scope.

Section Mark.
Variables (pre0 w post : str) (G : nat).
Notation e := (env_of pre0 w post).
Notation at_ := (at_ pre0).
Notation mk := (mk pre0).
Notation cspec := (cspec pre0 w G).
Notation res := (res pre0 w G).
Notation prevok := (prevok pre0 w).
Notation upd := (upd pre0).
Notation upd1 := (upd1 pre0).
Notation close := (close w).
Notation bspec := (bspec pre0 w G).
Notation same := (same pre0).
Notation hides := (hides pre0 G).
Variable sf : nat -> option nat.
(** Where the item ends when it starts at [i]; nothing starts strictly inside. *)
Definition stepf : Prop := forall i j, sf i = Some j -> i < j <= length w /\ forall k, i < k < j -> sf k = None.
Hypothesis Hsf : stepf.
Definition sfo : outs := fun c => match sf (fst c) with Some j => [(j, snd c)] | None => [] end.
(** The end of [t] iterations from [i]. *)
Fixpoint pos (i t : nat) : nat := match t with O => i | S t' => match sf (pos i t') with Some j => j | None => pos i t' end end.
Definition hs (i : nat) : bool := match sf i with Some _ => true | None => false end.
Definition nx (i : nat) : nat := match sf i with Some j => j | None => i end.
Definition mstep (M : clo) : Prop :=
  forall a i g b, i <= length w -> length g = G -> (a <= at_ i)%Z ->
  M (mk a i g b) = Ok (if hs i then mk a (nx i) g true else mk a i g false).
Lemma pos_S i t : pos i (S t) = nx (pos i t).
Proof. reflexivity. Qed.
Lemma pos_nx i t : pos (nx i) t = pos i (S t).
Proof. induction t as [|t IH]; [reflexivity|]. rewrite pos_S, IH. reflexivity. Qed.
Lemma nx_le i : i <= nx i.
Proof. unfold nx. destruct (sf i) as [j|] eqn:E; [|lia]. destruct (Hsf i j E). lia. Qed.
Lemma pos_le i t : i <= pos i t.
Proof. induction t as [|t IH]; [cbn; lia|]. rewrite pos_S. pose proof (nx_le (pos i t)). lia. Qed.
Lemma hs_lt i : hs i = true -> i < nx i <= length w.
Proof. unfold hs, nx. destruct (sf i) as [j|] eqn:E; [|discriminate]. intros _. apply Hsf, E. Qed.
Lemma pos_mono i q t : q <= t -> pos i q <= pos i t.
Proof. induction 1 as [|t _ IH]; [lia|]. rewrite pos_S. pose proof (nx_le (pos i t)). lia. Qed.
Lemma pos_count i t : (forall q, q < t -> hs (pos i q) = true) -> i + t <= pos i t.
Proof.
  induction t as [|t IH]; intro H; [cbn; lia|]. rewrite pos_S. pose proof (hs_lt _ (H t ltac:(lia))).
  specialize (IH ltac:(intros; apply H; lia)). lia.
Qed.
Lemma sfo_hs i l : sfo (i, l) = if hs i then [(nx i, l)] else [].
Proof. unfold sfo, hs, nx. cbn. destruct (sf i); reflexivity. Qed.
Lemma mreps_u M : mstep M -> forall k a i g b, i <= length w -> length g = G -> (a <= at_ i)%Z ->
  (nl k (req_step M) (mk a i g b) = inl (mk a (pos i k) g (if Nat.eqb k 0 then b else true))
   /\ pow_o k sfo (i, []) = [(pos i k, [])] /\ i + k <= pos i k <= length w)
  \/ (exists j, nl k (req_step M) (mk a i g b) = inr (Ok (mk a j g false)) /\ i <= j <= length w
      /\ pow_o k sfo (i, []) = [] /\ (k <= 1 -> j = i)).
Proof.
  intro U. induction k as [|k IH]; intros a i g b Hi Hg Ha.
  - left. cbn. conj; auto; lia.
  - cbn [nl pow_o]. unfold seq_o. rewrite sfo_hs.
    assert (RS : req_step M (mk a i g b) = if hs i then inl (mk a (nx i) g true) else inr (Ok (mk a i g false))).
    { unfold req_step. rewrite U by assumption. destruct (hs i); reflexivity. }
    rewrite RS. destruct (hs i) eqn:E.
    + pose proof (hs_lt _ E). cbn [flat_map]. rewrite app_nil_r.
      destruct (IH a (nx i) g true ltac:(lia) Hg ltac:(unfold EngineOk.at_ in *; lia)) as [(A & B & C)|(j & A & B & C & D)].
      * left. rewrite A, B. rewrite pos_nx in *. conj; auto; [now destruct (Nat.eqb k 0)|lia|lia].
      * right. exists j. rewrite A, C. conj; auto; try lia. intro K. destruct k; [discriminate C|lia].
    + right. exists i. cbn. auto.
Qed.

(** ** Maximal runs *)
(** The ends of [t], ..., 0 iterations. *)
Fixpoint mdown (i t : nat) : list (nat * list (nat * (nat * nat))) :=
  match t with O => [(i, [])] | S t' => (pos i (S t'), []) :: mdown i t' end.
Lemma mdown_app i t : mdown i (S t) = mdown (nx i) t ++ [(i, [])].
Proof.
  induction t as [|t IH]; [reflexivity|].
  change (mdown i (S (S t))) with ((pos i (S (S t)), @nil (nat * (nat * nat))) :: mdown i (S t)). rewrite IH.
  cbn [mdown app]. now rewrite pos_nx.
Qed.
Lemma mgreedy_loop M : mstep M -> forall k k' c a i g b, i <= length w -> length g = G -> (a <= at_ i)%Z ->
  close k k' i ->
  exists t b', pos i t <= length w /\ (forall q, q < t -> hs (pos i q) = true) /\ (b' = true \/ (t = 0 /\ b' = b))
    /\ (nl k (greedy_step M) (c, mk a i g b) = inl ((c + N.of_nat t)%N, mk a (pos i t) g b')
        \/ nl k (greedy_step M) (c, mk a i g b) = inr (Some ((c + N.of_nat t)%N, mk a (pos i t) g b')))
    /\ most_o k' sfo (i, []) = mdown i t.
Proof.
  intro U. induction k as [|k IH]; intros k' c a i g b Hi Hg Ha C.
  - assert (k' = 0) as -> by (destruct C as [<-|[? ?]]; lia). exists 0, b. rewrite N.add_0_r.
    cbn [pos]. conj; auto; lia.
  - assert (exists k'', k' = S k'') as (k'' & ->) by (destruct C as [<-|[? ?]]; [eauto|destruct k'; [lia|eauto]]).
    cbn [nl most_o]. rewrite sfo_hs.
    assert (GS : greedy_step M (c, mk a i g b) = if hs i then inl ((c + 1)%N, mk a (nx i) g true) else inr (Some (c, mk a i g true))).
    { unfold greedy_step. cbn [snd fst]. rewrite U by assumption. destruct (hs i); reflexivity. }
    rewrite GS. destruct (hs i) eqn:E.
    + pose proof (hs_lt _ E).
      destruct (IH k'' (c + 1)%N a (nx i) g true ltac:(lia) Hg ltac:(unfold EngineOk.at_ in *; lia)) as (t & b' & A & B & X & D & F).
      { unfold EngineOk.close in *. lia. }
      exists (S t), b'. rewrite mdown_app, <- F. rewrite pos_nx in *.
      replace (c + 1 + N.of_nat t)%N with (c + N.of_nat (S t))%N in D by lia.
      conj; auto; try lia.
      * intros q Hq. destruct q as [|q]; [exact E|]. rewrite <- pos_nx. apply B. lia.
      * unfold progress. cbn [filter fst]. destruct (Nat.eqb_spec (nx i) i); [lia|]. cbn [negb flat_map]. now rewrite app_nil_r.
    + exists 0, true. rewrite N.add_0_r. cbn [pos]. conj; auto; [lia].
Qed.

Lemma mback_scan M a p g x : mstep M -> hs x = true -> length g = G -> (a <= at_ p)%Z -> p <= x -> forall k n,
  x + k < nx x -> k < n -> back_scan e M n (at_ (x + k)) (mk a (nx x) g false) = Ok (mk a x g true)
     /\ forall y, back_scan e M n (at_ (x + k)) (mk a y g false) = Ok (mk a x g true).
Proof.
  intros U E Hg Ha Hp. pose proof (hs_lt _ E) as Lx.
  assert (A : forall k n y, x + k < nx x -> k < n -> back_scan e M n (at_ (x + k)) (mk a y g false) = Ok (mk a x g true)).
  { induction k as [|k IH]; intros n y Lk Ln; (destruct n as [|n]; [lia|]); cbn [back_scan];
      change (set_end (at_ ?q) (mk a y g false)) with (mk a q g false); rewrite U by (auto; unfold EngineOk.at_ in *; lia).
    - rewrite Nat.add_0_r, E. reflexivity.
    - assert (N : hs (x + S k) = false).
      { unfold hs, nx in *. destruct (sf x) as [j|] eqn:S0; [|discriminate]. destruct (Hsf x j S0) as [_ X]. now rewrite X by lia. }
      rewrite N. cbn [bind]. change (s_acc (mk a (x + S k) g false)) with false. cbv iota.
      replace (at_ (x + S k) - 1)%Z with (at_ (x + k)) by (unfold EngineOk.at_; lia). rewrite at_ok by lia. apply IH; lia. }
  intros k n Lk Ln. split; [|intro y]; apply A; auto.
Qed.
Lemma mback_one M a p t g : mstep M -> hs (pos p t) = true -> length g = G -> (a <= at_ p)%Z ->
  back_for e M (at_ p) (mk a (pos p (S t)) g false) = Ok (mk a (pos p t) g true).
Proof.
  intros U E Hg Ha. pose proof (hs_lt _ E) as L. pose proof (pos_le p t) as L2. rewrite pos_S. set (x := pos p t) in *.
  unfold back_for. change (s_end (mk a (nx x) g false)) with (at_ (nx x)).
  replace (at_ (nx x) - 1)%Z with (at_ (x + (nx x - x - 1))) by (unfold EngineOk.at_; lia). rewrite at_ok by lia.
  apply (mback_scan M a p g x U E Hg Ha L2); [lia|]. unfold EngineOk.at_. lia.
Qed.
Lemma mbt_loop M la B D gc gs ge : mstep M -> bspec la B D true gc gs ge \/ bspec la B D false gc gs ge -> forall t a p g,
  (forall q, q < t -> hs (pos p q) = true) -> pos p t <= length w -> length g = G -> (a <= at_ p)%Z ->
  (exists q g' j d, 1 <= q <= t /\ hd_error (D (pos p q, [])) = Some (j, d) /\ (forall q', q < q' <= t -> D (pos p q', []) = [])
     /\ nl t (bt_step e M B (at_ p)) (mk a (pos p t) g true) = inr (Ok (mk a (if la then pos p q else j) g' true))
     /\ length g' = G /\ (gs && ge = true -> g' = upd d g))
  \/ (exists g', (forall q', 1 <= q' <= t -> D (pos p q', []) = [])
     /\ nl t (bt_step e M B (at_ p)) (mk a (pos p t) g true) = inl (mk a p g' true) /\ length g' = G /\ (gc = true -> g' = g) /\ (gs = true -> same D g g')).
Proof.
  intros U HB'. assert (HB : bspec la B D false gc gs ge).
  { destruct HB' as [H|H]; [|exact H]. intros a i g b Hi Hg Hb Ha. apply H; auto. }
  clear HB'.
  induction t as [|t IH]; intros a p g Hq Hp Hg Ha.
  - right. exists g. cbn [pos nl]. conj; auto using same_refl. intros; lia.
  - cbn [nl]. pose proof (pos_le p (S t)) as PL. pose proof (pos_mono p t (S t) ltac:(lia)) as PM.
    pose proof (HB a (pos p (S t)) g true Hp Hg (or_introl eq_refl) ltac:(unfold EngineOk.at_ in *; lia)) as X.
    destruct (hd_error (D (pos p (S t), []))) as [[j d]|] eqn:E.
    + left. destruct X as (g' & X & Hg' & Y). exists (S t), g', j, d. conj; auto; try lia; try (intros; lia).
      * unfold bt_step. rewrite X. reflexivity.
      * rewrite andb_true_iff. tauto.
    + destruct X as (g' & X & Hg' & Y & YS).
      assert (BS : bt_step e M B (at_ p) (mk a (pos p (S t)) g true) = inl (mk a (pos p t) g' true)).
      { unfold bt_step. rewrite X. cbn [EngineOk.mk s_acc]. change (mkSt a (at_ (pos p (S t))) g' false) with (mk a (pos p (S t)) g' false).
        rewrite (mback_one M) by (auto; apply Hq; lia). reflexivity. }
      rewrite BS. apply hd_none in E.
      destruct (IH a p g' ltac:(intros; apply Hq; lia) ltac:(lia) Hg' Ha) as [(q & g2 & j & d & A1 & A2 & A3 & A4 & A5 & A6)|(g2 & A1 & A2 & A3 & A4 & A7)].
      * left. exists q, g2, j, d. conj; auto; try lia.
        -- intros q' Hq'. destruct (Nat.eq_dec q' (S t)) as [->|]; [exact E|]. apply A3. lia.
        -- intro C. rewrite A6 by assumption. apply andb_true_iff in C as [C _]. exact (YS C _ _ _ (hd_some_in _ _ A2)).
      * right. exists g2. conj; auto.
        -- intros q' Hq'. destruct (Nat.eq_dec q' (S t)) as [->|]; [exact E|]. apply A1. lia.
        -- intro C. rewrite A4 by assumption. now apply Y.
        -- intro C. exact (same_trans _ _ _ _ _ (YS C) (A7 C)).
Qed.
Lemma mfirst_down K i t q : q <= t -> (forall q', q < q' <= t -> K (pos i q', []) = []) -> first_ok K (mdown i t) = first_ok K (mdown i q).
Proof.
  induction t as [|t IH]; intros L H.
  - now replace q with 0 by lia.
  - destruct (Nat.eq_dec q (S t)) as [->|]; [reflexivity|]. cbn [mdown]. rewrite first_cons, H by lia. cbn [hd_error].
    apply IH; [lia|]. intros; apply H; lia.
Qed.
Lemma mfirst_down_hd K i q x : hd_error (K (pos i q, [])) = Some x -> first_ok K (mdown i q) = Some x.
Proof.
  intro H. destruct q as [|q]; cbn [mdown]; rewrite first_cons; [cbn [pos] in H|]; now rewrite H.
Qed.
Lemma mfirst_down_0 K i : first_ok K (mdown i 0) = hd_error (K (i, [])).
Proof. cbn [mdown]. rewrite first_cons. now destruct (hd_error _). Qed.

Hypothesis Hw : Forall (fun c => (-128 <= c <= 127)%Z) w.
Hypothesis Hlen : (N.of_nat (length w) < UMAX)%N.

Lemma mgreedy_gen_ok M R D mn mx gc gs ge pv : mstep M -> cspec R D PAny false true gc ge -> (gs = true -> gc = true \/ hides R D) ->
  cspec (greedy_gen e M mn mx R R) (seq_o (rep_o w Gr mn (mx_opt mx) sfo) D) pv true (N.eqb mn 0) gc (gs && ge).
Proof.
  intros U HR HS a i g b Hi Hg Hb Ha _. unfold greedy_gen, reps. rewrite loopN_nl.
  assert (SQ : hd_error (seq_o (rep_o w Gr mn (mx_opt mx) sfo) D (i, []))
     = first_ok D (flat_map (most_o (extra w mn (mx_opt mx)) sfo) (pow_o (N.to_nat mn) sfo (i, [])))) by reflexivity.
  rewrite SQ. clear SQ.
  destruct (mreps_u M U (N.to_nat mn) a i g b Hi Hg Ha) as [(A & B & C)|(j & A & B & C & Cl)].
  - rewrite A, B. cbn [flat_map]. rewrite app_nil_r. set (p := pos i (N.to_nat mn)) in *.
    assert (Hap : (a <= at_ p)%Z) by (unfold EngineOk.at_, p in *; lia).
    rewrite loopN_nl.
    destruct (mgreedy_loop M U (N.to_nat (mx - mn)) (extra w mn (mx_opt mx)) mn a p g
      (if N.to_nat mn =? 0 then b else true) (proj2 C) Hg Hap ltac:(apply (extra_close w Hlen); lia)) as (t & b' & T1 & T2 & T3 & T4 & T5).
    rewrite T5.
    assert (Fin : res (match nl t (bt_step e M R (at_ p)) (mk a (pos p t) g b') with inl s2 => R (set_acc true s2) | inr o => o end)
       a i g (first_ok D (mdown p t)) (N.eqb mn 0) gc (gs && ge)).
    { destruct T3 as [->|[-> ->]].
      - destruct (mbt_loop M false R D gc gs ge U (or_intror (cspec_bspec _ _ _ _ _ _ _ _ _ HR HS)) t a p g T2 T1 Hg Hap)
          as [(q & g' & j & d & A1 & A2 & A3 & A4 & A5 & A6)|(g' & A1 & A2 & A3 & A4 & A7)].
        + rewrite A4. rewrite (mfirst_down D p t q) by (auto; lia). rewrite (mfirst_down_hd _ _ _ _ A2).
          exists g'. auto.
        + rewrite A2. rewrite (mfirst_down D p t 0); [|lia|intros; apply A1; lia]. rewrite mfirst_down_0.
          specialize (HR a p g' true (proj2 C) A3 (or_introl eq_refl) Hap I). change (set_acc true (mk a p g' true)) with (mk a p g' true).
          unfold EngineOk.res in *. destruct (hd_error (D (p, []))) as [[j d]|] eqn:Hd.
          * destruct HR as (g2 & -> & Hg2 & X). exists g2. conj; auto. rewrite andb_true_iff. intros [Y Z]. rewrite X by exact Z. exact (A7 Y _ _ _ (hd_some_in _ _ Hd)).
          * destruct HR as (j & g2 & -> & Hj & Hg2 & X & Y). exists j, g2. conj; auto.
            -- intro Z. rewrite X by reflexivity. unfold p. apply N.eqb_eq in Z. now rewrite Z.
            -- intro Z. rewrite Y by assumption. now apply A4.
      - cbn [pos nl]. rewrite mfirst_down_0.
        change (set_acc true (mk a p g (if N.to_nat mn =? 0 then b else true))) with (mk a p g true).
        specialize (HR a p g true (proj2 C) Hg (or_introl eq_refl) Hap I).
        unfold EngineOk.res in *. destruct (hd_error (D (p, []))) as [[j d]|].
        + destruct HR as (g2 & -> & Hg2 & X). exists g2. conj; auto. rewrite andb_true_iff. intros [Y Z]. now rewrite X.
        + destruct HR as (j & g2 & -> & Hj & Hg2 & X & Y). exists j, g2. conj; auto.
          intro Z. rewrite X by reflexivity. unfold p. apply N.eqb_eq in Z. now rewrite Z. }
    change (s_end (mk a p g (if N.to_nat mn =? 0 then b else true))) with (at_ p).
    destruct T4 as [->| ->]; cbn [fst snd]; rewrite loopN_nl; replace (N.to_nat (mn + N.of_nat t - mn)) with t by lia; exact Fin.
  - rewrite A, C. cbn [flat_map]. exists j, g. conj; auto; try lia.
Qed.

Lemma mlook_group M B R D mn mx gc gs ge ac cl k pv : mstep M -> bspec true B D false gc gs ge -> cspec R D PAny ac cl gc ge ->
  logp D -> k < G ->
  cspec (group_m (greedy_gen e M mn mx B (fun s => Ok s)) k R) (seq_o (cap_o k (rep_o w Gr mn (mx_opt mx) sfo)) D) pv true
    (N.eqb mn 0 && cl) false (gs && ge).
Proof.
  intros U HB HR LD HG a i g b Hi Hg Hb Ha _. unfold group_m, greedy_gen, reps. rewrite loopN_nl.
  set (f := fun c' : nat * list (nat * (nat * nat)) => (fst c', (k, (i, fst c')) :: snd c')).
  assert (SQ : hd_error (seq_o (cap_o k (rep_o w Gr mn (mx_opt mx) sfo)) D (i, []))
     = first_ok (fun c => D (f c)) (flat_map (most_o (extra w mn (mx_opt mx)) sfo) (pow_o (N.to_nat mn) sfo (i, [])))).
  { unfold seq_o at 1, cap_o. cbn [fst]. change (hd_error (flat_map D ?l)) with (first_ok D l). rewrite first_map. reflexivity. }
  rewrite SQ. clear SQ.
  assert (Df : forall q l, D (f (q, l)) = map (shift ((k, (i, q)) :: l)) (D (q, []))).
  { intros q l. unfold f. cbn [fst snd]. change (q, (k, (i, q)) :: l) with (shift ((k, (i, q)) :: l) (q, [])).
    now apply logp_shift. }
  assert (Dn : forall q l, D (q, []) = [] -> D (f (q, l)) = []) by (intros q l E; now rewrite Df, E).
  destruct (mreps_u M U (N.to_nat mn) a i g b Hi Hg Ha) as [(A & B0 & C)|(j & A & B0 & C & Cl)].
  - rewrite A, B0. cbn [flat_map]. rewrite app_nil_r. set (p := pos i (N.to_nat mn)) in *.
    assert (Hap : (a <= at_ p)%Z) by (unfold EngineOk.at_, p in *; lia).
    rewrite loopN_nl.
    destruct (mgreedy_loop M U (N.to_nat (mx - mn)) (extra w mn (mx_opt mx)) mn a p g
      (if N.to_nat mn =? 0 then b else true) (proj2 C) Hg Hap ltac:(apply (extra_close w Hlen); lia)) as (t & b' & T1 & T2 & T3 & T4 & T5).
    rewrite T5.
    assert (After : forall q g', q <= t -> length g' = G -> (forall q', q < q' <= t -> D (pos p q', []) = []) ->
      (gs && ge = true -> forall j d, hd_error (D (pos p q, [])) = Some (j, d) -> upd d g' = upd d g) ->
      (q = 0 \/ D (pos p q, []) <> []) ->
      res (bind (set_group k (at_ i, at_ (pos p q)) (mk a (pos p q) g' true)) R) a i g
        (first_ok (fun c => D (f c)) (mdown p t)) (N.eqb mn 0 && cl) false (gs && ge)).
    { intros q g' Hq Hg' He Hu Hz. pose proof (pos_le p q) as PL. pose proof (pos_mono p q t Hq) as PM. rewrite set_group_ok by (cbn; lia). cbn [bind EngineOk.mk s_start s_end s_grp s_acc].
      rewrite (mfirst_down _ p t q) by (auto; intros; apply Dn; auto).
      specialize (HR a (pos p q) (upd1 k (i, pos p q) g') true ltac:(lia) ltac:(now rewrite upd1_length) (or_introl eq_refl)
        ltac:(unfold EngineOk.at_ in *; lia) I). unfold EngineOk.res in HR |- *.
      destruct (hd_error (D (pos p q, []))) as [[j d]|] eqn:E.
      - rewrite (mfirst_down_hd _ p q (j, d ++ [(k, (i, pos p q))])) by (now rewrite Df, hd_map, E).
        destruct HR as (g2 & R1 & R2 & R3). exists g2. split; [exact R1|]. split; [exact R2|]. intro X.
        rewrite R3 by (apply andb_true_iff in X; tauto). rewrite upd_app. cbn [EngineOk.upd].
        exact (upd_under _ _ _ _ _ _ (Hu X _ _ eq_refl)).
      - apply hd_none in E. destruct Hz as [-> | Hz]; [|congruence]. cbn [pos] in *. rewrite mfirst_down_0.
        rewrite Dn by assumption. cbn [hd_error].
        destruct HR as (j & g2 & R1 & R2 & R3 & R4 & R5). exists j, g2. conj; auto.
        + rewrite andb_true_iff. intros [X Y]. rewrite R4 by assumption. unfold p. apply N.eqb_eq in X. now rewrite X.
        + discriminate. }
    assert (Fin : res (bind (match nl t (bt_step e M B (at_ p)) (mk a (pos p t) g b') with inl s2 => Ok (set_acc true s2) | inr o => o end)
         (fun s1 => if s_acc s1 then bind (set_group k (at_ i, s_end s1) s1) R else Ok s1))
       a i g (first_ok (fun c => D (f c)) (mdown p t)) (N.eqb mn 0 && cl) false (gs && ge)).
    { destruct T3 as [->|[-> ->]].
      - destruct (mbt_loop M true B D gc gs ge U (or_intror HB) t a p g T2 T1 Hg Hap)
          as [(q & g' & j & d & A1 & A2 & A3 & A4 & A5 & A6)|(g' & A1 & A2 & A3 & A4 & A7)].
        + rewrite A4. cbn [bind EngineOk.mk s_acc s_end]. apply After; auto; try lia.
          * intros X j' d' E'. assert (j' = j /\ d' = d) as [-> ->] by (split; congruence). rewrite (A6 X). apply upd_upd.
          * right. intro Z. rewrite Z in A2. discriminate.
        + rewrite A2. cbn [bind]. change (s_acc (set_acc true (mk a p g' true))) with true. cbv iota.
          change (set_acc true (mk a p g' true)) with (mk a p g' true). change (s_end (mk a p g' true)) with (at_ p).
          pose proof (After 0 g') as Af. cbn [pos] in Af. apply Af; auto; try lia.
          intros X j' d' E'. apply andb_true_iff in X as [X _]. exact (A7 X _ _ _ (hd_some_in _ _ E')).
      - cbn [nl bind]. change (s_acc (set_acc true ?x)) with true. cbv iota.
        pose proof (After 0 g) as Af. cbn [pos] in *.
        change (s_end (set_acc true ?x)) with (s_end x). change (s_end (mk a p g (if N.to_nat mn =? 0 then b else true))) with (at_ p).
        change (set_acc true (mk a p g (if N.to_nat mn =? 0 then b else true))) with (mk a p g true).
        apply Af; auto; try lia. }
    change (s_end (mk a p g (if N.to_nat mn =? 0 then b else true))) with (at_ p).
    change (s_end (mk a i g b)) with (at_ i).
    destruct T4 as [->| ->]; cbn [fst snd]; rewrite loopN_nl; replace (N.to_nat (mn + N.of_nat t - mn)) with t by lia; exact Fin.
  - rewrite A, C. cbn [flat_map bind]. exists j, g. conj; auto; try lia.
Qed.
End Mark.
