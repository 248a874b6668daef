(** Proofs about admitted sets, node meta data and the optimiser. *)
From Coq Require Import ZArith NArith List Bool Lia ZifyBool ZifyNat ZifyN Sorted.
From Verif Require Import Base Text Ast TextSpec.
Import ListNotations.
Open Scope Z_scope.

(** ** Induction over nodes with lists of children *)
Section NodeInd.
Variable P : node -> Prop.
Hypothesis HTerm : forall t, P (Term t).
Hypothesis HSimpleV : forall cs, Forall P cs -> P (SimpleV cs).
Hypothesis HSimple : forall m cs, P m -> Forall P cs -> P (Simple m cs).
Hypothesis HGreedy : forall m a b cs, P m -> Forall P cs -> P (Greedy m a b cs).
Hypothesis HLazy : forall m a b cs, P m -> Forall P cs -> P (Lazy m a b cs).
Hypothesis HPoss : forall m a b cs, P m -> Forall P cs -> P (Possessive m a b cs).
Hypothesis HRep : forall m k cs, P m -> Forall P cs -> P (Repeated m k cs).
Hypothesis HGroup : forall m i cs, P m -> Forall P cs -> P (Group m i cs).
Hypothesis HNeg : forall m, P m -> P (Negated m).
Fixpoint node_ind' (n : node) : P n :=
  let fix go (l : list node) : Forall P l :=
    match l with [] => Forall_nil P | x :: r => Forall_cons x (node_ind' x) (go r) end in
  match n with
  | Term t => HTerm t
  | SimpleV cs => HSimpleV cs (go cs)
  | Simple m cs => HSimple m cs (node_ind' m) (go cs)
  | Greedy m a b cs => HGreedy m a b cs (node_ind' m) (go cs)
  | Lazy m a b cs => HLazy m a b cs (node_ind' m) (go cs)
  | Possessive m a b cs => HPoss m a b cs (node_ind' m) (go cs)
  | Repeated m k cs => HRep m k cs (node_ind' m) (go cs)
  | Group m i cs => HGroup m i cs (node_ind' m) (go cs)
  | Negated m => HNeg m (node_ind' m)
  end.
End NodeInd.

(** ** Sets *)
Definition asc (s : list Z) : Prop := StronglySorted Z.lt s.
Lemma asc_ascending s : asc s <-> ascending s.
Proof.
  split.
  - induction 1 as [|x s H IH HF]; intros i j a b Hij Ha Hb.
    + destruct i; discriminate.
    + destruct j as [|j]; [lia|]. destruct i as [|i].
      * injection Ha as <-. cbn in Hb. rewrite Forall_forall in HF. apply HF. eapply nth_error_In; eassumption.
      * cbn in Ha, Hb. eapply IH; [|eassumption|eassumption]. lia.
  - induction s as [|x s IH]; intro H; constructor.
    + apply IH. intros i j a b Hij Ha Hb. apply (H (S i) (S j)); auto; lia.
    + apply Forall_forall. intros y Hy. apply In_nth_error in Hy as [k Hk].
      apply (H 0%nat (S k)); auto; lia.
Qed.
Lemma asc_inv x s : asc (x :: s) -> asc s /\ Forall (Z.lt x) s.
Proof. apply StronglySorted_inv. Qed.
Lemma asc_cons x s : asc s -> Forall (Z.lt x) s -> asc (x :: s).
Proof. now constructor. Qed.

Lemma merge_nil_r s : adm_merge s [] = s.
Proof. destruct s; reflexivity. Qed.
Lemma merge_cons a s1 b s2 : adm_merge (a :: s1) (b :: s2) =
  if a =? b then a :: adm_merge s1 s2
  else if a <? b then a :: adm_merge s1 (b :: s2) else b :: adm_merge (a :: s1) s2.
Proof. reflexivity. Qed.
Lemma merge_in s1 : forall s2 x, In x (adm_merge s1 s2) <-> In x s1 \/ In x s2.
Proof.
  induction s1 as [|a s1 IH1]; intros s2 x.
  - destruct s2; cbn; tauto.
  - induction s2 as [|b s2 IH2]; [cbn; tauto|].
    rewrite merge_cons. destruct (Z.eqb_spec a b) as [->|H].
    + cbn [In]. rewrite IH1. tauto.
    + destruct (Z.ltb_spec a b).
      * cbn [In]. rewrite IH1. cbn [In]. tauto.
      * cbn [In]. rewrite IH2. cbn [In]. tauto.
Qed.
Lemma forall_lt_in x s : Forall (Z.lt x) s <-> (forall y, In y s -> x < y).
Proof. apply Forall_forall. Qed.
Lemma asc_bound x y s : asc (y :: s) -> x < y -> forall z, In z (y :: s) -> x < z.
Proof.
  intros H Hxy z [->|Hz]; [assumption|]. apply asc_inv in H as [_ H]. rewrite Forall_forall in H.
  specialize (H z Hz). lia.
Qed.
Lemma merge_asc s1 : forall s2, asc s1 -> asc s2 -> asc (adm_merge s1 s2).
Proof.
  induction s1 as [|a s1 IH1]; intros s2 H1 H2.
  - destruct s2; exact H2.
  - induction s2 as [|b s2 IH2]; [exact H1|].
    rewrite merge_cons. pose proof (asc_inv _ _ H1) as [A1 B1]. pose proof (asc_inv _ _ H2) as [A2 B2].
    rewrite forall_lt_in in B1, B2.
    destruct (Z.eqb_spec a b) as [->|H].
    + apply asc_cons; [now apply IH1|]. rewrite forall_lt_in. intros y Hy. apply merge_in in Hy as [Hy|Hy]; auto.
    + destruct (Z.ltb_spec a b).
      * apply asc_cons; [now apply IH1|]. rewrite forall_lt_in. intros y Hy. apply merge_in in Hy as [Hy|Hy]; auto.
        eapply asc_bound; eassumption.
      * apply asc_cons; [now apply IH2|]. rewrite forall_lt_in. intros y Hy. apply merge_in in Hy as [Hy|Hy]; auto.
        eapply asc_bound; [exact H1| |eassumption]. lia.
Qed.
Lemma inter_cons a s1 b s2 : adm_inter (a :: s1) (b :: s2) =
  if a =? b then a :: adm_inter s1 s2
  else if a <? b then adm_inter s1 (b :: s2) else adm_inter (a :: s1) s2.
Proof. reflexivity. Qed.
Lemma inter_in s1 : forall s2 x, asc s1 -> asc s2 -> (In x (adm_inter s1 s2) <-> In x s1 /\ In x s2).
Proof.
  induction s1 as [|a s1 IH1]; intros s2 x H1 H2.
  - destruct s2; cbn; tauto.
  - induction s2 as [|b s2 IH2]; [cbn; tauto|].
    rewrite inter_cons. pose proof (asc_inv _ _ H1) as [A1 B1]. pose proof (asc_inv _ _ H2) as [A2 B2].
    rewrite forall_lt_in in B1, B2.
    destruct (Z.eqb_spec a b) as [->|H].
    + cbn [In]. rewrite IH1 by assumption. intuition; subst; auto.
      all: try (specialize (B1 _ ltac:(eassumption)); lia). all: try (specialize (B2 _ ltac:(eassumption)); lia).
    + destruct (Z.ltb_spec a b).
      * rewrite IH1 by assumption. split; [cbn; tauto|]. intros [[->|Ha] Hb]; [|auto].
        pose proof (asc_bound _ _ _ H2 H0 x Hb). lia.
      * rewrite IH2 by assumption. split; [cbn; tauto|]. intros [Ha [->|Hb]]; [|auto].
        assert (L : x < a) by lia. pose proof (asc_bound _ _ _ H1 L x Ha). lia.
Qed.
Lemma inter_asc s1 : forall s2, asc s1 -> asc s2 -> asc (adm_inter s1 s2).
Proof.
  induction s1 as [|a s1 IH1]; intros s2 H1 H2.
  - destruct s2; constructor.
  - induction s2 as [|b s2 IH2]; [constructor|].
    rewrite inter_cons. pose proof (asc_inv _ _ H1) as [A1 B1]. pose proof (asc_inv _ _ H2) as [A2 B2].
    rewrite forall_lt_in in B1, B2.
    destruct (Z.eqb_spec a b) as [->|H].
    + apply asc_cons; [now apply IH1|]. rewrite forall_lt_in. intros y Hy. apply inter_in in Hy; auto. apply B1; tauto.
    + destruct (Z.ltb_spec a b); auto.
Qed.
Lemma diff_cons a s1 b s2 : adm_difference (a :: s1) (b :: s2) =
  if a =? b then adm_difference s1 s2
  else if a <? b then a :: adm_difference s1 (b :: s2) else b :: adm_difference (a :: s1) s2.
Proof. reflexivity. Qed.
Lemma diff_in s1 : forall s2 x, asc s1 -> asc s2 ->
  (In x (adm_difference s1 s2) <-> (In x s1 /\ ~ In x s2) \/ (~ In x s1 /\ In x s2)).
Proof.
  induction s1 as [|a s1 IH1]; intros s2 x H1 H2.
  - destruct s2; cbn; tauto.
  - induction s2 as [|b s2 IH2]; [cbn; tauto|].
    rewrite diff_cons. pose proof (asc_inv _ _ H1) as [A1 B1]. pose proof (asc_inv _ _ H2) as [A2 B2].
    rewrite forall_lt_in in B1, B2.
    destruct (Z.eqb_spec a b) as [->|H].
    + rewrite IH1 by assumption. cbn [In].
      split; [|tauto].
      intros [[Ha Hb]|[Ha Hb]]; [left|right]; split; auto; intros [->|K]; auto.
      * specialize (B1 _ Ha); lia. * specialize (B2 _ Hb); lia.
    + destruct (Z.ltb_spec a b).
      * cbn [In]. rewrite IH1 by assumption. split.
        -- intros [->|[[Ha Hb]|[Ha Hb]]].
           ++ left. split; auto. intro K. pose proof (asc_bound _ _ _ H2 H0 x K). lia.
           ++ left. auto.
           ++ right. split; auto. intros [->|K]; auto. pose proof (asc_bound _ _ _ H2 H0 x Hb). lia.
        -- cbn [In]. tauto.
      * assert (L : b < a) by lia. cbn [In]. rewrite IH2 by assumption. split.
        -- intros [->|[[Ha Hb]|[Ha Hb]]].
           ++ right. split; auto. intro K. pose proof (asc_bound _ _ _ H1 L x K). lia.
           ++ left. split; auto. intros [->|K]; auto. pose proof (asc_bound _ _ _ H1 L x Ha). lia.
           ++ right. auto.
        -- cbn [In]. tauto.
Qed.
Lemma adm_range_in a b x : In x (adm_range a b) <-> a <= x <= b.
Proof.
  unfold adm_range. rewrite in_map_iff. split.
  - intros (k & <- & Hk). apply in_seq in Hk. lia.
  - intro H. exists (Z.to_nat (x - a)). split; [lia|]. apply in_seq. lia.
Qed.
Lemma asc_map_seq a : forall n k, asc (map (fun j => a + Z.of_nat j) (seq k n)).
Proof.
  induction n as [|n IH]; intro k; cbn; [constructor|]. apply asc_cons; [apply IH|].
  rewrite forall_lt_in. intros y Hy. apply in_map_iff in Hy as (j & <- & Hj). apply in_seq in Hj. lia.
Qed.
Lemma adm_range_asc a b : asc (adm_range a b).
Proof. apply asc_map_seq. Qed.
Lemma diff_asc s1 : forall s2, asc s1 -> asc s2 -> asc (adm_difference s1 s2).
Proof.
  induction s1 as [|a s1 IH1]; intros s2 H1 H2.
  - destruct s2; exact H2.
  - induction s2 as [|b s2 IH2]; [exact H1|].
    rewrite diff_cons. pose proof (asc_inv _ _ H1) as [A1 B1]. pose proof (asc_inv _ _ H2) as [A2 B2].
    rewrite forall_lt_in in B1, B2.
    destruct (Z.eqb_spec a b) as [->|H]; auto.
    destruct (Z.ltb_spec a b).
    + apply asc_cons; [now apply IH1|]. rewrite forall_lt_in. intros y Hy. apply diff_in in Hy; auto.
      destruct Hy as [[Hy _]|[_ Hy]]; auto. eapply asc_bound; eassumption.
    + apply asc_cons; [now apply IH2|]. rewrite forall_lt_in. intros y Hy. apply diff_in in Hy; auto.
      destruct Hy as [[Hy _]|[_ Hy]]; auto. eapply asc_bound; [exact H1| |eassumption]. lia.
Qed.
Lemma complement_in s x : asc s -> Forall (fun c => 0 <= c <= 127) s ->
  (In x (adm_complement s) <-> (0 <= x <= 127 /\ ~ In x s)).
Proof.
  intros H1 H2. unfold adm_complement. rewrite diff_in by (auto; apply adm_range_asc).
  rewrite adm_range_in. rewrite Forall_forall in H2. split.
  - intros [[A B]|[A B]]; [|tauto]. specialize (H2 x A). tauto.
  - tauto.
Qed.
Lemma extract_in sets x : In x (extract_adm sets) <-> exists s, In s sets /\ In x s.
Proof.
  induction sets as [|s r IH]; cbn.
  - split; [tauto|]. intros (s & [] & _).
  - rewrite merge_in, IH. split.
    + intros [H|(t & Ht & Hx)]; eauto.
    + intros (t & [->|Ht] & Hx); eauto.
Qed.
Lemma extract_asc sets : Forall asc sets -> asc (extract_adm sets).
Proof. induction 1; cbn; [constructor|now apply merge_asc]. Qed.

(** ** The optimiser keeps meta data *)
Lemma fold_min_lt : forall l a, (a < 4294967296 -> fold_left N.min l a < 4294967296)%N.
Proof. induction l as [|b l IH]; cbn; intros a H; auto. apply IH. lia. Qed.
Lemma minl_lt l : Forall (fun a => a < 4294967296)%N l -> (minl l < 4294967296)%N.
Proof. destruct 1; cbn; [lia|]. now apply fold_min_lt. Qed.
Lemma wrap32_lt n : (wrap32 n < 4294967296)%N.
Proof. unfold wrap32. apply N.mod_lt. lia. Qed.
Lemma wrap32_id n : (n < 4294967296)%N -> wrap32 n = n.
Proof. unfold wrap32. apply N.mod_small. Qed.
Lemma nmin_lt n : (nmin n < 4294967296)%N.
Proof.
  induction n using node_ind'; cbn; auto using wrap32_lt.
  - destruct t; cbn; try lia; auto using wrap32_lt. destruct (term_kind tok); auto using wrap32_lt; lia.
  - apply minl_lt. induction H; cbn; constructor; auto.
Qed.

Lemma map_opt (A : Type) (f : node -> A) cs :
  Forall (fun c => forall inj, f (optimize c inj) = f c) cs ->
  map f (map (fun c => optimize c []) cs) = map f cs.
Proof. induction 1 as [|c cs H HF IH]; cbn; [reflexivity|]. now rewrite H, IH. Qed.

Lemma optimize_nmin n : forall inj, nmin (optimize n inj) = nmin n.
Proof.
  induction n using node_ind'; intro inj; cbn [optimize].
  - destruct t; cbn; try reflexivity. destruct (term_kind tok) eqn:E; cbn; rewrite ?E; reflexivity.
  - destruct cs as [|c [|c2 cs]]; [reflexivity| |].
    + inversion H; subst. rewrite H2. reflexivity.
    + cbn [nmin]. now rewrite map_opt.
  - destruct cs as [|c cs].
    + cbn. rewrite IHn, N.add_0_r, wrap32_id by apply nmin_lt. reflexivity.
    + cbn [nmin]. now rewrite IHn, map_opt.
  - destruct (adm_empty _); cbn [nmin]; now rewrite IHn, map_opt.
  - destruct (adm_empty _); cbn [nmin]; now rewrite IHn, map_opt.
  - cbn [nmin]; now rewrite IHn, map_opt.
  - cbn [nmin]; now rewrite IHn.
  - cbn [nmin]; now rewrite IHn.
  - cbn [nmin]; now rewrite IHn.
Qed.
Lemma forall_nmin cs : Forall (fun c => forall inj, nmin (optimize c inj) = nmin c) cs.
Proof. apply Forall_forall. intros c _. apply optimize_nmin. Qed.

Lemma optimize_nadm n : forall inj, nadm (optimize n inj) = nadm n.
Proof.
  induction n using node_ind'; intro inj; cbn [optimize].
  - destruct t; cbn; try reflexivity. destruct (term_kind tok) eqn:E; cbn; rewrite ?E; reflexivity.
  - destruct cs as [|c [|c2 cs]]; [reflexivity| |].
    + inversion H; subst. rewrite H2. reflexivity.
    + cbn [nadm map]. rewrite optimize_nmin. inversion H; subst. inversion H3; subst.
      rewrite H2, H4, map_opt by assumption. reflexivity.
  - destruct cs as [|c cs].
    + apply IHn.
    + cbn [nadm map]. rewrite optimize_nmin, IHn. inversion H; subst. rewrite H2, map_opt by assumption. reflexivity.
  - destruct (adm_empty _); cbn [nadm]; now rewrite IHn, map_opt.
  - destruct (adm_empty _); cbn [nadm]; now rewrite IHn, map_opt.
  - cbn [nadm]; now rewrite IHn, map_opt.
  - cbn [nadm]; now rewrite IHn.
  - cbn [nadm]; now rewrite IHn.
  - cbn [nadm]; now rewrite IHn.
Qed.

(** Capture indices in the order of the opening parentheses. *)
Fixpoint gidx (n : node) : list nat :=
  match n with
  | Term _ => []
  | SimpleV cs => flat_map gidx cs
  | Simple m cs | Greedy m _ _ cs | Lazy m _ _ cs | Possessive m _ _ cs | Repeated m _ cs =>
      gidx m ++ flat_map gidx cs
  | Group m i cs => i :: gidx m ++ flat_map gidx cs
  | Negated m => gidx m
  end.
Lemma flat_map_opt (A : Type) (f : node -> list A) cs :
  Forall (fun c => forall inj, f (optimize c inj) = f c) cs ->
  flat_map f (map (fun c => optimize c []) cs) = flat_map f cs.
Proof. induction 1 as [|c cs H HF IH]; cbn; [reflexivity|]. now rewrite H, IH. Qed.
Lemma optimize_gidx n : forall inj, gidx (optimize n inj) = gidx n.
Proof.
  induction n using node_ind'; intro inj; cbn [optimize].
  - reflexivity.
  - destruct cs as [|c [|c2 cs]]; [reflexivity| |].
    + inversion H; subst. rewrite H2. cbn. now rewrite app_nil_r.
    + cbn [gidx]. now rewrite flat_map_opt.
  - destruct cs as [|c cs].
    + cbn. now rewrite IHn, app_nil_r.
    + cbn [gidx]. now rewrite IHn, flat_map_opt.
  - destruct (adm_empty _); cbn [gidx]; now rewrite IHn, flat_map_opt.
  - destruct (adm_empty _); cbn [gidx]; now rewrite IHn, flat_map_opt.
  - cbn [gidx]; now rewrite IHn, flat_map_opt.
  - cbn [gidx]; now rewrite IHn, flat_map_opt.
  - cbn [gidx]; now rewrite IHn, flat_map_opt.
  - cbn [gidx]; now rewrite IHn.
Qed.
Lemma ngroups_gidx n : ngroups n = length (gidx n).
Proof.
  assert (L : forall cs, Forall (fun n => ngroups n = length (gidx n)) cs ->
     list_sum (map ngroups cs) = length (flat_map gidx cs)).
  { induction 1 as [|c cs H HF IH]; cbn; [reflexivity|]. rewrite app_length, H. f_equal. exact IH. }
  induction n using node_ind'; cbn [ngroups gidx length]; rewrite ?app_length, ?IHn, ?L; auto; lia.
Qed.
Lemma optimize_ngroups n inj : ngroups (optimize n inj) = ngroups n.
Proof. now rewrite !ngroups_gidx, optimize_gidx. Qed.

(** ** One pass is enough *)
Lemma extract_map_eq l1 l2 : map nadm l1 = map nadm l2 -> extract_adm (map nadm l1) = extract_adm (map nadm l2).
Proof. now intros ->. Qed.
Lemma map_opt_idem cs :
  Forall (fun c => forall i1 i2, map nadm i1 = map nadm i2 -> optimize (optimize c i1) i2 = optimize c i1) cs ->
  map (fun c => optimize c []) (map (fun c => optimize c []) cs) = map (fun c => optimize c []) cs.
Proof. induction 1 as [|c cs H HF IH]; cbn; [reflexivity|]. now rewrite H, IH. Qed.
Lemma map_nadm_opt cs : map nadm (map (fun c => optimize c []) cs) = map nadm cs.
Proof. apply map_opt. apply Forall_forall. intros; apply optimize_nadm. Qed.

Lemma optimize_idem n : forall i1 i2, map nadm i1 = map nadm i2 ->
  optimize (optimize n i1) i2 = optimize n i1.
Proof.
  induction n using node_ind'; intros i1 i2 Hi; cbn [optimize].
  - destruct t; cbn; try reflexivity. destruct (term_kind tok) eqn:E; cbn; rewrite ?E; reflexivity.
  - destruct cs as [|c [|c2 cs]]; [reflexivity| |].
    + inversion H; subst. auto.
    + cbn [map optimize]. f_equal. change (map (fun c => optimize c []) (map (fun c => optimize c []) (c :: c2 :: cs)) = map (fun c => optimize c []) (c :: c2 :: cs)). now apply map_opt_idem.
  - destruct cs as [|c cs]; [auto|].
    cbn [map optimize]. rewrite IHn by assumption. f_equal.
    change (map (fun c => optimize c []) (map (fun c => optimize c []) (c :: cs)) = map (fun c => optimize c []) (c :: cs)). now apply map_opt_idem.
  - destruct (adm_empty (adm_inter (nadm n) (extract_adm (map nadm (cs ++ i1))))) eqn:E; cbn [optimize].
    + now rewrite IHn, map_opt_idem.
    + replace (adm_empty _) with false.
      * now rewrite IHn, map_opt_idem.
      * rewrite <- E. rewrite optimize_nadm, !map_app, map_nadm_opt, <- Hi. reflexivity.
  - destruct (adm_empty (adm_inter (nadm (Lazy n a b cs)) (extract_adm (map nadm (cs ++ i1))))) eqn:E; cbn [optimize].
    + now rewrite IHn, map_opt_idem.
    + replace (adm_empty _) with false.
      * now rewrite IHn, map_opt_idem.
      * rewrite <- E. cbn [nadm]. rewrite optimize_nadm, !map_app, map_nadm_opt, <- Hi. reflexivity.
  - now rewrite IHn, map_opt_idem.
  - now rewrite IHn, map_opt_idem.
  - rewrite IHn, map_opt_idem; auto. rewrite !map_app, map_nadm_opt. now rewrite Hi.
  - now rewrite IHn.
Qed.

Lemma str_eqb_refl s : str_eqb s s = true.
Proof. induction s; cbn; rewrite ?Z.eqb_refl; auto. Qed.
Lemma term_eqb_refl t : term_eqb t t = true.
Proof. destruct t; cbn; rewrite ?str_eqb_refl, ?Z.eqb_refl; auto. Qed.
Fixpoint leqb (l1 l2 : list node) : bool :=
  match l1, l2 with
  | [], [] => true
  | x :: r1, y :: r2 => node_eqb x y && leqb r1 r2
  | _, _ => false
  end.
Lemma leqb_refl cs : Forall (fun n => node_eqb n n = true) cs -> leqb cs cs = true.
Proof. induction 1 as [|c cs H HF IH]; cbn; auto. now rewrite H. Qed.
Lemma node_eqb_refl n : node_eqb n n = true.
Proof.
  induction n using node_ind'; cbn; rewrite ?term_eqb_refl, ?N.eqb_refl, ?Nat.eqb_refl, ?IHn; cbn; auto;
  now apply leqb_refl.
Qed.
Lemma optimizer_done n k : optimizer (S k) n = Some (optimize n []) \/ optimizer (S k) n = Some n.
Proof.
  cbn. destruct (node_eqb n (optimize n [])); auto. left.
  destruct k; cbn; rewrite optimize_idem, node_eqb_refl by reflexivity; reflexivity.
Qed.
Lemma str_eqb_eq a b : str_eqb a b = true -> a = b.
Proof.
  revert b; induction a as [|x a IH]; intros [|y b]; cbn; intro H; try congruence; try discriminate.
  apply andb_true_iff in H as [H1 H2]. apply Z.eqb_eq in H1. apply IH in H2. congruence.
Qed.
Lemma term_eqb_eq t u : term_eqb t u = true -> t = u.
Proof.
  destruct t, u; cbn; intro H; try discriminate; try reflexivity.
  - f_equal; now apply str_eqb_eq. - f_equal; now apply str_eqb_eq.
  - apply andb_true_iff in H as [H1 H2]. apply Z.eqb_eq in H1, H2. congruence.
Qed.
Lemma leqb_eq cs : Forall (fun n => forall m, node_eqb n m = true -> n = m) cs -> forall ds, leqb cs ds = true -> cs = ds.
Proof.
  induction 1 as [|c cs H HF IH]; intros [|d ds] E; cbn in E; try discriminate; [reflexivity|].
  apply andb_true_iff in E as [E1 E2]. apply H in E1. apply IH in E2. congruence.
Qed.
Lemma node_eqb_eq n : forall m, node_eqb n m = true -> n = m.
Proof.
  induction n using node_ind'; intros m E; destruct m; try discriminate; cbn in E;
  repeat match goal with H : _ && _ = true |- _ => apply andb_true_iff in H as [? ?] end;
  repeat match goal with H : N.eqb _ _ = true |- _ => apply N.eqb_eq in H
                       | H : Nat.eqb _ _ = true |- _ => apply Nat.eqb_eq in H
                       | H : term_eqb _ _ = true |- _ => apply term_eqb_eq in H
                       | IH : forall m, node_eqb ?n m = true -> _, H : node_eqb ?n _ = true |- _ => apply IH in H
                       | HF : Forall _ ?cs, H : _ ?cs ?ds = true |- _ => apply (leqb_eq _ HF) in H
  end; congruence.
Qed.
Lemma optimizer_eq n k : optimizer (S k) n = Some (optimize n []).
Proof.
  destruct (optimizer_done n k) as [E|E]; [assumption|]. rewrite E.
  cbn in E. destruct (node_eqb n (optimize n [])) eqn:Q.
  - f_equal. now apply node_eqb_eq.
  - destruct k; cbn in E; rewrite optimize_idem, node_eqb_refl in E by reflexivity; congruence.
Qed.
