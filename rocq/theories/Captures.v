(** Number of capture slots of the compiled tree, and slots that every match fills. *)
From Coq Require Import ZArith NArith List Bool Lia.
From Verif Require Import Base Text Ast Builder Engine Spec SpecProofs Tree Den Checker AstProofs EngineOk Supported.
Import ListNotations.
Open Scope nat_scope.

Lemma gidx_followed u r : childless u ->
  gidx (followed u r) = gidx u ++ match r with Some c => gidx c | None => [] end.
Proof.
  intro H. destruct r as [c|]; [|now rewrite app_nil_r].
  destruct u; cbn in H |- *; try tauto; subst; cbn; rewrite ?app_nil_r, ?app_assoc; auto.
Qed.
Lemma gidx_quant q m : gidx (tree_quant q m) = gidx m.
Proof. destruct q as [|[] []]; cbn; rewrite ?app_nil_r; reflexivity. Qed.
Lemma gidx_citems items : flat_map gidx (map tree_citem items) = [].
Proof. induction items as [|[] l IH]; cbn; auto. Qed.
Lemma gidx_tree :
  (forall r, flat_map gidx (tree_bs r) = caps r) /\
  (forall b, gidx (tree_br b) = caps_br b) /\
  (forall s, match tree_sq s with Some n => gidx n | None => [] end = caps_sq s) /\
  (forall a, gidx (tree_atom a) = caps_atom a).
Proof.
  apply rx_all_ind.
  - intros b H. cbn. now rewrite app_nil_r.
  - intros b H r Hr. cbn. now rewrite H, Hr.
  - intros [] s H; cbn [tree_br caps_br].
    + rewrite gidx_followed by reflexivity. cbn. exact H.
    + rewrite <- H. destruct (tree_sq s); reflexivity.
  - reflexivity.
  - intros a Ha q s Hs. cbn [tree_sq caps_sq]. rewrite gidx_followed by apply childless_quant, childless_atom.
    now rewrite gidx_quant, Ha, Hs.
  - intros [c|c| |[] items|a b c|a b]; cbn; rewrite ?app_nil_r; auto using gidx_citems.
  - intros i r H. cbn. now rewrite app_nil_r, H.
  - intros r H. cbn. now rewrite app_nil_r, H.
Qed.
Lemma ngroups_tree r : ngroups (tree r) = length (caps r).
Proof. rewrite ngroups_gidx. cbn [tree gidx]. now rewrite (proj1 gidx_tree). Qed.

(** ** Slots filled *)
Definition fills (a : outs) (l : list nat) : Prop :=
  forall c c', In c' (a c) ->
    (forall k, In k l -> slot k (snd c') <> None) /\ (forall k, slot k (snd c) <> None -> slot k (snd c') <> None).
Section F.
Variable w : str.
Lemma fills_seq a b l1 l2 : fills a l1 -> fills b l2 -> fills (seq_o a b) (l1 ++ l2).
Proof.
  intros A B c c' H. apply in_flat_map in H as (x & Hx & H). destruct (A _ _ Hx) as [A1 A2]. destruct (B _ _ H) as [B1 B2].
  split; intros k Hk; [apply in_app_or in Hk as [Hk|Hk]|]; auto.
Qed.
Lemma fills_weak a l l' : fills a l -> incl l' l -> fills a l'.
Proof. intros A I c c' H. destruct (A _ _ H). split; auto. Qed.
Lemma fills_pow a l n : fills a l -> fills (pow_o n a) (match n with O => [] | S _ => l end).
Proof.
  intro A. induction n as [|n IH]; cbn.
  - intros c c' [<-|[]]. split; [intros k []|auto].
  - eapply fills_weak; [apply fills_seq; [exact A|exact IH]|]. intros k H. apply in_or_app. now left.
Qed.
Lemma fills_most a l n : fills a l -> fills (most_o n a) [].
Proof.
  intro A. induction n as [|n IH]; intros c c' H; cbn in H.
  - destruct H as [<-|[]]. split; [intros k []|auto].
  - apply in_app_or in H as [H|[<-|[]]]; [|split; [intros k []|auto]]. apply in_flat_map in H as (x & Hx & H).
    apply progress_in in Hx as [Hx _]. destruct (A _ _ Hx). destruct (IH _ _ H). split; [intros k []|auto].
Qed.
Lemma fills_least a l n : fills a l -> fills (least_o n a) [].
Proof.
  intro A. induction n as [|n IH]; intros c c' H; cbn in H.
  - destruct H as [<-|[]]. split; [intros k []|auto].
  - destruct H as [<-|H]; [split; [intros k []|auto]|]. apply in_flat_map in H as (x & Hx & H).
    apply progress_in in Hx as [Hx _]. destruct (A _ _ Hx). destruct (IH _ _ H). split; [intros k []|auto].
Qed.
Lemma fills_atomic a l : fills a l -> fills (atomic_o a) l.
Proof. intros A c c' H. apply firstn1_in in H. auto. Qed.
Lemma fills_quant q a l : fills a l ->
  fills (quant_o w q a) match q with Q1 => l | QQ k _ => if N.eqb (kind_min k) 0 then [] else l end.
Proof.
  intro A. destruct q as [|k g]; [exact A|].
  assert (X : forall b, fills b [] -> fills (seq_o (pow_o (N.to_nat (kind_min k)) a) b) (if N.eqb (kind_min k) 0 then [] else l)).
  { intros b B. eapply fills_weak; [apply fills_seq; [apply fills_pow; exact A|exact B]|]. rewrite app_nil_r.
    destruct (N.eqb_spec (kind_min k) 0) as [E|E]; [intros ? []|]. destruct (N.to_nat (kind_min k)) eqn:Q; [lia|]. apply incl_refl. }
  destruct g; cbn [quant_o rep_o]; [| |apply fills_atomic]; apply X; eauto using fills_most, fills_least.
Qed.
Lemma fills_sure :
  (forall r, fills (sem w r) (sure r)) /\ (forall b, fills (sem_br w b) (sure_br b)) /\
  (forall s, fills (sem_sq w s) (sure_sq s)) /\ (forall a, fills (sem_atom w a) (sure_atom a)).
Proof.
  apply rx_all_ind; cbn [sem sem_br sem_sq sem_atom sure sure_br sure_sq sure_atom].
  - auto.
  - intros b Hb r Hr c c' H. apply in_app_or in H as [H|H].
    + destruct (Hb _ _ H) as [A B]. split; [|exact B]. intros k Hk. apply filter_In in Hk. apply A. tauto.
    + destruct (Hr _ _ H) as [A B]. split; [|exact B]. intros k Hk. apply filter_In in Hk as [_ Hk].
      apply existsb_exists in Hk as (y & Hy & E). apply Nat.eqb_eq in E as ->. now apply A.
  - intros [] s H; [|exact H]. eapply fills_weak; [apply (fills_seq bol_o _ []); [|exact H]|apply incl_refl].
    intros c c' X. unfold bol_o in X. destruct (Nat.eqb _ _); [|destruct X]. destruct X as [<-|[]]. split; [intros k []|auto].
  - intros c c' [<-|[]]. split; [intros k []|auto].
  - intros a Ha q s Hs. apply fills_seq; [now apply fills_quant|exact Hs].
  - intros x c c' H. unfold chr_o in H. destruct (nth_error _ _) as [y|]; [|destruct H]. destruct (elem_set x y); [|destruct H].
    destruct H as [<-|[]]. split; [intros k []|auto].
  - intros i r H c c' X. apply in_map_iff in X as (y & <- & Hy). destruct (H _ _ Hy) as [A B]. cbn [snd slot].
    split; intros k Hk; (destruct (Nat.eqb_spec i k); [discriminate|]).
    + destruct Hk as [->|Hk]; [congruence|auto].
    + auto.
  - auto.
Qed.
End F.
Lemma covers_slots w r i c : covers r = true -> match_at w r i = Some c -> forall k, k < length (caps r) -> slot k (snd c) <> None.
Proof.
  intros H M k Hk. unfold match_at in M. destruct (sem w r (i, [])) as [|y l] eqn:E; [discriminate|]. injection M as ->.
  assert (IN : In c (sem w r (i, []))) by (rewrite E; now left). refine (proj1 (proj1 (fills_sure w) r (i, []) c IN) k _). unfold covers in H. rewrite forallb_forall in H.
  specialize (H k). rewrite in_seq in H. specialize (H ltac:(lia)). apply existsb_exists in H as (y & Hy & Q). apply Nat.eqb_eq in Q. rewrite Q. exact Hy.
Qed.

(** ** Captures lie inside the match *)
Definition within (i j : nat) (x : nat * (nat * nat)) : Prop := i <= fst (snd x) /\ fst (snd x) <= snd (snd x) /\ snd (snd x) <= j.
Definition inner (a : outs) : Prop := forall c c', In c' (a c) ->
  fst c <= fst c' /\ exists d, snd c' = d ++ snd c /\ Forall (within (fst c) (fst c')) d.
Lemma within_weak i j i' j' l : i' <= i -> j <= j' -> Forall (within i j) l -> Forall (within i' j') l.
Proof. intros A B. apply Forall_impl. unfold within. intros x H. lia. Qed.
Lemma inner_eps : inner eps_o.
Proof. intros c c' [<-|[]]. split; [lia|]. exists []. split; [reflexivity|constructor]. Qed.
Lemma inner_here c : fst c <= fst c /\ exists d, snd c = d ++ snd c /\ Forall (within (fst c) (fst c)) d.
Proof. split; [lia|]. exists []. split; [reflexivity|constructor]. Qed.
Lemma inner_trans c x c' : (fst c <= fst x /\ exists d, snd x = d ++ snd c /\ Forall (within (fst c) (fst x)) d) ->
  (fst x <= fst c' /\ exists d, snd c' = d ++ snd x /\ Forall (within (fst x) (fst c')) d) ->
  fst c <= fst c' /\ exists d, snd c' = d ++ snd c /\ Forall (within (fst c) (fst c')) d.
Proof.
  intros (A & d & D & F) (B & d' & D' & F'). split; [lia|]. exists (d' ++ d). split; [now rewrite D', D, app_assoc|].
  apply Forall_app. split; eapply within_weak; [| |eassumption| | |eassumption]; lia.
Qed.
Lemma inner_seq a b : inner a -> inner b -> inner (seq_o a b).
Proof. intros A B c c' H. apply in_flat_map in H as (x & Hx & H). eapply inner_trans; eauto. Qed.
Lemma inner_pow a n : inner a -> inner (pow_o n a).
Proof. intro A. induction n; cbn; [apply inner_eps|now apply inner_seq]. Qed.
Lemma inner_most a n : inner a -> inner (most_o n a).
Proof.
  intro A. induction n as [|n IH]; intros c c' H; cbn in H.
  - destruct H as [<-|[]]. apply inner_here.
  - apply in_app_or in H as [H|[<-|[]]]; [|apply inner_here]. apply in_flat_map in H as (x & Hx & H).
    apply progress_in in Hx as [Hx _]. eapply inner_trans; eauto.
Qed.
Lemma inner_least a n : inner a -> inner (least_o n a).
Proof.
  intro A. induction n as [|n IH]; intros c c' H; cbn in H.
  - destruct H as [<-|[]]. apply inner_here.
  - destruct H as [<-|H]; [apply inner_here|]. apply in_flat_map in H as (x & Hx & H).
    apply progress_in in Hx as [Hx _]. eapply inner_trans; eauto.
Qed.
Lemma inner_quant w q a : inner a -> inner (quant_o w q a).
Proof.
  intro A. destruct q as [|k []]; cbn [quant_o rep_o]; auto using inner_seq, inner_pow, inner_most, inner_least.
  intros c c' H. apply firstn1_in in H. revert H. apply inner_seq; auto using inner_pow, inner_most.
Qed.
Lemma inner_sem w : (forall r, inner (sem w r)) /\ (forall b, inner (sem_br w b)) /\ (forall s, inner (sem_sq w s)) /\ (forall a, inner (sem_atom w a)).
Proof.
  apply rx_all_ind; cbn [sem sem_br sem_sq sem_atom].
  - auto.
  - intros b Hb r Hr c c' H. apply in_app_or in H as [H|H]; auto.
  - intros [] s H; [|exact H]. apply inner_seq; [|exact H]. intros c c' X. unfold bol_o in X.
    destruct (Nat.eqb _ _); [|destruct X]. destruct X as [<-|[]]. apply inner_here.
  - apply inner_eps.
  - auto using inner_seq, inner_quant.
  - intros x c c' H. unfold chr_o in H. destruct (nth_error _ _) as [y|]; [|destruct H]. destruct (elem_set x y); [|destruct H].
    destruct H as [<-|[]]. cbn. split; [lia|]. exists []. split; [reflexivity|constructor].
  - intros i r H c c' X. apply in_map_iff in X as (y & <- & Hy). destruct (H _ _ Hy) as (A & d & D & F). cbn [fst snd].
    split; [exact A|]. exists ((i, (fst c, fst y)) :: d). split; [now rewrite D|]. constructor; [|exact F]. unfold within. cbn. lia.
  - auto.
Qed.
Lemma slot_in k l v : slot k l = Some v -> In (k, v) l.
Proof.
  induction l as [|[i u] l IH]; cbn; [discriminate|]. destruct (Nat.eqb_spec i k) as [->|]; [intros [= ->]; now left|right; auto].
Qed.
Lemma match_at_slot w r i j l k a b : match_at w r i = Some (j, l) -> slot k l = Some (a, b) -> i <= a <= b /\ b <= j.
Proof.
  intros M S. unfold match_at in M. destruct (sem w r (i, [])) as [|y m] eqn:E; [discriminate|]. injection M as ->.
  assert (IN : In (j, l) (sem w r (i, []))) by (rewrite E; now left).
  destruct (proj1 (inner_sem w) r _ _ IN) as (_ & d & D & F). cbn in D, F. rewrite app_nil_r in D. subst d.
  apply slot_in in S. rewrite Forall_forall in F. specialize (F _ S). unfold within in F. cbn in F. lia.
Qed.
