(** Proofs for PropertiesWrap.v: a group around the whole pattern. *)
From Coq Require Import String ZArith NArith List Bool Lia ZifyBool ZifyNat ZifyN.
From Verif Require Import Base Text Ast AstProofs Builder BuilderProofs Engine EngineRel Api ApiProofs Spec Tree Supported Captures PropertiesCalm.
Import ListNotations.
Open Scope nat_scope.

Definition nongroup (r : rx) : rx := ROne (Br false (SCons (ANon r) Q1 SNil)).
Definition capgroup (r : rx) : rx := ROne (Br false (SCons (ACap 0 r) Q1 SNil)).
(** Without captures nothing is renumbered. *)
Lemma renumber_id :
  (forall r, caps r = [] -> forall i g, renumber_in i r g = r)
  /\ (forall b, caps_br b = [] -> forall g, renumber_br b g = b)
  /\ (forall s, caps_sq s = [] -> forall g, renumber_sq s g = s)
  /\ (forall a, caps_atom a = [] -> forall g, renumber_atom a g = a).
Proof.
  apply rx_all_ind.
  - intros b IH C i g. cbn [caps] in C. cbn [renumber_in]. now rewrite IH.
  - intros b IHb r IHr C i g. cbn [caps] in C. apply app_eq_nil in C as [Cb Cr]. cbn [renumber_in]. rewrite IHb by exact Cb. now rewrite IHr.
  - intros a s IH C g. cbn [caps_br] in C. cbn [renumber_br]. now rewrite IH.
  - reflexivity.
  - intros a IHa q s IHs C g. cbn [caps_sq] in C. apply app_eq_nil in C as [Ca Cs]. cbn [renumber_sq]. rewrite IHa by exact Ca. now rewrite IHs.
  - reflexivity.
  - intros i r IH C g. discriminate C.
  - intros r IH C g. cbn [caps_atom] in C. cbn [renumber_atom]. now rewrite IH.
Qed.
Lemma non_ctree r : caps r = [] \/ (exists b, r = ROne b) -> ctree (nongroup r) = ctree r.
Proof.
  intro H. unfold ctree, renumber, nongroup, tree. cbn [renumber_in renumber_br renumber_sq renumber_atom tree_bs tree_br tree_sq tree_quant tree_atom followed optimize].
  replace (renumber_in true r 0) with (renumber_in false r 0); [reflexivity|]. destruct H as [C|[b ->]]; [|reflexivity]. now rewrite !(proj1 renumber_id).
Qed.
Lemma cap_ctree r : caps r = [] -> ctree (capgroup r) = Group (ctree r) 0 [].
Proof.
  intro C. unfold ctree, renumber, capgroup, tree. cbn [renumber_in renumber_br renumber_sq renumber_atom tree_bs tree_br tree_sq tree_quant tree_atom followed].
  rewrite !(proj1 renumber_id r C). reflexivity.
Qed.
Lemma no_gidx r : caps r = [] -> gidx (ctree r) = [].
Proof. intro C. unfold ctree. rewrite optimize_gidx. unfold tree, renumber. rewrite (proj1 renumber_id r C). cbn [gidx]. now rewrite (proj1 gidx_tree). Qed.

(** ** A capture around a matcher without captures *)
Section Whole.
Variables (e : env) (n : node).
Hypothesis NG : gidx n = [].
Let n2 := Group n 0 [].
(** The same result, and slot 0 of the second is its text. *)
Definition whole (s s2 : st) : Prop :=
  s_start s = s_start s2 /\ s_end s = s_end s2 /\ s_acc s = s_acc s2 /\ s_grp s = []
  /\ s_grp s2 = [if s_acc s then Some (s_start s, s_end s) else None].
Definition whole_out (o o2 : rout) : Prop :=
  match o, o2 with RDone s, RDone s2 => whole s s2 | RUB, RUB => True | RFuel, RFuel => True | _, _ => False end.
Lemma ng : ngroups n = 0.
Proof. rewrite ngroups_gidx, NG. reflexivity. Qed.
(** The inner matcher changes nothing but the position and the flag. *)
Definition plainrel (g : list (option (Z * Z))) (b : Z) (s s2 : st) : Prop :=
  s_start s = b /\ s_start s2 = b /\ s_end s = s_end s2 /\ s_acc s = s_acc s2 /\ s_grp s = [] /\ s_grp s2 = g.
Lemma inner_rel g b s s2 : plainrel g b s s2 -> orel (plainrel g b) (mt e n [] s) (mt e n [] s2).
Proof.
  intro H. refine (mt_rel e (plainrel g b) (fun _ => False) _ _ _ _ _ _ n _ [] [] (Forall2_nil _) s s2 H); unfold plainrel.
  - intros t t' X. tauto.
  - intros t t' X. destruct X as (-> & -> & _). reflexivity.
  - intros t t' X. tauto.
  - intros t t' p X. cbn. tauto.
  - intros t t' p X. cbn. tauto.
  - intros t t' i v _ [].
  - rewrite NG. intros i [].
Qed.
Lemma attempt s s2 : s_start s = s_end s -> s_start s2 = s_end s2 -> s_end s = s_end s2 -> s_acc s = s_acc s2 -> s_grp s = [] -> s_grp s2 = [None] ->
  match mt e n [] s, mt e n2 [] s2 with Ok t, Ok t2 => whole t t2 | UB, UB => True | _, _ => False end.
Proof.
  intros S S2 E A G G2. pose proof (inner_rel [None] (s_end s) s s2) as R. unfold plainrel at 1 in R. specialize (R ltac:(conj; congruence)).
  unfold n2. cbn [mt map]. unfold group_m. destruct (mt e n [] s) as [t|], (mt e n [] s2) as [t2|]; cbn [orel bind] in *; try tauto.
  destruct R as (B & B2 & Et & At & Gt & Gt2). rewrite <- At. destruct (s_acc t) eqn:K.
  - unfold set_group. rewrite Gt2. cbn [set_nth bind dfs]. unfold whole. cbn [s_start s_end s_acc s_grp]. rewrite K. conj; congruence.
  - unfold whole. rewrite K. conj; congruence.
Qed.
Lemma loop_whole : forall fuel s s2, s_start s = s_end s -> s_start s2 = s_end s2 -> s_end s = s_end s2 -> s_acc s = s_acc s2 -> s_grp s = [] -> s_grp s2 = [None] ->
  whole_out (next_loop fuel e n s) (next_loop fuel e n2 s2).
Proof.
  induction fuel as [|f IH]; intros s s2 S S2 E A G G2; cbn [next_loop]; rewrite S, S2, <- E; destruct (s_end s <? qe e)%Z eqn:L; cbn [whole_out];
    try exact Logic.I; try (unfold whole; cbn [set_acc s_start s_end s_acc s_grp]; conj; congruence).
  pose proof (attempt s s2 S S2 E A G G2) as R. destruct (mt e n [] s) as [t|], (mt e n2 [] s2) as [t2|]; try tauto; try exact Logic.I.
  pose proof R as (B & Et & At & Gt & Gt2). rewrite <- At. destruct (s_acc t) eqn:K; [exact R|]. rewrite <- Et.
  destruct (ptr_ok e (s_end t + 1)); [|exact Logic.I]. apply IH; cbn [s_start s_end s_acc s_grp]; auto.
Qed.
Lemma next_whole fuel s s2 : whole s s2 -> whole_out (next fuel e n s) (next fuel e n2 s2).
Proof.
  intros (B & E & A & _). unfold next. apply loop_whole; cbn [s_start s_end s_acc s_grp]; auto; unfold no_groups; [now rewrite ng|]. unfold n2. cbn [ngroups map list_sum fold_right]. now rewrite ng.
Qed.
Lemma create_whole fuel : whole_out (create fuel e n) (create fuel e n2).
Proof.
  unfold create.
  assert (G1 : s_grp (fresh e n) = []) by (cbn; unfold no_groups; now rewrite ng).
  assert (G2 : s_grp (fresh e n2) = [None]) by (cbn [fresh s_grp]; unfold no_groups, n2; cbn [ngroups map list_sum fold_right]; now rewrite ng).
  pose proof (attempt (fresh e n) (fresh e n2) eq_refl eq_refl eq_refl eq_refl G1 G2) as R.
  destruct (mt e n [] (fresh e n)) as [t|], (mt e n2 [] (fresh e n2)) as [t2|]; try tauto; try exact Logic.I.
  pose proof R as (B & Et & At & Gt & Gt2). rewrite <- At. destruct (s_acc t) eqn:K; [exact R|]. now apply next_whole.
Qed.
Lemma visits_whole s l : visits e n s l -> forall s2, whole s s2 -> visits e n2 s2 l.
Proof.
  induction 1 as [s A|fuel s s' l A N V IH]; intros s2 W; pose proof W as (B & E & A2 & _).
  - constructor. unfold is_accepted in *. congruence.
  - replace (to_view s) with (to_view s2) by (unfold to_view, is_accepted in *; now rewrite <- A2, A, B, E).
    pose proof (next_whole fuel s s2 W) as R. rewrite N in R. destruct (next fuel e n2 s2) as [s2'| |] eqn:N2; cbn in R; try tauto.
    econstructor; [unfold is_accepted in *; congruence|exact N2|]. now apply IH.
Qed.
End Whole.

(** ** ^ in front of a pattern with one branch *)
Lemma start_ctree s : wf (ROne (Br false s)) = true -> ctree (ROne (Br true s)) = Simple (Term TStart) [ctree (ROne (Br false s))].
Proof.
  intro W. cbn [wf wf_br] in W. unfold ctree, renumber, tree. cbn [renumber_in renumber_br tree_bs tree_br].
  destruct s as [|a q s]; [discriminate|]. cbn [renumber_sq tree_sq followed app]. reflexivity.
Qed.
Section Front.
Variables (e : env) (n : node).
Hypothesis GB : forall i, In i (gidx n) -> i < ngroups n.
Let na := Simple (Term TStart) [n].
Lemma front_groups : ngroups na = ngroups n.
Proof. cbn. lia. Qed.
Lemma front_mt s : mt e na [] s
  = if (qe e <=? s_end s)%Z then Ok (set_acc false s)
    else if (s_end s =? qb e)%Z then bind (mt e n [] (set_acc true s)) (fun s2 => if s_acc s2 then Ok s2 else Ok (set_end (s_end s) s2))
         else Ok (set_acc false s).
Proof.
  unfold na. cbn [mt map match_term dfs]. unfold simple_m, match_start. destruct (qe e <=? s_end s)%Z; [reflexivity|].
  cbn [bind s_acc set_acc]. destruct (s_end s =? qb e)%Z; reflexivity.
Qed.
Lemma front_mt_acc s t : length (s_grp s) = ngroups n -> s_start s = s_end s -> mt e na [] s = Ok t -> s_acc t = true ->
  exists t', mt e n [] (fresh e n) = Ok t' /\ s_acc t' = true.
Proof.
  intros L B M A. rewrite front_mt in M. destruct (qe e <=? s_end s)%Z; [injection M as <-; discriminate|].
  destruct (Z.eqb_spec (s_end s) (qb e)) as [E|]; [|injection M as <-; discriminate].
  assert (R : Rgrp (ngroups n) (set_acc true s) (fresh e n)).
  { unfold Rgrp. cbn [set_acc fresh s_start s_end s_acc s_grp]. unfold no_groups. rewrite repeat_length. conj; try congruence; auto. }
  pose proof (mt_grp e (ngroups n) n GB [] [] (Forall2_nil _) _ _ R) as X.
  destruct (mt e n [] (set_acc true s)) as [u|]; [|discriminate]. destruct (mt e n [] (fresh e n)) as [u'|]; [|destruct X].
  exists u'. split; [reflexivity|]. destruct X as (_ & _ & X & _). rewrite <- X. cbn [bind] in M. destruct (s_acc u) eqn:K; [reflexivity|]. injection M as <-. cbn in A. congruence.
Qed.
Lemma front_groups_kept s t : length (s_grp s) = ngroups n -> mt e na [] s = Ok t -> length (s_grp t) = ngroups n.
Proof.
  intros L M. refine (proj2 (mt_frame e (ngroups n) na _ s t L M)). intros i Hi. apply GB. unfold na in Hi. cbn in Hi. now rewrite app_nil_r in Hi.
Qed.
Lemma front_loop : forall fuel s t, length (s_grp s) = ngroups n -> s_start s = s_end s -> next_loop fuel e na s = RDone t -> s_acc t = true ->
  exists t', mt e n [] (fresh e n) = Ok t' /\ s_acc t' = true.
Proof.
  induction fuel as [|f IH]; intros s t L B H A; cbn [next_loop] in H; destruct (s_start s <? qe e)%Z; try discriminate; try (injection H as <-; discriminate).
  destruct (mt e na [] s) as [u|] eqn:M; [|discriminate]. destruct (s_acc u) eqn:K.
  - injection H as <-. exact (front_mt_acc s u L B M K).
  - destruct (ptr_ok e (s_end u + 1)); [|discriminate]. refine (IH _ t _ _ H A); [|reflexivity]. cbn [s_grp]. exact (front_groups_kept s u L M).
Qed.
Lemma fresh_front : fresh e na = fresh e n.
Proof. unfold fresh, no_groups. now rewrite front_groups. Qed.
Lemma front_first : (qb e < qe e)%Z -> mt e na [] (fresh e na) = bind (mt e n [] (fresh e n)) (fun s2 => if s_acc s2 then Ok s2 else Ok (set_end (qb e) s2)).
Proof.
  intro Q. rewrite fresh_front, front_mt. cbn [fresh s_end]. destruct (Z.leb_spec (qe e) (qb e)); [lia|]. rewrite Z.eqb_refl. reflexivity.
Qed.
(** Accepted with ^: the first attempt without it is accepted too, with the same result. *)
Lemma front_create fuel t : create fuel e na = RDone t -> s_acc t = true -> forall fuel', create fuel' e n = RDone t.
Proof.
  intros H A fuel'. unfold create in H. destruct (mt e na [] (fresh e na)) as [u|] eqn:M; [|discriminate].
  assert (Q : (qb e < qe e)%Z -> (exists t', mt e n [] (fresh e n) = Ok t' /\ s_acc t' = true) -> create fuel' e n = RDone t).
  { intros Q (t' & M' & A'). rewrite (front_first Q), M' in M. cbn [bind] in M. rewrite A' in M. injection M as <-. rewrite A' in H. injection H as <-. unfold create. now rewrite M', A'. }
  destruct (s_acc u) eqn:K.
  - injection H as <-. assert (Qq : (qb e < qe e)%Z).
    { rewrite front_mt in M. cbn [fresh s_end] in M. destruct (Z.leb_spec (qe e) (qb e)); [injection M as <-; discriminate|lia]. }
    apply Q; [exact Qq|]. refine (front_mt_acc (fresh e na) u _ eq_refl M K). cbn. unfold no_groups. rewrite repeat_length. apply front_groups.
  - unfold next in H. assert (Lg : length (no_groups na) = ngroups n) by (unfold no_groups; rewrite repeat_length; apply front_groups).
    assert (E : s_end u = qb e).
    { rewrite front_mt in M. cbn [fresh s_end] in M. destruct (qe e <=? qb e)%Z; [injection M as <-; reflexivity|]. rewrite Z.eqb_refl in M.
      destruct (mt e n [] (set_acc true (fresh e na))) as [v|]; [|discriminate]. cbn [bind] in M. destruct (s_acc v) eqn:V; injection M as <-; [congruence|reflexivity]. }
    destruct (front_loop fuel (mkSt (s_end u) (s_end u) (no_groups na) (s_acc u)) t Lg eq_refl H A) as (t' & M' & A').
    destruct (Z.lt_ge_cases (qb e) (qe e)) as [Qq|Qq].
    + apply Q; eauto.
    + exfalso. destruct fuel as [|f]; cbn [next_loop s_start] in H; rewrite E in H; destruct (Z.ltb_spec (qb e) (qe e)); try lia; injection H as <-; discriminate.
Qed.
Lemma front_back t : (qb e < qe e)%Z -> create 0 e n = RDone t -> s_acc t = true -> forall fuel, create fuel e na = RDone t.
Proof.
  intros Q H A fuel. unfold create in *. rewrite (front_first Q). destruct (mt e n [] (fresh e n)) as [u|]; [|discriminate]. cbn [bind]. destruct (s_acc u) eqn:K.
  - injection H as <-. now rewrite K.
  - exfalso. unfold next in H. cbn [next_loop] in H. destruct (_ <? _)%Z in H; [discriminate|]. injection H as <-. discriminate.
Qed.
End Front.
