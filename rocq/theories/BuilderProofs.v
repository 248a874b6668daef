(** Capture indices produced by the tree builder stay below the number of groups. *)
From Coq Require Import ZArith NArith List Bool Lia ZifyBool ZifyNat ZifyN.
From Verif Require Import Base Text Ast Builder AstProofs.
Import ListNotations.
Open Scope Z_scope.

Definition glast (o : option node) : list nat := match o with Some n => gidx n | None => [] end.

Lemma add_child_gidx last c n : add_child last c = Some n -> gidx n = glast last ++ gidx c.
Proof.
  destruct last as [l|]; cbn; [|now injection 1 as ->].
  destruct l; try discriminate; injection 1 as <-; cbn [gidx];
    rewrite flat_map_app; cbn; rewrite app_nil_r, ?app_assoc; auto.
Qed.
Lemma list_max_le' l k : (forall x, In x l -> (x <= k)%nat) -> (list_max l <= k)%nat.
Proof. intro H. apply list_max_le. apply Forall_forall. auto. Qed.
Lemma next_gi_bound n k : (forall i, In i (gidx n) -> (i < k)%nat) -> (next_gi n <= k)%nat.
Proof.
  assert (L : forall cs, Forall (fun n => (forall i, In i (gidx n) -> (i < k)%nat) -> (next_gi n <= k)%nat) cs ->
    (forall i, In i (flat_map gidx cs) -> (i < k)%nat) -> (list_max (map next_gi cs) <= k)%nat).
  { intros cs HF H. apply list_max_le'. intros x Hx. apply in_map_iff in Hx as (c & <- & Hc).
    rewrite Forall_forall in HF. apply HF; auto. intros i Hi. apply H. apply in_flat_map. eauto. }
  induction n using node_ind'; cbn [gidx next_gi]; intro Hb.
  - lia.
  - auto.
  - apply Nat.max_lub; [apply IHn|apply L]; auto; intros; apply Hb; apply in_app_iff; auto.
  - apply Nat.max_lub; [apply IHn|apply L]; auto; intros; apply Hb; apply in_app_iff; auto.
  - apply Nat.max_lub; [apply IHn|apply L]; auto; intros; apply Hb; apply in_app_iff; auto.
  - apply Nat.max_lub; [apply IHn|apply L]; auto; intros; apply Hb; apply in_app_iff; auto.
  - apply Nat.max_lub; [apply IHn|apply L]; auto; intros; apply Hb; apply in_app_iff; auto.
  - specialize (Hb i (or_introl eq_refl)). lia.
  - auto.
Qed.

Definition below (gi : nat) (l : list nat) : Prop := forall i, In i l -> (i < gi + length l)%nat.

Lemma class_items_gidx ts l : class_items ts = Some l -> flat_map gidx l = [].
Proof.
  revert l. induction ts as [ts IH] using (well_founded_induction (Wf_nat.well_founded_ltof _ (@length str))).
  unfold Wf_nat.ltof in IH. intros l H.
  destruct ts as [|t r]; cbn in H; [now injection H as <-|].
  assert (Single : forall l,
     (if tok_compiles t then match class_items r with
      | Some l => match t with
             | [b; _] => if b =? c_bslash then Some (Simple (Term (TTerminal t)) [] :: l)
                         else Some (Simple (Term (TExact t)) [] :: l)
             | _ => Some (Simple (Term (TExact t)) [] :: l) end
      | None => None end else None) = Some l -> flat_map gidx l = []).
  { clear H l. intros l H. destruct (tok_compiles t); [|discriminate].
    destruct (class_items r) as [l'|] eqn:E; [|discriminate].
    apply IH in E; [|cbn; lia].
    destruct t as [|x [|y [|z t]]]; try (injection H as <-; exact E).
    destruct (x =? c_bslash); injection H as <-; exact E. }
  destruct r as [|d [|e r']]; auto.
  destruct (is1 c_dash d); auto.
  destruct t as [|x [|? ?]]; try discriminate. destruct e as [|y [|? ?]]; try discriminate.
  destruct (x <? y); [|discriminate].
  destruct (class_items r') as [l'|] eqn:E; [|discriminate]. injection H as <-.
  apply IH in E; [|cbn; lia]. exact E.
Qed.

Lemma exact_node_gidx s n : exact_node s = Some n -> gidx n = [].
Proof. destruct s as [[|c r]|]; cbn; try discriminate. now injection 1 as <-. Qed.
Lemma classify_lit v t tl n rest : classify v t tl = ULit (Some n) rest -> gidx n = [].
Proof.
  unfold classify. intro H.
  assert (G : forall rest', ULit (if tok_compiles t then Some (Simple (Term (TTerminal t)) []) else None) rest' = ULit (Some n) rest -> gidx n = []).
  { intros rest' E. destruct (tok_compiles t); [|discriminate]. injection E as <- _. reflexivity. }
  repeat match type of H with
  | ULit (exact_node _) _ = _ => injection H as H _; eapply exact_node_gidx; eassumption
  | ULit (if tok_compiles _ then _ else _) _ = _ => eapply G; eassumption
  | ULit (Some _) _ = _ => injection H as <- _; reflexivity
  | (match ?x with _ => _ end) = _ => destruct x eqn:?; try discriminate
  end; try (eapply G; eassumption).
Qed.

Lemma braces_gidx m content p n : braces_node m content p = Some n -> gidx n = gidx m.
Proof.
  destruct content as [|a [|k [|b [|]]]]; cbn; try discriminate.
  - injection 1 as <-. cbn. apply app_nil_r.
  - destruct (is1 c_comma k); [|discriminate]. injection 1 as <-. destruct p; cbn; apply app_nil_r.
  - destruct (is1 c_comma k); [|discriminate]. injection 1 as <-. destruct p; cbn; apply app_nil_r.
Qed.
Lemma mkq_gidx p m a b : gidx (mkq p m a b) = gidx m.
Proof. destruct p; cbn; apply app_nil_r. Qed.

Lemma helper_gidx fuel : forall last ts gi n,
  helper fuel last ts gi = Some n ->
  exists new, gidx n = glast last ++ new /\ below gi new.
Proof.
  induction fuel as [|f IH]; intros last ts gi n H; [discriminate|].
  assert (Branched : forall bs g ns, mapM (fun b => helper f None b g) bs = Some ns -> below g (flat_map gidx ns)).
  { intros bs g. induction bs as [|b bs IHb]; intros ns E; cbn in E.
    - injection E as <-. intros i [].
    - destruct (helper f None b g) as [x|] eqn:Ex; [|discriminate].
      destruct (mapM _ bs) as [xs|] eqn:Exs; [|discriminate]. injection E as <-.
      apply IH in Ex as (new & E1 & E2). cbn in E1. specialize (IHb _ eq_refl).
      cbn. rewrite E1. intros i Hi. rewrite app_length. apply in_app_iff in Hi as [Hi|Hi].
      + specialize (E2 i Hi). lia.
      + specialize (IHb i Hi). lia. }
  assert (Push : forall m rest g n, match helper f (Some m) rest g with Some sub => add_child last sub | None => None end = Some n ->
     exists new, gidx n = glast last ++ gidx m ++ new /\ below g new).
  { intros m rest g n' E. destruct (helper f (Some m) rest g) as [sub|] eqn:Es; [|discriminate].
    apply IH in Es as (new & E1 & E2). apply add_child_gidx in E. exists new. split; auto. rewrite E, E1. reflexivity. }
  cbn [helper] in H. destruct ts as [|t tl].
  { destruct last; [|discriminate]. injection H as <-. exists []. rewrite app_nil_r. split; auto. intros i []. }
  destruct (classify _ t tl) as [lit rest|mn mx rest|rest|rest|rest|neg rest|rest] eqn:EC.
  - destruct lit as [m|]; [|discriminate]. apply Push in H as (new & E1 & E2).
    apply classify_lit in EC. rewrite EC in E1. exists new. auto.
  - destruct last as [m|]; [|discriminate]. destruct (policy rest) as [p rest'].
    apply IH in H as (new & E1 & E2). cbn in E1. rewrite mkq_gidx in E1. exists new. auto.
  - destruct last as [m|]; [|discriminate].
    destruct (extract_delimited _ _ rest) as [[content rem]|]; [|discriminate].
    destruct (policy rem) as [p rem'].
    destruct (braces_node m content p) as [q|] eqn:Eb; [|discriminate].
    apply IH in H as (new & E1 & E2). cbn in E1. apply braces_gidx in Eb. rewrite Eb in E1. exists new. auto.
  - destruct (extract_delimited _ _ rest) as [[content rem]|]; [|discriminate].
    destruct (mapM _ _) as [ns|] eqn:Em; [|discriminate]. apply Branched in Em.
    apply Push in H as (new & E1 & E2). cbn [gidx] in E1.
    exists (gi :: flat_map gidx ns ++ new). split.
    + rewrite E1. cbn [flat_map]. rewrite app_nil_r. reflexivity.
    + intros i Hi. cbn [length]. rewrite app_length. destruct Hi as [<-|Hi]; [lia|].
      apply in_app_iff in Hi as [Hi|Hi]; [specialize (Em i Hi)|specialize (E2 i Hi)]; lia.
  - destruct (extract_delimited _ _ rest) as [[content rem]|]; [|discriminate].
    destruct (mapM _ _) as [ns|] eqn:Em; [|discriminate]. apply Branched in Em.
    apply Push in H as (new & E1 & E2). cbn [gidx] in E1.
    exists (flat_map gidx ns ++ new). split.
    + rewrite E1. cbn [flat_map]. rewrite app_nil_r. reflexivity.
    + intros i Hi. rewrite app_length. apply in_app_iff in Hi as [Hi|Hi].
      * specialize (Em i Hi). lia.
      * specialize (E2 i Hi).
        assert (B : (next_gi (Simple (SimpleV ns) []) <= gi + length (flat_map gidx ns))%nat).
        { apply next_gi_bound. cbn [gidx flat_map]. rewrite app_nil_r. exact Em. }
        lia.
  - destruct (extract_delimited _ _ rest) as [[content rem]|]; [|discriminate].
    destruct (class_items content) as [[|i items]|] eqn:Ei; try discriminate.
    apply class_items_gidx in Ei. change (gidx (SimpleV (i :: items)) = []) in Ei.
    apply Push in H as (new & E1 & E2).
    assert (B : (next_gi (SimpleV (i :: items)) <= 0)%nat).
    { apply next_gi_bound. rewrite Ei. intros ? []. }
    exists new. split.
    + rewrite E1. destruct neg; cbn [gidx] in *; rewrite Ei; reflexivity.
    + intros j Hj. specialize (E2 j Hj). lia.
  - apply IH in H as (new & E1 & E2). exists new. split; auto.
    revert EC. unfold classify. destruct last; [|auto].
    intro EC. exfalso.
    rewrite (andb_false_r (is1 c_caret t)) in EC.
    repeat match type of EC with
    | (match ?x with _ => _ end) = _ => destruct x; try discriminate EC
    end.
Qed.

Lemma build_branches_gidx bs : forall gi ns, build_branches bs gi = Some ns -> below gi (flat_map gidx ns).
Proof.
  induction bs as [|b bs IH]; intros gi ns H; cbn [build_branches] in H.
  - injection H as <-. intros i [].
  - destruct (helper (S (length b)) None b gi) as [n|] eqn:E; [|discriminate].
    destruct (build_branches bs (next_gi n)) as [ns'|] eqn:E2; [|discriminate]. injection H as <-.
    apply helper_gidx in E as (new & E1 & Eb). cbn in E1. apply IH in E2.
    assert (B : (next_gi n <= gi + length new)%nat) by (apply next_gi_bound; rewrite E1; exact Eb).
    cbn. rewrite E1. intros i Hi. rewrite app_length. apply in_app_iff in Hi as [Hi|Hi].
    + specialize (Eb i Hi). lia.
    + specialize (E2 i Hi). lia.
Qed.
Lemma parse_gidx p n : parse p = Some n -> forall i, In i (gidx n) -> (i < ngroups n)%nat.
Proof.
  unfold parse. destruct (lex p) as [ts|]; [|discriminate]. unfold build.
  destruct (build_branches _ 0) as [ns|] eqn:E; [|discriminate]. injection 1 as <-.
  apply build_branches_gidx in E. rewrite ngroups_gidx. exact E.
Qed.
Lemma compile_eq p : compile p = match parse p with Some n => Some (optimize n []) | None => None end.
Proof. unfold compile. destruct (parse p); [apply optimizer_eq|reflexivity]. Qed.
Lemma compile_gidx p n : compile p = Some n -> forall i, In i (gidx n) -> (i < ngroups n)%nat.
Proof.
  rewrite compile_eq. destruct (parse p) as [m|] eqn:E; [|discriminate]. injection 1 as <-.
  intros i Hi. rewrite optimize_gidx in Hi. rewrite optimize_ngroups. eapply parse_gidx; eassumption.
Qed.
