(** minimum_match_size is a lower bound for every text in the language. *)
From Coq Require Import ZArith NArith List Bool Lia ZifyBool ZifyNat ZifyN.
From Verif Require Import Base Text Ast Builder Spec SpecProofs Tree Den AstProofs.
Import ListNotations.
Open Scope N_scope.

Lemma wrap_le x : wrap32 x <= x.
Proof. unfold wrap32. apply N.mod_le. discriminate. Qed.
Lemma minl_le l x : In x l -> minl l <= x.
Proof.
  assert (F : forall r a, fold_left N.min r a <= a /\ forall x, In x r -> fold_left N.min r a <= x).
  { induction r as [|y r IH]; intro a; cbn; [split; [lia|intros ? []]|]. destruct (IH (N.min a y)) as [A B]. split; [lia|].
    intros z [->|Hz]; [lia|auto]. }
  destruct l as [|a r]; [intros []|]. cbn. destruct (F r a) as [A B]. intros [->|H]; auto.
Qed.

Section M.
Variable w : str.
(** The language does not depend on the numbering of the groups. *)
Lemma pieces_ext (R R' : nat -> nat -> Prop) : (forall i j, R i j <-> R' i j) -> forall k i j, pieces R k i j <-> pieces R' k i j.
Proof.
  intro H. induction k as [|k IH]; intros i j; split; intro P; inversion P; subst; try constructor;
    (econstructor; [apply H; eassumption|apply IH; assumption]).
Qed.
Lemma lang_renumber :
  (forall r i g a b, lang w (renumber_in i r g) a b <-> lang w r a b) /\
  (forall x g a b, lang_br w (renumber_br x g) a b <-> lang_br w x a b) /\
  (forall s g a b, lang_sq w (renumber_sq s g) a b <-> lang_sq w s a b) /\
  (forall x g a b, lang_atom w (renumber_atom x g) a b <-> lang_atom w x a b).
Proof.
  apply rx_all_ind; cbn; intros; try tauto; try apply H.
  - rewrite (H g), (H0 _ _ a b0). tauto.
  - rewrite (H g). tauto.
  - split; intros (m & k & B & P & S); exists m, k; (split; [exact B|]);
      (split; [|now apply (H0 (after_atom (renumber_atom a g) g))]).
    + exact (proj1 (pieces_ext _ _ (fun i j => H g i j) k a0 m) P).
    + exact (proj2 (pieces_ext _ _ (fun i j => H g i j) k a0 m) P).
Qed.

Definition atleast (R : nat -> nat -> Prop) (k : N) : Prop := forall i j, R i j -> N.of_nat i + k <= N.of_nat j.
Lemma pieces_least R k : atleast R k -> forall m i j, pieces R m i j -> N.of_nat i + k * N.of_nat m <= N.of_nat j.
Proof.
  intros H m i j P. induction P as [i|m i j l Hr P IH]; [lia|]. specialize (H _ _ Hr). lia.
Qed.
Lemma term_min1 t : tset t <> None -> term_min t <= 1.
Proof.
  intro Ht. destruct t as [tok|l| | |]; cbn in *; try lia.
  - destruct (term_kind tok) as [[|? []]| |]; cbn in *; try congruence; unfold wrap32; cbn; lia.
  - destruct l as [|? []]; cbn in *; try congruence; unfold wrap32; cbn; lia.
Qed.
Lemma simple0 m : nmin (Simple m []) = nmin m.
Proof. cbn. rewrite N.add_0_r. apply wrap32_id, nmin_lt. Qed.
Lemma esc_min c : escapable c = true -> nmin (Simple (Term (TTerminal [c_bslash; c])) []) <= 1.
Proof.
  intro H. rewrite simple0. apply term_min1. cbn [tset]. destruct (kset_esc c H) as (P & -> & _). discriminate.
Qed.
Lemma citem_min i : citem_ok i = true -> nmin (tree_citem i) <= 1.
Proof.
  destruct i; cbn [tree_citem citem_ok]; intro H; try (rewrite simple0; apply term_min1; discriminate). now apply esc_min.
Qed.
Lemma elem_min x : elem_ok x = true -> nmin (tree_elem x) <= 1.
Proof.
  destruct x as [c|c| |neg items|a b c|a b]; cbn [tree_elem elem_ok]; intro H.
  - rewrite simple0. apply term_min1. cbn [tset]. rewrite kset_lit by exact H. discriminate.
  - now apply esc_min.
  - rewrite simple0. apply term_min1. discriminate.
  - assert (E : nmin (SimpleV (map tree_citem items)) <= 1).
    { destruct items as [|i l]; [cbn; lia|]. cbn [forallb] in H. rewrite !andb_true_iff in H.
      eapply N.le_trans; [apply (minl_le _ (nmin (tree_citem i))); now left|]. apply citem_min. tauto. }
    destruct neg; rewrite simple0; exact E.
  - rewrite simple0. apply term_min1. discriminate.
  - rewrite simple0. apply term_min1. discriminate.
Qed.
Definition restmin (r : option node) : N := match r with Some c => nmin c | None => 0 end.
Lemma quant_min q a rest k : (exists m, a = Simple m [] \/ exists i, a = Group m i []) -> quant_ok q = true -> in_bounds q k ->
  nmin (followed (tree_quant q a) rest) <= nmin a * N.of_nat k + restmin rest.
Proof.
  intros C Q B.
  assert (W : forall mn, mn <= N.of_nat k -> wrap32 (nmin a * mn + restmin rest) <= nmin a * N.of_nat k + restmin rest).
  { intros mn H. eapply N.le_trans; [apply wrap_le|]. nia. }
  destruct q as [|kd g].
  - cbn in B. subst. cbn [tree_quant]. rewrite N.mul_1_r. destruct rest as [c|]; [|cbn [followed restmin]; lia].
    cbn [restmin]. destruct C as (m & [->|(i & ->)]); cbn [followed app].
    + rewrite simple0. cbn [nmin map minl fold_left]. apply wrap_le.
    + cbn [nmin]. lia.
  - destruct B as [B _].
    assert (MK : forall p mx, nmin (followed (mkq p a (kind_min kd) mx) rest) <= nmin a * N.of_nat k + restmin rest).
    { intros p mx. specialize (W _ B). destruct p, rest as [c|]; cbn [mkq followed app nmin map minl fold_left restmin] in *; exact W. }
    destruct kd; cbn [tree_quant]; try apply MK.
    destruct rest as [c|]; cbn [followed app nmin restmin]; (eapply N.le_trans; [apply wrap_le|]); cbn [kind_min] in B; nia.
Qed.
Lemma lang_min :
  (forall r, wf r = true -> atleast (lang w r) (minl (map nmin (tree_bs r)))) /\
  (forall b, wf_br b = true -> atleast (lang_br w b) (nmin (tree_br b))) /\
  (forall s, wf_sq s = true -> atleast (lang_sq w s) (restmin (tree_sq s))) /\
  (forall a, wf_atom a = true -> atleast (lang_atom w a) (nmin (tree_atom a)) /\ exists m, tree_atom a = Simple m [] \/ exists i, tree_atom a = Group m i []).
Proof.
  apply rx_all_ind.
  - intros b H W i j L. cbn. apply (H W); exact L.
  - intros b H r Hr W i j L. cbn in W. apply andb_true_iff in W as [W1 W2].
    assert (X : minl (map nmin (tree_bs (ROr b r))) <= nmin (tree_br b)) by (apply minl_le; now left).
    destruct L as [L|L]; [specialize (H W1 i j L); lia|]. specialize (Hr W2 i j L).
    assert (Y : minl (map nmin (tree_bs (ROr b r))) <= minl (map nmin (tree_bs r))).
    { assert (MI : forall l : list N, l <> [] -> In (minl l) l).
      { intros l NE. destruct l as [|x l]; [congruence|]. clear. cbn. revert x. induction l as [|y l IH]; intro x; [now left|]. cbn.
        destruct (IH (N.min x y)) as [E|E]; [|auto]. rewrite <- E. destruct (N.min_spec x y) as [[_ ->]|[_ ->]]; auto. }
      apply minl_le. right. apply MI. destruct r; discriminate. }
    lia.
  - intros a s H W i j [A L]. cbn in W. assert (W' : wf_sq s = true) by (destruct s; [discriminate|exact W]).
    specialize (H W' i j L). cbn [tree_br]. destruct a.
    + destruct (tree_sq s) as [c|]; cbn [followed app restmin] in *.
      * cbn [nmin map minl fold_left term_min]. rewrite N.add_0_l, wrap32_id by apply nmin_lt. exact H.
      * rewrite simple0. cbn. lia.
    + destruct (tree_sq s); cbn [restmin] in H; [exact H|]. cbn. lia.
  - intros _ i j L. cbn in *. subst. lia.
  - intros a Ha q s Hs W i j L. cbn [wf_sq] in W. rewrite !andb_true_iff in W. destruct W as [[W1 W2] W3].
    destruct L as (m & k & B & P & L). destruct (Ha W1) as [Ha1 Ha2]. specialize (Hs W3 m j L).
    pose proof (pieces_least _ _ Ha1 k i m P). pose proof (quant_min q (tree_atom a) (tree_sq s) k Ha2 W2 B).
    cbn [tree_sq restmin]. lia.
  - intros x W. split.
    + intros i j [-> _]. pose proof (elem_min x W). cbn [tree_atom]. lia.
    + destruct x as [| | |[]| |]; cbn; eauto.
  - intros i r H W. split; [|cbn; eauto]. intros a b L. cbn [tree_atom nmin]. apply (H W); exact L.
  - intros r H W. split; [|cbn; eauto]. intros a b L. cbn [tree_atom]. rewrite simple0. apply (H W); exact L.
Qed.
End M.
