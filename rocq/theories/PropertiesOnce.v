(** C74: x{1} and x. *)
From Coq Require Import String ZArith NArith List Bool Lia ZifyBool ZifyNat ZifyN.
From Verif Require Import Base Text Ast AstProofs Builder BuilderProofs Engine EngineProofs Api ApiProofs Spec Tree Supported Refuted PropertiesCalm PropertiesMatch Laws PropertiesLaws Ranges PropertiesRanges SpecPut SpecOnce Middle Inside PropertiesInside Once.
Import ListNotations.
Open Scope nat_scope.

Lemma steady_last a : forall p, steady a p -> bare p -> (p = SNil /\ a = true) \/ exists p' x, p = put p' (SCons x Q1 SNil) /\ (forall i r, x <> ACap i r) /\ bare p'.
Proof.
  induction p as [|x q p IH]; intros S B; [left; split; [reflexivity|exact S]|right]. destruct p as [|x2 q2 p2].
  - destruct S as [-> N]. exists SNil, x. cbn [put bare]. repeat split; auto.
  - destruct B as [B0 B]. specialize (IH S B). destruct IH as [[E _]|(p' & z & E & N & B')]; [discriminate E|]. exists (SCons x q p'), z. split; [cbn [put]; now rewrite E|]. split; [exact N|split; assumption].
Qed.
Lemma put_put p q s : put (put p q) s = put p (put q s).
Proof. induction p as [|x k p IH]; cbn [put]; [reflexivity|]. now rewrite IH. Qed.

(** C74 (partial).  For every element y, y{1} may be written y at the end of a sequence (after any p), and in front of any
    s when what comes before ends with an unquantified part that is not a capturing group, or is a ^ alone, and has no
    unquantified capturing group: both regexes have the same groups and give the same results, in every memory. *)
Theorem C74_once_partial : forall l a p y i s t, num_val i = 1%Z -> s = SNil \/ (steady a p /\ bare p) ->
  let counted := among l (Br a (put p (SCons (AEl y) (QQ (QExact i) Gr) s))) t in
  let plain := among l (Br a (put p (SCons (AEl y) Q1 s))) t in
  wf counted = true -> wf plain = true ->
  exists n n', compile (show counted) = Some n /\ compile (show plain) = Some n' /\ forall e, same_results_in e n n'.
Proof.
  intros l a p y i s t I C counted plain W W'. exists (ctree counted), (ctree plain).
  split; [now apply calm_compile|]. split; [now apply calm_compile|]. intro e.
  assert (O : elem_ok y = true). { apply wf_inside in W'. cbn [wf_sq wf_atom] in W'. rewrite !andb_true_iff in W'. tauto. }
  assert (K : forall g o, followed (tree_quant (QQ (QExact i) Gr) (tree_atom (renumber_atom (AEl y) g))) o = followed (Repeated (tree_elem y) 1 []) o).
  { intros g o. cbn [renumber_atom tree_atom tree_quant]. rewrite I. reflexivity. }
  destruct C as [->|[S B]].
  - assert (ST : same_tail e (SCons (AEl y) (QQ (QExact i) Gr) SNil) (SCons (AEl y) Q1 SNil)).
    { split; [|reflexivity]. intro g. cbn [renumber_sq tree_sq]. rewrite K. now apply (once_near e y None). }
    destruct (put_same e l a p _ _ t ST) as [NG M]. now apply same_of.
  - assert (NE : forall g, match tree_sq (renumber_sq (SCons (AEl y) (QQ (QExact i) Gr) s) g), tree_sq (renumber_sq (SCons (AEl y) Q1 s) g) with Some n, Some n' => near_tail e n n' | _, _ => False end).
    { intro g. cbn [renumber_sq tree_sq]. rewrite K. now apply once_near. }
    assert (NX : forall g, nx_sq (renumber_sq (SCons (AEl y) (QQ (QExact i) Gr) s) g) = nx_sq (renumber_sq (SCons (AEl y) Q1 s) g)) by (intro g; reflexivity).
    destruct (branch_same e (Br a (put p (SCons (AEl y) (QQ (QExact i) Gr) s))) (Br a (put p (SCons (AEl y) Q1 s)))) with (l := l) (t := t) as [NG M]; [| |now apply same_of].
    + intro g. destruct (steady_last a p S B) as [[-> ->]|(p' & x & -> & N & B')].
      * cbn [put renumber_br tree_br]. specialize (NE g). destruct (tree_sq _) as [n|]; [|contradiction]. destruct (tree_sq _) as [n'|]; [|contradiction]. now apply near_simple.
      * assert (PL : forall k, match tree_sq (renumber_sq (SCons x Q1 (SCons (AEl y) (QQ (QExact i) Gr) s)) k), tree_sq (renumber_sq (SCons x Q1 (SCons (AEl y) Q1 s)) k) with Some n, Some n' => plain_tail e n n' | _, _ => False end).
        { intro k. remember (SCons (AEl y) (QQ (QExact i) Gr) s) as u. remember (SCons (AEl y) Q1 s) as u'. cbn [renumber_sq tree_sq]. set (x' := renumber_atom x k). specialize (NE (after_atom x' k)).
          destruct (tree_sq _) as [n|]; [|contradiction]. destruct (tree_sq _) as [n'|]; [|contradiction]. cbn [tree_quant].
          assert (SH : exists m, tree_atom x' = Simple m []).
          { unfold x'. destruct x as [z|j r|r]; cbn [renumber_atom tree_atom]; [destruct z as [| | |[]| |]; cbn [tree_elem]; eauto|now destruct (N j r)|eauto]. }
          destruct SH as [m ->]. now apply near_simple. }
        rewrite !put_put. cbn [put]. pose proof (plain_put e (SCons x Q1 (SCons (AEl y) (QQ (QExact i) Gr) s)) (SCons x Q1 (SCons (AEl y) Q1 s)) PL p' B' g) as PP. cbn [renumber_br]. destruct a; cbn [tree_br].
        -- destruct (tree_sq _) as [n|]; [|contradiction]. destruct (tree_sq _) as [n'|]; [|contradiction]. now apply simple_plain.
        -- destruct (tree_sq _) as [n|]; [|contradiction]. destruct (tree_sq _) as [n'|]; [|contradiction]. exact PP.
    + intro g. cbn [renumber_br nx_br]. apply (put_nx _ _ NX).
Qed.
Print Assumptions C74_once_partial.
Example C74_case : exists counted plain p2,
  (let p := seqs [(ACap 0 (ROne (Br false (seqs [(lit "c", Q1)]))), plus); (AEl (EEsc 115), Q1)] in
   let s := seqs [(ACap 0 (ROne (Br false (seqs [(lit "b", opt)]))), Q1); (lit "a", Q1)] in
   counted = among ins_l (Br false (put p (SCons (AEl (EEsc 100)) (QQ (QExact [0; 1]%Z) Gr) s))) ins_t
   /\ plain = among ins_l (Br false (put p (SCons (AEl (EEsc 100)) Q1 s))) ins_t
   /\ steady false p /\ bare p)
  /\ num_val [0; 1]%Z = 1%Z
  /\ show counted = S2L "^x|(c)+\s\d{01}(b?)a|y" /\ show plain = S2L "^x|(c)+\s\d(b?)a|y" /\ wf counted = true /\ wf plain = true
  /\ p2 = among [] (Br true (put ins_p (SCons (AEl (EEsc 100)) (QQ (QExact [1]%Z) Gr) SNil))) ins_t
  /\ show p2 = S2L "^(c+)\s*\d{1}|y" /\ wf p2 = true
  /\ (exists s, on "^x|(c)+\s\d{01}(b?)a|y" "acc 3bab" = Some (RDone s) /\ to_view s = Some (1, 7)%Z /\ get_group s 1 = Some (Some (2, 3)%Z) /\ get_group s 2 = Some (Some (5, 6)%Z)).
Proof.
  eexists _, _, _. split; [cbv zeta; split; [reflexivity|]; split; [reflexivity|]; split; [split; [reflexivity|discriminate]|]; split; [right; discriminate|split; [left; discriminate|exact Logic.I]]|].
  split; [reflexivity|]. split; [vm_compute; reflexivity|]. split; [vm_compute; reflexivity|]. split; [vm_compute; reflexivity|]. split; [vm_compute; reflexivity|].
  split; [reflexivity|]. split; [vm_compute; reflexivity|]. split; [vm_compute; reflexivity|].
  eexists. split; [|split; [|split]]; vm_compute; reflexivity.
Qed.
(** Elsewhere a{1} is not a: a failure behind a{1} leaves the search further on, and the match in between is passed over. *)
Theorem C74_refuted : on "a[ab]c" "aaaac" <> None /\ on "a{1}[ab]c" "aaaac" <> None
  /\ forall r r', on "a{1}[ab]c" "aaaac" = Some (RDone r) -> on "a[ab]c" "aaaac" = Some (RDone r') -> to_view r = None /\ to_view r' = Some (2, 5)%Z.
Proof.
  split; [vm_compute; discriminate|]. split; [vm_compute; discriminate|]. intros r r' H H'. split.
  - assert (X : forall r, on "a{1}[ab]c" "aaaac" = Some (RDone r) -> to_view r = None) by (intro r0; vm_compute; intro X; injection X as <-; reflexivity). now apply X.
  - assert (X : forall r, on "a[ab]c" "aaaac" = Some (RDone r) -> to_view r = Some (2, 5)%Z) by (intro r0; vm_compute; intro X; injection X as <-; reflexivity). now apply X.
Qed.
Print Assumptions C74_refuted.
