(** C60: different spellings of a pattern give the same matcher. *)
From Coq Require Import String ZArith NArith List Bool Lia ZifyBool ZifyNat ZifyN.
From Verif Require Import Base Text Ast Builder Engine Api Spec Supported End EndD Refuted PropertiesCalm SpecSpell Spell.
Import ListNotations.
Open Scope nat_scope.

(** C60.  Two well-formed patterns that differ only in how characters (c, \c, \OOO, \xHH with
    decimal digits) and quantifiers (the star and {0,}, + and {1,}, ? and {0,1}, leading zeros) are
    written compile to the same matcher, with and without a final $; so every call on every query
    has the same outcome. *)
Theorem C60_spelling : forall r r', wf r = true -> wf r' = true -> same r r' ->
  (exists n, compile (show r) = Some n /\ compile (show r') = Some n)
  /\ (exists n, compile (show_d r) = Some n /\ compile (show_d r') = Some n)
  /\ (forall pre w post, run_regex (show r) pre w post = run_regex (show r') pre w post)
  /\ (forall pre w post, run_regex (show_d r) pre w post = run_regex (show_d r') pre w post).
Proof.
  intros r r' W W' S. pose proof (calm_compile r W) as C. pose proof (calm_compile r' W') as C'. pose proof (compile_d r W) as D. pose proof (compile_d r' W') as D'.
  rewrite <- (same_ctree r r' W W' S) in C'. rewrite <- (same_ctree_d r r' W W' S) in D'.
  conj; [eauto|eauto| |]; intros; unfold run_regex; [now rewrite C, C'|now rewrite D, D'].
Qed.
Print Assumptions C60_spelling.
Definition spell1 : rx := ROr (Br true (SCons (ACap 0 (ROne (Br false (SCons (AEl (ELit 65)) (QQ QPlus Lz) SNil)))) Q1 (SCons (AEl (EClass true [CChar 44; CRange 48 57])) (QQ QStar Gr) (SCons (AEl (EOct 0 1 1)) Q1 SNil))))
  (ROne (Br false (SCons (AEl (EEsc 43)) (QQ (QExact [3]%Z) Gr) SNil))).
Definition spell2 : rx := ROr (Br true (SCons (ACap 7 (ROne (Br false (SCons (AEl (EHex 4 1)) (QQ (QMin [0; 1]%Z) Lz) SNil)))) Q1 (SCons (AEl (EClass true [CEsc 44; CRange 48 57])) (QQ (QMin [0]%Z) Gr) (SCons (AEl (EEsc 116)) Q1 SNil))))
  (ROne (Br false (SCons (AEl (EOct 0 5 3)) (QQ (QExact [0; 3]%Z) Gr) SNil))).
Example C60_case : show spell1 = S2L "^(A+?)[^,0-9]*\011|\+{3}" /\ show spell2 = S2L "^(\x41{01,}?)[^\,0-9]{0,}\t|\053{03}"
  /\ wf spell1 = true /\ wf spell2 = true /\ same spell1 spell2.
Proof.
  conj; try (vm_compute; reflexivity). cbn [same spell1 spell2 same_br same_sq same_atom same_quant one_number].
  assert (E : forall x y c, elem_byte x = Some c -> elem_byte y = Some c -> same_elem x y) by (intros x y c A B; right; left; rewrite A, B; split; [discriminate|reflexivity]).
  conj; try reflexivity; try (now left); try exact Logic.I; try (eapply E; reflexivity).
  right. right. exists true, [CChar 44; CRange 48 57], [CEsc 44; CRange 48 57]. conj; [reflexivity|reflexivity|]. constructor; [right; split; [discriminate|reflexivity]|]. constructor; [now left|constructor].
Qed.
(** [b] in place of b is not such a spelling: it changes the numbers of later captures. *)
Example C60_class_differs :
  (exists s, on "(a)b(c)" "abc" = Some (RDone s) /\ get_group s 2 = Some (Some (2, 3)%Z))
  /\ (exists s, on "(a)[b](c)" "abc" = Some (RDone s) /\ get_group s 2 = Some None).
Proof. split; eexists; split; vm_compute; reflexivity. Qed.
(** A class written as the choice of its items. *)
Definition spell3 : rx := ROne (Br false (SCons (ACap 0 (ROne (Br false (SCons (AEl (EClass false [CRange 97 122; CEsc 100; CChar 95])) (QQ QPlus Gr) SNil)))) Q1
  (SCons (AEl (EClass false [CChar 44; CChar 46])) (QQ QOpt Gr) SNil))).
Definition spell4 : rx := ROne (Br false (SCons (ACap 0 (ROne (Br false (SCons
    (ANon (ROr (Br false (SCons (AEl (EClass false [CRange 97 122])) Q1 SNil)) (ROr (Br false (SCons (AEl (EEsc 100)) Q1 SNil)) (ROne (Br false (SCons (AEl (EOct 1 3 7)) Q1 SNil)))))) (QQ (QMin [1]%Z) Gr) SNil)))) Q1
  (SCons (ANon (ROr (Br false (SCons (AEl (ELit 44)) Q1 SNil)) (ROne (Br false (SCons (AEl (EEsc 46)) Q1 SNil))))) (QQ QOpt Gr) SNil))).
Example C60_choice_case : show spell3 = S2L "([a-z\d_]+)[,.]?" /\ show spell4 = S2L "((?:[a-z]|\d|\137){1,})(?:,|\.)?"
  /\ wf spell3 = true /\ wf spell4 = true /\ same spell3 spell4
  /\ exists s, on "((?:[a-z]|\d|\137){1,})(?:,|\.)?" "+a1_.b" = Some (RDone s) /\ to_view s = Some (1, 5)%Z /\ get_group s 1 = Some (Some (1, 4)%Z).
Proof.
  conj; try (vm_compute; reflexivity); [|eexists; conj; vm_compute; reflexivity].
  cbn [same spell3 spell4 same_br same_sq same_atom same_quant one_number class_choice choice_of]. unfold same_item.
  conj; try reflexivity; try exact Logic.I; try (right; left; eexists; split; reflexivity); try (now right; right); left; split; try discriminate; reflexivity.
Qed.
