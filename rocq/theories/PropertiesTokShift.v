(** C69: tokenizing in a larger memory. *)
From Coq Require Import String ZArith NArith List Bool Lia ZifyBool ZifyNat ZifyN.
From Verif Require Import Base Text Ast Builder Engine Api ApiProofs Safe Mono Shift TokIter TokShift Refuted PropertiesTok.
Import ListNotations.
Open Scope nat_scope.

(** C69.  For every list of definitions and every input in every memory: what the tokenizer does
    without undefined behaviour (its first token, every increment, the whole range) it does when the memory is part
    of a larger one: the same tokens with the same types and texts, [d] bytes further. *)
Theorem C69_larger_memory : forall defs ds pre w post before after, make_defs defs = Some ds ->
  let e1 := env_of pre w post in
  let e2 := env_of (before ++ pre) w (post ++ after) in
  let d := Z.of_nat (length before) in
  (forall fuel it, iter_create fuel e1 ds = Some it ->
     iter_create fuel e2 ds = Some (shift_iter d it)
     /\ forall k it2, advances k fuel e1 ds it = Some it2 -> advances k fuel e2 ds (shift_iter d it) = Some (shift_iter d it2))
  /\ (forall steps fuel toks, tok_range_for steps fuel e1 ds = Some toks ->
        tok_range_for steps fuel e2 ds = Some (map (option_map (shift_tok d)) toks)
        /\ forall x y ty, In (Some ((x, y), ty)) toks -> text e2 (Some (x + d, y + d)%Z) = text e1 (Some (x, y))).
Proof.
  intros defs ds pre w post before after _ e1 e2 d.
  assert (B : buf e2 = before ++ (pre ++ w ++ post) ++ after) by (unfold e2; cbn [env_of buf]; now rewrite <- !app_assoc).
  assert (QE : (qe e2 = qe e1 + d)%Z) by (unfold e1, e2, d; cbn [env_of qe]; rewrite app_length; lia).
  assert (QB : (qb e2 = qb e1 + d)%Z) by (unfold e1, e2, d; cbn [env_of qb]; rewrite app_length; lia).
  assert (RD : forall p x, (0 <= p)%Z -> rd e1 p = Some x -> rd e2 (p + d) = Some x).
  { intros q x Q H. unfold rd in *. destruct (Z.ltb_spec q 0); [lia|]. destruct (Z.ltb_spec (q + d) 0); [lia|].
    rewrite B, nth_error_app2 by lia. replace (Z.to_nat (q + d) - length before) with (Z.to_nat q) by lia.
    change (buf e1) with (pre ++ w ++ post) in H. rewrite nth_error_app1; [exact H|]. apply nth_error_Some. congruence. }
  assert (PT : forall p, (0 - 1 <= p)%Z -> ptr_ok e1 p = true -> ptr_ok e2 (p + d) = true).
  { intros q Q H. unfold ptr_ok in *. rewrite B, !app_length. change (buf e1) with (pre ++ w ++ post) in H. rewrite !app_length in H. lia. }
  assert (D0 : (0 <= d)%Z) by (unfold d; lia).
  assert (L1 : (0 <= qb e1 <= Z.of_nat (length (buf e1)))%Z) by (unfold e1; cbn [env_of qb buf]; rewrite !app_length; lia).
  assert (L2 : (qe e1 <= Z.of_nat (length (buf e1)))%Z) by (unfold e1; cbn [env_of qe buf]; rewrite !app_length; lia).
  split.
  - intros fuel it C. destruct (iter_create_shift e1 e2 d QE QB RD PT D0 fuel ds it L1 L2 C) as [C' G]. split; [exact C'|].
    intro k. clear C C'. revert it G. induction k as [|k IH]; intros it G it2 A; cbn [advances] in *; [now injection A as <-|].
    destruct (advance fuel e1 ds it) as [it'|] eqn:AD; [|discriminate]. destruct (advance_shift e1 e2 d QB RD PT D0 fuel ds it it' G AD) as [AD' G']. rewrite AD'. now apply IH.
  - intros steps fuel toks H. split; [exact (range_shift_tok e1 e2 d QE QB RD PT D0 steps fuel ds toks L1 L2 H)|].
    exact (range_texts e1 e2 d QE QB RD PT D0 steps fuel ds toks L1 L2 H).
Qed.
Print Assumptions C69_larger_memory.

(** Letters and numbers, separated by blanks and commas: "ab,1 c" alone, and between "zz" and "yy". *)
Example C69_case : let D := [DTok 0 (S2L "[a-z]+"); DTok 1 (S2L "x?\d"); DSep (S2L "[ ,]")] in
  exists ds, make_defs D = Some ds
  /\ tok_range_for 6 9 (env_of [] (S2L "ab,1 c") []) ds = Some [Some ((0, 2)%Z, 0); Some ((3, 4)%Z, 1); Some ((5, 6)%Z, 0)]
  /\ tok_range_for 6 9 (env_of (S2L "zz") (S2L "ab,1 c") [0%Z; 121%Z]) ds = Some [Some ((2, 4)%Z, 0); Some ((5, 6)%Z, 1); Some ((7, 8)%Z, 0)].
Proof.
  intro D. destruct (make_defs D) as [ds|] eqn:E; [|vm_compute in E; discriminate]. exists ds. vm_compute in E. injection E as <-.
  repeat (split; [vm_compute; reflexivity|]). vm_compute. reflexivity.
Qed.
