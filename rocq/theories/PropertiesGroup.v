(** C71: redundant (?:...) may be left out. *)
From Coq Require Import String ZArith NArith List Bool Lia ZifyBool ZifyNat ZifyN.
From Verif Require Import Base Text Ast AstProofs Builder BuilderProofs Engine Api ApiProofs Spec Tree Supported Captures Wrap Refuted PropertiesCalm PropertiesMatch Laws PropertiesLaws SpecGroup Regroup.
Import ListNotations.
Open Scope nat_scope.

(** C71.  For every well-formed pattern without captures: leaving out the (?:...) around single items
    and around the ends of branches, at every depth, gives the same regex. *)
Theorem C71_redundant_groups : forall r, wf r = true -> caps r = [] ->
  exists n, compile (show r) = Some n /\ compile (show (strip r)) = Some n.
Proof.
  intros r W C. exists (ctree r). split; [now apply calm_compile|]. rewrite <- (strip_ctree r W C). apply calm_compile. now apply (proj1 strip_tree).
Qed.
Print Assumptions C71_redundant_groups.
(** A (?:...) around some of the alternatives changes nothing either: p|(?:q)|t is p|q|t, and likewise
    where p or t is missing; every call on every query in every memory gives the same result. *)
Theorem C71_alternatives : forall p q t, wf p = true -> wf q = true -> wf t = true -> caps p = [] -> caps q = [] -> caps t = [] ->
  (exists n n', compile (show (alt p (ROr (group q) t))) = Some n /\ compile (show (alt p (alt q t))) = Some n' /\ same_results n n')
  /\ (exists n n', compile (show (ROr (group q) t)) = Some n /\ compile (show (alt q t)) = Some n' /\ same_results n n')
  /\ (exists n n', compile (show (alt p (ROne (group q)))) = Some n /\ compile (show (alt p q)) = Some n' /\ same_results n n').
Proof.
  intros p q t Wp Wq Wt Cp Cq Ct.
  assert (Wg : wf_br (group q) = true) by (unfold group; cbn [wf_br wf_sq wf_atom quant_ok]; now rewrite Wq).
  assert (Cg : caps_br (group q) = []) by (unfold group; cbn [caps_br caps_sq caps_atom]; now rewrite Cq).
  assert (A : forall r r', wf r = true -> wf r' = true -> caps r = [] -> caps r' = [] -> (forall e s, mt e (ctree r) [] s = mt e (ctree r') [] s) ->
     exists n n', compile (show r) = Some n /\ compile (show r') = Some n' /\ same_results n n').
  { intros r r' W W' C C' M. exists (ctree r), (ctree r'). split; [now apply calm_compile|]. split; [now apply calm_compile|].
    assert (G : forall r, caps r = [] -> ngroups (ctree r) = 0).
    { intros r0 C0. unfold ctree, renumber. rewrite (proj1 renumber_id) by exact C0. unfold tree. rewrite (ngroups_gidx (optimize _ _)), optimize_gidx. cbn [gidx]. rewrite (proj1 gidx_tree), C0. reflexivity. }
    unfold same_results, groups_of. conj; [now rewrite !G|intros; apply create_alike|intros; apply next_alike|intros; apply range_alike]; auto; now rewrite !G. }
  conj; apply A; rewrite ?alt_wf, ?alt_caps; cbn [wf caps]; rewrite ?alt_wf, ?alt_caps, ?Wg, ?Wp, ?Wq, ?Wt, ?Cg, ?Cp, ?Cq, ?Ct; try reflexivity; intro e.
  - apply (alts_mt e _ _ (tree_bs p) q (tree_bs t)); rewrite ?alt_caps; cbn [caps]; rewrite ?alt_caps, ?Cg, ?Cp, ?Cq, ?Ct, ?tree_alt; try reflexivity; try exact Wq; try (cbn [tree_bs]; now rewrite ?tree_alt); left; apply bs_nonempty.
  - apply (alts_mt e _ _ [] q (tree_bs t)); rewrite ?alt_caps; cbn [caps]; rewrite ?alt_caps, ?Cg, ?Cp, ?Cq, ?Ct, ?tree_alt; try reflexivity; try exact Wq; right; apply bs_nonempty.
  - apply (alts_mt e _ _ (tree_bs p) q []); rewrite ?alt_caps; cbn [caps]; rewrite ?alt_caps, ?Cg, ?Cp, ?Cq, ?Ct, ?tree_alt, ?app_nil_r; try reflexivity; try exact Wq; left; apply bs_nonempty.
Qed.
Print Assumptions C71_alternatives.
Definition grouped : rx := ROr (Br true (seqs [(ANon (pat [(ANon (pat [(lit "a", Q1)]), Q1)]), plus); (ANon (pat [(lit "b", star); (ANon (pat [(lit "c", Q1); (lit "d", opt)]), Q1)]), Q1)]))
  (pat [(ANon (pat [(lit "x", plus)]), Q1); (lit "y", Q1)]).
Example C71_case : show grouped = S2L "^(?:(?:a))+(?:b*(?:cd?))|(?:x+)y" /\ show (strip grouped) = S2L "^a+b*cd?|(?:x+)y"
  /\ wf grouped = true /\ caps grouped = []
  /\ exists s, on "^(?:(?:a))+(?:b*(?:cd?))|(?:x+)y" "aabbcz" = Some (RDone s) /\ to_view s = Some (0, 5)%Z.
Proof. conj; try (vm_compute; reflexivity). eexists. split; vm_compute; reflexivity. Qed.
Example C71_alternatives_case : let p := pat [(lit "a", plus)] in let q := ROr (Br false (seqs [(lit "b", Q1); (lit "c", Q1)])) (pat [(lit "d", Q1)]) in let t := pat [(lit "e", Q1)] in
  show (alt p (ROr (group q) t)) = S2L "a+|(?:bc|d)|e" /\ show (alt p (alt q t)) = S2L "a+|bc|d|e" /\ wf p = true /\ wf q = true /\ wf t = true
  /\ exists s, on "a+|(?:bc|d)|e" "+d" = Some (RDone s) /\ to_view s = Some (1, 2)%Z.
Proof. cbv zeta. conj; try (vm_compute; reflexivity). eexists. split; vm_compute; reflexivity. Qed.
(** With captures it is not so: a (?:...) without captures makes the count of captures start again. *)
Example C71_captures_differ :
  (exists s, on "(a)b(c)" "abc" = Some (RDone s) /\ get_group s 1 = Some (Some (0, 1)%Z) /\ get_group s 2 = Some (Some (2, 3)%Z))
  /\ (exists s, on "(a)(?:b)(c)" "abc" = Some (RDone s) /\ get_group s 1 = Some (Some (2, 3)%Z) /\ get_group s 2 = Some None).
Proof. split; eexists; conj; vm_compute; reflexivity. Qed.
(** Nor in the middle of a branch: a run in a group of its own gives nothing back. *)
Example C71_middle_differs :
  (exists s, on "a*ab" "aab" = Some (RDone s) /\ to_view s = Some (0, 3)%Z) /\ (exists s, on "(?:a*)ab" "aab" = Some (RDone s) /\ is_accepted s = false).
Proof. split; eexists; conj; vm_compute; reflexivity. Qed.
