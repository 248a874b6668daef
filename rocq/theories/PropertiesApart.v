(** C72: the policy of a run does not matter when what follows cannot start like what is repeated. *)
From Coq Require Import String ZArith NArith List Bool Lia ZifyBool ZifyNat ZifyN.
From Verif Require Import Base Text Ast AstProofs Builder BuilderProofs Engine Api ApiProofs Spec Tree Supported Refuted PropertiesCalm PropertiesMatch Laws PropertiesLaws Ranges PropertiesRanges SpecRun SpecPut PropertiesInside Apart.
Import ListNotations.
Open Scope nat_scope.

(** C72 (partial).  For every element or group x (with or without captures), every quantifier with two bounds and every
    rest that cannot begin with a character x may begin with: the greedy, the possessive and (when x is wanted at least
    once) the lazy run of x, after any p and among any other alternatives, are one and the same regex, so whatever is asked of them, in whatever memory, the answers are
    the same. *)
Theorem C72_policies_partial : forall l a p x q g g' s t, ranged q -> apart x s ->
  (g = Lz \/ g' = Lz -> kind_min q <> 0%N) ->
  let one := among l (Br a (put p (SCons x (QQ q g) s))) t in
  let other := among l (Br a (put p (SCons x (QQ q g') s))) t in
  wf one = true -> wf other = true ->
  exists n, compile (show one) = Some n /\ compile (show other) = Some n.
Proof.
  intros l a p x q g g' s t R A L one other W W'. exists (ctree one). split; [now apply calm_compile|].
  replace (ctree one) with (ctree other); [now apply calm_compile|]. unfold one, other.
  apply wf_inside in W. cbn [wf_sq] in W. rewrite !andb_true_iff in W. destruct W as [[Wx _] Ws].
  apply same_among; [|intro k; destruct x; reflexivity].
  intro k. destruct (run_tail x q g' s k) as (n & E & O & N); auto. destruct (run_tail x q g s k) as (n' & E' & O' & N'); auto.
  exists n, n'. split; [exact E|]. split; [exact E'|]. split; congruence.
Qed.
Print Assumptions C72_policies_partial.
(** A character that an element matches may begin it. *)
Lemma may_set y c : elem_set y c = true -> may y c = true.
Proof.
  destruct y as [| | |[] [|i l]| |]; cbn [may elem_set]; auto. cbn [existsb]. destruct (citem_set i c); [discriminate|]. now rewrite andb_false_r.
Qed.
Example C72_case :
  (let x := AEl (EClass true [CChar 44; CChar 59]) in
   let s := seqs [(lit ",", Q1); (AEl (EEsc 119), QQ QStar Gr)] in
   let p g := ROne (Br true (SCons x (QQ QPlus g) s)) in
   show (p Gr) = S2L "^[^,;]+,\w*" /\ show (p Lz) = S2L "^[^,;]+?,\w*" /\ show (p Po) = S2L "^[^,;]++,\w*"
   /\ wf (p Gr) = true /\ wf (p Lz) = true /\ wf (p Po) = true /\ apart x s)
  /\ (let x := ACap 0 (ROr (Br false (seqs [(lit "a", Q1); (lit "b", star)])) (ROne (Br false (seqs [(AEl (EEsc 100), Q1)])))) in
      let s := seqs [(AEl (EEsc 115), QQ QStar Gr); (ANon (ROne (Br false (seqs [(lit ":", Q1); (lit "a", Q1)]))), Q1)] in
      let p g := among ins_l (Br false (put ins_p (SCons x (QQ (QMinMax [2]%Z [4]%Z) g) s))) ins_t in
      show (p Gr) = S2L "^x|(c+)\s*(ab*|\d){2,4}\s*(?::a)|y" /\ show (p Lz) = S2L "^x|(c+)\s*(ab*|\d){2,4}?\s*(?::a)|y" /\ wf (p Gr) = true /\ wf (p Lz) = true /\ apart x s)
  /\ exists s, on "^x|(c+)\s*(ab*|\d){2,4}?\s*(?::a)|y" "zc abb2a :a" = Some (RDone s) /\ to_view s = Some (1, 11)%Z /\ get_group s 2 = Some (Some (7, 8)%Z).
Proof.
  split; [|split].
  - cbv zeta. split; [vm_compute; reflexivity|]. split; [vm_compute; reflexivity|]. split; [vm_compute; reflexivity|]. split; [vm_compute; reflexivity|].
    split; [vm_compute; reflexivity|]. split; [vm_compute; reflexivity|]. intros c [H1 H2]. cbn [seqs fold_right leads_atom leads_sq lit] in H1, H2.
    destruct H2 as [H2|[[H2|H2] _]]; [|discriminate H2|now apply (H2 (ELit 44))]. change ((c =? 44)%Z = true) in H2. cbn [may seven citem_set] in H1. rewrite H2 in H1. discriminate H1.
  - cbv zeta. split; [vm_compute; reflexivity|]. split; [vm_compute; reflexivity|]. split; [vm_compute; reflexivity|]. split; [vm_compute; reflexivity|].
    intros c [H1 H2].
    assert (B1 : (c = 97 \/ 48 <= c <= 57)%Z).
    { cbn [seqs fold_right leads_atom leads leads_br leads_sq lit] in H1. destruct H1 as [[H|[H|[[H|H] _]]]|[H|[H|[_ []]]]]; try discriminate H.
      - change ((c =? 97)%Z = true) in H. lia.
      - now specialize (H (ELit 97)).
      - cbn [may elem_set] in H. unfold esc_set in H. cbn [Z.eqb Pos.eqb] in H. lia. }
    cbn [seqs fold_right leads_atom leads leads_br leads_sq lit] in H2.
    destruct H2 as [H|[_ [[H|[H|[[H|H] _]]]|[_ []]]]]; try discriminate H.
    + cbn [may elem_set] in H. unfold esc_set in H. cbn [Z.eqb Pos.eqb existsb] in H. lia.
    + change ((c =? 58)%Z = true) in H. lia.
    + now specialize (H (ELit 58)).
  - eexists. split; [|split]; vm_compute; reflexivity.
Qed.
(** A lazy run that can be empty is another matter: a*?b?c finds "bac" in "bac", where a*b?c finds "ac". *)
Theorem C72_refuted : exists one other n n' s s',
  one = ROne (Br false (SCons (lit "a") (QQ QStar Lz) (seqs [(lit "b", opt); (lit "c", Q1)])))
  /\ other = ROne (Br false (SCons (lit "a") (QQ QStar Gr) (seqs [(lit "b", opt); (lit "c", Q1)])))
  /\ show one = S2L "a*?b?c" /\ show other = S2L "a*b?c" /\ wf one = true /\ wf other = true
  /\ compile (show one) = Some n /\ compile (show other) = Some n'
  /\ create 4 (env_of [] (S2L "bac") [0%Z]) n = RDone s /\ to_view s = Some (0, 3)%Z
  /\ create 4 (env_of [] (S2L "bac") [0%Z]) n' = RDone s' /\ to_view s' = Some (1, 3)%Z.
Proof.
  do 2 eexists. exists (node_of (S2L "a*?b?c")), (node_of (S2L "a*b?c")),
    (st_of (create 4 (env_of [] (S2L "bac") [0%Z]) (node_of (S2L "a*?b?c")))), (st_of (create 4 (env_of [] (S2L "bac") [0%Z]) (node_of (S2L "a*b?c")))).
  split; [reflexivity|]. split; [reflexivity|]. conj; vm_compute; reflexivity.
Qed.
Print Assumptions C72_refuted.
