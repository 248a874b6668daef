(** get_expression gives back the pattern text, for patterns in which nothing is rewritten. *)
From Coq Require Import ZArith NArith List Bool Lia ZifyBool ZifyNat ZifyN.
From Verif Require Import Base Text Ast AstProofs Builder BuilderProofs Api Spec Tree ParseProofs Supported Main.
Import ListNotations.
Open Scope Z_scope.

(** Patterns without alternatives, without non-capturing groups, without escapes that stand for
    one character or for \d, with only possessive quantifiers; classes of a single range. *)
Definition plain_elem (x : elem) : bool :=
  match x with
  | ELit _ | EDot => true
  | EEsc c => (c =? 115) || (c =? 119)
  | EClass false [CRange _ _] => true
  | _ => false
  end.
Definition plain_quant (q : quant) : bool :=
  match q with Q1 | QQ QStar Po | QQ QPlus Po | QQ QOpt Po => true | _ => false end.
Fixpoint plain_rx (r : rx) : bool :=
  match r with ROne b => plain_br b | ROr _ _ => false end
with plain_br (b : br) : bool := match b with Br _ s => plain_sq s end
with plain_sq (s : sq) : bool :=
  match s with SNil => true | SCons a q s' => plain_atom a && plain_quant q && plain_sq s' end
with plain_atom (a : atom) : bool :=
  match a with AEl x => plain_elem x | ACap _ r => plain_rx r | ANon _ => false end.

Lemma expr_elem x inj : elem_ok x = true -> plain_elem x = true -> nexpr (optimize (tree_elem x) inj) = show_elem x.
Proof.
  destruct x as [c|c| |[] [|[] []]| |]; cbn [plain_elem]; intros W H; try discriminate; try reflexivity.
  - cbn [tree_elem optimize term_optimize]. cbn [elem_ok] in W. assert (E : term_kind [c] = KExact [c]).
    { unfold term_kind. rewrite is1_1, !is_esc_1. destruct (Z.eqb_spec c c_dot) as [->|]; [discriminate|]. reflexivity. }
    rewrite E. reflexivity.
  - apply orb_true_iff in H as [H|H]; apply Z.eqb_eq in H; subst c; reflexivity.
Qed.
Lemma tail_one e : tail_expr [e] = e.
Proof. reflexivity. Qed.
Lemma optimize_quant q m inj : plain_quant q = true -> q <> Q1 -> forall rest,
  nexpr (optimize (followed (tree_quant q m) rest) inj) = nexpr (optimize m []) ++ show_quant q ++ match rest with None => [] | Some c => nexpr (optimize c []) end.
Proof.
  intros H N rest. destruct q as [|[] []]; try discriminate; [congruence|..]; destruct rest; cbn [tree_quant mkq pol_of followed app optimize nexpr map]; rewrite ?tail_one; cbn; rewrite <- ?app_assoc; reflexivity.
Qed.
Lemma expr_all :
  (forall r, wf r = true -> plain_rx r = true -> forall inj, nexpr (optimize (SimpleV (tree_bs r)) inj) = show r)
  /\ (forall b, wf_br b = true -> plain_br b = true -> forall inj, nexpr (optimize (tree_br b) inj) = show_br b)
  /\ (forall s, wf_sq s = true -> plain_sq s = true -> forall inj, match tree_sq s with Some n => nexpr (optimize n inj) | None => [] end = show_sq s)
  /\ (forall a, wf_atom a = true -> plain_atom a = true -> forall inj, nexpr (optimize (tree_atom a) inj) = show_atom a
        /\ forall rest, nexpr (optimize (followed (tree_atom a) (Some rest)) inj) = show_atom a ++ nexpr (optimize rest [])).
Proof.
  apply rx_all_ind; cbn [wf wf_br wf_sq wf_atom plain_rx plain_br plain_sq plain_atom].
  - intros b Hb W P inj. cbn [tree_bs optimize show]. auto.
  - discriminate.
  - intros a s Hs W P inj. assert (W' : wf_sq s = true) by (destruct s; [discriminate|exact W]). assert (N : tree_sq s <> None) by (destruct s; discriminate). destruct a; cbn [tree_br show_br app].
    + specialize (Hs W' P []). destruct (tree_sq s) as [n|]; [|congruence]. cbn [followed app optimize nexpr map term_optimize]. rewrite tail_one, Hs. reflexivity.
    + specialize (Hs W' P inj). destruct (tree_sq s) as [n|]; [exact Hs|congruence].
  - reflexivity.
  - intros a Ha q s Hs W P inj. rewrite !andb_true_iff in W, P. destruct W as [[W1 W2] W3], P as [[P1 P2] P3]. specialize (Hs W3 P3). cbn [tree_sq show_sq].
    destruct q as [|k g].
    + cbn [tree_quant show_quant app]. destruct (Ha W1 P1 inj) as [A1 A2]. destruct (tree_sq s) as [n|] eqn:E.
      * rewrite A2, (Hs []). reflexivity.
      * cbn [followed]. rewrite A1, <- (Hs []), app_nil_r. reflexivity.
    + rewrite optimize_quant by (auto; discriminate). rewrite (proj1 (Ha W1 P1 [])). do 2 f_equal. exact (Hs []).
  - intros x W P inj. split; [now apply expr_elem|]. intro rest. cbn [show_atom]. rewrite <- (expr_elem x inj W P). destruct x as [c|c| |[] [|[] []]| |]; try discriminate; cbn [show_elem tree_atom tree_elem followed app optimize nexpr map]; rewrite tail_one; reflexivity.
  - intros i r Hr W P inj. cbn [tree_atom]. split.
    + change (optimize (Group (SimpleV (tree_bs r)) i []) inj) with (Group (optimize (SimpleV (tree_bs r)) inj) i []). cbn [nexpr map]. rewrite (Hr W P). cbn [children_expr]. rewrite app_nil_r. reflexivity.
    + intro rest. cbn [followed app]. change (optimize (Group (SimpleV (tree_bs r)) i [rest]) inj) with (Group (optimize (SimpleV (tree_bs r)) ([rest] ++ inj)) i [optimize rest []]).
      cbn [nexpr map children_expr]. rewrite (Hr W P). cbn [show_atom]. rewrite <- !app_assoc. reflexivity.
  - discriminate.
Qed.
Lemma renumber_plain :
  (forall r i g, show (renumber_in i r g) = show r /\ plain_rx (renumber_in i r g) = plain_rx r)
  /\ (forall b g, show_br (renumber_br b g) = show_br b /\ plain_br (renumber_br b g) = plain_br b)
  /\ (forall s g, show_sq (renumber_sq s g) = show_sq s /\ plain_sq (renumber_sq s g) = plain_sq s)
  /\ (forall a g, show_atom (renumber_atom a g) = show_atom a /\ plain_atom (renumber_atom a g) = plain_atom a).
Proof.
  apply rx_all_ind; cbn [renumber_in renumber_br renumber_sq renumber_atom show show_br show_sq show_atom plain_rx plain_br plain_sq plain_atom]; intros.
  - apply H.
  - split; [|reflexivity]. rewrite (proj1 (H g)). cbn zeta. now rewrite (proj1 (H0 i _)).
  - destruct (H g) as [-> ->]. auto.
  - auto.
  - destruct (H g) as [A B]. rewrite A, B. destruct (H0 (after_atom (renumber_atom a g) g)) as [-> ->]. auto.
  - auto.
  - destruct (H true (g + 1)%nat) as [-> ->]. auto.
  - destruct (H true g) as [-> _]. auto.
Qed.
Lemma expr_same r n : wf r = true -> plain_rx r = true -> compile (show r) = Some n -> get_expression n = show r.
Proof.
  intros W P C. rewrite compile_eq, (parse_show r W) in C. injection C as <-. unfold get_expression, tree.
  destruct (proj1 renumber_plain r false 0%nat) as [S1 S2]. fold (renumber r) in S1, S2. rewrite <- S1.
  apply (proj1 expr_all); [|now rewrite S2]. unfold renumber. now rewrite (proj1 renumber_wf).
Qed.
