(** C61 ((?:...) around the whole pattern) and C62 ((...) around a pattern without captures). *)
From Coq Require Import String ZArith NArith List Bool Lia ZifyBool ZifyNat ZifyN.
From Verif Require Import Base Text Ast Builder Engine Api ApiProofs Spec Supported Refuted PropertiesCalm Wrap.
Import ListNotations.
Open Scope nat_scope.

(** C61.  (?:r) compiles to the same matcher as r.  Missing: captures in several alternatives
    (C61_nongroup_refuted). *)
Theorem C61_nongroup_partial : forall r, wf r = true -> caps r = [] \/ (exists b, r = ROne b) ->
  exists n, compile (show r) = Some n /\ compile (S2L "(?:" ++ show r ++ S2L ")") = Some n.
Proof.
  intros r W H. exists (ctree r). split; [exact (calm_compile r W)|]. rewrite <- (non_ctree r H).
  assert (W' : wf (nongroup r) = true) by (cbn [nongroup wf wf_br wf_sq wf_atom]; rewrite W; reflexivity).
  pose proof (calm_compile (nongroup r) W') as C. cbn [nongroup show show_br show_sq show_atom show_quant app] in C. rewrite app_nil_r in C. exact C.
Qed.
Print Assumptions C61_nongroup_partial.
(** The second capture of (a)|(b) is result[2]; in (?:(a)|(b)) it is result[1]. *)
Theorem C61_nongroup_refuted :
  (exists s, on "(a)|(b)" "b" = Some (RDone s) /\ get_group s 1 = Some None /\ get_group s 2 = Some (Some (0, 1)%Z))
  /\ (exists s, on "(?:(a)|(b))" "b" = Some (RDone s) /\ get_group s 1 = Some (Some (0, 1)%Z) /\ get_group s 2 = Some None).
Proof. split; eexists; conj; vm_compute; reflexivity. Qed.
Print Assumptions C61_nongroup_refuted.

(** The result after [k] calls of next(). *)
Fixpoint nth_result (fuel : nat) (e : env) (n : node) (k : nat) : rout :=
  match k with
  | O => create fuel e n
  | S k' => match nth_result fuel e n k' with RDone s => next fuel e n s | o => o end
  end.
(** The same view (or failure), and in the second result result[1] is that view. *)
Definition and_captures (o o2 : rout) : Prop :=
  match o, o2 with
  | RDone s, RDone s2 => is_accepted s2 = is_accepted s /\ to_view s2 = to_view s /\ get_group s2 0 = Some (to_view s) /\ get_group s2 1 = Some (to_view s) /\ get_group s2 2 = None
  | RUB, RUB => True
  | RFuel, RFuel => True
  | _, _ => False
  end.
(** C62.  For every well-formed pattern without captures, on every query in every memory and
    after any number of next(), (r) does what r does and result[1] is the whole match. *)
Theorem C62_capture_all : forall r, wf r = true -> caps r = [] ->
  exists n n2, compile (show r) = Some n /\ compile (S2L "(" ++ show r ++ S2L ")") = Some n2
    /\ groups_of n = 0 /\ groups_of n2 = 1
    /\ (forall e fuel k, and_captures (nth_result fuel e n k) (nth_result fuel e n2 k))
    /\ (forall e fuel s l, create fuel e n = RDone s -> visits e n s l -> exists s2, create fuel e n2 = RDone s2 /\ visits e n2 s2 l).
Proof.
  intros r W C. exists (ctree r), (Group (ctree r) 0 []). split; [exact (calm_compile r W)|]. split.
  { rewrite <- (cap_ctree r C).
    assert (W' : wf (capgroup r) = true) by (cbn [capgroup wf wf_br wf_sq wf_atom]; rewrite W; reflexivity).
    pose proof (calm_compile (capgroup r) W') as K. cbn [capgroup show show_br show_sq show_atom show_quant app] in K. rewrite app_nil_r in K. exact K. }
  pose proof (no_gidx r C) as G. split; [exact (ng _ G)|]. split; [unfold groups_of; cbn [ngroups map list_sum fold_right]; now rewrite (ng _ G)|]. split.
  - intros e fuel k. assert (X : whole_out (nth_result fuel e (ctree r) k) (nth_result fuel e (Group (ctree r) 0 []) k)).
    { induction k as [|k IH]; cbn [nth_result]; [apply create_whole, G|]. destruct (nth_result fuel e (ctree r) k) as [s| |], (nth_result fuel e (Group (ctree r) 0 []) k) as [s2| |]; cbn [whole_out] in IH; try tauto. now apply next_whole. }
    destruct (nth_result fuel e (ctree r) k) as [s| |], (nth_result fuel e (Group (ctree r) 0 []) k) as [s2| |]; cbn [whole_out and_captures] in *; try tauto.
    destruct X as (B & E & A & _ & G2). unfold get_group, to_view, is_accepted. rewrite <- A, <- B, <- E, G2. conj; auto.
  - intros e fuel s l E V. pose proof (create_whole e (ctree r) G fuel) as X. rewrite E in X. destruct (create fuel e (Group (ctree r) 0 [])) as [s2| |]; cbn [whole_out] in X; try tauto.
    exists s2. split; [reflexivity|]. exact (visits_whole e (ctree r) G s l V s2 X).
Qed.
Print Assumptions C62_capture_all.
Definition wrap_ex : rx := ROr (Br false (SCons (AEl (EEsc 100)) (QQ QPlus Gr) (SCons (ANon (ROne (Br false (SCons (AEl (ELit 44)) Q1 (SCons (AEl (EEsc 100)) (QQ QPlus Gr) SNil))))) (QQ QStar Gr) SNil)))
  (ROne (Br true (SCons (AEl (ELit 120)) (QQ QOpt Lz) (SCons (AEl (ELit 121)) Q1 SNil)))).
Example C61_C62_case : show wrap_ex = S2L "\d+(?:,\d+)*|^x??y" /\ wf wrap_ex = true /\ caps wrap_ex = []
  /\ (exists s, on "(\d+(?:,\d+)*|^x??y)" "a1,22" = Some (RDone s) /\ get_group s 1 = Some (Some (1, 5)%Z)).
Proof. conj; try (vm_compute; reflexivity). eexists. split; vm_compute; reflexivity. Qed.

(** C63.  ^ in front of a well-formed pattern r without top-level alternatives: whatever ^r
    reports (view and captures) is what r reports; and if the first attempt of r, at the beginning
    of a non-empty query, is accepted (it needs no turn of the search loop), ^r reports the same. *)
Theorem C63_caret : forall s, let r := ROne (Br false s) in wf r = true ->
  exists n na, compile (show r) = Some n /\ compile (S2L "^" ++ show r) = Some na
    /\ (forall e fuel t, create fuel e na = RDone t -> is_accepted t = true -> forall fuel', create fuel' e n = RDone t)
    /\ (forall e t, (qb e < qe e)%Z -> create 0 e n = RDone t -> is_accepted t = true -> forall fuel, create fuel e na = RDone t).
Proof.
  intros s r W. pose proof (calm_compile r W) as C. exists (ctree r), (Simple (Term TStart) [ctree r]). split; [exact C|]. split.
  { unfold r. rewrite <- (start_ctree s W). exact (calm_compile (ROne (Br true s)) W). }
  pose proof (BuilderProofs.compile_gidx _ _ C) as G. split.
  - intros e fuel t H A fuel'. exact (front_create e (ctree r) G fuel t H A fuel').
  - intros e t Q H A fuel. exact (front_back e (ctree r) t Q H A fuel).
Qed.
Print Assumptions C63_caret.
(** With top-level alternatives ^ belongs to the first one only: ^a|b finds the b of "xb". *)
Example C63_alternatives : (exists s, on "^a|b" "xb" = Some (RDone s) /\ to_view s = Some (1, 2)%Z)
  /\ exists s, on "^(a+)b" "aab" = Some (RDone s) /\ is_accepted s = true /\ get_group s 1 = Some (Some (0, 2)%Z).
Proof. split; eexists; conj; vm_compute; reflexivity. Qed.
