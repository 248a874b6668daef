(** Proofs for PropertiesTokShift.v: the tokenizer in a larger memory. *)
From Coq Require Import ZArith NArith List Bool Lia ZifyBool ZifyNat ZifyN.
From Verif Require Import Base Text Ast Builder Engine Api ApiProofs Safe Mono Shift TokIter.
Import ListNotations.
Open Scope Z_scope.

Definition shift_tok (d : Z) (t : (Z * Z) * nat) : (Z * Z) * nat := ((fst (fst t) + d, snd (fst t) + d), snd t).
Definition shift_iter (d : Z) (it : iter) : iter := mkIter (shift_view d (i_cur it)) (option_map (shift_tok d) (i_last it)).

Lemma mapM_sim {A B C} (f : A -> option B) (f' : A -> option C) (g : B -> C) (P : B -> Prop) l : forall vs,
  (forall x v, f x = Some v -> f' x = Some (g v) /\ P v) -> mapM f l = Some vs -> mapM f' l = Some (map g vs) /\ Forall P vs.
Proof.
  induction l as [|x l IH]; intros vs H E; cbn [mapM] in *; [injection E as <-; split; [reflexivity|constructor]|].
  destruct (f x) as [v|] eqn:F; [|discriminate]. destruct (mapM f l) as [us|] eqn:M; [|discriminate]. injection E as <-.
  destruct (H x v F) as [F' Pv]. destruct (IH us H eq_refl) as [M' Pu]. rewrite F', M'. split; [reflexivity|now constructor].
Qed.
Lemma max_map {A B} (sz : A -> Z) (sz' : B -> Z) (g : A -> B) : (forall x, sz' (g x) = sz x) -> forall l b, max_elem sz' (g b) (map g l) = g (max_elem sz b l).
Proof. intros H. induction l as [|x l IH]; intro b; cbn [max_elem map]; [reflexivity|]. rewrite !H. destruct (sz b <? sz x); apply IH. Qed.
Lemma max_in {A} (sz : A -> Z) (P : A -> Prop) : forall l b, P b -> Forall P l -> P (max_elem sz b l).
Proof. induction l as [|x l IH]; intros b Pb Pl; cbn [max_elem]; [exact Pb|]. inversion Pl; subst. destruct (_ <? _); apply IH; assumption. Qed.

Section TokShift.
Variables (e e' : env) (d : Z).
Hypothesis QE : qe e' = qe e + d.
Hypothesis QB : qb e' = qb e + d.
Hypothesis RD : forall p x, 0 <= p -> rd e p = Some x -> rd e' (p + d) = Some x.
Hypothesis PT : forall p, 0 - 1 <= p -> ptr_ok e p = true -> ptr_ok e' (p + d) = true.
Hypothesis D0 : 0 <= d.
Notation len := (Z.of_nat (length (buf e))).
Definition inside (v : view) : Prop := match v with Some (x, y) => 0 <= x /\ 0 <= y <= len | None => True end.
(** The current view ends where the query does. *)
Definition good (it : iter) : Prop :=
  match i_cur it with Some (x, y) => 0 <= x <= len /\ y <= len | None => True end
  /\ match i_last it with Some ((x, y), _) => 0 <= x /\ y <= len | None => True end.
Lemma vsize_shift v : vsize (shift_view d v) = vsize v.
Proof. destruct v as [[x y]|]; cbn; lia. Qed.
Lemma run_shift fuel x y n v : 0 <= x <= len -> run_view fuel e (Some (x, y)) n = Some v -> run_view fuel e' (Some (x + d, y + d)) n = Some (shift_view d v) /\ inside v.
Proof.
  intros X H. unfold run_view in *. destruct (create fuel (cur_env e (Some (x, y))) n) as [s| |] eqn:C; try discriminate. injection H as <-.
  pose proof (create_shift (cur_env e (Some (x, y))) (cur_env e' (Some (x + d, y + d))) d 0 true eq_refl (fun _ => eq_refl) RD PT n (or_intror (Z.le_refl 0)) eq_refl X fuel) as S.
  rewrite C in S. cbn [rrel] in S. destruct (create fuel (cur_env e' (Some (x + d, y + d))) n) as [s'| |]; try tauto. destruct S as (-> & L1 & L2). unfold hi in L2. cbn [cur_env buf] in L2.
  rewrite Shift.view_shift. split; [reflexivity|]. unfold to_view. destruct (is_accepted s); cbn [inside]; lia || exact Logic.I.
Qed.
Definition good_cur (c : view) : Prop := match c with Some (x, y) => 0 <= x <= len /\ y <= len | None => True end.
Lemma sep_shift fuel ds c o : good_cur c -> match_separator fuel e ds c = Some o ->
  match_separator fuel e' ds (shift_view d c) = Some (option_map (shift_view d) o) /\ match o with Some c' => good_cur c' | None => True end.
Proof.
  intros G H. unfold match_separator in *. destruct c as [[x y]|].
  - cbn [good_cur] in G. destruct (mapM (run_view fuel e (Some (x, y))) (d_seps ds)) as [vs|] eqn:M; [|discriminate].
    destruct (mapM_sim _ (run_view fuel e' (Some (x + d, y + d))) (shift_view d) inside (d_seps ds) vs (fun n v Hv => run_shift fuel x y n v (proj1 G) Hv) M) as [M' P].
    cbn [shift_view]. rewrite M'. destruct vs as [|v vs]; [discriminate|]. cbn [map]. rewrite (max_map vsize vsize (shift_view d) vsize_shift).
    inversion P as [|? ? Pv Pvs]; subst. pose proof (max_in vsize inside vs v Pv Pvs) as Q. destruct (max_elem vsize v vs) as [[p q]|]; cbn [shift_view] in *.
    + replace (q + d - (p + d)) with (q - p) by lia. destruct (0 <? q - p); injection H as <-; cbn [option_map shift_view]; split; try reflexivity; cbn [good_cur inside] in *; lia || exact Logic.I.
    + injection H as <-. split; [reflexivity|exact Logic.I].
  - cbn [shift_view]. assert (EQ : forall n, run_view fuel e' None n = run_view fuel e None n) by reflexivity.
    destruct (mapM (run_view fuel e None) (d_seps ds)) as [vs|] eqn:M; [|discriminate]. change (run_view fuel e' None) with (run_view fuel e None). rewrite M.
    destruct vs as [|v vs]; [discriminate|]. destruct (max_elem vsize v vs) as [[p q]|]; [destruct (0 <? q - p); [discriminate|]|]; injection H as <-; split; try reflexivity; exact Logic.I.
Qed.
Lemma token_shift fuel ds c o : good_cur c -> match_token fuel e ds c = Some o ->
  match_token fuel e' ds (shift_view d c) = Some (option_map (fun x => (shift_view d (fst x), shift_tok d (snd x))) o)
  /\ match o with Some (c', l) => good (mkIter c' (Some l)) | None => True end.
Proof.
  intros G H. unfold match_token in *. destruct c as [[x y]|].
  - cbn [good_cur] in G.
    set (f := fun (e : env) c (t : nat * node) => match run_view fuel e c (snd t) with Some v => Some (v, fst t) | None => None end).
    change (fun t : nat * node => match run_view fuel e (Some (x, y)) (snd t) with Some v => Some (v, fst t) | None => None end) with (f e (Some (x, y))) in H.
    destruct (mapM (f e (Some (x, y))) (d_toks ds)) as [vs|] eqn:M; [|discriminate].
    destruct (mapM_sim (f e (Some (x, y))) (f e' (Some (x + d, y + d))) (fun z : view * nat => (shift_view d (fst z), snd z)) (fun z => inside (fst z)) (d_toks ds) vs) as [M' P].
    { intros [ty n] [v k] Hv. unfold f in *. cbn [fst snd] in *. destruct (run_view fuel e (Some (x, y)) n) as [u|] eqn:RV; [|discriminate]. injection Hv as <- <-.
      destruct (run_shift fuel x y n u (proj1 G) RV) as [RV' I']. now rewrite RV'. }
    { exact M. }
    cbn [shift_view]. change (fun t : nat * node => match run_view fuel e' (Some (x + d, y + d)) (snd t) with Some v => Some (v, fst t) | None => None end) with (f e' (Some (x + d, y + d))).
    rewrite M'. destruct vs as [|v vs]; [discriminate|]. cbn [map]. rewrite (max_map (fun z => vsize (fst z)) (fun z => vsize (fst z)) (fun z : view * nat => (shift_view d (fst z), snd z)) (fun z => vsize_shift (fst z))).
    inversion P as [|? ? Pv Pvs]; subst. pose proof (max_in (fun z : view * nat => vsize (fst z)) (fun z => inside (fst z)) vs v Pv Pvs) as Q. destruct (max_elem _ v vs) as [[[p q]|] ty]; cbn [shift_view fst snd] in *.
    + replace (q + d - (p + d)) with (q - p) by lia. destruct (0 <? q - p); injection H as <-; cbn [option_map shift_view fst snd shift_tok]; split; try reflexivity; try exact Logic.I.
      unfold good. cbn [i_cur i_last inside] in *. lia.
    + injection H as <-. split; [reflexivity|exact Logic.I].
  - cbn [shift_view]. change (run_view fuel e' None) with (run_view fuel e None).
    destruct (mapM _ (d_toks ds)) as [[|v vs]|]; try discriminate. destruct (fst (max_elem _ v vs)) as [[p q]|]; [destruct (0 <? q - p); [discriminate|]|]; injection H as <-; split; try reflexivity; exact Logic.I.
Qed.
Lemma advance_shift fuel ds it it' : good it -> advance fuel e ds it = Some it' -> advance fuel e' ds (shift_iter d it) = Some (shift_iter d it') /\ good it'.
Proof.
  intros [G _] H. unfold advance in *. change (i_cur (shift_iter d it)) with (shift_view d (i_cur it)).
  destruct (match_separator fuel e ds (i_cur it)) as [sep|] eqn:S; [|discriminate]. destruct (sep_shift fuel ds _ _ G S) as [S' GS]. rewrite S'.
  assert (INV : good invalid) by (split; exact Logic.I).
  assert (STEP : forall c, good_cur c -> match match_token fuel e ds c with None => None | Some None => Some invalid | Some (Some (c', l)) => Some (mkIter c' (Some l)) end = Some it' ->
    match match_token fuel e' ds (shift_view d c) with None => None | Some None => Some invalid | Some (Some (c', l)) => Some (mkIter c' (Some l)) end = Some (shift_iter d it') /\ good it').
  { intros c Gc T. destruct (match_token fuel e ds c) as [o|] eqn:K; [|discriminate]. destruct (token_shift fuel ds c o Gc K) as [K' GK]. rewrite K'.
    destruct o as [[c' l]|]; cbn [option_map]; injection T as <-; split; try reflexivity; assumption. }
  destruct sep as [c1|]; cbn [option_map]; [now apply STEP|].
  replace (at_origin e' (shift_view d (i_cur it))) with (at_origin e (i_cur it)).
  - destruct (negb (at_origin e (i_cur it))); [injection H as <-; split; [reflexivity|exact INV]|now apply STEP].
  - destruct (i_cur it) as [[x y]|]; cbn [shift_view at_origin]; [|reflexivity]. rewrite QB. destruct (Z.eqb_spec x (qb e)); symmetry; [apply Z.eqb_eq; lia|apply Z.eqb_neq; lia].
Qed.
Lemma iter_create_shift fuel ds it : 0 <= qb e <= len -> qe e <= len -> iter_create fuel e ds = Some it -> iter_create fuel e' ds = Some (shift_iter d it) /\ good it.
Proof.
  intros B1 B2 H. assert (G : good (mkIter (Some (qb e, qe e)) None)) by (unfold good; cbn [i_cur i_last]; lia).
  unfold iter_create in *. rewrite QB, QE. replace (qb e + d =? qe e + d) with (qb e =? qe e) by (destruct (Z.eqb_spec (qb e) (qe e)); symmetry; [apply Z.eqb_eq; lia|apply Z.eqb_neq; lia]).
  destruct (qb e =? qe e); [injection H as <-; split; [reflexivity|exact G]|]. exact (advance_shift fuel ds _ it G H).
Qed.
Lemma eqb_shift it : good it -> iter_eqb e' (shift_iter d it) iter_end = iter_eqb e it iter_end.
Proof.
  intros [G1 G2]. unfold iter_eqb, view_eqb, iter_end, invalid, last_view, shift_iter. cbn [i_cur i_last].
  assert (T : forall v, match v with Some (x, y) => 0 <= x /\ y <= len | None => True end -> text e' (shift_view d v) = text e v).
  { intros [[x y]|] H; [|reflexivity]. cbn [shift_view]. apply (text_shift e e' d 0 true (fun _ => QB) RD); unfold hi; lia. }
  rewrite vsize_shift, (T (i_cur it)) by (destruct (i_cur it) as [[x y]|]; [lia|exact Logic.I]). f_equal.
  destruct (i_last it) as [[[x y] ty]|]; cbn [option_map shift_tok fst snd]; [|reflexivity].
  change (Some (x + d, y + d)) with (shift_view d (Some (x, y))). rewrite vsize_shift, (T (Some (x, y)) G2). reflexivity.
Qed.
Lemma loop_shift_tok fuel ds : forall steps it l, good it -> tok_loop steps fuel e ds it = Some l -> tok_loop steps fuel e' ds (shift_iter d it) = Some (map (option_map (shift_tok d)) l).
Proof.
  induction steps as [|k IH]; intros it l G H; cbn [tok_loop] in *; rewrite (eqb_shift it G); destruct (iter_eqb e it iter_end); try discriminate; try (injection H as <-; reflexivity).
  destruct (advance fuel e ds it) as [it'|] eqn:A; [|discriminate]. destruct (advance_shift fuel ds it it' G A) as [A' G']. rewrite A'.
  destruct (tok_loop k fuel e ds it') as [l'|] eqn:T; [|discriminate]. injection H as <-. rewrite (IH it' l' G' T). reflexivity.
Qed.
Lemma range_shift_tok steps fuel ds l : 0 <= qb e <= len -> qe e <= len -> tok_range_for steps fuel e ds = Some l -> tok_range_for steps fuel e' ds = Some (map (option_map (shift_tok d)) l).
Proof.
  intros B1 B2 H. unfold tok_range_for in *. destruct (iter_create fuel e ds) as [it|] eqn:C; [|discriminate]. destruct (iter_create_shift fuel ds it B1 B2 C) as [C' G]. rewrite C'.
  now apply loop_shift_tok.
Qed.
Lemma loop_good fuel ds : forall steps it l, good it -> tok_loop steps fuel e ds it = Some l ->
  Forall (fun o => match o with Some ((x, y), _) => 0 <= x /\ y <= len | None => True end) l.
Proof.
  induction steps as [|k IH]; intros it l G H; cbn [tok_loop] in *; destruct (iter_eqb e it iter_end); try discriminate; try (injection H as <-; constructor).
  destruct (advance fuel e ds it) as [it'|] eqn:A; [|discriminate]. destruct (advance_shift fuel ds it it' G A) as [_ G'].
  destruct (tok_loop k fuel e ds it') as [l'|] eqn:T; [|discriminate]. injection H as <-. constructor; [apply G|exact (IH it' l' G' T)].
Qed.
Lemma range_texts steps fuel ds l : 0 <= qb e <= len -> qe e <= len -> tok_range_for steps fuel e ds = Some l ->
  forall x y ty, In (Some ((x, y), ty)) l -> text e' (Some (x + d, y + d)) = text e (Some (x, y)).
Proof.
  intros B1 B2 H x y ty Hi. unfold tok_range_for in *. destruct (iter_create fuel e ds) as [it|] eqn:C; [|discriminate]. destruct (iter_create_shift fuel ds it B1 B2 C) as [_ G].
  pose proof (loop_good fuel ds steps it l G H) as F. rewrite Forall_forall in F. specialize (F _ Hi). cbn in F. apply (text_shift e e' d 0 true (fun _ => QB) RD); unfold hi; lia.
Qed.
End TokShift.
