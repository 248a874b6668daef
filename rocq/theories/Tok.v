(** The tokenizer iterator does what SpecTok.v says. *)
From Coq Require Import ZArith NArith List Bool Lia ZifyBool ZifyNat ZifyN.
From Verif Require Import Base Text Ast Builder Engine Api Spec SpecProofs SpecEnd Tree ParseProofs Den AstProofs BuilderProofs EngineOk EngineMain ApiProofs Supported Main Mono Find Sound Anchor TokIter SpecTok.
Import ListNotations.
Open Scope nat_scope.

(** ^ in front of the pattern text: the first branch is anchored. *)
Definition caret (r : rx) : rx :=
  match r with ROne (Br _ s) => ROne (Br true s) | ROr (Br _ s) r' => ROr (Br true s) r' end.
Definition bare (r : rx) : bool :=
  match r with ROne (Br a _) | ROr (Br a _) _ => negb a end.
Lemma show_caret r : bare r = true -> show (caret r) = TokIter.anchored (show r).
Proof. destruct r as [[[] s]|[[] s] r]; cbn; try discriminate; reflexivity. Qed.
Lemma match_caret u r : match_at u (caret r) 0 = match_at u r 0.
Proof.
  unfold match_at. assert (E : forall s, seq_o bol_o (sem_sq u s) (0, []) = sem_sq u s (0, [])) by (intro s; unfold seq_o, bol_o; cbn [fst Nat.eqb flat_map]; apply app_nil_r).
  destruct r as [[[] s]|[[] s] r]; cbn [caret sem sem_br]; try reflexivity; unfold or_o; rewrite ?E; reflexivity.
Qed.

(** ** One regex on the rest of the input *)
Lemma cur_env_of pre w post p : p <= length w ->
  cur_env (env_of pre w post) (Some (at_ pre p, qe (env_of pre w post))) = env_of (pre ++ firstn p w) (skipn p w) post.
Proof.
  intro H. unfold cur_env, env_of, at_. cbn [buf qe]. f_equal.
  - rewrite <- app_assoc. f_equal. rewrite app_assoc, firstn_skipn. reflexivity.
  - rewrite app_length, firstn_length. lia.
  - rewrite app_length, firstn_length, skipn_length. lia.
Qed.
Lemma query_skip p w : query_ok w -> query_ok (skipn p w).
Proof.
  intros [A B]. split; [|rewrite skipn_length; lia]. rewrite forallb_forall in *. intros x Hx. apply A.
  rewrite <- (firstn_skipn p w). apply in_or_app. now right.
Qed.
Definition tok_ok (r : rx) : bool := bare r && exact (caret r) && Anchor.anchored (caret r).
Definition tree_of (r : rx) : node := ctree (caret r).
Lemma tok_compile r : tok_ok r = true -> compile (TokIter.anchored (show r)) = Some (tree_of r).
Proof.
  unfold tok_ok. rewrite !andb_true_iff. intros [[B E] _]. rewrite <- show_caret by exact B. exact (exact_compile (caret r) E).
Qed.
(** An anchored definition only matches at the current position. *)
Lemma anchored_view fuel e n c v : aroot n -> (forall i, In i (gidx n) -> i < ngroups n) -> c <> None -> run_view fuel e c n = Some (Some v) -> exists a b, c = Some (a, b) /\ fst v = a.
Proof.
  intros A G Hc H. unfold run_view in H. destruct (create fuel (cur_env e c) n) as [s| |] eqn:C; try discriminate. injection H as H.
  unfold to_view in H. destruct (is_accepted s) eqn:Ac; [|discriminate]. injection H as <-. destruct c as [[a b]|]; [|congruence]. exists a, b. split; [reflexivity|].
  exact (reach_far _ n s A G (ReachCreate _ _ _ _ C) Ac).
Qed.

Lemma len_bound u r : wf (caret r) = true -> len_at u r <= length u.
Proof.
  intro W. unfold len_at. rewrite <- match_caret. destruct (match_at u (caret r) 0) as [c|] eqn:M; [|lia].
  apply match_at_lang in M; [|exact W]. apply lang_forward in M; lia.
Qed.
Lemma tok_parts r : tok_ok r = true -> bare r = true /\ exact (caret r) = true /\ Anchor.anchored (caret r) = true /\ wf (caret r) = true.
Proof.
  unfold tok_ok. rewrite !andb_true_iff. intros [[B E] A]. conj; auto. exact (proj1 (exact_parts _ E)).
Qed.

Section Input.
Variables (pre w post : str).
Notation e := (env_of pre w post).
Notation at_ := (at_ pre).
Hypothesis Hq : query_ok w.
Hypothesis Hp : post <> [].
(** [current] when the offset is [p]. *)
Definition cur (p : nat) : view := Some (at_ p, qe e).
(** The view that shows [l] characters from [p] on. *)
Definition shown (p l : nat) (v : view) : Prop := vsize v = Z.of_nat l /\ (0 < l -> v = Some (at_ p, at_ (p + l))).

Lemma run_view_ok fuel r p : tok_ok r = true -> p <= length w -> length w < fuel ->
  exists v, run_view fuel e (cur p) (tree_of r) = Some v /\ shown p (len_at (skipn p w) r) v.
Proof.
  intros T Hl Hf. destruct (tok_parts r T) as (B & E & A & W). unfold run_view, cur. rewrite cur_env_of by exact Hl.
  destruct (create_sound (caret r) (pre ++ firstn p w) (skipn p w) post E (query_skip p w Hq) Hp fuel ltac:(rewrite skipn_length; lia)) as (s & C & R & M).
  fold (tree_of r) in C. rewrite C. eexists. split; [reflexivity|]. unfold len_at. rewrite <- match_caret.
  destruct (match_at (skipn p w) (caret r) 0) as [c|] eqn:Ma.
  - rewrite (M c eq_refl). unfold place, shown, at_. rewrite app_length, firstn_length. cbn [vsize]. split; [lia|]. intros _. do 2 f_equal; lia.
  - assert (is_accepted s = false) as F; [|unfold to_view; rewrite F; split; [reflexivity|lia]].
    destruct (is_accepted s) eqn:Ac; [|reflexivity]. exfalso. destruct R as [R _]. destruct (R Ac) as (q & j & l & V & _ & Bq & _ & Mq & _).
    pose proof (reach_far _ _ s (ctree_aroot (caret r) A) (compile_gidx _ _ (exact_compile _ E)) (ReachCreate _ _ _ _ C) Ac) as F.
    unfold to_view in V. rewrite Ac in V. unfold place in V. injection V as V _. cbn [env_of qb] in F.
    assert (q = 0) by lia. subst q. congruence.
Qed.

(** ** max_element *)
Lemma max_elem_split {A} (sz : A -> Z) l : forall x, exists l1 l2, x :: l = l1 ++ max_elem sz x l :: l2
  /\ (forall y, In y l1 -> (sz y < sz (max_elem sz x l))%Z) /\ (forall y, In y l2 -> (sz y <= sz (max_elem sz x l))%Z).
Proof.
  induction l as [|y l IH]; intro x; cbn [max_elem]; [exists [], []; conj; [reflexivity|intros y []|intros y []]|].
  destruct (Z.ltb_spec (sz x) (sz y)) as [L|L].
  - destruct (IH y) as (l1 & l2 & E & X & Y). exists (x :: l1), l2. conj; [cbn [app]; f_equal; exact E| |exact Y].
    intros z [<-|Hz]; [|auto]. destruct l1 as [|a l1]; cbn in E; injection E as E _; [rewrite <- E; exact L|]. subst a. specialize (X y (or_introl eq_refl)). lia.
  - destruct (IH x) as (l1 & l2 & E & X & Y). destruct l1 as [|a l1]; cbn in E; injection E as E1 E2.
    + subst l2. exists [], (y :: l). cbn [app]. rewrite <- E1 in *. conj; [reflexivity|intros z []|]. intros z [<-|Hz]; [exact L|now apply Y].
    + exists (a :: y :: l1), l2. subst a. conj; [cbn [app]; do 2 f_equal; exact E2| |exact Y].
      intros z [<-|[<-|Hz]]; [apply X; now left| |apply X; now right]. specialize (X x (or_introl eq_refl)). lia.
Qed.
Lemma best_split {A B} (R : A -> B -> Prop) (len : A -> nat) (sz : B -> Z) x l (ds : list A) : (forall a b, R a b -> sz b = Z.of_nat (len a)) ->
  Forall2 R ds (x :: l) -> exists d1 a d2, ds = d1 ++ a :: d2 /\ R a (max_elem sz x l)
    /\ (forall y, In y d1 -> len y < len a) /\ (forall y, In y d2 -> len y <= len a).
Proof.
  intros Hs F. destruct (max_elem_split sz l x) as (l1 & l2 & E & X & Y). rewrite E in F.
  apply Forall2_app_inv_r in F as (d1 & d3 & F1 & F2 & ->). inversion F2 as [|a m d2 l2' Ra F3]; subst. exists d1, a, d2. conj; auto.
  - intros y Hy. apply (Hs a) in Ra. clear -F1 X Ra Hy Hs. induction F1 as [|y' v d1 l1 Ry F1 IH]; [destruct Hy|].
    destruct Hy as [<-|Hy]; [|apply IH; auto; intros; apply X; now right]. specialize (X v (or_introl eq_refl)). apply Hs in Ry. lia.
  - intros y Hy. apply (Hs a) in Ra. clear -F3 Y Ra Hy Hs. induction F3 as [|y' v d1 l1 Ry F1 IH]; [destruct Hy|].
    destruct Hy as [<-|Hy]; [|apply IH; auto; intros; apply Y; now right]. specialize (Y v (or_introl eq_refl)). apply Hs in Ry. lia.
Qed.
Lemma max_split {A} (len : A -> nat) d1 a d2 : (forall y, In y d1 -> len y < len a) -> (forall y, In y d2 -> len y <= len a) ->
  list_max (map len (d1 ++ a :: d2)) = len a.
Proof.
  intros X Y. apply Nat.le_antisymm.
  - apply list_max_le. apply Forall_map, Forall_forall. intros y Hy. apply in_app_iff in Hy as [Hy|[<-|Hy]]; auto. specialize (X y Hy). lia.
  - pose proof (proj1 (list_max_le (map len (d1 ++ a :: d2)) _) (Nat.le_refl _)) as F. rewrite Forall_map, Forall_forall in F. apply F. apply in_or_app. right. now left.
Qed.
Lemma find_split {A} (len : A -> nat) d1 a d2 : (forall y, In y d1 -> len y < len a) -> find (fun y => len y =? len a) (d1 ++ a :: d2) = Some a.
Proof.
  induction d1 as [|y d1 IH]; intro X; cbn [app find]; [now rewrite Nat.eqb_refl|].
  specialize (X y (or_introl eq_refl)) as X1. replace (len y =? len a) with false by lia. apply IH. intros z Hz. apply X. now right.
Qed.
Lemma mapM_ok {A B} (f : A -> option B) (R : A -> B -> Prop) l : (forall a, In a l -> exists b, f a = Some b /\ R a b) -> exists bs, mapM f l = Some bs /\ Forall2 R l bs.
Proof.
  induction l as [|a l IH]; intro H; cbn [mapM]; [exists []; auto|]. destruct (H a (or_introl eq_refl)) as (b & -> & Rb).
  destruct IH as (bs & -> & F); [intros; apply H; now right|]. exists (b :: bs). auto.
Qed.
Lemma mapM_map {A B C} (f : B -> option C) (g : A -> B) l : mapM f (map g l) = mapM (fun a => f (g a)) l.
Proof. induction l as [|a l IH]; cbn [map mapM]; [reflexivity|]. now rewrite IH. Qed.

(** ** match_separator, match_token *)
Variable ds : list tdef.
Definition ds_ok : Prop := (forall r, In r (sep_defs ds) -> tok_ok r = true) /\ (forall t, In t (tok_defs ds) -> tok_ok (snd t) = true)
  /\ sep_defs ds <> [] /\ tok_defs ds <> [].
Definition the_defs : defs := mkDefs (map (fun t => (fst t, tree_of (snd t))) (tok_defs ds)) (map tree_of (sep_defs ds)).
Hypothesis Hds : ds_ok.
Lemma qe_at : qe e = at_ (length w).
Proof. reflexivity. Qed.
Lemma sep_ok fuel p : p <= length w -> length w < fuel ->
  match_separator fuel e the_defs (cur p) = Some (let s := longest (skipn p w) (sep_defs ds) in if s =? 0 then None else Some (cur (p + s))).
Proof.
  intros Hl Hf. destruct Hds as (S1 & _ & S3 & _). unfold match_separator. cbn [the_defs d_seps]. rewrite mapM_map.
  destruct (mapM_ok (fun r => run_view fuel e (cur p) (tree_of r)) (fun r v => shown p (len_at (skipn p w) r) v) (sep_defs ds)) as (vs & -> & F).
  { intros r Hr. apply run_view_ok; auto. }
  destruct vs as [|v vs]; [inversion F; congruence|].
  destruct (best_split _ (len_at (skipn p w)) vsize v vs _ (fun a b (H : shown p _ b) => proj1 H) F) as (d1 & a & d2 & E & R & X & Y).
  unfold longest. rewrite E, (max_split _ _ _ _ X Y). cbv zeta. destruct R as [R1 R2]. destruct (Nat.eqb_spec (len_at (skipn p w) a) 0) as [Z|Z].
  - destruct (max_elem vsize v vs) as [[b c]|]; cbn [vsize cur] in *; [|reflexivity]. replace (0 <? c - b)%Z with false by lia. reflexivity.
  - rewrite R2 by lia. cbn [cur]. unfold EngineOk.at_. replace (0 <? _)%Z with true by lia. reflexivity.
Qed.
Lemma token_ok fuel p : p <= length w -> length w < fuel ->
  match_token fuel e the_defs (cur p) = Some (let l := longest (skipn p w) (map snd (tok_defs ds)) in
     if l =? 0 then None else match find (fun t => len_at (skipn p w) (snd t) =? l) (tok_defs ds) with
                              | Some t => Some (cur (p + l), ((at_ p, at_ (p + l)), fst t)) | None => None end).
Proof.
  intros Hl Hf. destruct Hds as (_ & S2 & _ & S3). unfold match_token. cbn [the_defs d_toks]. rewrite mapM_map. cbn [fst snd].
  set (R := fun (t : nat * rx) (v : view * nat) => shown p (len_at (skipn p w) (snd t)) (fst v) /\ snd v = fst t).
  match goal with |- context [mapM ?f _] => destruct (mapM_ok f R (tok_defs ds)) as (vs & -> & F) end.
  { intros t Ht. destruct (run_view_ok fuel (snd t) p (S2 t Ht) Hl Hf) as (v & -> & Sv). exists (v, fst t). split; [reflexivity|]. split; auto. }
  destruct vs as [|v vs]; [inversion F; congruence|].
  destruct (best_split R (fun t => len_at (skipn p w) (snd t)) (fun x => vsize (fst x)) v vs _ (fun a b (H : R a b) => proj1 (proj1 H)) F) as (d1 & a & d2 & E & Ra & X & Y).
  cbv zeta. unfold longest. rewrite E, map_map, (max_split (fun t => len_at (skipn p w) (snd t)) _ _ _ X Y), (find_split (fun t => len_at (skipn p w) (snd t)) _ _ d2 X).
  destruct Ra as [[R1 R2] R3]. set (m := max_elem _ v vs) in *. destruct (Nat.eqb_spec (len_at (skipn p w) (snd a)) 0) as [Z|Z].
  - destruct (fst m) as [[b c]|]; cbn [vsize cur] in *; [|reflexivity]. replace (0 <? c - b)%Z with false by lia. reflexivity.
  - rewrite R2 by lia. cbn [cur]. replace (0 <? _)%Z with true by (unfold EngineOk.at_; lia). now rewrite R3.
Qed.
Lemma longest_bound p rs : (forall r, In r rs -> tok_ok r = true) -> p <= length w -> p + longest (skipn p w) rs <= length w.
Proof.
  intros H Hl. assert (longest (skipn p w) rs <= length w - p); [|lia]. apply list_max_le, Forall_map, Forall_forall. intros r Hr.
  rewrite <- skipn_length. apply len_bound. exact (proj2 (proj2 (proj2 (tok_parts r (H r Hr))))).
Qed.

(** ** The iterator *)
Definition iter_at (p : nat) (l : option ((Z * Z) * nat)) : iter := mkIter (cur p) l.
Definition token_at (t : nat * nat * nat) : (Z * Z) * nat := ((at_ (fst (fst t)), at_ (snd (fst t))), snd t).
Lemma advance_ok fuel p l : p <= length w -> length w < fuel ->
  advance fuel e the_defs (iter_at p l) = Some (match next_token ds w p with
     | None => invalid
     | Some t => iter_at (snd (fst t)) (Some (token_at t))
     end).
Proof.
  intros Hl Hf. unfold advance, iter_at. cbn [i_cur]. rewrite sep_ok by auto. cbv zeta. unfold next_token. cbv zeta.
  pose proof (longest_bound p (sep_defs ds) (proj1 Hds) Hl) as B. set (s := longest (skipn p w) (sep_defs ds)) in *.
  assert (O : at_origin e (cur p) = (p =? 0)) by (unfold at_origin, cur, env_of, EngineOk.at_; cbn [qb]; lia).
  assert (FIN : forall q, q <= length w -> match match_token fuel e the_defs (cur q) with
     | Some (Some (c', l0)) => Some (mkIter c' (Some l0)) | Some None => Some invalid | None => None end
     = Some match (if longest (skipn q w) (map snd (tok_defs ds)) =? 0 then None else
                   match find (fun t => len_at (skipn q w) (snd t) =? longest (skipn q w) (map snd (tok_defs ds))) (tok_defs ds) with
                   | Some t => Some (q, q + longest (skipn q w) (map snd (tok_defs ds)), fst t) | None => None end) with
            | Some t => mkIter (cur (snd (fst t))) (Some (token_at t)) | None => invalid end).
  { intros q Hlq. rewrite token_ok by auto. cbv zeta. destruct (longest (skipn q w) (map snd (tok_defs ds)) =? 0); [reflexivity|]. destruct (find _ _); reflexivity. }
  destruct (Nat.eqb_spec s 0) as [Z|Z].
  - rewrite O. destruct (Nat.eqb_spec p 0) as [Z2|Z2]; cbn [negb andb]; [|reflexivity]. rewrite FIN by lia. rewrite Z, Nat.add_0_r. reflexivity.
  - cbn [andb]. rewrite FIN by lia. reflexivity.
Qed.

(** The null view: every definition runs safely and matches nothing. *)
Lemma create_empty fuel r pr po : exact r = true -> exists s, create fuel (env_of pr [] po) (ctree r) = RDone s /\ vsize (to_view s) = 0%Z.
Proof.
  intro E. destruct (exact_parts r E) as (_ & _ & Gd & A & O). set (n := ctree r) in *.
  pose proof (start_ok pr [] po n false (no_end po) (Forall_nil _) (eq_refl : (N.of_nat (@length Z []) < UMAX)%N) Gd A O 0 (no_groups n) true (Nat.le_0_l _) (Scan.none_len n) (or_introl eq_refl)) as M.
  unfold create, fresh. rewrite <- (at_qb pr [] po). change (mkSt (EngineOk.at_ pr 0) (EngineOk.at_ pr 0) (no_groups n) true) with (EngineOk.mk pr (EngineOk.at_ pr 0) 0 (no_groups n) true).
  destruct (hd_error (den [] n (0, []))) as [[j d]|].
  - destruct M as (B & g' & -> & _). cbn [s_acc EngineOk.mk]. eexists. split; [reflexivity|]. cbn [length] in B. assert (j = 0) as -> by lia.
    unfold to_view, is_accepted, EngineOk.mk. cbn [s_acc s_start s_end vsize]. lia.
  - destruct M as (j & g' & -> & B & _). cbn [s_acc EngineOk.mk]. cbn [length] in B. assert (j = 0) as -> by lia. unfold next.
    exists (mkSt (EngineOk.at_ pr 0) (EngineOk.at_ pr 0) (no_groups n) false). split; [|reflexivity].
    assert (F : (EngineOk.at_ pr 0 <? qe (env_of pr [] po))%Z = false) by (unfold EngineOk.at_, env_of; cbn [qe length]; lia).
    destruct fuel; cbn [next_loop s_end s_start EngineOk.mk]; rewrite F; reflexivity.
Qed.
Lemma run_null fuel r : tok_ok r = true -> exists v, run_view fuel e None (tree_of r) = Some v /\ vsize v = 0%Z.
Proof.
  intro T. destruct (tok_parts r T) as (_ & E & _). unfold run_view. change (cur_env e None) with (env_of [] [] []).
  destruct (create_empty fuel (caret r) [] [] E) as (s & C & V). unfold tree_of. rewrite C. eauto.
Qed.
Lemma advance_invalid fuel : advance fuel e the_defs invalid = Some invalid.
Proof.
  destruct Hds as (S1 & _ & S3 & _). unfold advance, match_separator. cbn [the_defs d_seps i_cur invalid]. rewrite mapM_map.
  destruct (mapM_ok (fun r => run_view fuel e None (tree_of r)) (fun r v => vsize v = 0%Z) (sep_defs ds)) as (vs & -> & F).
  { intros r Hr. apply run_null. auto. }
  destruct vs as [|v vs]; [inversion F; congruence|].
  assert (V : vsize (max_elem vsize v vs) = 0%Z).
  { destruct (max_elem_split vsize vs v) as (l1 & l2 & E & _). rewrite E in F. apply Forall2_app_inv_r in F as (d1 & d3 & _ & F2 & _). inversion F2; auto. }
  destruct (max_elem vsize v vs) as [[a b]|]; [|reflexivity]. cbn [vsize] in V. replace (0 <? b - a)%Z with false by lia. reflexivity.
Qed.

Lemma next_token_bound p a b ty : p <= length w -> next_token ds w p = Some (a, b, ty) -> p <= a < b /\ b <= length w /\ (p = 0 \/ p < a).
Proof.
  intros Hl H. unfold next_token in H. cbv zeta in H. pose proof (longest_bound p (sep_defs ds) (proj1 Hds) Hl) as B.
  set (s := longest (skipn p w) (sep_defs ds)) in *. destruct (_ && _) eqn:C; [discriminate|].
  destruct (Nat.eqb_spec (longest (skipn (p + s) w) (map snd (tok_defs ds))) 0) as [|Z]; [discriminate|]. destruct (find _ _); [|discriminate]. injection H as <- <- _.
  assert (B2 : p + s + longest (skipn (p + s) w) (map snd (tok_defs ds)) <= length w).
  { apply longest_bound; [|lia]. intros r Hr. apply in_map_iff in Hr as (t & <- & Ht). exact (proj1 (proj2 Hds) t Ht). }
  lia.
Qed.
Lemma eqb_token p a b ty : a < b -> iter_eqb e (iter_at p (Some ((at_ a, at_ b), ty))) iter_end = false.
Proof.
  intro L. unfold iter_eqb, view_eqb, last_view, iter_end, invalid, iter_at. cbn [i_cur i_last vsize]. apply andb_false_iff. right. apply andb_false_iff. left. unfold EngineOk.at_. lia.
Qed.
Lemma eqb_invalid : iter_eqb e invalid iter_end = true.
Proof. reflexivity. Qed.

Lemma tok_loop_ok fuel : length w < fuel -> forall k steps p t, p <= length w -> length w - p <= k -> length w - p < steps ->
  fst (fst t) < snd (fst t) -> snd (fst t) = p ->
  tok_loop steps fuel e the_defs (iter_at p (Some (token_at t))) = Some (map (fun t => Some (token_at t)) (t :: tokens_from ds w k p)).
Proof.
  intro Hf. induction k as [|k IH]; intros steps p [[a b] ty] Hl Hk Hs L E; cbn [fst snd] in *; (destruct steps as [|st]; [lia|]);
    cbn [tok_loop]; unfold token_at at 1; cbn [fst snd]; rewrite eqb_token by exact L; rewrite advance_ok by auto.
  - destruct (next_token ds w p) as [[[a' b'] ty']|] eqn:N.
    + apply next_token_bound in N; [lia|exact Hl].
    + destruct st; cbn [tok_loop]; rewrite eqb_invalid; reflexivity.
  - cbn [tokens_from]. destruct (next_token ds w p) as [[[a' b'] ty']|] eqn:N.
    + cbn [fst snd]. apply next_token_bound in N; [|exact Hl]. rewrite (IH st b' (a', b', ty')); cbn [fst snd]; auto; try lia.
    + destruct st; cbn [tok_loop]; rewrite eqb_invalid; reflexivity.
Qed.
Lemma tok_range_for_ok fuel steps : length w < fuel -> length w < steps ->
  tok_range_for steps fuel e the_defs = Some (map (fun t => Some (token_at t)) (tokens ds w)).
Proof.
  intros Hf Hs. unfold tok_range_for, iter_create, tokens.
  replace (qb e =? qe e)%Z with (length w =? 0) by (unfold env_of; cbn [qb qe]; lia). replace (mkIter (Some (qb e, qe e)) None) with (iter_at 0 None) by (unfold iter_at, cur; now rewrite <- at_qb).
  destruct (Nat.eqb_spec (length w) 0) as [Z|Z].
  - rewrite Z. cbn [tokens_from map]. destruct steps; [lia|]. cbn [tok_loop]. replace (iter_eqb _ _ _) with true; [reflexivity|]. symmetry.
    unfold iter_eqb, view_eqb, last_view, iter_end, invalid, iter_at, cur, text. cbn [i_cur i_last vsize]. rewrite qe_at, Z, Z.sub_diag. reflexivity.
  - rewrite advance_ok by lia. destruct (length w) as [|k] eqn:L; [lia|]. cbn [tokens_from]. destruct (next_token ds w 0) as [[[a b] ty]|] eqn:N.
    + apply next_token_bound in N; [|lia]. cbn [fst snd]. apply (tok_loop_ok fuel ltac:(lia) k steps b (a, b, ty)); cbn [fst snd]; lia.
    + destruct steps; cbn [tok_loop]; rewrite eqb_invalid; reflexivity.
Qed.
(** ** The definitions as text *)
Definition def_text (d : tdef) : def := match d with Tok ty r => DTok ty (show r) | Sep r => DSep (show r) end.
Lemma make_defs_ok : make_defs (map def_text ds) = Some the_defs.
Proof.
  destruct Hds as (S1 & S2 & S3 & S4). unfold make_defs.
  assert (X : split_defs (map def_text ds) = Some the_defs).
  { clear S3 S4. unfold the_defs. clear Hds. induction ds as [|[ty r|r] l IH]; cbn [map def_text split_defs tok_defs sep_defs]; [reflexivity| |].
    - rewrite (tok_compile r) by exact (S2 (ty, r) (or_introl eq_refl)). rewrite IH; [reflexivity|exact S1|]. intros t Ht. apply S2. now right.
    - rewrite (tok_compile r) by exact (S1 r (or_introl eq_refl)). rewrite IH; [reflexivity| |exact S2]. intros t Ht. apply S1. now right. }
  rewrite X. unfold the_defs. cbn [d_toks d_seps]. destruct (tok_defs ds); [congruence|]. destruct (sep_defs ds); [congruence|]. reflexivity.
Qed.
End Input.
