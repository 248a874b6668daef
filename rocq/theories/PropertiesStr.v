(** C48-C50 and part of C40: text storage, comparison of views, comparison of tokenizer
    iterators. *)
From Coq Require Import String ZArith NArith List Bool Lia.
From Verif Require Import Base Text Ast Builder Engine Api TextProofs ApiProofs Mono TokIter Tok Strings PropertiesTok.
Import ListNotations.
Open Scope Z_scope.

(** ** C48.  The text [s] a view denotes in memory [m]. *)
Definition contents (m : mem) (v : lsv) (s : str) : Prop :=
  lsv_size v = Z.of_nat (length s)
  /\ forall i, (i < length s)%nat -> m (fst v + Z.of_nat i) = nth_error s i.

Lemma contents_cons m p q c s : contents m (p, q) (c :: s) -> m p = Some c /\ contents m (p + 1, q) s.
Proof.
  intros [A B]. unfold lsv_size in A. cbn [fst snd length] in A. split; [|split; [unfold lsv_size; cbn [fst snd]; lia|]].
  - specialize (B 0%nat ltac:(cbn; lia)). cbn in B. now replace (p + 0) with p in B by lia.
  - intros i Hi. specialize (B (S i) ltac:(cbn; lia)). cbn [fst nth_error] in *. rewrite <- B. f_equal. lia.
Qed.
Lemma nth_ext {A} (s : list A) : forall t, (forall i, nth_error s i = nth_error t i) -> s = t.
Proof.
  induction s as [|x s IH]; intros [|y t] H; [reflexivity|specialize (H 0%nat); discriminate|specialize (H 0%nat); discriminate|].
  pose proof (H 0%nat) as H0. injection H0 as ->. f_equal. apply IH. intro i. exact (H (S i)).
Qed.
Lemma eq_loop_ok m : forall s t p q p' q' i, length s = length t -> 0 <= i -> i + Z.of_nat (length s) < 2147483648 ->
  contents m (p + i, p') s -> contents m (q + i, q') t -> lsv_eq_loop (length s) m p q i = Some (str_eqb s t).
Proof.
  induction s as [|x s IH]; intros [|y t] p q p' q' i L I B Hs Ht; try discriminate; [reflexivity|].
  apply contents_cons in Hs as [Mx Hs]. apply contents_cons in Ht as [My Ht]. cbn [lsv_eq_loop length str_eqb] in *. rewrite Mx, My.
  destruct (x =? y) eqn:E; cbn [negb andb]; [|reflexivity]. replace (i <? 2147483647) with true by (symmetry; apply Z.ltb_lt; lia).
  apply (IH t p q p' q' (i + 1)); try lia; rewrite Z.add_assoc; assumption.
Qed.
(** Two views are equal exactly when they denote the same text, wherever they lie (a match
    compared with a string literal, two matches in different buffers, the null view); the
    comparison reads nothing outside the two texts. *)
Theorem C48_view_equality : forall m u v s t, contents m u s -> contents m v t -> Z.of_nat (length s) < 2147483648 ->
  exists b, lsv_eq m u v = Some b /\ (b = true <-> s = t).
Proof.
  intros m [p p'] [q q'] s t Hs Ht B. exists (str_eqb s t). split; [|apply str_eqb_eq]. unfold lsv_eq. cbn [fst snd].
  destruct Hs as [Ls Ms], Ht as [Lt Mt]. rewrite Ls, Lt. destruct (Z.eqb_spec p q) as [->|P], (Z.eqb_spec p' q') as [->|P']; cbn [andb].
  1:{ symmetry. f_equal. apply str_eqb_eq. unfold lsv_size in *. cbn [fst snd] in *. assert (L : length s = length t) by lia.
      apply nth_ext. intro i. destruct (Nat.lt_ge_cases i (length s)) as [Hi|Hi].
      - now rewrite <- Ms, <- Mt by lia.
      - rewrite !(proj2 (nth_error_None _ _)) by lia. reflexivity. }
  all: destruct (Z.eqb_spec (Z.of_nat (length s)) (Z.of_nat (length t))) as [L|L]; cbn [negb];
    [|symmetry; f_equal; apply not_true_is_false; rewrite str_eqb_eq; intros ->; congruence].
  all: rewrite Nat2Z.id; eapply eq_loop_ok; try lia.
  all: match goal with |- contents _ (?a + 0, _) _ => rewrite (Z.add_0_r a) end; split; eassumption.
Qed.
Print Assumptions C48_view_equality.
(** The views users build: an empty view has empty text; the null view is one; a string
    literal denotes its characters without the NUL; a piece of a text denotes that piece. *)
Definition stored (m : mem) (a : Z) (s : str) : Prop := forall i, (i < length s)%nat -> m (a + Z.of_nat i) = nth_error s i.
Theorem C48_views : forall m,
  (forall v s, contents m v s -> (lsv_empty v = true <-> s = []))
  /\ contents m lsv_null []
  /\ (forall a s z, stored m a (s ++ [z]) -> contents m (lsv_array a (length (s ++ [z]))) s)
  /\ (forall a x s y, stored m a (x ++ s ++ y) -> contents m (lsv_sv (a + Z.of_nat (length x)) (length s)) s).
Proof.
  intro m. conj.
  - intros v s [L _]. unfold lsv_empty. rewrite L, Z.eqb_eq. destruct s; cbn; split; intro; try lia; congruence.
  - split; [reflexivity|]. intros i Hi. cbn in Hi. lia.
  - intros a s z H. split; [unfold lsv_size, lsv_array; cbn; rewrite app_length; cbn; lia|]. intros i Hi. cbn [lsv_array fst]. rewrite H by (rewrite app_length; lia). now apply nth_error_app1.
  - intros a x s y H. split; [unfold lsv_size, lsv_sv; cbn; lia|]. intros i Hi. cbn [lsv_sv fst]. rewrite <- Z.add_assoc, <- Nat2Z.inj_add, H by (rewrite !app_length; lia).
    rewrite nth_error_app2 by lia. replace (length x + i - length x)%nat with i by lia. now apply nth_error_app1.
Qed.
Print Assumptions C48_views.
(** "ab" found at offset 2 of "xxab" (address 100) against the literal "ab" (address 200). *)
Definition case_mem : mem := fun a =>
  if (100 <=? a) && (a <? 105) then nth_error (S2L "xxab"%string ++ [0]) (Z.to_nat (a - 100))
  else if (200 <=? a) && (a <? 203) then nth_error (S2L "ab"%string ++ [0]) (Z.to_nat (a - 200)) else None.
Example C48_case : contents case_mem (102, 104) (S2L "ab"%string) /\ contents case_mem (lsv_array 200 3) (S2L "ab"%string)
  /\ lsv_eq case_mem (102, 104) (lsv_array 200 3) = Some true /\ lsv_eq case_mem (101, 103) (lsv_array 200 3) = Some false
  /\ lsv_eq case_mem (104, 104) lsv_null = Some true.
Proof.
  conj; try reflexivity; (split; [reflexivity|]); intros i Hi; cbn in Hi; do 2 (destruct i as [|i]; [reflexivity|]); lia.
Qed.

(** ** C49.  Pattern pieces: a literal is its characters without the NUL; + concatenates (in all
    its overloads); the text reaches the pattern parser unchanged; substring inverts +. *)
Theorem C49_pieces : forall (a b : str) (z c : chr),
  sstr_lit (a ++ [z]) = Some a
  /\ sstr_add a b = Some (a ++ b)
  /\ lit_add (a ++ [z]) b = Some (a ++ b) /\ add_lit a (b ++ [z]) = Some (a ++ b)
  /\ char_add c b = Some (c :: b) /\ add_char a c = Some (a ++ [c])
  /\ build_pack a = Some a
  /\ (a <> [] -> sstr_sub 0 (length a) (a ++ b) = Some a)
  /\ (b <> [] -> sstr_sub (length a) (length (a ++ b)) (a ++ b) = Some b).
Proof.
  assert (L : forall (a : str) z, sstr_lit (a ++ [z]) = Some a).
  { intros a z. unfold sstr_lit, sstr_copy. rewrite app_length. cbn [length]. replace (length a + 1 - 1)%nat with (length a) by lia.
    replace (length a <=? length a + 1)%nat with true by (symmetry; apply Nat.leb_le; lia). rewrite firstn_app, firstn_all, Nat.sub_diag, firstn_O, app_nil_r. now destruct a. }
  assert (A : forall a b, sstr_add a b = Some (a ++ b)).
  { intros a b. unfold sstr_add, copy_at. destruct (Nat.eqb_spec (length a) 0) as [E|E]; [destruct a; [reflexivity|discriminate]|].
    destruct (Nat.eqb_spec (length b) 0) as [E2|E2]; [destruct b; [now rewrite app_nil_r|discriminate]|].
    rewrite repeat_length. replace (0 + length a <=? length a + length b)%nat with true by (symmetry; apply Nat.leb_le; lia). cbn [firstn app Nat.add].
    rewrite app_length, skipn_length, repeat_length. replace (_ <=? _)%nat with true by (symmetry; apply Nat.leb_le; lia).
    rewrite firstn_app, firstn_all, Nat.sub_diag, firstn_O, app_nil_r, skipn_app, (skipn_all2 a) by lia. cbn [app].
    rewrite (skipn_all2 (skipn _ _)) by (rewrite skipn_length, repeat_length; lia). now rewrite app_nil_r. }
  assert (P : forall (s x y : str), s = x ++ y -> pick s (seq (length x) (length y)) = Some y).
  { intros s x y. revert x. induction y as [|c y IH]; intros x E; [reflexivity|]. cbn [length seq pick]. rewrite E, nth_error_app2, Nat.sub_diag by lia. cbn [nth_error].
    specialize (IH (x ++ [c])). rewrite app_length, Nat.add_1_r, <- app_assoc in IH. rewrite <- E. now rewrite (IH E). }
  intros a b z c. unfold lit_add, add_lit, char_add, add_char. rewrite !L. conj; auto.
  - exact (A [c] b).
  - apply (P a [] a eq_refl).
  - intro Na. unfold sstr_sub. destruct (a ++ b) as [|x l] eqn:E; [destruct a; [congruence|discriminate]|]. rewrite <- E, app_length.
    replace (_ && _)%nat with true; [|symmetry; apply andb_true_iff; split; [apply Nat.ltb_lt; destruct a; [congruence|cbn; lia]|apply Nat.leb_le; lia]].
    cbn [skipn]. rewrite Nat.sub_0_r. rewrite firstn_app, firstn_all, Nat.sub_diag, firstn_O, app_nil_r. reflexivity.
  - intro Nb. unfold sstr_sub. destruct (a ++ b) as [|x l] eqn:E; [destruct a, b; try discriminate; congruence|]. rewrite <- E, app_length.
    replace (_ && _)%nat with true; [|symmetry; apply andb_true_iff; split; [apply Nat.ltb_lt; destruct b; [congruence|cbn; lia]|apply Nat.leb_le; lia]].
    rewrite skipn_app, (skipn_all2 a), Nat.sub_diag by lia. cbn [app skipn]. replace (length a + length b - length a)%nat with (length b) by lia. now rewrite firstn_all.
Qed.
Print Assumptions C49_pieces.
(** What the tokenizer does with a definition: "^" + matcher. *)
Example C49_case : forall p z, match sstr_lit (p ++ [z]) with Some m => lit_add [c_caret; 0] m | None => None end = Some (anchored p).
Proof. intros p z. rewrite (proj1 (C49_pieces p [] z z)). exact (proj1 (proj2 (proj2 (C49_pieces [c_caret] p 0 z)))). Qed.

(** The helpers on lists of tokens and of expressions, used inline by Text.v and Ast.v. *)
Lemma reverse_rev {A} (l : list A) : reverse l = rev l.
Proof.
  unfold reverse. assert (H : forall k cur : list A, reverse_aux k cur = rev k ++ cur).
  { clear l. intro l. induction l as [|x l IH]; intro cur; cbn; [reflexivity|]. now rewrite IH, <- app_assoc. }
  now rewrite H, app_nil_r.
Qed.
Lemma merge_concat l : merge l = concat l.
Proof.
  destruct l as [|a l]; [reflexivity|]. cbn [merge concat]. revert a. induction l as [|b l IH]; intro a; cbn [merge_packs concat]; [now rewrite app_nil_r|]. now rewrite IH, app_assoc.
Qed.
(** The expression of several children (get_expression.hpp:11-28) as Ast.children_expr has it. *)
Lemma children_expr_packs es : (2 <= length es)%nat -> children_expr es = concat_packs [c_bar] (map (fun e => nc_open ++ e ++ [c_rpar]) es).
Proof.
  intro L. destruct es as [|e1 [|e2 es]]; cbn in L; try lia. clear L. change (children_expr (e1 :: e2 :: es)) with (join_bar (map (fun e => nc_open ++ e ++ [c_rpar]) (e1 :: e2 :: es))).
  revert e1 e2. induction es as [|e3 es IH]; intros e1 e2.
  - cbn [map join_bar concat_packs]. destruct (nc_open ++ e1 ++ [c_rpar]) eqn:E; [discriminate|]. rewrite merge_concat. cbn [concat]. now rewrite app_nil_r.
  - cbn [map] in *. cbn [concat_packs]. destruct (nc_open ++ e1 ++ [c_rpar]) eqn:E; [discriminate|]. rewrite <- E. rewrite merge_concat. cbn [concat]. rewrite app_nil_r.
    specialize (IH e2 e3). cbn [concat_packs] in IH. rewrite <- IH. reflexivity.
Qed.

(** ** C50.  Comparison of tokenizer iterators. *)
(** The buffer of [e] lies at address [base] of the memory; a view of the model as the pointer
    pair the program holds. *)
Definition placed (m : mem) (base : Z) (e : env) : Prop := stored m base (buf e).
Definition addr (base : Z) (v : view) : lsv := match v with Some (a, b) => (base + a, base + b) | None => lsv_null end.
Definition inside (e : env) (v : view) : Prop := match v with Some (a, b) => 0 <= a <= b /\ b <= Z.of_nat (length (buf e)) | None => True end.
Lemma nth_firstn {A} (l : list A) : forall k i, (i < k)%nat -> nth_error (firstn k l) i = nth_error l i.
Proof. induction l as [|x l IH]; intros [|k] [|i] H; try lia; cbn; auto. apply IH. lia. Qed.
Lemma nth_skip {A} (l : list A) : forall k i, nth_error (skipn k l) i = nth_error l (k + i).
Proof. induction l as [|x l IH]; intros [|k] i; cbn; auto. now destruct i. Qed.
Lemma view_contents m base e v : placed m base e -> inside e v -> contents m (addr base v) (text e v).
Proof.
  intros P H. destruct v as [[a b]|]; [|split; [reflexivity|intros i Hi; cbn in Hi; lia]]. destruct H as [H1 H2].
  assert (L : length (text e (Some (a, b))) = Z.to_nat (b - a)) by (cbn [text]; rewrite firstn_length, skipn_length; lia).
  split; [rewrite L; unfold lsv_size; cbn; lia|]. intros i Hi. rewrite L in Hi. cbn [addr fst text]. rewrite nth_firstn, nth_skip by lia.
  rewrite <- (P (Z.to_nat a + i)%nat) by lia. f_equal. lia.
Qed.
(** The comparison the model uses for views is the one the program performs. *)
Theorem C50_comparison : forall m base e u v, placed m base e -> inside e u -> inside e v -> vsize u < 2147483648 ->
  lsv_eq m (addr base u) (addr base v) = Some (view_eqb e u v).
Proof.
  intros m base e u v P U V B. pose proof (view_contents m base e u P U) as Cu. pose proof (view_contents m base e v P V) as Cv.
  assert (S : forall x, inside e x -> vsize x = Z.of_nat (length (text e x))).
  { intros [[a b]|] X; [|reflexivity]. destruct X. cbn [vsize text]. rewrite firstn_length, skipn_length. lia. }
  destruct (C48_view_equality m _ _ _ _ Cu Cv) as (x & -> & X); [rewrite <- S; auto|]. f_equal. unfold view_eqb. rewrite !S by assumption.
  destruct (str_eqb (text e u) (text e v)) eqn:E.
  - apply str_eqb_eq in E. rewrite E, Z.eqb_refl. now apply X.
  - rewrite andb_false_r. destruct x; [|reflexivity]. rewrite (proj1 X eq_refl) in E. assert (str_eqb (text e v) (text e v) = true) by (apply str_eqb_eq; reflexivity). congruence.
Qed.
Print Assumptions C50_comparison.

Definition small_defs (d : defs) : bool := forallb opt_small (d_seps d) && forallb (fun t => opt_small (snd t)) (d_toks d).
Lemma run_view_fwd fuel e c ce n a b : opt_small n = true -> run_view fuel e (Some (c, ce)) n = Some (Some (a, b)) -> c <= a.
Proof.
  intros O H. unfold run_view in H. destruct (create fuel _ n) as [s| |] eqn:C; try discriminate. injection H as H. unfold to_view in H. destruct (is_accepted s); [|discriminate]. injection H as <- <-.
  pose proof (create_mono (cur_env e (Some (c, ce))) n (fuel + Z.to_nat (ce - c + 1)) O ltac:(cbn; lia)) as X.
  rewrite (create_more _ _ fuel _ _ C) in X by lia. cbn in X. lia.
Qed.
(** One increment: from [current] = [c, ce) to a token [a, b) further on, or to end(). *)
Lemma advance_fwd fuel e d it it' c ce : small_defs d = true -> advance fuel e d it = Some it' -> i_cur it = Some (c, ce) ->
  it' = invalid \/ exists a b ty, it' = mkIter (Some (b, ce)) (Some ((a, b), ty)) /\ c <= a < b.
Proof.
  unfold small_defs. rewrite andb_true_iff, !forallb_forall. intros [OS OT] H E.
  assert (TK : forall q, c <= q -> match match_token fuel e d (Some (q, ce)) with Some (Some (c', l)) => Some (mkIter c' (Some l)) | Some None => Some invalid | None => None end = Some it' ->
     it' = invalid \/ exists a b ty, it' = mkIter (Some (b, ce)) (Some ((a, b), ty)) /\ c <= a < b).
  { intros q Hq H1. unfold match_token in H1. destruct (mapM _ _) as [[|v vs]|] eqn:MM; try discriminate.
    pose proof (max_in (fun x : view * nat => vsize (fst x)) vs v) as I. set (m := max_elem _ v vs) in *.
    destruct (fst m) as [[a1 b1]|] eqn:Fm; [|left; congruence]. destruct (Z.ltb_spec 0 (b1 - a1)) as [Lt|]; [|left; congruence]. injection H1 as <-.
    right. exists a1, b1, (snd m). split; [reflexivity|]. destruct (mapM_in _ _ _ _ MM I) as (t & It & Rt). destruct (run_view fuel e (Some (q, ce)) (snd t)) as [u|] eqn:RV; [|discriminate].
    injection Rt as Rt. rewrite <- Rt in Fm. cbn [fst] in Fm. subst u. pose proof (run_view_fwd fuel e q ce (snd t) a1 b1 (OT t It) RV). lia. }
  unfold advance in H. rewrite E in H. unfold match_separator in H. destruct (mapM _ _) as [[|v vs]|] eqn:MM; try discriminate.
  pose proof (max_in vsize vs v) as I. set (m := max_elem vsize v vs) in *.
  assert (NS : (if negb (at_origin e (Some (c, ce))) then Some invalid else match match_token fuel e d (Some (c, ce)) with Some (Some (c', l)) => Some (mkIter c' (Some l)) | Some None => Some invalid | None => None end) = Some it' ->
    it' = invalid \/ exists a b ty, it' = mkIter (Some (b, ce)) (Some ((a, b), ty)) /\ c <= a < b).
  { intro H1. destruct (negb _); [left; congruence|]. apply (TK c); [lia|exact H1]. }
  destruct m as [[a1 b1]|] eqn:Fm; [|exact (NS H)]. destruct (Z.ltb_spec 0 (b1 - a1)) as [Lt|]; [|exact (NS H)].
  destruct (mapM_in _ _ _ _ MM I) as (n & In1 & Rn). pose proof (run_view_fwd fuel e c ce n a1 b1 (OS n In1) Rn). apply (TK b1); [lia|exact H].
Qed.
(** The states an iterator can be in. *)
Definition alive (e : env) (it : iter) (c : Z) : Prop := exists a ty, it = mkIter (Some (c, qe e)) (Some ((a, c), ty)) /\ qb e <= a < c.
Definition spent (e : env) (it : iter) : Prop := it = invalid \/ (qb e = qe e /\ it = mkIter (Some (qb e, qe e)) None).
Definition walk (e : env) (it : iter) : Prop := spent e it \/ exists c, alive e it c.
Lemma spent_alive e it c : spent e it -> alive e it c -> False.
Proof. intros [->|[_ ->]] (a & ty & X & _); discriminate X. Qed.
Lemma walk_create fuel e d it : small_defs d = true -> iter_create fuel e d = Some it -> walk e it.
Proof.
  intros O H. unfold iter_create in H. destruct (Z.eqb_spec (qb e) (qe e)) as [E|E]; [injection H as <-; left; right; auto|].
  destruct (advance_fwd fuel e d _ it (qb e) (qe e) O H eq_refl) as [->|(a & b & ty & -> & B)]; [left; now left|]. right. exists b, a, ty. auto.
Qed.
Lemma walk_advance fuel e d it it' : small_defs d = true -> walk e it -> advance fuel e d it = Some it' ->
  walk e it' /\ forall c', alive e it' c' -> exists c, i_cur it = Some (c, qe e) /\ qb e <= c < c' /\ forall c0, alive e it c0 -> c0 = c.
Proof.
  intros O W H. destruct W as [[->|[E ->]]|(c & a & ty & -> & B)].
  - apply advance_invalid_any in H. subst. split; [left; now left|]. intros c' AL; destruct (spent_alive e _ c' (or_introl eq_refl) AL).
  - destruct (advance_fwd fuel e d _ it' _ _ O H eq_refl) as [->|(a & b & ty & -> & B)].
    + split; [left; now left|]. intros c' AL; destruct (spent_alive e _ c' (or_introl eq_refl) AL).
    + split; [right; exists b, a, ty; auto|]. intros c' (a' & ty' & X' & B'); injection X' as -> ? ?; subst. exists (qb e). conj; try lia; try reflexivity. intros c0 (a0 & ty0 & X & _); discriminate X.
  - destruct (advance_fwd fuel e d _ it' _ _ O H eq_refl) as [->|(a1 & b1 & ty1 & -> & B1)].
    + split; [left; now left|]. intros c' AL; destruct (spent_alive e _ c' (or_introl eq_refl) AL).
    + split; [right; exists b1, a1, ty1; split; [reflexivity|lia]|]. intros c' (a' & ty' & X' & B'); injection X' as -> ? ?; subst. exists c. conj; try lia; try reflexivity. intros c0 (a0 & ty0 & X & _); congruence.
Qed.
Lemma walk_advances fuel e d : small_defs d = true -> forall k it it', walk e it -> advances k fuel e d it = Some it' ->
  walk e it' /\ forall c', alive e it' c' -> k <> 0%nat -> exists c, i_cur it = Some (c, qe e) /\ c + Z.of_nat k <= c'.
Proof.
  intro O. induction k as [|k IH]; intros it it' W H; cbn [advances] in H; [injection H as <-; split; [exact W|congruence]|].
  destruct (advance fuel e d it) as [it1|] eqn:A; [|discriminate]. destruct (walk_advance fuel e d it it1 O W A) as [W1 S1].
  destruct (IH it1 it' W1 H) as [W2 S2]. split; [exact W2|]. intros c' AL _. destruct k as [|k].
  - cbn [advances] in H. injection H as <-. destruct (S1 c' AL) as (c & E & L & _). exists c. split; [exact E|lia].
  - destruct (S2 c' AL ltac:(congruence)) as (c1 & E1 & L1). destruct W1 as [[->|[_ ->]]|(c2 & AL1)].
    + discriminate.
    + exfalso. destruct (walk_advance fuel e d it _ O W A) as [_ _]. destruct W as [[->|[E0 ->]]|(c0 & a0 & ty0 & -> & B0)].
      * apply advance_invalid_any in A. discriminate.
      * destruct (advance_fwd fuel e d _ _ _ _ O A eq_refl) as [X|(a & b & ty & X & _)]; discriminate.
      * destruct (advance_fwd fuel e d _ _ _ _ O A eq_refl) as [X|(a & b & ty & X & _)]; discriminate.
    + destruct (S1 c2 AL1) as (c & E & L & _). exists c. split; [exact E|]. destruct AL1 as (a2 & ty2 & -> & _). cbn [i_cur] in E1. injection E1 as ->. lia.
Qed.
Lemma walk_bool e it : walk e it -> (iter_bool it = false <-> spent e it).
Proof.
  intros [S|(c & a & ty & -> & B)].
  - split; [auto|]. intros _. destruct S as [->|[_ ->]]; reflexivity.
  - split; [|intros [X|[_ X]]; discriminate X]. unfold iter_bool. cbn. intro H. apply negb_false_iff, Z.eqb_eq in H. lia.
Qed.
Lemma spent_eqb e a b : spent e a -> spent e b -> iter_eqb e a b = true.
Proof.
  intros [->|[E ->]] [->|[E' ->]]; try rewrite E; try rewrite E'; unfold iter_eqb, view_eqb; cbn [i_cur i_last invalid last_view vsize text]; rewrite ?Z.sub_diag; reflexivity.
Qed.
Lemma view_eqb_refl e v : view_eqb e v v = true.
Proof. unfold view_eqb. rewrite Z.eqb_refl. cbn. now apply str_eqb_eq. Qed.
Lemma iter_eqb_refl e a : iter_eqb e a a = true.
Proof. unfold iter_eqb. now rewrite !view_eqb_refl. Qed.
(** Iterators of the same tokenizer over the same input, [i] and [j] increments after begin():
    they compare equal iff they are the same number of increments away from begin() or both are
    exhausted (false as a condition); an iterator equals end() iff it is exhausted.  For all
    definitions whose optional fixed-size items have size at most one. *)
Theorem C50_iterators_partial : forall d e fuel s i j a b, small_defs d = true -> iter_create fuel e d = Some s ->
  advances i fuel e d s = Some a -> advances j fuel e d s = Some b ->
  (iter_eqb e a b = true <-> i = j \/ (iter_bool a = false /\ iter_bool b = false))
  /\ iter_eqb e a iter_end = negb (iter_bool a).
Proof.
  intros d e fuel s i j a b O C A B. pose proof (walk_create fuel e d s O C) as W.
  destruct (walk_advances fuel e d O i s a W A) as [Wa _]. destruct (walk_advances fuel e d O j s b W B) as [Wb _].
  assert (ALT : forall x y, spent e x -> (exists c, alive e y c) -> iter_eqb e x y = false /\ iter_eqb e y x = false).
  { intros x y [->|[_ ->]] (c & u & ty & -> & Q); unfold iter_eqb, view_eqb; cbn [i_cur i_last invalid last_view vsize].
    - replace (0 =? c - u) with false by (symmetry; apply Z.eqb_neq; lia). replace (c - u =? 0) with false by (symmetry; apply Z.eqb_neq; lia). cbn [andb]. now rewrite !andb_false_r.
    - replace (0 =? c - u) with false by (symmetry; apply Z.eqb_neq; lia). replace (c - u =? 0) with false by (symmetry; apply Z.eqb_neq; lia). cbn [andb]. now rewrite !andb_false_r. }
  assert (ADD : forall i k x y, advances (i + k) fuel e d x = Some y -> exists z, advances i fuel e d x = Some z /\ advances k fuel e d z = Some y).
  { induction i0 as [|i0 IH]; intros k x y H; [exists x; auto|]. cbn [advances Nat.add] in *. destruct (advance fuel e d x) as [x1|]; [|discriminate]. apply IH, H. }
  assert (LT : forall i j x y, (i < j)%nat -> advances i fuel e d s = Some x -> advances j fuel e d s = Some y -> (exists c, alive e x c) -> (exists c, alive e y c) -> iter_eqb e x y = false /\ iter_eqb e y x = false).
  { intros i0 j0 x y L X Y (c1 & AX) (c2 & AY). replace j0 with (i0 + (j0 - i0))%nat in Y by lia. apply ADD in Y as (z & Z1 & Z2). rewrite X in Z1. injection Z1 as <-.
    destruct (walk_advances fuel e d O (j0 - i0) x y (or_intror (ex_intro _ c1 AX)) Z2) as [_ S]. destruct (S c2 AY ltac:(lia)) as (c & E & Lc).
    destruct AX as (a1 & t1 & -> & B1). destruct AY as (a2 & t2 & -> & B2). cbn [i_cur] in E. injection E as ->.
    unfold iter_eqb, view_eqb; cbn [i_cur vsize]. replace (qe e - c =? qe e - c2) with false by (symmetry; apply Z.eqb_neq; lia). replace (qe e - c2 =? qe e - c) with false by (symmetry; apply Z.eqb_neq; lia). auto. }
  split.
  - rewrite (walk_bool e a Wa), (walk_bool e b Wb). split.
    + intro H. destruct (Nat.eq_dec i j) as [->|N]; [now left|]. right. destruct Wa as [Sa|La], Wb as [Sb|Lb]; auto; exfalso.
      * rewrite (proj1 (ALT a b Sa Lb)) in H. discriminate.
      * rewrite (proj2 (ALT b a Sb La)) in H. discriminate.
      * destruct (Nat.lt_gt_cases i j) as [Q _]. destruct (Q N) as [L|L].
        -- rewrite (proj1 (LT i j a b L A B La Lb)) in H. discriminate.
        -- rewrite (proj2 (LT j i b a L B A Lb La)) in H. discriminate.
    + intros [->|[Sa Sb]]; [rewrite A in B; injection B as <-; apply iter_eqb_refl|now apply spent_eqb].
  - destruct (iter_bool a) eqn:Ba; cbn [negb].
    + destruct Wa as [Sa|La]; [apply (walk_bool e a (or_introl Sa)) in Sa; congruence|]. exact (proj2 (ALT iter_end a (or_introl eq_refl) La)).
    + apply (walk_bool e a Wa) in Ba. apply spent_eqb; [exact Ba|now left].
Qed.
Print Assumptions C50_iterators_partial.

(** C40.  Every increment that finds a token consumes: after [k] increments a true iterator
    stands on a non-empty token that ends where the rest of the input begins, at least [k]
    characters after the beginning of the input. *)
Theorem C40_progress_partial : forall d e fuel s k it, small_defs d = true -> iter_create fuel e d = Some s ->
  advances k fuel e d s = Some it -> iter_bool it = true ->
  exists a b ty, i_last it = Some ((a, b), ty) /\ i_cur it = Some (b, qe e) /\ qb e <= a < b /\ qb e + Z.of_nat k <= b.
Proof.
  intros d e fuel s k it O C A Bi. pose proof (walk_create fuel e d s O C) as W. destruct (walk_advances fuel e d O k s it W A) as [Wi S].
  destruct Wi as [Si|(c & AL)]; [apply (walk_bool e it (or_introl Si)) in Si; congruence|]. pose proof AL as (a & ty & -> & Q). exists a, c, ty. conj; auto; try lia.
  destruct k as [|k]; [lia|]. destruct (S c AL ltac:(congruence)) as (c0 & E & L). destruct W as [[->|[_ ->]]|(c1 & a1 & t1 & -> & B1)]; cbn [i_cur] in E; try discriminate; injection E as <-; lia.
Qed.
Print Assumptions C40_progress_partial.
(** Two token types, one separator, an input with a trailing part that is no token. *)
Example C50_case : exists d s a b z, make_defs [DTok 0 (S2L "[a-z]+"%string); DTok 1 (S2L "x?\d"%string); DSep (S2L "[ ,]"%string)] = Some d
  /\ small_defs d = true
  /\ iter_create 12 (env_of [] (S2L "ab 7,cd !"%string) [0]) d = Some s
  /\ advances 1 12 (env_of [] (S2L "ab 7,cd !"%string) [0]) d s = Some a /\ i_last a = Some ((3, 4), 1%nat)
  /\ advances 2 12 (env_of [] (S2L "ab 7,cd !"%string) [0]) d s = Some b /\ i_last b = Some ((5, 7), 0%nat)
  /\ advances 3 12 (env_of [] (S2L "ab 7,cd !"%string) [0]) d s = Some z /\ iter_bool z = false
  /\ iter_eqb (env_of [] (S2L "ab 7,cd !"%string) [0]) a b = false.
Proof.
  set (d := match make_defs [DTok 0 (S2L "[a-z]+"%string); DTok 1 (S2L "x?\d"%string); DSep (S2L "[ ,]"%string)] with Some d => d | None => mkDefs [] [] end).
  set (e := env_of [] (S2L "ab 7,cd !"%string) [0]). set (f := fun o : option iter => match o with Some i => i | None => invalid end).
  exists d, (f (iter_create 12 e d)), (f (advances 1 12 e d (f (iter_create 12 e d)))), (f (advances 2 12 e d (f (iter_create 12 e d)))), (f (advances 3 12 e d (f (iter_create 12 e d)))).
  conj; vm_compute; reflexivity.
Qed.
