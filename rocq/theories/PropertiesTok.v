(** C38-C42: the tokenizer. *)
From Coq Require Import String ZArith NArith List Bool Lia ZifyBool ZifyNat ZifyN.
From Verif Require Import Base Text Ast Builder Engine Api Spec SpecProofs SpecEnd Tree ParseProofs Den Checker AstProofs BuilderProofs ApiProofs Supported Main Mono Find Sound Anchor TokIter SpecTok Tok Refuted PropertiesMatch.
Import ListNotations.
Open Scope nat_scope.

(** The definitions covered: at least one token and one separator; every pattern becomes, with
    ^ in front, a pattern that is anchored in every branch and matched exactly ([exact],
    Supported.v). *)
Definition defs_ok (ds : list tdef) : bool :=
  forallb tok_ok (sep_defs ds) && forallb (fun t => tok_ok (snd t)) (tok_defs ds) && negb (is_nil (sep_defs ds)) && negb (is_nil (tok_defs ds)).
Lemma defs_ok_ds ds : defs_ok ds = true -> ds_ok ds.
Proof.
  unfold defs_ok, ds_ok. rewrite !andb_true_iff, !forallb_forall. intros [[[A B] C] D]. conj; auto; [destruct (sep_defs ds)|destruct (tok_defs ds)]; discriminate || (now cbn in * ).
Qed.
(** A token of the specification (offsets in the input) as the library shows it. *)
Definition as_shown (pre : str) (t : nat * nat * nat) : (Z * Z) * nat := (place pre (fst (fst t)) (snd (fst t)), snd t).
Lemma as_shown_at pre t : token_at pre t = as_shown pre t.
Proof. unfold token_at, as_shown, place, EngineOk.at_. do 3 f_equal; lia. Qed.

(** C39.  A range-for over a tokenizer shows exactly the tokens of the specification: the
    longest match at the current position, the first definition among equals, separators
    likewise (SpecTok.v). *)
Theorem C39_munch_partial : forall ds d pre w post steps fuel, defs_ok ds = true -> make_defs (map def_text ds) = Some d ->
  query_ok w -> post <> [] -> length w < steps -> length w < fuel ->
  tok_range_for steps fuel (env_of pre w post) d = Some (map (fun t => Some (as_shown pre t)) (tokens ds w)).
Proof.
  intros ds d pre w post steps fuel D M Q P S F. rewrite (make_defs_ok _ (defs_ok_ds ds D)) in M. injection M as <-.
  rewrite (tok_range_for_ok pre w post Q P ds (defs_ok_ds ds D) fuel steps F S). f_equal. apply map_ext. intro t. now rewrite as_shown_at.
Qed.
Print Assumptions C39_munch_partial.
Lemma max_hit l : list_max l <> 0 -> In (list_max l) l.
Proof.
  unfold list_max. induction l as [|x l IH]; intro H; [cbn in H; lia|]. cbn [fold_right] in *.
  destruct (Nat.max_spec x (fold_right Nat.max 0 l)) as [[A E]|[A E]]; rewrite E in *; [right; apply IH; lia|now left].
Qed.
(** ... spelled out for one step of the specification. *)
Theorem C39_longest : forall ds w p a b ty, next_token ds w p = Some (a, b, ty) ->
  (forall r, In r (sep_defs ds) -> len_at (skipn p w) r <= a - p)
  /\ (a = p \/ exists r, In r (sep_defs ds) /\ len_at (skipn p w) r = a - p)
  /\ a < b
  /\ (forall t, In t (tok_defs ds) -> len_at (skipn a w) (snd t) <= b - a)
  /\ exists d1 r d2, tok_defs ds = d1 ++ (ty, r) :: d2 /\ len_at (skipn a w) r = b - a /\ (forall t, In t d1 -> len_at (skipn a w) (snd t) < b - a).
Proof.
  intros ds w p a b ty H. unfold next_token in H. cbv zeta in H. destruct (_ && _); [discriminate|].
  set (s := longest (skipn p w) (sep_defs ds)) in *. set (l := longest (skipn (p + s) w) (map snd (tok_defs ds))) in *.
  destruct (Nat.eqb_spec l 0) as [|Z]; [discriminate|]. destruct (find _ _) as [t|] eqn:F; [|discriminate]. injection H as <- <- <-.
  replace (p + s - p) with s by lia. replace (p + s + l - (p + s)) with l by lia.
  assert (X : forall t, In t (tok_defs ds) -> len_at (skipn (p + s) w) (snd t) <= l).
  { pose proof (proj1 (list_max_le (map (len_at (skipn (p + s) w)) (map snd (tok_defs ds))) l) (Nat.le_refl _)) as G. rewrite !Forall_map, Forall_forall in G. exact G. }
  conj; [| |lia|exact X|].
  - pose proof (proj1 (list_max_le (map (len_at (skipn p w)) (sep_defs ds)) s) (Nat.le_refl _)) as G. rewrite Forall_map, Forall_forall in G. exact G.
  - destruct (Nat.eq_dec s 0) as [|Zs]; [left; lia|]. right. assert (G : In s (map (len_at (skipn p w)) (sep_defs ds))).
    { apply max_hit. exact Zs. }
    apply in_map_iff in G as (r & E & I). eauto.
  - apply find_some in F as F2. destruct F2 as [_ E]. apply Nat.eqb_eq in E.
    assert (Y : exists d1 d2, tok_defs ds = d1 ++ t :: d2 /\ forall x, In x d1 -> len_at (skipn (p + s) w) (snd x) <> l).
    { clear -F. clearbody l. induction (tok_defs ds) as [|y ys IH]; [discriminate|]. cbn [find] in F. destruct (Nat.eqb_spec (len_at (skipn (p + s) w) (snd y)) l) as [Q|Q].
      - injection F as ->. exists [], ys. split; [reflexivity|intros x []].
      - destruct (IH F) as (d1 & d2 & -> & G). exists (y :: d1), d2. split; [reflexivity|]. intros x [<-|Hx]; auto. }
    destruct Y as (d1 & d2 & Y & G). exists d1, (snd t), d2. rewrite <- surjective_pairing. conj; auto. intros x Hx.
    specialize (G x Hx). specialize (X x). rewrite Y in X. specialize (X (in_or_app _ _ _ (or_introl Hx))). lia.
Qed.
Print Assumptions C39_longest.

(** C38.  The tokens are non-empty pieces of the input, in order; every token matches its
    definition; between two of them there is exactly one match of a separator; before the first
    there is one or nothing. *)
Definition separated (ds : list tdef) (w : str) (p a : nat) : Prop := p < a /\ exists r, In r (sep_defs ds) /\ lang (skipn p w) r 0 (a - p).
Fixpoint cut (ds : list tdef) (w : str) (p : nat) (l : list (nat * nat * nat)) : Prop :=
  match l with
  | [] => True
  | (a, b, ty) :: l' => (separated ds w p a \/ p = 0 /\ a = 0) /\ a < b <= length w
      /\ (exists r, In (ty, r) (tok_defs ds) /\ lang (skipn a w) r 0 (b - a)) /\ cut ds w b l'
  end.
Lemma len_lang u r : tok_ok r = true -> len_at u r <> 0 -> lang u r 0 (len_at u r).
Proof.
  intros T H. assert (W : wf r = true).
  { destruct (tok_parts r T) as (_ & _ & _ & W). destruct r as [[b s]|[b s] r]; cbn [caret wf wf_br] in *; exact W. }
  unfold len_at in *. destruct (match_at u r 0) as [c|] eqn:M; [|lia]. exact (match_at_lang u r 0 c W M).
Qed.
Lemma tokens_cut ds w : ds_ok ds -> forall k p, p <= length w -> cut ds w p (tokens_from ds w k p).
Proof.
  intro D. induction k as [|k IH]; intros p Hp; cbn [tokens_from]; [exact Logic.I|]. destruct (next_token ds w p) as [[[a b] ty]|] eqn:N; [|exact Logic.I].
  pose proof (next_token_bound w ds D p a b ty Hp N) as B. destruct (C39_longest ds w p a b ty N) as (_ & S1 & _ & _ & d1 & r & d2 & E & L & _). cbn [cut]. conj; try lia.
  - destruct (Nat.eq_dec a p) as [->|Ne].
    + right. lia.
    + left. destruct S1 as [|(r0 & I & S1)]; [congruence|]. split; [lia|]. exists r0. split; [exact I|]. rewrite <- S1. apply len_lang; [exact (proj1 D r0 I)|lia].
  - exists r. split; [rewrite E; apply in_or_app; right; now left|]. rewrite <- L. apply len_lang; [|lia]. apply (proj1 (proj2 D) (ty, r)). rewrite E. apply in_or_app; right; now left.
  - apply IH. lia.
Qed.
Theorem C38_cut_partial : forall ds d pre w post steps fuel, defs_ok ds = true -> make_defs (map def_text ds) = Some d ->
  query_ok w -> post <> [] -> length w < steps -> length w < fuel ->
  exists l, tok_range_for steps fuel (env_of pre w post) d = Some (map (fun t => Some (as_shown pre t)) l) /\ cut ds w 0 l.
Proof.
  intros ds d pre w post steps fuel D M Q P S F. exists (tokens ds w). split; [now apply C39_munch_partial|].
  apply tokens_cut; [now apply defs_ok_ds|lia].
Qed.
Print Assumptions C38_cut_partial.

(** C40.  At most as many tokens as characters, then the iterator equals end(). *)
Lemma tokens_count ds w : ds_ok ds -> forall k p, p <= length w -> p + length (tokens_from ds w k p) <= length w.
Proof.
  intro D. induction k as [|k IH]; intros p Hp; cbn [tokens_from]; [cbn; lia|]. destruct (next_token ds w p) as [[[a b] ty]|] eqn:N; [|cbn; lia].
  pose proof (next_token_bound w ds D p a b ty Hp N) as B. specialize (IH b ltac:(lia)). cbn [length]. lia.
Qed.
Theorem C40_terminates_partial : forall ds d pre w post, defs_ok ds = true -> make_defs (map def_text ds) = Some d ->
  query_ok w -> post <> [] ->
  exists l, tok_range_for (S (length w)) (S (length w)) (env_of pre w post) d = Some l /\ length l <= length w.
Proof.
  intros ds d pre w post D M Q P. exists (map (fun t => Some (as_shown pre t)) (tokens ds w)). split; [apply C39_munch_partial; auto|]. rewrite map_length.
  exact (tokens_count ds w (defs_ok_ds ds D) (length w) 0 (Nat.le_0_l _)).
Qed.
Print Assumptions C40_terminates_partial.

(** C41.  An iterator that found no separator or no token stays as it is, for all
    definitions, unless the increment is undefined; it is equal to end(), and false. *)
Fixpoint advances (k fuel : nat) (e : env) (d : defs) (it : iter) : option iter :=
  match k with O => Some it | S k' => match advance fuel e d it with Some it' => advances k' fuel e d it' | None => None end end.
Lemma advance_invalid_any fuel e d it : advance fuel e d invalid = Some it -> it = invalid.
Proof.
  unfold advance, match_separator. cbn [i_cur invalid at_origin negb]. destruct (mapM _ _) as [[|v vs]|]; try discriminate.
  destruct (max_elem vsize v vs) as [[a b]|]; [destruct (0 <? b - a)%Z|]; try discriminate; congruence.
Qed.
Theorem C41_exhausted_partial : forall ds d e k fuel,
  (forall it, advances k fuel e d invalid = Some it -> it = invalid /\ iter_eqb e it iter_end = true /\ iter_bool it = false)
  /\ (forall pre w post, defs_ok ds = true -> make_defs (map def_text ds) = Some d -> query_ok w -> post <> [] -> e = env_of pre w post ->
        advances k fuel e d invalid = Some invalid).
Proof.
  intros ds d e k fuel. split.
  - intros it H. assert (it = invalid) as ->; [|conj; reflexivity]. revert it H. induction k as [|k IH]; intros it H; cbn [advances] in H; [congruence|].
    destruct (advance fuel e d invalid) as [it'|] eqn:A; [|discriminate]. apply advance_invalid_any in A. subst. auto.
  - intros pre w post D M Q P ->. rewrite (make_defs_ok _ (defs_ok_ds ds D)) in M. injection M as <-.
    induction k as [|k IH]; cbn [advances]; [reflexivity|]. rewrite (advance_invalid pre w post ds (defs_ok_ds ds D)). exact IH.
Qed.
Print Assumptions C41_exhausted_partial.
(** The increment can be undefined: with the separator b|$ it reads through a null pointer. *)
Theorem C41_exhausted_refuted : exists d, make_defs [DTok 0 (S2L "a"); DSep (S2L "b|$")] = Some d
  /\ (exists it, iter_create 10 (env_of [] (S2L "x") [0%Z]) d = Some it /\ it = invalid)
  /\ Forall (fun n => forall fuel, create fuel (cur_env (env_of [] (S2L "x") [0%Z]) (i_cur invalid)) n = RUB) (d_seps d).
Proof.
  eexists. conj; [vm_compute; reflexivity|eexists; split; [vm_compute; reflexivity|reflexivity]|].
  constructor; [|constructor]. intro fuel. destruct fuel; vm_compute; reflexivity.
Qed.
Print Assumptions C41_exhausted_refuted.

(** C42.  Definitions whose every branch is anchored once ^ is put in front of the text (in
    particular those without |): whatever the input, a token is found either at the current
    position, or exactly where a separator that begins at the current position ends. *)
Definition anch_def (d : tdef) : bool :=
  match d with Tok _ r | Sep r => bare r && wf (caret r) && Anchor.anchored (caret r) end.
Definition at_front (e : env) (a ce b : Z) (p : str) : Prop :=
  exists n fuel, compile (c_caret :: p) = Some n /\ run_view fuel e (Some (a, ce)) n = Some (Some (a, b)).
Lemma max_in {A} (sz : A -> Z) l x : In (max_elem sz x l) (x :: l).
Proof. destruct (max_elem_split sz l x) as (l1 & l2 & E & _). rewrite E. apply in_or_app. right. now left. Qed.
Lemma mapM_in {A B} (f : A -> option B) l : forall bs b, mapM f l = Some bs -> In b bs -> exists a, In a l /\ f a = Some b.
Proof.
  induction l as [|a l IH]; intros bs b H I; cbn [mapM] in H; [injection H as <-; destruct I|]. destruct (f a) as [b'|] eqn:E; [|discriminate].
  destruct (mapM f l) as [bs'|]; [|discriminate]. injection H as <-. destruct I as [<-|I]; [exists a; split; [now left|exact E]|].
  destruct (IH _ _ eq_refl I) as (a' & I' & E'). exists a'. split; [now right|exact E'].
Qed.
Lemma split_nodes ds : forall d, forallb anch_def ds = true -> split_defs (map def_text ds) = Some d ->
  (forall n, In n (d_seps d) -> exists r, In (Sep r) ds /\ compile (c_caret :: show r) = Some n /\ aroot n)
  /\ (forall t, In t (d_toks d) -> exists r, In (Tok (fst t) r) ds /\ compile (c_caret :: show r) = Some (snd t) /\ aroot (snd t)).
Proof.
  assert (AR : forall r n, bare r && wf (caret r) && Anchor.anchored (caret r) = true -> compile (TokIter.anchored (show r)) = Some n -> aroot n).
  { intros r n H C. rewrite !andb_true_iff in H. destruct H as [[B W] A]. rewrite <- show_caret in C by exact B. rewrite (compile_ctree (caret r) n W C). now apply ctree_aroot. }
  induction ds as [|[ty r|r] ds IH]; intros d A H; cbn [map def_text split_defs] in H.
  - injection H as <-. split; intros x [].
  - cbn [forallb anch_def] in A. apply andb_true_iff in A as [A1 A2]. destruct (compile _) as [n|] eqn:C; [|discriminate]. destruct (split_defs _) as [d'|]; [|discriminate]. injection H as <-.
    destruct (IH d' A2 eq_refl) as [X Y]. cbn [d_seps d_toks]. split.
    + intros m Hm. destruct (X m Hm) as (r' & I & Z). exists r'. split; [now right|exact Z].
    + intros t [<-|Ht]; [exists r; conj; [now left|exact C|exact (AR r n A1 C)]|]. destruct (Y t Ht) as (r' & I & Z). exists r'. split; [now right|exact Z].
  - cbn [forallb anch_def] in A. apply andb_true_iff in A as [A1 A2]. destruct (compile _) as [n|] eqn:C; [|discriminate]. destruct (split_defs _) as [d'|]; [|discriminate]. injection H as <-.
    destruct (IH d' A2 eq_refl) as [X Y]. cbn [d_seps d_toks]. split.
    + intros t [<-|Ht]; [exists r; conj; [now left|exact C|exact (AR r n A1 C)]|]. destruct (X t Ht) as (r' & I & Z). exists r'. split; [now right|exact Z].
    + intros m Hm. destruct (Y m Hm) as (r' & I & Z). exists r'. split; [now right|exact Z].
Qed.
Theorem C42_anchored_partial : forall ds d e fuel it it' c ce a b ty, forallb anch_def ds = true -> make_defs (map def_text ds) = Some d ->
  i_cur it = Some (c, ce) -> advance fuel e d it = Some it' -> i_last it' = Some ((a, b), ty) ->
  (exists r, In (Tok ty r) ds /\ at_front e a ce b (show r))
  /\ (a = c /\ c = qb e \/ (c < a)%Z /\ exists r, In (Sep r) ds /\ at_front e c ce a (show r))
  /\ i_cur it' = Some (b, ce) /\ (a < b)%Z /\ (c <= a)%Z.
Proof.
  intros ds d e fuel it it' c ce a b ty A M E H L. unfold make_defs in M. destruct (split_defs (map def_text ds)) as [d'|] eqn:SD; [|discriminate].
  assert (d' = d) as -> by (destruct (d_toks d'); [discriminate|]; destruct (d_seps d'); [discriminate|]; congruence). clear M.
  destruct (split_nodes ds d A SD) as [X Y].
  assert (TK : forall q it1, match match_token fuel e d (Some (q, ce)) with Some (Some (c', l)) => Some (mkIter c' (Some l)) | Some None => Some invalid | None => None end = Some it1 ->
     i_last it1 = Some ((a, b), ty) -> q = a /\ (exists r, In (Tok ty r) ds /\ at_front e a ce b (show r)) /\ i_cur it1 = Some (b, ce) /\ (a < b)%Z).
  { intros q it1 H1 L1. unfold match_token in H1. destruct (mapM _ _) as [[|v vs]|] eqn:MM; try discriminate.
    pose proof (max_in (fun x : view * nat => vsize (fst x)) vs v) as I. set (m := max_elem _ v vs) in *.
    destruct (fst m) as [[a1 b1]|] eqn:Fm; [|injection H1 as <-; discriminate]. destruct (Z.ltb_spec 0 (b1 - a1)) as [Lt|]; [|injection H1 as <-; discriminate]. injection H1 as <-.
    cbn [i_last i_cur] in *. injection L1 as -> -> <-. destruct (mapM_in _ _ _ _ MM I) as (t & It & Rt). destruct (run_view fuel e (Some (q, ce)) (snd t)) as [u|] eqn:RV; [|discriminate].
    injection Rt as Rt. destruct (Y t It) as (r & Ir & Cr & Ar). assert (u = Some (a, b)) as -> by (rewrite <- Fm, <- Rt; reflexivity).
    destruct (anchored_view fuel e (snd t) (Some (q, ce)) (a, b) Ar (compile_gidx _ _ Cr) ltac:(discriminate) RV) as (q' & ce' & [= -> ->] & Q). cbn [fst] in Q. subst q'.
    conj; [reflexivity| |reflexivity|lia]. exists r. split; [rewrite <- Rt; exact Ir|]. exists (snd t), fuel. auto. }
  unfold advance in H. rewrite E in H. unfold match_separator in H. destruct (mapM _ _) as [[|v vs]|] eqn:MM; try discriminate.
  pose proof (max_in vsize vs v) as I. set (m := max_elem vsize v vs) in *.
  assert (NS : (if negb (at_origin e (Some (c, ce))) then Some invalid else match match_token fuel e d (Some (c, ce)) with Some (Some (c', l)) => Some (mkIter c' (Some l)) | Some None => Some invalid | None => None end) = Some it' ->
     (exists r, In (Tok ty r) ds /\ at_front e a ce b (show r)) /\ (a = c /\ c = qb e \/ (c < a)%Z /\ exists r, In (Sep r) ds /\ at_front e c ce a (show r)) /\ i_cur it' = Some (b, ce) /\ (a < b)%Z /\ (c <= a)%Z).
  { intro H1. cbn [at_origin] in H1. destruct (Z.eqb_spec c (qb e)) as [Eo|]; [|injection H1 as <-; discriminate]. cbn [negb] in H1. destruct (TK c it' H1 L) as (-> & T1 & T2 & T3). conj; auto. lia. }
  destruct m as [[a1 b1]|] eqn:Fm; [|exact (NS H)]. destruct (Z.ltb_spec 0 (b1 - a1)) as [Lt|]; [|exact (NS H)].
  destruct (TK b1 it' H L) as (-> & T1 & T2 & T3). destruct (mapM_in _ _ _ _ MM I) as (n & In1 & Rn). destruct (X n In1) as (r & Ir & Cr & Ar).
  destruct (anchored_view fuel e n (Some (c, ce)) (a1, a) Ar (compile_gidx _ _ Cr) ltac:(discriminate) Rn) as (q' & ce' & [= -> ->] & Q). cbn [fst] in Q. subst q'.
  conj; auto; [|lia]. right. split; [lia|]. exists r. split; [exact Ir|]. exists n, fuel. auto.
Qed.
Print Assumptions C42_anchored_partial.

(** A concrete tokenizer (that of the repository's test, plus an overlapping keyword). *)
Definition case_defs : list tdef :=
  [Tok 0 (pat [(AEl (EClass false [CRange 97 122]), plus)]); Tok 1 (pat [(AEl (EEsc 100), plus)]); Tok 2 (pat [(lit "i", Q1); (lit "f", Q1)]); Sep (pat [(AEl (EEsc 115), Q1)])].
Example C38_C42_case : exists d, defs_ok case_defs = true /\ forallb anch_def case_defs = true
  /\ map def_text case_defs = [DTok 0 (S2L "[a-z]+"); DTok 1 (S2L "\d+"); DTok 2 (S2L "if"); DSep (S2L "\s")]
  /\ make_defs (map def_text case_defs) = Some d
  /\ query_ok (S2L "a if 123 x1") /\ tokens case_defs (S2L "a if 123 x1") = [(0, 1, 0); (2, 4, 0); (5, 8, 1); (9, 10, 0)]
  /\ tok_range_for 12 12 (env_of [] (S2L "a if 123 x1") [0%Z]) d = Some (map (fun t => Some (as_shown [] t)) [(0, 1, 0); (2, 4, 0); (5, 8, 1); (9, 10, 0)]).
Proof.
  exists (match make_defs (map def_text case_defs) with Some d => d | None => mkDefs [] [] end).
  unfold query_ok. conj; vm_compute; reflexivity.
Qed.
