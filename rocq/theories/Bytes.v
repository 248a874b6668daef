(** \x{...} and \o{...}: several bytes in one item.  Proofs for PropertiesBytes.v. *)
From Coq Require Import String ZArith NArith List Bool Lia ZifyBool ZifyNat ZifyN.
From Verif Require Import Base Text Ast Builder Engine Api Spec AstProofs ApiProofs Find PropertiesFamilies.
Import ListNotations.
Open Scope nat_scope.

(** ** Reading the pattern text *)
Definition in_braces (k : chr) (ds : str) : str := [c_bslash; k; c_lbrc] ++ ds ++ [c_rbrc].
Lemma braces_ds ds : forallb (fun d => negb (d =? c_comma)%Z && negb (d =? c_rbrc)%Z) ds = true -> forall cur,
  extract_braces_numbers [cur] (ds ++ [c_rbrc]) = Some ([[c_lbrc]; cur ++ ds; [c_rbrc]], []).
Proof.
  induction ds as [|d ds IH]; intros H cur.
  - cbn. now rewrite app_nil_r.
  - cbn [forallb] in H. apply andb_true_iff in H as [H1 H2]. apply andb_true_iff in H1 as [A B]. apply negb_true_iff in A, B.
    cbn [app extract_braces_numbers]. rewrite A, B, IH by exact H2. now rewrite <- app_assoc.
Qed.
Lemma lex_braces k ds : forallb (fun d => negb (d =? c_comma)%Z && negb (d =? c_rbrc)%Z) ds = true ->
  lex (in_braces k ds) = Some [[c_bslash; k]; [c_lbrc]; ds; [c_rbrc]].
Proof.
  intro H. unfold lex, in_braces. cbn [app length]. rewrite app_length. cbn [length]. rewrite Nat.add_1_r.
  cbn [lex_aux]. change (c_bslash =? c_lbrc)%Z with false. change (c_bslash =? c_bslash)%Z with true. change (c_lbrc =? c_lbrc)%Z with true. cbn [lex_aux].
  rewrite braces_ds by exact H. cbn [lex_aux]. destruct (length ds); reflexivity.
Qed.
Lemma is1_two x a b r : is1 x (a :: b :: r) = false.
Proof. unfold is1. cbn. apply andb_false_r. Qed.
Lemma split_braces k a b r : split c_bar [[c_bslash; k]; [c_lbrc]; a :: b :: r; [c_rbrc]] = [[[c_bslash; k]; [c_lbrc]; a :: b :: r; [c_rbrc]]].
Proof.
  unfold split. cbn [split_aux app]. change (is1 c_bar [c_bslash; k]) with false. change (is1 c_bar [c_lbrc]) with false. rewrite is1_two. reflexivity.
Qed.
Lemma ext_braces a b r : extract_delimited c_lbrc c_rbrc [a :: b :: r; [c_rbrc]] = Some ([a :: b :: r], []).
Proof. unfold extract_delimited. cbn [extract_aux]. rewrite !is1_two. reflexivity. Qed.
Lemma compile_leaf p u : parse p = Some (SimpleV [Simple (Term (TExact u)) []]) -> compile p = Some (Term (TExact u)).
Proof. intro H. unfold compile. rewrite H. cbn. now rewrite str_eqb_refl. Qed.
Lemma compile_hex a b r u : forallb (fun d => negb (d =? c_comma)%Z && negb (d =? c_rbrc)%Z) (a :: b :: r) = true ->
  hex_to_bin (a :: b :: r) = Some u -> u <> [] -> compile (in_braces 120 (a :: b :: r)) = Some (Term (TExact u)).
Proof.
  intros D H N. apply compile_leaf. unfold parse. rewrite lex_braces by exact D. unfold build. rewrite split_braces.
  destruct u as [|x u]; [congruence|].
  cbn [build_branches length helper].
  assert (Cl : classify true [c_bslash; 120%Z] [[c_lbrc]; a :: b :: r; [c_rbrc]] = ULit (exact_node (Some (x :: u))) []).
  { rewrite <- H. transitivity (match extract_delimited c_lbrc c_rbrc [a :: b :: r; [c_rbrc]] with Some ([ds], rest) => ULit (exact_node (hex_to_bin ds)) rest | _ => ULit None [] end); [reflexivity|]. now rewrite ext_braces. }
  rewrite Cl. reflexivity.
Qed.
Lemma compile_oct a b r u : forallb (fun d => negb (d =? c_comma)%Z && negb (d =? c_rbrc)%Z) (a :: b :: r) = true ->
  octal_to_bin (a :: b :: r) = Some u -> u <> [] -> compile (in_braces 111 (a :: b :: r)) = Some (Term (TExact u)).
Proof.
  intros D H N. apply compile_leaf. unfold parse. rewrite lex_braces by exact D. unfold build. rewrite split_braces.
  destruct u as [|x u]; [congruence|].
  cbn [build_branches length helper].
  assert (Cl : classify true [c_bslash; 111%Z] [[c_lbrc]; a :: b :: r; [c_rbrc]] = ULit (exact_node (Some (x :: u))) []).
  { rewrite <- H. transitivity (match extract_delimited c_lbrc c_rbrc [a :: b :: r; [c_rbrc]] with Some ([ds], rest) => ULit (exact_node (octal_to_bin ds)) rest | _ => ULit None [] end); [reflexivity|]. now rewrite ext_braces. }
  rewrite Cl. reflexivity.
Qed.

(** ** Matching a byte string *)
Section Scan.
Variables (u pre w : str) (c : chr) (post : str).
Let e := env_of pre w (c :: post).
Let n := Term (TExact u).
Let at_ (p : nat) : Z := Z.of_nat (length pre + p).
Hypothesis UN : u <> [].
Hypothesis UC : ~ In c (tl u).

Lemma rd_w p : p < length w -> rd e (at_ p) = nth_error w p.
Proof.
  intro H. unfold rd, at_. destruct (Z.ltb_spec (Z.of_nat (length pre + p)) 0); [lia|]. rewrite Nat2Z.id. cbn [buf e env_of].
  rewrite nth_error_app2 by lia. rewrite nth_error_app1 by lia. f_equal. lia.
Qed.
Lemma rd_c : rd e (at_ (length w)) = Some c.
Proof.
  unfold rd, at_. destruct (Z.ltb_spec (Z.of_nat (length pre + length w)) 0); [lia|]. rewrite Nat2Z.id. cbn [buf e env_of].
  rewrite nth_error_app2 by lia. rewrite nth_error_app2 by lia. replace (length pre + length w - length pre - length w) with 0 by lia. reflexivity.
Qed.
Lemma ptr_at p : p <= S (length w) -> ptr_ok e (at_ p) = true.
Proof. intro H. unfold ptr_ok, at_. cbn [buf e env_of]. rewrite !app_length. cbn [length]. lia. Qed.
Lemma at_S p : (at_ p + 1)%Z = at_ (S p).
Proof. unfold at_. lia. Qed.

Definition wordb (v : str) (p : nat) : bool := str_eqb (firstn (length v) (skipn p w)) v.
Lemma wordb_iff v p : wordb v p = true <-> word_at v w p.
Proof. unfold wordb, word_at. split; [apply str_eqb_eq|]. intros ->. apply str_eqb_refl. Qed.
Lemma wordb_cons x v p : p < length w -> wordb (x :: v) p = match nth_error w p with Some y => (y =? x)%Z && wordb v (S p) | None => false end.
Proof.
  intro H. unfold wordb. destruct (nth_error w p) as [y|] eqn:E; [|apply nth_error_None in E; lia].
  assert (K : skipn p w = y :: skipn (S p) w).
  { revert p H E. induction w as [|z w' IH]; intros p H E; [cbn in H; lia|]. destruct p; cbn in *; [congruence|]. apply IH; [lia|exact E]. }
  rewrite K. reflexivity.
Qed.
Lemma loop_at v : forall p st0 s, s_end s = at_ p -> p <= length w -> ~ In c (tl v) -> (p = length w -> ~ In c v) ->
  exact_loop e v st0 s = Ok (if wordb v p then set_end (at_ (p + length v)) s else set_acc false (set_end st0 s)).
Proof.
  induction v as [|x v IH]; intros p st0 s Es Hp Ct Cv.
  - unfold wordb. cbn. rewrite Nat.add_0_r, <- Es. now destruct s.
  - cbn [exact_loop]. rewrite Es. cbn [tl] in Ct. destruct (Nat.eq_dec p (length w)) as [->|Np].
    + rewrite rd_c. destruct (Z.eqb_spec x c) as [->|Ne]; [exfalso; apply (Cv eq_refl); now left|].
      replace (wordb (x :: v) (length w)) with false; [reflexivity|]. unfold wordb. rewrite skipn_all. reflexivity.
    + rewrite rd_w by lia. rewrite wordb_cons by lia. destruct (nth_error w p) as [y|] eqn:E; [|apply nth_error_None in E; lia].
      rewrite Z.eqb_sym. destruct (y =? x)%Z; [|reflexivity]. unfold move. rewrite at_S, ptr_at by lia. cbn [bind andb].
      rewrite (IH (S p)); [| reflexivity | lia | intro X; apply Ct; destruct v; [destruct X|now right] | intros _; exact Ct].
      cbn [length]. replace (p + S (length v)) with (S p + length v) by lia. destruct (wordb v (S p)); reflexivity.
Qed.
Lemma qe_at : qe e = at_ (length w).
Proof. unfold e, at_. cbn [qe env_of]. lia. Qed.
Lemma word_inside v p : v <> [] -> wordb v p = true -> p < length w.
Proof.
  intros V H. apply wordb_iff in H. unfold word_at in H. pose proof (f_equal (@length _) H) as L. rewrite firstn_length, skipn_length in L.
  destruct v; [congruence|]. cbn [length] in L. lia.
Qed.
Lemma word_fits v p : v <> [] -> wordb v p = true -> p + length v <= length w.
Proof.
  intros V H. pose proof (word_inside v p V H). apply wordb_iff in H. unfold word_at in H. pose proof (f_equal (@length _) H) as L. rewrite firstn_length, skipn_length in L. lia.
Qed.
Lemma mt_at p s : s_end s = at_ p -> p <= length w ->
  mt e n [] s = Ok (if wordb u p then set_acc true (set_end (at_ (p + length u)) s) else set_acc false s).
Proof.
  intros Es Hp. cbn [mt n match_term]. unfold guarded. rewrite qe_at, Es.
  destruct (Z.leb_spec (at_ (length w)) (at_ p)).
  - destruct (wordb u p) eqn:W; [|reflexivity]. apply word_inside in W; auto. unfold at_ in *. lia.
  - unfold match_exact. rewrite (loop_at u p); [|exact Es|lia|exact UC|intro; subst p; lia]. destruct s; cbn in *; subst. now destruct (wordb u p).
Qed.

Definition found (i : nat) (s : st) : Prop :=
  (s_acc s = false /\ forall k, i <= k -> wordb u k = false)
  \/ exists k, i <= k /\ wordb u k = true /\ (forall q, i <= q < k -> wordb u q = false)
       /\ s_acc s = true /\ s_start s = at_ k /\ s_end s = at_ (k + length u).
Lemma loop_found : forall fuel i s, length w < fuel + i -> i <= S (length w) -> s_start s = at_ i -> s_end s = at_ i ->
  exists s', next_loop fuel e n s = RDone s' /\ found i s'.
Proof.
  assert (B : forall i, length w <= i -> wordb u i = false) by (intros i H; destruct (wordb u i) eqn:W; auto; apply word_inside in W; auto; lia).
  induction fuel as [|f IH]; intros i s F Hi Es Ee; cbn [next_loop]; rewrite qe_at, Es.
  - destruct (Z.ltb_spec (at_ i) (at_ (length w))); [unfold at_ in *; lia|]. eexists. split; [reflexivity|]. left. split; [reflexivity|]. intros k Hk. apply B. lia.
  - destruct (Z.ltb_spec (at_ i) (at_ (length w))) as [L|L].
    + assert (i < length w) by (unfold at_ in *; lia). rewrite (mt_at i s Ee) by lia. destruct (wordb u i) eqn:W.
      * cbn [s_acc set_acc]. eexists. split; [reflexivity|]. right. exists i. conj; auto. intros q Hq. lia.
      * cbn [s_acc set_acc s_end]. rewrite Ee, at_S, ptr_at by lia.
        destruct (IH (S i) (mkSt (at_ (S i)) (at_ (S i)) (s_grp s) false)) as (s' & E & Fd); try reflexivity; try lia.
        exists s'. split; [exact E|]. destruct Fd as [[A K]|(k & Hk & Wk & Nk & R)].
        -- left. split; [exact A|]. intros k Hk. destruct (Nat.eq_dec k i) as [->|]; [exact W|]. apply K. lia.
        -- right. exists k. conj; auto; try lia; try apply R. intros q Hq. destruct (Nat.eq_dec q i) as [->|]; [exact W|]. apply Nk. lia.
    + eexists. split; [reflexivity|]. left. split; [reflexivity|]. intros k Hk. apply B. unfold at_ in *. lia.
Qed.
Lemma next_found fuel i s : length w < fuel + i -> i <= length w -> s_end s = at_ i -> exists s', next fuel e n s = RDone s' /\ found i s'.
Proof. intros F Hi Es. unfold next. rewrite Es. apply loop_found; auto. Qed.
Lemma create_bytes fuel : length w < fuel -> exists s, create fuel e n = RDone s /\ found 0 s.
Proof.
  intro F. unfold create. assert (E0 : s_end (fresh e n) = at_ 0) by (cbn [fresh s_end e env_of qb]; unfold at_; lia).
  rewrite (mt_at 0 _ E0) by lia. destruct (wordb u 0) eqn:W.
  - cbn [s_acc set_acc]. eexists. split; [reflexivity|]. right. exists 0. cbn [s_start s_end s_acc set_acc set_end fresh e env_of qb]. conj; auto; try (intros q Hq; lia); unfold at_; lia.
  - cbn [s_acc set_acc]. apply next_found; auto; lia.
Qed.
Lemma scanned_from : forall k i s, length w < k + i -> i <= length w -> found i s ->
  exists l, scanned w [u] i l /\ visits e n s (map (fun x => Some (place pre (fst x) (snd x))) l).
Proof.
  induction k as [|k IH]; intros i s F Hi Fd; [lia|].
  destruct Fd as [[A K]|(p & Hp & Wp & Np & A & St & En)].
  - exists []. split; [|now constructor]. apply ScanEnd. intros q v Hq [<-|[]] X. apply wordb_iff in X. rewrite K in X by exact Hq. discriminate.
  - pose proof (word_fits u p UN Wp) as Ft. assert (length u > 0) by (destruct u; [congruence|cbn; lia]).
    destruct (next_found (S (length w)) (p + length u) s) as (s' & E & Fd'); auto; try lia.
    destruct (IH (p + length u) s') as (l & Sc & V); auto; try lia.
    exists ((p, p + length u) :: l). split.
    + apply (ScanWord w [u] i p u [] []); auto.
      * now apply wordb_iff.
      * intros q v Hq [<-|[]] X. apply wordb_iff in X. rewrite Np in X by exact Hq. discriminate.
    + cbn [map fst snd]. replace (Some (place pre p (p + length u))) with (to_view s) by (unfold to_view, is_accepted, place; now rewrite A, St, En).
      econstructor; eauto.
Qed.
End Scan.
