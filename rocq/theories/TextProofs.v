(** Proofs about the text layer (lexer, split, extract, numbers). *)
From Coq Require Import ZArith NArith List Bool Lia ZifyBool ZifyNat ZifyN.
From Verif Require Import Base Text Spec TextSpec.
Import ListNotations.
Open Scope Z_scope.

Lemma str_eqb_eq a b : str_eqb a b = true <-> a = b.
Proof.
  revert b; induction a as [|x a IH]; intros [|y b]; cbn; split; intro H; try congruence; try discriminate.
  - apply andb_true_iff in H as [H1 H2]. apply Z.eqb_eq in H1. apply IH in H2. congruence.
  - injection H as -> ->. rewrite Z.eqb_refl. now apply IH.
Qed.
Lemma is1_eq c t : is1 c t = true <-> t = [c].
Proof. apply str_eqb_eq. Qed.
Lemma is1_neq c t : is1 c t = false <-> t <> [c].
Proof. rewrite <- not_true_iff_false, is1_eq. reflexivity. Qed.
Lemma is1_refl c : is1 c [c] = true. Proof. now apply is1_eq. Qed.

(** ** Lexer *)
Lemma ebn1 cur s toks rest :
  ~ In c_comma cur -> ~ In c_rbrc cur ->
  extract_braces_numbers [cur] s = Some (toks, rest) ->
  (exists n, s = n ++ [c_rbrc] ++ rest /\ ~ In c_comma n /\ ~ In c_rbrc n /\
             toks = [[c_lbrc]; cur ++ n; [c_rbrc]]) \/
  (exists n, s = n ++ [c_comma; c_rbrc] ++ rest /\ ~ In c_comma n /\ ~ In c_rbrc n /\
             toks = [[c_lbrc]; cur ++ n; [c_comma]; [c_rbrc]]) \/
  (exists n m, s = n ++ [c_comma] ++ m ++ [c_rbrc] ++ rest /\ ~ In c_comma n /\ ~ In c_rbrc n /\
             m <> [] /\ ~ In c_rbrc m /\
             toks = [[c_lbrc]; cur ++ n; [c_comma]; m; [c_rbrc]]).
Proof.
  assert (E3 : forall s f g cur rest toks, ~ In c_rbrc cur ->
     extract_braces_numbers [f; g; cur] s = Some (toks, rest) ->
     exists m, s = m ++ [c_rbrc] ++ rest /\ ~ In c_rbrc m /\
               toks = [[c_lbrc]; f; g; cur ++ m; [c_rbrc]]).
  { clear. induction s as [|h s IH]; intros f g cur rest toks Hn H; cbn in H; [discriminate|].
    destruct (Z.eqb_spec h c_rbrc) as [->|Hh].
    - injection H as <- <-. exists []. rewrite app_nil_r. cbn. auto.
    - apply IH in H as (m & -> & Hm & ->).
      + exists (h :: m). cbn. rewrite <- app_assoc. cbn. intuition.
      + intro K. apply in_app_iff in K. cbn in K. intuition. }
  revert cur toks rest; induction s as [|h s IH]; intros cur toks rest Hc Hr H; cbn in H; [discriminate|].
  destruct (Z.eqb_spec h c_comma) as [->|Hh].
  - right. destruct s as [|h s]; [discriminate|]. cbn in H.
    destruct (Z.eqb_spec h c_rbrc) as [->|Hh].
    + injection H as <- <-. left. exists []. rewrite app_nil_r. cbn. auto.
    + apply E3 in H as (m & -> & Hm & ->).
      2:{ cbn. intuition. }
      right. exists [], (h :: m). rewrite app_nil_r. cbn. intuition congruence.
  - destruct (Z.eqb_spec h c_rbrc) as [->|Hh2].
    + injection H as <- <-. left. exists []. rewrite app_nil_r. cbn. auto.
    + apply IH in H.
      2,3: intro K; apply in_app_iff in K; cbn in K; intuition.
      destruct H as [(n & -> & A & B & ->)|[(n & -> & A & B & ->)|(n & m & -> & A & B & C & D & ->)]].
      * left. exists (h :: n). cbn. rewrite <- app_assoc. cbn. intuition.
      * right; left. exists (h :: n). cbn. rewrite <- app_assoc. cbn. intuition.
      * right; right. exists (h :: n), m. cbn. rewrite <- app_assoc. cbn. intuition.
Qed.

Lemma ebn3_run f g cur m rest : ~ In c_rbrc m ->
  extract_braces_numbers [f; g; cur] (m ++ [c_rbrc] ++ rest)
  = Some ([[c_lbrc]; f; g; cur ++ m; [c_rbrc]], rest).
Proof.
  revert cur; induction m as [|h m IH]; intros cur H; cbn [app extract_braces_numbers].
  - rewrite Z.eqb_refl, app_nil_r. reflexivity.
  - destruct (Z.eqb_spec h c_rbrc) as [->|_]; [cbn in H; intuition|].
    rewrite IH by (cbn in H; intuition). rewrite <- app_assoc. reflexivity.
Qed.
Lemma ebn1_walk cur n s : ~ In c_comma n -> ~ In c_rbrc n ->
  extract_braces_numbers [cur] (n ++ s) = extract_braces_numbers [cur ++ n] s.
Proof.
  revert cur; induction n as [|h n IH]; intros cur Hc Hr; cbn [app extract_braces_numbers].
  - now rewrite app_nil_r.
  - destruct (Z.eqb_spec h c_comma) as [->|_]; [cbn in Hc; intuition|].
    destruct (Z.eqb_spec h c_rbrc) as [->|_]; [cbn in Hr; intuition|].
    rewrite IH by (cbn in *; intuition). now rewrite <- app_assoc.
Qed.
Lemma ebn_run1 n s : ~ In c_comma n -> ~ In c_rbrc n ->
  extract_braces_numbers [[]] (n ++ [c_rbrc] ++ s) = Some ([[c_lbrc]; n; [c_rbrc]], s).
Proof. intros. rewrite ebn1_walk by assumption. reflexivity. Qed.
Lemma ebn_run2 n s : ~ In c_comma n -> ~ In c_rbrc n ->
  extract_braces_numbers [[]] (n ++ [c_comma; c_rbrc] ++ s)
  = Some ([[c_lbrc]; n; [c_comma]; [c_rbrc]], s).
Proof. intros. rewrite ebn1_walk by assumption. reflexivity. Qed.
Lemma ebn_run3 n m s : ~ In c_comma n -> ~ In c_rbrc n -> m <> [] -> ~ In c_rbrc m ->
  extract_braces_numbers [[]] (n ++ [c_comma] ++ m ++ [c_rbrc] ++ s)
  = Some ([[c_lbrc]; n; [c_comma]; m; [c_rbrc]], s).
Proof.
  intros Hc Hr Hm Hm2. rewrite ebn1_walk by assumption. cbn [app extract_braces_numbers Z.eqb].
  destruct m as [|h m]; [congruence|]. cbn [app extract_braces_numbers].
  replace (c_comma =? c_comma) with true by reflexivity.
  destruct (Z.eqb_spec h c_rbrc) as [->|_]; [cbn in Hm2; intuition|].
  change (c_rbrc :: s) with ([c_rbrc] ++ s).
  rewrite ebn3_run by (cbn in Hm2; intuition). reflexivity.
Qed.
Lemma ebn_none cur s : extract_braces_numbers [cur] s = None -> ~ In c_rbrc s.
Proof.
  assert (E3 : forall s f g cur, extract_braces_numbers [f; g; cur] s = None -> ~ In c_rbrc s).
  { clear. induction s as [|h s IH]; intros f g cur H; cbn in *; [tauto|].
    destruct (Z.eqb_spec h c_rbrc) as [->|Hh]; [discriminate|].
    apply IH in H. intuition. }
  revert cur; induction s as [|h s IH]; intros cur H; cbn in *; [tauto|].
  destruct (Z.eqb_spec h c_comma) as [->|Hh].
  - destruct s as [|h s]; cbn in *; [unfold c_comma, c_rbrc; intuition lia|].
    destruct (Z.eqb_spec h c_rbrc) as [->|Hh2]; [discriminate|].
    apply E3 in H. unfold c_comma, c_rbrc in *; intuition lia.
  - destruct (Z.eqb_spec h c_rbrc) as [->|Hh2]; [discriminate|].
    apply IH in H. intuition.
Qed.

Lemma ebn_shorter s toks rest :
  extract_braces_numbers [[]] s = Some (toks, rest) -> (length rest < length s)%nat.
Proof.
  intro H. apply ebn1 in H; try (cbn; tauto).
  destruct H as [(n & -> & _)|[(n & -> & _)|(n & m & -> & _)]];
    rewrite ?app_length; cbn [length app]; rewrite ?app_length; cbn [length app]; rewrite ?app_length; cbn [length app]; lia.
Qed.

Lemma lex_aux_lexed : forall fuel p ts, lex_aux fuel p = Some ts -> lexed p ts.
Proof.
  induction fuel as [|f IH]; intros p ts H; cbn in H.
  - destruct p; [injection H as <-; constructor|discriminate].
  - destruct p as [|h tl]; [injection H as <-; constructor|].
    destruct (Z.eqb_spec h c_lbrc) as [->|Hh].
    + destruct (extract_braces_numbers [[]] tl) as [[toks rest]|] eqn:E; [|discriminate].
      destruct (lex_aux f rest) as [r|] eqn:L; [|discriminate]. injection H as <-.
      apply IH in L. apply ebn1 in E; try (cbn; tauto).
      destruct E as [(n & -> & A & B & ->)|[(n & -> & A & B & ->)|(n & m & -> & A & B & C & D & ->)]].
      * now apply LexB1. * now apply LexB2. * now apply LexB3.
    + destruct tl as [|c tl'].
      * destruct (lex_aux f []) as [r|] eqn:L; [|discriminate]. injection H as <-.
        apply LexChr; auto.
      * destruct (Z.eqb_spec h c_bslash) as [->|Hb].
        -- destruct (lex_aux f tl') as [r|] eqn:L; [|discriminate]. injection H as <-.
           apply LexEsc; auto.
        -- destruct (lex_aux f (c :: tl')) as [r|] eqn:L; [|discriminate]. injection H as <-.
           apply LexChr; auto.
Qed.
Lemma lexed_lex_aux p ts : lexed p ts -> forall fuel, (length p <= fuel)%nat -> lex_aux fuel p = Some ts.
Proof.
  induction 1 as [|c p ts H IH|c p ts Hc Hb H IH|n p ts A B H IH|n p ts A B H IH|n m p ts A B C D H IH];
    intros fuel Hf.
  - destruct fuel; reflexivity.
  - destruct fuel as [|f]; cbn in Hf; [lia|]. cbn. rewrite IH by lia. reflexivity.
  - destruct fuel as [|f]; cbn in Hf; [lia|]. cbn.
    destruct (Z.eqb_spec c c_lbrc); [contradiction|].
    destruct p as [|d p].
    + rewrite IH by (cbn; lia). reflexivity.
    + destruct Hb as [Hb|]; [|discriminate].
      destruct (Z.eqb_spec c c_bslash); [contradiction|].
      rewrite IH by (cbn in *; lia). reflexivity.
  - rewrite !app_length in Hf; cbn in Hf. destruct fuel as [|f]; [lia|].
    cbn [app lex_aux]. rewrite Z.eqb_refl. change (c_rbrc :: p) with ([c_rbrc] ++ p).
    rewrite ebn_run1 by assumption. rewrite IH by lia. reflexivity.
  - rewrite !app_length in Hf; cbn in Hf. destruct fuel as [|f]; [lia|].
    cbn [app lex_aux]. rewrite Z.eqb_refl. change (c_comma :: c_rbrc :: p) with ([c_comma; c_rbrc] ++ p).
    rewrite ebn_run2 by assumption. rewrite IH by lia. reflexivity.
  - rewrite !app_length in Hf; cbn in Hf.
    destruct fuel as [|f]; [lia|].
    cbn [app lex_aux]. rewrite Z.eqb_refl.
    change (c_comma :: m ++ c_rbrc :: p) with ([c_comma] ++ m ++ [c_rbrc] ++ p).
    rewrite ebn_run3 by assumption. rewrite IH by lia. reflexivity.
Qed.
Lemma lex_iff p ts : lex p = Some ts <-> lexed p ts.
Proof.
  split; [apply lex_aux_lexed|]. intro H. now apply (lexed_lex_aux p ts H).
Qed.
Lemma lexed_concat p ts : lexed p ts -> concat ts = p.
Proof. induction 1; cbn in *; rewrite ?IHlexed; rewrite <- ?app_assoc; cbn; auto; congruence. Qed.
Lemma lex_none_iff p : lex p = None <-> unclosed p.
Proof.
  split.
  - unfold lex. assert (G : forall f q, (length q <= f)%nat -> lex_aux f q = None -> unclosed q).
    { induction f as [|f IH]; intros q Hq H; cbn in H.
      - destruct q; [discriminate|cbn in Hq; lia].
      - destruct q as [|h tl]; [discriminate|]. cbn in Hq.
        destruct (Z.eqb_spec h c_lbrc) as [->|Hh].
        + destruct (extract_braces_numbers [[]] tl) as [[toks rest]|] eqn:E.
          * destruct (lex_aux f rest) eqn:L; [discriminate|].
            pose proof (ebn_shorter _ _ _ E). apply IH in L; [|lia].
            apply ebn1 in E; try (cbn; tauto).
            destruct E as [(n & -> & A & B & ->)|[(n & -> & A & B & ->)|(n & m & -> & A & B & C & D & ->)]].
            -- now apply UnB.
            -- change (c_lbrc :: n ++ [c_comma; c_rbrc] ++ rest) with ([c_lbrc] ++ n ++ [c_comma; c_rbrc] ++ rest).
               replace ([c_lbrc] ++ n ++ [c_comma; c_rbrc] ++ rest)
                 with ([c_lbrc] ++ (n ++ [c_comma]) ++ [c_rbrc] ++ rest)
                 by (rewrite <- app_assoc; reflexivity).
               apply UnB; [|assumption]. rewrite in_app_iff; cbn. unfold c_comma, c_rbrc in *; intuition lia.
            -- replace (c_lbrc :: n ++ [c_comma] ++ m ++ [c_rbrc] ++ rest)
                 with ([c_lbrc] ++ (n ++ [c_comma] ++ m) ++ [c_rbrc] ++ rest)
                 by (rewrite <- !app_assoc; reflexivity).
               apply UnB; [|assumption]. rewrite !in_app_iff; cbn. unfold c_comma, c_rbrc in *; intuition lia.
          * apply UnHere. eapply ebn_none; eassumption.
        + destruct tl as [|c tl'].
          * destruct f; discriminate.
          * destruct (Z.eqb_spec h c_bslash) as [->|Hb].
            -- destruct (lex_aux f tl') eqn:L; [discriminate|]. apply UnEsc. apply IH; auto. cbn in Hq; lia.
            -- destruct (lex_aux f (c :: tl')) eqn:L; [discriminate|]. apply UnChr; auto. apply IH; auto; lia. }
    apply G. lia.
  - intro U. destruct (lex p) as [ts|] eqn:E; [|reflexivity]. exfalso. apply lex_iff in E.
    revert ts E. induction U as [p Hp|c p U IH|c p H1 H2 U IH|n p Hn U IH]; intros ts L.
    + inversion L; subst; try discriminate; try congruence;
        apply Hp; rewrite ?in_app_iff; cbn; rewrite ?in_app_iff; cbn; auto 10.
    + inversion L; subst.
      * eapply IH; eassumption.
      * match goal with H : _ \/ _ |- _ => destruct H; [congruence|discriminate] end.
    + inversion L; subst; try congruence; eapply IH; eassumption.
    + assert (Key : forall a b x y, ~ In c_rbrc a -> ~ In c_rbrc x ->
          a ++ [c_rbrc] ++ b = x ++ [c_rbrc] ++ y -> a = x /\ b = y).
      { clear. induction a as [|h a IHa]; intros b [|h2 x] y Ha Hx E; cbn in *.
        - injection E as ->; auto.
        - injection E as <- _. intuition.
        - injection E as -> _. intuition.
        - injection E as -> E. apply IHa in E as [-> ->]; intuition. }
      inversion L as [|? ? ? ? E1|? ? ? Hc ? ? E1|n' p' ts' A B Hl E1|n' p' ts' A B Hl E1|n' m' p' ts' A B C D Hl E1]; subst.
      * congruence.
      * change (n ++ c_rbrc :: p) with (n ++ [c_rbrc] ++ p) in E1.
        change (n' ++ c_rbrc :: p') with (n' ++ [c_rbrc] ++ p') in E1.
        apply Key in E1 as [-> ->]; auto. eapply IH; eassumption.
      * replace (n' ++ c_comma :: c_rbrc :: p') with ((n' ++ [c_comma]) ++ [c_rbrc] ++ p') in E1
          by (rewrite <- app_assoc; reflexivity).
        apply Key in E1 as [_ ->]; auto; [eapply IH; eassumption|].
        rewrite in_app_iff; cbn. unfold c_comma, c_rbrc in *; intuition lia.
      * replace (n' ++ c_comma :: m' ++ c_rbrc :: p') with ((n' ++ [c_comma] ++ m') ++ [c_rbrc] ++ p') in E1
          by (rewrite <- !app_assoc; reflexivity).
        apply Key in E1 as [_ ->]; auto; [eapply IH; eassumption|].
        rewrite !in_app_iff; cbn. unfold c_comma, c_rbrc in *; intuition lia.
Qed.

(** ** balanced and split *)
Lemma join_cons sep b r : r <> [] -> join sep (b :: r) = b ++ [[sep]] ++ join sep r.
Proof. destruct r; [congruence|reflexivity]. Qed.
Lemma join_snoc2 sep l a b : join sep (l ++ [a; b]) = join sep (l ++ [a ++ [[sep]] ++ b]).
Proof.
  induction l as [|x l IH]; [reflexivity|].
  cbn [app]. rewrite !join_cons by (destruct l; discriminate). now rewrite IH.
Qed.
Lemma split_aux_join sep ts : forall cur done,
  join sep (split_aux sep ts cur done) = join sep (rev done ++ [cur ++ ts]).
Proof.
  induction ts as [|t ts IH]; intros cur done; cbn [split_aux].
  - now rewrite app_nil_r.
  - destruct (is1 sep t && balanced ts && balanced cur) eqn:E.
    + apply andb_true_iff in E as [E _]. apply andb_true_iff in E as [E _].
      apply is1_eq in E as ->. rewrite IH. cbn [rev app].
      rewrite <- app_assoc. cbn [app]. rewrite join_snoc2. reflexivity.
    + rewrite IH. now rewrite <- app_assoc.
Qed.
Lemma split_join sep ts : join sep (split sep ts) = ts.
Proof. apply split_aux_join. Qed.
Lemma split_aux_nonempty sep ts : forall cur done, split_aux sep ts cur done <> [].
Proof.
  induction ts as [|t ts IH]; intros cur done; cbn [split_aux].
  - cbn. destruct (rev done); discriminate.
  - destruct (_ && _); apply IH.
Qed.

Lemma ordinary_step t stk : ordinary t -> bal_step stk t = stk.
Proof.
  intro H. unfold bal_step.
  assert (K : forall c, In c bracket_chars -> is1 c t = false) by (intros; apply is1_neq; auto).
  rewrite !K by (cbn; tauto). cbn. destruct stk; reflexivity.
Qed.
Lemma open_step o c stk : In (o, c) brackets -> bal_step stk [o] = o :: stk.
Proof. cbn. intros [E|[E|[E|[]]]]; injection E as <- <-; reflexivity. Qed.
Lemma close_step o c stk : In (o, c) brackets -> bal_step (o :: stk) [c] = stk.
Proof. cbn. intros [E|[E|[E|[]]]]; injection E as <- <-; reflexivity. Qed.

Lemma bal_run_app stk a b : bal_run stk (a ++ b) = bal_run (bal_run stk a) b.
Proof. apply fold_left_app. Qed.
Lemma bal_run_cons stk t b : bal_run stk (t :: b) = bal_run (bal_step stk t) b.
Proof. reflexivity. Qed.
Lemma bal_run_snoc stk a t : bal_run stk (a ++ [t]) = bal_step (bal_run stk a) t.
Proof. now rewrite bal_run_app. Qed.

Lemma nested_run a : nested a -> forall stk, bal_run stk a = stk.
Proof.
  induction 1 as [|t ts Ho H IH|o c a b Hin Ha IHa Hb IHb]; intro stk.
  - reflexivity.
  - now rewrite bal_run_cons, ordinary_step.
  - rewrite bal_run_app, (bal_run_cons stk [o] a), (open_step o c) by assumption.
    now rewrite IHa, bal_run_cons, (close_step o c).
Qed.
Lemma nested_balanced a : nested a -> balanced a = true.
Proof. intro H. unfold balanced. now rewrite nested_run. Qed.
Lemma nested_app a b : nested a -> nested b -> nested (a ++ b).
Proof.
  intros Ha Hb. induction Ha as [|t ts Ho H IH|o c x y Hin Hx IHx Hy IHy]; cbn; auto.
  - now constructor.
  - rewrite <- app_assoc. cbn. change (nested (([o] :: x) ++ [c] :: (y ++ b))). now constructor.
Qed.

Lemma bracket_run o c x stk : In (o, c) brackets -> nested x ->
  bal_run (bal_run (bal_run stk [[o]]) x) [[c]] = stk.
Proof.
  intros Hin Hx. rewrite (nested_run x) by assumption.
  change (bal_step (bal_step stk [o]) [c] = stk).
  now rewrite (open_step o c), (close_step o c).
Qed.

Section Split.
Variable sep : chr.
Hypothesis Hsep : ~ In sep bracket_chars.

Lemma sep_ordinary : ordinary [sep].
Proof. intros c Hc E. injection E as ->. contradiction. Qed.
Lemma sep_not_open o c : In (o, c) brackets -> is1 sep [o] = false /\ is1 sep [c] = false.
Proof.
  intro H. rewrite !is1_neq. split; intro E; injection E as ->; apply Hsep;
  cbn in *; intuition; match goal with H : (_, _) = _ |- _ => injection H as <- <- end; cbn; tauto.
Qed.

Lemma walk_inside a : nested a -> forall cur ts done,
  bal_run [] cur <> [] ->
  split_aux sep (a ++ ts) cur done = split_aux sep ts (cur ++ a) done.
Proof.
  induction 1 as [|t tl Ho H IH|o c x y Hin Hx IHx Hy IHy]; intros cur ts done Hcur.
  - now rewrite app_nil_r.
  - cbn [app split_aux]. replace (balanced cur) with false
      by (unfold balanced; destruct (bal_run [] cur); [congruence|reflexivity]).
    rewrite andb_false_r. rewrite IH.
    + now rewrite <- app_assoc.
    + now rewrite bal_run_snoc, ordinary_step.
  - destruct (sep_not_open o c Hin) as [E1 E2].
    cbn [app split_aux]. rewrite E1. cbn [andb].
    rewrite <- app_assoc. rewrite IHx.
    2:{ rewrite bal_run_snoc, (open_step o c) by assumption. discriminate. }
    cbn [app split_aux]. rewrite E2. cbn [andb]. rewrite IHy.
    + rewrite <- !app_assoc. reflexivity.
    + rewrite !bal_run_app, (bracket_run o c) by assumption. assumption.
Qed.
Lemma walk_flat b : flat sep b -> forall cur ts done,
  bal_run [] cur = [] ->
  split_aux sep (b ++ ts) cur done = split_aux sep ts (cur ++ b) done
  /\ bal_run [] (cur ++ b) = [].
Proof.
  induction 1 as [|t tl Ho Ht H IH|o c x y Hin Hx Hy IHy]; intros cur ts done Hcur.
  - now rewrite app_nil_r.
  - cbn [app split_aux]. apply is1_neq in Ht. rewrite Ht. cbn [andb].
    destruct (IH (cur ++ [t]) ts done) as [-> E].
    + now rewrite bal_run_snoc, ordinary_step.
    + rewrite <- app_assoc in *. auto.
  - destruct (sep_not_open o c Hin) as [E1 E2].
    cbn [app split_aux]. rewrite E1. cbn [andb].
    rewrite <- app_assoc. rewrite walk_inside; auto.
    2:{ rewrite bal_run_snoc, (open_step o c) by assumption. discriminate. }
    cbn [app split_aux]. rewrite E2. cbn [andb].
    destruct (IHy (((cur ++ [[o]]) ++ x) ++ [[c]]) ts done) as [-> E].
    + rewrite !bal_run_app, (bracket_run o c) by assumption. assumption.
    + rewrite <- !app_assoc in *. auto.
Qed.
Lemma flat_nested b : flat sep b -> nested b.
Proof. induction 1; [constructor|now constructor|now constructor]. Qed.
Lemma join_nested bs : Forall (flat sep) bs -> nested (join sep bs).
Proof.
  induction 1 as [|b r Hb Hr IH]; [constructor|].
  destruct r as [|b2 r]; [now apply flat_nested|].
  rewrite join_cons by discriminate. apply nested_app; [now apply flat_nested|].
  apply (NestTok [sep]); [apply sep_ordinary|]. exact IH.
Qed.
Lemma split_flat_join bs : bs <> [] -> Forall (flat sep) bs -> split sep (join sep bs) = bs.
Proof.
  intros Hn HF. unfold split.
  assert (G : forall done, split_aux sep (join sep bs) [] done = rev done ++ bs); [|now rewrite G].
  induction HF as [|b r Hb Hr IH]; [congruence|]. clear Hn. intro done.
  destruct r as [|b2 r].
  - cbn [join]. destruct (walk_flat b Hb [] [] done eq_refl) as [E _].
    rewrite app_nil_r in E. rewrite E. cbn. reflexivity.
  - rewrite join_cons by discriminate.
    destruct (walk_flat b Hb [] ([[sep]] ++ join sep (b2 :: r)) done eq_refl) as [-> E].
    cbn [app split_aux]. rewrite is1_refl.
    rewrite nested_balanced by (now apply join_nested).
    replace (balanced b) with true by (unfold balanced; cbn [app] in E; rewrite E; reflexivity).
    cbn [andb]. rewrite IH by discriminate. cbn [rev]. now rewrite <- app_assoc.
Qed.
Lemma nested_is_join ts : nested ts -> exists bs, bs <> [] /\ Forall (flat sep) bs /\ ts = join sep bs.
Proof.
  induction 1 as [|t tl Ho H IH|o c x y Hin Hx _ Hy IHy].
  - exists [[]]. repeat split; [discriminate|constructor; constructor].
  - destruct IH as (bs & Hn & HF & ->).
    destruct (is1 sep t) eqn:E.
    + apply is1_eq in E as ->. exists ([] :: bs). repeat split; [discriminate| |].
      * constructor; [constructor|assumption].
      * now rewrite join_cons.
    + apply is1_neq in E. destruct bs as [|b r]; [congruence|]. inversion HF; subst.
      exists ((t :: b) :: r). repeat split; [discriminate| |].
      * constructor; [now constructor|assumption].
      * destruct r; reflexivity.
  - destruct IHy as (bs & Hn & HF & ->). destruct bs as [|b r]; [congruence|]. inversion HF; subst.
    exists ((([o] :: x) ++ [c] :: b) :: r). repeat split; [discriminate| |].
    + constructor; [now constructor|assumption].
    + destruct r; [reflexivity|]. cbn. now rewrite <- !app_assoc.
Qed.
Lemma split_nested_flat ts : nested ts -> Forall (flat sep) (split sep ts).
Proof.
  intro H. apply nested_is_join in H as (bs & Hn & HF & ->).
  now rewrite split_flat_join.
Qed.
End Split.

(** ** extract_delimited *)
Lemma extract_walk op cl a : op <> cl -> dyck op cl a -> forall k cur ts,
  extract_aux op cl k cur (a ++ ts) = extract_aux op cl k (cur ++ a) ts.
Proof.
  intro Hne. induction 1 as [|t tl Ho Hc H IH|x y Hx IHx Hy IHy]; intros k cur ts.
  - now rewrite app_nil_r.
  - cbn [app extract_aux]. apply is1_neq in Ho, Hc. rewrite Ho, Hc, IH, <- app_assoc. reflexivity.
  - cbn [app extract_aux].
    assert (E : is1 cl [op] = false) by (apply is1_neq; congruence).
    rewrite E, is1_refl, <- app_assoc, IHx. cbn [app extract_aux].
    rewrite is1_refl, IHy. f_equal. now rewrite <- !app_assoc.
Qed.
Lemma extract_content op cl a rest : op <> cl -> dyck op cl a ->
  extract_delimited op cl (a ++ [[cl]] ++ rest) = Some (a, rest).
Proof.
  intros Hne H. unfold extract_delimited. rewrite (extract_walk op cl a) by assumption.
  cbn [app extract_aux]. now rewrite is1_refl.
Qed.
Lemma dyck_app op cl a b : dyck op cl a -> dyck op cl b -> dyck op cl (a ++ b).
Proof.
  intros Ha Hb; induction Ha; cbn; auto.
  - now constructor.
  - rewrite <- app_assoc. cbn. change (dyck op cl (([op] :: a) ++ [cl] :: (b0 ++ b))). now constructor.
Qed.
(** [k] closers are still owed before the final one. *)
Inductive owes (op cl : chr) : nat -> list str -> Prop :=
| Owes0 a : dyck op cl a -> owes op cl 0 a
| OwesS k a b : dyck op cl a -> owes op cl k b -> owes op cl (S k) (a ++ [cl] :: b).
Lemma owes_tok op cl k t ts : t <> [op] -> t <> [cl] -> owes op cl k ts -> owes op cl k (t :: ts).
Proof.
  intros H1 H2 H. destruct H as [a Ha|k a b Ha Hb].
  - constructor. now constructor.
  - change (owes op cl (S k) ((t :: a) ++ [cl] :: b)). constructor; [now constructor|assumption].
Qed.
Lemma owes_open op cl k ts : owes op cl (S k) ts -> owes op cl k ([op] :: ts).
Proof.
  intro H. inversion H as [|k' a b Ha Hb]; subst.
  inversion Hb as [a2 Ha2|k'' a2 b2 Ha2 Hb2]; subst.
  - constructor. change (dyck op cl (([op] :: a) ++ [cl] :: b)). now constructor.
  - change ([op] :: a ++ [cl] :: a2 ++ [cl] :: b2) with (([op] :: a) ++ [cl] :: (a2 ++ [cl] :: b2)).
    replace (([op] :: a) ++ [cl] :: (a2 ++ [cl] :: b2)) with ((([op] :: a) ++ [cl] :: a2) ++ [cl] :: b2)
      by (rewrite <- app_assoc; reflexivity).
    constructor; [now constructor|assumption].
Qed.
Lemma extract_inv op cl : op <> cl -> forall ts k cur c r,
  extract_aux op cl k cur ts = Some (c, r) ->
  (exists a, c = cur ++ a /\ ts = a ++ [[cl]] ++ r /\ owes op cl k a)
  \/ (k = 0%nat \/ True) /\ c = [] /\ r = [] /\ owes op cl k ts.
Proof.
  intro Hne. induction ts as [|t ts IH]; intros k cur c r H; cbn in H.
  - destruct k; [|discriminate]. injection H as <- <-. right. repeat split; auto. constructor. constructor.
  - destruct (is1 cl t) eqn:Ec.
    + apply is1_eq in Ec as ->. destruct k as [|k].
      * injection H as <- <-. left. exists []. rewrite app_nil_r. repeat split. constructor; constructor.
      * apply IH in H as [(a & -> & -> & Ho)|(_ & -> & -> & Ho)].
        -- left. exists ([cl] :: a). rewrite <- app_assoc. repeat split.
           change ([cl] :: a) with ([] ++ [cl] :: a). constructor; [constructor|assumption].
        -- right. repeat split; auto.
           change ([cl] :: ts) with ([] ++ [cl] :: ts). constructor; [constructor|assumption].
    + destruct (is1 op t) eqn:Eo.
      * apply is1_eq in Eo as ->.
        apply IH in H as [(a & -> & -> & Ho)|(_ & -> & -> & Ho)].
        -- left. exists ([op] :: a). rewrite <- app_assoc. repeat split. now apply owes_open.
        -- right. repeat split; auto. now apply owes_open.
      * apply is1_neq in Ec, Eo.
        apply IH in H as [(a & -> & -> & Ho)|(_ & -> & -> & Ho)].
        -- left. exists (t :: a). rewrite <- app_assoc. repeat split. now apply owes_tok.
        -- right. repeat split; auto. now apply owes_tok.
Qed.
Lemma owes0 op cl a : owes op cl 0 a -> dyck op cl a.
Proof. inversion 1; assumption. Qed.
Lemma extract_sound op cl ts c r : op <> cl ->
  extract_delimited op cl ts = Some (c, r) ->
  (ts = c ++ [[cl]] ++ r /\ dyck op cl c) \/ (c = [] /\ r = [] /\ dyck op cl ts).
Proof.
  intros Hne H. apply extract_inv in H as [(a & -> & -> & Ho)|(_ & -> & -> & Ho)]; auto.
  - left. split; [reflexivity|now apply owes0].
  - right. repeat split. now apply owes0.
Qed.

(** ** Numbers *)
Lemma ten_power_pos k : 0 < ten_power k.
Proof. induction k as [|k IH]; cbn [ten_power]; lia. Qed.
Lemma fold_horner ds : forall acc,
  fold_left (fun a d => 10 * a + d) ds acc = acc * ten_power (length ds) + num_val ds.
Proof.
  unfold num_val. induction ds as [|d ds IH]; intro acc; cbn [fold_left length ten_power].
  - cbn; lia.
  - rewrite IH, (IH (10 * 0 + d)). lia.
Qed.
Lemma num_val_cons d ds : num_val (d :: ds) = d * ten_power (length ds) + num_val ds.
Proof. unfold num_val at 1. cbn [fold_left]. rewrite fold_horner. lia. Qed.
Lemma num_val_snoc ds d : num_val (ds ++ [d]) = 10 * num_val ds + d.
Proof. unfold num_val. now rewrite fold_left_app. Qed.
Lemma digits_value_show ds : digits_value (show_num ds) = num_val ds.
Proof.
  induction ds as [|d ds IH]; [reflexivity|].
  rewrite num_val_cons. cbn [show_num map digits_value] in *. fold (show_num ds). rewrite IH.
  unfold show_num. rewrite map_length. unfold digit_chr. lia.
Qed.
Lemma number_of_show ds : pack_string_to_number (show_num ds) = Z.to_N (num_val ds mod 4294967296).
Proof. unfold pack_string_to_number. now rewrite digits_value_show. Qed.
Lemma num_val_nonneg ds : Forall (fun d => 0 <= d <= 9) ds -> 0 <= num_val ds.
Proof.
  induction 1 as [|d ds Hd H IH]; [cbn; lia|]. rewrite num_val_cons.
  pose proof (ten_power_pos (length ds)). nia.
Qed.
Lemma number_of_show_small ds : Forall (fun d => 0 <= d <= 9) ds -> num_val ds < 4294967296 ->
  pack_string_to_number (show_num ds) = Z.to_N (num_val ds).
Proof.
  intros H1 H2. rewrite number_of_show. pose proof (num_val_nonneg ds H1).
  now rewrite Z.mod_small by lia.
Qed.

Definition canonical (ds : list Z) : Prop :=
  ds <> [] /\ Forall (fun d => 0 <= d <= 9) ds /\ (hd 0 ds = 0 -> ds = [0]).
Lemma ntps_aux fuel n cur :
  (n < 10 ^ N.of_nat fuel)%N ->
  exists ds, number_to_str_aux fuel n (show_num cur) = show_num (ds ++ cur)
   /\ Forall (fun d => 0 <= d <= 9) ds /\ num_val ds = Z.of_N n /\ (n <> 0%N -> ds <> [] /\ hd 0 ds <> 0).
Proof.
  revert n cur; induction fuel as [|f IH]; intros n cur Hn.
  - cbn in Hn. exists []. cbn. repeat split; auto; lia.
  - cbn [number_to_str_aux]. destruct (N.eqb_spec n 0) as [->|Hz].
    + exists []. cbn. repeat split; auto; congruence.
    + set (q := (n / 10)%N). assert (Hq : (n = 10 * q + (n - q * 10) /\ n - q * 10 < 10)%N).
      { unfold q. pose proof (N.div_mod n 10). pose proof (N.mod_lt n 10). lia. }
      destruct (IH q ((Z.of_N (n - q * 10)) :: cur)) as (ds & E & HF & Hv & Hh).
      { rewrite Nat2N.inj_succ, N.pow_succ_r' in Hn. lia. }
      exists (ds ++ [Z.of_N (n - q * 10)]). repeat split.
      * cbn in E |- *. rewrite <- app_assoc. exact E.
      * apply Forall_app. split; [assumption|]. constructor; [lia|constructor].
      * rewrite num_val_snoc, Hv. lia.
      * destruct ds; discriminate.
      * destruct (N.eq_dec q 0) as [Eq|Nq].
        -- destruct ds as [|d ds]; cbn; [lia|]. 
           (* q = 0 : ds has value 0 and is empty by construction *)
           exfalso. clear Hh. rewrite Eq in E, Hv.
           assert (L : number_to_str_aux f 0 (show_num (Z.of_N (n - 0 * 10) :: cur))
                       = show_num (Z.of_N (n - 0 * 10) :: cur)) by (destruct f; reflexivity).
           rewrite L in E. apply (f_equal (@length Z)) in E. unfold show_num in E.
           rewrite !map_length, app_length in E. cbn in E. lia.
        -- destruct (Hh Nq) as [Hd Hd2]. destruct ds; [congruence|]. exact Hd2.
Qed.
Lemma number_to_pack_string_ok n : (n < 4294967296)%N ->
  exists ds, number_to_pack_string n = show_num ds /\ canonical ds /\ num_val ds = Z.of_N n.
Proof.
  intro H. unfold number_to_pack_string, canonical. destruct (N.eqb_spec n 0) as [->|Hz].
  - exists [0]. repeat split; try discriminate. constructor; [lia|constructor].
  - destruct (ntps_aux 10 n []) as (ds & E & HF & Hv & Hh).
    { change (10 ^ N.of_nat 10)%N with 10000000000%N. lia. }
    rewrite app_nil_r in E. exists ds. destruct (Hh Hz). repeat split; auto. congruence.
Qed.
