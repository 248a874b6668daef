(** Parsing: build (lex (show r)) is the tree of r, for every well-formed pattern. *)
From Coq Require Import ZArith NArith List Bool Lia ZifyBool ZifyNat ZifyN.
From Verif Require Import Base Text Ast Builder Spec TextSpec TextProofs Tree.
Import ListNotations.
Open Scope Z_scope.

(** ** Lexing *)
Definition lx (p : str) (ts : list str) : Prop :=
  forall q us, lexed q us -> lexed (p ++ q) (ts ++ us).
Lemma lx_nil : lx [] [].
Proof. intros q us H. exact H. Qed.
Lemma lx_app p ts q us : lx p ts -> lx q us -> lx (p ++ q) (ts ++ us).
Proof. intros H1 H2 r vs H. rewrite <- !app_assoc. apply H1, H2, H. Qed.
Lemma lx_chr c : c <> c_lbrc -> c <> c_bslash -> lx [c] [[c]].
Proof. intros H1 H2 q us H. now apply LexChr; [|left|]. Qed.
Lemma lx_esc c : lx [c_bslash; c] [[c_bslash; c]].
Proof. intros q us H. now apply LexEsc. Qed.
Lemma lx_lexed p ts : lx p ts -> lexed p ts.
Proof. intro H. specialize (H [] [] LexNil). now rewrite !app_nil_r in H. Qed.

Lemma existsb_neq c l x : existsb (Z.eqb c) l = false -> In x l -> c <> x.
Proof.
  intros H Hin ->. assert (E : existsb (Z.eqb x) l = true); [|congruence].
  apply existsb_exists. exists x. split; [assumption|apply Z.eqb_refl].
Qed.
Lemma plain_neq c x : plain c = true -> special x = true -> c <> x.
Proof. unfold plain. intros H S ->. rewrite S in H. now rewrite andb_comm in H. Qed.
Lemma class_plain_neq c x : class_plain c = true -> class_special x = true -> c <> x.
Proof. unfold class_plain. intros H S ->. rewrite S in H. now rewrite andb_comm in H. Qed.
Lemma escapable_neq c x : escapable c = true -> (is_digit x || existsb (Z.eqb x) [120; 111; 68; 87; 83; 78])%bool = true -> c <> x.
Proof.
  unfold escapable. intros H S ->. destruct (is_digit x); cbn [negb] in H; rewrite ?andb_false_r in H; [discriminate|].
  cbn in S. cbn in H. rewrite S in H. now rewrite andb_comm in H.
Qed.

Lemma lx_citem i : citem_ok i = true -> lx (show_citem i) (toks_citem i).
Proof.
  destruct i as [c|a b|c]; cbn [citem_ok show_citem toks_citem]; intro H.
  - apply lx_chr; apply (class_plain_neq _ _ H); reflexivity.
  - rewrite !andb_true_iff in H. destruct H as [[A B] _].
    apply (lx_app [a] [[a]]); [apply lx_chr; now apply (class_plain_neq _ _ A)|].
    apply (lx_app [c_dash] [[c_dash]]); [apply lx_chr; discriminate|].
    apply lx_chr; now apply (class_plain_neq _ _ B).
  - apply lx_esc.
Qed.
Lemma lx_citems l : forallb citem_ok l = true -> lx (flat_map show_citem l) (flat_map toks_citem l).
Proof.
  induction l as [|i l IH]; cbn; [intros; apply lx_nil|]. intro H. apply andb_true_iff in H as [A B].
  apply lx_app; [now apply lx_citem|now apply IH].
Qed.
Lemma hex_dec d : digit_ok 10 d = true -> hex_chr d = d + 48.
Proof. unfold digit_ok, hex_chr. intro H. destruct (Z.ltb_spec d 10); lia. Qed.
Lemma lx_elem x : elem_ok x = true -> lx (show_elem x) (toks_elem x).
Proof.
  destruct x as [c|c| |neg items|a b c|a b]; cbn [elem_ok show_elem toks_elem]; intro H.
  - apply lx_chr; apply (plain_neq _ _ H); reflexivity.
  - apply lx_esc.
  - apply lx_chr; discriminate.
  - apply andb_true_iff in H as [H _].
    apply lx_app; [apply lx_chr; discriminate|].
    apply lx_app; [destruct neg; [apply lx_chr; discriminate|apply lx_nil]|].
    apply lx_app; [now apply lx_citems|apply lx_chr; discriminate].
  - unfold digit_ok in H. apply (lx_app [c_bslash; digit_chr a] [[c_bslash; digit_chr a]]); [apply lx_esc|].
    apply (lx_app [digit_chr b] [[digit_chr b]]); apply lx_chr; unfold digit_chr, c_lbrc, c_bslash; lia.
  - apply andb_true_iff in H as [A B]. rewrite !hex_dec by assumption. unfold digit_ok in A, B.
    apply (lx_app [c_bslash; 120] [[c_bslash; 120]]); [apply lx_esc|].
    apply (lx_app [a + 48] [[a + 48]]); apply lx_chr; unfold c_lbrc, c_bslash; lia.
Qed.
Lemma num_ok_digits n : num_ok n = true -> n <> [] /\ Forall (fun d => 0 <= d <= 9) n /\ num_val n < 4294967295.
Proof.
  unfold num_ok. rewrite !andb_true_iff. intros [[A B] C]. repeat split.
  - destruct n; [discriminate|congruence].
  - apply Forall_forall. intros x Hx. rewrite forallb_forall in B. specialize (B x Hx). lia.
  - lia.
Qed.
Lemma show_num_no n c : num_ok n = true -> ~ (48 <= c <= 57) -> ~ In c (show_num n).
Proof.
  intros H Hc Hin. apply num_ok_digits in H as (_ & F & _). unfold show_num in Hin.
  apply in_map_iff in Hin as (d & <- & Hd). rewrite Forall_forall in F. specialize (F d Hd).
  unfold digit_chr in Hc. lia.
Qed.
Lemma show_num_nonnil n : num_ok n = true -> show_num n <> [].
Proof. intro H. apply num_ok_digits in H as (H & _). destruct n; [congruence|discriminate]. Qed.
Lemma lx_kind k : kind_ok k = true -> lx (show_kind k) (toks_kind k).
Proof.
  destruct k as [| | |n|n|n m]; cbn [kind_ok show_kind toks_kind]; intro H;
    try (apply lx_chr; discriminate).
  - intros q us L. rewrite <- !app_assoc. apply (LexB1 (show_num n) q us); auto; apply show_num_no; auto; unfold c_comma, c_rbrc, c_bar; lia.
  - intros q us L. rewrite <- !app_assoc. apply (LexB2 (show_num n) q us); auto; apply show_num_no; auto; unfold c_comma, c_rbrc, c_bar; lia.
  - rewrite !andb_true_iff in H. destruct H as [[A B] _].
    intros q us L. rewrite <- !app_assoc. apply (LexB3 (show_num n) (show_num m) q us); auto;
      try (apply show_num_no; auto; unfold c_comma, c_rbrc, c_bar; lia). now apply show_num_nonnil.
Qed.
Lemma quant_ok_kind k g : quant_ok (QQ k g) = true -> kind_ok k = true.
Proof. destruct k; cbn; try rewrite andb_true_iff; tauto. Qed.
Lemma lx_quant q : quant_ok q = true -> lx (show_quant q) (toks_quant q).
Proof.
  destruct q as [|k g]; intro H; [apply lx_nil|].
  apply lx_app; [apply lx_kind; now apply quant_ok_kind in H|].
  destruct g; cbn; [apply lx_nil|apply lx_chr; discriminate ..].
Qed.
Lemma lx_all :
  (forall r, wf r = true -> lx (show r) (toks r))
  /\ (forall b, wf_br b = true -> lx (show_br b) (toks_br b))
  /\ (forall s, wf_sq s = true -> lx (show_sq s) (toks_sq s))
  /\ (forall a, wf_atom a = true -> lx (show_atom a) (toks_atom a)).
Proof.
  apply rx_all_ind; cbn [wf wf_br wf_sq wf_atom show show_br show_sq show_atom toks toks_br toks_sq toks_atom].
  - auto.
  - intros b Hb r Hr H. apply andb_true_iff in H as [A B].
    apply lx_app; auto. apply lx_app; [apply lx_chr; discriminate|auto].
  - intros a s Hs H. apply lx_app; [destruct a; [apply lx_chr; discriminate|apply lx_nil]|].
    apply Hs. destruct s; [discriminate|exact H].
  - intros _. apply lx_nil.
  - intros a Ha q s Hs H. rewrite !andb_true_iff in H. destruct H as [[A B] C].
    apply lx_app; auto. apply lx_app; auto. now apply lx_quant.
  - apply lx_elem.
  - intros i r Hr H. apply lx_app; [apply lx_chr; discriminate|]. apply lx_app; auto. apply lx_chr; discriminate.
  - intros r Hr H. apply (lx_app ([c_lpar] ++ [c_quest] ++ [c_colon]) ([[c_lpar]] ++ [[c_quest]] ++ [[c_colon]])).
    + repeat apply lx_app; apply lx_chr; discriminate.
    + apply lx_app; auto. apply lx_chr; discriminate.
Qed.
Lemma lex_show r : wf r = true -> lex (show r) = Some (toks r).
Proof. intro H. apply lex_iff, lx_lexed. now apply lx_all. Qed.

(** ** Nesting *)
Definition nst (ts : list str) : Prop := forall us, nested us -> nested (ts ++ us).
Definition flt (ts : list str) : Prop := forall us, flat c_bar us -> flat c_bar (ts ++ us).
Lemma ordinary_1 c : ~ In c bracket_chars -> ordinary [c].
Proof. intros H d Hd E. injection E as ->. auto. Qed.
Lemma ordinary_b c : existsb (Z.eqb c) bracket_chars = false -> ordinary [c].
Proof. intro H. apply ordinary_1. intro Hin. now apply (existsb_neq c bracket_chars c). Qed.
Lemma ordinary_2 a b : ordinary [a; b].
Proof. intros d Hd E. discriminate. Qed.
Definition plaintok (t : str) : Prop := ordinary t /\ t <> [c_bar].
Lemma flt_nil : flt [].
Proof. intros us H; exact H. Qed.
Lemma flt_app a b : flt a -> flt b -> flt (a ++ b).
Proof. intros Ha Hb us H. rewrite <- app_assoc. apply Ha, Hb, H. Qed.
Lemma flt_tok t : plaintok t -> flt [t].
Proof. intros [A B] us H. now apply FlatTok. Qed.
Lemma nst_nil : nst [].
Proof. intros us H; exact H. Qed.
Lemma nst_app a b : nst a -> nst b -> nst (a ++ b).
Proof. intros Ha Hb us H. rewrite <- app_assoc. apply Ha, Hb, H. Qed.
Lemma nst_tok t : ordinary t -> nst [t].
Proof. intros A us H. now apply NestTok. Qed.
Lemma nst_nested ts : nst ts -> nested ts.
Proof. intro H. specialize (H [] NestNil). now rewrite app_nil_r in H. Qed.
Lemma flt_flat ts : flt ts -> flat c_bar ts.
Proof. intro H. specialize (H [] (FlatNil _)). now rewrite app_nil_r in H. Qed.
Lemma flt_br o c a : In (o, c) brackets -> nst a -> flt ([o] :: a ++ [[c]]).
Proof.
  intros Hin Ha us H. cbn [app]. rewrite <- app_assoc. cbn [app].
  apply (FlatBr c_bar o c a us); auto. now apply nst_nested.
Qed.
Lemma nst_br o c a : In (o, c) brackets -> nst a -> nst ([o] :: a ++ [[c]]).
Proof.
  intros Hin Ha us H. cbn [app]. rewrite <- app_assoc. cbn [app].
  apply (NestBr o c a us); auto. now apply nst_nested.
Qed.
Lemma flt_nst_toks ts : Forall plaintok ts -> flt ts.
Proof. induction 1 as [|t ts H F IH]; [apply flt_nil|]. apply (flt_app [t] ts); [now apply flt_tok|assumption]. Qed.
Lemma nst_toks ts : Forall ordinary ts -> nst ts.
Proof. induction 1 as [|t ts H F IH]; [apply nst_nil|]. apply (nst_app [t] ts); [now apply nst_tok|assumption]. Qed.
Lemma flat_nested sep ts : flat sep ts -> nested ts.
Proof. induction 1; [constructor|now constructor|now constructor]. Qed.

Lemma class_plain_ordinary c : class_plain c = true -> ordinary [c].
Proof.
  intro H. apply ordinary_1. intro Hin. apply (class_plain_neq c c H); [|reflexivity].
  cbn in Hin. intuition (subst; reflexivity).
Qed.
Lemma citem_ordinary i : citem_ok i = true -> Forall ordinary (toks_citem i).
Proof.
  destruct i as [c|a b|c]; cbn; intro H.
  - constructor; [now apply class_plain_ordinary|constructor].
  - rewrite !andb_true_iff in H. destruct H as [[A B] _].
    repeat constructor; try (now apply class_plain_ordinary). apply ordinary_b. reflexivity.
  - constructor; [apply ordinary_2|constructor].
Qed.
Lemma citems_ordinary l : forallb citem_ok l = true -> Forall ordinary (flat_map toks_citem l).
Proof.
  induction l as [|i l IH]; cbn; [constructor|]. intro H. apply andb_true_iff in H as [A B].
  apply Forall_app. split; [now apply citem_ordinary|now apply IH].
Qed.
Lemma show_num_plaintok n : num_ok n = true -> plaintok (show_num n).
Proof.
  intro H. split.
  - intros c Hc E. apply (show_num_no n c H); [|rewrite E; left; reflexivity].
    cbn in Hc. intuition (subst; unfold c_lpar, c_rpar, c_lbrk, c_rbrk, c_lbrc, c_rbrc in *; lia).
  - intro E. apply (show_num_no n c_bar H); [unfold c_bar; lia|rewrite E; left; reflexivity].
Qed.
Lemma plaintok_b c : existsb (Z.eqb c) (c_bar :: bracket_chars) = false -> plaintok [c].
Proof.
  intro H. split.
  - apply ordinary_1. intro Hin. now apply (existsb_neq c _ c H); [right|].
  - intro E. injection E as ->. discriminate.
Qed.
Lemma plain_plaintok c : plain c = true -> plaintok [c].
Proof.
  intro H. split.
  - apply ordinary_1. intro Hin. apply (plain_neq c c H); [|reflexivity].
    cbn in Hin. intuition (subst; reflexivity).
  - intro E. injection E as ->. discriminate.
Qed.
Lemma flt_elem x : elem_ok x = true -> flt (toks_elem x).
Proof.
  destruct x as [c|c| |neg items|a b c|a b]; cbn [elem_ok toks_elem]; intro H.
  - apply flt_tok. now apply plain_plaintok.
  - apply flt_tok. split; [apply ordinary_2|discriminate].
  - apply flt_tok. now apply plaintok_b.
  - apply andb_true_iff in H as [H _]. rewrite (app_assoc (if neg then _ else _)).
    apply (flt_br c_lbrk c_rbrk ((if neg then [[c_caret]] else []) ++ flat_map toks_citem items)); [cbn; tauto|].
    apply nst_app; [|apply nst_toks; now apply citems_ordinary].
    destruct neg; [apply nst_tok; now apply ordinary_b|apply nst_nil].
  - unfold digit_ok in H. apply flt_nst_toks. constructor; [split; [apply ordinary_2|discriminate]|]. constructor; [|constructor; [|constructor]];
      apply plaintok_b; cbn [existsb bracket_chars]; unfold digit_chr, c_bar, c_lpar, c_rpar, c_lbrk, c_rbrk, c_lbrc, c_rbrc; lia.
  - apply andb_true_iff in H as [A B]. rewrite !hex_dec by assumption. unfold digit_ok in A, B.
    apply flt_nst_toks. constructor; [split; [apply ordinary_2|discriminate]|]. constructor; [|constructor; [|constructor]];
      apply plaintok_b; cbn [existsb bracket_chars]; unfold c_bar, c_lpar, c_rpar, c_lbrk, c_rbrk, c_lbrc, c_rbrc; lia.
Qed.
Lemma flt_quant q : quant_ok q = true -> flt (toks_quant q).
Proof.
  destruct q as [|k g]; intro H; [apply flt_nil|]. apply flt_app.
  - apply quant_ok_kind in H. destruct k as [| | |n|n|n m]; cbn [toks_kind]; cbn [kind_ok] in H;
      try (apply flt_tok; now apply plaintok_b).
    + apply (flt_br c_lbrc c_rbrc [show_num n]); [cbn; tauto|]. apply nst_tok. now apply show_num_plaintok.
    + apply (flt_br c_lbrc c_rbrc [show_num n; [c_comma]]); [cbn; tauto|].
      apply nst_toks. repeat constructor; [now apply show_num_plaintok|now apply ordinary_b].
    + rewrite !andb_true_iff in H. destruct H as [[A B] _].
      apply (flt_br c_lbrc c_rbrc [show_num n; [c_comma]; show_num m]); [cbn; tauto|].
      apply nst_toks. repeat constructor; try (now apply show_num_plaintok); now apply ordinary_b.
  - destruct g; cbn; [apply flt_nil|apply flt_tok; now apply plaintok_b ..].
Qed.
Fixpoint branches (r : rx) : list (list str) :=
  match r with ROne b => [toks_br b] | ROr b r' => toks_br b :: branches r' end.
Lemma toks_join r : toks r = join c_bar (branches r).
Proof.
  induction r as [b|b r IH]; [reflexivity|]. cbn [toks branches join]. rewrite IH.
  destruct r; reflexivity.
Qed.
Lemma branches_nonnil r : branches r <> [].
Proof. destruct r; discriminate. Qed.
Lemma nst_of_flt ts : flt ts -> (forall a b, nested a -> nested b -> nested (a ++ b)) -> nst ts.
Proof. intros H A us Hu. apply A; [|assumption]. apply (flat_nested c_bar). now apply flt_flat. Qed.
Lemma nested_app' a b : nested a -> nested b -> nested (a ++ b).
Proof. apply nested_app. Qed.
Lemma nest_all :
  (forall r, wf r = true -> Forall (flat c_bar) (branches r) /\ nst (toks r))
  /\ (forall b, wf_br b = true -> flt (toks_br b))
  /\ (forall s, wf_sq s = true -> flt (toks_sq s))
  /\ (forall a, wf_atom a = true -> flt (toks_atom a)).
Proof.
  apply rx_all_ind; cbn [wf wf_br wf_sq wf_atom branches toks toks_br toks_sq toks_atom].
  - intros b Hb H. split; [constructor; [apply flt_flat; auto|constructor]|].
    apply nst_of_flt; auto using nested_app'.
  - intros b Hb r Hr H. apply andb_true_iff in H as [A B]. destruct (Hr B) as [R1 R2]. split.
    + constructor; [apply flt_flat; auto|assumption].
    + apply nst_app; [apply nst_of_flt; auto using nested_app'|].
      apply nst_app; [apply nst_tok; now apply ordinary_b|assumption].
  - intros a s Hs H. apply flt_app; [destruct a; [apply flt_tok; now apply plaintok_b|apply flt_nil]|].
    apply Hs. destruct s; [discriminate|exact H].
  - intros _. apply flt_nil.
  - intros a Ha q s Hs H. rewrite !andb_true_iff in H. destruct H as [[A B] C].
    apply flt_app; auto. apply flt_app; auto. now apply flt_quant.
  - apply flt_elem.
  - intros i r Hr H. destruct (Hr H) as [_ N]. now apply (flt_br c_lpar c_rpar (toks r)); [cbn; tauto|].
  - intros r Hr H. destruct (Hr H) as [_ N].
    apply (flt_br c_lpar c_rpar ([[c_quest]; [c_colon]] ++ toks r)); [cbn; tauto|].
    apply nst_app; [|assumption]. apply nst_toks. repeat constructor; now apply ordinary_b.
Qed.
Lemma split_toks r : wf r = true -> split c_bar (toks r) = branches r.
Proof.
  intro H. rewrite toks_join. apply split_flat_join; [cbn; intuition discriminate|apply branches_nonnil|].
  now apply nest_all.
Qed.
Lemma nested_dyck op cl ts : In (op, cl) brackets -> nested ts -> dyck op cl ts.
Proof.
  intros Hin H. induction H as [|t ts Ho H IH|o c a b Hoc Ha IHa Hb IHb].
  - constructor.
  - apply DyTok; auto; apply Ho; destruct Hin as [E|[E|[E|[]]]]; injection E as <- <-; cbn; tauto.
  - destruct (Z.eq_dec o op) as [->|N].
    + assert (c = cl) as ->; [|now apply DyBr].
      destruct Hin as [E|[E|[E|[]]]]; injection E as <- <-;
      destruct Hoc as [E|[E|[E|[]]]]; inversion E; reflexivity.
    + cbn [app]. assert (M : o <> op /\ o <> cl /\ c <> op /\ c <> cl).
      { destruct Hin as [E|[E|[E|[]]]]; injection E as <- <-;
        destruct Hoc as [E|[E|[E|[]]]]; injection E as <- <-; try congruence; repeat split; discriminate. }
      apply DyTok; [intro E; injection E; tauto|intro E; injection E; tauto|].
      apply dyck_app; [assumption|]. apply DyTok; [intro E; injection E; tauto|intro E; injection E; tauto|assumption].
Qed.
Lemma extract_group r rest : wf r = true ->
  extract_delimited c_lpar c_rpar (toks r ++ [[c_rpar]] ++ rest) = Some (toks r, rest).
Proof.
  intro H. apply extract_content; [discriminate|]. apply nested_dyck; [cbn; tauto|].
  apply nst_nested. now apply nest_all.
Qed.

(** ** Class items *)
Lemma tok_compiles_esc c : escapable c = true -> tok_compiles [c_bslash; c] = true.
Proof.
  intro H. unfold tok_compiles, is_esc. cbn [str_eqb]. rewrite Z.eqb_refl. cbn [andb].
  assert (E : forall x, (is_digit x || existsb (Z.eqb x) [120; 111; 68; 87; 83; 78])%bool = true -> (c =? x) = false).
  { intros x Hx. apply Z.eqb_neq. now apply escapable_neq. }
  rewrite !E by reflexivity. reflexivity.
Qed.
Lemma tok_compiles_1 c : tok_compiles [c] = true.
Proof. unfold tok_compiles, is_esc. cbn [str_eqb]. now rewrite !andb_false_r. Qed.
Lemma not_dash d : (exists x, toks_citem x = d :: nil \/ exists a b, toks_citem x = d :: a :: b) -> True.
Proof. trivial. Qed.
Lemma citem_head i ts : citem_ok i = true -> exists t tl, toks_citem i ++ ts = t :: tl /\ is1 c_dash t = false.
Proof.
  destruct i as [c|a b|c]; cbn; intro H; do 2 eexists; (split; [reflexivity|]).
  - apply is1_neq. intro E. injection E as ->. discriminate.
  - apply is1_neq. intro E. injection E as ->. discriminate.
  - apply is1_neq. discriminate.
Qed.
Lemma citems_not_dash l : forallb citem_ok l = true ->
  match flat_map toks_citem l with d :: _ :: _ => is1 c_dash d = false | _ => True end.
Proof.
  destruct l as [|i l]; cbn [flat_map forallb]; [trivial|]. intro H. apply andb_true_iff in H as [A _].
  destruct (citem_head i (flat_map toks_citem l) A) as (t & tl & -> & E). destruct tl; auto.
Qed.
Lemma class_items_ok l : forallb citem_ok l = true -> class_items (flat_map toks_citem l) = Some (map tree_citem l).
Proof.
  induction l as [|i l IH]; [reflexivity|]. cbn [forallb flat_map map]. intro H. apply andb_true_iff in H as [A B].
  specialize (IH B). pose proof (citems_not_dash l B) as D.
  destruct i as [c|a b|c]; cbn [toks_citem app citem_ok tree_citem] in *.
  - cbn [class_items]. rewrite (tok_compiles_1 c).
    destruct (flat_map toks_citem l) as [|d [|e r]]; try (rewrite IH; reflexivity).
    rewrite D, IH. reflexivity.
  - rewrite !andb_true_iff in A. destruct A as [[A1 A2] A3].
    cbn [class_items]. rewrite is1_refl, A3, IH. reflexivity.
  - cbn [class_items]. rewrite (tok_compiles_esc c A), Z.eqb_refl.
    destruct (flat_map toks_citem l) as [|d [|e r]]; try (rewrite IH; reflexivity).
    rewrite D, IH. reflexivity.
Qed.

(** ** Group numbering on trees *)
Lemma lmax_cons a l : list_max (a :: l) = Nat.max a (list_max l).
Proof. reflexivity. Qed.
Lemma next_gi_citems l : list_max (map next_gi (map tree_citem l)) = 0%nat.
Proof. induction l as [|i l IH]; [reflexivity|]. change (Nat.max (next_gi (tree_citem i)) (list_max (map next_gi (map tree_citem l))) = 0%nat). rewrite IH. destruct i; reflexivity. Qed.
Definition unitlike (u : node) : Prop :=
  match u with Term _ | Negated _ => False | _ => True end.
Lemma next_gi_followed u c : unitlike u ->
  next_gi (followed u (Some c)) = match u with Group _ i _ => (i + 1)%nat | _ => Nat.max (next_gi u) (next_gi c) end.
Proof.
  destruct u; cbn; try tauto; intros _; rewrite ?map_app, ?list_max_app; cbn; lia.
Qed.
Lemma unit_tree_elem x : unitlike (tree_elem x).
Proof. destruct x as [| | |[]| |]; exact I. Qed.
Lemma unit_tree_atom a : unitlike (tree_atom a).
Proof. destruct a; [apply unit_tree_elem|exact I|exact I]. Qed.
Lemma unit_tree_quant q m : unitlike m -> unitlike (tree_quant q m).
Proof. destruct q as [|[] []]; cbn; auto. Qed.
Lemma next_gi_tree_elem x : next_gi (tree_elem x) = 0%nat.
Proof. destruct x as [| | |[] l| |]; cbn; rewrite ?next_gi_citems; reflexivity. Qed.
Lemma next_gi_tree_quant q m : next_gi (tree_quant q m) = next_gi m.
Proof. destruct q as [|[] []]; cbn; rewrite ?Nat.max_0_r; reflexivity. Qed.
Lemma next_gi_all :
  (forall r, list_max (map next_gi (tree_bs r)) = nx r)
  /\ (forall b, next_gi (tree_br b) = nx_br b)
  /\ (forall s, match tree_sq s with Some n => next_gi n | None => 0%nat end = nx_sq s)
  /\ (forall a, next_gi (tree_atom a) = nx_atom a).
Proof.
  apply rx_all_ind; cbn [tree_bs tree_br tree_sq tree_atom nx nx_br nx_sq nx_atom].
  - intros b H. cbn [map]. rewrite lmax_cons. cbn [list_max fold_right]. lia.
  - intros b Hb r Hr. cbn [map]. rewrite lmax_cons. lia.
  - intros [] s H.
    + destruct (tree_sq s) as [n|]; [|exact H]. rewrite next_gi_followed by exact I. cbn. exact H.
    + destruct (tree_sq s) as [n|]; exact H.
  - reflexivity.
  - intros a Ha q s Hs. pose proof (unit_tree_quant q _ (unit_tree_atom a)) as U.
    destruct (tree_sq s) as [n|].
    + rewrite next_gi_followed by exact U. rewrite next_gi_tree_quant, Ha, Hs.
      destruct a, q as [|[] []]; cbn; try reflexivity. destruct x as [| | |[] l| |]; reflexivity.
    + cbn [followed]. rewrite next_gi_tree_quant, Ha. rewrite <- Hs.
      destruct a, q as [|[] []]; cbn; rewrite ?Nat.max_0_r; reflexivity.
  - intro x. apply next_gi_tree_elem.
  - intros i r H. reflexivity.
  - intros r H. cbn [next_gi]. rewrite H. cbn. lia.
Qed.

(** ** Classification of the head token *)
Lemma is1_2 c a b : is1 c [a; b] = false.
Proof. apply is1_neq. discriminate. Qed.
Lemma is1_1 c a : is1 c [a] = (a =? c).
Proof. unfold is1. cbn. now rewrite andb_true_r. Qed.
Lemma is_esc_1 c a : is_esc c [a] = false.
Proof. unfold is_esc. cbn. now rewrite andb_false_r. Qed.
Lemma is_esc_2 c a : is_esc c [c_bslash; a] = (a =? c).
Proof. unfold is_esc. cbn [str_eqb]. now rewrite Z.eqb_refl, andb_true_r. Qed.
Lemma classify_lit lv c tl : plain c = true ->
  classify lv [c] tl = ULit (Some (Simple (Term (TTerminal [c])) [])) tl.
Proof.
  intro H. unfold classify. rewrite !is1_1, !is_esc_1, tok_compiles_1.
  assert (E : forall x, special x = true -> (c =? x) = false).
  { intros x Hx. apply Z.eqb_neq. now apply plain_neq. }
  rewrite !E by reflexivity. reflexivity.
Qed.
Lemma classify_dot lv tl : classify lv [c_dot] tl = ULit (Some (Simple (Term (TTerminal [c_dot])) [])) tl.
Proof. reflexivity. Qed.
Lemma classify_esc lv c tl : escapable c = true ->
  classify lv [c_bslash; c] tl = ULit (Some (Simple (Term (TTerminal [c_bslash; c])) [])) tl.
Proof.
  intro H. unfold classify. rewrite !is1_2, !is_esc_2, (tok_compiles_esc c H).
  assert (E : forall x, (is_digit x || existsb (Z.eqb x) [120; 111; 68; 87; 83; 78])%bool = true -> (c =? x) = false).
  { intros x Hx. apply Z.eqb_neq. now apply escapable_neq. }
  rewrite !E by reflexivity. cbn [andb].
  assert (O : is_octal c = false \/ c = 56).
  { unfold is_octal. unfold escapable, is_digit in H. rewrite !andb_true_iff in H. lia. }
  destruct O as [O|O]; [|subst; discriminate H].
  destruct tl as [|[|b [|]] [|[|d [|]] tl]]; try reflexivity. rewrite O, andb_false_r. reflexivity.
Qed.

Lemma oct_byte a b c : digit_ok 4 a = true -> digit_ok 8 b = true -> digit_ok 8 c = true ->
  octal_to_bin [digit_chr a; digit_chr b; digit_chr c] = Some [byte_chr (64 * a + 8 * b + c)].
Proof.
  intros A B C.
  assert (X : forallb (fun a => forallb (fun b => forallb (fun c =>
    match octal_to_bin [digit_chr a; digit_chr b; digit_chr c] with
    | Some s => str_eqb s [byte_chr (64 * a + 8 * b + c)] | None => false end)
    [0;1;2;3;4;5;6;7]) [0;1;2;3;4;5;6;7]) [0;1;2;3] = true) by (vm_compute; reflexivity).
  unfold digit_ok in *. rewrite forallb_forall in X. specialize (X a ltac:(cbn; lia)). rewrite forallb_forall in X.
  specialize (X b ltac:(cbn; lia)). rewrite forallb_forall in X. specialize (X c ltac:(cbn; lia)).
  destruct (octal_to_bin _) as [s|]; [|discriminate]. apply str_eqb_eq in X. now subst.
Qed.
Lemma hex_byte a b : digit_ok 10 a = true -> digit_ok 10 b = true ->
  hex_to_bin [hex_chr a; hex_chr b] = Some [byte_chr (16 * a + b)] /\ is_hex (hex_chr a) = true /\ is_hex (hex_chr b) = true.
Proof.
  intros A B.
  assert (X : forallb (fun a => forallb (fun b =>
    match hex_to_bin [hex_chr a; hex_chr b] with
    | Some s => str_eqb s [byte_chr (16 * a + b)] | None => false end)
    [0;1;2;3;4;5;6;7;8;9]) [0;1;2;3;4;5;6;7;8;9] = true) by (vm_compute; reflexivity).
  unfold digit_ok in *. rewrite forallb_forall in X. specialize (X a ltac:(cbn; lia)). rewrite forallb_forall in X.
  specialize (X b ltac:(cbn; lia)).
  destruct (hex_to_bin _) as [s|]; [|discriminate]. apply str_eqb_eq in X. subst. split; [reflexivity|].
  rewrite !hex_dec by (unfold digit_ok; lia). unfold is_hex. lia.
Qed.
Lemma classify_oct lv a b c tl : digit_ok 4 a = true -> digit_ok 8 b = true -> digit_ok 8 c = true ->
  classify lv [c_bslash; digit_chr a] ([digit_chr b] :: [digit_chr c] :: tl)
  = ULit (Some (Simple (Term (TExact [byte_chr (64 * a + 8 * b + c)])) [])) tl.
Proof.
  intros A B C. unfold classify. rewrite !is1_2, !is_esc_2.
  assert (O : is_octal (digit_chr a) = true /\ is_octal (digit_chr b) = true /\ is_octal (digit_chr c) = true).
  { unfold digit_ok, is_octal, digit_chr in *. lia. }
  destruct O as (O1 & O2 & O3).
  replace (digit_chr a =? 120) with false by (unfold digit_ok, digit_chr in *; lia).
  replace (digit_chr a =? 111) with false by (unfold digit_ok, digit_chr in *; lia).
  cbn [andb]. rewrite Z.eqb_refl, O1, O2, O3. cbn [andb]. rewrite oct_byte by assumption. reflexivity.
Qed.
Lemma classify_hex lv a b tl : digit_ok 10 a = true -> digit_ok 10 b = true ->
  classify lv [c_bslash; 120] ([hex_chr a] :: [hex_chr b] :: tl)
  = ULit (Some (Simple (Term (TExact [byte_chr (16 * a + b)])) [])) tl.
Proof.
  intros A B. destruct (hex_byte a b A B) as (E & H1 & H2). unfold classify. rewrite !is1_2, !is_esc_2.
  cbn [andb Z.eqb]. rewrite Z.eqb_refl, H1, H2, E. reflexivity.
Qed.

Definition is_void (last : option node) : bool := match last with None => true | _ => false end.
Definition pushed (last : option node) (r : option node) : option node :=
  match r with Some sub => add_child last sub | None => None end.
Definition last_ok (last : option node) : Prop := match last with None => True | Some u => unitlike u end.

Definition after_gi (a : atom) (g : nat) : nat := after_atom (renumber_atom a g) g.

Lemma helper_elem f last x rest gi : elem_ok x = true ->
  helper (S f) last (toks_elem x ++ rest) gi
  = pushed last (helper f (Some (tree_elem x)) rest (after_gi (AEl x) gi)).
Proof.
  intro H. unfold after_gi. destruct x as [c|c| |neg items|a b c|a b]; cbn [renumber_atom after_atom elem_ok toks_elem tree_elem] in *.
  - cbn [app helper]. rewrite classify_lit by exact H. reflexivity.
  - cbn [app helper]. rewrite classify_esc by exact H. reflexivity.
  - cbn [app helper]. rewrite classify_dot. reflexivity.
  - apply andb_true_iff in H as [H N].
    assert (X : extract_delimited c_lbrk c_rbrk (flat_map toks_citem items ++ [[c_rbrk]] ++ rest)
                = Some (flat_map toks_citem items, rest)).
    { apply extract_content; [discriminate|]. apply nested_dyck; [cbn; tauto|].
      apply nst_nested, nst_toks. now apply citems_ordinary. }
    assert (C : classify (is_void last) [c_lbrk] ((if neg then [[c_caret]] else []) ++ flat_map toks_citem items ++ [[c_rbrk]] ++ rest)
                = UClass neg (flat_map toks_citem items ++ [[c_rbrk]] ++ rest)).
    { destruct neg; [reflexivity|]. destruct items as [|i items]; [discriminate|].
      cbn [forallb] in H. apply andb_true_iff in H as [A _].
      destruct i as [c|a b|c]; cbn [flat_map toks_citem app]; unfold classify; cbn -[is1 flat_map app];
        rewrite ?is1_1, ?is1_2; try reflexivity.
      - replace (c =? c_caret) with false; [reflexivity|]. symmetry. apply Z.eqb_neq. now apply class_plain_neq.
      - cbn [citem_ok] in A. rewrite !andb_true_iff in A. destruct A as [[A _] _].
        replace (a =? c_caret) with false; [reflexivity|]. symmetry. apply Z.eqb_neq. now apply class_plain_neq. }
    cbn [app]. rewrite <- !app_assoc. cbn [helper].
    change (match last with None => true | Some _ => false end) with (is_void last).
    rewrite C, X, (class_items_ok items H).
    destruct items as [|i items]; [discriminate|]. cbn [map].
    change (tree_citem i :: map tree_citem items) with (map tree_citem (i :: items)).
    assert (Z0 : next_gi (SimpleV (map tree_citem (i :: items))) = 0%nat) by (cbn [next_gi]; apply next_gi_citems).
    rewrite Z0. destruct neg; reflexivity.
  - rewrite !andb_true_iff in H. destruct H as [[A B] C]. cbn [app helper]. rewrite classify_oct by assumption. reflexivity.
  - rewrite !andb_true_iff in H. destruct H as [A B]. cbn [app helper]. rewrite classify_hex by assumption. reflexivity.
Qed.

(** The first token after a quantifier is not a suffix. *)
Definition startok (ts : list str) : Prop :=
  match ts with [] => True | t :: _ => is1 c_quest t = false /\ is1 c_plus t = false end.
Lemma policy_ok g rest : startok rest -> policy (toks_greed g ++ rest) = (pol_of g, rest).
Proof.
  intro H. destruct g; [|reflexivity ..]. cbn [toks_greed app pol_of]. destruct rest as [|t rest]; [reflexivity|].
  destruct H as [A B]. unfold policy. now rewrite A, B.
Qed.
Lemma count_ok n : num_ok n = true -> pack_string_to_number (show_num n) = Z.to_N (num_val n).
Proof. intro H. apply num_ok_digits in H as (_ & F & L). apply number_of_show_small; [assumption|lia]. Qed.
Lemma helper_quant q m rest gi f : quant_ok q = true -> startok rest ->
  (length (toks_quant q ++ rest) < f)%nat ->
  exists f', (length rest < f')%nat /\ helper f (Some m) (toks_quant q ++ rest) gi = helper f' (Some (tree_quant q m)) rest gi.
Proof.
  intros Hq Hs Hf. destruct q as [|k g]; [exists f; split; [exact Hf|reflexivity]|].
  destruct f as [|f]; [lia|].
  exists f. split. { cbn [toks_quant] in Hf. rewrite !app_length in Hf. destruct k; cbn in Hf; lia. }
  pose proof (quant_ok_kind _ _ Hq) as Hk. cbn [toks_quant]. rewrite <- app_assoc.
  assert (XT : forall c, Forall ordinary c -> extract_delimited c_lbrc c_rbrc (c ++ [[c_rbrc]] ++ toks_greed g ++ rest) = Some (c, toks_greed g ++ rest)).
  { intros c Hc. apply extract_content; [discriminate|]. apply nested_dyck; [cbn; tauto|]. apply nst_nested. now apply nst_toks. }
  assert (NT : forall n, num_ok n = true -> ordinary (show_num n)) by (intros n Hn; now apply show_num_plaintok).
  assert (CT : ordinary [c_comma]) by now apply ordinary_b.
  destruct k as [| | |n|n|n n2]; cbn [toks_kind app]; cbn [kind_ok] in Hk.
  - cbn [helper]. change (classify false [c_star] (toks_greed g ++ rest)) with (UQuant 0 UMAX (toks_greed g ++ rest)).
    cbv iota. rewrite policy_ok by exact Hs. reflexivity.
  - cbn [helper]. change (classify false [c_plus] (toks_greed g ++ rest)) with (UQuant 1 UMAX (toks_greed g ++ rest)).
    cbv iota. rewrite policy_ok by exact Hs. reflexivity.
  - cbn [helper]. change (classify false [c_quest] (toks_greed g ++ rest)) with (UQuant 0 1 (toks_greed g ++ rest)).
    cbv iota. rewrite policy_ok by exact Hs. reflexivity.
  - cbn [helper].
    match goal with |- context [classify false ?t ?tl] => change (classify false t tl) with (UBraces tl) end.
    cbv iota. pose proof (XT [show_num n]) as X. cbn [app] in X. rewrite X by (repeat constructor; auto).
    rewrite policy_ok by exact Hs. cbn [braces_node tree_quant]. rewrite count_ok by exact Hk. reflexivity.
  - cbn [helper].
    match goal with |- context [classify false ?t ?tl] => change (classify false t tl) with (UBraces tl) end.
    cbv iota. pose proof (XT [show_num n; [c_comma]]) as X. cbn [app] in X. rewrite X by (repeat constructor; auto).
    rewrite policy_ok by exact Hs. cbn [braces_node tree_quant]. rewrite count_ok by exact Hk. reflexivity.
  - rewrite !andb_true_iff in Hk. destruct Hk as [[A B] _]. cbn [helper].
    match goal with |- context [classify false ?t ?tl] => change (classify false t tl) with (UBraces tl) end.
    cbv iota. pose proof (XT [show_num n; [c_comma]; show_num n2]) as X. cbn [app] in X.
    rewrite X by (repeat constructor; auto).
    rewrite policy_ok by exact Hs. cbn [braces_node tree_quant].
    rewrite (count_ok n), (count_ok n2) by assumption. reflexivity.
Qed.

Lemma atom_start a ts : wf_atom a = true -> exists t tl, toks_atom a ++ ts = t :: tl /\ is1 c_quest t = false /\ is1 c_plus t = false.
Proof.
  destruct a as [x|i r|r]; cbn [wf_atom toks_atom]; intro H.
  - destruct x as [c|c| |neg items|a b c|a b]; cbn [toks_elem app]; do 2 eexists; (split; [reflexivity|]);
      rewrite ?is1_1, ?is1_2; try (split; reflexivity).
    cbn [elem_ok] in H. split; apply Z.eqb_neq; now apply plain_neq.
  - do 2 eexists; split; [reflexivity|split; reflexivity].
  - do 2 eexists; split; [reflexivity|split; reflexivity].
Qed.
Lemma sq_start s : wf_sq s = true -> startok (toks_sq s).
Proof.
  destruct s as [|a q s]; cbn [wf_sq toks_sq]; [intros; exact I|]. intro H.
  rewrite !andb_true_iff in H. destruct H as [[A _] _].
  destruct (atom_start a (toks_quant q ++ toks_sq s) A) as (t & tl & -> & B). exact B.
Qed.
Lemma toks_head_not_nc r ts : wf r = true -> match toks r ++ ts with
  | q :: k :: _ => (is1 c_quest q && is1 c_colon k)%bool = false | _ => True end.
Proof.
  intro H.
  assert (E : exists t tl, toks r ++ ts = t :: tl /\ is1 c_quest t = false).
  { assert (B : exists b u, wf_br b = true /\ toks r ++ ts = toks_br b ++ u).
    { destruct r as [b|b r]; cbn [wf toks] in *.
      - exists b, ts. auto.
      - apply andb_true_iff in H as [A _]. exists b, ([[c_bar]] ++ toks r ++ ts). split; [assumption|]. now rewrite <- !app_assoc. }
    destruct B as (b & u & W & ->). destruct b as [a s]. cbn [wf_br toks_br] in *.
    destruct a; [do 2 eexists; split; [reflexivity|reflexivity]|]. destruct s as [|a q s]; [discriminate|].
    cbn [wf_sq toks_sq] in *. rewrite !andb_true_iff in W. destruct W as [[A _] _]. cbn [app].
    rewrite <- app_assoc. destruct (atom_start a ((toks_quant q ++ toks_sq s) ++ u) A) as (t & tl & -> & B & _). eauto. }
  destruct E as (t & tl & -> & E). destruct tl; [exact I|]. now rewrite E.
Qed.

Lemma pushed_followed last u rest : last_ok last -> unitlike u ->
  pushed last (Some (followed u rest)) = Some (match last with None => followed u rest | Some v => followed v (Some (followed u rest)) end).
Proof. intros L U. destruct last as [v|]; [|reflexivity]. destruct v; cbn in *; try tauto; reflexivity. Qed.

Lemma toks_br_len_in r b : In b (branches r) -> (length b <= length (toks r))%nat.
Proof.
  induction r as [c|c r IH]; cbn [branches toks]; intros [<-|Hin]; try lia; try contradiction.
  - rewrite app_length. lia.
  - specialize (IH Hin). rewrite !app_length. cbn. lia.
Qed.
Lemma helper_all :
  (forall r, wf r = true -> forall f g, (forall b, In b (branches r) -> (length b < f)%nat) ->
     mapM (fun b => helper f None b g) (branches r) = Some (tree_bs (renumber_in true r g)))
  /\ (forall b, wf_br b = true -> forall f g, (length (toks_br b) < f)%nat ->
     helper f None (toks_br b) g = Some (tree_br (renumber_br b g)))
  /\ (forall s, wf_sq s = true -> forall f g last, last_ok last -> (length (toks_sq s) < f)%nat ->
     helper f last (toks_sq s) g
     = match last with None => tree_sq (renumber_sq s g) | Some u => Some (followed u (tree_sq (renumber_sq s g))) end)
  /\ (forall a, wf_atom a = true -> forall f g last rest, last_ok last -> (length (toks_atom a ++ rest) < S f)%nat ->
     helper (S f) last (toks_atom a ++ rest) g
     = pushed last (helper f (Some (tree_atom (renumber_atom a g))) rest (after_gi a g))).
Proof.
  apply rx_all_ind; cbn [wf wf_br wf_sq wf_atom].
  - intros b Hb H f g Hf. cbn [branches mapM renumber_in tree_bs]. rewrite Hb; [reflexivity|assumption|].
    apply Hf. now left.
  - intros b Hb r Hr H f g Hf. apply andb_true_iff in H as [A B]. cbn [branches mapM renumber_in tree_bs].
    rewrite Hb by (auto; apply Hf; now left). rewrite Hr; [reflexivity|assumption|].
    intros c Hc. apply Hf. now right.
  - intros a s Hs H f g Hf. assert (W : wf_sq s = true) by (destruct s; [discriminate|exact H]).
    assert (NN : exists n, tree_sq (renumber_sq s g) = Some n).
    { destruct s; [discriminate|]. cbn [renumber_sq tree_sq]. eauto. }
    destruct NN as (n & NN). cbn [toks_br renumber_br tree_br]. destruct a; cbn [app] in *.
    + destruct f as [|f]; [lia|]. cbn [toks_br app length] in Hf.
      change (helper (S f) None ([c_caret] :: toks_sq s) g) with (helper f (Some (Simple (Term TStart) [])) (toks_sq s) g).
      rewrite Hs; [reflexivity|assumption|exact I|lia].
    + rewrite Hs; [now rewrite NN|assumption|exact I|exact Hf].
  - intros _ f g last L Hf. destruct f as [|f]; [cbn in Hf; lia|]. cbn [toks_sq helper renumber_sq tree_sq followed].
    destruct last; reflexivity.
  - intros a Ha q s Hs H f g last L Hf. rewrite !andb_true_iff in H. destruct H as [[A B] C].
    cbn [toks_sq] in *. destruct f as [|f]; [lia|].
    rewrite Ha by auto.
    assert (Hf2 : (length (toks_quant q ++ toks_sq s) < f)%nat).
    { destruct (atom_start a [] A) as (t & tl & E & _). rewrite app_nil_r in E. rewrite E in Hf.
      rewrite !app_length in *. cbn in Hf. lia. }
    destruct (helper_quant q (tree_atom (renumber_atom a g)) (toks_sq s) (after_gi a g) f B (sq_start s C) Hf2) as (f' & Hf' & ->).
    pose proof (unit_tree_quant q _ (unit_tree_atom (renumber_atom a g))) as U.
    rewrite Hs by (auto). rewrite pushed_followed by assumption.
    cbn [renumber_sq tree_sq]. fold (after_gi a g). destruct last; reflexivity.
  - intros x H f g last rest L Hf. cbn [toks_atom renumber_atom tree_atom]. now apply helper_elem.
  - intros i r Hr H f g last rest L Hf. cbn [toks_atom renumber_atom tree_atom] in *.
    assert (C : classify (is_void last) [c_lpar] (toks r ++ [[c_rpar]] ++ rest) = UOpen (toks r ++ [[c_rpar]] ++ rest)).
    { pose proof (toks_head_not_nc r ([[c_rpar]] ++ rest) H) as N.
      change (classify (is_void last) [c_lpar] (toks r ++ [[c_rpar]] ++ rest))
        with (match toks r ++ [[c_rpar]] ++ rest with
              | q :: k :: tl' => if (is1 c_quest q && is1 c_colon k)%bool then UOpenNC tl' else UOpen (toks r ++ [[c_rpar]] ++ rest)
              | _ => UOpen (toks r ++ [[c_rpar]] ++ rest) end).
      destruct (toks r ++ [[c_rpar]] ++ rest) as [|q0 [|k0 tl]]; try reflexivity. now rewrite N. }
    rewrite <- !app_assoc. cbn [app helper].
    change (match last with None => true | Some _ => false end) with (is_void last).
    pose proof (extract_group r rest H) as X. cbn [app] in C, X. rewrite C, X. rewrite (split_toks r H).
    rewrite Hr; [reflexivity|assumption|].
    intros b Hb. apply toks_br_len_in in Hb. rewrite !app_length in Hf. cbn in Hf. lia.
  - intros r Hr H f g last rest L Hf. cbn [toks_atom renumber_atom tree_atom] in *.
    cbn [app helper]. rewrite <- !app_assoc.
    change (classify (match last with None => true | Some _ => false end) [c_lpar] ([c_quest] :: [c_colon] :: toks r ++ [[c_rpar]] ++ rest))
      with (UOpenNC (toks r ++ [[c_rpar]] ++ rest)). cbv iota.
    pose proof (extract_group r rest H) as X. cbn [app] in X |- *. rewrite X. rewrite (split_toks r H).
    rewrite Hr; [|assumption|].
    + cbv iota beta zeta. unfold after_gi. cbn [renumber_atom after_atom nx_atom].
      replace (next_gi (Simple (SimpleV (tree_bs (renumber_in true r g))) [])) with (nx (renumber_in true r g)); [reflexivity|].
      cbn [next_gi]. rewrite (proj1 next_gi_all). cbn. lia.
    + intros b Hb. apply toks_br_len_in in Hb. rewrite !app_length in Hf. cbn in Hf. lia.
Qed.
Lemma build_branches_ok r : wf r = true -> forall g,
  build_branches (branches r) g = Some (tree_bs (renumber_in false r g)).
Proof.
  induction r as [b|b r IH]; cbn [wf branches build_branches renumber_in tree_bs]; intros H g.
  - rewrite (proj1 (proj2 helper_all)); [reflexivity|assumption|lia].
  - apply andb_true_iff in H as [A B]. rewrite (proj1 (proj2 helper_all)) by (assumption || lia).
    rewrite (proj1 (proj2 next_gi_all)). rewrite IH by exact B. reflexivity.
Qed.
Lemma parse_show r : wf r = true -> parse (show r) = Some (tree (renumber r)).
Proof.
  intro H. unfold parse. rewrite (lex_show r H). unfold build. rewrite (split_toks r H).
  rewrite build_branches_ok by exact H. reflexivity.
Qed.
