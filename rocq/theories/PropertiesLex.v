(** C52: lexers of simple tokens. *)
From Coq Require Import String ZArith NArith List Bool Lia ZifyBool ZifyNat ZifyN.
From Verif Require Import Base Text Ast Builder Engine Api Spec Supported Main SpecTok TokIter Anchor Tok Refuted PropertiesMatch PropertiesTok SpecFields SpecLex Fields FieldsPre PropertiesFields.
Import ListNotations.
Open Scope nat_scope.

(** A definition as the user writes it: its type and the text of its pattern. *)
Definition show_ldef (d : ldef) : def := match d with LTok ty fs => DTok ty (show_fields fs) | LSep fs => DSep (show_fields fs) end.
Definition as_tdef (d : ldef) : tdef := match d with LTok ty fs => Tok ty (grx false fs) | LSep fs => Sep (grx false fs) end.
Lemma show_tdef d : def_text (as_tdef d) = show_ldef d.
Proof. destruct d; cbn [as_tdef def_text show_ldef]; rewrite show_grx; reflexivity. Qed.
Lemma toks_tdef ds : tok_defs (map as_tdef ds) = map (fun t => (fst t, grx false (snd t))) (ltoks ds).
Proof. induction ds as [|[ty fs|fs] ds IH]; cbn [map as_tdef tok_defs ltoks]; [reflexivity| |exact IH]. now rewrite IH. Qed.
Lemma seps_tdef ds : sep_defs (map as_tdef ds) = map (grx false) (lseps ds).
Proof. induction ds as [|[ty fs|fs] ds IH]; cbn [map as_tdef sep_defs lseps]; [reflexivity|exact IH|]. now rewrite IH. Qed.
Lemma field_tok fs : prefix_ok fs = true -> tok_ok (grx false fs) = true.
Proof. intro H. unfold tok_ok. change (caret (grx false fs)) with (grx true fs). rewrite (proj1 (grx_exact true fs H)). reflexivity. Qed.
Lemma lexer_parts ds : lexer_ok ds = true -> (forall t, In t (ltoks ds) -> prefix_ok (snd t) = true) /\ (forall fs, In fs (lseps ds) -> prefix_ok fs = true) /\ ltoks ds <> [] /\ lseps ds <> [].
Proof.
  unfold lexer_ok. rewrite !andb_true_iff. intros [[A B] C]. conj.
  - clear B C. induction ds as [|[ty fs|fs] ds IH]; cbn [ltoks forallb] in *; [intros t []| |]; apply andb_true_iff in A as [A1 A2]; [|now apply IH]. intros t [<-|Ht]; [exact A1|now apply IH].
  - clear B C. induction ds as [|[ty fs|fs] ds IH]; cbn [lseps forallb] in *; [intros t []| |]; apply andb_true_iff in A as [A1 A2]; [now apply IH|]. intros t [<-|Ht]; [exact A1|now apply IH].
  - intro X. now rewrite X in B.
  - intro X. now rewrite X in C.
Qed.
Lemma lexer_defs ds : lexer_ok ds = true -> defs_ok (map as_tdef ds) = true.
Proof.
  intro H. destruct (lexer_parts ds H) as (T & S & NT & NS). unfold defs_ok. rewrite toks_tdef, seps_tdef, !andb_true_iff. conj.
  - apply forallb_forall. intros r Hr. apply in_map_iff in Hr as (fs & <- & Hf). apply field_tok. auto.
  - apply forallb_forall. intros r Hr. apply in_map_iff in Hr as (t & <- & Ht). apply field_tok. auto.
  - destruct (lseps ds); [congruence|reflexivity].
  - destruct (ltoks ds); [congruence|reflexivity].
Qed.
(** A front is not empty. *)
Lemma front_pos fs u k : prefix_ok fs = true -> front fs u k -> 0 < k.
Proof.
  intros H (B & parts & D & E). destruct (prefix_parts fs H) as (F & S & C & O & N). destruct k; [|lia]. exfalso. cbn [firstn] in E.
  destruct fs as [|f r]; [congruence|]. inversion D as [|? u1 ? us Fu Fr]; subst. cbn [concat] in E. apply app_eq_nil in E as [-> E]. cbn [forallb] in F. apply andb_true_iff in F as [F1 F2].
  destruct (required f) eqn:R; [destruct (req_head f [] F1 R Fu) as (c & v & X & _); discriminate|].
  cbn [first_ok] in O. rewrite R in O. cbn [orb] in O. apply andb_true_iff in O as [_ O]. destruct r as [|h r]; [discriminate|]. destruct (spaced_gaps _ S) as [G _].
  assert (Ru : is_run f = true) by (unfold required, is_run in *; destruct (f_am f); (discriminate || reflexivity)). destruct (G Ru) as [Rq _].
  inversion Fr as [|? u2 ? us2 Fu2 _]; subst. cbn [concat] in E. apply app_eq_nil in E as [-> _]. cbn [forallb] in F2. apply andb_true_iff in F2 as [F2 _].
  destruct (req_head h [] F2 Rq Fu2) as (c & v & X & _); discriminate.
Qed.
Lemma len_front fs u : prefix_ok fs = true -> query_ok u ->
  (len_at u (grx false fs) <> 0 /\ front_most fs u (len_at u (grx false fs))) \/ (len_at u (grx false fs) = 0 /\ forall k, ~ front fs u k).
Proof.
  intros H Q. pose proof (fields_match u fs 0 H Q (Nat.le_0_l _)) as M. unfold len_at. cbn [skipn] in M. destruct (match_at u (grx false fs) 0) as [[j l]|].
  - destruct M as (k & parts & -> & M & _). cbn [fst Nat.add]. left. split; [|exact M]. pose proof (front_pos fs u k H (proj1 M)). lia.
  - right. split; [reflexivity|exact M].
Qed.
Lemma len_front_iff fs u k : prefix_ok fs = true -> query_ok u -> front fs u k -> k <= len_at u (grx false fs).
Proof. intros H Q Fr. destruct (len_front fs u H Q) as [[_ [_ X]]|[_ X]]; [now apply X|now elim (X k)]. Qed.
Lemma longest_fronts fss u : (forall fs, In fs fss -> prefix_ok fs = true) -> query_ok u ->
  (longest u (map (grx false) fss) = 0 /\ none_front fss u) \/ (longest u (map (grx false) fss) <> 0 /\ longest_front fss u (longest u (map (grx false) fss))).
Proof.
  intros H Q. set (m := longest u (map (grx false) fss)).
  assert (UP : forall fs k, In fs fss -> front fs u k -> k <= m /\ 0 < k).
  { intros fs k I Fr. split; [|now apply (front_pos fs u k (H fs I))]. transitivity (len_at u (grx false fs)); [now apply len_front_iff; auto|].
    pose proof (proj1 (list_max_le (map (len_at u) (map (grx false) fss)) m) (Nat.le_refl _)) as X. rewrite !Forall_map, Forall_forall in X. now apply X. }
  destruct (Nat.eq_dec m 0) as [Z|Z].
  - left. split; [exact Z|]. intros fs k I Fr. destruct (UP fs k I Fr). lia.
  - right. split; [exact Z|]. split; [|intros fs k I Fr; now apply (UP fs k I Fr)].
    assert (I : In m (map (len_at u) (map (grx false) fss))) by (apply max_hit; exact Z). apply in_map_iff in I as (r & E & I). apply in_map_iff in I as (fs & <- & I).
    exists fs. split; [exact I|]. destruct (len_front fs u (H fs I) Q) as [[_ [X _]]|[X _]]; [now rewrite E in X|lia].
Qed.
Section Lex.
Variables (ds : list ldef) (w : str).
Hypothesis Hd : lexer_ok ds = true.
Hypothesis Hq : query_ok w.
Notation ts := (map as_tdef ds).
Lemma tok_rx : map snd (tok_defs ts) = map (grx false) (map snd (ltoks ds)).
Proof. rewrite toks_tdef, !map_map. reflexivity. Qed.
Lemma toks_prefix : forall fs, In fs (map snd (ltoks ds)) -> prefix_ok fs = true.
Proof. intros fs I. apply in_map_iff in I as (t & <- & I). exact (proj1 (lexer_parts ds Hd) t I). Qed.
Lemma find_first u k : query_ok u -> k <> 0 -> longest_front (map snd (ltoks ds)) u k -> forall t, find (fun t => len_at u (snd t) =? k) (tok_defs ts) = Some t -> first_def ds u k (fst t).
Proof.
  intros Q Z [_ MX] t. rewrite toks_tdef. pose proof toks_prefix as TP. unfold first_def. revert MX TP. generalize (ltoks ds). intro l. induction l as [|[ty fs] l IH]; intros MX TP H; [discriminate|].
  cbn [map find fst snd] in H. cbn [map snd] in MX, TP. destruct (Nat.eqb_spec (len_at u (grx false fs)) k) as [E|E].
  - injection H as <-. exists [], fs, l. cbn [fst]. conj; [reflexivity| |intros t []]. destruct (len_front fs u (TP fs (or_introl eq_refl)) Q) as [[_ [X _]]|[X _]]; [now rewrite E in X|lia].
  - destruct (IH (fun fs0 k0 I0 => MX fs0 k0 (or_intror I0)) (fun fs0 I0 => TP fs0 (or_intror I0)) H) as (d1 & fs' & d2 & -> & Fr & Fi).
    exists ((ty, fs) :: d1), fs', d2. conj; auto. intros t' [<-|I]; [|now apply Fi]. cbn [snd]. intro X. apply E. apply Nat.le_antisymm.
    + destruct (len_front fs u (TP fs (or_introl eq_refl)) Q) as [[_ [Y _]]|[Y _]]; [apply (MX fs); [now left|exact Y]|lia].
    + apply len_front_iff; auto. apply TP. now left.
Qed.
Lemma find_some_len u : longest u (map snd (tok_defs ts)) <> 0 -> find (fun t => len_at u (snd t) =? longest u (map snd (tok_defs ts))) (tok_defs ts) <> None.
Proof.
  intros Z N. unfold longest in *. apply max_hit in Z as I. apply in_map_iff in I as (r & E & I). apply in_map_iff in I as (t & <- & I). pose proof (find_none _ _ N t I) as X. cbn beta in X. lia.
Qed.
Lemma next_lexes p : p <= length w ->
  match next_token ts w p with
  | None => lexes ds w p []
  | Some (a, b, ty) => p <= a < b /\ b <= length w /\ forall l, lexes ds w b l -> lexes ds w p ((a, b, ty) :: l)
  end.
Proof.
  intro Hp. pose proof (next_token_bound w ts (defs_ok_ds ts (lexer_defs ds Hd)) p) as NB. destruct (lexer_parts ds Hd) as (T & S & NT & NS).
  destruct (next_token ts w p) as [[[a b] ty]|] eqn:N.
  - specialize (NB a b ty Hp eq_refl). split; [lia|]. split; [lia|]. intros l Hl. unfold next_token in N. cbv zeta in N.
    rewrite seps_tdef in N. set (s := longest (skipn p w) (map (grx false) (lseps ds))) in *.
    pose proof (longest_fronts (lseps ds) (skipn p w) S (query_skip p w Hq)) as LS. fold s in LS.
    assert (TS : token_start ds w p (p + s)).
    { destruct LS as [[Z LS]|[Z LS]]; [|left; split; [lia|]; now replace (p + s - p) with s by lia]. right. destruct (Nat.eqb_spec p 0) as [->|P0]; [|rewrite Z in N; discriminate].
      cbn [skipn] in LS. split; [reflexivity|]. split; [lia|exact LS]. }
    destruct ((s =? 0) && negb (p =? 0)); [discriminate|]. rewrite tok_rx in N. set (u := skipn (p + s) w) in *.
    pose proof (longest_fronts (map snd (ltoks ds)) u toks_prefix (query_skip (p + s) w Hq)) as LT. set (m := longest u (map (grx false) (map snd (ltoks ds)))) in *.
    destruct (Nat.eqb_spec m 0) as [|Z]; [discriminate|]. destruct LT as [[Z' _]|[_ LT]]; [congruence|].
    destruct (find _ _) as [t|] eqn:Fi; [|discriminate]. injection N as <- <- <-. apply lex_tok; auto. fold u. apply find_first; auto. apply query_skip. exact Hq.
  - unfold next_token in N. cbv zeta in N. rewrite seps_tdef in N. set (s := longest (skipn p w) (map (grx false) (lseps ds))) in *.
    pose proof (longest_fronts (lseps ds) (skipn p w) S (query_skip p w Hq)) as LS. fold s in LS.
    destruct ((s =? 0) && negb (p =? 0)) eqn:E.
    + destruct LS as [[Z LS]|[Z LS]]; [|lia]. apply lex_no_sep; [lia|exact LS].
    + apply (lex_no_tok _ _ p (p + s)).
      * destruct LS as [[Z LS]|[Z LS]]; [|left; split; [lia|]; now replace (p + s - p) with s by lia]. right. destruct (Nat.eqb_spec p 0) as [->|P0]; [|lia].
        cbn [skipn] in LS. split; [reflexivity|]. split; [lia|exact LS].
      * destruct (Nat.eqb_spec (longest (skipn (p + s) w) (map snd (tok_defs ts))) 0) as [Z|Z].
        -- rewrite tok_rx in Z. destruct (longest_fronts (map snd (ltoks ds)) (skipn (p + s) w) toks_prefix (query_skip (p + s) w Hq)) as [[_ LT]|[Z' _]]; [exact LT|congruence].
        -- exfalso. destruct (find _ _) eqn:Fi; [discriminate|]. exact (find_some_len _ Z Fi).
Qed.
Lemma tokens_lexes k : forall p, p <= length w -> length w - p <= k -> lexes ds w p (tokens_from ts w k p).
Proof.
  induction k as [|k IH]; intros p Hp Hk; cbn [tokens_from]; pose proof (next_lexes p Hp) as N; destruct (next_token ts w p) as [[[a b] ty]|]; [lia|exact N| |exact N].
  destruct N as (B1 & B2 & N). apply N. apply IH; lia.
Qed.
End Lex.
(** There is only one such list of tokens. *)
Lemma longest_unique fss u k k' : longest_front fss u k -> longest_front fss u k' -> k = k'.
Proof. intros [(fs & I & F) M] [(fs' & I' & F') M']. specialize (M _ _ I' F'). specialize (M' _ _ I F). lia. Qed.
Lemma none_longest fss u k : none_front fss u -> longest_front fss u k -> False.
Proof. intros N [(fs & I & F) _]. exact (N fs k I F). Qed.
Lemma start_unique ds w p q q' : token_start ds w p q -> token_start ds w p q' -> q = q'.
Proof.
  intros [[B L]|(-> & -> & N)] [[B' L']|(E & -> & N')]; [|subst p|..].
  - pose proof (longest_unique _ _ _ _ L L'). lia.
  - exfalso. cbn [skipn] in L. exact (none_longest _ _ _ N' L).
  - exfalso. cbn [skipn] in L'. exact (none_longest _ _ _ N L').
  - reflexivity.
Qed.
Lemma first_unique ds u k ty ty' : first_def ds u k ty -> first_def ds u k ty' -> ty = ty'.
Proof.
  intros (d1 & fs & d2 & E & F & N) (d1' & fs' & d2' & E' & F' & N'). rewrite E in E'. clear E. revert d1' E' N'. induction d1 as [|x d1 IH]; intros [|x' d1'] E' N'; cbn [app] in E'; injection E' as E1 E2.
  - congruence.
  - subst x'. exfalso. exact (N' (ty, fs) (or_introl eq_refl) F).
  - subst x. exfalso. exact (N (ty', fs') (or_introl eq_refl) F').
  - apply (IH (fun t I => N t (or_intror I)) d1' E2 (fun t I => N' t (or_intror I))).
Qed.
Lemma start_sep ds w p q : 0 < p -> none_front (lseps ds) (skipn p w) -> token_start ds w p q -> False.
Proof. intros P N [[_ L]|(-> & _)]; [exact (none_longest _ _ _ N L)|lia]. Qed.
Lemma lexes_unique ds w p l : lexes ds w p l -> forall l', lexes ds w p l' -> l' = l.
Proof.
  induction 1 as [p P N|p q T N|p q k ty l T Lf Fd Hl IH]; intros l' H'; inversion H' as [p' P' N'|p' q' T' N'|p' q' k' ty' m T' Lf' Fd' Hm]; subst; try reflexivity.
  - exfalso. exact (start_sep _ _ _ _ P N T').
  - exfalso. rewrite (start_unique _ _ _ _ _ T' T) in Lf'. exact (none_longest _ _ _ N Lf').
  - exfalso. exact (start_sep _ _ _ _ P' N' T).
  - exfalso. rewrite (start_unique _ _ _ _ _ T' T) in N'. exact (none_longest _ _ _ N' Lf).
  - pose proof (start_unique _ _ _ _ _ T' T) as ->. pose proof (longest_unique _ _ _ _ Lf' Lf) as ->. rewrite (first_unique _ _ _ _ _ Fd' Fd). f_equal. now apply IH.
Qed.

(** C52.  A tokenizer all of whose tokens and separators are written as separated fields
    (SpecFields.v) compiles, and a range-for over any text ends and shows exactly the tokens of
    the maximal munch (SpecLex.v), which is the only list of tokens that conforms to it.
    Missing: definitions that are not lists of separated fields (alternatives, nested groups). *)
Theorem C52_lexer_partial : forall ds pre w post, lexer_ok ds = true -> query_ok w -> post <> [] ->
  exists d l, make_defs (map show_ldef ds) = Some d
  /\ tok_range_for (S (length w)) (S (length w)) (env_of pre w post) d = Some (map (fun t => Some (as_shown pre t)) l)
  /\ lexes ds w 0 l /\ forall l', lexes ds w 0 l' -> l' = l.
Proof.
  intros ds pre w post H Q P. pose proof (lexer_defs ds H) as D. pose proof (make_defs_ok _ (defs_ok_ds _ D)) as M. rewrite map_map, (map_ext _ _ show_tdef) in M.
  exists (the_defs (map as_tdef ds)), (tokens (map as_tdef ds) w). pose proof (tokens_lexes ds w H Q (length w) 0 ltac:(lia) ltac:(lia)) as LX. conj; auto.
  - apply C39_munch_partial; auto. now rewrite map_map, (map_ext _ _ show_tdef).
  - intros l' L'. exact (lexes_unique ds w 0 _ LX l' L').
Qed.
Print Assumptions C52_lexer_partial.
(** Keyword, identifier, number, string: the keyword is listed first and wins only on its own. *)
Definition case_lexer : list ldef :=
  [ LTok 0 (field_lit "if")
  ; LTok 1 [Fld false (EClass false [CRange 97 122]) One; Fld false (EEsc 119) Star]
  ; LTok 2 ([Fld true digit Plus] ++ [Fld false (EEsc 46) One] ++ [Fld true digit Plus])
  ; LTok 3 (field_lit """" ++ [Fld false (EClass true [CChar 34]) Star] ++ field_lit """")
  ; LSep [Fld false (EEsc 115) Plus] ].
Definition case_text : str := S2L "if ifx 3.14 ""a b"" !".
Example C52_case : exists d, lexer_ok case_lexer = true
  /\ map show_ldef case_lexer = [DTok 0 (S2L "if"); DTok 1 (S2L "[a-z]\w*"); DTok 2 (S2L "(\d+)\.(\d+)"); DTok 3 (S2L """[^""]*"""); DSep (S2L "\s+")]
  /\ query_ok case_text /\ make_defs (map show_ldef case_lexer) = Some d
  /\ tok_range_for 40 40 (env_of [] case_text [0%Z]) d = Some (map (fun t => Some (as_shown [] t)) [(0, 2, 0); (3, 6, 1); (7, 11, 2); (12, 17, 3)]).
Proof.
  exists (match make_defs (map show_ldef case_lexer) with Some d => d | None => mkDefs [] [] end). unfold query_ok. conj; vm_compute; reflexivity.
Qed.
(** Without [spaced]: of \d*\d+5 the first run takes all the digits, and the library does not try
    again with fewer; "15" is not a token although it consists of these fields. *)
Theorem C52_lexer_refuted : exists ds w d, make_defs (map show_ldef ds) = Some d
  /\ forallb (fun x => match x with LTok _ fs | LSep fs => forallb fok fs && counted false fs && first_ok fs end) ds = true
  /\ lexes ds w 0 [(0, 2, 7)] /\ tok_range_for 3 3 (env_of [] w [0%Z]) d = Some [].
Proof.
  set (fs := [Fld false digit Star; Fld false digit Plus; Fld false (ELit 53) One]).
  assert (FR : front fs (S2L "15") 2).
  { split; [vm_compute; lia|]. exists [[]; [49]; [53]]%Z. split; [|vm_compute; reflexivity]. repeat (constructor; [split; [repeat constructor|cbn; try reflexivity; discriminate]|]). constructor. }
  exists [LTok 7 fs; LSep (field_lit " ")], (S2L "15"), (match make_defs (map show_ldef [LTok 7 fs; LSep (field_lit " ")]) with Some d => d | None => mkDefs [] [] end).
  split; [vm_compute; reflexivity|]. split; [vm_compute; reflexivity|]. split; [|vm_compute; reflexivity].
  assert (NS : forall u, u = S2L "15" \/ u = [] -> none_front [field_lit " "] u).
  { intros u Hu f k [<-|[]] (B & parts & D & E). inversion D as [|? p ? ps Fp Fr]; subst. destruct Fp as [Fp Fl]. cbn in Fl. destruct p as [|c [|]]; try discriminate Fl. inversion Fp as [|? ? Sc _]; subst.
    cbn [concat app] in E. assert (c = 32)%Z by (change (elem_set (ELit 32) c = true) in Sc; cbn in Sc; lia). subst c.
    destruct Hu as [->| ->]; destruct k; discriminate E. }
  apply (lex_tok _ _ 0 0 2 7 []).
  - right. split; [reflexivity|]. split; [reflexivity|]. apply NS. now left.
  - split; [exists fs; split; [now left|exact FR]|]. intros f k [<-|[]] [B _]. exact B.
  - exists [], fs, []. split; [reflexivity|]. split; [exact FR|intros t []].
  - apply lex_no_sep; [lia|]. apply NS. now right.
Qed.
Print Assumptions C52_lexer_refuted.
