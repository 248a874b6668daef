(** C52: lexers whose definitions need one character of lookahead. *)
From Coq Require Import String ZArith NArith List Bool Lia ZifyBool ZifyNat ZifyN.
From Verif Require Import Base Text Ast Builder Engine Api Spec SpecProofs SpecEnd Supported Main SpecTok TokIter Anchor Tok Refuted PropertiesMatch PropertiesTok SpecFields SpecChoice SpecLL LL LLSem PropertiesLL SpecMunch.
Import ListNotations.
Open Scope nat_scope.
Notation longest := SpecTok.longest.

Lemma lone_tok r : lone r = true -> tok_ok r = true.
Proof.
  unfold lone. destruct r as [[[] s]|]; try discriminate. rewrite !andb_true_iff. intros [[W N] L]. unfold tok_ok. cbn [caret].
  assert (E : exact (ROne (Br true s)) = true).
  { apply look_exact; [destruct s; [discriminate|exact W]|exact L]. }
  rewrite E. reflexivity.
Qed.
Lemma munch_parts ds : munch_ok ds = true -> (forall t, In t (tok_defs ds) -> lone (snd t) = true) /\ (forall r, In r (sep_defs ds) -> lone r = true) /\ tok_defs ds <> [] /\ sep_defs ds <> [].
Proof.
  unfold munch_ok. rewrite !andb_true_iff. intros [[A B] C]. conj.
  - clear B C. induction ds as [|[ty fs|fs] ds IH]; cbn [tok_defs forallb] in *; [intros t []| |]; apply andb_true_iff in A as [A1 A2]; [|now apply IH]. intros t [<-|Ht]; [exact A1|now apply IH].
  - clear B C. induction ds as [|[ty fs|fs] ds IH]; cbn [sep_defs forallb] in *; [intros t []| |]; apply andb_true_iff in A as [A1 A2]; [now apply IH|]. intros t [<-|Ht]; [exact A1|now apply IH].
  - intro X. now rewrite X in B.
  - intro X. now rewrite X in C.
Qed.
Lemma munch_defs ds : munch_ok ds = true -> defs_ok ds = true.
Proof.
  intro H. destruct (munch_parts ds H) as (T & S & NT & NS). unfold defs_ok. rewrite !andb_true_iff. conj.
  - apply forallb_forall. intros r Hr. apply lone_tok. auto.
  - apply forallb_forall. intros t Ht. apply lone_tok. auto.
  - destruct (sep_defs ds); [congruence|reflexivity].
  - destruct (tok_defs ds); [congruence|reflexivity].
Qed.
Lemma len_begins r u : lone r = true -> query_ok u ->
  (len_at u r <> 0 /\ begins r u (len_at u r) /\ forall k, begins r u k -> k <= len_at u r) \/ (len_at u r = 0 /\ forall k, ~ begins r u k).
Proof.
  intros H Q. unfold lone in H. destruct r as [[[] s]|]; try discriminate. rewrite !andb_true_iff in H. destruct H as [[W N] L].
  pose proof (top_taken u (proj1 Q) _ W N L 0 (Nat.le_0_l _)) as M. unfold len_at, begins. destruct (match_at u _ 0) as [c|].
  - destruct M as (T & La & B). left. split; [lia|]. split; [exact La|]. intros k X. destruct T as [_ T]. apply T. exact X.
  - right. split; [reflexivity|exact M].
Qed.
Lemma begins_len r u k : lone r = true -> query_ok u -> begins r u k -> k <= len_at u r /\ 0 < len_at u r.
Proof. intros H Q B. destruct (len_begins r u H Q) as [(Z & _ & X)|[_ X]]; [|now elim (X k)]. split; [now apply X|lia]. Qed.
Lemma longest_begins rs u : (forall r, In r rs -> lone r = true) -> query_ok u ->
  (longest u rs = 0 /\ none_begins rs u) \/ (longest u rs <> 0 /\ most_begins rs u (longest u rs)).
Proof.
  intros H Q. set (m := longest u rs).
  assert (UP : forall r k, In r rs -> begins r u k -> k <= m /\ 0 < m).
  { intros r k Hi Fr. destruct (begins_len r u k (H r Hi) Q Fr) as [A B]. pose proof (proj1 (list_max_le (map (len_at u) rs) m) (Nat.le_refl _)) as X. rewrite Forall_map, Forall_forall in X. specialize (X r Hi). lia. }
  destruct (Nat.eq_dec m 0) as [Z|Z].
  - left. split; [exact Z|]. intros r k Hi Fr. destruct (UP r k Hi Fr). lia.
  - right. split; [exact Z|]. split; [|intros r k Hi Fr; now apply (UP r k Hi Fr)].
    assert (Hm : In m (map (len_at u) rs)) by (apply max_hit; exact Z). apply in_map_iff in Hm as (r & E & Hi).
    exists r. split; [exact Hi|]. destruct (len_begins r u (H r Hi) Q) as [(_ & X & _)|[X _]]; [now rewrite E in X|lia].
Qed.
Section Munch.
Variables (ds : list tdef) (w : str).
Hypothesis Hd : munch_ok ds = true.
Hypothesis Hq : query_ok w.
Lemma toks_lone : forall r, In r (map snd (tok_defs ds)) -> lone r = true.
Proof. intros r Hi. apply in_map_iff in Hi as (t & <- & Hi). exact (proj1 (munch_parts ds Hd) t Hi). Qed.
Lemma find_kind u k : query_ok u -> k <> 0 -> most_begins (map snd (tok_defs ds)) u k -> forall t, find (fun t => len_at u (snd t) =? k) (tok_defs ds) = Some t -> kind_of ds u k (fst t).
Proof.
  intros Q Z [_ MX] t. pose proof toks_lone as TP. unfold kind_of. revert MX TP. generalize (tok_defs ds). intro l. induction l as [|[ty r] l IH]; intros MX TP H; [discriminate|].
  cbn [find fst snd] in H. cbn [map snd] in MX, TP. destruct (Nat.eqb_spec (len_at u r) k) as [E|E].
  - injection H as <-. exists [], r, l. cbn [fst]. split; [reflexivity|]. split; [|intros t []]. destruct (len_begins r u (TP r (or_introl eq_refl)) Q) as [(_ & X & _)|[X _]]; [now rewrite E in X|lia].
  - destruct (IH (fun r0 k0 I0 => MX r0 k0 (or_intror I0)) (fun r0 I0 => TP r0 (or_intror I0)) H) as (d1 & r' & d2 & -> & Fr & Fi).
    exists ((ty, r) :: d1), r', d2. split; [reflexivity|]. split; [exact Fr|]. intros t' [<-|Hi]; [|now apply Fi]. cbn [snd]. intro X. apply E. apply Nat.le_antisymm.
    + destruct (len_begins r u (TP r (or_introl eq_refl)) Q) as [(_ & Y & _)|[Y _]]; [apply (MX r); [now left|exact Y]|lia].
    + apply (begins_len r u k); auto. apply TP. now left.
Qed.
Lemma find_some_kind u : longest u (map snd (tok_defs ds)) <> 0 -> find (fun t => len_at u (snd t) =? longest u (map snd (tok_defs ds))) (tok_defs ds) <> None.
Proof.
  intros Z N. unfold longest in *. apply max_hit in Z as Hi. apply in_map_iff in Hi as (r & E & Hi). apply in_map_iff in Hi as (t & <- & Hi). pose proof (find_none _ _ N t Hi) as X. cbn beta in X. lia.
Qed.
Lemma next_munch p : p <= length w ->
  match next_token ds w p with
  | None => munches ds w p []
  | Some (a, b, ty) => p <= a < b /\ b <= length w /\ forall l, munches ds w b l -> munches ds w p ((a, b, ty) :: l)
  end.
Proof.
  intro Hp. pose proof (next_token_bound w ds (defs_ok_ds ds (munch_defs ds Hd)) p) as NB. destruct (munch_parts ds Hd) as (T & S & NT & NS).
  set (s := longest (skipn p w) (sep_defs ds)). pose proof (longest_begins (sep_defs ds) (skipn p w) S (query_skip p w Hq)) as LS. fold s in LS.
  assert (TS : (s =? 0) && negb (p =? 0) = false -> starts_at ds w p (p + s)).
  { intro N. destruct LS as [[Z LS]|[Z LS]]; [|left; split; [lia|]; now replace (p + s - p) with s by lia]. right. destruct (Nat.eqb_spec p 0) as [->|P0]; [|rewrite Z in N; discriminate].
    cbn [skipn] in LS. split; [reflexivity|]. split; [lia|exact LS]. }
  unfold next_token in *. cbv zeta in *. fold s in NB |- *. destruct ((s =? 0) && negb (p =? 0)) eqn:E.
  { destruct LS as [[Z LS]|[Z LS]]; [|lia]. apply munch_no_sep; [lia|exact LS]. }
  specialize (TS eq_refl). set (u := skipn (p + s) w) in *. set (m := longest u (map snd (tok_defs ds))) in *.
  pose proof (longest_begins (map snd (tok_defs ds)) u toks_lone (query_skip (p + s) w Hq)) as LT. fold m in LT.
  destruct (Nat.eqb_spec m 0) as [Z|Z].
  { destruct LT as [[_ LT]|[Z' _]]; [|congruence]. exact (munch_no_tok _ _ p (p + s) TS LT). }
  destruct LT as [[Z' _]|[_ LT]]; [congruence|]. destruct (find _ _) as [t|] eqn:Fi.
  - specialize (NB _ _ _ Hp eq_refl). split; [lia|]. split; [lia|]. intros l Hl. apply munch_tok; auto. apply find_kind; auto. apply query_skip. exact Hq.
  - exfalso. exact (find_some_kind _ Z Fi).
Qed.
Lemma tokens_munch k : forall p, p <= length w -> length w - p <= k -> munches ds w p (tokens_from ds w k p).
Proof.
  induction k as [|k IH]; intros p Hp Hk; cbn [tokens_from]; pose proof (next_munch p Hp) as N; destruct (next_token ds w p) as [[[a b] ty]|]; [lia|exact N| |exact N].
  destruct N as (B1 & B2 & N). apply N. apply IH; lia.
Qed.
End Munch.
(** There is only one such list of tokens. *)
Lemma most_unique rs u k k' : most_begins rs u k -> most_begins rs u k' -> k = k'.
Proof. intros [(r & Hi & F) M] [(r' & Hi' & F') M']. specialize (M _ _ Hi' F'). specialize (M' _ _ Hi F). lia. Qed.
Lemma none_most rs u k : none_begins rs u -> most_begins rs u k -> False.
Proof. intros N [(r & Hi & F) _]. exact (N r k Hi F). Qed.
Lemma starts_unique ds w p q q' : starts_at ds w p q -> starts_at ds w p q' -> q = q'.
Proof.
  intros [[B L]|(-> & -> & N)] [[B' L']|(E & -> & N')]; [|subst p|..].
  - pose proof (most_unique _ _ _ _ L L'). lia.
  - exfalso. cbn [skipn] in L. exact (none_most _ _ _ N' L).
  - exfalso. cbn [skipn] in L'. exact (none_most _ _ _ N L').
  - reflexivity.
Qed.
Lemma kind_unique ds u k ty ty' : kind_of ds u k ty -> kind_of ds u k ty' -> ty = ty'.
Proof.
  intros (d1 & r & d2 & E & F & N) (d1' & r' & d2' & E' & F' & N'). rewrite E in E'. clear E. revert d1' E' N'. induction d1 as [|x d1 IH]; intros [|x' d1'] E' N'; cbn [app] in E'; injection E' as E1 E2.
  - congruence.
  - subst x'. exfalso. exact (N' (ty, r) (or_introl eq_refl) F).
  - subst x. exfalso. exact (N (ty', r') (or_introl eq_refl) F').
  - apply (IH (fun t Hi => N t (or_intror Hi)) d1' E2 (fun t Hi => N' t (or_intror Hi))).
Qed.
Lemma starts_sep ds w p q : 0 < p -> none_begins (sep_defs ds) (skipn p w) -> starts_at ds w p q -> False.
Proof. intros P N [[_ L]|(-> & _)]; [exact (none_most _ _ _ N L)|lia]. Qed.
Theorem C52_munch_unique : forall ds w p l, munches ds w p l -> forall l', munches ds w p l' -> l' = l.
Proof.
  intros ds w p l H. induction H as [p P N|p q T N|p q k ty l T Lf Fd Hl IH]; intros l' H'; inversion H' as [p' P' N'|p' q' T' N'|p' q' k' ty' m T' Lf' Fd' Hm]; subst; try reflexivity.
  - exfalso. exact (starts_sep _ _ _ _ P N T').
  - exfalso. rewrite (starts_unique _ _ _ _ _ T' T) in Lf'. exact (none_most _ _ _ N Lf').
  - exfalso. exact (starts_sep _ _ _ _ P' N' T).
  - exfalso. rewrite (starts_unique _ _ _ _ _ T' T) in N'. exact (none_most _ _ _ N' Lf).
  - pose proof (starts_unique _ _ _ _ _ T' T) as ->. pose proof (most_unique _ _ _ _ Lf' Lf) as ->. rewrite (kind_unique _ _ _ _ _ Fd' Fd). f_equal. now apply IH.
Qed.
Print Assumptions C52_munch_unique.

(** C52.  A tokenizer all of whose tokens and separators need one character of lookahead (groups,
    alternatives in groups and repetitions nested at will, SpecLL.v) compiles, and a range-for
    over any text ends and shows exactly the tokens of the maximal munch over the languages of
    the definitions (SpecMunch.v), which is the only list of tokens that conforms to it.
    Missing: definitions in which one character does not decide (false: C39_munch_refuted),
    with | outside of groups (false: C42_anchor_refuted) or possessive quantifiers. *)
Theorem C52_munch_partial : forall ds pre w post, munch_ok ds = true -> query_ok w -> post <> [] ->
  exists d l, make_defs (map def_text ds) = Some d
  /\ tok_range_for (S (length w)) (S (length w)) (env_of pre w post) d = Some (map (fun t => Some (as_shown pre t)) l)
  /\ munches ds w 0 l /\ forall l', munches ds w 0 l' -> l' = l.
Proof.
  intros ds pre w post H Q P. pose proof (munch_defs ds H) as D. pose proof (make_defs_ok _ (defs_ok_ds _ D)) as M.
  exists (the_defs ds), (tokens ds w). pose proof (tokens_munch ds w H Q (length w) 0 ltac:(lia) ltac:(lia)) as LX. split; [exact M|]. split; [|split; [exact LX|]].
  - apply C39_munch_partial; auto.
  - intros l' L'. exact (C52_munch_unique ds w 0 _ LX l' L').
Qed.
Print Assumptions C52_munch_partial.
(** Identifiers with dots, numbers with an exponent, operators. *)
Definition low : atom := AEl (EClass false [CRange 97 122]).
Definition case_munch : list tdef :=
  [ Tok 0 (pat (chs "let"))
  ; Tok 1 (pat [(low, Q1); (AEl (EEsc 119), star); (ANon (pat [(esc ".", Q1); (AEl (EEsc 119), plus)]), star)])
  ; Tok 2 (pat [(digits, plus); (ANon (pat [(lit "E", Q1); (lit "-", opt); (digits, plus)]), opt)])
  ; Tok 3 (pat [(ANon (or2 (chs "=") (chs "<>")), Q1)])
  ; Sep (pat [(AEl (EEsc 115), plus)]) ].
Definition munch_text : str := S2L "let letx.y1 = 12E-3 <> a.".
Example C52_munch_case : exists d, munch_ok case_munch = true
  /\ map def_text case_munch = [DTok 0 (S2L "let"); DTok 1 (S2L "[a-z]\w*(?:\.\w+)*"); DTok 2 (S2L "\d+(?:E-?\d+)?"); DTok 3 (S2L "(?:=|<>)"); DSep (S2L "\s+")]
  /\ query_ok munch_text /\ make_defs (map def_text case_munch) = Some d
  /\ tok_range_for 40 40 (env_of [] munch_text [0%Z]) d = Some (map (fun t => Some (as_shown [] t)) [(0, 3, 0); (4, 11, 1); (12, 13, 3); (14, 19, 2); (20, 22, 3); (23, 24, 1)]).
Proof.
  exists (match make_defs (map def_text case_munch) with Some d => d | None => mkDefs [] [] end). unfold query_ok. conj; vm_compute; reflexivity.
Qed.
(** C39 and C52.  One character does not decide in (?:a|ab)c: in "abc" the longest token is "abc"
    (type 0); the tokenizer shows "ab" (type 1). *)
Theorem C39_munch_refuted : exists ds w d, make_defs (map def_text ds) = Some d /\ query_ok w
  /\ munches ds w 0 [(0, 3, 0)]
  /\ tok_range_for 4 4 (env_of [] w [0%Z]) d = Some [Some (as_shown [] (0, 2, 1))].
Proof.
  set (r0 := pat [(ANon (or2 (chs "a") (chs "ab")), Q1); (lit "c", Q1)]). set (r1 := pat (chs "ab")). set (rs := pat (chs " ")).
  exists [Tok 0 r0; Tok 1 r1; Sep rs], (S2L "abc"), (match make_defs (map def_text [Tok 0 r0; Tok 1 r1; Sep rs]) with Some d => d | None => mkDefs [] [] end).
  split; [vm_compute; reflexivity|]. split; [split; vm_compute; reflexivity|]. split; [|vm_compute; reflexivity].
  assert (B0 : begins r0 (S2L "abc") 3) by (apply (match_at_lang (S2L "abc") r0 0 (3, []) eq_refl); vm_compute; reflexivity).
  assert (NS : forall u, u = S2L "abc" \/ u = [] -> none_begins [rs] u).
  { intros u Hu r k [<-|[]] B. assert (Qu : query_ok u) by (destruct Hu as [->| ->]; split; vm_compute; reflexivity).
    destruct (len_begins rs u eq_refl Qu) as [(Z & _)|[_ X]]; [|exact (X k B)]. apply Z. destruct Hu as [->| ->]; vm_compute; reflexivity. }
  apply (munch_tok _ _ 0 0 3 0 []).
  - right. split; [reflexivity|]. split; [reflexivity|]. apply NS. now left.
  - split; [exists r0; split; [now left|exact B0]|]. intros r k Hi B. unfold begins in B. apply lang_forward in B; [|apply Nat.le_0_l]. cbn in B. lia.
  - exists [], r0, [(1, r1)]. split; [reflexivity|]. split; [exact B0|intros t []].
  - apply munch_no_sep; [lia|]. apply NS. now right.
Qed.
Print Assumptions C39_munch_refuted.
