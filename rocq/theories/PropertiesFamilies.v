(** C05-C08, C26, C27, C44, C45: what simple patterns of every length mean, stated without
    the specification of regular expressions: only characters and positions.  Patterns are
    given by their text. *)
From Coq Require Import String ZArith NArith List Bool Lia ZifyBool ZifyNat ZifyN.
From Verif Require Import Base Text Ast Builder Engine Api Spec SpecProofs SpecEnd Tree Den Checker AstProofs BuilderProofs
  ApiProofs Runs Supported Main Captures Mono Find Sound Families Refuted PropertiesMatch.
Import ListNotations.
Open Scope nat_scope.

(** The pattern text [p] is accepted by the compiler, and constructing its result on the query
    [w] (anywhere in memory, followed by at least one byte) reports the leftmost place
    [i..j) with [at_ i j], or is not accepted if there is no such place. *)
Definition finds_first (p w : str) (at_ : nat -> nat -> Prop) : Prop :=
  forall pre post, post <> [] ->
  exists n s, compile p = Some n /\ create (default_fuel w) (env_of pre w post) n = RDone s
    /\ ((is_accepted s = false /\ forall i j, i <= length w -> ~ at_ i j)
        \/ exists i j, is_accepted s = true /\ to_view s = Some (place pre i j) /\ at_ i j
             /\ forall k j', k < i -> ~ at_ k j').
Lemma finds_first_of r w at_ : supported r = true -> query_ok w ->
  (forall i, i <= length w -> forall j, (exists l, match_at w r i = Some (j, l)) <-> at_ i j) -> finds_first (show r) w at_.
Proof.
  intros Hs Q M pre post P. exists (ctree r).
  destruct (create_found r pre w post Hs Q P (default_fuel w) (Nat.lt_succ_diag_r _)) as (s & E & SH & _).
  exists s. split; [apply (sup_compile r Hs)|]. split; [exact E|]. unfold shows in SH.
  destruct (search w r 0) as [[i [j l]]|] eqn:SR.
  - right. exists i, j. apply search_some in SR as (B & Mi & N). conj; auto.
    + unfold to_view in SH. destruct (is_accepted s); [reflexivity|discriminate].
    + apply M; [lia|eauto].
    + intros k j' Hk X. apply M in X; [|lia]. destruct X as [l' X]. rewrite N in X by lia. discriminate.
  - left. split; [unfold to_view in SH; destruct (is_accepted s); [discriminate|reflexivity]|].
    intros i j Hi X. apply M in X; [|exact Hi]. destruct X as [l' X]. rewrite (search_none w r 0 SR i) in X by lia. discriminate.
Qed.
(** Two results that report the leftmost place report the same one. *)
Lemma finds_first_ext p w at_ at_' : (forall i j, i <= length w -> (at_ i j <-> at_' i j)) ->
  (forall i j, at_ i j -> i <= length w) -> finds_first p w at_ -> finds_first p w at_'.
Proof.
  intros X B H pre post P. destruct (H pre post P) as (n & s & C & E & [[A N]|(i & j & A & V & Y & N)]); exists n, s; conj; auto.
  - left. split; [exact A|]. intros i j Hi Z. apply (N i j Hi). now apply X.
  - right. pose proof (B i j Y). exists i, j. conj; auto; [apply X; auto|]. intros k j' Hk Z. apply (N k j' Hk). apply X; [lia|exact Z].
Qed.

(** ** Sequences of elements *)
Definition show_elems (l : list elem) : str := flat_map show_elem l.
Lemma show_eseq l : show_sq (eseq l) = show_elems l.
Proof. induction l as [|x l IH]; [reflexivity|]. change (show_sq (eseq (x :: l))) with (show_elem x ++ [] ++ show_sq (eseq l)). now rewrite IH. Qed.
Lemma match_branch w b i j : (exists l, match_at w (ealt b []) i = Some (j, l)) <-> branch_at w b i /\ j = i + length (snd b).
Proof.
  rewrite match_ealt. cbn [first_branch]. rewrite <- bat_ok. destruct (bat w b i); cbn [option_map]; split.
  - intros [l [= <- _]]. auto.
  - intros [_ ->]. eauto.
  - intros [l X]. discriminate.
  - intros [X _]. discriminate.
Qed.
(** The characters of [w] from [i] on belong to the elements one by one, and end at [j]. *)
Definition elems_at (w : str) (l : list elem) (i j : nat) : Prop :=
  j = i + length l /\ j <= length w /\ Forall2 (fun x c => elem_set x c = true) l (firstn (length l) (skipn i w)).
Lemma pointwise_elems w l : forall i, l <> [] -> (pointwise w l i <-> elems_at w l i (i + length l)).
Proof.
  unfold elems_at. intros i N. rewrite <- pw_ok. assert (Hn : forall l i, pw w l i = true -> l <> [] -> i + length l <= length w).
  { clear. induction l as [|x [|y l] IH]; intros i H N; [congruence| |].
    - cbn in *. destruct (nth_error w i) eqn:E; [|discriminate]. assert (i < length w) by (apply nth_error_Some; congruence). lia.
    - cbn [pw] in H. destruct (nth_error w i); [|discriminate]. apply andb_true_iff in H as [_ H].
      specialize (IH (S i) H ltac:(discriminate)). cbn [length] in *. lia. }
  transitivity (i + length l <= length w /\ Forall2 (fun x c => elem_set x c = true) l (firstn (length l) (skipn i w))); [|tauto].
  assert (F : forall l i, pw w l i = true <-> Forall2 (fun x c => elem_set x c = true) l (firstn (length l) (skipn i w))).
  { clear. induction l as [|x l IH]; intro i; cbn [pw length firstn].
    - split; [constructor|reflexivity].
    - rewrite (skipn_nth w i). destruct (nth_error w i) as [c|]; cbn [firstn].
      + rewrite andb_true_iff, IH. split; [intros [A B]; now constructor|intro H; inversion H; auto].
      + split; [discriminate|intro H; inversion H]. }
  rewrite <- F. split; [intro H; split; [apply (Hn l i H N)|exact H]|tauto].
Qed.
Lemma branch_ok a l : l <> [] -> forallb (fun x => elem_ok x && fine x) l = true -> forallb ebr_ok [(a, l)] = true.
Proof. intros N H. cbn [forallb]. unfold ebr_ok. cbn [snd]. rewrite H. destruct l; [congruence|reflexivity]. Qed.

(** C44.  A sequence of elements, anchored: accepted iff the query begins with characters of
    the elements, one by one; and then exactly those are reported.  Not anchored, with a
    first element other than \s, [..\s..] and [^..]: the first such place in the query.
    The elements may contain \s only as an element or at the end of a positive class. *)
Theorem C44_pointwise_partial : forall l w, l <> [] -> forallb (fun x => elem_ok x && fine x) l = true -> query_ok w ->
  finds_first (c_caret :: show_elems l) w (fun i j => i = 0 /\ elems_at w l i j)
  /\ (match l with x :: _ => tidy x | [] => false end = true -> finds_first (show_elems l) w (elems_at w l)).
Proof.
  intros l w N F Q. split.
  - replace (c_caret :: show_elems l) with (show (ealt (true, l) [])) by (unfold ealt, ebr; cbn [show show_br fst snd]; now rewrite show_eseq).
    apply finds_first_of; auto.
    + apply ealt_supported; [now apply branch_ok|reflexivity].
    + intros i Hi j. rewrite match_branch. unfold branch_at. cbn [fst snd]. rewrite (pointwise_elems w l i N). unfold elems_at. split.
      * intros ((A & B) & ->). split; auto.
      * intros (-> & -> & B). split; auto.
  - intro T. replace (show_elems l) with (show (ealt (false, l) [])) by (unfold ealt, ebr; cbn [show show_br fst snd]; now rewrite show_eseq).
    apply finds_first_of; auto.
    + apply ealt_supported; [now apply branch_ok|]. cbn [forallb]. unfold first_tidy. cbn [fst snd orb]. destruct l; [discriminate|]. now rewrite T.
    + intros i Hi j. rewrite match_branch. unfold branch_at. cbn [fst snd]. rewrite (pointwise_elems w l i N). unfold elems_at. split.
      * intros ((A & B) & ->). tauto.
      * intros (-> & B). split; auto. split; [discriminate|]. split; auto.
Qed.
Print Assumptions C44_pointwise_partial.
Example C44_case : let l := [EClass false [CRange 97 122; CEsc 100]; EEsc 115; EDot] in
  forallb (fun x => elem_ok x && fine x) l = true /\ match l with x :: _ => tidy x | [] => false end = true
  /\ show_elems l = S2L "[a-z\d]\s." /\ elems_at (S2L "--7 %") l 2 5 /\ query_ok (S2L "--7 %").
Proof. unfold query_ok, elems_at. conj; try (vm_compute; reflexivity); repeat constructor. Qed.

(** ** One element *)
(** The character at [i] is in [P]. *)
Definition char_at (w : str) (P : chr -> bool) (i j : nat) : Prop :=
  j = S i /\ exists c, nth_error w i = Some c /\ P c = true.
Lemma one_elem w x i j : elems_at w [x] i j <-> char_at w (elem_set x) i j.
Proof.
  unfold elems_at, char_at. cbn [length]. rewrite (skipn_nth w i). split.
  - intros (-> & B & F). split; [lia|]. inversion F as [|? c ? ? Hc _ E1 E2]; subst. destruct (nth_error w i) as [d|]; [|discriminate].
    cbn in *. exists d. split; [reflexivity|]. congruence.
  - intros (-> & c & E & P). assert (i < length w) by (apply nth_error_Some; congruence). rewrite E. conj; try lia. repeat constructor. exact P.
Qed.
Lemma one_element x w : elem_ok x = true -> fine x = true -> query_ok w ->
  finds_first (c_caret :: show_elem x) w (fun i j => i = 0 /\ char_at w (elem_set x) i j)
  /\ (tidy x = true -> finds_first (show_elem x) w (char_at w (elem_set x))).
Proof.
  intros E F Q. destruct (C44_pointwise_partial [x] w) as [A B]; auto; [discriminate|cbn; now rewrite E, F|].
  unfold show_elems in *. cbn [flat_map] in *. rewrite app_nil_r in *. split.
  - revert A. apply finds_first_ext; [intros i j _; now rewrite one_elem|]. intros i j [-> _]. lia.
  - intro T. generalize (B T). apply finds_first_ext; [intros i j _; now rewrite one_elem|]. intros i j (-> & H & _). lia.
Qed.

(** C06.  \OOO, from \000 to \377, finds exactly the byte with that octal value. *)
Theorem C06_octal : forall a b c w, (0 <= a <= 3)%Z -> (0 <= b <= 7)%Z -> (0 <= c <= 7)%Z -> query_ok w ->
  finds_first [c_bslash; a + 48; b + 48; c + 48]%Z w (char_at w (fun x => x =? byte_chr (64 * a + 8 * b + c))%Z).
Proof.
  intros a b c w Ha Hb Hc Q. apply (one_element (EOct a b c) w); auto. unfold elem_ok, digit_ok. lia.
Qed.
Print Assumptions C06_octal.
Example C06_case : [c_bslash; 3 + 48; 5 + 48; 1 + 48]%Z = S2L "\351" /\ byte_chr (64 * 3 + 8 * 5 + 1) = (-23)%Z
  /\ query_ok [97; -23]%Z /\ char_at [97; -23]%Z (fun x => x =? -23)%Z 1 2.
Proof. unfold query_ok, char_at. conj; try (vm_compute; reflexivity). exists (-23)%Z. split; reflexivity. Qed.

(** C05.  \xHH with the digits 0..9.  Missing: the digits A..F (false, C05_hex_refuted) and
    the \x{HHHH} form. *)
Theorem C05_hex_partial : forall a b w, (0 <= a <= 9)%Z -> (0 <= b <= 9)%Z -> query_ok w ->
  finds_first [c_bslash; 120; a + 48; b + 48]%Z w (char_at w (fun x => x =? byte_chr (16 * a + b))%Z).
Proof.
  intros a b w Ha Hb Q. assert (D : forall d, (0 <= d <= 9)%Z -> hex_chr d = (d + 48)%Z) by (intros d Hd; unfold hex_chr; destruct (Z.ltb_spec d 10); lia).
  rewrite <- (D a Ha), <- (D b Hb). apply (one_element (EHex a b) w); auto. unfold elem_ok, digit_ok. lia.
Qed.
Print Assumptions C05_hex_partial.
Example C05_case : [c_bslash; 120; 9 + 48; 5 + 48]%Z = S2L "\x95" /\ byte_chr (16 * 9 + 5) = (-107)%Z
  /\ query_ok [97; -107]%Z /\ char_at [97; -107]%Z (fun x => x =? -107)%Z 1 2.
Proof. unfold query_ok, char_at. conj; try (vm_compute; reflexivity). exists (-107)%Z. split; reflexivity. Qed.

(** C07.  The text of a one-character pattern and the documented set of characters. *)
Definition documented (p : str) (P : chr -> bool) : Prop :=
  (exists c, p = [c] /\ plain c = true /\ P = (fun x => x =? c)%Z)
  \/ (exists c, p = [c_bslash; c] /\ escapable c = true /\ ~ In c (S2L "dwsaefnrt") /\ P = (fun x => x =? c)%Z)
  \/ (p = S2L "\d" /\ P = (fun x => (48 <=? x) && (x <=? 57)))%Z
  \/ (p = S2L "\w" /\ P = (fun x => ((65 <=? x) && (x <=? 90)) || ((97 <=? x) && (x <=? 122)) || ((48 <=? x) && (x <=? 57)) || (x =? 95)))%Z
  \/ (p = S2L "\s" /\ P = (fun x => existsb (Z.eqb x) [9; 10; 12; 13; 32]))%Z
  \/ (p = S2L "\a" /\ P = (fun x => x =? 7))%Z
  \/ (p = S2L "\e" /\ P = (fun x => x =? 27))%Z
  \/ (p = S2L "\f" /\ P = (fun x => x =? 12))%Z
  \/ (p = S2L "\n" /\ P = (fun x => x =? 10))%Z
  \/ (p = S2L "\r" /\ P = (fun x => x =? 13))%Z
  \/ (p = S2L "\t" /\ P = (fun x => x =? 9))%Z
  \/ (p = S2L "." /\ P = (fun x => negb (x =? 10)))%Z.
Lemma documented_elem p P : documented p P -> exists x, show_elem x = p /\ elem_ok x = true /\ fine x = true
  /\ (p <> S2L "\s" -> tidy x = true) /\ forall c, elem_set x c = P c.
Proof.
  assert (E : forall c, escapable c = true -> (c <> 115 -> tidy (EEsc c) = true)%Z).
  { intros c _ H. cbn [tidy]. apply negb_true_iff, Z.eqb_neq, H. }
  intro H. unfold documented in H.
  destruct H as [(c & -> & H & ->)|[(c & -> & H & NI & ->)|H]].
  - exists (ELit c). conj; auto.
  - exists (EEsc c). conj; auto.
    + intro X. apply E; auto. intros ->. apply X. reflexivity.
    + intro x. cbn [elem_set]. unfold esc_set. change (S2L "dwsaefnrt") with [100; 119; 115; 97; 101; 102; 110; 114; 116]%Z in NI.
      cbn [In] in NI.
      repeat match goal with |- (if (c =? ?b)%Z then _ else _) = _ => destruct (Z.eqb_spec c b) as [Y|_]; [exfalso; apply NI; clear - Y; lia|] end.
      reflexivity.
  - repeat (destruct H as [[-> ->]|H]); [..|destruct H as [-> ->]].
    10: { exists EDot. conj; auto. }
    all: match goal with |- exists x, show_elem x = S2L (String.String _ (String.String ?a _)) /\ _ =>
      exists (EEsc (hd 0%Z (S2L (String.String a String.EmptyString)))) end.
    all: conj; try reflexivity; intro X; try reflexivity; try (exfalso; apply X; reflexivity).
Qed.
(** At the beginning of any text: ^p is accepted iff the first character is in the set, and
    reports exactly that character (and hence rejects the empty text).  Anywhere in the text:
    p finds the first character in the set, except for \s, where only ... the first part holds
    (\s skips characters while searching, C22_completeness_refuted). *)
Theorem C07_escapes : forall p P w, documented p P -> query_ok w ->
  finds_first (c_caret :: p) w (fun i j => i = 0 /\ char_at w P i j)
  /\ (p <> S2L "\s" -> finds_first p w (char_at w P)).
Proof.
  intros p P w D Q. destruct (documented_elem p P D) as (x & <- & E & F & T & X).
  destruct (one_element x w E F Q) as [A B]. split.
  - revert A. apply finds_first_ext; [|intros i j [-> _]; lia]. intros i j _. unfold char_at.
    split; intros (-> & -> & c & C1 & C2); conj; auto; exists c; (split; [exact C1|]); congruence.
  - intro N. generalize (B (T N)). apply finds_first_ext.
    + intros i j _. unfold char_at. split; intros (-> & c & C1 & C2); conj; auto; exists c; (split; [exact C1|]); congruence.
    + intros i j (_ & c & C1 & _). assert (i < length w) by (apply nth_error_Some; congruence). lia.
Qed.
Print Assumptions C07_escapes.
Example C07_case : documented (S2L "\d") (fun x => (48 <=? x) && (x <=? 57))%Z /\ documented (S2L "-") (fun x => x =? 45)%Z
  /\ documented (S2L "\(") (fun x => x =? 40)%Z /\ query_ok (S2L "ab12") /\ char_at (S2L "ab12") (fun x => (48 <=? x) && (x <=? 57))%Z 2 3.
Proof.
  unfold query_ok, char_at. conj; try (vm_compute; reflexivity).
  - right. right. left. split; reflexivity.
  - left. exists 45%Z. conj; reflexivity.
  - right. left. exists 40%Z. conj; try reflexivity. cbn. intuition discriminate.
  - exists 49%Z. split; reflexivity.
Qed.

(** C08.  Bracket classes: an item list and what it means. *)
Definition in_item (i : citem) (c : chr) : Prop :=
  match i with
  | CChar d => c = d
  | CRange a b => (a <= c <= b)%Z
  | CEsc d => esc_set d c = true
  end.
Definition show_class (neg : bool) (items : list citem) : str :=
  [c_lbrk] ++ (if neg then [c_caret] else []) ++ flat_map show_citem items ++ [c_rbrk].
Lemma in_item_ok i c : citem_set i c = true <-> in_item i c.
Proof. destruct i; cbn; lia || reflexivity. Qed.
Definition class_at (w : str) (neg : bool) (items : list citem) (i j : nat) : Prop :=
  j = S i /\ exists c, nth_error w i = Some c
    /\ if neg then (forall t, In t items -> ~ in_item t c) else (exists t, In t items /\ in_item t c).
Lemma class_at_ok w neg items i j : char_at w (elem_set (EClass neg items)) i j <-> class_at w neg items i j.
Proof.
  unfold char_at, class_at. cbn [elem_set]. assert (E : forall c, xorb neg (existsb (fun t => citem_set t c) items) = true <->
    if neg then (forall t, In t items -> ~ in_item t c) else (exists t, In t items /\ in_item t c)).
  { intro c. destruct neg; [rewrite xorb_true_l|rewrite xorb_false_l].
    - rewrite negb_true_iff. split.
      + intros H t Ht X. apply in_item_ok in X. assert (Y : existsb (fun t => citem_set t c) items = true) by (apply existsb_exists; eauto). congruence.
      + intro H. destruct (existsb _ items) eqn:Y; [|reflexivity]. apply existsb_exists in Y as (t & Ht & X). apply in_item_ok in X. now destruct (H t Ht).
    - rewrite existsb_exists. split; intros (t & Ht & X); exists t; (split; [exact Ht|]); now apply in_item_ok. }
  split; intros (-> & c & C1 & C2); (split; [reflexivity|]); exists c; (split; [exact C1|]); now apply E.
Qed.
(** ^[items] is accepted iff the query begins with a character of the union (or, negated, of
    the complement), and reports that one character.  [items] without \s finds the first such
    character.  Missing: \s as an item of a negated class or before another item (the README's
    meaning fails there, C08_class_refuted), and the search with [^..] (C27_run_refuted). *)
Theorem C08_class_partial : forall (neg : bool) (items : list citem) (w : str), items <> [] -> forallb citem_ok items = true -> query_ok w ->
  ~ In (CEsc 115) (if neg then items else removelast items) ->
  finds_first (c_caret :: show_class neg items) w (fun i j => i = 0 /\ class_at w neg items i j)
  /\ (neg = false -> ~ In (CEsc 115) items -> finds_first (show_class neg items) w (class_at w neg items)).
Proof.
  intros neg items w N I Q H.
  assert (SP : forall l, ~ In (CEsc 115) l -> existsb is_space l = false).
  { intros l X. destruct (existsb is_space l) eqn:Y; [|reflexivity]. apply existsb_exists in Y as (t & Ht & Z). destruct t; try discriminate.
    apply Z.eqb_eq in Z. subst. contradiction. }
  destruct (one_element (EClass neg items) w) as [A B]; auto.
  - cbn [elem_ok]. rewrite I. destruct items; [congruence|reflexivity].
  - cbn [fine]. destruct neg; now rewrite SP.
  - split.
    + revert A. apply finds_first_ext; [|intros i j [-> _]; lia]. intros i j _. now rewrite class_at_ok.
    + intros -> X. assert (T : tidy (EClass false items) = true) by (cbn [tidy]; now rewrite SP). generalize (B T). apply finds_first_ext.
      * intros i j _. apply class_at_ok.
      * intros i j (_ & c & C1 & _). assert (i < length w) by (apply nth_error_Some; congruence). lia.
Qed.
Print Assumptions C08_class_partial.
Example C08_case :
  show_class true [CRange 97 102; CEsc 93] = S2L "[^a-f\]]" /\ forallb citem_ok [CRange 97 102; CEsc 93] = true
  /\ forallb citem_ok [CRange 97 102; CEsc 100] = true
  /\ class_at (S2L "x7") false [CRange 97 102; CEsc 100] 1 2 /\ class_at (S2L "x7") true [CRange 97 102; CEsc 93] 0 1.
Proof.
  unfold query_ok, class_at. conj; try (vm_compute; reflexivity).
  - exists 55%Z. split; [reflexivity|]. exists (CEsc 100). cbn. auto.
  - exists 120%Z. split; [reflexivity|]. intros t [<-|[<-|[]]]; cbn; [lia|discriminate].
Qed.

(** C26.  A pattern made of plain characters is substring search. *)
Definition occurs (u w : str) (i j : nat) : Prop := j = i + length u /\ firstn (length u) (skipn i w) = u.
Lemma show_word u : show_elems (map ELit u) = u.
Proof. induction u as [|c u IH]; [reflexivity|]. unfold show_elems in *. cbn [map flat_map show_elem app]. now rewrite IH. Qed.
Lemma occurs_elems u w i j : u <> [] -> elems_at w (map ELit u) i j <-> occurs u w i j.
Proof.
  intro N. unfold elems_at, occurs. rewrite map_length.
  assert (F : forall u l, Forall2 (fun x c => elem_set x c = true) (map ELit u) l <-> l = u).
  { clear. induction u as [|d u IH]; intro l; cbn [map].
    - split; [inversion 1; reflexivity|intros ->; constructor].
    - split.
      + inversion 1; subst. f_equal; [|now apply IH]. cbn in *. lia.
      + intros ->. constructor; [apply Z.eqb_refl|now apply IH]. }
  rewrite F. split; [tauto|]. intros (-> & E). conj; auto.
  pose proof (f_equal (@length _) E) as L. rewrite firstn_length, skipn_length in L. destruct u; [congruence|]. cbn [length] in *. lia.
Qed.
Theorem C26_literal : forall u w, u <> [] -> forallb plain u = true -> query_ok w -> finds_first u w (occurs u w).
Proof.
  intros u w N P Q. destruct (C44_pointwise_partial (map ELit u) w) as [_ B]; auto.
  - destruct u; [congruence|discriminate].
  - rewrite forallb_forall in *. intros x Hx. apply in_map_iff in Hx as (c & <- & Hc). cbn [elem_ok fine]. now rewrite (P c Hc).
  - rewrite show_word in B. assert (T : match map ELit u with x :: _ => tidy x | [] => false end = true) by (destruct u; [congruence|reflexivity]).
    generalize (B T). apply finds_first_ext; [|intros i j (-> & H & _); lia]. intros i j _. now apply occurs_elems.
Qed.
Print Assumptions C26_literal.
Example C26_case : forallb plain (S2L "user@host, 10%") = true /\ occurs (S2L "an") (S2L "bananas") 1 3 /\ query_ok (S2L "bananas").
Proof. unfold query_ok, occurs. conj; vm_compute; reflexivity. Qed.

(** ** One element with a quantifier *)
Lemma finds_first_sub p w (at_ at_' : nat -> nat -> Prop) : (forall i j, at_' i j -> at_ i j) ->
  (forall i j, at_ i j -> (forall k j', k < i -> ~ at_ k j') -> at_' i j) -> finds_first p w at_ -> finds_first p w at_'.
Proof.
  intros S1 S2 H pre post P. destruct (H pre post P) as (n & s & C & E & [[A N]|(i & j & A & V & Y & N)]); exists n, s; conj; auto.
  - left. split; [exact A|]. intros i j Hi X. exact (N i j Hi (S1 i j X)).
  - right. exists i, j. conj; auto. intros k j' Hk X. exact (N k j' Hk (S1 k j' X)).
Qed.
(** w[i..j) is a run of characters of [P] that cannot be extended in either direction. *)
Definition max_run (w : str) (P : chr -> bool) (i j : nat) : Prop :=
  i < j <= length w
  /\ (forall k, i <= k < j -> exists c, nth_error w k = Some c /\ P c = true)
  /\ (forall c, nth_error w j = Some c -> P c = false)
  /\ (forall k c, i = S k -> nth_error w k = Some c -> P c = false).
(** ... that cannot be extended to the right. *)
Definition run_from (w : str) (P : chr -> bool) (i j : nat) : Prop :=
  i < j <= length w
  /\ (forall k, i <= k < j -> exists c, nth_error w k = Some c /\ P c = true)
  /\ (forall c, nth_error w j = Some c -> P c = false).
Lemma run_from_ok w P i j : i <= length w -> (run_from w P i j <-> j = i + run_at w P i /\ run_at w P i <> 0).
Proof.
  intro Hi. pose proof (run_le w P i) as L. split.
  - intros (B & A & N). assert (R : run_at w P i = j - i).
    { apply run_spec. split; [intros k Hk; apply A; lia|]. replace (i + (j - i)) with j by lia. exact N. }
    lia.
  - intros [-> R]. pose proof (proj1 (run_spec w P i (run_at w P i)) eq_refl) as [A N]. split; [lia|]. split; [|exact N].
    intros k Hk. specialize (A (k - i) ltac:(lia)). replace (i + (k - i)) with k in A by lia. exact A.
Qed.
Lemma plus_at w x i j : i <= length w -> (exists l, match_at w (erep x QPlus Gr) i = Some (j, l)) <-> run_from w (elem_set x) i j.
Proof.
  intro Hi. rewrite match_erep by exact Logic.I. rewrite run_from_ok by exact Hi. unfold rep_end. cbn [kind_min kind_max].
  destruct (N.leb_spec 1 (N.of_nat (run_at w (elem_set x) i))) as [B|B]; cbn [option_map].
  - split; [intros [l [= <- _]]; lia|]. intros [-> _]. eauto.
  - split; [intros [l X]; discriminate|]. lia.
Qed.
(** C27.  x+ for a literal, an escape other than \s, a dot, or a positive class without \s
    reports the first maximal run of characters of x.  For the other elements (\s, negated
    classes, \s last in a class) whatever is accepted, by construction or next(), is a run that
    cannot be extended to the right, and ^x+ reports the run the query begins with.
    Missing: for these, that the search finds a run at all (false: C27_run_refuted). *)
Theorem C27_run_partial : forall x w, elem_ok x = true -> fine x = true -> query_ok w ->
  (tidy x = true -> finds_first (show_elem x ++ S2L "+") w (max_run w (elem_set x)))
  /\ finds_first (S2L "^" ++ show_elem x ++ S2L "+") w (fun i j => i = 0 /\ max_run w (elem_set x) i j)
  /\ (forall n pre post s, compile (show_elem x ++ S2L "+") = Some n -> post <> [] -> reach (env_of pre w post) n s -> is_accepted s = true ->
        exists i j, to_view s = Some (place pre i j) /\ run_from w (elem_set x) i j).
Proof.
  intros x w E F Q. assert (RO : rep_ok x QPlus Gr = true) by (unfold rep_ok; now rewrite E, F).
  assert (SH : show (erep x QPlus Gr) = show_elem x ++ S2L "+") by reflexivity. conj.
  - intro T. apply (finds_first_sub _ _ (run_from w (elem_set x))).
    + intros i j (A & B & C & _). exact (conj A (conj B C)).
    + intros i j (A & B & C) N. split; [exact A|]. split; [exact B|]. split; [exact C|]. intros k c -> Hc. destruct (elem_set x c) eqn:Pc; [|reflexivity]. exfalso.
      apply (N k j ltac:(lia)). split; [lia|]. split; [|exact C]. intros q Hq. destruct (Nat.eq_dec q k) as [->|]; [eauto|]. apply B. lia.
    + rewrite <- SH. apply finds_first_of; auto; [now apply erep_supported|]. intros i Hi j. now apply plus_at.
  - apply (finds_first_sub _ _ (fun i j => i = 0 /\ run_from w (elem_set x) i j)).
    + intros i j (-> & A & B & C & _). exact (conj eq_refl (conj A (conj B C))).
    + intros i j (-> & A & B & C) _. split; [reflexivity|]. split; [exact A|]. split; [exact B|]. split; [exact C|]. intros k c; discriminate.
    + change (S2L "^" ++ show_elem x ++ S2L "+") with (show (arep x QPlus Gr)). apply finds_first_of; auto; [apply arep_supported; [exact RO|discriminate]|].
      intros i Hi j. rewrite match_arep. destruct (Nat.eqb_spec i 0) as [->|Ni].
      * rewrite plus_at by exact Hi. tauto.
      * split; [intros [l X]; discriminate|intros [-> _]; congruence].
  - intros n pre post s C P R A. rewrite <- SH in C.
    destruct (C24_priority_partial _ n pre w post s (erep_exact x QPlus Gr RO) (conj C (conj Q P)) R A) as (i & j & l & V & M).
    destruct (C21_soundness_partial _ n pre w post s (erep_exact x QPlus Gr RO) (conj C (conj Q P)) R A) as (i' & j' & V' & B & _).
    rewrite V in V'. injection V' as V1 V2. assert (i' = i) as -> by lia. exists i, j. split; [exact V|]. apply plus_at; [lia|eauto].
Qed.
Print Assumptions C27_run_partial.
Example C27_case : let x := EClass false [CRange 48 57; CChar 46] in elem_ok x = true /\ fine x = true /\ tidy x = true
  /\ show_elem x ++ S2L "+" = S2L "[0-9.]+" /\ query_ok (S2L "v1.25 ") /\ max_run (S2L "v1.25 ") (elem_set x) 1 5.
Proof.
  unfold query_ok, max_run. conj; try (vm_compute; reflexivity); try (vm_compute; lia).
  - intros k Hk. do 5 (destruct k as [|k]; [try lia; eexists; split; reflexivity|]). lia.
  - intros c [= <-]. reflexivity.
  - intros k c [= <-] [= <-]. reflexivity.
Qed.

(** C45.  X{n}: the next n characters are all in X.  [ds] are the decimal digits of n as
    written (leading zeros allowed), n any number below 2^32 - 1.  As for C27, the search is
    for elements whose failed test does not move the position; for the others, ^X{n}. *)
Definition reps_at (w : str) (P : chr -> bool) (n i j : nat) : Prop :=
  j = i + n /\ forall k, i <= k < j -> exists c, nth_error w k = Some c /\ P c = true.
Definition decimal (ds : list Z) : str := map (fun d => (d + 48)%Z) ds.
Lemma exact_at w x ds i j : (exists l, match_at w (erep x (QExact ds) Gr) i = Some (j, l)) <-> reps_at w (elem_set x) (Z.to_nat (num_val ds)) i j.
Proof.
  rewrite match_erep; [|exact Logic.I|cbn; lia]. unfold rep_end, reps_at. cbn [kind_min kind_max].
  set (n := Z.to_nat (num_val ds)). replace (Z.to_N (num_val ds)) with (N.of_nat n) by lia.
  assert (R : n <= run_at w (elem_set x) i <-> forall k, i <= k < i + n -> exists c, nth_error w k = Some c /\ elem_set x c = true).
  { rewrite run_ge. split; intros H k Hk; [specialize (H (k - i) ltac:(lia)); replace (i + (k - i)) with k in H by lia; exact H|apply H; lia]. }
  destruct (N.leb_spec (N.of_nat n) (N.of_nat (run_at w (elem_set x) i))) as [B|B]; cbn [option_map].
  - replace (N.to_nat (N.min (N.of_nat n) (N.of_nat (run_at w (elem_set x) i)))) with n by lia. split.
    + intros [l [= <- _]]. split; [reflexivity|]. apply R. lia.
    + intros [-> _]. eauto.
  - split; [intros [l X]; discriminate|]. intros [-> H]. apply R in H. lia.
Qed.
Lemma repeat_zero x ds w : elem_ok x = true -> num_ok ds = true -> num_val ds = 0%Z -> finds_first (show (erep x (QExact ds) Gr)) w (reps_at w (elem_set x) 0).
Proof.
  intros E N Z pre post P. exists (ctree (erep x (QExact ds) Gr)). exists (mkSt (Z.of_nat (length pre)) (Z.of_nat (length pre)) [] true). conj.
  - rewrite compile_eq, ParseProofs.parse_show; [reflexivity|]. unfold erep. cbn [wf wf_br wf_sq wf_atom quant_ok]. now rewrite E, N.
  - assert (C : ctree (erep x (QExact ds) Gr) = Repeated (unode x) 0 []).
    { unfold ctree, renumber, erep, tree.
      cbn [renumber_in renumber_br renumber_sq renumber_atom tree_bs tree_br tree_sq tree_atom followed tree_quant]. rewrite tree_body, Z.
      cbn [optimize map]. now rewrite opt_body. }
    assert (G : no_groups (Repeated (unode x) 0 []) = []).
    { rewrite <- C. unfold no_groups. rewrite ctree_groups. reflexivity. }
    rewrite C. unfold create, fresh. rewrite G. reflexivity.
  - right. exists 0, 0. split; [reflexivity|]. split; [unfold to_view, place; cbn; now rewrite Nat.add_0_r|].
    split; [split; [reflexivity|intros k H; lia]|]. intros k j H. lia.
Qed.
Theorem C45_repeat_partial : forall x ds w, elem_ok x = true -> fine x = true -> num_ok ds = true -> query_ok w ->
  (tidy x = true -> finds_first (show_elem x ++ S2L "{" ++ decimal ds ++ S2L "}") w (reps_at w (elem_set x) (Z.to_nat (num_val ds))))
  /\ (num_val ds <> 0%Z -> finds_first (S2L "^" ++ show_elem x ++ S2L "{" ++ decimal ds ++ S2L "}") w
         (fun i j => i = 0 /\ reps_at w (elem_set x) (Z.to_nat (num_val ds)) i j)).
Proof.
  intros x ds w E F N Q.
  assert (SH : show (erep x (QExact ds) Gr) = show_elem x ++ S2L "{" ++ decimal ds ++ S2L "}").
  { unfold erep. cbn [show show_br show_sq show_atom show_quant show_kind show_greed]. rewrite !app_nil_r. reflexivity. }
  assert (SA : show (arep x (QExact ds) Gr) = S2L "^" ++ show_elem x ++ S2L "{" ++ decimal ds ++ S2L "}") by (rewrite <- SH; reflexivity).
  assert (RO : num_val ds <> 0%Z -> rep_ok x (QExact ds) Gr = true /\ kind_min (QExact ds) <> 0%N).
  { intro Z. destruct (ParseProofs.num_ok_digits ds N) as (_ & D & _). assert (0 <= num_val ds)%Z.
    { clear - D. unfold num_val. assert (X : forall a, (0 <= a)%Z -> (0 <= fold_left (fun acc d => 10 * acc + d) ds a)%Z).
      { induction D as [|d ds Hd D IH]; intros a Ha; cbn [fold_left]; [exact Ha|]. apply IH. lia. } apply X. lia. }
    unfold rep_ok. cbn [quant_ok kind_max kind_min]. rewrite E, F, N. assert (NZ : Z.to_N (num_val ds) <> 0%N) by lia. split; [|exact NZ].
    apply N.eqb_neq in NZ. now rewrite NZ. }
  split.
  - intro T. rewrite <- SH. destruct (Z.eq_dec (num_val ds) 0) as [Z|Z].
    + rewrite Z. now apply repeat_zero.
    + apply finds_first_of; auto; [apply erep_supported; [now apply RO|exact T]|]. intros i Hi j. apply exact_at.
  - intro Z. rewrite <- SA. apply finds_first_of; auto; [apply arep_supported; now apply RO|].
    intros i Hi j. rewrite match_arep. destruct (Nat.eqb_spec i 0) as [->|Ni].
    + rewrite exact_at. tauto.
    + split; [intros [l X]; discriminate|intros [-> _]; congruence].
Qed.
Print Assumptions C45_repeat_partial.
Example C45_case : elem_ok (EEsc 100) = true /\ tidy (EEsc 100) = true /\ num_ok [0; 0; 3]%Z = true /\ num_ok [4;2;9;4;9;6;7;2;9;4]%Z = true
  /\ show_elem (EEsc 100) ++ S2L "{" ++ decimal [0; 0; 3]%Z ++ S2L "}" = S2L "\d{003}"
  /\ reps_at (S2L "a123") (elem_set (EEsc 100)) (Z.to_nat (num_val [0; 0; 3]%Z)) 1 4 /\ query_ok (S2L "a123").
Proof.
  unfold query_ok, reps_at. conj; try (vm_compute; reflexivity). intros k Hk. do 4 (destruct k as [|k]; [try lia; eexists; split; reflexivity|]). lia.
Qed.

(** ** Word lists *)
(** C46.  A left-to-right scan for the words [ws]: from [i] on, the next match is at the first
    position where some word occurs, and is the first listed word occurring there. *)
Definition word_at (u w : str) (k : nat) : Prop := firstn (length u) (skipn k w) = u.
Inductive scanned (w : str) (ws : list str) : nat -> list (nat * nat) -> Prop :=
| ScanEnd i : (forall k u, i <= k -> In u ws -> ~ word_at u w k) -> scanned w ws i []
| ScanWord i k u before after l :
    i <= k -> ws = before ++ u :: after -> word_at u w k ->
    (forall v, In v before -> ~ word_at v w k) ->
    (forall q v, i <= q < k -> In v ws -> ~ word_at v w q) ->
    scanned w ws (k + length u) l -> scanned w ws i ((k, k + length u) :: l).
(** The pattern text w1|w2|...|wn. *)
Fixpoint words (ws : list str) : str :=
  match ws with [] => [] | [u] => u | u :: r => u ++ S2L "|" ++ words r end.
Definition word_br (u : str) : bool * list elem := (false, map ELit u).
Lemma show_words us : forall u, show (ealt (word_br u) (map word_br us)) = words (u :: us).
Proof.
  induction us as [|v us IH]; intro u; cbn [map].
  - cbn [ealt show show_br ebr word_br fst snd]. now rewrite show_eseq, show_word.
  - change (show (ealt (word_br u) (word_br v :: map word_br us))) with (show_br (ebr (word_br u)) ++ [c_bar] ++ show (ealt (word_br v) (map word_br us))).
    rewrite IH. cbn [ebr word_br fst snd show_br]. rewrite show_eseq, show_word. reflexivity.
Qed.
Lemma bat_word w u k : bat w (word_br u) k = true <-> word_at u w k.
Proof.
  rewrite bat_ok. unfold branch_at, word_br, word_at. cbn [fst snd]. destruct u as [|c u].
  - cbn [length firstn]. split; [reflexivity|]. intros _. split; [discriminate|]. intros [|q] y; discriminate.
  - rewrite pointwise_elems by discriminate. rewrite map_length, occurs_elems by discriminate. unfold occurs. split; [tauto|]. intro H. split; [discriminate|]. split; [reflexivity|exact H].
Qed.
Lemma first_word w ws k : match first_branch w (map word_br ws) k with
  | Some l => exists before u after, l = map ELit u /\ ws = before ++ u :: after /\ word_at u w k /\ forall v, In v before -> ~ word_at v w k
  | None => forall v, In v ws -> ~ word_at v w k
  end.
Proof.
  induction ws as [|u ws IH]; cbn [map first_branch]; [intros v []|]. destruct (bat w (word_br u) k) eqn:B.
  - apply bat_word in B. exists [], u, ws. conj; auto.
  - assert (NB : ~ word_at u w k) by (rewrite <- bat_word; congruence). destruct (first_branch w (map word_br ws) k) as [l|].
    + destruct IH as (before & v & after & -> & -> & V & N). exists (u :: before), v, after. conj; auto. intros x [<-|Hx]; auto.
    + intros v [<-|Hv]; auto.
Qed.
Theorem C46_scanner : forall ws w pre post, ws <> [] -> forallb (fun u => forallb plain u && negb (is_nil u)) ws = true ->
  query_ok w -> post <> [] ->
  exists n s l, compile (words ws) = Some n /\ create (default_fuel w) (env_of pre w post) n = RDone s
    /\ scanned w ws 0 l
    /\ visits (env_of pre w post) n s (map (fun x => Some (place pre (fst x) (snd x))) l)
    /\ forall res, exists steps fuel, range_for steps fuel (env_of pre w post) n res = Some (map (fun x => Some (place pre (fst x) (snd x))) l).
Proof.
  intros ws w pre post N P Q Po. destruct ws as [|u us]; [congruence|]. clear N. rewrite <- show_words.
  set (r := ealt (word_br u) (map word_br us)).
  assert (Nn : forall v, In v (u :: us) -> v <> [] /\ forallb plain v = true).
  { rewrite forallb_forall in P. intros v Hv. specialize (P v Hv). apply andb_true_iff in P as [A B]. split; [|exact A]. intros ->. discriminate. }
  assert (Sp : supported r = true).
  { apply ealt_supported; change (word_br u :: map word_br us) with (map word_br (u :: us)).
    - apply forallb_forall. intros b Hb. apply in_map_iff in Hb as (v & <- & Hv). destruct (Nn v Hv) as [V1 V2].
      unfold ebr_ok, word_br. cbn [snd]. apply andb_true_iff. split; [|destruct v; [congruence|reflexivity]].
      apply forallb_forall. intros x Hx. apply in_map_iff in Hx as (c & <- & Hc). cbn [elem_ok fine]. rewrite forallb_forall in V2. now rewrite (V2 c Hc).
    - apply forallb_forall. intros b Hb. apply in_map_iff in Hb as (v & <- & Hv). destruct (Nn v Hv) as [V1 V2].
      unfold first_tidy, word_br. cbn. destruct v; [congruence|reflexivity]. }
  assert (M : forall i, match_at w r i = option_map (fun l => (i + length l, [])) (first_branch w (map word_br (u :: us)) i)) by (intro i; apply match_ealt).
  assert (NE : forall i c, match_at w r i = Some c -> i < fst c).
  { intros i c H. rewrite M in H. pose proof (first_word w (u :: us) i) as F. destruct (first_branch w _ i) as [l|]; [|discriminate].
    destruct F as (b & v & a & -> & E & _). injection H as <-. cbn [fst]. rewrite map_length. destruct (Nn v) as [V _]; [rewrite E; apply in_or_app; right; now left|].
    destruct v; [congruence|]. cbn [length]. lia. }
  destruct (create_visits r pre w post Sp Q Po (fun i c _ => NE i c)) as (s & Cs & V).
  exists (ctree r), s, (find_all w r (S (length w)) 0). conj; auto.
  - apply (sup_compile r Sp).
  - assert (W : forall v k, In v (u :: us) -> word_at v w k -> k < length w).
    { intros v k Hv Hw. destruct (Nn v Hv) as [V1 _]. unfold word_at in Hw. pose proof (f_equal (@length _) Hw) as L. rewrite firstn_length, skipn_length in L.
      destruct v; [congruence|]. cbn [length] in L. lia. }
    assert (FA : forall m i, length w < m + i -> scanned w (u :: us) i (find_all w r m i)).
    { induction m as [|m IH]; intros i Hm; cbn [find_all].
      - apply ScanEnd. intros k v Hk Hv X. apply W in X; auto. lia.
      - destruct (search w r i) as [[k [j l]]|] eqn:SR.
        + apply search_some in SR as (B & Mk & Nk). pose proof (NE k _ Mk) as Lt. cbn [fst] in Lt. rewrite M in Mk. pose proof (first_word w (u :: us) k) as F.
          destruct (first_branch w _ k) as [l'|]; [|discriminate]. destruct F as (b & v & a & -> & E & X & Nb). cbn [option_map] in Mk. injection Mk as <- _. rewrite map_length.
          rewrite map_length in Lt. apply (ScanWord w (u :: us) i k v b a); auto; try lia.
          * intros q x Hq Hx. specialize (Nk q ltac:(lia)). rewrite M in Nk. pose proof (first_word w (u :: us) q) as F. destruct (first_branch w _ q); [discriminate|]. now apply F.
          * apply IH. lia.
        + apply ScanEnd. intros k v Hk Hv X. pose proof (W v k Hv X). pose proof (search_none w r i SR k ltac:(lia)) as Nk. rewrite M in Nk.
          pose proof (first_word w (u :: us) k) as F. destruct (first_branch w _ k); [discriminate|]. exact (F v Hv X). }
    apply FA. lia.
  - intro res. apply range_for_iff. exists (S (length w)), s. auto.
Qed.
Print Assumptions C46_scanner.
(** The scan is determined by the words and the text. *)
Lemma scanned_unique w ws i l l' : (forall u, In u ws -> u <> []) -> scanned w ws i l -> scanned w ws i l' -> l = l'.
Proof.
  intros N H. revert l'. induction H as [i X|i k u b a l Hk E U Nb Np H IH]; intros l' H'.
  - destruct H' as [i X'|i k u b a l' Hk E U Nb Np H']; [reflexivity|]. exfalso. apply (X k u Hk); [subst ws; apply in_or_app; right; now left|exact U].
  - assert (Iu : In u ws) by (subst ws; apply in_or_app; right; now left).
    destruct H' as [i X'|i k' u' b' a' l' Hk' E' U' Nb' Np' H']; [exfalso; exact (X' k u Hk Iu U)|].
    assert (Iu' : In u' ws) by (rewrite E'; apply in_or_app; right; now left).
    assert (k' = k) as ->.
    { destruct (Nat.lt_trichotomy k k') as [L|[L|L]]; auto; exfalso; [exact (Np' k u ltac:(lia) Iu U)|exact (Np k' u' ltac:(lia) Iu' U')]. }
    assert (u' = u) as ->.
    { rewrite E in E'. clear - E' U U' Nb Nb'. revert b' E' Nb'. induction b as [|x b IH]; intros [|y b'] E' Nb'; cbn in E'; injection E' as E1 E2.
      - congruence.
      - subst. exfalso. apply (Nb' y); [now left|exact U].
      - subst. exfalso. apply (Nb u'); [now left|exact U'].
      - apply (IH (fun v Hv => Nb v (or_intror Hv)) b' E2). intros v Hv. apply Nb'. now right. }
    f_equal. now apply IH.
Qed.
Example C46_case : words [S2L "ab"; S2L "abc"; S2L "c"] = S2L "ab|abc|c" /\ scanned (S2L "xabcab") [S2L "ab"; S2L "abc"; S2L "c"] 0 [(1, 3); (3, 4); (4, 6)]
  /\ forallb (fun u => forallb plain u && negb (is_nil u)) [S2L "ab"; S2L "abc"; S2L "c"] = true.
Proof.
  split; [reflexivity|]. split; [|reflexivity].
  assert (D : forall q v, In v [S2L "ab"; S2L "abc"; S2L "c"] -> q = 0 -> ~ word_at v (S2L "xabcab") q).
  { intros q v Hv ->. cbn in Hv. destruct Hv as [<-|[<-|[<-|[]]]]; discriminate. }
  apply (ScanWord _ _ 0 1 (S2L "ab") [] [S2L "abc"; S2L "c"]); [lia|reflexivity|reflexivity|intros v []|intros q v Hq Hv; apply D; auto; lia|].
  apply (ScanWord _ _ 3 3 (S2L "c") [S2L "ab"; S2L "abc"] []); [lia|reflexivity|reflexivity|intros v [<-|[<-|[]]]; discriminate|intros; lia|].
  apply (ScanWord _ _ 4 4 (S2L "ab") [] [S2L "abc"; S2L "c"]); [lia|reflexivity|reflexivity|intros v []|intros; lia|].
  apply ScanEnd. intros k v Hk Hv. do 4 (destruct k as [|k]; [lia|]). cbn in Hv.
  do 2 (destruct k as [|k]; [destruct Hv as [<-|[<-|[<-|[]]]]; try discriminate; cbn in Hk; lia|]).
  destruct Hv as [<-|[<-|[<-|[]]]]; unfold word_at; destruct k; discriminate.
Qed.
