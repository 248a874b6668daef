(** C59 (\x{...} and \o{...} find the byte strings they spell) and, for C05, which \xHH denote
    their byte.  Stated with bytes and positions only. *)
From Coq Require Import String ZArith NArith List Bool Lia ZifyBool ZifyNat ZifyN.
From Verif Require Import Base Text Ast Builder Engine Api Spec AstProofs ApiProofs Supported Find Sound Runs SpecProofs Families Refuted PropertiesFamilies Bytes.
Import ListNotations.
Open Scope nat_scope.

(** ** C05: which pairs of digits work *)
(** The value of a hexadecimal digit, 0..9 or A..F. *)
Definition hex_digit (d : chr) : Prop := (48 <= d <= 57 \/ 65 <= d <= 70)%Z.
Definition hex_value (d : chr) : Z := (if d <=? 57 then d - 48 else d - 55)%Z.
Definition all_hex : list chr := S2L "0123456789ABCDEF".
Lemma in_all d : hex_digit d -> In d all_hex.
Proof. unfold hex_digit, all_hex. intro H. replace (S2L "0123456789ABCDEF") with [48;49;50;51;52;53;54;55;56;57;65;66;67;68;69;70]%Z by reflexivity. cbn [In]. lia. Qed.
Definition reading (a b : chr) : chr := to_char (Z.lor (Z.shiftl (a - 48) 4) (b - 48))%Z.
Lemma compile_pair a b : hex_digit a -> hex_digit b -> compile [c_bslash; 120; a; b]%Z = Some (Term (TExact [reading a b])).
Proof.
  intros A B. assert (X : forallb (fun a => forallb (fun b => match compile [c_bslash; 120; a; b]%Z with Some (Term (TExact [x])) => (x =? reading a b)%Z | _ => false end) all_hex) all_hex = true) by (vm_compute; reflexivity).
  rewrite forallb_forall in X. specialize (X a (in_all a A)). rewrite forallb_forall in X. specialize (X b (in_all b B)). cbv beta in X.
  destruct (compile [c_bslash; 120; a; b]%Z) as [m|]; [|discriminate]. destruct m as [t| | | | | | | |]; try discriminate. destruct t as [t|s|x y| |]; try discriminate.
  destruct s as [|x [|]]; try discriminate. apply Z.eqb_eq in X. now subst.
Qed.
Lemma reading_right a b : hex_digit a -> hex_digit b -> (reading a b = byte_chr (16 * hex_value a + hex_value b) <-> a <= 57 /\ b <= 57)%Z.
Proof.
  intros A B. assert (X : forallb (fun a => forallb (fun b => Bool.eqb (reading a b =? byte_chr (16 * hex_value a + hex_value b))%Z ((a <=? 57) && (b <=? 57))%Z) all_hex) all_hex = true) by (vm_compute; reflexivity).
  rewrite forallb_forall in X. specialize (X a (in_all a A)). rewrite forallb_forall in X. specialize (X b (in_all b B)). cbv beta in X. apply eqb_prop in X. lia.
Qed.
(** The byte [g] as a pattern item. *)
Lemma finds_byte p g w : compile p = Some (Term (TExact [g])) -> finds_first p w (char_at w (fun x => x =? g)%Z).
Proof.
  intros C pre post P. destruct post as [|c post]; [congruence|]. exists (Term (TExact [g])).
  destruct (create_bytes [g] pre w c post ltac:(discriminate) (fun x => x) (default_fuel w) (Nat.lt_succ_diag_r _)) as (s & E & Fd). exists s. split; [exact C|]. split; [exact E|].
  assert (W : forall k, wordb w [g] k = true <-> char_at w (fun x => x =? g)%Z k (S k)).
  { intro k. rewrite wordb_iff. unfold word_at, char_at. cbn [length]. rewrite (skipn_nth w k). destruct (nth_error w k) as [x|] eqn:X.
    - cbn. split; [intros [= ->]; split; [reflexivity|]; exists g; split; [reflexivity|lia]|]. intros (_ & d & [= <-] & H). f_equal. lia.
    - cbn. split; [discriminate|]. intros (_ & d & Y & _). discriminate. }
  destruct Fd as [[A K]|(k & Hk & Wk & Nk & A & St & En)].
  - left. split; [exact A|]. intros i j _ X. assert (j = S i) as -> by apply X. apply W in X. rewrite K in X by lia. discriminate.
  - right. exists k, (S k). conj; [exact A| |now apply W|].
    + unfold to_view, is_accepted, place. rewrite A, St, En. cbn [length]. do 2 f_equal. f_equal. lia.
    + intros q j' Hq X. assert (j' = S q) as -> by apply X. apply W in X. rewrite Nk in X by lia. discriminate.
Qed.
(** C05.  \xHH (digits 0..9, A..F) finds exactly the byte with that hexadecimal value, on every
    query, if and only if both digits are decimal. *)
Theorem C05_hex_exactly : forall a b, hex_digit a -> hex_digit b ->
  (forall w, query_ok w -> finds_first [c_bslash; 120; a; b]%Z w (char_at w (fun x => x =? byte_chr (16 * hex_value a + hex_value b))%Z)) <-> (a <= 57 /\ b <= 57)%Z.
Proof.
  intros a b A B. rewrite <- reading_right by assumption. split.
  - intro H. set (v := byte_chr (16 * hex_value a + hex_value b)) in *.
    assert (V : (-128 <= v <= 127)%Z).
    { assert (0 <= hex_value a <= 15 /\ 0 <= hex_value b <= 15)%Z by (unfold hex_value, hex_digit in *; destruct (Z.leb_spec a 57), (Z.leb_spec b 57); lia). unfold v, byte_chr. destruct (Z.ltb_spec (16 * hex_value a + hex_value b) 128); lia. }
    specialize (H [v] ltac:(unfold query_ok, is_char; cbn [forallb length]; split; lia) [] [0%Z] ltac:(discriminate)). destruct H as (n & s & C & E & R).
    destruct (finds_byte _ (reading a b) [v] (compile_pair a b A B) [] [0%Z] ltac:(discriminate)) as (n' & s' & C' & E' & R').
    rewrite C in C'. injection C' as <-. rewrite E in E'. injection E' as <-.
    destruct R as [[_ N]|(i & j & Ac & _)]; [exfalso; apply (N 0 1); [cbn; lia|]; split; [reflexivity|]; exists v; split; [reflexivity|lia]|].
    destruct R' as [[N _]|(i' & j' & _ & _ & X & _)]; [congruence|]. destruct X as (_ & d & Nd & Y). destruct i' as [|[|]]; try discriminate. cbn in Nd. injection Nd as <-. lia.
  - intros E w _. rewrite <- E. apply finds_byte. now apply compile_pair.
Qed.
Print Assumptions C05_hex_exactly.
Example C05_exactly_case : hex_digit 55 /\ hex_digit 70 /\ hex_value 55 = 7%Z /\ hex_value 70 = 15%Z /\ byte_chr (16 * 7 + 15) = 127%Z.
Proof. unfold hex_digit. conj; try reflexivity; lia. Qed.

(** ** C59: byte strings *)
(** The text \x{H1H1'H2H2'...} with decimal digits, and the bytes it spells. *)
Definition hex_text (l : list (Z * Z)) : str := S2L "\x{" ++ flat_map (fun p => [fst p + 48; snd p + 48]%Z) l ++ S2L "}".
Definition hex_bytes (l : list (Z * Z)) : str := map (fun p => byte_chr (16 * fst p + snd p)) l.
(** The text \o{OOO OOO ...} and the bytes it spells. *)
Definition oct_text (l : list (Z * Z * Z)) : str := S2L "\o{" ++ flat_map (fun p => [fst (fst p) + 48; snd (fst p) + 48; snd p + 48]%Z) l ++ S2L "}".
Definition oct_bytes (l : list (Z * Z * Z)) : str := map (fun p => byte_chr (64 * fst (fst p) + 8 * snd (fst p) + snd p)) l.

Lemma hex_two a b : (0 <= a <= 9)%Z -> (0 <= b <= 9)%Z -> to_char (Z.lor (Z.shiftl (a + 48 - 48) 4) (b + 48 - 48))%Z = byte_chr (16 * a + b) /\ is_hex (a + 48) = true /\ is_hex (b + 48) = true.
Proof.
  intros A B. assert (X : forallb (fun a => forallb (fun b => (to_char (Z.lor (Z.shiftl (a + 48 - 48) 4) (b + 48 - 48)) =? byte_chr (16 * a + b))%Z) [0;1;2;3;4;5;6;7;8;9]%Z) [0;1;2;3;4;5;6;7;8;9]%Z = true) by (vm_compute; reflexivity).
  rewrite forallb_forall in X. specialize (X a ltac:(cbn; lia)). rewrite forallb_forall in X. specialize (X b ltac:(cbn; lia)). unfold is_hex. lia.
Qed.
Lemma oct_three a b c : (0 <= a <= 3)%Z -> (0 <= b <= 7)%Z -> (0 <= c <= 7)%Z ->
  to_char (Z.lor (Z.lor (Z.shiftl (a + 48 - 48) 6) (Z.shiftl (b + 48 - 48) 3)) (c + 48 - 48))%Z = byte_chr (64 * a + 8 * b + c) /\ is_octal (a + 48) = true /\ is_octal (b + 48) = true /\ is_octal (c + 48) = true.
Proof.
  intros A B C. assert (X : forallb (fun a => forallb (fun b => forallb (fun c => (to_char (Z.lor (Z.lor (Z.shiftl (a + 48 - 48) 6) (Z.shiftl (b + 48 - 48) 3)) (c + 48 - 48)) =? byte_chr (64 * a + 8 * b + c))%Z) [0;1;2;3;4;5;6;7]%Z) [0;1;2;3;4;5;6;7]%Z) [0;1;2;3]%Z = true) by (vm_compute; reflexivity).
  rewrite forallb_forall in X. specialize (X a ltac:(cbn; lia)). rewrite forallb_forall in X. specialize (X b ltac:(cbn; lia)). rewrite forallb_forall in X. specialize (X c ltac:(cbn; lia)). unfold is_octal. lia.
Qed.
Lemma hex_four a b x y r : hex_to_bin (a :: b :: x :: y :: r)
  = if is_hex a && is_hex b then match hex_to_bin (x :: y :: r) with Some t => Some (to_char (Z.lor (Z.shiftl (a - 48) 4) (b - 48))%Z :: t) | None => None end else None.
Proof. reflexivity. Qed.
Lemma hex_list l : Forall (fun p => 0 <= fst p <= 9 /\ 0 <= snd p <= 9)%Z l -> hex_to_bin (flat_map (fun p => [fst p + 48; snd p + 48]%Z) l) = Some (hex_bytes l).
Proof.
  induction 1 as [|[a b] l [A B] H IH]; [reflexivity|]. cbn [fst snd] in A, B. destruct (hex_two a b A B) as (V & Ha & Hb).
  destruct l as [|[x y] l]; cbn [flat_map app fst snd hex_bytes map] in *.
  - cbn [hex_to_bin]. rewrite Ha, Hb. cbn [andb]. now rewrite V.
  - rewrite hex_four, Ha, Hb, IH. cbn [andb]. now rewrite V.
Qed.
Lemma oct_list l : Forall (fun p => 0 <= fst (fst p) <= 3 /\ 0 <= snd (fst p) <= 7 /\ 0 <= snd p <= 7)%Z l ->
  octal_to_bin (flat_map (fun p => [fst (fst p) + 48; snd (fst p) + 48; snd p + 48]%Z) l) = Some (oct_bytes l).
Proof.
  induction 1 as [|[[a b] c] l (A & B & C) H IH]; [reflexivity|]. cbn [fst snd] in A, B, C. destruct (oct_three a b c A B C) as (V & Ha & Hb & Hc).
  cbn [flat_map app fst snd oct_bytes map] in *. cbn [octal_to_bin]. rewrite Ha, Hb, Hc, IH. cbn [andb]. now rewrite V.
Qed.
(** Compiles to something whose range-for over [w] shows exactly the occurrences of [u], from
    left to right without overlap, when the byte behind [w] in memory is [c]. *)
Definition finds_every (p u w : str) (c : chr) : Prop :=
  forall pre post, exists n s l, compile p = Some n /\ create (default_fuel w) (env_of pre w (c :: post)) n = RDone s
    /\ scanned w [u] 0 l
    /\ visits (env_of pre w (c :: post)) n s (map (fun x => Some (place pre (fst x) (snd x))) l)
    /\ forall res, exists steps fuel, range_for steps fuel (env_of pre w (c :: post)) n res = Some (map (fun x => Some (place pre (fst x) (snd x))) l).
Lemma finds_every_leaf p u w c : compile p = Some (Term (TExact u)) -> u <> [] -> ~ In c (tl u) -> finds_every p u w c.
Proof.
  intros C N I pre post. destruct (create_bytes u pre w c post N I (default_fuel w) (Nat.lt_succ_diag_r _)) as (s & E & Fd).
  destruct (scanned_from u pre w c post N I (S (length w)) 0 s ltac:(lia) ltac:(lia) Fd) as (l & Sc & V).
  exists (Term (TExact u)), s, l. conj; auto. intro res. apply range_for_iff. exists (default_fuel w), s. auto.
Qed.
(** C59.  Missing: hexadecimal letters and an odd number of digits (C59_bytes_refuted); a byte
    behind the query that continues the string (C59_bytes_refuted). *)
Theorem C59_hex_bytes_partial : forall l w c, l <> [] -> Forall (fun p => 0 <= fst p <= 9 /\ 0 <= snd p <= 9)%Z l -> ~ In c (tl (hex_bytes l)) ->
  finds_every (hex_text l) (hex_bytes l) w c.
Proof.
  intros l w c N D I. apply finds_every_leaf; [|destruct l; [congruence|discriminate]|exact I]. destruct l as [|[a b] l]; [congruence|].
  change (hex_text ((a, b) :: l)) with (in_braces 120 ((a + 48)%Z :: (b + 48)%Z :: flat_map (fun p => [fst p + 48; snd p + 48]%Z) l)). apply compile_hex; [|exact (hex_list _ D)|discriminate].
  assert (X : forall d, In d (flat_map (fun p => [fst p + 48; snd p + 48]%Z) ((a, b) :: l)) -> (48 <= d <= 57)%Z).
  { intros d Hd. apply in_flat_map in Hd as (p & Hp & Hd). rewrite Forall_forall in D. specialize (D p Hp). cbn in Hd. lia. }
  apply forallb_forall. intros d Hd. specialize (X d Hd). unfold c_comma, c_rbrc. lia.
Qed.
Print Assumptions C59_hex_bytes_partial.
(** Octal digits in groups of three, up to \377. *)
Theorem C59_octal_bytes_partial : forall l w c, l <> [] -> Forall (fun p => 0 <= fst (fst p) <= 3 /\ 0 <= snd (fst p) <= 7 /\ 0 <= snd p <= 7)%Z l -> ~ In c (tl (oct_bytes l)) ->
  finds_every (oct_text l) (oct_bytes l) w c.
Proof.
  intros l w c N D I. apply finds_every_leaf; [|destruct l; [congruence|discriminate]|exact I]. destruct l as [|[[a b] d0] l]; [congruence|].
  change (oct_text ((a, b, d0) :: l)) with (in_braces 111 ((a + 48)%Z :: (b + 48)%Z :: (d0 + 48)%Z :: flat_map (fun p => [fst (fst p) + 48; snd (fst p) + 48; snd p + 48]%Z) l)). apply compile_oct; [|exact (oct_list _ D)|discriminate].
  assert (X : forall d, In d (flat_map (fun p => [fst (fst p) + 48; snd (fst p) + 48; snd p + 48]%Z) ((a, b, d0) :: l)) -> (48 <= d <= 57)%Z).
  { intros d Hd. apply in_flat_map in Hd as (p & Hp & Hd). rewrite Forall_forall in D. specialize (D p Hp). cbn in Hd. lia. }
  apply forallb_forall. intros d Hd. specialize (X d Hd). unfold c_comma, c_rbrc. lia.
Qed.
Print Assumptions C59_octal_bytes_partial.
(** "ABA" twice in "xABABAABA". *)
Example C59_case : hex_text [(4, 1); (4, 2); (4, 1)]%Z = S2L "\x{414241}" /\ hex_bytes [(4, 1); (4, 2); (4, 1)]%Z = S2L "ABA"
  /\ oct_text [(1, 0, 1); (3, 7, 7)]%Z = S2L "\o{101377}" /\ oct_bytes [(1, 0, 1); (3, 7, 7)]%Z = [65; -1]%Z
  /\ (exists n s, compile (S2L "\x{414241}") = Some n /\ create 10 (env_of [] (S2L "xABABAABA") [0%Z]) n = RDone s /\ to_view s = Some (1, 4)%Z)
  /\ range_for 9 10 (env_of [] (S2L "xABABAABA") [0%Z]) (Term (TExact (S2L "ABA"))) (fresh (env_of [] (S2L "x") [0%Z]) (Term TStart)) = Some [Some (1, 4); Some (6, 9)]%Z.
Proof. conj; try (vm_compute; reflexivity). do 2 eexists. conj; vm_compute; reflexivity. Qed.
(** The query "A" is followed in memory by "A": \x{4141} reports a match that ends behind the
    query; at the end of the memory block it reads past it.  The last of three digits is
    forgotten; \x{4A} is "Q". *)
Theorem C59_bytes_refuted : exists n,
  compile (S2L "\x{4141}") = Some n
  /\ (exists s, create 9 (env_of [] (S2L "A") (S2L "A")) n = RDone s /\ to_view s = Some (0, 2)%Z)
  /\ create 9 (env_of [] (S2L "A") []) n = RUB
  /\ (exists s, on "\x{414}" "A" = Some (RDone s) /\ is_accepted s = true)
  /\ (exists s, on "\x{4A}" "J" = Some (RDone s) /\ is_accepted s = false).
Proof. eexists. conj; try (eexists; split); vm_compute; reflexivity. Qed.
Print Assumptions C59_bytes_refuted.
