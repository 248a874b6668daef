(** C01-C04: the text layer, for every pattern string. *)
From Coq Require Import String ZArith NArith List Bool Lia.
From Verif Require Import Base Text Spec TextSpec TextProofs.
Import ListNotations.
Open Scope Z_scope.

(** C01.  Gluing the tokens gives the pattern back; the tokens are exactly those of the
    grammar [lexed]; tokenizing fails exactly when a '{' is never closed. *)
Theorem C01_lexing_loses_nothing : forall p : list Z,
  (forall ts, lex p = Some ts -> concat ts = p)
  /\ (forall ts, lex p = Some ts <-> lexed p ts)
  /\ (lex p = None <-> unclosed p).
Proof.
  intro p. repeat split; intros.
  - apply lexed_concat. now apply lex_iff.
  - now apply lex_iff.
  - now apply lex_iff.
  - now apply lex_none_iff.
  - now apply lex_none_iff.
Qed.
Print Assumptions C01_lexing_loses_nothing.
Example C01_case :
  lex (S2L "a\+{2,13}[b-c]"%string)
  = Some (map S2L ["a"; "\+"; "{"; "2"; ","; "13"; "}"; "["; "b"; "-"; "c"; "]"]%string)
  /\ unclosed (S2L "a{2"%string).
Proof. split; [vm_compute; reflexivity|]. apply lex_none_iff. reflexivity. Qed.

(** C02.  The branches, rejoined with the separator, are the token sequence; if the brackets
    nest properly no branch has a separator outside its brackets; and a list of branches
    without separators outside brackets is recovered exactly. *)
Theorem C02_split_top_level : forall sep : Z, ~ In sep bracket_chars ->
  (forall ts, join sep (split sep ts) = ts)
  /\ (forall ts, nested ts -> Forall (flat sep) (split sep ts))
  /\ (forall bs, bs <> [] -> Forall (flat sep) bs -> split sep (join sep bs) = bs).
Proof.
  intros sep H. repeat split; intros.
  - apply split_join.
  - now apply split_nested_flat.
  - now apply split_flat_join.
Qed.
Print Assumptions C02_split_top_level.
Example C02_case :
  nested (map S2L ["a"; "|"; "("; "b"; "|"; "c"; ")"; "|"; "d"]%string)
  /\ split c_bar (map S2L ["a"; "|"; "("; "b"; "|"; "c"; ")"; "|"; "d"]%string)
     = map (map S2L) [["a"]; ["("; "b"; "|"; "c"; ")"]; ["d"]]%string.
Proof.
  split; [|vm_compute; reflexivity].
  assert (O : forall t, forallb (fun c => negb (str_eqb t [c])) bracket_chars = true -> ordinary t).
  { intros t H c Hc ->. rewrite forallb_forall in H. specialize (H c Hc).
    cbn in H. rewrite Z.eqb_refl in H. discriminate. }
  do 2 (apply NestTok; [apply O; reflexivity|]).
  apply (NestBr c_lpar c_rpar (map S2L ["b"; "|"; "c"]%string) (map S2L ["|"; "d"]%string)).
  - left; reflexivity.
  - do 3 (apply NestTok; [apply O; reflexivity|]). constructor.
  - do 2 (apply NestTok; [apply O; reflexivity|]). constructor.
Qed.

(** C03.  If the bracket is closed, the content is the text before the matching closer and
    the remainder the text after it; whatever is extracted is such a cut, except when the
    closer is missing, where both results are empty (the pattern is malformed). *)
Theorem C03_extract_matching_closer : forall op cl : Z, op <> cl ->
  (forall a rest, dyck op cl a -> extract_delimited op cl (a ++ [[cl]] ++ rest) = Some (a, rest))
  /\ (forall ts c r, extract_delimited op cl ts = Some (c, r) ->
        (ts = c ++ [[cl]] ++ r /\ dyck op cl c) \/ (c = [] /\ r = [] /\ dyck op cl ts)).
Proof.
  intros op cl H. split; intros.
  - now apply extract_content.
  - now apply extract_sound.
Qed.
Print Assumptions C03_extract_matching_closer.
Example C03_case :
  dyck c_lpar c_rpar (map S2L ["a"; "("; "b"; ")"]%string)
  /\ extract_delimited c_lpar c_rpar (map S2L ["a"; "("; "b"; ")"; ")"; "c"; ")"]%string)
     = Some (map S2L ["a"; "("; "b"; ")"]%string, map S2L ["c"; ")"]%string).
Proof.
  split; [|vm_compute; reflexivity].
  apply DyTok; [discriminate|discriminate|].
  apply (DyBr c_lpar c_rpar [S2L "b"%string] []); [apply DyTok; [discriminate|discriminate|]|]; constructor.
Qed.

(** C04.  A numeral is read as its decimal value (modulo 2^32), and a 32-bit number is
    printed as its decimal numeral without superfluous zeros. *)
Theorem C04_counts_decimal :
  (forall ds, pack_string_to_number (show_num ds) = Z.to_N (num_val ds mod 2 ^ 32))
  /\ (forall n : N, (n < 2 ^ 32)%N ->
        exists ds, number_to_pack_string n = show_num ds
                   /\ num_val ds = Z.of_N n
                   /\ ds <> [] /\ Forall (fun d => 0 <= d <= 9) ds /\ (hd 0 ds = 0 -> ds = [0])).
Proof.
  split; intros.
  - apply number_of_show.
  - destruct (number_to_pack_string_ok n H) as (ds & A & B & C). exists ds.
    unfold canonical in B. intuition.
Qed.
Print Assumptions C04_counts_decimal.
Example C04_case :
  pack_string_to_number (show_num [4; 2; 9; 4; 9; 6; 7; 3; 0; 6]) = 10%N
  /\ pack_string_to_number (S2L "120"%string) = 120%N
  /\ number_to_pack_string 4294967295 = S2L "4294967295"%string.
Proof. conj; vm_compute; reflexivity. Qed.
