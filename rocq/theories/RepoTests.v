(** The repository's test-suite (test/*.cpp) replayed on the model by computation.
    These are validation tests of the model, not theorems about all inputs. *)
From Coq Require Import ZArith NArith List Bool String.
From Verif Require Import Base Text Ast Builder Engine Api TokIter.
Import ListNotations.
Open Scope Z_scope.
Open Scope string_scope.

(** Query literals are NUL terminated: the buffer is [w ++ [0]]. *)
Definition cenv (w : string) : env := env_of [] (S2L w) [0].
Definition go (p w : string) : option st :=
  match run_regex (S2L p) [] (S2L w) [0] with Some (RDone s) => Some s | _ => None end.
Definition txt (w : string) (v : view) : str := text (cenv w) v.
(** accepted with this text *)
Definition acc_is (p w r : string) : bool :=
  match go p w with
  | Some s => is_accepted s && str_eqb (txt w (to_view s)) (S2L r)
  | None => false
  end.
Definition accepted (p w : string) : bool :=
  match go p w with Some s => is_accepted s | None => false end.
Definition rejected (p w : string) : bool :=
  match go p w with Some s => negb (is_accepted s) | None => false end.
Definition grp_is (p w : string) (i : nat) (r : string) : bool :=
  match go p w with
  | Some s => match get_group s i with
              | Some v => str_eqb (txt w v) (S2L r)
              | None => false
              end
  | None => false
  end.
Definition ngr (p : string) : option nat :=
  match compile (S2L p) with Some n => Some (groups_of n) | None => None end.
(** after [k] next() *)
Fixpoint nexts (k : nat) (e : env) (n : node) (r : rout) : rout :=
  match k, r with
  | S k', RDone s => nexts k' e n (next (S (List.length (buf e))) e n s)
  | _, _ => r
  end.
Definition nth_match (p w : string) (k : nat) : option (bool * str * list str) :=
  match compile (S2L p) with
  | Some n => match nexts k (cenv w) n (create (S (List.length (S2L w))) (cenv w) n) with
              | RDone s => Some (s_acc s, txt w (to_view s), map (txt w) (s_grp s))
              | _ => None
              end
  | None => None
  end.
Definition indep (p q : string) : option bool :=
  match compile (S2L p), compile (S2L q) with
  | Some a, Some b => Some (is_independent a b)
  | _, _ => None
  end.
Definition expr_is (p r : string) : bool :=
  match compile (S2L p) with Some n => str_eqb (get_expression n) (S2L r) | None => false end.
Definition nl : string := String (Ascii.ascii_of_nat 10) "".
Definition tab : string := String (Ascii.ascii_of_nat 9) "".

(* test/regex.cpp:11-29 *)
Example t_tokenization :
  lex (S2L "bb(a\)c)zz") = Some (map S2L ["b";"b";"(";"a";"\)";"c";")";"z";"z"]).
Proof. vm_compute. reflexivity. Qed.

Definition all (l : list bool) : bool := forallb (fun b => b) l.

(* test/regex.cpp:31-86 *)
Example t_basic : all [
  acc_is "\w" "a" "a"; rejected "\w" " ";
  acc_is "aa*" "aaa" "aaa"; acc_is "aa*" "a" "a"; acc_is "aa*" "aab" "aa";
  acc_is "a[a-f]?" "aaa" "aa"; accepted "a[a-f]?" "a"; acc_is "a[a-f]?" "af" "af";
  acc_is "aa+" "aaa" "aaa"; rejected "aa+" "a"; acc_is "aa+" "aab" "aa";
  rejected "a(ab)+" "aaa"; rejected "a(ab)+" "a"; acc_is "a(ab)+" "aab" "aab";
  acc_is "a(ab)+" "aabab" "aabab";
  rejected "\s*(ab)+" "aaa"; rejected "\s*(ab)+" "a";
  acc_is "\s*(ab)+" "   ab" "   ab"; grp_is "\s*(ab)+" "   ab" 1 "ab"] = true
  /\ ngr "\w" = Some 0%nat /\ ngr "a(ab)+" = Some 1%nat /\ ngr "\s*(ab)+" = Some 1%nat.
Proof. vm_compute. auto. Qed.

(* test/regex.cpp:103-125 *)
Example t_braces : all [
  accepted "ab{2,10}c" "abbc"; accepted "ab{2,10}c" "abbbbbbbbbbc";
  rejected "ab{2,10}c" "abbbbbbbbbbbc"; rejected "ab{2,10}c" "abc";
  accepted "ab{2,}c" "abbc"; accepted "ab{2,}c" "abbbbbbbbbbc"; rejected "ab{2,}c" "abc";
  accepted "ab{2}c" "abbc"; rejected "ab{2}c" "abbbbbbbbbbc"; rejected "ab{2}c" "abc"] = true.
Proof. vm_compute. reflexivity. Qed.

(* test/regex.cpp:127-190 *)
Example t_groups : all [
  acc_is "a(a(b))cd" "aabcdef" "aabcd"; grp_is "a(a(b))cd" "aabcdef" 1 "ab";
  grp_is "a(a(b))cd" "aabcdef" 2 "b";
  accepted "a(a|b)+" "aa"; accepted "a(a|b)+" "ab"; accepted "a(a|b)+" "abaab";
  acc_is "a(a|b)+" "aab" "aab"; grp_is "a(a|b)+" "aab" 1 "b";
  acc_is "(10[0-7]0)" ("274.06 102" ++ tab ++ "1000" ++ tab) "1000";
  acc_is "a(a[a-g])+" "aabacad" "aabacad"; grp_is "a(a[a-g])+" "aabacad" 1 "ad";
  acc_is "\w(\w+)|(\d+)" "abc" "abc"; grp_is "\w(\w+)|(\d+)" "abc" 1 "bc";
  grp_is "\w(\w+)|(\d+)" "abc" 2 "";
  acc_is "\w(\w+)|(\d+)" "-2-" "2"; grp_is "\w(\w+)|(\d+)" "-2-" 1 "";
  grp_is "\w(\w+)|(\d+)" "-2-" 2 "2";
  acc_is "(?:(?:25[0-5]|2[0-4][0-9]|[01]?[0-9][0-9])\.){3}(?:25[0-5]|2[0-4][0-9]|[01]?[0-9][0-9])"
         "| | 66.249.64.13 | aaaaaaaa test" "66.249.64.13"] = true
  /\ ngr "a(a(b))cd" = Some 2%nat /\ ngr "(10[0-7]0)" = Some 1%nat
  /\ ngr "\w(\w+)|(\d+)" = Some 2%nat.
Proof. vm_compute. auto. Qed.

(* test/regex.cpp:217-282 *)
Example t_iter :
  nth_match "[a-z]([a-z]+)|(\d+)" "abc123ab" 0 = Some (true, S2L "abc", [S2L "bc"; []])
  /\ nth_match "[a-z]([a-z]+)|(\d+)" "abc123ab" 1 = Some (true, S2L "123", [[]; S2L "123"])
  /\ nth_match "[a-z]([a-z]+)|(\d+)" "abc123ab" 2 = Some (true, S2L "ab", [S2L "b"; []])
  /\ all [acc_is "aaa|a+" "aaaa" "aaa"; acc_is "a(?:a(b))cd" "aabcdef" "aabcd";
          grp_is "a(?:a(b))cd" "aabcdef" 1 "b"] = true
  /\ nth_match "ab" "abaab" 1 = Some (true, S2L "ab", [])
  /\ ngr "a(?:a(b))cd" = Some 1%nat.
Proof. vm_compute. auto 10. Qed.

(* test/regex.cpp:270-380 *)
Example t_classes : all [
  acc_is "a[a-z\-]+" "aaa" "aaa"; rejected "a[a-z\-]+" "a"; acc_is "a[a-z\-]+" "aa-b" "aa-b";
  acc_is "a[a-z\-]+" "aab--ab" "aab--ab"; acc_is "a[a-z\-]+" "12aaba12" "aaba";
  acc_is "a\x41" "aA" "aA"; rejected "a\x41" "a";
  acc_is "a\x{414141}" "aAAA" "aAAA"; rejected "a\x{414141}" "aAA";
  acc_is "a\101" "aA" "aA"; rejected "a\101" "a";
  acc_is "a\o{101101101}" "aAAA" "aAAA"; rejected "a\o{101101101}" "aAA";
  accepted "^a" "abc"; rejected "^a" "bc";
  accepted "a$" "a"; rejected "a$" "abc"; accepted "a$" "aabca";
  acc_is "a[a-fhm-o]+" "aaa" "aaa"; rejected "a[a-fhm-o]+" "a";
  acc_is "a[a-fhm-o]+" "aabfcno" "aabfcno"; acc_is "a[a-fhm-o]+" "aabahb" "aabahb";
  acc_is "a[a-fhm-o]+" "baabazb" "aaba";
  acc_is "a[^a-fh]+" "axx" "axx"; rejected "a[^a-fh]+" "a"; rejected "a[^a-fh]+" "aaf";
  acc_is "a[^a-fh]+" "baggn" "aggn";
  acc_is "(\d+)-(\d+)-(\d+)" "2023-01-01" "2023-01-01";
  grp_is "(\d+)-(\d+)-(\d+)" "2023-01-01" 1 "2023";
  grp_is "(\d+)-(\d+)-(\d+)" "2023-01-01" 2 "01";
  grp_is "(\d+)-(\d+)-(\d+)" "2023-01-01" 3 "01";
  acc_is "[\w.\-]+@[\w\-]+\.[\w.]+" "Test email <red-langNO_SPAM@googlegroups.com>"
         "red-langNO_SPAM@googlegroups.com";
  acc_is """(.*)""" "wrong ""match""" """match""";
  grp_is """(.*)""" "wrong ""match""" 1 "match";
  acc_is "[\w.\-]+@[\w\-]+\.[\w.]+"
         "ABCDTESTTESTEST fir@aaaaaa@aaa     Test email <first.last@learnxinyminutes.com>"
         "first.last@learnxinyminutes.com"] = true
  /\ ngr "(\d+)-(\d+)-(\d+)" = Some 3%nat.
Proof. vm_compute. auto. Qed.

(* test/regex.cpp:352-367 *)
Example t_branches :
  nth_match "a|bc|cd|d" "abcd" 0 = Some (true, S2L "a", [])
  /\ nth_match "a|bc|cd|d" "abcd" 1 = Some (true, S2L "bc", [])
  /\ nth_match "a|bc|cd|d" "abcd" 2 = Some (true, S2L "d", [])
  /\ nth_match "a|bc|cd|d" "abcd" 3 = Some (false, [], []).
Proof. vm_compute. auto. Qed.

(* test/regex.cpp:435-455: five matches *)
Example t_iterating :
  match compile (S2L "\dab") with
  | Some n => let w := "aaa1abaaaaaaaccc2ab//  aba3ab4ab5ab" in
              let e := cenv w in
              match create 100 e n with
              | RDone s => match range_for 100 100 e n s with
                           | Some l => map (txt w) l = map S2L ["1ab";"2ab";"3ab";"4ab";"5ab"]
                           | None => False
                           end
              | _ => False
              end
  | None => False
  end.
Proof. vm_compute. reflexivity. Qed.

(* test/regex.cpp:457-522 *)
Example t_policies : all [
  acc_is "(a+)a" "aaaa" "aaaa"; grp_is "(a+)a" "aaaa" 1 "aaa";
  acc_is "(a+?)a" "aaaa" "aa"; grp_is "(a+?)a" "aaaa" 1 "a";
  acc_is "a?a" "aa" "aa"; acc_is "a??a" "aa" "a"; acc_is "a?+a" "aa" "aa"; rejected "a?+a" "a";
  acc_is "(a{1,})a" "aaaa" "aaaa"; grp_is "(a{1,})a" "aaaa" 1 "aaa";
  acc_is "(a{1,}?)a" "aaaa" "aa"; grp_is "(a{1,}?)a" "aaaa" 1 "a";
  rejected "(a{1,}+)a" "aaaa"] = true
  /\ nth_match "a??a" "aa" 1 = Some (true, S2L "a", []).
Proof. vm_compute. auto. Qed.

(* test/regex.cpp:524-533 *)
Example t_independent :
  indep "\dabcd" "[a-z]abcd" = Some true /\ indep "\dabcd" "\d*\w+abcd" = Some false
  /\ indep "[a-z]abcd" "\d*\w+abcd" = Some false.
Proof. vm_compute. auto. Qed.

(* test/heuristics.cpp *)
Example t_heuristics :
  expr_is ".{3,}" ".{3,}+" = true
  /\ expr_is "\d+\s+123" "[0-9]++\s++123" = true
  /\ match compile (S2L "abc\defg") with Some n => nadm n = S2L "a" | None => False end
  /\ match parse (S2L "[a-d]?z") with Some n => nadm n = S2L "abcdz" | None => False end
  /\ indep "\d+" "\s+" = Some true.
Proof. vm_compute. auto. Qed.

(* test/utilities.cpp *)
Example t_utilities :
  map (fun l => balanced (map S2L l))
    [["("]; ["(";"(";"a";")"]; ["(";"[";"a";")"]; ["(";"[";"a";")";"]"];
     ["(";"[";"a";"}";"]"]; ["(";"a";")"]; ["(";"(";"a";")";")"]; ["(";"{";"a";"}";")"]]
  = [false; false; false; false; false; true; true; true]
  /\ match lex (S2L "a|b\|c|d") with
     | Some ts => split c_bar ts = map (map S2L) [["a"]; ["b";"\|";"c"]; ["d"]]
     | None => False end
  /\ match lex (S2L "bb(a)c)zz") with
     | Some ts => extract_delimited c_lpar c_rpar ts
                  = Some (map S2L ["b";"b";"(";"a";")";"c"], map S2L ["z";"z"])
     | None => False end
  /\ pack_string_to_number (S2L "150") = 150%N.
Proof. vm_compute. auto. Qed.

(* test/tokenization.cpp *)
Example t_tokenizer :
  match make_defs [DTok 0 (S2L "[a-z]+"); DTok 1 (S2L "\d+"); DSep (S2L "\s")] with
  | Some d =>
      let w := "a abc 123" in
      match tok_range_for 20 20 (cenv w) d with
      | Some l => map (fun o => match o with Some (v, t) => (txt w (Some v), t) | None => ([], 9%nat) end) l
                  = [(S2L "a", 0); (S2L "abc", 0); (S2L "123", 1)]%nat
      | None => False
      end
  | None => False
  end.
Proof. vm_compute. reflexivity. Qed.

(* README.md:10-15 *)
Example t_readme : all [acc_is "a(a*)" "zaaa1" "aaa"; grp_is "a(a*)" "zaaa1" 1 "aa"] = true.
Proof. vm_compute. reflexivity. Qed.
