(** C75: a choice between characters is a class. *)
From Coq Require Import String ZArith NArith List Bool Lia.
From Verif Require Import Base Text Ast AstProofs Builder BuilderProofs Engine Api ApiProofs Spec Tree Supported Refuted PropertiesCalm PropertiesMatch SpecFuse Fuse.
Import ListNotations.
Open Scope nat_scope.

(** C75.  In every pattern, at every depth and under every quantifier, (?:y1|...|yn) may be written [i1...in] where the y
    are characters, escapes or classes of a single item (and groups holding a single part may be left out, see C71 below): both patterns are one and the same regex, so whatever is asked of
    them, in whatever memory, the answers (and get_expression()) are the same. *)
Theorem C75_choice_is_class : forall r r', fused r r' -> wf r = true -> wf r' = true ->
  exists n, compile (show r) = Some n /\ compile (show r') = Some n.
Proof.
  intros r r' F W W'. exists (ctree r). split; [now apply calm_compile|]. rewrite (fused_ctree r r' F W W'). now apply calm_compile.
Qed.
Print Assumptions C75_choice_is_class.
Definition ch (c : string) : elem := ELit (hd 0%Z (S2L c)).
Example C75_case : exists r r',
  (let sep a := (a, QQ (QMinMax [1]%Z [2]%Z) Lz) in
   let from x y := ROr (Br false (seqs [(ACap 0 (ROne (Br false (seqs [(AEl (EEsc 100), plus); sep x]))), star); (y, Q1); (lit "!", Q1)])) (ROne (Br true (seqs [(lit "y", Q1)]))) in
   r = from (ANon (either (ch ",") [ch ";"; EEsc 115])) (ANon (either (EClass false [CRange 97 122]) [EEsc 46]))
   /\ r' = from (AEl (EClass false [CChar 44; CChar 59; CEsc 115])) (AEl (EClass false [CRange 97 122; CEsc 46])))
  /\ fused r r' /\ wf r = true /\ wf r' = true
  /\ show r = S2L "(\d+(?:,|;|\s){1,2}?)*(?:[a-z]|\.)!|^y" /\ show r' = S2L "(\d+[,;\s]{1,2}?)*[a-z\.]!|^y"
  /\ exists s, on "(\d+[,;\s]{1,2}?)*[a-z\.]!|^y" "-12, 3;k!" = Some (RDone s) /\ to_view s = Some (1, 9)%Z /\ get_group s 1 = Some (Some (5, 7)%Z).
Proof.
  eexists _, _. split; [cbv zeta; split; reflexivity|]. split; [|split; [|split; [|split; [|split]]]]; try (vm_compute; reflexivity).
  - repeat first [apply fused_class; repeat constructor|constructor].
  - eexists. split; [|split]; vm_compute; reflexivity.
Qed.
(** C71 with captures.  In every pattern, captures included, at every depth: a (?:...) that is alone in a group, one around a
    class, a quantified one around a capturing group, and one with a single alternative that ends a sequence or is a
    whole alternative may be left out; the regex is the same. *)
Theorem C71_nested_groups : forall r r', fused r r' -> wf r = true -> wf r' = true ->
  exists n, compile (show r) = Some n /\ compile (show r') = Some n /\ forall pre w post, run_regex (show r) pre w post = run_regex (show r') pre w post.
Proof.
  intros r r' F W W'. destruct (C75_choice_is_class r r' F W W') as (n & C & C'). exists n. split; [exact C|]. split; [exact C'|]. intros. unfold run_regex. now rewrite C, C'.
Qed.
Print Assumptions C71_nested_groups.
Example C71_nested_case : exists r r',
  (let ab x := ROr (Br false (seqs [(x, star); (lit "b", Q1)])) (ROne (Br false (seqs [(AEl (EEsc 100), Q1)]))) in
   let cl := AEl (EClass true [CChar 44; CRange 48 57]) in
   r = ROne (Br true (seqs [(ACap 0 (ROne (alone (ANon (ab (ANon (ROne (alone cl))))))), Q1); (ANon (ROne (alone (ACap 0 (ab (lit "d"))))), plus); (ANon (ROne (alone (ANon (ab (lit "c"))))), Q1)]))
   /\ r' = ROne (Br true (seqs [(ACap 0 (ab cl), Q1); (ACap 0 (ab (lit "d")), plus); (ANon (ab (lit "c")), Q1)])))
  /\ fused r r' /\ wf r = true /\ wf r' = true
  /\ show r = S2L "^((?:(?:[^,0-9])*b|\d))(?:(d*b|\d))+(?:(?:c*b|\d))" /\ show r' = S2L "^([^,0-9]*b|\d)(d*b|\d)+(?:c*b|\d)"
  /\ exists s, on "^([^,0-9]*b|\d)(d*b|\d)+(?:c*b|\d)" "xb3ddbccb!" = Some (RDone s) /\ to_view s = Some (0, 9)%Z /\ get_group s 1 = Some (Some (0, 2)%Z) /\ get_group s 2 = Some (Some (3, 6)%Z).
Proof.
  eexists _, _. split; [cbv zeta; split; reflexivity|]. split; [|split; [|split; [|split; [|split]]]]; try (vm_compute; reflexivity).
  - apply fused_one, fused_branch. apply fused_cons; [|apply fused_run; [|apply fused_cons]]; repeat first [apply fused_within|apply fused_twice|apply fused_single|constructor].
  - eexists. split; [|split; [|split]]; vm_compute; reflexivity.
Qed.
Example C71_ends_case : exists r r',
  (let c := (ACap 0 (ROne (Br false (seqs [(lit "d", Q1)]))), plus) in let ef := ANon (ROr (Br false (seqs [(lit "e", Q1)])) (ROne (Br false (seqs [(lit "f", Q1)])))) in
   let a := (ACap 0 (ROne (Br false (seqs [(lit "a", Q1)]))), Q1) in let g := Br true (seqs [(lit "g", Q1); (ACap 0 (ROne (Br false (seqs [(lit "h", Q1)]))), Q1)]) in
   r = ROr (Br true (seqs [a; (lit "b", star); (ANon (ROne (Br false (seqs [(lit "c", Q1); c; (ef, Q1)]))), Q1)])) (ROne (Br false (seqs [(ANon (ROne g), Q1)])))
   /\ r' = ROr (Br true (seqs [a; (lit "b", star); (lit "c", Q1); c; (ef, Q1)])) (ROne g))
  /\ fused r r' /\ wf r = true /\ wf r' = true
  /\ show r = S2L "^(a)b*(?:c(d)+(?:e|f))|(?:^g(h))" /\ show r' = S2L "^(a)b*c(d)+(?:e|f)|^g(h)"
  /\ exists s, on "^(a)b*(?:c(d)+(?:e|f))|(?:^g(h))" "abbcdf" = Some (RDone s) /\ to_view s = Some (0, 6)%Z /\ get_group s 1 = Some (Some (0, 1)%Z) /\ get_group s 2 = Some (Some (4, 5)%Z).
Proof.
  eexists _, _. split; [cbv zeta; split; reflexivity|]. split; [|split; [|split; [|split; [|split]]]]; try (vm_compute; reflexivity).
  - apply fused_or; [|apply fused_one, fused_whole; repeat constructor]. apply fused_branch. apply fused_cons; [repeat constructor|]. apply fused_cons; [repeat constructor|].
    apply fused_end; [discriminate|]. apply fused_cons; [repeat constructor|]. apply fused_cons; [repeat constructor|]. apply fused_cons; [|constructor]. apply fused_non. repeat constructor.
  - eexists. split; [|split; [|split]]; vm_compute; reflexivity.
Qed.
(** A group around a capturing group in other places is not redundant: without a quantifier what follows is tried inside
    the capturing group, and behind (?:a) captures are numbered afresh. *)
