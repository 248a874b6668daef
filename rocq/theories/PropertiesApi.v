(** C33, C34, C37: the result object, for every tree, query and buffer. *)
From Coq Require Import String ZArith NArith List Bool Lia.
From Verif Require Import Base Text Ast Builder Engine Api ApiProofs.
Import ListNotations.
Open Scope Z_scope.

(** C33.  A range-for over any result [r] of the query (whatever was consumed before) ends
    having visited [l] iff constructing the result anew and calling next() until it is not
    accepted ends having read [l]. *)
Theorem C33_range_for_is_next : forall e n r l,
  (exists steps fuel, range_for steps fuel e n r = Some l)
  <-> (exists fuel s, create fuel e n = RDone s /\ visits e n s l).
Proof. exact range_for_iff. Qed.
Print Assumptions C33_range_for_is_next.
Theorem C33_visits_unique : forall e n s l1 l2, visits e n s l1 -> visits e n s l2 -> l1 = l2.
Proof. intros. eapply visits_det; eassumption. Qed.
Print Assumptions C33_visits_unique.
Example C33_case : exists n, compile (S2L "a+b"%string) = Some n
  /\ range_for 9 9 (env_of [] (S2L "aabxab"%string) [0]) n (mkSt 3 3 [] false)
     = Some [Some (0, 3); Some (4, 6)].
Proof. eexists. split; vm_compute; reflexivity. Qed.

(** C34.  get_group(0), get<0>() (where it compiles: C57) and to_view() (also operator* and the
    view conversion) agree; they are [start, end) when accepted and the null view otherwise. *)
Theorem C34_accessors_agree : forall n s,
  get_group s 0 = Some (to_view s)
  /\ (has_groups n = true -> get_static n s 0 = Some (to_view s))
  /\ (forall v, get_static n s 0 = Some v -> v = to_view s)
  /\ (is_accepted s = true -> to_view s = Some (s_start s, s_end s))
  /\ (is_accepted s = false -> to_view s = None)
  /\ (forall e, is_accepted s = false -> text e (to_view s) = []).
Proof. exact accessors_agree. Qed.
Print Assumptions C34_accessors_agree.

(** C37.  Two results of the same query, however they were reached, that stopped at the same
    place behave identically under next(). *)
Theorem C37_history_independent : forall e n fuel s1 s2,
  reach e n s1 -> reach e n s2 -> s_end s1 = s_end s2 ->
  next fuel e n s1 = next fuel e n s2.
Proof. exact next_history. Qed.
Print Assumptions C37_history_independent.
Example C37_case : exists n s1 s2, compile (S2L "(a)|b"%string) = Some n
  /\ create 9 (env_of [] (S2L "ab"%string) [0]) n = RDone s1
  /\ next 9 (env_of [] (S2L "ab"%string) [0]) n s1 = RDone s2
  /\ reach (env_of [] (S2L "ab"%string) [0]) n s2 /\ is_accepted s2 = true /\ s_end s2 = 2.
Proof.
  do 3 eexists. split; [vm_compute; reflexivity|]. split; [vm_compute; reflexivity|].
  split; [vm_compute; reflexivity|]. split; [|split; reflexivity].
  eapply (ReachNext _ _ 9); [eapply (ReachCreate _ _ 9)|]; vm_compute; reflexivity.
Qed.
