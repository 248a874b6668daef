(** C11, C13, C14, C17: the tree, for every pattern string. *)
From Coq Require Import String ZArith NArith List Bool Lia.
From Verif Require Import Base Text Ast Builder Engine Api TextSpec AstProofs BuilderProofs
  EngineRel ApiProofs.
Import ListNotations.
Open Scope Z_scope.

(** C11.  Every result a program can hold has exactly groups() capture slots, so every
    result[1] .. result[groups()] exists; and giving the matcher a longer capture array
    changes nothing: the additional slots [x] are neither written nor is any store
    lost for lack of them. *)
Theorem C11_captures_in_bounds : forall p n, compile p = Some n ->
  (forall e s, reach e n s ->
     List.length (s_grp s) = groups_of n
     /\ (forall i, (i <= groups_of n)%nat -> get_group s i <> None))
  /\ (forall e x s, List.length (s_grp s) = groups_of n ->
        mt e n [] (mkSt (s_start s) (s_end s) (s_grp s ++ x) (s_acc s))
        = match mt e n [] s with
          | Ok s' => Ok (mkSt (s_start s') (s_end s') (s_grp s' ++ x) (s_acc s'))
          | UB => UB
          end).
Proof.
  intros p n H. pose proof (compile_gidx p n H) as G. split.
  - intros e s R. pose proof (reach_groups e n s G R) as L. split; [exact L|].
    intros [|i] Hi; cbn; [discriminate|]. apply nth_error_Some. unfold groups_of, view in *. lia.
  - intros e x s Hs. destruct (mt_pad e x (ngroups n) n G s Hs) as [A _]. exact A.
Qed.
Print Assumptions C11_captures_in_bounds.
Example C11_case : exists n s, compile (S2L "(a(b))+|(c)"%string) = Some n /\ groups_of n = 3%nat
  /\ create 9 (env_of [] (S2L "xabab"%string) [0]) n = RDone s /\ get_group s 2 = Some (Some (4, 5)).
Proof. do 2 eexists. conj; vm_compute; reflexivity. Qed.

(** C13.  Compilation's optimiser loop stops on every tree, whatever the number of passes
    allowed (one suffices), at a tree the optimiser does not change any more. *)
Theorem C13_optimiser_terminates : forall n, exists n',
  (forall passes, (1 <= passes)%nat -> optimizer passes n = Some n')
  /\ optimize n' [] = n'.
Proof.
  intro n. exists (optimize n []). split.
  - intros [|k] Hk; [lia|]. apply optimizer_eq.
  - now apply optimize_idem.
Qed.
Print Assumptions C13_optimiser_terminates.

(** C14.  The compiled tree and the parsed tree have the same number of groups, the same
    capture indices, the same minimum size and the same first characters. *)
Theorem C14_optimiser_keeps_interface : forall p n n', parse p = Some n -> compile p = Some n' ->
  ngroups n' = ngroups n /\ gidx n' = gidx n /\ nmin n' = nmin n /\ nadm n' = nadm n.
Proof.
  intros p n n' P C. rewrite compile_eq, P in C. injection C as <-.
  repeat split; auto using optimize_ngroups, optimize_gidx, optimize_nmin, optimize_nadm.
Qed.
Print Assumptions C14_optimiser_keeps_interface.
Example C14_case : exists n n', parse (S2L "(a+)b*?(c|d)"%string) = Some n
  /\ compile (S2L "(a+)b*?(c|d)"%string) = Some n' /\ n <> n' /\ gidx n' = [0; 1]%nat /\ nmin n' = 1%N.
Proof. do 2 eexists. conj; try (vm_compute; reflexivity). all: intro H; vm_compute in H; discriminate. Qed.

(** C17.  On ascending lists (which is how the library writes them), merging, intersecting
    and complementing are union, intersection and complement in 0..127, again ascending. *)
Theorem C17_first_sets_are_sets : forall s1 s2, ascending s1 -> ascending s2 ->
  (forall x, In x (adm_merge s1 s2) <-> In x s1 \/ In x s2)
  /\ (forall x, In x (adm_inter s1 s2) <-> In x s1 /\ In x s2)
  /\ ((forall x, In x s1 -> 0 <= x <= 127) ->
      forall x, In x (adm_complement s1) <-> 0 <= x <= 127 /\ ~ In x s1)
  /\ (forall x a b, In x (adm_range a b) <-> a <= x <= b)
  /\ ascending (adm_merge s1 s2) /\ ascending (adm_inter s1 s2) /\ ascending (adm_complement s1).
Proof.
  intros s1 s2 H1 H2. apply asc_ascending in H1, H2.
  conj.
  - intro x. apply merge_in.
  - intro x. now apply inter_in.
  - intros B x. apply complement_in; [assumption|]. apply Forall_forall. assumption.
  - intros x a b. apply adm_range_in.
  - apply asc_ascending. now apply merge_asc.
  - apply asc_ascending. now apply inter_asc.
  - apply asc_ascending. unfold adm_complement. apply diff_asc; [assumption|apply adm_range_asc].
Qed.
Print Assumptions C17_first_sets_are_sets.
Example C17_case : ascending [97; 98; 120] /\ ascending [98; 99]
  /\ adm_inter [97; 98; 120] [98; 99] = [98] /\ adm_merge [97; 98; 120] [98; 99] = [97; 98; 99; 120].
Proof.
  repeat split; try reflexivity; apply asc_ascending; repeat constructor.
Qed.
