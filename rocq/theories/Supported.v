(** The patterns the correctness theorems are about: a decidable condition on the pattern.
    Only definitions. *)
From Coq Require Import ZArith NArith List Bool.
From Verif Require Import Base Text Ast Builder Engine Spec Tree Den Checker AstProofs Runs Mono.
Import ListNotations.
Open Scope Z_scope.

(** A query as C++ hands it over: a sequence of chars, shorter than the largest unsigned
    number (the library's "unlimited" repetition count). *)
Definition query_ok (w : str) : Prop :=
  forallb is_char w = true /\ (Z.of_nat (length w) < 4294967295).

(** The tree of a pattern as the builder numbers it, and its optimised form. *)
Definition ctree (r : rx) : node := optimize (tree (renumber r)) [].

(** [r] is handled by the optimiser and the matcher exactly as specified (see Checker.v for
    what is looked at: every backtracking construct of the matcher that is not a faithful
    backtracking search has to be used in a place where that makes no difference). *)
Definition supported (r : rx) : bool :=
  wf r
  && (let n := ctree r in
      optok (tree (renumber r)) [] FTot
      && good (ngroups n) false n PFst && accins n && (clean n PFst || runroot n || countroot n)).
(** ... and its captures are those of the chosen match, numbered by opening parenthesis. *)
Fixpoint nats_eqb (a b : list nat) : bool :=
  match a, b with
  | [], [] => true
  | x :: a', y :: b' => Nat.eqb x y && nats_eqb a' b'
  | _, _ => false
  end.
(** The slots every match of [r] fills. *)
Fixpoint sure (r : rx) : list nat :=
  match r with ROne b => sure_br b | ROr b r' => filter (fun k => existsb (Nat.eqb k) (sure r')) (sure_br b) end
with sure_br (b : br) : list nat := match b with Br _ s => sure_sq s end
with sure_sq (s : sq) : list nat :=
  match s with
  | SNil => []
  | SCons a q s' =>
      (match q with
       | Q1 => sure_atom a
       | QQ k _ => if N.eqb (kind_min k) 0 then [] else sure_atom a
       end) ++ sure_sq s'
  end
with sure_atom (a : atom) : list nat :=
  match a with AEl _ => [] | ACap i r => i :: sure r | ANon r => sure r end.
Definition covers (r : rx) : bool :=
  forallb (fun k => existsb (Nat.eqb k) (sure r)) (seq 0 (length (caps r))).
Definition captures_ok (r : rx) : bool :=
  nats_eqb (caps (renumber r)) (caps r) && gex (ctree r) && (gcl (ctree r) || covers r).
(** [r] is matched exactly as specified at every position where the matcher is started; but
    the search loop may skip positions. *)
Definition exact (r : rx) : bool :=
  wf r && (let n := ctree r in
           optok (tree (renumber r)) [] FTot && good (ngroups n) false n PFst && accins n && opt_small n).
