(** Independent specification: a condition on patterns as written under which results do not
    overlap and next() terminates (C30, C31, C40, C50).  Nothing here refers to the model of the
    library. *)
From Coq Require Import ZArith NArith List Bool.
From Verif Require Import Base Spec SpecFields SpecChoice SpecLL SpecCalm SpecSure.
Import ListNotations.
Open Scope Z_scope.

(** Every greedy x? (or x{0,1}) is of one character, or is followed by other characters than it
    begins with; ([inj]: what follows the group). *)
Definition opt_ok (a : atom) (q : quant) (next : chr -> bool) : bool :=
  match q with
  | QQ k Gr => negb (is_opt k) || match a with AEl _ => true | _ => false end || settled a next
  | _ => true
  end.
Fixpoint small (r : rx) (inj : chr -> bool) : bool :=
  match r with ROne b => small_br b inj | ROr b r' => small_br b none && small r' none end
with small_br (b : br) (inj : chr -> bool) : bool := match b with Br a s => small_sq s (if a then none else inj) end
with small_sq (s : sq) (inj : chr -> bool) : bool :=
  match s with
  | SNil => true
  | SCons a q s' =>
      small_sq s' none
      && small_atom a (match q, a with QQ _ _, _ => none | Q1, ACap _ _ => next_set s' inj | Q1, _ => inj end)
      && opt_ok a q (next_set s' inj)
  end
with small_atom (a : atom) (inj : chr -> bool) : bool :=
  match a with AEl x => true | ACap _ r => small r inj | ANon r => small r inj end.
(** The same with $ at the end of every branch. *)
Fixpoint small_sq_d (s : sq) : bool :=
  match s with
  | SNil => true
  | SCons a q s' =>
      small_sq_d s'
      && small_atom a (match q, a with Q1, ACap _ _ => next_d s' | _, _ => none end)
      && opt_ok a q (next_d s')
  end.
Definition small_br_d (b : br) : bool := match b with Br _ s => small_sq_d s end.
Fixpoint small_d (r : rx) : bool := match r with ROne b => small_br_d b | ROr b r' => small_br_d b && small_d r' end.
