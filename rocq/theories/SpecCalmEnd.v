(** Independent specification: [calm] (SpecCalm.v) for patterns with $ at the end of every branch
    (C19, C20).  Nothing here refers to the model of the library. *)
From Coq Require Import ZArith NArith List Bool.
From Verif Require Import Base Spec SpecFields SpecChoice SpecLL SpecCalm SpecSure.
Import ListNotations.
Open Scope Z_scope.

(** Every greedy repetition (not {n}) is of one character, either x?, or not of \s or a
    complemented class and with no greedy x? behind it; or is followed by something, not only
    by $, that begins with other characters. *)
Fixpoint calm_sq_d (s : sq) : bool :=
  match s with
  | SNil => true
  | SCons a q s' =>
      calm_sq_d s'
      && calm_atom a (match q, a with Q1, ACap _ _ => next_d s' | _, _ => none end)
      && match q with
         | QQ (QExact _) _ => true
         | QQ k Gr => match a with AEl x => clear x && (is_opt k || (steady x && no_opt_sq s')) | _ => false end
                      || settled a (next_d s')
         | _ => true
         end
  end.
Definition calm_br_d (b : br) : bool := match b with Br _ s => calm_sq_d s end.
Fixpoint calm_d (r : rx) : bool := match r with ROne b => calm_br_d b | ROr b r' => calm_br_d b && calm_d r' end.
