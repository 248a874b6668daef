(** Independent specification: a condition on patterns as written under which matching stays
    inside of the query (C19, C20).  Nothing here refers to the model of the library. *)
From Coq Require Import ZArith NArith List Bool.
From Verif Require Import Base Spec SpecFields SpecChoice SpecLL.
Import ListNotations.
Open Scope Z_scope.

(** x? and x{0,1}. *)
Definition is_opt (k : qkind) : bool := N.eqb (kind_min k) 0 && match kind_max k with Some m => N.eqb m 1 | None => false end.
(** No greedy x? in it. *)
Fixpoint no_opt (r : rx) : bool :=
  match r with ROne b => no_opt_br b | ROr b r' => no_opt_br b && no_opt r' end
with no_opt_br (b : br) : bool := match b with Br _ s => no_opt_sq s end
with no_opt_sq (s : sq) : bool :=
  match s with
  | SNil => true
  | SCons a q s' => no_opt_atom a && negb (match q with QQ k Gr => is_opt k | _ => false end) && no_opt_sq s'
  end
with no_opt_atom (a : atom) : bool := match a with AEl _ => true | ACap _ r => no_opt r | ANon r => no_opt r end.
(** Patterns whose first characters the library computes correctly: groups without ^ and never
    empty, no lazy repetitions, \s only last in a class. *)
Fixpoint tame (r : rx) : bool :=
  match r with ROne b => tame_br b | ROr b r' => tame_br b && tame r' end
with tame_br (b : br) : bool := match b with Br a s => negb a && negb (empties s) && tame_sq s end
with tame_sq (s : sq) : bool :=
  match s with
  | SNil => true
  | SCons a q s' => tame_atom a && quant_ok q && match q with Q1 => true | QQ k g => often k g end && tame_sq s'
  end
with tame_atom (a : atom) : bool :=
  match a with AEl x => field_elem x | ACap _ r => (weight r <? 4294967296)%N && tame r | ANon r => (weight r <? 4294967296)%N && tame r end.
(** \s only last in a class and never in a complemented one. *)
Definition clear (x : elem) : bool :=
  match x with
  | EClass false items => negb (existsb blank (removelast items))
  | EClass true items => negb (existsb blank items)
  | _ => true
  end.
(** Calm: no \s in complemented classes, and every greedy repetition (not {n})
    - is of one character, either x?, or not of \s or a complemented class and with no greedy x?
      behind it;
    - or is followed by other characters than it begins with ([inj]: what follows the group). *)
Fixpoint calm (r : rx) (inj : chr -> bool) : bool :=
  match r with ROne b => calm_br b inj | ROr b r' => calm_br b none && calm r' none end
with calm_br (b : br) (inj : chr -> bool) : bool := match b with Br a s => calm_sq s (if a then none else inj) end
with calm_sq (s : sq) (inj : chr -> bool) : bool :=
  match s with
  | SNil => true
  | SCons a q s' =>
      let next := if tame_sq s' then or_set (first_sq s') inj else (fun _ => true) in
      calm_sq s' none
      && calm_atom a (match q, a with QQ _ _, _ => none | Q1, ACap _ _ => next | Q1, _ => inj end)
      && match q with
         | QQ (QExact _) _ => true
         | QQ k Gr => match a with AEl x => clear x && (is_opt k || (steady x && no_opt_sq s')) | _ => false end
                      || (tame_atom a && apart (first_atom a) next)
         | _ => true
         end
  end
with calm_atom (a : atom) (inj : chr -> bool) : bool :=
  match a with
  | AEl (EClass true items) => negb (existsb blank items)
  | AEl _ => true
  | ACap _ r => calm r inj
  | ANon r => calm r inj
  end.
