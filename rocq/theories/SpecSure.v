(** Independent specification: a condition on patterns as written under which the library never
    reports a text that is not in the language of the pattern (C21), even where it does not
    choose by the usual priorities or misses texts.  Nothing here refers to the model of the
    library. *)
From Coq Require Import ZArith NArith List Bool.
From Verif Require Import Base Spec SpecTok SpecFields SpecChoice SpecLL SpecCalm.
Import ListNotations.
Open Scope Z_scope.

Definition all : chr -> bool := fun _ => true.
(** What can follow, as far as it is known: [inj] comes after the whole group. *)
Definition next_set (s : sq) (inj : chr -> bool) : chr -> bool := if tame_sq s then or_set (first_sq s) inj else all.
Definition settled (a : atom) (next : chr -> bool) : bool := tame_atom a && apart (first_atom a) next.
(** After a failure the library goes on from where it was: the pattern opens with ^ or with one
    character (not \s, not a complemented class), alone, in (?:), or in a capture or a repetition
    (not lazy) that nothing follows. *)
Fixpoint keeps (r : rx) (inj : chr -> bool) : bool :=
  match r with ROne b => keeps_br b inj | ROr b r' => keeps_br b none && keeps r' none end
with keeps_br (b : br) (inj : chr -> bool) : bool := match b with Br a s => a || keeps_sq s inj end
with keeps_sq (s : sq) (inj : chr -> bool) : bool :=
  match s with
  | SNil => false
  | SCons a Q1 s' => match a, s' with
                     | ACap _ _, SCons _ _ _ => false
                     | _, _ => keeps_atom a inj
                     end
  | SCons a (QQ (QExact _) _) _ => false
  | SCons a (QQ k g) s' => match s' with
                           | SNil => keeps_atom a none && (kind_min k <=? 1)%N && match g with Po => true | Gr => settled a inj | Lz => false end
                           | _ => false
                           end
  end
with keeps_atom (a : atom) (inj : chr -> bool) : bool :=
  match a with AEl x => steady x | ACap _ r => keeps r inj | ANon r => keeps r inj end.
(** A repetition: {n} and possessive always; a lazy one if what follows [keeps] its place; a
    greedy one if what follows begins with other characters than the repeated item, or if what
    follows [keeps] its place and the item is a single character (not \s, not complemented) that is
    not just optional. *)
Definition loop_ok (a : atom) (q : quant) (next : chr -> bool) (kept : bool) : bool :=
  match q with
  | Q1 | QQ (QExact _) _ | QQ _ Po => true
  | QQ k Gr => match a with AEl x => steady x && negb (is_opt k) && kept | _ => false end || settled a next
  | QQ _ Lz => kept
  end.
(** Honest: every repetition is such, every alternative but the last [keeps] its place, and \s is
    only last in a class and never in a complemented one. *)
Fixpoint honest (r : rx) (inj : chr -> bool) : bool :=
  match r with ROne b => honest_br b inj | ROr b r' => honest_br b none && keeps_br b none && honest r' none end
with honest_br (b : br) (inj : chr -> bool) : bool := match b with Br a s => honest_sq s (if a then none else inj) end
with honest_sq (s : sq) (inj : chr -> bool) : bool :=
  match s with
  | SNil => true
  | SCons a q s' =>
      honest_sq s' none
      && honest_atom a (match q, a with QQ _ _, _ => none | Q1, ACap _ _ => next_set s' inj | Q1, _ => inj end)
      && loop_ok a q (next_set s' inj) (match s' with SNil => true | _ => keeps_sq s' none end)
  end
with honest_atom (a : atom) (inj : chr -> bool) : bool :=
  match a with AEl x => clear x | ACap _ r => honest r inj | ANon r => honest r inj end.
(** The same with $ at the end of every branch. *)
Definition keeps_sq_d (s : sq) : bool :=
  match s with
  | SNil => true
  | SCons (ACap _ _) Q1 _ => false
  | SCons a Q1 _ => keeps_atom a none
  | _ => false
  end.
Definition next_d (s : sq) : chr -> bool := if empties s then all else next_set s none.
Fixpoint honest_sq_d (s : sq) : bool :=
  match s with
  | SNil => true
  | SCons a q s' =>
      honest_sq_d s'
      && honest_atom a (match q, a with Q1, ACap _ _ => next_d s' | _, _ => none end)
      && loop_ok a q (next_d s') (keeps_sq_d s')
  end.
Definition honest_br_d (b : br) : bool := match b with Br _ s => honest_sq_d s end.
Definition keeps_br_d (b : br) : bool := match b with Br a s => a || keeps_sq_d s end.
Fixpoint honest_d (r : rx) : bool := match r with ROne b => honest_br_d b | ROr b r' => honest_br_d b && keeps_br_d b && honest_d r' end.

(** The tokens (begin, end, type) from offset [p] on cut the text: each is a non-empty text of a
    definition of its type, behind a non-empty text of a separator (the first may open the text). *)
Inductive cut_of (ds : list tdef) (w : str) : nat -> list (nat * nat * nat) -> Prop :=
| cut_end : forall p, cut_of ds w p []
| cut_tok : forall p q k ty r l,
    (p = 0%nat /\ q = 0%nat) \/ (exists rs, In (Sep rs) ds /\ (p < q)%nat /\ lang (skipn p w) rs 0 (q - p)) ->
    In (Tok ty r) ds -> (0 < k)%nat -> (q + k <= length w)%nat -> lang (skipn q w) r 0 k ->
    cut_of ds w (q + k) l -> cut_of ds w p ((q, (q + k)%nat, ty) :: l).
