(** Independent specification: patterns that capture only when nothing can fail any more (C36).
    Nothing here refers to the model of the library. *)
From Coq Require Import ZArith NArith List Bool.
From Verif Require Import Base Spec.
Import ListNotations.

Definition no_caps (a : atom) : bool := match caps_atom a with [] => true | _ => false end.
(** Nothing, or one item without captures that may be missing (x*, x?, x{0,m}). *)
Definition skippable (s : sq) : bool :=
  match s with
  | SNil => true
  | SCons a (QQ k _) SNil => no_caps a && N.eqb (kind_min k) 0 && match k with QExact _ => false | _ => true end
  | _ => false
  end.
(** In every branch only the last item captures, or the last but one when the last may be
    missing, and it is not repeated; the same inside of that item. *)
Fixpoint late (r : rx) : bool :=
  match r with ROne b => late_br b | ROr b r' => late_br b && late r' end
with late_br (b : br) : bool := match b with Br _ s => late_sq s end
with late_sq (s : sq) : bool :=
  match s with
  | SNil => true
  | SCons a q s' => (no_caps a && late_sq s') || (match q with Q1 => true | _ => false end && late_atom a && skippable s')
  end
with late_atom (a : atom) : bool := match a with AEl _ => true | ACap _ r => late r | ANon r => late r end.
