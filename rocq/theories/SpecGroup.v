(** Leaving out redundant (?:...) (C71).  Only the surface syntax of Spec.v is used. *)
From Coq Require Import ZArith NArith List Bool.
From Verif Require Import Base Spec.
Import ListNotations.

(** (?:...) is left out around a single unquantified item, (?:x)q becoming xq, and around the end of a
    branch, x(?:s) becoming xs; innermost first. *)
Fixpoint strip (r : rx) : rx :=
  match r with
  | ROne b => ROne (strip_br b)
  | ROr b r' => ROr (strip_br b) (strip r')
  end
with strip_br (b : br) : br := match b with Br a s => Br a (strip_sq s) end
with strip_sq (s : sq) : sq :=
  match s with
  | SNil => SNil
  | SCons a q s' =>
      match strip_atom a, q, s' with
      | ANon (ROne (Br false s0)), Q1, SNil => s0
      | a', _, _ => SCons a' q (strip_sq s')
      end
  end
with strip_atom (a : atom) : atom :=
  match a with
  | ANon r => match strip r with
              | ROne (Br false (SCons a' Q1 SNil)) => a'
              | r' => ANon r'
              end
  | ACap i r => ACap i (strip r)
  | AEl x => AEl x
  end.
(** p|q, as patterns. *)
Fixpoint alt (p q : rx) : rx :=
  match p with ROne b => ROr b q | ROr b p' => ROr b (alt p' q) end.
(** (?:q) as a branch. *)
Definition group (q : rx) : br := Br false (SCons (ANon q) Q1 SNil).
