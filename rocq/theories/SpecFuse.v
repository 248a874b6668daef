(** C75: a choice between characters, and the class of these characters. *)
From Coq Require Import ZArith List Bool.
From Verif Require Import Base Spec.
Import ListNotations.
(** The items an element may stand for in a class: a, \d, and [a-z] (a class of a single item) for a-z. *)
Definition item_of (y : elem) (i : citem) : Prop :=
  match y with
  | ELit c => i = CChar c
  | EEsc c => i = CEsc c
  | EClass false [j] => i = j
  | _ => False
  end.
(** y1|y2|...|yn *)
Fixpoint either (y : elem) (ys : list elem) : rx :=
  match ys with
  | [] => ROne (Br false (SCons (AEl y) Q1 SNil))
  | z :: zs => ROr (Br false (SCons (AEl y) Q1 SNil)) (either z zs)
  end.
(** A branch of a single unquantified part. *)
Definition alone (x : atom) : br := Br false (SCons x Q1 SNil).
(** The second is the first where any number of (?:y1|...|yn), at any depth, are written [i1...in] instead, and where any
    number of groups that only hold one part are left out: (?:(?:r)) is written (?:r), ((?:r)) is written (r), (?:[...]) is
    written [...], a quantified (?:(r)) is written (r), and a (?:...) of a single
    alternative that ends a sequence, or is a whole alternative (and may begin with ^), is left out. *)
Inductive fused : rx -> rx -> Prop :=
| fused_one b b' : fused_br b b' -> fused (ROne b) (ROne b')
| fused_or b b' r r' : fused_br b b' -> fused r r' -> fused (ROr b r) (ROr b' r')
with fused_br : br -> br -> Prop :=
| fused_branch a s s' : fused_sq s s' -> fused_br (Br a s) (Br a s')
| fused_whole b b' : fused_br b b' -> fused_br (alone (ANon (ROne b))) b'
with fused_sq : sq -> sq -> Prop :=
| fused_nil : fused_sq SNil SNil
| fused_cons x x' q s s' : fused_atom x x' -> fused_sq s s' -> fused_sq (SCons x q s) (SCons x' q s')
| fused_run i r r' k g s s' : fused r r' -> fused_sq s s' -> fused_sq (SCons (ANon (ROne (alone (ACap i r)))) (QQ k g) s) (SCons (ACap i r') (QQ k g) s')
| fused_end s s' : s <> SNil -> fused_sq s s' -> fused_sq (SCons (ANon (ROne (Br false s))) Q1 SNil) s'
with fused_atom : atom -> atom -> Prop :=
| fused_el y : fused_atom (AEl y) (AEl y)
| fused_cap i r r' : fused r r' -> fused_atom (ACap i r) (ACap i r')
| fused_non r r' : fused r r' -> fused_atom (ANon r) (ANon r')
| fused_twice r r' : fused r r' -> fused_atom (ANon (ROne (alone (ANon r)))) (ANon r')
| fused_within i r r' : fused r r' -> fused_atom (ACap i (ROne (alone (ANon r)))) (ACap i r')
| fused_single n l : fused_atom (ANon (ROne (alone (AEl (EClass n l))))) (AEl (EClass n l))
| fused_class y ys i l : Forall2 item_of (y :: ys) (i :: l) -> fused_atom (ANon (either y ys)) (AEl (EClass false (i :: l))).
Scheme fused_mut := Minimality for fused Sort Prop
with fused_br_mut := Minimality for fused_br Sort Prop
with fused_sq_mut := Minimality for fused_sq Sort Prop
with fused_atom_mut := Minimality for fused_atom Sort Prop.
Combined Scheme fused_all_ind from fused_mut, fused_br_mut, fused_sq_mut, fused_atom_mut.
