(** C72: the characters that may begin what follows a run. *)
From Coq Require Import ZArith NArith List Bool.
From Verif Require Import Base Spec.
Import ListNotations.

(** Characters an element may match: its own set; for [.] every character; for a negated class every character outside its
    first item (every character at all if that item begins above 127). *)
Definition seven (i : citem) : bool := match i with CChar c | CRange c _ | CEsc c => (0 <=? c)%Z end.
Definition may (x : elem) (c : chr) : bool :=
  match x with
  | EDot => true
  | EClass true (i :: _) => negb (seven i && citem_set i c)
  | _ => elem_set x c
  end.
(** The least count of a quantifier. *)
Definition least (q : quant) : N := match q with Q1 => 1%N | QQ k _ => kind_min k end.
(** [c] may begin the pattern: it may be matched by one of its first parts.  A part is passed over when its quantifier
    allows none of it, and (to be safe) when it is a group; a branch with ^ may begin with anything. *)
Fixpoint leads (r : rx) (c : chr) : Prop :=
  match r with ROne b => leads_br b c | ROr b r' => leads_br b c \/ leads r' c end
with leads_br (b : br) (c : chr) : Prop := match b with Br a s => a = true \/ leads_sq s c end
with leads_sq (s : sq) (c : chr) : Prop :=
  match s with
  | SNil => False
  | SCons x q s' => leads_atom x c \/ ((least q = 0%N \/ (forall y, x <> AEl y)) /\ leads_sq s' c)
  end
with leads_atom (x : atom) (c : chr) : Prop :=
  match x with AEl y => may y c = true | ACap _ r => leads r c | ANon r => leads r c end.
(** No character may begin both. *)
Definition apart (x : atom) (s : sq) : Prop := forall c, ~ (leads_atom x c /\ leads_sq s c).
