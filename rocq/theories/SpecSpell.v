(** When two patterns are different spellings of the same one (C60).  Only the surface syntax
    of Spec.v is used. *)
From Coq Require Import ZArith NArith List Bool.
From Verif Require Import Base Spec.
Import ListNotations.
Open Scope Z_scope.

(** The single byte an escape \c stands for: none for \d \s \w; \a \e \f \n \r \t are control
    characters; any other character stands for itself. *)
Definition esc_byte (c : chr) : option chr :=
  if (c =? 100) || (c =? 115) || (c =? 119) then None
  else Some (if c =? 97 then 7 else if c =? 101 then 27 else if c =? 102 then 12
             else if c =? 110 then 10 else if c =? 114 then 13 else if c =? 116 then 9 else c).
(** The single byte an element stands for: c, \c, \OOO, \xHH. *)
Definition elem_byte (x : elem) : option chr :=
  match x with
  | ELit c => Some c
  | EEsc c => esc_byte c
  | EOct a b c => Some (byte_chr (64 * a + 8 * b + c))
  | EHex a b => Some (byte_chr (16 * a + b))
  | EDot | EClass _ _ => None
  end.
(** The same for the items of a class: c, \c. *)
Definition citem_byte (i : citem) : option chr :=
  match i with CChar c => Some c | CEsc c => esc_byte c | CRange _ _ => None end.
Definition same_citem (i j : citem) : Prop := i = j \/ (citem_byte i <> None /\ citem_byte i = citem_byte j).
(** Equal, or the same byte, or classes with the same items in the same order. *)
Definition same_elem (x y : elem) : Prop :=
  x = y \/ (elem_byte x <> None /\ elem_byte x = elem_byte y)
  \/ exists neg l l', x = EClass neg l /\ y = EClass neg l' /\ Forall2 same_citem l l'.
(** x{n} is written with one number. *)
Definition one_number (k : qkind) : bool := match k with QExact _ => true | _ => false end.
(** The same bounds: * and {0,}, + and {1,}, ? and {0,1}, {007} and {7}. *)
Definition same_quant (q q' : quant) : Prop :=
  match q, q' with
  | Q1, Q1 => True
  | QQ k g, QQ k' g' => kind_min k = kind_min k' /\ kind_max k = kind_max k' /\ one_number k = one_number k' /\ g = g'
  | _, _ => False
  end.
(** An element that stands for what an item of a class stands for: the same byte, the same escape,
    or the class of that item alone. *)
Definition same_item (i : citem) (x : elem) : Prop :=
  (citem_byte i <> None /\ citem_byte i = elem_byte x) \/ (exists c, i = CEsc c /\ x = EEsc c) \/ x = EClass false [i].
(** i|j|k is the choice of the items of [ijk]. *)
Fixpoint choice_of (l : list citem) (r : rx) : Prop :=
  match l, r with
  | [i], ROne (Br false (SCons (AEl x) Q1 SNil)) => same_item i x
  | i :: l', ROr (Br false (SCons (AEl x) Q1 SNil)) r' => same_item i x /\ choice_of l' r'
  | _, _ => False
  end.
Definition class_choice (x : elem) (r : rx) : Prop := match x with EClass false l => choice_of l r | _ => False end.
(** The same pattern up to the spelling of its elements and quantifiers, and up to writing a class
    [ijk] as (?:i|j|k). *)
Fixpoint same (r r' : rx) : Prop :=
  match r, r' with
  | ROne b, ROne b' => same_br b b'
  | ROr b t, ROr b' t' => same_br b b' /\ same t t'
  | _, _ => False
  end
with same_br (b b' : br) : Prop :=
  match b, b' with Br a s, Br a' s' => a = a' /\ same_sq s s' end
with same_sq (s s' : sq) : Prop :=
  match s, s' with
  | SNil, SNil => True
  | SCons a q t, SCons a' q' t' => same_atom a a' /\ same_quant q q' /\ same_sq t t'
  | _, _ => False
  end
with same_atom (a a' : atom) : Prop :=
  match a, a' with
  | AEl x, AEl y => same_elem x y
  | AEl x, ANon r | ANon r, AEl x => class_choice x r
  | ACap _ r, ACap _ r' => same r r'
  | ANon r, ANon r' => same r r'
  | _, _ => False
  end.
