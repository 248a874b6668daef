(** A sequence put in front of another (C66, C70, C73). *)
From Verif Require Import Spec.
Fixpoint put (p s : sq) : sq := match p with SNil => s | SCons x q p' => SCons x q (put p' s) end.
(** A branch among others: l1|...|lk|b|t. *)
Fixpoint among (l : list br) (b : br) (t : option rx) : rx :=
  match l with
  | nil => match t with None => ROne b | Some r => ROr b r end
  | cons c l => ROr c (among l b t)
  end.
