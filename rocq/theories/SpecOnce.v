(** C74: sequences where one time is plainly the element itself. *)
From Verif Require Import Base Spec.
(** Every capturing group of the sequence is quantified. *)
Fixpoint bare (p : sq) : Prop :=
  match p with SNil => True | SCons x q p' => ((forall i r, x <> ACap i r) \/ q <> Q1) /\ bare p' end.
(** The sequence ends with a part that has no quantifier and is no capturing group; an empty one stands after a ^. *)
Fixpoint steady (caret : bool) (p : sq) : Prop :=
  match p with
  | SNil => caret = true
  | SCons x q SNil => q = Q1 /\ forall i r, x <> ACap i r
  | SCons _ _ p' => steady caret p'
  end.
