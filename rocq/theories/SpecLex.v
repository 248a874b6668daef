(** Independent specification of a lexer whose tokens and separators are written as fields
    (SpecFields.v): maximal munch.  Nothing here refers to the model of the library. *)
From Coq Require Import ZArith List Bool.
From Verif Require Import Base SpecFields.
Import ListNotations.
Open Scope nat_scope.

Inductive ldef : Type := LTok (ty : nat) (fs : list field) | LSep (fs : list field).
Fixpoint ltoks (ds : list ldef) : list (nat * list field) :=
  match ds with [] => [] | LTok ty fs :: ds => (ty, fs) :: ltoks ds | LSep _ :: ds => ltoks ds end.
Fixpoint lseps (ds : list ldef) : list (list field) :=
  match ds with [] => [] | LTok _ _ :: ds => lseps ds | LSep fs :: ds => fs :: lseps ds end.
(** Nothing at the front of [u]; or [k] characters, and nothing longer. *)
Definition none_front (fss : list (list field)) (u : str) : Prop := forall fs k, In fs fss -> ~ front fs u k.
Definition longest_front (fss : list (list field)) (u : str) (k : nat) : Prop :=
  (exists fs, In fs fss /\ front fs u k) /\ forall fs k', In fs fss -> front fs u k' -> k' <= k.
(** From [p] on, the next token begins at [q]: behind the longest separator at [p]; or at the
    very beginning of the text, if no separator is there. *)
Definition token_start (ds : list ldef) (w : str) (p q : nat) : Prop :=
  (p <= q /\ longest_front (lseps ds) (skipn p w) (q - p)) \/ (p = 0 /\ q = 0 /\ none_front (lseps ds) w).
(** The type is that of the first definition that matches these [k] characters. *)
Definition first_def (ds : list ldef) (u : str) (k ty : nat) : Prop :=
  exists d1 fs d2, ltoks ds = d1 ++ (ty, fs) :: d2 /\ front fs u k /\ forall t, In t d1 -> ~ front (snd t) u k.
(** The tokens (begin, end, type) from offset [p] on: the text is given up where a separator is
    missing, or a token. *)
Inductive lexes (ds : list ldef) (w : str) : nat -> list (nat * nat * nat) -> Prop :=
| lex_no_sep : forall p, 0 < p -> none_front (lseps ds) (skipn p w) -> lexes ds w p []
| lex_no_tok : forall p q, token_start ds w p q -> none_front (map snd (ltoks ds)) (skipn q w) -> lexes ds w p []
| lex_tok : forall p q k ty l, token_start ds w p q -> longest_front (map snd (ltoks ds)) (skipn q w) k -> first_def ds (skipn q w) k ty ->
    lexes ds w (q + k) l -> lexes ds w p ((q, q + k, ty) :: l).
(** At least one token and one separator, all of them lists of separated fields. *)
Definition lexer_ok (ds : list ldef) : bool :=
  forallb (fun d => match d with LTok _ fs | LSep fs => prefix_ok fs end) ds
  && match ltoks ds with [] => false | _ => true end && match lseps ds with [] => false | _ => true end.
