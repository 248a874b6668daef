(** Independent specification of a lexer: maximal munch over the languages of its definitions.
    Nothing here refers to the model of the library, nor to an order of attempts. *)
From Coq Require Import ZArith List Bool.
From Verif Require Import Base Spec SpecProofs SpecTok SpecLL.
Import ListNotations.
Open Scope nat_scope.

(** [k] characters at the front of [u] are a text of [r]. *)
Definition begins (r : rx) (u : str) (k : nat) : Prop := lang u r 0 k.
(** None of the patterns has a text at the front of [u]; or [k] characters are one, and nothing longer. *)
Definition none_begins (rs : list rx) (u : str) : Prop := forall r k, In r rs -> ~ begins r u k.
Definition most_begins (rs : list rx) (u : str) (k : nat) : Prop :=
  (exists r, In r rs /\ begins r u k) /\ forall r k', In r rs -> begins r u k' -> k' <= k.
(** From [p] on, the next token begins at [q]: behind the longest separator at [p]; or at the
    very beginning of the text, if no separator is there. *)
Definition starts_at (ds : list tdef) (w : str) (p q : nat) : Prop :=
  (p <= q /\ most_begins (sep_defs ds) (skipn p w) (q - p)) \/ (p = 0 /\ q = 0 /\ none_begins (sep_defs ds) w).
(** The type is that of the first definition that has these [k] characters as a text. *)
Definition kind_of (ds : list tdef) (u : str) (k ty : nat) : Prop :=
  exists d1 r d2, tok_defs ds = d1 ++ (ty, r) :: d2 /\ begins r u k /\ forall t, In t d1 -> ~ begins (snd t) u k.
(** The tokens (begin, end, type) from offset [p] on: the text is given up where a separator is
    missing, or a token. *)
Inductive munches (ds : list tdef) (w : str) : nat -> list (nat * nat * nat) -> Prop :=
| munch_no_sep : forall p, 0 < p -> none_begins (sep_defs ds) (skipn p w) -> munches ds w p []
| munch_no_tok : forall p q, starts_at ds w p q -> none_begins (map snd (tok_defs ds)) (skipn q w) -> munches ds w p []
| munch_tok : forall p q k ty l, starts_at ds w p q -> most_begins (map snd (tok_defs ds)) (skipn q w) k -> kind_of ds (skipn q w) k ty ->
    munches ds w (q + k) l -> munches ds w p ((q, q + k, ty) :: l).
(** A definition without ^ and without | outside of groups, in which the next character decides. *)
Definition lone (r : rx) : bool :=
  match r with ROne (Br false _) => wf r && nopos r && one_look r | _ => false end.
Definition munch_ok (ds : list tdef) : bool :=
  forallb (fun d => match d with Tok _ r | Sep r => lone r end) ds
  && match tok_defs ds with [] => false | _ => true end && match sep_defs ds with [] => false | _ => true end.
