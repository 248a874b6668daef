(** Independent specification of the text layer: tokens, nesting, bracket content.
    Refers only to [Base] and [Spec] (how numerals are written). *)
From Coq Require Import ZArith NArith List Bool.
From Verif Require Import Base Spec.
Import ListNotations.
Open Scope Z_scope.

(** ** Tokens of a pattern *)

(** [lexed p ts]: [ts] is how the pattern [p] is cut: backslash pairs, {n} {n,} {n,m}
    quantifier parts, single characters. *)
Inductive lexed : str -> list str -> Prop :=
| LexNil : lexed [] []
| LexEsc c p ts : lexed p ts -> lexed (c_bslash :: c :: p) ([c_bslash; c] :: ts)
| LexChr c p ts : c <> c_lbrc -> (c <> c_bslash \/ p = []) ->
                  lexed p ts -> lexed (c :: p) ([c] :: ts)
| LexB1 n p ts : ~ In c_comma n -> ~ In c_rbrc n -> lexed p ts ->
                 lexed ([c_lbrc] ++ n ++ [c_rbrc] ++ p) ([[c_lbrc]; n; [c_rbrc]] ++ ts)
| LexB2 n p ts : ~ In c_comma n -> ~ In c_rbrc n -> lexed p ts ->
                 lexed ([c_lbrc] ++ n ++ [c_comma; c_rbrc] ++ p)
                       ([[c_lbrc]; n; [c_comma]; [c_rbrc]] ++ ts)
| LexB3 n m p ts : ~ In c_comma n -> ~ In c_rbrc n -> m <> [] -> ~ In c_rbrc m ->
                 lexed p ts ->
                 lexed ([c_lbrc] ++ n ++ [c_comma] ++ m ++ [c_rbrc] ++ p)
                       ([[c_lbrc]; n; [c_comma]; m; [c_rbrc]] ++ ts).

(** The pattern has a '{' (outside escapes and quantifiers) that is never closed. *)
Inductive unclosed : str -> Prop :=
| UnHere p : ~ In c_rbrc p -> unclosed (c_lbrc :: p)
| UnEsc c p : unclosed p -> unclosed (c_bslash :: c :: p)
| UnChr c p : c <> c_lbrc -> c <> c_bslash -> unclosed p -> unclosed (c :: p)
| UnB n p : ~ In c_rbrc n -> unclosed p -> unclosed ([c_lbrc] ++ n ++ [c_rbrc] ++ p).

(** ** Properly nested token sequences *)

Definition brackets : list (chr * chr) :=
  [(c_lpar, c_rpar); (c_lbrk, c_rbrk); (c_lbrc, c_rbrc)].
Definition bracket_chars : list chr :=
  [c_lpar; c_rpar; c_lbrk; c_rbrk; c_lbrc; c_rbrc].
(** A token that is not a bracket. *)
Definition ordinary (t : str) : Prop := forall c, In c bracket_chars -> t <> [c].

(** All brackets are matched and nest properly. *)
Inductive nested : list str -> Prop :=
| NestNil : nested []
| NestTok t ts : ordinary t -> nested ts -> nested (t :: ts)
| NestBr o c a b : In (o, c) brackets -> nested a -> nested b ->
                   nested (([o] :: a) ++ ([c] :: b)).

(** Properly nested, with no token [[sep]] outside the brackets. *)
Inductive flat (sep : chr) : list str -> Prop :=
| FlatNil : flat sep []
| FlatTok t ts : ordinary t -> t <> [sep] -> flat sep ts -> flat sep (t :: ts)
| FlatBr o c a b : In (o, c) brackets -> nested a -> flat sep b ->
                   flat sep (([o] :: a) ++ ([c] :: b)).

(** Branches glued with a separator token. *)
Fixpoint join (sep : chr) (bs : list (list str)) : list str :=
  match bs with
  | [] => []
  | [b] => b
  | b :: r => b ++ [[sep]] ++ join sep r
  end.

(** Nesting of one kind of brackets only. *)
Inductive dyck (op cl : chr) : list str -> Prop :=
| DyNil : dyck op cl []
| DyTok t ts : t <> [op] -> t <> [cl] -> dyck op cl ts -> dyck op cl (t :: ts)
| DyBr a b : dyck op cl a -> dyck op cl b -> dyck op cl (([op] :: a) ++ ([cl] :: b)).

(** ** Sets of characters given by ascending lists *)
Definition ascending (s : list chr) : Prop :=
  forall i j a b, (i < j)%nat -> nth_error s i = Some a -> nth_error s j = Some b -> a < b.
