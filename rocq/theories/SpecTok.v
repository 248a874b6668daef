(** What a tokenizer should do, in terms of the specification of patterns only. *)
From Coq Require Import ZArith List Bool Lia.
From Verif Require Import Base Spec.
Import ListNotations.
Open Scope nat_scope.

(** A definition: a token with its type, or a separator. *)
Inductive tdef : Type := Tok (ty : nat) (r : rx) | Sep (r : rx).
Fixpoint tok_defs (ds : list tdef) : list (nat * rx) :=
  match ds with [] => [] | Tok ty r :: ds => (ty, r) :: tok_defs ds | Sep _ :: ds => tok_defs ds end.
Fixpoint sep_defs (ds : list tdef) : list rx :=
  match ds with [] => [] | Tok _ _ :: ds => sep_defs ds | Sep r :: ds => r :: sep_defs ds end.

(** How many characters at the front of [u] the pattern matches (0 also when it fails). *)
Definition len_at (u : str) (r : rx) : nat :=
  match match_at u r 0 with Some c => fst c | None => 0 end.
(** Maximal munch. *)
Definition longest (u : str) (rs : list rx) : nat := list_max (map (len_at u) rs).
(** The token after offset [p]: an optional separator (required unless p is the beginning),
    then the longest token; the type is that of the first definition of that length. *)
Definition next_token (ds : list tdef) (w : str) (p : nat) : option (nat * nat * nat) :=
  let s := longest (skipn p w) (sep_defs ds) in
  if (s =? 0) && negb (p =? 0) then None
  else let u := skipn (p + s) w in
       let l := longest u (map snd (tok_defs ds)) in
       if l =? 0 then None
       else match find (fun t => len_at u (snd t) =? l) (tok_defs ds) with
            | Some t => Some (p + s, p + s + l, fst t)
            | None => None
            end.
(** All the tokens from offset [p] on: (begin, end, type).  [k] bounds their number. *)
Fixpoint tokens_from (ds : list tdef) (w : str) (k p : nat) : list (nat * nat * nat) :=
  match k with
  | O => []
  | S k' => match next_token ds w p with
            | None => []
            | Some (a, b, ty) => (a, b, ty) :: tokens_from ds w k' b
            end
  end.
Definition tokens (ds : list tdef) (w : str) : list (nat * nat * nat) := tokens_from ds w (length w) 0.
