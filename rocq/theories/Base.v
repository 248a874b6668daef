(** Characters, strings, 32-bit arithmetic and counted loops.
    Nothing here models a particular function of /repo except where cited. *)
From Coq Require Import ZArith NArith List Bool Ascii String.
Import ListNotations.
Open Scope Z_scope.

(** A C++ [char]: signed 8 bit, so a value in -128..127. *)
Notation chr := Z (only parsing).
(** A string / a token (pack_string<...>): the list of its characters. *)
Notation str := (list Z) (only parsing).

(** int -> char conversion (8-bit wrap-around), e.g. src/operators/hex.hpp:22. *)
Definition to_char (z : Z) : chr :=
  let m := z mod 256 in if m <? 128 then m else m - 256.

(** A Coq literal as a C++ string literal (used to write patterns and queries). *)
Definition c_of (a : ascii) : chr := to_char (Z.of_nat (nat_of_ascii a)).
Fixpoint S2L (s : string) : str :=
  match s with
  | EmptyString => []
  | String a r => c_of a :: S2L r
  end.

Fixpoint str_eqb (a b : str) : bool :=
  match a, b with
  | [], [] => true
  | x :: a', y :: b' => (x =? y) && str_eqb a' b'
  | _, _ => false
  end.

(** Characters used by name. *)
Definition c_bslash := 92.
Definition c_bar := 124.
Definition c_lpar := 40.
Definition c_rpar := 41.
Definition c_lbrk := 91.
Definition c_rbrk := 93.
Definition c_lbrc := 123.
Definition c_rbrc := 125.
Definition c_comma := 44.
Definition c_plus := 43.
Definition c_star := 42.
Definition c_quest := 63.
Definition c_caret := 94.
Definition c_dollar := 36.
Definition c_dot := 46.
Definition c_dash := 45.
Definition c_colon := 58.
Definition c_nl := 10.

(** [std::numeric_limits<unsigned>::max()]. *)
Definition UMAX : N := 4294967295.
(** unsigned wrap-around. *)
Definition wrap32 (n : N) : N := N.modulo n 4294967296.

(** [ploop p f a]: run [f] at most [p] times, stopping at the first [inr].
    This is a C++ [for (unsigned i = 0; i < p; ++i)] with [break]/[return];
    it recurses on the binary numeral so that huge bounds compute. *)
Fixpoint ploop {A B : Type} (p : positive) (f : A -> A + B) (a : A) : A + B :=
  match p with
  | xH => f a
  | xO q => match ploop q f a with
            | inl a' => ploop q f a'
            | inr b => inr b
            end
  | xI q => match f a with
            | inl a0 => match ploop q f a0 with
                        | inl a' => ploop q f a'
                        | inr b => inr b
                        end
            | inr b => inr b
            end
  end.
Definition loopN {A B : Type} (n : N) (f : A -> A + B) (a : A) : A + B :=
  match n with N0 => inl a | Npos p => ploop p f a end.

(** [mapM f l]: all results, or [None] as soon as one is [None]. *)
Fixpoint mapM {A B : Type} (f : A -> option B) (l : list A) : option (list B) :=
  match l with
  | [] => Some []
  | a :: r => match f a, mapM f r with
              | Some b, Some bs => Some (b :: bs)
              | _, _ => None
              end
  end.

(** Tactic: split conjunctions only. *)
Ltac conj := repeat match goal with |- _ /\ _ => split end.
