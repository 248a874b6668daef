(** The compile-time text layer: numbers, hex, octal, lexer, balanced, split,
    extract_delimited_content.  Model only, no proofs. *)
From Coq Require Import ZArith NArith List Bool.
From Verif Require Import Base.
Import ListNotations.
Open Scope Z_scope.

(** src/utilities/pack_string_to_number.hpp:14-24 (ten_power). *)
Fixpoint ten_power (k : nat) : Z := match k with O => 1 | S k' => 10 * ten_power k' end.

(** src/utilities/pack_string_to_number.hpp:11-35.  The C++ accumulates
    [(head - '0') * 10^index] in [unsigned]; we sum in Z and wrap once at the end
    (same value modulo 2^32).  pack_string<> gives 0. *)
Fixpoint digits_value (s : str) : Z :=
  match s with
  | [] => 0
  | c :: r => (c - 48) * ten_power (length r) + digits_value r
  end.
Definition pack_string_to_number (s : str) : N :=
  Z.to_N (digits_value s mod 4294967296).

(** src/utilities/number_to_pack_string.hpp:19-45.  [fuel] bounds the number of
    digits; 10 are enough for every 32-bit number (proved). *)
Fixpoint number_to_str_aux (fuel : nat) (n : N) (cur : str) : str :=
  match fuel with
  | O => cur
  | S f => if N.eqb n 0 then cur
           else number_to_str_aux f (N.div n 10)
                  ((Z.of_N (n - (N.div n 10) * 10)%N + 48) :: cur)
  end.
Definition number_to_pack_string (n : N) : str :=
  if N.eqb n 0 then [48] else number_to_str_aux 10 n [].

(** src/operators/hex.hpp:10-11: the [hex] concept. *)
Definition is_hex (c : chr) : bool := (48 <=? c) && (c <=? 70).

(** src/operators/hex.hpp:13-58 (hex_to_bin).  A failed static_assert is [None]. *)
Fixpoint hex_to_bin (ds : str) : option str :=
  match ds with
  | [] => Some []
  | [a] => if is_hex a then Some [to_char (a - 48)] else None
  | [a; b; c] =>
      if is_hex a && is_hex b && is_hex c
      then Some [to_char (Z.lor (Z.shiftl (a - 48) 4) (b - 48))] else None
  | a :: b :: r =>
      if is_hex a && is_hex b
      then match hex_to_bin r with
           | Some t => Some (to_char (Z.lor (Z.shiftl (a - 48) 4) (b - 48)) :: t)
           | None => None
           end
      else None
  end.

(** src/operators/octal.hpp:9-10. *)
Definition is_octal (c : chr) : bool := (48 <=? c) && (c <=? 56).

(** src/operators/octal.hpp:12-34 (octal_to_bin): triples only. *)
Fixpoint octal_to_bin (ds : str) : option str :=
  match ds with
  | [] => Some []
  | a :: b :: c :: r =>
      if is_octal a && is_octal b && is_octal c
      then match octal_to_bin r with
           | Some t => Some (to_char (Z.lor (Z.lor (Z.shiftl (a - 48) 6)
                                                   (Z.shiftl (b - 48) 3)) (c - 48)) :: t)
           | None => None
           end
      else None
  | _ => None
  end.

(** src/tokenizer.hpp:11-87 (extract_braces_numbers).  [ms] is the tuple under
    construction, one to three packs.  Returns the number tokens (with the braces)
    and the remaining characters; [None] when the closing brace is missing. *)
Fixpoint extract_braces_numbers (ms : list str) (s : str) : option (list str * str) :=
  match s with
  | [] => None
  | h :: tl =>
      match ms with
      | [cur] =>
          if h =? c_comma then extract_braces_numbers [cur; [c_comma]] tl
          else if h =? c_rbrc then Some ([[c_lbrc]; cur; [c_rbrc]], tl)
          else extract_braces_numbers [cur ++ [h]] tl
      | [f; g] =>
          if h =? c_rbrc then Some ([[c_lbrc]; f; g; [c_rbrc]], tl)
          else extract_braces_numbers [f; g; [h]] tl
      | [f; g; cur] =>
          if h =? c_rbrc then Some ([[c_lbrc]; f; g; cur; [c_rbrc]], tl)
          else extract_braces_numbers [f; g; cur ++ [h]] tl
      | _ => None
      end
  end.

(** src/tokenizer.hpp:89-132 (tokenizer).  Each step consumes at least one
    character, so [length s] steps suffice ([lex]). *)
Fixpoint lex_aux (fuel : nat) (s : str) : option (list str) :=
  match fuel with
  | O => match s with [] => Some [] | _ => None end
  | S f =>
      match s with
      | [] => Some []
      | h :: tl =>
          if h =? c_lbrc then
            match extract_braces_numbers [[]] tl with
            | Some (toks, rest) =>
                match lex_aux f rest with Some r => Some (toks ++ r) | None => None end
            | None => None
            end
          else
            match tl with
            | c :: tl' =>
                if h =? c_bslash
                then match lex_aux f tl' with Some r => Some ([h; c] :: r) | None => None end
                else match lex_aux f tl with Some r => Some ([h] :: r) | None => None end
            | [] => match lex_aux f tl with Some r => Some ([h] :: r) | None => None end
            end
      end
  end.
Definition lex (s : str) : option (list str) := lex_aux (length s) s.

(** Is the token exactly the one-character pack [c]? *)
Definition is1 (c : chr) (t : str) : bool := str_eqb t [c].
(** Is the token exactly the escape [\c]? *)
Definition is_esc (c : chr) (t : str) : bool := str_eqb t [c_bslash; c].

(** src/utilities/balanced.hpp:9-76 and static_stack.hpp.  The stack after reading
    the tokens (openers pushed; a closer pops only its own opener, else it is an
    ordinary token). *)
Definition bal_step (stk : list chr) (t : str) : list chr :=
  if is1 c_lpar t then c_lpar :: stk
  else if is1 c_lbrk t then c_lbrk :: stk
  else if is1 c_lbrc t then c_lbrc :: stk
  else match stk with
       | h :: r =>
           if is1 c_rpar t && (h =? c_lpar) then r
           else if is1 c_rbrk t && (h =? c_lbrk) then r
           else if is1 c_rbrc t && (h =? c_lbrc) then r
           else stk
       | [] => stk
       end.
Definition bal_run (stk : list chr) (ts : list str) : list chr := fold_left bal_step ts stk.
Definition balanced (ts : list str) : bool :=
  match bal_run [] ts with [] => true | _ => false end.

(** src/utilities/split.hpp:16-50 with src/utilities/reverse.hpp.  [cur] is the
    branch being read, [done] the finished branches, most recent first. *)
Fixpoint split_aux (sep : chr) (ts : list str) (cur : list str) (done : list (list str))
  : list (list str) :=
  match ts with
  | [] => rev (cur :: done)
  | t :: tl =>
      if is1 sep t && balanced tl && balanced cur
      then split_aux sep tl [] (cur :: done)
      else split_aux sep tl (cur ++ [t]) done
  end.
Definition split (sep : chr) (ts : list str) : list (list str) := split_aux sep ts [] [].

(** src/utilities/extract_delimited_content.hpp:11-61.  [None]: no specialisation
    (the input ends while the skip counter is positive).  Input ending at counter 0
    is the "malformed token string" case: both results empty. *)
Fixpoint extract_aux (op cl : chr) (skip : nat) (cur : list str) (ts : list str)
  : option (list str * list str) :=
  match ts with
  | [] => match skip with O => Some ([], []) | S _ => None end
  | t :: tl =>
      if is1 cl t then
        match skip with
        | O => Some (cur, tl)
        | S k => extract_aux op cl k (cur ++ [t]) tl
        end
      else if is1 op t then extract_aux op cl (S skip) (cur ++ [t]) tl
      else extract_aux op cl skip (cur ++ [t]) tl
  end.
Definition extract_delimited (op cl : chr) (ts : list str) := extract_aux op cl 0 [] ts.
