(** Text storage: static_string, pack_string, the tuple helpers and literal_string_view
    (src/utilities).  Model only, no proofs. *)
From Coq Require Import ZArith NArith List Bool.
From Verif Require Import Base Text.
Import ListNotations.
Open Scope Z_scope.

(** ** static_string<size> (utilities/static_string.hpp:14-81): [size] characters.
    A character array (string literal) is the list of its elements, including the NUL. *)
Definition sstr := list chr.

(** static_string(const Char_Type (&data)[S]) (21-27): copies [size] elements of the array;
    reading past the array is not a constant expression. *)
Definition sstr_copy (size : nat) (data : list chr) : option sstr :=
  if (size <=? length data)%nat then Some (firstn size data) else None.
(** with the deduction guide static_string<S - 1> (143-144); arrays are not empty. *)
Definition sstr_lit (data : list chr) : option sstr :=
  match data with [] => None | _ => sstr_copy (length data - 1) data end.
(** static_string(Char_Type) (29-32) with its guide (140-141). *)
Definition sstr_char (c : chr) : sstr := [c].

(** std::copy(src.begin(), src.end(), dst.begin() + off) into a [std::array]. *)
Definition copy_at (dst : list chr) (off : nat) (src : list chr) : option (list chr) :=
  if (off + length src <=? length dst)%nat
  then Some (firstn off dst ++ src ++ skipn (off + length src) dst) else None.
(** operator+ (85-111). *)
Definition sstr_add (a b : sstr) : option sstr :=
  if (length a =? 0)%nat then Some b
  else if (length b =? 0)%nat then Some a
  else match copy_at (repeat 0 (length a + length b)) 0 a with
       | Some r => copy_at r (length a) b
       | None => None
       end.
(** operator+ with a literal on the left (113-118), on the right (120-125), with a character
    (127-137). *)
Definition lit_add (a : list chr) (b : sstr) : option sstr :=
  match sstr_lit a with Some x => sstr_add x b | None => None end.
Definition add_lit (a : sstr) (b : list chr) : option sstr :=
  match sstr_lit b with Some y => sstr_add a y | None => None end.
Definition char_add (c : chr) (b : sstr) : option sstr := sstr_add (sstr_char c) b.
Definition add_char (a : sstr) (c : chr) : option sstr := sstr_add a (sstr_char c).
(** substring<begin, end>() (66-80).  The result of size 0 has no [begin()], and a size below
    zero wraps around: neither compiles.  Copying from outside the array does not either. *)
Definition sstr_sub (b e : nat) (s : sstr) : option sstr :=
  match s with
  | [] => Some s
  | _ => if ((b <? e) && (e <=? length s))%nat then Some (firstn (e - b) (skipn b s)) else None
  end.

(** ** pack_string (utilities/pack_string.hpp) *)
(** build_pack_string (108-126): the characters at 0 .. size-1. *)
Fixpoint pick (s : list chr) (is : list nat) : option (list chr) :=
  match is with
  | [] => Some []
  | i :: r => match nth_error s i, pick s r with Some c, Some l => Some (c :: l) | _, _ => None end
  end.
Definition build_pack (s : sstr) : option str := pick s (seq 0 (length s)).
(** merge_pack_strings (13-33). *)
Fixpoint merge_packs (a : str) (l : list str) : str :=
  match l with [] => a | b :: r => merge_packs (a ++ b) r end.
Definition merge (l : list str) : str := match l with [] => [] | a :: r => merge_packs a r end.
(** concatenate_pack_strings (35-73): empty strings that are not the last are skipped. *)
Fixpoint concat_packs (sep : str) (l : list str) : str :=
  match l with
  | [] => []
  | s :: r =>
      match r with
      | [] => s
      | _ => match s with
             | [] => concat_packs sep r
             | _ => merge [s; sep; concat_packs sep r]
             end
      end
  end.

(** ** tuples: tuple_cat (utilities/tuple_cat.hpp:8-24), reverse (utilities/reverse.hpp:10-28),
    first_type (utilities/first_type.hpp:8-27).  A type that is not a tuple is appended. *)
Definition tuple_cat {A : Type} (a b : list A) : list A := a ++ b.
Fixpoint reverse_aux {A : Type} (l cur : list A) : list A :=
  match l with [] => cur | x :: r => reverse_aux r (x :: cur) end.
Definition reverse {A : Type} (l : list A) : list A := reverse_aux l [].
Definition first_of {A : Type} (l : list A) : option A * list A :=
  match l with [] => (None, []) | x :: r => (Some x, r) end.

(** ** literal_string_view (utilities/literal_string_view.hpp:9-106) *)
(** The memory of the program: the readable characters by address; nullptr is 0. *)
Definition mem := Z -> option chr.
Definition lsv : Type := (Z * Z)%type.
(** The default constructor (16-18), the pointer pair (20-23), a character array of [S]
    elements at [a] (25-29), std::string_view at [a] of [n] characters (31-34). *)
Definition lsv_null : lsv := (0, 0).
Definition lsv_array (a : Z) (S : nat) : lsv := (a, a + Z.of_nat S - 1).
Definition lsv_sv (a : Z) (n : nat) : lsv := (a, a + Z.of_nat n).
(** size (66-69), empty (102-105). *)
Definition lsv_size (v : lsv) : Z := snd v - fst v.
Definition lsv_empty (v : lsv) : bool := lsv_size v =? 0.
(** The loop of operator== (90-96) with [k] turns left.  The counter is an [int]: incrementing
    it past 2147483647 is undefined, as is reading outside the memory. *)
Fixpoint lsv_eq_loop (k : nat) (m : mem) (p q i : Z) : option bool :=
  match k with
  | O => Some true
  | S k' =>
      match m (p + i), m (q + i) with
      | Some x, Some y =>
          if negb (x =? y) then Some false
          else if i <? 2147483647 then lsv_eq_loop k' m p q (i + 1) else None
      | _, _ => None
      end
  end.
(** operator== (77-100). *)
Definition lsv_eq (m : mem) (u v : lsv) : option bool :=
  if (fst u =? fst v) && (snd u =? snd v) then Some true
  else if negb (lsv_size u =? lsv_size v) then Some false
  else lsv_eq_loop (Z.to_nat (lsv_size u)) m (fst u) (fst v) 0.
