(** Independent specification: surface syntax of patterns, how they are written, and what
    they mean.  Nothing here refers to the model of the library (only to [Base]). *)
From Coq Require Import ZArith NArith List Bool.
From Verif Require Import Base.
Import ListNotations.
Open Scope Z_scope.

(** * Surface syntax *)

(** Items of a bracket class: a character, a range, an escape. *)
Inductive citem : Type := CChar (c : chr) | CRange (a b : chr) | CEsc (c : chr).

(** Elements matching exactly one character: a plain character, an escape [\c],
    the dot, a class [[items]] / [[^items]], a byte written \abc in octal or \xab in
    hexadecimal (digits given by their values). *)
Inductive elem : Type :=
| ELit (c : chr)
| EEsc (c : chr)
| EDot
| EClass (neg : bool) (items : list citem)
| EOct (a b c : Z)
| EHex (a b : Z).

(** Quantifiers; counts are written as lists of decimal digits (0..9). *)
Inductive qkind : Type :=
| QStar | QPlus | QOpt
| QExact (n : list Z)
| QMin (n : list Z)
| QMinMax (n m : list Z).
Inductive greed : Type := Gr | Lz | Po.
Inductive quant : Type := Q1 | QQ (k : qkind) (g : greed).

(** Patterns: alternatives of branches; a branch is an optional [^] and a sequence of
    quantified atoms; an atom is an element or a group.  [ACap i r] carries the number
    of the capture slot. *)
Inductive rx : Type := ROne (b : br) | ROr (b : br) (r : rx)
with br : Type := Br (anchored : bool) (s : sq)
with sq : Type := SNil | SCons (a : atom) (q : quant) (s : sq)
with atom : Type := AEl (x : elem) | ACap (i : nat) (r : rx) | ANon (r : rx).

Scheme rx_mut := Induction for rx Sort Prop
with br_mut := Induction for br Sort Prop
with sq_mut := Induction for sq Sort Prop
with atom_mut := Induction for atom Sort Prop.
Combined Scheme rx_all_ind from rx_mut, br_mut, sq_mut, atom_mut.

(** * How patterns are written *)

Definition digit_chr (d : Z) : chr := d + 48.
Definition show_num (ds : list Z) : str := map digit_chr ds.
(** The number a digit list denotes (Horner). *)
Definition num_val (ds : list Z) : Z := fold_left (fun acc d => 10 * acc + d) ds 0.

(** A hexadecimal digit: 0..9, A..F. *)
Definition hex_chr (d : Z) : chr := if d <? 10 then d + 48 else d + 55.
Definition show_citem (i : citem) : str :=
  match i with
  | CChar c => [c]
  | CRange a b => [a; c_dash; b]
  | CEsc c => [c_bslash; c]
  end.
Definition show_elem (x : elem) : str :=
  match x with
  | ELit c => [c]
  | EEsc c => [c_bslash; c]
  | EDot => [c_dot]
  | EClass neg items =>
      [c_lbrk] ++ (if neg then [c_caret] else []) ++ flat_map show_citem items ++ [c_rbrk]
  | EOct a b c => [c_bslash; digit_chr a; digit_chr b; digit_chr c]
  | EHex a b => [c_bslash; 120; hex_chr a; hex_chr b]
  end.
Definition show_greed (g : greed) : str :=
  match g with Gr => [] | Lz => [c_quest] | Po => [c_plus] end.
Definition show_kind (k : qkind) : str :=
  match k with
  | QStar => [c_star] | QPlus => [c_plus] | QOpt => [c_quest]
  | QExact n => [c_lbrc] ++ show_num n ++ [c_rbrc]
  | QMin n => [c_lbrc] ++ show_num n ++ [c_comma] ++ [c_rbrc]
  | QMinMax n m => [c_lbrc] ++ show_num n ++ [c_comma] ++ show_num m ++ [c_rbrc]
  end.
Definition show_quant (q : quant) : str :=
  match q with Q1 => [] | QQ k g => show_kind k ++ show_greed g end.

Fixpoint show (r : rx) : str :=
  match r with
  | ROne b => show_br b
  | ROr b r' => show_br b ++ [c_bar] ++ show r'
  end
with show_br (b : br) : str :=
  match b with Br a s => (if a then [c_caret] else []) ++ show_sq s end
with show_sq (s : sq) : str :=
  match s with
  | SNil => []
  | SCons a q s' => show_atom a ++ show_quant q ++ show_sq s'
  end
with show_atom (a : atom) : str :=
  match a with
  | AEl x => show_elem x
  | ACap _ r => [c_lpar] ++ show r ++ [c_rpar]
  | ANon r => [c_lpar; c_quest; c_colon] ++ show r ++ [c_rpar]
  end.

(** * Which patterns are well formed *)

Definition is_char (c : chr) : bool := (-128 <=? c) && (c <=? 127).
(** Characters with a special meaning, which cannot be written plainly:
    \ { } ( ) [ ] + * ? ^ $ . |  *)
Definition special (c : chr) : bool :=
  existsb (Z.eqb c)
    [c_bslash; c_lbrc; c_rbrc; c_lpar; c_rpar; c_lbrk; c_rbrk; c_plus; c_star; c_quest;
     c_caret; c_dollar; c_dot; c_bar].
Definition plain (c : chr) : bool := is_char c && negb (special c).
(** Inside a class only \ [ ] ( ) { } ^ - are special. *)
Definition class_special (c : chr) : bool :=
  existsb (Z.eqb c)
    [c_bslash; c_lbrc; c_rbrc; c_lpar; c_rpar; c_lbrk; c_rbrk; c_caret; c_dash].
Definition class_plain (c : chr) : bool := is_char c && negb (class_special c).
Definition is_digit (c : chr) : bool := (48 <=? c) && (c <=? 57).
(** Escapes: not \0..\9, \x, \o (numeric escapes) and not \D \W \S \N. *)
Definition escapable (c : chr) : bool :=
  is_char c && negb (is_digit c) && negb (existsb (Z.eqb c) [120; 111; 68; 87; 83; 78]).

Definition citem_ok (i : citem) : bool :=
  match i with
  | CChar c => class_plain c
  | CRange a b => class_plain a && class_plain b && (a <? b)
  | CEsc c => escapable c
  end.
Definition digit_ok (base d : Z) : bool := (0 <=? d) && (d <? base).
(** Octal: one byte, \000 to \377.  Hexadecimal: only the digits 0..9 (the library computes
    the wrong byte from A..F, see C05_hex_refuted). *)
Definition elem_ok (x : elem) : bool :=
  match x with
  | ELit c => plain c
  | EEsc c => escapable c
  | EDot => true
  | EClass _ items => forallb citem_ok items && negb (match items with [] => true | _ => false end)
  | EOct a b c => digit_ok 4 a && digit_ok 8 b && digit_ok 8 c
  | EHex a b => digit_ok 10 a && digit_ok 10 b
  end.
(** A numeral: one or more digits, with a value below 2^32 - 1. *)
Definition num_ok (ds : list Z) : bool :=
  negb (match ds with [] => true | _ => false end)
  && forallb (fun d => (0 <=? d) && (d <=? 9)) ds && (num_val ds <? 4294967295).
Definition kind_ok (k : qkind) : bool :=
  match k with
  | QStar | QPlus | QOpt => true
  | QExact n => num_ok n
  | QMin n => num_ok n
  | QMinMax n m => num_ok n && num_ok m && (num_val n <=? num_val m)
  end.
(** {n} takes no lazy/possessive suffix. *)
Definition quant_ok (q : quant) : bool :=
  match q with
  | Q1 => true
  | QQ (QExact n) g => num_ok n && (match g with Gr => true | _ => false end)
  | QQ k _ => kind_ok k
  end.

Fixpoint wf (r : rx) : bool :=
  match r with ROne b => wf_br b | ROr b r' => wf_br b && wf r' end
with wf_br (b : br) : bool :=
  match b with Br _ s => match s with SNil => false | _ => wf_sq s end end
with wf_sq (s : sq) : bool :=
  match s with SNil => true | SCons a q s' => wf_atom a && quant_ok q && wf_sq s' end
with wf_atom (a : atom) : bool :=
  match a with AEl x => elem_ok x | ACap _ r => wf r | ANon r => wf r end.

(** * Groups *)

(** The capture slots in the order of their opening parentheses. *)
Fixpoint caps (r : rx) : list nat :=
  match r with ROne b => caps_br b | ROr b r' => caps_br b ++ caps r' end
with caps_br (b : br) : list nat := match b with Br _ s => caps_sq s end
with caps_sq (s : sq) : list nat :=
  match s with SNil => [] | SCons a _ s' => caps_atom a ++ caps_sq s' end
with caps_atom (a : atom) : list nat :=
  match a with AEl _ => [] | ACap i r => i :: caps r | ANon r => caps r end.
(** Slots are numbered 0, 1, 2, ... by opening parenthesis (result[i+1] is slot i). *)
Definition numbered (r : rx) : Prop := caps r = seq 0 (length (caps r)).

(** * Meaning of elements *)

(** The (signed) char with the bits of the byte [v]. *)
Definition byte_chr (v : Z) : chr := if v <? 128 then v else v - 256.
(** \d \w \s \a \e \f \n \r \t, anything else stands for itself. *)
Definition esc_set (c x : chr) : bool :=
  if c =? 100 then (48 <=? x) && (x <=? 57)
  else if c =? 119 then ((65 <=? x) && (x <=? 90)) || ((97 <=? x) && (x <=? 122))
                        || ((48 <=? x) && (x <=? 57)) || (x =? 95)
  else if c =? 115 then existsb (Z.eqb x) [9; 10; 12; 13; 32]
  else if c =? 97 then x =? 7
  else if c =? 101 then x =? 27
  else if c =? 102 then x =? 12
  else if c =? 110 then x =? 10
  else if c =? 114 then x =? 13
  else if c =? 116 then x =? 9
  else x =? c.
Definition citem_set (i : citem) (x : chr) : bool :=
  match i with
  | CChar c => x =? c
  | CRange a b => (a <=? x) && (x <=? b)
  | CEsc c => esc_set c x
  end.
Definition elem_set (e : elem) (x : chr) : bool :=
  match e with
  | ELit c => x =? c
  | EEsc c => esc_set c x
  | EDot => negb (x =? 10)
  | EClass neg items => xorb neg (existsb (fun i => citem_set i x) items)
  | EOct a b c => x =? byte_chr (64 * a + 8 * b + c)
  | EHex a b => x =? byte_chr (16 * a + b)
  end.

(** Bounds of a quantifier: minimum and (optional) maximum. *)
Definition kind_min (k : qkind) : N :=
  match k with
  | QStar => 0 | QPlus => 1 | QOpt => 0
  | QExact n => Z.to_N (num_val n) | QMin n => Z.to_N (num_val n)
  | QMinMax n _ => Z.to_N (num_val n)
  end%N.
Definition kind_max (k : qkind) : option N :=
  match k with
  | QStar => None | QPlus => None | QOpt => Some 1%N
  | QExact n => Some (Z.to_N (num_val n)) | QMin _ => None
  | QMinMax _ m => Some (Z.to_N (num_val m))
  end.

(** * The language of a pattern (declarative) *)

(** [den_..  w r i j]: the text w[i..j) matches r in w.  Possessive and lazy quantifiers
    have the same language as greedy ones; what they choose is below. *)
Section Lang.
Variable w : str.

(** [k] consecutive pieces, each related by [R]. *)
Inductive pieces (R : nat -> nat -> Prop) : nat -> nat -> nat -> Prop :=
| P0 i : pieces R 0 i i
| PS k i j l : R i j -> pieces R k j l -> pieces R (S k) i l.

Definition in_bounds (q : quant) (k : nat) : Prop :=
  match q with
  | Q1 => k = 1%nat
  | QQ kd _ => (kind_min kd <= N.of_nat k)%N
               /\ match kind_max kd with None => True | Some m => (N.of_nat k <= m)%N end
  end.

Fixpoint lang (r : rx) (i j : nat) : Prop :=
  match r with
  | ROne b => lang_br b i j
  | ROr b r' => lang_br b i j \/ lang r' i j
  end
with lang_br (b : br) (i j : nat) : Prop :=
  match b with Br a s => (a = true -> i = 0%nat) /\ lang_sq s i j end
with lang_sq (s : sq) (i j : nat) : Prop :=
  match s with
  | SNil => i = j
  | SCons a q s' =>
      exists m k, in_bounds q k /\ pieces (lang_atom a) k i m /\ lang_sq s' m j
  end
with lang_atom (a : atom) (i j : nat) : Prop :=
  match a with
  | AEl x => j = S i /\ exists c, nth_error w i = Some c /\ elem_set x c = true
  | ACap _ r => lang r i j
  | ANon r => lang r i j
  end.
End Lang.

(** * Which match is chosen: the usual backtracking semantics *)

(** A configuration: a position and the captures made so far, most recent first.
    [outs]: all ways to match from a configuration, in priority order (the order in which
    a backtracking matcher tries them). *)
Notation clog := (list (nat * (nat * nat))) (only parsing).
Notation cfg := (nat * list (nat * (nat * nat)))%type (only parsing).
Definition outs := cfg -> list cfg.

Section Sem.
Variable w : str.

(** One character in [P]. *)
Definition chr_o (P : chr -> bool) : outs := fun c =>
  match nth_error w (fst c) with
  | Some x => if P x then [(S (fst c), snd c)] else []
  | None => []
  end.
Definition eps_o : outs := fun c => [c].
Definition bol_o : outs := fun c => if Nat.eqb (fst c) 0 then [c] else [].
Definition seq_o (a b : outs) : outs := fun c => flat_map b (a c).
Definition or_o (a b : outs) : outs := fun c => a c ++ b c.
(** Record the text matched by [a] in slot [i]. *)
Definition cap_o (i : nat) (a : outs) : outs := fun c =>
  map (fun c' => (fst c', (i, (fst c, fst c')) :: snd c')) (a c).
(** Exactly [n] times. *)
Fixpoint pow_o (n : nat) (a : outs) : outs :=
  match n with O => eps_o | S n' => seq_o a (pow_o n' a) end.
(** An iteration that consumed something. *)
Definition progress (c : cfg) (l : list cfg) : list cfg :=
  filter (fun c' => negb (Nat.eqb (fst c') (fst c))) l.
(** Up to [n] times, as often as possible first. *)
Fixpoint most_o (n : nat) (a : outs) : outs := fun c =>
  match n with
  | O => [c]
  | S n' => flat_map (most_o n' a) (progress c (a c)) ++ [c]
  end.
(** Up to [n] times, as seldom as possible first. *)
Fixpoint least_o (n : nat) (a : outs) : outs := fun c =>
  match n with
  | O => [c]
  | S n' => c :: flat_map (least_o n' a) (progress c (a c))
  end.
(** The first way only: no backtracking into it. *)
Definition atomic_o (a : outs) : outs := fun c => firstn 1 (a c).

(** How many optional iterations can matter: at most [max - min], and no more than the
    text has characters (each one consumes something). *)
Definition extra (mn : N) (mx : option N) : nat :=
  match mx with
  | None => S (length w)
  | Some m => N.to_nat (N.min (m - mn) (N.of_nat (S (length w))))
  end.
Definition rep_o (g : greed) (mn : N) (mx : option N) (a : outs) : outs :=
  let fixed := pow_o (N.to_nat mn) a in
  match g with
  | Gr => seq_o fixed (most_o (extra mn mx) a)
  | Lz => seq_o fixed (least_o (extra mn mx) a)
  | Po => atomic_o (seq_o fixed (most_o (extra mn mx) a))
  end.
Definition quant_o (q : quant) (a : outs) : outs :=
  match q with
  | Q1 => a
  | QQ k g => rep_o g (kind_min k) (kind_max k) a
  end.

Fixpoint sem (r : rx) : outs :=
  match r with
  | ROne b => sem_br b
  | ROr b r' => or_o (sem_br b) (sem r')
  end
with sem_br (b : br) : outs :=
  match b with Br a s => if a then seq_o bol_o (sem_sq s) else sem_sq s end
with sem_sq (s : sq) : outs :=
  match s with
  | SNil => eps_o
  | SCons a q s' => seq_o (quant_o q (sem_atom a)) (sem_sq s')
  end
with sem_atom (a : atom) : outs :=
  match a with
  | AEl x => chr_o (elem_set x)
  | ACap i r => cap_o i (sem r)
  | ANon r => sem r
  end.

(** The match of [r] starting at position [i]: the first way to match. *)
Definition match_at (r : rx) (i : nat) : option cfg := hd_error (sem r (i, [])).

(** The leftmost match at or after [i] ([n] positions to try). *)
Fixpoint search_from (r : rx) (n i : nat) : option (nat * cfg) :=
  match n with
  | O => None
  | S n' => match match_at r i with
            | Some c => Some (i, c)
            | None => search_from r n' (S i)
            end
  end.
Definition search (r : rx) (i : nat) : option (nat * cfg) :=
  search_from r (S (length w) - i) i.

(** All matches from [i] on, each search resuming where the last match ended. *)
Fixpoint find_all (r : rx) (n i : nat) : list (nat * nat) :=
  match n with
  | O => []
  | S n' => match search r i with
            | Some (s, (e, _)) => (s, e) :: find_all r n' e
            | None => []
            end
  end.

(** Capture slot [g] after a match. *)
Fixpoint slot (g : nat) (l : clog) : option (nat * nat) :=
  match l with
  | [] => None
  | (i, v) :: r => if Nat.eqb i g then Some v else slot g r
  end.
End Sem.
