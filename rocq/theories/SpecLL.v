(** Independent specification of patterns that can be matched by looking at one character: at
    every repetition and at every alternative inside of a group, the next character says what
    to do.  Nothing here refers to the model of the library. *)
From Coq Require Import ZArith NArith List Bool.
From Verif Require Import Base Spec SpecFields SpecChoice.
Import ListNotations.
Open Scope Z_scope.

Definition none : chr -> bool := fun _ => false.
(** The atom may be left out. *)
Definition skips (q : quant) : bool := match q with Q1 => false | QQ k _ => N.eqb (kind_min k) 0 end.
(** Every atom of the sequence may be left out. *)
Fixpoint empties (s : sq) : bool := match s with SNil => true | SCons _ q s' => skips q && empties s' end.

(** The characters a text of the pattern can begin with (as the library sees them: [wide] of
    SpecFields.v). *)
Fixpoint first (r : rx) (c : chr) : bool :=
  match r with ROne b => first_br b c | ROr b r' => first_br b c || first r' c end
with first_br (b : br) (c : chr) : bool := match b with Br _ s => first_sq s c end
with first_sq (s : sq) (c : chr) : bool :=
  match s with SNil => false | SCons a q s' => first_atom a c || (skips q && first_sq s' c) end
with first_atom (a : atom) (c : chr) : bool :=
  match a with AEl x => wide x c | ACap _ r => first r c | ANon r => first r c end.
(** The characters that can come after the texts before [s], if [s] is followed by [fol]. *)
Definition after (s : sq) (fol : chr -> bool) : chr -> bool := fun c => first_sq s c || (empties s && fol c).
Definition or_set (P Q : chr -> bool) : chr -> bool := fun c => P c || Q c.

(** A bound on the length of the shortest texts. *)
Definition least (q : quant) : N := match q with Q1 => 1%N | QQ k _ => kind_min k end.
Fixpoint weight (r : rx) : N :=
  match r with ROne b => weight_br b | ROr b r' => weight_br b + weight r' end%N
with weight_br (b : br) : N := match b with Br _ s => weight_sq s end
with weight_sq (s : sq) : N :=
  match s with SNil => 0 | SCons a q s' => weight_atom a * least q + weight_sq s' end%N
with weight_atom (a : atom) : N :=
  match a with AEl _ => 1%N | ACap _ r => weight r | ANon r => weight r end.

(** After a failed attempt the library stays where it was: the pattern begins with ^ or with
    one character that is not \s or a complemented class, or is a repetition of such. *)
Fixpoint opens (r : rx) : bool :=
  match r with ROne b => opens_br b | ROr b r' => opens_br b && opens r' end
with opens_br (b : br) : bool := match b with Br a s => a || opens_sq s end
with opens_sq (s : sq) : bool :=
  match s with
  | SNil => false
  | SCons a q s' =>
      opens_atom a
      && match q, a, s' with
         | Q1, ACap _ _, SNil => true
         | Q1, ACap _ _, _ => false
         | Q1, _, _ => true
         | QQ k _, _, SNil => N.eqb (kind_min k) 1
         | _, _, _ => false
         end
  end
with opens_atom (a : atom) : bool :=
  match a with AEl x => steady x | ACap _ r => opens r | ANon r => opens r end.

(** How often: {n} at least once; otherwise not lazily, and not {0} or {0,0}. *)
Definition often (k : qkind) (g : greed) : bool :=
  match k with
  | QExact n => 0 <? num_val n
  | QMinMax _ m => (0 <? num_val m) && match g with Lz => false | _ => true end
  | _ => match g with Lz => false | _ => true end
  end.
Definition once_more (k : qkind) (g : greed) : bool :=
  match k, g with QExact _, _ => false | _, Gr => true | _, _ => false end.
(** The next character decides.  [fol]: what can come next after the whole; [inj]: what comes
    after the enclosing capturing parentheses, if this is what they begin with (the library
    compares with that too). *)
Fixpoint ll (r : rx) (fol inj : chr -> bool) : bool :=
  match r with
  | ROne b => ll_br b fol inj
  | ROr b r' => opens_br b && apart (first_br b) (first r') && ll_br b fol none && ll r' fol none
  end
with ll_br (b : br) (fol inj : chr -> bool) : bool :=
  match b with Br a s => negb a && negb (empties s) && ll_sq s fol inj end
with ll_sq (s : sq) (fol inj : chr -> bool) : bool :=
  match s with
  | SNil => true
  | SCons a q s' =>
      let fol' := after s' fol in
      ll_sq s' fol none
      && match q with
         | Q1 => ll_atom a fol' (match a with ACap _ _ => or_set (first_sq s') inj | _ => inj end)
         | QQ k g =>
             often k g && ll_atom a (or_set fol' (first_atom a)) none
             && (negb (once_more k g) || (apart (first_atom a) fol' && apart (first_atom a) (or_set (first_sq s') inj)))
         end
  end
with ll_atom (a : atom) (fol inj : chr -> bool) : bool :=
  match a with
  | AEl x => field_elem x
  | ACap _ r => (weight r <? 4294967296)%N && ll r fol inj
  | ANon r => (weight r <? 4294967296)%N && ll r fol inj
  end.
(** A whole pattern: the branches are tried one after the other; they need not exclude each
    other. *)
Definition top_br (b : br) : bool := match b with Br a s => negb (empties s) && ll_sq s none none end.
Fixpoint one_look (r : rx) : bool :=
  match r with
  | ROne b => top_br b
  | ROr b r' => opens_br b && top_br b && one_look r'
  end.

(** Captures are outside of repetitions, alternatives and other captures, numbered from 0 on;
    between two of them there is no class and no (?:...) (a repeated slot, C12). *)
Definition bare (l : list nat) : bool := match l with [] => true | _ => false end.
Fixpoint caught (s : sq) (g : nat) : bool :=
  match s with
  | SNil => true
  | SCons a q s' =>
      match a with
      | ACap k r => match q with Q1 => Nat.eqb k g && bare (caps r) && caught s' (S g) | _ => false end
      | ANon r => bare (caps r) && (Nat.eqb g 0 || bare (caps_sq s')) && caught s' g
      | AEl (EClass _ _) => (Nat.eqb g 0 || bare (caps_sq s')) && caught s' g
      | AEl _ => caught s' g
      end
  end.
Definition catches (r : rx) : bool := match r with ROne (Br _ s) => caught s 0 | _ => false end.

(** ** Which text is matched *)
(** The first branch with a text at [i], and its longest text there. *)
Definition longest (w : str) (b : br) (i j : nat) : Prop :=
  lang_br w b i j /\ forall j', lang_br w b i j' -> (j' <= j)%nat.
Fixpoint taken (w : str) (r : rx) (i j : nat) : Prop :=
  match r with
  | ROne b => longest w b i j
  | ROr b r' => longest w b i j \/ ((forall j', ~ lang_br w b i j') /\ taken w r' i j)
  end.
(** One after the other: the leftmost text from [i] on, then from its end on. *)
Inductive all_taken (w : str) (r : rx) : nat -> list (nat * nat) -> Prop :=
| no_more i : (forall k j, (i <= k <= length w)%nat -> ~ lang w r k j) -> all_taken w r i []
| one_more i k j l : (i <= k <= length w)%nat -> taken w r k j ->
    (forall k' j', (i <= k' < k)%nat -> ~ lang w r k' j') ->
    all_taken w r j l -> all_taken w r i ((k, j) :: l).
(** A division of w[i..j) along the atoms of [s]; [l]: the texts of the captures. *)
Fixpoint splits (w : str) (s : sq) (i j : nat) (l : list (nat * nat)) : Prop :=
  match s with
  | SNil => i = j /\ l = []
  | SCons a q s' => exists m k, in_bounds q k /\ pieces (lang_atom w a) k i m
      /\ match a, q with
         | ACap _ _, Q1 => exists l', l = (i, m) :: l' /\ splits w s' m j l'
         | _, _ => splits w s' m j l
         end
  end.
