(** Independent specification: patterns of SpecLL.v that end with $.  Nothing here refers to
    the model of the library. *)
From Coq Require Import ZArith NArith List Bool.
From Verif Require Import Base Spec SpecFields SpecChoice SpecLL.
Import ListNotations.
Open Scope Z_scope.

Definition is_nl : chr -> bool := fun c => c =? 10.
(** All characters of the texts of a pattern; all but the first one. *)
Fixpoint any (r : rx) (c : chr) : bool :=
  match r with ROne b => any_br b c | ROr b r' => any_br b c || any r' c end
with any_br (b : br) (c : chr) : bool := match b with Br _ s => any_sq s c end
with any_sq (s : sq) (c : chr) : bool :=
  match s with SNil => false | SCons a _ s' => any_atom a c || any_sq s' c end
with any_atom (a : atom) (c : chr) : bool :=
  match a with AEl x => wide x c | ACap _ r => any r c | ANon r => any r c end.
Fixpoint later (r : rx) (c : chr) : bool :=
  match r with ROne b => later_br b c | ROr b r' => later_br b c || later r' c end
with later_br (b : br) (c : chr) : bool := match b with Br _ s => later_sq s c end
with later_sq (s : sq) (c : chr) : bool :=
  match s with
  | SNil => false
  | SCons a q s' => later_atom a c || (match q with Q1 => false | _ => any_atom a c end) || any_sq s' c
  end
with later_atom (a : atom) (c : chr) : bool :=
  match a with AEl x => false | ACap _ r => later r c | ANon r => later r c end.
(** It can be repeated more than once. *)
Definition many (k : qkind) : bool := match kind_max k with Some m => (1 <? m)%N | None => true end.
(** The library compares what it begins with with all ASCII characters but the line feed
    (that is what it takes $ for). *)
Definition ascii : chr -> bool := fun c => (0 <=? c) && (c <=? 127) && negb (is_nl c).
Fixpoint shown (r : rx) : bool :=
  match r with ROne b => shown_br b | ROr b _ => shown_br b end
with shown_br (b : br) : bool := match b with Br _ s => shown_sq s end
with shown_sq (s : sq) : bool := match s with SNil => false | SCons a _ _ => shown_atom a end
with shown_atom (a : atom) : bool :=
  match a with AEl x => negb (apart (seen x) ascii) | ACap _ r => shown r | ANon r => shown r end.
(** A repetition that can be the last thing before the end: of a single character, or of
    something that opens with a character it has nowhere else. *)
Definition last_loop (a : atom) (k : qkind) : bool :=
  many k && shown_atom a && match a with
            | AEl x => steady x
            | ANon r => opens r && bare (caps r) && apart (first r) (later r)
            | ACap _ _ => false
            end.
(** A captured run of one character. *)
Definition held (r : rx) (fol : chr -> bool) : bool :=
  match r with
  | ROne (Br false (SCons (AEl x) (QQ k Gr) SNil)) =>
      field_elem x && steady x && shown_atom (AEl x) && often k Gr && negb (skips (QQ k Gr)) && negb (match k with QExact _ => true | _ => false end) && many k && apart (wide x) fol
  | _ => false
  end.
(** The next character decides, to the end. *)
Fixpoint ll_d (s : sq) : bool :=
  match s with
  | SNil => true
  | SCons a q s' =>
      let fol := after s' is_nl in
      ll_d s'
      && match q with
         | Q1 => match a with
                 | ACap _ r => if empties s' then held r fol || ll_atom a fol (fun _ => true) else ll_atom a fol (first_sq s')
                 | _ => ll_atom a fol none
                 end
         | QQ k g =>
             often k g && ll_atom a (or_set fol (first_atom a)) none
             && (negb (skips q && empties s') || once_more k g)
             && (negb (once_more k g) || (apart (first_atom a) fol && (negb (empties s') || last_loop a k)))
         end
  end.
Definition top_d (b : br) : bool := match b with Br a s => negb (empties s) && ll_d s end.
(** After a failed attempt the library stays where it was: ^, or one steady character. *)
Definition opens_top (b : br) : bool :=
  match b with
  | Br a s => a || match s with SCons (ACap _ _) _ _ => false | SCons x Q1 _ => opens_atom x | _ => false end
  end.
Fixpoint opens_all (r : rx) : bool := match r with ROne b => opens_top b | ROr b r' => opens_top b && opens_all r' end.
Fixpoint look_d (r : rx) : bool :=
  match r with
  | ROne b => top_d b
  | ROr b r' => opens_top b && top_d b && look_d r'
  end.
