(** Independent specification of patterns of fields that may overlap: several divisions of the
    text can exist, and which one is chosen is said here.  Built on SpecFields.v; nothing refers
    to the model of the library. *)
From Coq Require Import ZArith NArith List Bool.
From Verif Require Import Base Spec SpecFields.
Import ListNotations.
Open Scope Z_scope.

(** A field of SpecFields.v; a run may be lazy: x+? or x*?. *)
Record choice : Type := Ch { ch_f : field; ch_lazy : bool }.
Definition show_choice (c : choice) : str :=
  let t := show_elem (f_el (ch_f c)) ++ show_amount (f_am (ch_f c)) ++ (if ch_lazy c then [c_quest] else []) in
  if f_cap (ch_f c) then [c_lpar] ++ t ++ [c_rpar] else t.
Definition show_choices (cs : list choice) : str := flat_map show_choice cs.
Definition fields (cs : list choice) : list field := map ch_f cs.

(** Of two divisions the one [p] is preferred to [q]: at the first field with parts of different
    lengths it has the longer one, or the shorter one if the field is lazy. *)
Fixpoint before (cs : list choice) (p q : list str) : Prop :=
  match cs, p, q with
  | c :: r, u :: p', v :: q' =>
      (if ch_lazy c then (length u < length v)%nat else (length v < length u)%nat)
      \/ length u = length v /\ before r p' q'
  | _, _, _ => True
  end.
(** The division of a front of [u] that is preferred to all others. *)
Definition best_front (cs : list choice) (u : str) (parts : list str) : Prop :=
  (exists k, (k <= length u)%nat /\ divides (fields cs) parts (firstn k u))
  /\ forall k q, (k <= length u)%nat -> divides (fields cs) q (firstn k u) -> before cs parts q.

(** ** Which lists of fields *)
(** After a failed attempt the library stays where it was. *)
Definition steady (x : elem) : bool :=
  match x with
  | EEsc c => negb (c =? 115)
  | EClass false items => negb (existsb blank items)
  | EClass true _ => false
  | _ => true
  end.
(** The characters the library compares when it decides whether a run may be left too early. *)
Definition seen (x : elem) (c : chr) : bool :=
  match x with
  | EDot => (0 <=? c) && (c <=? 127)
  | EClass false (i :: _) => citem_set i c
  | EClass true (i :: _) => (0 <=? c) && (c <=? 127) && negb (citem_set i c)
  | _ => elem_set x c
  end.
Definition single (f : field) : bool := match f_am f with One => negb (f_cap f) | _ => false end.
(** A run [c] followed by [h]: either [h] cannot be empty and shares no character with the run
    (and the run is not lazy), or [h] is a single character outside of parentheses -- then they
    may share characters, provided that the library sees one of them. *)
Definition run_ok (c h : field) (lazy : bool) : bool :=
  (negb lazy && required h && apart (wide (f_el c)) (wide (f_el h)))
  || (single h && steady (f_el h) && (lazy || steady (f_el c))
      && (apart (elem_set (f_el c)) (elem_set (f_el h)) || negb (apart (seen (f_el c)) (seen (f_el h))))).
(** The last run: before $ it must stop before a line feed; without $ it is not lazy. *)
Definition last_run (dollar : bool) (c : choice) : bool :=
  if dollar then negb (elem_set (f_el (ch_f c)) 10) && (ch_lazy c || steady (f_el (ch_f c))) else negb (ch_lazy c).
Fixpoint chosen (dollar : bool) (cs : list choice) : bool :=
  match cs with
  | c :: r => (negb (is_run (ch_f c)) || match r with h :: _ => run_ok (ch_f c) (ch_f h) (ch_lazy c) | [] => last_run dollar c end)
              && chosen dollar r
  | [] => true
  end.
(** One of the first two fields cannot be empty. *)
Definition starts (cs : list choice) : bool :=
  match cs with
  | c :: r => required (ch_f c) || match r with h :: _ => required (ch_f h) | [] => false end
  | [] => false
  end.
(** Without ^ the pattern must not begin with a captured lazy run that can be empty. *)
Definition begins (cs : list choice) : bool := match cs with c :: _ => required (ch_f c) || negb (ch_lazy c) || negb (f_cap (ch_f c)) | [] => false end.
Definition choice_ok (dollar : bool) (cs : list choice) : bool :=
  forallb (fun c => field_elem (f_el (ch_f c)) && amount_ok (f_am (ch_f c)) && (negb (ch_lazy c) || is_run (ch_f c))) cs
  && chosen dollar cs && counted false (fields cs) && starts cs.
