(** Independent specification of texts with repeated parts: fields (SpecFields.v) and groups of
    fields that are repeated, each repetition beginning with a separator.  Nothing here refers to
    the model of the library. *)
From Coq Require Import ZArith NArith List Bool.
From Verif Require Import Base Spec SpecFields.
Import ListNotations.
Open Scope Z_scope.

(** A field; or (?:fields)* or (?:fields)+. *)
Inductive part : Type := PF (f : field) | PL (gs : list field) (plus : bool).
Definition show_part (p : part) : str :=
  match p with
  | PF f => show_field f
  | PL gs plus => [c_lpar; c_quest; c_colon] ++ show_fields gs ++ [c_rpar] ++ (if plus then [c_plus] else [c_star])
  end.
Definition show_parts (ps : list part) : str := flat_map show_part ps.
(** The text [u] is such a part. *)
Definition pfits (p : part) (u : str) : Prop :=
  match p with
  | PF f => fits f u
  | PL gs plus => exists us, Forall (fun v => exists vs, divides gs vs v) us /\ concat us = u /\ (plus = true -> us <> [])
  end.
Definition pdivides (ps : list part) (us : list str) (w : str) : Prop := Forall2 pfits ps us /\ concat us = w.
Definition p_cap (p : part) : bool := match p with PF f => f_cap f | PL _ _ => false end.
Fixpoint pspans (ps : list part) (us : list str) (i : nat) : list (nat * nat) :=
  match ps, us with
  | p :: r, u :: us => (if p_cap p then [(i, (i + length u)%nat)] else []) ++ pspans r us (i + length u)%nat
  | _, _ => []
  end.

(** The first [k] characters consist of such parts; and no more than those do. *)
Definition pfront (ps : list part) (u : str) (k : nat) : Prop := (k <= length u)%nat /\ exists us, pdivides ps us (firstn k u).
Definition pfront_most (ps : list part) (u : str) (k : nat) : Prop :=
  pfront ps u k /\ forall k', pfront ps u k' -> (k' <= k)%nat.

(** ** Which lists of parts *)
(** With which sets the rest can begin, and whether it can be empty. *)
Fixpoint heads (ps : list part) : list elem :=
  match ps with
  | PF f :: r => f_el f :: (if required f then [] else heads r)
  | PL (h :: _) plus :: r => f_el h :: (if plus then [] else heads r)
  | _ => []
  end.
Definition p_req (p : part) : bool := match p with PF f => required f | PL _ plus => plus end.
Definition open_end (ps : list part) : bool := forallb (fun p => negb (p_req p)) ps.
Definition apart_all (x : elem) (ys : list elem) : bool := forallb (fun y => apart (wide x) (wide y)) ys.
(** After a run or a repetition: a field that cannot be empty, another repetition, or the end. *)
Definition goes_on (ps : list part) : bool := match ps with PF f :: _ => required f | _ => true end.
(** A separator: one character, or one of those of \d, \w, not a line feed. *)
Definition sep_elem (x : elem) : bool :=
  match x with
  | ELit c => (0 <=? c) && negb (c =? 10)
  | EEsc c => (0 <=? c) && negb (c =? 115) && negb (esc_set c 10)
  | _ => false
  end.
(** A repetition: a separator, then fields without its characters, nothing captured. *)
Definition loop_ok (gs : list field) : bool :=
  match gs with
  | [] => false
  | h :: t => match f_am h with One => true | _ => false end && sep_elem (f_el h)
              && forallb (fun f => negb (f_cap f) && field_elem (f_el f) && amount_ok (f_am f)) gs
              && spaced gs && forallb (fun f => apart (wide (f_el f)) (wide (f_el h))) t
  end.
(** The run at the end of the fields, if there is one there. *)
Definition end_run (gs : list field) : list elem :=
  match rev gs with f :: _ => if is_run f then [f_el f] else [] | [] => [] end.
(** [d]: does $ follow? *)
Fixpoint parted (d : bool) (ps : list part) : bool :=
  match ps with
  | [] => true
  | PF f :: r =>
      field_elem (f_el f) && amount_ok (f_am f)
      && (negb (is_run f) || (goes_on r && apart_all (f_el f) (heads r) && (negb (d && open_end r) || last_ok f)))
      && parted d r
  | PL gs _ :: r =>
      loop_ok gs && goes_on r
      && match gs with h :: _ => apart_all (f_el h) (heads r) | [] => false end
      && forallb (fun z => apart_all z (heads r) && (negb (d && open_end r) || negb (elem_set z 10))) (end_run gs)
      && parted d r
  end.
(** No class outside of parentheses and no repetition between two captured fields (C12). *)
Definition p_bare (p : part) : bool := match p with PF f => bare_class f | PL _ _ => true end.
Fixpoint pcounted (seen : bool) (ps : list part) : bool :=
  match ps with
  | p :: r => (negb (p_bare p) || negb seen || negb (existsb p_cap r)) && pcounted (seen || p_cap p) r
  | [] => true
  end.
(** It begins with a field that cannot be empty, or with a repetition that cannot. *)
Definition p_first (ps : list part) : bool := match ps with p :: _ => p_req p | [] => false end.
Definition parts_ok (d : bool) (ps : list part) : bool := parted d ps && pcounted false ps && p_first ps.
