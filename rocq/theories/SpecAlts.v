(** Independent specification of searching for items of several kinds: a pattern a|b|c whose
    alternatives are lists of fields (SpecFields.v, SpecChoice.v).  Nothing here refers to the
    model of the library. *)
From Coq Require Import ZArith NArith List Bool.
From Verif Require Import Base Spec SpecFields SpecChoice.
Import ListNotations.
Open Scope Z_scope.

(** How it is written. *)
Fixpoint show_alts (alts : list (list choice)) : str :=
  match alts with
  | [] => []
  | cs :: r => match r with [] => show_choices cs | _ => show_choices cs ++ [c_bar] ++ show_alts r end
  end.
(** A front of [u] can be divided into the fields. *)
Definition fronts (cs : list choice) (u : str) : Prop :=
  exists k parts, (k <= length u)%nat /\ divides (fields cs) parts (firstn k u).
(** The item found at the beginning of [u]: the first alternative that a front of [u] is, in the
    division that is preferred. *)
Inductive picks : list (list choice) -> str -> list str -> Prop :=
| pick_here cs r u parts : best_front cs u parts -> picks (cs :: r) u parts
| pick_later cs r u parts : ~ fronts cs u -> picks r u parts -> picks (cs :: r) u parts.
(** The items of a text from [i] on: always the leftmost one, the next search begins where it
    ends. *)
Inductive items (alts : list (list choice)) (w : str) : nat -> list (nat * nat) -> Prop :=
| no_items i : (forall k parts, (i <= k <= length w)%nat -> ~ picks alts (skipn k w) parts) -> items alts w i []
| one_item i k parts l : (i <= k <= length w)%nat -> picks alts (skipn k w) parts ->
    (forall k' parts', (i <= k' < k)%nat -> ~ picks alts (skipn k' w) parts') ->
    items alts w (k + length (concat parts)) l ->
    items alts w i ((k, (k + length (concat parts))%nat) :: l).

(** ** Which alternatives *)
(** Nothing captured; the first field is a single character, or the only field is x+. *)
Definition opening (cs : list choice) : bool :=
  match cs with
  | c :: r => steady (f_el (ch_f c))
              && match f_am (ch_f c) with
                 | One => true
                 | Plus => match r with [] => true | _ => false end
                 | _ => false
                 end
  | [] => false
  end.
Definition item_ok (cs : list choice) : bool :=
  choice_ok false cs && forallb (fun c => negb (f_cap (ch_f c))) cs && opening cs.
