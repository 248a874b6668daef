(** Independent specification of delimited fields: a pattern written as one field after the
    other, each a character set with an amount, possibly in parentheses; and what it means for
    a text to consist of such fields.  Nothing here refers to the model of the library. *)
From Coq Require Import ZArith NArith List Bool.
From Verif Require Import Base Spec.
Import ListNotations.
Open Scope Z_scope.

(** One, exactly n (decimal digits), one or more, any number. *)
Inductive amount : Type := One | Times (ds : list Z) | Plus | Star.
Record field : Type := Fld { f_cap : bool; f_el : elem; f_am : amount }.

(** How it is written: x, x{n}, x+, x*; in parentheses if captured. *)
Definition show_amount (a : amount) : str :=
  match a with One => [] | Times ds => [c_lbrc] ++ show_num ds ++ [c_rbrc] | Plus => [c_plus] | Star => [c_star] end.
Definition show_field (f : field) : str :=
  let t := show_elem (f_el f) ++ show_amount (f_am f) in if f_cap f then [c_lpar] ++ t ++ [c_rpar] else t.
Definition show_fields (fs : list field) : str := flat_map show_field fs.

(** The text [u] is a field [f]. *)
Definition fits (f : field) (u : str) : Prop :=
  Forall (fun c => elem_set (f_el f) c = true) u
  /\ match f_am f with
     | One => length u = 1%nat
     | Times ds => Z.of_nat (length u) = num_val ds
     | Plus => u <> []
     | Star => True
     end.
(** The text [w] consists of the fields, with these parts. *)
Definition divides (fs : list field) (parts : list str) (w : str) : Prop :=
  Forall2 fits fs parts /\ concat parts = w.
(** Where the captured parts are, if the first part starts at [i]. *)
Fixpoint spans (fs : list field) (parts : list str) (i : nat) : list (nat * nat) :=
  match fs, parts with
  | f :: r, u :: us => (if f_cap f then [(i, (i + length u)%nat)] else []) ++ spans r us (i + length u)%nat
  | _, _ => []
  end.

(** ** Which lists of fields *)
Definition required (f : field) : bool := match f_am f with Star => false | _ => true end.
Definition is_run (f : field) : bool := match f_am f with Plus | Star => true | _ => false end.
(** The set the library compares when it decides whether a run may be left too early: the dot
    counts as every character, of a complemented class only the first item is looked at. *)
Definition wide (x : elem) (c : chr) : bool :=
  match x with
  | EDot => true
  | EClass true (i :: _) => negb (citem_set i c)
  | _ => elem_set x c
  end.
Definition chars : list chr := map (fun k => Z.of_nat k - 128) (seq 0 256).
Definition apart (P Q : chr -> bool) : bool := forallb (fun c => negb (P c && Q c)) chars.
(** \s may only be the last item of a class, and not be used in a complemented one. *)
Definition blank (i : citem) : bool := match i with CEsc c => c =? 115 | _ => false end.
Definition low (i : citem) : bool := match i with CChar c => 0 <=? c | CRange a _ => 0 <=? a | CEsc c => 0 <=? c end.
Definition field_elem (x : elem) : bool :=
  elem_ok x && match x with
               | EClass false items => negb (existsb blank (removelast items))
               | EClass true items => negb (existsb blank items) && match items with i :: _ => low i | [] => false end
               | _ => true
               end.
Definition amount_ok (a : amount) : bool := match a with Times ds => num_ok ds && (0 <? num_val ds) | _ => true end.
(** The last field of a pattern that ends with $: a run must stop before a line feed, and not
    use \s or a complemented class. *)
Definition last_ok (f : field) : bool :=
  negb (is_run f)
  || (negb (elem_set (f_el f) 10)
      && match f_el f with EEsc c => negb (c =? 115) | EClass false items => negb (existsb blank items) | EClass true _ => false | _ => true end).
(** After a run comes a field that cannot be empty and begins with none of its characters. *)
Fixpoint separated (fs : list field) : bool :=
  match fs with
  | f :: r => match r with
              | g :: _ => (negb (is_run f) || (required g && apart (wide (f_el f)) (wide (f_el g)))) && separated r
              | [] => last_ok f
              end
  | [] => true
  end.
(** The library forgets how many groups it has counted at a class outside of parentheses; so
    there may be none between two captured fields. *)
Definition bare_class (f : field) : bool := negb (f_cap f) && match f_el f with EClass _ _ => true | _ => false end.
Fixpoint counted (seen : bool) (fs : list field) : bool :=
  match fs with
  | f :: r => (negb (bare_class f) || negb seen || negb (existsb f_cap r)) && counted (seen || f_cap f) r
  | [] => true
  end.
(** A pattern that begins with an optional field goes on with another one. *)
Definition first_ok (fs : list field) : bool :=
  match fs with [] => false | f :: r => required f || (negb (f_cap f) && match r with [] => false | _ => true end) end.
Definition fields_ok (fs : list field) : bool :=
  forallb (fun f => field_elem (f_el f) && amount_ok (f_am f)) fs && separated fs && counted false fs && first_ok fs.

(** ** Patterns that do not end with $ *)
(** The same without the condition on the last field. *)
Fixpoint spaced (fs : list field) : bool :=
  match fs with
  | f :: r => match r with
              | g :: _ => (negb (is_run f) || (required g && apart (wide (f_el f)) (wide (f_el g)))) && spaced r
              | [] => true
              end
  | [] => true
  end.
Definition prefix_ok (fs : list field) : bool :=
  forallb (fun f => field_elem (f_el f) && amount_ok (f_am f)) fs && spaced fs && counted false fs && first_ok fs.
(** The first [k] characters of [u] are such fields, and no more are. *)
Definition front (fs : list field) (u : str) (k : nat) : Prop :=
  (k <= length u)%nat /\ exists parts, divides fs parts (firstn k u).
Definition front_most (fs : list field) (u : str) (k : nat) : Prop :=
  front fs u k /\ forall k', front fs u k' -> (k' <= k)%nat.
