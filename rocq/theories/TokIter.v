(** tokenization::iterator: src/tokenization/iterator.hpp.  Model only. *)
From Coq Require Import ZArith NArith List Bool.
From Verif Require Import Base Text Ast Builder Engine Api.
Import ListNotations.
Open Scope Z_scope.

(** A compiled definition list: separator_splitter (iterator.hpp:30-65) puts the token
    regexes (with their types) and the separator regexes apart; each regex is compiled
    from "^" + pattern (43, 56). *)
Record defs : Type := mkDefs { d_toks : list (nat * node); d_seps : list node }.
Inductive def : Type := DTok (ty : nat) (p : str) | DSep (p : str).
Definition anchored (p : str) : str := c_caret :: p.
Fixpoint split_defs (l : list def) : option defs :=
  match l with
  | [] => Some (mkDefs [] [])
  | DTok ty p :: r =>
      match compile (anchored p), split_defs r with
      | Some n, Some d => Some (mkDefs ((ty, n) :: d_toks d) (d_seps d))
      | _, _ => None
      end
  | DSep p :: r =>
      match compile (anchored p), split_defs r with
      | Some n, Some d => Some (mkDefs (d_toks d) (n :: d_seps d))
      | _, _ => None
      end
  end.
(** The iterator needs at least one token (get<0>, 76-77) and one separator
    (std::array deduction in match_separator, 103-107). *)
Definition make_defs (l : list def) : option defs :=
  match split_defs l with
  | Some d => match d_toks d, d_seps d with _ :: _, _ :: _ => Some d | _, _ => None end
  | None => None
  end.

(** The iterator (iterator.hpp:95-99): [current] and the last match; [None] is the null
    view.  [original_input] is the query of the environment. *)
Record iter : Type := mkIter { i_cur : view; i_last : option ((Z * Z) * nat) }.

(** The memory seen by a regex run on [current]. *)
Definition cur_env (e : env) (c : view) : env :=
  match c with
  | Some (a, b) => mkEnv (buf e) a b
  | None => mkEnv [] 0 0
  end.

(** regex(current).to_view(). *)
Definition run_view (fuel : nat) (e : env) (c : view) (n : node) : option view :=
  match create fuel (cur_env e c) n with
  | RDone s => Some (to_view s)
  | _ => None
  end.

Definition vsize (v : view) : Z := match v with Some (a, b) => b - a | None => 0 end.

(** std::max_element with [first.size() < second.size()]: the first largest. *)
Fixpoint max_elem {A : Type} (sz : A -> Z) (best : A) (l : list A) : A :=
  match l with
  | [] => best
  | x :: r => if sz best <? sz x then max_elem sz x r else max_elem sz best r
  end.

(** match_separator (iterator.hpp:101-125): the new [current] when a separator matched.
    Outer [None]: UB / fuel.  A non-empty match inside the null view would be arithmetic on
    a null pointer, so it is UB too. *)
Definition match_separator (fuel : nat) (e : env) (d : defs) (c : view)
  : option (option view) :=
  match mapM (run_view fuel e c) (d_seps d) with
  | Some (v :: vs) =>
      let best := max_elem vsize v vs in
      match best, c with
      | Some (a, b), Some (_, ce) => if 0 <? b - a then Some (Some (Some (b, ce))) else Some None
      | Some (a, b), None => if 0 <? b - a then None else Some None
      | None, _ => Some None
      end
  | _ => None
  end.

(** match_token (iterator.hpp:127-153). *)
Definition match_token (fuel : nat) (e : env) (d : defs) (c : view)
  : option (option (view * ((Z * Z) * nat))) :=
  match mapM (fun t => match run_view fuel e c (snd t) with
                       | Some v => Some (v, fst t)
                       | None => None end) (d_toks d) with
  | Some (v :: vs) =>
      let best := max_elem (fun x => vsize (fst x)) v vs in
      match fst best, c with
      | Some (a, b), Some (_, ce) =>
          if 0 <? b - a then Some (Some (Some (b, ce), ((a, b), snd best))) else Some None
      | Some (a, b), None => if 0 <? b - a then None else Some None
      | None, _ => Some None
      end
  | _ => None
  end.

(** invalidate (iterator.hpp:227-231). *)
Definition invalid : iter := mkIter None None.

(** original_input.begin_ != current.begin() (iterator.hpp:181); the query is not null. *)
Definition at_origin (e : env) (c : view) : bool :=
  match c with Some (a, _) => a =? qb e | None => false end.

(** operator++ (iterator.hpp:178-194). *)
Definition advance (fuel : nat) (e : env) (d : defs) (it : iter) : option iter :=
  match match_separator fuel e d (i_cur it) with
  | None => None
  | Some sep =>
      match sep with
      | None =>
          if negb (at_origin e (i_cur it)) then Some invalid
          else match match_token fuel e d (i_cur it) with
               | None => None
               | Some None => Some invalid
               | Some (Some (c', l)) => Some (mkIter c' (Some l))
               end
      | Some c1 =>
          match match_token fuel e d c1 with
          | None => None
          | Some None => Some invalid
          | Some (Some (c', l)) => Some (mkIter c' (Some l))
          end
      end
  end.

(** The constructor (iterator.hpp:156-163) and begin() (173-176). *)
Definition iter_create (fuel : nat) (e : env) (d : defs) : option iter :=
  let it := mkIter (Some (qb e, qe e)) None in
  if qb e =? qe e then Some it else advance fuel e d it.
(** end() (196-199): constructed from the null view. *)
Definition iter_end : iter := invalid.

(** literal_string_view::operator== (literal_string_view.hpp:78-100): same pointers, or
    same text. *)
Definition view_eqb (e : env) (u v : view) : bool :=
  (vsize u =? vsize v) && str_eqb (text e u) (text e v).
Definition last_view (it : iter) : view :=
  match i_last it with Some (v, _) => Some v | None => None end.
(** operator== (201-205), operator bool (222-225). *)
Definition iter_eqb (e : env) (a b : iter) : bool :=
  view_eqb e (i_cur a) (i_cur b) && view_eqb e (last_view a) (last_view b).
Definition iter_bool (it : iter) : bool := negb (vsize (last_view it) =? 0).

(** Range-for over a tokenizer result: the visited tokens.  [steps] bounds the visits. *)
Fixpoint tok_loop (steps fuel : nat) (e : env) (d : defs) (it : iter)
  : option (list (option ((Z * Z) * nat))) :=
  if iter_eqb e it iter_end then Some []
  else match steps with
       | O => None
       | S k => match advance fuel e d it with
                | None => None
                | Some it' => match tok_loop k fuel e d it' with
                              | Some l => Some (i_last it :: l)
                              | None => None
                              end
                end
       end.
Definition tok_range_for (steps fuel : nat) (e : env) (d : defs) :=
  match iter_create fuel e d with
  | Some it => tok_loop steps fuel e d it
  | None => None
  end.
