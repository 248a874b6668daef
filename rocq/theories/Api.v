(** match_result and regex: src/match_result.hpp, src/regex.hpp.  Model only. *)
From Coq Require Import ZArith NArith List Bool.
From Verif Require Import Base Text Ast Builder Engine.
Import ListNotations.
Open Scope Z_scope.

(** Outcome of an API call: a result object, undefined behaviour, or "still running
    after [fuel] turns of the loop of next()". *)
Inductive rout : Type := RDone (s : st) | RUB | RFuel.

Definition no_groups (n : node) : list (option (Z * Z)) := repeat None (ngroups n).

(** The while loop of match_result::next (match_result.hpp:182-196). *)
Fixpoint next_loop (fuel : nat) (e : env) (n : node) (s : st) : rout :=
  if s_start s <? qe e then
    match fuel with
    | O => RFuel
    | S f =>
        match mt e n [] s with
        | UB => RUB
        | Ok s1 =>
            if s_acc s1 then RDone s1
            else if ptr_ok e (s_end s1 + 1)
                 then next_loop f e n
                        (mkSt (s_end s1 + 1) (s_end s1 + 1) (s_grp s1) (s_acc s1))
                 else RUB
        end
    end
  else RDone (set_acc false s).

(** match_result::next (match_result.hpp:177-197).  Its boolean result is the new
    accepted flag. *)
Definition next (fuel : nat) (e : env) (n : node) (s : st) : rout :=
  next_loop fuel e n (mkSt (s_end s) (s_end s) (no_groups n) (s_acc s)).

(** match_result::match_result(query) (match_result.hpp:50-62). *)
Definition fresh (e : env) (n : node) : st := mkSt (qb e) (qb e) (no_groups n) true.
Definition create (fuel : nat) (e : env) (n : node) : rout :=
  match mt e n [] (fresh e n) with
  | UB => RUB
  | Ok s => if s_acc s then RDone s else next fuel e n s
  end.

(** ** Accessors.  A view is [None] = std::string_view{} or a pair of pointers. *)
Definition view := option (Z * Z).
(** is_accepted / operator bool (match_result.hpp:106-115). *)
Definition is_accepted (s : st) : bool := s_acc s.
(** to_view (145-154), operator* (101-104), conversion (156-160). *)
Definition to_view (s : st) : view :=
  if is_accepted s then Some (s_start s, s_end s) else None.
(** get_group / operator[] (127-143).  [None] outside: reading past the array is UB. *)
Definition get_group (s : st) (i : nat) : option view :=
  match i with
  | O => Some (to_view s)
  | S k => nth_error (s_grp s) k
  end.
(** has_groups<T> (nodes/common.hpp:38-39): every node has the member [groups] (base,
    nodes/common.hpp:69-78; group.hpp:36), terminals and anchors have not (terminals/common.hpp,
    terminals/anchors/*.hpp).  A pattern of one character compiles to a bare terminal. *)
Definition has_groups (n : node) : bool := match n with Term _ => false | _ => true end.
(** get<index>() (117-125) and std::get (218-223).  [None]: its static_assert fails, or the
    matcher has no member [groups] (line 121), so that the call does not compile. *)
Definition get_static (n : node) (s : st) (i : nat) : option view :=
  if has_groups n && (i <=? ngroups n)%nat then get_group s i else None.
(** std::tuple_size<match_result<...>> (204-208); [None]: does not compile, as above. *)
Definition tuple_size (n : node) : option nat :=
  if has_groups n then Some (S (ngroups n)) else None.
(** auto [x0, x1, ...] = result: tuple_size names, the i-th is initialised with get<i>(). *)
Definition bindings (n : node) (s : st) : option (list view) :=
  match tuple_size n with
  | None => None
  | Some k => fold_right (fun i acc => match get_static n s i, acc with Some v, Some l => Some (v :: l) | _, _ => None end) (Some []) (seq 0 k)
  end.
(** groups() (167-170) and regex::groups (regex.hpp:76-77). *)
Definition groups_of (n : node) : nat := ngroups n.
(** begin() (72-75). *)
Definition r_begin (fuel : nat) (e : env) (n : node) (s : st) : rout := create fuel e n.
(** end() (91-99). *)
Definition r_end (s : st) : st := mkSt (s_end s) (s_end s) (s_grp s) false.
(** operator!= (77-81): the built-in comparison of the two objects converted to bool. *)
Definition r_neq (a b : st) : bool := xorb (s_acc a) (s_acc b).

(** The text a view denotes in the buffer. *)
Definition text (e : env) (v : view) : str :=
  match v with
  | None => []
  | Some (a, b) => firstn (Z.to_nat (b - a)) (skipn (Z.to_nat a) (buf e))
  end.

(** Range-for over a result: [for (auto x : result)] expands to
    [for (auto i = r.begin(), z = r.end(); i != z; ++i) visit( *i )].
    [steps] bounds the number of visits; [None] = UB or fuel exhausted. *)
Fixpoint range_loop (steps fuel : nat) (e : env) (n : node) (i z : st)
  : option (list view) :=
  if r_neq i z then
    match steps with
    | O => None
    | S k =>
        match next fuel e n i with
        | RDone i' => match range_loop k fuel e n i' z with
                      | Some l => Some (to_view i :: l)
                      | None => None
                      end
        | _ => None
        end
    end
  else Some [].
Definition range_for (steps fuel : nat) (e : env) (n : node) (r : st) : option (list view) :=
  match r_begin fuel e n r with
  | RDone i => range_loop steps fuel e n i (r_end r)
  | _ => None
  end.

(** regex::is_independent (regex.hpp:58-74). *)
Definition is_independent (n1 n2 : node) : bool :=
  adm_empty (adm_inter (extract_adm [nadm n1]) (extract_adm [nadm n2])).
(** regex::get_expression (regex.hpp:52-56). *)
Definition get_expression (n : node) : str := nexpr n.

(** ** Convenience for statements: run pattern text [p] on query text [w] placed between
    [pre] and [post]. *)
Definition default_fuel (w : str) : nat := S (length w).
Definition run_regex (p pre w post : str) : option rout :=
  match compile p with
  | Some n => Some (create (default_fuel w) (env_of pre w post) n)
  | None => None
  end.
