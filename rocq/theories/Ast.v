(** The tree: node and terminal types, admitted sets, meta data, group counting,
    the optimiser, get_expression.  Model only, no proofs. *)
From Coq Require Import ZArith NArith List Bool.
From Verif Require Import Base Text.
Import ListNotations.
Open Scope Z_scope.

(** Terminals.  [TTerminal tok] is terminals::terminal<tok> (src/terminals/*.hpp),
    [TExact s] terminals::exact_matcher<s> (exact_matcher.hpp:10-50),
    [TRange a b] terminals::range_terminal (range.hpp:9-38),
    [TStart]/[TEnd] the anchors (anchors/start.hpp, anchors/end.hpp). *)
Inductive term : Type :=
| TTerminal (tok : str)
| TExact (s : str)
| TRange (a b : chr)
| TStart
| TEnd.

(** Nodes (src/nodes/*.hpp).  [SimpleV cs] is simple<void, cs...> (basic.hpp:88-148),
    [Simple m cs] simple<m, cs...> (basic.hpp:30-86,150-174), [Greedy]/[Lazy]/
    [Possessive] take min, max and children (greedy.hpp:20-24, lazy.hpp:14-18,
    possessive.hpp:13-17), [Repeated m n cs] (repeated.hpp:12-13),
    [Group m index cs] (group.hpp:13-14), [Negated m] (negated.hpp:12-13).
    A terminal used where a node is expected is [Term]. *)
Inductive node : Type :=
| Term (t : term)
| SimpleV (cs : list node)
| Simple (m : node) (cs : list node)
| Greedy (m : node) (mn mx : N) (cs : list node)
| Lazy (m : node) (mn mx : N) (cs : list node)
| Possessive (m : node) (mn mx : N) (cs : list node)
| Repeated (m : node) (n : N) (cs : list node)
| Group (m : node) (idx : nat) (cs : list node)
| Negated (m : node).

(** ** Admitted sets: src/utilities/admitted_set.hpp *)

(** admitted_set_range_t (25-42): start, start+1, ..., end. *)
Definition adm_range (a b : chr) : list chr :=
  map (fun k => a + Z.of_nat k) (seq 0 (Z.to_nat (b - a + 1))).

(** merge_admitted_sets_t (44-116).  The C++ recursion consumes one head per step,
    so [length s1 + length s2] steps suffice. *)
Fixpoint adm_merge (s1 : list chr) : list chr -> list chr :=
  fix inner (s2 : list chr) : list chr :=
    match s1, s2 with
    | [], _ => s2
    | _, [] => s1
    | a :: s1', b :: s2' =>
        if a =? b then a :: adm_merge s1' s2'
        else if a <? b then a :: adm_merge s1' s2
        else b :: inner s2'
    end.

(** admitted_sets_difference_t (118-191): a symmetric difference. *)
Fixpoint adm_difference (s1 : list chr) : list chr -> list chr :=
  fix inner (s2 : list chr) : list chr :=
    match s1, s2 with
    | [], _ => s2
    | _, [] => s1
    | a :: s1', b :: s2' =>
        if a =? b then adm_difference s1' s2'
        else if a <? b then a :: adm_difference s1' s2
        else b :: inner s2'
    end.

(** admitted_set_complement_t (193-197): difference with 0..127. *)
Definition adm_complement (s : list chr) : list chr := adm_difference s (adm_range 0 127).

(** admitted_sets_intersection_t (199-272). *)
Fixpoint adm_inter (s1 : list chr) : list chr -> list chr :=
  fix inner (s2 : list chr) : list chr :=
    match s1, s2 with
    | [], _ => []
    | _, [] => []
    | a :: s1', b :: s2' =>
        if a =? b then a :: adm_inter s1' s2'
        else if a <? b then adm_inter s1' s2
        else inner s2'
    end.

Definition adm_empty (s : list chr) : bool := match s with [] => true | _ => false end.

(** ** Terminals *)

(** What a terminal<tok> is: the specialisations of src/terminals/*.hpp.
    [KExact s]: derives from exact_matcher<s> (alarm.hpp:10-13, escape.hpp, form_feed.hpp,
    new_line.hpp:9-14, carriage_return.hpp, tab.hpp, escaped.hpp:9-15, and the generic
    terminal<identifier> of exact_matcher.hpp:52-56); [KRange]: derives from range_terminal
    (digit_characters.hpp:10-15); [KSelf k]: a terminal with its own match_. *)
Inductive selfk : Type := KAny | KSpace | KWord.
Inductive tkind : Type := KExact (s : str) | KRange (a b : chr) | KSelf (k : selfk).

Definition term_kind (tok : str) : tkind :=
  if is1 c_dot tok then KSelf KAny                         (* any.hpp:9-28 *)
  else if is_esc 115 tok then KSelf KSpace                 (* \s space_characters.hpp:15-36 *)
  else if is_esc 119 tok then KSelf KWord                  (* \w word_characters.hpp:15-38 *)
  else if is_esc 100 tok then KRange 48 57                 (* \d digit_characters.hpp:10-15 *)
  else if is_esc 97 tok then KExact [7]                    (* \a alarm.hpp:9-14 *)
  else if is_esc 101 tok then KExact [27]                  (* \e escape.hpp:9-14 *)
  else if is_esc 102 tok then KExact [12]                  (* \f form_feed.hpp:9-14 *)
  else if is_esc 110 tok then KExact [10]                  (* \n new_line.hpp:9-14 *)
  else if is_esc 114 tok then KExact [13]                  (* \r carriage_return.hpp:9-14 *)
  else if is_esc 116 tok then KExact [9]                   (* \t tab.hpp:9-14 *)
  else match tok with
       | [b; c] => if b =? c_bslash then KExact [c] else KExact tok  (* escaped.hpp:9-15 *)
       | _ => KExact tok                                   (* exact_matcher.hpp:52-56 *)
       end.

(** Terminals whose use does not compile: \D \W \S \N derive from negated_terminal
    (src/terminals/common.hpp:39-56), whose match_ passes an rvalue to [auto&] and whose
    optimize drops [expression]; and exact_matcher<pack_string<>> is incomplete. *)
Definition tok_compiles (tok : str) : bool :=
  match tok with
  | [] => false
  | _ => negb (is_esc 68 tok || is_esc 87 tok || is_esc 83 tok || is_esc 78 tok)
  end.

(** admission sets of the own-match terminals: any.hpp:11-12,
    space_characters.hpp:12-13, word_characters.hpp:9-13. *)
Definition selfk_adm (k : selfk) : list chr :=
  match k with
  | KAny => adm_range 0 127
  | KSpace => [9; 10; 12; 13; 32]
  | KWord => adm_merge (adm_merge (adm_range 65 90) (adm_range 97 122))
                       (adm_merge (adm_range 48 57) [95])
  end.

(** [meta.minimum_match_size] / [maximum_match_size] / [admission_set] of a terminal:
    terminals/common.hpp:18-22, exact_matcher.hpp:22-27, anchors/start.hpp:13-18,
    anchors/end.hpp:13-18; the members are [unsigned] (nodes/meta.hpp:21). *)
Definition term_min (t : term) : N :=
  match t with
  | TTerminal tok => match term_kind tok with KExact s => wrap32 (N.of_nat (length s)) | _ => 1 end
  | TExact s => wrap32 (N.of_nat (length s))
  | TRange _ _ => 1
  | TStart => 0
  | TEnd => 0
  end%N.
Definition term_max (t : term) : N :=
  match t with
  | TTerminal tok => match term_kind tok with KExact s => wrap32 (N.of_nat (length s)) | _ => 1 end
  | TExact s => wrap32 (N.of_nat (length s))
  | TRange _ _ => 1
  | TStart => 0
  | TEnd => 1
  end%N.
Definition term_adm (t : term) : list chr :=
  match t with
  | TTerminal tok => match term_kind tok with
                     | KExact s => s
                     | KRange a b => adm_range a b
                     | KSelf k => selfk_adm k
                     end
  | TExact s => s
  | TRange a b => adm_range a b
  | TStart => adm_complement []
  | TEnd => adm_complement [c_nl]
  end.

(** ** Node meta data *)

(** src/utilities/math.hpp:18-46 (min() and max() of nothing are 0). *)
Definition minl (l : list N) : N := match l with [] => 0%N | a :: r => fold_left N.min r a end.
Definition maxl (l : list N) : N := match l with [] => 0%N | a :: r => fold_left N.max r a end.

(** [meta.minimum_match_size]: basic.hpp:52-60,102-108,132-136,158-162,
    greedy.hpp:36-46, lazy.hpp:27-37, possessive.hpp:26-36, repeated.hpp:18-24,
    group.hpp:23-26, negated.hpp:21-25.  [unsigned] arithmetic wraps. *)
Fixpoint nmin (n : node) : N :=
  match n with
  | Term t => term_min t
  | SimpleV cs => minl (map nmin cs)
  | Simple m cs => wrap32 (nmin m + minl (map nmin cs))
  | Greedy m mn _ cs | Lazy m mn _ cs | Possessive m mn _ cs =>
      wrap32 (nmin m * mn + minl (map nmin cs))
  | Repeated m k _ => wrap32 (nmin m * k)
  | Group m _ _ => nmin m
  | Negated m => nmin m
  end.

(** [meta.maximum_match_size], same lines.  Note that simple<m, cs...> adds the
    children's MINIMUM sizes (basic.hpp:57-59) and simple<void, ...> uses minimum
    sizes too (106-107, 135); negated_node uses the minimum (negated.hpp:24). *)
Fixpoint nmax (n : node) : N :=
  match n with
  | Term t => term_max t
  | SimpleV cs => maxl (map nmin cs)
  | Simple m [] => nmax m
  | Simple m cs => wrap32 (nmax m + maxl (map nmin cs))
  | Greedy m _ mx cs | Lazy m _ mx cs | Possessive m _ mx cs =>
      if N.eqb mx UMAX then UMAX else wrap32 (nmax m * mx + maxl (map nmax cs))
  | Repeated m k _ => wrap32 (nmax m * k)
  | Group m _ _ => nmax m
  | Negated m => nmin m
  end.

(** extract_admission_set (src/nodes/common.hpp:14-36): right fold of merge. *)
Definition extract_adm (sets : list (list chr)) : list chr :=
  fold_right adm_merge [] sets.

(** [meta.admission_set]: basic.hpp:47-50,97-100,129-130,155-156, greedy.hpp:26-34,
    lazy.hpp:22-25, possessive.hpp:21-24, repeated.hpp:15-16, group.hpp:20-21,
    negated.hpp:18-19.  [extract_admission_set<x>] of one argument merges with the
    empty set, which is the identity. *)
Fixpoint nadm (n : node) : list chr :=
  match n with
  | Term t => term_adm t
  | SimpleV cs =>
      match cs with
      | [] => []
      | [c] => nadm c
      | c :: _ => if N.eqb (nmin c) 0 then extract_adm (map nadm cs) else nadm c
      end
  | Simple m cs =>
      match cs with
      | [] => nadm m
      | _ => if N.eqb (nmin m) 0 then extract_adm (nadm m :: map nadm cs) else nadm m
      end
  | Greedy m mn _ cs | Lazy m mn _ cs | Possessive m mn _ cs =>
      if N.eqb mn 0 then extract_adm (nadm m :: map nadm cs) else nadm m
  | Repeated m _ _ => nadm m
  | Group m _ _ => nadm m
  | Negated m => adm_complement (nadm m)
  end.

(** [groups] (nodes/common.hpp:41-51,75-77, group.hpp:36-38, greedy.hpp:48-50). *)
Fixpoint ngroups (n : node) : nat :=
  match n with
  | Term _ => 0
  | SimpleV cs => list_sum (map ngroups cs)
  | Simple m cs | Greedy m _ _ cs | Lazy m _ _ cs | Possessive m _ _ cs | Repeated m _ cs =>
      ngroups m + list_sum (map ngroups cs)
  | Group m _ cs => ngroups m + list_sum (map ngroups cs) + 1
  | Negated m => ngroups m
  end%nat.

(** [next_group_index] (nodes/common.hpp:56-73, group.hpp:28).  A terminal has no
    groups member, so its index getter is 0. *)
Fixpoint next_gi (n : node) : nat :=
  match n with
  | Term _ => 0
  | SimpleV cs => list_max (map next_gi cs)
  | Simple m cs | Greedy m _ _ cs | Lazy m _ _ cs | Possessive m _ _ cs | Repeated m _ cs =>
      Nat.max (next_gi m) (list_max (map next_gi cs))
  | Group _ i _ => i + 1
  | Negated m => next_gi m
  end%nat.

(** ** The optimiser *)

(** optimize of a terminal: terminal_common::optimize is the [terminal] template argument
    (terminals/common.hpp:15-16), i.e. the exact_matcher / range_terminal base; anchors
    are themselves (start.hpp:20-21, end.hpp:20-21). *)
Definition term_optimize (t : term) : term :=
  match t with
  | TTerminal tok => match term_kind tok with
                     | KExact s => TExact s
                     | KRange a b => TRange a b
                     | KSelf _ => TTerminal tok
                     end
  | _ => t
  end.

(** optimize<inj...>: basic.hpp:62-65,110-112,138-140,164-166, greedy.hpp:104-118,
    lazy.hpp:91-105, possessive.hpp:90-95, repeated.hpp:43-47, group.hpp:30-34,
    negated.hpp:27-29.  [inj] are the injected children. *)
Fixpoint optimize (n : node) (inj : list node) {struct n} : node :=
  let opt0 := map (fun c => optimize c []) in
  match n with
  | Term t => Term (term_optimize t)
  | SimpleV cs =>
      match cs with
      | [c] => optimize c inj
      | _ => SimpleV (opt0 cs)
      end
  | Simple m cs =>
      match cs with
      | [] => optimize m inj
      | _ => Simple (optimize m inj) (opt0 cs)
      end
  | Greedy m mn mx cs =>
      if adm_empty (adm_inter (nadm m) (extract_adm (map nadm (cs ++ inj))))
      then Possessive (optimize m []) mn mx (opt0 cs)
      else Greedy (optimize m []) mn mx (opt0 cs)
  | Lazy m mn mx cs =>
      if adm_empty (adm_inter (nadm n) (extract_adm (map nadm (cs ++ inj))))
      then Possessive (optimize m []) mn mx (opt0 cs)
      else Lazy (optimize m []) mn mx (opt0 cs)
  | Possessive m mn mx cs => Possessive (optimize m []) mn mx (opt0 cs)
  | Repeated m k cs => Repeated (optimize m []) k (opt0 cs)
  | Group m i cs => Group (optimize m (cs ++ inj)) i (opt0 cs)
  | Negated m => Negated (optimize m [])
  end.

(** Type identity of two nodes (std::is_same in the optimizer recursion). *)
Definition term_eqb (a b : term) : bool :=
  match a, b with
  | TTerminal s, TTerminal t => str_eqb s t
  | TExact s, TExact t => str_eqb s t
  | TRange a1 b1, TRange a2 b2 => (a1 =? a2) && (b1 =? b2)
  | TStart, TStart => true
  | TEnd, TEnd => true
  | _, _ => false
  end.
Fixpoint node_eqb (a b : node) {struct a} : bool :=
  let fix leqb (l1 l2 : list node) {struct l1} : bool :=
    match l1, l2 with
    | [], [] => true
    | x :: r1, y :: r2 => node_eqb x y && leqb r1 r2
    | _, _ => false
    end in
  match a, b with
  | Term t, Term u => term_eqb t u
  | SimpleV c1, SimpleV c2 => leqb c1 c2
  | Simple m1 c1, Simple m2 c2 => node_eqb m1 m2 && leqb c1 c2
  | Greedy m1 a1 b1 c1, Greedy m2 a2 b2 c2
  | Lazy m1 a1 b1 c1, Lazy m2 a2 b2 c2
  | Possessive m1 a1 b1 c1, Possessive m2 a2 b2 c2 =>
      node_eqb m1 m2 && N.eqb a1 a2 && N.eqb b1 b2 && leqb c1 c2
  | Repeated m1 k1 c1, Repeated m2 k2 c2 => node_eqb m1 m2 && N.eqb k1 k2 && leqb c1 c2
  | Group m1 i1 c1, Group m2 i2 c2 => node_eqb m1 m2 && Nat.eqb i1 i2 && leqb c1 c2
  | Negated m1, Negated m2 => node_eqb m1 m2
  | _, _ => false
  end.

(** src/regex.hpp:17-31: iterate optimize<> until the type does not change.  [None] when
    the recursion is still going after [fuel] rewriting passes. *)
Fixpoint optimizer (fuel : nat) (n : node) : option node :=
  let n' := optimize n [] in
  if node_eqb n n' then Some n
  else match fuel with
       | O => None
       | S f => optimizer f n'
       end.

(** ** get_expression *)

(** [expression] of a terminal: exact_matcher.hpp:19-20, range.hpp:18-19, any.hpp:14,
    space_characters.hpp:19, word_characters.hpp:19, digit_characters.hpp:14,
    alarm.hpp:13 ..., escaped.hpp:13-14, start.hpp:11, end.hpp:11.  In every case
    terminal<tok>::expression is the token text. *)
Definition term_expr (t : term) : str :=
  match t with
  | TTerminal tok => tok
  | TExact s => s
  | TRange a b => [c_lbrk; a; c_dash; b; c_rbrk]
  | TStart => [c_caret]
  | TEnd => [c_dollar]
  end.

Definition nc_open : str := [c_lpar; c_quest; c_colon].

(** get_children_expression (nodes/get_expression.hpp:10-27). *)
Fixpoint join_bar (l : list str) : str :=
  match l with
  | [] => []
  | [a] => a
  | a :: r => a ++ [c_bar] ++ join_bar r
  end.
Definition children_expr (es : list str) : str :=
  match es with
  | [] => []
  | [e] => e
  | _ => join_bar (map (fun e => nc_open ++ e ++ [c_rpar]) es)
  end.
(** children part of simple/greedy/...: wrapped in (?:...) when two or more. *)
Definition tail_expr (es : list str) : str :=
  match es with
  | [] | [_] => children_expr es
  | _ => nc_open ++ children_expr es ++ [c_rpar]
  end.
(** the quantifier text: greedy.hpp:53-87, lazy.hpp:40-74, possessive.hpp:39-73. *)
Definition quant_expr (mn mx : N) (suffix : str) : str :=
  (if (N.eqb mn 0 && N.eqb mx UMAX)%bool then [c_star]
   else if (N.eqb mn 1 && N.eqb mx UMAX)%bool then [c_plus]
   else if (N.eqb mn 0 && N.eqb mx 1)%bool then [c_quest]
   else if N.eqb mx UMAX
        then [c_lbrc] ++ number_to_pack_string mn ++ [c_comma; c_rbrc]
        else [c_lbrc] ++ number_to_pack_string mn ++ [c_comma]
               ++ number_to_pack_string mx ++ [c_rbrc]) ++ suffix.
(** [expression] of a node: basic.hpp:33-45,94-95,126-127,153, greedy.hpp:52-102,
    lazy.hpp:39-89, possessive.hpp:38-88, repeated.hpp:26-41, group.hpp:16-18,
    negated.hpp:15-16. *)
Fixpoint nexpr (n : node) : str :=
  match n with
  | Term t => term_expr t
  | SimpleV cs => children_expr (map nexpr cs)
  | Simple m cs => nexpr m ++ tail_expr (map nexpr cs)
  | Greedy m mn mx cs => nexpr m ++ quant_expr mn mx [] ++ tail_expr (map nexpr cs)
  | Lazy m mn mx cs => nexpr m ++ quant_expr mn mx [c_quest] ++ tail_expr (map nexpr cs)
  | Possessive m mn mx cs => nexpr m ++ quant_expr mn mx [c_plus] ++ tail_expr (map nexpr cs)
  | Repeated m k cs =>
      nexpr m ++ [c_lbrc] ++ number_to_pack_string k ++ [c_rbrc] ++ tail_expr (map nexpr cs)
  | Group m _ cs => [c_lpar] ++ nexpr m ++ [c_rpar] ++ children_expr (map nexpr cs)
  | Negated m => [c_lbrk; c_caret] ++ nexpr m ++ [c_rbrk]
  end.
