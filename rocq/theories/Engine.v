(** The run-time matcher: match() of every terminal and node.  Model only, no proofs. *)
From Coq Require Import ZArith NArith List Bool.
From Verif Require Import Base Text Ast.
Import ListNotations.
Open Scope Z_scope.

(** The memory a match runs in: one buffer, and the query view [qb, qe) inside it
    (literal_string_view, utilities/literal_string_view.hpp:9-30).  Pointers are offsets
    into the buffer. *)
Record env : Type := mkEnv { buf : list chr; qb : Z; qe : Z }.

(** Query [w] surrounded by [pre] and [post]. *)
Definition env_of (pre w post : list chr) : env :=
  mkEnv (pre ++ w ++ post) (Z.of_nat (length pre))
        (Z.of_nat (length pre) + Z.of_nat (length w)).

(** match_result_data (match_result.hpp:12-35), without the query (it is in [env]).
    A capture is [None] (the default view {nullptr, nullptr}) or a pair of pointers. *)
Record st : Type := mkSt { s_start : Z; s_end : Z; s_grp : list (option (Z * Z)); s_acc : bool }.

Definition set_end (p : Z) (s : st) : st := mkSt (s_start s) p (s_grp s) (s_acc s).
Definition set_acc (b : bool) (s : st) : st := mkSt (s_start s) (s_end s) (s_grp s) b.

(** Outcome of a matcher: a new state, or undefined behaviour. *)
Inductive out : Type := Ok (s : st) | UB.
Definition bind (o : out) (f : st -> out) : out :=
  match o with Ok s => f s | UB => UB end.

Definition clo := st -> out.

Section Run.
Variable e : env.

(** Dereference: only inside the buffer. *)
Definition rd (p : Z) : option chr :=
  if p <? 0 then None else nth_error (buf e) (Z.to_nat p).
(** Forming a pointer: inside the buffer or one past its end. *)
Definition ptr_ok (p : Z) : bool := (0 <=? p) && (p <=? Z.of_nat (length (buf e))).
(** [end = p] after pointer arithmetic. *)
Definition move (p : Z) (s : st) : out := if ptr_ok p then Ok (set_end p s) else UB.

(** ** Terminals *)

(** exact_matcher::match_ (terminals/exact_matcher.hpp:29-49), the loop over the
    characters; [start] is the position to restore. *)
Fixpoint exact_loop (cs : str) (start : Z) (s : st) : out :=
  match cs with
  | [] => Ok s
  | c :: r =>
      match rd (s_end s) with
      | None => UB
      | Some x =>
          if c =? x then bind (move (s_end s + 1) s) (exact_loop r start)
          else Ok (set_acc false (set_end start s))
      end
  end.
Definition match_exact (cs : str) : clo :=
  fun s => exact_loop cs (s_end s) (set_acc true s).

(** A one-character test that consumes on success only: range.hpp:21-37, any.hpp:16-27,
    word_characters.hpp:21-37. *)
Definition match_test (test : chr -> bool) : clo :=
  fun s =>
    match rd (s_end s) with
    | None => UB
    | Some c => if test c then move (s_end s + 1) (set_acc true s)
                else Ok (set_acc false s)
    end.
Definition test_any (c : chr) : bool := negb (c =? c_nl).
Definition test_word (c : chr) : bool :=
  ((65 <=? c) && (c <=? 90)) || ((97 <=? c) && (c <=? 122))
  || ((48 <=? c) && (c <=? 57)) || (c =? 95).
Definition test_range (a b c : chr) : bool := (a <=? c) && (c <=? b).
Definition test_space (c : chr) : bool :=
  (c =? 9) || (c =? 10) || (c =? 12) || (c =? 13) || (c =? 32).

(** \s: terminals/space_characters.hpp:21-35.  The end pointer advances whether or not
    the character is a space. *)
Definition match_space : clo :=
  fun s =>
    match rd (s_end s) with
    | None => UB
    | Some c => move (s_end s + 1) (set_acc (test_space c) s)
    end.

(** terminal_common::match (terminals/common.hpp:24-36): reject at the end of the query,
    else match_. *)
Definition guarded (m : clo) : clo :=
  fun s => if qe e <=? s_end s then Ok (set_acc false s) else m s.

(** anchors::start::match (terminals/anchors/start.hpp:23-37). *)
Definition match_start : clo :=
  fun s => if qe e <=? s_end s then Ok (set_acc false s)
           else Ok (set_acc (s_end s =? qb e) s).

(** anchors::end::match (terminals/anchors/end.hpp:23-43).  Line 35 reads *end unless the
    end of the query is reached; line 37 reads it always. *)
Definition match_end : clo :=
  fun s =>
    if qe e <? s_end s then Ok (set_acc false s)
    else match rd (s_end s) with
         | None => UB
         | Some c =>
             let s1 := set_acc ((s_end s =? qe e) || (c =? c_nl)) s in
             if c =? c_nl then move (s_end s + 1) s1 else Ok s1
         end.

Definition match_term (t : term) : clo :=
  match t with
  | TTerminal tok =>
      match term_kind tok with
      | KExact cs => guarded (match_exact cs)
      | KRange a b => guarded (match_test (test_range a b))
      | KSelf KAny => guarded (match_test test_any)
      | KSelf KSpace => guarded match_space
      | KSelf KWord => guarded (match_test test_word)
      end
  | TExact cs => guarded (match_exact cs)
  | TRange a b => guarded (match_test (test_range a b))
  | TStart => match_start
  | TEnd => match_end
  end.

(** ** dfs (nodes/common.hpp:105-136) *)
(** Children as functions of their injected children; the alternatives after the first
    run without injected children (line 133). *)
Fixpoint dfs (cs : list (list clo -> clo)) (inj : list clo) (s : st) : out :=
  match cs with
  | [] => Ok s
  | c :: r =>
      match r with
      | [] => c inj s
      | _ => bind (c inj s)
                  (fun s1 => if s_acc s1 then Ok s1 else dfs r [] (set_acc true s1))
      end
  end.
(** dfs over plain matchers (injected children, which are called without injection). *)
Fixpoint dfs0 (cs : list clo) (s : st) : out :=
  match cs with
  | [] => Ok s
  | c :: r =>
      match r with
      | [] => c s
      | _ => bind (c s) (fun s1 => if s_acc s1 then Ok s1 else dfs0 r (set_acc true s1))
      end
  end.

(** ** simple<m, cs...>::match, at least one child (nodes/basic.hpp:67-85) *)
Definition simple_m (m rest : clo) : clo :=
  fun s =>
    bind (m s) (fun s1 =>
      if s_acc s1
      then bind (rest s1) (fun s2 =>
             if s_acc s2 then Ok s2 else Ok (set_end (s_end s) s2))
      else Ok s1).

(** ** Repetition of a matcher that must accept each time (greedy.hpp:170-179,
    lazy.hpp:119-128, repeated.hpp:53-59): [inr] is the early return. *)
Definition req_step (m : clo) (s : st) : st + out :=
  match m s with
  | Ok s1 => if s_acc s1 then inl s1 else inr (Ok s1)
  | UB => inr UB
  end.
Definition reps (n : N) (m : clo) (s : st) : st + out := loopN n (req_step m) s.

(** repeated::match (nodes/repeated.hpp:49-62). *)
Definition repeated_m (m : clo) (n : N) (rest : clo) : clo :=
  fun s => match reps n m s with inl s1 => rest s1 | inr o => o end.

(** ** greedy *)
(** backtrack (nodes/greedy.hpp:120-137). *)
Definition greedy_bt (has_children : bool) (rest : clo) (inj : list clo) : clo :=
  fun s => if has_children then rest s
           else bind (dfs0 inj s) (fun s1 => Ok (set_end (s_end s) s1)).

(** The optional special case (greedy.hpp:147-165). *)
Definition greedy_opt (m : clo) (msize : N) (bt : clo) : clo :=
  fun s =>
    bind (m s) (fun s1 =>
    bind (bt s1) (fun s2 =>
      if negb (s_acc s2) && (s_start s2 <? s_end s2)
      then bind (move (s_end s2 - Z.of_N msize) s2) bt
      else Ok s2)).

(** The consuming loop (greedy.hpp:185-195): state = (repetitions, st). *)
Definition greedy_step (m : clo) (x : N * st) : (N * st) + (option (N * st)) :=
  match m (snd x) with
  | Ok s1 => if s_acc s1 then inl ((fst x + 1)%N, s1)
             else inr (Some (fst x, set_acc true s1))
  | UB => inr None
  end.

(** The inner for loop (greedy.hpp:205-216): [k] iterations are left, from [iter] down. *)
Fixpoint back_scan (m : clo) (k : nat) (iter : Z) (s : st) : out :=
  match k with
  | O => Ok s
  | S k' =>
      bind (m (set_end iter s)) (fun s1 =>
        if s_acc s1 then Ok (set_end iter s1)
        else if ptr_ok (iter - 1) then back_scan m k' (iter - 1) s1 else UB)
  end.
Definition back_for (m : clo) (start : Z) (s : st) : out :=
  if ptr_ok (s_end s - 1)
  then back_scan m (Z.to_nat (s_end s - start)) (s_end s - 1) s
  else UB.

(** One turn of the backtracking loop (greedy.hpp:198-219). *)
Definition bt_step (m bt : clo) (start : Z) (s : st) : st + out :=
  match bt s with
  | UB => inr UB
  | Ok s1 => if s_acc s1 then inr (Ok s1)
             else match back_for m start s1 with
                  | Ok s2 => inl s2
                  | UB => inr UB
                  end
  end.

(** greedy::match, general case (greedy.hpp:166-230).  After the loop
    [repetitions >= repetitions_min] always holds, so line 221 sets accepted and
    lines 228-229 are dead. *)
Definition greedy_gen (m : clo) (mn mx : N) (bt rest : clo) : clo :=
  fun s =>
    match reps mn m s with
    | inr o => o
    | inl s0 =>
        let start := s_end s0 in
        let finish (x : N * st) :=
          match loopN (fst x - mn) (bt_step m bt start) (snd x) with
          | inr o => o
          | inl s2 => rest (set_acc true s2)
          end in
        match loopN (mx - mn) (greedy_step m) (mn, s0) with
        | inl x => finish x
        | inr (Some x) => finish x
        | inr None => UB
        end
    end.

Definition greedy_m (m : clo) (msmin msmax mn mx : N) (has_children : bool)
           (rest : clo) (inj : list clo) : clo :=
  let bt := greedy_bt has_children rest inj in
  if (N.eqb mn 0 && N.eqb mx 1 && N.eqb msmin msmax)%bool
  then greedy_opt m msmin bt
  else greedy_gen m mn mx bt rest.

(** ** lazy::match (nodes/lazy.hpp:107-170).  [inr (inl s)]: break; [inr (inr o)]: return. *)
Definition lazy_step (m : clo) (has_children : bool) (rest : clo) (inj : list clo)
           (start : Z) (s : st) : st + (st + out) :=
  if negb (s_end s <? qe e) then inr (inl s)
  else
    let more (s1 : st) : st + (st + out) :=
      if s_acc s1 then inr (inl s1)
      else match m s1 with
           | UB => inr (inr UB)
           | Ok s2 => if s_acc s2 then inl s2
                      else inr (inr (Ok (set_end start s2)))
           end in
    if has_children then
      match rest s with
      | UB => inr (inr UB)
      | Ok s1 => if s_acc s1 then inr (inr (Ok s1)) else more s1
      end
    else
      match dfs0 inj s with
      | UB => inr (inr UB)
      | Ok s1 => more (set_end (s_end s) s1)
      end.
Definition lazy_m (m : clo) (mn mx : N) (has_children : bool) (rest : clo) (inj : list clo)
  : clo :=
  fun s =>
    match reps mn m s with
    | inr o => o
    | inl s0 =>
        match loopN (mx - mn) (lazy_step m has_children rest inj (s_end s)) s0 with
        | inl s1 => rest s1
        | inr (inl s1) => rest s1
        | inr (inr o) => o
        end
    end.

(** ** possessive::match (nodes/possessive.hpp:97-126).  State = (i, end, st). *)
Definition poss_step (m : clo) (mn : N) (x : N * Z * st) : (N * Z * st) + (st + out) :=
  let '(i, lastend, s) := x in
  match m s with
  | UB => inr (inr UB)
  | Ok s1 => if s_acc s1 then inl ((i + 1)%N, s_end s1, s1)
             else if (i <? mn)%N then inr (inr (Ok s1))
             else inr (inl (set_end lastend (set_acc true s1)))
  end.
Definition possessive_m (m : clo) (mn mx : N) (rest : clo) : clo :=
  fun s =>
    match loopN mx (poss_step m mn) (0%N, s_end s, s) with
    | inl (_, _, s1) => rest s1
    | inr (inl s1) => rest s1
    | inr (inr o) => o
    end.

(** ** group::match (nodes/group.hpp:40-61) *)
Fixpoint set_nth {A : Type} (l : list A) (i : nat) (a : A) : option (list A) :=
  match l, i with
  | [], _ => None
  | _ :: r, O => Some (a :: r)
  | x :: r, S i' => match set_nth r i' a with Some r' => Some (x :: r') | None => None end
  end.
(** [match_groups[idx] = {begin, end}]; an index outside the array is undefined. *)
Definition set_group (idx : nat) (v : Z * Z) (s : st) : out :=
  match set_nth (s_grp s) idx (Some v) with
  | Some g => Ok (mkSt (s_start s) (s_end s) g (s_acc s))
  | None => UB
  end.
Definition group_m (m : clo) (idx : nat) (rest : clo) : clo :=
  fun s =>
    bind (m s) (fun s1 =>
      if s_acc s1 then bind (set_group idx (s_end s, s_end s1) s1) rest
      else Ok s1).

(** ** negated_node::match (nodes/negated.hpp:31-50) *)
Definition negated_m (m : clo) : clo :=
  fun s =>
    if qe e <=? s_end s then Ok (set_acc false s)
    else bind (m s) (fun s1 =>
           if s_acc s1 then Ok (set_acc false s1)
           else move (s_end s1 + 1) (set_acc true s1)).

Definition nonempty {A : Type} (l : list A) : bool := match l with [] => false | _ => true end.

(** ** match<injected...> of a node.
    [inj]: the injected children, as matchers without injection.  basic.hpp:67-85,
    114-120,142-147,168-173; greedy.hpp:139-231; lazy.hpp:107-170; possessive.hpp:97-126;
    repeated.hpp:49-62; group.hpp:40-61; negated.hpp:31-50.  Children lists of length two
    or more only occur under simple<void,...>, but are modelled everywhere. *)
Fixpoint mt (n : node) (inj : list clo) {struct n} : clo :=
  let kids := map (fun c (i : list clo) => mt c i) in
  let kids0 := map (fun c => mt c []) in
  match n with
  | Term t => match_term t
  | SimpleV cs => dfs (kids cs) inj
  | Simple m cs =>
      match cs with
      | [] => mt m []
      | _ => simple_m (mt m []) (dfs (kids cs) inj)
      end
  | Greedy m mn mx cs =>
      greedy_m (mt m []) (nmin m) (nmax m) mn mx (nonempty cs) (dfs (kids cs) []) inj
  | Lazy m mn mx cs =>
      lazy_m (mt m []) mn mx (nonempty cs) (dfs (kids cs) []) inj
  | Possessive m mn mx cs => possessive_m (mt m inj) mn mx (dfs (kids cs) [])
  | Repeated m k cs => repeated_m (mt m []) k (dfs (kids cs) [])
  | Group m idx cs =>
      group_m (mt m (kids0 cs)) idx (dfs (kids cs) (kids0 cs ++ inj))
  | Negated m => negated_m (mt m [])
  end.

End Run.
