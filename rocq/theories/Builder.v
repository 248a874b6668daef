(** The tree builder: src/operators/*.hpp and src/tree_builder/*.hpp.
    Model only, no proofs.  [None] = the pattern does not compile. *)
From Coq Require Import ZArith NArith List Bool.
From Verif Require Import Base Text Ast.
Import ListNotations.
Open Scope Z_scope.

(** add_child_t (tree_builder/common.hpp:11-48): append a child; [None] (void) gives
    the child itself.  negated_node and terminals are never a [last_node]. *)
Definition add_child (last : option node) (c : node) : option node :=
  match last with
  | None => Some c
  | Some n =>
      match n with
      | SimpleV cs => Some (SimpleV (cs ++ [c]))
      | Simple m cs => Some (Simple m (cs ++ [c]))
      | Greedy m a b cs => Some (Greedy m a b (cs ++ [c]))
      | Lazy m a b cs => Some (Lazy m a b (cs ++ [c]))
      | Possessive m a b cs => Some (Possessive m a b (cs ++ [c]))
      | Repeated m k cs => Some (Repeated m k (cs ++ [c]))
      | Group m i cs => Some (Group m i (cs ++ [c]))
      | Term _ | Negated _ => None
      end
  end.

(** Quantifier policies: greedy, lazy ('?'), possessive ('+'). *)
Inductive pol : Type := PGreedy | PLazy | PPoss.
Definition mkq (p : pol) (m : node) (mn mx : N) : node :=
  match p with
  | PGreedy => Greedy m mn mx []
  | PLazy => Lazy m mn mx []
  | PPoss => Possessive m mn mx []
  end.
(** The policy token after a quantifier and the tokens after it (plus.hpp:19-35,
    star.hpp:21-49, optional.hpp:18-34, braces.hpp:96-108). *)
Definition policy (ts : list str) : pol * list str :=
  match ts with
  | t :: tl => if is1 c_quest t then (PLazy, tl)
               else if is1 c_plus t then (PPoss, tl)
               else (PGreedy, ts)
  | [] => (PGreedy, [])
  end.

(** quantified_node_builder (operators/braces.hpp:17-87) on the content of {...}. *)
Definition braces_node (m : node) (content : list str) (p : pol) : option node :=
  match content with
  | [a] => Some (Repeated m (pack_string_to_number a) [])
  | [a; k] => if is1 c_comma k then Some (mkq p m (pack_string_to_number a) UMAX) else None
  | [a; k; b] => if is1 c_comma k
                 then Some (mkq p m (pack_string_to_number a) (pack_string_to_number b))
                 else None
  | _ => None
  end.

(** square_bracker_tree_builder_helper (operators/square_brackets.hpp:35-92): the items
    of a class.  [x-y] needs two one-character tokens with x < y (range.hpp:12-16 and
    admitted_set.hpp:30); an escape before '-' with a token after it is ambiguous
    (60-75 versus 77-92) and does not compile. *)
Fixpoint class_items (ts : list str) : option (list node) :=
  let range a b r :=
    match a, b with
    | [x], [y] => if x <? y
                  then match class_items r with
                       | Some l => Some (Simple (Term (TRange x y)) [] :: l)
                       | None => None
                       end
                  else None
    | _, _ => None
    end in
  let single t r :=
    if tok_compiles t
    then match class_items r with
         | Some l =>
             match t with
             | [b; _] => if b =? c_bslash
                         then Some (Simple (Term (TTerminal t)) [] :: l)
                         else Some (Simple (Term (TExact t)) [] :: l)
             | _ => Some (Simple (Term (TExact t)) [] :: l)
             end
         | None => None
         end
    else None in
  match ts with
  | [] => Some []
  | t :: r =>
      match r with
      | d :: e :: r' => if is1 c_dash d then range t e r' else single t r
      | _ => single t r
      end
  end.

(** exact_matcher<value> is complete only for a non-empty value (exact_matcher.hpp:10-18). *)
Definition exact_node (s : option str) : option node :=
  match s with
  | Some (c :: r) => Some (Simple (Term (TExact (c :: r))) [])
  | _ => None
  end.

(** What the head of the token list means and what is left after it; used by [helper].
    [ULit n]: a node to append; [UQuant p mn mx]: a quantifier for the last node;
    [UBraces ts]: a {...} quantifier; [UOpen], [UOpenNC], [UClass neg]: brackets. *)
Inductive unit_ : Type :=
| ULit (n : option node) (rest : list str)
| UQuant (mn mx : N) (rest : list str)
| UBraces (rest : list str)
| UOpen (rest : list str)
| UOpenNC (rest : list str)
| UClass (neg : bool) (rest : list str)
| UStart (rest : list str).

(** Selection of the tree_builder_helper specialisation by the leading tokens:
    plus.hpp:10, star.hpp:10, optional.hpp:9, braces.hpp:89, round_brackets.hpp:33,55,
    square_brackets.hpp:94,115, start_anchor.hpp:10, end_anchor.hpp:13, hex.hpp:69-122,
    octal.hpp:45-88, common.hpp:22-32 (generic). *)
Definition classify (last_void : bool) (t : str) (tl : list str) : unit_ :=
  let generic :=
    ULit (if tok_compiles t then Some (Simple (Term (TTerminal t)) []) else None) tl in
  if is1 c_plus t then UQuant 1 UMAX tl
  else if is1 c_star t then UQuant 0 UMAX tl
  else if is1 c_quest t then UQuant 0 1 tl
  else if is1 c_lbrc t then UBraces tl
  else if is1 c_lpar t then
    match tl with
    | q :: k :: tl' => if is1 c_quest q && is1 c_colon k then UOpenNC tl' else UOpen tl
    | _ => UOpen tl
    end
  else if is1 c_lbrk t then
    match tl with
    | q :: tl' => if is1 c_caret q then UClass true tl' else UClass false tl
    | [] => UClass false tl
    end
  else if is1 c_caret t && last_void then UStart tl
  else if is1 c_dollar t && (match tl with [] => true | _ => false end)
       then ULit (Some (Simple (Term TEnd) [])) []
  else if is_esc 120 t then                                        (* \x *)
    match tl with
    | [a] :: tl1 =>
        if is_hex a then
          match tl1 with
          | [b] :: tl2 => if is_hex b then ULit (exact_node (hex_to_bin [a; b])) tl2
                          else ULit (exact_node (hex_to_bin [a])) tl1
          | _ => ULit (exact_node (hex_to_bin [a])) tl1
          end
        else if a =? c_lbrc then
          match extract_delimited c_lbrc c_rbrc tl1 with
          | Some ([ds], rest) => ULit (exact_node (hex_to_bin ds)) rest
          | _ => ULit None []
          end
        else generic
    | _ => generic
    end
  else if is_esc 111 t then                                        (* \o{ *)
    match tl with
    | k :: tl1 =>
        if is1 c_lbrc k then
          match extract_delimited c_lbrc c_rbrc tl1 with
          | Some ([ds], rest) => ULit (exact_node (octal_to_bin ds)) rest
          | _ => ULit None []
          end
        else generic
    | [] => generic
    end
  else
    match t, tl with
    | [e; a], [b] :: [c] :: tl' =>
        if (e =? c_bslash) && is_octal a && is_octal b && is_octal c
        then ULit (exact_node (octal_to_bin [a; b; c])) tl'
        else generic
    | _, _ => generic
    end.

(** tree_builder_helper<last, tokens, gi>::tree (operators/*.hpp).  Every step consumes
    at least one token, so [fuel = 1 + number of tokens] is enough.  [branched]
    (round_brackets.hpp:12-31) is the [mapM]: every branch starts at the same index. *)
Fixpoint helper (fuel : nat) (last : option node) (ts : list str) (gi : nat) : option node :=
  match fuel with
  | O => None
  | S f =>
      let branched branches g :=
        match mapM (fun b => helper f None b g) branches with
        | Some ns => Some (SimpleV ns)
        | None => None
        end in
      let push n rest g :=
        match helper f (Some n) rest g with
        | Some sub => add_child last sub
        | None => None
        end in
      match ts with
      | [] => last
      | t :: tl =>
          match classify (match last with None => true | _ => false end) t tl with
          | UQuant mn mx rest =>
              match last with
              | None => None
              | Some m => let '(p, rest') := policy rest in
                          helper f (Some (mkq p m mn mx)) rest' gi
              end
          | UBraces rest =>
              match last, extract_delimited c_lbrc c_rbrc rest with
              | Some m, Some (content, rem) =>
                  let '(p, rem') := policy rem in
                  match braces_node m content p with
                  | Some n => helper f (Some n) rem' gi
                  | None => None
                  end
              | _, _ => None
              end
          | UOpen rest =>
              match extract_delimited c_lpar c_rpar rest with
              | Some (content, rem) =>
                  match branched (split c_bar content) (gi + 1)%nat with
                  | Some sub => push (Group sub gi []) rem (gi + 1)%nat
                  | None => None
                  end
              | None => None
              end
          | UOpenNC rest =>
              match extract_delimited c_lpar c_rpar rest with
              | Some (content, rem) =>
                  match branched (split c_bar content) gi with
                  | Some sub => let n := Simple sub [] in push n rem (next_gi n)
                  | None => None
                  end
              | None => None
              end
          | UClass neg rest =>
              match extract_delimited c_lbrk c_rbrk rest with
              | Some (content, rem) =>
                  match class_items content with
                  | Some (i :: items) =>
                      let cls := SimpleV (i :: items) in
                      let n := if neg then Simple (Negated cls) [] else Simple cls [] in
                      push n rem (next_gi cls)
                  | _ => None
                  end
              | None => None
              end
          | UStart rest => helper f (Some (Simple (Term TStart) [])) rest gi
          | ULit (Some n) rest => push n rest gi
          | ULit None _ => None
          end
      end
  end.

(** tree_builder_branches (tree_builder/tree_builder.hpp:11-32): each top-level branch
    starts at the previous branch's next_group_index. *)
Fixpoint build_branches (bs : list (list str)) (gi : nat) : option (list node) :=
  match bs with
  | [] => Some []
  | b :: r =>
      match helper (S (length b)) None b gi with
      | Some n => match build_branches r (next_gi n) with
                  | Some ns => Some (n :: ns)
                  | None => None
                  end
      | None => None
      end
  end.

(** tree_builder (tree_builder.hpp:34-43). *)
Definition build (toks : list str) : option node :=
  match build_branches (split c_bar toks) 0 with
  | Some ns => Some (SimpleV ns)
  | None => None
  end.

(** regex<expression>::ast (src/regex.hpp:37-38).  The optimiser needs at most one pass
    (theorem C13), so two are plenty. *)
Definition parse (p : str) : option node :=
  match lex p with Some ts => build ts | None => None end.
Definition compile (p : str) : option node :=
  match parse p with Some n => optimizer 2 n | None => None end.
