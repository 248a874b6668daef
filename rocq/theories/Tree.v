(** The tree a pattern should be parsed to, as a function of the surface syntax of Spec.v,
    and the numbering of capture slots the builder really uses. *)
From Coq Require Import ZArith NArith List Bool.
From Verif Require Import Base Text Ast Builder Spec.
Import ListNotations.
Open Scope Z_scope.

(** * Tokens of a pattern *)
Definition toks_citem (i : citem) : list str :=
  match i with
  | CChar c => [[c]]
  | CRange a b => [[a]; [c_dash]; [b]]
  | CEsc c => [[c_bslash; c]]
  end.
Definition toks_elem (x : elem) : list str :=
  match x with
  | ELit c => [[c]]
  | EEsc c => [[c_bslash; c]]
  | EDot => [[c_dot]]
  | EClass neg items =>
      [[c_lbrk]] ++ (if neg then [[c_caret]] else []) ++ flat_map toks_citem items ++ [[c_rbrk]]
  | EOct a b c => [[c_bslash; digit_chr a]; [digit_chr b]; [digit_chr c]]
  | EHex a b => [[c_bslash; 120]; [hex_chr a]; [hex_chr b]]
  end.
Definition toks_greed (g : greed) : list str :=
  match g with Gr => [] | Lz => [[c_quest]] | Po => [[c_plus]] end.
Definition toks_kind (k : qkind) : list str :=
  match k with
  | QStar => [[c_star]] | QPlus => [[c_plus]] | QOpt => [[c_quest]]
  | QExact n => [[c_lbrc]; show_num n; [c_rbrc]]
  | QMin n => [[c_lbrc]; show_num n; [c_comma]; [c_rbrc]]
  | QMinMax n m => [[c_lbrc]; show_num n; [c_comma]; show_num m; [c_rbrc]]
  end.
Definition toks_quant (q : quant) : list str :=
  match q with Q1 => [] | QQ k g => toks_kind k ++ toks_greed g end.
Fixpoint toks (r : rx) : list str :=
  match r with
  | ROne b => toks_br b
  | ROr b r' => toks_br b ++ [[c_bar]] ++ toks r'
  end
with toks_br (b : br) : list str :=
  match b with Br a s => (if a then [[c_caret]] else []) ++ toks_sq s end
with toks_sq (s : sq) : list str :=
  match s with
  | SNil => []
  | SCons a q s' => toks_atom a ++ toks_quant q ++ toks_sq s'
  end
with toks_atom (a : atom) : list str :=
  match a with
  | AEl x => toks_elem x
  | ACap _ r => [[c_lpar]] ++ toks r ++ [[c_rpar]]
  | ANon r => [[c_lpar]; [c_quest]; [c_colon]] ++ toks r ++ [[c_rpar]]
  end.

(** * Trees *)
(** A class item, an element, a quantified node: one node per syntactic construct; the
    continuation of a sequence is the only child of the node before it. *)
Definition tree_citem (i : citem) : node :=
  match i with
  | CChar c => Simple (Term (TExact [c])) []
  | CRange a b => Simple (Term (TRange a b)) []
  | CEsc c => Simple (Term (TTerminal [c_bslash; c])) []
  end.
Definition tree_elem (x : elem) : node :=
  match x with
  | ELit c => Simple (Term (TTerminal [c])) []
  | EEsc c => Simple (Term (TTerminal [c_bslash; c])) []
  | EDot => Simple (Term (TTerminal [c_dot])) []
  | EClass false items => Simple (SimpleV (map tree_citem items)) []
  | EClass true items => Simple (Negated (SimpleV (map tree_citem items))) []
  | EOct a b c => Simple (Term (TExact [byte_chr (64 * a + 8 * b + c)])) []
  | EHex a b => Simple (Term (TExact [byte_chr (16 * a + b)])) []
  end.
Definition pol_of (g : greed) : pol := match g with Gr => PGreedy | Lz => PLazy | Po => PPoss end.
Definition umax_of (m : option N) : N := match m with None => UMAX | Some n => n end.
Definition tree_quant (q : quant) (m : node) : node :=
  match q with
  | Q1 => m
  | QQ (QExact n) _ => Repeated m (Z.to_N (num_val n)) []
  | QQ k g => mkq (pol_of g) m (kind_min k) (umax_of (kind_max k))
  end.
(** [u] followed by [rest]. *)
Definition followed (u : node) (rest : option node) : node :=
  match rest with
  | None => u
  | Some c =>
      match u with
      | SimpleV cs => SimpleV (cs ++ [c])
      | Simple m cs => Simple m (cs ++ [c])
      | Greedy m a b cs => Greedy m a b (cs ++ [c])
      | Lazy m a b cs => Lazy m a b (cs ++ [c])
      | Possessive m a b cs => Possessive m a b (cs ++ [c])
      | Repeated m k cs => Repeated m k (cs ++ [c])
      | Group m i cs => Group m i (cs ++ [c])
      | Term t => Term t
      | Negated m => Negated m
      end
  end.
Fixpoint tree_bs (r : rx) : list node :=
  match r with
  | ROne b => [tree_br b]
  | ROr b r' => tree_br b :: tree_bs r'
  end
with tree_br (b : br) : node :=
  match b with
  | Br true s => followed (Simple (Term TStart) []) (tree_sq s)
  | Br false s => match tree_sq s with Some n => n | None => SimpleV [] end
  end
with tree_sq (s : sq) : option node :=
  match s with
  | SNil => None
  | SCons a q s' => Some (followed (tree_quant q (tree_atom a)) (tree_sq s'))
  end
with tree_atom (a : atom) : node :=
  match a with
  | AEl x => tree_elem x
  | ACap i r => Group (SimpleV (tree_bs r)) i []
  | ANon r => Simple (SimpleV (tree_bs r)) []
  end.
Definition tree (r : rx) : node := SimpleV (tree_bs r).

(** * The numbering of capture slots the builder uses *)
(** A pattern written [show r] is compiled to slots numbered like [renumber r 0], whatever
    the slots in [r] are.  A class, or a (?:...) without captures, resets the count; the
    count after a group ignores the groups nested in it; the branches of a group all start
    at the same number. *)

(** next_group_index of the tree of ... *)
Fixpoint nx (r : rx) : nat :=
  match r with ROne b => nx_br b | ROr b r' => Nat.max (nx_br b) (nx r') end
with nx_br (b : br) : nat := match b with Br _ s => nx_sq s end
with nx_sq (s : sq) : nat :=
  match s with
  | SNil => 0
  | SCons a q s' =>
      match a, q with
      | ACap i _, Q1 => i + 1
      | _, _ => Nat.max (nx_atom a) (nx_sq s')
      end
  end%nat
with nx_atom (a : atom) : nat :=
  match a with
  | AEl _ => 0
  | ACap i _ => i + 1
  | ANon r => nx r
  end%nat.
(** Slot count after an atom. *)
Definition after_atom (a : atom) (g : nat) : nat :=
  match a with
  | AEl (EClass _ _) => 0
  | AEl _ => g
  | ACap _ _ => g + 1
  | ANon _ => nx_atom a
  end%nat.
(** [inner = true]: branches of a group all start at [g]; top-level branches chain. *)
Fixpoint renumber_in (inner : bool) (r : rx) (g : nat) : rx :=
  match r with
  | ROne b => ROne (renumber_br b g)
  | ROr b r' => let b' := renumber_br b g in
                ROr b' (renumber_in inner r' (if inner then g else nx_br b'))
  end
with renumber_br (b : br) (g : nat) : br :=
  match b with Br a s => Br a (renumber_sq s g) end
with renumber_sq (s : sq) (g : nat) : sq :=
  match s with
  | SNil => SNil
  | SCons a q s' => let a' := renumber_atom a g in SCons a' q (renumber_sq s' (after_atom a' g))
  end
with renumber_atom (a : atom) (g : nat) : atom :=
  match a with
  | AEl x => AEl x
  | ACap _ r => ACap g (renumber_in true r (g + 1)%nat)
  | ANon r => ANon (renumber_in true r g)
  end.
Definition renumber (r : rx) : rx := renumber_in false r 0.
