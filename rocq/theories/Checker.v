(** A decidable analysis of compiled trees: which patterns the matcher handles exactly as
    the specification says.  Only definitions; correctness is proved in CheckerProofs.v,
    EngineProofs.v and OptProofs.v. *)
From Coq Require Import ZArith NArith List Bool.
From Verif Require Import Base Text Ast Builder Engine Den AstProofs.
Import ListNotations.
Open Scope Z_scope.

Notation cset := (Z -> bool) (only parsing).
(** All values of a char. *)
Definition all_chars : list Z := map (fun k => Z.of_nat k - 128) (seq 0 256).
Definition disj (P Q : cset) : bool := forallb (fun x => negb (P x && Q x)) all_chars.

(** ** Nodes that match exactly one character, and their set *)
Fixpoint usets (l : list (option cset)) : option cset :=
  match l with
  | [] => None
  | a :: r =>
      match r with
      | [] => a
      | _ => match a, usets r with
             | Some P, Some Q => Some (fun x => P x || Q x)
             | _, _ => None
             end
      end
  end.
Fixpoint uset (n : node) : option cset :=
  match n with
  | Term t => tset t
  | SimpleV cs => usets (map uset cs)
  | Simple m cs => match cs with [] => uset m | _ => None end
  | Negated m => match uset m with Some P => Some (fun x => negb (P x)) | None => None end
  | _ => None
  end.

(** ** Prefixes: sets of the first characters of every match, and whether that is all *)
Definition pfx := (list cset * bool)%type.
Definition seqp (a b : pfx) : pfx := if snd a then (fst a ++ fst b, snd b) else a.
Fixpoint zipu (a b : list cset) : list cset :=
  match a, b with
  | P :: a', Q :: b' => (fun x => P x || Q x) :: zipu a' b'
  | _, _ => []
  end.
Definition orp (a b : pfx) : pfx :=
  (zipu (fst a) (fst b), snd a && snd b && Nat.eqb (length (fst a)) (length (fst b))).
Fixpoint orsp (l : list pfx) : pfx :=
  match l with
  | [] => ([], true)
  | a :: r => match r with [] => a | _ => orp a (orsp r) end
  end.
Fixpoint powp (k : nat) (p : pfx) : pfx :=
  match k with O => ([], true) | S k' => seqp p (powp k' p) end.
(** At least [k] repetitions; at most 8 are looked at. *)
Definition minp (k : N) (p : pfx) : list cset := fst (powp (N.to_nat (N.min k 8)) p).
Fixpoint pre (n : node) : pfx :=
  match uset n with
  | Some P => ([P], true)
  | None =>
      let kp cs := orsp (map pre cs) in
      match n with
      | Term _ => ([], match n with Term TStart => true | _ => false end)
      | SimpleV cs => kp cs
      | Simple m cs | Group m _ cs => seqp (pre m) (kp cs)
      | Greedy m mn mx cs | Lazy m mn mx cs | Possessive m mn mx cs =>
          if N.eqb mn 0 then (firstn 1 (zipu (fst (pre m)) (fst (kp cs))), false)
          else (minp mn (pre m), false)
      | Repeated m k cs =>
          if (k <=? 8)%N then seqp (powp (N.to_nat k) (pre m)) (kp cs) else (minp k (pre m), false)
      | Negated _ => ([], false)
      end
  end.
Definition prek (cs : list node) : pfx := orsp (map pre cs).
Definition nonnull (n : node) : bool := match fst (pre n) with [] => false | _ => true end.
(** Every match is longer than nothing. *)
Definition eats (n : node) : bool :=
  nonnull n || match n with Group _ _ [c] => nonnull c | _ => false end.
(** No text can start with both prefixes. *)
Fixpoint excl (a b : list cset) : bool :=
  match a, b with
  | P :: a', Q :: b' => disj P Q || excl a' b'
  | _, _ => false
  end.
Fixpoint excl_all (l : list (list cset)) : bool :=
  match l with
  | [] => true
  | a :: r => forallb (excl a) r && excl_all r
  end.

Definition is_some {A : Type} (o : option A) : bool := match o with Some _ => true | None => false end.
Definition is_nil {A : Type} (l : list A) : bool := match l with [] => true | _ => false end.

(** ** At most one way to match at every position *)
Fixpoint det (n : node) : bool :=
  is_some (uset n) ||
  (let dk cs := forallb det cs && excl_all (map (fun c => fst (pre c)) cs) in
   match n with
   | Term _ => true
   | SimpleV cs => dk cs
   | Simple m cs | Repeated m _ cs | Group m _ cs => det m && dk cs
   | Greedy _ _ _ _ | Lazy _ _ _ _ => false
   | Possessive _ _ _ cs => dk cs
   | Negated _ => true
   end).

(** ** Matches at every position *)
Fixpoint total (n : node) : bool :=
  let tk cs := is_nil cs || existsb total cs in
  match n with
  | Term _ => false
  | SimpleV cs => tk cs
  | Simple m cs | Group m _ cs => total m && tk cs
  | Greedy _ mn _ cs | Lazy _ mn _ cs | Possessive _ mn _ cs => N.eqb mn 0 && tk cs
  | Repeated _ k cs => N.eqb k 0 && tk cs
  | Negated _ => false
  end.
Definition totk (cs : list node) : bool := is_nil cs || existsb total cs.

(** ** The characters a match consists of *)
Definition ounion (a b : option cset) : option cset :=
  match a, b with Some P, Some Q => Some (fun x => P x || Q x) | _, _ => None end.
Definition ounions (l : list (option cset)) : option cset := fold_right ounion (Some (fun _ => false)) l.
(** A set with every character of every match. *)
Fixpoint aset (n : node) : option cset :=
  match uset n with
  | Some P => Some P
  | None =>
      match n with
      | Term TStart => Some (fun _ => false)
      | Term _ | Negated _ => None
      | SimpleV cs => ounions (map aset cs)
      | Simple m cs | Group m _ cs | Greedy m _ _ cs | Lazy m _ _ cs | Possessive m _ _ cs | Repeated m _ cs =>
          ounion (aset m) (ounions (map aset cs))
      end
  end.
(** A set with every character of every match but its first. *)
Fixpoint tailset (n : node) : option cset :=
  match uset n with
  | Some _ => Some (fun _ => false)
  | None =>
      match n with
      | Term _ | Negated _ => None
      | SimpleV cs => ounions (map tailset cs)
      | Simple m cs | Group m _ cs =>
          if nonnull m then ounion (tailset m) (ounions (map aset cs)) else None
      | Greedy m k _ cs | Lazy m k _ cs | Possessive m k _ cs | Repeated m k cs =>
          if nonnull m && negb (N.eqb k 0)
          then ounion (tailset m) (ounion (aset m) (ounions (map aset cs))) else None
      end
  end.
(** No match of [m] begins strictly inside a match of [m], and there is at most one from
    every position. *)
Definition marker (m : node) : bool :=
  match tailset m, fst (pre m) with Some T, P :: _ => disj T P | _, _ => false end.
(** ** What is known about the character before the current position *)
Inductive prev : Type :=
| PFst                      (* the match starts here *)
| PSet (P : cset)           (* there is one, in this set *)
| PAny.
Definition lastp (m : node) (pv : prev) : prev :=
  match uset m with
  | Some P => PSet P
  | None =>
      match m with
      | Repeated x k [] | Possessive x k _ [] =>
          match uset x with
          | Some P => if N.eqb k 0
                      then match pv with PSet Q => PSet (fun c => P c || Q c) | _ => PAny end
                      else PSet P
          | None => PAny
          end
      | _ => PAny
      end
  end.
Definition opt_case (m : node) (mn mx : N) : bool :=
  N.eqb mn 0 && N.eqb mx 1 && N.eqb (nmin m) (nmax m).
(** ** The end pointer is unchanged when the match fails *)
(** An optional item (see [greedy_opt]) that can fail may leave the end one character
    further left, unless the match starts here. *)
Definition opt_clean (m : node) (mn mx : N) (cs : list node) (pv : prev) : bool :=
  negb (opt_case m mn mx) || totk cs || match pv with PFst => true | _ => false end.
Fixpoint clean (n : node) (pv : prev) {struct n} : bool :=
  match n with
  | Term (TTerminal tok) => match term_kind tok with KSelf KSpace => false | _ => true end
  | Term _ => true
  | SimpleV cs => forallb (fun c => clean c pv) cs
  | Simple m cs => clean m pv
  | Group m _ cs =>
      match cs with
      | [] => clean m pv
      | _ => (clean m pv && totk cs)
             || (match m with
                 | Greedy x mn mx [] =>
                     N.eqb mn 0 && forallb (fun c => clean c PAny) cs && opt_clean x mn mx cs pv
                 | _ => false
                 end)
      end
  | Possessive m mn _ cs => (N.eqb mn 0 || (N.eqb mn 1 && clean m PAny)) && totk cs
  | Greedy m mn mx cs =>
      N.eqb mn 0 && negb (is_nil cs) && forallb (fun c => clean c PAny) cs && opt_clean m mn mx cs pv
  | Repeated m k cs =>
      N.eqb k 1 && clean m PAny && totk cs
  | Lazy _ _ _ _ => false
  | Negated _ => false
  end.

(** ** The accepted flag on entry does not matter *)
Fixpoint accins (n : node) : bool :=
  match n with
  | Term _ => true
  | SimpleV cs => match cs with c :: _ => accins c | [] => false end
  | Simple m _ => accins m
  | Group m _ _ =>
      match m with
      | Greedy _ _ _ [] => true
      | Lazy x mn _ [] => negb (N.eqb mn 0) && accins x
      | _ => accins m
      end
  | Repeated m k _ => negb (N.eqb k 0) && accins m
  | Possessive m _ mx _ => negb (N.eqb mx 0) && accins m
  | Greedy m _ mx cs => match cs with [c] => true | _ => false end
  | Lazy m mn mx cs => match cs with [c] => accins m && accins c | _ => false end
  | Negated _ => true
  end.

(** ** Injected children are not used *)
Fixpoint noinj (n : node) : bool :=
  let first cs := match cs with c :: _ => noinj c | [] => true end in
  match n with
  | Term _ | Negated _ | Repeated _ _ _ => true
  | SimpleV cs => first cs
  | Simple _ cs => first cs
  | Greedy _ _ _ cs | Lazy _ _ _ cs => negb (is_nil cs)
  | Possessive m _ _ _ => noinj m
  | Group _ _ cs => first cs
  end.

(** ** Captures *)
Definition nog (n : node) : bool := is_nil (gidx n).
Definition nogk (cs : list node) : bool := forallb nog cs.
(** Captures are unchanged when the match fails. *)
Fixpoint gcl (n : node) : bool :=
  nog n ||
  (let after m cs := totk cs || (nog m && forallb gcl cs) in
   match n with
   | Term _ => true
   | SimpleV cs => forallb gcl cs
   | Simple m cs => gcl m && after m cs
   | Group m _ cs => gcl m && totk cs && (match m with Greedy _ _ _ [] | Lazy _ _ _ [] => false | _ => true end)
   | Possessive m mn _ cs => gcl m && ((mn <=? 1)%N || nog m) && after m cs
   | Repeated m k cs => gcl m && ((k <=? 1)%N || nog m) && after m cs
   | Greedy m _ _ cs => nog m && forallb gcl cs
   | Lazy m _ _ cs => nog m && forallb gcl cs
   | Negated m => false
   end).
(** Captures stored by every match. *)
Fixpoint nsure (n : node) : list nat :=
  let every cs := match cs with [c] => nsure c | _ => [] end in
  match n with
  | Term _ | Negated _ => []
  | SimpleV cs => every cs
  | Simple m cs => nsure m ++ every cs
  | Greedy m mn _ cs | Lazy m mn _ cs | Possessive m mn _ cs => every cs
  | Repeated m k cs => every cs
  | Group m i cs => i :: nsure m ++ every cs
  end.
(** Captures are unchanged when the match fails, or a later success stores all of them anew. *)
Definition allsure (n : node) : bool := forallb (fun k => existsb (Nat.eqb k) (nsure n)) (gidx n).
Definition gcs (n : node) : bool := gcl n || allsure n.
(** When the match succeeds exactly the captures of the chosen way are stored. *)
Fixpoint butlast_gcl (cs : list node) : bool :=
  match cs with
  | [] => true
  | c :: r => match r with [] => true | _ => gcl c && butlast_gcl r end
  end.
Fixpoint gex (n : node) : bool :=
  nog n ||
  match n with
  | Term _ => true
  | SimpleV cs => forallb gex cs && butlast_gcl cs
  | Simple m cs => gex m && forallb gex cs
  | Group m _ cs =>
      match m with
      | Greedy x _ _ [] | Lazy x _ _ [] => nog x && forallb gex cs && forallb gcs cs
      | _ => gex m && forallb gex cs
      end
  | Possessive m _ _ cs => gex m && gcl m && forallb gex cs
  | Repeated m _ cs => gex m && forallb gex cs
  | Greedy m _ _ cs => nog m && forallb gex cs && forallb gcs cs
  | Lazy m _ _ cs => gex m && forallb gex cs && forallb gcs cs
  | Negated m => false
  end.

Definition first_disj (P : cset) (c : node) : bool :=
  match fst (pre c) with Q :: _ => disj P Q | [] => false end.
(** x? followed by c. *)
Definition opt_good (m c : node) (mn mx : N) (pv : prev) : bool :=
  if opt_case m mn mx
  then N.eqb (nmin m) 1 && accins c
       && (total c || match pv with PFst => true | PSet P => first_disj P c | PAny => false end)
  else true.

(** ** Nodes the matcher handles as specified *)
Section Good.
Variable G : nat.   (* number of capture slots *)
Variable E : bool.  (* is $ allowed? *)
Fixpoint butlast_clean (cs : list node) (pv : prev) : bool :=
  match cs with
  | [] => true
  | c :: r => match r with [] => true | _ => clean c pv && butlast_clean r pv end
  end.
Definition is_start (m : node) : bool := match m with Term TStart => true | _ => false end.
(** What a greedy loop may repeat. *)
Definition greedy_item (m : node) (mn mx : N) : bool :=
  is_some (uset m) || (det m && nonnull m && nog m && marker m && negb (opt_case m mn mx)).
Fixpoint good (n : node) (pv : prev) {struct n} : bool :=
  match n with
  | Term TEnd => E
  | Term t => is_some (tset t)
  | SimpleV cs => negb (is_nil cs) && forallb (fun c => good c pv) cs && butlast_clean cs pv
  | Simple m cs =>
      match cs with
      | [] => good m pv
      | [c] => if is_start m then eats c && good c pv
               else good m pv && good c (lastp m pv) && (det m || total c)
      | _ => false
      end
  | Greedy m mn mx cs =>
      match cs with
      | [c] => greedy_item m mn mx && good m PAny && clean m PAny && accins m && good c PAny && clean c PAny
               && opt_good m c mn mx pv
      | _ => false
      end
  | Lazy m mn mx cs =>
      match cs with
      | [c] => good m PAny && det m && nonnull m && accins m && good c PAny && clean c PAny
      | _ => false
      end
  | Possessive m mn mx cs =>
      good m PAny && nonnull m && ((mn <=? 1)%N || det m) && (mn <=? mx)%N
      && match cs with [] => true | [c] => good c (lastp (Possessive m mn mx []) pv) | _ => false end
  | Repeated m k cs =>
      good m PAny && det m
      && match cs with [] => true | [c] => good c (lastp (Repeated m k []) pv) | _ => false end
  | Group m i cs =>
      Nat.ltb i G &&
      match cs with
      | [] => good m pv
      | [c] =>
          noinj c &&
          match m with
          | Greedy x mn mx [] =>
              greedy_item x mn mx && good x PAny && clean x PAny && accins x && good c PAny
              && clean c PAny && opt_good x c mn mx pv
          | Lazy x mn mx [] =>
              good x PAny && det x && nonnull x && accins x && good c PAny
          | _ => good m pv && noinj m && good c (lastp m pv) && (det m || total c)
          end
      | _ => false
      end
  | Negated m => is_some (uset m) && good m PAny && clean m PAny && accins m
  end.
End Good.

(** ** The optimiser keeps the meaning *)
(** What is known about what follows: it always succeeds, it needs the end of the text or a
    character of this set, or nothing. *)
Inductive follow : Type := FTot | FSet (P : cset) | FAny.
(** What [n] followed by something that needs the end or a character of [S] needs. *)
Fixpoint efirst (n : node) (S : option cset) : option cset :=
  let kids cs := match cs with [] => S | _ => ounions (map (fun c => efirst c S) cs) end in
  match fst (pre n) with
  | P :: _ => Some P
  | [] =>
      match n with
      | Term TEnd => Some (Z.eqb c_nl)
      | Term TStart => S
      | Term _ | Negated _ | Repeated _ _ _ => None
      | SimpleV cs => kids cs
      | Simple m cs | Group m _ cs => efirst m (kids cs)
      | Greedy m _ _ cs | Lazy m _ _ cs | Possessive m _ _ cs => ounion (hd_error (fst (pre m))) (kids cs)
      end
  end.
Definition efk (cs : list node) (S : option cset) : option cset :=
  match cs with [] => S | _ => ounions (map (fun c => efirst c S) cs) end.
Definition fset (F : follow) : option cset := match F with FSet P => Some P | _ => None end.
Definition folk (cs : list node) (F : follow) : follow :=
  match cs with
  | [] => F
  | _ => match efk cs (fset F) with
         | Some P => FSet P
         | None => if totk cs then match F with FTot => FTot | _ => FAny end else FAny
         end
  end.
(** Giving up repetitions of [m] cannot help what follows. *)
Definition no_retry (m : node) (F : follow) (tot_ok : bool) : bool :=
  match F with
  | FTot => tot_ok
  | FSet P => det m && first_disj P m
  | FAny => false
  end.
(** What can follow one iteration of a repetition ([m'] is the optimised [m]). *)
Definition in_rep (mn mx : N) (m m' : node) (F : follow) : list follow :=
  if nonnull m && nonnull m' then
    if ((mn <=? 1) && (mx <=? 1))%N then [F]
    else match F, fst (pre m) with
         | FTot, Q :: _ => if (mn <=? 1)%N then [FTot] else [FTot; FSet Q]
         | FSet P, Q :: _ => [FSet (fun x => P x || Q x)]
         | _, _ => [FAny]
         end
  else [FAny].
Fixpoint optok (n : node) (inj : list node) (F : follow) {struct n} : bool :=
  let kids cs := forallb (fun c => optok c [] F) cs in
  match n with
  | Term _ => true
  | SimpleV cs => match cs with [c] => optok c inj F | _ => kids cs end
  | Simple m cs => match cs with [] => optok m inj F | _ => optok m inj (folk cs F) && kids cs end
  | Greedy m mn mx cs =>
      kids cs
      && (if adm_empty (adm_inter (nadm m) (extract_adm (map nadm (cs ++ inj))))
          then (forallb (optok m []) (in_rep mn mx m (optimize m []) FTot) && no_retry m (folk cs F) true)
               || (forallb (optok m []) (in_rep mn mx m (optimize m []) (folk cs F)) && no_retry (optimize m []) (folk cs F) true)
          else forallb (optok m []) (in_rep mn mx m (optimize m []) (folk cs F)))
  | Lazy m mn mx cs =>
      kids cs
      && (if adm_empty (adm_inter (nadm n) (extract_adm (map nadm (cs ++ inj))))
          then (forallb (optok m []) (in_rep mn mx m (optimize m []) FTot) && no_retry m (folk cs F) false)
               || (forallb (optok m []) (in_rep mn mx m (optimize m []) (folk cs F)) && no_retry (optimize m []) (folk cs F) false)
          else forallb (optok m []) (in_rep mn mx m (optimize m []) (folk cs F)))
  | Possessive m mn mx cs => forallb (optok m []) (in_rep mn mx m (optimize m []) FTot) && kids cs
  | Repeated m k cs => forallb (optok m []) (in_rep k k m (optimize m []) (folk cs F)) && kids cs
  | Group m _ cs => optok m (cs ++ inj) (folk cs F) && kids cs
  | Negated m => optok m [] FAny
  end.
