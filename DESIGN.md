# Formal model of cmargiotta/e-regex in Rocq (Coq 8.16.1)

e-regex is a C++20 header-only library: the pattern is parsed and optimised by
templates at compile time and the resulting type is executed at run time.  The
model turns every template metafunction into a Gallina function on data (the
template "types" become values of an inductive type) and every run-time `match`
function into a state transformer with an explicit undefined-behaviour outcome.

## 1. Files (rocq/theories), in build order

| file | contents |
|---|---|
| **model** | (definitions only; each cites file and lines of /repo) |
| `Base.v`       | characters, counted loops, 32-bit arithmetic |
| `Text.v`       | numbers, hex and octal conversion, lexer (`tokenizer.hpp`), `balanced`, `split`, `extract_delimited_content` |
| `Ast.v`        | node and terminal types, admitted sets, `meta`, `groups`, `next_group_index`, `optimize`, `expression` |
| `Builder.v`    | tree builder (`operators/*.hpp`, `tree_builder/*.hpp`) and `compile` = lex, build, optimise to the fixed point |
| `Engine.v`     | run-time `match` of every terminal and node, with the buffer and undefined behaviour |
| `Api.v`        | `match_result` (constructor, `next`, accessors, range-for), `regex` (`is_independent`, `get_expression`, `groups`) |
| `TokIter.v`    | `tokenization::iterator` (definitions, `++`, `==`, `bool`, range-for) |
| `Strings.v`    | `static_string`, `pack_string`, tuple helpers, `literal_string_view` |
| `RepoTests.v`  | the repository's own test-suite replayed on the model by computation (validation, not theorems) |
| **specification** | (independent of the model: refers to `Base.v` only, except `Tree.v`) |
| `Spec.v`       | surface syntax `rx`, printer `show`, language `lang`, reference backtracking semantics `sem`/`match_at`, `search`, `find_all` |
| `TextSpec.v`   | tokens, nesting, bracket content, numerals |
| `SpecTok.v`    | what a tokenizer should produce (`tokens`) |
| `SpecFields.v` | delimited fields, how they divide a text, the captured parts |
| `SpecChoice.v` | fields that may overlap or be lazy, and which division of a text is preferred |
| `SpecAlts.v` | alternatives that are lists of fields, and the items of a text |
| `SpecLL.v` | patterns (groups and repetitions nested at will) in which the next character decides what to do; leftmost-longest texts; divisions along a pattern |
| `SpecLLEnd.v` | the same for patterns that end with `$` |
| `SpecCalm.v` | `calm`: a syntactic condition for memory safety (C19, C20, C40) |
| `SpecSure.v` | `honest`, `honest_d`: syntactic conditions for soundness alone; `cut_of`: what a sequence of tokens is (C18, C21, C29, C38, C42, C47) |
| `SpecSmall.v` | `small`: a syntactic condition for progress (C30, C31, C40, C50) |
| `SpecLate.v` | `late`: captures only where nothing can fail any more (C36) |
| `SpecSpell.v` | `same`: two patterns are spellings of the same one (C60) |
| `SpecGroup.v` | `strip`: a pattern with the redundant (?:...) left out; p\|q and (?:q) as patterns (C71) |
| `SpecRun.v` | `leads`: the characters that may begin a pattern; `apart x s`: none may begin both (C72) |
| `SpecPut.v` | `put p s`: a sequence in front of another; `among l b t`: a branch among other top-level alternatives (C66, C70, C72, C73) |
| `SpecOnce.v` | `steady`, `bare`: what may stand in front of x{1} for it to be x (C74) |
| `SpecFuse.v` | `fused r r'`: (?:y1\|...\|yn) written [i1...in], or a redundant group left out, anywhere (C75, C71) |
| `SpecCalmEnd.v` | `calm_d`: the `calm` condition for patterns with `$` behind every branch (C19, C20, C47) |
| `SpecMunch.v` | maximal munch over the languages of the definitions (C52, C39) |
| `SpecParts.v` | fields and repeated groups of fields, each repetition beginning with a separator |
| `SpecLex.v` | lexers whose definitions are such fields: maximal munch |
| `Tree.v`       | the tree a pattern should be parsed to; the slot numbering the builder really uses (`renumber`) |
| **proofs** | |
| `SpecProofs.v`, `SpecEnd.v` | `sem` and `lang` agree; matches at the end of the text |
| `TextProofs.v`, `AstProofs.v`, `BuilderProofs.v`, `ParseProofs.v` | text layer, sets/meta/optimiser, group indices, parse (show r) = tree r |
| `EngineRel.v`, `ApiProofs.v` | relational invariants for every node; histories of a result object, range-for |
| `Den.v`, `Checker.v`, `CheckerProofs.v` | priority-ordered match semantics of trees; the decidable analyses; their correctness |
| `EngineProofs.v`, `EngineOk.v`, `EngineGood.v`, `EngineMark.v`, `Marker.v`, `EngineMain.v` | the matcher of a `good` tree finds the first way to match; loops over several-character items whose first character marks them (`marker`) |
| `OptProofs.v`  | the optimiser keeps the first way to match on `optok` trees |
| `Runs.v`, `Scan.v`, `Supported.v`, `Main.v`, `Find.v`, `Sound.v`, `Captures.v` | the search loop, the fragments, the public API on them |
| `Mono.v`, `Safe.v`, `Anchor.v`, `MinSize.v`, `First.v`, `Heads.v`, `Families.v`, `Tok.v`, `End.v`, `EndD.v`, `Expr.v`, `Roundtrip.v`, `TokSafe.v`, `Fields.v`, `FieldsPre.v`, `Parts.v`, `PartsSem.v`, `PartsPre.v`, `ChoiceSem.v`, `Choice.v`, `OptChoice.v`, `LL.v`, `LLSem.v`, `LLCap.v`, `LLEnd.v`, `Calm.v`, `Sure.v`, `SureSyn.v`, `SureApi.v`, `Small.v` | progress, memory safety, `^`, minimum size, first sets, pattern families, tokenizer, `$`, get_expression, delimited fields, repeated parts, overlapping fields, one character of lookahead, the syntactic conditions `calm`, `honest`, `small` |
| `Refuted.v`    | counterexamples: properties the code does not have |
| `Properties*.v`| the theorems of MANIFEST.json, each followed by `Print Assumptions` and by a concrete case |

## 2. What is modelled, and how

* A `char` is a `Z` (signed 8 bit, -128..127); strings are `list Z`.
* Tokens are strings; a tuple of tokens is a list.  A template instantiation
  that does not compile (no matching specialisation, failed static_assert,
  ambiguous specialisation) is `None`.
* `node` mirrors `nodes::simple/greedy/lazy/possessive/repeated/group/negated_node`
  and the terminals.  `simple<void, cs...>` is `SimpleV cs`.
* Counts (`unsigned`) are `N`, with 32-bit wrap-around where the code computes.
* The query lives in a larger buffer `pre ++ query ++ post` (`env_of pre w post`).
  Pointers are offsets into the buffer.  Forming a pointer outside
  `[buffer, buffer+size]`, or reading outside `[buffer, buffer+size)`, is the
  outcome `UB`.  (This is the C++ rule; forming one-before-begin is UB too.)
* `match_result_data` is the record `st` (start, end, groups, accepted).
* Loops bounded by a C++ `unsigned` run on `N` through a binary iterator
  with early exit, so that `{4000000000}` computes.  `next()` (a `while` over the
  query, which can diverge) has fuel and a distinct `RFuel` outcome.
* `literal_string_view` is modelled twice: as offsets into one buffer (`Api.view`,
  used by the engine) and as addresses in a memory with the comparison loop
  (`Strings.v`); `C50_comparison` proves that the two comparisons agree.

Modelled files: everything under `src/` except the following.

Not modelled: compile-time cost limits (template depth); `Char_Type` other than
`char`; `std::tuple_element` (its type is always `string_view`); `tokenization/result.hpp` (entirely commented
out); `benchmark/`; code that does not compile when used (`match_result::size`,
`match_result::operator=(bool)`, and patterns with `\D \W \S \N`, whose negated terminals
do not compile: `compile` gives `None`, see `tok_compiles` in Ast.v);
copy/move/assignment of result and iterator objects (values in the model).

## 3. Properties: how each is treated

Where the property is false of the code a theorem `..._refuted` exhibits a concrete
pattern and query computed on the model; then a theorem with suffix `_partial` proves
the property on an explicit, decidable fragment.  The fragments:

* `wf r` (Spec.v): `r` is written with the syntax the library documents and without the
  spellings it misreads (brackets in classes, `\s`-like escapes in classes, letters in hex
  digits, ...).  All parsing theorems are for `wf`.
* `opt_small n` (Mono.v): optional fixed-size items `x?` have size at most one (the code
  backs up by the size of the item even if the item did not match).  Gives progress,
  termination, no overlap, for every such pattern string.
* `safe` (Safe.v): syntactic class for memory safety and independence of surroundings.
* `exact r` (Supported.v): `good` (Checker.v: every place where the matcher is not a faithful
  backtracking search - greedy back-scan, injected children, failed branches that move the
  position, negated sets - is used where that makes no difference) and `optok` (every greedy to
  possessive rewriting is harmless).  On `exact` patterns a match is the one of the reference
  semantics at the position where the matcher was started.
* `supported r`: `exact` plus a condition on the root that the search loop of `next()` skips no
  match.  On `supported` patterns the API is completely specified by `search`/`find_all`.
  Decidable: `vm_compute` decides it for a given pattern; `Families.v` proves it for families
  of unbounded size, and those corollaries (C26, C27, C44-C46) do not mention the fragment.
* `captures_ok r`: the slots are numbered by opening parenthesis and hold the chosen match.
* `exact_d`, `supported_d` (EndD.v): the same for `r$`.
* `defs_ok` (PropertiesTok.v): tokenizer definitions that are `exact` once `^` is prepended.

| id | model part | proof method |
|---|---|---|
| C01 | lexer | induction on the pattern |
| C02 | split/balanced | induction on tokens; stack-neutrality of well-nested pieces; refuted for classes containing brackets |
| C03 | extract_delimited | induction with the skip counter |
| C04 | numbers | induction on digits |
| C05 | hex | finite digit table lifted to all queries; letters refuted |
| C06 | octal | same |
| C07 | terminals | case analysis per terminal, for all chars/positions |
| C08 | classes | induction on the item list; `\s` inside classes refuted |
| C09 | builder | induction on surface syntax: build (lex (show r)) = tree r |
| C10 | groups | induction on the builder |
| C11 | group indices | invariant of the builder: every index < groups |
| C12 | numbering | refuted; proved for `captures_ok` |
| C13,C14 | optimize | structural induction on nodes |
| C15 | optimize + engine | refuted; first way to match kept under `optok`; for lists of runs each followed by one character the domain is read off the pattern (OptChoice.v) |
| C16 | is_independent | refuted; proved for patterns described by how they are written (`heads`, Heads.v) and whenever the computed first sets are complete (`first_ok_rx`) |
| C17 | admitted sets | induction on ascending lists |
| C18 | meta | from soundness (`exact`, `honest`), induction |
| C19,C20 | engine | two-run relational invariant on `safe` trees; a condition on the pattern as written (`calm`, `SpecCalm.v`) that implies `safe` for what it compiles to (`Calm.v`); the same with `$` behind every branch, when the byte behind the query is not a newline (`calm_d`, `SpecCalmEnd.v`, `CalmEnd.v`); refuted for `$` before a newline or unreadable memory, and for multi-byte escapes |
| C21-C25 | engine vs Spec | simulation between engine and reference semantics on `exact`/`supported`; C21 also for `honest` patterns (a condition on the pattern as written, `SpecSure.v`), by induction on the compiled tree (`Sure.v`: whatever is accepted is in the language, a failure of what is retried leaves the position); refuted outside |
| C26,C27,C44,C45,C46 | families | corollaries stated without the fragment machinery |
| C28 | `^` | every branch anchored: any accepted match starts at the query's beginning; line starts refuted |
| C29,C47 | `$` | every pattern: a match of r$ ends at a line end; `supported_d`/`exact_d`: leftmost/iff; with conditions on the pattern as written (`SpecLLEnd.v`; every choice decided by the next character, up to `$`): `LLEnd.v` proves `look_d` ⇒ `exact_d` (with `opens_all`: `supported_d`) and that the captures are the unique division; `honest_d`: soundness alone; refuted in part |
| C30-C33 | match_result | induction on the distance to the end; for `small` patterns (condition on the pattern as written, `SpecSmall.v`), whose compiled trees are shown to be `opt_small` (`Small.v`); nullable patterns and optional items of two or more characters refuted (next() can go back) |
| C34,C37 | match_result | case analysis; history relation |
| C35,C36 | captures | refuted in general; proved on the fragment; C36 also for `late` patterns, from an invariant of every node (a failed attempt leaves the captures alone, `Late.v`) |
| C38-C42 | tokenization | induction on remaining input; C38, C42 also: whatever tokens `honest` definitions give are a cut of the input (`cut_of`), and with `calm` ones the loop ends and is defined (`PropertiesCalmEnd.v`); alternation definitions refuted |
| C43 | get_expression | refuted in general; the returned text compiles to the same matcher for patterns without (?:...) whose characters need no escape (`Roundtrip.v`: induction over the pattern, the rewritten pattern is constructed along the way); the text is unchanged when nothing is rewritten (`Expr.v`) |
| C48 | literal_string_view | induction on the text, addresses |
| C49 | static_string, pack_string | list algebra of array copies |
| C50 | tokenizer iterator == | strict progress along every walk (compiled definitions `opt_small`, or `small` as written); reduction of == to C48 |
| C51 | delimited fields `^(\d{4})-(\d{2})$` | fields, their division of a text and the captured parts are specified in `SpecFields.v` without the model; every such pattern satisfies the conditions of C47 and C35 (induction on the list of fields, `Fields.v`); the division is unique; without `$` the first outcome of the specification is the longest (`FieldsPre.v`: separated runs leave no choice except in the last field), so the match is the longest front |
| C52 | lexers of simple tokens | maximal munch is specified in `SpecLex.v` as a relation between texts and lists of tokens, in terms of fields only; every definition satisfies the condition of C39 (`FieldsPre.v`), the length of its match is that of the longest front; the relation is functional; the same for definitions that need one character of lookahead, over their languages (`SpecMunch.v`, `PropertiesMunch.v`), refuted for `(?:a\|ab)c` |
| C53 | repeated parts `^\w+(?:\.\w+)*@\w+(?:\.\w+)+$` | parts and the division of a text are specified in `SpecParts.v`; every such pattern satisfies the conditions of C47 and C35: by induction on the list of parts, with the admitted characters and the first set of the rest as invariants (`Parts.v`: a repetition stays greedy only before `$`, and is then restored exactly); the division is unique (`PartsSem.v`); without `$` the first outcome is the longest one, because the set of what may follow a run or a repetition is disjoint from what may continue it (`PartsPre.v`) |
| C54 | which division is chosen: `^(.*)\.(\w+)$`, `^(.*?)=(.*)$`, `<(.+?)>` | the preference order on divisions is specified in `SpecChoice.v` (lexicographic, longer first, shorter first for lazy fields); `ChoiceSem.v`: the outcomes of one field are sorted by preference, so by induction the first outcome from which the rest succeeds is the preferred division; `Choice.v`: every such pattern satisfies the conditions of C47, C21 and C35 (the optimiser makes a run possessive only if the sets it compares are disjoint, which for `choice_ok` lists implies that giving back cannot help; otherwise the run is restored exactly because a single steady character follows; every capture is stored anew by a later success). Outside of the condition a captured character after an overlapping run, and a lazy run at the end without `$`, are refuted |
| C55 | searching for items of several kinds: `"[^"]*"\|#.*\|[a-z]+\|\d+` | `SpecAlts.v`: the item at a position (first alternative that fits, preferred division) and the items of a text; `Alts.v`: every alternative is clean, so the whole tree is `supported`; by induction over the alternatives the first outcome is the item, over the search the visited views are the items; refuted for an alternative that opens with a run |
| C56 | one character of lookahead, e.g. `a(?:b(?:c\|d)?)*e`, `#(\d{4})-(\d{2})` | `SpecLL.v`: first/follow sets of the pattern as written, the condition `one_look`, and the leftmost-longest texts of the language; `LL.v`: by induction on the pattern, the optimised tree is `good` and the optimiser's changes are harmless, so `one_look` implies `exact` (with `opens`: `supported`); `LLSem.v`: of the outcomes the first is the longest, and the division is unique; `LLCap.v`: captures; refuted for two characters of lookahead |
| C57 | structured bindings (tuple_size, get<N>) | from C11 (capture array) and C51 (fields); a single-character pattern compiles to a terminal without `groups`, so the binding does not compile (refuted) |
| C58 | match_result, range-for | C19 (`calm`), C21 (`honest`), C30 and C31 (`small`) put together, by induction on the distance to the end |
| C59 | hex, octal, exact_matcher | the pattern compiles to one exact matcher; induction on the bytes (failed comparison restores the position) and on the distance to the end; refuted for letters, odd digits, and a continuing byte behind the query (`Bytes.v`) |
| C60 | builder, optimiser | the optimiser depends on a leaf only through its optimised form and its meta data (`Spell.v`); spellings (also a class written as the choice of its items) give trees with equal optimised leaves, by induction on the pattern |
| C61 | round brackets, optimiser | the parsed trees differ by one wrapper which the optimiser removes (`Wrap.v`); refuted for captures in several alternatives |
| C62 | group node, next() | lock-step relation between the two runs (`mt_rel` of EngineRel.v with a relation that fixes the captures) |
| C63 | start anchor, next() | an attempt of ^p is an attempt of p at the beginning of the query and restores the position; captures left by failed attempts have no influence (`mt_grp`) |
| C64 | match_result::next | a rejected reachable result has its end at or after the query's end, so the loop of next() is not entered and the captures are reset |
| C65 | dfs over alternatives | the compiled b\|r is the compiled b followed by the other alternatives, with more capture slots (`mt_pad`); an accepted attempt is returned as is |
| C66 | repeated | the loops compose (`Laws.v`: `reps_add`), matchers equal at every state give equal results for every call |
| C67 | whole engine, two memories | `Shift.v`: a simulation between two runs in memories that agree from some place on, up to a shift of the pointers; with the whole smaller memory as that place it needs no condition on the pattern.  C20 for `small` patterns: the place is the beginning of the query |
| C68 | next(), constructor | same simulation with two queries that end at the same place in the same memory; refuted for later attempts (next() goes on one further than the constructor) |
| C69 | tokenizer iterator, two memories | `TokShift.v`: the simulation of `Shift.v` carried through construction, separators, longest-token choice and increments; no condition on the definitions |
| C70 | repeated, greedy, possessive | the loops compose (`Ranges.v`); the optimiser decides greedy or possessive independently of the counts; without an upper bound the loop ends before the memory does (every element moves forward); refuted for the greedy x? |
| C71 | round brackets, optimiser, dfs | `strip` (`SpecGroup.v`) leaves the groups out; the optimiser depends on a tree only up to wrappers with one part (`Regroup.v`: induction on nodes, then on the pattern); trying alternatives is associative; with captures (`C71_nested_groups`): the same congruence as C75 |
| C72 | optimize of greedy and lazy, admission sets | the set of first characters the library computes for an element is within the set it matches (`may_adm`), that of a pattern within those of its first parts (`leads_adm`, by induction on the pattern), so the intersection is empty and the three policies become one node (`Apart.v`); lazy runs that may be empty refuted |
| C73 | greedy, lazy, possessive, repeated with equal bounds | the loops have no optional turn left (`Inside.v`); in the middle of a sequence: matchers are used only through their answers (`Middle.v`: `mt_ceq`, induction on nodes), the optimiser reads only the first characters of what follows (`opt_inj`), so tails with the same first characters, captures and answers replace each other behind any p and in any top-level alternative (`tails_put`, `put_same`: inductions on p and on the alternatives); the same congruence gives the `_inside` theorems of C66 and C70; inside an optional group refuted |
| C74 | repeated with count 1, simple, the search | y{1}s and ys differ only in the position a failure leaves (`near`, `Once.v`), which an unquantified part in front resets (`near_simple`) and the end of a sequence never shows; refuted elsewhere (`C74_refuted`): the search resumes from that position | partial |
| C75 | the builder on brackets and parentheses, the optimiser, first-character sets, capture numbering | the two syntax trees differ only in wrappers the optimiser removes (`Fuse.v`: `eqv` nodes have the same first characters, least sizes and optimised forms; congruence by mutual induction on the pattern, `fused_parts`), so the compiled regexes are equal | proved |

Concrete cases: beside each theorem an `Example ..._case` shows inputs that satisfy the
hypotheses.

## 4. Trusted base

* Coq's kernel (8.16.1), including `vm_compute`.
* The reading of the C++ given by the model (each definition cites file and lines), checked
  against the repository's test-suite by `RepoTests.v`.
* C++ semantics assumptions: `char` is signed 8 bit, `unsigned` 32 bit, `int` 32 bit.
* Axioms: none.  Every theorem of MANIFEST.json is followed by `Print Assumptions`, which
  prints "Closed under the global context" for all of them.  `coqchk`-style listings of the
  loaded library files also mention `Coq.ssr.ssrunder.Under_rel.*`: these are the parameters of
  a module of the standard library that `lia`/`ZifyBool` load; no theorem uses them.

## 5. Tests against wrong programs

`seeded/LOG.jsonl`: one line per edit of the model (scratch copy), with the theorems that no
longer prove.  The procedure rebuilds file by file, replaces each failing proof by `Admitted`
(in the scratch copy), and asks `Print Assumptions` which claimed theorems depend on one.
