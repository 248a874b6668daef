{
 "claims": [
  {
   "property": "C01",
   "status": "proved",
   "theorems": [
    "C01_lexing_loses_nothing"
   ],
   "note": "every pattern string"
  },
  {
   "property": "C02",
   "status": "proved",
   "theorems": [
    "C02_split_top_level"
   ],
   "note": "token level, as stated. Boundary: brackets inside a class are counted as brackets (C02_split_refuted)."
  },
  {
   "property": "C03",
   "status": "proved",
   "theorems": [
    "C03_extract_matching_closer"
   ],
   "note": ""
  },
  {
   "property": "C04",
   "status": "proved",
   "theorems": [
    "C04_counts_decimal"
   ],
   "note": ""
  },
  {
   "property": "C05",
   "status": "partial",
   "theorems": [
    "C05_hex_exactly",
    "C05_hex_partial",
    "C05_hex_refuted"
   ],
   "note": "exactly which \\xHH work: those of two decimal digits (iff); hex letters are refuted"
  },
  {
   "property": "C06",
   "status": "proved",
   "theorems": [
    "C06_octal"
   ],
   "note": ""
  },
  {
   "property": "C07",
   "status": "proved",
   "theorems": [
    "C07_escapes"
   ],
   "note": "For \\s the position is the beginning of the text (^\\s); as an unanchored search \\s skips characters (C22_completeness_refuted)."
  },
  {
   "property": "C08",
   "status": "partial",
   "theorems": [
    "C08_class_partial",
    "C08_class_refuted"
   ],
   "note": "Proved except for \\s inside negated classes / before another item, and except unanchored search with a negated class."
  },
  {
   "property": "C09",
   "status": "proved",
   "theorems": [
    "C09_precedence",
    "C09_unambiguous"
   ],
   "note": "every well-formed pattern of the Spec grammar"
  },
  {
   "property": "C10",
   "status": "proved",
   "theorems": [
    "C10_groups"
   ],
   "note": "every well-formed pattern"
  },
  {
   "property": "C11",
   "status": "proved",
   "theorems": [
    "C11_captures_in_bounds"
   ],
   "note": ""
  },
  {
   "property": "C12",
   "status": "partial",
   "theorems": [
    "C56_captures_partial",
    "C12_numbering_partial",
    "C12_numbering_refuted"
   ],
   "note": "one_look patterns with captures outside of repetitions, alternatives and other captures (conditions on the pattern as written); supported patterns with captures_ok; refuted in general"
  },
  {
   "property": "C13",
   "status": "proved",
   "theorems": [
    "C13_optimiser_terminates"
   ],
   "note": ""
  },
  {
   "property": "C14",
   "status": "proved",
   "theorems": [
    "C14_optimiser_keeps_interface"
   ],
   "note": ""
  },
  {
   "property": "C15",
   "status": "partial",
   "theorems": [
    "C15_overlap_partial",
    "C15_optimise_partial",
    "C15_optimise_refuted"
   ],
   "note": "(1) ^ patterns written as a list of uncaptured runs and characters, each run followed by a single character, overlapping or not: domain read off the pattern; (2) patterns whose parsed and optimised trees are both run faithfully (good/accins/clean, optok); refuted in general"
  },
  {
   "property": "C16",
   "status": "partial",
   "theorems": [
    "C16_symmetric_partial",
    "C16_plain_partial",
    "C16_independent_partial",
    "C16_independent_refuted"
   ],
   "note": "patterns described syntactically (heads: one-item or complemented classes, skipping only by ?, *, {0,m}, alternatives only behind one that can be empty; 7-bit text), and all patterns whose first-character sets are computed correctly (first_ok_rx); refuted in general; the answer is symmetric for all patterns"
  },
  {
   "property": "C17",
   "status": "proved",
   "theorems": [
    "C17_first_sets_are_sets"
   ],
   "note": ""
  },
  {
   "property": "C18",
   "status": "partial",
   "theorems": [
    "C18_honest_partial",
    "C18_min_size_partial",
    "C18_min_size_refuted"
   ],
   "note": "lower bound of the language for every well-formed pattern; of results for honest (syntactic) and for exact patterns; refuted in general"
  },
  {
   "property": "C19",
   "status": "partial",
   "theorems": [
    "C19_calm_end_partial",
    "C19_calm_partial",
    "C40_safe_partial",
    "C19_memory_partial",
    "C19_memory_refuted"
   ],
   "note": "well-formed calm patterns (a condition on the pattern as written: greedy repetitions of groups, \\s or complemented classes are followed by something that begins differently), without $ (one byte must exist behind the query) or with $ behind every branch (that byte must not be a newline); safe compiled patterns (also inside the tokenizer); refuted in general"
  },
  {
   "property": "C20",
   "status": "partial",
   "theorems": [
    "C20_before_partial",
    "C20_calm_end_partial",
    "C20_calm_partial",
    "C20_surroundings_partial",
    "C20_surroundings_refuted"
   ],
   "note": "well-formed calm patterns without or with $ (as C19) or safe compiled patterns; refuted in general; small patterns (as written, C30): what precedes the query has no influence; C67: nor has memory added around, for all patterns"
  },
  {
   "property": "C21",
   "status": "partial",
   "theorems": [
    "C21_honest_partial",
    "C21_soundness_partial",
    "C21_soundness_refuted"
   ],
   "note": "well-formed honest patterns (a condition on the pattern as written: greedy repetitions are followed by something that begins differently or that keeps its place, alternatives but the last keep their place): every accepted result, also after next(), is a text of the pattern; also every pattern accepted by the test `exact`; refuted in general"
  },
  {
   "property": "C22",
   "status": "partial",
   "theorems": [
    "C56_search_partial",
    "C22_completeness_partial",
    "C22_completeness_refuted"
   ],
   "note": "one_look patterns with a clean opening (conditions on the pattern as written, C56); supported patterns; match at the beginning for exact ones; refuted in general"
  },
  {
   "property": "C23",
   "status": "partial",
   "theorems": [
    "C56_search_partial",
    "C23_leftmost_partial",
    "C23_leftmost_refuted"
   ],
   "note": "one_look patterns with a clean opening (conditions on the pattern as written, C56); supported patterns; refuted in general"
  },
  {
   "property": "C24",
   "status": "partial",
   "theorems": [
    "C56_report_partial",
    "C24_priority_partial",
    "C24_lazy_refuted"
   ],
   "note": "one_look patterns (conditions on the pattern as written, C56); exact patterns; refuted in general"
  },
  {
   "property": "C25",
   "status": "partial",
   "theorems": [
    "C56_report_partial",
    "C25_alternatives_partial",
    "C25_alternatives_refuted"
   ],
   "note": "one_look patterns (conditions on the pattern as written, C56); exact patterns; refuted in general"
  },
  {
   "property": "C26",
   "status": "proved",
   "theorems": [
    "C26_literal"
   ],
   "note": ""
  },
  {
   "property": "C27",
   "status": "partial",
   "theorems": [
    "C27_run_partial",
    "C27_run_refuted"
   ],
   "note": "Proved for every element whose failed test does not move; the others: soundness and the anchored form."
  },
  {
   "property": "C28",
   "status": "partial",
   "theorems": [
    "C28_anchor_partial",
    "C28_line_start_refuted"
   ],
   "note": "beginning of the query, all anchored patterns; 'line start' refuted"
  },
  {
   "property": "C29",
   "status": "partial",
   "theorems": [
    "C29_honest_partial",
    "C29_lookahead_partial",
    "C29_search_partial",
    "C47_validate_partial",
    "C29_end_partial",
    "C29_end_anchor_refuted"
   ],
   "note": "every pattern: a match of r$ ends at a line end; honest_d (syntactic): what is accepted is a text of r up to a line end; look_d with a single character at the beginning: the leftmost one is found; also supported_d / exact_d; that the line feed is not part of the match is refuted"
  },
  {
   "property": "C30",
   "status": "partial",
   "theorems": [
    "C58_find_all_partial",
    "C30_small_partial",
    "C30_no_overlap_partial",
    "C30_no_overlap_refuted"
   ],
   "note": "patterns (also with $) in which, as written, every greedy x? is of one character or followed by something that begins differently; also all compiled patterns whose optional fixed-size items have size at most 1; refuted with larger ones; whole traversals: C58"
  },
  {
   "property": "C31",
   "status": "partial",
   "theorems": [
    "C58_find_all_partial",
    "C31_small_partial",
    "C31_runs_out_partial",
    "C31_terminates_partial",
    "C31_terminates_refuted"
   ],
   "note": "terminates: patterns (also with $) in which, as written, every greedy x? is of one character or followed by something that begins differently; also all compiled patterns whose optional fixed-size items have size at most 1; running out: supported patterns; refuted in general; whole traversals: C58"
  },
  {
   "property": "C32",
   "status": "partial",
   "theorems": [
    "C56_search_partial",
    "C32_enumerates_partial",
    "C32_enumerates_refuted"
   ],
   "note": "one_look patterns with a clean opening (conditions on the pattern as written, C56); supported patterns that do not match the empty text; refuted in general (also by C30_no_overlap_refuted)"
  },
  {
   "property": "C33",
   "status": "proved",
   "theorems": [
    "C33_range_for_is_next",
    "C33_visits_unique"
   ],
   "note": ""
  },
  {
   "property": "C34",
   "status": "proved",
   "theorems": [
    "C34_accessors_agree"
   ],
   "note": ""
  },
  {
   "property": "C35",
   "status": "partial",
   "theorems": [
    "C56_captures_partial",
    "C35_validate_captures_partial",
    "C35_captures_partial",
    "C35_captures_exact_partial",
    "C35_captures_refuted"
   ],
   "note": "one_look patterns with captures outside of repetitions, alternatives and other captures (conditions on the pattern as written); supported / exact patterns; also for r$ (exact_d); refuted in general"
  },
  {
   "property": "C36",
   "status": "partial",
   "theorems": [
    "C36_late_partial",
    "C36_failed_captures_partial",
    "C36_failed_captures_refuted"
   ],
   "note": "late patterns (a condition on the pattern as written: in every branch only the last item captures, apart from one item behind it that may be missing), every query, buffer and number of next(); also supported patterns with gcl; refuted in general"
  },
  {
   "property": "C37",
   "status": "proved",
   "theorems": [
    "C37_history_independent"
   ],
   "note": ""
  },
  {
   "property": "C38",
   "status": "partial",
   "theorems": [
    "C38_calm_cut_partial",
    "C42_honest_partial",
    "C38_cut_partial",
    "C42_anchor_refuted"
   ],
   "note": "definitions whose ^-prefixed pattern is exact and anchored in every branch: exactly the tokens of the specification; honest definitions (syntactic): whatever is shown is an ordered cut of the input, and if also calm the range-for ends and does nothing undefined; refuted for b|c"
  },
  {
   "property": "C39",
   "status": "partial",
   "theorems": [
    "C52_munch_partial",
    "C39_munch_partial",
    "C39_longest",
    "C39_munch_refuted"
   ],
   "note": "definitions whose ^-prefixed pattern is exact and anchored: range-for shows exactly the tokens of SpecTok.v; with one character of lookahead: the maximal munch over the languages; refuted for (?:a|ab)c"
  },
  {
   "property": "C40",
   "status": "partial",
   "theorems": [
    "C50_small_partial",
    "C40_calm_partial",
    "C40_safe_partial",
    "C40_progress_partial",
    "C40_terminates_partial",
    "C50_iterators_refuted"
   ],
   "note": "calm (syntactic) or safe definitions: memory safety, at most n ordered disjoint non-empty tokens, end reached; progress of every increment: all definitions whose optional fixed-size items have size at most 1; with larger ones it does not terminate (refuted)"
  },
  {
   "property": "C41",
   "status": "partial",
   "theorems": [
    "C41_calm_partial",
    "C41_exhausted_partial",
    "C41_exhausted_refuted"
   ],
   "note": "all definitions: an increment that returns leaves it invalid; calm (syntactic) or exact definitions: it returns. With b|$ the increment reads a null pointer (refuted)"
  },
  {
   "property": "C42",
   "status": "partial",
   "theorems": [
    "C38_calm_cut_partial",
    "C42_honest_partial",
    "C42_anchored_partial",
    "C42_anchor_refuted"
   ],
   "note": "all definitions whose branches are all anchored after ^ is put in front: a token comes from a match of its definition at the front of the rest, behind a separator except at the very beginning; honest definitions (syntactic): the tokens shown cut the input into texts of the definitions; refuted for definitions with |"
  },
  {
   "property": "C43",
   "status": "partial",
   "theorems": [
    "C43_roundtrip_partial",
    "C43_roundtrip_end_partial",
    "C43_expression_partial",
    "C43_roundtrip_refuted",
    "C43_expression_refuted"
   ],
   "note": "writable patterns: the returned text compiles to the same matcher; patterns in which nothing is rewritten: it is the pattern text; refuted in general"
  },
  {
   "property": "C44",
   "status": "partial",
   "theorems": [
    "C44_pointwise_partial",
    "C44_pointwise_refuted"
   ],
   "note": "Full for anchored sequences and for searches whose first element is neither \\s nor a class with \\s nor negated; \\s inside a class only last. The rest is refuted."
  },
  {
   "property": "C45",
   "status": "partial",
   "theorems": [
    "C45_repeat_partial",
    "C45_repeat_refuted"
   ],
   "note": "Full except n = 2^32-1 and unanchored search with an element that moves on failure. Search with a negated class is refuted."
  },
  {
   "property": "C46",
   "status": "proved",
   "theorems": [
    "C46_scanner"
   ],
   "note": ""
  },
  {
   "property": "C47",
   "status": "partial",
   "theorems": [
    "C47_check_partial",
    "C47_honest_partial",
    "C47_lookahead_partial",
    "C47_lookahead_captures_partial",
    "C47_validate_partial",
    "C29_search_partial",
    "C35_validate_captures_partial",
    "C47_lookahead_refuted"
   ],
   "note": "look_d: every repetition and alternative inside a group is decided by the next character up to $ (conditions on the pattern as written, groups and repetitions nested at will): accepted iff the whole query is a text of r, and captures are the unique division; also all patterns accepted by exact_d / supported_d without possessive quantifiers; the character in memory after the query must not be a line feed (refuted otherwise); refuted for ^(?:x|xy)z$; honest_d (weaker, syntactic): whatever is accepted is the whole query and a text of r; if also calm_d the check returns and does nothing undefined"
  },
  {
   "property": "C48",
   "status": "proved",
   "theorems": [
    "C48_view_equality",
    "C48_views"
   ],
   "note": "texts shorter than 2^31 (the loop counter of operator== is an int)"
  },
  {
   "property": "C49",
   "status": "proved",
   "theorems": [
    "C49_pieces"
   ],
   "note": ""
  },
  {
   "property": "C50",
   "status": "partial",
   "theorems": [
    "C50_small_partial",
    "C50_iterators_partial",
    "C50_comparison",
    "C50_iterators_refuted"
   ],
   "note": "definitions in which, as written, every greedy x? is of one character or followed by something that begins differently; also all compiled definitions whose optional fixed-size items have size at most 1; with larger ones an iterator can stay where it is (refuted)"
  },
  {
   "property": "C51",
   "status": "partial",
   "theorems": [
    "C51_fields_partial",
    "C51_prefix_partial",
    "C51_found_partial",
    "C51_fields_refuted",
    "C51_found_refuted"
   ],
   "note": "fields_ok: separated fields, no class outside of parentheses between two captured fields (with one the groups are misnumbered: refuted), \\s only as the last item of a class"
  },
  {
   "property": "C52",
   "status": "partial",
   "theorems": [
    "C52_munch_partial",
    "C52_munch_unique",
    "C52_lexer_partial",
    "C39_munch_refuted",
    "C52_lexer_refuted"
   ],
   "note": "munch_ok: every definition needs one character of lookahead (groups and repetitions nested at will; no | outside of groups): the tokens are those of the maximal munch over the languages; lexer_ok: lists of separated fields; otherwise a token can be missed (refuted)"
  },
  {
   "property": "C53",
   "status": "partial",
   "theorems": [
    "C53_parts_partial",
    "C53_prefix_partial",
    "C53_found_partial",
    "C53_parts_refuted"
   ],
   "note": "parts_ok: every repetition begins with a separator (with the separator at the end the library accepts texts it should not: refuted), runs and repetitions are followed by other characters, nothing captured inside a repetition, no repetition between two captured fields (C12)"
  },
  {
   "property": "C54",
   "status": "partial",
   "theorems": [
    "C54_choice_partial",
    "C54_unique",
    "C54_prefix_partial",
    "C54_found_partial",
    "C54_choice_refuted",
    "C54_prefix_refuted"
   ],
   "note": "choice_ok: a run is followed by a required field with other characters, or by a single uncaptured character (then they may overlap); a captured character after an overlapping run (position not restored) and a lazy run at the end without $ (made possessive) are refuted"
  },
  {
   "property": "C55",
   "status": "partial",
   "theorems": [
    "C55_items_partial",
    "C55_unique",
    "C55_items_refuted"
   ],
   "note": "item_ok: nothing captured, every alternative opens with a single character (not \\s, not a complemented class) or is x+; with an alternative that opens with a run followed by something the view can begin too early (refuted)"
  },
  {
   "property": "C56",
   "status": "partial",
   "theorems": [
    "C56_search_partial",
    "C56_report_partial",
    "C56_captures_partial",
    "C56_unique",
    "C56_lookahead_refuted"
   ],
   "note": "one_look: conditions on the pattern as written (first and follow sets); the search also needs a clean opening (opens); captures outside of repetitions, alternatives and other captures; refuted for (?:x|xy)z, where one character does not decide"
  },
  {
   "property": "C57",
   "status": "partial",
   "theorems": [
    "C57_bindings_partial",
    "C57_fields_partial",
    "C57_bindings_refuted"
   ],
   "note": "every compiled pattern with a capture, or that is not a single terminal; for a single-character pattern auto [x] = match and get<0>() do not compile (refuted)"
  },
  {
   "property": "C58",
   "status": "partial",
   "theorems": [
    "C58_find_all_partial",
    "C33_range_for_is_next",
    "C21_soundness_refuted",
    "C30_no_overlap_refuted",
    "C31_terminates_refuted"
   ],
   "note": "patterns (also with $) that are small, calm and honest as written and do not match the empty text; refuted in general"
  },
  {
   "property": "C59",
   "status": "partial",
   "theorems": [
    "C59_hex_bytes_partial",
    "C59_octal_bytes_partial",
    "C59_bytes_refuted"
   ],
   "note": "decimal digits in pairs, octal digits in threes up to \\377, and a byte behind the query that does not continue the string; hexadecimal letters, an odd number of digits and a continuing byte behind the query are refuted"
  },
  {
   "property": "C60",
   "status": "proved",
   "theorems": [
    "C60_spelling",
    "C60_case",
    "C60_class_differs"
   ],
   "note": "all well-formed patterns, with and without $; a class [b] in place of b is not one of these spellings (it changes capture numbers: C12)"
  },
  {
   "property": "C61",
   "status": "partial",
   "theorems": [
    "C61_nongroup_partial",
    "C61_nongroup_refuted"
   ],
   "note": "well-formed patterns without captures, or without top-level alternatives; with captures in several alternatives the captures are renumbered (refuted)"
  },
  {
   "property": "C62",
   "status": "proved",
   "theorems": [
    "C62_capture_all",
    "C61_C62_case"
   ],
   "note": "all well-formed patterns without captures, every memory, every number of next()"
  },
  {
   "property": "C63",
   "status": "proved",
   "theorems": [
    "C63_caret",
    "C63_alternatives"
   ],
   "note": "all well-formed patterns without top-level alternatives, every memory"
  },
  {
   "property": "C64",
   "status": "proved",
   "theorems": [
    "C64_exhausted"
   ],
   "note": "all patterns that compile, every memory, every history"
  },
  {
   "property": "C65",
   "status": "proved",
   "theorems": [
    "C65_first_alternative"
   ],
   "note": "all well-formed patterns, every memory, every iteration state"
  },
  {
   "property": "C66",
   "status": "proved",
   "theorems": [
    "C66_counts_add",
    "C66_count_zero",
    "C66_counts_add_inside",
    "C66_inside_case"
   ],
   "note": "all well-formed patterns, every memory; x{i}x{j} also after any p, before any s, in any top-level alternative among any others (C66_counts_add_inside)"
  },
  {
   "property": "C67",
   "status": "proved",
   "theorems": [
    "C67_larger_memory"
   ],
   "note": "all patterns that compile, every memory, every history"
  },
  {
   "property": "C68",
   "status": "partial",
   "theorems": [
    "C68_rest_partial",
    "C68_rest_refuted"
   ],
   "note": "small patterns without ^ (conditions on the pattern as written), when the first attempt succeeds; later attempts refuted"
  },
  {
   "property": "C69",
   "status": "proved",
   "theorems": [
    "C69_larger_memory"
   ],
   "note": "all definitions that compile, every memory, every number of increments"
  },
  {
   "property": "C70",
   "status": "partial",
   "theorems": [
    "C70_ranges_add_partial",
    "C70_unbounded_partial",
    "C70_ranges_add_inside_partial",
    "C70_unbounded_inside_partial",
    "C70_inside_case",
    "C70_refuted"
   ],
   "note": "bounded ranges: every x without captures, every rest, every memory, greedy other than x? and possessive; unbounded: every element x, memories below 2^32-1-(i+j) bytes; the same for elements and i from 1 after any p, in any top-level alternative (..._inside_partial); greedy x{i}x? refuted"
  },
  {
   "property": "C71",
   "status": "proved",
   "theorems": [
    "C71_redundant_groups",
    "C71_alternatives",
    "C71_nested_groups",
    "C71_nested_case",
    "C71_ends_case"
   ],
   "note": "all well-formed patterns without captures (any (?:...) of the listed kinds); with captures, at any depth: (?:(?:r)), ((?:r)), (?:[...]), a quantified (?:(r)), and a (?:...) of one alternative that ends a sequence or is a whole alternative (C71_nested_groups). Beside these, with captures, or around a run in the middle of a branch, a group does change the results"
  },
  {
   "property": "C72",
   "status": "partial",
   "theorems": [
    "C72_policies_partial",
    "C72_case",
    "C72_refuted"
   ],
   "note": "Proved for every element or group x (captures included), every quantifier with two bounds, every p in front and every rest behind, in any top-level alternative, with or without ^: the greedy, possessive and (when at least one x is wanted) lazy runs compile to the same regex, hence give the same answers in every memory. The condition is SpecRun.apart: no character may begin both; there '.' may be any character, a negated class any character outside its first item, and groups among the first parts of what follows are passed over. Missing: the pairs this condition wrongly counts as overlapping. False for lazy runs that may be empty (C72_refuted: a*?b?c finds 'bac' in 'bac')."
  },
  {
   "property": "C73",
   "status": "partial",
   "theorems": [
    "C73_exact_partial",
    "C73_exact_head_partial",
    "C73_case",
    "C73_refuted"
   ],
   "note": "n from 1, every policy, every memory: for every element anywhere in the sequence of any top-level alternative, and for every element or group (captures included) at the head of a pattern without top-level alternatives. Missing: groups with something in front, inside groups, n = 0. False inside an optional group: (?:a{2,2}b)?[abc] and (?:a{2}b)?[abc] differ on 'aab' (C73_refuted)."
  },
  {
   "property": "C74",
   "status": "partial",
   "theorems": [
    "C74_once_partial",
    "C74_case",
    "C74_refuted"
   ],
   "note": "Proved for every element y (not groups), every memory, in any top-level alternative: at the end of a sequence after any p; in front of any s when p ends with an unquantified part that is no capturing group (or y directly follows ^) and every capturing group of p is quantified (SpecOnce.v). The unrestricted statement is false of the code (C74_refuted: a{1}[ab]c finds nothing in aaaac, a[ab]c finds the match). Missing: groups, and other p in front of a nonempty s."
  },
  {
   "property": "C75",
   "status": "proved",
   "theorems": [
    "C75_choice_is_class",
    "C75_case"
   ],
   "note": "all well-formed patterns (captures included), any number of replacements at any depth, alternatives: characters, escapes and classes of one item; the same compiled regex, hence the same answers in every memory and the same get_expression()"
  }
 ]
}