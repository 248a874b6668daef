{"id": "C01", "title": "Lexing loses nothing", "statement": "Cutting a pattern string into tokens never drops, adds, duplicates or reorders a character: gluing the tokens back together gives the pattern the user wrote, and every token is one character, one backslash pair or the text of a {...} quantifier part.", "quantifier": "every pattern string that lexes (every byte string)", "why_tests_cant": "the set of pattern strings is infinite; a test checks a handful of patterns", "anchors": ["src/tokenizer.hpp:tokenizer_t", "src/tokenizer.hpp:extract_braces_numbers"]}
{"id": "C02", "title": "Alternation is split only, and always, at top-level bars", "statement": "Splitting a pattern at '|' yields branches that, rejoined with '|', are the original pattern; for a pattern whose brackets nest properly a bar is a branch boundary exactly when it is outside every bracket.", "quantifier": "every token sequence / every well-nested pattern", "why_tests_cant": "nesting depth and length are unbounded", "anchors": ["src/utilities/split.hpp:split_t", "src/utilities/balanced.hpp:balanced_v", "src/tree_builder/tree_builder.hpp"]}
{"id": "C03", "title": "A bracketed part ends at its matching closer", "statement": "The content extracted after an opening (, [ or { is exactly the text up to the matching closer and the remainder is exactly what follows it; nothing is lost.", "quantifier": "every properly nested content and every remainder", "why_tests_cant": "nesting depth unbounded", "anchors": ["src/utilities/extract_delimited_content.hpp:extract_delimited_content_t"]}
{"id": "C04", "title": "Repetition counts mean their decimal value", "statement": "The counts in {n}, {n,} and {n,m} are read as the decimal numbers written (modulo 2^32), and printing a count back gives its decimal numeral.", "quantifier": "every decimal numeral / every 32-bit count", "why_tests_cant": "2^32 counts, unbounded numerals", "anchors": ["src/utilities/pack_string_to_number.hpp", "src/utilities/number_to_pack_string.hpp", "src/operators/braces.hpp"]}
{"id": "C05", "title": "Hex escapes denote the byte they spell", "statement": "\\xHH matches exactly the byte whose hexadecimal value is HH.", "quantifier": "every pair of hex digits and every query", "why_tests_cant": "full digit table incl. letters, all inputs", "anchors": ["src/operators/hex.hpp:hex_to_bin"]}
{"id": "C06", "title": "Octal escapes denote the byte they spell", "statement": "\\OOO matches exactly the byte whose octal value is OOO.", "quantifier": "every octal triple up to \\377 and every query", "why_tests_cant": "full digit table, all inputs", "anchors": ["src/operators/octal.hpp:octal_to_bin"]}
{"id": "C07", "title": "Character escapes match exactly their documented characters", "statement": "A one-element pattern c, \\c, \\d, \\w, \\s, \\a, \\e, \\f, \\n, \\r, \\t, . tested at any position of any query accepts iff the character there is in the documented set, and then consumes exactly one character; at the end of the query it rejects.", "quantifier": "every character, every position of every query", "why_tests_cant": "256 characters x all queries x all positions", "anchors": ["src/terminals/alarm.hpp", "src/terminals/any.hpp", "src/terminals/carriage_return.hpp", "src/terminals/common.hpp", "src/terminals/digit_characters.hpp", "src/terminals/escape.hpp", "src/terminals/escaped.hpp", "src/terminals/exact_matcher.hpp", "src/terminals/form_feed.hpp", "src/terminals/new_line.hpp", "src/terminals/range.hpp", "src/terminals/space_characters.hpp", "src/terminals/tab.hpp", "src/terminals/word_characters.hpp"]}
{"id": "C08", "title": "A bracket class matches exactly the union of its items", "statement": "[items] accepts a character iff one of its items (character, range, escape) contains it and [^items] iff none does, consuming exactly one character on success and none on failure.", "quantifier": "every item list, every character, every position", "why_tests_cant": "item lists are unbounded", "anchors": ["src/operators/square_brackets.hpp", "src/nodes/negated.hpp", "src/terminals/range.hpp", "src/terminals/space_characters.hpp"]}
{"id": "C09", "title": "Parsing respects regex precedence", "statement": "The tree built from a pattern has the structure the syntax says: quantifiers bind to the preceding atom only, juxtaposition binds tighter than '|', groups nest, lazy/possessive suffixes attach to their quantifier.", "quantifier": "every well-formed pattern of the supported syntax", "why_tests_cant": "infinitely many patterns, unbounded nesting", "anchors": ["src/tree_builder/tree_builder.hpp", "src/operators/braces.hpp", "src/operators/common.hpp", "src/operators/end_anchor.hpp", "src/operators/hex.hpp", "src/operators/octal.hpp", "src/operators/optional.hpp", "src/operators/plus.hpp", "src/operators/round_brackets.hpp", "src/operators/square_brackets.hpp", "src/operators/star.hpp", "src/operators/start_anchor.hpp"]}
{"id": "C10", "title": "groups() counts the capturing parentheses", "statement": "The advertised number of groups equals the number of capturing groups written in the pattern.", "quantifier": "every well-formed pattern", "why_tests_cant": "unbounded patterns", "anchors": ["src/nodes/common.hpp:base", "src/nodes/common.hpp:groups", "src/nodes/group.hpp:groups", "src/match_result.hpp:groups"]}
{"id": "C11", "title": "Capture stores stay inside the capture array", "statement": "Whatever pattern compiles, no match ever writes a capture slot outside the groups() slots of the result.", "quantifier": "every pattern that compiles, every query", "why_tests_cant": "index arithmetic of the builder over all nestings", "anchors": ["src/nodes/group.hpp:match", "src/operators/round_brackets.hpp", "src/match_result.hpp:match_groups"]}
{"id": "C12", "title": "Captures are numbered by opening parenthesis", "statement": "result[i] is the text captured by the i-th opening parenthesis; different groups use different slots.", "quantifier": "every well-formed pattern", "why_tests_cant": "unbounded combinations of groups, classes, alternations", "anchors": ["src/operators/round_brackets.hpp", "src/operators/square_brackets.hpp", "src/nodes/common.hpp:next_group_index", "README.md"]}
{"id": "C13", "title": "Pattern optimisation terminates", "statement": "The compile-time optimiser reaches a fixed point on every pattern (compilation does not recurse forever), after at most one rewriting pass.", "quantifier": "every tree the builder can produce", "why_tests_cant": "unbounded trees", "anchors": ["src/regex.hpp:optimizer", "src/nodes/basic.hpp:optimize", "src/nodes/greedy.hpp:optimize", "src/nodes/group.hpp:optimize", "src/nodes/lazy.hpp:optimize", "src/nodes/negated.hpp:optimize", "src/nodes/possessive.hpp:optimize", "src/nodes/repeated.hpp:optimize"]}
{"id": "C14", "title": "Optimisation keeps the pattern's interface", "statement": "The optimiser changes neither the number of groups, nor the capture numbering, nor the minimum match size, nor the set of admitted first characters of a pattern.", "quantifier": "every tree the builder can produce", "why_tests_cant": "unbounded trees", "anchors": ["src/nodes/basic.hpp:optimize", "src/nodes/greedy.hpp:optimize", "src/nodes/group.hpp:optimize", "src/nodes/lazy.hpp:optimize", "src/nodes/negated.hpp:optimize", "src/nodes/possessive.hpp:optimize", "src/nodes/repeated.hpp:optimize", "src/terminals/alarm.hpp", "src/terminals/any.hpp", "src/terminals/carriage_return.hpp", "src/terminals/common.hpp", "src/terminals/digit_characters.hpp", "src/terminals/escape.hpp", "src/terminals/escaped.hpp", "src/terminals/exact_matcher.hpp", "src/terminals/form_feed.hpp", "src/terminals/new_line.hpp", "src/terminals/range.hpp", "src/terminals/space_characters.hpp", "src/terminals/tab.hpp", "src/terminals/word_characters.hpp"]}
{"id": "C15", "title": "Optimisation never changes what a pattern matches", "statement": "Replacing backtracking quantifiers by possessive ones never changes the outcome of a match.", "quantifier": "every pattern and every query", "why_tests_cant": "pattern x query space infinite", "anchors": ["src/nodes/greedy.hpp:optimize", "src/nodes/lazy.hpp:optimize"]}
{"id": "C16", "title": "is_independent is truthful", "statement": "If is_independent reports two patterns as independent then no text can begin a match of both.", "quantifier": "every pair of patterns, every text", "why_tests_cant": "pairs of patterns x texts infinite", "anchors": ["src/regex.hpp:is_independent", "src/nodes/common.hpp:extract_admission_set"]}
{"id": "C17", "title": "First-character sets behave as sets", "statement": "Merging, intersecting and complementing first-character sets compute the set union, intersection and complement (within 0..127).", "quantifier": "all ascending character sets", "why_tests_cant": "2^128 sets", "anchors": ["src/utilities/admitted_set.hpp"]}
{"id": "C18", "title": "The advertised minimum size is a lower bound", "statement": "No accepted match is shorter than the pattern's minimum_match_size.", "quantifier": "every supported pattern and query", "why_tests_cant": "pattern x query space infinite", "anchors": ["src/nodes/basic.hpp:meta", "src/nodes/common.hpp:meta", "src/nodes/greedy.hpp:meta", "src/nodes/group.hpp:meta", "src/nodes/lazy.hpp:meta", "src/nodes/meta.hpp:meta", "src/nodes/negated.hpp:meta", "src/nodes/possessive.hpp:meta", "src/nodes/repeated.hpp:meta"]}
{"id": "C19", "title": "Matching never touches memory outside the query", "statement": "A match only reads characters inside [query.begin, query.end) and only forms pointers inside the buffer, whatever the query and whatever lies around it.", "quantifier": "every query, every buffer around it, every supported pattern", "why_tests_cant": "undefined behaviour is invisible to tests; all inputs", "anchors": ["src/terminals/alarm.hpp", "src/terminals/any.hpp", "src/terminals/carriage_return.hpp", "src/terminals/common.hpp", "src/terminals/digit_characters.hpp", "src/terminals/escape.hpp", "src/terminals/escaped.hpp", "src/terminals/exact_matcher.hpp", "src/terminals/form_feed.hpp", "src/terminals/new_line.hpp", "src/terminals/range.hpp", "src/terminals/space_characters.hpp", "src/terminals/tab.hpp", "src/terminals/word_characters.hpp", "src/nodes/greedy.hpp:match", "src/match_result.hpp:next"]}
{"id": "C20", "title": "The result depends only on the query text", "statement": "Two equal query texts give equal results whatever bytes surround the views in memory.", "quantifier": "every query and every pair of surroundings", "why_tests_cant": "surroundings are outside a test's control", "anchors": ["src/match_result.hpp", "src/terminals/anchors/end.hpp"]}
{"id": "C21", "title": "Every reported match is a real match (soundness)", "statement": "If the result is accepted, the reported text is a substring of the query and belongs to the language of the pattern at that place.", "quantifier": "every supported pattern, every query", "why_tests_cant": "pattern x query space infinite", "anchors": ["src/match_result.hpp", "src/nodes/basic.hpp:match", "src/nodes/common.hpp:match", "src/nodes/greedy.hpp:match", "src/nodes/group.hpp:match", "src/nodes/lazy.hpp:match", "src/nodes/meta.hpp:match", "src/nodes/negated.hpp:match", "src/nodes/possessive.hpp:match", "src/nodes/repeated.hpp:match"]}
{"id": "C22", "title": "If a match exists one is reported (completeness)", "statement": "If some substring of the query matches the pattern then the result is accepted; a not-accepted result means that no position of the query matches.", "quantifier": "every supported pattern, every query", "why_tests_cant": "a negative claim over all positions and all parses", "anchors": ["src/match_result.hpp:next", "src/nodes/basic.hpp:match", "src/nodes/common.hpp:match", "src/nodes/greedy.hpp:match", "src/nodes/group.hpp:match", "src/nodes/lazy.hpp:match", "src/nodes/meta.hpp:match", "src/nodes/negated.hpp:match", "src/nodes/possessive.hpp:match", "src/nodes/repeated.hpp:match"]}
{"id": "C23", "title": "Matches are leftmost", "statement": "The reported match starts at the smallest position from which the pattern can match.", "quantifier": "every supported pattern, every query", "why_tests_cant": "all positions, all queries", "anchors": ["src/match_result.hpp:next"]}
{"id": "C24", "title": "Greedy, lazy and possessive quantifiers choose as documented", "statement": "Among the matches starting at the reported position the one chosen is the one the standard backtracking (Perl/ECMAScript) priority order picks: greedy prefers more repetitions, lazy fewer, possessive never gives back.", "quantifier": "every supported pattern, every query", "why_tests_cant": "choice depends on the whole rest of pattern and text", "anchors": ["src/nodes/greedy.hpp:match", "src/nodes/lazy.hpp:match", "src/nodes/possessive.hpp:match", "README.md"]}
{"id": "C25", "title": "Alternatives are tried in order", "statement": "For b1|b2|...|bn the match reported at a position is that of the first branch that matches there.", "quantifier": "every list of branches, every query", "why_tests_cant": "unbounded lists and queries", "anchors": ["src/nodes/common.hpp:dfs", "src/nodes/basic.hpp"]}
{"id": "C26", "title": "A literal pattern is substring search", "statement": "A pattern made of plain characters accepts iff the query contains that word, and reports its first occurrence.", "quantifier": "every word over ordinary characters, every query", "why_tests_cant": "words and queries unbounded", "anchors": ["src/operators/common.hpp", "src/match_result.hpp"]}
{"id": "C27", "title": "A repeated class finds maximal runs", "statement": "X+ (X a character class, escape or literal) reports the first maximal run of characters of X.", "quantifier": "every class X, every query", "why_tests_cant": "queries and classes unbounded", "anchors": ["src/nodes/greedy.hpp", "src/nodes/possessive.hpp", "src/match_result.hpp:next"]}
{"id": "C28", "title": "^ anchors at the beginning", "statement": "A pattern ^r only ever matches at the very beginning of the query (README: beginning of string or line).", "quantifier": "every supported r, every query", "why_tests_cant": "all queries and positions", "anchors": ["src/terminals/anchors/start.hpp", "src/operators/start_anchor.hpp", "README.md"]}
{"id": "C29", "title": "$ anchors at the end", "statement": "A pattern r$ only accepts when the match reaches the end of the query or a line feed, and the line feed is not part of the match.", "quantifier": "every supported r, every query", "why_tests_cant": "all queries", "anchors": ["src/terminals/anchors/end.hpp", "src/operators/end_anchor.hpp", "README.md"]}
{"id": "C30", "title": "next() walks left to right without overlap", "statement": "Each accepted next() reports a match starting at or after the end of the previous one.", "quantifier": "every supported pattern, every query, every number of next() calls", "why_tests_cant": "histories are unbounded", "anchors": ["src/match_result.hpp:next"]}
{"id": "C31", "title": "next() terminates and eventually runs out", "statement": "Every call to next() returns, and for patterns that cannot match the empty string repeated calls reach not-accepted after at most |query| matches and stay there.", "quantifier": "every supported pattern, query and call history", "why_tests_cant": "termination is not testable", "anchors": ["src/match_result.hpp:next"]}
{"id": "C32", "title": "next() enumerates every match", "statement": "The sequence of reported matches is the one obtained by repeatedly taking the leftmost match of the rest of the query: nothing between two consecutive reported matches matches.", "quantifier": "every supported pattern and query", "why_tests_cant": "all queries, all histories", "anchors": ["src/match_result.hpp:next"]}
{"id": "C33", "title": "Range-for visits exactly the next() sequence", "statement": "for (x : result) visits the same texts, in the same order, as starting over and calling next() until not accepted; and begin() restarts from the first match whatever was consumed before.", "quantifier": "every pattern, query and history", "why_tests_cant": "histories unbounded", "anchors": ["src/match_result.hpp:begin", "src/match_result.hpp:operator!=", "src/match_result.hpp:operator++"]}
{"id": "C34", "title": "Accessors agree with each other", "statement": "operator*, to_view(), result[0], the view conversion and, where it compiles (C57), get<0>() denote the same text, bool() equals is_accepted(), and all of them are empty when the result is not accepted.", "quantifier": "every reachable result", "why_tests_cant": "all states", "anchors": ["src/match_result.hpp"]}
{"id": "C35", "title": "Captured text lies inside the match", "statement": "Every capture of an accepted result is either unset or a substring of the reported match, and is the text its group matched.", "quantifier": "every supported pattern, every query, every group", "why_tests_cant": "all queries, all nestings", "anchors": ["src/nodes/group.hpp:match", "src/match_result.hpp:get_group"]}
{"id": "C36", "title": "A failed result exposes no captures", "statement": "When the result is not accepted, every group accessor is empty.", "quantifier": "every pattern, every query", "why_tests_cant": "all failing queries", "anchors": ["src/match_result.hpp:next", "src/nodes/group.hpp"]}
{"id": "C37", "title": "A match result is history-independent", "statement": "The outcome of next() depends only on the query and the position reached, not on earlier captures or on which matches came before.", "quantifier": "every pattern, every reachable result", "why_tests_cant": "histories unbounded", "anchors": ["src/match_result.hpp:next"]}
{"id": "C38", "title": "Tokenizer output is an ordered, disjoint cut of the input", "statement": "The tokens produced by a tokenizer are non-empty substrings of the input, in order and without overlap, each preceded by a separator except possibly the first.", "quantifier": "every token/separator definition set (anchored patterns), every input", "why_tests_cant": "all inputs", "anchors": ["src/tokenization/iterator.hpp"]}
{"id": "C39", "title": "Tokenizer applies maximal munch with first-definition tie-break", "statement": "Each token is the longest text any token definition matches at the current position; among equally long ones the first definition gives the type; same for separators.", "quantifier": "every definition list, every input", "why_tests_cant": "all inputs and definitions", "anchors": ["src/tokenization/iterator.hpp:match_token", "src/tokenization/iterator.hpp:match_separator"]}
{"id": "C40", "title": "Tokenizer iteration terminates", "statement": "Iterating a tokenizer over an input of length n produces at most n tokens and then compares equal to end().", "quantifier": "every definition list with anchored patterns, every input", "why_tests_cant": "termination, all inputs", "anchors": ["src/tokenization/iterator.hpp:operator++"]}
{"id": "C41", "title": "An exhausted tokenizer stays exhausted", "statement": "Once a tokenizer iterator is invalid (no separator or no token) further increments leave it invalid and equal to end().", "quantifier": "every definition list with anchored patterns, every history", "why_tests_cant": "histories unbounded", "anchors": ["src/tokenization/iterator.hpp:invalidate"]}
{"id": "C42", "title": "Tokenizer definitions only match at the current position", "statement": "A token or separator definition can only match text that begins at the current position (the library prefixes ^).", "quantifier": "every token definition", "why_tests_cant": "all definitions and inputs", "anchors": ["src/tokenization/iterator.hpp:separator_splitter"]}
{"id": "C43", "title": "get_expression describes the pattern", "statement": "The string returned by get_expression is a pattern equivalent to the compiled one.", "quantifier": "every pattern", "why_tests_cant": "infinitely many patterns", "anchors": ["src/nodes/get_expression.hpp", "src/regex.hpp:get_expression"]}
{"id": "C44", "title": "Concatenation of literals and classes matches pointwise", "statement": "A sequence of single-character elements e1...ek matches at a position iff the next k characters belong to e1..ek respectively.", "quantifier": "every sequence of elements, every query", "why_tests_cant": "unbounded sequences", "anchors": ["src/nodes/basic.hpp", "src/operators/common.hpp"]}
{"id": "C45", "title": "X{n} matches exactly n repetitions", "statement": "X{n} for a single-character element X matches at a position iff the next n characters are all in X, for every n including numbers far beyond the query length.", "quantifier": "every n < 2^32, every X, every query", "why_tests_cant": "2^32 counts x all queries", "anchors": ["src/nodes/repeated.hpp", "src/operators/braces.hpp"]}
{"id": "C46", "title": "Iteration over a literal alternation is a scanner", "statement": "For w1|...|wn with ordinary words, iterating the result reports, from left to right, at each first position where some word occurs the first listed word occurring there.", "quantifier": "every word list, every query", "why_tests_cant": "unbounded", "anchors": ["src/nodes/common.hpp:dfs", "src/match_result.hpp:next"]}
{"id": "C47", "title": "^r$ validates the whole query", "statement": "With r anchored by ^ at the start and $ at the end of every branch, a match_result is accepted exactly when r matches the whole query, and then the reported text is the whole query; without ^, r$ finds the leftmost match of r that reaches the end.", "quantifier": "all patterns r of the supported class, all queries without line feeds, all texts around the query in memory", "why_tests_cant": "An iff over all strings for every pattern of a class: a backtracking bug in one quantifier shows up only for particular pattern/query pairs.", "anchors": ["src/nodes/greedy.hpp", "src/nodes/possessive.hpp", "src/terminals/anchors/end.hpp", "src/terminals/anchors/start.hpp", "src/match_result.hpp"]}
{"id": "C48", "title": "Views compare by content", "statement": "Two string views (a match, a capture, a token value, a string literal, the null view) compare equal exactly when they denote the same characters, wherever the characters lie in memory, and the comparison reads no other character; empty() holds exactly for the empty text; a view made from a string literal denotes the characters without the terminating NUL.", "quantifier": "all memories, all pairs of views, all texts shorter than 2^31 characters", "why_tests_cant": "The equality loop has to be right for every length, first difference and overlap of the two texts; tests compare a handful of short strings.", "anchors": ["src/utilities/literal_string_view.hpp:operator==", "src/utilities/literal_string_view.hpp:literal_string_view"]}
{"id": "C49", "title": "Patterns assembled from pieces", "statement": "A pattern literal is its characters without the NUL; joining pieces with + (string, literal or character on either side) gives exactly the concatenation of the pieces; that text reaches the parser unchanged; substring recovers either piece.", "quantifier": "all pieces of all lengths, including empty ones", "why_tests_cant": "Array copies with offsets depend on both sizes; empty operands take separate branches.", "anchors": ["src/utilities/static_string.hpp:operator+", "src/utilities/static_string.hpp:substring", "src/utilities/pack_string.hpp:build_pack_string", "src/tokenization/iterator.hpp:separator_splitter"]}
{"id": "C50", "title": "Tokenizer iterators compare by position", "statement": "Two iterators of one tokenizer over the same input compare equal exactly when they are the same number of increments away from begin() or both are exhausted; an iterator compares equal to end() exactly when it converts to false.", "quantifier": "all definition lists, all inputs, all pairs of increment counts", "why_tests_cant": "Equality compares text, not positions: it is right only because no two positions of one walk have the same remaining text, a property of every history.", "anchors": ["src/tokenization/iterator.hpp:operator==", "src/tokenization/iterator.hpp:operator bool", "src/tokenization/iterator.hpp:operator++", "src/utilities/literal_string_view.hpp:operator=="]}
{"id": "C51", "title": "Validating delimited fields and taking them apart", "statement": "For a pattern ^F1 F2 ... Fn$ where each Fi is a character set with an amount (x, x{n}, x+, x*), possibly captured, and every run x+ or x* is followed by a field that cannot be empty and shares no character with it: match() accepts a query without line feeds exactly when it consists of such fields one after the other; the division is unique, the match is the whole query, and group k is exactly the k-th captured part. Without $ the match is the longest front of the query that consists of the fields; without ^ every match found is, from its beginning on, the longest piece that does.", "quantifier": "all such lists of fields of any length, all queries, all texts around the query", "why_tests_cant": "Runs have any length and the last one competes with $; the optimiser turns runs into possessive ones depending on the next field, and captures are written while the engine backtracks, so each list of fields takes its own path through both.", "anchors": ["src/regex.hpp:match", "src/nodes/greedy.hpp:match", "src/nodes/possessive.hpp:match", "src/nodes/group.hpp:match", "src/nodes/repeated.hpp:match", "src/terminals/anchors/start.hpp", "src/terminals/anchors/end.hpp"]}
{"id": "C52", "title": "A lexer of simple tokens is maximal munch", "statement": "For a tokenizer whose token and separator definitions are each written as separated fields (character sets with amounts, possibly captured): iterating over any text terminates and shows exactly the tokens of the maximal munch: from the current position the longest separator is skipped (at the very beginning it may be missing), the longest match of any token definition follows, its type is that of the first definition that matches that piece, and iteration ends where a separator or a token is missing. There is exactly one such list of tokens.", "quantifier": "all such lists of definitions of any length, all texts, all texts around it in memory", "why_tests_cant": "The definitions compete for every position of an unbounded text; length, tie breaking and the end of the iteration depend on all of them together with the optimiser's rewriting of each.", "anchors": ["src/tokenization/iterator.hpp:match_token", "src/tokenization/iterator.hpp:match_separator", "src/regex.hpp:match"]}
{"id": "C53", "title": "Texts with repeated parts are validated and taken apart", "statement": "Take a pattern ^...$ written as one part after the other: fields (character sets with an amount x, x{n}, x+, x*, possibly captured) and repeated groups of fields (?:...)* or (?:...)+ whose every repetition begins with a separator, where what follows a run or a repetition begins with other characters. Matching a query without line feeds returns and accepts exactly the queries that consist of such parts; the division of the query into parts is unique, the match is the whole query and group k is the k-th captured part. Without $ the match is the longest front of the query that consists of such parts; without ^ as well every match found is the longest such piece from where it begins.", "quantifier": "all such lists of parts of any length, all queries without line feeds, all texts around the query in memory", "why_tests_cant": "Lists, dotted names and mail addresses have any number of repetitions of any length; whether the optimiser may make the repetition possessive depends on everything that follows it.", "anchors": ["src/nodes/greedy.hpp:greedy", "src/nodes/possessive.hpp:possessive", "src/utilities/admitted_set.hpp", "src/regex.hpp:match"]}
{"id": "C54", "title": "Of several divisions the preferred one is chosen", "statement": "Take a pattern written as one field after the other (character sets with an amount x, x{n}, x+, x*, and the lazy x+? and x*?, possibly captured), where a run may overlap with the single character that follows it, as in ^(.*)\\.(\\w+)$, ^(.*),(.*)$, ^(.*?)=(.*)$ or <(.+?)>. With ^ and $ matching a query without line feeds returns, accepts exactly the queries that can be divided into such fields, and the captures are the parts of the preferred division: the first field as long as possible (a lazy one: as short as possible), then the second one, and so on. Without $ the match is the preferred division of a front of the query; without ^ as well every match found by the constructor or next() is the preferred division from where it begins.", "quantifier": "all such lists of fields of any length, all queries, all texts around the query in memory, all sequences of next()", "why_tests_cant": "The number of divisions grows with the text and the number of fields; the choice depends on backtracking through all of them, and on whether the optimiser made a run possessive.", "anchors": ["src/nodes/greedy.hpp:greedy", "src/nodes/lazy.hpp:lazy", "src/nodes/possessive.hpp:possessive", "src/nodes/group.hpp:group", "src/utilities/admitted_set.hpp", "src/regex.hpp:match"]}
{"id": "C55", "title": "Searching for items of several kinds", "statement": "Take a pattern a|b|c whose alternatives are lists of uncaptured fields as in C54, each opening with a single character or being just x+, as in \"[^\"]*\"|#.*|[a-z]+|\\d+. The constructor, next() and range-for visit exactly the items of the query: each at the leftmost position from the end of the last one on where a front of the rest is one of the alternatives; at that position the first such alternative is taken, in its preferred division. The list of items is determined by the query.", "quantifier": "all lists of such alternatives of any number and length, all queries, all texts around the query in memory, all sequences of next()", "why_tests_cant": "Alternatives interfere through positions a failed one leaves behind; for every text and every list of alternatives none may be skipped, taken out of order or begun too early.", "anchors": ["src/nodes/common.hpp:dfs", "src/nodes/basic.hpp:simple", "src/match_result.hpp:next", "src/match_result.hpp:match_result", "src/regex.hpp:match"]}
{"id": "C56", "title": "One character of lookahead is enough", "statement": "Take a pattern, groups and repetitions nested at will, in which the next character decides: no repetition can go on with a character that can also come after it, and the alternatives inside of a group begin with different characters; e.g. a(?:b(?:c|d)?)*e, -?\\d+(?:\\.\\d+)?, #(\\d{4})-(\\d{2}). Every reported match is the longest text of the pattern's language that begins at its position (with | on the outside: of the first branch that has one there), a text at the beginning of the query is always found, and if the pattern opens with a single character the constructor, next() and range-for visit exactly the leftmost longest texts, one after the other. There is only one way to divide the match along the pattern, and the captures are its parts.", "quantifier": "all patterns of that class, of any size and nesting depth, all queries, all texts around the query in memory, all sequences of next()", "why_tests_cant": "The class of patterns is infinite in nesting depth; that the optimiser's possessive loops and the matcher's incomplete backtracking lose no match has to hold for all of them and for all texts", "anchors": ["src/nodes/common.hpp:dfs", "src/nodes/basic.hpp:simple", "src/match_result.hpp:next", "src/match_result.hpp:match_result", "src/regex.hpp:match"]}
{"id": "C57", "title": "Structured bindings give the match and its captures", "statement": "auto [whole, g1, ..., gk] = regex(query) compiles for exactly groups() + 1 names, whole is the matched text and gi is result[i], whatever the query and however often next() was called; get<i>() compiles for i <= groups() and for no other i. For a pattern of delimited fields (C51) the names are bound to the query and to its captured parts in order.", "quantifier": "every pattern, every query, every reachable result", "why_tests_cant": "ranges over all patterns, queries and histories", "anchors": ["src/match_result.hpp:get", "src/match_result.hpp:tuple_size", "src/match_result.hpp:tuple_element", "src/nodes/common.hpp:base", "src/nodes/common.hpp:has_groups", "src/nodes/common.hpp:group_getter", "src/terminals/common.hpp: terminal_common"]}
{"id": "C58", "title": "Going through all matches is sound, ordered and ends", "statement": "for (auto m : regex.match(text)) ends after finitely many steps, does nothing undefined, and the views it visits are non-empty texts of the pattern, each beginning at or after the end of the one before.", "quantifier": "all patterns that do not match the empty text, all queries, all surroundings of the query in memory, all results the loop is written over", "why_tests_cant": "Termination, memory safety and soundness of a whole traversal depend on every position of every query: a test sees one sequence of results.", "anchors": ["src/match_result.hpp:begin", "src/match_result.hpp:end", "src/match_result.hpp:operator++", "src/match_result.hpp:next", "src/match_result.hpp:operator*", "src/nodes/greedy.hpp: match", "src/nodes/common.hpp: dfs"]}
{"id": "C59", "title": "Byte strings find their occurrences", "statement": "The pattern \\x{HH...HH} (or \\o{OOO...OOO}) finds exactly the occurrences, inside the query, of the byte string its digits spell, from left to right and without overlap; it reports nothing outside of the query.", "quantifier": "all digit strings of every length, all queries, all surroundings of the query in memory", "why_tests_cant": "Any number of bytes with any values (256 each), any query, and any byte behind the query: the suite tries one string of three equal bytes.", "anchors": ["src/operators/hex.hpp:hex_to_bin", "src/operators/octal.hpp:octal_to_bin", "src/terminals/exact_matcher.hpp:exact_matcher", "src/match_result.hpp:next"]}
{"id": "C60", "title": "Spellings are interchangeable", "statement": "Patterns that differ only in how a character is written (c, \\c, \\OOO, \\xHH with decimal digits, also \\t for \\011 and the like; c or \\c inside a class) and in how a quantifier is written (* or {0,}, + or {1,}, ? or {0,1}, leading zeros) and in whether a class is written out as a choice ([a-z_] or (?:[a-z]|_)) are the same regex: every call on every query has the same outcome.", "quantifier": "all pairs of such patterns of every size, with and without a final $, all queries and memories", "why_tests_cant": "Infinitely many patterns and queries; a test compares one pair on one query.", "anchors": ["src/tree_builder/common.hpp", "src/operators/braces.hpp", "src/operators/star.hpp", "src/operators/plus.hpp", "src/operators/optional.hpp", "src/operators/octal.hpp", "src/operators/hex.hpp", "src/terminals/common.hpp:optimize", "src/nodes/basic.hpp:optimize"]}
{"id": "C61", "title": "(?:...) around a pattern changes nothing", "statement": "The regex (?:p) behaves on every query exactly like p.", "quantifier": "all patterns, all queries and memories", "why_tests_cant": "Ranges over every pattern and query.", "anchors": ["src/operators/round_brackets.hpp", "src/nodes/basic.hpp", "src/tree_builder/tree_builder.hpp"]}
{"id": "C62", "title": "Parentheses around a pattern capture its match", "statement": "If p has no captures, (p) reports on every query, at construction and after any number of next(), the same match as p or the same failure, and result[1] is the whole match (no text after a failure).", "quantifier": "all patterns without captures, all queries and memories, all numbers of next()", "why_tests_cant": "Ranges over every pattern, query and history of next().", "anchors": ["src/nodes/group.hpp:match", "src/operators/round_brackets.hpp", "src/match_result.hpp:get_group"]}
{"id": "C63", "title": "^ keeps the match or rejects", "statement": "If p has no top-level alternatives, whatever ^p reports (text and captures) is what p reports; and if p's first attempt, at the beginning of a non-empty query, succeeds, ^p reports the same.", "quantifier": "all patterns without top-level alternatives, all queries and memories", "why_tests_cant": "Ranges over every pattern and query.", "anchors": ["src/terminals/anchors/start.hpp:match", "src/operators/start_anchor.hpp", "src/nodes/basic.hpp", "src/match_result.hpp:next"]}
{"id": "C64", "title": "An exhausted result stays exhausted", "statement": "Once a match result is not accepted, every further next() returns at once and leaves it not accepted, with an empty view and no captures, and iterating it yields nothing.", "quantifier": "all patterns, all queries and memories, all histories of next() that led to the failed result, all later calls", "why_tests_cant": "Ranges over every pattern, query and call history.", "anchors": ["src/match_result.hpp:next", "src/match_result.hpp:is_accepted", "src/match_result.hpp:to_view"]}
{"id": "C65", "title": "The first alternative has precedence", "statement": "Whenever p alone matches at the place where a search begins, p|q reports exactly that match with the same captures (and no captures of q), for the first result and for every later one.", "quantifier": "all patterns p without top-level alternatives, all patterns q, all queries and memories, all iteration states", "why_tests_cant": "Ranges over every pair of patterns, every query and every iteration state.", "anchors": ["src/nodes/common.hpp:dfs", "src/nodes/basic.hpp", "src/match_result.hpp:next"]}
{"id": "C66", "title": "Repetition counts add up", "statement": "x{i}x{j}s and x{i+j}s give the same results on every query, also after any p (p x{i}x{j} s), and x{0}s those of s, for every element or non-capturing group x and every rest s.", "quantifier": "all x without captures, all counts below the limit, all rests, with or without ^, all queries and memories", "why_tests_cant": "Ranges over all counts up to 2^32-2, all patterns and all queries.", "anchors": ["src/nodes/repeated.hpp:match", "src/operators/braces.hpp", "src/nodes/common.hpp:dfs"]}
{"id": "C67", "title": "A larger memory changes nothing that is defined", "statement": "Whatever construction, next(), iteration and the accessors do without undefined behaviour on a query in one memory, they do on the same query when that memory is part of a larger one: same acceptance, same texts, same places.", "quantifier": "all patterns, all queries, all memories and all larger memories, all call histories", "why_tests_cant": "Ranges over every pattern, query, memory layout and history.", "anchors": ["src/match_result.hpp", "src/regex.hpp", "src/nodes/basic.hpp", "src/nodes/common.hpp", "src/nodes/get_expression.hpp", "src/nodes/greedy.hpp", "src/nodes/group.hpp", "src/nodes/lazy.hpp", "src/nodes/meta.hpp", "src/nodes/negated.hpp", "src/nodes/possessive.hpp", "src/nodes/repeated.hpp", "src/terminals/alarm.hpp", "src/terminals/any.hpp", "src/terminals/carriage_return.hpp", "src/terminals/common.hpp", "src/terminals/digit_characters.hpp", "src/terminals/escape.hpp", "src/terminals/escaped.hpp", "src/terminals/exact_matcher.hpp", "src/terminals/form_feed.hpp", "src/terminals/new_line.hpp", "src/terminals/range.hpp", "src/terminals/space_characters.hpp", "src/terminals/tab.hpp", "src/terminals/word_characters.hpp"]}
{"id": "C68", "title": "Searching on is searching the rest", "statement": "next() on a result finds what a new search of the part of the query behind that result would find.", "quantifier": "all patterns without ^, all queries and memories, all reachable results", "why_tests_cant": "Ranges over every pattern, query and iteration state.", "anchors": ["src/match_result.hpp:next", "src/match_result.hpp:match_result", "src/regex.hpp:match"]}
{"id": "C69", "title": "Tokenizing in a larger memory gives the same tokens", "statement": "What a tokenizer does without undefined behaviour on an input (the first token, every increment, the whole range) it does unchanged when the memory holding the input is part of a larger one: the same tokens in the same order with the same types and texts, at addresses moved by the bytes put in front.", "quantifier": "all lists of token and separator definitions that compile, all inputs, all memories around them, any number of increments", "why_tests_cant": "Ranges over every list of definitions, input, memory and history of increments.", "anchors": ["src/tokenization/iterator.hpp:iterator", "src/tokenization/tokenizer.hpp:match", "src/match_result.hpp:match_result"]}
{"id": "C70", "title": "Ranges of counts add up", "statement": "x{i}x{j,k}s and x{i+j,i+k}s give the same results on every query, likewise x{i}x{j,}s and x{i+j,}s (so x{2}x* is x{2,}), for greedy and possessive quantifiers, at the head of a pattern and after any p.", "quantifier": "all elements and non-capturing groups x without captures, all counts, all rests s, with or without ^, all queries and memories, every call", "why_tests_cant": "Ranges over all counts, patterns and queries.", "anchors": ["src/nodes/repeated.hpp:match", "src/nodes/greedy.hpp:match", "src/nodes/possessive.hpp:match", "src/operators/braces.hpp"]}
{"id": "C71", "title": "Redundant (?:...) may be left out", "statement": "In a pattern without captures, (?:x) around a single item (before any quantifier), (?:s) at the end of a branch, and (?:q) around some of the alternatives can be left out, at every depth (the last one at the top), without changing any result on any query.", "quantifier": "all patterns without captures, all queries and memories, every call", "why_tests_cant": "Ranges over every pattern and query.", "anchors": ["src/operators/round_brackets.hpp", "src/nodes/basic.hpp", "src/nodes/common.hpp:dfs"]}
{"id": "C72", "title": "A run's policy is irrelevant when what follows cannot start like it", "statement": "If no character can begin both x and what follows a quantified x, then writing the quantifier greedy (x+), lazy (x+?) or possessive (x++) makes no difference: matching, iterating and reading groups give the same answers on every query.", "quantifier": "all elements and groups x, all quantifiers with two bounds, all following patterns that cannot begin like x, all queries and memory contents", "why_tests_cant": "The claim compares patterns of unbounded size on every query; the library decides by computing sets of first characters at compile time, and a wrong set shows only on particular combinations of elements.", "anchors": ["src/nodes/greedy.hpp:optimize", "src/nodes/lazy.hpp:optimize", "src/nodes/possessive.hpp:match", "src/nodes/common.hpp:extract_admission_set"]}
{"id": "C73", "title": "x{n,n} is x{n}", "statement": "A quantifier whose two bounds are the same number n, greedy, lazy or possessive, gives the same results (matches, groups, iteration) as {n}, wherever it stands in the pattern.", "quantifier": "all elements and groups x, all counts n, all policies, all patterns around them, all queries and memories", "why_tests_cant": "Ranges over all counts, all surrounding patterns and all queries; the two spellings become different node types with different loops and different size and first-character metadata.", "anchors": ["src/nodes/repeated.hpp:match", "src/nodes/greedy.hpp:match", "src/nodes/lazy.hpp:match", "src/nodes/possessive.hpp:match", "src/operators/braces.hpp"]}
{"id": "C74", "title": "x{1} is x", "statement": "Asking for an element exactly once, x{1}, gives the same results (matches, groups, iteration) as writing x, wherever it stands in the pattern.", "quantifier": "all elements and groups x, all ways to write the count 1, all patterns around them, all queries and memories", "why_tests_cant": "Ranges over all surrounding patterns and all queries; the two spellings become different node types which leave different positions behind when what follows fails, and the search resumes from that position.", "anchors": ["src/nodes/repeated.hpp:match", "src/nodes/basic.hpp:match", "src/operators/braces.hpp", "src/match_result.hpp:next"]}
{"id": "C75", "title": "A choice of characters is a class", "statement": "A non-capturing group whose alternatives are single characters, escapes or one-item classes may be written as the bracket class of these items, anywhere in a pattern, under any quantifier: matches, groups, iteration and get_expression() stay the same.", "quantifier": "all patterns, all groups of this form at any depth, all quantifiers, all queries and memories", "why_tests_cant": "Ranges over all surrounding patterns; the two spellings are parsed by different code (brackets and parentheses) and carry different sizes, first-character sets and capture numbering until the optimiser has run.", "anchors": ["src/operators/round_brackets.hpp", "src/operators/square_brackets.hpp", "src/nodes/basic.hpp", "src/terminals/exact_matcher.hpp"]}
