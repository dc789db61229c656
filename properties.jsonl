{"id": "C01", "title": "Option name declaration is decoded the documented way", "statement": "For every comma-separated list of names passed to add_options()/option_description, the pieces become long names in order; only when there are at least two pieces and the last one is exactly one character long does that last piece become the short name '-c' (and is removed from the long names), and ',c' declares an option with a short name only. No piece is lost or reordered; one trailing comma is ignored; the empty declaration violates an assertion.", "quantifier": "every non-empty list of comma-free name pieces", "why_tests_cant": "Tests try a handful of spellings; the rule has to hold for any number and length of pieces.", "anchors": ["src/options_description.cpp: option_description::set_names", "include/boost/program_options/options_description.hpp: option_description"]}
{"id": "C02", "title": "Matching one typed name against one description is exact-name, wildcard or abbreviation, nothing else", "statement": "option_description::match answers full_match exactly when the (case-folded, if asked) typed name equals one of the non-empty long names or the short name; approximate_match exactly when it is not a full match and either a long name 'p*' is registered and the typed name starts with p, or guessing is on and the typed name is a prefix of a long name; otherwise no_match. The order of the long names does not matter.", "quantifier": "every typed name, description, and flag combination", "why_tests_cant": "The loop has early exit and overwritten intermediate results; only a proof covers every list of names.", "anchors": ["src/options_description.cpp: option_description::match"]}
{"id": "C03", "title": "Lookup: full match wins, a unique abbreviation resolves, anything else is reported as ambiguous with exactly the candidates", "statement": "options_description::find_nothrow returns the only fully matching option if there is exactly one; throws ambiguous_option listing precisely the keys of all full matches, in registration order, if there are two or more; with no full match returns the only approximate match, throws ambiguous_option listing all approximate matches if several, and returns null if nothing matches. find throws unknown_option exactly where find_nothrow returns null.", "quantifier": "every list of descriptions, every name, every flag combination", "why_tests_cant": "Combinations of full and approximate matches in any registration order are unbounded.", "anchors": ["src/options_description.cpp: options_description::find_nothrow, options_description::find"]}
{"id": "C04", "title": "Lookup does not depend on registration order", "statement": "Reordering the registered options never changes which option a typed name resolves to, nor whether lookup reports unknown or ambiguous.", "quantifier": "every permutation of every list of descriptions", "why_tests_cant": "Permutations of arbitrary option sets cannot be enumerated.", "anchors": ["src/options_description.cpp: options_description::find_nothrow"]}
{"id": "C05", "title": "Case-insensitive lookup ignores the case of the typed name", "statement": "With case-insensitive lookup of long and short names, two typed names that differ only in ASCII letter case resolve to the same option (or to the same error).", "quantifier": "every pair of names equal up to case, every description list", "why_tests_cant": "Quantifies over all spellings and all option sets.", "anchors": ["src/options_description.cpp: tolower_, option_description::match"]}
{"id": "C06", "title": "short_case_insensitive by itself does not make short options case-insensitive", "statement": "The documented effect of short_case_insensitive ('ignore the difference in case for short options') holds when long_case_insensitive is also given, but fails without it: the registered short name is folded while the typed one is not, so a typed upper-case short option matches nothing, even if an option is registered in exactly that spelling. With long_case_insensitive alone, an option registered with an upper-case short name only cannot be reached by any spelling, and typing it reaches the different, lower-case short option.", "quantifier": "every upper-case letter and every option set", "why_tests_cant": "The two style bits interact in a way the test-suite never separates; the failure is for a whole family of inputs.", "anchors": ["src/options_description.cpp: option_description::match", "include/boost/program_options/cmdline.hpp: short_case_insensitive"]}
{"id": "C07", "title": "Case folding has undefined behaviour exactly on non-ASCII bytes", "statement": "Case-sensitive lookup never executes undefined behaviour. Case-insensitive lookup passes plain char to tolower, so it is free of undefined behaviour if the typed name and the registered names are 7-bit ASCII, and any byte >= 0x80 in the typed name triggers it (when char is signed) as soon as one option is registered.", "quantifier": "every byte string and every description list", "why_tests_cant": "Undefined behaviour is not observable by a passing test.", "anchors": ["src/options_description.cpp: tolower_"]}
{"id": "C08", "title": "Canonical key of an option", "statement": "The key of a registered option in a parse result is the first long name of the option a token named; the typed spelling if that first long name contains '*'; and '-c' if it has only a short name. Which spelling (alias, abbreviation, short or long) of an option without '*' is used makes no difference to the result but for the original tokens. Conditions: every option has a non-empty name, min_tokens and max_tokens fit in an unsigned, and the style distinguishes case, or ignores it for long options and the option names are ASCII; no custom style parser.", "quantifier": "every description and every typed spelling", "why_tests_cant": "All aliases and spellings.", "anchors": ["src/options_description.cpp: option_description::key, option_description::canonical_display_name"]}
{"id": "C09", "title": "Style validation accepts exactly the consistent styles", "statement": "style(s) throws invalid_command_line_style exactly when long (or disguised long) options are enabled with neither long_allow_adjacent nor long_allow_next, or short options are enabled with neither short_allow_adjacent nor short_allow_next, or short options are enabled with neither dash nor slash; style 0 means default_style and is always accepted; an accepted non-zero style is used unchanged.", "quantifier": "every int used as style", "why_tests_cant": "2^32 bit patterns.", "anchors": ["src/cmdline.cpp: cmdline::style, cmdline::check_style"]}
{"id": "C10", "title": "The adjacent/next style bits have no effect on parsing", "statement": "Two accepted styles that differ only in long_allow_adjacent, long_allow_next, short_allow_adjacent, short_allow_next parse every command line to the same result. Hence (contrary to their documentation) '--name=value' is accepted with long_allow_adjacent off and '--name value' is accepted with long_allow_next off.", "quantifier": "every pair of such styles, every command line, every option set", "why_tests_cant": "An independence statement over all inputs.", "anchors": ["src/cmdline.cpp: cmdline::run, parse_long_option, parse_short_option", "include/boost/program_options/cmdline.hpp"]}
{"id": "C11", "title": "Command line parsing always terminates", "statement": "Without a user supplied style parser, run() ends after at most one outer iteration per token for every command line, style and option set, with a result or an exception.", "quantifier": "every token list, option set, style, additional parser", "why_tests_cant": "Termination for all inputs.", "anchors": ["src/cmdline.cpp: cmdline::run"]}
{"id": "C12", "title": "Token conservation", "statement": "With a style that does not include allow_long_disguise and no user parsers, whenever parsing succeeds the concatenation of original_tokens of the returned options is the command line itself, in order, minus at most one token, the terminator '--': nothing is lost, duplicated, altered or reordered.", "quantifier": "every command line, option set, style without disguise, positional description", "why_tests_cant": "All inputs; the tests look at a few lines only.", "anchors": ["src/cmdline.cpp: cmdline::run, finish_option, parse_long_option, parse_short_option, parse_dos_option, parse_terminator", "include/boost/program_options/option.hpp: original_tokens"]}
{"id": "C13", "title": "Everything after '--' is positional and verbatim", "statement": "When the parser reaches the token '--', every following token, whatever it looks like, becomes one positional option whose value is exactly that token; it is never interpreted as an option and never absorbed by a preceding option that could take more values. The same holds whatever the beginning contains, tokens \"--\" included: after an accepted beginning either the terminator has not been met yet (adding \"--\" alone changes nothing, and whatever follows an added \"--\" becomes positional), or it has, and then everything added becomes positional, verbatim.", "quantifier": "every list of tokens after the terminator, every preceding parse state and option set", "why_tests_cant": "All tails, including tails that look like options.", "anchors": ["src/cmdline.cpp: parse_terminator, cmdline::run (INT_MAX position key)"]}
{"id": "C14", "title": "Long option round trip", "statement": "For every registered name n without '=' and every non-empty value v (any characters, including '=', spaces and dashes), the token '--n=v' parses to one option with key the canonical key of n and value [v], and so does every list of such tokens (mixed with '-cv' and '/cv' tokens); '--n=' is rejected with empty_adjacent_parameter.", "quantifier": "every name, value and option set in which n resolves to an option that takes a value", "why_tests_cant": "All strings.", "anchors": ["src/cmdline.cpp: parse_long_option, finish_option"]}
{"id": "C15", "title": "Short option round trip", "statement": "In a style without allow_long_disguise, for every registered short option c that takes a value and every non-empty v, '-cv' parses to one option with the canonical key of '-c' and value [v] (dash style, case distinguished), and '/cv' does so in slash style.", "quantifier": "every short name, value and option set", "why_tests_cant": "All strings.", "anchors": ["src/cmdline.cpp: parse_short_option, parse_dos_option"]}
{"id": "C16", "title": "Sticky short options mean the same as separate ones", "statement": "With allow_sticky, in a case-sensitive style without allow_long_disguise, a group '-abc...z' whose members except the last are registered flags (max_tokens 0) parses to the same names, values and flags as the separate tokens '-a' '-b' ... '-z', and is rejected exactly when these are. In case-insensitive styles this fails: '-V' '-H' may be accepted while '-VH' is not.", "quantifier": "every group of any length, every option set", "why_tests_cant": "Groups of any length and any option set.", "anchors": ["src/cmdline.cpp: parse_short_option"]}
{"id": "C17", "title": "Every returned option satisfies its declared number of tokens", "statement": "In every successful parse, each option that came from a registered name carries at least min_tokens and at most max(min_tokens, max_tokens) values, for the description its key resolves to; options that take no value never carry one. Conditions: every option has a non-empty name, min_tokens and max_tokens fit in an unsigned, and the style distinguishes case, or ignores it for long options and the option names are ASCII; no custom style parser.", "quantifier": "every command line, option set (including user defined value semantics), style", "why_tests_cant": "All inputs.", "anchors": ["src/cmdline.cpp: finish_option, cmdline::run"]}
{"id": "C18", "title": "Parser results are sound: registered, flagged unregistered, or positional", "statement": "Every option in a successful result is exactly one of: a named option whose key is the canonical key of the registered option its typed name resolves to (unregistered=false, position_key=-1); only if allow_unregistered was requested, an option flagged unregistered whose name resolves to nothing; or a positional option. Unknown names are otherwise always reported as unknown_option. Conditions: every option has a non-empty name, min_tokens and max_tokens fit in an unsigned, and the style distinguishes case, or ignores it for long options and the option names are ASCII; no custom style parser.", "quantifier": "every command line, option set, style, additional parser", "why_tests_cant": "All inputs.", "anchors": ["src/cmdline.cpp: finish_option, cmdline::run"]}
{"id": "C19", "title": "Positional options are numbered consecutively and named by position only", "statement": "Positional options are numbered 0,1,2,... in order of appearance; with a positional description, the k-th one gets exactly name_for_position(k), independent of interleaved named options; if there are more than max_total_count of them parsing throws too_many_positional_options_error, and never otherwise for that reason.", "quantifier": "every parse result and every positional description", "why_tests_cant": "Any number of positionals and interleavings.", "anchors": ["src/cmdline.cpp: cmdline::run (last two loops)", "src/positional_options.cpp"]}
{"id": "C20", "title": "Positional description arithmetic", "statement": "After any sequence of add(name, n) calls with n >= 0 followed by at most one add(name, -1), position k is named by the block that covers it, max_total_count is the sum of the counts (or unlimited after -1), and name_for_position is defined exactly below max_total_count. Negative counts other than -1 are not rejected: add(name,-k) silently removes the k most recent positions.", "quantifier": "every sequence of add calls", "why_tests_cant": "All sequences.", "anchors": ["src/positional_options.cpp: positional_options_description::add, max_total_count, name_for_position"]}
{"id": "C21", "title": "What an option that needs a value may swallow", "statement": "When a registered option still needs a value, the next token is taken as the value unless it syntactically is an option AND the token itself (with its dashes) is a name known to the description; then missing_parameter is thrown. Consequently a following known short option '-b' is never swallowed, but a following known long option '--bar' always is (contrary to the comment in the code). So does the terminator '--', which then ends nothing.", "quantifier": "every pair of options and following token", "why_tests_cant": "All tokens and option sets.", "anchors": ["src/cmdline.cpp: finish_option"]}
{"id": "C22", "title": "Implicit values do not require adjacency", "statement": "The documentation of implicit_value says that an explicit value must be strictly adjacent. The parser instead gives an option with min_tokens < max_tokens every directly following non-option token up to max_tokens, and the rest are positional; for an option with an implicit value a following positional token becomes its value.", "quantifier": "every option with min_tokens < max_tokens, every run of following positional tokens", "why_tests_cant": "Refutes a documented guarantee for a family of inputs and states the actual rule for all.", "anchors": ["src/cmdline.cpp: cmdline::run (second pass)", "include/boost/program_options/value_semantic.hpp: implicit_value"]}
{"id": "C23", "title": "Unknown options pass through untouched", "statement": "With allow_unregistered and an empty description, collect_unrecognized(parse(args), include_positional) returns args minus the first '--'; in general it returns, in order, exactly the original tokens of the unregistered and positional options.", "quantifier": "every command line", "why_tests_cant": "All command lines.", "anchors": ["include/boost/program_options/detail/parsers.hpp: collect_unrecognized", "src/cmdline.cpp: cmdline::run"]}
{"id": "C24", "title": "An additional parser has priority and consumes exactly one token", "statement": "If the extra_parser maps a token that is at the head of the remaining command line to (name, value) with a non-empty name, the token yields one option with that name (canonicalised) and, if the string is non-empty, that value, with no original token, whatever the token looks like (even '--'), and if the option takes no more values the rest of the command line is parsed as if the token were not there; a parser returning an empty name everywhere changes nothing.", "quantifier": "every additional parser function, command line and option set", "why_tests_cant": "Quantifies over functions.", "anchors": ["src/cmdline.cpp: handle_additional_parser, cmdline::run"]}
{"id": "C25", "title": "Disguised long options do not keep the original token", "statement": "With allow_long_disguise, '-foo' and '/foo' that resolve to a registered option parse like '--foo', but original_tokens then contains '--foo', not the token that was typed (its documentation says 'the original unchanged tokens').", "quantifier": "every token and option set where the disguised name resolves", "why_tests_cant": "Family of inputs.", "anchors": ["src/cmdline.cpp: parse_disguised_long_option", "include/boost/program_options/option.hpp"]}
{"id": "C26", "title": "'--=value' silently becomes a positional argument", "statement": "The token '--=v' (v non-empty) is never rejected: it yields a positional option with value v, for every option set and style with allow_long.", "quantifier": "every non-empty v", "why_tests_cant": "Family of inputs.", "anchors": ["src/cmdline.cpp: parse_long_option, finish_option"]}
{"id": "C27", "title": "Parsing executes no out-of-bounds access when canonical keys are unambiguous, and does otherwise", "statement": "If every registered option's key resolves (without ambiguity) in lookup, run() executes no undefined behaviour (case-sensitive, or without an additional parser and with ASCII in the option names and in the tokens that start with '-' or '/'; the long names are not empty; min_tokens is below UINT_MAX, and max_tokens at most INT_MAX or UINT_MAX; fewer than 2^31-1 tokens; no user-defined style parser). If two options share a key, a sticky group can make run() read original_tokens[0] of an empty vector.", "quantifier": "every command line and option set", "why_tests_cant": "Undefined behaviour is invisible to tests that pass.", "anchors": ["src/cmdline.cpp: cmdline::run (catch block of the second pass)"]}
{"id": "C28", "title": "Config file round trip", "statement": "For every list of (name, value) pairs whose names are registered, contain no '=', '#', newline or outer blanks, and whose values contain no '#' or newline and no outer blanks, and whose lines do not look like '[...]', writing 'name=value' lines and parsing them yields exactly these options in order, with value [v], unregistered=false. (The option set has a long name for every option and no conflicting wildcards, see C32.)", "quantifier": "every such list", "why_tests_cant": "All lists and strings.", "anchors": ["src/config_file.cpp: common_config_file_iterator::get, trim_ws", "src/parsers.cpp: parse_config_file"]}
{"id": "C29", "title": "Sections only prefix names", "statement": "A line '[s]' makes every following 'name=value' line until the next section behave exactly like 's.name=value' outside any section (no extra dot if s already ends in one). (The option set has a long name for every option and no conflicting wildcards, see C32.)", "quantifier": "every section name and following lines", "why_tests_cant": "All strings.", "anchors": ["src/config_file.cpp: common_config_file_iterator::get"]}
{"id": "C30", "title": "Comments, blank lines and surrounding white space do not matter", "statement": "Appending a '#...' comment to a line, inserting blank or comment-only lines, and adding white space around a line, a name or a value never changes the result of parsing a config file. Nor does a newline at the end of the file. (Option sets as in C32.)", "quantifier": "every line and every file", "why_tests_cant": "All files.", "anchors": ["src/config_file.cpp: common_config_file_iterator::get, trim_ws"]}
{"id": "C31", "title": "Config file acceptance of names", "statement": "A name is accepted as registered exactly when it is the first long name of a registered option or a proper extension of a registered wildcard prefix ('p*'); otherwise it is rejected with unknown_option or, with allow_unregistered, returned flagged unregistered. Unlike on the command line, the bare prefix p itself is not accepted, nor are alternative long names.", "quantifier": "every registered set (any number of wildcards) and every name", "why_tests_cant": "The lookup uses ordered-set neighbours and relies on an invariant over all sets.", "anchors": ["src/config_file.cpp: allowed_option, add_option"]}
{"id": "C32", "title": "Conflicting wildcards are always detected", "statement": "Parsing a config file throws, whatever the file, exactly when two different registered wildcard prefixes are such that one is a prefix of the other, whatever the order and number of registered names (or when an option has no long name); otherwise the empty file parses. The message names two different registered wildcards, of which the first is part of a conflict; the second need not be.", "quantifier": "every set of registered names", "why_tests_cant": "The check only looks at two neighbours in an ordered set; completeness needs an argument for all sets.", "anchors": ["src/config_file.cpp: add_option, common_config_file_iterator constructor"]}
{"id": "C33", "title": "Empty section header is undefined behaviour", "statement": "A config file is parsed with undefined behaviour exactly when a line that is reached (the lines before it parse) reduces to '[]' after removing comment and blanks; that line dereferences rbegin() of an empty string.", "quantifier": "every config file", "why_tests_cant": "Undefined behaviour is not observable by a passing test.", "anchors": ["src/config_file.cpp: common_config_file_iterator::get"]}
{"id": "C34", "title": "Unparseable config lines are rejected", "statement": "Parsing throws invalid_config_file_syntax with the stripped line exactly when a line that is reached (the lines before it parse) is non-blank, not a section and has no '='.", "quantifier": "every file", "why_tests_cant": "All files.", "anchors": ["src/config_file.cpp: common_config_file_iterator::get"]}
{"id": "C35", "title": "Environment parser", "statement": "parse_environment(desc, prefix) returns, in environment order, one option (lower-cased rest of the name, [value]) for each variable whose name starts with the prefix and is longer than it, and nothing else (ASCII names); the value is everything after the first '='. With a name mapper, one option per variable mapped to a non-empty name. An environment string without '=' is a failed assertion. If the mapper throws for some variable, its exception ends the parsing.", "quantifier": "every environment and prefix / mapper", "why_tests_cant": "All environments.", "anchors": ["src/parsers.cpp: parse_environment, prefix_name_mapper", "include/boost/program_options/environment_iterator.hpp"]}
{"id": "C36", "title": "First source wins for non-composing options", "statement": "After any sequence of successful store() calls on a new map, an option that is non-composing in the first source that mentions it has exactly the value produced by that source (all its occurrences there, in order, starting from nothing) and defaulted() is false; what earlier sources (which do not mention it) and later sources say does not matter.", "quantifier": "every sequence of sources, every option set", "why_tests_cant": "Arbitrary histories.", "anchors": ["src/variables_map.cpp: store", "include/boost/program_options/variables_map.hpp: m_final"]}
{"id": "C37", "title": "Composing options accumulate across sources", "statement": "After any sequence of successful store() calls, a composing option has the value obtained by parsing all its occurrences from all sources in order; for vector<T> that is the concatenation.", "quantifier": "every sequence of sources", "why_tests_cant": "Arbitrary histories.", "anchors": ["src/variables_map.cpp: store", "include/boost/program_options/detail/value_semantic.hpp: validate(vector)"]}
{"id": "C38", "title": "Defaults apply exactly when nothing was given", "statement": "After any sequence of successful store() calls, an option that no source mentions holds the first default the stored descriptions declare for its name, with defaulted() true, and is absent if there is none; as soon as one source mentions it, it holds a given value and defaulted() is false.", "quantifier": "every sequence of sources", "why_tests_cant": "Arbitrary histories.", "anchors": ["src/variables_map.cpp: store"]}
{"id": "C39", "title": "store ignores what it cannot name and leaves unrelated entries alone", "statement": "Unregistered options and unnamed positional options in a source have no effect whatsoever on the map or the outcome of store(), and no store() call - successful or not - changes an entry that the source does not mention, unless it creates it because the description declares it.", "quantifier": "every source, map and description", "why_tests_cant": "Frame property over all states.", "anchors": ["src/variables_map.cpp: store"]}
{"id": "C40", "title": "Required options", "statement": "After any sequence of successful store() calls, if some option declared required in a stored description has no value (explicit or default), notify() throws required_option for the first such option in key order, under the longest name it is displayed with, without having run any notifier or written any variable. A command line source displays an option the way it can be written there ('--name', '-name', '-x' or '/x', depending on the style). If none is missing, notify() fails only if some notification does.", "quantifier": "every history of stores followed by notify", "why_tests_cant": "Arbitrary histories.", "anchors": ["src/variables_map.cpp: store, variables_map::notify"]}
{"id": "C41", "title": "notify delivers every final value exactly once, in key order", "statement": "A successful notify() performs, for each stored option in increasing key order, the write to its variable and then its notifier call, exactly once, with the stored value; entries without semantics are skipped. If a notifier throws, exactly the effects of the smaller keys (and of that key's store_to) have happened.", "quantifier": "every map and every set of notifiers, every throwing point", "why_tests_cant": "All maps and crash points.", "anchors": ["src/variables_map.cpp: variables_map::notify", "include/boost/program_options/detail/value_semantic.hpp: typed_value::notify"]}
{"id": "C42", "title": "A failed store leaves traces", "statement": "store() has no strong exception guarantee: if it throws at some option, the options before it in the source have been stored (but are not final), the failing one has lost its default and holds whatever its semantics left; the set of final options and the required names are unchanged. After such a failure storing a corrected source can throw multiple_occurrences although a fresh map accepts it.", "quantifier": "every source, every failing position, every map", "why_tests_cant": "Every crash point.", "anchors": ["src/variables_map.cpp: store"]}
{"id": "C43", "title": "Chained maps", "statement": "vm[name] over a chain of maps returns the first explicit (non-empty, non-defaulted) value in the chain if there is one, otherwise the first non-empty (defaulted) value, otherwise an empty value.", "quantifier": "every chain of maps of any length and every name", "why_tests_cant": "Chains of any length.", "anchors": ["src/variables_map.cpp: abstract_variables_map::operator[]"]}
{"id": "C44", "title": "Single-valued options reject a second occurrence - except through an implicit value", "statement": "For scalar, optional and untyped options a second occurrence in one source throws multiple_occurrences; but if the option has an implicit value, an occurrence without value never throws and silently replaces whatever was stored.", "quantifier": "every pair of occurrences and value types", "why_tests_cant": "All values.", "anchors": ["include/boost/program_options/detail/value_semantic.hpp: typed_value::xparse, validate", "src/value_semantic.cpp: check_first_occurrence, untyped_value::xparse"]}
{"id": "C45", "title": "What the command line parser accepts, store can look up", "statement": "In case-sensitive styles without guessing, in case-sensitive styles for options whose first long name has no '*', and in case-insensitive styles for such options, every registered named option returned by the parser is found again by store()'s exact lookup. An abbreviation of a wildcard (default style), or a wildcard typed in another case, is accepted by the parser although store() then throws unknown_option.", "quantifier": "every command line and option set", "why_tests_cant": "Relates two components for all inputs.", "anchors": ["src/cmdline.cpp: finish_option", "src/variables_map.cpp: store", "src/options_description.cpp: key"]}
{"id": "C46", "title": "Boolean values", "statement": "A bool option accepts exactly on/yes/1/true and off/no/0/false in any letter case, and the empty string or absence of a token as true; every other ASCII token throws invalid_bool_value with the token in lower case; more than one token throws; a token with a byte above 127 is undefined behaviour (tolower of a negative char).", "quantifier": "every token list", "why_tests_cant": "All strings.", "anchors": ["src/value_semantic.cpp: validate(bool)"]}
{"id": "C47", "title": "Vector values", "statement": "A vector<T> option appends the converted tokens of every occurrence in order; if some token does not convert, exactly the tokens before it have been appended when the exception leaves. If a source is UTF-8, all tokens of an occurrence are converted to the local encoding first: if one cannot be, nothing is appended.", "quantifier": "every token list and element type", "why_tests_cant": "Any number of tokens and failing position.", "anchors": ["include/boost/program_options/detail/value_semantic.hpp: validate(vector)"]}
{"id": "C48", "title": "bool_switch", "statement": "An option declared with bool_switch() is false (defaulted) if no source mentions it; on a command line it never takes a value; the result of parsing a command line with one occurrence stores true, and one with more occurrences cannot be stored.", "quantifier": "every command line and option set containing it", "why_tests_cant": "End to end over all command lines.", "anchors": ["src/value_semantic.cpp: bool_switch"]}
{"id": "C49", "title": "split_winmain inverts Windows quoting", "statement": "For every list of arguments (any characters, including quotes, backslashes, blanks, and empty arguments), quoting each by the Windows convention and joining with blanks, then split_winmain, returns the list. More generally every text whatever, well quoted or not, has exactly one reading by the Windows rules (2n or 2n+1 backslashes before a double quote stand for n, and the quote is then a delimiter or a character; other backslashes are ordinary; white space outside quotes separates; an unclosed quote lasts to the end), and split_winmain returns it.", "quantifier": "every list of strings", "why_tests_cant": "All strings; backslash/quote runs of any length.", "anchors": ["src/winmain.cpp: split_winmain"]}
{"id": "C50", "title": "split_unix inverts quoting, rejects exactly bad escapes, and loses empty arguments", "statement": "For every list of non-empty arguments, escaping separators, quotes and escapes and joining with a separator, then split_unix, returns the list; it never returns an empty token, so a list with an empty argument can never be recovered. Every text either consists of arguments (unclosed quotes included), and split_unix returns those that are not empty, or has an escape character at the end or before a character that is neither special nor 'n', and split_unix throws with the message for this.", "quantifier": "every list of strings", "why_tests_cant": "All strings.", "anchors": ["src/split.cpp: split_unix"]}
{"id": "C51", "title": "Error messages: what they say, that they never crash, and when what() hangs", "statement": "Every error thrown by the parsers, by store and by notify can be shown: computing what() never throws and is never undefined (given user supplied parsers, semantics and notifiers whose own errors can be shown; the library's semantics qualify). If no option name, value or line in the error contains a placeholder and no alternative contains '%', what() terminates and is exactly the text for that kind of error with the option named as written on the command line, the rejected value, the line and the sorted distinct alternatives. Otherwise it need not terminate: the unknown argument '--%canonical_option%', or a rejected value '%value%', makes what() loop forever.", "quantifier": "every error object, every input of the throwing functions, every style", "why_tests_cant": "Non-termination cannot be shown by a test, and that the message is right needs all errors, names and values.", "anchors": ["src/value_semantic.cpp: replace_token, substitute_placeholders"]}
{"id": "C52", "title": "Help text wrapping terminates, respects the line width and loses nothing but line-break blanks", "statement": "Every paragraph of a description with at most one tab, close enough to its beginning, is written in exactly one way: no line exceeds the line length minus one, continuation lines are indented to the description column (plus the position of the tab), lines are broken next to a blank unless the word that is split fills at least half of the line, at each break at most one blank is dropped and no visible character is lost, added or moved. In the help of an option only the line with its name can be longer. A second tab in a paragraph is reported as an error; a tab that is not on the first line fails an assertion, or is ignored with NDEBUG.", "quantifier": "every paragraph, column and line length", "why_tests_cant": "All texts and widths.", "anchors": ["src/options_description.cpp: format_paragraph"]}
{"id": "C53", "title": "Every option appears exactly once in the help", "statement": "However options and groups were added (nested to any depth), print writes exactly one text: caption, the options that are in no group, in order, then each group after an empty line. Every registered option is shown exactly once. If no column is given, descriptions of all groups start in the same column: all names fit to the left of it unless the minimum description length forbids that, and it is at most one column per nesting level further right than needed; each level of nesting does move it by one column if there is room.", "quantifier": "every tree of options_description built with add, and every column", "why_tests_cant": "Any nesting.", "anchors": ["src/options_description.cpp: options_description::add, print"]}
{"id": "C54", "title": "Groups do not change parsing", "statement": "Adding an options_description as a group makes exactly its options available to lookup, after those already there, in order, however groups are nested; the result is the same as if each option had been added individually.", "quantifier": "every tree", "why_tests_cant": "Any nesting.", "anchors": ["src/options_description.cpp: options_description::add"]}
{"id": "C55", "title": "Character conversion is independent of the 32-character buffer", "statement": "For every conversion facet that keeps the codecvt contract for some character code whose characters take between one and 32 target units, converting a string of any length by pieces of 32 gives the conversion of the whole string (which is unique, and the same for every sufficient buffer size), or, exactly if the string has no conversion (invalid or incomplete characters), the error 'character conversion failed'. The library's UTF-8 facet meets these conditions in both directions.", "quantifier": "every string, every character code and every conversion facet obeying the codecvt contract", "why_tests_cant": "Lengths and boundary positions are unbounded.", "anchors": ["src/convert.cpp: detail::convert"]}
{"id": "C56", "title": "UTF-8 round trip", "statement": "to_utf8 writes the UTF-8 form (RFC 2279, one to six octets) of every wide string with code units below 2^31, from_utf8 reads it, so from_utf8(to_utf8(w)) = w and different strings have different forms. The converse does not hold: overlong forms are accepted and change.", "quantifier": "every wide string with code units below 2^31", "why_tests_cant": "All strings.", "anchors": ["src/convert.cpp: to_utf8, from_utf8", "src/parsers.cpp: woption_from_option"]}
{"id": "C57", "title": "Parsing is compositional for complete options", "statement": "If every token of a prefix of the command line writes an option completely (a value option with an adjacent value and max_tokens 1, a flag, or a token the additional parser maps to such an option), then parsing prefix followed by rest gives exactly the options of the prefix, one per token, followed by the result of parsing rest alone; and if parsing rest fails, it fails in the same way.", "quantifier": "every prefix of complete options, every rest, option set and style", "why_tests_cant": "Quantifies over all prefixes and all rests, including failing ones.", "anchors": ["src/cmdline.cpp: cmdline::run, cmdline::finish_option"]}
{"id": "C58", "title": "A config file means what its lines say", "statement": "Every line of a config file says exactly one of: nothing, a section, an assignment, or something unparseable; every file is exactly one list of lines (with or without a final newline). The result of parse_config_file is determined by what the lines say, read from the first to the last: assignments yield options named section + name, in order; the first unparseable line, empty section header or (unless allowed) unregistered name ends the parse with its error.", "quantifier": "every file content and option set without conflicting wildcards", "why_tests_cant": "Quantifies over all file contents; gives the complete meaning, not samples of it.", "anchors": ["src/config_file.cpp: common_config_file_iterator::get, allowed_option", "src/parsers.cpp: parse_config_file"]}
{"id": "C59", "title": "No type confusion between value semantics", "statement": "With the value semantics of the library, notify() never dereferences a null pointer, whatever types a name stands for in the different sources and whichever store() calls failed before. store() itself is defined if every name stands for one type in all sources (except for boolean values that are not ASCII); if a name stands for a scalar in one source and for a vector in another, it can fail an assertion.", "quantifier": "all sequences of store() calls, successful or failing, with arbitrary descriptions and sources", "why_tests_cant": "the stored boost::any and the semantics that interprets it are updated separately; that they always agree is an invariant over all histories", "anchors": ["src/variables_map.cpp:store", "src/variables_map.cpp:variables_map::notify", "include/boost/program_options/detail/value_semantic.hpp:typed_value::notify", "include/boost/program_options/detail/value_semantic.hpp:validate"]}
{"id": "C60", "title": "Printing help is safe", "statement": "Printing succeeds for every tree of options whose root reserves at least two columns for descriptions, whose groups have lines no shorter than the root's, and whose descriptions have at most one tab per paragraph, at the beginning. With one column reserved and a long name, or a group with shorter lines, an assertion fails; with NDEBUG the former runs off the end of the text.", "quantifier": "every tree of options and groups", "why_tests_cant": "Widths, names, texts and nesting are unbounded; the unsigned arithmetic fails only at boundaries.", "anchors": ["src/options_description.cpp: options_description::get_option_column_width, print, format_description, format_paragraph"]}
{"id": "C61", "title": "Every value comes from its own token, in order", "statement": "With no user-supplied parsing functions, the values of the options a command line parse returns, read from the first option to the last, come from the tokens of the command line in their order: each token supplies at most one value, and that value is either the whole token or the non-empty text attached to an option name inside it ('--name=value', '-xvalue', the end of a sticky group, '/xvalue', '-name=value' in disguised style). No value is invented, shared between options, or reordered.", "quantifier": "every option description, style, positional description and every list of tokens", "why_tests_cant": "Ranges over all descriptions, styles and token lists; the multi-pass post-processing could reorder or duplicate values for rare combinations.", "anchors": ["src/cmdline.cpp: cmdline::run", "src/cmdline.cpp: cmdline::finish_option", "src/cmdline.cpp: cmdline::parse_long_option", "src/cmdline.cpp: cmdline::parse_short_option", "src/cmdline.cpp: cmdline::parse_dos_option", "src/cmdline.cpp: cmdline::parse_disguised_long_option"]}
{"id": "C62", "title": "Wide command lines behave like their UTF-8 form", "statement": "Parsing a wide character command line has the same outcome (options, exception) as parsing its UTF-8 form; values and original tokens of the result are the wide forms of the narrow ones, so no wide token is lost, altered or reordered (except one '--'), and collect_unrecognized agrees. The condition is that no byte outside ASCII is taken for a short option: short options are off, or unregistered options are not allowed and no non-ASCII short option is declared. Without it the claim is false: with allow_unregistered, '-' followed by a non-ASCII letter is split in the middle of the character and the wide parser throws although the narrow one succeeds.", "quantifier": "every wide command line over characters below 2^31, every description and style (conditions as stated)", "why_tests_cant": "Ranges over all wide texts and descriptions; tests use a handful of non-ASCII literals.", "anchors": ["include/boost/program_options/detail/parsers.hpp: basic_command_line_parser<charT>::run", "src/parsers.cpp: woption_from_option", "src/parsers.cpp: basic_parsed_options<wchar_t>::basic_parsed_options", "src/convert.cpp: to_internal", "include/boost/program_options/detail/parsers.hpp: collect_unrecognized"]}
{"id": "C63", "title": "Wide config files behave like their UTF-8 form", "statement": "Parsing a wide character config file has the same outcome as parsing the UTF-8 form of its text, and the values of the result are exactly the wide forms of the narrow values; unlike for command lines this needs no condition.", "quantifier": "every wide text over characters below 2^31, every description, with and without allow_unregistered", "why_tests_cant": "Ranges over all texts: comments, blanks, sections and '=' anywhere between multi-byte characters.", "anchors": ["src/parsers.cpp: parse_config_file", "include/boost/program_options/detail/config_file.hpp: basic_config_file_iterator<charT>::getline", "src/config_file.cpp: common_config_file_iterator::get"]}
{"id": "C64", "title": "Wide sources deliver the wide values to the options", "statement": "After storing wide sources, an option declared with wide values holds the conversions of exactly the wide values the sources reported: a single-valued option that of its first source, a composing vector those of all sources in order; every wide token that denotes a value of the type is accepted. An option with narrow values sees the text in the local encoding. Exceptions, proved as such: a boolean with a character above 255 is undefined behaviour; a narrow std::string declared with wvalue stores a value of another type, so notify dereferences a null pointer; a vector of narrow strings declared with wvalue accepts no value.", "quantifier": "every history of wide sources, every value type built from lexically cast types, bool, vector and optional, arbitrary conversions of the locale and arbitrary lexical_cast", "why_tests_cant": "Ranges over all histories of stores, all texts, all types and all locale conversions.", "anchors": ["src/variables_map.cpp: store", "src/value_semantic.cpp: value_semantic_codecvt_helper<wchar_t>::parse", "src/value_semantic.cpp: value_semantic_codecvt_helper<char>::parse", "src/value_semantic.cpp: validate", "include/boost/program_options/detail/value_semantic.hpp: typed_value::xparse"]}
{"id": "C65", "title": "Wide split_winmain inverts quoting", "statement": "Splitting a wide Windows command line never fails and gives the wide forms of the arguments of its UTF-8 form; so it inverts Windows quoting for wide arguments too.", "quantifier": "every wide command line over characters below 2^31", "why_tests_cant": "Ranges over all texts; multi-byte characters next to quotes, backslashes and blanks.", "anchors": ["src/winmain.cpp: split_winmain"]}
{"id": "C66", "title": "Chains of value setters", "statement": "For every chain of setter calls on value<T>(address) (default_value, implicit_value with or without text, value_name, notifier, composing, multitoken, zero_tokens, required), in any order and with repetitions: the option is required/composing iff some call says so; the default value, the implicit value, the displayed name and the notifier are those of the last call giving one; max_tokens is unbounded if multitoken was called, else 0 if zero_tokens was called, else 1; min_tokens is 0 iff zero_tokens or implicit_value was called, else 1; an occurrence without tokens stores the implicit value if there is one and in every other case no setter changes how tokens are read; notification assigns the variable and then calls the notifier; help shows arg, 'arg (=default)', '[=arg(=implicit)]' or '[=arg(=implicit)] (=default)'. Two chains that agree on the last calls and the set of flags declare the same value. A chain throws exactly the exception of its first failing conversion of a value to text. bool_switch is bool with default false and zero_tokens.", "quantifier": "all chains of setter calls (any length and order), all types, all values and texts, all conversions from value to text, all notifiers", "why_tests_cant": "Tests use a few fixed chains; the claim is about every order and repetition of calls.", "anchors": ["include/boost/program_options/value_semantic.hpp: typed_value::default_value, implicit_value, value_name, notifier, composing, multitoken, zero_tokens, required, min_tokens, max_tokens", "include/boost/program_options/detail/value_semantic.hpp: typed_value::name, xparse, notify", "src/value_semantic.cpp: bool_switch"]}
{"id": "C67", "title": "Configuring and running a command_line_parser", "statement": "A chain of calls options/positional/style/extra_parser/extra_style_parser/allow_unregistered on a command_line_parser is accepted iff every style in it is 0 or consistent (otherwise the first bad one throws invalid_command_line_style). run() then parses the arguments with the settings of the last call of each kind (style 0 meaning the default style, no call meaning default style, no positional description, no extra parsers, unregistered options rejected), whatever the order of the calls. A second run() on the same object succeeds and returns no options, whatever is called in between. run() without options() violates an assertion. parse_command_line(argc, argv, ...) parses the argc-1 strings after the first pointer, never reads the first pointer or what follows them, and with argc = 0 parses nothing.", "quantifier": "all argument vectors, all chains of calls, all styles, all user supplied parsers, all argv arrays", "why_tests_cant": "Every order and repetition of calls and every style value; use of an object a second time is not tested.", "anchors": ["include/boost/program_options/detail/parsers.hpp: basic_command_line_parser, parse_command_line", "src/cmdline.cpp: cmdline::init, cmdline::style, cmdline::run"]}
{"id": "C68", "title": "add_options() declares exactly the listed options", "statement": "A chain add_options()(...)(...) with non-empty names appends, after the options already present and in the order written, exactly one option per pair of parentheses, whose names are the comma separated pieces (C01), whose description is the given text or empty and whose semantics is the given one or, in the two string form, a flag without value; caption, widths and groups do not change; one chain or several make no difference. An empty name violates an assertion. A value attached to an option that takes none ('--name=value', '/cvalue') is rejected with extra_parameter wherever it stands before '--', after any arguments that parse.", "quantifier": "all chains of declarations, all existing descriptions, all command lines", "why_tests_cant": "Every declaration string and chain, and every command line around the offending token.", "anchors": ["src/options_description.cpp: options_description_easy_init::operator(), option_description::set_names, options_description::add", "src/cmdline.cpp: cmdline::finish_option"]}
{"id": "C69", "title": "What the accessors of an error return", "statement": "get_option_name() of an error about an option is defined and is the one name its message shows: for an unknown or ambiguous option what was written, else the canonical name with the prefix of the style (in styles with short options only, '-' or '/' and the first letter of the quoted token). For an unknown option on the command line, after any arguments that parse, it is the token as written; in a config file, the section followed by the name. tokens() of the error for a malformed config file line is the first malformed line, without comment and surrounding blanks. In styles with short options only, if the value of '-x' is missing because '-y' follows, get_option_name() is '-y', not '-x' (refuted expectation).", "quantifier": "all errors the library throws, all command lines and config files, all descriptions and styles", "why_tests_cant": "Every command line, file and description; tests look at a handful of messages in the default style.", "anchors": ["include/boost/program_options/errors.hpp: error_with_option_name::get_option_name, invalid_syntax::tokens, invalid_config_file_syntax::tokens", "src/value_semantic.cpp: error_with_option_name::get_canonical_option_name", "src/cmdline.cpp: cmdline::finish_option", "src/config_file.cpp: common_config_file_iterator::get"]}
{"id": "C70", "title": "Config file given by name", "statement": "parse_config_file(filename) returns options only if the file could be opened and was read without a stream failure, and then exactly those of parse_config_file on its text. Otherwise it throws: the error of the part that could be read (the whole lines before the failure) if that is malformed, else reading_file with the name of the file in its message.", "quantifier": "all files, all points at which reading fails, all descriptions", "why_tests_cant": "Read failures at arbitrary points cannot be produced by tests.", "anchors": ["src/parsers.cpp: parse_config_file", "include/boost/program_options/errors.hpp: reading_file"]}
{"id": "C71", "title": "No command line is rejected without a reason in it", "statement": "Whenever the command line parser throws (without an extra_style_parser), either there are more positional arguments than the positional description allows (too_many_positional_options_error), or some token on the command line justifies the class of the error given the tokens after it: it names an option that does not exist (and unregistered options are not allowed), it makes the parser look up a name with several matches (and the error lists these), it ends in '=' after a long option, it attaches a value to an option that takes none, or it names an option for which too few tokens follow, or one of the needed tokens is the name of an option, or which stands before the end of a group of short options. The error quotes a token of the command line (the token, the name in it, or the token with '--' as its first characters), and an error about a missing or superfluous value names, in styles with long options, the option concerned by its canonical name.", "quantifier": "all command lines, all descriptions, styles, positional descriptions and additional parsers", "why_tests_cant": "It is a claim about every rejection of every command line.", "anchors": ["src/cmdline.cpp: cmdline::run, cmdline::finish_option, cmdline::parse_long_option, cmdline::parse_short_option, cmdline::parse_disguised_long_option"]}
{"id": "C72", "title": "The case_insensitive member of parsed options", "statement": "After parsing, case_insensitive of every option is whether the style has long_case_insensitive, if its string_key is long (two or more characters and not '-' and a character), and whether it has short_case_insensitive otherwise (also for positional arguments without name).", "quantifier": "all command lines, descriptions and styles, also with user supplied parsers", "why_tests_cant": "No test reads the member; the claim is about every parsed option.", "anchors": ["src/cmdline.cpp: cmdline::run", "include/boost/program_options/option.hpp: basic_option"]}
{"id": "C73", "title": "Which value a variable ends up with", "statement": "In a program that stores sources with one description and then calls notify without exceptions, the variable bound to a non-composing option with its own key and variable is assigned exactly once, with the value of the first source that mentions the option; if none does, with the default value; and if there is no default it is not assigned at all. For the usual program (command line, then config file), in terms of the text: if a token of the command line spells the option with a value, the variable gets the conversion of that value; otherwise, if the config file assigns to the option (in whatever section), the conversion of that value; otherwise the default. The variable of a composing vector option gets the values of the command line followed by those of the config file.", "quantifier": "all descriptions, option types and conversions, all command lines made of tokens that spell options with values, all config files without unregistered names, all histories of sources", "why_tests_cant": "It composes parsing, storing and notification for all texts and descriptions.", "anchors": ["src/variables_map.cpp: store, notify", "src/cmdline.cpp: cmdline::run", "src/config_file.cpp: common_config_file_iterator::get", "include/boost/program_options/detail/value_semantic.hpp: typed_value::notify"]}
{"id": "C74", "title": "The order of different options does not matter", "statement": "store succeeds if and only if each option mentioned (and not decided by an earlier source) by itself is found and all its occurrences parse one after another. So histories of sources that say the same about every option, in whatever order they mention different options, give the same entries and the same result and effects of notify; and reordering tokens that spell different options on the command line, or lines that assign to different options in the config file, changes nothing in the effects of the usual program.", "quantifier": "all sources, histories, descriptions and value semantics; all command lines of tokens that spell options with values; all config files", "why_tests_cant": "It quantifies over all interleavings of options.", "anchors": ["src/variables_map.cpp: store, notify"]}
{"id": "C75", "title": "Sources about different options commute", "statement": "Two adjacent sources with the same description that mention no option in common can be stored in either order: both orders succeed or fail alike and give the same entries, and the same effects of notify unless a required option is missing. If they have an option in common the order matters.", "quantifier": "all histories and pairs of sources", "why_tests_cant": "It quantifies over all pairs of sources and all histories around them.", "anchors": ["src/variables_map.cpp: store, notify"]}
{"id": "C76", "title": "Values can be read as the type of their option", "statement": "If all sources have been stored without an exception and each name stands for one type, then for every name for which count() is not 0, as<T>() with the type of the option gives the stored value, also through a chain of maps. With any other type, and for names without entry, as<T>() throws bad_any_cast. After a store() that has thrown, a name may be counted and yet not readable as its own type.", "quantifier": "all histories of store calls with options of the library, all names and types", "why_tests_cant": "It is an invariant of every sequence of sources, options and values.", "anchors": ["include/boost/program_options/variables_map.hpp: variable_value::as, variables_map::get", "src/variables_map.cpp: store"]}
{"id": "C77", "title": "Adding a description takes a snapshot", "statement": "In a program that adds no description to itself, every options_description behaves as a value of its own: add(desc) and copying take a snapshot, and later calls on one variable never show in another, whatever was added to what, although the implementation shares objects. Adding a description that has options to itself never returns.", "quantifier": "all sequences of constructions, copies and additions of options and descriptions", "why_tests_cant": "It ranges over all ways in which descriptions can be built from each other; aliasing may show only after a particular sequence of calls.", "anchors": ["src/options_description.cpp: options_description::add"]}
{"id": "C78", "title": "Lookup through next()", "statement": "operator[] follows the maps linked by next(). If the chain ends, the result is that of C43 for the list of its maps. If a map with an explicit value is reached, the first such value is the result, even if the chain is circular. If the chain is circular and has no explicit value for the name, the lookup never returns. next() changes the continuation of its own map only.", "quantifier": "all memories of maps with arbitrary links, all names", "why_tests_cant": "It ranges over all shapes of links, including cycles, and non-termination cannot be observed by a test.", "anchors": ["src/variables_map.cpp: abstract_variables_map::operator[], abstract_variables_map::next"]}
{"id": "C79", "title": "Config files read from streams", "statement": "parse_config_file(istream) gives the result of parsing the text the stream delivers: all of its text; the whole lines only, if a read error breaks the stream off (the error goes unnoticed and an unfinished line is lost); nothing, if the stream is at its end or has failed before. After success the stream is exhausted, and is bad exactly if it was bad or a read error ended it. After an exception the stream stands directly behind the line at fault: all lines before it are correct, and parsing up to and including that line gives this error (unless the description is at fault, then nothing has been read). Wide streams likewise give the result of parsing the text they deliver. A wide stream whose text is, in UTF-8, the text of a narrow stream in the same state gives the corresponding result or the same error, and both are left in the same state at the same place.", "quantifier": "all streams (text, point of failure, state flags), all descriptions", "why_tests_cant": "It ranges over all texts and all points at which reading can fail.", "anchors": ["include/boost/program_options/detail/config_file.hpp: basic_config_file_iterator::getline", "include/boost/program_options/eof_iterator.hpp: eof_iterator", "src/parsers.cpp: parse_config_file"]}
{"id": "C80", "title": "The array of the environment", "statement": "parse_environment reads exactly the strings before the terminating null pointer of environ. Without a terminator it reads beyond the end of the array. If environ itself is null, as after clearenv(), it dereferences a null pointer.", "quantifier": "all arrays of strings, all name mappers, all descriptions", "why_tests_cant": "It ranges over all environments; reading beyond the array need not show in a test.", "anchors": ["include/boost/program_options/environment_iterator.hpp: environment_iterator", "src/parsers.cpp: parse_environment"]}
{"id": "C81", "title": "clear, erase and notify in arbitrary programs", "statement": "Whatever has been done with a variables_map (store, notify, clear, insert, erase, assignments to values, exceptions caught), after clear() it behaves as a new one. notify() throws required_option exactly if an option required by a source stored since the last clear() has no value; otherwise it notifies the entries in the order of their names and passes over entries the program has inserted itself. Erasing an entry does not undo a store: a value stored for a non-composing option keeps later sources away even after it has been erased, only the default comes back.", "quantifier": "all sequences of calls on a map", "why_tests_cant": "It ranges over all histories of calls, including failed ones.", "anchors": ["src/variables_map.cpp: variables_map::clear, variables_map::notify, store", "include/boost/program_options/variables_map.hpp: variables_map"]}
{"id": "C82", "title": "Values a program puts into the map itself", "statement": "An entry that the program has inserted is kept by all sources that do not mention its name, also if they have a default for it. A value the program has assigned to an entry is kept likewise; the entry stays a default if it was one, and keeps its notifier. A value marked as defaulted gives way to the first source that mentions it. If it is not marked so, a source that gives a value to a scalar option of this name cannot be stored, and the entry keeps its value.", "quantifier": "all histories, names, values and sources", "why_tests_cant": "It ranges over all histories and sources.", "anchors": ["src/variables_map.cpp: store", "include/boost/program_options/variables_map.hpp: variables_map, variable_value"]}
{"id": "C83", "title": "split_unix on wide strings", "statement": "For wide strings split_unix obeys the same rules as for strings (C50): every text consists of arguments, of which the non-empty ones are returned, or has a bad escape and is rejected; every list of arguments can be written. If separators, quotes and escapes are ASCII, as the default ones are, then splitting a wide text and splitting its UTF-8 form give the same arguments or the same error. With a separator byte outside ASCII the narrow splitting can cut characters in two.", "quantifier": "all texts, separators, quotes and escapes", "why_tests_cant": "It ranges over all texts and all sets of special characters; a multi-byte character may stand anywhere.", "anchors": ["src/split.cpp: split_unix", "include/boost/program_options/parsers.hpp: split_unix"]}
{"id": "C84", "title": "The language of command lines", "statement": "The command lines the parser accepts, and what it returns for them, are exactly those described by a grammar: a token stands for an option claimed by the additional parser, else a long option, else a disguised long option, else a group of short options, else a slash option, as far as the style allows them; an option takes as many of the following tokens as it needs beyond the values in its own token, which must not look like options unless they name none; '--' ends the options; everything else is an argument; options with room take the arguments directly behind them; the remaining arguments are numbered and named by position. No command line has two readings, and one that has none is rejected with an exception (where there is no undefined behaviour, C27). Parsers with a custom style parser are excluded.", "quantifier": "all styles, descriptions, positional descriptions, additional parsers and command lines shorter than 2^31-1 tokens", "why_tests_cant": "It is an equivalence over all command lines: tests show single readings, not that nothing else is accepted and nothing is read another way.", "anchors": ["src/cmdline.cpp: cmdline::run, finish_option, parse_long_option, parse_short_option, parse_dos_option, parse_disguised_long_option, parse_terminator, handle_additional_parser", "src/positional_options.cpp: name_for_position"]}
{"id": "C85", "title": "The encoding of the locale", "statement": "to_local_8_bit writes a text in the encoding of the global locale or throws std::logic_error if it cannot be written in it; from_local_8_bit reads a text in this encoding or throws if it is not one. If the locale reads the characters it writes, what to_local_8_bit returns is read back unchanged, and different texts have different forms. A narrow option given wide values gets them in the encoding of the locale, and a wide option given narrow values reads them in it, as if a wide source had given them; if a value cannot be converted, the option's value is not touched and the exception is thrown. Exception: in encodings with shift sequences that write no character, a valid text can be rejected, depending on its length (a shift at the end behind a multiple of 32 characters).", "quantifier": "all texts and all locales whose codecvt facet obeys the contract of the C++ standard for an encoding whose characters each take 1 to 32 units", "why_tests_cant": "It ranges over all facets and texts; the failure depends on where the 32-unit buffer ends.", "anchors": ["src/convert.cpp: from_local_8_bit, to_local_8_bit, from_8_bit, to_8_bit, detail::convert", "src/value_semantic.cpp: value_semantic_codecvt_helper<char>::parse, value_semantic_codecvt_helper<wchar_t>::parse"]}
{"id": "C86", "title": "Adding an option keeps the meaning of command lines that do not mention it", "statement": "If a program gets a new option, parsing a command line gives exactly what it gave before (the same options, or the same exception), provided that no token mentions the new option: for every name a token can be taken for in the style in use, and for the main name of every other option, the new option does not have this name, and if the name abbreviates one of its names (or falls under its wildcard) then it is the full name of another option. Exceptions, proved: a new option can make an abbreviation ambiguous, and can turn a value like \"-5\" of another option into an option.", "quantifier": "all sets of options, all new options and places to insert them, all styles, additional parsers, positional descriptions and argument lists (no custom style parser)", "why_tests_cant": "It compares two programs on every command line; a test compares a few.", "anchors": ["src/cmdline.cpp: cmdline::run, finish_option, parse_short_option, parse_disguised_long_option", "src/options_description.cpp: options_description::find_nothrow"]}
{"id": "C87", "title": "Adding an option keeps the meaning of config files", "statement": "If a program gets a new option with a long name, whose wildcard (if it is one) does not clash with another one, parse_config_file returns the same options or throws the same exception as before for every file that does not assign to the new option. A file that was accepted without unregistered options stays accepted with the same options, whatever it assigns to. Exceptions, proved: a clashing wildcard makes every file fail, and where unregistered options are allowed an assignment to the new option is no longer marked unregistered.", "quantifier": "all sets of options, new options, places to insert them and file contents", "why_tests_cant": "It compares two programs on every file.", "anchors": ["src/parsers.cpp: parse_config_file", "src/config_file.cpp: common_config_file_iterator::get, add_option, allowed_option"]}
{"id": "C88", "title": "Adding an option keeps the values of all the others", "statement": "If a new option is added to the descriptions of some of the sources of a program and the sources do not mention it, the same sequence of store calls succeeds as before; every other option has the same entry in the variables_map (the same value, defaulted or not), and is missing for notify if and only if it was missing before. A store call that failed fails with the same exception and leaves the same entries.", "quantifier": "all histories of store calls, all subsets of the sources that get the new option, all places to insert it", "why_tests_cant": "It compares two programs over every history.", "anchors": ["src/variables_map.cpp: store, variables_map::notify", "src/options_description.cpp: options_description::find"]}
{"id": "C89", "title": "Allowing unregistered options is conservative", "statement": "For every command line and every parser configuration (any styles, options, positional options and additional parser; no extra_style_parser): parsing without allow_unregistered succeeds exactly if parsing with it succeeds and no option of its result is unregistered, and then with the same result. If parsing with it yields unregistered options, parsing without it throws unknown_option; if parsing with it fails, parsing without it fails in the same way or throws unknown_option (when an unknown option comes first). The same holds for parse_config_file, for every content and every set of options.", "quantifier": "for all parser configurations without extra_style_parser, all command lines, all config file contents and all option descriptions", "why_tests_cant": "The two modes must be compared on every input, including the malformed ones; a test compares them on some.", "anchors": ["src/cmdline.cpp: cmdline::finish_option, cmdline::run", "src/config_file.cpp: common_config_file_iterator::get", "include/boost/program_options/parsers.hpp: basic_command_line_parser::allow_unregistered"]}
{"id": "C90", "title": "Allowing abbreviations is conservative", "statement": "Take a parser that does not allow unregistered options, in a style where long options take two dashes, whose long names are no wildcards and are not begun by a whole option-like token or short name (dashes included). Adding allow_guessing to its style does not change the outcome (result or error) of any command line, except of those that were rejected with unknown_option. Each condition is needed: with allow_unregistered, with the disguised style, with wildcards, or with long names that start with dashes, a command line that was accepted can get another result or be rejected.", "quantifier": "for all such parser configurations and all command lines", "why_tests_cant": "It compares the outcome of two parsers on every command line; a release that turns abbreviations on must not break any existing invocation.", "anchors": ["src/cmdline.cpp: cmdline::finish_option, cmdline::run", "src/options_description.cpp: option_description::match, options_description::find_nothrow", "include/boost/program_options/cmdline.hpp: allow_guessing"]}
{"id": "C91", "title": "Config files read from streams that throw", "statement": "If istream::exceptions has been set on the stream given to parse_config_file: compare with the same call on a stream that does not throw. If that call would leave the stream with a bit of the mask set, the stream throws; otherwise result (or error) and stream are the same. If the options cannot be used for config files, the mask does not matter and nothing is read. Hence with badbit in the mask, files that end properly give the same outcome as before, and a read error is not taken for the end of the file. But with failbit or eofbit in the mask no file can be parsed: the call never succeeds, and ends with ios_base::failure for every correct file. The same holds for wide streams: they throw when the narrow stream with the same text in UTF-8 throws, and otherwise give the corresponding result or the same error. After an exception of the stream a bit of the mask is set and what has not been read is still in the stream; an exception of the stream buffer is thrown again only after a read error with badbit in the mask, and then badbit alone is set and nothing is left to read.", "quantifier": "for all masks, streams (text, point of failure, state) and descriptions", "why_tests_cant": "It ranges over all texts, all points at which reading can fail and all masks.", "anchors": ["include/boost/program_options/detail/config_file.hpp: basic_config_file_iterator", "src/config_file.cpp: common_config_file_iterator::get", "src/parsers.cpp: parse_config_file"]}
{"id": "C92", "title": "Parsing in two stages", "statement": "A command line that a strict parser for the options A and B accepts can instead be parsed by a parser for A that allows unregistered options, followed by a parser for B on what collect_unrecognized(..., include_positional) makes of the first result: the first parser returns exactly the A part of the single result (plus what it did not recognize), the second exactly the rest, with the same values, original tokens and positions. Conditions: case is distinguished, no long options in disguise, no wildcards, no name of B abbreviates a name of A, options of B take a fixed number of values, no '--', no token '-abc' that mixes options of A and B, and no separate value of an option of B that could be an option of A. For each of these except the first and third there is a command line for which the two ways differ without it; and the two stages can accept what the single parser rejects (an abbreviation that is ambiguous only in A and B together).", "quantifier": "for all parser configurations that meet the conditions, all divisions of the options, and all command lines", "why_tests_cant": "It relates three parser runs on every command line; the options, their values and the order in which they are mixed are unbounded.", "anchors": ["include/boost/program_options/detail/parsers.hpp: collect_unrecognized", "src/cmdline.cpp: cmdline::run, cmdline::finish_option, cmdline::parse_short_option", "src/options_description.cpp: options_description::find_nothrow"]}
{"id": "C93", "title": "Calls of the additional parser", "statement": "A command line parser with an additional parser (extra_parser), a function of the user that may have a state of its own and may throw, passes the tokens to it one by one, in the order of the command line, each at most once, starting with the first. An exception it throws ends the parsing and reaches the caller, unchanged or (if it is one of the library's exceptions that name an option) with the option whose value was being looked for filled in. A parse that returns has asked about all tokens, or about those up to and including a '--'. Nothing but the answers counts: another function with another state that answers these calls in the same way leads to the same result, and a function without state to the result of the parser with that function. It is not true that a token the function gives to an option always becomes that option: the function is asked about the values of options too, and its answer is then ignored.", "quantifier": "for all parser configurations without a custom style parser, all functions and states, and all command lines", "why_tests_cant": "The user's function, its state and the command line are arbitrary; the order and number of the calls are a property of every execution.", "anchors": ["src/cmdline.cpp: cmdline::handle_additional_parser, cmdline::run, cmdline::finish_option", "include/boost/program_options/parsers.hpp: ext_parser, basic_command_line_parser::extra_parser"]}
{"id": "C94", "title": "Printing help on any output stream", "statement": "Printing a description (operator<< or print, with or without a width of the first column) on an output stream without errors appends exactly the text of the help and leaves the fill character, alignment and exception mask as they are. If the stream takes only n more characters, exactly the first n characters of the help arrive and the stream is bad; print itself reports nothing and returns normally, unless badbit is in the stream's exception mask: then it throws. On a stream that already has an error nothing arrives. A field width set on the stream (setw) is applied to the first item only, that is the caption, or without a caption the name of the first option in no group, or without such options the line break before the first group; afterwards it is 0 (if there is nothing to print it stays). If a description has a paragraph with two tabs, which is an error, the whole help up to that paragraph has been written when the exception is thrown, with or without assertions. It is not true that a stream that throws for failbit only throws when output is lost: this depends on the standard library.", "quantifier": "for all trees of option descriptions, widths of the first column, and streams (content, room left, error state, field width, fill, alignment, exception mask)", "why_tests_cant": "Streams can fail after any number of characters and the descriptions are arbitrary; that no character is lost, repeated or moved must hold for all of them.", "anchors": ["src/options_description.cpp: options_description::print, operator<<, format_paragraph, format_description, format_one"]}
{"id": "C95", "title": "Notifiers that use the map being notified", "statement": "A notifier may look at the variables_map being notified, store further sources into it, insert, assign or erase entries, clear it, call notify on it again, or throw. Whatever the notifiers do, notify visits entries in the order of their names, each at most once, with the value and semantics the entry has when it is reached; the map changes only during the visits, and loses only entries that a notifier removes. If notify returns, every entry that was there before has been visited, or has been removed while an option with a smaller name was visited; the entries visited have had all their effects. An entry added during a visit is visited later in the same notify exactly if its name comes after that of the option being visited and it is not removed before; otherwise it is not notified. An exception from notify is either required_option, before any visit, or has been thrown by the last option visited or one of its notifiers (what an inner store or notify throws arrives only if the notifier throws it on); the options before have been notified completely and changes stay. A notifier must not remove the entry that a running notify is at: that notify neither visits another entry nor returns, and its behaviour is undefined unless the notifier throws or does not end. Otherwise behaviour is undefined only if an option's own notify or storing a source is. With notifiers that just return, everything is as if they could not see the map. If no notifier calls notify and their new names come from a finite list, notify ends; a notifier that always calls notify on its map makes it recurse forever. It is not true that the options required by a source stored by a notifier are checked by the running notify.", "quantifier": "for all histories of the map, all notifiers (functions of value, their own state and the map, making any sequence of calls), and all initial states of the user's code", "why_tests_cant": "The notifiers are arbitrary programs that change the map while it is being iterated, so no finite set of callbacks covers the interleavings of iteration and change.", "anchors": ["src/variables_map.cpp: variables_map::notify, store", "include/boost/program_options/value_semantic.hpp: typed_value::notifier", "include/boost/program_options/detail/value_semantic.hpp: typed_value::notify"]}
{"id": "C96", "title": "Storing in two stages", "statement": "If the options of a source are distributed to two sources, each name to one of them with all its values and its description, then storing the two one after the other succeeds exactly if storing the one succeeds, and the resulting maps cannot be told apart: whatever sources are stored afterwards into one can be stored into the other, with the same entries and the same effects of notify. In particular a command line can be parsed and stored in two stages as in C92, each stage with its own description, whatever has been stored before, if no positional argument is given the name of an option of the first stage. Without that condition the second source cannot be stored: it does not know the option.", "quantifier": "for all histories of the map, all sources and all ways to distribute their options; for all parsers, divisions of the options and command lines as in C92", "why_tests_cant": "It compares maps after arbitrary histories and for arbitrary later use.", "anchors": ["src/variables_map.cpp: store, variables_map::notify", "include/boost/program_options/detail/parsers.hpp: collect_unrecognized", "src/cmdline.cpp: cmdline::run"]}
{"id": "C97", "title": "Style parsers supplied by the user", "statement": "Whatever function is given to extra_style_parser: if each of its calls returns and either leaves as many tokens as it got or makes them lighter by some measure (for instance fewer), parsing ends; if it always leaves more tokens and no option, parsing never ends. If it leaves everything alone, the result is as without it. Every option of a result is a positional one, or unregistered, marked so and allowed, or registered under its key with at least the number of values it needs - but it may have more values than it can take. For a reader of response files: if parsing succeeds and no file name is left among the tokens of the result, the result is that of the command line with all files written out, recursively. A file name is not read where an option takes its value, nor when it is the only token of another file. A style parser that removes a token without returning an option makes the parser read beyond the end of a vector if the option before that token needs a value.", "quantifier": "for all style parsers (arbitrary functions of the tokens), all parsers, all command lines and all contents of response files", "why_tests_cant": "It quantifies over the user's function and over nested response files of any depth.", "anchors": ["src/cmdline.cpp: cmdline::run, cmdline::finish_option, cmdline::set_additional_parser, cmdline::extra_style_parser", "include/boost/program_options/parsers.hpp: basic_command_line_parser::extra_style_parser"]}
{"id": "C98", "title": "Value semantics of the user while a source is stored", "statement": "Whatever state the user's value semantics have and whatever they throw: store calls parse exactly once for each option of the source that is named, known and not decided by an earlier source, in the order of the source, with the tokens of the source and with the value that the calls before have left for that name (a default counts as none); then apply_default exactly once for each option of the description, in order, that has a name and no value yet. The first call that throws is the last. If all return, the entries are exactly what the calls gave, and the names that later sources cannot change are those before and the parsed ones that are not composing. If parse throws, store throws that exception with the option filled in; what has been parsed stays, no default is stored, nothing becomes final or required. If apply_default throws, store throws that exception as it is, and the source stays stored and final. Other user code that gives the same answers leads to the same map and outcome.", "quantifier": "for all value semantics with a state of any type, all sources, all maps and all states", "why_tests_cant": "It ranges over arbitrary user code with memory and over all sources and earlier histories.", "anchors": ["src/variables_map.cpp: store", "include/boost/program_options/value_semantic.hpp: value_semantic::parse, value_semantic::apply_default"]}
{"id": "C99", "title": "Settings mean the same wherever they come from", "statement": "Settings of registered options, each with a value that is not empty, fits on a line, has no '#' and no blanks at its ends, can be given as arguments --name=value, as lines name=value of a config file, or as environment variables with a name mapper. All three parse, and storing any of them into any map has the same effect: the same entries, the same final names and the same required names; or it fails for the same reason at the same option, only the spelling of the option in the message differing. The maps stay that way under all later sources with the same settings, and notify does the same on them, or reports the same missing option. An empty value can be given in a config file but not as --name=.", "quantifier": "for all descriptions, all lists of settings, all maps and all later histories", "why_tests_cant": "It relates three parsers over all settings and all states of the map.", "anchors": ["src/variables_map.cpp: store, notify", "src/cmdline.cpp: cmdline::run", "src/config_file.cpp: common_config_file_iterator::get", "src/parsers.cpp: parse_environment"]}
{"id": "C100", "title": "How long objects must live", "statement": "A program that makes, uses and destroys descriptions, parsers, parsed sources, maps and the variables given to value(&v) sees the same as if nothing were destroyed, as long as it uses nothing it has destroyed. What a call uses is: run uses the descriptions given to options and positional; store uses the map and the description the source was read with; notify uses the map and the variables it writes to; a lookup uses the maps along the chain up to the first explicit value. A program that would run to its end without destroying anything runs to the same end exactly if no call uses something destroyed and nothing is destroyed twice; otherwise the first such use is undefined behaviour. Reading, running a parser and storing have the effect they have for values. A map does not need the descriptions, parsers and sources its values came from. A source is stored with its description as it is at that time: an option added after the source was read counts, so what a source will store is not settled when it is read.", "quantifier": "all sequences of constructions, calls and destructions, all descriptions, values and readers", "why_tests_cant": "It ranges over all orders of constructions, uses and destructions; undefined behaviour is not visible to tests.", "anchors": ["include/boost/program_options/parsers.hpp: basic_parsed_options::description", "include/boost/program_options/detail/parsers.hpp: options, positional, run", "src/variables_map.cpp: store, notify, operator[], next", "include/boost/program_options/detail/value_semantic.hpp: typed_value::notify"]}
{"id": "C101", "title": "The same command line in other words", "statement": "Where an option can be written in several ways it does not matter which is used: its other long names, abbreviations, the short name; the value behind '=', adjacent to the short name or in the next token; '/x' and '-name' where the style has them; several flags in one word, possibly with a last option and its value, or one by one. If any options of a command line are written in other words (the arguments and everything behind '--' unchanged), it is accepted exactly if it was before, and the result has the same names, positions, values and flags in the same order; only original_tokens differ. An option is known by each of its names that no other option has, where the style allows guessing by each unambiguous beginning of a long name, and in case-insensitive styles in upper or lower case (but the name under which a wildcard option is returned is the one typed). A token that an option takes for its value is not an option: there the words matter ('--output --verbose' is accepted, '--output -v' is not).", "quantifier": "all command lines and all ways to write their options, all descriptions with named options that take a sensible number of values, all styles, positional descriptions and additional parsers, no style parser", "why_tests_cant": "It relates all pairs of spellings in all contexts; tests compare a few.", "anchors": ["src/cmdline.cpp: run, parse_long_option, parse_short_option, parse_dos_option, parse_disguised_long_option, finish_option", "src/options_description.cpp: find_nothrow, match, key"]}
{"id": "C102", "title": "What threads may do at the same time", "statement": "Parsing and printing only read the description; store() reads the description and writes the map; notify() reads the map and writes the variables values go to; a lookup reads the maps it comes to; what() writes the exception if that carries an option name; nothing else that can be shared is touched. Threads, however many and in whatever order their accesses happen, have no data race, see exactly what each of them would see alone, and leave behind what each of them would leave behind, as long as none writes what another one uses. This is so for threads that only call const functions on shared objects (except what() of exceptions with option names), and for threads that share descriptions but have maps, exceptions and the variables that values go to of their own. No thread keeps another from finishing. It is not so for two threads that ask the same exception for its text, although what() is const, nor for two threads that notify maps of their own filled from the same description with value(&v).", "quantifier": "any number of threads, all programs of calls (what a thread calls may depend on what it has seen), all schedules, all initial contents of descriptions, maps, variables", "why_tests_cant": "Schedules cannot be enumerated, and a data race need not show when a test runs.", "anchors": ["include/boost/program_options/errors.hpp: error_with_option_name::what, m_message", "src/value_semantic.cpp: substitute_placeholders, replace_token", "src/variables_map.cpp: store, notify, operator[], next", "include/boost/program_options/detail/value_semantic.hpp: typed_value::notify", "src/options_description.cpp: add, print, find_nothrow"]}
{"id": "C103", "title": "What the flags of the style change", "statement": "Whether a way to write options (--name, -x, /x, -name) is allowed does not matter to a command line in which no token has that form: it is accepted and means the same with and without the flag. Allowing several short options in one word (sticky) only gives a meaning to command lines that were rejected, provided that no letter belongs to two options and that a letter stands for the same option wherever it is looked up. Ignoring the case of names keeps the meaning of every command line that has one, up to the member case_insensitive of the results, provided that names differ by more than case, short names are in lower case, there are no wildcards, no guessing, no disguised long options and no unregistered options allowed, and no token that looks like an option is a name only if case is ignored. None of this holds without the conditions: with long_case_insensitive alone an option '-V' can not be given by its letter; '--output -V' is rejected in the case-insensitive styles if there is an option '-v'; with two options of one letter '--output -hv' becomes ambiguous in the sticky style.", "quantifier": "all command lines, all pairs of styles that differ only in the flags named, all descriptions with named options that take a sensible number of values, all positional descriptions and additional parsers, no style parser", "why_tests_cant": "It relates the results for all command lines under pairs of styles; tests run a few lines under a few styles.", "anchors": ["include/boost/program_options/cmdline.hpp: style_t", "src/cmdline.cpp: run, parse_short_option, parse_dos_option, parse_disguised_long_option, finish_option", "src/options_description.cpp: find_nothrow, match"]}
{"id": "C104", "title": "Texts for the help have no effect on anything else", "statement": "The description of an option, the name of its value, the texts given for its default and its implicit value, and the global string 'arg' are only ever shown in the help. Two programs whose options differ in these texts only do the same with every command line and every config file (same options or same exception), with every sequence of sources that is stored (same values, same exception), and on notify (same calls, same exception). The other way round, the help depends on nothing but the captions, widths, names and texts, and on which options take values: options with other types, defaults, notifiers and flags print the same help. A value without a name of its own is shown by what 'arg' holds when the help is printed.", "quantifier": "all command lines, styles, positional descriptions, style parsers and additional parsers; all config file contents; all sequences of sources; all pairs of lists of options that differ in texts only; all trees of groups", "why_tests_cant": "It is a statement about all pairs of programs and all their inputs; a test compares two programs on a few inputs.", "anchors": ["include/boost/program_options/options_description.hpp: option_description::description", "include/boost/program_options/value_semantic.hpp: value_name, default_value, implicit_value", "include/boost/program_options/detail/value_semantic.hpp: typed_value::name, arg", "src/value_semantic.cpp: arg, untyped_value::name", "src/cmdline.cpp: run", "src/variables_map.cpp: store, notify", "src/options_description.cpp: print"]}
{"id": "C105", "title": "Orderly programs have no undefined behaviour, whatever they read", "statement": "Take a program that declares options, parses any number of sources (command lines in any style, without parsers of the user's own; config files; the environment), stores each and calls notify. If every option has a long name, no name is empty or contains '*', no two options share a name, and all values have the types of the library, then the program ends in one of two ways whatever the sources contain: all is stored and notified, or there is an exception (of the library, a notifier, a conversion or a name mapper). It executes no undefined behaviour and terminates. There are three exceptions to 'whatever': a config file must not contain the line '[]'; values of boolean options must be ASCII; and in a style that ignores case, names must be ASCII and differ in more than case, and arguments that look like options must be ASCII. The first two are necessary: without them the behaviour is undefined. Whatever exception is thrown, its message can be composed if those of the user's functions can.", "quantifier": "all lists of orderly options; all sequences of command lines (all styles and positional descriptions, less than 2^31-1 arguments), config files and environments; all name mappers; all conversions and notifiers that return or throw", "why_tests_cant": "It quantifies over all programs of this shape and over every input they may get; fuzzing samples some inputs of one program.", "anchors": ["src/cmdline.cpp: run", "src/parsers.cpp: parse_config_file, parse_environment", "src/config_file.cpp: get", "src/variables_map.cpp: store, notify", "src/value_semantic.cpp: validate(bool)", "include/boost/program_options/detail/value_semantic.hpp: typed_value::xparse, notify"]}
{"id": "C106", "title": "Config files put together from parts", "statement": "Let a text consist of whole lines. If reading it as a config file fails, every file that begins with it fails in the same way, whatever follows. If it contains no section, or if what follows begins with a section, the result for the whole is that for the first part followed by that for the second (options in order, or what goes wrong first). Otherwise its last section stays open: what follows is read as if it began with that section line. Hence a file cut off at the end of a line can be read if the file can, and gives its first options; and parts that begin with sections can be exchanged, which only changes the order of the options. None of this holds without the conditions: with a section left open, good parts can make a bad file and the rest of a good file can be bad; without the newline at the end, the last line of the first part swallows the first line of the second.", "quantifier": "all pairs of texts, all descriptions (also those that cannot be used for files), with and without unregistered options", "why_tests_cant": "It relates three calls for all pairs of texts; tests concatenate a few.", "anchors": ["src/config_file.cpp: common_config_file_iterator::get", "src/parsers.cpp: parse_config_file"]}
{"id": "C107", "title": "Later arguments do not change the meaning of earlier ones", "statement": "Without a user-supplied style parser (an additional parser may be set): if a command line is accepted, and a longer one that begins with it is accepted too, then the result of the longer one begins with the result of the shorter one, except that the last option of the shorter one, if it is a named option registered for a variable number of values, may have got more values (and only then; if every option takes a fixed number of values, options are only added at the end). If a command line is rejected, every command line that begins with it is rejected too, unless the complaint was that a value is missing; and the exception is the very same one, unless it is about a missing value, too many positional arguments or an ambiguous name. The exceptions are real: a missing value may still come, too many positional arguments give way to any complaint about a later token, and an option with an implicit value takes the argument after it. Positional descriptions are covered.", "quantifier": "every parser without user-supplied style parser (any options, style, positional description, additional parser, unregistered options allowed or not), every list of arguments and every list of arguments after it", "why_tests_cant": "Tests parse whole command lines. That nothing put at the end can reach back into what was read before, through value grabbing, the second pass, numbering or naming, is a statement about every continuation of every command line.", "anchors": ["src/cmdline.cpp: cmdline::run, finish_option", "include/boost/program_options/parsers.hpp: basic_command_line_parser::run"]}
{"id": "C108", "title": "What the help says can be typed", "statement": "With the usual settings (no functions of the user, letter case matters, long options and short options with '-' enabled, no disguised long options) and for an option whose names are its own, are not empty, contain no '=' or '*' and whose short name is not '-': the name column of its line in the help consists of one or two words, '-x' and '--name', and each of these words, typed with any number of words after it between the minimum and the maximum the option accepts, is read as exactly that option with exactly these values, filed under its first long name (or the short one if there is none); with fewer it is rejected. If the help shows an argument after the name, an option that needs at most one value takes the word after it, and a value attached with '='; if the help shows none, the words after it are positional arguments and an attached value is rejected. The conditions are needed: a name with '=' and the short name '-' are shown but cannot be typed.", "quantifier": "every set of options, every option in it with names as described, every word the help shows for it, every number and choice of values that do not look like options", "why_tests_cant": "The help and the parser are separate code; tests check each on a few options. That they agree, whatever is registered and whatever values are typed, is a statement about all options and all command lines.", "anchors": ["src/options_description.cpp: option_description::format_name, option_description::format_parameter, options_description::find_nothrow", "src/cmdline.cpp: cmdline::run, parse_long_option, parse_short_option, finish_option"]}
{"id": "C109", "title": "Options declared without a type, and switches", "statement": "An option declared with a name and a description only (or as untyped_value) takes no value (or one), is neither required nor composing, has no default and does nothing when notified. After sources with the same description have been stored, vm.count(name) is 1 if any of them gave the option and 0 otherwise; the value is the text of the first source that gave it, the empty text if it was given without one. Within one source it can be given only once: a second occurrence throws multiple_occurrences, even one with too many values, and two values throw multiple_values. A program with only such options can always be notified and nothing happens then. An option declared with bool_switch always has a value: false and defaulted() if no source gives it, true and not defaulted() if the first source that gives it does so without a value.", "quantifier": "all sequences of stored sources with one description, all options in it whose name is their own, all encodings of the input", "why_tests_cant": "Tests store a few command lines. That count and the value depend only on the first source that gives the option holds for every history of sources.", "anchors": ["src/value_semantic.cpp: untyped_value::xparse, bool_switch", "src/variables_map.cpp: store, notify", "include/boost/program_options/value_semantic.hpp: untyped_value"]}
{"id": "C110", "title": "Storing a source again", "statement": "A source that was stored successfully and mentions no composing option can be stored again at any later time, whatever was stored in between and in whatever encoding it is said to be: store accepts it and leaves the map exactly as it is, including what notify will do. So a repetition of a source can be left out or put in anywhere in a history without changing the result. In particular this holds for a source that mentions no option at all. It does not hold for composing options, whose values are added again, nor after a failure: what store did before it threw stays, and the second attempt can fail for a different reason.", "quantifier": "all histories of stored sources, all sources in them, all value semantics", "why_tests_cant": "It quantifies over all histories and all positions in them.", "anchors": ["src/variables_map.cpp: store", "include/boost/program_options/variables_map.hpp: variables_map"]}
{"id": "C111", "title": "Running out of memory while storing", "statement": "If memory runs out at any point inside store, each name in the map has what it had before, or the value given by the first of its occurrences in the source (possibly with one more that was being parsed), or, if it had nothing, its default or an entry without a value. Names that the source does not mention and its description has no default for are left alone. What an earlier source has decided stays, and a name is decided by the interrupted source only with its complete value. Required options of sources stored before are not forgotten. With the library's own value semantics and one type for each name, further calls of store and notify have defined behaviour. However, storing the same source again may be refused because of multiple occurrences, a default may be lost for good (the option counts as present, and reading it throws bad_any_cast), and notify may report a required option without its name.", "quantifier": "all sources, maps, value semantics, points of interruption, and sequences of calls of store each of which completes, throws or is interrupted", "why_tests_cant": "The allocation that fails may be any of an unbounded number, in any call of any history; tests inject a failure at some points of some runs.", "anchors": ["src/variables_map.cpp: store", "include/boost/program_options/detail/value_semantic.hpp: validate", "src/variables_map.cpp: variables_map::notify"]}
{"id": "C112", "title": "Running out of memory while a description is built", "statement": "As long as memory lasts, the two parallel vectors inside an options_description (its options, and whether each belongs to a group) have the same length at every point where a program can look. If memory runs out inside options_description::add, the options known before are still known in the same order, followed by the first of those that were to be added. If it runs out between two options of a group, the description is usable and its help shows the whole group, including options that are not recognized. If it runs out between the two steps of adding one option, printing the help has undefined behaviour, and no option or group added later mends this. Help that does get printed is that of a description in which every option has its place.", "quantifier": "all programs that build descriptions from options and other descriptions, in which any number of the calls run out of memory at any point", "why_tests_cant": "The failing allocation may be any one of an unbounded number, and most of them leave a description that looks right.", "anchors": ["src/options_description.cpp: options_description::add, options_description::print, options_description::get_option_column_width", "include/boost/program_options/options_description.hpp: m_options, belong_to_group, groups"]}
{"id": "C113", "title": "Running a command line parser again after it has thrown", "statement": "run works on the arguments the parser holds. After a run that returned, or complained about too many positional arguments, nothing is left and every later run returns no options. After any other exception, unless long options may be written with a single character in front, what is left are the arguments from some point on, as they were; all of them only if the complaint is about the text of the first one. After unknown_option what is left is exactly what follows the token that names the option. After the complaint that nothing follows an '=' every later run makes the same complaint. A program that runs the parser until it returns is finished after as many runs as there are arguments, or sees the same exception for ever. Where a single character may introduce long options, the token at fault can be left rewritten, and be accepted by the next run as a positional argument.", "quantifier": "all parsers without a user supplied style parser, all argument lists, any number of runs", "why_tests_cant": "How much of the arguments an exception leaves depends on every earlier token and on which of the parsing functions threw; the claims are about all sequences of runs.", "anchors": ["src/cmdline.cpp: cmdline::run, cmdline::finish_option, cmdline::parse_disguised_long_option", "include/boost/program_options/detail/parsers.hpp: basic_command_line_parser::run"]}
{"id": "C114", "title": "Name mappers with a state", "statement": "parse_environment with a name mapper that has a state of its own but leaves the environment alone asks it about every variable exactly once, in the order of the environment, and makes an option of each answer that is not empty. If the mapper throws, it is not asked again and that exception leaves the call. A mapper without a state gives what C35 and C80 say, whatever the environment is. If the mapper changes the environment, the call goes on with the array as it is then, at the next place: a mapper that removes the variables it is asked about makes the call miss variables, and one that keeps adding variables keeps the call going.", "quantifier": "all name mappers with any state, all environments, all exceptions", "why_tests_cant": "The mapper is user code: the claims are about every function, every state it can have and every way it can change the environment between two calls.", "anchors": ["src/parsers.cpp: parse_environment", "include/boost/program_options/environment_iterator.hpp: environment_iterator::get", "include/boost/program_options/parsers.hpp: parse_environment"]}
{"id": "C115", "title": "Programs built without assertions", "statement": "Assertions have no effect but to fail: built with NDEBUG, running a parser, parse_environment, positional_options_description::add and name_for_position, and the constructors of option_description and options_description do the same whenever the build with assertions has no undefined behaviour. Where an assertion would fail: a string of the environment without '=' is taken as a variable whose name and value are both the whole string; a second name added without a limit replaces the first; a position without a name has the empty name; an option declared with the empty string has no names, and then is not stored, not required and not noticed by command lines (in styles where long names are case sensitive, without a style parser of the user) unless an argument has an '=' in place of a name; and of several values that a style parser of the user returns in an option without a name, all but the first are lost if an earlier option takes them.", "quantifier": "all arguments, styles, descriptions, environments, sequences of calls of add, histories of sources", "why_tests_cant": "Tests run in one build configuration. That the other one behaves the same is a claim about every input of every function that contains an assertion.", "anchors": ["src/cmdline.cpp: cmdline::run", "src/positional_options.cpp: add, name_for_position", "src/options_description.cpp: option_description::set_names, options_description::options_description", "include/boost/program_options/environment_iterator.hpp: environment_iterator::get"]}
{"id": "C116", "title": "Who deletes value semantics", "statement": "A program that gives each pointer returned by value<T>() to at most one option, or deletes it itself, and does not use the pointer afterwards, never has a value semantic deleted twice or used after its deletion, however it copies, includes, stores, erases, clears and destroys descriptions and maps. At every moment a value semantic given to an option has been deleted exactly when no description and no map refers to it any more, and a stored value keeps it alive, so notify may be called after all descriptions are gone. In every program that runs to its end, value semantics given to options are deleted when all descriptions and maps are gone, and others only by the program itself. To give the same pointer to two options is undefined as soon as both are gone; to delete a pointer that was given away, or to call a setter after the description is gone, is undefined.", "quantifier": "all sequences of calls that make value semantics, declare, copy, include, store, notify, erase, clear and destroy, on any number of objects", "why_tests_cant": "The claim is about every order in which objects can be destroyed, and a test cannot observe that nothing was leaked or used after its end.", "anchors": ["include/boost/program_options/options_description.hpp: option_description::m_value_semantic", "src/options_description.cpp: option_description, options_description::add", "include/boost/program_options/variables_map.hpp: variable_value::m_value_semantic", "src/variables_map.cpp: store, variables_map::notify, variables_map::clear"]}
{"id": "C117", "title": "What a program must catch", "statement": "The exceptions that each call can throw are known. The parser of command lines throws only unknown_option (unless unregistered options are allowed), ambiguous_option, too_many_positional_options_error (only if there is a description of positional options) and invalid_command_line_syntax about an empty adjacent, a missing or an extra parameter; and invalid_command_line_style exactly for a bad style. The parser of config files throws only unknown_option (unless allowed), the error about an unrecognized line and an error about the options themselves, and not the last if all options have long names whose wildcards do not overlap; for a file given by name also reading_file. The parser of the environment throws only what the name mapper throws. store() of strings of char into values of the library for char throws only errors of names and values; notify() only required_option and what a notifier throws. So in a program that uses nothing else, everything thrown is derived from program_options::error or comes from a function of the user. But catching program_options::error is not enough with wchar_t or split_unix: a failed conversion of encodings is a std::logic_error, a list of narrow strings made of wide text is a bad_any_cast, and a bad escape is an error of Boost.Tokenizer.", "quantifier": "all option descriptions, command lines, files, environments, styles and stored maps; all programs that read any number of sources", "why_tests_cant": "That no other exception can escape is a claim about every input; a test shows only that a chosen input throws what is expected.", "anchors": ["include/boost/program_options/errors.hpp: error", "src/cmdline.cpp: cmdline::run", "src/config_file.cpp: common_config_file_iterator::get", "src/parsers.cpp: parse_config_file, parse_environment", "src/variables_map.cpp: store, variables_map::notify", "src/value_semantic.cpp: value_semantic_codecvt_helper::parse", "src/convert.cpp: convert"]}
{"id": "C118", "title": "What can be said in each kind of source", "statement": "On the command line every value, also an empty one and one that looks like an option, can be given to every option that has a long or short name to type as --name and can have a value, in any order and number (below 2^30 settings). In the environment exactly the names that the name mapper returns can be given values, and these every value. In a config file exactly these settings can be given: names that are registered (or any if allowed), made of a section and a name without '=', and values, all of which fit on a line, have no '#' and no blanks at their ends, on lines that do not look like a section; and first those without a section, as there is no way back from a section: all names after the first section line contain a '.'. So a value can be given to an option with an ordinary name in a config file exactly if it fits on a line and has no '#' and no blanks at its ends, and settings that a file can give in one order it need not be able to give in another.", "quantifier": "all lists of settings, option descriptions, styles with long options, name mappers and file contents", "why_tests_cant": "That no file at all can give some value is a claim about all files; that every value can be given is a claim about all values.", "anchors": ["src/cmdline.cpp: cmdline::run", "src/config_file.cpp: common_config_file_iterator::get", "src/parsers.cpp: parse_environment", "include/boost/program_options/environment_iterator.hpp: environment_iterator::get"]}
{"id": "C119", "title": "The recipes of the example programs", "statement": "The functions that the examples show users to write do the following, for all uses. conflicting_options throws exactly if the sources stored so far give both options, and option_dependency exactly if they give the first and not the second, whatever the defaults are; if the map is linked to others by next, an option counts as given exactly if some map was given it and the first map has a value for it (so options only a later map has are not noticed). reg_foo reads exactly -fname and -fno-name, and command lines of such switches give the options 'true' and 'false'; other than with gcc a switch given twice is an error when stored, and a switch without a name is left to the library. @name gives response-file the value name, but '@' alone makes the next word the name. The validator of regex.cpp accepts exactly a first single value XXX-XXX and yields the second group; in every map such a value comes from the only occurrence in the first source that gives it. env_options writes the first 75 characters of PATH and the value of EXAMPLE_VERBOSE or INFO, ignoring the case of names; if two variables differ only in case from one of these it throws, and if the name of any variable is not ASCII it is undefined.", "quantifier": "all histories of stored sources, chains of maps, option names, command lines of switches, tokens, and environments", "why_tests_cant": "The checks must be right for every combination of sources and defaults, and the environment is that of the user.", "anchors": ["example/real.cpp: conflicting_options, option_dependency", "example/custom_syntax.cpp: reg_foo", "example/response_file.cpp: at_option_parser", "example/regex.cpp: validate", "example/env_options.cpp: mapper, get_env_options", "src/variables_map.cpp: store, variables_map::operator[]"]}
{"id": "C120", "title": "Iterators as objects", "statement": "For every class derived from eof_iterator, two iterators are equal exactly if both are at the end; so an iterator that is not at the end equals neither itself nor a copy of it, although the class declares forward traversal. An iterator at the end stays there whatever is done with it and others, short of assigning to it. Copying a range to an iterator at the end ends normally exactly if the calls of get return until one finds the end, and then gives the value of the first and what these calls stored, in order, without that of the last; to an iterator that is not at the end it never ends normally, not even the empty range of twice the same iterator. Iterators over the environment are independent of each other under copying, assigning and incrementing in any order: each stands on the variable with the number of its own increments, and behind the last one at the end; but incrementing a default one is undefined, and the range between two that are not at the end goes on for ever. Parsing a config file is copying such a range. An increment over a config file that throws leaves the value alone, and the iterator goes on behind the line at fault in the same section, so that reading to the end gives an option for each assignment and an exception for each line at fault, in order; if that is the first, the constructor throws. Copies of such an iterator take the lines from each other, and give wrong names after a section the other has entered.", "quantifier": "all derived classes, programs over any number of iterators, environments, streams and config files", "why_tests_cant": "The order of copies, assignments, increments and failures is the user's, and derived classes are arbitrary.", "anchors": ["include/boost/program_options/eof_iterator.hpp: eof_iterator", "include/boost/program_options/environment_iterator.hpp: environment_iterator", "include/boost/program_options/detail/config_file.hpp: basic_config_file_iterator", "src/config_file.cpp: common_config_file_iterator::get"]}
{"id": "C121", "title": "Parsers that are not given a description", "statement": "If options() is never called on a command line parser, whatever else is called, run stops at an assertion (the copy of an unset pointer before it taken as harmless). In a program built with NDEBUG it is undefined if the parser was constructed from a vector, whose constructor leaves the pointer to the description unset. If it was constructed from argc and argv, run either is undefined or gives the same options as it would with any description, whatever functions of the user it has. Without such functions exactly the following happens: command lines that consist of words (tokens not in the form of an option of the style, and '--=value' which counts as the word value) up to the end or '--' give these words as positional arguments, and the tokens after '--' with them; at the first token in the form of an option the program is undefined, even if unregistered options are allowed, except that '--name=' throws invalid_command_line_syntax as usual.", "quantifier": "all chains of calls on the parser, styles and command lines", "why_tests_cant": "A test build has assertions, and undefined behaviour can pass any test; the styles and tokens are unbounded.", "anchors": ["include/boost/program_options/detail/parsers.hpp: basic_command_line_parser constructors, options, run", "src/cmdline.cpp: cmdline::run, finish_option, parse_short_option, parse_disguised_long_option, parse_terminator"]}
{"id": "C122", "title": "The objects that add_options() returns", "statement": "If the object that add_options() returns is kept in a variable, copied or assigned, each such object belongs to one description: the one whose add_options() was called, or that of the object it was copied or assigned from. A program can be rewritten without these objects, declaring each option directly in that description, and all its descriptions are the same. A declaration adds one option at the end of the description the object belongs to and changes no other description, in particular no copy of it and no description it was added to; whichever objects are used, the options are in the order of the declarations. Making, copying and assigning the objects changes nothing. After the end of the description a declaration is undefined behaviour, while copying the object is not; an empty name violates an assertion.", "quantifier": "all sequences of calls that make, copy, extend and destroy descriptions, make, copy and assign objects of add_options() and declare options through them", "why_tests_cant": "It ranges over all interleavings of declarations through any number of aliases; the undefined cases may pass any test.", "anchors": ["include/boost/program_options/options_description.hpp: options_description_easy_init, options_description::add_options", "src/options_description.cpp: options_description_easy_init::operator()"]}
{"id": "C123", "title": "Sources with different descriptions", "statement": "In a program that stores sources with different descriptions (for instance all options for the command line, some of them for a config file) and calls notify without exceptions, if in each description a name stands for the same option or for nothing: the variable of a non-composing option is assigned exactly once, with the value of the first source that mentions it; if no source does, with the default if any of the descriptions has the option; otherwise not at all. The variable of a composing vector gets the values of all sources, in order. Calling notify also between the sources makes no difference for what a variable holds in the end. The option must be the same in all descriptions: if it is declared twice with two variables, a value from the second source goes to the second variable, and the first is not assigned at all, not even its default.", "quantifier": "all histories of sources with any descriptions, all option types and conversions, all points at which notify is called", "why_tests_cant": "It ranges over all divisions of the options among descriptions and all contents of the sources.", "anchors": ["src/variables_map.cpp: store, notify", "include/boost/program_options/detail/value_semantic.hpp: typed_value::notify", "example/multiple_sources.cpp: main"]}
