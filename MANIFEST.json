{
 "claims": [
  {
   "property": "C01",
   "status": "proved",
   "theorems": [
    "C01_names_decoded",
    "C01_trailing_comma",
    "C01_empty_declaration_refuted"
   ],
   "note": "PropLookup.v: C01_names_decoded: A declaration [p1,p2,...,last] (pieces without comma, last piece not empty) is decoded as [decoded] says. C01_trailing_comma: A trailing comma is ignored: \"a,b,\" declares the pieces a, b. C01_empty_declaration_refuted: The empty declaration violates an assertion."
  },
  {
   "property": "C02",
   "status": "proved",
   "theorems": [
    "C02_match_characterised",
    "C02_match_unique",
    "C02_long_name_order"
   ],
   "note": "PropLookup.v: C02_match_characterised: [match] gives exactly the result [match_spec] describes. C02_match_unique: The three cases exclude each other. C02_long_name_order: The order of the long names does not matter."
  },
  {
   "property": "C03",
   "status": "proved",
   "theorems": [
    "C03_lookup_characterised",
    "C03_find_throws_unknown"
   ],
   "note": "PropLookup.v: C03_lookup_characterised: Lookup in terms of the full and the approximate matches. C03_find_throws_unknown: [find] throws [unknown_option] exactly where [find_nothrow] returns null."
  },
  {
   "property": "C04",
   "status": "proved",
   "theorems": [
    "C04_lookup_order"
   ],
   "note": "PropLookup.v: C04_lookup_order: Registration order is irrelevant: same option, same error up to the order of the alternatives it lists."
  },
  {
   "property": "C05",
   "status": "proved",
   "theorems": [
    "C05_case_insensitive"
   ],
   "note": "PropLookup.v: C05_case_insensitive: With case-insensitive lookup the case of the typed name is irrelevant (the key of a wildcard option is the typed spelling, so the alternatives listed by an ambiguity are equal up to case only)."
  },
  {
   "property": "C06",
   "status": "proved",
   "theorems": [
    "C06_short_ci_alone_refuted",
    "C06_long_ci_unreachable",
    "C06_long_ci_reaches_lower",
    "C06_both_flags"
   ],
   "note": "PropLookup.v: C06_short_ci_alone_refuted: With [short_case_insensitive] but not [long_case_insensitive], a typed upper-case short option is unknown, whatever is registered (also if it is registered in exactly that spelling). C06_long_ci_unreachable: With [long_case_insensitive] alone an option registered as \"-C\" (upper case) cannot be reached by any spelling, C06_long_ci_reaches_lower: while typing \"-C\" reaches the option registered as \"-c\". C06_both_flags: With both flags the case of a short option does not matter, neither as registered nor as typed."
  },
  {
   "property": "C07",
   "status": "proved",
   "theorems": [
    "C07_sensitive_defined",
    "C07_ascii_defined",
    "C07_non_ascii_undefined"
   ],
   "note": "PropLookup.v: C07_sensitive_defined: Case-sensitive lookup has no undefined behaviour; C07_ascii_defined: nor has any lookup that folds only 7-bit ASCII names; C07_non_ascii_undefined: but any byte of 128 or more in the typed name triggers it."
  },
  {
   "property": "C08",
   "status": "proved",
   "theorems": [
    "C08_canonical_key",
    "C08_spelling_irrelevant"
   ],
   "note": "PropCmdline2.v: C08_canonical_key: The key of a registered option in a parse result is determined by the option a token named: first long name, typed spelling for a wildcard, or short name. C08_spelling_irrelevant: Which spelling of an option is used does not matter, unless it is a wildcard."
  },
  {
   "property": "C09",
   "status": "proved",
   "theorems": [
    "C09_consistent_accepted",
    "C09_inconsistent_rejected"
   ],
   "note": "PropCmdline.v: C09_consistent_accepted: Style 0 stands for the default style; a consistent style is accepted and used unchanged; C09_inconsistent_rejected: any other one is rejected."
  },
  {
   "property": "C10",
   "status": "proved",
   "theorems": [
    "C10_adjacency_bits_irrelevant",
    "C10_adjacency_documented_refuted"
   ],
   "note": "PropCmdline.v: C10_adjacency_bits_irrelevant: The adjacent/next bits do not influence the result of a parse. C10_adjacency_documented_refuted: so the documentation of these bits does not hold: without [long_allow_adjacent] \"--output=x\" is still accepted, and without [long_allow_next] \"--output x\" is."
  },
  {
   "property": "C11",
   "status": "proved",
   "theorems": [
    "C11_run_terminates"
   ],
   "note": "PropCmdline.v: C11_run_terminates: Parsing ends: one iteration per token is enough, [NoFuel] never happens, and with more iterations allowed the result is the same."
  },
  {
   "property": "C12",
   "status": "proved",
   "theorems": [
    "C12_token_conservation"
   ],
   "note": "PropCmdline.v: C12_token_conservation: No token is lost, altered, duplicated or reordered; at most the \"--\" goes."
  },
  {
   "property": "C13",
   "status": "proved",
   "theorems": [
    "C13_after_terminator",
    "C13_any_beginning",
    "C13_met_or_not"
   ],
   "note": "PropCmdline.v, PropLater.v: C13_after_terminator: Once the parser has dealt with [pre], the tokens after \"--\" become positional options, one each, verbatim, and the options before it are what they would be without them. C13_any_beginning: C13 for any beginning, with tokens \"--\" in it or not: either the terminator has not been met yet, and everything after a \"--\" that is added is positional and verbatim; or it has, and everything added is. C13_met_or_not: Which of the two it is shows when a single \"--\" is added."
  },
  {
   "property": "C14",
   "status": "proved",
   "theorems": [
    "C14_round_trip",
    "C14_empty_adjacent"
   ],
   "note": "PropCmdline.v: C14_round_trip: Any list of tokens, each spelling one option with a value (\"--name=value\", \"-cvalue\" or \"/cvalue\"), parses to exactly these options and values. C14_empty_adjacent: \"--name=\" is rejected."
  },
  {
   "property": "C15",
   "status": "proved",
   "theorems": [
    "C15_short_round_trip",
    "C15_slash_round_trip"
   ],
   "note": "PropCmdline.v: C15_short_round_trip: One short option: in dash style, C15_slash_round_trip: and with a slash."
  },
  {
   "property": "C16",
   "status": "proved",
   "theorems": [
    "C16_sticky_groups",
    "C16_sticky_ignoring_case_refuted"
   ],
   "note": "PropCmdline.v: C16_sticky_groups: A group of flags and a last short option parses like the separate tokens. C16_sticky_ignoring_case_refuted: With case ignored this fails: '-V' and '-H' are accepted separately, '-VH' is not."
  },
  {
   "property": "C17",
   "status": "proved",
   "theorems": [
    "C17_token_counts"
   ],
   "note": "PropCmdline2.v: C17_token_counts: Each registered option carries an admissible number of values."
  },
  {
   "property": "C18",
   "status": "proved",
   "theorems": [
    "C18_results_classified",
    "C18_classes_exclusive",
    "C18_unknown_reported"
   ],
   "note": "PropCmdline2.v: C18_results_classified: Every option of a result is registered, flagged as unregistered (only if that was allowed), or positional, C18_classes_exclusive: and nothing is more than one of these. C18_unknown_reported: Unknown names are reported, wherever they stand before a \"--\"."
  },
  {
   "property": "C19",
   "status": "proved",
   "theorems": [
    "C19_numbering",
    "C19_naming"
   ],
   "note": "PropCmdline2.v: C19_numbering: Positional options are numbered in order. C19_naming: A positional description only names them: the result is that without it, with the k-th positional option renamed to the name for position k; unless there are too many, which is the only additional reason to fail."
  },
  {
   "property": "C20",
   "status": "proved",
   "theorems": [
    "C20_blocks",
    "C20_unlimited",
    "C20_second_unlimited",
    "C20_negative_removes"
   ],
   "note": "PropCmdline2.v: C20_blocks: Blocks of positions; C20_unlimited: with an unlimited block (which names what the others, added before or after it, leave over); C20_second_unlimited: a second unlimited block is a failed assertion; C20_negative_removes: a negative count takes positions away."
  },
  {
   "property": "C21",
   "status": "proved",
   "theorems": [
    "C21_next_token_taken",
    "C21_known_short_not_taken",
    "C21_long_option_taken",
    "C21_terminator_taken"
   ],
   "note": "PropCmdline2.v: C21_next_token_taken: \"t v\" with a [value_token] v reads like the spelling with v adjacent; C21_known_short_not_taken: a known short option is not taken; C21_long_option_taken: a long option always is, known or not. C21_terminator_taken: So is the terminator: it then ends nothing, the tokens after it are read as usual."
  },
  {
   "property": "C22",
   "status": "proved",
   "theorems": [
    "C22_values_not_adjacent"
   ],
   "note": "PropCmdline2.v: C22_values_not_adjacent: An option that may take more tokens than it needs takes the words after it, adjacent or not: first as many as it needs, in the second pass up to its maximum; the rest is positional."
  },
  {
   "property": "C23",
   "status": "proved",
   "theorems": [
    "C23_collects",
    "C23_pass_through"
   ],
   "note": "PropCmdline2.v: C23_collects: What is collected are the original tokens of the unregistered (and, on request, the positional) options; C23_pass_through: without any known option that is the whole command line but the first \"--\"."
  },
  {
   "property": "C24",
   "status": "proved",
   "theorems": [
    "C24_additional_first",
    "C24_null_additional",
    "C24_additional_head"
   ],
   "note": "PropCmdline2.v: C24_additional_first: Tokens that the additional parser maps to options are such options, whatever they look like; C24_null_additional: an additional parser that never recognises anything changes nothing. C24_additional_head: If such an option takes no further values, it does not influence how the rest of the command line is parsed."
  },
  {
   "property": "C25",
   "status": "proved",
   "theorems": [
    "C25_disguised_like_long",
    "C25_original_tokens_refuted"
   ],
   "note": "PropCmdline2.v: C25_disguised_like_long: A disguised long option that resolves is read exactly like the long option, C25_original_tokens_refuted: down to the original tokens: these are not what was typed."
  },
  {
   "property": "C26",
   "status": "proved",
   "theorems": [
    "C26_nameless_value_positional"
   ],
   "note": "PropCmdline2.v: C26_nameless_value_positional: \"--=v\""
  },
  {
   "property": "C27",
   "status": "proved",
   "theorems": [
    "C27_no_undefined_behaviour",
    "C27_shared_key_refuted"
   ],
   "note": "PropCmdline2.v: C27_no_undefined_behaviour: No undefined behaviour when keys resolve. C27_shared_key_refuted: With two options of the same name, a sticky group of flags makes the parser read the first of no tokens."
  },
  {
   "property": "C28",
   "status": "proved",
   "theorems": [
    "C28_round_trip"
   ],
   "note": "PropConfig.v: C28_round_trip: Round trip."
  },
  {
   "property": "C29",
   "status": "proved",
   "theorems": [
    "C29_sections_prefix_names"
   ],
   "note": "PropConfig.v: C29_sections_prefix_names: A section header is a prefix for the names that follow."
  },
  {
   "property": "C30",
   "status": "proved",
   "theorems": [
    "C30_same_meaning_same_result",
    "C30_padding",
    "C30_padded_line",
    "C30_blank_line",
    "C30_final_newline"
   ],
   "note": "PropConfig.v: C30_same_meaning_same_result: Blank lines, comments and white space do not matter. C30_padding: White space around a line and a comment after it do not change what it says (white space around names and values: see [line_is]). C30_padded_line. C30_blank_line. C30_final_newline: Nor does the newline at the end of the file matter."
  },
  {
   "property": "C31",
   "status": "proved",
   "theorems": [
    "C31_name_acceptance",
    "C31_not_like_command_line_refuted"
   ],
   "note": "PropConfig.v: C31_name_acceptance: Which names are registered. C31_not_like_command_line_refuted: The bare prefix of a wildcard and alternative long names, which the command line accepts, are not accepted."
  },
  {
   "property": "C32",
   "status": "proved",
   "theorems": [
    "C32_conflicts_detected",
    "C32_message",
    "C32_no_conflict",
    "C32_unnamed_rejected",
    "C32_message_refuted"
   ],
   "note": "PropConfig.v: C32_conflicts_detected: Wildcards that cover each other are detected, and only these. C32_message: The text names two wildcards; the first one covers another one or is covered. C32_no_conflict. C32_unnamed_rejected: Options without a long name are rejected, too. C32_message_refuted."
  },
  {
   "property": "C33",
   "status": "proved",
   "theorems": [
    "C33_empty_section"
   ],
   "note": "PropConfig.v: C33_empty_section: Undefined behaviour: exactly if an empty section header is reached."
  },
  {
   "property": "C34",
   "status": "proved",
   "theorems": [
    "C34_syntax_errors",
    "C34_junk_rejected"
   ],
   "note": "PropConfig.v: C34_syntax_errors: Syntax errors: exactly if a line that says nothing known is reached. C34_junk_rejected."
  },
  {
   "property": "C35",
   "status": "proved",
   "theorems": [
    "C35_mapper",
    "C35_mapper_throws",
    "C35_prefix",
    "C35_no_equals_sign"
   ],
   "note": "PropConfig.v: C35_mapper: The environment parser with a name mapper; C35_mapper_throws: a mapper that throws for some variable ends the parsing with its exception; C35_prefix: with a prefix. C35_no_equals_sign: A variable without '=' is a failed assertion."
  },
  {
   "property": "C36",
   "status": "proved",
   "theorems": [
    "C36_first_source_wins"
   ],
   "note": "PropStore.v: C36_first_source_wins: The first source that mentions a non-composing option decides its value: all its occurrences there are parsed in order, starting from nothing; what the sources before and after it say does not matter."
  },
  {
   "property": "C37",
   "status": "proved",
   "theorems": [
    "C37_composing_accumulates",
    "C37_vector_concatenates"
   ],
   "note": "PropStore.v: C37_composing_accumulates: If the option is composing in every source that mentions it, its value is that of all its occurrences in all sources, parsed one after the other. C37_vector_concatenates: For a vector option declared the same way everywhere that is the concatenation of the converted tokens (after the conversion to the local encoding of those that are UTF-8)."
  },
  {
   "property": "C38",
   "status": "proved",
   "theorems": [
    "C38_unmentioned_has_default",
    "C38_same_description",
    "C38_mentioned_not_defaulted"
   ],
   "note": "PropStore.v: C38_unmentioned_has_default: An option that no source mentions has the first default that the descriptions stored so far declare for it (and is marked as defaulted), or is absent if there is none; C38_same_description: with one description, and the option declared once in it, simply its default; C38_mentioned_not_defaulted: an option that some source mentions has a value that is not a default."
  },
  {
   "property": "C39",
   "status": "proved",
   "theorems": [
    "C39_unnamed_ignored",
    "C39_unrelated_entries"
   ],
   "note": "PropStore.v: C39_unnamed_ignored: Unregistered and unnamed options in a source have no effect at all; C39_unrelated_entries: whatever [store] returns or throws, the entry of an option that the source does not mention stays the same, if the description does not declare it or it had a value before."
  },
  {
   "property": "C40",
   "status": "proved",
   "theorems": [
    "C40_required_missing",
    "C40_required_present",
    "C40_shown"
   ],
   "note": "PropStore.v: C40_required_missing: If an option that some stored description requires has no value, [notify] throws [required_option] for the first such option in the order of keys, and has no effect before; the option is named by the longest of the names it would be displayed with. C40_required_present: If none is missing, nothing but a notification can make [notify] fail. C40_shown: An option from a command line is displayed the way it can be written there."
  },
  {
   "property": "C41",
   "status": "proved",
   "theorems": [
    "C41_success",
    "C41_failure",
    "C41_typed_effects"
   ],
   "note": "PropStore.v: C41_success: If [notify] succeeds, its effects are those of the entries of the map in increasing order of their keys, each exactly once with the stored value; C41_failure: if the notification of an entry throws, its effects are those of the entries with smaller keys, and what that entry did before. C41_typed_effects: An option of the library first assigns its variable, then calls its notifier."
  },
  {
   "property": "C42",
   "status": "proved",
   "theorems": [
    "C42_failed_store",
    "C42_strong_guarantee_refuted"
   ],
   "note": "PropStore.v: C42_failed_store: If [store] throws, the final options and the required names are unchanged; the options before the failing one are stored; the failing one has what the semantics left in it, without its default, if it has got that far. C42_strong_guarantee_refuted."
  },
  {
   "property": "C43",
   "status": "proved",
   "theorems": [
    "C43_first_explicit",
    "C43_first_default",
    "C43_empty"
   ],
   "note": "PropStore.v: C43_first_explicit: In a chain of maps the first explicit value counts; C43_first_default: if there is none, the first default; C43_empty: if there is none either, an empty value."
  },
  {
   "property": "C44",
   "status": "proved",
   "theorems": [
    "C44_occurs_once",
    "C44_untyped_occurs_once",
    "C44_second_throws",
    "C44_untyped_second_throws",
    "C44_implicit_replaces"
   ],
   "note": "PropStore.v: C44_occurs_once: In a source that could be stored, an option of a scalar type occurs once, except for further occurrences without a value if the option has an implicit value; C44_untyped_occurs_once. C44_second_throws: another occurrence with a value throws [multiple_occurrences] and leaves the value; C44_untyped_second_throws. C44_implicit_replaces: but an occurrence without a value never throws if there is an implicit value: it replaces whatever is there, for every type."
  },
  {
   "property": "C45",
   "status": "proved",
   "theorems": [
    "C45_store_finds",
    "C45_abbreviated_wildcard_refuted",
    "C45_wildcard_case_refuted"
   ],
   "note": "PropCmdline2.v: C45_store_finds: Registered options in a result are found by the exact lookup of [store], C45_abbreviated_wildcard_refuted: but not those named by an abbreviation of a wildcard (in the default style), C45_wildcard_case_refuted: nor wildcards typed in another case."
  },
  {
   "property": "C46",
   "status": "proved",
   "theorems": [
    "C46_bool"
   ],
   "note": "PropStore.v: C46_bool: What a bool option makes of its tokens (after the conversion to the local encoding of UTF-8)."
  },
  {
   "property": "C47",
   "status": "proved",
   "theorems": [
    "C47_vector_appends",
    "C47_vector_stops",
    "C47_undecodable",
    "C47_tokens_decided"
   ],
   "note": "PropStore.v: C47_vector_appends: A vector option appends the values of its tokens (after the conversion to the local encoding of UTF-8); C47_vector_stops: if one of them is rejected, exactly the values before it have been appended; C47_undecodable: but if one of them cannot be converted to the local encoding, nothing is appended. C47_tokens_decided: every token is either converted or rejected, unless it is a boolean that is not ASCII, for which the behaviour is undefined."
  },
  {
   "property": "C48",
   "status": "proved",
   "theorems": [
    "C48_absent",
    "C48_command_line"
   ],
   "note": "PropStore.v: C48_absent: A [bool_switch]: false, as a default, if it is not mentioned; C48_command_line: on a command line (no positional argument being named after it) it never has a value; if it occurs once and the result can be stored in a new map, it is true; if it occurs again, it cannot."
  },
  {
   "property": "C49",
   "status": "proved",
   "theorems": [
    "C49_winmain",
    "C49_any_arguments",
    "C49_every_text",
    "C49_text"
   ],
   "note": "PropSplit.v: C49_winmain: A Windows command line that consists of some arguments, each quoted if necessary, is split into exactly these arguments; C49_any_arguments: every list of arguments can be written this way, so the splitting is onto and the quoting injective. C49_every_text: Every text can be read: backslashes before a double quote are halved, double quotes open and close, white space outside them separates; the splitting gives exactly the arguments read, and so there is only one way to read it. C49_text."
  },
  {
   "property": "C50",
   "status": "proved",
   "theorems": [
    "C50_unix",
    "C50_error",
    "C50_every_text",
    "C50_round_trip",
    "C50_any_arguments",
    "C50_never_empty",
    "C50_no_escape_no_error"
   ],
   "note": "PropSplit.v: C50_unix: A Unix command line that consists of some arguments, with special characters quoted or escaped, is split into exactly those that are not empty; C50_error: a line with an error is rejected, with the message for the error; C50_every_text: every text is one or the other; C50_round_trip: in particular, lists of non-empty arguments are recovered; C50_any_arguments: every non-empty list of arguments can be written this way with the default characters; C50_never_empty: no argument is ever empty, however it is quoted; C50_no_escape_no_error: a line without escape characters is never rejected."
  },
  {
   "property": "C51",
   "status": "proved",
   "theorems": [
    "C51_message",
    "C51_never_crashes",
    "C51_thrown_by_parser",
    "C51_thrown_by_parse_command_line",
    "C51_thrown_by_config_file",
    "C51_thrown_by_environment",
    "C51_thrown_by_store",
    "C51_thrown_by_notify",
    "C51_library_polite",
    "C51_terminates_refuted",
    "C51_value_terminates_refuted"
   ],
   "note": "PropErrors.v: C51_message: The message of an error about an option is the text for its kind, with the option named as it is written on the command line, the rejected value and the alternatives, if these texts contain no placeholder. C51_never_crashes: The message of an error that can be shown is never undefined and computing it never throws, C51_thrown_by_parser: and every error thrown can be shown: by the command line parser, C51_thrown_by_parse_command_line. C51_thrown_by_config_file: the file and environment parsers, C51_thrown_by_environment. C51_thrown_by_store: store C51_thrown_by_notify: and notify, if the semantics are polite, C51_library_polite: as those of the library are: for typed values, if the notifier and the conversion from UTF-8 are. C51_terminates_refuted: But the message need not exist: what() hangs if an unknown option, C51_value_terminates_refuted: or a rejected value contains the placeholder it replaces."
  },
  {
   "property": "C52",
   "status": "proved",
   "theorems": [
    "C52_wrapping",
    "C52_lines_fit",
    "C52_keeps_text",
    "C52_breaks_drop_one_blank",
    "C52_help_lines_fit",
    "C52_two_tabs",
    "C52_late_tab"
   ],
   "note": "PropFormat.v: C52_wrapping: A paragraph is written from column [indent] on as the only text [paragraph] describes. C52_lines_fit: No line is longer than [L], and all lines are indented, C52_keeps_text: no visible character is lost, added or moved, C52_breaks_drop_one_blank: and at each break at most one blank disappears: joined again with the blanks that were dropped, the lines are the text. C52_help_lines_fit: In the help of an option only the line with its name can be longer than [L] - 1. C52_two_tabs: Two tabs are an error; C52_late_tab: one that is not on the first line fails an assertion; with NDEBUG it is ignored."
  },
  {
   "property": "C53",
   "status": "proved",
   "theorems": [
    "C53_print",
    "C53_print_ndebug",
    "C53_default_column",
    "C53_nesting_widens",
    "C53_exactly_once"
   ],
   "note": "PropFormat.v: C53_print: What [print] writes for any tree of options is its help, and nothing else (without NDEBUG; [help] depends only on the tree); C53_print_ndebug: with NDEBUG the same, if there is a help; C53_default_column: if no column is given, a suitable one is used for all groups; C53_nesting_widens: each level of nesting moves it one to the right, if neither has too little room; C53_exactly_once: and the help shows every option exactly once."
  },
  {
   "property": "C54",
   "status": "proved",
   "theorems": [
    "C54_group",
    "C54_nesting",
    "C54_flat"
   ],
   "note": "PropFormat.v: C54_group: A group contributes exactly its options, in order, C54_nesting: so all lookups see the options in the order in which they are written, however they are nested, C54_flat: as if they had been added one by one."
  },
  {
   "property": "C55",
   "status": "proved",
   "theorems": [
    "C55_by_pieces",
    "C55_convert",
    "C55_unique",
    "C55_buffer_irrelevant"
   ],
   "note": "PropConvert.v: C55_by_pieces: Whatever the size of the buffer, as long as it has room for one character, converting by pieces gives the conversion of the whole text, or an error if it has none. C55_convert: So [convert] is right if no character takes more than 32 units, C55_unique: the conversion of the whole text is unique, C55_buffer_irrelevant: and the size of the buffer does not matter."
  },
  {
   "property": "C56",
   "status": "proved",
   "theorems": [
    "C56_to_utf8",
    "C56_from_utf8",
    "C56_round_trip",
    "C56_injective",
    "C56_overlong_refuted"
   ],
   "note": "PropConvert.v: C56_to_utf8: [to_utf8] writes the UTF-8 form of the text, C56_from_utf8: [from_utf8] reads it, C56_round_trip: so text survives the round trip, and different texts have different forms. C56_injective. C56_overlong_refuted: In the other direction it is not the identity: overlong forms are accepted."
  },
  {
   "property": "C57",
   "status": "proved",
   "theorems": [
    "C57_compositional"
   ],
   "note": "PropCmdline2.v: C57_compositional: Options that take no further tokens do not influence how the rest is parsed: neither its result nor its failure."
  },
  {
   "property": "C58",
   "status": "proved",
   "theorems": [
    "C58_lines_have_one_meaning",
    "C58_files_have_lines",
    "C58_meaning"
   ],
   "note": "PropConfig.v: C58_lines_have_one_meaning: The meaning of a config file: every line says exactly one thing, C58_files_have_lines: every file consists of exactly one list of lines, C58_meaning: and these determine the result."
  },
  {
   "property": "C59",
   "status": "proved",
   "theorems": [
    "C59_notify_defined",
    "C59_store_defined",
    "C59_mixed_types_refuted"
   ],
   "note": "PropStore.v: C59_notify_defined: With the semantics of the library, [notify] never dereferences a null pointer, whatever types a name stands for in the sources and whichever of the [store] calls failed before; C59_store_defined: if each name stands for one type in all sources, [store] is defined, except for a source without description (an assertion) and for booleans that are not ASCII. C59_mixed_types_refuted."
  },
  {
   "property": "C60",
   "status": "proved",
   "theorems": [
    "C60_print_safe",
    "C60_build",
    "C60_named",
    "C60_narrow_refuted",
    "C60_short_group_refuted"
   ],
   "note": "PropFormat.v: C60_print_safe: Printing succeeds if every option has a name and at most one tab per paragraph of its description, close to its beginning, if at least two columns are reserved for descriptions and no group has shorter lines. C60_build: Building fails only in the assertion of the constructor. C60_named: Options made from names have one. C60_narrow_refuted. C60_short_group_refuted: and so does it for a group with shorter lines than the whole."
  },
  {
   "property": "C61",
   "status": "proved",
   "theorems": [
    "C61_values_from_tokens"
   ],
   "note": "PropWide.v: C61_values_from_tokens: The values of the parsed options, read from the first to the last, come from the tokens in their order; a token supplies at most one, which is the whole token or the non-empty text attached to an option name in it."
  },
  {
   "property": "C62",
   "status": "proved",
   "theorems": [
    "C62_wide_parse",
    "C62_tokens_kept",
    "C62_unrecognized",
    "C62_split_character_refuted"
   ],
   "note": "PropWide.v: C62_wide_parse: Parsing a wide command line has the same outcome as parsing its UTF-8 form, and the values and tokens of the result are the wide forms of the narrow ones, provided that no byte outside ASCII is taken for a short option. C62_tokens_kept: So no wide token is lost, altered or reordered, C62_unrecognized: and the unrecognised wide tokens are the wide forms of the unrecognised narrow ones. C62_split_character_refuted: The proviso matters: if unregistered options are allowed, the first byte of a Cyrillic letter after a dash is taken for a short option, and converting the rest back fails although the narrow parse succeeds."
  },
  {
   "property": "C63",
   "status": "proved",
   "theorems": [
    "C63_wide_config"
   ],
   "note": "PropWide.v: C63_wide_config: Parsing a wide config file has the same outcome as parsing its UTF-8 form, and the values of the result are the wide forms of the narrow ones; no proviso is needed."
  },
  {
   "property": "C64",
   "status": "proved",
   "theorems": [
    "C64_vector",
    "C64_scalar",
    "C64_accepted",
    "C64_bool_undefined",
    "C64_narrow_string_refuted",
    "C64_narrow_vector_refuted",
    "C64_narrow_option"
   ],
   "note": "PropWide.v: C64_vector: A vector of wide values that may be composed contains the conversions of all wide values of all sources, in order; C64_scalar: an option with one value has the conversion of the first wide value it is given. C64_accepted: Every wide value that denotes a value of the type is accepted, C64_bool_undefined: but a wide character outside [0, 255] in a boolean is undefined behaviour, C64_narrow_string_refuted: and a narrow string declared with [wvalue] gets a value of another type: notifying a variable or a function dereferences a null pointer, C64_narrow_vector_refuted: and a vector of narrow strings accepts no value at all. C64_narrow_option: An option with narrow values that comes from a wide source sees the wide value in the local encoding."
  },
  {
   "property": "C65",
   "status": "proved",
   "theorems": [
    "C65_wide_winmain",
    "C65_inverts_quoting"
   ],
   "note": "PropWide.v: C65_wide_winmain: Splitting a wide command line splits its UTF-8 form; nothing can fail. C65_inverts_quoting: So splitting a wide command line inverts quoting,"
  },
  {
   "property": "C66",
   "status": "proved",
   "theorems": [
    "C66_flags",
    "C66_default",
    "C66_tokens",
    "C66_values",
    "C66_notify",
    "C66_help",
    "C66_chain_returns",
    "C66_chain_throws",
    "C66_only_last_calls",
    "C66_bool_switch"
   ],
   "note": "PropBuild.v: C66_flags: After any chain of setter calls on [value<T>(address)]: an option is required or composing iff some call said so, C66_default: the default is that of the last call that gave one, C66_tokens: the number of tokens depends on the calls [multitoken], [zero_tokens] and [implicit_value] in this way, whatever their order, C66_values: an occurrence without value stores the implicit value of the last call that gave one; otherwise no setter influences how values are read, C66_notify: notification of a value of the declared type assigns the variable, then calls the notifier of the last call that gave one, C66_help: and help shows the name, default and implicit text of the last calls that gave them. C66_chain_returns: The chain returns normally if the texts it needs can be made; otherwise the exception of the first failing conversion leaves it. C66_chain_throws. C66_only_last_calls: Nothing but these last calls matters: two chains that agree on them declare the same value. C66_bool_switch: [bool_switch] is a boolean value with default [false] and no tokens."
  },
  {
   "property": "C67",
   "status": "proved",
   "theorems": [
    "C67_chain_accepted",
    "C67_chain_rejected",
    "C67_run",
    "C67_second_run_empty",
    "C67_options_needed_refuted",
    "C67_argv",
    "C67_argc_zero"
   ],
   "note": "PropBuild.v: C67_chain_accepted: A chain of calls on a parser is accepted if every style in it can be used, C67_chain_rejected: and rejected at the first style that cannot. C67_run: [run] then parses the arguments with the settings of the last calls; the order of the calls does not matter otherwise. C67_second_run_empty: A second [run] returns no options, whatever is called in between, C67_options_needed_refuted: and [run] without a call of [options] violates an assertion. C67_argv: [parse_command_line(argc, argv, ...)] parses the [argc - 1] strings after the first pointer, which may be anything; what follows them (the null pointer, usually) is not read. C67_argc_zero: With [argc = 0] there are no arguments."
  },
  {
   "property": "C68",
   "status": "proved",
   "theorems": [
    "C68_additions",
    "C68_chains_compose",
    "C68_empty_name_refuted",
    "C68_flag_takes_no_value"
   ],
   "note": "PropBuild.v: C68_additions: A chain of additions appends exactly the options it declares, in order, and changes nothing else. C68_chains_compose: One chain or several make no difference. C68_empty_name_refuted: A declaration with an empty name violates an assertion. C68_flag_takes_no_value: Wherever it stands (but not behind \"--\"), an option that takes no value is rejected if one is attached to it."
  },
  {
   "property": "C69",
   "status": "proved",
   "theorems": [
    "C69_option_name",
    "C69_accessors_defined",
    "C69_unknown_option",
    "C69_config_line",
    "C69_config_unknown",
    "C69_missing_refuted"
   ],
   "note": "PropReject.v: C69_option_name: get_option_name() of an error about an option is the name shown in its message; there is always exactly one. C69_accessors_defined: tokens() and get_option_name() of every error about an option that the library throws are defined. C69_unknown_option: An unknown option is named as written on the command line, C69_config_line: the first line of a config file that cannot be read is returned by tokens(), C69_config_unknown: and the first unregistered name, with its section, by get_option_name(). C69_missing_refuted: But in a style with short options only, the error about a missing argument names the option that stands in its place, not the one that lacks it."
  },
  {
   "property": "C70",
   "status": "proved",
   "theorems": [
    "C70_result",
    "C70_failure"
   ],
   "note": "PropReject.v: C70_result: A config file given by name gives options only if it was opened and read to its end, and then those in its text. C70_failure: Otherwise the error is about the text that could be read, or names the file."
  },
  {
   "property": "C71",
   "status": "proved",
   "theorems": [
    "C71_rejection_justified",
    "C71_names_the_option"
   ],
   "note": "PropReject.v: C71_rejection_justified: Every error of the command line parser is due to a token on the command line, and quotes one; or there are more positional arguments than allowed. C71_names_the_option: The option that lacks a value, or has one too many, is named in the error by its canonical name, in every style with long options; kind() tells which of the two it is."
  },
  {
   "property": "C72",
   "status": "proved",
   "theorems": [
    "C72_case_flag"
   ],
   "note": "PropReject.v: C72_case_flag: case_insensitive of a parsed option tells whether its name was looked up ignoring case: the flag of the style for long or for short names, according to the name."
  },
  {
   "property": "C73",
   "status": "proved",
   "theorems": [
    "C73_precedence",
    "C73_program",
    "C73_program_composing"
   ],
   "note": "PropEnd.v: C73_precedence: Sources with the same description are stored and [notify] is called. The variable of a non-composing option gets, once, the value of the first source that mentions the option; if none does, the default value; if it has none, the variable is left alone. C73_program: The variable of a scalar option: the command line decides, then the config file, then the default. C73_program_composing: The variable of a composing vector: the values of the command line, then those of the config file."
  },
  {
   "property": "C74",
   "status": "proved",
   "theorems": [
    "C74_store_succeeds",
    "C74_order_irrelevant",
    "C74_program"
   ],
   "note": "PropEnd.v: C74_store_succeeds: [store] succeeds if and only if, for every option by itself, the option is found and all its occurrences can be parsed, one after another; options that an earlier source has decided are not looked at. C74_order_irrelevant: Sources that say the same about every option, whatever the order in which they mention different options, give the same entries and the same effects of [notify]. C74_program: Tokens that spell different options can be reordered on the command line, and lines that assign to different options in the config file (sections included), without any effect on the program."
  },
  {
   "property": "C75",
   "status": "proved",
   "theorems": [
    "C75_disjoint_sources_commute",
    "C75_overlapping_refuted"
   ],
   "note": "PropEnd.v: C75_disjoint_sources_commute: Sources that mention different options can be stored in either order: the entries are the same, and unless a required option is missing so are the effects of [notify]. C75_overlapping_refuted: If both mention the option, the order matters (C36)."
  },
  {
   "property": "C76",
   "status": "proved",
   "theorems": [
    "C76_declared_type",
    "C76_other_type",
    "C76_absent",
    "C76_chain",
    "C76_failed_store_refuted"
   ],
   "note": "PropObjects.v: C76_declared_type: If all sources are stored and each name stands for one type, every entry can be read as the type of its option, and gives the stored value; C76_other_type: reading it as any other type throws [bad_any_cast], even if some calls of [store] have failed; C76_absent: so does reading a name that has no entry. C76_chain: The same holds for a chain of maps: if some map has an entry, the value can be read. C76_failed_store_refuted: After a failed [store], a name that [count] reports can fail to be readable as its own type."
  },
  {
   "property": "C77",
   "status": "proved",
   "theorems": [
    "C77_value_semantics",
    "C77_all_runs",
    "C77_untouched",
    "C77_self_add_refuted"
   ],
   "note": "PropObjects.v: C77_value_semantics: A program that adds no description to itself can regard each description as a value of its own, of which adding and copying take a snapshot: its calls return, and every variable shows what that reading says; C77_all_runs: and each run has such a reading. C77_untouched: In particular calls on other variables, such as a description that was added to this one or that this one was added to, change nothing. C77_self_add_refuted: Adding a description that has options to itself never returns."
  },
  {
   "property": "C78",
   "status": "proved",
   "theorems": [
    "C78_list",
    "C78_first_explicit",
    "C78_endless",
    "C78_next"
   ],
   "note": "PropObjects.v: C78_list: If the chain from a map ends, looking up a name gives what the list of its maps says (see C43); C78_first_explicit: if the chain reaches an explicit value, the first of them is found, whatever comes behind it, even if the chain goes round in circles; C78_endless: if the chain has neither an end nor an explicit value, the lookup never returns. C78_next: [next] replaces the continuation of one map."
  },
  {
   "property": "C79",
   "status": "proved",
   "theorems": [
    "C79_delivers",
    "C79_text",
    "C79_afterwards",
    "C79_error_position",
    "C79_wide",
    "C79_wide_stream"
   ],
   "note": "PropStreams.v: C79_delivers: A stream delivers exactly one text: C79_text: parsing the stream gives what parsing that text gives; in particular a read error is taken for the end of the file, and a stream that has failed before for an empty file. C79_afterwards: After success the stream is exhausted, and is bad exactly if it was before or a read error has ended it. C79_error_position: After an exception, either nothing was read, as the description is at fault, or the stream stands behind the line that is at fault: the lines before it are correct, and with it the text gives this error. C79_wide: The same holds for wide streams. C79_wide_stream: A wide stream is read like the narrow stream with the same text in UTF-8: the results correspond, and the two streams are left in the same state at the same place."
  },
  {
   "property": "C80",
   "status": "proved",
   "theorems": [
    "C80_terminated",
    "C80_unterminated",
    "C80_no_environment_refuted"
   ],
   "note": "PropStreams.v: C80_terminated: If the array of the environment ends with a null pointer, as it has to, [parse_environment] reads the strings before it (see C35); C80_unterminated: without one it reads beyond the end of the array. C80_no_environment_refuted: If the program has no environment (as after clearenv()), [parse_environment] dereferences a null pointer."
  },
  {
   "property": "C81",
   "status": "proved",
   "theorems": [
    "C81_clear",
    "C81_erase",
    "C81_required",
    "C81_notify"
   ],
   "note": "PropMapUse.v: C81_clear: Whatever has been done with a map, after [clear] everything is as with a new map. C81_erase: Erasing an entry is different: a value that has been stored for an option that is not composing keeps later values away even after it has been erased; the option only gets its default back. C81_required: After any calls, [notify] throws exactly if an option is missing that is required by a source stored since the last [clear]; a value the program has put into the map counts. C81_notify: Otherwise the entries are notified, in the order of their names, up to the first failure; those the program has put there itself are passed over."
  },
  {
   "property": "C82",
   "status": "proved",
   "theorems": [
    "C82_kept",
    "C82_assigned",
    "C82_default",
    "C82_conflict"
   ],
   "note": "PropMapUse.v: C82_kept: A value of the program's own is kept by all sources that do not mention its name, also if they have a default for it; C82_assigned: Likewise for a value the program has assigned to an entry: the entry stays a default if it was one, it keeps its notifier, and the other entries do not change. C82_default: A value marked as a default, inserted, assigned to or stored as such, gives way to the first source that mentions the name; C82_conflict: not marked so, it conflicts with a source that gives a value to a scalar option of this name: the source cannot be stored, and the value stays."
  },
  {
   "property": "C83",
   "status": "proved",
   "theorems": [
    "C83_wide_unix",
    "C83_wide_error",
    "C83_every_wide_text",
    "C83_any_arguments",
    "C83_same_as_utf8",
    "C83_default_same_as_utf8",
    "C83_other_separators_refuted"
   ],
   "note": "PropSplitWide.v: C83_wide_unix: For wide characters: a line that consists of some arguments is split into those that are not empty, C83_wide_error: a line with an error is rejected, and C83_every_wide_text: there is no other line. C83_any_arguments: Every list of arguments can be written with the default characters. C83_same_as_utf8: If the special characters are ASCII, as the default ones are, then splitting a line as wide characters and splitting its UTF-8 form as bytes give the same arguments, or the same error. C83_default_same_as_utf8. C83_other_separators_refuted: With a separator outside of ASCII this fails: the byte 160 as a separator cuts the character 224 in two."
  },
  {
   "property": "C84",
   "status": "proved",
   "theorems": [
    "C84_grammar",
    "C84_unambiguous",
    "C84_rejected"
   ],
   "note": "PropGrammar.v: C84_grammar: The parser returns exactly the options the command line means by the rules of [SpecGrammar.v]. C84_unambiguous: No command line has two meanings. C84_rejected: A command line without a meaning is rejected with an exception, where the parser executes no undefined behaviour (C27 says when)."
  },
  {
   "property": "C85",
   "status": "proved",
   "theorems": [
    "C85_to_local",
    "C85_from_local",
    "C85_round_trip",
    "C85_injective",
    "C85_narrow_option",
    "C85_wide_option",
    "C85_shift_refuted"
   ],
   "note": "PropLocal.v: C85_to_local: [to_local_8_bit] writes a text in the code of the locale, or throws if it cannot be written in it, C85_from_local: [from_local_8_bit] reads a text in the code of the locale, or throws if it is not one, C85_round_trip: and if the facet reads the characters it writes, then what [to_local_8_bit] returns is read back, C85_injective: so that different texts have different forms. C85_narrow_option: An option of narrow type that is given wide values gets them in the code of the locale; if one of them cannot be written in it, the value is not touched and the exception says that the conversion failed. C85_wide_option: An option of wide type that is given narrow values reads them in the code of the locale: it gets what a wide source would have given. C85_shift_refuted: If shifts write nothing by themselves, whether a text is read depends on the size of the buffer: a shift back at the end is taken for an error when it follows 32 characters."
  },
  {
   "property": "C86",
   "status": "proved",
   "theorems": [
    "C86_new_option",
    "C86_mentions_refuted"
   ],
   "note": "PropFrame.v: C86_new_option: A command line that does not mention the new option is parsed as before: with the same result, the same exception, or the same undefined behaviour. The names of the other options must not mean the new one, either. C86_mentions_refuted: The condition on abbreviations is needed: a new option can make an abbreviation ambiguous. So is the one on values: a new option can turn a value of another option into an option."
  },
  {
   "property": "C87",
   "status": "proved",
   "theorems": [
    "C87_new_option",
    "C87_accepted_stays",
    "C87_conditions_refuted"
   ],
   "note": "PropFrame.v: C87_new_option: A file that does not assign to the new option has the same meaning as before: the same options, or the same exception. C87_accepted_stays: In particular a file that was accepted stays accepted, with the same options, whatever it assigns to. C87_conditions_refuted: The conditions are needed: a new wildcard can clash with an old one, whatever is in the file; and where unregistered options are allowed, an assignment to the new option is not unregistered any more."
  },
  {
   "property": "C88",
   "status": "proved",
   "theorems": [
    "C88_new_option",
    "C88_failure"
   ],
   "note": "PropFrame.v: C88_new_option: Sources that do not mention the new option can be stored as before, and every other option has the same value, and is missing if and only if it was missing before. (For the new option itself see C38 and C40.) C88_failure: A source that could not be stored still cannot be, with the same exception, and leaves the same values."
  },
  {
   "property": "C89",
   "status": "proved",
   "theorems": [
    "C89_command_line",
    "C89_config_file"
   ],
   "note": "PropConserve.v: C89_command_line: A parser that does not allow unregistered options succeeds exactly if the one that allows them succeeds without having met one, and then with the same result. If that one met some, the strict one fails with [unknown_option]; if that one fails, the strict one fails too: in the same way, or with [unknown_option]. C89_config_file: The same for config files, whatever the options and the content."
  },
  {
   "property": "C90",
   "status": "proved",
   "theorems": [
    "C90_allow_guessing",
    "C90_accepted_stays",
    "C90_conditions_refuted"
   ],
   "note": "PropConserve.v: C90_allow_guessing: Allowing abbreviations only gives a meaning to command lines that were rejected because of an unknown option: every other one keeps its result, or its error. This holds if unregistered options are not allowed, long options take two dashes, no long name is a wildcard, and no token that could be an option (and no short name), with its dashes, is the beginning of a long name. C90_accepted_stays: In particular what was accepted keeps its meaning. C90_conditions_refuted: The conditions on the style and on the long names are needed: with abbreviations an unregistered option becomes a registered one, \"-ou\" means [output] without a value instead of [o] with the value \"u\", a name under a wildcard becomes ambiguous, and a value that starts with dashes becomes an option (for a long name with leading dashes)."
  },
  {
   "property": "C91",
   "status": "proved",
   "theorems": [
    "C91_mask",
    "C91_unfit",
    "C91_badbit",
    "C91_failbit_refuted",
    "C91_wide",
    "C91_wide_narrow",
    "C91_wide_failbit_refuted",
    "C91_after",
    "C91_after_wide"
   ],
   "note": "PropMask.v: C91_mask: Compare the call with the same call on a stream that does not throw, and look at the state in which it leaves the stream: if a bit of the mask is set, the stream has thrown; otherwise there is no difference. C91_unfit: If the options cannot be used for config files, the mask does not matter. C91_badbit: With [badbit] alone in the mask the end of the file is as before, and a read error is not taken for the end of the file any more: C91_failbit_refuted: With [failbit] or [eofbit] in the mask no file can be read to its end: the call never succeeds, and for a correct file it always ends with [std::ios_base::failure]. C91_wide: The same for wide streams. C91_wide_narrow: What a wide stream does is what the narrow stream with the same text in UTF-8 does. C91_wide_failbit_refuted: With [failbit] or [eofbit] in the mask no wide file can be read to its end either. C91_after: After an exception of the stream a bit of the mask is set, what has not been read is still there, and the stream is as reliable as before. An exception of the stream buffer is thrown again only if there was a read error and [badbit] is in the mask. C91_after_wide."
  },
  {
   "property": "C92",
   "status": "proved",
   "theorems": [
    "C92_two_stages",
    "C92_optional_value_refuted",
    "C92_mixed_refuted",
    "C92_terminator_refuted",
    "C92_value_refuted",
    "C92_shadow_refuted",
    "C92_disguise_refuted",
    "C92_converse_refuted"
   ],
   "note": "PropStages.v: C92_two_stages: A command line that a parser for the options [A] and [B] accepts can be parsed in two stages: a parser for [A] that allows unregistered options, and a parser for [B] that is given what [collect_unrecognized] makes of the first result. Together they return the same options, with the same values, tokens and positions. This holds in styles that distinguish case and have no long options in disguise, if no name of [B] abbreviates one of [A], options of [B] take a fixed number of values, there is no \"--\", no token \"-abc\" is a mixture of options of [A] and [B], and no separate value of an option of [B] could be an option of [A]. C92_optional_value_refuted: The conditions are needed. An option of [B] that can do without a value takes an argument it was separated from by an option of [A]; C92_mixed_refuted: of \"-vh\" the first parser only sees [v], and the second does not know [h]; C92_terminator_refuted: the \"--\" is not passed on, so arguments behind it become options; C92_value_refuted: the value \"-hx\" of [output] becomes the option [help]; C92_shadow_refuted: \"--out\" is a name of [B], but to the first parser an abbreviation of [output]; C92_disguise_refuted: and \"-number\", with long options in disguise, to the first parser is the option [n] with a value. C92_converse_refuted: The converse does not hold: what is ambiguous to a parser for all the options can be clear to the first of the two."
  },
  {
   "property": "C93",
   "status": "proved",
   "theorems": [
    "C93_calls",
    "C93_stateless",
    "C93_same_answers",
    "C93_claimed_token_refuted"
   ],
   "note": "PropUser.v: C93_calls: A command line parser with an additional parser, a function [f] of the user with a state of its own that may throw. The tokens are passed to [f] one by one, in order, each at most once, from the first one on. An exception of [f] ends the parsing and reaches the caller. A parse that returns has asked for all tokens, or for those up to and including a \"--\". Nothing but the answers counts: any other function, with any other state, that gives these answers to these calls leads to the same result. C93_stateless: If the answers are those of a function without state, the result is the one of the parser that has this function: the theorems about parsers with an additional parser apply. C93_same_answers. C93_claimed_token_refuted: That a token the function has given to an option always becomes that option is false: the function is also asked about the values of options, and then its answer is ignored."
  },
  {
   "property": "C94",
   "status": "proved",
   "theorems": [
    "C94_written",
    "C94_cut_off",
    "C94_broken",
    "C94_field_width",
    "C94_empty",
    "C94_exception",
    "C94_failbit_only"
   ],
   "note": "PropOut.v: C94_written: On a stream without errors and without a field width exactly the text is appended, if there is room for it. C94_cut_off: A stream that takes only [n] characters more gets the first [n] of them; then it is bad. [print] notices nothing, unless the stream throws for that, C94_broken: and on one that is not good nothing arrives, but errors of the description are still reported. C94_field_width: A field width applies to the first thing that is written, and only to that; then it is 0; C94_empty: if nothing is written, it stays. C94_exception: If a paragraph with two tabs is met, everything before it has been written. C94_failbit_only."
  },
  {
   "property": "C95",
   "status": "proved",
   "theorems": [
    "C95_visits",
    "C95_added",
    "C95_own",
    "C95_undefined",
    "C95_exception",
    "C95_plain",
    "C95_fuel",
    "C95_ends",
    "C95_endless",
    "C95_required_refuted",
    "C95_own_refuted"
   ],
   "note": "PropReenter.v: C95_visits: Whatever the notifiers do, [notify] visits entries in the order of their names, each at most once, and each with the value and the semantics it has at that moment; the map changes only during the visits, and loses only entries that a notifier removes. If [notify] returns, each entry that was in the map before has been visited, or was removed during the visit of an option with a smaller name; and the entries visited have had all their effects. C95_added: An entry that is put into the map during a visit is visited later in the same [notify] if its name comes after that of the option being visited, unless it is removed again before that; otherwise it is not visited any more. It has not been visited before either, unless it was in the map before and has been removed. C95_own: A notifier must not remove the entry that a [notify] is visiting: this [notify] visits no further entry and does not return. C95_undefined: If something undefined happens, then because an entry is removed while a [notify] is at it, because an option does something undefined itself, or because a source is stored for which this is undefined. C95_exception: An exception comes from the check for required options, before any visit, or it is thrown by the last option visited or by one of the notifiers it calls: what an inner [store] or [notify] throws arrives only if the notifier throws it on. The options visited before have had all their effects, and what has been changed stays. All options with smaller names have been visited, except those removed before. C95_plain: If the notifiers just return, the effects and the outcome are those of [notify] in C41 and C81, and the map does not change. C95_fuel: The fuel does not matter once there is enough, C95_ends: and if no notifier calls [notify], and all of them put only entries with names from a finite list into the map, there is enough when it exceeds the length of the list: [notify] ends. C95_endless: A notifier that calls [notify] again on its map unconditionally never returns. C95_required_refuted: The options that a source stored by a notifier requires are not checked: the [notify] that is running returns although the next one throws. C95_own_refuted: So [notify] is not safe for all notifiers, even if nothing in the map is undefined by itself."
  },
  {
   "property": "C96",
   "status": "proved",
   "theorems": [
    "C96_distributed",
    "C96_two_stages",
    "C96_argument_refuted"
   ],
   "note": "PropStageStore.v: C96_distributed: If the options of a source are distributed to two sources, storing the two one after the other succeeds exactly if storing the one does, and gives the same map. C96_two_stages: So a command line can be parsed and stored in two stages, whatever has been stored before and is stored afterwards: under the conditions of C92, and if no argument is given the name of an option of the first stage. C96_argument_refuted: If the arguments are called after an option of the first stage, the second stage cannot be stored: it does not know that option."
  },
  {
   "property": "C97",
   "status": "proved",
   "theorems": [
    "C97_ends",
    "C97_endless",
    "C97_transparent",
    "C97_checked",
    "C97_maximum_refuted",
    "C97_response",
    "C97_value_refuted",
    "C97_link_refuted",
    "C97_swallow"
   ],
   "note": "PropStyle.v: C97_ends: If every call of the style parser returns, and each time either leaves as many tokens as it got or makes them lighter by some measure, parsing ends after at most as many rounds as the tokens weigh. C97_endless: A style parser that finds no option but keeps adding tokens makes the parser loop for ever. C97_transparent: A style parser that leaves everything to the others changes nothing. C97_checked: Whatever the style parser returns: an option of the result is positional, or not registered, marked so and allowed, or registered under its key with at least the values it needs. C97_maximum_refuted. C97_response: A reader of response files: if parsing succeeds and no name of a file is left among the tokens of the result, the result is that of the command line with all files written out. C97_value_refuted. C97_link_refuted. C97_swallow: A style parser that removes a token without returning an option makes the parser read past the end of the tokens when an option before it needs a value."
  },
  {
   "property": "C98",
   "status": "proved",
   "theorems": [
    "C98_calls",
    "C98_result",
    "C98_parse_throws",
    "C98_default_throws",
    "C98_unknown",
    "C98_same_answers",
    "C98_plain"
   ],
   "note": "PropUserStore.v: C98_calls: [store] calls [parse] once for each option of the source that is to be stored, in the order of the source, with the tokens of the source and what the calls before have left for that name; then [apply_default] once for each option of the description, in order, for which there is no value; and nothing else. The first call that does not return is the last. C98_result: If all calls return, [store] succeeds: the entries are what the calls gave, and later sources cannot change the parsed names that are not composing; the names required are those of the description. C98_parse_throws: If [parse] throws, [store] throws the exception with the option filled in. What the calls have left for the names so far is in the map, also what the last one has left; no defaults are stored; what later sources can change and what is required is as before. C98_default_throws: If [apply_default] throws, [store] throws the same exception, nothing being filled in. The source has been stored, with the defaults so far, and its names can no longer be changed by later sources. C98_unknown: If all calls return but the description does not know the next name, [store] throws with that name filled in, no defaults having been asked for. C98_same_answers: The result depends on the answers only: other code, with another state, that gives the same answers to these calls leads to the same map and the same outcome. C98_plain: Code without state whose [apply_default] does not throw is what the other properties of [store] are about."
  },
  {
   "property": "C99",
   "status": "proved",
   "theorems": [
    "C99_store",
    "C99_notify",
    "C99_histories",
    "C99_parse",
    "C99_everywhere",
    "C99_empty_refuted"
   ],
   "note": "PropSame.v: C99_store: Sources with the same names and values have the same effect on a map, whatever the tokens they came from: they are stored with the same result, or fail for the same reason at the same option. C99_notify: Such maps have the same entries, and [notify] does the same on them; if it reports a missing option, it is the same option. C99_histories: So whole histories of such sources lead to such maps. C99_parse: Settings of registered options can be given as arguments \"--name=value\", as lines \"name=value\" of a config file, or as environment variables with a name mapper. Each parses; C99_everywhere: and each of the three has the same effect when it is stored. C99_empty_refuted: An empty value is accepted in a config file but not as an argument."
  },
  {
   "property": "C100",
   "status": "proved",
   "theorems": [
    "C100_unseen",
    "C100_safe",
    "C100_unsafe",
    "C100_call",
    "C100_kept_notify",
    "C100_kept_get",
    "C100_added_later",
    "C100_stores",
    "C100_runs",
    "C100_descriptions",
    "C100_lookup",
    "C100_snapshot_refuted"
   ],
   "note": "PropLifetimes.v: C100_unseen: Destroying objects is never seen: as long as a program does not use what it has destroyed, it sees what it would see if nothing were destroyed, C100_safe: and whether it does is decided by the rules of SpecLifetimes: a program that runs to its end if nothing is destroyed runs to the same end exactly if every object lives long enough, C100_unsafe: and otherwise uses a destroyed object, after having seen the same up to that point. C100_call: The same for one call: it is undefined exactly if it uses an object that was destroyed before. C100_kept_notify: A map keeps what it has: calls that leave it alone, in particular the end of every description, parser, source and other map, change neither what [notify] does, C100_kept_get: nor what a lookup finds in it. C100_added_later: A source refers to its description and does not keep a copy: an option that is added to the description before the source is stored counts as if it had been there when the source was read, if that would have read the same. C100_stores: In such a program, reading and storing are what they are for values: a source that is read and stored has the effect of [store] with the description, C100_runs: and a parser that is made, told everything and run gives what the chain of these calls gives. C100_descriptions: Calls on descriptions that have not been destroyed are those of C77: they treat descriptions as values, and adding a description that has options to itself does not return. C100_lookup: A lookup in maps that have not been destroyed is that of C78. C100_snapshot_refuted: So what a source will store is not settled when it is read."
  },
  {
   "property": "C101",
   "status": "proved",
   "theorems": [
    "C101_same_result",
    "C101_same_failure",
    "C101_values",
    "C101_flags",
    "C101_groups",
    "C101_groups_with_value",
    "C101_unchanged",
    "C101_value_refuted",
    "C101_full_name",
    "C101_abbreviation",
    "C101_case",
    "C101_case_refuted"
   ],
   "note": "PropSpelling.v: C101_same_result: A command line in other words has the same result, but for the tokens that are quoted, C101_same_failure: and is rejected if the other is. C101_values: Such other words are: for an option with one value, every name by which the option is found, long or short, with the value in the same token or in the next, C101_flags: for a flag, every name by which it is found, C101_groups: several flags in one word or one by one, C101_groups_with_value: and behind the flags of such a word an option with its value. C101_unchanged: What need not be written in other words: every command line that is accepted is a respelling of itself. C101_value_refuted: A token that was taken for a value is not an option, and then the words matter: in the place of a value \"--verbose\" is not the same as \"-v\". C101_full_name: An option is known by each of its names, if no other option has that name, C101_abbreviation: and, where the style allows guessing, by each beginning of its long names that does not abbreviate another option and is not the name of one; C101_case: in the styles that ignore case, whatever the case of its letters. C101_case_refuted: The case of the letters of a wildcard option is the case of its key."
  },
  {
   "property": "C102",
   "status": "proved",
   "theorems": [
    "C102_no_race",
    "C102_isolated",
    "C102_memory",
    "C102_finishes",
    "C102_accesses",
    "C102_const",
    "C102_own",
    "C102_alone",
    "C102_shared_variable_refuted",
    "C102_what_refuted"
   ],
   "note": "PropThreads.v: C102_no_race: As long as no thread writes what another one uses, there is no data race, in any schedule, C102_isolated: every thread sees what it would see if it were alone, C102_memory: and leaves behind what it would leave behind; what nobody writes stays as it is. C102_finishes: No thread keeps another one from coming to its end: whatever has happened, all can finish. C102_accesses: Calls touch nothing else than the objects listed in [accesses]: parsing and printing read the description; [store] reads the description and writes the map; [notify] reads the map and writes the variables; a lookup reads the maps it comes to; [what()] writes the text of the exception if that carries an option name. C102_const: Threads that only call [const] functions, except [what()] of exceptions with option names, may share everything; C102_own: threads with maps, variables and exceptions of their own may share the descriptions. C102_alone: Alone, a call is the function of the rest of the model. C102_shared_variable_refuted: Two threads with maps of their own get in each other's way if the description sends values to a variable: C102_what_refuted."
  },
  {
   "property": "C103",
   "status": "proved",
   "theorems": [
    "C103_unused",
    "C103_sticky",
    "C103_case",
    "C103_upper_case_refuted",
    "C103_value_refuted",
    "C103_sticky_refuted"
   ],
   "note": "PropWays.v: C103_unused: Whether a way to write options is allowed does not matter to a command line that does not use it. C103_sticky: Allowing several short options in one word only gives a meaning to command lines that were rejected, provided that no two options have the same letter, and that the letters do not stand for something else where case is ignored. C103_case: Ignoring the case of letters does not change the meaning of a command line that has one, provided that nothing is a name only if case is ignored: C103_upper_case_refuted: Where the case of long names is ignored and that of short names is not, an option with an upper-case letter can not be given by its letter. C103_value_refuted: A value that is a name only if case is ignored is no longer one: \"--output -V\" where there is an option \"-v\". C103_sticky_refuted: With two options of the same letter, allowing several letters in one word can make a value of an option ambiguous."
  },
  {
   "property": "C104",
   "status": "proved",
   "theorems": [
    "C104_command_line",
    "C104_config",
    "C104_store",
    "C104_notify",
    "C104_values",
    "C104_untyped",
    "C104_arg",
    "C104_help"
   ],
   "note": "PropTexts.v: C104_command_line: Two parsers whose options differ in their descriptions and the names of their values only do the same with each command line: they return the same options, or throw the same exception. C104_config: So do config files, C104_store: and storing any sources one after the other: it returns normally or throws the same exception, with the same values in the map, and [notify] does the same with the two maps. C104_notify. C104_values: Typed values that differ in the name of the value and the texts for the default and the implicit value only make options that differ in texts only; so do different values of the global [arg]. C104_untyped. C104_arg: What the help shows of a value with a name does not depend on [arg]; without one it shows [arg] as it is then. C104_help: The other way round, help shows nothing but names and texts: it does not depend on the types, defaults, notifiers and other settings of the values."
  },
  {
   "property": "C105",
   "status": "proved",
   "theorems": [
    "C105_defined",
    "C105_messages",
    "C105_booleans_refuted",
    "C105_sections_refuted"
   ],
   "note": "PropProgram.v: C105_defined: A program with orderly options that reads suitable sources ends in one of two ways, whatever the sources contain: all values are stored and notified, or there is an exception of the library or of a function of the user. It executes no undefined behaviour and it terminates. C105_messages: and the message of the exception can be composed, if the exceptions of the user's functions have one. C105_booleans_refuted: A boolean with a value that is not ASCII, C105_sections_refuted: and a section without a name, are undefined."
  },
  {
   "property": "C106",
   "status": "proved",
   "theorems": [
    "C106_first_failure",
    "C106_sectionless",
    "C106_own_section",
    "C106_open_section",
    "C106_cases",
    "C106_truncated",
    "C106_exchange",
    "C106_open_refuted",
    "C106_tail_refuted",
    "C106_incomplete_refuted"
   ],
   "note": "PropParts.v: C106_first_failure: What goes wrong in the first part goes wrong in the whole, whatever follows. C106_sectionless: If the first part has no sections, the options of the whole are those of the parts. C106_own_section: The same holds if the second part begins with a section. C106_open_section: Otherwise the second part is read as if it began with the last section of the first. C106_cases: One of these cases applies. C106_truncated: So a part of a file, up to the end of a line, can be read if the file can, and gives the first options of it. C106_exchange: Parts that begin with sections can be exchanged: the options are the same but for their order. C106_open_refuted: A section of the first part stays open: the parts may be fine and the whole not, C106_tail_refuted: or the other way round: a part of a file, from the beginning of a line, need not be a file; C106_incomplete_refuted: and without the newline at the end of the first part its last line swallows the first line of the second."
  },
  {
   "property": "C107",
   "status": "proved",
   "theorems": [
    "C107_accepted",
    "C107_only_added",
    "C107_rejected",
    "C107_same_error",
    "C107_missing_refuted",
    "C107_too_many_refuted",
    "C107_last_refuted"
   ],
   "note": "PropLater.v: C107_accepted: C107, for every parser without a style parser of the user; an additional parser may be there, and may even claim the token \"--\". An accepted command line stays a command line's beginning: whenever the longer command line is accepted too, its result begins with the result of the shorter one, but that the last option may have taken more values. C107_only_added: Where every option takes a fixed number of values, options are only added. C107_rejected: A rejected command line cannot be made acceptable by adding arguments, unless the complaint was that a value is missing. C107_same_error: Moreover the complaint stays the same whatever is added, unless it is about a missing value, too many positional arguments or an ambiguous name (the last two can be made after the whole command line has been read, so that a complaint about what was added can come before them). C107_missing_refuted: The exceptions are real: a missing value may still come, C107_too_many_refuted: and the complaint about too many positional arguments gives way to any later one. C107_last_refuted: The last option really may take more: \"--level\" has the implicit value 7."
  },
  {
   "property": "C108",
   "status": "proved",
   "theorems": [
    "C108_words",
    "C108_typed",
    "C108_too_few",
    "C108_argument",
    "C108_no_argument",
    "C108_equals_refuted",
    "C108_dash_refuted"
   ],
   "note": "PropHelpful.v: C108_words: The name column of the help is made of one or two words, C108_typed: and each of them, typed with as many values as the option may have, is read as that option with these values. C108_too_few: With fewer values it is rejected. C108_argument: If the help shows an argument after the name, the option takes the word that follows it (if it wants a single one), or a value in the same token; C108_no_argument: if it shows none, the words that follow are not the option's, and a value in the same token is an error. C108_equals_refuted. C108_dash_refuted: and the short name '-' is shown as \"--\", which is no option at all."
  },
  {
   "property": "C109",
   "status": "proved",
   "theorems": [
    "C109_interface",
    "C109_value",
    "C109_count",
    "C109_notify",
    "C109_switch"
   ],
   "note": "PropFlag.v: C109_interface: An option declared without a type: it takes no value, or one; it is neither required nor composing, has no default, and nothing happens when it is notified. C109_value: Its value is the text given, the empty text if none; two texts are too many, and so is a second occurrence. C109_count: Once sources with one description have been stored, [count] tells whether the option was given in any of them; its value is that of the first source that gave it, and was given there once. C109_notify: A program all of whose options are declared without a type can always be notified, and nothing happens then. C109_switch: A switch always has a value: [false], and [defaulted], if no source gives it; [true] if the first source that gives it does so without a value."
  },
  {
   "property": "C110",
   "status": "proved",
   "theorems": [
    "C110_again",
    "C110_repetition",
    "C110_empty",
    "C110_composing_refuted",
    "C110_failed_refuted"
   ],
   "note": "PropAgain.v: C110_again: A source that has been stored and mentions no composing option can be stored again at any time, whatever was stored in between: it is accepted and the map stays as it is, with all that [notify] will do. C110_repetition: So a repetition can be left out or put in anywhere. C110_empty: A source that only declares options, such as an empty command line, is such a source. C110_composing_refuted: Composing options get their values twice, C110_failed_refuted: and only a source that could be stored can be stored again: what [store] did before it threw stays in the map, so that a second attempt fails for another reason than the first."
  },
  {
   "property": "C111",
   "status": "proved",
   "theorems": [
    "C111_entry",
    "C111_others",
    "C111_decided",
    "C111_states",
    "C111_required",
    "C111_defined",
    "C111_retry_refuted",
    "C111_default_refuted",
    "C111_nameless_refuted"
   ],
   "note": "PropMemory.v: C111_entry: If memory runs out in [store], each name has what it had; or the value that the first of its occurrences in the source give, perhaps with one more that was being parsed; or it had nothing and now has its default, or an entry without a value. No value of one option gets under the name of another. C111_others: A name that neither the source mentions nor its description has a default for is left alone. C111_decided: What an earlier source has decided stays decided, and a name is only decided by this source with its complete value: a value cut short is never taken for the final one. C111_states: The states include the one before the call, the one after it, and those that other exceptions leave. C111_required: An option that a stored source requires is required whatever happens later: without a value, [notify] throws [required_option] and does nothing else. C111_defined: With the library's value semantics and one type for each name, whatever calls of [store] were interrupted or threw, a further [store] and [notify] have defined behaviour (with the exceptions of C59). C111_retry_refuted: But a source that could not be stored because memory ran out may be refused when it is stored again, C111_default_refuted. C111_nameless_refuted: and [notify] can report a required option without saying which."
  },
  {
   "property": "C112",
   "status": "proved",
   "theorems": [
    "C112_same",
    "C112_options",
    "C112_help",
    "C112_group",
    "C112_half_added",
    "C112_never_mended",
    "C112_unusable_refuted"
   ],
   "note": "PropBuildMemory.v: C112_same: As long as memory lasts, the two vectors of a description are those of the model with pairs: its constructor, both functions [add], [options] and [print] do the same. C112_options: If memory runs out in [add], the options known before are still known, in the same order, followed by the first of those to be added. C112_help: Help that gets printed is that of a description in which nothing is amiss: each option of it and of its groups has its place. C112_group: If memory runs out between two options of a group, the description can be used, and its help, with a given width of the first column, already shows the whole group. C112_half_added: But between the two steps of adding one option, memory may run out and leave a description whose help can not be printed: the behaviour is undefined, and no option added later mends this, C112_never_mended. C112_unusable_refuted: and help may show an option that is not recognized."
  },
  {
   "property": "C113",
   "status": "proved",
   "theorems": [
    "C113_same",
    "C113_done",
    "C113_too_many",
    "C113_rest",
    "C113_no_longer",
    "C113_unknown",
    "C113_stuck",
    "C113_ends",
    "C113_object",
    "C113_disguised_refuted",
    "C113_accepted_refuted",
    "C113_resumes_refuted"
   ],
   "note": "PropRerun.v: C113_same: The functions that keep track of the arguments have the outcome of those that do not. C113_done: A run that returns leaves no argument behind: every later run returns no option. C113_too_many: So does a run that complains about too many positional arguments. C113_rest: Unless long options may be written with a single character in front, a run that throws leaves the arguments from some point on, as they were; and it leaves all of them only if it complains about the text of the first. C113_no_longer: In any style there are not more of them. C113_unknown: After the complaint about an unknown option, in any style, what is left is what follows the token that names it. C113_stuck: After the complaint that nothing follows an '=' the parser is of no more use: every later run complains about it again. C113_ends: A program that runs the parser until it returns is finished after as many runs as there are arguments, or sees the same exception again and again. (C27 says when a run is defined.) C113_object: The parser object: [run] changes nothing but the arguments, and running it again is running it on what is left. C113_disguised_refuted: The restriction on the style is needed: the complaint about \"-output=\" leaves \"--output=\", C113_accepted_refuted: and where two dashes are not allowed the next run takes that for a positional argument, without a complaint. C113_resumes_refuted: A second run does not make up for the first: what was read before the exception is lost, and the values of the option at fault become positional arguments."
  },
  {
   "property": "C114",
   "status": "proved",
   "theorems": [
    "C114_asked",
    "C114_stateless",
    "C114_changed",
    "C114_every_variable_refuted",
    "C114_ends_refuted"
   ],
   "note": "PropUserEnv.v: C114_asked: A mapper that does not change the environment is asked about every variable once, in the order of the array; each answer that is not empty makes an option. If it throws, nothing more happens. C114_stateless: A mapper without a state behaves as in C35 and C80, whatever the environment. C114_changed: A mapper that changes the environment: after the first variable the call goes on with what is in the array then, except for its first place. C114_every_variable_refuted. C114_ends_refuted: A mapper that adds a variable whenever it is asked keeps the call going for ever."
  },
  {
   "property": "C115",
   "status": "proved",
   "theorems": [
    "C115_same",
    "C115_environment",
    "C115_environment_read",
    "C115_positional",
    "C115_position",
    "C115_unnamed",
    "C115_unnamed_command_line",
    "C115_unnamed_store",
    "C115_unnamed_command_line_refuted",
    "C115_values_kept_refuted"
   ],
   "note": "PropRelease.v: C115_same: Assertions have no effect but to fail: without them the functions do the same where no assertion fails. C115_environment: A string of the environment without '=' is its own name and its own value. C115_environment_read: Every string is taken for exactly one name and value. C115_positional: The last name added without a limit replaces the one before. C115_position: A position without a name has the empty name. C115_unnamed: An option declared with the empty string has no names. C115_unnamed_command_line: It has no effect on command lines, as far as no argument has an '=' in the place of a name, C115_unnamed_store: nor on what is stored and missing: its default is not stored, and it is not required even if it is declared so. C115_unnamed_command_line_refuted: Such arguments do notice it, where long options may be written with a single dash. C115_values_kept_refuted."
  },
  {
   "property": "C116",
   "status": "proved",
   "theorems": [
    "C116_safe",
    "C116_deleted",
    "C116_end",
    "C116_leak",
    "C116_outlives",
    "C116_references",
    "C116_twice",
    "C116_any_program_refuted"
   ],
   "note": "PropOwners.v: C116_safe: A program that gives each value semantic away once never has one deleted twice or used after its deletion, whatever it copies, stores, erases and destroys, and in whatever order. C116_deleted: At every moment of such a program a value semantic that was given to an option has been deleted if and only if no description and no map refers to it any more. C116_end: No leak of what was given away: when all descriptions and maps are gone, so are the value semantics, in every program. C116_leak: But a value semantic that is given to no option is only deleted by the program. C116_outlives: A stored value keeps its value semantic alive: [notify] may be called after the description is gone. C116_references: Who refers to what: a declaration makes a new owner, a copy shares the owners of the original, and so do the including description and the map. A stored value replaces the one of the same name. C116_twice: A value semantic given to two options: a program that gets so far can destroy the descriptions of at most one of them. C116_any_program_refuted: It is wrong that programs may do as they like with the pointer: to give it to two options, to delete it after it was given to one, and to call a setter after the description is gone is undefined."
  },
  {
   "property": "C117",
   "status": "proved",
   "theorems": [
    "C117_command_line",
    "C117_style",
    "C117_file",
    "C117_file_only",
    "C117_named_file",
    "C117_environment",
    "C117_store",
    "C117_store_wide",
    "C117_notify",
    "C117_program",
    "C117_conversion_refuted",
    "C117_cast_refuted",
    "C117_split_refuted"
   ],
   "note": "PropCatch.v: C117_command_line: The parser of a command line throws nothing but these errors; unregistered options and positional arguments are errors only if they are not allowed. C117_style: With the style given as a number, there is also the error about the style. C117_file: The parser of config files throws nothing but these; C117_file_only: and nothing but the errors in the file, if the options all have names, which are compatible. C117_named_file: For a file given by its name, there is also the error that names it. C117_environment: The parser of the environment throws only what the function that maps names throws. C117_store: Storing options parsed from strings of [char], with values for [char], throws nothing but the errors in names and values. C117_store_wide: With strings of [wchar_t] in the source or in the values, conversions can fail as well; and a string of [char] in a value made of wide text is a bad cast. C117_notify: Notifying throws the error about a required option without a value, or what a notifier throws. C117_program: A program that reads strings of [char], with values of the library for [char], throws errors derived from [program_options::error], and what the functions of the user throw; nothing else. C117_conversion_refuted: A wide value that the local encoding cannot express is a [std::logic_error] from store(); C117_cast_refuted: a list of narrow strings made of wide text is a bad cast; C117_split_refuted: and a command line with a bad escape, split as on Unix, is an error of Boost.Tokenizer."
  },
  {
   "property": "C118",
   "status": "proved",
   "theorems": [
    "C118_command_line",
    "C118_environment",
    "C118_file",
    "C118_value",
    "C118_after_section",
    "C118_order_refuted"
   ],
   "note": "PropSay.v: C118_command_line: On the command line, every value can be given to every option that has a name to type and can have a value, in any order and number. C118_environment: In the environment, every value can be given to every name that the name mapper returns for a variable; and nothing else. C118_file: In a config file, exactly these settings can be given: values and names that fit on a line, without '#' and without blanks at their ends, names without '=' except in a section, and no line that looks like a section; first those without a section. C118_value: So a value can be given to a registered option with an ordinary name exactly if it fits on a line and has neither a '#' nor blanks at its ends. C118_after_section: There is no way back from a section: all names after the first section line contain a '.'. C118_order_refuted."
  },
  {
   "property": "C119",
   "status": "proved",
   "theorems": [
    "C119_conflict",
    "C119_dependency",
    "C119_chained",
    "C119_chain_refuted",
    "C119_switch_read",
    "C119_switches",
    "C119_switch_twice_refuted",
    "C119_bare_refuted",
    "C119_response",
    "C119_response_refuted",
    "C119_magic",
    "C119_magic_stored",
    "C119_environment",
    "C119_environment_twice",
    "C119_environment_undefined"
   ],
   "note": "PropRecipes.v: C119_conflict: [conflicting_options] throws if the sources stored so far give both options, whatever the defaults, and otherwise does nothing; C119_dependency: [option_dependency] throws if they give the first option and not the second, and otherwise does nothing. C119_chained: If the map is linked to other maps, an option is taken to be given iff some of the maps was given it and the first one has a value for it, perhaps by default. C119_chain_refuted. C119_switch_read: [reg_foo] reads \"-fname\" and \"-fno-name\" and nothing else; C119_switches: so a command line of such switches, for options that take a value, is parsed to these options with the values \"true\" and \"false\". C119_switch_twice_refuted: Other than with gcc, the last of several switches does not win: giving a switch twice is an error; C119_bare_refuted: and a switch without a name is left to the library. C119_response: \"@name\" gives the option \"response-file\" the value \"name\"; C119_response_refuted. C119_magic: A magic number is accepted iff it is the first and has the form XXX-XXX; then the value is the second group. C119_magic_stored: In every map, the value of such an option comes from the only occurrence in the first source that gives it. C119_environment: The program writes the first 75 characters of the variable PATH if there is one, and the value of EXAMPLE_VERBOSE or INFO, where the case of the names does not matter; C119_environment_twice: but if two variables differ only in case from one of them, it ends with an exception (that it does not catch); C119_environment_undefined: and if the name of any variable has a character that is not ASCII, its behaviour is undefined."
  },
  {
   "property": "C120",
   "status": "proved",
   "theorems": [
    "C120_equal",
    "C120_forward_refuted",
    "C120_end_stays",
    "C120_range",
    "C120_other_last",
    "C120_environment",
    "C120_environment_all",
    "C120_environment_forever",
    "C120_default_undefined",
    "C120_config",
    "C120_config_throws",
    "C120_resume",
    "C120_resume_total",
    "C120_copies_refuted"
   ],
   "note": "PropIterators.v: C120_equal: Two iterators are equal just if both are at the end. C120_forward_refuted: So an iterator that is not at the end equals neither itself nor its copy: it is no forward iterator, although it is declared as one. C120_end_stays: An iterator at the end stays there, whatever the program does with this and other iterators, short of assigning to it. C120_range: Copying the range up to an iterator at the end gives the value of the first and then what the calls of [get] produce, in their order, until one of them finds the end; that last call's value is not among them. C120_other_last: Copying a range whose last iterator is not at the end never ends well, not even if it is the empty range of twice the same iterator. C120_environment: Iterators over the environment are independent: whatever the program does with any number of them, each stands on the variable whose number is that of its own increments, and behind the last variable it is at the end. C120_environment_all: The loop from a new iterator to a default one gives all variables, in their order. C120_environment_forever: But the range between two iterators over the environment that are not at the end goes on for ever. C120_default_undefined: Incrementing a default iterator over the environment, or a copy of one, is undefined. C120_config: Parsing a config file is constructing an iterator on it and copying the range from it to a default one. C120_config_throws: An increment of a config file iterator that throws leaves the value and the end alone. C120_resume: An iterator over a config file whose increments throw can be incremented again: it goes on behind the line that was at fault, in the same section, so that an iterator on a file gives an option for each assignment and an exception for each line at fault, in the order of the lines. Only if the first of them is an exception there is no iterator, since its constructor throws. C120_resume_total: Such a reader exists for every file that has no section without a name. C120_copies_refuted: Copies of an iterator over a config file are not independent: they take the lines from each other, and a section that one of them has entered is unknown to the other, which then gives its options wrong names."
  },
  {
   "property": "C121",
   "status": "proved",
   "theorems": [
    "C121_never_given",
    "C121_any_description",
    "C121_words",
    "C121_option",
    "C121_no_value",
    "C121_cases"
   ],
   "note": "PropNoDesc.v: C121_never_given: If none of the calls is [options], then with assertions [run] stops at one; without them it is undefined if the parser was constructed from a vector. C121_any_description: Otherwise, constructed from [argc] and [argv], it is undefined or gives the same options as with any description at all: no description is ever missed. C121_words: In a command line of words, and anything after \"--\", it gives these words. C121_option: The first token in the form of an option is undefined behaviour, even if unregistered options are allowed, C121_no_value: but \"--name=\" is the usual error. C121_cases: These are all command lines."
  },
  {
   "property": "C122",
   "status": "proved",
   "theorems": [
    "C122_belong",
    "C122_directly",
    "C122_declare",
    "C122_ended_refuted",
    "C122_empty_name_refuted",
    "C122_no_effect",
    "C122_order"
   ],
   "note": "PropAdders.v: C122_belong: In a program whose calls have all returned, each of the objects belongs to one description. C122_directly: Such a program can be written without these objects, and its descriptions are the same. C122_declare: A declaration through such an object adds one option at the end of the description it belongs to, and changes no other description, be it a copy of this one or made of it. C122_ended_refuted: After the end of the description, a declaration is undefined; copies of the object can still be made. C122_empty_name_refuted: An empty name violates an assertion. C122_no_effect: Making, copying and assigning such objects changes no description. C122_order: Whichever objects are used, the options of a description are in the order in which they are declared."
  },
  {
   "property": "C123",
   "status": "proved",
   "theorems": [
    "C123_precedence",
    "C123_composing",
    "C123_in_between",
    "C123_declared_twice_refuted"
   ],
   "note": "PropSeveral.v: C123_precedence: The variable of a non-composing option gets, once, the value of the first source that mentions the option; if none does, the default, provided that some source knows the option; otherwise nothing. C123_composing: The variable of a composing vector gets the values of all sources, in order. C123_in_between: Calling [notify] also between the sources makes no difference for what the variable holds in the end. C123_declared_twice_refuted: The option must be the same in all descriptions. If it is declared twice, with the same names, type and default but with two variables, then a value from the second source goes to the second variable, and the first is not assigned at all, not even its default."
  }
 ]
}