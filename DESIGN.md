# Formal model of boostorg/program_options in Rocq (Coq 8.16.1)

`properties.jsonl` lists the claims, `MANIFEST.json` maps them to theorems,
`rocq/theories/` holds the development, `seeded/LOG.jsonl` the mutation log.

## Layout (theories/)

Model (every definition cites the lines of /repo it transcribes):

| File | Models |
|------|------|
| `Base.v` | nothing of /repo: strings (`list ascii`), the `std::string` operations used, sorted maps and sets |
| `Errors.v` | exception classes, substitutions, `what()`; the type `outcome` |
| `Values.v` | `value_semantic`, `typed_value`, `untyped_value`, `bool_switch`, validators |
| `OptDesc.v` | `option_description`, `options_description` (names, match, find, groups) |
| `Positional.v` | `positional_options_description` |
| `Cmdline.v` | `detail::cmdline` |
| `Parsers.v` | `basic_command_line_parser`, `parse_command_line`, `collect_unrecognized`, environment |
| `ConfigFile.v` | `common_config_file_iterator`, `parse_config_file` |
| `VarMap.v` | `store`, `notify`, `variables_map` |
| `Winmain.v`, `SplitUnix.v` | splitters (the second with Boost.Tokenizer's `escaped_list_separator`) |
| `Format.v` | help output |
| `Convert.v` | `convert` over a codecvt facet, the UTF-8 facet |
| `Wide.v` | the `wchar_t` interfaces |
| `Objects.v` | `variable_value::as`; maps linked by `next` and descriptions added to descriptions, as objects in a memory |
| `MapUse.v` | sequences of calls on a `variables_map`, with those inherited from `std::map` |
| `Streams.v` | `getline` on input streams, `eof_iterator`, `parse_config_file` for streams and file names, the array `environ` |
| `Masked.v` | `parse_config_file` for streams that throw (`istream::exceptions`) |
| `UserCode.v` | the command line parser with an additional parser that has a state and may throw |
| `UserStore.v` | `store` with value semantics that have a state and whose `parse` and `apply_default` may throw |
| `Lifetimes.v` | programs that make, use and destroy descriptions, parsers, results of parsing, maps and the variables values are stored to |
| `Memory.v` | the states in which `store` can leave the map if memory runs out in it |
| `BuildMemory.v` | `options_description` with two vectors, and the states `add` can leave it in if memory runs out |
| `Rerun.v` | the command line parser working on its vector of arguments, which keeps what is left when `run` throws |
| `UserEnv.v` | `parse_environment` with a name mapper that has a state and may change the environment |
| `Release.v` | the functions with assertions, in programs built with NDEBUG |
| `NoDesc.v` | command line parsers without a description, in programs built with NDEBUG |
| `Adders.v` | `options_description_easy_init` objects in variables: made, copied, assigned, used after the end of their description |
| `Iterators.v` | `eof_iterator` with any derived class, the environment and the config file iterator as objects that can be copied and assigned |
| `Recipes.v` | functions of the example programs |
| `Owners.v` | which descriptions and maps share a value semantic, and when it is deleted |
| `Threads.v` | threads that share descriptions, maps, variables and exceptions: every call as a sequence of accesses, and the interleavings of threads |
| `OutStream.v` | `print` as a sequence of operations on an output stream with error state, exception mask, field width and limited room |
| `Reenter.v` | `notify` with notifiers that have a state, may throw, and use the map being notified |
| `Build.v` | the setters of `typed_value`, `add_options()`, the chain of calls on `basic_command_line_parser`, `argc`/`argv`, accessors of exceptions |

Specifications, written without the model's functions (only its data types):
`Spec.v`, `SpecLookup.v`, `SpecCmdline.v`, `SpecConfig.v`, `SpecStore.v`, `SpecSplit.v`,
`SpecErrors.v`, `SpecConvert.v`, `SpecFormat.v`, `SpecWide.v`, `SpecBuild.v`,
`SpecReject.v`, `SpecEnd.v`, `SpecObjects.v`, `SpecStreams.v`,
`SpecMapUse.v`, `SpecGrammar.v`, `SpecFrame.v`, `SpecConserve.v`, `SpecMask.v`, `SpecStages.v`, `SpecUser.v`, `SpecOut.v`,
`SpecReenter.v`, `SpecStageStore.v`, `SpecStyle.v`, `SpecUserStore.v`, `SpecSame.v`, `SpecLifetimes.v`,
`SpecSpelling.v`, `SpecThreads.v`, `SpecWays.v`, `SpecTexts.v`, `SpecProgram.v`, `SpecParts.v`, `SpecLater.v`, `SpecHelpful.v`, `SpecMemory.v`, `SpecBuildMemory.v`, `SpecRerun.v`, `SpecUserEnv.v`, `SpecRelease.v`, `SpecOwners.v`, `SpecCatch.v`, `SpecSay.v`, `SpecRecipes.v`, `SpecIterators.v`, `SpecNoDesc.v`, `SpecAdders.v`, `SpecSeveral.v`.

Proofs: `*Facts*.v`. Final theorems: `Prop*.v`, one section per claim with the theorem,
`Print Assumptions` and an `Example Cnn_ex` showing that a concrete case meets the
hypotheses (concrete options for these are in `Samples.v`). A claim that is false of the
code is proved false, in a theorem with the suffix `_refuted`; the property in
`properties.jsonl` then states what is true.

`Conformance.v`, `Conformance2.v`: the expectations of the repository's own tests
(every file under /repo/test), evaluated on the model. These are tests of the
transcription, not proofs of properties.

## Modelling decisions

* A string is a list of 8-bit characters. A computation returns
  `Ok a | Throw exn | Undef kind | NoFuel`; undefined behaviour (bad index, null
  dereference, failed `assert`, negative argument to `tolower`, signed overflow)
  is the distinct result `Undef`, so "no undefined behaviour" is provable or refutable.
* Loops that need not terminate (custom style parsers, `replace_token`) take fuel;
  running out is the distinct result `NoFuel`, and theorems about non-termination
  say "`NoFuel` for every fuel".
* User code (value semantics, notifiers, additional parsers, custom style parsers,
  name mappers, `lexical_cast`) are function arguments, universally quantified.
* Functions with a state that survives an exception (`store`, validators writing into
  a `boost::any`, `notify`) return the state together with the outcome.

## Plan per property

* C01 list model of `getline` splitting, induction over pieces.
* C02-C08 `match`/`find_nothrow` transcribed as loops, characterised by a declarative
  matching relation; permutation invariance by induction on permutations.
* C09-C10 style bits as `Z.land`; boolean case analysis; parse independence by
  congruence through every parser function.
* C11-C27 `run` transcribed; each builtin style parser shown to consume a prefix of the
  tokens; invariants over the main loop, then over the merging pass and the naming pass.
* C28-C34 the config file reader over the list of lines; induction over lines; the ordered
  set of prefixes as sorted list with `lower_bound`; antichain invariant.
* C35 environment as list of `name=value` strings.
* C36-C45 `store` as a fold; histories are lists of sources; induction over histories.
* C46-C48 validators transcribed.
* C49-C50 character automata; invariants over the scanning loop; round trip with an encoder.
* C51 `replace_token` as iterated search and replace with fuel.
* C52-C54 `format_paragraph` transcribed; invariants over the printing loop; groups as a tree.
* C55-C56 `convert` over an abstract facet; UTF-8 encoder/decoder on code points.
* C57 simulation between a parse and the parse of a suffix; C61 an order-preserving relation
  between tokens and values; C58 a relation between texts and what their lines say.
* C59 a typing invariant over histories of `store` calls; C60 safety conditions on the tree.
* C66-C68 induction over chains of calls; the field a setter writes is that of the last call.
* C69-C72 a trace of every exception back to the token that caused it, through each function of the
  command line parser; case analysis for the rest.
* C73-C75 the round trips of C14 and C58, the characterisation of `store` per option (C36-C38) and that of
  `notify` (C41) composed; `store` shown to depend only on what each source says about each option.
* C76 the typing invariant of C59. C77 a refinement between objects and values, with the invariant that objects
  pointed to by groups are no variables of the program. C78 induction over the steps along the chain.
* C79 a simulation between the iterator over a stream and the list of lines it will deliver. C80 induction over the
  array.
* C81-C82 invariants over sequences of calls: sorted entries, where the required and the final names come from.
* C83 the automaton of C50, over any type of characters.
* C84 an equivalence between each function of the command line parser and one relation of the grammar.
* C85 the conversion theorem C55 at both directions of a facet.
* C86-C88 a simulation between the programs with and without the option, through every function that looks up a name.
* C89, C90 simulations between the parser with and without the flag; the relation between the two outcomes allows
  `unknown_option` on the strict side (`ConserveFacts.v`, `GuessFacts.v`).
* C91 a simulation between reading with and without the mask; the bits are never cleared by a read that fails.
* C92 by the grammar of C84: a relation between the items read by one parser and by the two, kept by gathering and numbering.
* C93 an invariant of each function of the parser: the calls it makes, and that replaying their answers gives the same outcome.
* C94 the operations, taken together, are the text of `Format.v` (by induction over the description); the stream by induction over
  the operations.
* C95 an invariant of the loop in `notify`: the next entry is that with the least name after the last one, and entries stay unless the record of the visits says that they are removed; by
  induction over the fuel, which also counts nested calls.
* C96 per name: what is stored for it by one source and by the two is the same; the lookup of a name is that in the part that has it.
* C97 the weight of the tokens falls with every round; for response files a round that uses only words is the same round without the reader, and does not look beyond the tokens it uses.
* C98 by induction over the options and over the description the calls of each loop are collected; the calls of a run are unique, because the code answers the same in the same state.
* C99 the two runs of `store` side by side, by induction over the options; the round trips C14, C28 and C35 give the sources.
* C100 a simulation between the program and the same program without its destructors, call by call; the two states differ in the cells
  that have been emptied.
* C101 by the grammar of C84: a respelled line consists of the same items up to the tokens they quote; what a line consists of is unique
  because the parser is a function; gathering values and naming arguments do not look at tokens.
* C102 an invariant of interleavings: every thread is where it would be alone, and the objects it uses are as it would have left them.
* C103 by the grammar of C84 as well: each rule carries over from one parser to the other, token by token.
* C104 by simulation: each function of the parser, of `store` and of `notify` gives the same outcome for descriptions related by
  `same_but_texts`.
  The accesses of calls by their structure; that `store` puts only values of the description into a map, by induction over its loops.
* C105 by composing C11, C27, C58, C59 and C61: each source gives options or an exception, a map of values of the right types is kept by
  every `store`, and `notify` is defined on such maps; that there is one type for each name follows from the names being disjoint.
* C106 by induction over the reading relation of C58, following which section is open at the end of the first part.
* C107 by extending each stage of the parser to a longer list of tokens: only the check that
  enough tokens are left looks at what follows, the second pass can at most go on taking
  where the shorter list ended, and numbering and naming go from left to right. The same
  lemmas give C13 without its condition that the beginning contains no "--".
* C108 by the grammar of C84: the words shown have a reading in it, and no other.
* C109 from C36 and C38 (which entry a name has after a history of sources) and the definition of untyped values and
  switches; the notification by induction over the map, with the origin of every entry (as in C73).
* C110 by an invariant: a map that has absorbed a source keeps absorbing it, since final names, entries and
  required names are never removed; and storing an absorbed source changes nothing.
* C111 by cases over the point where `store` is interrupted, each a state after a completed prefix of one of its loops plus one
  unfinished step; the lemmas about prefixes are those of C36-C44, and typing of the map is an invariant of histories with
  interrupted calls.
* C112 by a second model of `options_description` with two vectors, related to the one with pairs by a function, and the invariant
  that there are never more flags than options.
* C113 by a second model of the parser whose functions take and leave the vector of arguments, shown to have the same outcome as the
  first, a case analysis of the step that throws, and induction over the runs.
* C114 by a second model of `parse_environment` that passes the mapper's state along and looks at the environment of the current
  state, and induction over the variables.
* C115 by a second model of the functions whose assertion is not followed by undefined behaviour anyway, a simulation, and
  C86 and C88 for options without names.
* C116 by two invariants over sequences of calls: one of all programs, and one of those that give each pointer away once.
* C117 by following the classes of exceptions through each function of the model; for the command line from C71.
* C118 from the meaning of files (C58) and the grammar (C84): what is read has the stated form, and for settings of that form a source is constructed.
* C119 by composition: the checks from C36 and C38 and the chain of maps, the switches from C24, the value of the user's type by cases, and `env_options` by induction over the variables with the map after each of them.
* C120 with an arbitrary `get`: the end by induction over the program, the range by induction over the calls of `get`; the environment by simulation with the number of increments of each iterator; config files from C58 line by line, with the stream of C79.
* C121 by a relation between outcomes (undefined, or the same) that every step preserves, and by cases over the style parsers for each form of token.
* C122 by induction over the program from its end, with the invariant that the pointers are the origins of the objects and that exactly the ended descriptions are gone.
* C123 from the origin of each entry in the map (as for C73, but for each source with its own description), C36, C37 and C38.
* C62-C65 a simulation between the narrow and the wide functions through the UTF-8 codec.

## Trusted base

* Coq's kernel (8.16.1).
* `Print Assumptions` reports "Closed under the global context" for every theorem named in
  `MANIFEST.json`: no axioms are used, neither of the standard library nor other ones. (A scan
  of the loaded libraries lists seven names of `Coq.ssr.ssrunder.Under_rel`; these are
  parameters of a module type in Coq's own standard library, loaded but not used.)
* The transcription from C++ to Gallina (comments cite the lines), checked against the
  expectations in the repository's unit tests in `Conformance.v` and `Conformance2.v`.
* The behaviour of the standard library and of Boost parts outside /repo as written in
  `Base.v`, `SplitUnix.v` (Boost.Tokenizer), `Convert.v` (the UTF-8 facet of Boost.Detail, from
  memory of its source), `Streams.v`, `Masked.v`, `OutStream.v` (streams) and `Values.v` (`boost::any`): bytes are 8 bits,
  `char` is signed, the C locale for `tolower`, `unsigned` has 32 bits, vectors are shorter
  than 2^31.
* `lexical_cast`, the locale's conversion facets, user supplied parsers, value semantics,
  notifiers and name mappers are arbitrary functions in all theorems. They are functions of
  their arguments: user code with state of its own is not represented, except for the additional
  parser of the command line parser in `UserCode.v` (C93), notifiers in `Reenter.v` (C95), name
  mappers in `UserEnv.v` (C114) and value semantics in `UserStore.v` (C98; there `composing`, `required` and the name are still constants).

## What is modelled and what is not

Modelled: the functions cited in the comments of the model files above; they cover the parsing,
lookup, storing, notification, conversion, splitting, error text and help output code of src/, and in `Recipes.v` functions of five programs of
example/ (Boost.Regex, used by one of them, is taken to match as its documentation says).

Not represented in the model:

* Lifetimes of objects are represented only in `Lifetimes.v` (C100): pointers of parsers and sources to descriptions, of maps to maps,
  and of values to variables; in `Owners.v` (C116): value semantics, with `shared_ptr` as its documentation describes it; and in `Adders.v` (C122): the objects
  `add_options()` returns. `run` counts there as using the descriptions it points to even if it would not look at them, a parser
  whose `run` has thrown is not used again there (C113 is about that), and what user supplied functions refer to is not represented. Sharing is represented for descriptions and maps (`Objects.v`), and shown there to be
  unobservable except as in C77 and C78; all other files treat objects as values. Notifiers that use the map being notified
  (`Reenter.v`) can replace the value they have been given, or remove its entry; what happens to the old value is not represented.
  That the iterator of the loop in `notify` is lost when its entry is removed is represented.
* Threads are represented only in `Threads.v` (C102), for the calls listed there. Memory is sequentially consistent, which is no
  restriction for programs without data races (C102_no_race says which). An object is one cell: several accesses in a row to the same
  object are one, and accesses to different parts of an object count as accesses to the same. Reference counts of `shared_ptr`
  are taken to be atomic, and the initialisation of static local objects to be safe, as the standard and Boost guarantee.
  What functions supplied by the user share is not represented.
* `bad_alloc`, except in `store` (`Memory.v`, C111) and `options_description::add` (`BuildMemory.v`, C112), where it can occur at more places than a given
  compiler and library have. Output streams (`OutStream.v`) have no `tie` and no `unitbuf`, and their
  buffers do not throw.
* The global `arg` is taken at its initial value, except in C104, which says that it has no effect on anything but the help, and
  what the help shows if it has another.
* `BOOST_PROGRAM_OPTIONS_DYN_LINK` and other build configuration, except NDEBUG: all files but `Release.v` (C115) and `Format.v` are about
  programs built with assertions, and in `Release.v` a source without a description is left out (a parser without one is in `NoDesc.v`; with assertions, the copy of the unset pointer that precedes the assertion is taken to be harmless); the `__BORLANDC__`, Sun and
  MSVC workarounds.
* `typed_value_base::value_type`.
* Facets other than as in C55 (an abstract facet that keeps the codecvt contract).

## Findings

Places where the code does not do what its documentation or its author intends. Each follows
from theorems of the claim named (`properties.jsonl` has the precise statements):

* `short_case_insensitive` alone does not work (C06); case folding passes negative values to
  `tolower` (C07).
* The adjacent/next style bits have no effect (C10); an implicit value need not be adjacent
  (C22); a known long option, or the terminator `--`,
  can be consumed as a value (C21).
* `original_tokens` is not original for disguised long options (C25); `--=value` becomes a
  positional argument (C26); `collect_unrecognized` drops `--` (C23).
* A group of short options with a shared key reads `original_tokens[0]` out of bounds (C27).
* `[]` in a configuration file is undefined behaviour (C33); the error about conflicting
  wildcards may name the wrong option (C32); aliases are not accepted there (C31).
* `store` is not exception safe (C42); an implicit value silently replaces a stored value
  (C44); wildcard options found through an abbreviation or ignoring case cannot be stored (C45);
  different types for one name run into an assertion (C59).
* `what()` does not return for `--%canonical_option%` and similar names (C51).
* The help shows names that cannot be typed: those with `=`, and the short name `-`, shown as `--` (C108).
* Help output asserts for some widths (C60); nesting groups moves the descriptions to the right (C53).
* Overlong UTF-8 is accepted (C56); in encodings with shift sequences a valid text can be rejected (C85).
* `-x` with a wide character and `allow_unregistered` throws (C62); a wide option of narrow
  string type stores the wrong type (C64).
* `split_unix` cannot express an empty argument (C50).
* A parser object parses nothing when run a second time (C67).
* A description added to itself, and a circular chain of maps, make the program hang (C77, C78).
* A stream that throws on `failbit` or `eofbit` can never be parsed successfully, as the iterator reads until reading
  fails (C91); only `badbit` in the mask is useful, it makes the read errors of C79 visible.
* Parsing in two stages with `collect_unrecognized` can read a command line differently than one parser for all options (C92): the
  `--` is not passed on, an option of the second parser with an optional value takes an argument it was separated from, of `-vh` with
  `v` unknown to the first parser the `h` is lost to it, a value can be taken for an option of the first parser, and a full name of the second parser can be
  taken for an abbreviation in the first.
* Storing in two stages fails if arguments are called after an option of the first stage: the second source does not know it (C96).
* A custom style parser that always adds tokens makes `run` loop for ever. One that removes a token without returning an option (an empty
  response file) makes `finish_option` read `args[0]` of an empty vector if an option before the token needs a value. More values than an
  option can take are accepted from a custom style parser. A response file is not read where an option takes its value, nor if it is the
  only token of another response file, because the loop compares only the number of tokens (C97).
* The additional parser of a command line parser is also asked about the values of options; what it answers there is ignored (C93),
  unless the token as written names an option.
* An exception from `apply_default` leaves `store` without the name of the option, and after the names of the source have become final (C98).
* A source does not keep a copy of the description it was read with: options added to the description before the source is stored count,
  and the description must live until then (C100).
* In the place of a value the spellings of an option are not interchangeable: `--output --verbose` takes `--verbose` for the value, while
  `--output -v` is rejected, because the check whether the next token is an option looks the token up with its dashes (C101).
* `what()` of exceptions with an option name is `const` but writes a `mutable` member: two threads that ask the same exception for its
  text have a data race, and one can get a text with placeholders. Two threads that store into maps of their own with a shared
  description write the same variables if the description was made with `value(&v)` (C102).
* With `long_case_insensitive` but not `short_case_insensitive`, an option with an upper-case short name (`version,V`) can not be given by
  that name: the typed `-V` is lowered, the registered one is not (C103).
* Help printed on a stream that fails is cut off without notice, and a field width set on the stream is applied to the caption (C94).
* A notifier that stores a further source into its map: the new entries are notified only if their names come after that of its
  option, and the options that source requires are not checked. A notifier that erases the entry of its own option makes the loop in
  `notify` use an invalid iterator (C95).
* `parse_config_file` with a stream takes a read error for the end of the file (C79); `parse_environment` dereferences
  a null pointer if the program has no environment (C80).
* An erased value still keeps later values away (C81).
* In styles with short options only, the error for a missing argument names the wrong option (C69).
* If memory runs out in `store`, the source cannot always be stored again (`multiple_occurrences`), a default can be lost for
  good because its entry exists without a value, and `notify` can report a required option with an empty name (C111).
* If memory runs out in `options_description::add` between its two `push_back`, printing the description reads beyond the end of
  a vector from then on (C112).
* A command line parser whose `run` has thrown goes on in the middle of the arguments when it is run again: what was read before is
  lost, values of the option at fault become positional arguments, and with `allow_long_disguise` "-foo=" is left as "--foo=" (C113).
* A name mapper that calls `unsetenv` on the variables it is asked about makes `parse_environment` miss every other one (C114).
* A string without '=' in the environment stops a program built with assertions; otherwise it is a variable that is its own value.
  With NDEBUG an option declared as "" is accepted, and its `required()` has no effect (C115).
* A config file cannot give a value with a '#', a newline or blanks at its ends, there is no quoting; and after a section no name without a '.' can be given (C118).
* To catch `program_options::error` is not enough with `wchar_t` or `split_unix`: conversions throw `std::logic_error`, lists of narrow strings in wide options `bad_any_cast`, bad escapes an error of Boost.Tokenizer (C117).
* A pointer returned by `value<T>()` that is given to two options is deleted twice, silently accepted until then (C116).
* `example/env_options.cpp` ends with an uncaught exception if the environment has two variables that differ from `PATH` (or `EXAMPLE_VERBOSE`) only in case,
  and is undefined if any variable has a name that is not ASCII (C119).
* `conflicting_options` and `option_dependency` of `example/real.cpp` overlook options that only a map linked by `next` has, as `count` is that of `std::map` (C119).
* `eof_iterator` declares forward traversal, but `it == it` is false before the end, so that an algorithm over `[it, it)` runs off for ever; `environment_iterator` has no safe increment
  after its default constructor; copies of a config file iterator disagree about the section (C120).
* `basic_command_line_parser(vector)` leaves the pointer to the description unset, unlike the other constructor, and `run` without `options` reads it before the assertion; `--=value` is a positional argument (C121).
* An option declared twice, in the descriptions of two sources and with two variables: the first variable may not even get its default (C123).

## Mutation tests

`seeded/LOG.jsonl` has one line per seeded bug: the definition edited, the edit, the claim it
breaks, the theorems whose proofs fail, and what was tightened. A theorem counts as failed if its
own proof script fails or if it uses a lemma whose script fails. This shows that the theorem notices
the edit; by itself it does not show that its statement became false.
