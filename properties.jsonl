{"id": "C01", "title": "Tokenizer memory safety", "statement": "Whatever the command line contains and in whatever order the parser asks for the next token, for an option value, for the remaining arguments or inserts new arguments, the tokenizer never indexes outside an argument, never pops from an empty argument list and never throws.", "quantifier": "all argument vectors (any number of arguments, any bytes, including empty strings), all three option styles, all finite sequences of next/next_value/remaining/insert/copy operations", "why_tests_cant": "The state space is argument list x position x operation history; a test only walks a few histories, while an out-of-range position would be undefined behaviour that a passing test need not reveal.", "anchors": ["src/Argos/StandardOptionIterator.cpp: next, next_value, remaining_arguments, insert, split_concatenated_flags", "src/Argos/OptionIterator.cpp: next, next_value, remaining_arguments, insert"]}
{"id": "C02", "title": "Tokenizing a standard-style command line", "statement": "In standard style, reading tokens until the end yields, argument by argument and in order: '-a','-b','-c' for '-abc'; the flag up to and including the first '=' for '--x=...'; and the argument itself for everything else. Nothing is dropped, duplicated or reordered, and the end is reached.", "quantifier": "all argument vectors of any length with any contents", "why_tests_cant": "The claim is about every argument string and every list length; the tests check five fixed lists.", "anchors": ["src/Argos/StandardOptionIterator.cpp: next", "include/Argos/Enums.hpp: OptionStyle"]}
{"id": "C03", "title": "Tokenizing a slash/dash-style command line", "statement": "In slash or dash style, reading tokens until the end yields each argument in order, unchanged, except that an argument longer than two characters that starts with the prefix and contains '=' is cut after its first '='.", "quantifier": "all argument vectors of any length with any contents, both prefixes", "why_tests_cant": "Same as C02: unbounded inputs.", "anchors": ["src/Argos/OptionIterator.cpp: next"]}
{"id": "C04", "title": "All spellings of an option value are equivalent", "statement": "For an option that takes a value V, writing '--opt=V', '--opt V', '-oV' (V not empty) or '-o V' in standard style, and '/opt=V' or '/opt V' (V not empty) in slash style, likewise with '-' in dash style, stores exactly V for that option and leaves the parser ready to continue with the following argument, in every parser state in which options are recognised; whatever follows is then parsed in the same way. Refuted: an empty V in an argument of its own in slash and dash style, which is read a second time as a positional argument.", "quantifier": "all parser configurations, all parser states in options mode, all values V (also values starting with '-' or containing '='), all following arguments", "why_tests_cant": "Equivalence must hold for each value string, each remaining command line and each parser state.", "anchors": ["src/Argos/ArgumentIteratorImpl.cpp: process_option", "src/Argos/StandardOptionIterator.cpp: next, next_value"]}
{"id": "C05", "title": "Concatenated short flags are the same as separate flags", "statement": "In standard style '-pq...' and '-p -q...' are equivalent as long as -p does not expect an argument and is neither LAST_OPTION nor LAST_ARGUMENT: parsing the two command lines gives the same values, sub-commands, result codes and unprocessed arguments; only the argument quoted in a message about an unknown option differs. Refuted: the documented equivalence for a LAST_OPTION -p ('-pq' gives the argument 'q'), and for groups with unknown flags if undefined options are ignored.", "quantifier": "all parser configurations without ignore_undefined_options and with -p neither LAST_OPTION nor LAST_ARGUMENT, all groups of any length, all remaining command lines, all parser states in options mode", "why_tests_cant": "It relates two whole executions for every command line; examples only compare a few.", "anchors": ["include/Argos/Enums.hpp: OptionStyle::STANDARD", "src/Argos/StandardOptionIterator.cpp: next, split_concatenated_flags", "src/Argos/ArgumentIteratorImpl.cpp: process_option"]}
{"id": "C06", "title": "Arguments after a LAST_OPTION option are delivered verbatim, once each", "statement": "In standard style, after a LAST_OPTION option every following command line argument is delivered exactly once, in order and unmodified, as a positional argument of the command, even if it looks like an option. In slash and dash style the same arguments are delivered, but each one is followed by an additional empty argument. Refuted: the first (verbatim, once each) for slash and dash style; and in every style for commands with sub-commands, where the arguments of the sub-command are considered as options again.", "quantifier": "all argument vectors, all option styles", "why_tests_cant": "Must hold for all remaining command lines; the repository only tests one list in standard style.", "anchors": ["include/Argos/Enums.hpp: OptionType::LAST_OPTION", "src/Argos/StandardOptionIterator.cpp: next_value", "src/Argos/OptionIterator.cpp: next_value", "src/Argos/ArgumentIteratorImpl.cpp: next, process_command"]}
{"id": "C07", "title": "Arguments inserted by a callback are read next", "statement": "Arguments that a callback puts in new_arguments are the next ones to be parsed, in order, immediately after the current argument; everything that had not been read yet (including the rest of a concatenated flag group) follows unchanged. If both the callback of an item and the parser-wide callback insert arguments, those of the parser-wide one, which is called last, are read first. If the item ends the parsing they become unprocessed arguments, before those that had not been read. Refuted: if they are inserted in the middle of a group by a LAST_OPTION option, an empty argument is delivered first.", "quantifier": "all tokenizer states, all inserted lists, all remaining command lines, all styles; all reachable parser states, all callbacks of options and arguments", "why_tests_cant": "Depends on the position inside a concatenated flag group and on arbitrary remaining arguments.", "anchors": ["include/Argos/Callbacks.hpp: CallbackArguments::new_arguments", "src/Argos/StandardOptionIterator.cpp: insert", "src/Argos/OptionIterator.cpp: insert", "src/Argos/ArgumentIteratorImpl.cpp: update_arguments, process_option, process_argument"]}
{"id": "C08", "title": "Remaining arguments are exactly what has not been read", "statement": "What the parser reports as remaining is precisely the part of the command line that has not been read: the arguments after the current one, preceded by the unread flags of the current concatenated group written as one '-xyz' argument; reading these afresh gives what would have been read otherwise. Refuted for groups in which '-' is the next flag ('-a-b' read up to '-a' leaves '--b').", "quantifier": "all tokenizer states reachable by any sequence of reads and insertions, all styles", "why_tests_cant": "Ranges over all read histories.", "anchors": ["src/Argos/StandardOptionIterator.cpp: remaining_arguments", "src/Argos/OptionIterator.cpp: remaining_arguments"]}
{"id": "C09", "title": "A defined flag always selects its own option", "statement": "If a parser definition is accepted, then a flag written in full selects the option that declares it, whether or not abbreviations are allowed and no matter which other flags exist.", "quantifier": "all sets of options with any flags, all flags, abbreviations on and off (case-sensitive)", "why_tests_cant": "The index is a sorted array searched by bisection; correctness must hold for every set of flags.", "anchors": ["src/Argos/CommandData.cpp: build_option_index, find_option, find_option_impl"]}
{"id": "C10", "title": "Flag lookup specification (case-sensitive)", "statement": "A string that is not a complete flag selects an option only if abbreviations are allowed and exactly one declared flag starts with it, or if it ends in '=', is longer than two characters, and the same rule applied to it without the '=' selects an option that takes an argument. In all other cases it is an unknown option.", "quantifier": "all sets of options, all strings, abbreviations on and off", "why_tests_cant": "Negative results (never selecting a wrong option) quantify over all strings.", "anchors": ["src/Argos/CommandData.cpp: find_option, find_option_impl", "include/Argos/ArgumentParser.hpp: allow_abbreviated_options"]}
{"id": "C11", "title": "Case-insensitive flag lookup", "statement": "With case_insensitive, the same lookup rules hold with ASCII letters compared without regard to case, provided all flags and the looked-up string consist of characters on which the comparison is an ordering; without that proviso a declared flag may not be found.", "quantifier": "all sets of options and strings over the safe alphabet; a counterexample outside it", "why_tests_cant": "The comparison is not a strict weak ordering on all bytes, so whether lookup works depends on arbitrary flag sets.", "anchors": ["src/Argos/StringUtilities.cpp: compare_ci, is_less_ci", "src/Argos/CommandData.cpp: build_option_index, find_option_impl"]}
{"id": "C12", "title": "Duplicate flags are always rejected", "statement": "A parser definition in which the same flag occurs twice in one command (in one option or in two) is always rejected with an exception, and a definition without duplicates is never rejected for that reason. Without regard to case the same holds for flags over the alphabet on which the comparison is an ordering. Refuted outside it: '--A' and '--a' are both accepted if there is also a flag with a backquote between them.", "quantifier": "all sets of options with any flags", "why_tests_cant": "The check only compares neighbours after sorting; completeness must hold for all flag sets.", "anchors": ["src/Argos/CommandData.cpp: build_option_index"]}
{"id": "C13", "title": "The flag index does not depend on the sorting algorithm", "statement": "Acceptance of the flags and the result of every lookup are the same for every correct sorting algorithm.", "quantifier": "all flag lists and all sorted permutations of them", "why_tests_cant": "std::sort is unspecified for equal elements; tests run one implementation.", "anchors": ["src/Argos/CommandData.cpp: build_option_index"]}
{"id": "C14", "title": "Option definitions are validated", "statement": "An option definition is accepted exactly when it has at least one flag, every flag obeys the syntax of the option style, a flag ends in '=' only if the option has an argument, it does not have both an argument and a constant, APPEND options have one of them, NONE options have neither constant nor alias, and CLEAR options are optional. Every accepted ASSIGN or APPEND option has exactly one of constant and argument afterwards.", "quantifier": "all option definitions, all styles", "why_tests_cant": "Exact characterisation over all flag strings and field combinations.", "anchors": ["src/Argos/OptionData.cpp: check_flag_with_equal, check_standard_flag, check_flag, validate_and_update"]}
{"id": "C15", "title": "A command has arguments or sub-commands, never both", "statement": "No sequence of successful add calls produces a command that has both arguments and sub-commands, an argument or command without a name, or an option without flags; a rejected add leaves the command unchanged. (copy_from does not maintain this.)", "quantifier": "all sequences of add calls on any command", "why_tests_cant": "Invariant over all call histories.", "anchors": ["src/Argos/CommandData.cpp: add, copy_from", "include/Argos/ArgumentParser.hpp: add"]}
{"id": "C16", "title": "The automatic help option never conflicts", "statement": "The generated help option is added exactly when generate_help_option is set, no HELP option exists and some default help flag is free; it never uses a flag that the user has defined, so adding it never makes an otherwise valid definition be rejected.", "quantifier": "all commands, all settings", "why_tests_cant": "Ranges over all user-defined flag sets.", "anchors": ["src/Argos/CommandData.cpp: add_help_option, has_help_option, has_flag"]}
{"id": "C17", "title": "Identifiers separate and link values as declared", "statement": "Within a command, two arguments/options share a value only if a chain of common names or aliases connects them; items with the same alias (or name of an argument, or only flag) share their value; every argument, option and enclosing command has its own identity; the ids of a sub-command never collide with those of its ancestors. Refuted: that every common name is enough (if an option shares the value of one of its flags with an earlier item, its other flags are not linked with later items).", "quantifier": "all commands with any names, flags and aliases", "why_tests_cant": "Depends on the order and overlap of arbitrary names.", "anchors": ["src/Argos/CommandData.cpp: set_internal_ids, finish_initialization", "include/Argos/Option.hpp: alias"]}
{"id": "C18", "title": "Values follow the assign/append/clear history", "statement": "After any sequence of assignments, appends and clears, the values of a name are those obtained by replaying the operations on that name alone: assign replaces everything, append adds at the end, clear removes everything; other names are unaffected.", "quantifier": "all finite operation sequences on any ids", "why_tests_cant": "Refinement over all histories.", "anchors": ["src/Argos/ParsedArgumentsImpl.cpp: assign_value, append_value, clear_value, get_values"]}
{"id": "C19", "title": "has, value and values agree", "statement": "has is true iff values is non-empty; value returns nothing iff there are no values, returns the value if there is exactly one, and throws iff there are two or more.", "quantifier": "all stores reachable by any operation sequence, all ids", "why_tests_cant": "All reachable stores.", "anchors": ["src/Argos/ParsedArgumentsImpl.cpp: has, get_value, get_values"]}
{"id": "C20", "title": "Looking up values by name", "statement": "A name can be used to look up a value iff it is the name or alias of an argument, or a flag or alias of an option whose operation is not NONE, of that command; the lookup returns the value of an item that carries that name, and any other name throws.", "quantifier": "all commands, all names", "why_tests_cant": "Bisection over an arbitrary sorted list of names.", "anchors": ["src/Argos/ParsedArgumentsImpl.cpp: ParsedArgumentsImpl, get_value_id"]}
{"id": "C21", "title": "Integer conversion is exact", "statement": "as_int, as_long and as_llong return n iff the whole string is optional white space, an optional sign and digits in the given base (with the usual 0/0x prefixes) denoting n, and n is in the type's range; otherwise they report an error. They never wrap or truncate.", "quantifier": "all strings, all bases, all integers", "why_tests_cant": "Exactness at all boundaries and for all strings.", "anchors": ["src/Argos/ParseValue.cpp: parse_integer", "src/Argos/ArgumentValue.cpp: as_int, as_long, as_llong"]}
{"id": "C22", "title": "Unsigned conversion", "statement": "as_uint, as_ulong and as_ullong return n for every string that denotes a non-negative n in range, never return a value outside the type, and reject positive numbers out of range; a leading minus sign is not rejected but negates modulo 2^64.", "quantifier": "all strings, all bases, all naturals", "why_tests_cant": "Exactness at all boundaries; the wrap-around behaviour covers an unbounded family of inputs.", "anchors": ["src/Argos/ParseValue.cpp: parse_integer"]}
{"id": "C23", "title": "Printing and parsing an integer round-trips", "statement": "For every value of the type, the decimal text produced by std::to_string (used by Option::constant(int) and constant(long long)) is converted back to that value by as_int / as_llong.", "quantifier": "all integers in the range of the type", "why_tests_cant": "2^64 values.", "anchors": ["src/Argos/Option.cpp: constant", "src/Argos/ParseValue.cpp: parse_integer"]}
{"id": "C24", "title": "as_bool", "statement": "as_bool returns the default iff there is no value; otherwise it is false exactly for the empty string, \"0\" and \"false\".", "quantifier": "all values and defaults", "why_tests_cant": "All strings.", "anchors": ["src/Argos/ArgumentValue.cpp: as_bool"]}
{"id": "C25", "title": "Splitting a value", "statement": "Joining the parts of split(sep, min, max) with sep gives back the value; there are at most max parts (unlimited if max is 0); only a last part that was cut off by the limit may contain sep; the call fails iff there are fewer than min parts; the number of parts is the number of separators plus one, capped by max.", "quantifier": "all strings, separators, minima and maxima", "why_tests_cant": "All strings and limits, including the max-1 wrap-around for 0.", "anchors": ["src/Argos/StringUtilities.cpp: split_string", "src/Argos/ArgumentValue.cpp: split"]}
{"id": "C26", "title": "Distribution of a known number of arguments", "statement": "When n arguments are available and sum(min) <= n <= sum(max), each argument definition receives between its min and max, all n are distributed, mandatory counts are served first and the surplus goes to the leftmost definitions; with fewer than sum(min) each gets its min and with more than sum(max) each gets its max.", "quantifier": "all lists of argument definitions with any min <= max, all n", "why_tests_cant": "Arbitrary numbers of definitions and counts.", "anchors": ["src/Argos/ArgumentCounter.cpp: make_argument_counters, get_min_max_count"]}
{"id": "C27", "title": "Minimum and maximum argument counts", "statement": "The reported minimum is the sum of the minima; the reported maximum is the sum of the maxima, saturated at the largest size_t.", "quantifier": "all lists of argument definitions", "why_tests_cant": "Overflow boundaries over arbitrary lists.", "anchors": ["src/Argos/ArgumentCounter.cpp: get_min_max_count"]}
{"id": "C28", "title": "Arguments are filled in declaration order", "statement": "Positional arguments are assigned to definitions in declaration order, each definition receiving exactly as many as allotted before the next one starts, and no further argument is accepted after the last allotted one.", "quantifier": "all counters, all numbers of arguments", "why_tests_cant": "All counters and all counts.", "anchors": ["src/Argos/ArgumentCounter.cpp: next_argument, ArgumentCounter"]}
{"id": "C29", "title": "Completeness of the received arguments", "statement": "A command whose arguments need not be counted in advance is considered complete exactly when the number of positional arguments received is at least the sum of the minima. If they are counted, it is complete exactly when all the counted ones have been received and the last definition (if there are several) got at least one. Refuted: that a counted command whose last definition gets none becomes complete.", "quantifier": "all lists of argument definitions, all numbers of received arguments", "why_tests_cant": "Whether the test is right depends on which definitions are optional and in which order; tests cover few shapes.", "anchors": ["src/Argos/ArgumentCounter.cpp: is_complete, make_argument_counters"]}
{"id": "C30", "title": "Parsing terminates", "statement": "parse() returns (or exits) for every definition and every command line as long as callbacks insert new arguments only finitely often; without insertions the number of steps is bounded by the total length of the command line. Refuted for callbacks that go on inserting.", "quantifier": "all definitions, all command lines", "why_tests_cant": "Termination for all inputs.", "anchors": ["src/Argos/ArgumentIteratorImpl.cpp: parse, next"]}
{"id": "C31", "title": "End states are final", "statement": "Once the iterator has reported the end it keeps reporting the end without changing any result, and once it has reported an error every further call throws.", "quantifier": "all reachable iterator states, any number of further calls", "why_tests_cant": "All histories.", "anchors": ["src/Argos/ArgumentIteratorImpl.cpp: next", "src/Argos/ArgumentIterator.cpp: next"]}
{"id": "C32", "title": "The result code tells how parsing ended", "statement": "When parse() returns, the command that was being parsed last has result code SUCCESS, STOP or FAILURE, and FAILURE holds iff an error was reported; SUCCESS and FAILURE are also set on all its ancestors, so the top-level result is SUCCESS only if no error was reported. Refuted: that STOP is also set on the ancestors.", "quantifier": "all definitions, all command lines, auto_exit off", "why_tests_cant": "All executions.", "anchors": ["src/Argos/ArgumentIteratorImpl.cpp: error, check_argument_and_option_counts", "src/Argos/ParsedArgumentsImpl.cpp: set_breaking_option"]}
{"id": "C33", "title": "Success means the mandatory options were given", "statement": "If parsing ends with SUCCESS every mandatory option of the command parsed last has a value. (It is not checked for its ancestors or earlier sibling commands.)", "quantifier": "all definitions, all command lines", "why_tests_cant": "All executions and all option sets.", "anchors": ["src/Argos/ArgumentIteratorImpl.cpp: has_all_mandatory_options, check_argument_and_option_counts"]}
{"id": "C34", "title": "Success means the argument counts are right", "statement": "If parsing ends with SUCCESS the number of positional arguments the last command received is between the sum of the minima and the sum of the maxima, and if the command requires a sub-command one was given.", "quantifier": "all definitions, all command lines, no argument-inserting callbacks", "why_tests_cant": "All executions and all argument lists.", "anchors": ["src/Argos/ArgumentIteratorImpl.cpp: check_argument_and_option_counts, process_argument"]}
{"id": "C35", "title": "Unknown options and surplus arguments", "statement": "An unknown option or a surplus argument makes parsing fail, unless ignore_undefined_options / ignore_undefined_arguments is set, in which case it is appended to the unprocessed arguments and nothing else changes; an unknown command always makes it fail. When parsing fails, the message is written once, values, sub-commands and the stopping option of all commands stay as they are, all results become failures, and what has not been read is left unprocessed in the results of the current command. Refuted for groups: an unknown flag that is not the first of its group is an error even if unknown options are ignored, and the known flags of an ignored group are still acted on.", "quantifier": "all parser states, all tokens", "why_tests_cant": "All states and strings.", "anchors": ["src/Argos/ArgumentIteratorImpl.cpp: process_option, process_argument"]}
{"id": "C36", "title": "STOP, EXIT and HELP stop immediately", "statement": "When a STOP, EXIT or HELP option is processed (auto_exit off) no later argument is processed, the result code of the current command is STOP with that option as stop_option, missing mandatory options and arguments are not reported, and all remaining arguments are appended to its unprocessed arguments in order.", "quantifier": "all parser states, all remaining command lines", "why_tests_cant": "All states and remaining command lines.", "anchors": ["include/Argos/Enums.hpp: OptionType", "src/Argos/ArgumentIteratorImpl.cpp: process_option, copy_remaining_arguments_to_parser_result"]}
{"id": "C37", "title": "auto_exit and exit codes", "statement": "With auto_exit on, every error ends the program with the error exit code and every HELP or EXIT option with the normal exit code, so parse() never returns a FAILURE; with auto_exit off parsing never ends the program.", "quantifier": "all definitions, all command lines, all exit codes", "why_tests_cant": "All executions; a test process would end.", "anchors": ["src/Argos/ArgumentIteratorImpl.cpp: error, process_option", "include/Argos/ArgumentParser.hpp: auto_exit, set_exit_codes"]}
{"id": "C38", "title": "No value is invented", "statement": "Every value found in the result (without callbacks) is the initial value of an option of the main command, the constant of an option of that command, or text from the command line: a whole argument or the tail of one; and it is stored under the value of the argument or option that received it. Every unprocessed argument is a whole argument or the unread flags of a group. Refuted: that initial values of options of sub-commands are used.", "quantifier": "all definitions, all command lines", "why_tests_cant": "All executions.", "anchors": ["src/Argos/ArgumentIteratorImpl.cpp: process_option, process_argument, ArgumentIteratorImpl"]}
{"id": "C39", "title": "Ignored arguments can be recovered from argv", "statement": "filter_parsed_arguments keeps argv[0] and a subsequence of the remaining arguments; when the unprocessed arguments occur in argv in order the result is exactly argv[0] followed by them, and argc is adjusted to match.", "quantifier": "all argv and all lists of unprocessed arguments", "why_tests_cant": "All pairs of lists.", "anchors": ["src/Argos/ParsedArguments.cpp: filter_parsed_arguments"]}
{"id": "C40", "title": "Sub-commands in the result are declared sub-commands", "statement": "Every sub-command in the result is one of the commands declared in its parent, and a command has more than one sub-command in the result only if it allows multiple sub-commands.", "quantifier": "all definitions, all command lines", "why_tests_cant": "All executions and command trees.", "anchors": ["src/Argos/ArgumentIteratorImpl.cpp: process_command, find_sibling_command, reactivate_multi_command_parent, find_first_multi_command_parent"]}
{"id": "C41", "title": "A const parse does not change the parser", "statement": "Calling a const member of a parser (const parse or make_iterator, help texts) leaves it unchanged: it can be used again with the same outcome, and leaving such calls out of a program changes no other result. A const parse ends as a non-const parse of the same parser does, except that it does not know --version and that the commands in its result have the default visibility.", "quantifier": "all parsers, all sequences of calls", "why_tests_cant": "All histories.", "anchors": ["src/Argos/ArgumentParser.cpp: parse, make_iterator, make_copy, check_data"]}
{"id": "C42", "title": "Callbacks run once, in order, after the value is stored", "statement": "For every processed option first its own callback and then the parser's option callback runs, exactly once each and after its value has been stored; likewise for arguments. HELP output comes after the callbacks, and no callback runs for unknown items or failed options.", "quantifier": "all parser states, all tokens, all callbacks", "why_tests_cant": "All states and callbacks.", "anchors": ["src/Argos/ArgumentIteratorImpl.cpp: process_option, process_argument"]}
{"id": "C43", "title": "Look-ahead agrees with what is parsed", "statement": "The positional arguments of a command are distributed over its definitions as if their number had been known in advance: from the moment the command is entered until it ends, the definitions receive the fair distribution (C26) of the number of arguments that are in fact read for this command, whatever options, option values, ignored options and names of further commands stand among them. Exceptions: EXIT options, options that have an argument but read no value, and arguments that are the beginning of the only flag of the command while abbreviations are allowed.", "quantifier": "all definitions that are accepted, all command lines, all commands entered, no argument-inserting callbacks, surplus arguments not ignored", "why_tests_cant": "Relates look-ahead and execution for all command lines.", "anchors": ["src/Argos/ArgumentIteratorImpl.cpp: count_arguments, next"]}
{"id": "C44", "title": "Base name of the program", "statement": "The program name taken from argv[0] is the part after the last slash or backslash, or the whole string if there is none.", "quantifier": "all strings", "why_tests_cant": "All strings.", "anchors": ["src/Argos/StringUtilities.cpp: get_base_name"]}
{"id": "C45", "title": "Case-insensitive equality", "statement": "Case-insensitive comparison of strings is an equivalence relation, and two strings are equal iff they have the same length and are equal after mapping ASCII upper-case letters to lower case. Of ASCII strings without characters between 'Z' and 'a', one is less than another iff it comes first in the dictionary order of the lower-case strings. Refuted: that the case-insensitive less-than is an ordering with this equivalence on all strings; '_' and 'z' are each less than the other.", "quantifier": "all pairs and triples of strings", "why_tests_cant": "All byte strings.", "anchors": ["src/Argos/StringUtilities.cpp: are_equal_chars_ci, are_equal_ci, starts_with_ci, to_lower"]}
{"id": "C46", "title": "Counting UTF-8 code points", "statement": "For every valid UTF-8 text the computed width is its number of code points and the position found for the n-th code point is a code point boundary with n code points before it; for other byte strings the count falls back to the number of bytes and never exceeds it.", "quantifier": "all byte strings", "why_tests_cant": "All byte strings.", "anchors": ["src/Argos/StringUtilities.cpp: count_code_points, find_nth_code_point, get_code_point_length"]}
{"id": "C47", "title": "Splitting a word loses nothing", "statement": "When a word is split over lines according to rules that are UTF-8, the first part followed by the remainder is the word (from the requested position), the first part plus a possible hyphen fits in the given width, and a forced split always makes progress. Refuted for rules that are not UTF-8: a part can then be wider than there is room for.", "quantifier": "all words, all rules, all widths", "why_tests_cant": "All words and widths.", "anchors": ["src/Argos/WordSplitter.cpp: split, default_rule, add_word"]}
{"id": "C48", "title": "Formatted text fits the line width", "statement": "The text writer never puts more than line-width code points on a line unless the indentation leaves only one or two columns, and writing text always terminates.", "quantifier": "all texts, widths and indentations", "why_tests_cant": "All texts.", "anchors": ["src/Argos/TextWriter.cpp", "src/Argos/TextFormatter.cpp"]}
{"id": "C49", "title": "Formatting preserves the text", "statement": "Formatting (with rules that are UTF-8) writes all non-white-space characters of the text in order and adds nothing but white space and hyphens at line ends; words stay separated by white space. Refuted: that the gap after a list marker always stays.", "quantifier": "all texts, widths and indentations", "why_tests_cant": "All texts.", "anchors": ["src/Argos/TextFormatter.cpp: write_words, append_word", "src/Argos/TextWriter.cpp: write"]}
{"id": "C50", "title": "Parsing is safe and throws only because of callbacks", "statement": "Parsing any command line with a definition that was accepted never runs into undefined behaviour (out-of-range access, dereference of an empty optional, reading the current argument when there is none), and an exception comes out of parse() only if a callback exists, and then only one thrown by a callback or caused by its use of the builder.", "quantifier": "all definitions, all command lines, all callbacks", "why_tests_cant": "All definitions, command lines and callbacks, including callbacks that insert arguments.", "anchors": ["src/Argos/ArgumentIteratorImpl.cpp: next, process_option, process_argument, process_command, count_arguments, update_arguments, check_argument_and_option_counts", "src/Argos/StandardOptionIterator.cpp", "src/Argos/OptionIterator.cpp"]}
{"id": "C51", "title": "Indentation is restored after a text", "statement": "After a text has been written, the indentation of following lines is what it was before the text (markers and leading blanks in the text only indent the lines that belong to them), unless a line of the text begins with a tab and more blanks or with spaces and a tab.", "quantifier": "all texts, widths and earlier calls", "why_tests_cant": "All texts and all histories of the formatter.", "anchors": ["src/Argos/TextFormatter.cpp: write_words, begin_alignment, update_alignment, end_alignment, push_indentation, pop_indentation"]}
{"id": "C52", "title": "Formatting does not throw", "statement": "Writing text with a formatter of any line width above two always terminates, never reads outside of a string, and throws only if text written line by line ends with CR or if more indentations are removed than were added.", "quantifier": "all sequences of calls, all widths, all rules", "why_tests_cant": "All sequences of calls.", "anchors": ["src/Argos/TextFormatter.cpp: next_line, write_lines, write_words, append_word, pop_indentation", "src/Argos/WordSplitter.cpp: split, default_rule"]}
{"id": "C53", "title": "Help texts show every visible item in order", "statement": "Writing the help text of a program or sub-command succeeds for every accepted definition with a line width above two and no visible label that ends with CR, and the output is a layout of: the initial text, the usage (one line per visible option that stops the parser, one line with the other visible options, the visible arguments and the sub-commands), the about or help text, the sections in the order of their first item with the visible arguments, sub-commands and options (label and help text), and the final text, with an empty line between these parts. Every non-white character of these is in the output, in order; only white space and hyphens at line ends are added.", "quantifier": "all definitions, paths, texts and line widths", "why_tests_cant": "All combinations of texts, sections, visibilities and widths; tests compare a handful of outputs.", "anchors": ["src/Argos/HelpText.cpp: write_help_text, write_usage, write_brief_usage, write_argument_sections, get_argument_name, get_brief_option_name, get_long_option_name", "src/Argos/ArgumentParser.cpp: write_help_text, write_subcommand_help_text"]}
{"id": "C54", "title": "Help texts are exactly the documented layout if nothing has to be broken", "statement": "If all names and texts are printable ASCII without list markers and every line fits the line width, the help text is to the character: titles in column 0, usage lines and labels indented by two, item texts in a common column three to the right of the longest label if that column is at most 32 and the longest text fits beside it, otherwise on a line of its own indented by eight; parts separated by one empty line.", "quantifier": "all definitions with plain texts, all widths of at least eight", "why_tests_cant": "The choice between one and two column layout, the order of sections and the empty lines depend on all items together.", "anchors": ["src/Argos/HelpText.cpp: write_help_text, write_argument_sections", "src/Argos/TextFormatter.cpp: write_words, write_lines, newline, push_indentation"]}
{"id": "C55", "title": "Hidden items have no influence on help and error texts", "statement": "Help texts and error messages of a command are the same if the options, arguments and sub-commands that are visible neither in the usage nor in the text are removed, provided that the command has no sub-commands or one that is not hidden. (ArgumentParser's help functions forget that sub-commands are hidden; this is refuted as a separate theorem.)", "quantifier": "all commands, widths and messages", "why_tests_cant": "Hidden items could influence column widths, separators or section order in any combination.", "anchors": ["src/Argos/HelpText.cpp: write_brief_usage, write_argument_sections", "src/Argos/CommandData.cpp: CommandData(const CommandData&)"]}
{"id": "C56", "title": "Error messages name the command and the item and show the usage", "statement": "An error message is the command's full name, a colon, the message and then the usage (or the text ERROR_USAGE instead of it); a message about an argument or option begins with the argument's name or the option's flags. Writing it succeeds under the conditions of C53 and nothing stays in the buffer; under the conditions of C54 the output is exact.", "quantifier": "all definitions, commands, messages and widths", "why_tests_cant": "All messages, names and widths.", "anchors": ["src/Argos/HelpText.cpp: write_error_message, get_name", "src/Argos/ArgumentData.cpp", "src/Argos/OptionData.cpp"]}
{"id": "C57", "title": "Help texts and error messages keep to the line width", "statement": "Every line of a help text or error message with UTF-8 texts has at most as many code points as the line width, except for lines whose indentation leaves only one or two columns.", "quantifier": "all definitions, messages and widths above two", "why_tests_cant": "All texts and widths, including words longer than the line and nested indentation.", "anchors": ["src/Argos/HelpText.cpp: write_help_text, write_error_message", "src/Argos/TextWriter.cpp: write", "src/Argos/TextFormatter.cpp: write_words, write_lines"]}
{"id": "C58", "title": "A used-up parser or item refuses every call", "statement": "After a non-const parse or make_iterator, whatever its outcome, every call of the parser throws an exception; after an argument, option or command has been added to something (even if that was refused), every call of it throws. The exceptions are parse(argc, argv) with argc > 0 and Command::copy_from with a used-up source, which dereference a null pointer.", "quantifier": "all parsers, all sequences of calls", "why_tests_cant": "All histories of calls.", "anchors": ["src/Argos/ArgumentParser.cpp: parse, make_iterator, check_data", "src/Argos/Argument.cpp", "src/Argos/Option.cpp", "src/Argos/Command.cpp"]}
{"id": "C59", "title": "A call that throws leaves the definition unchanged", "statement": "In any sequence of calls of a parser, the calls that throw exceptions have no effect: without them the other calls have the same results and lead to the same definition. (copy_from is the exception: it may copy items before it throws.)", "quantifier": "all parsers, all sequences of calls", "why_tests_cant": "All histories of calls.", "anchors": ["src/Argos/ArgumentParser.cpp: add, option_style, copy_from", "src/Argos/CommandData.cpp: add, copy_from"]}
{"id": "C60", "title": "The option style cannot change under existing options", "statement": "Once options have been added to a parser, no sequence of calls changes its option style; trying to throws. Options of sub-commands do not count.", "quantifier": "all parsers, all sequences of calls", "why_tests_cant": "All histories of calls.", "anchors": ["src/Argos/ArgumentParser.cpp: option_style"]}
{"id": "C61", "title": "Argument counts are always consistent", "statement": "However arguments, commands and parsers are put together through the API, every argument of the definition, before and after completion, has a minimal count that is at most its maximal count, and the latter is at least one.", "quantifier": "all sequences of calls that build arguments, commands and parsers", "why_tests_cant": "All histories of calls and all nestings.", "anchors": ["src/Argos/Argument.cpp: optional, mandatory, count", "src/Argos/Command.cpp: add, copy_from", "src/Argos/ArgumentParser.cpp: add, copy_from"]}
{"id": "C62", "title": "The program is named after argv[0] only if it has no name", "statement": "parse(argc, argv) on a parser without a name behaves as if the program had been given the file name part of a non-empty argv[0]; in all other cases, and on const parsers, argv[0] is not used. Without any argv (argc of zero or less) parse() parses an empty command line, whereas make_iterator() throws an exception and leaves the parser as it was; make_iterator(argc, argv) never uses argv[0].", "quantifier": "all parsers, all argv", "why_tests_cant": "All paths and definitions.", "anchors": ["src/Argos/ArgumentParser.cpp: parse"]}
{"id": "C63", "title": "Iterating gives the same results as parsing", "statement": "Calling next() of an iterator until it returns false ends in the same results, the same exit or the same exception as parse() with the same definition and command line. The iterator gives access to the results of the innermost current command only.", "quantifier": "all definitions, all command lines", "why_tests_cant": "All command lines.", "anchors": ["src/Argos/ArgumentIterator.cpp: next, parsed_arguments", "src/Argos/ArgumentIteratorImpl.cpp: next, parse"]}
{"id": "C64", "title": "The reported items account for all values", "statement": "The items that next() has reported say everything about the results: with callbacks that do not change values, the values stored under every id are at all times (until an error) exactly those that result from the initial values and the reported items, in order. This holds for every command that was given: an argument or option belongs to the command that was reported last, a command belongs to that one too or, if that has no sub-commands, to the nearest one above it that accepts several (to which a LAST_ARGUMENT option returns as well); the tree of sub-command results is the one described by these items.", "quantifier": "all definitions that are accepted, with and without sub-commands, all command lines, all times", "why_tests_cant": "All command lines and all numbers of calls.", "anchors": ["src/Argos/ArgumentIterator.cpp: next", "src/Argos/ArgumentIteratorImpl.cpp: next, process_option, process_argument"]}
{"id": "C65", "title": "What is in order is accepted", "statement": "A command accepts another positional argument as long as it has received fewer than the sum of the maxima; the name of a further sub-command starts it as soon as the current one has received at least the sum of the minima; and at the end of the command line parsing succeeds if the number of arguments is within the limits, all mandatory options have values and a required sub-command was given. For commands whose arguments have to be counted in advance the last two hold only if the last definition receives something.", "quantifier": "all definitions that are accepted, all command lines without the exceptions named in C43, no argument-inserting callbacks", "why_tests_cant": "Tests show that some lines are accepted; that no valid line is rejected is a statement about all lines, and depends on look-ahead agreeing with what is read.", "anchors": ["src/Argos/ArgumentIteratorImpl.cpp: count_arguments, process_argument, check_argument_and_option_counts, find_sibling_command", "src/Argos/ArgumentCounter.cpp: is_complete, next_argument"]}
{"id": "C66", "title": "The printed results show every value once", "statement": "ParsedArguments::print writes, for every command of the results, one line for each distinct value of the command with the names of all the arguments and options that store into it, in the order of definition, and all texts of the value in quotes in the order in which they are stored; then the unprocessed arguments; then the same for each sub-command that was given. No item and no value is missing or shown twice. Options with operation NONE, which store nothing, are all on one line (refuted: that unrelated items are on separate lines).", "quantifier": "all parsers that calls of the API can build, all command lines, all times during and after parsing", "why_tests_cant": "The output depends on the numbering of values that results from all the definitions and aliases together; grouping with a sort and a neighbour comparison is right only because equal numbers become neighbours.", "anchors": ["src/Argos/ParsedArguments.cpp: print, get_name, print_argument", "src/Argos/ParserData.cpp: finish_initialization"]}
{"id": "C67", "title": "Values know their supplier and errors about values name it", "statement": "The argument or option named by a value from value(name) or values(name) is one that the definition lists, stores into that value, and gave the value's text (on the command line, as constant or as initial value). Converting a text that is no number of the requested kind, or splitting it into too few parts, writes an error message that names exactly that argument or option (none if several suppliers share the value list) and then exits with the error code or throws; it never returns a number. A text that can be converted gives the number; only the lack of a value gives the default. value() agrees with values(), indexing with iterating. Refuted: value(view) names the view's item even if another item sharing the value gave the text.", "quantifier": "all finished definitions, all command lines, all results at any time, callbacks that neither insert arguments nor change values; all conversions", "why_tests_cant": "Tests check the message of a few options; the correspondence of ids between definition, stored value and message has to hold for all definitions.", "anchors": ["src/Argos/ArgumentValue.cpp: argument, error, split, as_int", "src/Argos/ArgumentValues.cpp: arguments, error, values, value, split, as_ints", "src/Argos/ParsedArguments.cpp: value, values", "src/Argos/ParsedArgumentsImpl.cpp: get_argument_view, get_argument_views, error"]}
{"id": "C68", "title": "Floating point conversion accepts exactly texts that are numbers as a whole", "statement": "as_float and as_double succeed exactly on those texts that as a whole (after leading white space and an optional sign) are a decimal number, a hexadecimal number, an infinity or a NaN, and whose value causes no range error; the number is that denoted by the text, which is unique.", "quantifier": "all byte strings, all rounding behaviours of strtof and strtod", "why_tests_cant": "The set of texts is infinite, with traps such as '1e', '0x', '1 ' and 'nan('.", "anchors": ["src/Argos/ParseValue.cpp: parse_floating_point_impl"]}
{"id": "C69", "title": "The parser uses exactly what was declared", "statement": "When parsing starts, every command has exactly the declared arguments and options, in the declared order and with all their declared attributes, followed by at most one generated help option (exactly if wanted and possible) and, at the top, a version option exactly if a version was given and its flag is free; sub-commands, texts, names, visibility and settings are unchanged; a sub-command is required exactly if declared so or, without declaration, if there are sub-commands; the full name of a sub-command is the name of its parent and its own. The constant of an option is completed as documented. Refuted: full names of deeper sub-commands start with the program's name.", "quantifier": "all definitions that are accepted", "why_tests_cant": "Tests look at a handful of definitions; loss or alteration of a single attribute in some combination would go unnoticed.", "anchors": ["src/Argos/CommandData.cpp: finish_initialization, update_require_command, add_help_option", "src/Argos/ParserData.cpp: finish_initialization, add_version_option", "src/Argos/OptionData.cpp: validate_and_update"]}
{"id": "C70", "title": "What parse() writes, and where", "statement": "Parsing writes nothing of its own if it succeeds or is stopped by a STOP or EXIT option; exactly one error message, after everything else, if it fails; and exactly the help text of the current command, after everything else, for a help option. Error messages go to std::cerr and the rest to std::cout, or all of it in order to the stream given to stream(). The error message is about the command that is being parsed and consists of its name, the message and the usage. All other output is written by the definition's callbacks. The same holds if parse() ends the program, or ends with an exception from a callback. Refuted for line widths of one and two columns: every error then ends parse() with an exception about the line width instead.", "quantifier": "all definitions that are accepted, whose line width is usable and whose usage labels do not end with CR; all command lines; all callbacks; with and without a stream", "why_tests_cant": "Tests compare a few outputs; that nothing else is ever written, and never to the wrong stream, is a statement about all executions.", "anchors": ["src/Argos/ArgumentIteratorImpl.cpp: error, process_option, parse", "src/Argos/HelpText.cpp: write_help_text, write_error_message", "src/Argos/ParsedArgumentsImpl.cpp: error", "src/Argos/ParsedArgumentsBuilder.cpp: stream", "include/Argos/ArgumentParser.hpp: stream, line_width"]}
{"id": "C71", "title": "The meaning of a whole command line", "statement": "Every command line can be read in exactly one way as a sequence of words (options with their values, positional arguments) of the top-level command, then of its sub-command, and so on. Parsing succeeds exactly if this reading comes to its end (or to a LAST_ARGUMENT option) without unknown options, missing option values or unknown commands, the last command has received a permitted number of arguments, needs no further sub-command, and all its mandatory options have values. Then the values of every command are exactly those given by its words in the order of the command line, positional arguments being distributed fairly over the definitions; nothing is written; and what follows the LAST_ARGUMENT option is left for the caller. Otherwise parsing fails with the message for the first thing that is wrong (or stops at a STOP, EXIT or HELP option, whatever is missing), the values are those of the words before it, and the remaining arguments are those behind it.", "quantifier": "all accepted definitions with at most one sub-command per command and without interfering callbacks, in all three option styles; all command lines; excepted are words that look-ahead misjudges (C43)", "why_tests_cant": "Tests cover a few dozen command lines of small definitions; this is the complete input-output behaviour of the parser for every definition and every command line.", "anchors": ["src/Argos/ArgumentIteratorImpl.cpp: next, process_option, process_argument, check_argument_and_option_counts", "src/Argos/ArgumentParser.cpp: parse", "src/Argos/StandardOptionIterator.cpp", "src/Argos/OptionIterator.cpp"]}
{"id": "C72", "title": "Command lines can be continued", "statement": "If a command line has been read to its end (without a LAST_OPTION option) then appending further arguments does not change how the first ones are read: the further arguments are read as arguments of the last command, as if they stood alone, and parsing succeeds exactly with the words of both parts together.", "quantifier": "all accepted definitions with at most one sub-command per command, all option styles, all pairs of command lines", "why_tests_cant": "It is a statement about all pairs of command lines; the tokenizers keep a position inside the current argument, which a part of the line could leave in a state that affects the next one.", "anchors": ["src/Argos/StandardOptionIterator.cpp: next, next_value", "src/Argos/OptionIterator.cpp: next, next_value", "src/Argos/ArgumentIteratorImpl.cpp: next"]}
{"id": "C73", "title": "The meaning of a command line with several sub-commands", "statement": "If commands accept several sub-commands one after the other, every command line still has exactly one meaning. A plain argument of a command without sub-commands is the name of the next sub-command of the innermost command above it that accepts several, if the current command already has its minimum number of arguments; otherwise it is an argument of the current command. When the next sub-command begins, the current one, and those between it and the common parent, end with exactly the values of their words, fairly distributed, and become sub-command results of their parents in the order of the command line; they keep result code NONE and their mandatory options are not checked. A LAST_ARGUMENT option checks the current command, marks all commands so far as successful and returns control to that parent, after which no argument is taken for an option until the next sub-command begins. The end of the line is judged by the last command only: success, with nothing written and the whole tree of results determined; or failure with the first thing wrong with it. Surplus arguments, unknown options and commands, missing option values and STOP/EXIT/HELP options end the parsing as they do without several sub-commands.", "quantifier": "all accepted definitions (any nesting, any of the commands accepting several sub-commands) without interfering callbacks and with unknown options and surplus arguments not ignored, in all three option styles; all command lines; that every line has a meaning is proved without abbreviations or for commands with several flags (words that look-ahead misjudges, C43)", "why_tests_cant": "Whether a word is an argument or the next command depends on the counts of everything before it and on look-ahead over everything after it; the tests try a handful of lines of two definitions.", "anchors": ["src/Argos/ArgumentIteratorImpl.cpp: next, process_option, process_argument, find_command_in_parent, check_argument_and_option_counts", "src/Argos/ArgumentParser.cpp: parse", "include/Argos/Enums.hpp: OptionType::LAST_ARGUMENT"]}
{"id": "C74", "title": "Arguments are counted again after an insertion", "statement": "When callbacks insert arguments, the arguments of the current command are counted again, and the arguments that follow are distributed over its definitions as they would be if the new number had been known from the beginning. Refuted: that the arguments read before and after the insertion together respect the limits (an argument can get more than its maximum or less than its minimum in a successful parse); that the count is right after a LAST_OPTION option (what looks like an option is not counted, and arguments are rejected as too many); that the name of the next sub-command is still recognised if several may be given (it can become an argument).", "quantifier": "all accepted definitions whose arguments need counting, all reachable states, all callbacks that insert nothing later on, all command lines read as look-ahead foresees", "why_tests_cant": "The result depends on the state at the moment of the insertion and on all arguments that follow; no test inserts arguments into a command whose arguments have to be counted.", "anchors": ["src/Argos/ArgumentIteratorImpl.cpp: update_arguments, count_arguments", "src/Argos/ArgumentCounter.cpp: ArgumentCounter", "include/Argos/Callbacks.hpp: CallbackArguments::new_arguments"]}
{"id": "C75", "title": "copy_from adds everything that the documentation promises", "statement": "Copying a command (by construction or assignment) gives a command with the same arguments, options, texts, names, sections and settings and copies of the sub-commands, all of which are visible (finding 8). copy_from adds the arguments, options and copies of the sub-commands of the other command behind those already there, in order; it succeeds exactly if no text is set in both, and then the texts of both are set; otherwise it throws. Name, sections, visibility and the requirement of a sub-command stay as they were; several sub-commands are allowed afterwards if either allowed them. For a parser nothing but its command changes.", "quantifier": "all commands and parsers that can be made by any sequence of calls", "why_tests_cant": "The tests copy one command into another in a few configurations; the claim is about every pair of commands, including those that are copies themselves.", "anchors": ["src/Argos/CommandData.cpp: copy_from, CommandData(const CommandData&)", "src/Argos/Command.cpp: copy_from", "src/Argos/ArgumentParser.cpp: copy_from", "include/Argos/Command.hpp: copy_from"]}
{"id": "C76", "title": "The last call decides", "statement": "Every property of an argument, an option, a command or a parser has the value that the last call about it gave it, and the documented default without such a call; calls about other properties, additions, copies made by const members and refused calls do not affect it. For an argument, count(n) and count(min, max) set both limits if accepted, optional(true) and mandatory(false) set the minimum to 0, optional(false) and mandatory(true) raise it to at least 1 and leave the maximum alone. Word splitting rules accumulate in the order of the calls. The name of a new parser is the given one or, if requested, its part behind the last path separator.", "quantifier": "all sequences of calls to all objects (texts and multiple sub-commands of parsers: without copy_from)", "why_tests_cant": "The tests set each property once; interference between calls only shows in sequences of calls.", "anchors": ["src/Argos/Argument.cpp", "src/Argos/Option.cpp", "src/Argos/Command.cpp", "src/Argos/ArgumentParser.cpp"]}
{"id": "C77", "title": "What a callback does takes effect, until it breaks off", "statement": "When an option has got its value or an argument is received, the item itself changes the values first; then the callback of the item and the callback of the parser are called in this order, and each sees what the one before it left. Assigning, appending and clearing by name or by view act on exactly the value with that name (by name the new text belongs to no item). The first operation that uses a name no value has throws; error() writes the message (with the name or flags of the item in front of it, if there is one), exits with the error code if auto exit is on and throws otherwise; an exception of the callback passes through. In all these cases nothing else is done and the changes made before stay. If nothing fails, the item has the effect of its kind and everything else (other commands, unprocessed arguments, results) is as before.", "quantifier": "all accepted definitions, all command lines, all states that next() can reach, arbitrary callbacks (state, values, insertions, errors, exceptions)", "why_tests_cant": "Tests use a few fixed callbacks; the claim is about any combination of operations, failures and callbacks.", "anchors": ["src/Argos/ArgumentIteratorImpl.cpp: process_option, process_argument", "src/Argos/ParsedArgumentsBuilder.cpp", "src/Argos/ParsedArgumentsImpl.cpp: error, assign_value, append_value, clear_value, get_value_id", "src/Argos/HelpText.cpp: write_error_message, get_name"]}
{"id": "C78", "title": "Exactly how text is put on lines", "statement": "A text written with write_words gets one definite layout: each word goes on the current line, behind the spaces (or the tab, which leads to the next multiple of four columns) in front of it, if it has room there; otherwise it is broken at the last place that the first splitting rule for it allows there; otherwise it goes on the next line, without the spaces, and is broken there, by its rule or at the last good place, only if it is longer than that line. What wraps is aligned with the first word on its line of the text, behind a list marker if there is one, and with the indentation if that column is outside the line. Line breaks in the text are kept, and CR, LF and CR LF are the same. So no line is broken while the next word would fit. Exception: a list marker that stands alone at the end of an earlier text makes the next text hang under its second word.", "quantifier": "all widths, rules, texts in UTF-8, indentations and texts written before (without list markers), on an empty line or beside other text", "why_tests_cant": "The tests print a few texts; that nothing else (earlier or later breaks, lost alignment) can happen is a claim about all texts and all widths.", "anchors": ["src/Argos/TextFormatter.cpp: write_words, append_word, tab, begin_alignment, update_alignment, end_alignment", "src/Argos/TextWriter.cpp: write, newline, tab, current_width", "src/Argos/WordSplitter.cpp: split, default_rule"]}
{"id": "C79", "title": "Exact help texts and error messages with their line breaks", "statement": "The help text of a program or a sub-command and every error message is one definite text, to the character, also where lines are broken: titles and free texts begin in column 0 and follow the layout of C78; a line of the usage begins with the name in column 2, and the labels that do not fit are aligned behind the name if there is room; sub-commands can be broken on either side of a bar or bracket; an entry has its label in column 2 and its text beside it in the common column (two columns behind the label at least) or below it in column 8, and texts keep their own lines and lists there; an error message starts with the name and a colon, the message follows after a space, and the usage or the text given for it comes below. There is one empty line between the parts.", "quantifier": "all accepted definitions, all paths, all line widths above 8 (error messages: above 2), all UTF-8 texts made of words, gaps, list items and any line ends, all word splitting rules not ending with a space", "why_tests_cant": "Tests compare a few help texts with expected ones; that every break, column and gap of all help texts follows from the definition needs a proof over all definitions and widths.", "anchors": ["src/Argos/HelpText.cpp: write_help_text, write_error_message, write_brief_usage, write_argument_sections", "src/Argos/TextFormatter.cpp", "src/Argos/TextWriter.cpp"]}
{"id": "C80", "title": "Views of values can be read", "statement": "While a program iterates with next(): the std::string_view returned for an option, argument, command or unknown item shows the value that was given, and the parser never reads a text that has been released, as long as no callback assigns to or clears the value it is being called for. A view of a stored value (returned by next(), or by value() and values()) keeps showing the same text over any number of further calls, also into and out of sub-commands, until an option or a callback replaces or clears that value or an error occurs; values of a command cannot be lost through anything done in its sub-commands. All views from value() and values() are readable after every call, whatever callbacks do. Exception (refuted): after a callback has assigned or cleared its own value, next() returns a view of released memory, and a callback for all options or arguments is called with such a view.", "quantifier": "all accepted definitions, all argument lists, all callbacks, all numbers of calls", "why_tests_cant": "Reading a released buffer often goes unnoticed in a test (small strings, memory not reused); that it never happens needs an invariant on buffers over all executions.", "anchors": ["src/Argos/ArgumentIteratorImpl.cpp: next, process_option, process_argument, process_command, reactivate_multi_command_parent", "src/Argos/ParsedArgumentsImpl.cpp: assign_value, append_value, clear_value, get_values", "include/Argos/Callbacks.hpp", "include/Argos/ArgumentIterator.hpp: next"]}
{"id": "C81", "title": "Iterators read only their own memory", "statement": "Whatever argument iterators a program makes, copies and destroys, and whatever it calls on them in whatever order (next option, next value, current argument, remaining arguments, insert arguments), no call reads or writes a vector element that has been released, has moved or does not exist, and each call gives what it would give if every iterator had a private list of arguments: changing or destroying a copy does not affect the original, nor the other way round. The view of the current argument and the span of remaining arguments stay readable and unchanged, whatever is done with other iterators, until arguments are inserted into that iterator, it is destroyed, or its remaining arguments are asked for in the middle of a group like -abc. Every iterator has exactly one block of memory, and nothing is left when all iterators are destroyed. Exception (refuted): the span of remaining arguments does not survive insert.", "quantifier": "all argument lists, both option styles, all numbers of iterators, all sequences of calls", "why_tests_cant": "A span that still refers to the vector of the copied object, or to elements moved by insert, usually reads the right bytes in a test; its absence is a statement about all interleavings of calls on all iterators.", "anchors": ["src/Argos/StandardOptionIterator.cpp: StandardOptionIterator(const StandardOptionIterator&), next, next_value, current, remaining_arguments, insert, split_concatenated_flags", "src/Argos/OptionIterator.cpp: OptionIterator(const OptionIterator&), next, next_value, current, remaining_arguments, insert", "src/Argos/OptionIteratorWrapper.hpp: OptionIterator variant", "src/Argos/ArgumentIteratorImpl.cpp: make_option_iterator"]}
{"id": "C82", "title": "Texts that are callbacks", "statement": "Texts can be given as callbacks. When a help text has been written, the callbacks of exactly those texts have been called that the help text needs, in the order of the help text: INITIAL_TEXT, USAGE and its title, ABOUT, HELP only if ABOUT is missing or empty, the titles and help texts of the visible arguments, sub-commands and options in the order of their definition, FINAL_TEXT. Each is called once, USAGE twice, callbacks of hidden items never. The help text is that of a parser whose texts are the returned strings, and a callback that always returns the same is as good as a text, in every outcome. An error message calls only ERROR_USAGE, or if it is missing USAGE and its title. What a callback throws reaches the caller, no other callback is called after it, and what has been written until then is the beginning of what is written if the callback returns. Exception (refuted): a callback of USAGE that returns different strings when it is called twice gives a help text that neither of the strings gives, for instance a title with nothing below it.", "quantifier": "all parsers and commands, all choices of texts that are callbacks, all behaviours of the callbacks (results that depend on all calls before, and exceptions)", "why_tests_cant": "The callbacks are arbitrary programs with state; that none is called needlessly, twice or out of order, and that their exceptions pass through every step of the formatter, are statements about all of them.", "anchors": ["src/Argos/TextSource.hpp: get_text, TextSource", "src/Argos/HelpText.cpp: get_custom_text, write_custom_text, write_usage, write_argument_sections, write_help_text, write_error_message"]}
{"id": "C83", "title": "What keeps what alive", "statement": "Whatever parsers, argument iterators, results, values and iterators over values a program makes, copies, moves, assigns and destroys, in whatever order, no call reads or releases memory that has been released, no matter whether parsing returns or throws, as long as the program uses option, argument and command views and string_views only while something keeps what they refer to, and iterators over values only while the values exist. Exactly that exists which the program's objects keep: results, values and iterators keep the results and with them the definition and the results of all sub-commands; nothing is left when all objects are gone. A call changes no objects but those it is for, and what exists stays the same (results only get more sub-commands). Copies, moved and assigned objects and the values, iterators and texts made from an object refer to the same results as that object, views to the definition those results are of. Results of a const parser have a definition of their own, and a parser that is not const can't be used after parse or make_iterator: further calls of them for a list of arguments throw. Exceptions (refuted): a view, or a value's string_view, can't be read when all results and values are gone, or (for a text of the program) when only results of a sub-command are left; an iterator over values keeps the results but not the list of values, so it can't be used after a temporary values(...) object is gone; results that are moved from or default-constructed dereference a null pointer.", "quantifier": "all programs made of these calls, all numbers of objects, all ways that parsing enters and leaves sub-commands, returns or throws", "why_tests_cant": "Use after release and leaks depend on the order in which objects are destroyed; there are infinitely many orders, and reading released memory mostly goes unnoticed in a test.", "anchors": ["src/Argos/ArgumentParser.cpp: parse, make_iterator, make_copy, parse_impl", "src/Argos/ArgumentIteratorImpl.cpp: ArgumentIteratorImpl, process_command, reactivate_multi_command_parent", "src/Argos/ParsedArgumentsImpl.cpp: ParsedArgumentsImpl, add_subcommand", "src/Argos/ParsedArguments.cpp", "src/Argos/ArgumentValue.cpp", "src/Argos/ArgumentValues.cpp", "src/Argos/ArgumentValueIterator.cpp"]}
{"id": "C84", "title": "Looking up results by name and by view gives the same", "statement": "If all arguments and options with a name share one value, has(name), values(name) and value(name) give the same texts, or throw the same exception, as has(view), values(view) and value(view) for the view of any of them. has(view) is true exactly if values(view) is not empty, value(view) gives the only text or none and throws if there are several, and as_strings() gives the texts in order, or the default if there are none. An option of operation NONE has no value unless such an option was given an initial value. stop_option() gives an option of that command of type STOP, EXIT or HELP if result_code() is STOP, and throws otherwise.", "quantifier": "all definitions the library accepts, all command lines, all results of the program and of its sub-commands at every moment of the parsing, all arguments and options and all their names", "why_tests_cant": "Two lookups are done in different ways: one through a sorted table of all names, the other by ids that the definition assigned. Whether they agree depends on every combination of names, aliases and operations; tests look up a few names.", "anchors": ["src/Argos/ParsedArguments.cpp: has, value, values, stop_option", "src/Argos/ParsedArgumentsImpl.cpp: get_value_id, get_value, get_values, has, set_breaking_option", "src/Argos/ArgumentValues.cpp: as_strings"]}
{"id": "C85", "title": "Callbacks read and change values step by step, and see what they have done", "statement": "Whatever an option's or argument's callback does with its CallbackArguments::builder, and in whatever order, each call takes effect at once: has(), value() and values() return the values as they are at that moment, including those that the callback has just assigned, appended or cleared; a value asked for by name is said to come from the item that supplied it, one asked for by view from the view. A call with an unknown name, and value() on several values, throws and changes nothing, and a callback that catches the exception can go on. error() writes its message and then exits (auto_exit) or throws. Nothing but the values and the output is changed until the callback returns. Every callback that does not catch the exception of error() has the same effect as one that first writes all of its output, then makes all of its changes, then throws or returns its new arguments; one that does catch it leaves an error message behind while parsing goes on.", "quantifier": "all programs over the builder's interface (reads, writes, handlers, arbitrary dependence on what was read, on the value and on the number of calls), all commands, settings and states of the parser", "why_tests_cant": "A callback is arbitrary code: the interleavings of reads, writes and caught exceptions are unbounded.", "anchors": ["src/Argos/ParsedArgumentsBuilder.cpp: append, assign, clear, value, values, has, error, stream", "include/Argos/Callbacks.hpp: CallbackArguments", "src/Argos/ArgumentIteratorImpl.cpp: process_option, process_argument, update_arguments", "src/Argos/ParsedArgumentsImpl.cpp: get_value, get_values, get_value_id, error"]}
{"id": "C86", "title": "The order of options and arguments does not matter unless they concern the same value", "statement": "If two command lines consist of the same options (with the same values) and the same arguments, in possibly different orders and spellings, but such that the arguments are in the same order and, for every value, the options and arguments that can influence it are in the same order, then parse() accepts one of them if and only if it accepts the other, and all values of all commands are then the same. If something is missing and no option stores its value under the name of an argument, then both are refused with the same message about the same command. In particular two parts of a command line with nothing in common, for example an option with its value and an argument, can change places.", "quantifier": "all definitions without interfering callbacks, all styles, all pairs of command lines that are read to the end, with any number of (nested) sub-commands, one at each level", "why_tests_cant": "The number of orders grows with the factorial of the length, and arguments are distributed by looking ahead over the options in between; a test compares a few pairs.", "anchors": ["src/Argos/ArgumentIteratorImpl.cpp: next, process_option, process_argument, count_arguments", "src/Argos/ArgumentCounter.cpp: next_argument", "src/Argos/ParsedArgumentsImpl.cpp: append_value, assign_value, clear_value"]}
{"id": "C87", "title": "Options can be added, and declared in any order, without a change to existing command lines", "statement": "If a definition gets further options that need not be given, or its options are declared in another order (in any of its commands), then every command line whose flags are written in full and that is read to its end is accepted by parse() after the change if and only if it was accepted before, and all arguments and all earlier options have the same values as before. This also holds if allow_abbreviated_options, callbacks, help texts or exit settings are changed. Required: two items share a value after the change if and only if they did before, with the same initial values, and no flag is an earlier flag followed by '='. Exceptions: an abbreviation can become ambiguous, and '--out=' is accepted as a new flag beside '--out', which then no longer gets the value in '--out=x'.", "quantifier": "all pairs of accepted definitions in this relation (commands nested to any depth, without interfering callbacks), all option styles, all command lines", "why_tests_cant": "It compares unboundedly many pairs of definitions on all command lines; ids, the sorted flag index and the look-ahead all change with the definition.", "anchors": ["src/Argos/CommandData.cpp: build_option_index, find_option", "src/Argos/ArgumentIteratorImpl.cpp: next, process_option, count_arguments", "src/Argos/ParserData.cpp", "include/Argos/ArgumentParser.hpp: add, allow_abbreviated_options"]}
{"id": "C88", "title": "Ignored options do not change the meaning of the rest of a command line", "statement": "With ignore_undefined_options(true), an argument that is an unknown option (with or without '=value') has no other effect than to be listed, once and in order, among the unprocessed arguments of the command in which it occurs: the remaining arguments, in their order, are understood as the same words as if they were the whole command line. If these are in order then parse() succeeds without a message and gives the same values as for them alone; a missing value, an unknown command, an argument too many, an incomplete command line and a STOP, EXIT or HELP option are treated as they are without the ignored arguments, and what follows is appended to the unprocessed arguments. Every command line can be understood in this way, up to an unknown flag that shares an argument with other flags. Exception: for those, '-zzz' is listed three times.", "quantifier": "all accepted definitions (commands nested to any depth, without interfering callbacks, unknown arguments not ignored), all option styles, all command lines", "why_tests_cant": "The ignored arguments can be any texts in any number at any places, between any other arguments; the look-ahead that counts arguments must skip exactly the same ones as the parser.", "anchors": ["src/Argos/ArgumentIteratorImpl.cpp: next, process_option, count_arguments, copy_remaining_arguments_to_parser_result", "src/Argos/StandardOptionIterator.cpp", "src/Argos/OptionIterator.cpp", "include/Argos/ArgumentParser.hpp: ignore_undefined_options", "include/Argos/ParsedArguments.hpp: unprocessed_arguments"]}
{"id": "C89", "title": "Ignored arguments do not change the meaning of the rest of a command line", "statement": "With ignore_undefined_arguments(true), an argument for which the command in which it occurs has no room has no other effect than to be listed, in order and among the ignored options, in unprocessed_arguments() of that command: if the command line is in order and complete when such arguments are left out of account then parse() succeeds without a message, with the values that the other words give. A missing value, an unknown option, an unknown command, a missing mandatory option and a STOP, EXIT or HELP option are treated as they are without such arguments. filter_parsed_arguments then leaves exactly the ignored ones in argv. No command line is refused for having too many arguments any more, and a command line that was not refused for this has exactly the same outcome (values, messages, callbacks, exit) as without the setting. The definitions that are accepted, and what they are completed to, do not depend on the setting.", "quantifier": "all accepted definitions, all option styles, all command lines (success: commands nested to any depth, without interfering callbacks; the equality of outcomes: all callbacks)", "why_tests_cant": "The surplus arguments can be any texts in any number at any places, after options with and without values and among ignored options; the count made in advance, which decides which definition takes which argument, includes them.", "anchors": ["src/Argos/ArgumentIteratorImpl.cpp: process_argument, count_arguments, copy_remaining_arguments_to_parser_result", "src/Argos/ArgumentCounter.cpp", "include/Argos/ArgumentParser.hpp: ignore_undefined_arguments", "include/Argos/ParsedArguments.hpp: unprocessed_arguments, filter_parsed_arguments"]}
{"id": "C90", "title": "auto_exit decides whether the program ends, and nothing else", "statement": "Take one definition, one set of callbacks and one command line, and parse it with auto_exit(true) and with auto_exit(false). The same definitions are accepted. If the program is not ended, both calls have exactly the same outcome: result, values, messages, callbacks, exception. If auto_exit ends the program with the exit code for errors then without it parse() prints and calls the same and stores the same values, and either returns a result that has failed, from the top level to the command that was being read, or throws because a callback called error(). If it ends the program with the normal exit code then parse() returns a stopped result after the same messages, callbacks and values, with the same HELP or EXIT option as stop_option(). In both cases the result can only differ in that unprocessed_arguments() lists further arguments. Conversely, whatever parse() returns or throws without auto_exit, with it parse() does the same or ends the program in one of these ways.", "quantifier": "all accepted definitions, all callbacks, all settings, all command lines", "why_tests_cant": "A program that ends can not be observed by a test in the same process, so tests are run with auto_exit(false) and say nothing about the program that users run; the two must agree for every definition, callback and line.", "anchors": ["src/Argos/ArgumentIteratorImpl.cpp: process_option, error, parse", "src/Argos/ParsedArgumentsImpl.cpp: error", "include/Argos/ArgumentParser.hpp: auto_exit, normal_exit_code, error_exit_code"]}
{"id": "C91", "title": "case_insensitive(true) keeps the meaning of what is written as it was declared", "statement": "Take a definition that is accepted both with case_insensitive(false) and with case_insensitive(true), in which no flag is another flag followed by '=' and the names of sub-commands differ in more than case. A command line that is read to its end, with its flags written in full and its flags and commands spelled as they are declared, is accepted by both parsers or by neither, and if it is accepted then every option and every argument of every command has the same values, and the same arguments are left. This still holds if options are added or declared in another order at the same time. Both parsers have the same options, arguments and ids if no declared flag differs in case only from a generated one (-h, --help, --version and so on). Without these conditions it is false: of two commands Add and add the second can no longer be given, though the definition is not refused, and an option -H takes the place of the generated -h.", "quantifier": "all accepted definitions without interfering callbacks and with one sub-command at a time, all option styles, all such command lines; flags without the characters between 'Z' and 'a' or above 127", "why_tests_cant": "The flags are kept in a table that is sorted and searched in a different way with the setting; a test looks at few flags and few tables.", "anchors": ["src/Argos/CommandData.cpp: find_option, find_command, build_option_index, has_flag, add_help_option", "src/Argos/ParserData.cpp: add_version_option", "src/Argos/StringUtilities.cpp: are_equal_ci, is_less_ci", "include/Argos/ArgumentParser.hpp: case_insensitive"]}
{"id": "C92", "title": "What is only meant for the help text has no influence on parsing", "statement": "Take two definitions that differ only in help texts, other texts, sections, the visibility of options, arguments and commands, the words that name the arguments of options, the line width and the word splitting rules. Both are accepted or both are refused with the same exception. parse(), as a member of a const parser or not, and with a vector or argc and argv, ends in the same way for every command line: it returns the same values, unprocessed arguments and result codes for every command, or ends the program with the same code, or throws the same exception, after the same outputs and calls of callbacks. Iterators yield the same items and values however often next() is called. Programs that make the same calls of a parser, apart from those for the help text, get the same answers from all the others. It is false for a callback of the parser that looks at such a text, and for copy_from(), which refuses a text that exists already.", "quantifier": "all definitions, command lines, callbacks (those of the parser itself must not look at these texts) and programs of any number of calls except copy_from()", "why_tests_cant": "A test compares one definition with and without some text; the texts are part of the same structures that the parser copies, sorts and searches.", "anchors": ["src/Argos/ArgumentIteratorImpl.cpp", "src/Argos/CommandData.cpp: finish_initialization, build_option_index, find_option, set_internal_ids, add_help_option", "src/Argos/ArgumentCounter.cpp", "src/Argos/ParserData.cpp: finish_initialization", "src/Argos/ArgumentParser.cpp: parse, make_iterator, add, text, about, current_section, line_width, add_word_splitting_rule", "src/Argos/Option.cpp, src/Argos/Argument.cpp, src/Argos/Command.cpp: help, section, visibility, text"]}
{"id": "C93", "title": "What is only meant for parsing has no influence on help and error texts", "statement": "Take two definitions that are accepted and differ only in aliases, callbacks, operations, constants and initial values, in the types of options (as long as the same options show the help or end the parsing), in the version, in allowing multiple sub-commands, and in the settings auto_exit, allow_abbreviated_options, ignore_undefined_arguments, ignore_undefined_options and the exit codes. Then write_help_text() writes the same for every command and every console width, and so do the help option and every error message during parsing. Any number of calls that change such settings of a parser leave its help text as it is. It is false if the change makes the definition invalid: then write_help_text() throws instead.", "quantifier": "all definitions, console widths, paths of commands, messages and sequences of such calls", "why_tests_cant": "A test compares the help text of one definition before and after one change.", "anchors": ["src/Argos/HelpText.cpp: write_help_text, write_error_message, write_usage, write_argument_sections", "src/Argos/CommandData.cpp: finish_initialization, add_help_option", "src/Argos/ParserData.cpp: add_version_option", "src/Argos/ArgumentParser.cpp: write_help_text, auto_exit, allow_abbreviated_options, ignore_undefined_arguments"]}
{"id": "C94", "title": "Ignoring undefined options and arguments changes nothing until one is met", "statement": "Take a definition that is accepted, and the same one after ignore_undefined_options(true), ignore_undefined_arguments(true), or both. Then for every command line and whatever the callbacks do, either parse() is the same in every respect (values, result codes, unprocessed arguments, output, calls of callbacks, exception, exit code), or the parser without the setting ended with the message 'Unknown option' or 'Too many arguments' (whichever the setting is about) as the last thing it did, with a failure result in every command or the error exit code; in that case the parser with the setting printed and called the same things up to there. The same holds for every call of the iterator's next(): at the difference, the iterator with the setting gives an unknown item and prints and calls nothing. The settings do not influence which definitions are accepted.", "quantifier": "all definitions, callbacks, command lines, numbers of calls of next(), and both settings", "why_tests_cant": "A test compares one definition on a few lines; that the settings have no other effect is a statement about all of them.", "anchors": ["src/Argos/ArgumentIteratorImpl.cpp: process_option, process_argument, next, parse, error", "src/Argos/ArgumentParser.cpp: ignore_undefined_arguments, ignore_undefined_options"]}
{"id": "C95", "title": "set_exit_codes() decides about exit codes and nothing else", "statement": "Whatever exit codes are set, a definition is accepted or rejected alike, and for every command line and whatever the callbacks do, parse() and every call of the iterator's next() are the same in every respect (values, result codes, unprocessed arguments, output, calls of callbacks, exceptions, whether the program ends). If the program ends, then either an error message was the last thing done and the code is the one for errors, or an option that shows the help or ends the program was met and the code is the normal one.", "quantifier": "all definitions, pairs of exit codes, callbacks, command lines and numbers of calls of next()", "why_tests_cant": "A test ends the program with one pair of codes at one place; there are many places where the program can end.", "anchors": ["src/Argos/ArgumentParser.cpp: set_exit_codes", "src/Argos/ArgumentIteratorImpl.cpp: error, process_option", "src/Argos/ParsedArgumentsImpl.cpp: error"]}
{"id": "C96", "title": "Generated options are the same as options added by hand", "statement": "Take a parser with generate_help_option set, and the same one without it and without version(), to which the options are added by hand instead: last in every command that has no HELP option an option of type HELP with the help text 'Display this help text.' and the usual flags that are free (-h and --help; /? in SLASH style; -h or else -help in DASH style), if there are any, and before it in the top-level command, if a version was given and the flag is free, an option of type STOP with the flag --version (/VERSION, -version) and a callback that writes the name of the program and the version. Then both are accepted or rejected with the same exception, parse() gives the same and writes the same on every command line, and so does every call of the iterator's next().", "quantifier": "all definitions (any depth of sub-commands), styles, settings, console widths, command lines and numbers of calls of next()", "why_tests_cant": "A test looks at the generated options of a few definitions; which flags are free depends on all options of every command, in any letter case.", "anchors": ["src/Argos/CommandData.cpp: add_help_option, has_help_option, has_flag, finish_initialization", "src/Argos/ParserData.cpp: add_version_option, finish_initialization", "src/Argos/OptionData.cpp: validate_and_update", "src/Argos/ArgumentParser.cpp: generate_help_option, version"]}
