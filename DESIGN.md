# Formal model of jebreimo/Argos in Rocq

Plan (written before the proofs; the "Status" section is filled in as work goes on).

## Model

The sources in `/repo/src/Argos` are transcribed function by function into total Gallina functions, in files
that contain no proofs:

| file | models |
|---|---|
| `Base.v` | byte strings (`list ascii`), small list helpers |
| `MStrings.v` | `StringUtilities.cpp` |
| `MParseInt.v` | `ParseValue.cpp` (integers) with the C library's `strtol` family |
| `MOptIter.v` | `StandardOptionIterator.cpp`, `OptionIterator.cpp` |
| `MData.v` | `ArgumentData.hpp`, `OptionData.*`, `CommandData.*`, `ParserData.*`: definitions, validation, help and version options, ids, option index, lookup |
| `MCounter.v` | `ArgumentCounter.cpp` |
| `MValues.v` | `ParsedArgumentsImpl.cpp`, `ParsedArguments.cpp`, `ArgumentValue.cpp`, `ArgumentValues.cpp` |
| `MParser.v` | `ArgumentIteratorImpl.cpp`, `ArgumentIterator.cpp` |
| `MText.v` | `WordSplitter.cpp`, `TextWriter.cpp`, `TextFormatter.cpp` |
| `MHelp.v` | `HelpText.cpp` |
| `MApi.v` | `Argument.cpp`, `Option.cpp`, `Command.cpp`, `ArgumentParser.cpp`: every call that changes an object, parsing, iterators, help texts |
| `MResults.v` | the rest of `ParsedArguments.cpp` (views, `print`), value objects and their errors, floating point part of `ParseValue.cpp` |
| `MMemory.v` | the parser again, with the buffers of stored values and views into them |
| `MBuffer.v` | the tokenizers again, with their vectors in memory, spans, copies and destructors (`OptionIteratorWrapper.hpp`) |
| `MTextCall.v` | `HelpText.cpp` again, with texts that are callbacks (`TextSource.hpp`) |
| `MBuilder.v` | `ParsedArgumentsBuilder.cpp`: callbacks as programs |
| `MOwner.v` | the pointers and shared pointers of `ArgumentParser`, `ArgumentIterator(Impl)`, `ParsedArguments(Impl)`, `ArgumentValue(s)`, `ArgumentValueIterator` and the views: constructors, assignments, destructors and the members that make other objects; not what is in the objects |
| `MOutput.v` | `MParser.v` and `MHelp.v` together: the text that a call to `parse` writes to each stream |

The other files: `S*.v` are the specifications (nothing in them refers to helper functions of the model),
`P*.v` the property theorems with their examples, and the remaining ones are proofs. `Conformance.v` runs
the project's own test cases on the model (every REQUIRE of `tests/ArgosTest` that is about modelled code);
it proves no property, it is evidence that the transcription is faithful.

Conventions:

* Undefined behaviour (index out of range, `front()` of an empty container), C++ exceptions and `exit()` are
  explicit outcomes of the model, never silently replaced by a default.
* Loops without a structural argument take fuel; running out of fuel is an explicit outcome, and the
  termination property shows that enough fuel exists.
* Callbacks are arbitrary functions of an invocation number, the value and the current values (those for all
  options or arguments also of the option or argument), returning a list of value operations and the arguments to
  insert. An arbitrary function of the invocation number covers stateful callbacks.
* `std::sort` is modelled by insertion sort; C13 shows that any other sort gives the same lookups.
* `std::multimap` is modelled by a list of key/value pairs in key order.
* Unsigned 32/64 bit wrap-around is modelled only where a property is about it (saturating counts, integer
  conversion, `max_parts - 1`). Strings are assumed shorter than 2^64.

## Properties

Each property gets a theorem over the model whose statement uses a small specification that does not share
helper functions with the model. Where the code does not have the property, a `_refuted` theorem gives the
counterexample and the property is proved under the missing hypothesis.

| id | modelled by / proof method |
|---|---|
| C01 | both iterators with explicit out-of-range outcome; invariant by induction on operation sequences |
| C02, C03 | refinement of repeated `next` to a per-argument specification; induction on the argument list |
| C04 | one parser step on the four spellings, for every state in options mode |
| C05 | simulation between two parser runs |
| C06 | repeated `next_value` refines the identity; refuted for slash/dash style; line level by C71's readings |
| C07, C08 | `insert` and `remaining` against an abstraction of the unread part; C07 also for one parser step |
| C09-C12 | binary search over the sorted index refines a list specification (exists / unique prefix) |
| C13 | two sorted permutations of a list with distinct keys are equal |
| C14 | iff between the model of `validate_and_update` and a declarative predicate |
| C15 | invariant over sequences of `add` |
| C16 | case analysis on styles and flag sets |
| C17 | invariant of the id allocation loop |
| C18, C19 | refinement of the multimap to a function id -> list; induction on histories |
| C20 | binary search over sorted name triples refines membership |
| C21-C23 | `strtol` model against a declarative grammar; round trip by induction on digits |
| C24 | case analysis |
| C25 | induction on the string |
| C26-C29 | induction on the argument definitions; C29 refuted for look-ahead counters |
| C30 | decreasing measure on the tokenizer |
| C31-C38, C40 | invariants of the parser state over any number of steps |
| C39 | induction on argv |
| C41 | state machine of parser objects, induction over call histories |
| C42 | event trace of one step |
| C43 | simulation between look-ahead and execution; refuted without side conditions |
| C44-C46 | induction on strings |
| C47-C49 | model of the text classes; invariants over writes |
| C50 | invariant of one parser step, every outcome classified |
| C51, C52 | the indentation stack over whole texts; all exceptions of the formatter classified |
| C53-C57 | help text as a sequence of formatter calls, refined to a declarative layout |
| C58-C62 | state machines of the API objects, induction over call histories |
| C63, C64 | iterator runs simulate `parse` |
| C65 | from a declarative "in order" predicate to a run that ends in success |
| C66-C68 | printing and conversion against declarative grammars |
| C69 | relation between declared and finished definitions, by induction on the command tree |
| C70 | every help or error event is the last one of the run and belongs to the current command; composed with the layout of C53-C57 and the exact texts of C79 |
| C71 | a declarative reading of command lines (tokens, words, sub-commands); every reading is followed step by step by the parser; readings exist and are unique |
| C72 | induction on the reading of the first part |
| C73 | as C71 with a stack of commands: a declarative meaning, an invariant relating it to the parser's levels and their parents, decidability of its conditions for totality |
| C74 | C43's simulation, started in the state after an insertion; refuted for what was read before it, after a LAST_OPTION option and with several sub-commands |
| C75 | nested induction on commands; the keys of the texts stay distinct over all calls |
| C76 | a generic lemma on histories of calls, applied to each property of each object |
| C77 | the exact result of one callback (all operations up to the first failure), composed for two callbacks |
| C78 | a declarative, deterministic layout relation; the formatter's run on each token refines it (invariant on column, indentation and alignment state) |
| C79 | a relation for whole help and error texts built from that of C78; each writing function refines its part (state between calls: empty line, indentation stack); uniqueness by unique reading of texts |
| C80 | the parser with buffers (`MMemory.v`) simulates the parser of `MParser.v`; invariant: every stored value has a live buffer of its own |
| C81 | the tokenizers with vectors in memory and spans into them (`MBuffer.v`) simulate `MOptIter.v`; invariant: every iterator owns one block |
| C82 | `MTextCall.v` (the texts of `MHelp.v` with stateful, throwing callbacks): the calls by a trace logic, the text by simulation with callbacks that always return the same |
| C83 | `MOwner.v`: invariant: every reference count is the number of pointers to the block, in objects and in blocks; sub-commands are younger than their parents, so that no cycle keeps itself |
| C84 | the table of names maps a name to the least value id among its carriers (C20); the codes and stop options of all levels from the parser's invariant |
| C85 | induction over programs; each program is compiled to a function of the values it finds |
| C86 | the meaning of C71 is a history of changes; the history of one value depends only on the words that concern it |
| C87 | the reading of a line for one definition is translated, word by word, into one for the other; corresponding histories give the same texts |
| C88 | the proof of C71 for a relation that also has ignored arguments; such a derivation is turned into one for the line without them |
| C89 | the walk of C88 up to the first surplus argument, then a weaker invariant in which the counter is full; for the equality of outcomes, a simulation that holds unless the message is added |
| C90 | a relation between the two outcomes of a step (equal; exit against failure; exit against exception; exit against stop) that is kept by sequencing, then induction on the loop |
| C91 | the proof of C87 with a second parser that may fold case: a flag that is equal is equal after folding; completion by induction on the command tree |
| C92 | simulation: every function of the parser, and completion by induction on the command tree, commutes with erasing the texts; programs by induction on the list of calls |
| C93 | every function of the help text gives the same for a definition without the other members; completion by induction on the command tree |
| C94 | both parsers call the same functions in the same states; they differ only where an unknown option or a surplus argument has been read, and there the strict one stops; that events are only ever added is proved for every function of the parser |
| C95 | a relation between outcomes that sequencing preserves, for every function of the parser; an option that ends the program has been recorded before the normal code is used |
| C96 | completion by induction on the command tree: checking an option changes neither its flags nor its type, and turns the option added by hand into the generated one |

## What the model leaves out

* Per file, the head comment of each `M*.v` names its simplifications. In short: `int id` members and the
  getters and views that only hand a member back; text callbacks (a text source is the text it returns, the same
  at each call, except in `MTextCall.v`, whose C82 justifies this); pointers and shared pointers (a record carries its unique ids), except in `MOwner.v`; threads; memory allocation
  failure; failing streams; widths and text lengths beyond 2^32.
* `MParser.v` records *that* a help text or error message is written and for which command; `MHelp.v` says
  *what* is written; `MOutput.v` composes the two. What has been written before the formatter throws is not
  modelled.
* Lifetime of `string_view`s: `MMemory.v` models the buffers of stored values and the views into them; buffer
  numbers are never used again, and assigning to a string always releases the old buffer. `MBuffer.v` does the same
  for the tokenizers' vectors (inserting always moves the elements); `MOptIter.v`, where copying is the identity, is
  justified by C81.
* `ConsoleWidth.cpp` is a parameter (the width of the console); `Enums.cpp`, `ArgumentView.cpp`,
  `OptionView.cpp` and `CommandView.cpp` consist of getters.
* `strtof`, `strtod` and `strtold`: which texts they consume is modelled, rounding and range errors are a
  parameter.
* A `callback` may do everything that `CallbackArguments` offers, in the order output, value operations,
  exception or new arguments. `MBuilder.v` has callbacks that read and change in turns; C85 shows that each of them is
  such a function, unless it catches the exception of `error()` and goes on: those are outside of the other theorems.

## Trusted base

* Coq 8.16.1's kernel (`coqc`; `vm_compute` is used for concrete examples and for witnesses of `_refuted`
  theorems).
* The transcription of the C++ code into `Base.v` and `M*.v`, which is checked by reading (each definition cites
  the lines) and by `Conformance.v`.
* The behaviour of the C library functions stated in `MParseInt.v` and `MResults.v` (C11, "C" locale, LP64), and of
  `std::sort`, `std::lower_bound`, `std::multimap` and `std::string_view` as described above.
* Axioms: none. `Print Assumptions` follows every property theorem and prints "Closed under the global context"
  for each of them. (A listing of all axioms in loaded libraries shows seven from `Coq.ssr.ssrunder`, which is
  part of the standard library and is loaded by its tactics; no theorem depends on them.)

## How the theorems were tested

`seeded/LOG.jsonl` has one line per wrong program: a definition of the model was edited in a scratch copy as a
realistic bug would, everything was rebuilt, and the theorems whose proofs broke were compared with the claims that
had become false. Proofs that broke only in auxiliary lemmas were looked at by hand: where a claim was false and no
theorem *stated* it, a theorem was added or strengthened (field `tightened`). For entries with a field `scope` only
the files of the theorems named there were rebuilt; `failed` lists only theorems that were checked.

## Findings

Places where the code does not have the property one would expect. Each is a theorem `..._refuted` or a hypothesis
of the theorem named.

1. `p [A] [B]` (two optional arguments) rejects a single argument: a counter whose last arguments get none never
   counts as complete (C29, C65).
2. In slash and dash style an empty string is delivered after every argument that follows a LAST_OPTION option, and
   after an empty option value (C04, C06).
3. The case-insensitive comparison is not an order: a backquote and a letter are not less in either direction
   (C11, C12, C45).
4. The look-ahead that counts arguments treats `-` and the empty string as abbreviations, takes a value for options
   with operation CLEAR or NONE, and ignores EXIT options (C43, C65).
5. Mandatory options of the parents of a sub-command and of sub-commands before the last one are not checked; a
   mandatory option with operation NONE can never be satisfied (C33).
6. STOP and HELP in a sub-command leave the top-level result code NONE, or SUCCESS after a LAST_ARGUMENT option of
   an earlier sub-command; a sub-command that ends because the next one begins gets no result code (C32, C33).
7. The initial value of an option of a sub-command is ignored (C38).
8. Copying a parser (const `parse`) loses the version and the visibility of commands (C41).
9. Ignored unknown flags inside a group, and groups such as `-a-b`, are not reported as given (C05, C08, C35);
   `filter_parsed_arguments` can then lose arguments (C39).
10. `parse(argc, argv)` on a used-up parser and `Command::copy_from` of a used-up command dereference null (C58).
11. `copy_from` can combine arguments and sub-commands, and stays half done when it throws (C15, C59).
12. Unsigned conversion accepts negative numbers (C22).
13. A text that ends in a carriage return, or a line width of 1 or 2, makes the formatter throw (C52, C57).
14. An indentation change inside an aligned line is not undone (C51); the gap after a list marker or a long
    program name can get lost (C49, C54).
15. Word splitting rules that are not UTF-8 can lose text and make lines too long (C47, C49).
16. The full name of a nested sub-command lacks the names above its parent (C69).
17. The option style can be changed although sub-commands have options (C60).
18. `ArgumentIterator::parsed_arguments()` returns the results of the innermost sub-command (C63).
19. `print()` lists all options with operation NONE on one line (C66); `value(view)` names the view's item, not the
    one that supplied the value (C67).
20. Two items can share a name through an alias without being rejected (C17).
21. A callback can make `parse()` run forever by inserting arguments (C30).
22. If all sub-commands are hidden the usage shows `[]` (C55).
23. With a line width of 1 or 2 every parse error ends `parse()` with an exception about the width instead of a
    message (C70).
24. A LAST_OPTION option before the name of a sub-command has no effect on the arguments of the sub-command (C06).
25. After a LAST_ARGUMENT option of a sub-command control returns to the command above it, but the options of that
    command are no longer recognised (C73).
26. If a callback inserts arguments after some have been read, the ones that follow are distributed by the new number
    but those before by the old one: an argument can get more values than its maximum, or a mandatory one none, in a
    successful parse. After a LAST_OPTION option the new number is too small if arguments look like options, and the
    rest is rejected. With several sub-commands the name of the next one can become an argument (C74).
27. A text that ends with a lone list marker leaves the formatter in the middle of a list item: the next text is aligned
    with its second word (C78).
28. If the callback of an option or argument assigns to or clears the value it is called for, next() returns a view
    of released memory, and the callback for all options or arguments gets such a view (C80).
29. A callback of USAGE is called twice for each help text, and if it returns something else the second time a title
    can be left with nothing below it (C82).
30. An iterator over values keeps the results alive but not the list it iterates over, so `args.values("X").begin()`
    dangles at once. Default-constructed and moved-from results and values dereference null pointers (C83).
31. If an option of operation NONE has an initial value, every option of operation NONE has that value, also the
    generated help option (C84).
32. `--out` and `--out=` count as different flags: both can be declared, and the second one then takes the value in
    `--out=x` away from the first (C87).
33. With ignored unknown options, `-zzz` is listed three times among the unprocessed arguments (C88).
34. Two sub-commands with the same name, or with case_insensitive names that differ in case only, are not refused;
    the second one can not be given (C91).
