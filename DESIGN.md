# Formal model of k3DW/tok3n

Source read: `/repo` (C++20 header-only parser combinators).  Paths below are relative to
`/repo/include/k3/tok3n/detail/` unless they start with `README`, `examples` or `include`.
All theorems are in `rocq/theories/Prop*.v` and start with the id of their property.

## 1. Trusted base

* Coq 8.16.1's kernel (the gate re-checks with `coqchk`).
* Axioms: none.  Section 5 records what `Print Assumptions` says.
* The correspondence between the C++ text and the Gallina definitions.  Each definition of the model carries a
  comment with file and lines; section 3 lists what is simplified or left out.

## 2. How the code is modelled

| code | model file |
|---|---|
| C++ result types and values, default values, callables (`functions.h`, `apply.h`, `result.h`, `helpers.h` builder) | `Types.v` |
| outcomes of running code, spans as (block, offset, length) | `Outcome.v`, `Types.v` |
| `filter.h`, `helpers.h: compound_trait`, `type_traits.h: unwrap_if_single` | `Compound.v` |
| parser class templates as an inductive type, `result_for`, what compiles (`parser.h`, `parsers/*.h`) | `Parser.v` |
| `parse`/`lookahead` of every parser, `join_executor`, the four join specialisations | `Exec.v` |
| `result.h`, builders and results as objects that are moved, copied, default-constructed; every `parse`/`lookahead` again, on these | `Objects.v` |
| every `parse`/`lookahead` again, with user functions and constructors that read and change the program's state | `Stateful.v` |
| the same with a user `==` between elements that reads and changes the program's state and throws: `static_array::contains`, `span ==`, the elementary parsers and special joins again | `Compares.v` |
| `join.h` with MSVC and in constant evaluation | `Builds.v` |
| `helpers.h: emplace` where the alternative has another type and is constructed from the value | `ConvChoice.v` |
| `static_array.h`, `set_operations.h`: what they compute | `StaticArray.v` |
| the same, statement by statement: indices, sizes, writes | `ArrayCode.v` |
| `static_array.h:16-83`: deduction guides and constructors, what arguments denote | `ArrayArgs.v` |
| `span.h:182-229`: `input_value_t`, `input_constructible_for`, the deduction guides of `input_span` | `InputTypes.v` |
| `operators/*.h`, `basic.h` | `Operators.v` |
| `modifiers/*.h`, `aliases/*.h`, `operators/modifier.h`, `substitution.h` | `Modifiers.v` |
| `span.h` constructors with their overload resolution, `span_equal_to` | `SpanModel.v` |
| which overload or partial specialisation is used: deduction and partial ordering (language rules); the sets of `operators/*.h`, `optimizations/*.h`, `modifiers/sub.h` | `Overload.v`, `OverloadSets.v` |
| `examples/json/json.cpp` | `ExJson.v` |
| `examples/algebraic/{parser,evaluate,print}.h` | `ExAlgebraic.v` |

Specifications, independent of the evaluator:

| file | what |
|---|---|
| `Derive.v` | a parser read as a context-free grammar with values |
| `BigStep.v` | natural semantics: one rule per way a combinator can end; no fuel, builders or loops |
| `Peg.v` | parsing expression grammars over lists of elements |
| `Lang.v` | parsers as context-free grammars; when order and greed make no difference; `LL1.v`: a computable test of that |
| `Blame.v` | which part of a run made parse and lookahead disagree |
| `CustomConv.v` | custom.h:46, result.h:33-39 and the constructors of `std::optional`: which conversion a custom parser's result gets |
| `ExMain.v` | algebraic.cpp, json.cpp:106-142: the programs of the examples as functions of their literals; src/main.cpp:13-17: the parser and the literals |
| `Extend.v` | when a run looks at the end of its input |
| `Raises.v` | when a run comes to a throwing call or to a join of spans of different arrays |
| `Recur.v` | finding the types of custom parsers without `result_type` (custom.h:14-26, `parser_for` parser.h:76-87) while classes are incomplete |
| `Final.v` | a test for parsers whose successes never look at the end (specification side; no code of the library) |
| `Shorter.v` | runs of such parsers on an input without its last elements (specification side; no code of the library) |
| `JoinConv.v` | join.h over class types that convert to a span: views and owners |
| `Runs.v`, `Verdict.v` | vocabulary: running several parsers in a row; success and remaining only |
| `Join.v`, `Leaves.v`, `Lossless.v` | the spans inside a value, adjacency, parsers that keep their text |
| `ExprGrammar.v` | BNF and meaning of algebraic expressions |
| `JsonGrammar.v` | the grammar of RFC 8259 and the document a text spells |

`Mono.v` (fuel), `Typing.v`, `Sound.v`, `BigSound.v`, `BigComplete.v`, `Agree.v`, `Reloc.v`, `Term.v`, `Depth.v`, `Cost.v`, `CostRules.v`, `CostJson.v`, `CostAlgebraic.v`, `CostExpr.v`, `Throws.v`, `Names.v`,
`Shape.v`, `CharPeg.v`, `JsonPeg.v`, `JsonDoc.v`, `CompoundFacts.v`, `ChoiceIndex.v`, `Elems.v`, `Check.v`, `Grammar.v`, `OverloadFacts.v` are proofs between
these.  `Samples.v` is one concrete program; the `Example`s beside the theorems run parsers in it.

Key choices:

* **Memory.** A pointer is (block, offset); a span is (block, offset, length); memory maps a block to its list of
  elements.  Reading out of a block, `front()` of an empty span, `first`/`subspan`/advancing past the end, and
  subtracting pointers of different blocks are the distinct outcome `UB`.
* **Outcomes.** `Done result trace | UB | Exn e | OOF | Ill`: finished (with the trace of user callbacks invoked),
  undefined behaviour, exception thrown by a user callback, fuel exhausted, program ill-formed (would not compile).
* **Loops and recursion.** `run` is structural on fuel.  Fuel exhaustion is its own outcome, never confused with
  failure; fuel monotonicity is proved, so `evals E m p i o := exists fuel, run ... = o <> OOF` is a fuel-free,
  deterministic semantics, and termination is a theorem (C33), not an assumption.
* **Genericity.** Element type of the parser (`T`), element type of the input (`V`), `==` between them, user
  functions, user constructors, constants, custom parsers are all components of an environment record (`env`) over
  which every theorem quantifies.
* **Custom parsers** (`custom.h`) are numbered; the environment gives body, `result_type` and which of the three
  conversions of custom.h applies: same type, `result_type` from the optional itself (`ConvWhole`), or from its
  element (`ConvElem`).  They may be mutually recursive.
* **Compile-time computations** (`filter_with_index`, `index_lookup`, `sort_and_unique`, set operations, operator
  overloads, substitution) are ordinary Gallina functions transliterated from the template code.

## 3. Not modelled / simplified (see also the per-definition comments)

* Moves, copies and default construction of values are in `Objects.v` only, which C59 proves equal to the rest.  Not
  modelled: destruction, elements moved when a container grows, elided moves; `result<void>`'s default constructor, which
  leaves `_successful` uninitialised (result.h:72, 86; the library never calls it).  `Exec.v` and `Objects.v` assume that
  the operations compile; `Needs.v` (C68) says which ones a class must offer for that.  What the standard containers
  offer and ask for is taken from the C++20 standard, not from an implementation.
* When a vector reallocates (`Insert` in `Objects.v` is one new element), allocation failure, `constexpr` evaluation limits, size of stack frames
  (the number of nested calls is modelled: `drun` in `Depth.v`, which is proved to be the same program as `run`).
* User functions are pure functions of their arguments that return or throw; their calls are traced.  (`Stateful.v` drops
  this: there functions and constructors take and give a state of the program.  C73 says what carries over.  `Compares.v`
  also does so for `==` of elements, C81.  The conversion of a predicate's result to bool and constants stay independent of
  it in both.)
* `result.h`: `result` is the record (optional value, remaining); its reference-qualified accessors are one
  (told apart in `Objects.v`: `take` for `&&`, `deref` for the others).
* No conversions in `run` when a value is stored in a variant alternative of another type: such a program is `Ill`.
  `crun` (`ConvChoice.v`) performs one conversion there: the user's constructors, an optional from its value, a variant from one of its
  alternatives.  Not in either: element-wise conversions of tuples and pairs, combinations of two conversions, arithmetic conversions.
* `join` over user types that implicitly convert to a span (`std::string_view`, `std::string`) is `Ill` in `Exec.v`.  `JoinConv.v` models one call of `join_parser::parse` over such types (C80); what a parser around such a `join` does with the span is not modelled, nor are objects that lie inside other objects' own storage (small strings) at their real addresses: only that each owner's characters have a storage of their own.
* `join`'s pointer test is the run-time GCC/Clang branch (join.h:54-61).  `Builds.v` adds the MSVC branch and
  constant evaluation (C58 relates the three); `__builtin_constant_p(p - q)` is taken to hold exactly if p and q point
  into one object, and MSVC's `==` on pointers into different objects to have an arbitrary answer.
* Overload resolution: `Operators.v`, `Modifiers.v`, `Exec.v` have one Gallina `match` per overload set or set of
  partial specialisations; C57 derives these from the declarations and the language's rules.  The span constructors
  are ranked in `SpanModel.v`.  Represented by the outcome only: `unwrap_if_single` and which specialisation of
  `filter.h` is used (the recursion itself: C60); their alternatives differ in a trailing pack only (the standard's rule ignores it, compilers prefer the shorter
  list).  Constraints are not compared with each other (no set needs it).
* The types of arguments (`InputTypes.v`): no volatile types, arrays of unknown bound or functions; whether a class, const or
  not, is a contiguous range and of what is given, and so is which types compare.
* `static_array`'s arguments (`ArrayArgs.v`): integer, character and class types, pointers, arrays of const elements; no
  floating point, no enumerations; arguments are not constant expressions inside the constructor, so that narrowing goes by
  types; which types may be template arguments (structural types) is not modelled.
* Value types and the character types of names are in `ValueTypes.v` only (C61, C62); the rest of the model has one
  element type and one character type for names, which C61 shows is what every parser that exists has (value types) or
  what C62 assumes (names).
* Algebraic example: `double` is an arbitrary type with arbitrary operations; `strtod`-like conversion of the digits is
  exact rational arithmetic followed by a rounding function left open; `std::cout` is the list of printed pieces.
* JSON example: constructors of `number_type`, `std::string`, pairs are the environment's; what they do is left open.
* Test framework (`Framework.v`): a test function is the tree of its assertions, calls, try blocks, nested runs and
  exceptions in one run; the order of the unordered map is an arbitrary permutation; of CMake, the regular expression of
  `discover_tests.cmake` line by line and quoted arguments without variable references.  The build is the hash checks of
  the macros (specialisations declared, none defined twice) and the static assertions.
* Programs of the examples (`ExMain.v`): a literal is a memory block of its own, seen without its terminator (C45); how a
  double is written is left open; what an undefined or terminated program wrote before is left out.
* Not modelled: `tools`.  The assertions of the tests: section 7.

## 4. Properties: what is modelled and how it is proved

| id | how |
|---|---|
| C01, C02, C04, C34 | every run is a derivation (`Sound.v`, induction on fuel, one lemma per combinator); derivations are typed (`Typing.v`) and their leaves ordered (`Leaves.v`) |
| C03 | same invariant for "no UB"; "only the input is read" by comparing runs in two memories (`Reloc.v`). Refuted when a user function feeding a join returns a span of other storage |
| C05 | refuted in general by witnesses (filters, joins over dropped text); agreement of both modes by induction on fuel for parsers that parse nothing that rejects after success (`Agree.v`, `steadily_parsed`; what is only looked at does not count), decided for concrete grammars by `Check.v` |
| C06 | trace of a lookahead is empty and there is no exception: induction on fuel |
| C07, C08 | direct, against list-level specifications (`In`, prefix) |
| C09, C11, C13-C19, C23 | from the natural semantics: `evals_big` shows it equals the evaluator on all returning runs; each property is then one inversion, stated with `Runs.v`. C16 refuted for void element types in parse, proved for those where C05 applies |
| C10 | exact characterisation of the emitted index (`ChoiceIndex.v`); refuted with a witness; proved when no void alternative precedes a repeated type.  With conversions (`PropConvert.v`): `crun` agrees with `run` on every program `run` accepts, gives back the input on failure, and delivers the value converted to the type where it `lands` (an inductive description of the index computation that names no index); that is the own type exactly for `proper` alternatives; the choice compiles exactly if every alternative can be constructed there; witness of a wrong alternative without any void type |
| C12 | refuted with witnesses (void parts, and alternatives whose index is lost, are only looked at); proved for all others in sequences (C11) and choices (C10) |
| C20 | `try_join` against "non-empty leaves of the value are adjacent", by induction on values |
| C21 | lossless parsers tile their consumed text (induction on derivations); strict inequality for the gap |
| C22 | four fast paths against the general join by two-sided simulation |
| C24 | success/remaining equal where the plain combination returns; where it never returns (`+~p`, ...), the simplified parser's language is characterised and divergence proved |
| C25, C26 | case analysis of the operator overloads; verdict-level equivalences; C25 for parse refuted with the C10 witness, proved otherwise |
| C27, C28, C29 | list lemmas over an arbitrary strict total order (`StaticArray.v`); parser-level corollaries. C27 refuted when one input element equals two different literal elements |
| C30, C31, C36 | structural induction on parsers/modifiers. C30 refuted for modifiers starting with a raw `delimit` |
| C32 | simulation between a parser and its name-erased version (`Names.v`) |
| C33 | lexicographic induction (input length, rank, parser); divergence by induction on fuel; `C33_check` decides the hypotheses for a grammar |
| C35 | natural semantics; refuted for `result_type` constructible from the optional itself, whose exact behaviour is `C35_custom_whole` |
| C37 | binary relational invariant by induction on fuel (`Reloc.v`) |
| C38 | PEG relation over lists; soundness by induction on fuel, completeness by induction on the relation |
| C39 | termination check of C33 computed for the grammar; numbers through the PEG relation |
| C40, C42 | invariant on the trees (`Shape.v`), then structural induction on trees. C42 refuted from 205 nested brackets on |
| C41 | digits by induction; exponents refuted (`2e3` gives 8; large exponents terminate the program) |
| C43 | fuel monotonicity |
| C44 | natural semantics and C09 |
| C45, C46 | span constructors and comparison; refuted where NULs matter: the constructor for literals is never chosen |
| C47 | the trace invariant of `Throws.v` |
| C48, C49 | independent BNF and disambiguated meaning (`ExprGrammar.v`); soundness by induction on derivations, completeness through the PEG relation; ambiguity of the BNF resolved and shown unique |
| C50, C51 | RFC 8259 as an inductive relation between documents and texts (`JsonGrammar.v`), unambiguous; completeness through the PEG relation (`JsonPeg.v`), values by induction on derivations (`JsonDoc.v`). C50 refuted for raw control characters in strings, the only deviation |
| C52 | refinement of `StaticArray.v` by the statement-level loops, by induction on the arrays |
| C53 | as C33, with bounds; calls and rounds counted apart (`Depth.v`) |
| C54 | induction on the height of the parser; refuted for the JSON example by induction on the depth, texts of nested brackets |
| C55 | the same `step` run with a recorder (`Cost.v`: one more trace entry per call); rules that relate what is left and the number of calls (`CostRules.v`); induction on the height; JSON: 400 calls per character, by induction on the fuel with a bound on failures that does not count white space twice (`CostJson.v`); exponential lower bound for the algebraic example on `-1+(-1+(…` (`CostAlgebraic.v`): an operand that cannot be finished is read by the negated expression and again by the one around it; quadratic bound on expressions by induction on how the text is spelled, where nothing but blanks is read twice, and expressions that reach it (`CostExpr.v`). Counted: calls of parse, lookahead and user functions of runs that return; not: rounds of the specialised join loops |
| C56 | outline as a function of the expression (`PropPrint.v`), the printer's output related to it by induction on the reading of the object; decoding of the lines shown unique; texts compared without blanks. The expression now keeps its brackets (`ABracket`) |
| C57 | types as terms, templates as patterns; resolution computed for each combination of the heads the overloads distinguish, the rest by lemmas that a pattern cannot match other heads; `OverloadFacts.v`: deduction succeeds exactly on instances |
| C58 | `Builds.v`: `step` with join's test as a parameter; induction on the fuel with the order 'equal unless undefined', then C03; constant evaluation by induction on the list of spans |
| C59 | `Objects.v` logs every use of a value; simulation of `run` by induction on the fuel (`ObjectFacts.v`), and for any set of permitted uses closed under what the combinators do, the log stays inside it (`ObjectLog.v`); each claim is one such set; the exact uses of map, filter, maybe and the repetitions by computing one call and by induction on the rounds |
| C60 | `FilterTemplates.v`: filter.h with its one-type base cases, 64-bit indices and missing specialisations; induction on the list of types with the lists done so far as parameters, invariant 'the sequence is not shorter than the list' |
| C61 | `ValueTypes.v`: parsers with the element type on every basic parser; operators, modifiers and substitution with the constraints of each overload and each class template named, `None` = does not compile.  Induction on the parser: all types written in it are its `value_type`; injectivity of the map to untyped parsers at one value type; then each operation is total on equal value types and commutes with that map; modifiers by induction with their lists |
| C62 | refuted by a name of another character type around the named part; proved by transfer of C31 through C61 (one character type) and by induction on the parser (any) |
| C63 | the course of a test as a relation (`happens`), total and deterministic; induction on the tree with the current result last on the stack of results |
| C64 | invariant of the registry over the declarations; the order fixture-before-test follows from the static assertion and the uniqueness of fixture hashes, through any interleaving; refuted when only the hash of the fixture's name is declared |
| C65 | rotation and addition are injective in each argument; refuted by collisions |
| C66 | results of the selected tests by C63; refuted for a missing test; the static assertions cover every executed one |
| C67 | no position after the separator can be another separator, since every inner quote is preceded by a backslash; C64 and C66 for the commands |
| C68 | `Needs.v` lists for each parser what the body of `parse` names and computes what each type offers from its classes; each step of `Objects.v` stays inside the list of the parser (induction on the fuel, over the parsers whose `parse` is called); the sufficient conditions by induction on types; two witnesses in the sample environment |
| C69 | `Objects.v` marks the insertions into vectors; those named by `needs` come only from repetitions and delimits (C68_named); copies by C59; the specializations of join by unfolding; types by induction on parsers, values by typing (C34) |
| C70 | parsers with a hole (`ctx`, `plug`, `PropExchange.v`); `alike` and `looks_alike` are stated with `evals`/`says`; by induction on the context over the natural semantics `big`, for custom parsers by mutual induction on its derivations in the program with other bodies; that the holes are all places: `part`, an inductive relation of its own; substitution by name from the exchange, part by part |
| C71 | each combinator's lookahead characterised in terms of its parts' verdicts (`L_*`, `PropLaws.v`), the laws follow by case distinction and determinism; values and calls by inversion of `big`; non-laws by witnesses on the sample text |
| C72 | `denotes` (`PropArgs.v`) says without overload resolution what arguments denote; `make` (`ArrayArgs.v`) deduces with `Overload.v` and chooses a constructor; equivalence by cases on the number and types of arguments, induction on the rest |
| C73 | `Stateful.v` is `Exec.v` over a world; lookahead and functions that do not read the world by a relation between the two models kept by every combinator (`StatefulFacts.v`); the final world by `one_after_other` over the trace, with `called` saying what each callable does; safety by an invariant of every run for all worlds (`StatefulSafe.v`); termination as for C33 with fuel enough per world (`StatefulTerm.v`); two refutations by computation |
| C74 | `has_elements` (`PropInputTypes.v`) says without specialisations or guides what the elements of an object are; `input_value_t` and `deduced` (`InputTypes.v`) select with `Overload.v`; equivalences by cases on the type, after a lemma that types survive being written as terms |
| C75 | `lang` (`Lang.v`) reads a parser as a context-free grammar over lists of elements. A success consumes a word: induction on derivations. The converse under `clear`, a condition on languages only: induction on words, through PEGs (C38), with every part answering (C33). The LL(1) test is proved to imply `clear` (`LL1.v`) and applied to a recursive grammar and the JSON number |
| C76 | `overruled` says what a culprit is: a filter, join or converting custom parser whose verdict differs from its component's. Induction on the natural semantics (`Blame.v`): every rule either has such a culprit below it or the lookahead has the same rule. Solid joins (C05) cannot be culprits |
| C77 | `returned` (`CustomConv.v`) resolves the return in custom.h:46 among the constructors of `result` and then of `std::optional`; the theorems characterise its outcome by constructibility alone, and derive what the other theorems assume about custom parsers (`env_customs`) from it |
| C78 | `algebraic_main`, `json_main` (`ExMain.v`) put parse, print and evaluate together; the theorems say for which literals the programs return, are undefined or die, and what they write, in terms of the grammars and meanings of C48-C51 and C56; `…_as_written` are the instances for the literals in the files.  Of src/main.cpp, which has no observable behaviour, only a run is shown |
| C79 | `sees_end` (`Extend.v`) says, in terms of complete runs of the components (`gives`, `refuses`), when a run looked at the end of its input; `extend` (induction over the natural semantics) gives: it did, or the run on the longer input is the same; for runs that end by an exception or are undefined, the same from C82's relation (`halts_grow`).  With C03, the memory around the input may change as well.  `may_see` computes the condition for a given input; `C79_end_matters` shows runs that looked at the end and are answered differently |
| C80 | `try_join_c` (`JoinConv.v`) is `try_join` with the conversions; `seen` replaces each object by what it converts to and gives the same run, so that the outcome is that of `join_list_on` on the spans of `forms`, a specification that lists spans, views and owners with their places.  `own_storage` (different places, different storage) and `elsewhere` (no non-empty view lies in the storage of an owner of the same value) say what is assumed of memory; `cx_home` is an instance |
| C81 | `Compares.v` writes again what compares elements, over a world, and takes the rest from `Stateful.v`. If `==` answers without reading the state, its runs are those of `Exec.v` (`CompareFacts.v`). Safety and termination as for C73, over any comparison (`CompareSafe.v`, `CompareTerm.v`). What is compared and read: one induction over pairs of runs with a relation left open (`CompareReads.v`), used with `goes` (the state goes by comparisons literal/element and calls) and with equality of two runs that differ in memory outside the input and in `==` elsewhere. The order of comparisons of the three elementary parsers is given exactly. The special joins are related to their components loop by loop (`CompareJoins.v`). parse and lookahead: a relation between their computations kept by every allowed combinator (`CompareModes.v`). Three refutations by computation |
| C82 | `raises` and `overruns` (`PropRaises.v`) say in terms of complete runs of the components (`gives`, `refuses`, and `asks` of C79) when a run comes to a throwing call or a join of spans of different arrays. One direction by induction on fuel, for every environment (`run_halts`). Back: such a run, given enough fuel, ends that way or is ill-typed (`halts_near`), and `run_compiled` (`Sound.v`) excludes the latter for programs |
| C83 | `resolve` (`Recur.v`) instantiates `custom_parser_result_type` with the classes that are begun on a stack; `result_for`, `parse` and `lookahead` ask it for types. `knows` is the least fixed point (`C83_resolve`, by levels; `attempt` is monotone and depends on finitely many types). `C83_exact` compares it with a written condition: `before`, made of the customs outside `ignore` and `join` and of those parsed inside, has to be well-founded. `C83_not_found`: the condition `env_customs` used elsewhere holds of programs that the compiler refuses for this reason, so the other theorems speak about a few programs too many. Simplified: deduced return types of the parsers themselves are not put on the stack; a cycle among them passes through a custom parser, whose functions have declared types |
| C84 | `final` (`Final.v`) is computed from the grammar with beginnings (`firsts`), parsers that get nowhere on an input that begins with elements of `A` and then one of `B` (`quiet`), and a table of what follows each custom parser; `C84_final` by three inductions over the natural semantics (`firsts_ok`, `quiet_ok`, `final_ok`) with C79. Sufficient only: a parser that the test refuses may be final. `C84_json`, `C84_json_value` and `C84_json_number` are the test applied to the grammar of json.cpp, for every memory and all constructors, `C84_algebraic_number` to the numbers of the algebraic example. Its expressions are refused by the test: inside a negated one the operators of the outer expression are taken as possible followers |
| C85 | `cut` takes elements off the end (`Shorter.v`); `quick_cut`, `quiet_cut` and `final_cut`, by induction over the natural semantics, build the run on the shorter input from the run on the longer one, the contexts of the parts coming from `firsts_ok` on the shorter runs already built. `C85_consumed` and `C85_pieces` combine it with C84; `C85_not_early` with determinism. On a part that is too short the parser may fail or throw out of user code; `C85_json_stream` (with C39) shows that the JSON parsers fail there if the constructors do not throw |

The properties marked partial in `MANIFEST.json` are false of the code as stated: a `_refuted` theorem gives the
counterexample, a `_partial` one the exact part that holds.

## 5. Axioms reported by Print Assumptions

`Closed under the global context` for every theorem named in `MANIFEST.json`.

## 6. Wrong programs

`seeded/LOG.jsonl` lists edits of the model that imitate bugs, the claim broken, and what stopped proving.
Undetected edits led to new theorems (`theorems_tightened`).  `theorems_failed` names the lemmas whose proof script stopped
working; this shows that the edit is noticed, not by itself that every statement depending on them is false in the edited
model.  Where that was evaluated separately, the note says so.

## 7. The library's own tests, run on the model (tests, not proofs)

`ConformTests.v` holds 1451 assertions of `/repo/tests/char-tests` for the value type `char`, translated by a script
outside this repository; the vocabulary and the asserters applied to all samples are written by hand in `Conform.v`.
They support no property of the manifest; they are evidence that the model does what the code does.

* Every assertion is evaluated three times: as in the `static_assert`, at run time with GCC/Clang, at run time with MSVC
  (`==` on pointers into different literals taken as false).  What the real compilers do was not run.
* All hold, except at run time with GCC/Clang join_parser.cpp:288, 289, 294, 295: join subtracts pointers into different
  string literals, so the model says undefined where the tests expect a failure (`t_join_parser_252`, cf. C58).
* The choice and sequence asserters are also run on all pairs of samples, which the tests leave commented out.
* When every assertion is turned into a wrong one (other kind, family or remaining text: 1425; other value: 324 of the
  373 that have one), each of these is reported as broken.  This was done once, on a scratch copy.
* Left out: the assertions for `wchar_t` and `int` inputs (about two thirds of those on parsing); `value_type` (103); the
  four lists that mix `char` and `wchar_t` parsers, since the model has one element type per parser; the substitution
  asserts on types and names (12); constructibility from no parser or from a constant of another type (5); plain
  `ASSERT`s (3); `eps.of<value_type>` (1); that `eps | p` is deleted (part of the epsilon asserter); non-char-tests.
