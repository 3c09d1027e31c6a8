{"id": "C01", "title": "A failed parse gives back the untouched input", "statement": "Whenever P::parse(input) or P::lookahead(input) returns a result without a value, result.remaining() is exactly the span that was passed in: same data pointer, same size. This is what lets choice, maybe and the repetitions backtrack.", "quantifier": "every parser built from the library's combinators (any nesting, including recursive custom parsers and arbitrary user callbacks), every input span, both parse and lookahead", "why_tests_cant": "Tests sample a few parsers and strings; the combinators rely on this for every parser they are instantiated with, of which there are infinitely many.", "anchors": ["include/k3/tok3n/detail/parsers/*.h: parse, lookahead", "include/k3/tok3n/detail/helpers.h: compound_executor", "include/k3/tok3n/detail/optimizations/*.h"]}
{"id": "C02", "title": "What is consumed plus what remains is the input", "statement": "On success, remaining() is a tail of the input: it ends at the same address as the input and starts at or after the input's start, so the consumed elements followed by the remaining elements are exactly the input elements, and nothing is skipped or read twice between sub-parsers.", "quantifier": "every parser, every input span, both modes", "why_tests_cant": "A unit test checks one remaining() at a time; an off-by-one in one combinator only shows for some nesting and length.", "anchors": ["include/k3/tok3n/detail/parsers/basic_base.h: parse", "include/k3/tok3n/detail/parsers/*.h", "include/k3/tok3n/detail/optimizations/*.h"]}
{"id": "C03", "title": "Parsing never touches memory outside the input", "statement": "Running a parser on a valid span dereferences only elements of that span and forms no out-of-range pointer or span; provided the user callbacks only hand back spans taken from their arguments, no undefined behaviour is reached. (With a callback that returns a span of other storage inside join, the pointer subtraction in join is undefined behaviour.)", "quantifier": "every parser, every memory layout, every valid input span, every callback that returns only spans contained in its arguments", "why_tests_cant": "An out-of-bounds read by one element on a string literal hits the terminating NUL and passes the test.", "anchors": ["include/k3/tok3n/detail/parsers/basic_base.h", "include/k3/tok3n/detail/parsers/all_of.h: failure_condition", "include/k3/tok3n/detail/parsers/join.h: try_join", "include/k3/tok3n/detail/span.h: first, subspan, front"]}
{"id": "C04", "title": "Results are views into the consumed input", "statement": "Every non-empty span found anywhere inside a successful result lies inside the consumed part of the input (no copies, no dangling or foreign storage), and for parsers without user callbacks the spans appear in increasing, non-overlapping order.", "quantifier": "every parser, every input; callbacks restricted to those that only return sub-spans of their arguments", "why_tests_cant": "README promises 'no allocation took place'; tests compare contents, not addresses, and only on literals.", "anchors": ["README.md:47", "README.md:73", "include/k3/tok3n/detail/parsers/basic_base.h", "include/k3/tok3n/detail/parsers/*.h"]}
{"id": "C05", "title": "lookahead answers exactly 'can we parse this?'", "statement": "P::lookahead(input) has a value iff P::parse(input) has a value, with the same remaining(). (README: lookahead 'simply gives a boolean answer to the question Can we parse this?')", "quantifier": "every parser and input for the full statement; the provable part ranges over every parser that parses (not merely looks at) no filter, no join that can reject and no custom parser converting the whole optional", "why_tests_cant": "Tests even assert that lookahead and parse differ for join/filter in some cases, but cannot say where agreement is guaranteed.", "anchors": ["README.md:76", "include/k3/tok3n/detail/parsers/filter.h: lookahead", "include/k3/tok3n/detail/parsers/join.h: lookahead", "include/k3/tok3n/detail/parsers/*.h: lookahead"]}
{"id": "C06", "title": "lookahead and ignore never run user code", "statement": "lookahead, and anything under ignore, never invokes a map or filter function or a user constructor, so it cannot throw or have side effects.", "quantifier": "every parser, input and set of user callbacks", "why_tests_cant": "Absence of a call on all paths of all parsers cannot be sampled.", "anchors": ["include/k3/tok3n/detail/parsers/map.h: lookahead", "include/k3/tok3n/detail/parsers/filter.h: lookahead", "include/k3/tok3n/detail/parsers/ignore.h: parse"]}
{"id": "C07", "title": "Single-element parsers match exactly their set", "statement": "any_of succeeds iff the input is non-empty and its first element equals some element of the set; none_of iff non-empty and it equals none; anything iff non-empty. The value is the one-element span at the input's own address and exactly one element is consumed. A heterogeneous element comparison T==V is used as given.", "quantifier": "every element type and comparison, every set, every input", "why_tests_cant": "Character tests cannot cover user element types, all sets, and all inputs.", "anchors": ["include/k3/tok3n/detail/parsers/any_of.h: failure_condition", "include/k3/tok3n/detail/parsers/none_of.h: failure_condition", "include/k3/tok3n/detail/parsers/anything.h: failure_condition", "include/k3/tok3n/detail/parsers/basic_base.h"]}
{"id": "C08", "title": "all_of matches exactly its literal", "statement": "all_of succeeds iff the input starts with the literal, element by element; it then returns that prefix by address and leaves the rest. The empty literal always succeeds with an empty span.", "quantifier": "every literal, every input length including shorter than the literal", "why_tests_cant": "Boundary lengths and every mismatch position cannot be enumerated.", "anchors": ["include/k3/tok3n/detail/parsers/all_of.h: failure_condition", "include/k3/tok3n/detail/span.h: span_equal_to"]}
{"id": "C09", "title": "Choice is ordered and short-circuits", "statement": "A choice succeeds iff some alternative succeeds on the original input, it behaves as the first such alternative (same remaining; its value as in C10), later alternatives are not run, and if all fail the choice fails. Alternatives are tried with parse if their value is kept and with lookahead otherwise: the void ones, and those whose value is lost (C10).", "quantifier": "every list of alternatives and every input", "why_tests_cant": "The number and nesting of alternatives is unbounded.", "anchors": ["README.md:100", "include/k3/tok3n/detail/parsers/choice.h: parse, lookahead", "include/k3/tok3n/detail/helpers.h: compound_executor::execute"]}
{"id": "C10", "title": "A choice delivers the matched value in the alternative of its type", "statement": "When the i-th alternative of a choice matches with a value of type A, the result holds that value, in the variant alternative for A (or as the bare value when only one type occurs). Values of repeated types share one alternative. No value is converted to another type on the way, also where the types of two alternatives convert to each other.", "quantifier": "every list of alternative result types, with repetitions and void types in any positions", "why_tests_cant": "The tests use six type lists; the index computation goes wrong on other lists (a void or a repetition before the first occurrence of a later repeated type).", "anchors": ["include/k3/tok3n/detail/filter.h: index_lookup, filter_deduplicate_with_index", "include/k3/tok3n/detail/helpers.h: compound_trait, execute_element", "include/k3/tok3n/detail/parsers/choice.h", "include/k3/tok3n/detail/helpers.h: emplace"]}
{"id": "C11", "title": "Sequence runs every part in order and keeps exactly the non-void values", "statement": "A sequence succeeds iff its parts succeed one after another, each starting where the previous one stopped (a part that has no value is only looked at, see C12); the result is the tuple of the non-void values in order, the bare value if there is exactly one, and void if there is none. No tuple slot is left default-initialised.", "quantifier": "every list of parts and every input", "why_tests_cant": "Slot indices are computed at compile time for unboundedly many void/non-void patterns.", "anchors": ["include/k3/tok3n/detail/parsers/sequence.h: parse", "include/k3/tok3n/detail/filter.h: filter_with_index", "include/k3/tok3n/detail/helpers.h: get_assign"]}
{"id": "C12", "title": "A filter rejects wherever the parser is used", "statement": "If P is a filtered parser whose predicate rejects, then a sequence containing P does not succeed through P (the predicate is honoured inside compounds exactly as when P::parse is called directly).", "quantifier": "every filtered parser, void or not, in every sequence or choice", "why_tests_cant": "The filter tests only use non-void filtered parsers at top level; parts with void result are run with lookahead, which skips the predicate.", "anchors": ["include/k3/tok3n/detail/helpers.h: execute, execute_lookahead", "include/k3/tok3n/detail/parsers/filter.h"]}
{"id": "C13", "title": "maybe never fails and is the inner parser or nothing", "statement": "If p returns, so does ~p, and it succeeds: if p succeeds the value is engaged with p's value and p's remaining, otherwise it is disengaged and the remaining is the whole input. For a p without a value ~p has none.", "quantifier": "every inner parser and input", "why_tests_cant": "Relies on every inner parser restoring the input on failure.", "anchors": ["include/k3/tok3n/detail/parsers/maybe.h: parse, lookahead"]}
{"id": "C14", "title": "Repetition is greedy and maximal", "statement": "*p and +p apply p again and again from where the previous application stopped until p fails, collect the values in order, and stop exactly there. *p never fails; +p fails iff the first application fails.", "quantifier": "every inner parser, every number of iterations, every input on which the loop ends", "why_tests_cant": "Unbounded iteration counts.", "anchors": ["include/k3/tok3n/detail/parsers/one_or_more.h", "include/k3/tok3n/detail/parsers/zero_or_more.h"]}
{"id": "C15", "title": "exactly<N> is N applications or nothing", "statement": "p % exactly<N> succeeds iff p succeeds N times in a row; the array holds the N values in order; any earlier failure fails the whole and restores the input.", "quantifier": "every N > 0, every inner parser and input", "why_tests_cant": "Unbounded N.", "anchors": ["include/k3/tok3n/detail/parsers/exactly.h", "include/k3/tok3n/detail/modifiers/exactly.h"]}
{"id": "C16", "title": "delimit(d) is p >> *(ignore(d) >> p)", "statement": "p % delimit(d) succeeds/fails, and leaves the same remaining, as p >> *(ignore(d) >> p); its vector is the first value followed by the repeated ones; a trailing delimiter not followed by p is not consumed.", "quantifier": "every p, d and input", "why_tests_cant": "Equivalence of two programs on all inputs.", "anchors": ["README.md:151", "include/k3/tok3n/detail/parsers/delimit.h: parse, lookahead", "include/k3/tok3n/detail/modifiers/delimit.h"]}
{"id": "C17", "title": "delimit_keep keeps one delimiter between each two values", "statement": "On success the value vector is non-empty and the delimiter vector has exactly one element less; the i-th delimiter was parsed between the i-th and (i+1)-th value.", "quantifier": "every p, d and input", "why_tests_cant": "Unbounded element counts; examples/algebraic indexes the two vectors under this assumption.", "anchors": ["include/k3/tok3n/detail/parsers/delimit.h: parse", "include/k3/tok3n/detail/modifiers/delimit_keep.h", "examples/algebraic/evaluate.h: evaluate"]}
{"id": "C18", "title": "ignore drops the value and nothing else", "statement": "ignore(p) succeeds, fails and consumes exactly as p's lookahead and has no value; it contributes nothing to the result type of an enclosing sequence or choice, wherever it stands in it, nor to that of a repetition or delimit.", "quantifier": "every p and input", "why_tests_cant": "All inputs.", "anchors": ["include/k3/tok3n/detail/parsers/ignore.h", "include/k3/tok3n/detail/modifiers/ignore.h"]}
{"id": "C19", "title": "complete accepts only full matches", "statement": "complete(p) succeeds iff p succeeds and leaves nothing, with p's value and an empty remaining at the end of the input; otherwise it fails with the whole input.", "quantifier": "every p and input", "why_tests_cant": "All inputs.", "anchors": ["README.md:157", "include/k3/tok3n/detail/parsers/complete.h"]}
{"id": "C20", "title": "join succeeds exactly on contiguous output", "statement": "join(p) succeeds iff p succeeds and the non-empty spans in p's value (in order, through vectors, arrays, optionals and tuples) are each adjacent in memory to the next; the result is the single span covering them, and the empty span at the remaining position if all are empty. Its elements are the concatenation of the parts.", "quantifier": "every nesting of result containers, every list of spans in one array", "why_tests_cant": "Unbounded nesting and arbitrary address patterns.", "anchors": ["include/k3/tok3n/detail/parsers/join.h: join_executor::try_join, parse"]}
{"id": "C21", "title": "join of a lossless parser is the consumed text, join over a gap never succeeds", "statement": "If p contains nothing that drops text (no ignore, no map, no discarded delimiter, no default-valued alternative), join(p) succeeds whenever p does and returns exactly the consumed input. And join(x >> ignore(y) >> z) with non-empty x, y and z matches never succeeds.", "quantifier": "every such parser and input", "why_tests_cant": "README claim quantified over all inputs.", "anchors": ["README.md:128", "README.md:147", "include/k3/tok3n/detail/parsers/join.h"]}
{"id": "C22", "title": "The join fast paths are equivalent to the general join", "statement": "The specialised join parsers over exactly/maybe/+/* of any_of, none_of and all_of return the same value (same address and length), same remaining and same success as the general join over the same parser, in parse and lookahead.", "quantifier": "every basic parser, every N, every input", "why_tests_cant": "Two implementations must agree everywhere, including empty literals and zero matches.", "anchors": ["include/k3/tok3n/detail/optimizations/join_exactly_basic.h", "include/k3/tok3n/detail/optimizations/join_maybe_basic.h", "include/k3/tok3n/detail/optimizations/join_one_or_more_basic.h", "include/k3/tok3n/detail/optimizations/join_zero_or_more_basic.h", "include/k3/tok3n/detail/parsers/join.h"]}
{"id": "C23", "title": "map and filter call the function exactly once, on the parsed value", "statement": "map<f>(p) succeeds iff p does, f is invoked exactly once with p's value (no argument for void; unpacked for apply), its return value is the result; filter<f>(p) succeeds iff p does and f(value) is true, passing the value through; on failure of p nothing is invoked; constant/defaulted ignore the value; exceptions thrown by f escape unchanged.", "quantifier": "every p, every function, every input", "why_tests_cant": "Call counts over all paths.", "anchors": ["include/k3/tok3n/detail/parsers/map.h: parse", "include/k3/tok3n/detail/parsers/filter.h: parse", "include/k3/tok3n/detail/functions.h", "include/k3/tok3n/detail/aliases/*.h"]}
{"id": "C24", "title": "The ~ + * rewrites do not change what is recognised", "statement": "Each simplification done by operator~, + and * (~~p=~p, ~+p=*p, ~*p=*p, +~p=*p, ++p=+p, +*p=*p, *~p=*p, *+p=*p, **p=*p) gives a parser with the same success and remaining as the unsimplified combination on every input where the latter terminates.", "quantifier": "every p and input", "why_tests_cant": "Program equivalence.", "anchors": ["include/k3/tok3n/detail/operators/maybe.h", "include/k3/tok3n/detail/operators/one_or_more.h", "include/k3/tok3n/detail/operators/zero_or_more.h"]}
{"id": "C25", "title": "operator| flattening, merging and deduplication preserve meaning", "statement": "p | q recognises as 'p, else q': flattening of nested choices, dropping of equal operands and merging of single-element parsers never change success or remaining; | is associative and idempotent in this sense.", "quantifier": "every p, q, r and input", "why_tests_cant": "Program equivalence over all operand shapes (including none_of/any_of merging).", "anchors": ["include/k3/tok3n/detail/operators/choice.h: choice_operator"]}
{"id": "C26", "title": "operator>> flattening and literal merging preserve meaning", "statement": "p >> q recognises as 'p then q': flattening of nested sequences and merging of adjacent literals never change success or remaining; >> is associative in this sense, and under join the merged literal and the pair of literals give the same span.", "quantifier": "every p, q, r and input", "why_tests_cant": "Program equivalence; the result types differ so tests cannot compare them directly.", "anchors": ["include/k3/tok3n/detail/operators/sequence.h: sequence_operator", "include/k3/tok3n/detail/static_array.h: operator+"]}
{"id": "C27", "title": "Merging any_of/none_of is the right set algebra", "statement": "any|any, none|none, any|none and none|any produce a single parser that accepts an element iff one of the operands does, and whose set is again sorted without duplicates (so the parser type is well-formed).", "quantifier": "every pair of sorted sets over every totally ordered element type; inputs of any type none of whose elements equals two different elements of the literals (which holds when == on the input is equality with the literal's elements)", "why_tests_cant": "All sets, all merge interleavings.", "anchors": ["include/k3/tok3n/detail/set_operations.h: set_operation", "include/k3/tok3n/detail/operators/choice.h"]}
{"id": "C28", "title": "Literal sets may be written in any order with repetitions", "statement": "any<arr> and none<arr> accept exactly the elements of arr resp. all others, whatever the order and multiplicity in the literal; the normalised array is strictly sorted, and two literals with the same elements give the same parser.", "quantifier": "every literal over every totally ordered element type and every correct sort", "why_tests_cant": "All permutations and multiplicities.", "anchors": ["include/k3/tok3n/detail/static_array.h: sort_and_unique, is_sorted_and_uniqued, contains", "include/k3/tok3n/basic.h"]}
{"id": "C29", "title": "operator! is complement", "statement": "For single-element parsers, on every non-empty input exactly one of p and !p succeeds, and !!p is p.", "quantifier": "every any_of/none_of parser and every input", "why_tests_cant": "All inputs.", "anchors": ["include/k3/tok3n/detail/operators/not.h"]}
{"id": "C30", "title": "Modifiers compose", "statement": "p % m equals m(p); (p % m1) % m2 equals p % (m1 % m2); % on modifiers is associative however multi-modifiers nest.", "quantifier": "every parser and all modifiers (including multi, sub, delimit, name)", "why_tests_cant": "Infinitely many modifier chains.", "anchors": ["README.md:108", "README.md:164-167", "include/k3/tok3n/detail/operators/modifier.h", "include/k3/tok3n/detail/modifiers/multi.h"]}
{"id": "C31", "title": "Substitution hits exactly the named parsers", "statement": "p % sub(name<n> = m) applies m to every inner parser named n, innermost first, leaves everything else unchanged (identity if n does not occur), leaves no parser named n when m adds none, and p % sub(s1, s2) is p % sub(s1) % sub(s2).", "quantifier": "every parser, name and modifier", "why_tests_cant": "All nestings; the tests only substitute at the top level.", "anchors": ["README.md:159-162", "include/k3/tok3n/detail/modifiers/sub.h: substitute_one, substitute"]}
{"id": "C32", "title": "Names have no effect on parsing", "statement": "Adding or removing names anywhere in a parser changes no result: same success, value, remaining and callback calls on every input.", "quantifier": "every parser and input", "why_tests_cant": "Names disable template specialisations (join fast paths), so this is not syntactic.", "anchors": ["README.md:158", "include/k3/tok3n/detail/parsers/named.h", "include/k3/tok3n/detail/optimizations/*.h"]}
{"id": "C33", "title": "Parsing terminates for well-formed grammars and only loops on non-consuming repetition or left recursion", "statement": "If no repetition body can succeed without consuming and no custom parser can reach itself without consuming, then parse and lookahead terminate on every input. A repetition whose body succeeds without consuming never returns.", "quantifier": "every grammar satisfying the syntactic condition (including mutually recursive custom parsers), every input", "why_tests_cant": "Termination on all inputs.", "anchors": ["include/k3/tok3n/detail/parsers/one_or_more.h", "include/k3/tok3n/detail/parsers/zero_or_more.h", "include/k3/tok3n/detail/parsers/delimit.h", "include/k3/tok3n/detail/parsers/custom.h"]}
{"id": "C34", "title": "The value always has the advertised shape", "statement": "A successful parse returns a value of exactly the type result_for: arrays have N elements, tuples one slot per non-void part, variants hold a value of the alternative they claim, void results carry no value; a parser that type-checks never reaches an ill-formed operation.", "quantifier": "every well-formed parser and input", "why_tests_cant": "C++ checks static types, not that e.g. every slot was actually written.", "anchors": ["include/k3/tok3n/detail/helpers.h", "include/k3/tok3n/detail/parsers/*.h: result_for"]}
{"id": "C35", "title": "A custom parser is its get_parser()", "statement": "Parsing with a custom parser gives the same success, remaining and (converted) value as parsing with get_parser(); recursion is plain unfolding. (False where result_type can be constructed from the optional itself: then there is always a value.)", "quantifier": "every family of mutually recursive custom parsers and every input", "why_tests_cant": "Unbounded recursion depth.", "anchors": ["include/k3/tok3n/detail/parsers/custom.h"]}
{"id": "C36", "title": "Redundant modifiers are recognised, others are not", "statement": "ignore, complete and join applied to a parser already of that kind return it unchanged and applied to any other parser wrap it: the family tags of different parser kinds are distinct (although some tag names are permuted in the source).", "quantifier": "every parser", "why_tests_cant": "All parsers.", "anchors": ["include/k3/tok3n/detail/parser.h: parser_family", "include/k3/tok3n/detail/modifiers/ignore.h", "include/k3/tok3n/detail/modifiers/complete.h", "include/k3/tok3n/detail/modifiers/join.h"]}
{"id": "C37", "title": "Parsing depends only on the elements, not on where they are stored", "statement": "Two inputs with equal elements at different addresses give results of the same success and shape, whose spans and remaining are at the same relative positions.", "quantifier": "every parser whose callbacks do not inspect addresses, every pair of inputs with equal contents", "why_tests_cant": "All placements; join compares addresses.", "anchors": ["include/k3/tok3n/detail/parsers/join.h: try_join", "include/k3/tok3n/detail/parsers/basic_base.h"]}
{"id": "C38", "title": "Recognition is PEG recognition", "statement": "lookahead recognises exactly the parsing-expression-grammar meaning of the parser over the list of input elements (ordered choice, greedy repetition, no backtracking into a succeeded part).", "quantifier": "every parser and input; both directions", "why_tests_cant": "Equivalence with an independent semantics on all inputs.", "anchors": ["include/k3/tok3n/detail/parsers/*.h: lookahead"]}
{"id": "C39", "title": "The JSON example terminates on every input and its numbers are JSON numbers", "statement": "For every byte string the JSON example's parser terminates without undefined behaviour, and its number parser consumes the longest prefix of the form -?int frac? exp?, failing iff there is none.", "quantifier": "every input string", "why_tests_cant": "All inputs.", "anchors": ["examples/json/json.cpp"]}
{"id": "C40", "title": "The algebraic example never evaluates a malformed tree", "statement": "For every input accepted by the algebraic parser, evaluate never dereferences an empty vector and never reaches the default branch of the operator switch; the parser terminates on every input.", "quantifier": "every input string", "why_tests_cant": "All inputs.", "anchors": ["examples/algebraic/parser.h", "examples/algebraic/evaluate.h: evaluate"]}
{"id": "C41", "title": "The algebraic example evaluates numbers by their decimal meaning", "statement": "A number literal evaluates to the decimal number it denotes (digits, fraction, power-of-ten exponent), and never aborts.", "quantifier": "every number literal", "why_tests_cant": "All literals.", "anchors": ["examples/algebraic/evaluate.h: evaluate(number::result_type)"]}
{"id": "C42", "title": "Printing a parsed expression stays in bounds", "statement": "print on any parsed expression reads only inside its tab buffer and the two vectors.", "quantifier": "every parsed expression, any nesting depth", "why_tests_cant": "Unbounded depth.", "anchors": ["examples/algebraic/print.h: get_tabs, print"]}
{"id": "C43", "title": "Parsing is deterministic and total over fuel", "statement": "A parse has at most one outcome: evaluating longer never changes an outcome that was reached.", "quantifier": "every parser, input and amount of work", "why_tests_cant": "All executions.", "anchors": ["include/k3/tok3n/detail/parsers/*.h"]}
{"id": "C44", "title": "p | eps always succeeds", "statement": "p | eps never fails: it gives p's result if p succeeds, and if p fails, the default value of the result type with nothing consumed. (A p without a value is looked at.)", "quantifier": "every p and input", "why_tests_cant": "All inputs.", "anchors": ["include/k3/tok3n/detail/operators/epsilon.h", "include/k3/tok3n/detail/parsers/epsilon.h", "include/k3/tok3n/detail/helpers.h: result_builder"]}
{"id": "C45", "title": "A range is parsed in full", "statement": "parse(range) sees every element of the contiguous range it is given.", "quantifier": "every range: containers, character arrays, string literals, character pointers", "why_tests_cant": "Embedded NULs and unterminated const arrays are not in the tests.", "anchors": ["include/k3/tok3n/detail/span.h: span constructors, input_span"]}
{"id": "C46", "title": "Span comparison is element-wise", "statement": "span == span holds iff both have the same length and equal elements position by position; span == literal compares with the literal.", "quantifier": "every pair of spans and literal contents", "why_tests_cant": "Embedded NULs, all lengths.", "anchors": ["include/k3/tok3n/detail/span.h: span_equal_to"]}
{"id": "C47", "title": "Only user functions throw", "statement": "An exception escaping from parse was thrown, unchanged, by the function of a map or filter or the converting constructor of a custom parser reachable from the parser; lookahead lets no exception escape.", "quantifier": "every parser, environment and input", "why_tests_cant": "All parsers, functions and inputs.", "anchors": ["include/k3/tok3n/detail/parsers/map.h", "include/k3/tok3n/detail/parsers/filter.h", "include/k3/tok3n/detail/parsers/custom.h"]}
{"id": "C48", "title": "The algebraic example computes what its text says", "statement": "evaluate applied to a parsed input gives the value of the expression its text spells: + - * / group to the left, ^ to the right, * / before + -, ^ before * /, brackets first, and a minus sign before an expression negates everything to its right up to the closing bracket or the end. A text spells one expression.", "quantifier": "every text in the language, every floating-point arithmetic", "why_tests_cant": "Arbitrary nesting and length of expressions.", "anchors": ["examples/algebraic/parser.h", "examples/algebraic/evaluate.h"]}
{"id": "C49", "title": "The algebraic example accepts its documented grammar", "statement": "The input parser, in parse and in lookahead, succeeds exactly on the texts generated by the grammar in the comment at the top of the file, and refuses all others.", "quantifier": "every input", "why_tests_cant": "All texts, infinitely many.", "anchors": ["examples/algebraic/parser.h: comment and get_parser functions"]}
{"id": "C50", "title": "The JSON example accepts exactly JSON", "statement": "JsonValue, JsonObject and JsonArray, in parse and in lookahead, consume the longest prefix of the input that is a JSON text of their kind according to RFC 8259 and fail if there is none; a whole input is accepted exactly if it is a JSON text.", "quantifier": "every input, every behaviour of the constructors called", "why_tests_cant": "All texts of any nesting and length.", "anchors": ["examples/json/json.cpp:12-102"]}
{"id": "C51", "title": "The JSON example delivers the document the text spells", "statement": "What JsonValue, JsonObject and JsonArray deliver is the object for the one document that the consumed text spells: the members and elements in order, each name with its own value, the parts of each number, the variant alternative that fits the kind of value. Escape sequences are delivered as they are spelled. A text spells one document.", "quantifier": "every input, every behaviour of the constructors called", "why_tests_cant": "All texts of any nesting and length.", "anchors": ["examples/json/json.cpp:12-102"]}
{"id": "C52", "title": "The compile-time arrays behind the literals are in bounds and compute the right arrays", "statement": "static_array and the set operations, statement by statement (index arithmetic, sizes computed in advance, element-wise writes), never access an element outside their arrays, and compute: the literal without its terminator, concatenation, equality, membership, strictly increasing, the sorted array without repetitions, and union, intersection and both differences of increasing arrays.", "quantifier": "every element type with a strict total order and every array; in bounds for any comparison", "why_tests_cant": "Arrays of all lengths over all element types.", "anchors": ["include/k3/tok3n/detail/static_array.h", "include/k3/tok3n/detail/set_operations.h"]}
{"id": "C53", "title": "Nesting of calls and rounds of loops are at most linear in the input", "statement": "Where C33 makes parsing terminate, calls of parse/lookahead nest at most K*(n+1) deep and every loop runs at most n+2 rounds on an input of n elements, K depending on the parser alone.", "quantifier": "every parser meeting the hypotheses of C33, every input, parse and lookahead", "why_tests_cant": "A bound on all inputs of all lengths.", "anchors": ["include/k3/tok3n/detail/parsers/"]}
{"id": "C54", "title": "The depth of the call stack does not depend on the input", "statement": "However long or deeply nested the input: calls of parse/lookahead nest at most as deep as a number fixed by the parser, so that no input exhausts the stack.", "quantifier": "every parser, every input, parse and lookahead", "why_tests_cant": "A bound on all inputs of all lengths.", "anchors": ["include/k3/tok3n/detail/parsers/", "include/k3/tok3n/detail/parsers/custom.h:35-55", "examples/json/json.cpp:75-102"]}
{"id": "C55", "title": "The number of calls is bounded by a polynomial in the length of the input", "statement": "A call of parse or lookahead that returns has made, itself and all calls below it together, at most a number of calls of parse, lookahead and user functions that is polynomial in the number of elements, the polynomial fixed by the parser; in particular no short input keeps the example programs busy for long.", "quantifier": "every parser meeting the hypotheses of C33, every input, parse and lookahead", "why_tests_cant": "A bound on all inputs of all lengths; the inputs that cost exponentially many calls are ill-formed ones nobody has in a test suite.", "anchors": ["include/k3/tok3n/detail/parsers/", "examples/json/json.cpp:41-102", "examples/algebraic/parser.h:85-118"]}
{"id": "C56", "title": "The algebraic example prints what was parsed", "statement": "print writes the outline of the expression that the text spells: one block per expression, term, factor and power term, tabs as deep as the nesting, operators between their operands, numbers as in the text with a small exponent letter. Two inputs give the same output exactly when they differ only in blanks and the case of exponent letters. Output is complete for every expression with at most 204 nested brackets and negations; from 205 on the tab buffer is overrun (C42).", "quantifier": "every accepted input, every pair of accepted inputs", "why_tests_cant": "All expressions of all shapes; equality of outputs over all pairs.", "anchors": ["examples/algebraic/print.h", "examples/algebraic/parser.h"]}
{"id": "C57", "title": "Operator expressions resolve to one overload", "statement": "For all operands, the calls of | >> ~ + * ! % have exactly one best overload under the language's rules of template argument deduction and partial ordering (never an ambiguity), and the type returned is the one the operator is documented to return: sets merged, choices and sequences flattened, P | P collapsed, repetitions simplified, modifiers concatenated. eps | P is deleted, ! exists exactly for any_of and none_of, % exactly where the modifier can be applied. Likewise join_parser and substitute_one never have two equally good partial specialisations, and the one chosen is the one for the operand's form.", "quantifier": "every pair of parsers, every pair of operands of %, every substitution", "why_tests_cant": "The set of operand types is infinite, and an ambiguity is a compile error only for the combination that nobody wrote.", "anchors": ["include/k3/tok3n/detail/operators/choice.h", "include/k3/tok3n/detail/operators/sequence.h", "include/k3/tok3n/detail/operators/maybe.h", "include/k3/tok3n/detail/operators/one_or_more.h", "include/k3/tok3n/detail/operators/zero_or_more.h", "include/k3/tok3n/detail/operators/not.h", "include/k3/tok3n/detail/operators/epsilon.h", "include/k3/tok3n/detail/operators/modifier.h", "include/k3/tok3n/detail/optimizations", "include/k3/tok3n/detail/modifiers/sub.h"]}
{"id": "C58", "title": "join behaves the same with every compiler and at compile time", "statement": "The test whether two spans are adjacent is written three times, for MSVC, for GCC and Clang at run time, and for constant evaluation. A call that is defined with GCC or Clang at run time has the same outcome (result, rest, calls of user code, exception) in the other two; a compiled parser whose functions below a join hand back only (parts of) spans they were given has the same outcome, or loops forever, in all three. In a constant expression join succeeds exactly if the non-empty spans tile one range of one object, whatever objects they point into.", "quantifier": "every parser, every input, every answer of the implementation to comparisons of pointers into different objects", "why_tests_cant": "Each test run uses one compiler; the tests' static_asserts and run-time checks each see one branch.", "anchors": ["include/k3/tok3n/detail/parsers/join.h:41-76"]}
{"id": "C59", "title": "Values are moved once, copied only where they must be, and default-constructed only where documented", "statement": "Parsing moves result values through builders, results and calls of user functions. No call, finished or not, reads a value that has been moved away or dereferences a result without a value, so its outcome is the one computed without any moves. Lookahead creates, moves and shows no values. A value is copied only if its type cannot be moved from or move-assigned, or as the constant of constant<value>. A value is default-constructed only as an empty container, as the value of a sequence, choice or exactly parser, or by the function `defaulted`; parsers without these four need no default constructor of a user type; a sequence or exactly parser default-constructs its value before it parses anything. Moving a value out of a result, or building a result, can be done once: a second attempt is an error. map hands its part's value over as an rvalue once, filter shows it, maybe moves it into its optional once, a repetition moves each element into its vector once.", "quantifier": "every parser, input, environment of user code, and choice of which types are move-constructible and move-assignable", "why_tests_cant": "A use after move is silent with the trivially copyable spans that almost all tests use as values; tests see one parser and one type each.", "anchors": ["include/k3/tok3n/detail/helpers.h:11-200", "include/k3/tok3n/detail/result.h", "include/k3/tok3n/detail/parsers", "include/k3/tok3n/detail/functions.h"]}
{"id": "C60", "title": "The index templates of filter.h compute the types and positions used by choice and sequence", "statement": "For every non-empty list of result types shorter than 2^64 - 1, filter_out_void and filter_out_void_deduplicate, instantiated template by template with std::size_t indices, are well-formed (index_lookup always finds enough indices), give the list of types and the index sequence that the model of choice and sequence uses when static_cast<size_t>(-1) is read as 'no index', and nest exactly as many instantiations as there are types. For the empty list they are ill-formed.", "quantifier": "every list of types", "why_tests_cant": "Tests instantiate a few short lists; that no instantiation lacks a specialisation and that no real index collides with -1 concerns all lists.", "anchors": ["include/k3/tok3n/detail/filter.h:12-130", "include/k3/tok3n/detail/helpers.h:158"]}
{"id": "C61", "title": "A parser has one value type", "statement": "A parser type exists iff its sets are sorted without repetition, its counts are not zero, and only one element type is written in it; that element type is its value_type. p | q, p >> q, delimit and delimit_keep compile iff both operands have the same value type, and then give the parser the model without value types gives, with that value type; p | eps, ~, +, *, ! keep the value type. Whatever a modifier, composed modifier or substitution makes of a parser has that parser's value type. With one value type and one character type of names throughout, a modifier compiles iff it does in the model without value types, with the same outcome. An input can be given to a parser iff its elements can be compared with the value type, and then it can be given to every part that the parser calls, through custom parsers too.", "quantifier": "every parser, modifier, element type and assignment of value types to custom parsers whose get_parser() has the declared value type", "why_tests_cant": "That an expression does not compile is tested for a few pairs of samples; that no composition of modifiers and substitutions produces a mixed parser concerns all of them.", "anchors": ["include/k3/tok3n/detail/parser.h:62-95", "include/k3/tok3n/detail/operators", "include/k3/tok3n/detail/modifiers", "include/k3/tok3n/detail/parsers/custom.h:30-57", "include/k3/tok3n/detail/static_array.h:87-88"]}
{"id": "C62", "title": "A substitution reaches every parser of its name", "statement": "After p % sub(name<n> = m), with m a modifier that gives nothing the name n, no part of the parser is named n, whatever character types the other names in it are written in.", "quantifier": "every parser, name, modifier and assignment of character types to names", "why_tests_cant": "Tests use names of one character type.", "anchors": ["include/k3/tok3n/detail/modifiers/sub.h:16-40", "include/k3/tok3n/detail/static_array.h:135-142"]}
{"id": "C63", "title": "The result of a test is made of its own assertions", "statement": "The result that Test::run gives for a test that raises no exception has the test's name, counts exactly the assertions executed in it and in the functions it calls (not those of tests run inside it), and holds exactly one error for each of them that was false, in order, with its message and place; a false assertion ends only the function it is written in. Afterwards, and also when an exception leaves the test, _current_result and the results of the tests around it are as they were.", "quantifier": "every test function (finite tree of assertions, calls, try blocks, nested runs and exceptions) and every state of the framework", "why_tests_cant": "The framework's own behaviour is not tested at all in the project; nesting and exceptions are unbounded.", "anchors": ["tests/framework/src/Test.cpp:9-18", "tests/framework/src/TestResult.cpp:53-73", "tests/framework/include/framework/Assert.h:17-22", "tests/framework/include/framework/TestResult.h:39-58"]}
{"id": "C64", "title": "A program that builds registers every test that it declares", "statement": "In every program of FIXTURE and TEST declarations that compiles and links, in whatever order the static members of its translation units are initialised, main is reached, and the runner then holds exactly the declared fixtures and, under the fixture each one names, exactly the declared tests with their own functions: none is dropped by emplace, none replaced, none added twice.", "quantifier": "every program (list of translation units) and every interleaving of their initialisation", "why_tests_cant": "The order of initialisation between translation units is up to the implementation, and a dropped test does not show in a test run.", "anchors": ["tests/framework/include/framework/Test.h:43-56", "tests/framework/include/framework/Fixture.h:44-57", "tests/framework/src/Runner.cpp:11-27", "tests/framework/src/Fixture.cpp:9-12", "tests/framework/include/framework/Hash.h:9-22"]}
{"id": "C65", "title": "Different tests have different hashes", "statement": "test_hash of fixture and test name is different for any two tests that differ in the name of the fixture or of the test, so that declaring both builds.", "quantifier": "every pair of names, char signed or not", "why_tests_cant": "There are infinitely many names.", "anchors": ["tests/framework/include/framework/Hash.h:9-22", "tests/framework/include/framework/Test.h:43-56"]}
{"id": "C66", "title": "The exit status and the report tell whether the tests that were asked for passed", "statement": "Runner::exec asked for all tests, those of a fixture, or one test, returns EXIT_SUCCESS iff the tests asked for exist and every assertion executed in them was true, returns EXIT_FAILURE iff one asked for does not exist or one fails and none raises an exception, and is terminated iff one raises an exception. It prints 'All tests passed.' or the number of tests that failed and then every assertion that failed. Unless DISABLE_STATIC_ASSERT is defined no test of a program that builds fails.", "quantifier": "every runner that registration can produce, every command line, every order of the unordered map", "why_tests_cant": "The framework is not tested; the claim is about all sets of tests.", "anchors": ["tests/framework/src/Runner.cpp:29-155", "tests/framework/src/Fixture.cpp:14-42", "tests/framework/src/TestResult.cpp:9-51", "tests/framework/src/Error.cpp:8-36", "tests/framework/include/framework/Assert.h:7-22"]}
{"id": "C67", "title": "CTest runs every test", "statement": "`list <file>` writes one line per registered test; the regular expression of discover_tests.cmake splits each line between the two quoted names, whatever characters other than line breaks the names have; for names without line breaks, $ and @ the commands are exactly `run <fixture> <test>` for each declared test, once, with the names as declared; all of them succeed iff running without arguments does.", "quantifier": "every program that builds and whose tests name fixtures of their translation unit, every order of the unordered map", "why_tests_cant": "Names with quotes, backslashes or ' - ' do not occur in the project's tests.", "anchors": ["tests/framework/src/Fixture.cpp:44-55", "tests/framework/src/Runner.cpp:123-149", "tests/discover_tests.cmake:11-17"]}
{"id": "C68", "title": "What parse asks of the classes of values", "statement": "For every parser there is a list of operations on value types (default construction, move and copy construction, move and copy assignment) that its parse names, read off the parser's type; if the classes offer them, no run of parse on any input performs an operation that is not offered, and lookahead asks for nothing. Classes that are default-constructible, move-constructible and move-assignable suffice for every parser whose constants are copyable. Move-constructible classes suffice for parsers without sequence, exactly, repetition, delimit, constant and defaulted whose choices have several value types of which the first is default-constructible. The parsers with a builder default-construct their value in every call. For one class, exactly: maybe asks for a move constructor; exactly and a tuple for a default constructor, an assignment and a move or copy constructor; repetitions and delimit for a move constructor and an assignment; complete, map and filter for a move or copy constructor; a choice with a span for a move constructor, and for a default constructor if the class comes first. What is asked is more than what is done: the order of the alternatives of a choice decides whether parse can be instantiated for a class without default constructor, and a repetition asks for an assignment that no run performs.", "quantifier": "every parser, input, environment of user code, and assignment of the five special operations to the user's classes", "why_tests_cant": "The tests instantiate parse with spans, standard containers of them and a few regular classes; a missing operation is a compile error for the user's own class, and no test can range over classes.", "anchors": ["include/k3/tok3n/detail/helpers.h:11-97", "include/k3/tok3n/detail/helpers.h:145-199", "include/k3/tok3n/detail/result.h:22-39", "include/k3/tok3n/detail/parsers"]}
{"id": "C69", "title": "Which parsers need memory", "statement": "No allocation takes place in the library other than by a repetition or delimit whose parse is called: in every run a vector grows only in the parse of a zero_or_more, one_or_more or delimit that has values and is called as such (not looked at, not replaced by a specialization of join); if none is called, the classes can be moved and no function returns a constant, then no run performs an operation that may allocate (growing a vector or copying). A repetition that delivers n values grew its vector at least n times. The specializations of join (maybe, exactly, +, * of a set or literal) construct one span and nothing else. Whether the type of a parser's value contains a vector can be read off the parser (repetitions, passed on by all but join and ignore), and a parser that hands out no vector delivers values that own no memory, so they can be constexpr variables; nevertheless a general join allocates on the way.", "quantifier": "every parser, input, environment of user code, and assignment of special operations to the user's classes", "why_tests_cant": "The README's 'No allocation took place' is a claim about runs; the tests compare values, which look the same whether or not a vector was allocated on the way.", "anchors": ["README.md:73", "include/k3/tok3n/detail/helpers.h:62-97", "include/k3/tok3n/detail/optimizations", "include/k3/tok3n/detail/parsers"]}
{"id": "C70", "title": "Equal parts can be exchanged", "statement": "If two parsers have the same result type and return the same values, remaining inputs and calls of user functions on every input in both modes, then so do any two parsers that differ only in that one is used where the other was, however deep; and if two parsers have the same success and remaining input in lookahead on every input, so do any two compound parsers (that compile in lookahead) that differ only there. Every part of a parser is such a place, and replacing all occurrences of parsers by alike ones at once (substitution by name) gives a parser that is alike. In a grammar with custom parsers, if every get_parser() is replaced by one that is alike before and after, every parser of the program returns what it returned, recursive rules included. Lookahead agreement alone does not suffice for parse.", "quantifier": "every environment of user code, every surrounding parser, every input, every set of mutually recursive custom parsers", "why_tests_cant": "Refactoring a grammar is a claim about all surroundings and all inputs; tests compare chosen parsers on chosen inputs.", "anchors": ["include/k3/tok3n/detail/parsers", "include/k3/tok3n/detail/parsers/custom.h", "include/k3/tok3n/detail/helpers.h"]}
{"id": "C71", "title": "Laws for rewriting grammars", "statement": "For recognition (lookahead, and parse when the value is ignored), on every input, for all parts that have a result type: a common beginning factors out of a choice, (a>>b)|(a>>c) = a>>(b|c); an alternative that refuses wherever all earlier ones refuse can be removed (a repeated one, one after an alternative that never refuses, a literal after a literal it begins with); neighbouring alternatives of which one always refuses may change places; epsilon is neutral in a sequence; *p = ~(p>>*p), +p = p>>*p, ~p = p|epsilon, exactly<1> = p, exactly<n+k> = exactly<n> >> exactly<k>, delimit(p,d) = p>>*(d>>p); complete moves to the last part of a sequence; a literal splits into a sequence, a set into a choice. With values and calls: named adds nothing, complete and ignore are idempotent and commute, ignoring a sequence is ignoring its parts. A common end of alternatives and complete of a choice transfer successes one way only; overlapping alternatives do not commute.", "quantifier": "every environment of user code, all parts, all inputs", "why_tests_cant": "The laws are equalities of parsers on all inputs for all parts; tests instantiate both.", "anchors": ["include/k3/tok3n/detail/parsers"]}
{"id": "C72", "title": "What the arguments of static_array denote", "statement": "The argument of a parser template (any_of, all_of, ...) and the arguments of static_array(...) compile to an array if and only if the following gives one, and to that: a literal (array of characters) denotes its characters but the last, of their type; a single static_array itself; a single other array a pointer to its first element; a single other value itself; several arguments the first one passed by value and the others converted to its type, where a conversion must not narrow. So a literal, zeros included, equals the same characters written one by one; there are as many elements as arguments; the first argument decides the type. Not so: an array of characters without terminator loses its last element; arguments whose constraint is met and whose values fit can fail to compile, depending on their order.", "quantifier": "all argument lists over all types (integer, character and class types, pointers, arrays, static_arrays), all values", "why_tests_cant": "Template arguments are fixed at compile time; the tests instantiate a few of them, and what does not compile cannot be a test.", "anchors": ["include/k3/tok3n/detail/static_array.h:16-83"]}
{"id": "C73", "title": "User functions with state", "statement": "Let the user's functions and constructors read and change the program's state in any way. Lookahead, and parsing what is ignored, neither read nor change it and answer as if there were none. If the functions' answers do not depend on the state, every parse has the same outcome as with pure functions. The state after a parse that returns (with success or refusal) is the one the calls in its trace leave when made in order, each beginning in the state the one before left; without calls it is unchanged. After an exception it is the one left by some calls that returned and then the call that threw. Outcome and final state are determined by parser, input and initial state. In every state a compiling parser on a valid input has no undefined behaviour: a refusal gives the input back, a success leaves a rest of it, the value has the declared type, and if the functions return only spans of their arguments, its spans lie in what was consumed. If repetition bodies consume and there is no left recursion, every call ends in every state whatever the functions answer. Not so: that a refused parse, or an alternative that is given up, leaves the state as it was; that the same call answers the same the next time.", "quantifier": "all parsers, inputs, states, types of state, functions and constructors over the state", "why_tests_cant": "The tests' functions have no state; that the set of states and functions is arbitrary, and that no state brings undefined behaviour or a loop, is beyond any finite number of runs.", "anchors": ["include/k3/tok3n/detail/parsers/map.h:27-60", "include/k3/tok3n/detail/parsers/filter.h:29-55", "include/k3/tok3n/detail/parsers/custom.h:41-47", "include/k3/tok3n/detail/helpers.h:145-199"]}
{"id": "C74", "title": "Which arguments parse takes, and what their elements are", "statement": "input_value_t<R> is the element type of the argument whatever references and consts are around it: an array's element, an input_span's, a contiguous range's, or the character of a pointer to constant characters. A call parse(e) compiles if and only if the object has such elements, they compare with the parser's value type, and the object as it is (const or not) is a range; then the input is a span of the elements of the object as it is. For everything but a class that is a different range when const, these are the elements the results are typed with; the parts of a parser, called with the input_span made of the argument, see the same elements. A call is dropped from overload resolution if the elements do not compare or if a non-const rvalue has no elements. Not so: that an argument without elements is always just refused (a const one or an lvalue ends the compilation); that what the deduction guides take the constraint takes (char* is not taken); that a satisfied constraint means the call compiles (const object of a class that is a range only when not const).", "quantifier": "all types of arguments (named types, pointers, arrays, input_spans, const or not, references), value categories, value types, classes and comparisons", "why_tests_cant": "The tests pass literals, string_views and a few containers; which specialisation and which guide is used for other types, and what does not compile, is not tested.", "anchors": ["include/k3/tok3n/detail/span.h:182-229", "include/k3/tok3n/detail/type_traits.h:11-23", "include/k3/tok3n/detail/parsers/basic_base.h:28-45"]}
{"id": "C75", "title": "Parsers as context-free grammars: where order and greed make no difference", "statement": "Read a parser as a context-free grammar: | as union, >> as concatenation, the repetitions without greed, actions left out. Whatever a parser successfully consumes is a word of its grammar, in both modes (in parse mode if no custom parser builds its result from the optional), whatever its actions do. Where no alternative begins what a later one followed by an allowed continuation can be, no repeated or optional part begins an allowed continuation, and nothing runs forever: a word followed by an allowed continuation is recognised, exactly that word is consumed, no other beginning of the text followed by an allowed continuation is a word, and complete(p) accepts exactly the words of the grammar; in parse mode too if nothing rejects after success, unless user code throws. Text without a beginning in the grammar is refused by every parser that returns. The LL(1) conditions, a finite computation, imply the condition; the number parser of the JSON example satisfies them. Not so in general: a word of the grammar can be refused because of the order of | or because of greed, and a custom parser built from the optional succeeds without a word.", "quantifier": "all parsers including recursive custom ones, all environments, inputs, continuations", "why_tests_cant": "A statement about every word of an infinite language and every grammar satisfying the condition; tests try finitely many texts and grammars.", "anchors": ["include/k3/tok3n/detail/parsers/choice.h:1-70", "include/k3/tok3n/detail/parsers/sequence.h:1-71", "include/k3/tok3n/detail/parsers/maybe.h:1-56", "include/k3/tok3n/detail/parsers/zero_or_more.h:1-65", "include/k3/tok3n/detail/parsers/one_or_more.h:1-76", "include/k3/tok3n/detail/parsers/delimit.h:1-106", "examples/json/json.cpp:23-35"]}
{"id": "C76", "title": "Whenever parse and lookahead disagree, a filter, a join or a converting custom parser overruled its component in that run", "statement": "For every parser: if a parse returns, then the lookahead on the same input returns the same verdict and the same remaining input, or some filter, join or custom parser whose result is constructed from the optional, one that is parsed (not merely looked at) when the parser is parsed, overruled the verdict of its own component in that very run: at a position of that input, with calls that are among the calls of that run. If the joins keep their text together and no custom parser is built from the optional, the culprit is a filter whose function was called in that run and answered no; if every filter function called in the run answered yes, there is no difference. If nothing that is parsed goes on after a failure (no choice, optional, repetition, delimiting) then filters and joins only make the parser stricter: what the parse accepts the lookahead accepts with the same remaining input. An overruling part does not always make a difference, and with something that goes on after failure a filter can make a parser accept what its lookahead refuses.", "quantifier": "all parsers including recursive custom ones, all environments, all inputs", "why_tests_cant": "A statement about every disagreement of every parser on every input; tests only see the parsers and inputs they contain.", "anchors": ["include/k3/tok3n/detail/modifiers/filter.h:1-23", "include/k3/tok3n/detail/parsers/filter.h:1-64", "include/k3/tok3n/detail/parsers/join.h:1-154", "include/k3/tok3n/detail/parsers/custom.h:1-58", "include/k3/tok3n/detail/parser.h:1-95"]}
{"id": "C77", "title": "Which constructors turn get_parser()'s result into the custom parser's: when the verdict is kept, and when a custom parser can never fail", "statement": "A custom parser returns result<T2> of get_parser()'s parser as result<T>, T being its result_type. By overload resolution among the constructors of result and, in them, of std::optional: nothing happens if the types are the same; the optional itself is handed to T if T can be made from an rvalue optional<T2>; otherwise the value inside is converted if T can be made from T2 and neither can be made from nor is converted from any form of optional<T2>; everything else, and void on exactly one side, does not compile; there is never a tie. Where bool is T the outcome depends on the library: without the change of LWG issue 3836 bool is made from the optional. In a program that follows these rules, a custom parser whose type cannot be made from the optional has the verdict and the remaining input of get_parser(); one whose type can, bool among them, never fails: what get_parser() refuses becomes a success that consumes nothing.", "quantifier": "all pairs of types, all relations of constructibility and convertibility between types, all programs and inputs", "why_tests_cant": "The tests declare one custom parser whose result_type is an integer made in a map; the claim is about every declared type and what it can be made from.", "anchors": ["include/k3/tok3n/detail/parsers/custom.h:12-58", "include/k3/tok3n/detail/result.h:14-88"]}
{"id": "C78", "title": "What the programs of the examples do, as functions of their literals", "statement": "Whatever its four literals are, the program of the algebraic example comes to one end. It returns exactly when the last three literals are expressions with values and the first either is no expression or has a value and nests no deeper than 204; then it writes the outline and the value of the first (or Parse failure.) and the three values. It has undefined behaviour exactly when the first nests deeper than 204, or one of the others is no expression ([*] of an empty result) and all before it goes well. As written, for all doubles whose from_chars reads a digit, it writes the outline of 4^(2+4*6)+1*3, its value, ((1+2)+3)+4, ((1+2)-3)+4 and 3^(3^3). The program of the JSON example writes nothing if its document starts with an object, the message if not, and ends abnormally only by an exception of a constructor; as written it writes nothing.", "quantifier": "all texts of the literals, all arithmetics of double, all constructors of the JSON types", "why_tests_cant": "The examples are not tested; running them shows one combination of literals and one arithmetic.", "anchors": ["examples/algebraic/algebraic.cpp:9-27", "examples/json/json.cpp:106-142", "src/main.cpp:8-18"]}
{"id": "C79", "title": "An answer that did not look at the end of the input is final", "statement": "If parse or lookahead returns on an input, then either its run looked at the end of the input - any_of, none_of or anything found no element, all_of found fewer elements than it has, all equal to the first of its own, or complete asked whether elements are left - or on every input that starts with the same elements it returns the same value (or the same failure) with the same calls of user code in the same order, and what remains is what remained with the further elements after it. If parse ends by an exception of user code or is undefined without looking at the end, so it does on every such input. So where a prefix and the whole input are answered differently, the run on the prefix looked at its end. A run that looked at the end may be answered differently: a repetition, complete, and an alternative that was cut off.", "quantifier": "all parsers, programs, inputs and continuations of the input, whatever else is in memory", "why_tests_cant": "The tests give whole inputs; none compares the answers for an input and for its continuations, of which there are infinitely many.", "anchors": ["include/k3/tok3n/detail/parsers/basic_base.h:29-53", "include/k3/tok3n/detail/parsers/all_of.h:26-30", "include/k3/tok3n/detail/parsers/any_of.h:28-32", "include/k3/tok3n/detail/parsers/none_of.h", "include/k3/tok3n/detail/parsers/anything.h:25-29", "include/k3/tok3n/detail/parsers/complete.h:21-45"]}
{"id": "C80", "title": "join over values that own their characters never delivers a usable span", "statement": "join over spans, and over objects of classes that convert implicitly to a span, in vectors, arrays, optionals and tuples: at run time with GCC or Clang, if nothing but empty spans are among them the result is an empty span where the input goes on; if the non-empty ones lie side by side, their union; otherwise the first that does not continue those before it makes join fail if it lies in the same storage and its behaviour undefined if not. In a constant expression (and with MSVC, if pointers into different storage are unequal) it fails in the last case. If some object owns its non-empty text, as a std::string does, join is undefined, fails, or delivers a span of that object's own text, which is gone when parse returns. If no object owns non-empty text, a span that is delivered is still there. Over values without such objects the outcome is the one of C58.", "quantifier": "all values of all joinable types, all components, all inputs, the three builds", "why_tests_cant": "The tests join spans of the input only; a dangling result is not seen by comparing it within the same expression or in a constant expression that would not compile.", "anchors": ["include/k3/tok3n/detail/parsers/join.h:23-145", "include/k3/tok3n/detail/span.h:25-34", "include/k3/tok3n/detail/span.h:64-73"]}
{"id": "C81", "title": "Comparing elements is user code", "statement": "Let == between an element of a literal and an element of the input read and change the program's state in any way and throw, as well as the functions and constructors. If the answers do not depend on the state and == does not throw, every parse and lookahead has the same outcome as with pure functions. In every state a compiling parser on a valid input has no undefined behaviour, a refusal gives the input back, a success leaves a rest of it, and the value has the declared type with its spans in what was consumed. If repetition bodies consume and there is no left recursion every call ends, whatever == answers. == is asked only about an element of a literal in the grammar (an argument of any_of, none_of or all_of) and an element of the input: with any other == elsewhere and any other memory around the input all goes the same. The state changes only by such comparisons and, when parsing, by the calls in the trace; an exception is that of a comparison or, when parsing, of a call. any_of and none_of ask the elements of the literal in order about the first element of the input up to the first that is equal; all_of asks pairwise in order up to the first that is unequal, and nothing if the input is too short. join of exactly, maybe, one_or_more and zero_or_more of one of these three makes the comparisons its component makes. Where no filter, no other join and no custom parser made from the optional itself occurs, and functions and constructors neither throw nor change the state, parse and lookahead begun in the same state make the same comparisons: same verdict, rest, exception and final state. Not so: that lookahead leaves the state and cannot throw; that parse accepts what lookahead accepted just before; that a refused alternative leaves the state, or that p | p is p.", "quantifier": "all parsers, inputs, states, types of state, element types, comparisons, functions and constructors over the state", "why_tests_cant": "The == of the element types in the tests has no effects; no finite number of runs covers arbitrary comparisons and states.", "anchors": ["include/k3/tok3n/detail/static_array.h:50-57", "include/k3/tok3n/detail/span.h:122-138", "include/k3/tok3n/detail/parsers/basic_base.h:29-53", "include/k3/tok3n/detail/parsers/any_of.h:28-32", "include/k3/tok3n/detail/parsers/none_of.h:28-32", "include/k3/tok3n/detail/parsers/all_of.h:26-30"]}
{"id": "C82", "title": "Where exceptions and undefined behaviour come from, exactly", "statement": "parse lets an exception out exactly if it comes to user code that throws it: the function of a map or filter called on what its component gave, or the converting constructor called on the result of the body of a custom parser - of the parser itself or of a component that the run asks for (an alternative after those that failed, a part after those that succeeded, a further round of a repetition, a delimiter, the body of a custom parser). parse is undefined exactly if it comes to a join whose component gave non-empty spans side by side in one array and then one in another array. Every other run that ends returns success or gives the input back; these outcomes exclude one another, and lookahead has neither exceptions nor undefined behaviour.", "quantifier": "every parser that compiles, every program, every valid input", "why_tests_cant": "The tests' functions do not throw, and no finite number of runs shows that nothing else throws or is undefined.", "anchors": ["include/k3/tok3n/detail/parsers/map.h", "include/k3/tok3n/detail/parsers/filter.h", "include/k3/tok3n/detail/parsers/custom.h", "include/k3/tok3n/detail/parsers/join.h:41-76", "include/k3/tok3n/detail/parsers/choice.h", "include/k3/tok3n/detail/parsers/sequence.h"]}
{"id": "C83", "title": "Which recursive custom parsers need a result_type", "statement": "The result type of a custom parser without result_type is found by the compiler exactly if it is not needed, directly or through other custom parsers without result_type, to find itself. Needed are the types of the custom parsers written in the body outside ignore and join, those parsed (not only looked at) inside a join or a map, and those that are parts of a choice or a sequence anywhere. Recursion under ignore alone needs no result_type; every cycle of custom parsers written outside ignore and join needs one. The type found is unique, does not depend on where the compiler starts, instantiations are nested at most as deep as there are custom parsers, and the bodies then compile with that type.", "quantifier": "every set of custom parsers, every choice of which of them declare result_type", "why_tests_cant": "The tests have a few fixed custom parsers; a program refused by the compiler cannot be a test case of the framework.", "anchors": ["include/k3/tok3n/detail/parsers/custom.h:14-56", "include/k3/tok3n/detail/parser.h:76-87", "include/k3/tok3n/detail/parsers/choice.h", "include/k3/tok3n/detail/parsers/sequence.h", "include/k3/tok3n/detail/parsers/ignore.h", "include/k3/tok3n/detail/parsers/join.h"]}
{"id": "C84", "title": "Parsers whose successes are final", "statement": "There is a test, on the grammar alone, for parsers whose successful runs never look at the end of the input provided that what they leave begins in a given way (any number of elements of some classes, then one of others; or anything at all): whatever is added to the input, they return the same value with the same calls of user code. The grammar of the JSON example passes it: a string, an object or an array that was read is settled whatever follows, in parse and lookahead; a value is settled once a comma or a closing bracket follows it, and a number (of this example or of the algebraic one) once an element follows that is neither a digit nor one of '.eE'. A number that fills its input is not.", "quantifier": "every parser, program and input, every continuation of the input; for the JSON grammar every memory and whatever the constructors do", "why_tests_cant": "The tests give whole inputs; that an answer is the same for all continuations of all accepted inputs is a statement about infinitely many pairs of runs.", "anchors": ["examples/json/json.cpp:12-102", "include/k3/tok3n/detail/parsers/basic_base.h:29-53", "include/k3/tok3n/detail/parsers/zero_or_more.h", "include/k3/tok3n/detail/parsers/choice.h", "include/k3/tok3n/detail/parsers/sequence.h", "include/k3/tok3n/detail/parsers/delimit.h"]}
{"id": "C85", "title": "Parsers that need only what they consume; input that arrives in pieces", "statement": "A successful run of a parser that passes the test of C84 whatever follows depends only on the elements that it consumes: on every input that starts with them, the shortest included, it returns the same value with the same calls of user code. So if the input arrives in pieces, the parser succeeds on what is there exactly if it succeeds on the whole input and what it consumes there has arrived, and never earlier. Strings, objects and arrays of the JSON example are such, in parse and lookahead; if the constructors do not throw, these parsers return without a value on every part that is too short. With the condition of C84 on what follows, the input can be shortened as long as what is left begins so: a JSON value needs, beside itself, one comma or closing bracket. Without the test it is false: choice(sequence(maybe(\"aa\"), \"a\"), \"a\") reads one 'a' of \"aab\" as its second alternative and of \"a\" as its first.", "quantifier": "every parser that passes the test, every program, input, split of the input and memory that agrees on the consumed elements", "why_tests_cant": "The tests give whole inputs; the claim compares the runs on all splits of all inputs.", "anchors": ["examples/json/json.cpp:12-102", "include/k3/tok3n/detail/parsers/basic_base.h:29-53", "include/k3/tok3n/detail/parsers/zero_or_more.h", "include/k3/tok3n/detail/parsers/choice.h", "include/k3/tok3n/detail/parsers/sequence.h", "include/k3/tok3n/detail/parsers/delimit.h"]}
