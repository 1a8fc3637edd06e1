#!/usr/bin/env python3
"""Regenerates /verif/properties.jsonl (one JSON object per line)."""
import json, os
P = []
def p(id, title, statement, quantifier, why, anchors):
    P.append(dict(id=id, title=title, statement=statement, quantifier=quantifier,
                  why_tests_cant=why, anchors=anchors))

PI = "parser/src/internal/parsers_impl"
p("C01", "Parsers never claim to consume past the end of the input",
  "If a parser assembled from the library's primitives and combinators is run at a position inside the input and succeeds, the length it reports is at most the number of elements that remain. Consequently no later combinator step slices out of range.",
  "every parser in the closure of the public combinators (arbitrary nesting, arbitrary closures inside map/flat_map/filter), every input, every start position",
  "The space of grammars is infinite; one combinator with a wrong length only shows up when it is nested in front of another one.",
  ["parser/src/core/parse_state.rs::ParseState::input", PI+"/operator_parsers_impl.rs", PI+"/repeat_parsers_impl.rs", PI+"/taken_parsers_impl.rs", PI+"/elements_parsers_impl.rs::regex"])
p("C02", "Parsing never panics for regex-free grammars",
  "Running a parser assembled from the regex-free combinators, with user closures that do not panic, at any position inside the input returns a Success or a Failure (or loops); it never panics with an out-of-range slice.",
  "every regex-free parser in the combinator closure, every input and start position",
  "Panic freedom is a statement about all inputs at all nesting depths; tests only show that the sampled ones do not panic.",
  ["parser/src/core/parse_state.rs::ParseState::input", "parser/src/core/parse_state.rs::ParseState::slice_with_len", PI])
p("C03", "Ordered choice tries the second alternative exactly on uncommitted failure",
  "p | q returns p's result when p succeeds or fails committed, and q's result run from the same position when p fails uncommitted; choice is associative and a failing uncommitted parser is a left identity.",
  "all parsers p, q, r, all inputs and positions",
  "The law quantifies over all parsers, including ones no test constructs.",
  [PI+"/operator_parsers_impl.rs::or"])
p("C04", "attempt makes every failure backtrackable and changes nothing else",
  "p.attempt() succeeds exactly when p does with the same value and length, fails with the same error exactly when p does, and its failures are always uncommitted, so p.attempt() | q reaches q on every failure of p.",
  "all parsers p, q, all inputs and positions",
  "Universally quantified over parsers and failure kinds.",
  [PI+"/operator_parsers_impl.rs::attempt", "parser/src/core/parse_result.rs::with_uncommitted"])
p("C05", "flat_map obeys the monad laws, including consumed length and commit status",
  "successful(a).flat_map(f) behaves as f(a); p.flat_map(successful) behaves as p; (p.flat_map(f)).flat_map(g) behaves as p.flat_map(|x| f(x).flat_map(g)) - equal values, lengths, errors and committed flags.",
  "all parsers p, all continuations f, g, all inputs and positions",
  "Associativity of commit propagation has to hold for every combination of zero-length and non-zero-length stages.",
  ["parser/src/internal/parsers_impl.rs::flat_map", "parser/src/core/parse_result.rs::add_commit", "parser/src/core/parse_result.rs::advance_success"])
p("C06", "flat_map commits once input has been consumed",
  "If p succeeds having consumed at least one element and f's parser then fails, p.flat_map(f) fails committed, so an enclosing choice does not try its other branch; if p consumed nothing, the failure keeps the status of f's parser.",
  "all parsers p, continuations f, inputs, positions",
  "Commit status is invisible unless the parser is embedded in a choice; tests would need to enumerate contexts.",
  ["parser/src/internal/parsers_impl.rs::flat_map"])
p("C07", "Sequencing with + commits like flat_map does",
  "p + q (and p * q, p - q) is observably the same parser as p.flat_map(|a| q.map(|b| (a, b))): same value, length, error and commit status.",
  "all parsers p, q, inputs, positions",
  "The two only differ in the commit flag of one failure path, which is only observable inside a choice.",
  [PI+"/operator_parsers_impl.rs::and_then", PI+"/skip_parser_impl.rs", "parser/src/internal/parsers_impl.rs::flat_map"])
p("C08", "map is a functor and never changes consumption",
  "p.map(id) is p, p.map(f).map(g) is p.map(g . f), and mapping changes neither length nor failures.",
  "all parsers, functions, inputs, positions",
  "Universally quantified over parsers and functions.",
  ["parser/src/internal/parsers_impl.rs::map"])
p("C09", "filter keeps exactly the accepted successes and rejects without committing",
  "p.with_filter(f) succeeds with p's value and length iff p succeeds and f accepts the value; when f rejects, the failure is uncommitted even if p consumed input; p's failures pass through; with_filter_not is the complement.",
  "all parsers, predicates, inputs, positions",
  "Universally quantified over predicates and parsers.",
  ["parser/src/internal/parsers_impl.rs::filter", "parser/src/core/parsers.rs"])
p("C10", "Lookahead consumes nothing",
  "peek, exists and not never consume: any success they report has length 0. exists never fails; exists is true iff the parser succeeds; not succeeds iff the parser fails; not(not p) succeeds iff p succeeds.",
  "all parsers, inputs, positions",
  "Universally quantified over parsers.",
  [PI+"/peek_parsers_impl.rs", PI+"/operator_parsers_impl.rs::exists", PI+"/operator_parsers_impl.rs::not"])
p("C11", "end accepts exactly at end of input; p - end() means whole-input match",
  "end() succeeds iff no element remains, consuming nothing; (p - end()).parse(input) succeeds iff p parses input consuming all of it, with p's value.",
  "all parsers p, all inputs",
  "All inputs, all prefixes.",
  [PI+"/primitive_parsers_impl.rs::end", PI+"/skip_parser_impl.rs::skip_right"])
p("C12", "of_many0 / of_many1 are greedy: they return the maximal run of consecutive matches",
  "If the repetition succeeds with values v1..vn and length l then running the element parser successively from the start position gives exactly v1..vn with lengths summing to l, and the element parser does not succeed at the position reached. of_many0 never fails; of_many1 fails exactly when the first element does not match.",
  "all element parsers, inputs, positions, any number of iterations",
  "Needs induction over the unbounded iteration count.",
  [PI+"/repeat_parsers_impl.rs::repeat_sep", PI+"/repeat_parsers_impl.rs::many0", PI+"/repeat_parsers_impl.rs::many1"])
p("C13", "Bounded repetition returns a number of items inside the requested range",
  "A successful repeat(range) / of_many_n_m / of_count / *_sep returns n items with n inside range, for every range kind accepted by the API (a..b, a..=b, a.., ..b, ..=b, .., n).",
  "all element parsers, ranges, inputs, positions",
  "All ranges including the degenerate 0 upper bounds, which the test-suite never samples.",
  [PI+"/repeat_parsers_impl.rs::repeat_sep", "parser/src/utils/range.rs"])
p("C14", "Separated repetition consumes elements and separators in strict alternation",
  "The text consumed by of_many0_sep/of_many1_sep is e1 s1 e2 s2 ... en with separators only between elements: a separator that is not followed by an element is left unconsumed.",
  "all element and separator parsers, inputs, positions",
  "A dangling separator must be tested for every position and every grammar.",
  [PI+"/repeat_parsers_impl.rs::repeat_sep", PI+"/repeat_parsers_impl.rs::many0_sep"])
p("C15", "Repetition terminates when every iteration makes progress, and otherwise does not terminate",
  "If the element parser (plus separator) always consumes at least one element when it succeeds, an unbounded repetition returns after at most remaining+1 iterations. If the element parser succeeds with length 0 at the position reached and there is no upper bound and no separator, the repetition never returns.",
  "all element parsers, inputs, positions",
  "Non-termination can not be observed by a finite test; termination must hold for all inputs.",
  [PI+"/repeat_parsers_impl.rs::repeat_sep"])
p("C16", "chain_left1 builds a left-associated fold",
  "p.chain_left1(op) on an input that is p op p op ... p yields (((x1 op1 x2) op2 x3) ... xn) and consumes exactly these operands and operators; an operator not followed by an operand makes the chain fail committed when the operator consumed input.",
  "all operand and operator parsers, chains of any length",
  "Unbounded chain length.",
  [PI+"/operator_parsers_impl.rs::chain_left1", PI+"/operator_parsers_impl.rs::rest_left1"])
p("C17", "chain_right1 builds a right-associated fold",
  "p.chain_right1(op) / scan_right1 on x1 op1 x2 op2 x3 yields x1 op1 (x2 op2 x3).",
  "all operand and operator parsers, chains of any length",
  "Unit tests with an associative operator cannot tell the two apart.",
  [PI+"/operator_parsers_impl.rs::chain_right1", "parser/src/extension/parsers/operator_parsers.rs"])
p("C18", "seq / tag match exactly the literal",
  "seq(s) and tag(s) succeed iff the remaining input starts with s, returning s and consuming exactly its length; on failure after a proper non-empty matched prefix followed by a different element the failure is committed, and it is uncommitted when nothing matched or when the input ended early.",
  "all literals, inputs, positions",
  "All literals and inputs.",
  [PI+"/elements_parsers_impl.rs::seq", PI+"/elements_parsers_impl.rs::tag"])
p("C19", "tag_no_case matches up to ASCII case only",
  "tag_no_case(s) succeeds iff the remaining input starts with a string of the same length equal to s after ASCII lower-casing of both, and returns s itself.",
  "all literals, inputs, positions",
  "All literals and inputs, including non-ASCII ones.",
  [PI+"/elements_parsers_impl.rs::tag_no_case"])
p("C20", "Element class parsers accept exactly one element of the documented ASCII class",
  "elm_space/multi_space/alpha/alpha_digit/digit/hex_digit/oct_digit consume exactly one element and succeed iff the element is in the class; octal digits are 0-7; non-zero digits are 1-9.",
  "all elements (every u8 and every char), inputs, positions",
  "Class predicates must be checked for every element value, and the tests only sample a few.",
  ["parser/src/core/element.rs", PI+"/element_parsers_impl.rs"])
p("C21", "elm_of / elm_in / elm_from_until / none_of accept exactly set membership",
  "elm_of(S) succeeds iff the next element is in S, elm_in(a,b) iff a <= x <= b, elm_from_until(a,b) iff a <= x < b, none_of(S) iff there is a next element and it is not in S; each consumes exactly one element and fails uncommitted.",
  "all sets, ranges, inputs, positions",
  "All sets and inputs.",
  [PI+"/element_parsers_impl.rs", "parser/src/utils/set.rs"])
p("C22", "take(n) and skip(n) consume exactly n elements or fail",
  "take(n) succeeds iff at least n elements remain and returns precisely the next n; skip(n) likewise; take(n) then take(m) joins to take(n+m).",
  "all n, m, inputs, positions",
  "All sizes.",
  [PI+"/taken_parsers_impl.rs::take", PI+"/skip_parser_impl.rs::skip"])
p("C23", "take_while returns the longest matching prefix",
  "take_while0/1/n_m(f) return the longest prefix of the remaining input whose elements satisfy f, and consume exactly it.",
  "all predicates, inputs, positions",
  "Tests use inputs whose elements all match; the law is about arbitrary inputs.",
  [PI+"/taken_parsers_impl.rs::take_while0", PI+"/taken_parsers_impl.rs::take_while1", PI+"/taken_parsers_impl.rs::take_while_n_m"])
p("C24", "take_till consumes up to and including the first matching element",
  "take_till0(f)/take_till1(f) return the shortest prefix ending with an element satisfying f and consume it; without such an element take_till0 returns everything that remains and take_till1 fails uncommitted.",
  "all predicates, inputs, positions",
  "All inputs.",
  [PI+"/taken_parsers_impl.rs::take_till0", PI+"/taken_parsers_impl.rs::take_till1"])
p("C25", "collect returns exactly the consumed slice",
  "p.collect() returns the slice of the input between the start position and start + consumed length of p, consumes the same and fails identically; collecting a sequence is the concatenation of the collected parts.",
  "all parsers, inputs, positions",
  "Universally quantified over parsers.",
  [PI+"/collect_parsers_impl.rs"])
p("C26", "Offset parsers report the position after the parsed part",
  "p.next_offset() returns start + consumed, p.last_offset() the index of the last consumed element (0 at the very start).",
  "all parsers, inputs, positions",
  "Universally quantified over parsers.",
  [PI+"/offset_parsers_impl.rs"])
p("C27", "map_res / map_opt turn conversion errors into uncommitted failures",
  "p.map_res(f) succeeds iff p succeeds and f returns Ok, with p's length; an Err gives an uncommitted Conversion failure at the start position even if p consumed input.",
  "all parsers, conversion functions, inputs, positions",
  "Universally quantified over parsers and functions.",
  [PI+"/conversion_parsers_impl.rs"])
p("C28", "name / expect / debug only decorate errors",
  "Naming, expecting or logging a parser never changes whether it succeeds, its value, its length or its commit status; naming twice keeps the innermost custom error.",
  "all parsers, names, inputs, positions",
  "Universally quantified over parsers.",
  [PI+"/logging_parsers_impl.rs"])
p("C29", "Inspecting a parse error never panics and yields the offending slice",
  "For every error returned by a parse, error.input() / input_string() returns normally.",
  "all parsers in the combinator closure, all inputs",
  "The panic depends on the relation between absolute error offset and the stored suffix, i.e. on the position of the error.",
  ["parser/src/core/parse_error.rs::ParseError::input", PI+"/element_parsers_impl.rs::elm_pred_ref", "hocon/src/model.rs"])
p("C30", "cache() is observationally transparent",
  "p.cache() returns the same results as p on every run of the parser object, across positions and across inputs.",
  "all parsers, all finite histories of runs (input, position, address of the state)",
  "The memo table is keyed on addresses and a truncated offset: failures depend on the run history.",
  [PI+"/cache_parsers_impl.rs"])
p("C31", "Parsers are position independent",
  "For parsers that do not ask for offsets, running at position k of an input gives the same success value, length and commit status as running at position 0 of the input with its first k elements dropped.",
  "all parsers in the offset-free combinator closure, all inputs, all positions",
  "Two-run relational property over all grammars.",
  ["parser/src/core/parse_state.rs", PI])
p("C32", "surround / skip_left / skip_right keep the right value and consume all parts",
  "surround(l,p,r) succeeds iff l, p, r succeed in sequence, returns p's value and consumes the sum; p * q and p - q likewise.",
  "all parsers, inputs, positions",
  "Universally quantified over parsers.",
  [PI+"/skip_parser_impl.rs"])
p("C33", "opt never fails",
  "p.opt() always succeeds: with Some(v) and p's length when p succeeds, and with None and length 0 when p fails, committed or not.",
  "all parsers, inputs, positions",
  "Universally quantified over parsers.",
  ["parser/src/extension/parsers/operator_parsers.rs::opt"])
p("C34", "Success is stable under extension for lookahead-free literal grammars",
  "If the remaining input starts with a literal s, then seq(s) followed by any continuation behaves like that continuation run right after s; in particular seq(s) + seq(t) and seq(s ++ t) accept the same inputs with the same consumption.",
  "all literals, continuations, inputs",
  "All literals and inputs.",
  [PI+"/elements_parsers_impl.rs::seq", PI+"/operator_parsers_impl.rs::and_then"])
# --- crond
p("C35", "Accepted cron expressions only contain in-range field values",
  "If CronParser::parse accepts a text then every number in the minute field is 0-59, hour 0-23, day 1-31, month 1-12, weekday 1-7.",
  "all input texts",
  "Infinite input space.",
  ["crond/src/cron_parser.rs"])
p("C36", "A cron field matches exactly the set of values it denotes",
  "Evaluating a field against a value answers membership in the set the field denotes: a value denotes itself, a list the union, a-b the closed interval, a-b/s every s-th value from a within the interval, * everything, */s the multiples of s up to the field maximum, L the field maximum.",
  "all field expressions the parser can produce with non-zero steps, all values and maxima",
  "All nested list/range/step combinations.",
  ["crond/src/cron_evaluator.rs::visit"])
p("C37", "A cron expression is matched against minute, hour, day, month and day of week of the time",
  "eval answers true iff each of the five fields contains the corresponding component of the time, the fifth being the day of the week.",
  "all expressions, all times",
  "Most tests use * for the weekday.",
  ["crond/src/cron_evaluator.rs::eval"])
p("C38", "Evaluating an accepted cron expression never panics",
  "For each expression accepted by the parser and each time, evaluation returns.",
  "all accepted texts, all times",
  "Step value 0 is accepted by the grammar.",
  ["crond/src/cron_evaluator.rs::visit", "crond/src/cron_parser.rs"])
p("C39", "The cron iterator yields the matching minutes in order without skipping any",
  "Each time produced is a match; produced times are strictly increasing; no matching minute between two consecutive results (or between the start and the first result) is skipped.",
  "all expressions, start times, any number of next() calls",
  "Needs an invariant over the unbounded iteration.",
  ["crond/src/cron_interval_iterator.rs"])
p("C40", "The cron iterator never yields a time beyond the interval's end",
  "With an upper limit in the interval, every yielded time is within the limit.",
  "all expressions, intervals, any number of next() calls",
  "Depends on where the next match falls relative to the limit.",
  ["crond/src/cron_interval_iterator.rs::next", "crond/src/cron_interval_iterator.rs::proceed_next"])
p("C41", "Searching for the next match terminates iff a match exists",
  "next() returns iff some minute at or after the current one matches; for expressions that never match (30 February) it does not return.",
  "all expressions and start times",
  "Non-termination cannot be tested.",
  ["crond/src/cron_interval_iterator.rs::proceed_next"])
# --- uri
p("C42", "Printing a parsed URI reproduces the text that was consumed",
  "If Uri::parse(text) succeeds then uri.to_string() is a prefix of text, provided the port has no leading zero and the host is not an IPv6 literal.",
  "all texts",
  "Round trip over an infinite input space.",
  ["uri/src/models/uri.rs", "uri/src/parsers/uri_parsers.rs"])
p("C43", "Uri::parse accepts only complete URIs",
  "If Uri::parse(text) succeeds then the whole text was a URI, i.e. nothing was left unparsed.",
  "all texts",
  "All texts.",
  ["uri/src/models/uri.rs::Uri::parse", "uri/src/parsers/uri_parsers.rs::uri"])
p("C44", "A parsed port is the number written in the text",
  "If the authority is followed by ':' and digits then the resulting port is the decimal value of these digits, and out-of-range ports are rejected.",
  "all texts",
  "All digit strings.",
  ["uri/src/parsers/port_parsers.rs", "uri/src/parsers/authority_parsers.rs"])
p("C45", "dec-octet accepts exactly canonical decimal 0-255 greedily",
  "dec_octet applied to a text takes the longest canonical decimal number 0..255 that the text starts with and returns its value.",
  "all texts",
  "All digit strings and continuations.",
  ["uri/src/parsers/ip_v4_address_parsers.rs"])
p("C46", "Query parameters are grouped by key in order",
  "get_param(k) returns, in order, all values given for k in the query, and None iff k does not occur.",
  "all queries, keys",
  "All parameter lists.",
  ["uri/src/models/query.rs"])
# --- json
p("C47", "The JSON grammar accepts every serialized JSON value and returns it",
  "Printing any JSON value (with any amount of whitespace) and parsing it with the example JSON parser gives the value back.",
  "all JSON values of any depth, all whitespace",
  "Unbounded recursive structure.",
  ["parser/examples/json_byte.rs", "parser/examples/json_char.rs"])
p("C48", "The JSON grammar rejects malformed documents",
  "The parser accepts a text only if it is a JSON document according to RFC 8259 (for instance no trailing commas).",
  "all texts",
  "All texts.",
  ["parser/examples/json_byte.rs", "parser/examples/json_char.rs"])
# --- hocon
p("C49", "Duplicate top-level keys: the later value wins",
  "In a document with k = a followed by k = b, looking up k gives b.",
  "all keys and scalar values",
  "All documents.",
  ["hocon/src/model.rs", "hocon/src/model/config_value.rs::merge_with"])
p("C50", "Merging configuration objects is key-wise",
  "Merging two objects keeps every key of both; keys present in only one keep their value; keys present in both hold the merge of both values. Merging with an empty object is the identity and merging is associative on objects of objects.",
  "all objects of any depth",
  "Unbounded nesting.",
  ["hocon/src/model/config_value.rs::merge_with", "hocon/src/model/config_object_value.rs"])
p("C51", "Path lookup follows the key path",
  "get_value(\"a.b.c\") on a resolved object returns exactly the value reached by descending through a, b, c, and has_path is true iff it returns something.",
  "all configurations, paths",
  "Unbounded depth.",
  ["hocon/src/model/config_value.rs::get_value", "hocon/src/model/config_value.rs::has_path"])
p("C52", "Loading a configuration never panics",
  "parse_from_string returns Ok or Err on every text.",
  "all texts",
  "All texts, including the empty one.",
  ["hocon/src/model.rs::parse_from_string", "hocon/src/parsers.rs"])
p("C53", "Numbers keep their sign",
  "Parsing the text of a negative number yields the negative number.",
  "all numbers",
  "All numbers.",
  ["hocon/src/parsers.rs::number"])
# --- toys
p("C54", "Function calls bind their parameters",
  "Calling a function with arguments evaluates its body in an environment where each formal parameter is bound to its argument's value.",
  "all function definitions, argument lists, environments",
  "All programs.",
  ["toys/src/interpreter.rs"])
p("C55", "A call leaves the caller's variables untouched",
  "After a function call returns, the variable environment is the one before the call.",
  "all programs, environments",
  "All bodies, recursion of any depth.",
  ["toys/src/interpreter.rs"])
p("C56", "Interpretation is deterministic and, when it returns, independent of the step budget",
  "The interpreter, when it terminates, gives one result; assignments are visible to later statements of the same block.",
  "all programs",
  "All programs and run lengths.",
  ["toys/src/interpreter.rs"])
exec(open(os.path.join(os.path.dirname(__file__), 'more_properties.py')).read()) if os.path.exists(os.path.join(os.path.dirname(__file__), 'more_properties.py')) else None
with open('/verif/properties.jsonl','w') as f:
    for o in P: f.write(json.dumps(o, ensure_ascii=False)+"\n")
print(len(P))
