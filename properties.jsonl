{"id": "C01", "title": "Parsers never claim to consume past the end of the input", "statement": "If a parser assembled from the library's primitives and combinators is run at a position inside the input and succeeds, the length it reports is at most the number of elements that remain. Consequently no later combinator step slices out of range.", "quantifier": "every parser in the closure of the public combinators (arbitrary nesting, arbitrary closures inside map/flat_map/filter), every input, every start position", "why_tests_cant": "The space of grammars is infinite; one combinator with a wrong length only shows up when it is nested in front of another one.", "anchors": ["parser/src/core/parse_state.rs::ParseState::input", "parser/src/internal/parsers_impl/operator_parsers_impl.rs", "parser/src/internal/parsers_impl/repeat_parsers_impl.rs", "parser/src/internal/parsers_impl/taken_parsers_impl.rs", "parser/src/internal/parsers_impl/elements_parsers_impl.rs::regex"]}
{"id": "C02", "title": "Parsing never panics for regex-free grammars", "statement": "Running a parser assembled from the regex-free combinators, with user closures that do not panic, at any position inside the input returns a Success or a Failure (or loops); it never panics with an out-of-range slice.", "quantifier": "every regex-free parser in the combinator closure, every input and start position", "why_tests_cant": "Panic freedom is a statement about all inputs at all nesting depths; tests only show that the sampled ones do not panic.", "anchors": ["parser/src/core/parse_state.rs::ParseState::input", "parser/src/core/parse_state.rs::ParseState::slice_with_len", "parser/src/internal/parsers_impl"]}
{"id": "C03", "title": "Ordered choice tries the second alternative exactly on uncommitted failure", "statement": "p | q returns p's result when p succeeds or fails committed, and q's result run from the same position when p fails uncommitted; choice is associative and a failing uncommitted parser is a left identity.", "quantifier": "all parsers p, q, r, all inputs and positions", "why_tests_cant": "The law quantifies over all parsers, including ones no test constructs.", "anchors": ["parser/src/internal/parsers_impl/operator_parsers_impl.rs::or"]}
{"id": "C04", "title": "attempt makes every failure backtrackable and changes nothing else", "statement": "p.attempt() succeeds exactly when p does with the same value and length, fails with the same error exactly when p does, and its failures are always uncommitted, so p.attempt() | q reaches q on every failure of p.", "quantifier": "all parsers p, q, all inputs and positions", "why_tests_cant": "Universally quantified over parsers and failure kinds.", "anchors": ["parser/src/internal/parsers_impl/operator_parsers_impl.rs::attempt", "parser/src/core/parse_result.rs::with_uncommitted"]}
{"id": "C05", "title": "flat_map obeys the monad laws, including consumed length and commit status", "statement": "successful(a).flat_map(f) behaves as f(a); p.flat_map(successful) behaves as p; (p.flat_map(f)).flat_map(g) behaves as p.flat_map(|x| f(x).flat_map(g)) - equal values, lengths, errors and committed flags.", "quantifier": "all parsers p, all continuations f, g, all inputs and positions", "why_tests_cant": "Associativity of commit propagation has to hold for every combination of zero-length and non-zero-length stages.", "anchors": ["parser/src/internal/parsers_impl.rs::flat_map", "parser/src/core/parse_result.rs::add_commit", "parser/src/core/parse_result.rs::advance_success"]}
{"id": "C06", "title": "flat_map commits once input has been consumed", "statement": "If p succeeds having consumed at least one element and f's parser then fails, p.flat_map(f) fails committed, so an enclosing choice does not try its other branch; if p consumed nothing, the failure keeps the status of f's parser.", "quantifier": "all parsers p, continuations f, inputs, positions", "why_tests_cant": "Commit status is invisible unless the parser is embedded in a choice; tests would need to enumerate contexts.", "anchors": ["parser/src/internal/parsers_impl.rs::flat_map"]}
{"id": "C07", "title": "Sequencing with + commits like flat_map does", "statement": "p + q (and p * q, p - q) is observably the same parser as p.flat_map(|a| q.map(|b| (a, b))): same value, length, error and commit status.", "quantifier": "all parsers p, q, inputs, positions", "why_tests_cant": "The two only differ in the commit flag of one failure path, which is only observable inside a choice.", "anchors": ["parser/src/internal/parsers_impl/operator_parsers_impl.rs::and_then", "parser/src/internal/parsers_impl/skip_parser_impl.rs", "parser/src/internal/parsers_impl.rs::flat_map"]}
{"id": "C08", "title": "map is a functor and never changes consumption", "statement": "p.map(id) is p, p.map(f).map(g) is p.map(g . f), and mapping changes neither length nor failures.", "quantifier": "all parsers, functions, inputs, positions", "why_tests_cant": "Universally quantified over parsers and functions.", "anchors": ["parser/src/internal/parsers_impl.rs::map"]}
{"id": "C09", "title": "filter keeps exactly the accepted successes and rejects without committing", "statement": "p.with_filter(f) succeeds with p's value and length iff p succeeds and f accepts the value; when f rejects, the failure is uncommitted even if p consumed input; p's failures pass through; with_filter_not is the complement.", "quantifier": "all parsers, predicates, inputs, positions", "why_tests_cant": "Universally quantified over predicates and parsers.", "anchors": ["parser/src/internal/parsers_impl.rs::filter", "parser/src/core/parsers.rs"]}
{"id": "C10", "title": "Lookahead consumes nothing", "statement": "peek, exists and not never consume: any success they report has length 0. exists never fails; exists is true iff the parser succeeds; not succeeds iff the parser fails; not(not p) succeeds iff p succeeds.", "quantifier": "all parsers, inputs, positions", "why_tests_cant": "Universally quantified over parsers.", "anchors": ["parser/src/internal/parsers_impl/peek_parsers_impl.rs", "parser/src/internal/parsers_impl/operator_parsers_impl.rs::exists", "parser/src/internal/parsers_impl/operator_parsers_impl.rs::not"]}
{"id": "C11", "title": "end accepts exactly at end of input; p - end() means whole-input match", "statement": "end() succeeds iff no element remains, consuming nothing; (p - end()).parse(input) succeeds iff p parses input consuming all of it, with p's value.", "quantifier": "all parsers p, all inputs", "why_tests_cant": "All inputs, all prefixes.", "anchors": ["parser/src/internal/parsers_impl/primitive_parsers_impl.rs::end", "parser/src/internal/parsers_impl/skip_parser_impl.rs::skip_right"]}
{"id": "C12", "title": "of_many0 / of_many1 are greedy: they return the maximal run of consecutive matches", "statement": "If the repetition succeeds with values v1..vn and length l then running the element parser successively from the start position gives exactly v1..vn with lengths summing to l, and the element parser does not succeed at the position reached. of_many0 never fails; of_many1 fails exactly when the first element does not match.", "quantifier": "all element parsers, inputs, positions, any number of iterations", "why_tests_cant": "Needs induction over the unbounded iteration count.", "anchors": ["parser/src/internal/parsers_impl/repeat_parsers_impl.rs::repeat_sep", "parser/src/internal/parsers_impl/repeat_parsers_impl.rs::many0", "parser/src/internal/parsers_impl/repeat_parsers_impl.rs::many1"]}
{"id": "C13", "title": "Bounded repetition returns a number of items inside the requested range", "statement": "A successful repeat(range) / of_many_n_m / of_count / *_sep returns n items with n inside range, for every range kind accepted by the API (a..b, a..=b, a.., ..b, ..=b, .., n).", "quantifier": "all element parsers, ranges, inputs, positions", "why_tests_cant": "All ranges including the degenerate 0 upper bounds, which the test-suite never samples.", "anchors": ["parser/src/internal/parsers_impl/repeat_parsers_impl.rs::repeat_sep", "parser/src/utils/range.rs"]}
{"id": "C14", "title": "Separated repetition consumes elements and separators in strict alternation", "statement": "The text consumed by of_many0_sep/of_many1_sep is e1 s1 e2 s2 ... en with separators only between elements: a separator that is not followed by an element is left unconsumed.", "quantifier": "all element and separator parsers, inputs, positions", "why_tests_cant": "A dangling separator must be tested for every position and every grammar.", "anchors": ["parser/src/internal/parsers_impl/repeat_parsers_impl.rs::repeat_sep", "parser/src/internal/parsers_impl/repeat_parsers_impl.rs::many0_sep"]}
{"id": "C15", "title": "Repetition terminates when every iteration makes progress, and otherwise does not terminate", "statement": "If the element parser (plus separator) always consumes at least one element when it succeeds, an unbounded repetition returns after at most remaining+1 iterations. If the element parser succeeds with length 0 at the position reached and there is no upper bound and no separator, the repetition never returns.", "quantifier": "all element parsers, inputs, positions", "why_tests_cant": "Non-termination can not be observed by a finite test; termination must hold for all inputs.", "anchors": ["parser/src/internal/parsers_impl/repeat_parsers_impl.rs::repeat_sep"]}
{"id": "C16", "title": "chain_left1 builds a left-associated fold", "statement": "p.chain_left1(op) on an input that is p op p op ... p yields (((x1 op1 x2) op2 x3) ... xn) and consumes exactly these operands and operators; an operator not followed by an operand makes the chain fail committed when the operator consumed input.", "quantifier": "all operand and operator parsers, chains of any length", "why_tests_cant": "Unbounded chain length.", "anchors": ["parser/src/internal/parsers_impl/operator_parsers_impl.rs::chain_left1", "parser/src/internal/parsers_impl/operator_parsers_impl.rs::rest_left1"]}
{"id": "C17", "title": "chain_right1 builds a right-associated fold", "statement": "p.chain_right1(op) / scan_right1 on x1 op1 x2 op2 x3 yields x1 op1 (x2 op2 x3).", "quantifier": "all operand and operator parsers, chains of any length", "why_tests_cant": "Unit tests with an associative operator cannot tell the two apart.", "anchors": ["parser/src/internal/parsers_impl/operator_parsers_impl.rs::chain_right1", "parser/src/extension/parsers/operator_parsers.rs"]}
{"id": "C18", "title": "seq / tag match exactly the literal", "statement": "seq(s) and tag(s) succeed iff the remaining input starts with s, returning s and consuming exactly its length; on failure after a proper non-empty matched prefix followed by a different element the failure is committed, and it is uncommitted when nothing matched or when the input ended early.", "quantifier": "all literals, inputs, positions", "why_tests_cant": "All literals and inputs.", "anchors": ["parser/src/internal/parsers_impl/elements_parsers_impl.rs::seq", "parser/src/internal/parsers_impl/elements_parsers_impl.rs::tag"]}
{"id": "C19", "title": "tag_no_case matches up to ASCII case only", "statement": "tag_no_case(s) succeeds iff the remaining input starts with a string of the same length equal to s after ASCII lower-casing of both, and returns s itself.", "quantifier": "all literals, inputs, positions", "why_tests_cant": "All literals and inputs, including non-ASCII ones.", "anchors": ["parser/src/internal/parsers_impl/elements_parsers_impl.rs::tag_no_case"]}
{"id": "C20", "title": "Element class parsers accept exactly one element of the documented ASCII class", "statement": "elm_space/multi_space/alpha/alpha_digit/digit/hex_digit/oct_digit consume exactly one element and succeed iff the element is in the class; octal digits are 0-7; non-zero digits are 1-9.", "quantifier": "all elements (every u8 and every char), inputs, positions", "why_tests_cant": "Class predicates must be checked for every element value, and the tests only sample a few.", "anchors": ["parser/src/core/element.rs", "parser/src/internal/parsers_impl/element_parsers_impl.rs"]}
{"id": "C21", "title": "elm_of / elm_in / elm_from_until / none_of accept exactly set membership", "statement": "elm_of(S) succeeds iff the next element is in S, elm_in(a,b) iff a <= x <= b, elm_from_until(a,b) iff a <= x < b, none_of(S) iff there is a next element and it is not in S; each consumes exactly one element and fails uncommitted.", "quantifier": "all sets, ranges, inputs, positions", "why_tests_cant": "All sets and inputs.", "anchors": ["parser/src/internal/parsers_impl/element_parsers_impl.rs", "parser/src/utils/set.rs"]}
{"id": "C22", "title": "take(n) and skip(n) consume exactly n elements or fail", "statement": "take(n) succeeds iff at least n elements remain and returns precisely the next n; skip(n) likewise; take(n) then take(m) joins to take(n+m).", "quantifier": "all n, m, inputs, positions", "why_tests_cant": "All sizes.", "anchors": ["parser/src/internal/parsers_impl/taken_parsers_impl.rs::take", "parser/src/internal/parsers_impl/skip_parser_impl.rs::skip"]}
{"id": "C23", "title": "take_while returns the longest matching prefix", "statement": "take_while0/1/n_m(f) return the longest prefix of the remaining input whose elements satisfy f, and consume exactly it.", "quantifier": "all predicates, inputs, positions", "why_tests_cant": "Tests use inputs whose elements all match; the law is about arbitrary inputs.", "anchors": ["parser/src/internal/parsers_impl/taken_parsers_impl.rs::take_while0", "parser/src/internal/parsers_impl/taken_parsers_impl.rs::take_while1", "parser/src/internal/parsers_impl/taken_parsers_impl.rs::take_while_n_m"]}
{"id": "C24", "title": "take_till consumes up to and including the first matching element", "statement": "take_till0(f)/take_till1(f) return the shortest prefix ending with an element satisfying f and consume it; without such an element take_till0 returns everything that remains and take_till1 fails uncommitted.", "quantifier": "all predicates, inputs, positions", "why_tests_cant": "All inputs.", "anchors": ["parser/src/internal/parsers_impl/taken_parsers_impl.rs::take_till0", "parser/src/internal/parsers_impl/taken_parsers_impl.rs::take_till1"]}
{"id": "C25", "title": "collect returns exactly the consumed slice", "statement": "p.collect() returns the slice of the input between the start position and start + consumed length of p, consumes the same and fails identically; collecting a sequence is the concatenation of the collected parts.", "quantifier": "all parsers, inputs, positions", "why_tests_cant": "Universally quantified over parsers.", "anchors": ["parser/src/internal/parsers_impl/collect_parsers_impl.rs"]}
{"id": "C26", "title": "Offset parsers report the position after the parsed part", "statement": "p.next_offset() returns start + consumed, p.last_offset() the index of the last consumed element (0 at the very start).", "quantifier": "all parsers, inputs, positions", "why_tests_cant": "Universally quantified over parsers.", "anchors": ["parser/src/internal/parsers_impl/offset_parsers_impl.rs"]}
{"id": "C27", "title": "map_res / map_opt turn conversion errors into uncommitted failures", "statement": "p.map_res(f) succeeds iff p succeeds and f returns Ok, with p's length; an Err gives an uncommitted Conversion failure at the start position even if p consumed input.", "quantifier": "all parsers, conversion functions, inputs, positions", "why_tests_cant": "Universally quantified over parsers and functions.", "anchors": ["parser/src/internal/parsers_impl/conversion_parsers_impl.rs"]}
{"id": "C28", "title": "name / expect / debug only decorate errors", "statement": "Naming, expecting or logging a parser never changes whether it succeeds, its value, its length or its commit status; naming twice keeps the innermost custom error.", "quantifier": "all parsers, names, inputs, positions", "why_tests_cant": "Universally quantified over parsers.", "anchors": ["parser/src/internal/parsers_impl/logging_parsers_impl.rs"]}
{"id": "C29", "title": "Inspecting a parse error never panics and yields the offending slice", "statement": "For every error returned by a parse, error.input() / input_string() returns normally.", "quantifier": "all parsers in the combinator closure, all inputs", "why_tests_cant": "The panic depends on the relation between absolute error offset and the stored suffix, i.e. on the position of the error.", "anchors": ["parser/src/core/parse_error.rs::ParseError::input", "parser/src/internal/parsers_impl/element_parsers_impl.rs::elm_pred_ref", "hocon/src/model.rs"]}
{"id": "C30", "title": "cache() is observationally transparent", "statement": "p.cache() returns the same results as p on every run of the parser object, across positions and across inputs.", "quantifier": "all parsers, all finite histories of runs (input, position, address of the state)", "why_tests_cant": "The memo table is keyed on addresses and a truncated offset: failures depend on the run history.", "anchors": ["parser/src/internal/parsers_impl/cache_parsers_impl.rs"]}
{"id": "C31", "title": "Parsers are position independent", "statement": "For parsers that do not ask for offsets, running at position k of an input gives the same success value, length and commit status as running at position 0 of the input with its first k elements dropped.", "quantifier": "all parsers in the offset-free combinator closure, all inputs, all positions", "why_tests_cant": "Two-run relational property over all grammars.", "anchors": ["parser/src/core/parse_state.rs", "parser/src/internal/parsers_impl"]}
{"id": "C32", "title": "surround / skip_left / skip_right keep the right value and consume all parts", "statement": "surround(l,p,r) succeeds iff l, p, r succeed in sequence, returns p's value and consumes the sum; p * q and p - q likewise.", "quantifier": "all parsers, inputs, positions", "why_tests_cant": "Universally quantified over parsers.", "anchors": ["parser/src/internal/parsers_impl/skip_parser_impl.rs"]}
{"id": "C33", "title": "opt never fails", "statement": "p.opt() always succeeds: with Some(v) and p's length when p succeeds, and with None and length 0 when p fails, committed or not.", "quantifier": "all parsers, inputs, positions", "why_tests_cant": "Universally quantified over parsers.", "anchors": ["parser/src/extension/parsers/operator_parsers.rs::opt"]}
{"id": "C34", "title": "Success is stable under extension for lookahead-free literal grammars", "statement": "If the remaining input starts with a literal s, then seq(s) followed by any continuation behaves like that continuation run right after s; in particular seq(s) + seq(t) and seq(s ++ t) accept the same inputs with the same consumption.", "quantifier": "all literals, continuations, inputs", "why_tests_cant": "All literals and inputs.", "anchors": ["parser/src/internal/parsers_impl/elements_parsers_impl.rs::seq", "parser/src/internal/parsers_impl/operator_parsers_impl.rs::and_then"]}
{"id": "C35", "title": "Accepted cron expressions only contain in-range field values", "statement": "If CronParser::parse accepts a text then every number in the minute field is 0-59, hour 0-23, day 1-31, month 1-12, weekday 1-7.", "quantifier": "all input texts", "why_tests_cant": "Infinite input space.", "anchors": ["crond/src/cron_parser.rs"]}
{"id": "C36", "title": "A cron field matches exactly the set of values it denotes", "statement": "Evaluating a field against a value answers membership in the set the field denotes: a value denotes itself, a list the union, a-b the closed interval, a-b/s every s-th value from a within the interval, * everything, */s the multiples of s up to the field maximum, L the field maximum.", "quantifier": "all field expressions the parser can produce with non-zero steps, all values and maxima", "why_tests_cant": "All nested list/range/step combinations.", "anchors": ["crond/src/cron_evaluator.rs::visit"]}
{"id": "C37", "title": "A cron expression is matched against minute, hour, day, month and day of week of the time", "statement": "eval answers true iff each of the five fields contains the corresponding component of the time, the fifth being the day of the week.", "quantifier": "all expressions, all times", "why_tests_cant": "Most tests use * for the weekday.", "anchors": ["crond/src/cron_evaluator.rs::eval"]}
{"id": "C38", "title": "Evaluating an accepted cron expression never panics", "statement": "For each expression accepted by the parser and each time, evaluation returns.", "quantifier": "all accepted texts, all times", "why_tests_cant": "Step value 0 is accepted by the grammar.", "anchors": ["crond/src/cron_evaluator.rs::visit", "crond/src/cron_parser.rs"]}
{"id": "C39", "title": "The cron iterator yields the matching minutes in order without skipping any", "statement": "Each time produced is a match; produced times are strictly increasing; no matching minute between two consecutive results (or between the start and the first result) is skipped.", "quantifier": "all expressions, start times, any number of next() calls", "why_tests_cant": "Needs an invariant over the unbounded iteration.", "anchors": ["crond/src/cron_interval_iterator.rs"]}
{"id": "C40", "title": "The cron iterator never yields a time beyond the interval's end", "statement": "With an upper limit in the interval, every yielded time is within the limit.", "quantifier": "all expressions, intervals, any number of next() calls", "why_tests_cant": "Depends on where the next match falls relative to the limit.", "anchors": ["crond/src/cron_interval_iterator.rs::next", "crond/src/cron_interval_iterator.rs::proceed_next"]}
{"id": "C41", "title": "Searching for the next match terminates iff a match exists", "statement": "next() returns iff some minute at or after the current one matches; for expressions that never match (30 February) it does not return.", "quantifier": "all expressions and start times", "why_tests_cant": "Non-termination cannot be tested.", "anchors": ["crond/src/cron_interval_iterator.rs::proceed_next"]}
{"id": "C42", "title": "Printing a parsed URI reproduces the text that was consumed", "statement": "If Uri::parse(text) succeeds then uri.to_string() is a prefix of text, provided the port has no leading zero and the host is not an IPv6 literal.", "quantifier": "all texts", "why_tests_cant": "Round trip over an infinite input space.", "anchors": ["uri/src/models/uri.rs", "uri/src/parsers/uri_parsers.rs"]}
{"id": "C43", "title": "Uri::parse accepts only complete URIs", "statement": "If Uri::parse(text) succeeds then the whole text was a URI, i.e. nothing was left unparsed.", "quantifier": "all texts", "why_tests_cant": "All texts.", "anchors": ["uri/src/models/uri.rs::Uri::parse", "uri/src/parsers/uri_parsers.rs::uri"]}
{"id": "C44", "title": "A parsed port is the number written in the text", "statement": "If the authority is followed by ':' and digits then the resulting port is the decimal value of these digits, and out-of-range ports are rejected.", "quantifier": "all texts", "why_tests_cant": "All digit strings.", "anchors": ["uri/src/parsers/port_parsers.rs", "uri/src/parsers/authority_parsers.rs"]}
{"id": "C45", "title": "dec-octet accepts exactly canonical decimal 0-255 greedily", "statement": "dec_octet applied to a text takes the longest canonical decimal number 0..255 that the text starts with and returns its value.", "quantifier": "all texts", "why_tests_cant": "All digit strings and continuations.", "anchors": ["uri/src/parsers/ip_v4_address_parsers.rs"]}
{"id": "C46", "title": "Query parameters are grouped by key in order", "statement": "get_param(k) returns, in order, all values given for k in the query, and None iff k does not occur.", "quantifier": "all queries, keys", "why_tests_cant": "All parameter lists.", "anchors": ["uri/src/models/query.rs"]}
{"id": "C47", "title": "The JSON grammar accepts every serialized JSON value and returns it", "statement": "Printing any JSON value (with any amount of whitespace) and parsing it with the example JSON parser gives the value back.", "quantifier": "all JSON values of any depth, all whitespace", "why_tests_cant": "Unbounded recursive structure.", "anchors": ["parser/examples/json_byte.rs", "parser/examples/json_char.rs"]}
{"id": "C48", "title": "The JSON grammar rejects malformed documents", "statement": "The parser accepts a text only if it is a JSON document according to RFC 8259 (for instance no trailing commas).", "quantifier": "all texts", "why_tests_cant": "All texts.", "anchors": ["parser/examples/json_byte.rs", "parser/examples/json_char.rs"]}
{"id": "C49", "title": "Duplicate top-level keys: the later value wins", "statement": "In a document with k = a followed by k = b, looking up k gives b.", "quantifier": "all keys and scalar values", "why_tests_cant": "All documents.", "anchors": ["hocon/src/model.rs", "hocon/src/model/config_value.rs::merge_with"]}
{"id": "C50", "title": "Merging configuration objects is key-wise", "statement": "Merging two objects keeps every key of both; keys present in only one keep their value; keys present in both hold the merge of both values. Merging with an empty object is the identity and merging is associative on objects of objects.", "quantifier": "all objects of any depth", "why_tests_cant": "Unbounded nesting.", "anchors": ["hocon/src/model/config_value.rs::merge_with", "hocon/src/model/config_object_value.rs"]}
{"id": "C51", "title": "Path lookup follows the key path", "statement": "get_value(\"a.b.c\") on a resolved object returns exactly the value reached by descending through a, b, c, and has_path is true iff it returns something.", "quantifier": "all configurations, paths", "why_tests_cant": "Unbounded depth.", "anchors": ["hocon/src/model/config_value.rs::get_value", "hocon/src/model/config_value.rs::has_path"]}
{"id": "C52", "title": "Loading a configuration never panics", "statement": "parse_from_string returns Ok or Err on every text.", "quantifier": "all texts", "why_tests_cant": "All texts, including the empty one.", "anchors": ["hocon/src/model.rs::parse_from_string", "hocon/src/parsers.rs"]}
{"id": "C53", "title": "Numbers keep their sign", "statement": "Parsing the text of a negative number yields the negative number.", "quantifier": "all numbers", "why_tests_cant": "All numbers.", "anchors": ["hocon/src/parsers.rs::number"]}
{"id": "C54", "title": "Function calls bind their parameters", "statement": "Calling a function with arguments evaluates its body in an environment where each formal parameter is bound to its argument's value.", "quantifier": "all function definitions, argument lists, environments", "why_tests_cant": "All programs.", "anchors": ["toys/src/interpreter.rs"]}
{"id": "C55", "title": "A call leaves the caller's variables untouched", "statement": "After a function call returns, the variable environment is the one before the call.", "quantifier": "all programs, environments", "why_tests_cant": "All bodies, recursion of any depth.", "anchors": ["toys/src/interpreter.rs"]}
{"id": "C56", "title": "Interpretation is deterministic and, when it returns, independent of the step budget", "statement": "The interpreter, when it terminates, gives one result; assignments are visible to later statements of the same block.", "quantifier": "all programs", "why_tests_cant": "All programs and run lengths.", "anchors": ["toys/src/interpreter.rs"]}
{"id": "C57", "title": "Texts of the URI grammar are read with the value they spell, and a parsed URI survives printing and reading", "statement": "Every text of the URI grammar is accepted completely and gives the URI it spells; reading the printed form of a parsed URI gives the URI back.", "quantifier": "all texts of the grammar, all parsed URIs", "why_tests_cant": "The grammar is infinite; a test sees single texts and not the interplay of the ordered alternatives.", "anchors": ["uri/src/parsers/uri_parsers.rs", "uri/src/parsers/hier_part_parsers.rs", "uri/src/parsers/authority_parsers.rs", "uri/src/parsers/host_parsers.rs"]}
{"id": "C58", "title": "IPv6 literals: accepted texts spell the returned address, and every IPv6 text is accepted", "statement": "ip_v6_address returns the address that the consumed text spells (RFC 4291), and accepts every IPv6 text.", "quantifier": "all texts", "why_tests_cant": "Nine ordered alternatives with repetition bounds; tests pick a few shapes.", "anchors": ["uri/src/parsers/ip_v6_address_parsers.rs"]}
{"id": "C59", "title": "JSON objects with repeated member names keep the last one", "statement": "Reading an object text returns a map with distinct keys in which every name has the value of the last member with that name, and no other names.", "quantifier": "all RFC 8259 object texts", "why_tests_cant": "The number of members and repetitions is unbounded; a test shows single objects.", "anchors": ["parser/examples/json_byte.rs", "parser/examples/json_char.rs"]}
{"id": "C60", "title": "JSON strings: escapes and surrogates are decoded, results are valid UTF-8", "statement": "A pair of surrogate escapes denotes the one character it encodes, a lone surrogate escape becomes U+FFFD, and all strings and names of a returned value are valid UTF-8.", "quantifier": "all input texts, all pairs of escapes", "why_tests_cant": "65536^2 escape pairs and all mixtures of raw bytes and escapes; tests pick a few.", "anchors": ["parser/examples/json_byte.rs", "parser/examples/json_char.rs"]}
{"id": "C61", "title": "Assigning a variable in scope changes that variable", "statement": "Evaluating x = e when x is visible gives x the value of e for all later reads and leaves all other variables alone.", "quantifier": "all environments with any number of frames, all expressions", "why_tests_cant": "Depends on the frame in which the variable lives and on what e does; tests use one frame.", "anchors": ["toys/src/interpreter.rs", "toys/src/environment.rs"]}
{"id": "C62", "title": "Global variable definitions are visible in main", "statement": "After loading a program, every global variable is bound to the value of its initialiser.", "quantifier": "all programs", "why_tests_cant": "All definition lists.", "anchors": ["toys/src/interpreter.rs::call_main"]}
{"id": "C63", "title": "The interpreter handles every expression the parser builds", "statement": "Evaluation panics only because of a property of the program (unbound name, wrong kind of value, arithmetic error), never because the interpreter does not know a construct.", "quantifier": "all expressions, states", "why_tests_cant": "All expressions; the interpreter has a catch-all panic.", "anchors": ["toys/src/interpreter.rs::interpret", "toys/src/expr.rs"]}
{"id": "C64", "title": "The logical operators evaluate their second operand only if needed", "statement": "false && e and true || e do not evaluate e; otherwise the value is the conjunction or disjunction.", "quantifier": "all operands, states", "why_tests_cant": "All operands with all effects (output, assignment, panic, divergence).", "anchors": ["toys/src/interpreter.rs::interpret"]}
{"id": "C65", "title": "A for loop runs its body once for each value of the range, in order", "statement": "for (x in a to b) body runs body with x = a, a+1, ..., b-1, if body does not assign x.", "quantifier": "all bounds, bodies, states", "why_tests_cant": "Any number of iterations and any body.", "anchors": ["toys/src/parsers.rs::for", "toys/src/interpreter.rs::interpret"]}
{"id": "C66", "title": "Integer values stay within 64 bits", "statement": "Starting from 64-bit literals and states, all values produced, stored and printed are 64-bit integers (or evaluation panics).", "quantifier": "all programs, both overflow modes", "why_tests_cant": "All programs and operand values.", "anchors": ["toys/src/interpreter.rs::interpret"]}
{"id": "C67", "title": "The HOCON parser returns on every text", "statement": "Parsing any text returns (success, error or panic) and never reads past its end.", "quantifier": "all texts, any nesting", "why_tests_cant": "Unbounded nesting and repetition.", "anchors": ["hocon/src/parsers.rs::hocon"]}
{"id": "C68", "title": "Resolving references terminates", "statement": "Loading any text that parses returns.", "quantifier": "all texts", "why_tests_cant": "All reference graphs, including cyclic ones.", "anchors": ["hocon/src/model/config_value.rs::resolve"]}
{"id": "C69", "title": "A dotted key is the same as nested objects", "statement": "a.b = v and a { b = v } give the same configuration, whatever other keys stand beside or above.", "quantifier": "all keys, values, surrounding objects", "why_tests_cant": "All combinations with sibling and parent keys.", "anchors": ["hocon/src/model/config_value.rs::resolve"]}
{"id": "C70", "title": "Each line defines the key it begins with", "statement": "After k = v on a line of its own, the next line defines the key written on it.", "quantifier": "all documents", "why_tests_cant": "All pairs of adjacent lines.", "anchors": ["hocon/src/parsers.rs::config", "hocon/src/parsers.rs::time_unit"]}
{"id": "C71", "title": "Duration units are read and converted correctly", "statement": "A number followed by a unit (symbol or spelt out) is that many of that unit; the conversion is exact or reports an overflow.", "quantifier": "all numbers and units", "why_tests_cant": "All 64-bit values and all unit spellings.", "anchors": ["hocon/src/parsers.rs::time_unit", "hocon/src/model/config_duration_value.rs::to_std_duration"]}
{"id": "C72", "title": "An optional reference that is found nowhere keeps the previous value", "statement": "In k = a, ..., k = b, k = ${?x} with x undefined, the value of k is b.", "quantifier": "all values and numbers of repetitions", "why_tests_cant": "Any number of earlier values.", "anchors": ["hocon/src/model/config_value.rs::resolve", "hocon/src/model/config_value.rs::prev_latest"]}
{"id": "C73", "title": "A chain of values keeps all of them in order", "statement": "Repeated keys within braces keep every value, the oldest first; to_vec returns exactly them.", "quantifier": "all lists of values", "why_tests_cant": "Any number of values.", "anchors": ["hocon/src/model/config_value.rs::push", "hocon/src/model/config_value.rs::to_vec", "hocon/src/parsers.rs::object"]}
{"id": "C74", "title": "include loads the named file", "statement": "include file(\"name\") has the meaning of the contents of the file called name.", "quantifier": "all documents and file systems", "why_tests_cant": "All file contents.", "anchors": ["hocon/src/parsers.rs::include", "hocon/src/model/config_value.rs::resolve"]}
{"id": "C75", "title": "Resolution leaves a configuration without references unchanged", "statement": "Resolving a value that contains no reference, include or enumeration returns that value.", "quantifier": "all values of any depth", "why_tests_cant": "Unbounded depth.", "anchors": ["hocon/src/model/config_value.rs::resolve"]}
{"id": "C76", "title": "The result does not depend on the iteration order of hash maps", "statement": "Merging and expansion of dotted keys give the same lookups for every iteration order of the maps involved.", "quantifier": "all maps and all orders", "why_tests_cant": "The order is randomised per process.", "anchors": ["hocon/src/model/config_object_value.rs::merge_with", "hocon/src/model/config_value.rs::resolve"]}
{"id": "C77", "title": "A loaded configuration contains no unresolved reference", "statement": "If loading succeeds, no value of the result is a reference, include or enumeration.", "quantifier": "all documents", "why_tests_cant": "All documents.", "anchors": ["hocon/src/model/config_value.rs::resolve"]}
{"id": "C78", "title": "The calculator accepts exactly the arithmetic expressions", "statement": "A text is accepted exactly if all of it is an expression; * and / bind tighter than + and -, each level associates to the left, a sign binds tightest, and the tree is unique; every run returns.", "quantifier": "all texts, all nesting depths", "why_tests_cant": "Unbounded nesting and length.", "anchors": ["parser/examples/calculator.rs::calculator", "parser/examples/calculator.rs::additive", "parser/examples/calculator.rs::multitive", "parser/examples/calculator.rs::primary", "parser/examples/calculator.rs::unary"]}
{"id": "C79", "title": "The calculator ignores white space between tokens", "statement": "Inserting white space before, behind or between tokens of an accepted expression does not change the result.", "quantifier": "all expressions and all positions", "why_tests_cant": "All positions in all expressions.", "anchors": ["parser/examples/calculator.rs::space", "parser/examples/calculator.rs::value", "parser/examples/calculator.rs::primary"]}
{"id": "C80", "title": "Parsing and evaluating gives the value of the text", "statement": "The value computed for the parsed tree is the value of the text by the usual rules of arithmetic, or none if an operation has no result.", "quantifier": "all expressions, all arithmetic operations", "why_tests_cant": "All expressions.", "anchors": ["parser/examples/calculator.rs::eval", "parser/examples/calculator.rs::calculator"]}
{"id": "C81", "title": "The toys parsers return on every text", "statement": "Parsing a program, a list of lines, a line or an expression ends with success or failure: no panic and no unbounded recursion; the recursion depth is bounded by the length of the text.", "quantifier": "all texts", "why_tests_cant": "Unbounded nesting; mutual recursion through lazy parsers.", "anchors": ["toys/src/parsers.rs::program", "toys/src/parsers.rs::lines", "toys/src/parsers.rs::line", "toys/src/parsers.rs::expression", "toys/src/parsers.rs::primary"]}
{"id": "C82", "title": "What the toys parsers accept is a text of the language, and the result is its tree", "statement": "The consumed text is, apart from leading white space, derivable in the grammar of definitions, statements and expressions with four operator levels, and the returned tree is the derived one; lines consumes the whole input.", "quantifier": "all texts", "why_tests_cant": "All texts, all nesting depths.", "anchors": ["toys/src/parsers.rs::program", "toys/src/parsers.rs::lines", "toys/src/parsers.rs::line", "toys/src/parsers.rs::expression", "toys/src/parsers.rs::comparative", "toys/src/parsers.rs::additive", "toys/src/parsers.rs::moditive", "toys/src/parsers.rs::multitive"]}
{"id": "C83", "title": "The toys parsers accept every text of the language with one tree", "statement": "Every text of the strict grammar (names that do not collide with true/false, keywords not called, else separated) is accepted completely with its tree, whatever admissible text follows; the strict grammar is unambiguous.", "quantifier": "all texts of the strict grammar", "why_tests_cant": "Ordered choice and commit interact; infinitely many texts.", "anchors": ["toys/src/parsers.rs::program", "toys/src/parsers.rs::lines", "toys/src/parsers.rs::line", "toys/src/parsers.rs::expression", "toys/src/parsers.rs::primary"]}
{"id": "C84", "title": "Syntax errors of a toys program are reported", "statement": "If a text is not a program, parsing it fails.", "quantifier": "all texts", "why_tests_cant": "All malformed texts.", "anchors": ["toys/src/parsers.rs::program", "toys/src/parsers.rs::top_level_definition", "toys/src/parsers.rs::lines"]}
{"id": "C85", "title": "Every toys identifier can be used as an expression", "statement": "A word other than true and false is read as the symbol of that name.", "quantifier": "all words", "why_tests_cant": "Infinitely many names.", "anchors": ["toys/src/parsers.rs::primary", "toys/src/parsers.rs::bool_literal", "toys/src/parsers.rs::identifier"]}
{"id": "C86", "title": "Keywords of toys are whole words", "statement": "A word that is longer than a keyword is never read as the keyword followed by something.", "quantifier": "all texts", "why_tests_cant": "All names with a keyword as prefix.", "anchors": ["toys/src/parsers.rs::r#if", "toys/src/parsers.rs::function_definition", "toys/src/parsers.rs::global_variable_definition"]}
{"id": "C87", "title": "Operators of toys have the usual precedence", "statement": "* / % bind tighter than + -, these tighter than comparisons, these tighter than && and this tighter than ||, all left associative.", "quantifier": "all operands and pairs of operators", "why_tests_cant": "All operands.", "anchors": ["toys/src/parsers.rs::comparative", "toys/src/parsers.rs::additive", "toys/src/parsers.rs::moditive", "toys/src/parsers.rs::multitive"]}
{"id": "C88", "title": "Printing and parsing toys trees is the identity", "statement": "The tokens of any printable program, statement list or expression, with any white space between them, are parsed back to the same tree; exactly the trees whose operands respect the operator levels, with names and integers that can be written, are printable.", "quantifier": "all trees, all layouts", "why_tests_cant": "All trees and all layouts.", "anchors": ["toys/src/parsers.rs::program", "toys/src/parsers.rs::lines", "toys/src/parsers.rs::expression"]}
{"id": "C89", "title": "Running a toys program from its text prints what the text says", "statement": "The program of main.rs, with any 64-bit bounds in its for loop, prints the fizz-buzz sequence from the lower bound to one below the upper bound between its two separator lines; a program that prints an arithmetic expression prints its exact value if all intermediate results are in range.", "quantifier": "all i64 bounds, all arithmetic expressions, all layouts, checked and unchecked overflow", "why_tests_cant": "Unbounded loops; all expressions.", "anchors": ["toys/src/main.rs::main", "toys/src/parsers.rs::program", "toys/src/interpreter.rs::call_main"]}
{"id": "C90", "title": "The byte and the char JSON examples read the same documents", "statement": "On a text of Unicode scalar values json_char accepts exactly when json_byte accepts the UTF-8 bytes of the text, and the values are equal up to UTF-8 of strings and keys; json_byte rejects every input that is not UTF-8.", "quantifier": "all texts, all byte sequences", "why_tests_cant": "Infinitely many texts; escapes, surrogates and multi-byte characters interact.", "anchors": ["parser/examples/json_byte.rs::json", "parser/examples/json_byte.rs::value", "parser/examples/json_byte.rs::string", "parser/examples/json_char.rs::json", "parser/examples/json_char.rs::value", "parser/examples/json_char.rs::string"]}
{"id": "C91", "title": "The cron parser accepts exactly the cron notation", "statement": "A text is accepted if and only if it consists of five fields of the notation (values in range, ranges, steps, lists with an optional trailing comma, asterisk, weekday names) separated by single spaces; it then has exactly one reading, which is the returned expression; every other text is an error.", "quantifier": "all texts", "why_tests_cant": "Infinitely many lists; ordered choice with attempt could lose alternatives.", "anchors": ["crond/src/cron_parser.rs::instruction", "crond/src/cron_parser.rs::digit_instruction", "crond/src/cron_parser.rs::min_digit", "crond/src/cron_parser.rs::hour_digit", "crond/src/cron_parser.rs::day_digit", "crond/src/cron_parser.rs::month_digit", "crond/src/cron_parser.rs::day_of_week_digit", "crond/src/cron_parser.rs::parse"]}
{"id": "C92", "title": "A schedule gives the matching minutes after its start, in order and without gaps", "statement": "The times of upcoming(start) for a schedule text are exactly the minutes from the start on whose UTC date, time of day and weekday match the text, in increasing order, none missing, and none before the start.", "quantifier": "all texts, all starts, all numbers of calls", "why_tests_cant": "Unbounded iteration over the calendar.", "anchors": ["crond/src/cron_schedule.rs::new", "crond/src/cron_schedule.rs::cron_interval", "crond/src/cron_schedule.rs::upcoming", "crond/src/cron_interval.rs::new", "crond/src/cron_interval.rs::iter", "crond/src/cron_interval_iterator.rs::next"]}
{"id": "C93", "title": "A schedule that matches some valid date and time is always due again", "statement": "If any valid date and time of day matches the fields of a schedule without weekday restriction, every call of next returns, within 400 years of the previous time; if none matches, the call ends in the overflow panic of the date type.", "quantifier": "all texts, all starts, all numbers of calls, all bounds of representable time", "why_tests_cant": "Leap years; unbounded search.", "anchors": ["crond/src/cron_schedule.rs::upcoming", "crond/src/cron_interval_iterator.rs::proceed_next", "crond/src/lib.rs::get_days_from_month"]}
{"id": "C94", "title": "The components of a parsed URI are those of RFC 3986 appendix B", "statement": "For every accepted text the scheme is what precedes the first ':', the fragment what follows the first '#', the query what follows the first '?' before the fragment, the authority what follows a leading '//' up to the next '/', and the path the rest; a URI is absolute exactly if it has no fragment.", "quantifier": "all accepted texts", "why_tests_cant": "Infinitely many texts; the generator of the tests writes the components it expects.", "anchors": ["uri/src/models/uri.rs::parse", "uri/src/models/uri.rs::is_absolute", "uri/src/parsers/uri_parsers.rs::uri", "uri/src/parsers/hier_part_parsers.rs::hier_part", "uri/src/parsers/authority_parsers.rs::authority"]}
{"id": "C95", "title": "A reference has the value of the path it names", "statement": "In a loaded configuration the value at a path where the text has a reference is the value at the path that the reference names, looked up through other references if necessary, or else the environment variable of that name; all other values are unchanged.", "quantifier": "all texts that load, all paths, all environments", "why_tests_cant": "References of references, chains of repeated keys, all environments.", "anchors": ["hocon/src/model/config_value.rs::resolve", "hocon/src/model/config_value.rs::get_value", "hocon/src/model.rs::parse_from_string", "hocon/src/model.rs::resolve_stage1"]}
{"id": "C96", "title": "The path rules read exactly the paths of RFC 3986 section 3.3", "statement": "path_absolute, path_noscheme, path_rootless and path_abempty accept exactly the texts of their rules and return the parts; path chooses the rule that the beginning of the text selects; gen-delims, sub-delims, reserved and unreserved are the classes of section 2.", "quantifier": "all texts, all offsets", "why_tests_cant": "Infinitely many texts; the order of the alternatives could shadow a rule.", "anchors": ["uri/src/parsers/path_parsers.rs::path", "uri/src/parsers/path_parsers.rs::path_absolute", "uri/src/parsers/path_parsers.rs::path_noscheme", "uri/src/parsers/path_parsers.rs::path_rootless", "uri/src/parsers/path_parsers.rs::path_abempty", "uri/src/parsers/basic_parsers.rs::reserved", "uri/src/parsers/basic_parsers.rs::gen_delims", "uri/src/parsers/basic_parsers.rs::sub_delims", "uri/src/parsers/basic_parsers.rs::unreserved"]}
{"id": "C97", "title": "Adding segments to a path appends them to its text", "statement": "add_part and add_parts append to the text of the path and keep its kind, with_parts sets the parts; a path or URI that was read, extended by segments, printed and read again is the extended value.", "quantifier": "all paths, all lists of segments, all accepted texts", "why_tests_cant": "All paths and lists of segments; the printed form can have another reading.", "anchors": ["uri/src/models/path.rs::add_part", "uri/src/models/path.rs::add_parts", "uri/src/models/path.rs::with_parts", "uri/src/models/path.rs::to_absolute", "uri/src/models/path.rs::is_empty", "uri/src/models/uri.rs::parse"]}
{"id": "C98", "title": "absolute_uri reads what uri reads, without the fragment", "statement": "absolute_uri succeeds exactly where uri succeeds, with the same scheme, hierarchical part and query and no fragment, and leaves exactly the fragment unread; it accepts exactly the URIs without fragment; such a URI has a scheme.", "quantifier": "all texts, all offsets", "why_tests_cant": "Infinitely many texts.", "anchors": ["uri/src/parsers/uri_parsers.rs::absolute_uri", "uri/src/parsers/uri_parsers.rs::uri", "uri/src/models/uri.rs::is_absolute"]}
{"id": "C99", "title": "HOCON documents are read as what they spell", "statement": "Every document of the HOCON notation (comments, layout, root with or without braces, '=' or ':' or a block directly after the key, commas or line ends, quoted and unquoted keys and strings, numbers, durations, references, arrays, objects) is read to the end as the value it spells, and spells no other value.", "quantifier": "all texts of the grammar", "why_tests_cant": "Infinitely many nested texts; ordered choice, attempt and the unquoted string can take a wrong turn anywhere.", "anchors": ["hocon/src/parsers.rs::hocon", "hocon/src/parsers.rs::property", "hocon/src/parsers.rs::config_value", "hocon/src/parsers.rs::array", "hocon/src/parsers.rs::object", "hocon/src/parsers.rs::string", "hocon/src/parsers.rs::comment"]}
{"id": "C100", "title": "A printed configuration reads back as itself", "statement": "The text that Display writes for a configuration is a HOCON document, and loading it gives the newest values of the configuration again, whatever the order in which the maps are visited.", "quantifier": "all values, all orders of map entries", "why_tests_cant": "Infinitely many nested values; iteration order is not fixed.", "anchors": ["hocon/src/model/config_value.rs::fmt", "hocon/src/model/config_object_value.rs::fmt", "hocon/src/model/config_array_value.rs::fmt", "hocon/src/model/time_unit.rs::fmt", "hocon/src/model.rs::parse_from_string", "hocon/src/parsers.rs::hocon"]}
{"id": "C101", "title": "Every JSON document is a HOCON document with the same value", "statement": "Every RFC 8259 text whose root is an object or an array is read by hocon, as the value that the text has in JSON.", "quantifier": "all JSON texts", "why_tests_cant": "Infinitely many texts.", "anchors": ["hocon/src/parsers.rs::hocon", "hocon/src/parsers.rs::array", "hocon/src/parsers.rs::object", "hocon/src/parsers.rs::string", "hocon/src/parsers.rs::number"]}
{"id": "C102", "title": "IPv6 addresses: what is accepted, what is printed", "statement": "At the end of the text, or before a character that cannot continue an address, the IPv6 parser accepts exactly the texts of RFC 4291 other than seven groups followed by '::', as the address they denote, and a text denotes one address; printing any address gives a text that is accepted as that address.", "quantifier": "all texts, all offsets, all addresses", "why_tests_cant": "2^128 addresses with many spellings each; nine alternatives with bounded repetition and commitment.", "anchors": ["uri/src/parsers/ip_v6_address_parsers.rs::ip_v6_address", "uri/src/parsers/ip_v6_address_parsers.rs::ip_v6_address1", "uri/src/parsers/ip_v6_address_parsers.rs::ip_v6_address9", "uri/src/parsers/ip_v6_address_parsers.rs::h16", "uri/src/parsers/ip_v6_address_parsers.rs::ls32"]}
{"id": "C103", "title": "URIs with any kind of host are read exactly and print back", "statement": "With the standard library's IPv6 functions, a text is accepted whole as a URI exactly when it is an RFC 3986 URI with that value, also with an IPv6 host and also for absolute_uri before a fragment; printing a parsed URI and reading the text gives the URI back. Provided that a registered name does not start with an IPv4 address and a path without authority does not start with '//'.", "quantifier": "all texts, all URIs", "why_tests_cant": "Infinitely many texts and 2^128 addresses.", "anchors": ["uri/src/models/uri.rs::parse", "uri/src/models/uri.rs::fmt", "uri/src/parsers/uri_parsers.rs::uri", "uri/src/parsers/uri_parsers.rs::absolute_uri", "uri/src/parsers/host_parsers.rs::host"]}
{"id": "C104", "title": "The benchmarked char reader reads JSON as the example does", "statement": "The JSON reader of the benchmark returns on every text, accepts exactly the documents that the json_char example accepts, with the same value, and the benchmarked function panics exactly on the other texts.", "quantifier": "all texts", "why_tests_cant": "Infinitely many texts; the alternatives are ordered differently and a trailing comma is optional.", "anchors": ["parser/benches/oni_comb_json.rs::oni_comb_parse_json", "parser/benches/oni_comb_json.rs::json", "parser/benches/oni_comb_json.rs::value", "parser/benches/oni_comb_json.rs::object", "parser/benches/oni_comb_json.rs::array", "parser/benches/oni_comb_json.rs::boolean"]}
{"id": "C105", "title": "The benchmarked byte reader reads the same documents", "statement": "The byte reader of the benchmark gives on the UTF-8 bytes of a text what the char reader gives on the text.", "quantifier": "all valid UTF-8 texts", "why_tests_cant": "Infinitely many texts and escapes.", "anchors": ["parser/benches/oni_comb_json.rs::oni_comb_parse_json_bytes", "parser/benches/oni_comb_json.rs::json_bytes", "parser/benches/oni_comb_json.rs::string_bytes", "parser/benches/oni_comb_json.rs::number_bytes", "parser/benches/oni_comb_json.rs::value_bytes"]}
{"id": "C106", "title": "Cron expressions can be evaluated at every time of the calendar", "statement": "At every time that chrono can represent an accepted expression without a step 0 evaluates to a verdict, and the times of a schedule are those of the unlimited calendar up to its end.", "quantifier": "all accepted expressions, all representable times, all iterators", "why_tests_cant": "A panic in a single month 260000 years ahead; the iterator can run into it from any start.", "anchors": ["crond/src/lib.rs::get_days_from_month", "crond/src/cron_evaluator.rs::eval", "crond/src/cron_interval_iterator.rs::next", "crond/src/cron_schedule.rs::upcoming"]}
{"id": "C107", "title": "A toys program means its last definitions", "statement": "Running a program runs the initialisers of the global variables in order, each with the functions defined before it, and then the body of the last function main with the last definition of every function; without a function main it panics.", "quantifier": "all lists of definitions, all step budgets", "why_tests_cant": "Infinitely many programs.", "anchors": ["toys/src/interpreter.rs::call_main", "toys/src/interpreter.rs::interpret"]}
{"id": "C108", "title": "The hocon parsers read nothing but HOCON texts", "statement": "When a text is parsed or loaded, the whole text was consumed and it is a document of a stated grammar whose reading gives the returned values: layout and comments, quoted and unquoted strings with JSON escapes, numbers, durations, references, arrays, objects with chained repeated keys, a root of merged members, inclusions. In particular its square brackets match if it has no comments.", "quantifier": "all texts, all decimal readers", "why_tests_cant": "Infinitely many texts; tests only show accepted texts that are meant to be accepted.", "anchors": ["hocon/src/parsers.rs::hocon", "hocon/src/parsers.rs::config", "hocon/src/parsers.rs::config_value", "hocon/src/parsers.rs::string", "hocon/src/parsers.rs::space_or_comment"]}
{"id": "C109", "title": "A duration lasts as long as it says", "statement": "The duration that a value of a configuration is converted to, or that a document with a number and a unit is read as, is as long as number and unit say; the conversion panics only where the type of durations ends.", "quantifier": "all decimals and units, all numbers of up to 28 digits, both types of durations", "why_tests_cant": "Infinitely many numbers; truncation and overflow are invisible on small whole numbers.", "anchors": ["hocon/src/model/config_duration_value.rs::to_std_duration", "hocon/src/model/config_duration_value.rs::to_duration", "hocon/src/model/config_value.rs::as_duration", "hocon/src/model/config_value.rs::as_std_duration", "hocon/src/model/config_number_value.rs::to_u64", "hocon/src/model/config_number_value.rs::to_i64", "hocon/src/parsers.rs::duration_value"]}
{"id": "C110", "title": "Durations put into a configuration come back", "statement": "A std or chrono duration converted to a configuration value and back is the same duration; in particular neither conversion panics.", "quantifier": "all durations of both types", "why_tests_cant": "2^64 * 10^9 durations; the failing ones are beyond 292 or 584 years.", "anchors": ["hocon/src/model/config_duration_value.rs::from", "hocon/src/model/config_duration_value.rs::to_std_duration", "hocon/src/model/config_duration_value.rs::to_duration", "hocon/src/model/config_number_value.rs::from"]}
{"id": "C111", "title": "The caches of the grammars change no result", "statement": "Parsing a text with the grammar of crond, of toys or of the JSON benchmark gives, for any addresses of the parse states, what the grammar without its caches gives.", "quantifier": "all texts, all assignments of addresses to cached calls", "why_tests_cant": "The keys of a cache confuse the offsets 0 and 1 and depend on addresses of stack frames; infinitely many texts.", "anchors": ["parser/src/internal/parsers_impl/cache_parsers_impl.rs::cache", "crond/src/cron_parser.rs::parse", "crond/src/cron_parser.rs::instruction", "toys/src/parsers.rs::program", "toys/src/parsers.rs::lines", "parser/benches/oni_comb_json.rs::json", "parser/benches/oni_comb_json.rs::json_bytes"]}
{"id": "C112", "title": "The order of queries agrees with equality", "statement": "Comparing two queries gives the order of their texts, byte by byte; it says equal exactly for equal queries.", "quantifier": "all pairs of queries", "why_tests_cant": "Infinitely many pairs; only keys or values with '=' or '&' show the difference.", "anchors": ["uri/src/models/query.rs::partial_cmp"]}
{"id": "C113", "title": "Combining configuration values keeps both", "statement": "Combining a value with another keeps the values of both, in order; objects are combined key by key and arrays are joined; contains tells which keys an object has.", "quantifier": "all values, all keys", "why_tests_cant": "Infinitely many values; the unit test combines two chains only.", "anchors": ["hocon/src/model/config_value.rs::combine", "hocon/src/model/config_object_value.rs::combine", "hocon/src/model/config_array_value.rs::combine", "hocon/src/model/config_value.rs::contains"]}
{"id": "C114", "title": "The hello_world example reads its greeting and nothing else", "statement": "The parser of the example accepts exactly the texts that start with 'hello world'; in quotes, with one space or tab between the words, and returns the text between the quotes; on every other text it fails without a panic.", "quantifier": "all byte texts", "why_tests_cant": "Infinitely many texts.", "anchors": ["parser/examples/hello_world.rs::main"]}
{"id": "C115", "title": "Numbers of a configuration convert to integers by truncation or not at all", "statement": "Converting a configuration number to an integer type gives the number rounded towards zero exactly when that belongs to the type; an integer put into a number comes back in every type it belongs to, without a panic.", "quantifier": "all decimals, all ten integer types, all integers of these types", "why_tests_cant": "2^97 decimals with 29 scales, ten types with two boundaries each.", "anchors": ["hocon/src/model/config_number_value.rs::to_i128", "hocon/src/model/config_number_value.rs::to_u128", "hocon/src/model/config_number_value.rs::to_i64", "hocon/src/model/config_number_value.rs::to_u64", "hocon/src/model/config_number_value.rs::to_i32", "hocon/src/model/config_number_value.rs::to_u32", "hocon/src/model/config_number_value.rs::to_i16", "hocon/src/model/config_number_value.rs::to_u16", "hocon/src/model/config_number_value.rs::to_i8", "hocon/src/model/config_number_value.rs::to_u8", "hocon/src/model/config_number_value.rs::from"]}
{"id": "C116", "title": "A typed toys program panics only in integer arithmetic", "statement": "A program of functions that follows a type discipline (variables are assigned before they are read, operands have the right types, calls pass enough arguments, a function assigns no variable of its callers) returns a value of the type of its main function, runs for ever, or panics in an integer operation that overflows or divides by zero; without these operations it never panics.", "quantifier": "all typed expressions and programs, all step budgets, with and without overflow checks", "why_tests_cant": "Infinitely many programs.", "anchors": ["toys/src/interpreter.rs::interpret", "toys/src/interpreter.rs::call_main", "toys/src/environment.rs::find_binding", "toys/src/values.rs::as_int", "toys/src/values.rs::as_bool"]}
{"id": "C117", "title": "The randomised tests pass on everything their generators produce", "statement": "Each randomised test of the uri and hocon crates (a parser followed by the end, applied to a generated text, returns a value that prints as the text) passes on every text its generator can produce.", "quantifier": "all texts of all generators (all 44 tests)", "why_tests_cant": "The tests draw a hundred texts each; the sets have more than 10^100 texts, and the failing ones are rare.", "anchors": ["uri/src/parsers/basic_parsers.rs::pchar", "uri/src/parsers/scheme_parsers.rs::scheme", "uri/src/parsers/port_parsers.rs::port", "uri/src/parsers/ip_v4_address_parsers.rs::ip_v4_address", "uri/src/parsers/ip_v6_address_parsers.rs::ip_v6_address", "uri/src/parsers/host_parsers.rs::host", "uri/src/parsers/user_info_parsers.rs::user_info", "uri/src/parsers/authority_parsers.rs::authority", "uri/src/parsers/path_parsers.rs::path", "uri/src/parsers/query_parsers.rs::query", "uri/src/parsers/fragment_parsers.rs::fragment", "uri/src/parsers/hier_part_parsers.rs::hier_part", "uri/src/parsers/uri_parsers.rs::uri", "hocon/src/parsers.rs::comment", "hocon/src/parsers.rs::path", "hocon/src/parsers.rs::include_config_value"]}
{"id": "C118", "title": "The URI parser accepts exactly the URIs whose parts keep apart", "statement": "Uri::parse reads a whole text as a URI exactly when the text is a writing of that URI by the grammar of RFC 3986 (with an optional scheme), its registered name does not start with an IPv4 address, and no authority can be read after two slashes at the start of a path without authority.", "quantifier": "all byte texts, all URIs", "why_tests_cant": "Infinitely many texts; the grammar is ambiguous only for rare texts.", "anchors": ["uri/src/parsers/uri_parsers.rs::uri", "uri/src/parsers/hier_part_parsers.rs::hier_part", "uri/src/parsers/authority_parsers.rs::authority", "uri/src/parsers/host_parsers.rs::host", "uri/src/models/uri.rs::parse"]}
{"id": "C119", "title": "A URI assembled from its parts is read back", "statement": "A URI made by the constructors, printed and parsed, gives the same URI, and its text is read to the end.", "quantifier": "all URIs of the Rust types", "why_tests_cant": "Infinitely many URIs; the tests only print what was parsed before.", "anchors": ["uri/src/models/uri.rs::new", "uri/src/models/uri.rs::fmt", "uri/src/models/uri.rs::parse", "uri/src/models/authority.rs::new", "uri/src/models/hier_part.rs::new", "uri/src/models/path.rs::of_absolute_from_strs", "uri/src/models/query.rs::new"]}
{"id": "C120", "title": "An error names a place of the text", "statement": "Every position named by an error of a parser, at any depth of wrapping, is a position of the input at or after the place where the parser started; two failures at one place name one position; the text an error carries is what was left of the input at the place of the failure.", "quantifier": "all parsers of the combinator closure without errors made by the program, all inputs, all positions", "why_tests_cant": "Three conventions for the position are in use, mixed by combination; the difference shows only for particular combinations and at the ends of the input.", "anchors": ["parser/src/core/parse_error.rs::input", "parser/src/internal/parsers_impl/element_parsers_impl.rs::elm_pred_ref", "parser/src/internal/parsers_impl/elements_parsers_impl.rs::seq", "parser/src/internal/parsers_impl/operator_parsers_impl.rs::not", "parser/src/internal/parsers_impl/repeat_parsers_impl.rs::repeat_sep", "parser/src/internal/parsers_impl/conversion_parsers_impl.rs::map_res", "parser/src/internal/parsers_impl/logging_parsers_impl.rs::name", "parser/src/internal/parsers_impl/logging_parsers_impl.rs::expect", "parser/src/internal/parsers_impl/primitive_parsers_impl.rs::end"]}
{"id": "C121", "title": "An interpreter can be used again", "statement": "Running a program a second time on the same interpreter gives the same value and the same output; what a run leaves behind are the variables its main function assigned and the functions it defined, and a later program that uses none of them behaves as on a new interpreter.", "quantifier": "all programs, all interpreters left by any sequence of runs, all step budgets, with and without overflow checks", "why_tests_cant": "Depends on what earlier programs left; tests make a new interpreter each.", "anchors": ["toys/src/interpreter.rs::new", "toys/src/interpreter.rs::reset", "toys/src/interpreter.rs::get_value", "toys/src/interpreter.rs::call_main", "toys/src/interpreter.rs::interpret"]}
{"id": "C122", "title": "A grammar can be rearranged without changing its meaning", "statement": "Sequences may be grouped in any way; a common beginning or a common end may be taken out of a choice; words may be cut into parts; repetitions may be unrolled and cut into counted parts; filters and tests of elements may be joined.", "quantifier": "all parsers, all inputs and positions, all words, counts and predicates", "why_tests_cant": "Laws about all pairs and triples of parsers; the exceptions need particular failures with particular commit status.", "anchors": ["parser/src/internal/parsers_impl/operator_parsers_impl.rs::and_then", "parser/src/internal/parsers_impl/operator_parsers_impl.rs::or", "parser/src/internal/parsers_impl/skip_parser_impl.rs::skip_left", "parser/src/internal/parsers_impl/skip_parser_impl.rs::skip_right", "parser/src/internal/parsers_impl.rs::flat_map", "parser/src/internal/parsers_impl.rs::filter", "parser/src/internal/parsers_impl/repeat_parsers_impl.rs::repeat_sep", "parser/src/internal/parsers_impl/elements_parsers_impl.rs::seq", "parser/src/internal/parsers_impl/element_parsers_impl.rs::elm_pred_ref"]}
{"id": "C123", "title": "A document may include files", "statement": "A document of includes, on one line or on several, loads to the merge of the named files in order, and a file may refer to what a file included before it defines; a document with an include contains nothing else; files that include each other never load.", "quantifier": "all documents, all contents of all files, all environments, all stack depths", "why_tests_cant": "Needs files that include further files; the tests contain no include at all outside of the parser of a single one.", "anchors": ["hocon/src/parsers.rs::include_method", "hocon/src/parsers.rs::include_config_value", "hocon/src/parsers.rs::config", "hocon/src/parsers.rs::hocon", "hocon/src/model.rs::load_from_file", "hocon/src/model.rs::parse_from_string", "hocon/src/model.rs::resolve_stage0", "hocon/src/model/config_value.rs::resolve"]}
{"id": "C124", "title": "Comments and blank lines do not change a configuration", "statement": "A document reads and loads in the same way with and without comments, empty lines and indentation before it and between its tokens.", "quantifier": "all documents, all blocks of comments and white space", "why_tests_cant": "Which sequences of comments and white space are skipped depends on their order; tests contain few comments and none after each other with indentation.", "anchors": ["hocon/src/parsers.rs::comment", "hocon/src/parsers.rs::space", "hocon/src/parsers.rs::space_or_comment", "hocon/src/parsers.rs::hocon", "hocon/src/parsers.rs::config_value", "hocon/src/parsers.rs::enumeration_config_value", "hocon/src/model.rs::parse_from_string"]}
{"id": "C125", "title": "Strings and references next to each other are concatenated", "statement": "A value made of several strings and references one after the other is read as an enumeration of these, and resolves to the concatenation of their texts.", "quantifier": "all documents", "why_tests_cant": "The alternative for enumerations stands behind alternatives that accept the beginnings of its texts; whether it is ever reached is a question about all texts.", "anchors": ["hocon/src/parsers.rs::enumeration_config_value", "hocon/src/parsers.rs::config_value", "hocon/src/parsers.rs::string_config_value", "hocon/src/parsers.rs::reference_config_value", "hocon/src/model.rs::parse_from_string"]}
{"id": "C126", "title": "Loading ends", "statement": "Loading a text without includes in which no reference needs itself ends: it returns an error, a configuration, or panics because a needed reference is not defined; the size of the stack decides only whether it ends, not the outcome.", "quantifier": "all texts without includes and without a blank after a comment line, all environments, all stack depths", "why_tests_cant": "Termination for all references that form no cycle, whatever their number and depth.", "anchors": ["hocon/src/parsers.rs::hocon", "hocon/src/model.rs::parse_from_string", "hocon/src/model.rs::resolve_stage0", "hocon/src/model.rs::resolve_stage1", "hocon/src/model/config_value.rs::resolve", "hocon/src/model/config_value.rs::get_value"]}
{"id": "C127", "title": "A grammar does not look back", "statement": "The answer of each grammar of the repository at a position depends only on the text from that position on: it is the answer at the start of this text.", "quantifier": "the grammars of json, the benchmark, calculator, cron, uri, toys and hocon, all texts, all positions", "why_tests_cant": "Every parser gets the whole input and an offset; one slice taken from the wrong place shows only for particular texts before the position.", "anchors": ["parser/src/core/parse_state.rs::input", "parser/src/core/parse_state.rs::slice_with_len", "parser/examples/json_byte.rs::json", "parser/examples/json_char.rs::json", "parser/examples/calculator.rs::calculator", "crond/src/cron_parser.rs::instruction", "uri/src/parsers/uri_parsers.rs::uri", "toys/src/parsers.rs::program", "hocon/src/parsers.rs::hocon"]}
{"id": "C128", "title": "Parts of a grammar can be exchanged", "statement": "Exchanging parts of a grammar, at any number of places and any depth, for parts with the same results changes no result; names, expectations and log calls may be added and left out anywhere without changing what is accepted, the value, the length or the commit status; and a part that returns where the old one ran for ever changes no result that was returned.", "quantifier": "all parsers, all contexts made of the combinators, all inputs and positions", "why_tests_cant": "A statement about all contexts; a combinator that inspects the error or runs its part twice breaks it only in particular contexts.", "anchors": ["parser/src/internal/parsers_impl.rs::flat_map", "parser/src/internal/parsers_impl.rs::filter", "parser/src/internal/parsers_impl.rs::map", "parser/src/internal/parsers_impl/operator_parsers_impl.rs::or", "parser/src/internal/parsers_impl/operator_parsers_impl.rs::not", "parser/src/internal/parsers_impl/operator_parsers_impl.rs::rest_left1", "parser/src/internal/parsers_impl/repeat_parsers_impl.rs::repeat_sep", "parser/src/internal/parsers_impl/logging_parsers_impl.rs::name", "parser/src/internal/parsers_impl/logging_parsers_impl.rs::expect", "parser/src/internal/parsers_impl/logging_parsers_impl.rs::log_map"]}
{"id": "C129", "title": "A recursive grammar is determined by its equation", "statement": "Each recursive grammar of the repository (JSON, the benchmark, the calculator, toys expressions and lines, HOCON values and properties) is the only parser that satisfies its equation; as many levels of the recursion as elements are left, and one more, give its result. A grammar whose recursive reference comes first never returns.", "quantifier": "all guarded recursive grammars and those of the repository, all inputs and positions, all depths of recursion", "why_tests_cant": "Holds because every way from a rule back to itself consumes something: one alternative that does not makes the grammar run for ever on particular texts.", "anchors": ["parser/src/internal/parsers_impl/lazy_parsers_impl.rs::lazy", "parser/examples/json_byte.rs::value", "parser/examples/json_char.rs::value", "parser/benches/oni_comb_json.rs::value", "parser/examples/calculator.rs::primary", "toys/src/parsers.rs::expression", "toys/src/parsers.rs::line", "hocon/src/parsers.rs::config_value", "hocon/src/parsers.rs::property"]}
{"id": "C130", "title": "A JSON number is read as the closest double", "statement": "Every JSON number text is accepted, wherever it stands, and its value is the double closest to the decimal number it denotes, the even one of two equally close ones, with its sign also for zero; so doubles, and integers up to 2^53, are read exactly.", "quantifier": "all number texts, all documents", "why_tests_cant": "Infinitely many texts; a slip in the sign, the exponent or the fraction shows on particular numbers.", "anchors": ["parser/examples/json_byte.rs::number", "parser/examples/json_char.rs::number", "parser/examples/json_char.rs::value"]}
{"id": "C131", "title": "The numbers of a JSON document are finite", "statement": "Every number of a document that is read is a finite double.", "quantifier": "all documents", "why_tests_cant": "JSON has no infinity; only numbers beyond the range of doubles show it.", "anchors": ["parser/examples/json_byte.rs::number", "parser/examples/json_char.rs::number"]}
{"id": "C132", "title": "The calls of the JSON examples nest as deep as the text does", "statement": "Reading a text nests calls in proportion to how deep its brackets nest, however long it is and whether it is accepted or not.", "quantifier": "all texts, both JSON examples", "why_tests_cant": "How deep the stack must be for all texts of a nesting; a test sees only that its own texts do not overflow.", "anchors": ["parser/examples/json_byte.rs::json", "parser/examples/json_char.rs::json", "parser/src/internal/parsers_impl/repeat_parsers_impl.rs::repeat_sep", "parser/src/internal/parsers_impl/operator_parsers_impl.rs::or", "parser/src/internal/parsers_impl/lazy_parsers_impl.rs::lazy"]}
{"id": "C133", "title": "The calls of the calculator nest as deep as the parentheses do", "statement": "Reading an expression nests calls in proportion to how deep its parentheses and signs nest, however many operators it has.", "quantifier": "all texts", "why_tests_cant": "A chain of operators looks like a loop; that it is a recursion shows only when a long sum overflows the stack.", "anchors": ["parser/examples/calculator.rs::additive", "parser/examples/calculator.rs::multitive", "parser/src/internal/parsers_impl/operator_parsers_impl.rs::rest_left1", "parser/src/internal/parsers_impl/operator_parsers_impl.rs::chain_left1"]}
{"id": "C134", "title": "The JSON examples read a text with a number of calls in proportion to its length", "statement": "No text makes the JSON examples read its parts again and again: the number of parsers run is at most linear in the length of the text, accepted or not.", "quantifier": "all texts, both JSON examples", "why_tests_cant": "Backtracking that doubles with every level of nesting is invisible in small texts.", "anchors": ["parser/examples/json_byte.rs::json", "parser/examples/json_char.rs::json", "parser/src/internal/parsers_impl/repeat_parsers_impl.rs::repeat_sep", "parser/src/internal/parsers_impl/operator_parsers_impl.rs::or"]}
{"id": "C135", "title": "Results and errors tell what happened", "statement": "An error is of exactly one kind, and the kind is the one that belongs to what went wrong; mapping a result respects identity and composition and leaves the commit status alone; parse of the trait returns the value or one and the same error.", "quantifier": "all parsers, results and errors", "why_tests_cant": "Laws over all results and functions; tests look at single errors.", "anchors": ["parser/src/core/parse_error.rs::is_mismatch", "parser/src/core/parse_error.rs::is_in_complete", "parser/src/core/parse_result.rs::map", "parser/src/core/parse_result.rs::map_err", "parser/src/core/parse_result.rs::to_result", "parser/src/core/parse_result.rs::success", "parser/src/core/parsers.rs::parse"]}
{"id": "C136", "title": "The calculator reads a text with a number of calls in proportion to its length", "statement": "No text makes the calculator read its parts again and again: the number of parsers run is at most linear in the length of the text, accepted or not.", "quantifier": "all texts", "why_tests_cant": "A sign or parenthesis that is tried again at every level doubles the work with each level; small texts do not show it.", "anchors": ["parser/examples/calculator.rs::primary", "parser/examples/calculator.rs::additive", "parser/src/internal/parsers_impl/operator_parsers_impl.rs::rest_left1", "parser/src/internal/parsers_impl/operator_parsers_impl.rs::or"]}
{"id": "C137", "title": "What a toys program writes tells the values it printed", "statement": "The text on standard output determines the values that were printed, and reading the text of a value back as a literal gives the value; the programs of the examples write exactly the lines they compute.", "quantifier": "all values and programs", "why_tests_cant": "Injectivity of the text over all values; tests look at a few lines.", "anchors": ["toys/src/values.rs::fmt", "toys/src/interpreter.rs::interpret"]}
{"id": "C138", "title": "A toys program that ends normally never runs a function inside itself", "statement": "A function that is entered while it is running does not return: since a call cannot pass arguments and cannot assign variables of the frames around it, it panics or runs for ever. So at any time of a program that ends normally the running functions are all different, and no more calls are running than functions are defined; in a run that ends with a panic their number is bounded by the functions and variables of the program.", "quantifier": "all programs, functions and states", "why_tests_cant": "About every run of every program; a test sees single programs.", "anchors": ["toys/src/interpreter.rs::interpret", "toys/src/interpreter.rs::call_main", "toys/src/environment.rs::find_binding"]}
{"id": "C139", "title": "The toys parsers take time polynomial in the length of a program", "statement": "The number of calls of the parsers made by program() and lines() on a text is bounded by a polynomial in the length of the text, for accepted and for rejected texts. (False: every if tries the line behind else again that the if inside it has already tried, and a block that does not end contains such ifs again; the calls double with every 17 characters.)", "quantifier": "all texts and all addresses of cache keys", "why_tests_cant": "Each test text is read at once; only a family of growing texts shows the doubling, and only a proof that the caches do not remove it for any text or address.", "anchors": ["toys/src/parsers.rs::if", "toys/src/parsers.rs::block", "toys/src/parsers.rs::line", "toys/src/parsers.rs::program", "parser/src/internal/parsers_impl/cache_parsers_impl.rs::cache"]}
{"id": "C140", "title": "The hocon parser takes time polynomial in the length of a document", "statement": "The number of parsers run by hocon() on a text is bounded by a polynomial in the length of the text, at least when the text is accepted. (False: an object that is not closed is tried as an object with everything behind it, then read as the string of its brace, and the lines behind it are read again; the calls double with every line a={ .)", "quantifier": "all texts", "why_tests_cant": "Each test document is read at once; only a family of growing documents shows the doubling, and only a proof shows it for all of them.", "anchors": ["hocon/src/parsers.rs::property", "hocon/src/parsers.rs::object", "hocon/src/parsers.rs::config_value", "hocon/src/parsers.rs::simple_config_value", "hocon/src/parsers.rs::config", "hocon/src/parsers.rs::hocon"]}
{"id": "C141", "title": "The text of an error tells what went wrong and where", "statement": "The text that Display writes for a ParseError determines its kind, place and message and those of all errors inside it; name and expect keep the text of the error they wrap; input_string is the text of input(). (False: messages can imitate the text of other errors, and bytes that are not UTF-8 by themselves are shown as nothing.)", "quantifier": "all errors", "why_tests_cant": "Injectivity over all nestings of errors; tests compare single texts.", "anchors": ["parser/src/core/parse_error.rs::fmt", "parser/src/core/parse_error.rs::input_string", "parser/src/core/parse_error.rs::input", "parser/src/internal/parsers_impl/logging_parsers_impl.rs::name", "parser/src/internal/parsers_impl/logging_parsers_impl.rs::expect"]}
{"id": "C142", "title": "The URI parser reads a text with a number of calls in proportion to its length and a bounded depth of calls", "statement": "The number of parsers run by uri() and absolute_uri() on a text is at most linear in the length of the text, accepted or not, and the number of parsers active at one time is bounded whatever the text is.", "quantifier": "all texts, and whatever Ipv6Addr::from_str does", "why_tests_cant": "The alternatives of hosts and paths are tried again from their beginning; that this never multiplies needs an argument about all texts.", "anchors": ["uri/src/parsers/uri_parsers.rs::uri", "uri/src/parsers/uri_parsers.rs::absolute_uri", "uri/src/parsers/hier_part_parsers.rs::hier_part", "uri/src/parsers/host_parsers.rs::host", "uri/src/parsers/query_parsers.rs::query", "uri/src/parsers/path_parsers.rs::path_abempty"]}
{"id": "C143", "title": "The cron parser reads a text with a number of calls in proportion to its length and a bounded depth of calls", "statement": "The number of parsers run by CronParser::parse on a text is at most linear in the length of the text, accepted or not, and the number of parsers active at one time is bounded whatever the text is.", "quantifier": "all texts", "why_tests_cant": "Each field tries a list of ranges, then numbers, then asterisks from its beginning; that this never multiplies needs an argument about all texts.", "anchors": ["crond/src/cron_parser.rs::instruction", "crond/src/cron_parser.rs::list", "crond/src/cron_parser.rs::asterisk_per", "crond/src/cron_parser.rs::parse"]}
{"id": "C144", "title": "The depth of calls of the hocon parser is in proportion to the brackets of the text", "statement": "The number of parsers of hocon() active at one time is at most a constant for each opening brace or bracket of the text and a constant besides, accepted or not, whatever the length of the text; and it is at least in proportion to how deep the arrays and objects of the configuration read contain one another.", "quantifier": "all texts", "why_tests_cant": "A test reads documents of some depth; that nothing but brackets makes the stack grow, also in texts that are rejected late, needs an induction over the grammar.", "anchors": ["hocon/src/parsers.rs::config_value", "hocon/src/parsers.rs::property", "hocon/src/parsers.rs::object", "hocon/src/parsers.rs::array", "hocon/src/parsers.rs::config", "hocon/src/parsers.rs::hocon"]}
{"id": "C145", "title": "The time of the hocon parser at most doubles with each bracket or comment sign of the text", "statement": "The number of calls of parsers in a run of hocon() is at most a constant times the cube of the length of the text, doubled for each of its characters that open an object, an array or a comment, whether the text is accepted or not; so texts with a limited number of those are read in time polynomial in their length.", "quantifier": "all texts", "why_tests_cant": "A test times some documents; that nothing but an opening bracket or a comment makes any part of any text be read again needs a potential argument over the grammar.", "anchors": ["hocon/src/parsers.rs::config_value", "hocon/src/parsers.rs::property", "hocon/src/parsers.rs::object", "hocon/src/parsers.rs::array", "hocon/src/parsers.rs::space_or_comment", "hocon/src/parsers.rs::config", "hocon/src/parsers.rs::hocon"]}
{"id": "C146", "title": "The log lists the runs of the logged parsers", "statement": "debug, info, warn, error and log change no result. A repetition of a logged parser writes one line for each value it returns and then one for the run that ended it, with the name, the level and the result; a run that panics has no line, those before it have. Reading an accepted cron expression writes exactly the debug lines of the places in its hours where a single digit is tried: a lone hour of one digit and a star twice, a bound or step of one digit once, hours of two digits and the other fields nothing.", "quantifier": "all parsers, texts, names and levels; all cron expressions; any Debug text", "why_tests_cant": "Tests look at results and never at the log; how often a line is written depends on how the alternatives backtrack.", "anchors": ["parser/src/internal/parsers_impl/logging_parsers_impl.rs::log_map", "parser/src/extension/parsers/logging_parsers.rs::log", "parser/src/internal/parsers_impl/repeat_parsers_impl.rs::repeat_sep", "parser/src/internal/parsers_impl/operator_parsers_impl.rs::or", "crond/src/cron_parser.rs::hour_digit", "crond/src/cron_parser.rs::instruction"]}
{"id": "C147", "title": "The depth of calls of the toys parsers is in proportion to the opening brackets and operators of the text", "statement": "The number of parsers of lines() and program() active at one time is at most 33 for each opening bracket and each operator character of the text and a constant besides, accepted or not, whatever the length of the text; for lines() calls inside one another reach this bound exactly.", "quantifier": "all texts; all digit classes (exactness: those with the ASCII digits)", "why_tests_cant": "A test runs programs of some depth; that neither the number of lines nor long names, strings or numbers make the stack grow, also in texts that are rejected late, needs an induction over the grammar.", "anchors": ["toys/src/parsers.rs::lines", "toys/src/parsers.rs::program", "toys/src/parsers.rs::line", "toys/src/parsers.rs::expression", "toys/src/parsers.rs::primary", "toys/src/parsers.rs::function_call", "toys/src/parsers.rs::string_literal"]}
{"id": "C148", "title": "The calls of the toys parsers grow with the square of the text, times a power in its opening brackets", "statement": "The number of parsers called by lines() and program() is at most 512 * 512 * (length + 1)^2 * 16^b for a text with b opening brackets, accepted or not: exponential work needs brackets, and texts of at most k brackets take at most quadratic time.", "quantifier": "all texts; all digit classes with the ASCII digits", "why_tests_cant": "C139 shows texts on which the work doubles every 17 characters; that nothing but brackets can do this, for names, strings, operators and lines in any number and order, also in texts rejected late, is a statement about all texts.", "anchors": ["toys/src/parsers.rs::lines", "toys/src/parsers.rs::program", "toys/src/parsers.rs::line", "toys/src/parsers.rs::expression", "toys/src/parsers.rs::primary", "toys/src/parsers.rs::r#if", "toys/src/parsers.rs::block"]}
{"id": "C149", "title": "Within one parse no cache finds an answer", "statement": "While the cron parser, lines() and program() of toys or the JSON benchmark parsers read one text, no parser wrapped in cache() is run at a key it has an answer for, wherever the states of the parse are put in memory: with caches that panic on a hit the outcomes are the same and never a panic. The caches can only matter when a parser object is used for several texts.", "quantifier": "all texts; all placements of the states at addresses, all at one address included; all digit classes with the ASCII digits", "why_tests_cant": "A test cannot see whether a result came from the map; whether some text makes an object run twice at one offset depends on how the alternatives backtrack and on keys that coincide (offsets 0 and 1).", "anchors": ["parser/src/internal/parsers_impl/cache_parsers_impl.rs::cache", "parser/src/core/parse_state.rs::last_offset", "crond/src/cron_parser.rs::instruction", "toys/src/parsers.rs::lines", "toys/src/parsers.rs::program", "toys/src/parsers.rs::line", "toys/src/parsers.rs::assignment", "toys/src/parsers.rs::expression_line", "parser/benches/oni_comb_json.rs::json"]}
{"id": "C150", "title": "A parser object with caches can be used for several texts only while the addresses of its states are new", "statement": "One object of the cron parser, of lines() or program() of toys or of the JSON benchmark parsers, run on any number of texts one after the other, reads each of them like a new object, when no parse state of a later text has an address that a state of an earlier text had. Without this it does not: states at the address of those before make the benchmark parser answer with its earlier value for every text of the same length and indentation, JSON or not, and the cron and program parsers return an earlier schedule or program for a different text.", "quantifier": "all sequences of texts; all placements of the states; all digit classes with the ASCII digits", "why_tests_cant": "The key of a cache is the address of a state on the stack and an offset; a test cannot place the states, and whether an answer is stale shows only for particular pairs of texts.", "anchors": ["parser/src/internal/parsers_impl/cache_parsers_impl.rs::cache", "parser/src/core/parse_state.rs::last_offset", "parser/src/internal/parser_impl/parser_runner_impl.rs::run", "crond/src/cron_parser.rs::instruction", "toys/src/parsers.rs::lines", "toys/src/parsers.rs::program", "parser/benches/oni_comb_json.rs::json"]}
{"id": "C151", "title": "A parser object with caches reads one text the same way every time", "statement": "One object of the cron parser, of lines() or program() of toys or of the JSON benchmark parsers, run on one text any number of times, gives the outcome of the parser without caches every time, wherever the parse states are put in memory: the answers found in the maps are those of the text, although offsets 0 and 1 share a key.", "quantifier": "all texts; all numbers of readings; all placements of the states, all at one address included; all digit classes with the ASCII digits", "why_tests_cant": "Which answers are found depends on the addresses of states on the stack, which a test cannot place; the shared key of the offsets 0 and 1 would show only for an object that is run at 0 in one part of a reading and at 1 in another.", "anchors": ["parser/src/internal/parsers_impl/cache_parsers_impl.rs::cache", "parser/src/core/parse_state.rs::last_offset", "parser/src/internal/parser_impl/parser_runner_impl.rs::run", "crond/src/cron_parser.rs::instruction", "toys/src/parsers.rs::lines", "toys/src/parsers.rs::program", "parser/benches/oni_comb_json.rs::json"]}
{"id": "C152", "title": "What the toys parsers write to the log", "statement": "The debug calls of the toys parsers change nothing in what lines() and program() read. Every line written has the level debug and tells the outcome of (mul() | div()) or of the head of a for loop at some place of the text, or the rest of the text at some place, which regex writes before it matches. For each multiplication and division of the tree that is read there is a line of its own that tells of an operator found. For a product of numbers the log is exactly, for each number in the order of the text, the rest of the text from its beginning and the outcome of the operator behind it. When the product begins with a name, the log begins with four times the text, one for each alternative of primary that reads a name or a number, found or not. When a text of lines() begins with for, the log has the outcome of the head of the loop, whether the text is accepted or not.", "quantifier": "all texts, accepted or rejected; all renderings of the results; all digit classes with the ASCII digits", "why_tests_cant": "The log goes to a global logger that tests do not read; which lines a text leaves depends on how the alternatives backtrack.", "anchors": ["toys/src/parsers.rs::multitive", "toys/src/parsers.rs::r#for", "toys/src/parsers.rs::lines", "toys/src/parsers.rs::program", "parser/src/internal/parsers_impl/logging_parsers_impl.rs::log_map", "parser/src/internal/parsers_impl/elements_parsers_impl.rs::regex"]}
{"id": "C153", "title": "The log of the toys parsers is at most polynomially longer than the text", "statement": "There is a polynomial such that program() and lines() of toys write at most that many debug lines for a text of a given length. Every expression that is read leaves at least one line of an operator tried.", "quantifier": "all texts; all polynomials; all digit classes with the ASCII digits", "why_tests_cant": "The texts that double the log are nested ifs with a broken end, which no test has, and the log goes to a global logger that tests do not read.", "anchors": ["toys/src/parsers.rs::multitive", "toys/src/parsers.rs::r#if", "toys/src/parsers.rs::lines", "toys/src/parsers.rs::program", "parser/src/internal/parsers_impl/logging_parsers_impl.rs::log_map"]}
{"id": "C154", "title": "What the calculator writes to the log", "statement": "The debug line of regex changes nothing in what the example calculator reads. For a text that is accepted, the log has exactly one line for each number of the tree, in the order of the text, and each tells the text from its number on. For any text, accepted or not, every line tells the text from some place on and no place is told twice, so that there are at most as many lines as characters and one. A text that begins with neither a sign nor a parenthesis nor layout has a first line that tells the whole text, also when no number stands there.", "quantifier": "all texts, accepted or rejected; all renderings of characters; all conversions to decimals; all digit classes with the ASCII digits", "why_tests_cant": "The log goes to a global logger that no test reads, and which places are tried depends on how the alternatives of primary backtrack over texts that the two tests of the example do not have.", "anchors": ["parser/examples/calculator.rs::calculator", "parser/examples/calculator.rs::primary", "parser/examples/calculator.rs::value", "parser/src/internal/parsers_impl/elements_parsers_impl.rs::regex"]}
{"id": "C155", "title": "The log of the calculator is at most of the order of the square of the text", "statement": "If characters are shown as a text at most a times as long and b besides, the calculator writes at most (n + 1)(15 + b) + a n (n + 1) / 2 characters to the log for a text of n characters, accepted or not. Texts of opening parentheses only reach this bound exactly; a sum of k + 1 ones, which has 2k + 1 characters and is accepted, leaves k + 1 lines of at least (k + 1)^2 characters besides their beginnings, so that no lower order holds.", "quantifier": "all texts, accepted or rejected; all renderings of characters of linear length; all conversions to decimals; all digit classes with the ASCII digits", "why_tests_cant": "Each call of regex writes the whole rest of the text; that no text is told more than once from any place, also when alternatives are given up late, is a statement about all texts, and no test reads the log.", "anchors": ["parser/examples/calculator.rs::calculator", "parser/examples/calculator.rs::primary", "parser/examples/calculator.rs::value", "parser/src/internal/parsers_impl/elements_parsers_impl.rs::regex"]}
{"id": "C156", "title": "Only opening brackets make the log of the toys parsers long", "statement": "lines() and program() write at most one line to the log for each parser they call, so at most 512 * 512 * (length + 1)^2 * 16^b lines for a text with b opening brackets, accepted or not; texts of at most k brackets leave at most quadratically many lines. A power in the brackets is needed: for every d there is a text with 3d + 4 opening brackets that leaves at least 2^(d + 1) lines.", "quantifier": "all texts, accepted or rejected; all renderings of the results; all digit classes with the ASCII digits", "why_tests_cant": "C153 shows texts whose log doubles every 17 characters; that without brackets no such text exists, whatever names, operators, strings and lines it has and wherever it is rejected, is a statement about all texts, and no test reads the log.", "anchors": ["toys/src/parsers.rs::lines", "toys/src/parsers.rs::program", "toys/src/parsers.rs::multitive", "toys/src/parsers.rs::r#for", "parser/src/internal/parsers_impl/logging_parsers_impl.rs::log_map", "parser/src/internal/parsers_impl/elements_parsers_impl.rs::regex"]}
