# Properties added while the model grew.
p("C57", "Texts of the URI grammar are read with the value they spell, and a parsed URI survives printing and reading",
  "Every text of the URI grammar is accepted completely and gives the URI it spells; reading the printed form of a parsed URI gives the URI back.",
  "all texts of the grammar, all parsed URIs",
  "The grammar is infinite; a test sees single texts and not the interplay of the ordered alternatives.",
  ["uri/src/parsers/uri_parsers.rs", "uri/src/parsers/hier_part_parsers.rs", "uri/src/parsers/authority_parsers.rs", "uri/src/parsers/host_parsers.rs"])
p("C58", "IPv6 literals: accepted texts spell the returned address, and every IPv6 text is accepted",
  "ip_v6_address returns the address that the consumed text spells (RFC 4291), and accepts every IPv6 text.",
  "all texts",
  "Nine ordered alternatives with repetition bounds; tests pick a few shapes.",
  ["uri/src/parsers/ip_v6_address_parsers.rs"])
p("C59", "JSON objects with repeated member names keep the last one",
  "Reading an object text returns a map with distinct keys in which every name has the value of the last member with that name, and no other names.",
  "all RFC 8259 object texts",
  "The number of members and repetitions is unbounded; a test shows single objects.",
  ["parser/examples/json_byte.rs", "parser/examples/json_char.rs"])
p("C60", "JSON strings: escapes and surrogates are decoded, results are valid UTF-8",
  "A pair of surrogate escapes denotes the one character it encodes, a lone surrogate escape becomes U+FFFD, and all strings and names of a returned value are valid UTF-8.",
  "all input texts, all pairs of escapes",
  "65536^2 escape pairs and all mixtures of raw bytes and escapes; tests pick a few.",
  ["parser/examples/json_byte.rs", "parser/examples/json_char.rs"])
p("C61", "Assigning a variable in scope changes that variable",
  "Evaluating x = e when x is visible gives x the value of e for all later reads and leaves all other variables alone.",
  "all environments with any number of frames, all expressions",
  "Depends on the frame in which the variable lives and on what e does; tests use one frame.",
  ["toys/src/interpreter.rs", "toys/src/environment.rs"])
p("C62", "Global variable definitions are visible in main",
  "After loading a program, every global variable is bound to the value of its initialiser.",
  "all programs",
  "All definition lists.",
  ["toys/src/interpreter.rs::call_main"])
p("C63", "The interpreter handles every expression the parser builds",
  "Evaluation panics only because of a property of the program (unbound name, wrong kind of value, arithmetic error), never because the interpreter does not know a construct.",
  "all expressions, states",
  "All expressions; the interpreter has a catch-all panic.",
  ["toys/src/interpreter.rs::interpret", "toys/src/expr.rs"])
p("C64", "The logical operators evaluate their second operand only if needed",
  "false && e and true || e do not evaluate e; otherwise the value is the conjunction or disjunction.",
  "all operands, states",
  "All operands with all effects (output, assignment, panic, divergence).",
  ["toys/src/interpreter.rs::interpret"])
p("C65", "A for loop runs its body once for each value of the range, in order",
  "for (x in a to b) body runs body with x = a, a+1, ..., b-1, if body does not assign x.",
  "all bounds, bodies, states",
  "Any number of iterations and any body.",
  ["toys/src/parsers.rs::for", "toys/src/interpreter.rs::interpret"])
p("C66", "Integer values stay within 64 bits",
  "Starting from 64-bit literals and states, all values produced, stored and printed are 64-bit integers (or evaluation panics).",
  "all programs, both overflow modes",
  "All programs and operand values.",
  ["toys/src/interpreter.rs::interpret"])
H = "hocon/src/"
p("C67", "The HOCON parser returns on every text",
  "Parsing any text returns (success, error or panic) and never reads past its end.",
  "all texts, any nesting", "Unbounded nesting and repetition.", [H + "parsers.rs::hocon"])
p("C68", "Resolving references terminates",
  "Loading any text that parses returns.", "all texts",
  "All reference graphs, including cyclic ones.", [H + "model/config_value.rs::resolve"])
p("C69", "A dotted key is the same as nested objects",
  "a.b = v and a { b = v } give the same configuration, whatever other keys stand beside or above.",
  "all keys, values, surrounding objects", "All combinations with sibling and parent keys.", [H + "model/config_value.rs::resolve"])
p("C70", "Each line defines the key it begins with",
  "After k = v on a line of its own, the next line defines the key written on it.",
  "all documents", "All pairs of adjacent lines.", [H + "parsers.rs::config", H + "parsers.rs::time_unit"])
p("C71", "Duration units are read and converted correctly",
  "A number followed by a unit (symbol or spelt out) is that many of that unit; the conversion is exact or reports an overflow.",
  "all numbers and units", "All 64-bit values and all unit spellings.",
  [H + "parsers.rs::time_unit", H + "model/config_duration_value.rs::to_std_duration"])
p("C72", "An optional reference that is found nowhere keeps the previous value",
  "In k = a, ..., k = b, k = ${?x} with x undefined, the value of k is b.",
  "all values and numbers of repetitions", "Any number of earlier values.", [H + "model/config_value.rs::resolve", H + "model/config_value.rs::prev_latest"])
p("C73", "A chain of values keeps all of them in order",
  "Repeated keys within braces keep every value, the oldest first; to_vec returns exactly them.",
  "all lists of values", "Any number of values.", [H + "model/config_value.rs::push", H + "model/config_value.rs::to_vec", H + "parsers.rs::object"])
p("C74", "include loads the named file",
  "include file(\"name\") has the meaning of the contents of the file called name.",
  "all documents and file systems", "All file contents.", [H + "parsers.rs::include", H + "model/config_value.rs::resolve"])
p("C75", "Resolution leaves a configuration without references unchanged",
  "Resolving a value that contains no reference, include or enumeration returns that value.",
  "all values of any depth", "Unbounded depth.", [H + "model/config_value.rs::resolve"])
p("C76", "The result does not depend on the iteration order of hash maps",
  "Merging and expansion of dotted keys give the same lookups for every iteration order of the maps involved.",
  "all maps and all orders", "The order is randomised per process.", [H + "model/config_object_value.rs::merge_with", H + "model/config_value.rs::resolve"])
p("C77", "A loaded configuration contains no unresolved reference",
  "If loading succeeds, no value of the result is a reference, include or enumeration.",
  "all documents", "All documents.", [H + "model/config_value.rs::resolve"])
CA = "parser/examples/calculator.rs::"
p("C78", "The calculator accepts exactly the arithmetic expressions",
  "A text is accepted exactly if all of it is an expression; * and / bind tighter than + and -, each level associates to the left, a sign binds tightest, and the tree is unique; every run returns.",
  "all texts, all nesting depths", "Unbounded nesting and length.", [CA + "calculator", CA + "additive", CA + "multitive", CA + "primary", CA + "unary"])
p("C79", "The calculator ignores white space between tokens",
  "Inserting white space before, behind or between tokens of an accepted expression does not change the result.",
  "all expressions and all positions", "All positions in all expressions.", [CA + "space", CA + "value", CA + "primary"])
p("C80", "Parsing and evaluating gives the value of the text",
  "The value computed for the parsed tree is the value of the text by the usual rules of arithmetic, or none if an operation has no result.",
  "all expressions, all arithmetic operations", "All expressions.", [CA + "eval", CA + "calculator"])
TP = "toys/src/parsers.rs::"
p("C81", "The toys parsers return on every text",
  "Parsing a program, a list of lines, a line or an expression ends with success or failure: no panic and no unbounded recursion; the recursion depth is bounded by the length of the text.",
  "all texts", "Unbounded nesting; mutual recursion through lazy parsers.", [TP + "program", TP + "lines", TP + "line", TP + "expression", TP + "primary"])
p("C82", "What the toys parsers accept is a text of the language, and the result is its tree",
  "The consumed text is, apart from leading white space, derivable in the grammar of definitions, statements and expressions with four operator levels, and the returned tree is the derived one; lines consumes the whole input.",
  "all texts", "All texts, all nesting depths.", [TP + "program", TP + "lines", TP + "line", TP + "expression", TP + "comparative", TP + "additive", TP + "moditive", TP + "multitive"])
p("C83", "The toys parsers accept every text of the language with one tree",
  "Every text of the strict grammar (names that do not collide with true/false, keywords not called, else separated) is accepted completely with its tree, whatever admissible text follows; the strict grammar is unambiguous.",
  "all texts of the strict grammar", "Ordered choice and commit interact; infinitely many texts.", [TP + "program", TP + "lines", TP + "line", TP + "expression", TP + "primary"])
p("C84", "Syntax errors of a toys program are reported",
  "If a text is not a program, parsing it fails.",
  "all texts", "All malformed texts.", [TP + "program", TP + "top_level_definition", TP + "lines"])
p("C85", "Every toys identifier can be used as an expression",
  "A word other than true and false is read as the symbol of that name.",
  "all words", "Infinitely many names.", [TP + "primary", TP + "bool_literal", TP + "identifier"])
p("C86", "Keywords of toys are whole words",
  "A word that is longer than a keyword is never read as the keyword followed by something.",
  "all texts", "All names with a keyword as prefix.", [TP + "r#if", TP + "function_definition", TP + "global_variable_definition"])
p("C87", "Operators of toys have the usual precedence",
  "* / % bind tighter than + -, these tighter than comparisons, these tighter than && and this tighter than ||, all left associative.",
  "all operands and pairs of operators", "All operands.", [TP + "comparative", TP + "additive", TP + "moditive", TP + "multitive"])
p("C88", "Printing and parsing toys trees is the identity",
  "The tokens of any printable program, statement list or expression, with any white space between them, are parsed back to the same tree; exactly the trees whose operands respect the operator levels, with names and integers that can be written, are printable.",
  "all trees, all layouts", "All trees and all layouts.", [TP + "program", TP + "lines", TP + "expression"])
p("C89", "Running a toys program from its text prints what the text says",
  "The program of main.rs, with any 64-bit bounds in its for loop, prints the fizz-buzz sequence from the lower bound to one below the upper bound between its two separator lines; a program that prints an arithmetic expression prints its exact value if all intermediate results are in range.",
  "all i64 bounds, all arithmetic expressions, all layouts, checked and unchecked overflow", "Unbounded loops; all expressions.",
  ["toys/src/main.rs::main", TP + "program", "toys/src/interpreter.rs::call_main"])
JB = "parser/examples/json_byte.rs::"
JC = "parser/examples/json_char.rs::"
p("C90", "The byte and the char JSON examples read the same documents",
  "On a text of Unicode scalar values json_char accepts exactly when json_byte accepts the UTF-8 bytes of the text, and the values are equal up to UTF-8 of strings and keys; json_byte rejects every input that is not UTF-8.",
  "all texts, all byte sequences", "Infinitely many texts; escapes, surrogates and multi-byte characters interact.", [JB + "json", JB + "value", JB + "string", JC + "json", JC + "value", JC + "string"])
CR = "crond/src/cron_parser.rs::"
p("C91", "The cron parser accepts exactly the cron notation",
  "A text is accepted if and only if it consists of five fields of the notation (values in range, ranges, steps, lists with an optional trailing comma, asterisk, weekday names) separated by single spaces; it then has exactly one reading, which is the returned expression; every other text is an error.",
  "all texts", "Infinitely many lists; ordered choice with attempt could lose alternatives.", [CR + "instruction", CR + "digit_instruction", CR + "min_digit", CR + "hour_digit", CR + "day_digit", CR + "month_digit", CR + "day_of_week_digit", "crond/src/cron_parser.rs::parse"])
CS = "crond/src/cron_schedule.rs::"
p("C92", "A schedule gives the matching minutes after its start, in order and without gaps",
  "The times of upcoming(start) for a schedule text are exactly the minutes from the start on whose UTC date, time of day and weekday match the text, in increasing order, none missing, and none before the start.",
  "all texts, all starts, all numbers of calls", "Unbounded iteration over the calendar.", [CS + "new", CS + "cron_interval", CS + "upcoming", "crond/src/cron_interval.rs::new", "crond/src/cron_interval.rs::iter", "crond/src/cron_interval_iterator.rs::next"])
p("C93", "A schedule that matches some valid date and time is always due again",
  "If any valid date and time of day matches the fields of a schedule without weekday restriction, every call of next returns, within 400 years of the previous time; if none matches, the call ends in the overflow panic of the date type.",
  "all texts, all starts, all numbers of calls, all bounds of representable time", "Leap years; unbounded search.", [CS + "upcoming", "crond/src/cron_interval_iterator.rs::proceed_next", "crond/src/lib.rs::get_days_from_month"])
UM = "uri/src/models/uri.rs::"
UP = "uri/src/parsers/"
p("C94", "The components of a parsed URI are those of RFC 3986 appendix B",
  "For every accepted text the scheme is what precedes the first ':', the fragment what follows the first '#', the query what follows the first '?' before the fragment, the authority what follows a leading '//' up to the next '/', and the path the rest; a URI is absolute exactly if it has no fragment.",
  "all accepted texts", "Infinitely many texts; the generator of the tests writes the components it expects.", [UM + "parse", UM + "is_absolute", UP + "uri_parsers.rs::uri", UP + "hier_part_parsers.rs::hier_part", UP + "authority_parsers.rs::authority"])
HV = "hocon/src/model/config_value.rs::"
p("C95", "A reference has the value of the path it names",
  "In a loaded configuration the value at a path where the text has a reference is the value at the path that the reference names, looked up through other references if necessary, or else the environment variable of that name; all other values are unchanged.",
  "all texts that load, all paths, all environments", "References of references, chains of repeated keys, all environments.", [HV + "resolve", HV + "get_value", "hocon/src/model.rs::parse_from_string", "hocon/src/model.rs::resolve_stage1"])
PP = "uri/src/parsers/path_parsers.rs::"
BP = "uri/src/parsers/basic_parsers.rs::"
PM = "uri/src/models/path.rs::"
p("C96", "The path rules read exactly the paths of RFC 3986 section 3.3",
  "path_absolute, path_noscheme, path_rootless and path_abempty accept exactly the texts of their rules and return the parts; path chooses the rule that the beginning of the text selects; gen-delims, sub-delims, reserved and unreserved are the classes of section 2.",
  "all texts, all offsets", "Infinitely many texts; the order of the alternatives could shadow a rule.", [PP + "path", PP + "path_absolute", PP + "path_noscheme", PP + "path_rootless", PP + "path_abempty", BP + "reserved", BP + "gen_delims", BP + "sub_delims", BP + "unreserved"])
p("C97", "Adding segments to a path appends them to its text",
  "add_part and add_parts append to the text of the path and keep its kind, with_parts sets the parts; a path or URI that was read, extended by segments, printed and read again is the extended value.",
  "all paths, all lists of segments, all accepted texts", "All paths and lists of segments; the printed form can have another reading.", [PM + "add_part", PM + "add_parts", PM + "with_parts", PM + "to_absolute", PM + "is_empty", UM + "parse"])
p("C98", "absolute_uri reads what uri reads, without the fragment",
  "absolute_uri succeeds exactly where uri succeeds, with the same scheme, hierarchical part and query and no fragment, and leaves exactly the fragment unread; it accepts exactly the URIs without fragment; such a URI has a scheme.",
  "all texts, all offsets", "Infinitely many texts.", [UP + "uri_parsers.rs::absolute_uri", UP + "uri_parsers.rs::uri", UM + "is_absolute"])
HP = "hocon/src/parsers.rs::"
HM = "hocon/src/model.rs::"
p("C99", "HOCON documents are read as what they spell",
  "Every document of the HOCON notation (comments, layout, root with or without braces, '=' or ':' or a block directly after the key, commas or line ends, quoted and unquoted keys and strings, numbers, durations, references, arrays, objects) is read to the end as the value it spells, and spells no other value.",
  "all texts of the grammar", "Infinitely many nested texts; ordered choice, attempt and the unquoted string can take a wrong turn anywhere.", [HP + "hocon", HP + "property", HP + "config_value", HP + "array", HP + "object", HP + "string", HP + "comment"])
p("C100", "A printed configuration reads back as itself",
  "The text that Display writes for a configuration is a HOCON document, and loading it gives the newest values of the configuration again, whatever the order in which the maps are visited.",
  "all values, all orders of map entries", "Infinitely many nested values; iteration order is not fixed.", ["hocon/src/model/config_value.rs::fmt", "hocon/src/model/config_object_value.rs::fmt", "hocon/src/model/config_array_value.rs::fmt", "hocon/src/model/time_unit.rs::fmt", HM + "parse_from_string", HP + "hocon"])
p("C101", "Every JSON document is a HOCON document with the same value",
  "Every RFC 8259 text whose root is an object or an array is read by hocon, as the value that the text has in JSON.",
  "all JSON texts", "Infinitely many texts.", [HP + "hocon", HP + "array", HP + "object", HP + "string", HP + "number"])
p("C102", "IPv6 addresses: what is accepted, what is printed",
  "At the end of the text, or before a character that cannot continue an address, the IPv6 parser accepts exactly the texts of RFC 4291 other than seven groups followed by '::', as the address they denote, and a text denotes one address; printing any address gives a text that is accepted as that address.",
  "all texts, all offsets, all addresses", "2^128 addresses with many spellings each; nine alternatives with bounded repetition and commitment.", [UP + "ip_v6_address_parsers.rs::ip_v6_address", UP + "ip_v6_address_parsers.rs::ip_v6_address1", UP + "ip_v6_address_parsers.rs::ip_v6_address9", UP + "ip_v6_address_parsers.rs::h16", UP + "ip_v6_address_parsers.rs::ls32"])
p("C103", "URIs with any kind of host are read exactly and print back",
  "With the standard library's IPv6 functions, a text is accepted whole as a URI exactly when it is an RFC 3986 URI with that value, also with an IPv6 host and also for absolute_uri before a fragment; printing a parsed URI and reading the text gives the URI back. Provided that a registered name does not start with an IPv4 address and a path without authority does not start with '//'.",
  "all texts, all URIs", "Infinitely many texts and 2^128 addresses.", [UM + "parse", UM + "fmt", UP + "uri_parsers.rs::uri", UP + "uri_parsers.rs::absolute_uri", UP + "host_parsers.rs::host"])
BJ = "parser/benches/oni_comb_json.rs::"
p("C104", "The benchmarked char reader reads JSON as the example does",
  "The JSON reader of the benchmark returns on every text, accepts exactly the documents that the json_char example accepts, with the same value, and the benchmarked function panics exactly on the other texts.",
  "all texts", "Infinitely many texts; the alternatives are ordered differently and a trailing comma is optional.", [BJ + "oni_comb_parse_json", BJ + "json", BJ + "value", BJ + "object", BJ + "array", BJ + "boolean"])
p("C105", "The benchmarked byte reader reads the same documents",
  "The byte reader of the benchmark gives on the UTF-8 bytes of a text what the char reader gives on the text.",
  "all valid UTF-8 texts", "Infinitely many texts and escapes.", [BJ + "oni_comb_parse_json_bytes", BJ + "json_bytes", BJ + "string_bytes", BJ + "number_bytes", BJ + "value_bytes"])
p("C106", "Cron expressions can be evaluated at every time of the calendar",
  "At every time that chrono can represent an accepted expression without a step 0 evaluates to a verdict, and the times of a schedule are those of the unlimited calendar up to its end.",
  "all accepted expressions, all representable times, all iterators", "A panic in a single month 260000 years ahead; the iterator can run into it from any start.", ["crond/src/lib.rs::get_days_from_month", "crond/src/cron_evaluator.rs::eval", "crond/src/cron_interval_iterator.rs::next", "crond/src/cron_schedule.rs::upcoming"])
p("C107", "A toys program means its last definitions",
  "Running a program runs the initialisers of the global variables in order, each with the functions defined before it, and then the body of the last function main with the last definition of every function; without a function main it panics.",
  "all lists of definitions, all step budgets", "Infinitely many programs.", ["toys/src/interpreter.rs::call_main", "toys/src/interpreter.rs::interpret"])
p("C108", "The hocon parsers read nothing but HOCON texts",
  "When a text is parsed or loaded, the whole text was consumed and it is a document of a stated grammar whose reading gives the returned values: layout and comments, quoted and unquoted strings with JSON escapes, numbers, durations, references, arrays, objects with chained repeated keys, a root of merged members, inclusions. In particular its square brackets match if it has no comments.",
  "all texts, all decimal readers", "Infinitely many texts; tests only show accepted texts that are meant to be accepted.", ["hocon/src/parsers.rs::hocon", "hocon/src/parsers.rs::config", "hocon/src/parsers.rs::config_value", "hocon/src/parsers.rs::string", "hocon/src/parsers.rs::space_or_comment"])
HD = "hocon/src/model/config_duration_value.rs::"
p("C109", "A duration lasts as long as it says",
  "The duration that a value of a configuration is converted to, or that a document with a number and a unit is read as, is as long as number and unit say; the conversion panics only where the type of durations ends.",
  "all decimals and units, all numbers of up to 28 digits, both types of durations", "Infinitely many numbers; truncation and overflow are invisible on small whole numbers.", [HD + "to_std_duration", HD + "to_duration", "hocon/src/model/config_value.rs::as_duration", "hocon/src/model/config_value.rs::as_std_duration", "hocon/src/model/config_number_value.rs::to_u64", "hocon/src/model/config_number_value.rs::to_i64", HP + "duration_value"])
p("C110", "Durations put into a configuration come back",
  "A std or chrono duration converted to a configuration value and back is the same duration; in particular neither conversion panics.",
  "all durations of both types", "2^64 * 10^9 durations; the failing ones are beyond 292 or 584 years.", [HD + "from", HD + "to_std_duration", HD + "to_duration", "hocon/src/model/config_number_value.rs::from"])
p("C111", "The caches of the grammars change no result",
  "Parsing a text with the grammar of crond, of toys or of the JSON benchmark gives, for any addresses of the parse states, what the grammar without its caches gives.",
  "all texts, all assignments of addresses to cached calls", "The keys of a cache confuse the offsets 0 and 1 and depend on addresses of stack frames; infinitely many texts.", ["parser/src/internal/parsers_impl/cache_parsers_impl.rs::cache", "crond/src/cron_parser.rs::parse", "crond/src/cron_parser.rs::instruction", "toys/src/parsers.rs::program", "toys/src/parsers.rs::lines", BJ + "json", BJ + "json_bytes"])
p("C112", "The order of queries agrees with equality",
  "Comparing two queries gives the order of their texts, byte by byte; it says equal exactly for equal queries.",
  "all pairs of queries", "Infinitely many pairs; only keys or values with '=' or '&' show the difference.", ["uri/src/models/query.rs::partial_cmp"])
p("C113", "Combining configuration values keeps both",
  "Combining a value with another keeps the values of both, in order; objects are combined key by key and arrays are joined; contains tells which keys an object has.",
  "all values, all keys", "Infinitely many values; the unit test combines two chains only.", ["hocon/src/model/config_value.rs::combine", "hocon/src/model/config_object_value.rs::combine", "hocon/src/model/config_array_value.rs::combine", "hocon/src/model/config_value.rs::contains"])
p("C114", "The hello_world example reads its greeting and nothing else",
  "The parser of the example accepts exactly the texts that start with 'hello world'; in quotes, with one space or tab between the words, and returns the text between the quotes; on every other text it fails without a panic.",
  "all byte texts", "Infinitely many texts.", ["parser/examples/hello_world.rs::main"])
HN = "hocon/src/model/config_number_value.rs::"
p("C115", "Numbers of a configuration convert to integers by truncation or not at all",
  "Converting a configuration number to an integer type gives the number rounded towards zero exactly when that belongs to the type; an integer put into a number comes back in every type it belongs to, without a panic.",
  "all decimals, all ten integer types, all integers of these types", "2^97 decimals with 29 scales, ten types with two boundaries each.", [HN + "to_i128", HN + "to_u128", HN + "to_i64", HN + "to_u64", HN + "to_i32", HN + "to_u32", HN + "to_i16", HN + "to_u16", HN + "to_i8", HN + "to_u8", HN + "from"])
p("C116", "A typed toys program panics only in integer arithmetic",
  "A program of functions that follows a type discipline (variables are assigned before they are read, operands have the right types, calls pass enough arguments, a function assigns no variable of its callers) returns a value of the type of its main function, runs for ever, or panics in an integer operation that overflows or divides by zero; without these operations it never panics.",
  "all typed expressions and programs, all step budgets, with and without overflow checks", "Infinitely many programs.", ["toys/src/interpreter.rs::interpret", "toys/src/interpreter.rs::call_main", "toys/src/environment.rs::find_binding", "toys/src/values.rs::as_int", "toys/src/values.rs::as_bool"])
UP = "uri/src/parsers/"
p("C117", "The randomised tests pass on everything their generators produce",
  "Each randomised test of the uri and hocon crates (a parser followed by the end, applied to a generated text, returns a value that prints as the text) passes on every text its generator can produce.",
  "all texts of all generators (all 44 tests)", "The tests draw a hundred texts each; the sets have more than 10^100 texts, and the failing ones are rare.", [UP + "basic_parsers.rs::pchar", UP + "scheme_parsers.rs::scheme", UP + "port_parsers.rs::port", UP + "ip_v4_address_parsers.rs::ip_v4_address", UP + "ip_v6_address_parsers.rs::ip_v6_address", UP + "host_parsers.rs::host", UP + "user_info_parsers.rs::user_info", UP + "authority_parsers.rs::authority", UP + "path_parsers.rs::path", UP + "query_parsers.rs::query", UP + "fragment_parsers.rs::fragment", UP + "hier_part_parsers.rs::hier_part", UP + "uri_parsers.rs::uri", HP + "comment", HP + "path", HP + "include_config_value"])
UM = "uri/src/models/"
p("C118", "The URI parser accepts exactly the URIs whose parts keep apart",
  "Uri::parse reads a whole text as a URI exactly when the text is a writing of that URI by the grammar of RFC 3986 (with an optional scheme), its registered name does not start with an IPv4 address, and no authority can be read after two slashes at the start of a path without authority.",
  "all byte texts, all URIs", "Infinitely many texts; the grammar is ambiguous only for rare texts.", [UP + "uri_parsers.rs::uri", UP + "hier_part_parsers.rs::hier_part", UP + "authority_parsers.rs::authority", UP + "host_parsers.rs::host", UM + "uri.rs::parse"])
p("C119", "A URI assembled from its parts is read back",
  "A URI made by the constructors, printed and parsed, gives the same URI, and its text is read to the end.",
  "all URIs of the Rust types", "Infinitely many URIs; the tests only print what was parsed before.", [UM + "uri.rs::new", UM + "uri.rs::fmt", UM + "uri.rs::parse", UM + "authority.rs::new", UM + "hier_part.rs::new", UM + "path.rs::of_absolute_from_strs", UM + "query.rs::new"])
PI = "parser/src/internal/parsers_impl/"
p("C120", "An error names a place of the text",
  "Every position named by an error of a parser, at any depth of wrapping, is a position of the input at or after the place where the parser started; two failures at one place name one position; the text an error carries is what was left of the input at the place of the failure.",
  "all parsers of the combinator closure without errors made by the program, all inputs, all positions", "Three conventions for the position are in use, mixed by combination; the difference shows only for particular combinations and at the ends of the input.", ["parser/src/core/parse_error.rs::input", PI + "element_parsers_impl.rs::elm_pred_ref", PI + "elements_parsers_impl.rs::seq", PI + "operator_parsers_impl.rs::not", PI + "repeat_parsers_impl.rs::repeat_sep", PI + "conversion_parsers_impl.rs::map_res", PI + "logging_parsers_impl.rs::name", PI + "logging_parsers_impl.rs::expect", PI + "primitive_parsers_impl.rs::end"])
p("C121", "An interpreter can be used again",
  "Running a program a second time on the same interpreter gives the same value and the same output; what a run leaves behind are the variables its main function assigned and the functions it defined, and a later program that uses none of them behaves as on a new interpreter.",
  "all programs, all interpreters left by any sequence of runs, all step budgets, with and without overflow checks", "Depends on what earlier programs left; tests make a new interpreter each.", ["toys/src/interpreter.rs::new", "toys/src/interpreter.rs::reset", "toys/src/interpreter.rs::get_value", "toys/src/interpreter.rs::call_main", "toys/src/interpreter.rs::interpret"])
p("C122", "A grammar can be rearranged without changing its meaning",
  "Sequences may be grouped in any way; a common beginning or a common end may be taken out of a choice; words may be cut into parts; repetitions may be unrolled and cut into counted parts; filters and tests of elements may be joined.",
  "all parsers, all inputs and positions, all words, counts and predicates", "Laws about all pairs and triples of parsers; the exceptions need particular failures with particular commit status.", [PI + "operator_parsers_impl.rs::and_then", PI + "operator_parsers_impl.rs::or", PI + "skip_parser_impl.rs::skip_left", PI + "skip_parser_impl.rs::skip_right", "parser/src/internal/parsers_impl.rs::flat_map", "parser/src/internal/parsers_impl.rs::filter", PI + "repeat_parsers_impl.rs::repeat_sep", PI + "elements_parsers_impl.rs::seq", PI + "element_parsers_impl.rs::elm_pred_ref"])
p("C123", "A document may include files",
  "A document of includes, on one line or on several, loads to the merge of the named files in order, and a file may refer to what a file included before it defines; a document with an include contains nothing else; files that include each other never load.",
  "all documents, all contents of all files, all environments, all stack depths", "Needs files that include further files; the tests contain no include at all outside of the parser of a single one.", ["hocon/src/parsers.rs::include_method", "hocon/src/parsers.rs::include_config_value", "hocon/src/parsers.rs::config", "hocon/src/parsers.rs::hocon", "hocon/src/model.rs::load_from_file", "hocon/src/model.rs::parse_from_string", "hocon/src/model.rs::resolve_stage0", "hocon/src/model/config_value.rs::resolve"])
p("C124", "Comments and blank lines do not change a configuration",
  "A document reads and loads in the same way with and without comments, empty lines and indentation before it and between its tokens.",
  "all documents, all blocks of comments and white space", "Which sequences of comments and white space are skipped depends on their order; tests contain few comments and none after each other with indentation.", ["hocon/src/parsers.rs::comment", "hocon/src/parsers.rs::space", "hocon/src/parsers.rs::space_or_comment", "hocon/src/parsers.rs::hocon", "hocon/src/parsers.rs::config_value", "hocon/src/parsers.rs::enumeration_config_value", "hocon/src/model.rs::parse_from_string"])
p("C125", "Strings and references next to each other are concatenated",
  "A value made of several strings and references one after the other is read as an enumeration of these, and resolves to the concatenation of their texts.",
  "all documents", "The alternative for enumerations stands behind alternatives that accept the beginnings of its texts; whether it is ever reached is a question about all texts.", ["hocon/src/parsers.rs::enumeration_config_value", "hocon/src/parsers.rs::config_value", "hocon/src/parsers.rs::string_config_value", "hocon/src/parsers.rs::reference_config_value", "hocon/src/model.rs::parse_from_string"])
p("C126", "Loading ends",
  "Loading a text without includes in which no reference needs itself ends: it returns an error, a configuration, or panics because a needed reference is not defined; the size of the stack decides only whether it ends, not the outcome.",
  "all texts without includes and without a blank after a comment line, all environments, all stack depths", "Termination for all references that form no cycle, whatever their number and depth.", ["hocon/src/parsers.rs::hocon", "hocon/src/model.rs::parse_from_string", "hocon/src/model.rs::resolve_stage0", "hocon/src/model.rs::resolve_stage1", "hocon/src/model/config_value.rs::resolve", "hocon/src/model/config_value.rs::get_value"])
p("C127", "A grammar does not look back",
  "The answer of each grammar of the repository at a position depends only on the text from that position on: it is the answer at the start of this text.",
  "the grammars of json, the benchmark, calculator, cron, uri, toys and hocon, all texts, all positions", "Every parser gets the whole input and an offset; one slice taken from the wrong place shows only for particular texts before the position.", ["parser/src/core/parse_state.rs::input", "parser/src/core/parse_state.rs::slice_with_len", "parser/examples/json_byte.rs::json", "parser/examples/json_char.rs::json", "parser/examples/calculator.rs::calculator", "crond/src/cron_parser.rs::instruction", "uri/src/parsers/uri_parsers.rs::uri", "toys/src/parsers.rs::program", "hocon/src/parsers.rs::hocon"])
p("C128", "Parts of a grammar can be exchanged",
  "Exchanging parts of a grammar, at any number of places and any depth, for parts with the same results changes no result; names, expectations and log calls may be added and left out anywhere without changing what is accepted, the value, the length or the commit status; and a part that returns where the old one ran for ever changes no result that was returned.",
  "all parsers, all contexts made of the combinators, all inputs and positions", "A statement about all contexts; a combinator that inspects the error or runs its part twice breaks it only in particular contexts.", ["parser/src/internal/parsers_impl.rs::flat_map", "parser/src/internal/parsers_impl.rs::filter", "parser/src/internal/parsers_impl.rs::map", PI + "operator_parsers_impl.rs::or", PI + "operator_parsers_impl.rs::not", PI + "operator_parsers_impl.rs::rest_left1", PI + "repeat_parsers_impl.rs::repeat_sep", PI + "logging_parsers_impl.rs::name", PI + "logging_parsers_impl.rs::expect", PI + "logging_parsers_impl.rs::log_map"])
p("C129", "A recursive grammar is determined by its equation",
  "Each recursive grammar of the repository (JSON, the benchmark, the calculator, toys expressions and lines, HOCON values and properties) is the only parser that satisfies its equation; as many levels of the recursion as elements are left, and one more, give its result. A grammar whose recursive reference comes first never returns.",
  "all guarded recursive grammars and those of the repository, all inputs and positions, all depths of recursion", "Holds because every way from a rule back to itself consumes something: one alternative that does not makes the grammar run for ever on particular texts.", ["parser/src/internal/parsers_impl/lazy_parsers_impl.rs::lazy", "parser/examples/json_byte.rs::value", "parser/examples/json_char.rs::value", "parser/benches/oni_comb_json.rs::value", "parser/examples/calculator.rs::primary", "toys/src/parsers.rs::expression", "toys/src/parsers.rs::line", "hocon/src/parsers.rs::config_value", "hocon/src/parsers.rs::property"])
p("C130", "A JSON number is read as the closest double",
  "Every JSON number text is accepted, wherever it stands, and its value is the double closest to the decimal number it denotes, the even one of two equally close ones, with its sign also for zero; so doubles, and integers up to 2^53, are read exactly.",
  "all number texts, all documents", "Infinitely many texts; a slip in the sign, the exponent or the fraction shows on particular numbers.", ["parser/examples/json_byte.rs::number", "parser/examples/json_char.rs::number", "parser/examples/json_char.rs::value"])
p("C131", "The numbers of a JSON document are finite",
  "Every number of a document that is read is a finite double.",
  "all documents", "JSON has no infinity; only numbers beyond the range of doubles show it.", ["parser/examples/json_byte.rs::number", "parser/examples/json_char.rs::number"])
p("C132", "The calls of the JSON examples nest as deep as the text does",
  "Reading a text nests calls in proportion to how deep its brackets nest, however long it is and whether it is accepted or not.",
  "all texts, both JSON examples", "How deep the stack must be for all texts of a nesting; a test sees only that its own texts do not overflow.", ["parser/examples/json_byte.rs::json", "parser/examples/json_char.rs::json", PI + "repeat_parsers_impl.rs::repeat_sep", PI + "operator_parsers_impl.rs::or", PI + "lazy_parsers_impl.rs::lazy"])
p("C133", "The calls of the calculator nest as deep as the parentheses do",
  "Reading an expression nests calls in proportion to how deep its parentheses and signs nest, however many operators it has.",
  "all texts", "A chain of operators looks like a loop; that it is a recursion shows only when a long sum overflows the stack.", ["parser/examples/calculator.rs::additive", "parser/examples/calculator.rs::multitive", PI + "operator_parsers_impl.rs::rest_left1", PI + "operator_parsers_impl.rs::chain_left1"])
p("C134", "The JSON examples read a text with a number of calls in proportion to its length",
  "No text makes the JSON examples read its parts again and again: the number of parsers run is at most linear in the length of the text, accepted or not.",
  "all texts, both JSON examples", "Backtracking that doubles with every level of nesting is invisible in small texts.", ["parser/examples/json_byte.rs::json", "parser/examples/json_char.rs::json", PI + "repeat_parsers_impl.rs::repeat_sep", PI + "operator_parsers_impl.rs::or"])
p("C135", "Results and errors tell what happened",
  "An error is of exactly one kind, and the kind is the one that belongs to what went wrong; mapping a result respects identity and composition and leaves the commit status alone; parse of the trait returns the value or one and the same error.",
  "all parsers, results and errors", "Laws over all results and functions; tests look at single errors.", ["parser/src/core/parse_error.rs::is_mismatch", "parser/src/core/parse_error.rs::is_in_complete", "parser/src/core/parse_result.rs::map", "parser/src/core/parse_result.rs::map_err", "parser/src/core/parse_result.rs::to_result", "parser/src/core/parse_result.rs::success", "parser/src/core/parsers.rs::parse"])
p("C136", "The calculator reads a text with a number of calls in proportion to its length",
  "No text makes the calculator read its parts again and again: the number of parsers run is at most linear in the length of the text, accepted or not.",
  "all texts", "A sign or parenthesis that is tried again at every level doubles the work with each level; small texts do not show it.", ["parser/examples/calculator.rs::primary", "parser/examples/calculator.rs::additive", PI + "operator_parsers_impl.rs::rest_left1", PI + "operator_parsers_impl.rs::or"])
p("C137", "What a toys program writes tells the values it printed",
  "The text on standard output determines the values that were printed, and reading the text of a value back as a literal gives the value; the programs of the examples write exactly the lines they compute.",
  "all values and programs", "Injectivity of the text over all values; tests look at a few lines.", ["toys/src/values.rs::fmt", "toys/src/interpreter.rs::interpret"])
p("C138", "A toys program that ends normally never runs a function inside itself",
  "A function that is entered while it is running does not return: since a call cannot pass arguments and cannot assign variables of the frames around it, it panics or runs for ever. So at any time of a program that ends normally the running functions are all different, and no more calls are running than functions are defined; in a run that ends with a panic their number is bounded by the functions and variables of the program.",
  "all programs, functions and states", "About every run of every program; a test sees single programs.", ["toys/src/interpreter.rs::interpret", "toys/src/interpreter.rs::call_main", "toys/src/environment.rs::find_binding"])
p("C139", "The toys parsers take time polynomial in the length of a program",
  "The number of calls of the parsers made by program() and lines() on a text is bounded by a polynomial in the length of the text, for accepted and for rejected texts. (False: every if tries the line behind else again that the if inside it has already tried, and a block that does not end contains such ifs again; the calls double with every 17 characters.)",
  "all texts and all addresses of cache keys", "Each test text is read at once; only a family of growing texts shows the doubling, and only a proof that the caches do not remove it for any text or address.", ["toys/src/parsers.rs::if", "toys/src/parsers.rs::block", "toys/src/parsers.rs::line", "toys/src/parsers.rs::program", PI + "cache_parsers_impl.rs::cache"])
p("C140", "The hocon parser takes time polynomial in the length of a document",
  "The number of parsers run by hocon() on a text is bounded by a polynomial in the length of the text, at least when the text is accepted. (False: an object that is not closed is tried as an object with everything behind it, then read as the string of its brace, and the lines behind it are read again; the calls double with every line a={ .)",
  "all texts", "Each test document is read at once; only a family of growing documents shows the doubling, and only a proof shows it for all of them.", ["hocon/src/parsers.rs::property", "hocon/src/parsers.rs::object", "hocon/src/parsers.rs::config_value", "hocon/src/parsers.rs::simple_config_value", "hocon/src/parsers.rs::config", "hocon/src/parsers.rs::hocon"])
p("C141", "The text of an error tells what went wrong and where",
  "The text that Display writes for a ParseError determines its kind, place and message and those of all errors inside it; name and expect keep the text of the error they wrap; input_string is the text of input(). (False: messages can imitate the text of other errors, and bytes that are not UTF-8 by themselves are shown as nothing.)",
  "all errors", "Injectivity over all nestings of errors; tests compare single texts.", ["parser/src/core/parse_error.rs::fmt", "parser/src/core/parse_error.rs::input_string", "parser/src/core/parse_error.rs::input", PI + "logging_parsers_impl.rs::name", PI + "logging_parsers_impl.rs::expect"])
p("C142", "The URI parser reads a text with a number of calls in proportion to its length and a bounded depth of calls",
  "The number of parsers run by uri() and absolute_uri() on a text is at most linear in the length of the text, accepted or not, and the number of parsers active at one time is bounded whatever the text is.",
  "all texts, and whatever Ipv6Addr::from_str does", "The alternatives of hosts and paths are tried again from their beginning; that this never multiplies needs an argument about all texts.", ["uri/src/parsers/uri_parsers.rs::uri", "uri/src/parsers/uri_parsers.rs::absolute_uri", "uri/src/parsers/hier_part_parsers.rs::hier_part", "uri/src/parsers/host_parsers.rs::host", "uri/src/parsers/query_parsers.rs::query", "uri/src/parsers/path_parsers.rs::path_abempty"])
p("C143", "The cron parser reads a text with a number of calls in proportion to its length and a bounded depth of calls",
  "The number of parsers run by CronParser::parse on a text is at most linear in the length of the text, accepted or not, and the number of parsers active at one time is bounded whatever the text is.",
  "all texts", "Each field tries a list of ranges, then numbers, then asterisks from its beginning; that this never multiplies needs an argument about all texts.", ["crond/src/cron_parser.rs::instruction", "crond/src/cron_parser.rs::list", "crond/src/cron_parser.rs::asterisk_per", "crond/src/cron_parser.rs::parse"])
p("C144", "The depth of calls of the hocon parser is in proportion to the brackets of the text",
  "The number of parsers of hocon() active at one time is at most a constant for each opening brace or bracket of the text and a constant besides, accepted or not, whatever the length of the text; and it is at least in proportion to how deep the arrays and objects of the configuration read contain one another.",
  "all texts", "A test reads documents of some depth; that nothing but brackets makes the stack grow, also in texts that are rejected late, needs an induction over the grammar.", ["hocon/src/parsers.rs::config_value", "hocon/src/parsers.rs::property", "hocon/src/parsers.rs::object", "hocon/src/parsers.rs::array", "hocon/src/parsers.rs::config", "hocon/src/parsers.rs::hocon"])
p("C145", "The time of the hocon parser at most doubles with each bracket or comment sign of the text",
  "The number of calls of parsers in a run of hocon() is at most a constant times the cube of the length of the text, doubled for each of its characters that open an object, an array or a comment, whether the text is accepted or not; so texts with a limited number of those are read in time polynomial in their length.",
  "all texts", "A test times some documents; that nothing but an opening bracket or a comment makes any part of any text be read again needs a potential argument over the grammar.", ["hocon/src/parsers.rs::config_value", "hocon/src/parsers.rs::property", "hocon/src/parsers.rs::object", "hocon/src/parsers.rs::array", "hocon/src/parsers.rs::space_or_comment", "hocon/src/parsers.rs::config", "hocon/src/parsers.rs::hocon"])
p("C146", "The log lists the runs of the logged parsers",
  "debug, info, warn, error and log change no result. A repetition of a logged parser writes one line for each value it returns and then one for the run that ended it, with the name, the level and the result; a run that panics has no line, those before it have. Reading an accepted cron expression writes exactly the debug lines of the places in its hours where a single digit is tried: a lone hour of one digit and a star twice, a bound or step of one digit once, hours of two digits and the other fields nothing.",
  "all parsers, texts, names and levels; all cron expressions; any Debug text", "Tests look at results and never at the log; how often a line is written depends on how the alternatives backtrack.", ["parser/src/internal/parsers_impl/logging_parsers_impl.rs::log_map", "parser/src/extension/parsers/logging_parsers.rs::log", PI+"repeat_parsers_impl.rs::repeat_sep", PI+"operator_parsers_impl.rs::or", "crond/src/cron_parser.rs::hour_digit", "crond/src/cron_parser.rs::instruction"])
p("C147", "The depth of calls of the toys parsers is in proportion to the opening brackets and operators of the text",
  "The number of parsers of lines() and program() active at one time is at most 33 for each opening bracket and each operator character of the text and a constant besides, accepted or not, whatever the length of the text; for lines() calls inside one another reach this bound exactly.",
  "all texts; all digit classes (exactness: those with the ASCII digits)", "A test runs programs of some depth; that neither the number of lines nor long names, strings or numbers make the stack grow, also in texts that are rejected late, needs an induction over the grammar.", ["toys/src/parsers.rs::lines", "toys/src/parsers.rs::program", "toys/src/parsers.rs::line", "toys/src/parsers.rs::expression", "toys/src/parsers.rs::primary", "toys/src/parsers.rs::function_call", "toys/src/parsers.rs::string_literal"])

p("C148", "The calls of the toys parsers grow with the square of the text, times a power in its opening brackets",
  "The number of parsers called by lines() and program() is at most 512 * 512 * (length + 1)^2 * 16^b for a text with b opening brackets, accepted or not: exponential work needs brackets, and texts of at most k brackets take at most quadratic time.",
  "all texts; all digit classes with the ASCII digits", "C139 shows texts on which the work doubles every 17 characters; that nothing but brackets can do this, for names, strings, operators and lines in any number and order, also in texts rejected late, is a statement about all texts.", ["toys/src/parsers.rs::lines", "toys/src/parsers.rs::program", "toys/src/parsers.rs::line", "toys/src/parsers.rs::expression", "toys/src/parsers.rs::primary", "toys/src/parsers.rs::r#if", "toys/src/parsers.rs::block"])

p("C149", "Within one parse no cache finds an answer",
  "While the cron parser, lines() and program() of toys or the JSON benchmark parsers read one text, no parser wrapped in cache() is run at a key it has an answer for, wherever the states of the parse are put in memory: with caches that panic on a hit the outcomes are the same and never a panic. The caches can only matter when a parser object is used for several texts.",
  "all texts; all placements of the states at addresses, all at one address included; all digit classes with the ASCII digits", "A test cannot see whether a result came from the map; whether some text makes an object run twice at one offset depends on how the alternatives backtrack and on keys that coincide (offsets 0 and 1).", [PI+"cache_parsers_impl.rs::cache", "parser/src/core/parse_state.rs::last_offset", "crond/src/cron_parser.rs::instruction", "toys/src/parsers.rs::lines", "toys/src/parsers.rs::program", "toys/src/parsers.rs::line", "toys/src/parsers.rs::assignment", "toys/src/parsers.rs::expression_line", "parser/benches/oni_comb_json.rs::json"])

p("C150", "A parser object with caches can be used for several texts only while the addresses of its states are new",
  "One object of the cron parser, of lines() or program() of toys or of the JSON benchmark parsers, run on any number of texts one after the other, reads each of them like a new object, when no parse state of a later text has an address that a state of an earlier text had. Without this it does not: states at the address of those before make the benchmark parser answer with its earlier value for every text of the same length and indentation, JSON or not, and the cron and program parsers return an earlier schedule or program for a different text.",
  "all sequences of texts; all placements of the states; all digit classes with the ASCII digits", "The key of a cache is the address of a state on the stack and an offset; a test cannot place the states, and whether an answer is stale shows only for particular pairs of texts.", [PI+"cache_parsers_impl.rs::cache", "parser/src/core/parse_state.rs::last_offset", "parser/src/internal/parser_impl/parser_runner_impl.rs::run", "crond/src/cron_parser.rs::instruction", "toys/src/parsers.rs::lines", "toys/src/parsers.rs::program", "parser/benches/oni_comb_json.rs::json"])

p("C151", "A parser object with caches reads one text the same way every time",
  "One object of the cron parser, of lines() or program() of toys or of the JSON benchmark parsers, run on one text any number of times, gives the outcome of the parser without caches every time, wherever the parse states are put in memory: the answers found in the maps are those of the text, although offsets 0 and 1 share a key.",
  "all texts; all numbers of readings; all placements of the states, all at one address included; all digit classes with the ASCII digits", "Which answers are found depends on the addresses of states on the stack, which a test cannot place; the shared key of the offsets 0 and 1 would show only for an object that is run at 0 in one part of a reading and at 1 in another.", [PI+"cache_parsers_impl.rs::cache", "parser/src/core/parse_state.rs::last_offset", "parser/src/internal/parser_impl/parser_runner_impl.rs::run", "crond/src/cron_parser.rs::instruction", "toys/src/parsers.rs::lines", "toys/src/parsers.rs::program", "parser/benches/oni_comb_json.rs::json"])

p("C152", "What the toys parsers write to the log",
  "The debug calls of the toys parsers change nothing in what lines() and program() read. Every line written has the level debug and tells the outcome of (mul() | div()) or of the head of a for loop at some place of the text, or the rest of the text at some place, which regex writes before it matches. For each multiplication and division of the tree that is read there is a line of its own that tells of an operator found. For a product of numbers the log is exactly, for each number in the order of the text, the rest of the text from its beginning and the outcome of the operator behind it. When the product begins with a name, the log begins with four times the text, one for each alternative of primary that reads a name or a number, found or not. When a text of lines() begins with for, the log has the outcome of the head of the loop, whether the text is accepted or not.",
  "all texts, accepted or rejected; all renderings of the results; all digit classes with the ASCII digits", "The log goes to a global logger that tests do not read; which lines a text leaves depends on how the alternatives backtrack.", ["toys/src/parsers.rs::multitive", "toys/src/parsers.rs::r#for", "toys/src/parsers.rs::lines", "toys/src/parsers.rs::program", PI+"logging_parsers_impl.rs::log_map", PI+"elements_parsers_impl.rs::regex"])

p("C153", "The log of the toys parsers is at most polynomially longer than the text",
  "There is a polynomial such that program() and lines() of toys write at most that many debug lines for a text of a given length. Every expression that is read leaves at least one line of an operator tried.",
  "all texts; all polynomials; all digit classes with the ASCII digits", "The texts that double the log are nested ifs with a broken end, which no test has, and the log goes to a global logger that tests do not read.", ["toys/src/parsers.rs::multitive", "toys/src/parsers.rs::r#if", "toys/src/parsers.rs::lines", "toys/src/parsers.rs::program", PI+"logging_parsers_impl.rs::log_map"])

p("C154", "What the calculator writes to the log",
  "The debug line of regex changes nothing in what the example calculator reads. For a text that is accepted, the log has exactly one line for each number of the tree, in the order of the text, and each tells the text from its number on. For any text, accepted or not, every line tells the text from some place on and no place is told twice, so that there are at most as many lines as characters and one. A text that begins with neither a sign nor a parenthesis nor layout has a first line that tells the whole text, also when no number stands there.",
  "all texts, accepted or rejected; all renderings of characters; all conversions to decimals; all digit classes with the ASCII digits", "The log goes to a global logger that no test reads, and which places are tried depends on how the alternatives of primary backtrack over texts that the two tests of the example do not have.", ["parser/examples/calculator.rs::calculator", "parser/examples/calculator.rs::primary", "parser/examples/calculator.rs::value", PI+"elements_parsers_impl.rs::regex"])

p("C155", "The log of the calculator is at most of the order of the square of the text",
  "If characters are shown as a text at most a times as long and b besides, the calculator writes at most (n + 1)(15 + b) + a n (n + 1) / 2 characters to the log for a text of n characters, accepted or not. Texts of opening parentheses only reach this bound exactly; a sum of k + 1 ones, which has 2k + 1 characters and is accepted, leaves k + 1 lines of at least (k + 1)^2 characters besides their beginnings, so that no lower order holds.",
  "all texts, accepted or rejected; all renderings of characters of linear length; all conversions to decimals; all digit classes with the ASCII digits", "Each call of regex writes the whole rest of the text; that no text is told more than once from any place, also when alternatives are given up late, is a statement about all texts, and no test reads the log.", ["parser/examples/calculator.rs::calculator", "parser/examples/calculator.rs::primary", "parser/examples/calculator.rs::value", PI+"elements_parsers_impl.rs::regex"])

p("C156", "Only opening brackets make the log of the toys parsers long",
  "lines() and program() write at most one line to the log for each parser they call, so at most 512 * 512 * (length + 1)^2 * 16^b lines for a text with b opening brackets, accepted or not; texts of at most k brackets leave at most quadratically many lines. A power in the brackets is needed: for every d there is a text with 3d + 4 opening brackets that leaves at least 2^(d + 1) lines.",
  "all texts, accepted or rejected; all renderings of the results; all digit classes with the ASCII digits", "C153 shows texts whose log doubles every 17 characters; that without brackets no such text exists, whatever names, operators, strings and lines it has and wherever it is rejected, is a statement about all texts, and no test reads the log.", ["toys/src/parsers.rs::lines", "toys/src/parsers.rs::program", "toys/src/parsers.rs::multitive", "toys/src/parsers.rs::r#for", PI+"logging_parsers_impl.rs::log_map", PI+"elements_parsers_impl.rs::regex"])
