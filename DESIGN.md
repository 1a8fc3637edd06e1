# Formal model of oni-comb-rs

## 1. Shape of the model

Rocq/Coq 8.16.1, all sources in `rocq/theories`, logical prefix `Verif`.

* `Base.v` – lists, slices, byte strings.
* `Core.v` – `CommittedStatus`, `ParseError`, `ParseResult`, `ParseState` (parser/src/core).
* `Comb.v` – every primitive/combinator of `parser/src/internal/parsers_impl*`, function by function.
* `Closure.v` – `built p`: inductive predicate "p is assembled from the public combinators".
* `*Spec.v` – independent specifications; `*Facts.v` – lemmas; `Props*.v` – the theorems of `MANIFEST.json`,
  each followed by an example and `Print Assumptions`.
* `RepFacts.v`, `ChainFacts.v`, `LitFacts.v`, `Shift.v`, `Cache.v` – repetition, chains, literals, position shift, the cache.
* `Hoare.v` – total-correctness rules `hoare p Q` (what a parser may consume and return); `Runs.v` – the converse rules
  (`acc`: a text is accepted with this value whatever follows; `rej`: it is rejected); `Agree.v` – two parsers agree on all
  inputs up to a length, used to replace the fuel of recursive grammars by recursion on the input length.
* `Text.v` – std pieces over bytes: UTF-8 validity, decimal and hexadecimal numbers, `HashMap` as association list.
* `Cron*.v`, `Calendar.v`, `Uri*.v`, `Json*.v`, `Hocon*.v`, `Toys*.v` – the other crates and the examples, on top of `Comb.v`.
* Theorems: `PropsA` C01–C11, `PropsB` C12–C17, `PropsC` C18–C34, `PropsD` C35–C41 (cron), `PropsE` C42–C46, C57, C58 (uri),
  `PropsF` C47, C48, C59, C60 (JSON), `PropsG` C54–C56, C61–C66 (toys), `PropsH` C49–C53, C67–C77 (hocon),
  `PropsI` C78–C80 (calculator example), `PropsJ` C81–C87, `PropsK` C88, C89 (toys parsers), `PropsL` C90 (JSON, bytes and chars),
  `PropsM` C91–C93 (cron notation in full, schedules), `PropsN` C94 (components of a URI),
  `PropsO` C68 (when loading returns), C95 (references),
  `PropsP` C96–C98 (path rules, editing a path, absolute URIs), `PropsQ` C99–C101 (HOCON documents, printing, JSON in HOCON),
  `PropsR` C102, C103 (IPv6 addresses, URIs with IPv6 hosts), `PropsS` C104, C105 (JSON readers of the benchmark),
  `PropsT` C106 (end of chrono's calendar), `PropsU` C107 (toys programs), `PropsV` C108 (what the hocon parsers accept), `PropsW` C109-C110 (durations with concrete decimals),
  `PropsX` C111 (caches in the grammars), `PropsY` C112 (order of queries), `PropsZ` C72, C113 (combining values), C114 (hello_world),
  `PropsAA` C115 (integers of numbers), `PropsAB` C116 (types for toys, `ToysTypes.v`), `PropsAC` more of C51, C69 and C70 (lookup along any path, several dotted keys with `HoconDots.v`, swallowed keys),
  `PropsAD`, `PropsAE` C117 (the randomised tests of uri and hocon for all generated texts; `UriGens.v` has their generators as sets),
  `PropsAF` C118 and C119 (the language of the URI parser; URIs assembled from their parts), `PropsAG` C120 (positions in errors), `PropsAH` C121 (interpreters used again), `PropsAI` C122 (laws for rearranging grammars), `PropsAJ` C123 (documents of includes), `PropsAK` C124 to C126 (layout and enumerations of hocon, how loading ends; with `HoconConf`, the configurations that are read, `HoconBuilt`, `HoconStop`), `PropsAL` C127 (grammars do not look back), `PropsAM` C128 and C129 (exchanging parts of grammars, with `Exchange`; recursive grammars as the only solutions of their equations, which justifies the fuel of the models), `PropsAN` C130, C131 (the numbers of JSON as doubles; `F64.v` has f64::from_str), `PropsAO` C132 to C134 (how deep calls nest and how many there are; `Measure`, `MeasureJson`, `MeasureCalc`, `MeasureCount`), `PropsAP` C135 (results and errors) and more on C01, C03, C17, C20, C97, `PropsAQ` C136 (the number of calls of the calculator; `MeasureCalcCount`), `PropsAR` C137 (the text a toys program writes; `ToysShow`), `PropsAS` C138 (functions running at the same time; `ToysNest`), `PropsAT` C139 (texts on which the toys parsers take exponential time; `ToysSlow`), `PropsAU` C140 (documents on which the hocon parser does; `HoconSlow`), `PropsAV` C141 (the texts of errors; `ErrorText`), `PropsAW` C142 (calls of the URI parser; `MeasureUri`, `MeasureUriCount`), `PropsAX` C143 (calls of the cron parser; `MeasureCron`), `PropsAY` C144 (the depth of calls of the hocon parser; `MeasureHocon`, `MeasureHoconDeep`), `PropsAZ` C145 (their number; `MeasureHoconAtoms`, `MeasureHoconCount`; `MeasureHoconLow`, the coarser count of `HoconSlow`), `PropsBA` C146 (what is written to the log; `Log`, `LogCron`), `PropsBB` C147 (the depth of calls of the toys parsers; `MeasureMarks`, `MeasureToys`, `MeasureToysDeep`, `MeasureToysLow`), `PropsBC` C148 (the number of calls; `MeasureToysAtoms`, `MeasureToysCount`; with the caches `CacheTime`, `CacheTimeToys`), `PropsBD` C149 (no cache finds an answer within one parse; `CacheOnce`, `CacheTidy`, `ToysApart`, `CacheTidyGrammars`), `PropsBE` C150 (one object for several texts; `CacheReuse`), `PropsBF` C151 (one object for one text several times; `CacheAgain`, `CacheAgainGrammars`), `PropsBG` C152 (the log of the toys parsers; `LogToys`), `PropsBH` C153 (its length), `PropsBI` C154 (the log of the calculator; `LogCalc`), `PropsBJ` C155 (its length), `PropsBK` C156 (the log of the toys parsers and their calls; `LogCount`).
* `TestsParser.v`, `TestsCron.v`, `TestsToys.v`, `TestsHocon.v`, `TestsUri.v` – the repository's own unit tests and doc examples with fixed texts, run on the model
  (tests of the model's fidelity, not proofs; all of them pass).
* `Bench.v` – parser/benches/oni_comb_json.rs, both readers (the other benchmarks in that directory drive other crates); `BenchFacts.v`
  – both directions, for any exact string and number parsers.
* `CacheSim.v` – parser objects with the maps of their caches as state, rules for when the caches change nothing; `CacheGrammars.v` – the
  grammars of crond, toys and the benchmark as such objects.
* `UriV6.v` – `acc`/`rej` for the nine IPv6 alternatives; `UriStd.v` – std's `Ipv6Addr::from_str` and `Display` (not in /repo).
* `ToysParse.v` – toys/src/parsers.rs (without `.cache()`, see C111); `ToysSyntax.v` – an independent grammar
  of texts and trees with a `strict` variant; `ToysParseSound.v`, `ToysParseComplete.v` – both directions;
  `ToysPrint.v` – tokens and layouts of trees.
* `JsonAgree.v` – UTF-8 image of the JSON grammar; `CronComplete.v` – `acc` rules for the cron grammar; `CronSchedule.v` –
  cron_schedule.rs over UTC, periodicity and surjectivity of the calendar.
* `ChainRules.v` – `Hoare`/`Runs` rules for `chain_left1`; `Calc*.v` – parser/examples/calculator.rs.
* `Weak.v` – the rules of `Hoare.v` for parsers that may panic (hocon numbers); `HoconFacts.v` values and merging,
  `HoconParse.v` termination of the grammar and shape of the values, `HoconLookup.v` paths, `HoconResolve.v` resolution,
  `HoconRefs.v` references: the graph of references, what a reference becomes; `HoconSpec.v` an independent grammar of HOCON texts,
  `HoconComplete.v` the parsers read it; `HoconDisplay.v` the `Display` impls; `HoconJson.v` the JSON texts in the grammar;
  `HoconText.v` a loose grammar of all accepted texts, `HoconSound.v` the parsers accept nothing else (`Reads.v`: triples that see the rest of the text), `HoconNumber.v` decimals of rust_decimal (up to 28 digits) and the durations of std and chrono.

A Rust `Parser<'a, I, A>` is `Rc<dyn Fn(&ParseState<I>) -> ParseResult<I, A>>`.  The model is
`parser I A := list I -> nat -> outcome`, the arguments being the two fields of `ParseState`, where

    outcome := Success value length | Failure error committed | Panic | Diverge

`Panic` is an explicit value (out-of-range slice, `unwrap`, `panic!`, `step_by(0)`, ...), and `Diverge` is the
result of a loop/recursion that exhausts its fuel.  Fuel always comes with an adequacy theorem (running with more fuel
gives the same answer, and out-of-fuel at the default fuel implies out-of-fuel at any fuel), or the statement is
quantified over the fuel.  `usize` arithmetic is modelled by `nat` (no overflow: lengths are bounded by the size of a
slice, which is at most `isize::MAX`).  Error messages made with `format!` are modelled by an opaque tag
(`string` constant without the formatted values): no property depends on the text of a message.

## 2. Plan per property

| id | modelled | how |
|----|----------|-----|
| C01 | all combinators | `built p -> bounded p` by induction on `built`; regex: refuted |
| C02 | all combinators without regex | induction on `built`, outcome is never `Panic` |
| C03-C06, C08-C11 | `or`, `attempt`, `flat_map`, `map`, `filter`, lookahead, `end` | pointwise equations, case analysis on outcomes |
| C07 | `and_then` vs `flat_map` | equal on success (theorem), refuted on commit status |
| C12-C15 | `repeat_sep` | inductive relation `Run` (independent spec of iterated matching) + refinement; refutations for max = 0 and dangling separator |
| C16, C17 | `chain_left1`, `rest_left1`, `chain_right1` | inductive chain relation + `fold_left`; refutation for right association |
| C18-C27 | literal, class, set, take, collect, offset, conversion parsers | iff characterisations against list functions of the standard library |
| C28 | `name`, `expect`, `log_map` | erasure of the error: equal |
| C29 | `ParseError::input` | refuted + exact domain where it is fine |
| C30 | `cache` as a state machine with an address oracle | transparency when keys separate states; refuted in general |
| C31 | offset-free closure | relational induction on `built` |
| C32-C34 | skip/surround/opt/seq | equations |
| C35-C38 | cron grammar and evaluator | grammar inversion by computation on bytes; evaluator refinement to sets of Z |
| C39-C41 | iterator | invariant over `next`; fuel adequacy for `proceed_next` |
| C42-C46 | URI grammar, `Display`, `Query` | consumed-slice invariant through all grammar rules |
| C47-C48 | JSON example grammar | printer/parser round trip by induction on values; refutation by trailing comma |
| C49-C53 | HOCON value model and number/duration grammar | induction on values; refutations by computation |
| C57, C58 | URI completeness, percent decoding | `acc` rules for every grammar rule |
| C59, C60 | JSON escapes, numbers | grammar relation, both directions |
| C61-C66 | toys: assignment, globals, short circuit, for loops, integer range | big-step relation `ev` equivalent to the interpreter |
| C67-C77 | HOCON termination, resolution, chains, units, order of maps | `whoare`/`agree` for the grammar, induction on values, fuel-independent statements |
| C78-C80 | calculator example | left-recursive grammar, both directions; value relation on texts |
| C81-C89 | toys parsers, main.rs | `hoare`/`agree` for soundness and fuel, `acc` for completeness on the strict grammar; refutations from the exact reading |
| C90 | both JSON examples | the grammar of bytes is the UTF-8 image of the grammar of chars |
| C91-C93 | cron grammar, schedule | `acc` rules; C37, C39, C41 over the UTC calendar, which has period 400 years |
| C94 | components by delimiters | each grammar rule excludes the delimiters that end it |
| C96–C98 | path rules, editing, absolute URIs | each rule sound (Hoare) and complete (Runs); editing through the round trip of C57; absolute_uri is a prefix of uri |
| C68, C95 | resolution | fuel monotonicity; resolution returns iff the graph of references is well founded and defined; lookup commutes with resolution |
| C99–C101 | HOCON grammar | `acc`/`rej` rules by mutual induction on the grammar; prints and JSON texts by showing that they are in the grammar |
| C102, C103 | IPv6 | bounded repetition and commitment in `Runs` style; std's reader and printer proved against RFC 4291 |
| C104, C105 | benchmark readers | one grammar over arbitrary strings and numbers, instantiated twice; equality with the JSON example through the grammars |
| C106 | month length through `NaiveDate::from_ymd` with chrono's year limits | monotonicity of the first days of the months; the iterator by induction on fuel |
| C107 | `call_main` | inductive relation for programs, equivalence through extensionality in the function table |
| C108 | HOCON grammar | triples that see the rest of the text (`Reads.v`), mutual induction on fuel |
| C109, C110 | decimals of up to 28 digits, durations | integer arithmetic on mantissa and scale |
| C111 | grammars with caches as state | simulation: each object agrees with the parser without caches from all reachable states; consumption keeps the confused keys apart |
| C112 | query texts | lexicographic order against a first-difference spec; injectivity of printing on clean queries |
| C113 | chains, maps | induction on the chain and on the entries |
| C114 | hello_world | `hoare` and `acc` rules |
| C115 | decimals, integer types | rounding towards zero stated by multiplication; integer arithmetic |
| C116 | toys interpreter, `ev` | a flow-sensitive type system with signatures for dynamic scopes; preservation by induction on `ev` |
| C117 | the randomised tests of uri and hocon | generators as sets of texts; inclusion in the grammars of UriSpec and HoconSpec, then `acc`; exact failure sets by `stuck` |
| C118 C119 | language of the URI parser, reading back assembled URIs | `reads` triples for what the authority parser left unread; `authority_first` is invariant under what follows a path; `good` and `apart` as the exact condition |
| C120 | positions and texts of errors | invariant `placed` by induction over the closure, with the errors made by the program as a parameter |
| C121 | An interpreter can be used again | induction over the evaluator, histories of calls as a list |
| C122 | A grammar can be rearranged without changing its meaning | direct case analysis on the outcomes, for all parsers |
| C123 | A document may include files | soundness and completeness of the document parser for include lists, then the loader by induction over the include tree |
| C124 | Comments and blank lines do not change a configuration | acc/rej lemmas over layouts |
| C125 | Strings and references next to each other are concatenated | invariant over the document parser, then concrete texts for the refutation |
| C126 | Loading ends | the dependency relation of references (`HoconStop.v`), monotonicity in the stack |
| C127 | A grammar does not look back | simulation `reads` by induction over the closure, then each grammar |
| C128 | Parts of a grammar can be exchanged | relation `inside` between grammars with a hole, by induction over contexts |
| C129 | A recursive grammar is determined by its equation | contraction: `agree n` by induction on the text left |
| C130 | A JSON number is read as the closest double | concrete `f64::from_str`, correctness of Flocq's division and rounding, induction over documents |
| C131 | The numbers of a JSON document are finite | false; the exact limit from the tie at 2^1024 - 2^970 |
| C132 | The calls of the JSON examples nest as deep as the text does | a counting transcription of the grammar with equal outcomes; the nesting of what a parser consumed bounds its height |
| C133 | The calls of the calculator nest as deep as the parentheses do | false; `rest_left1` recurses per operator: lower bound by induction on the chain, upper bound by the text left |
| C134 | The JSON examples read a text with a number of calls in proportion to its length | amortised: what a parser calls is charged to what it consumes, alternatives begin with different elements |
| C135 | Results and errors tell what happened | case analysis on outcomes; the kinds of errors parser by parser |
| C136 | The calculator reads a text with a number of calls in proportion to its length | amortised as C134; white space read again is charged to the parser that consumes it |
| C137 | What a toys program writes tells the values it printed | false with strings; without strings a value is read back from its text by the expression parser (C88), so the text is injective |
| C138 | A toys program that ends normally never runs a function inside itself | relation `enters` (a function is entered while others run); lockstep of the inner and the outer run until a variable of the outer one is assigned; equal views by fuel |
| C139 | The toys parsers take time polynomial in the length of a program | false; counting of cached parsers, doubling by induction on nested ifs and blocks |
| C140 | The hocon parser takes time polynomial in the length of a document | false; counting transcription with equal outcomes, doubling by induction on unclosed objects |
| C141 | The text of an error tells what went wrong and where | false; unique decomposition of the text (message, at, number, rest) by structural induction for legible messages |
| C142 | The URI parser takes a linear number of calls and bounded depth | syntax-directed rules for the cost of each combinator (MeasureUriCount.v): constant, linear in what is consumed, linear in what is left; the value of a query parameter is ascii, so its conversion cannot fail after reading |
| C143 | The cron parser takes a linear number of calls and bounded depth | the rules of C142; repetition with a separator of constant cost |
| C144 | The depth of calls of the hocon parser is in proportion to opening brackets | bounds on the nesting by the brackets still ahead, by induction on the fuel of the grammar; lower bound by the nesting of the value read, which merging does not raise |
| C145 | The time of the hocon parser at most doubles with each bracket or comment sign | potential that halves where a bracket opens or a comment was passed, paid for by what a run consumes; bounds on the parsers without recursion |
| C146 | The log lists the runs of the logged parsers | outcomes with lines written; rules for what is written before a text at any place; the cron notation refined by the places of single digits |
| C147 | The depth of calls of the toys parsers is in proportion to opening brackets and operators | bounds on the nesting by the marked characters still ahead, by induction on the fuel of the grammar; lower bounds along one path of calls |
| C148 | The calls of the toys parsers are at most quadratic in the text, times a power of 16 in its opening brackets | a potential of the text still ahead that pays for every parser run there; which bracket comes next decides which alternative may be long; a simulation of the cached objects by the measured parsers |
| C149 | Within one parse no cache of the cron, toys and benchmark parsers finds an answer | each object carries the least offset at which it may be run again and what must be known of its last outcome for that; where alternatives backtrack over a cached parser, the texts decide that the later one cannot come to the same object |
| C150 | An object of the cron, toys or benchmark parsers may read several texts when the addresses of its states are new; at old addresses it repeats old answers | simulation between an object with the entries of earlier texts behind its map and a new one, closed under all combinators, then C111; the refutations run the objects |
| C151 | An object of these parsers may read one text any number of times, at any addresses | invariant of the maps (their entries are answers for the text; an object run at 0 is not run at 1), closed under all combinators |
| C152 | The log of the toys parsers: it changes no outcome, its lines tell the outcomes of the logged parsers, every product of the tree has its line, and the log of a product of numbers, or of a name and numbers, exactly | erasure, an invariant of the lines and a count, closed under all combinators; induction over the product |
| C153 | No polynomial bounds the length of that log | refuted: lower bounds for the lines, closed under the combinators, on the texts of C139 |
| C154 | The log of the calculator: a line for each number of an accepted text, in order; never two lines for one place | an invariant of places written, for all outcomes, closed under the combinators; the alternatives of primary by cases |
| C155 | The log of the calculator is at most of the order of the square of the text, and this is reached | C154: sums over distinct places; runs on texts of parentheses by induction; sums of ones from C154 and the completeness of the grammar |
| C156 | At most a line of the log of the toys parsers for each call, so that only brackets make the log long | the parsers with lines beside the parsers with calls, combinator by combinator and through the grammar; then C148 and C153 |
| C54-C56 | toys interpreter | fuel-indexed evaluator; monotonicity; refutation of parameter binding |

None of the properties is considered inexpressible at this point; what is finally proved, refuted or left partial is in
`MANIFEST.json`.

## 3. Trusted base

* Coq 8.16.1 kernel (including `vm_compute`).
* Axioms: none of our own.  `Print Assumptions` after each theorem says *Closed under the global context*, except in `PropsAN.v` (C130, C131 and the
  three theorems on C105 there), which speak of real numbers through Flocq and list four axioms of the standard library:
  `ClassicalDedekindReals.sig_not_dec`, `ClassicalDedekindReals.sig_forall_dec`, `FunctionalExtensionality.functional_extensionality_dep`,
  `Classical_Prop.classic`.
* The reading of the Rust code recorded in the comments (file and lines next to each definition).

External functions are arguments.  Where a theorem needs a fact about one, the fact is a hypothesis of the theorem:
C78–C89 assume that the regex class `\d` restricted to ASCII is `0-9`, C78–C80 also that `Decimal::from_str` rejects non-ASCII text.

`UriStd.v` models `Ipv6Addr::from_str` and its `Display` after core/src/net/parser.rs and ip_addr.rs of the standard library, which
are not in /repo; only C102 and C103 use it, the other URI theorems take these two functions as arguments.
`F64.v` models `f64::from_str` after core/src/num/dec2flt (grammar; correct rounding through Flocq's `Fdiv` and `binary_round_aux`); only `PropsAN.v` uses it,
the other JSON theorems take this function as an argument.

Not modelled: operator-overloading boilerplate, `Debug` bounds, logging side effects outside of `Log.v` (what `log_map` writes, through the combinators the cron grammar uses, C146, and those of the toys grammar with the lines of `regex`, C152, and the lines of `regex` in the calculator, C154), memory addresses (an oracle in the
cache model), regular-expression engine (an oracle argument), `HashMap` iteration order (any order where it shows: C76, C100), `f64` arithmetic and `Decimal` arithmetic beyond `HoconNumber.v`,
stack overflow and running time beyond the counts of `Measure.v` (calls of parser closures, which the compiler may merge; C132 to C134, C136, C142 to C145, C147, C148; the caches of toys taken as misses, which by C149 they are) and of `ToysSlow.v` (calls of cached toys parsers; C139) and `HoconSlow.v` (lower bounds for hocon; C140), allocation failure, time-zone handling of `chrono` (only `Utc`, as the proleptic Gregorian calendar without leap
seconds; its limits, years -262143 to 262142, in `CronLimit.v`), `intervals_rs::Interval` (its constructor may refuse an end before the start;
here an interval is its two limits).

## 4. Reading seeded/LOG.jsonl

Each line is one edit of a definition in a scratch copy.  The files that depend on it were rebuilt, every proof that no longer went through was
left open there, and the theorems that then failed or rested on an open proof were listed in `theorems_failed`.

* A theorem in the list has lost its proof.  It need not be false of the edited program: a lemma below it may fail for its script only.
* The list may be incomplete.  Most rebuilds took in only the files of the claim aimed at, and many stopped after two theorems had failed.
* `claim_broken` was written before the run.  A note marks the lines where no theorem of that claim is in the list.
* Lines without failed theorems are survivors repeated further down after tightening, programs equivalent for their callers, one change (u018)
  that its claim does not speak of, or edits without a type; the note says which.  An edit without a type tests nothing.
