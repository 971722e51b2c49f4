import json
P=[]
def p(id,title,statement,quant,why,anchors):
    P.append(dict(id=id,title=title,statement=statement,quantifier=quant,why_tests_cant=why,anchors=anchors))
p("C01","Every input character is translated exactly once, in order",
"For every table and every input, the pieces returned by a trace of the main translation pass cover the input exactly: the input is the concatenation of consecutive segments, one for each piece, each piece reports the length of its segment, and its reported input text is the segment itself up to the case of letters (a rule for `ab` that translates `AB` reports `ab`); no character is skipped and none is translated twice, whatever mixture of contractions, match rules, context rules, hyphenation-restricted rules and fallbacks was used.",
"every set of compiled rules, every input string, every set of typeforms/modes, every position of the cursor",
"Coverage could fail for one particular interaction of delayed (look-behind) rules, zero-width rules and fallbacks at one cursor position; the rule/input space is infinite.",
["src/translator/table/primary.rs: PrimaryTable::trace","src/translator/table/primary.rs: update_offsets","src/translator/pipeline.rs: trace_with_options"])
p("C02","Translation always terminates",
"Translating any input with any compiled table finishes without a panic: at any cursor position only finitely many zero-width rules can fire before the cursor moves, so the main pass and every correction/pass2-4 pass stop. The one exception is a table with a compbrl trigger that starts with a space character: on a text containing it the main pass never ends. (The sorting of emphasis signs by the standard library is assumed to return.)",
"every compiled table, every input",
"Non-termination needs one unlucky cycle of zero-width rules and variables; a test suite can only sample tables.",
["src/translator/table/primary.rs: PrimaryTable::trace","src/translator/table/multipass.rs: MultipassTable::trace"])
p("C03","A correction or pass2-4 pass leaves unmatched text untouched",
"A correct/pass2/pass3/pass4 pass copies every character that no rule of that pass replaces, unchanged and in place; in particular when no rule of the pass matches anywhere the pass returns its input unchanged, and the pass as a whole covers its input exactly once.",
"every rule set of the pass, every input string",
"Depends on all inputs and all rules; a counterexample may need a specific look-behind offset.",
["src/translator/table/multipass.rs: MultipassTable::trace, translate"])
p("C04","trace, translate and the per-pass results agree; passes compose in table order",
"For every translator and every input, translate returns exactly the concatenation of the outputs of the last traced pass; every traced pass runs on the concatenated outputs of the pass before it; forward the passes run correct, main, pass2, pass3, pass4 and backward in exactly the reverse order, each pass being present iff the table has a rule of it for that direction (main always); translate and trace without options are those with the default options.",
"every table, direction, input and option set",
"A disagreement between the traced and the translated result would only show for certain combinations of passes.",
["src/translator/pipeline.rs: TranslationPipeline::{compile,trace_with_options,translate,translate_with_options}"])
p("C05","A translation depends on table, input and options only, up to ties between conditional rules; pass variables never leak",
"Two translators made from the same table give the same trace and the same result for the same input and options, whatever the iteration order of their hash maps, provided that at no place of the text of the main pass two rules of equal weight apply whose letters and conditions, in the order they are checked, part at two different conditions on a neighbouring character; on such a tie the result does depend on the iteration order (refuted simple reading). A pass variable reads as the last value assigned to it earlier in the same pass of the same call, and as unset otherwise, so nothing is carried over from one call or pass to another.",
"every table, direction, input, option set, iteration order and sequence of assignments",
"Leaks show up only after particular call histories.",
["src/translator/effect.rs: Environment","src/translator/table/primary.rs: trace","src/translator/table/multipass.rs: trace"])
p("C06","The strongest applicable rule is the one applied",
"At every cursor position the rule applied is one that is applicable there (its text, boundaries, direction, and all position restrictions hold) and no applicable rule of larger weight (more characters and boundary conditions matched) exists; if no rule is applicable the single character falls back to its own definition. In the correct and pass2-4 passes a character is copied only where no rule of the pass fits (a rule whose test starts with what it replaces; an insertion made already does not count).",
"every compiled table, input, cursor position",
"Requires comparing against all candidates at every position of every input.",
["src/translator/table/primary.rs: PrimaryTable::trace"])
p("C07","A zero-width insertion is made at most once per position, and made where it is the strongest new offer",
"A correct/pass/context rule whose replaceable part is empty (for example `correct []\"a\" \"b\"`) never makes the same insertion (same replacement and same number of characters matched) twice at a position. Where its test holds it is made, unless another offer weighs at least as much there, or the same insertion has already been made since a rule last replaced text (so, contrary to the simple reading, not at every position where the test holds: `correct []\"a\" \"b\"` turns aa into baa; and one rule that matches in two ways, like `correct $l0-1[]\"b\" \"x\"`, does insert twice at one position).",
"every rule with an empty replaceable part, every input",
"The suppression that stops it from looping could also suppress legitimate later applications; depends on how the text between two occurrences is translated.",
["src/translator/table/multipass.rs: trace (seen)","src/translator/table/primary.rs: trace (seen)"])
p("C08","nocross rules never contract across a hyphenation point",
"With a hyphenation dictionary included, a rule marked nocross is never applied to a stretch of text that has a hyphenation point strictly inside it; and it is not suppressed when there is none.",
"every nocross rule set, dictionary, input",
"Depends on all pattern dictionaries and words.",
["src/translator/table/primary.rs: trace (nocross)","src/translator/position_constraints.rs: HyphenationConstrainer"])
p("C09","No contraction inside numbers or after them where the table forbids it",
"In forward translation no rule matching more than one character is applied at a position that belongs to a number, where numbers consist of digits defined by litdigit and, behind the first digit, of numericmodechars characters or (only in tables without numericmodechars) of decimal points and midnum characters directly followed by a digit - except a rule marked nocross, or a comp6 rule where the number also lies in computer braille.",
"every table with these opcodes, every input",
"Protection depends on run boundaries that can be arbitrarily placed.",
["src/translator/position_constraints.rs: NumericConstrainer","src/translator/table/primary.rs: trace (dont_contract)"])
p("C10","Computer braille text is translated with comp6 rules only",
"At a position inside a span marked as computer braille (by typeform or by a compbrl rule) only comp6 rules, rules marked nocross, or the character's own definition are applied (rules marked nocross are not held back by the span, contrary to the simple reading); outside no comp6 rule is.",
"every table, every set of computer-braille spans, every input",
"Spans may start, end and overlap anywhere, including beyond the text.",
["src/translator/position_constraints.rs: ComputerBrailleConstrainer","src/translator/table/primary.rs: trace, CompbrlScanner"])
p("C11","compbrl marks the whole word around each trigger",
"If no compbrl trigger occurs at a space, scanning an input for compbrl triggers ends and adds, each once, exactly the maximal whitespace-free words that contain the start of an occurrence of a trigger string; and the characters of those words are restricted to computer braille. If a trigger occurs at a space the scan never ends.",
"every list of trigger strings, every input",
"Termination depends on trigger strings no test table happens to contain (for example one starting with a blank).",
["src/translator/table/primary.rs: CompbrlScanner::enrich"])
p("C12","prepunc and postpunc rules apply only next to words as documented",
"A prepunc rule (not marked nocross) is applied only where no letter directly precedes and the scan to the right reaches a letter or digit before a space or the end, and a postpunc rule (not marked nocross) only where no letter directly follows and the scan to the left reaches a letter or digit before a space or the start. Marked nocross, they are applied anywhere.",
"every table, every input, every position",
"The scans are unbounded in both directions.",
["src/translator/position_constraints.rs: PunctuationConstrainer","src/translator/table/primary.rs: trace"])
p("C13","Undefined characters never make translation fail",
"Every character that the table does not define is still translated: to the `undefined` dots if the table has them, otherwise to its hexadecimal escape spelled with defined digits or the built-in fallback cells; this never panics for any Unicode scalar value.",
"every Unicode scalar value, every partial set of character definitions",
"1.1 million characters times arbitrary partial tables.",
["src/translator/table/primary.rs: handle_undefined_char","src/parser/braille.rs: fallback"])
p("C14","Undefined characters have different braille unless their codes differ only in digits 3 and 9",
"With no definitions in the table, the braille produced for two undefined characters is the same exactly if their hexadecimal codes become the same when every 9 is replaced by 3 (the built-in cell of 9 is that of 3), so the simple claim that different characters are distinguishable is false: U+2603 and U+2609 look the same.",
"every pair of Unicode scalar values",
"A pairwise property over all characters.",
["src/parser/braille.rs: fallback","src/translator/table/primary.rs: handle_undefined_char"])
p("C15","Rule lookup finds exactly the rules that apply",
"Looking up the rules at a cursor position returns exactly the rules that were inserted whose text is a prefix of the remaining input (ignoring case) and whose word/number/class boundary conditions hold on the neighbouring characters - nothing else, and no stored rule is missed - with weight equal to characters plus boundary checks.",
"every sequence of rule insertions, every previous character, every remaining input",
"Shared prefixes and shared boundary nodes interact; the rule set and input are unbounded.",
["src/translator/trie.rs: Trie::{insert,find_translations}"])
p("C16","Of several rules for the same text and boundaries exactly one is in force",
"If several rules of a table have the same text and the same boundary conditions, exactly one of them is ever offered. In the default build (backwards compatible with liblouis) it is the first one, unless a later one is of higher precedence (always, the word opcodes, indicators); in the other build it is the last one among those not of lower precedence.",
"every insertion history",
"Depends on arbitrary interleavings of other insertions and precedence classes.",
["src/translator/trie.rs: Trie::insert"])
p("C17","A rule never claims more input than there is",
"Every rule offered for a cursor position stands for at most as many characters as remain, so the cursor never runs past the end of the input.",
"every rule set, every input and cursor position",
"One boundary rule counting a non-existing neighbour would be enough to break it.",
["src/translator/trie.rs: find_translations","src/translator/regexp.rs: find_anchored"])
p("C18","The pattern matcher finds a match iff the pattern matches",
"For every pattern, input, start-of-text flag and variable environment, the matcher reports a match iff some prefix of the input is in the pattern's language (with anchors and variable tests interpreted at the position where they stand), and the reported length is the length of such a prefix.",
"every pattern AST, input, environment",
"Soundness and completeness of a regular-expression VM over infinitely many patterns and inputs, including nullable loops.",
["src/translator/regexp.rs: Regexp::emit, CompiledRegexp::{add_thread,find_anchored}"])
p("C19","Among several matches the leftmost-preferred one is chosen",
"When several prefixes match, the reported one is the one a backtracking (Perl style, leftmost alternative first, greedy loops) matcher would report, including the captured span. This holds for every pattern in which no repeated part can match the empty text, and so for every test operand of context, correct and pass2-4 rules (with ranges as in C21); in a match rule a part that can match the empty text may be repeated, and then another match may be reported (refuted: `(!$|b)*` takes the letters of bb although the first alternative fits without any).",
"every pattern whose loop bodies consume input, every test operand, every input",
"Priority of threads is a global property of the whole run.",
["src/translator/regexp.rs: find_anchored"])
p("C20","The pattern matcher never panics and takes linear time",
"For every pattern produced by the compiler and every input string (any Unicode) the matcher never slices inside a character, never indexes out of range, never leaves start>end in a capture, and visits each instruction at most once per input position.",
"every pattern AST, every input",
"Out-of-range program counters or byte offsets could arise for one shape of pattern only.",
["src/translator/regexp.rs: add_thread, find_anchored"])
p("C21","What bounded repetition {m,n} matches",
"A quantified attribute or class test with an exact count or with + matches exactly that many, or at least one, characters; a test with a range m-n matches k characters of the class exactly if k is m plus a multiple of n-m (not, as documented, for m <= k <= n: too many are accepted and permitted numbers between are rejected), and the same holds for every range inside any pattern.",
"every m, n, body and input",
"Needs every m, n and every input length.",
["src/translator/regexp.rs: Regexp::emit (RepeatAtLeastAtMost)","src/translator/context_pattern.rs: from_class"])
p("C22","What negation in patterns means",
"A negated single-character test (attribute, class, set, any) or anchor matches exactly where the test does not; a negated string matches text all of whose characters differ from it in their places (not merely text different from it); a variable test negated holds iff the variable has been set to another value; of a compound pattern every part is negated in its place, so the negation of an alternative matches whatever the negation of one alternative matches.",
"every negatable pattern, every input",
"Complement semantics over all inputs.",
["src/translator/regexp.rs: Regexp::negate"])
p("C23","Every pattern accepted by the parser can be compiled",
"Parsing of a match, context, correct or pass operand always ends, and every operand that the table parser accepts is compiled into a matcher without a panic - except tests that compare a variable by <, <=, > or >= (they always panic) and match patterns with a negation inside a negation.",
"every operand string",
"The operand grammar is infinite.",
["src/parser/match_rule.rs","src/parser/multipass/test.rs","src/translator/match_pattern.rs: from_patterns","src/translator/context_pattern.rs: from_instruction"])
p("C24","What a context or pass rule replaces is exactly its bracketed span",
"The stretch of text replaced by a context/correct/pass rule is exactly the text matched by the last top-level bracketed part of its test (the whole test if there is no bracket), at the offset at which it matched; what stands before and after the bracket must fit and is never consumed; `*` in the action reproduces that stretch and a swap class maps each of its characters and leaves unmapped ones alone. The exception: if a bracket stands inside that bracket only the inner one is replaced. Repetition ranges mean what C21 says.",
"every accepted test and action, swap class, variable values and input",
"Offsets are produced in one place and consumed several steps later.",
["src/translator/translation.rs: Resolve","src/translator/swap.rs","src/translator/context_pattern.rs"])
p("C25","Number sign at the start of each number and only there",
"At a position where signs are put in, the number sign stands iff a number starts there (at most one sign), where the digits are the characters defined by litdigit only (not by digit), and numericmodechars characters continue a number, or, if the table has none, decimal points and midnum characters between digits; a nonumsign is put in exactly behind a number where a numericnocontchars character follows.",
"every table with numeric opcodes, every input",
"Runs of arbitrary length in arbitrary context.",
["src/translator/indication/numeric.rs"])
p("C26","Signs of a position are put in once, before the text there",
"For every input of n characters and any list of typeform spans (empty, reversed, overlapping or beyond the end), the signs (number, letter, capitals, emphasis, computer braille, no-contract) computed for a position between 0 and n are put in once each, in the order computer braille, emphasis, number, letter, capitals, no-contract, before the first piece that starts there or at the end; nothing is put in beyond; signs that fall strictly inside a contraction are not put in at all; and every sign has the dots of its rule.",
"every table, input and list of typeform spans, including spans that are empty, reversed, overlapping or beyond the end of the text",
"Spans are caller supplied and unbounded.",
["src/translator/indication.rs: Indicators::precompute","src/translator/indication/numeric.rs","src/translator/indication/uppercase.rs","src/translator/indication/emphasis.rs","src/translator/indication/lettersign.rs","src/translator/indication/nocontract.rs","src/translator/indication/computer_braille.rs"])
p("C27","Capital signs delimit exactly the capital letters",
"Single capital letters get the letter sign, words of capitals the word sign and passages of at least lencapsphrase words the phrase signs; signs of different stretches do not interleave, only capitals (and caps mode or, in passages, separating characters) lie between a begin sign and its end, and every capital is marked if the table has the signs needed. With `endcapsphrase before` the dots of that rule are never written.",
"every input",
"Runs, words and passages of arbitrary number and length.",
["src/translator/indication/uppercase.rs"])
p("C28","Emphasis signs are those of the spans, and properly ordered where signs of one kind meet",
"The emphasis signs put in at a position are exactly those of the marks of the spans of each emphasis class; when all signs meeting at a position are opening signs the one that ends last opens first, and when all are closing signs the one opened last closes first (given that the library's sort sorts). Where opening and closing signs meet the order is not guaranteed.",
"every list of emphasis classes and spans",
"The order is produced by a sort whose comparator must be consistent for every combination of events at a position.",
["src/translator/indication/emphasis.rs: precompute"])
p("C29","Letter sign before isolated letters and words that read as contractions",
"A letter sign is put in exactly before a letter that is not listed in noletsign, is not preceded by a letter, a space or a noletsignafter character and not followed by a letter or a noletsignbefore character (so a letter between spaces gets none), and before a word equal, up to case, to the text of a contraction rule and not starting with a noletsign letter; a no-contract sign exactly before such words.",
"every table, every input",
"Depends on arbitrary neighbours.",
["src/translator/indication/lettersign.rs"])
p("C30","begcomp and endcomp delimit computer-braille spans",
"Each non-empty computer-braille span produces exactly one begcomp at its start and one endcomp at its end (clamped to the text), provided the table has begcomp; where one span ends and another starts, the signs stand in the order of the span list, so begcomp of the second may precede endcomp of the first.",
"every list of spans, every input",
"Spans are caller supplied.",
["src/translator/indication/computer_braille.rs"])
p("C31","Hyphenation points follow the Liang pattern rules",
"For every dictionary and word a hyphenation point is reported between two letters iff the largest digit any matching pattern assigns to that gap is odd and the gap respects the left and right minimum; one flag per gap is returned and no access is out of range.",
"every dictionary, every word",
"Maximum over all overlapping pattern occurrences in arbitrary words.",
["src/hyphenation.rs: break_points, parse_pattern"])
p("C32","Dot patterns and Unicode braille cells correspond one to one",
"Converting a dot pattern to Unicode yields U+2800 plus the standard bits (or the private-use encoding when virtual dots are used), different dot sets give different characters, and parsing a dots operand accepts exactly non-empty cells of valid dots joined by '-'.",
"every set of dots, every operand string",
"2^15 dot sets; infinitely many operands.",
["src/parser/braille.rs"])
p("C33","Cursor position maps are consistent",
"The input-to-output map has one entry per traced input character and the output-to-input map one per output character; entries are non-decreasing, each lies inside the piece it belongs to, and never beyond the end of the other text.",
"every sequence of traced pieces, including empty inputs and empty outputs",
"Off-by-one errors appear only for certain length combinations.",
["src/lib.rs: compute_output_positions, compute_input_positions"])
p("C34","Display tables map character by character and leave the rest alone",
"Applying a display table preserves the length of the text, maps each character by the first display rule for it in the default, backwards compatible build (by the last one in the other build) and leaves characters without a rule unchanged.",
"every display table, text and direction",
"All inputs and all rule orders.",
["src/translator.rs: DisplayTable"])
p("C35","Escapes in table operands decode to the intended characters",
"Decoding the operand text inverts the documented escaping: text without backslashes is unchanged, every documented escape yields its character, hexadecimal escapes (including surrogate pairs) yield the code point, every other operand is rejected (except that a plus sign is tolerated before the hexadecimal digits), the result contains no surrogates, and every text can be written as an operand of printable ASCII characters.",
"every operand string",
"Infinite operand space including all surrogate combinations.",
["src/parser.rs: unescape, unescape_unicode"])
p("C36","`=` stands for the concatenation of the characters' own dots",
"A rule whose dots operand is `=` (and a contraction rule) translates its text to the concatenation of the dots of its characters, in order; if one of them is undefined no translator can be built from the table, and unless there is another problem (C55) the error names the first undefined character of a rule with `=`; the result for a concatenation is the concatenation of the results.",
"every set of definitions, every table, every text",
"All texts and definition orders.",
["src/translator.rs: resolve_implicit_dots, CharacterDefinition","src/translator/table/primary.rs: compile","src/translator/pipeline.rs: compile"])
p("C37","nofor/noback split the table by direction",
"A rule marked nofor is not used for forward translation and one marked noback not for backward translation: leaving it out of the table gives the same passes with the same results, except that a marked rule that defines a character (or an `always` rule with alphabetic text) still counts for the classes that correct and pass2-4 rules test, while the main pass is never affected; rules marked neither way take part in both directions - except that backward a correct or pass2-4 rule whose action writes no text or dots of its own is not used.",
"every table, every input",
"Quantifies over all tables.",
["src/parser.rs: Constraints, HasDirection","src/translator/pipeline.rs: compile"])
p("C38","Include expansion always ends, detects cycles, keeps rule order and permits diamonds",
"Reading a table file with its includes ends over every file system, even one where every table includes another new one. It gives rules exactly when on every chain of includes each file is found, can be resolved and read, has only lines that are rules, is not already on the chain, has not 64 tables before it, and its hyphenation dictionaries are found; the rules are then those of the table with each include replaced by the rules of the included table (a table included twice is there twice), each with its file and line. Otherwise the errors are exactly what is wrong at the ends of the chains; a table that includes itself through at most 64 tables is reported with the cycle, a chain of more than 64 different tables as too deep. A translator for several tables has their rules in order, or the errors of the first table that has errors; a table given as text with an include is rejected.",
"every finite or infinite include graph",
"Graph property over all file systems.",
["src/parser.rs: table_expanded_with, expand_include, expand_includes","src/lib.rs: Translator::new, Translator::from_table_source"])
p("C39","Reading a table is all or nothing and reports every bad line",
"Reading the text of a table gives either the rules written on its lines, in order, each with the number of its line, where blank lines and comments are left out, or, if some other line is not a rule, one error for each such line, with its number, in order, and no rules.",
"every table text",
"All texts.",
["src/parser.rs: table"])
p("C40","Metadata queries return exactly the tables having all requested properties",
"A metadata query with at least one condition returns exactly the tables of the listed directories that carry every key/value pair asked for; a table carries a pair when one of its lines reads #+key:value (alphanumeric key, value of printable characters without spaces). The order of the conditions does not matter, unreadable files are skipped, and indexing fails exactly when a directory or one of its entries cannot be listed. On the command line a query is k=v,k=v,...; it panics exactly when a part has no '='. The simple reading 'a query without conditions is answered' is false: it panics.",
"every set of directories and file contents, every index, every query including the empty one, every command-line text",
"All indexes, file contents and queries.",
["src/metadata.rs: index, find","src/main.rs: Query"])
p("C41","Position restrictions combine independently",
"What is allowed at a position is the union of what each restriction source (numbers, computer braille, capitals, backward digits, hyphenation, punctuation) says on its own; sources do not interfere and positions outside the text carry no restriction.",
"every set of constraint sources, input and position",
"All combinations.",
["src/translator/position_constraints.rs: PositionConstraints::precompute"])
p("C42","Back-translation restores capitals as indicated",
"In backward translation the text following a capital letter sign has its first letter in upper case, the text of a capital word/phrase is upper-cased entirely, and all other text keeps the case given by the table.",
"every table with capital signs, every braille input",
"Arbitrary placement of signs.",
["src/translator/position_constraints.rs: BackwardCapsConstrainer","src/translator/table/primary.rs: trace"])
p("C43","Character classes contain what the table says",
"A character belongs to a class iff a definition, class or base rule puts it there; characters defined by a base rule inherit the dots of their base, when a character is defined twice the first definition counts in the default, backwards compatible build (the last one in the other); a base rule whose base is undefined has no effect in the default build and is an error in the other.",
"every table",
"All tables and definition orders.",
["src/translator/table.rs: TableContext::compile"])
p("C44","Case of the input does not influence which rule text matches",
"Rules are looked up without regard to the case of the input: two inputs that lower-case to the same characters are offered the same rules as far as their texts are concerned.",
"every rule set, every pair of inputs equal up to case",
"All inputs.",
["src/translator/trie.rs: char_transition"])
p("C45","Which variable actions can be used",
"An accepted action sets variables only by assignment: the documented increment #n+ and decrement #n- are rejected by the parser wherever they occur.",
"every action operand",
"All operands.",
["src/parser/multipass/action.rs: variable"])
p("C46","A match operand starting with a hyphen matches everywhere",
"A pre- or post-pattern of a match rule that starts with a hyphen is accepted whatever follows the hyphen and never restricts the rule.",
"every operand starting with a hyphen",
"All operands.",
["src/parser/match_rule.rs: pattern"])
p("C47","The look-behind instruction makes no difference",
"A look-behind instruction `_n` anywhere in a test changes nothing: the conditions before the bracket are checked on the text directly before the replaced span and those after it on the text directly behind, with or without it.",
"every test, position of the instruction, variable values and text",
"All tests and texts.",
["src/translator/context_pattern.rs: from_instruction"])
p("C48","The attribute any alone never matches",
"A test containing `$a` (documented as: any character) with no other attribute and no bracket never matches any text, so the rule is never applied.",
"every such rule and every text",
"All tests and texts.",
["src/translator/context_pattern.rs: from_instruction"])
p("C49","A match rule applies exactly where its patterns and text fit",
"A match rule is offered at a position iff its pre-pattern fits from there, its text stands directly behind (without regard to case) and its post-pattern fits behind the text; the offer covers exactly the text and nothing the patterns matched.",
"every match rule without nested negation, every text and position",
"All patterns and texts.",
["src/translator/match_pattern.rs: from_match_rule, find"])
p("C50","Of a prepunc and a postpunc rule for the same characters only one is ever used",
"If a table has a prepunc and a postpunc rule for the same characters (both or neither marked nocross), then over all texts and calls only one of the two is ever applied; the other has no effect at all.",
"every table, every pair of texts and span lists",
"A claim about all uses of a table.",
["src/translator/table/primary.rs: compile (Prepunc, Postpunc), trace","src/translator/trie.rs: insert"])
p("C51","Word and number opcodes apply exactly at their documented boundaries",
"In forward translation a piece produced by a rule with a text stands for exactly that text up to case, and the characters directly before and behind it are as the opcode demands: word, contraction, joinword, lowword between edges (space, punctuation, start or end of text), begword at an edge and before a letter, midword between letters, endword, partword, midendword, begmidword, prfword, sufword, begnum, midnum, endnum correspondingly; and every before/after class condition with a class the table has holds. The character before is the one the previous rule matched, i.e. the input character up to case. Nor is a word missed: where at the beginning of a piece the text of a rule stands in such a place, outside the places where contractions are not looked for (computer braille, uncontracted words and numbers, hyphenation points for nocross rules, prepunc and postpunc), the piece is made by a rule whose weight is at least the length of that text, and if no other rule has a text that is there (and the table has no match, context and comp6 rules) by that rule.",
"every table, every text, every piece of the trace",
"Depends on all neighbours in all texts.",
["src/translator/table/primary.rs: compile","src/translator/trie.rs: find_translations"])
p("C52","Of the options only the emphasis is used, and of the result only the output is filled in",
"Two option sets with the same emphasis give the same trace and the same translation for every input: modes and cursor position have no effect; and the detailed result consists of the translation alone, its position maps, cursor and performed modes being empty or unset, whatever was asked for.",
"every translator, input and pair of option sets",
"A dependence on an option would show only for some tables and inputs.",
["src/translator/options.rs: TranslationOptions","src/lib.rs: TranslationResult","src/translator/pipeline.rs: trace_with_options, translate_with_options"])
p("C53","Emphasis positions count characters of the text the main pass receives",
"The spans of emphasis given with a translation are applied, unchanged, to the text that reaches the main pass; if a correct rule has changed the length of the text, they no longer mark the characters of the input they were given for (the simple reading, that they count characters of the input, is refuted), and the passes pass2-4 never see them.",
"every translator, input and emphasis",
"Needs all combinations of correct rules and spans.",
["src/translator/pipeline.rs: Transformation::trace","src/translator/table/primary.rs: PrimaryTable::trace"])
p("C54","A table line is accepted exactly when it has the form of a rule, and then means that rule",
"A line is read as a rule exactly when its words are: marks (nofor or noback, then nocross) that the opcode permits, before/after conditions, an opcode, and its operands in the form the opcode asks for; the rule has exactly these marks, operands and, for the opcodes that take them, conditions. Reading always ends. A wrong opcode and marks that are not permitted are reported by name, whatever the rest of the line. Words after the operands are ignored, except where the opcode takes further words (multind, replace). Not every word has an effect: conditions in front of opcodes that do not take them, empmatchbefore and empmatchafter, and marks in front of grouping are accepted and dropped.",
"every sequence of words",
"All lines for all 108 opcodes.",
["src/parser.rs: RuleParser::rule"])
p("C55","Building a translator succeeds unless a rule has one of five problems, and reports the first",
"A translator is built from a table of accepted rules iff none of the rules that the direction uses has a problem; otherwise the outcome is that of the first problem in the order of the passes correct, main, pass2, pass3, pass4 and within a pass in table order. The problems are: `=` or contraction with an undefined character (an error that names it); an unknown swap class (an error that names it); a dictionary that cannot be read or parsed (an error); a comparison of a variable by <, <=, >, >= (a panic); a negation of characters inside a negation in a match pattern (a panic). The simple reading, that building never panics, is refuted by the last two.",
"every table (as text or as rules), both directions",
"All tables, and combinations of problems.",
["src/lib.rs: Translator::new, from_table_source","src/translator/pipeline.rs: compile","src/translator/table/primary.rs: compile","src/translator/table/multipass.rs: compile"])
p("C56","A piece of the trace has the text and the dots of the rule it names",
"In forward translation every piece of the main pass that names a rule other than a context rule shows as input the text of the rule (C01: the input characters but for case) and as output its dots, the definition's dots for a character, the sign's dots and no input for an indicator; in backward translation it reads the dots and writes the text, possibly with capitals. Exceptions: match rules (and context rules) are not turned round in backward translation, they read text and write dots; signs are put in.",
"every table, text, emphasis and piece",
"All tables and texts.",
["src/translator/table/primary.rs: compile, trace","src/translator/trie.rs: insert","src/translator/indication"])
p("C57","Test and action operands mean what their grammar says",
"The test operand of a context, correct or pass2-4 rule is accepted exactly when it is a non-empty sequence of: _ or _n, quoted strings, @dots, $attribute letters and %class with a quantifier (nothing, ., n, n-m with n<m), %1..%7, #n=m with the five operators, ! before a test that is not a negation or brackets, brackets around tests, ` and ~; numbers up to 255; each letter has the documented attribute. Actions: strings, @dots, *, ?, #n=m, %class. Each operand has only one reading, anything else is an error, and every text can be quoted. The escapes of other operands are not available in strings: two backslashes remain two (refuted reading).",
"every operand, of any length and nesting",
"All operands.",
["src/parser/multipass/test.rs: Parser","src/parser/multipass/action.rs: Parser"])
p("C58","Match patterns mean what their grammar says",
"An operand of a match rule is accepted exactly when, after decoding its escapes, it is a pattern of the grammar: characters, ., ^ and $, %letter and %[letters], sets, groups, negation (not of a negation), quantifiers ?, *, +, alternatives (binding less than sequences, and to the left); each letter has the documented attribute; ^ among attributes is the boundary on the operand's side. Each operand has only one reading; anything else is an error. Refuted readings: that a quantifier repeats the one character before it (it repeats the whole run of characters), and that every character can be matched (a backslash cannot be written).",
"every operand, of any length and nesting, on both sides",
"All operands.",
["src/parser/match_rule.rs: PatternParser","src/parser.rs: unescape, match_pre, match_post"])
p("C59","A test file gives the results of its tests, under the tables and the mode in force",
"Running a YAML test file gives results exactly when it is a UTF-8 document that maps the keys display, table, flags and tests (repeatedly, in any order) to values of the documented forms, and every table in force can be read and compiled and every test translated; anything else is an error (or a panic or endless run of the library: C55, C02), and then there are no results. The results are, for every tests entry in order, for every table of the last group of consecutive table entries, for every test in order: success, failure, expected failure or unexpected success, by whether the translation (forward: shown by the display table; backward: of what the display table shows) with the test's typeform and modes equals the expected text, and whether the test is marked xfail in that direction; bothDirections runs the tests forward, then with input and expected output exchanged backward. The last display, flags and option of each name count; escapes in the texts of a test, also in its description, are decoded; typeform masks stand for their runs of plus signs. Exceptions: nothing is run in the modes display, hyphenate and hyphenateBraille, backward when compiled with LOUIS_TEST_FORWARD_ONLY, and without a table; positions, lengths and expected typeforms are read and never checked; tables given by a query are an error.",
"every stream of YAML events, every file system and table",
"All files; nesting and order of entries.",
["src/yaml.rs: YAMLParser","src/test.rs: TestMatrix::check, Test::check, ExpectedFailure::is_failure"])
p("C60","The check command reports every result that is no success, and its summary adds up",
"louis check prints, file by file in the order given, every result that is not a success and a message for every file without results; with the summary it prints the messages, then one row for every file with results, ordered by the number of tests (equal numbers in the order given), in which every test is counted in exactly one of the four columns, and a last row with the sums.",
"every list of files and results",
"All lists of files.",
["src/main.rs: check_yaml, YAMLTestResult"])
p("C61","The trace command shows the pieces of the translation with the rules they come from",
"louis trace prints the translation, then one row for each piece of every pass, pass by pass and from left to right, numbered from 1, with the piece's input and output, the pass and the rule it comes from (nothing if there is none); the only pieces left out are the characters that passes other than the main pass copy. A rule is shown as its opcode and operands. Test operands without dots and escapes, and match patterns without classes of characters, are shown in a way they could be written. The command ends so whenever the translation does and every rule a piece comes from has an opcode with a text form - always, if the table has only such rules for the direction - and otherwise panics. Refuted readings: that every table can be traced (lowword, joinword, emphasis and computer braille signs and others have no text form); that what is shown is a line of a table (dots are shown as cells, the texts of actions without quotes); that different rules are shown differently (the marks and conditions in front of the opcode are left out, and the class %a in a match rule looks like the text l).",
"every table read from lines, direction and text",
"All tables and texts; the rules that apply depend on both.",
["src/main.rs: trace, print_trace, Trace","src/parser.rs: Display for Rule","src/parser/multipass/test.rs: display","src/parser/multipass/action.rs: display","src/parser/match_rule.rs: Display for Pattern"])
p("C62","Lossless tables: translating and back-translating gives the text back",
"Take any table all of whose rules are unconditional and unmarked (definitions of characters, and always, syllable and largesign rules with explicit dots; display rules do not matter), in which the dots of no rule begin with the dots of another rule (unless text and dots are the same), and whose cells are unaffected by lower-casing and not declared as literary digits. Then every text of defined characters is translated, and translating the result backward gives the text back, except that letters may come back in lower case; a text without capital letters comes back exactly. If moreover there are only character definitions, one per character, every character is translated by its own definition in both directions. The two exceptions are needed: a capital letter is lost when a rule for several characters applies, and dots that merely differ are not enough.",
"every such table, every text of defined characters, both builds, every hash order",
"All tables and all texts; backward translation chooses its own segmentation.",
["src/lib.rs: Translator::translate","src/translator/table/primary.rs: PrimaryTable::compile, trace","src/translator/table.rs: insert","src/translator/trie.rs: Trie","src/translator/pipeline.rs: TranslationPipeline"])
p("C63","A rule whose text does not occur does nothing",
"Take a table and add, anywhere in it, a rule that only offers a translation of its text: always, word, begword, midword, partword, midendword, endword, prfword, sufword, begmidword, joinword, lowword, largesign, syllable, begnum, endnum or comp6, with whatever marks and conditions. For every input in which, as it comes to the main pass, the text of the rule does not occur (letter case of the input aside; backward: in which the cells of the rule do not occur), the two translators give the same trace and the same output. The exception is an always rule whose text is all letters: it makes its cells letters, which the attribute tests of pass2 to pass4 and the backward translation see, so for such rules the claim holds forward for tables without pass2, pass3 and pass4 rules. As with any two builds of one table the text must have no ties between rules of the same weight that part with two different conditions.",
"every table, every place in it, every such rule, every input and options, every two iteration orders of the hash maps",
"a test adds one rule and tries a few inputs; the claim is about all tables, where the added rule can displace others, share their trie nodes and change classes",
["src/translator/table/primary.rs: PrimaryTable::compile, trace","src/translator/trie.rs: Trie","src/translator/table.rs: TableContext::compile"])
p("C64","Texts are translated word by word",
"Take, forward, a table without match, context, correct, pass2, pass3, pass4, letsign, begcaps, begcapsphrase and compbrl rules, and a character that separates words: it has the class space and no other, lower-casing leaves it alone, and it occurs neither in the text of a rule nor among the characters a rule adds to numbers or to words in capitals. Then every text is translated, and the translation of any words with the separator between them is the translations of the words, in order, with the translation of the separator between them: no rule, no number sign, no capital sign and no hyphenation point reaches over the separator, whatever the words are. Refuted without the restrictions: a letsign is not the same at the beginning of a text and after a space, capital phrases span words, and rules can have spaces in their texts.",
"every such table and separator, every list of words of any characters and length, every iteration order of the hash maps",
"A test translates a few phrases; the claim is that nothing carries over from one word to another, for all tables and texts.",
["src/translator/table/primary.rs: PrimaryTable::trace","src/translator/trie.rs: Trie","src/translator/indication.rs","src/translator/indication/numeric.rs","src/translator/indication/uppercase.rs"])
p("C65","Signs are added and change nothing else",
"Marking parts of a text with emphasis only adds signs: for any two sets of spans that mark the same positions as computer braille, the passes before the main pass give the same trace, and the trace of the main pass has the same pieces but for the signs of indicator rules (pieces for no text); spans of classes that no rule of the table names (other than computer_braille) make no difference to trace and result at all. Likewise for tables: adding, anywhere, a rule that only makes signs or says where they stand (numsign, nonumsign, begcomp, endcomp, nocontractsign, letsign, the capsletter, begcaps... and emphasis opcodes with their lengths and characters, noletsign..., numericnocontchars) leaves all pieces of the main pass but the signs as they are - forward, and backward for the rules whose signs are not read there; the text must have no ties as in C05, as with any two builds of a table. Refuted without the restrictions: computer braille is translated differently, numsign is read backward, and pass2 to pass4 see the signs.",
"every table, text, two sets of spans, rule and place of the rule, every iteration order of the hash maps",
"A test compares a few marked texts; the claim is about all tables, spans and texts.",
["src/translator/table/primary.rs: PrimaryTable::trace","src/translator/indication.rs","src/translator/indication/emphasis.rs","src/translator/options.rs: Emphasis"])
p("C66","Opcodes without support are read and change no translation",
"The rules nocont, replace, repeated, repword, rependword, exactdots, joinnum, multind, grouping, modeletter, begmodeword, begmodephrase, endmodephrase, lenmodephrase, midendnumericmodechars, seqafterpattern, seqafterexpression, class, capsnocont, and display in a translation table, can stand anywhere in a table: the translators made from the table with and without such a rule are the same in both directions, and so are the errors. (A user who expects the effects the liblouis manual gives for them is mistaken.)",
"every table, place in it, rule with one of these opcodes, direction",
"All tables.",
["src/translator/pipeline.rs: TranslationPipeline::compile","src/translator/table.rs: TableContext::compile","src/translator/table/primary.rs: PrimaryTable::compile"])
p("C67","A rule can be moved past rules for other texts",
"Where in a table a rule stands does not matter as long as it does not pass a rule for the same text: take a rule that only offers a translation of its text (always, word, begword, midword, partword, midendword, endword, prfword, sufword, begmidword, joinword, lowword, largesign, syllable, begnum, endnum or comp6, with whatever marks and conditions) and move it, anywhere in the table, past rules none of which translates the same text (backward: none of which is for the same cells). The two tables give the same passes, and the two translators the same trace and the same output for every input and options, whatever the iteration orders in them, where the text that comes to the main pass has no ties as in C05. Refuted for rules for the same text: of two, the default build uses the first.",
"every table, every rule of the kind named and every block of rules it is moved past, every input and options, every two iteration orders of the hash maps",
"a test reorders one table and tries some inputs; the claim is about every table, and the rules stand in tries and lists whose order decides between rivals",
["src/translator/table/primary.rs: PrimaryTable::compile, trace","src/translator/trie.rs: Trie::insert, find_translations","src/translator/table.rs: TableContext::compile"])
p("C68","What a swap class replaces",
"The last swapcc, swapcd or swapdd rule with a name makes the swap class of that name: each character it lists becomes the text at the same place of the rule's second operand (the last such place if the character is listed twice), a character it does not list is not replaced, and earlier rules with the name do not count. Where a correct, pass2, pass3 or pass4 rule has the action %name alone, each character of the text it replaces becomes what the class gives for it or, if the class has none for it, stays as it is, in order. Refuted: that several rules with one name add up to one class.",
"every table, swap class name, character; every text, piece and rule of a pass with a swap action",
"a test tries a few classes; the claim is about all tables, with classes defined more than once and characters listed twice",
["src/translator/swap.rs: Swapper, SwapClasses","src/translator/table.rs: TableContext::compile","src/translator/context_pattern.rs"])
p("C69","Forward translation writes braille",
"Whatever text is given, a forward translation is written only with what the rules write: the cells of their dots operands, the texts and cells in the actions of context, pass2, pass3 and pass4 rules, and the cells that spell the number of an undefined character; no character of the input gets through but by an action that keeps it. So for every table read from files or from a text in which the actions of context rules write no print, do not keep their text and swap nothing, and the actions of pass2, pass3 and pass4 write no print and swap no swapcc class, every translation is all braille: Unicode cells U+2800 to U+28FF, or for dots 9 to f the characters U+F0000 to U+F7FFF - also for characters the table does not know. Refuted for all tables: pass2 can write any text.",
"every such table and file system, every text and options, every iteration order of the hash maps, both builds",
"a test translates a few texts; that no print gets through is a claim about every text and every table",
["src/lib.rs: Translator::translate","src/translator/table/primary.rs: PrimaryTable::trace, handle_undefined","src/translator/pipeline.rs: TranslationPipeline","src/parser/braille.rs: BrailleChar, fallback"])
p("C70","Match and context rules apply where they fit and are not passed over",
"In the main pass the piece of a match rule is the rule's text (case of the input disregarded) in a place where the rule's patterns fit before and behind it, looked at from where some earlier piece ended; its weight is the number of characters from there to the end of what the second pattern takes up. And no such rule is passed over: where a match rule, or a context rule with the values the variables have there, fits the text behind some pieces, then in one of the ways it fits the first piece that begins where its text (the bracketed part) begins is made by a rule that weighs at least as much - unless the position is in computer braille, the rule is for more than one character of an uncontracted word or, backward, for a cell read as a digit; a context rule that only inserts may have made its insertion already. An offer for a later position is considered for the first piece there only.",
"every table, text, direction, match or context rule accepted by the parser without nested negation, place in the trace, iteration order of the hash maps",
"a test shows that a rule is applied in some text; that it is used in every place it fits, and nowhere else, is a claim about all texts, tables and rival rules",
["src/translator/table/primary.rs: PrimaryTable::trace, delayed_translations", "src/translator/match_pattern.rs: MatchPatterns::find", "src/translator/context_pattern.rs: ContextPatterns::find"])
p("C71","Uncontracted braille with capitals and numbers can be read back",
"Let a table give every character one cell, capitals as base forms of their letters with a capsletter sign, and digits (which may have the cells of letters) a number sign. In the default build the forward translation of a text of such characters is the text spelt out: the cell of each character, a capital sign before the cell of each capital and a number sign before each run of digits. And the backward translation of these cells is the text again, with its capitals and its numbers, provided that no digit stands right behind a letter and no small letter with the cell of a digit right behind a digit; so different such texts have different braille. (The rule for a letter must stand before those for its capital and for the digit with the same cell.)",
"every table of that kind, every text of its characters, every iteration order of the hash maps",
"a round trip of a sample text says nothing about other texts: whether signs, capitals and digits are told apart depends on every neighbouring pair of characters and on all the rules of the table",
["src/translator/table/primary.rs: PrimaryTableBuilder, PrimaryTable::translate", "src/translator/position_constraints.rs: BackwardNumbers, BackwardCapitalization", "src/translator/indication: numeric, uppercase"])
p("C72","Of two rules for the same text in the same place only one is ever used",
"If wherever one rule of a table could be applied another could be too (the same text, or backward the same dots, every place of the first among those of the second, the same before/after conditions, both or neither marked nocross), one of the two is never used, whatever is translated. In the default build a rule of the opcodes always, word, joinword, begword, midword, endword, midendword, begmidword, sufword, begnum, midnum, endnum (and backward the capital and number signs) displaces one of the other opcodes wherever the two stand, and of two such rules the later one displaces the earlier; otherwise the first one stays and the later one is never used, where decpoint and hyphen count as standing first. In the other build the last one counts. So backward an always rule takes its cells away from a character with the same dots, except that digits are still read in numbers.",
"every table, every two of its rules, both directions, both builds, every text, every iteration order of the hash maps",
"a test of two rules shows what happens to one text; that a rule is never used at all, by no text and at no position, cannot be seen from examples",
["src/translator/trie.rs: Trie::insert", "src/parser.rs: HasPrecedence, Precedence", "src/translator/table/primary.rs: PrimaryTableBuilder"])
p("C73","Of several definitions of a character one counts, everywhere",
"When text is translated to braille, every piece that comes from the definition of a character comes from the one definition that counts, in whatever text and at whatever position it stands. In the default build that is the first decpoint or hyphen rule for the character, or else the first rule of the opcodes space, punctuation, letter, lowercase, uppercase, sign, math, litdigit, digit or base for it, where a digit rule is left out if the table has a litdigit rule for the same character and a base rule if the base character has no dots; in the other build the last such rule of these opcodes counts, or else the last decpoint or hyphen rule. A character is treated as undefined only if no such rule is in the table.",
"every table, every character, both builds, every text and emphasis, every iteration order of the hash maps",
"a test shows which of two definitions is used for one text; that no position in any text is ever written by another definition, for tables of any length, is a statement about all of them",
["src/translator/table/primary.rs: PrimaryTableBuilder, CharacterTranslation::insert", "src/translator/table/primary.rs: compile"])
p("C74","A translation is at most proportional to its text",
"For every table and direction there is a number such that no translation with it is longer than that number times one more than the length of the text and the number of emphasised stretches together, whatever the text, the emphasis and the values of the variables; and the number of pieces the passes are made of (rules applied, signs placed, characters copied) is bounded in the same way. In one correct, pass2, pass3 or pass4 pass the number of pieces is at most the number of its rules plus two, times one more than the length of the text. (Back-translation puts characters in upper case: for it the number also depends on the longest upper case of a character.) A multiple of the length of the text alone is not enough: rules that insert may apply to the empty text.",
"every table, direction, build, text, emphasis and iteration order of the hash maps",
"a test measures one text; that rules which insert text, set variables or are held back for a later position can never feed each other into exponential or unbounded output is a statement about all texts of all lengths",
["src/translator/table/primary.rs: trace", "src/translator/table/multipass.rs: trace", "src/translator/pipeline.rs: translate_with_options"])
p("C75","Capitals change only the signs",
"Take a table none of whose forward rules can tell a capital from a small letter: it has no match, context, correct or compbrl rule, no nocross rule, and no rule that wants a neighbour of the class uppercase or lowercase. Two texts that differ only in that some letters of one are capitals in the other (letters with the same lower case, cells, part in numbers and classes) then have the same translation but for the signs: with the same emphasis, the main pass makes of both, one by one, pieces of the same number of characters with the same cells, so that contractions, numbers and punctuation are treated alike. If the table has no rules for signs, the two translations are equal, whatever pass2, pass3 and pass4 rules it has. A rule that wants a capital before it, or a compbrl rule, does tell the texts apart.",
"every table without rules that tell case, every two texts that differ in case only, every emphasis, build and iteration order of the hash maps",
"a test compares a few capitalised words; that no combination of contractions, word boundaries, numbers, punctuation and computer braille ever depends on case is a statement about all texts",
["src/translator/trie.rs: find_translations, char_transition", "src/translator/table/primary.rs: trace", "src/translator/position_constraints.rs"])
p("C76","Tables of plain contractions translate by longest match",
"Take a table whose forward rules only define characters (space, punctuation, letter, lowercase, uppercase, sign, math, litdigit, digit, hyphen, base, undefined) and give contractions with always (without nocross and without before/after classes). Then every text (of Unicode characters, none of it marked as computer braille) has a translation, and it is the one read off as follows, from left to right: among the always rules whose text, regardless of case, is what comes next - where a litdigit comes next only those for one character - take the longest, write its dots, or those of its characters if they are given as =, and go on behind it; if there is none write the next character by its definition, or, if it has none, by the dots of the last undefined rule, or, without such a rule, as \\x and its hexadecimal code spelled in the cells of the table; of several always rules for the same text the last counts, in both builds. Conversely there is only one way to read a text so, so that the translation is determined by the rules alone. It is not so that the first rule for a text counts, as it does for definitions of characters in the default build, nor that contractions that begin with a digit are ever used.",
"every table of such rules, every text, every emphasis other than computer braille, both builds, every iteration order of the hash maps",
"tests translate some words with some tables; that greedy longest match is the whole story - no candidate forgotten, no rule preferred by its place in the table, no text left untranslated - is a statement about all tables and all texts",
["src/translator/trie.rs: insert, find_translations", "src/translator/table/primary.rs: compile, trace", "src/translator/position_constraints.rs: NumericConstrainer", "src/translator/table/primary.rs: handle_undefined_char"])
p("C77","Tables of plain contractions back-translate by longest match",
"Take a table whose backward rules only define characters (space, punctuation, letter, lowercase, uppercase, sign, math, litdigit, digit, hyphen, base, undefined) and give contractions with always (without nocross and without before/after classes). Then every line of cells (of any Unicode characters, none of it marked as computer braille) has a back-translation, and it is the one read off from left to right: among the rules whose dots are what comes next - where a character the table defines as litdigit comes next only those of one cell - take the longest dots, write the text of the rule that counts for them, and go on behind them; a cell that no rule begins with is written as the dots of the last undefined rule, or, without such a rule, as \\x and its hexadecimal code spelled in the cells of the table. Of several rules with the same dots the one that counts is, in the default build, the last always rule, without one the first hyphen rule, without one the first definition; in the other build the last rule that is not a hyphen rule, without one the last hyphen rule. There is only one way to read the cells so. It is not so that the first rule with the dots counts, nor that unknown cells are kept or left out.",
"every table of such rules, every line of cells, every emphasis other than computer braille, both builds, every iteration order of the hash maps",
"tests read back some words; that the order of definitions and contractions, ties and lengths always resolve in this way, and no line of cells is left untranslated, is a statement about all tables and all cells",
["src/translator/trie.rs: insert, find_translations", "src/translator/table/primary.rs: compile, trace", "src/translator/table/primary.rs: handle_undefined_char"])
p("C78","A repeated rule changes nothing",
"A rule whose opcode has no precedence over others (syllable, largesign, partword, prfword, lowword, comp6) can stand in the table twice: in the default build, adding a second copy of it anywhere later, whatever rules stand in between, changes no translation. Where none of the rules in between is for the same text (backward: for the same cells), this holds in the other build, too, and also for always rules without conditions (no nocross, no before/after classes, no match). The two tables give the same passes, and the two translators the same trace and the same output for every input and options, forward and backward, whatever the iteration orders in them, where the text that comes to the main pass has no ties as in C05. Refuted for the other opcodes: the second copy of a word, begword, ... rule, stored in place of the first, weighs less than the first did, so that a rival of the same length wins; so it is not so that a table may be read twice. An always rule may not be repeated behind another rule for the same text either.",
"every table, every rule of the kinds named, every place for its second copy, every input and options, both builds and directions, every two iteration orders of the hash maps",
"a test repeats one rule and tries some inputs; the claim is about every table, in which precedence and order decide between rivals",
["src/translator/trie.rs: Trie::insert, find_translations", "src/translator/table/primary.rs: PrimaryTable::compile, trace", "src/translator/table.rs: TableContext::compile"])
p("C79","Back-translation writes the text of rules",
"What a back-translation puts out is made of the text operands of the rules of the table (match rules are not turned round and write their dots), put in upper case where capitals are signed, and of what the actions of context and correct rules write, besides two things: the signs of indicator rules, and what stands for cells that no rule could be used for - the dots of the undefined rule, or \\x and the code, spelled in the cells of the table. This holds for every input. Where every cell that comes to the main pass is one that the table defines as a character, or as an indicator it reads, and is not that of a prepunc or postpunc rule, and no computer braille is marked, nothing stands for unknown cells; and where none of these cells is a letter or digit of the text, no contraction rule is made of them and no emphasis is marked, no signs are put in either: so a table whose rules write print gives print alone. Both exceptions are real: cells the table does not know come out as cells, and so does the cell of a punctuation mark, away from words, if a prepunc rule for it stands before the rule for the character.",
"every table, every input and options, both builds, every iteration orders of the hash maps, every set of characters with the text of the rules (and with the upper case of its members)",
"tests back-translate chosen braille with chosen tables; that nothing else than the text of rules comes out is about all inputs and all tables",
["src/translator/table/primary.rs: PrimaryTable::compile, trace, handle_undefined_char", "src/translator/pipeline.rs: TranslationPipeline::compile, translate", "src/translator/table/multipass.rs: MultipassTable::trace"])
open('/verif/properties.jsonl','w').write("\n".join(json.dumps(x,ensure_ascii=False) for x in P)+"\n")
print(len(P))
