# Formal model of louis-rs in Rocq (Coq 8.16.1)

## 1. Shape

Everything is in `rocq/theories` (logical name `Verif`), in the order of `rocq/_CoqProject`.

* `Base.v` – characters, strings, UTF-8 lengths, byte slices, the panic monad.
* `*Model.v` – an executable Gallina transcription of the Rust code, function by function; every
  definition cites the file and lines in /repo it models, and says where it simplifies.
* `*Spec.v` – small specifications that do not mention the model's algorithms: grammars, relations
  between texts, pieces and rules, what a table "says".  Theorem statements are read against these.
* `*Proofs.v`, `*Facts.v`, `*Total.v`, … – lemmas.
* `Prop*.v` – the property theorems `Cnn_*`, each followed by `Print Assumptions`, with `Example`s
  computing concrete tables and texts that meet the hypotheses.  A name ending in `_refuted` is a
  theorem that an obvious or documented stronger reading of the property is *false* of the code.

`properties.jsonl` (from `tools/props.py`) states the properties in English, `MANIFEST.json` (from
`tools/manifest.py`, `tools/notes.py`) maps them to theorems, `seeded/LOG.jsonl` records the wrong
programs the theorems were tested against (`tools/mutate.py` applies an edit to a scratch copy,
rebuilds with `make -k`, and lists which theorems no longer hold).

### Representation

* A Rust `char` is its code point in `N`, a `&str` the list of its characters; byte offsets are
  computed with `len_utf8`, and slicing inside a character panics, where the code slices by bytes
  (the pattern matcher does).
* A panic of the program (`todo!`, `unreachable!`, `unwrap`, an index out of range) is the explicit
  value `Panic` (`TPanic` for functions that return `Result`).  Loops are structural recursions, or
  take fuel and have the explicit outcome `OutOfFuel`; theorems show that the fuel given by the entry
  points is never used up (C02, C20, C23, C38, C54, C57–C59), or that the program really loops
  (`C11_compbrl_at_a_space_never_ends`, `C02_compbrl_space_refuted`).
* Functions of the Rust library on characters (`to_lowercase`, `to_uppercase`, `is_alphabetic`,
  `is_whitespace`) are arguments of the model; theorems hold for every such function, with the
  hypotheses they need in their statements.  There are no axioms about them.
* A `HashMap`/`HashSet` is an association list or list.  Where the program iterates over one, the order is
  an argument (`order1`, `order2`: any permutations), or the statement is about membership only, or
  about the model of a nondeterministic lookup order (C15–C17, C05).  The unstable `sort_by` of emphasis
  events (standard library) is an argument `long_sort` assumed to rearrange its input.
* `usize` is `nat` (positions in a text in memory do not overflow).  `u8` and `i32` operands are bounded
  as in the parser.
* The feature `backwards_compatibility` (a *default* feature in Cargo.toml: the first of several rules wins)
  is the boolean argument `compat`.  Theorems hold for both values unless they say which.
* Files are functions from paths to contents.

## 2. What is modelled

| source | model | what is left out |
|---|---|---|
| `lib.rs` | `PipelineModel`, `TranslatorModel` | `From`/`Display` of errors |
| `main.rs` | `MetadataModel` (query), `YamlModel` (check), `DisplayModel` (trace) | clap, env_logger, the REPL loops, `{:?}` output, layout and percentages of the tables (tabled), rayon's scheduling (the results are collected in order) |
| `parser.rs` | `RuleModel`, `ParserModel`, `OperandModel` (escapes), `IncludeModel` | the texts of error messages; search path lookup is an argument of the file system |
| `parser/braille.rs` | `BrailleModel` | – |
| `parser/character_class.rs`, `attribute.rs` | `RuleModel`, `TableModel` | – |
| `parser/match_rule.rs`, `parser/multipass*.rs` | `OperandModel`, `DisplayModel` | – |
| `hyphenation.rs` | `HyphenationModel` | encodings other than UTF-8 and Latin-1 are rejected as in the code |
| `metadata.rs` | `MetadataModel` | – |
| `yaml.rs`, `test.rs`, `emphasis.rs` | `YamlModel` | libyaml itself: the model starts from its event stream |
| `translator.rs` (display tables) | `TableModel` | – |
| `translator/regexp.rs` | `RegexpModel` | – |
| `translator/context_pattern.rs`, `match_pattern.rs`, `effect.rs`, `swap.rs` | `PatternModel` | – |
| `translator/trie.rs` | `TrieModel` | – |
| `translator/table.rs` | `TableModel`, `CompileModel` | – |
| `translator/table/multipass.rs`, `primary.rs` | `LoopModel`, `CompileModel` | the argument `prev`, which is passed on and ignored |
| `translator/position_constraints.rs` | `ConstraintModel` | – |
| `translator/indication/*.rs` | `IndicatorModel` | – |
| `translator/translation.rs` | `TranslationModel` | – |
| `translator/pipeline.rs`, `options.rs` | `PipelineModel` | – |

Not modelled at all: logging, memory use, timing (C20 counts instructions of the matcher instead), and
threads – the public methods take `&self` and there is no interior mutability, so a translator used
from several threads behaves as the model's pure functions.

## 3. Properties and how they are proved

| id | models | specification | proof |
|---|---|---|---|
| C01 | Loop, Constraint, Indicator | pieces of a trace (`TraceSpec`) | invariant of the main loop: what is left and the pieces so far are the input |
| C02 | Loop, Pipeline | – | measure (text left, insertions not yet made); compbrl exception refuted by a run that never ends |
| C03, C07 | Loop | `PassSpec` | loop invariant; refutations by computed runs |
| C04, C52, C53 | Pipeline | `PipelineSpec` (order of passes, how each is built) | induction on the passes |
| C05 | Loop, Pipeline, Trie | `VariableSpec`, `OrderSpec` (ties) | the trace is a function of what is offered; lookups in different hash orders agree unless tied |
| C06 | Loop, Compile | `MainSpec` (`best`, `derivation`), `PassSpec` (`chosen_next`) | refinement: every run of the loop is a derivation, step by step |
| C08–C12, C41, C42 | Constraint, Loop, Hyphenation | `ConstraintSpec`, `SetupSpec` (what the table asks for) | scans refined to pointwise specifications, then C06 |
| C13, C14 | Loop | `UndefinedSpec` | hexadecimal spelling, equality up to two digits |
| C15–C17, C44 | Trie | list of rules | refinement of the tree to the list of inserted rules |
| C18, C19, C21, C22 | Regexp | `RegexpSpec` (denotation, backtracking order) | compiler correctness by induction on patterns, invariant of the Pike VM's thread list |
| C20 | Regexp | – | set of visited program counters, one visit per position |
| C23, C57, C58 | Operand | `OperandSpec` (grammars), `UnescapeSpec` | parsers sound and complete for the grammars, fuel suffices |
| C24, C47, C48 | Pattern | `TestSpec` | from C18/C19 with captures |
| C46, C49 | Pattern | `MatchSpec` | from C18 |
| C25–C30 | Indicator, Loop | `SignSpec`, `CapsSpec`, `EmphSpec`, `CapsEmphSpec` | each scan refined to a description of runs and words; order of signs by the merge lemma |
| C31 | Hyphenation | Liang's rule, in the statement | fold of maxima, trie-free |
| C32 | Braille | bits, in the statement | bit lemmas |
| C33 | Table (positions) | in the statement | list induction |
| C34, C36, C43 | Table | in the statement, `spells` | fold invariants |
| C35 | Operand | `UnescapeSpec` | round trips, exactness |
| C37 | Pipeline | `OrderSpec` (`meant_for`) | filters commute with compilation |
| C38 | Include | `IncludeSpec` (`expands`, `reached`, `wrong`) | well-founded on the length of the chain |
| C39, C54 | Parser | `LineSpec` (`written`), `TableSpec` (lines and words) | parser combinators sound and complete, one case per opcode |
| C40 | Metadata | `MetadataSpec` | set intersection |
| C45 | Operand | in the statement | – |
| C50, C51, C56 | Trie, Compile, Loop | `WordSpec`, `SaysSpec` | from C06, C15 and the list of entries a table gives |
| C55 | Translator | `FaultSpec` (`faulty`, `agenda`) | compilation errors refined to the first problem of an agenda |
| C59, C60 | Yaml | `YamlSpec` (documents, results) | event-stream parser sound and complete; stable sort |
| C61 | Display | `DisplaySpec` | grammars of C57/C58 read back; C06, C26 for the origins |
| C62 | Loop, Pipeline | `RoundSpec` (`lossless`) | C06 derivations forward, unique parsing of a prefix-free code backward |
| C63 | Trie, Compile, Loop, Pipeline | `FrameSpec` (`translates`, `absent`) | lookups list what they find in one order (`FrameProofs`), so an entry that applies nowhere changes no candidate list; contexts compared |
| C64 | Trie, Loop, Indicator, Constraint, Pipeline | `LocalSpec` (`wordwise`, `spaced`) | every lookup, restriction and indicator at a place of a word is the same in the text and in the word alone (`LocalProofs`), so the run over the text is the runs over the words (`LocalPass`) |
| C65 | Loop, Indicator, Constraint, Compile, Pipeline | `AsideSpec` (`only_signs`, `but_for_signs`) | two runs with different indications keep step but for the signs put out (`AsideProofs.run_level`); restrictions depend on the computer braille positions only; a sign rule gives no entries and no restrictions |
| C66 | Table, Compile, Indicator, Constraint, Pipeline | `AsideSpec` (`ignored`) | every step of compilation leaves its state alone |
| C67 | Trie, Compile, Loop, Pipeline | `FrameSpec` (`translates`), `SaysSpec` (`says`) | a lookup sees of the stored entries only those that match, in an order that moving an entry past entries of other texts does not change (`MoveProofs`); the classes of cells are sets (`SimilarProofs`) |
| C68 | Table (swap classes), Pattern, Loop | `PropSwap` (`swap_rule`, `replaces`, `swaps_to`) | the fold over the rules keeps the last pairs of a name; association lists built in reverse give the last place; the action through C05's effect of a piece |
| C69 | Compile, Loop, Indicator, Pipeline, Operand, Parser, Translator | `PropCells` (`item_cells`, `writes_only`, `braille_actions`) | every kind of piece (`best`) writes what its rule says (C56), what its action writes, or what is spelled for an undefined character; later passes by C03 and C68; dots operands by C32's sweep over all cells |
| C70 | Pattern, Compile, Loop | `PropPatterns` (`rule_fits`, `fits`, `unhindered`, `first_there`) | C06's `best` with the offers of `found` and `kept`; C49 and C24 say when the patterns are found, C05 the values of the variables |
| C71 | Compile, Constraint, Indicator, Loop | `UncontractedSpec` (`uncontracted`, `spelt_out`, `readable`) | forward: C25 and C27 give the signs, the character table the cells; backward: the restrictions of C42 are computed for the cells of a text (`reads`), then the rule in force for each cell is the letter's, and the digit's in numbers |
| C72 | Compile, Trie, Loop | `RivalSpec` (`places`, `looks_for`, `stands_in`, `displaces`, `comes_first`) | every place of an opcode is one entry of the trie, entries with the same text and place are rivals (C16), the order of the entries is that of the rules |
| C73 | Compile, Loop | `DefinitionSpec` (`early`, `late`, `the_definition`, `defined`) | the character table is the list of definitions in that order, looked up from the front or the back; pieces with such an origin come only from it |
| C74 | Loop, Multipass, Indicators, Pipeline | lengths of lists, nothing else | pigeon-hole: between two pieces that replace text the insertions differ, and a rule offers the same one at a position whatever the variables (`GateProofs`); signs counted per indicator (`SignCount`) |
| C75 | Trie, Compile, Constraint, Loop, Pipeline | `CaseSpec`: capital and small letter of a table, rules that tell case | both texts are walked in step: every trie edge, restriction and fallback answers alike for the two characters |
| C76 | Trie, Compile, Constraint, Loop, Pipeline | `LongestSpec`: contractions that fit, the longest, a character alone, the reading of a text | the entries of the trie are those of the always rules; of the entries in force with one text the last; induction along the walk of the loop |
| C77 | Trie, Compile, Constraint, Loop, Pipeline | `LongestBackSpec`: dots that fit, the rule that counts for dots, unknown cells, the reading of cells | the trie's entries are those of the rules, hyphens first; without marks for numbers and capitals the loop backward is the loop forward; induction along the walk |
| C78 | Trie, Compile, Loop, Pipeline | `RepeatSpec` (opcodes without precedence), `FrameSpec` (`translates`), `SaysSpec` (`says`) | the main pass depends on the stored entries only through which is chosen for a lookup; a second copy without precedence chooses the same (`AgreeProofs`, `RepeatProofs`) |
| C79 | Compile, Loop, Pipeline | `PropPrint` (`text_written`, `known_cell`, `no_print`), `SaysSpec` (`says`) | each piece is a sign, what a rule says (C56) or one for an unknown cell; a known cell always has a rule in force for it alone, which may be used (C26, C25, C27, C29, C30 give that there are no signs) |

Policy: where the code does not do what the documentation or a simple reading says, the English property is
worded as what holds, with the exception, that is proved, and the simple reading is refuted by a theorem.  No
property was found that cannot be expressed; timing and memory are not claimed.

## 4. Trusted base

* Coq 8.16.1's kernel (including `vm_compute`, which examples and refutations use).
* `Print Assumptions` says **"Closed under the global context"** for every one of the property
  theorems: no axioms, neither our own nor the standard library's, are used.  (The checker's list of
  library axioms shows `Coq.ssr.ssrunder.Under_rel.*`, which are opaque module constants of the standard
  library that come with it; no theorem here depends on them.)
* That the model transcribes the Rust source correctly.  Nothing could be executed against the real
  program here; every definition cites the lines it models so that this can be checked by reading, and
  the project's own unit tests are replayed on the model (section 6).
* The semantics of the Rust standard library functions used (`str` methods, iterators, `max_by_key` taking the
  last maximum, `sort_by_key` being stable, `HashMap`), as written in the comments of the model, and of
  the crates enumset, libyaml (events), search_path.
* No functors, module types, axioms, `Admitted` or switched-off checks are used.

## 5. Testing the theorems

`seeded/LOG.jsonl` has one line per wrong program: the definition edited, the edit, the claim it breaks,
the lemmas and theorems that fail, and the theorems that were tightened because they survived.

## 6. The project's tests replayed on the model

`Conf*.v` run the unit tests of /repo on the model, as `Example`s checked by `vm_compute`: a model that
behaved differently from the program on one of them would not build.  `ConfBase` has the library functions
on the characters that occur (ASCII, Latin and Greek letters) and how a test calls the model; `ConfPrimary`
(primary.rs), `ConfPasses` (multipass.rs, pipeline.rs) and `ConfRegexp` (regexp.rs) are generated from the
Rust sources by `tools/conformance.py`; `ConfUnits` (indication.rs and indication/*.rs,
position_constraints.rs, trie.rs, table.rs) and `ConfPatterns` (context_pattern.rs, match_pattern.rs,
translation.rs, swap.rs, match_rule.rs, multipass/*.rs, parser.rs, braille.rs, hyphenation.rs, lib.rs,
translator.rs) are written by hand in the same terms.  Every test module of /repo is covered; left out are
`huge_hyphenmin_does_not_overflow` (the model's lengths are unary) and
`catastrophic_backtracking_pattern_is_bounded` (a time measurement; C20 is the claim).  These are tests: they
support the claim that the model is one of this code and are not counted as proofs of any property.
