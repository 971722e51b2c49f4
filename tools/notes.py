NOTES={
'C38':('proved','all file systems (fixed while a table is read), all include graphs'),
'C39':('proved','all texts; white space of str::trim is a parameter'),
'C54':('proved','all lines and opcodes; that every word before the opcode matters is refuted'),
'C53':('proved','all translators, inputs and spans; the simple reading is refuted'),
'C52':('proved','all translators, inputs and options'),
'C37':('proved','all tables and directions; that a marked rule has no effect at all is refuted'),
'C05':('proved','all tables, inputs and iteration orders up to ties (the tie is shown to matter); variables of both kinds of passes; that one translator answers the same every time holds because translate takes a shared reference without interior mutability: the model functions are pure'),
'C04':('proved','all tables, directions, inputs and options'),
'C02':('proved','multipass passes for every table; main pass and whole translators for every table without a compbrl trigger that starts with a space; the exception is shown not to end'),
'C18':('proved','all patterns without a bounded range; ranges are C21'),
'C19':('proved','all patterns whose loop bodies consume a character (ranges as in C21), all test operands; refuted for match patterns with an empty repetition'),
'C20':('proved','no panic for every pattern and input; instructions visited at most once per position'),
'C31':('proved','dictionary parsing and break points, all dictionaries and words'),
'C32':('proved','all dot sets and operands; dot 0 is invisible in the character (refuted part shown)'),
'C33':('proved','all traces'),
'C15':('proved','all tables, inputs and hash-map iteration orders'),
'C16':('proved','exactly one rival is in force; which one is proved for both builds; the simple readings (first wins / indicators rank below translation rules) are refuted'),
'C17':('proved','all offers of the rule trie'),
'C34':('proved','both builds'),
'C40':('proved','indexing and queries proved; C40_empty_query_refuted: the empty query panics'),
'C36':('proved','operand, piece of the trace, error when building'),
'C43':('proved','definitions and classes for both builds; the default build ignores undefined bases and the class opcode (refuted parts shown)'),
'C44':('proved','upper-case rule texts are never found (refuted part shown)'),
'C23':('proved','exact conditions (iff) for tests and for match operands; both exceptions are shown to panic'),
'C35':('proved','exact: decoding succeeds iff the operand is well formed per UnescapeSpec.v; the plus sign exception is shown'),
'C45':('proved','every operand; the documented feature is unusable'),
'C46':('proved','every operand and text'),
'C24':('proved','all accepted tests and actions; nested brackets are the refuted exception'),
'C47':('proved','every test'),
'C48':('proved','every such test; the documentation is refuted'),
'C49':('proved','every rule without nested negation (a panic otherwise, C23)'),
'C03':('proved','all passes, rule sets and inputs'),
'C01':('proved','main pass, all tables, texts, spans and iteration orders; that the texts themselves are the input (rather than up to case) is refuted'),
'C06':('proved','main pass and the passes correct/pass2-4'),
'C07':('proved','both kinds of passes; "at every position" and "the same rule" are refuted'),
'C08':('proved','both directions of the claim'),
'C09':('proved','with the exact exceptions; the simple reading is refuted'),
'C10':('proved','with the exact exception; the simple reading is refuted'),
'C11':('proved','exact marking; a trigger at a space never ends, also proved'),
'C12':('proved','with the exact exception; the simple reading is refuted'),
'C13':('proved','every character and every set of definitions'),
'C14':('proved','the exact condition; the simple reading is refuted'),
'C25':('proved','exact positions of number signs; two simple readings are refuted'),
'C26':('proved','every list of spans; signs inside a contraction are shown to be lost'),
'C27':('proved','exact signs; an endcapsphrase before sign is shown never to be written'),
'C28':('proved','order where signs of one kind meet; mixed signs are the refuted exception'),
'C29':('proved','exact positions; the simple reading is refuted'),
'C30':('proved','exact signs; the order at abutting spans is the refuted exception'),
'C41':('proved','every set of sources'),
'C42':('proved','backward, every table and text'),
'C21':('proved','all patterns with ranges; the documented reading is refuted both ways'),
'C22':('proved','every negatable pattern; the documented readings are refuted'),
'C50':('proved','both builds, all texts'),
'C51':('proved','forward, all rules with a text'),
'C55':('proved','the problem list is exact; the claim that building never panics is refuted'),
'C56':('proved','context rules: C24; match rules backward are the exception'),
'C57':('proved','iff for every operand; grammar in OperandSpec.v'),
'C58':('proved','iff for every operand; grammar in OperandSpec.v'),
'C59':('proved','iff for every event stream; libyaml itself is not modelled; positions are not checked (refuted reading)'),
'C60':('proved','counts and order; percentages and layout are not modelled'),
'C61':('proved','every table read from lines; layout of the table is not modelled'),
'C65':('proved','the exceptions are refuted readings'),
'C66':('proved','equality of the compiled translators'),
'C64':('proved','tables without the rules that look beyond words; the rest is refuted'),
'C69':('proved','tables as they are read; any table is refuted'),
'C68':('proved','all tables and names; adding up is refuted'),
'C67':('proved','end to end for the compiled translators, both directions and builds; rules for the same text refuted'),
'C63':('proved','always rules for letters: forward without pass2-4, the rest is refuted'),
'C62':('proved','lossless tables as defined in RoundSpec.v; the two exceptions are refuted readings'),
'C70':('proved','with C49, C24 and C05; nested negation of match patterns is excluded'),
'C71':('proved','default build (first rule wins); the readings without the provisos are refuted (digit behind letter, letter behind digit, digits defined first, decimal numbers)'),
'C72':('proved',"the list of displacing opcodes is stated in RivalSpec, independently of the model's precedences; refuted readings: digits are displaced backward too, the first rule counts"),
'C73':('proved','the definitions that count are stated in DefinitionSpec without the compiled table; refuted reading: the first definition in the table counts'),
'C74':('proved','the number is found from the table (rules that insert, longest operands, emphasis classes); variables are shown only to gate rules, so one rule gives one insertion at a position; hypothesis: upper-casing has bounded length (3 in Unicode), needed backward only'),
'C75':('proved','end to end for the compiled translator; the exceptions are exactly the rules named, two of them shown necessary by counterexamples (C75_classes_refuted, C75_triggers_refuted)'),
'C76':('proved','end to end for the compiled translator: totality, the reading and its uniqueness, so an iff; two simpler readings are refuted (C76_first_rule_refuted, C76_digits_refuted)'),
'C77':('proved','end to end for the compiled translator backward: totality, the reading and its uniqueness, so an iff; simpler readings are refuted (C77_first_rule_refuted, C77_unknown_refuted)'),
'C78':('proved','end to end for the compiled translators, both directions and builds; conditional rules, whole tables read twice and always rules behind rivals refuted'),
'C79':('proved','end to end for the compiled translator; signs and unknown cells excluded under stated conditions, both exceptions shown by refuted simple readings'),
}
