{"id": "C01", "title": "Character cursor delivers the input faithfully", "statement": "A parser created over a text with IterWrapper::new delivers, over any interleaving of peek() and next(), exactly the characters of the text in order: peek() returns the character the following next() will return and never consumes, and once the text is exhausted both return None forever.", "quantifier": "every input text and every finite sequence of peek/next calls", "why_tests_cant": "interleavings of calls and texts are unbounded; a test samples a few", "anchors": ["chewed/src/parse.rs: IterWrapper::new, Parser::next, Parser::peek"]}
{"id": "C02", "title": "Reported position is the line/column of the consumed prefix", "statement": "Whenever only characters that exist have been consumed, pos() is the position of the consumed prefix: the line is one plus the number of line terminators consumed (LF, VT, FF, NEL, LS, PS, and a CR not followed by LF), the column is the number of characters consumed since the last one.", "quantifier": "every input text and every number of consumed characters, with any interleaving of peeks", "why_tests_cant": "the position depends on the whole history of consumed characters and on one character of lookahead after CR", "anchors": ["chewed/src/parse.rs: IterWrapper::next, pos", "chewed/src/position.rs: LineCol"]}
{"id": "C03", "title": "Position at end of input", "statement": "Calling next() when the input is exhausted returns None and consumes nothing. One would expect the reported position to stay put; the code violates that: each such call adds exactly one to the column (the line is unchanged), so after n calls past the end the column is the true one plus n.", "quantifier": "every exhausted parser state", "why_tests_cant": "needs every state, and is violated only off the happy path", "anchors": ["chewed/src/parse.rs: IterWrapper::next (x => col += 1)"]}
{"id": "C04", "title": "consume_str matches a literal exactly", "statement": "consume_str(s) returns Ok exactly when the remaining input starts with s, and then consumes exactly s. Otherwise it consumes exactly the longest common prefix of s and the input, and reports end-of-stream if the input ended there, or else a bad-string error, both at the position just after that common prefix.", "quantifier": "every literal s, every parser state", "why_tests_cant": "all pairs of literal and input", "anchors": ["chewed/src/parse.rs: Parser::consume_str"]}
{"id": "C05", "title": "consume_str's panic and quoted text", "statement": "On a mismatch consume_str returns an error whose 'got' text is the matched prefix followed by the offending character and does not panic, provided the matched prefix is ASCII. In general it panics exactly when the number of matched characters is not the UTF-8 (RFC 3629) byte length of a prefix of the literal, and otherwise quotes exactly the prefix of the literal that has as many bytes as there were matched characters, followed by the character met: which is the wrong text when the matched prefix is not ASCII (characters are counted, bytes are sliced).", "quantifier": "every literal (including non-ASCII ones) and every input", "why_tests_cant": "needs all literals; ASCII-only tests cannot see the byte/char index confusion", "anchors": ["chewed/src/parse.rs: Parser::consume_str (&s[..count])"]}
{"id": "C06", "title": "skip_while consumes the maximal prefix", "statement": "skip_while(f) consumes exactly the longest prefix of the remaining input all of whose characters satisfy f.", "quantifier": "every predicate f and every parser state", "why_tests_cant": "all predicates and inputs", "anchors": ["chewed/src/parse.rs: Parser::skip_while"]}
{"id": "C07", "title": "take_chars_from reads exactly n characters of a set", "statement": "take_chars_from(set, buffer) returns Ok exactly when the next buffer-length characters exist and all belong to set; it then fills the buffer with them in order and consumes exactly them. On failure it stops at the first character outside the set (already consumed, and the reported position is after it) or at the end of input (the reported column is one past the end).", "quantifier": "every set, every buffer length, every parser state", "why_tests_cant": "all buffer lengths and inputs", "anchors": ["chewed/src/parse.rs: Parser::take_chars_from"]}
{"id": "C08", "title": "iter_strict yields separated items up to the stop character", "statement": "Collecting iter_strict over an item parser returns Ok(items) exactly when the input is empty or starts with the stop character (no items), or is a sequence of items separated by single separators with the last one followed by the stop character (no trailing separator), and in the latter case it leaves the input at the stop character; an error of the item parser always makes the collection fail; collecting terminates. (The stop character is thus not required on empty input.)", "quantifier": "every item parser, separator, stop, first set, and input", "why_tests_cant": "unbounded number of items", "anchors": ["chewed/src/parse.rs: Parser::iter_strict, Iter::next"]}
{"id": "C09", "title": "Parse::parse accepts only complete inputs", "statement": "parse returns Ok(v) exactly when take returns Ok(v) and leaves no input; if take succeeds with input left it reports InputContinues at the position where take stopped.", "quantifier": "every generated parser and every input", "why_tests_cant": "all inputs", "anchors": ["chewed/src/parse.rs: Parse::parse, parse_str"]}
{"id": "C10", "title": "First/flast sets behave as mathematical sets", "statement": "FirstSet/FlastSet union is set union, disjoint is true exactly when no character is in both, is_empty exactly when there is none, iteration is strictly increasing without duplicates, and two sets compare equal exactly when they have the same characters, whatever sequence of operations built them.", "quantifier": "every sequence of set operations", "why_tests_cant": "all histories of operations", "anchors": ["src/chomp/set.rs: FirstSet, FlastSet"]}
{"id": "C100", "title": "Labels keep fixed points apart; every typable grammar has a right program", "statement": "If the bodies of an expression's fixed points have pairwise different names (e.g. a label each), the parser generated from it accepts exactly the language of its grammar, without any other condition on the fixed points. Hence every typable grammar, and in particular every finite automaton, has a program text that chomp compiles (with any span joining and enough recursion) to Rust that follows Rust's rules, whose Ast::parse_str returns on every input, accepts exactly the language of the grammar (the texts the automaton accepts), and whose values print as the input.", "quantifier": "all expressions with different names of fixed point bodies; all typable grammars; all complete deterministic automata and their states; all inputs", "why_tests_cant": "infinitely many grammars, automata and inputs", "anchors": ["src/lower/mod.rs: RustBackend", "src/chomp/typed/lower.rs: GenerateCode", "src/chomp/typed/infer.rs: TypeInfer", "src/nibble/convert.rs", "src/main.rs"]}
{"id": "C101", "title": "The errors of the hand-written JSON reader", "statement": "For every text and every way of reading numbers, Value::parse_str of the hand-written reader gives an error exactly when the text has a first wrong place: what is before it can be completed to a value, with the next character it cannot, or the text ends there. Which error it is, with line, column and contents, is determined by that place, by what is missing there and by the brackets open around it. If the text ends too early the error is EndOfStream at its end, in a string one column later. Outside brackets and strings the error is at that place, names the character found, and its expected characters are those that can go on there (white space and more digits aside). After a complete value the error is InputContinues at that place. Inside brackets each open list replaces the error: unless a comma or the outermost closing bracket follows, the error is only that a comma or that closing bracket was expected, even where a comma is wrong; after a comma the error can be one character late.", "quantifier": "all texts, all number readers", "why_tests_cant": "infinitely many texts; the exact error depends on the nesting around the wrong place", "anchors": ["chomp-bench/src/json/mod.rs: Value::take, parse_str, parse_escape, parse_u16", "chewed/src/parse.rs: Parser::iter_strict, Parser::take, Parser::take_chars_from, Parser::consume_str, Parse::parse", "chewed/src/error.rs: TakeError, ParseError"]}
{"id": "C102", "title": "What take reads from the front of a text", "statement": "For every accepted grammar in which every sub-grammar has a word, and every text: take on the generated type (and take_str) always ends, and reads exactly the longest start of the text that is also the start of a word; it succeeds exactly when that is itself a word, and the value is then a parse tree of it. So take gives a value t and leaves a rest exactly when t is a parse tree, the text is that of t followed by the rest, and no word goes on from t with the next character. It does not look for the longest start of the text that is a word: \"a\" . (_ | \"bc\") fails on \"abd\". parse gives a value exactly when take gives it and leaves nothing.", "quantifier": "all accepted grammars whose sub-grammars have words (sharing condition of C22), all texts", "why_tests_cant": "infinitely many grammars and texts, and the words that could go on are infinitely many", "anchors": ["chewed/src/parse.rs: Parse::take, Parse::take_str, Parse::parse, IterWrapper", "src/lower/mod.rs: the generated Parse impls"]}
{"id": "C103", "title": "The stack a generated parser needs", "statement": "For every accepted grammar: parsing a text into a value, and printing the value, nests exactly as many calls as the value is high (structs, enums, boxes and leaves each count one). On every text, accepted or not, the nesting is linear in the length of what is read. If every sub-grammar has a word, then one stack depth suffices for all texts (on which the parser does not panic) exactly when the words have bounded length, and exactly when the grammar has no recursion, i.e. the variable of no fixed point in it is used. So repetition costs stack: the generated JSON parser of the benchmark nests at least three calls for every character of a string.", "quantifier": "all accepted grammars (for the exact conditions: those whose sub-grammars have words, under the sharing condition of C22), all texts; all strings of printable characters for JSON", "why_tests_cant": "infinitely many grammars and texts; a test overflows the stack at some length but cannot show that no text needs more than a bound", "anchors": ["src/lower/mod.rs: the generated Parse and Display impls", "chewed/src/parse.rs: Parse for Epsilon, Parse for Box"]}
{"id": "C104", "title": "How deeply the hand-written JSON reader recurses", "statement": "On every text, calls of Value::take are nested at most one deeper than the text has opening brackets (wherever they stand, strings included): allowed that much nesting the reader gives the same value, error or panic as with no bound. When a value is read, the nesting is exactly the depth of that value (scalars and empty arrays and objects have depth 1): allowed less, the reader cannot finish; allowed that much or more, it gives the value. So strings, numbers and long arrays cost no stack, unlike in the generated parser (C103); but there is no bound over all texts: n+1 nested pairs of brackets, 2n+2 characters, need n+1 nested calls.", "quantifier": "all texts of Rust characters, all conversions of numbers, with and without overflow checks, all bounds on the nesting", "why_tests_cant": "infinitely many texts; a test overflows the stack at some depth but cannot show that no other text of few brackets does", "anchors": ["chomp-bench/src/json/mod.rs: Value::take", "chewed/src/parse.rs: Parser::iter_strict, IterWrapper"]}
{"id": "C105", "title": "When accepted grammars can be combined", "statement": "Let e and f be accepted, every part of them having a word. `e | f` is accepted exactly when not both have the empty word and no character starts words of both; `e . f` exactly when e does not have the empty word and no character with which f's words start can continue a word of e to a longer word of e; `_ | e` exactly when e does not have the empty word; the repetitions `!(/r/ _ | e . r)` and `!(/r/ e . (_ | r))` exactly when `e . e` would be. The languages are the union, the concatenation, and zero or one, any number, one or more words of e; and the result again has words in every part, so this can go on. A repetition of a repetition is never accepted. The same holds for programs that call opt, plus and star as defined in the repository's regex.nb on a closed expression whose grammar is accepted.", "quantifier": "all accepted expressions whose parts have words; all names and positions; all programs that define opt, plus and star like the test and call one of them on a closed expression", "why_tests_cant": "infinitely many grammars with infinite languages; the condition is about all their words", "anchors": ["src/chomp/typed/infer.rs: TypeInfer", "src/chomp/typed/mod.rs: Type::cat, Type::alt", "src/chomp/ast/mod.rs: reduce", "tests/full/nibble/regex.nb"]}
{"id": "C106", "title": "One stack with finitely many symbols; languages that cannot be written", "statement": "For every accepted grammar there is a finite list of languages such that, after any beginning of a word, what may follow is a sequence of languages from that list, one after another: everything the grammar remembers of the text read is one stack. Hence some simple languages have no accepted grammar at all: for different characters a, b, c no accepted expression has the language { a^n b^n } union { a^n c^n }, although `!(/r/ _ | \"a\" . r . \"b\")` and `!(/r/ _ | \"a\" . r . \"c\")` are accepted and have exactly the two halves. So the languages of accepted grammars are not closed under union.", "quantifier": "all accepted expressions, all beginnings of their words; all triples of different characters", "why_tests_cant": "a statement about all grammars: no run can show that a language has none, and the stack must work for every beginning of every word", "anchors": ["src/chomp/typed/infer.rs: TypeInfer", "src/chomp/typed/mod.rs: Type::cat, Type::alt", "src/chomp/ast/mod.rs: NamedExpression"]}
{"id": "C107", "title": "How deeply the hand-written arithmetic parser recurses", "statement": "parse_expr of the benchmark's hand-written arithmetic parser never nests calls of take_term deeper than one more than the largest number of parentheses open at any place of the text, whatever the text: with room for that many calls every outcome (value, error, panic) is the same as with unbounded room. When the text has a value this is exact: with room for fewer nested calls the parser cannot finish. So texts without an opening parenthesis, however long their chains of operators, need one level; and there is no bound, since n pairs of parentheses around 1 (2n + 1 characters) have the value 1 and need n + 1 nested calls.", "quantifier": "all texts, all bounds on the nesting, with and without overflow checks", "why_tests_cant": "infinitely many texts and depths; a stack overflow shows only on the texts tried", "anchors": ["chomp-bench/src/arith/mod.rs: take_term, take_product, take_expr, parse_expr"]}
{"id": "C108", "title": "Where the parsers generated in the repository report mistakes", "statement": "The parsers that nibble! generates for the benchmark's arithmetic and JSON grammars report every error exactly where the text stops being the beginning of an expression (of an RFC 8259 text in printable ASCII): what is before the reported line and column can be completed, with the character that stands there it cannot; every character or literal said to be expected leads on to a complete text, and 'input continues' means that a complete text was read. When the hand-written arithmetic parser reports an error so does the generated one, in the same place unless closing parentheses stand there but fewer than are open: then the hand-written one reports the place after them, never an earlier one. The parser generated for autonibble never reports a place before the first wrong one, but it can report a later one: its grammar bounds \\u escapes by an alternative that never ends, so that in `match \"\\u{000000aaaaaaaaaa}\";`, wrong at column 16, the error is at column 26 and expects one more 'a'.", "quantifier": "all texts on which the parsers return an error", "why_tests_cant": "infinitely many wrong texts, and whether a beginning can be completed is a statement about all its completions", "anchors": ["chomp-bench/src/arith/nibble.rs", "chomp-bench/src/json/nibble.rs", "chomp-bench/src/arith/mod.rs: parse_expr", "autonibble/src/lib.rs: nibble! (bot, up_to)", "src/lower/mod.rs"]}
{"id": "C109", "title": "How many types are generated, and how large a grammar gets", "statement": "For a grammar of literals, sequences and alternations the code that nibble! generates has exactly as many types as the grammar has different parts (literals, sequences and alternations written in it, equal ones counted once). If epsilon is written in it too, the parts without epsilon are counted once and each part that contains an epsilon once for every place where it is written. So code stays small where the grammar does not: the program let a = \"x\"; let a = a . a; ... match a; with n doublings, of 4n+3 expressions, is accepted, its grammar has at least 2^n expressions, all of which type inference looks at, and the generated code has exactly n+1 types.", "quantifier": "all accepted grammars without fixed points; all numbers of doublings", "why_tests_cant": "ranges over all grammars; a bound that is exponential in n cannot be tested for large n", "anchors": ["src/lower/mod.rs: gen", "src/chomp/ast/substitute.rs: Reduce", "src/chomp/typed/infer.rs: TypeInfer"]}
{"id": "C11", "title": "Type operations over-approximate language operations", "statement": "If languages L and M are described by types s and t (nullable if the language has the empty word; first and flast sets contain every first character and every character that may follow a complete non-empty word inside a longer word), then, when s and t are not both nullable and their first sets are disjoint, s.alt(t) describes the union, and, when s is not nullable and flast(s) is disjoint from first(t), s.cat(t) describes the concatenation; Type::of_str(w) describes {w}.", "quantifier": "all languages and all types", "why_tests_cant": "languages are infinite objects", "anchors": ["src/chomp/typed/mod.rs: Type::of_str, cat, alt"]}
{"id": "C110", "title": "Languages that cannot be written, and operations accepted languages are not closed under", "statement": "For different characters a, b, c no accepted expression has the language { a^n b^n c^n }, nor the texts over a, b followed by themselves backwards (palindromes of even length), nor { a^n b^m, m at most n } (an optional end for each beginning, as with a dangling else). Next to these, `!(/r/ \"c\" | \"a\" . r . \"a\" | \"b\" . r . \"b\")` is accepted and has exactly the palindromes with a mark c in the middle, and `!(/r/ _ | \"b\" . r) | !(/r/ \"a\" . (_ | r) . \"b\") . !(/r/ _ | \"b\" . r)` exactly { a^n b^m, m at least n }. `!(/r/ _ | \"c\" . r) | !(/r/ \"a\" . (_ | r) . \"b\") . !(/r/ _ | \"c\" . r)` and `!(/s/ _ | \"a\" . s | !(/r/ \"b\" . (_ | r) . \"c\"))` are accepted and have the languages { a^n b^n c^m } and { a^m b^n c^n }, whose common words are { a^n b^n c^n }. So none of these need be the language of an accepted expression: the words two accepted expressions have in common; the words of an accepted expression written backwards; its words with each character replaced by one (the same for two of them); the beginnings of its words. In the stack of C106 one character always tells whether the front goes on or the rest begins.", "quantifier": "all expressions (that none of those that are accepted has the language)", "why_tests_cant": "says that no accepted expression, of infinitely many, has a certain language", "anchors": ["src/chomp/typed/infer.rs: TypeInfer", "src/chomp/typed/mod.rs: Type"]}
{"id": "C111", "title": "The order of alternatives and parentheses", "statement": "Writing the alternatives anywhere in a grammar in another order, adding or removing parentheses around alternatives (`a | (b | c)` for `a | b | c`), and adding or removing parentheses around the front of a sequence (`(a . b) . c` for `a . b . c`), any number of times and inside fixed points too, changes neither whether the grammar is accepted, nor its type, nor its language. Parentheses around any other part of a sequence can be removed: if `a . (b . c)` is accepted so is `a . b . c`, with the same language. What follows alternatives can be written after each: if `(a | b) . c` is accepted so is `a . c | b . c`. Parentheses in a sequence cannot be added: `\"a\" . (_ | \"b\") . \"c\"` is accepted, `\"a\" . ((_ | \"b\") . \"c\")` is not. And a common front has to be taken out: an alternation in which two alternatives are sequences with the same first part is never accepted, if they have words, while `\"a\" . (\"b\" | \"c\")` is.", "quantifier": "all grammars, also with fixed points and parts that use their variables; all rearrangements", "why_tests_cant": "ranges over all grammars and all rearrangements of them", "anchors": ["src/chomp/typed/infer.rs: TypeInfer::fold_cat", "src/chomp/typed/infer.rs: TypeInfer::fold_alt", "src/chomp/typed/mod.rs: Type"]}
{"id": "C112", "title": "Definitions and arguments that are not used", "statement": "Programs that differ only in what their unused definitions (`let`) say, at any places, have the same grammar or both have none, are accepted together, and are turned down by reduction together. So an unused definition is not checked: `let x = \"a\"(\"b\"); match \"c\";` (a call of what is not a function) and `let x = !(/r/ r . \"a\"); match \"c\";` (a left recursion) are accepted, and with `match x;` neither is. (A name that is not declared is an error there too, C48.) Likewise what is passed to a parameter that the called function does not use does not matter: the call has the same value, or fails as before, whatever it is: `let f x y = x; match f(\"c\", \"a\"(\"b\"));` is accepted.", "quantifier": "all programs and all replacements of unused definitions in them", "why_tests_cant": "ranges over all programs and all definitions put in place of unused ones", "anchors": ["src/chomp/ast/substitute.rs: Reduce::fold_let", "src/chomp/typed/infer.rs: TypeInfer"]}
{"id": "C113", "title": "Calls and definitions done by hand", "statement": "Replacing a call by the body of the function with the arguments in place, or a definition by what it defines, by hand, or the other way round, at any places and any number of times, changes neither the grammar of a program nor whether it is accepted. In particular two definitions can be exchanged if the second does not mention the first. Reduction ends with a value for both programs, with an error for both, or for neither.", "quantifier": "all programs and all sequences of such rewritings", "why_tests_cant": "ranges over all programs and all rewritings of them, of any length", "anchors": ["src/chomp/ast/substitute.rs: Reduce::fold_call", "src/chomp/ast/substitute.rs: Reduce::fold_let", "src/chomp/ast/substitute.rs: Substitute", "src/chomp/typed/infer.rs: TypeInfer"]}
{"id": "C114", "title": "A fixed point that does not use its variable", "statement": "`!(/x/ d)` where `d` does not use `x` is accepted exactly if `d` on its own is, with the same type and the same language: an idle fixed point neither hides a defect of its body nor adds one.", "quantifier": "all bodies, also with calls, definitions and other fixed points, whose fixed point reduces to a closed grammar with one variable for each fixed point", "why_tests_cant": "ranges over all bodies", "anchors": ["src/chomp/typed/infer.rs: TypeInfer::fold_fix", "src/chomp/ast/substitute.rs: Reduce::fold_fix"]}
{"id": "C12", "title": "Guard rule of the typing context", "statement": "Looking up a variable in the typing context succeeds exactly when the variable is bound and its binder was entered before the most recent enclosing with_unguard; otherwise the error says 'free' when it is not bound and 'guarded' when it is; with_unguard and with_variable_type leave the context as they found it.", "quantifier": "every sequence of nested with_unguard/with_variable_type scopes and every variable", "why_tests_cant": "all nestings", "anchors": ["src/chomp/typed/context.rs: Context"]}
{"id": "C13", "title": "Type inference always terminates", "statement": "Type inference of any expression in any context returns (a typed expression or a type error): the fixed-point iteration of fold_fix stabilises for every grammar, however deeply fixed points are nested.", "quantifier": "all expressions, all contexts", "why_tests_cant": "termination on every grammar", "anchors": ["src/chomp/typed/infer.rs: TypeInfer"]}
{"id": "C14", "title": "Inference accepts exactly the typable grammars", "statement": "Type inference succeeds on an expression exactly when the expression has a derivation in the declarative typing rules of typed algebraic expressions (guarded variables, non-nullable prefix and flast/first disjointness for concatenation, disjointness for alternation, any fixed-point type for fix).", "quantifier": "all expressions and contexts", "why_tests_cant": "ranges over all grammars and all candidate types of every fixed point", "anchors": ["src/chomp/typed/infer.rs"]}
{"id": "C15", "title": "Inferred type is the least one", "statement": "When inference succeeds the type it attaches is the least type derivable for the expression (fewest first/flast characters, nullable only if forced).", "quantifier": "all accepted expressions and all their derivable types", "why_tests_cant": "ranges over all derivations", "anchors": ["src/chomp/typed/infer.rs: fold_fix"]}
{"id": "C16", "title": "Inferred type describes the language", "statement": "For an accepted closed grammar with language L (least fixed point semantics): if the empty word is in L the type is nullable, the first character of every non-empty word of L is in first_set, and any character following a non-empty word of L inside a longer word of L is in flast_set.", "quantifier": "all accepted grammars, all words", "why_tests_cant": "infinite languages", "anchors": ["src/chomp/typed/infer.rs", "src/chomp/typed/mod.rs"]}
{"id": "C17", "title": "Nullable is exact", "statement": "For an accepted closed grammar, the type is nullable exactly when the empty word is in its language.", "quantifier": "all accepted grammars", "why_tests_cant": "all grammars", "anchors": ["src/chomp/typed/infer.rs"]}
{"id": "C18", "title": "Type inference keeps the grammar", "statement": "The typed expression returned by inference has exactly the structure of the input: same literals, same number and order of the terms of every concatenation and alternation, same variables, names and spans kept.", "quantifier": "all accepted expressions", "why_tests_cant": "all expressions", "anchors": ["src/chomp/typed/infer.rs"]}
{"id": "C19", "title": "Left recursion is rejected", "statement": "An accepted grammar never uses a fixed-point variable before at least one character must have been consumed since entering that fixed point; every left-recursive grammar is rejected.", "quantifier": "all expressions", "why_tests_cant": "all grammars", "anchors": ["src/chomp/typed/context.rs", "src/chomp/typed/infer.rs"]}
{"id": "C20", "title": "No call or let reaches type inference", "statement": "After Reduce has succeeded, type inference never reports UnexpectedCall or UnexpectedLet.", "quantifier": "all expressions on which Reduce succeeds", "why_tests_cant": "all programs", "anchors": ["src/chomp/ast/substitute.rs: Reduce", "src/chomp/typed/infer.rs: fold_call, fold_let"]}
{"id": "C21", "title": "Fixed points are unfolded by their function, and only one parameter is bound", "statement": "When every fixed point of the reduced program is over a one-parameter function, !f and f (!f) denote the same language; simply typed programs are always of that kind. A fixed point over a function of several parameters is not rejected: type inference ignores the parameter list, so the last parameter is the fixed point and the others are captured by enclosing fixed points (!(/x/ \"a\" . !(/y z/ \"b\" . y | \"c\") | \"d\") is accepted as if y were x).", "quantifier": "all fix expressions, all meanings of free variables", "why_tests_cant": "arity mistakes only show on unusual programs", "anchors": ["src/chomp/typed/infer.rs: fold_fix", "src/lower/mod.rs: gen_fix, gen_variable"]}
{"id": "C22", "title": "Generated parser decides the language", "statement": "For an accepted closed grammar that meets the sharing condition (whenever two fixed points of the typed grammar have equal bodies, the outer variables they mention belong to equal fixed points (the 'sharing condition')), parse_str(s) of the generated parser returns Ok exactly when s is in the language of the grammar; when moreover every literal is ASCII it returns an error exactly when s is not in the language. Without the sharing condition this is false (see C30): the expectation that it holds for every accepted grammar is violated by the code.", "quantifier": "all accepted grammars, all input texts", "why_tests_cant": "two nested infinities", "anchors": ["src/lower/mod.rs", "chewed/src/parse.rs"]}
{"id": "C23", "title": "Parse then print is the identity", "statement": "If the generated parser returns Ok(v) on s then v.to_string() is s (for every accepted grammar, with no further condition), and under the sharing condition of C22 v is a parse tree of the grammar; for take of any generated type, at any point of the input, the value prints as exactly the consumed text.", "quantifier": "all accepted grammars, all inputs", "why_tests_cant": "all grammars and inputs", "anchors": ["src/lower/mod.rs: Display and Parse impls"]}
{"id": "C24", "title": "Every parse tree is recovered", "statement": "For any parse tree t of an accepted grammar meeting the sharing condition of C22, printing t and parsing the result returns exactly t; and take on print(t) followed by any text whose first character is not in flast_set (in first_set, when print(t) is empty) returns t and leaves that text.", "quantifier": "all accepted grammars, all parse trees, all continuations", "why_tests_cant": "infinitely many trees", "anchors": ["src/lower/mod.rs", "src/chomp/typed/infer.rs"]}
{"id": "C25", "title": "Generated parsers always terminate", "statement": "For every accepted closed grammar and every input, take and parse of the generated parser return, within a nesting depth linear in the length of the input; if all characters of the literals but their last ones are ASCII the result is Ok or an error. With another literal the generated parser can panic (inherited from C05; violated expectation, shown by a witness): if every sub-grammar has a word, some input makes the parser panic exactly when some literal has a character beyond ASCII before its last one.", "quantifier": "all accepted grammars, all inputs", "why_tests_cant": "termination", "anchors": ["src/lower/mod.rs", "src/chomp/typed/context.rs"]}
{"id": "C26", "title": "Accepted grammars are unambiguous", "statement": "No word has two different parse trees in an accepted grammar.", "quantifier": "all accepted grammars, all pairs of trees", "why_tests_cant": "all pairs of trees", "anchors": ["src/chomp/typed/infer.rs"]}
{"id": "C27", "title": "Errors are detected at the earliest character", "statement": "If the generated parser (of a grammar meeting the sharing condition of C22) fails, the text before the reported position is some u, and no word of the language continues u with the next character of the input; if the failure is at the end of the input, u is not a word of the language.", "quantifier": "all accepted grammars, all inputs", "why_tests_cant": "quantifies over all words of the language", "anchors": ["src/lower/mod.rs", "chewed/src/parse.rs"]}
{"id": "C28", "title": "Generated parsers run in linear time", "statement": "The number of take calls made by the generated parser on an input is at most a constant depending only on the grammar times (number of characters consumed + 1); every character is consumed once and nothing is re-read.", "quantifier": "all accepted grammars, all inputs", "why_tests_cant": "asymptotic claim", "anchors": ["src/lower/mod.rs"]}
{"id": "C29", "title": "Error position is where parsing stopped", "statement": "Every error returned by a generated parser carries the line and column of the first character that was not consumed, for every accepted grammar (no sharing condition).", "quantifier": "all accepted grammars, all inputs", "why_tests_cant": "all failing inputs", "anchors": ["src/lower/mod.rs", "chewed/src/parse.rs"]}
{"id": "C30", "title": "Type sharing never merges different grammars", "statement": "When the sharing condition of C22 holds (in particular when no fixed point mentions an outer variable), reusing previously generated types is correct: the values of the root type are exactly the parse trees of the grammar. In general it is not: gen_fix reuses a type for an equal body even when the variables in it are bound by different fixed points, so the generated parser can accept words outside the language and reject words in it (violated expectation, shown by a witness).", "quantifier": "all accepted grammars", "why_tests_cant": "needs all pairs of sub-grammars in all contexts", "anchors": ["src/lower/mod.rs: gen_cat, gen_alt, gen_fix, gen_variable, fix_map"]}
{"id": "C31", "title": "Emitted code is closed and free of repetition", "statement": "emit_code, with no alias name, emits every type that the root transitively mentions exactly once and nothing else; this is every type in the table, each mentioned type exists, and the alias is Ast.", "quantifier": "all grammars", "why_tests_cant": "all dependency graphs", "anchors": ["src/lower/mod.rs: emit_code"]}
{"id": "C32", "title": "Generated type names are distinct", "statement": "No two types emitted for one grammar have the same name, provided no converted user name ends in a digit or is Lit, Cat, Alt or Fix; every type name ends in a digit, so it never clashes with Ast, Epsilon, Box or Parse. Without the proviso two types can get the same name (violated expectation: an unnamed literal and one labelled lit are both Lit1). When a name for the root type is passed to the emission, the code is the same but for the last alias, which is that name with a number, and under the same proviso also for this name no type is called so, unless the name is a raw identifier (violated expectation: r#Foo meets the type Foo1).", "quantifier": "all grammars, all user names", "why_tests_cant": "all combinations of names", "anchors": ["src/lower/mod.rs: new_type_name"]}
{"id": "C33", "title": "Generated field and variant names are distinct", "statement": "No two fields of one emitted struct and no two variants of one emitted enum have the same name, provided no converted user name ends in a digit or is part (fields) or Branch (variants). Without the proviso they can clash (violated expectation: an unnamed first component and a second one labelled part are both part1).", "quantifier": "all concatenations/alternations, all user names", "why_tests_cant": "all combinations of names", "anchors": ["src/lower/mod.rs: name_parts_snake, name_parts_camel"]}
{"id": "C34", "title": "Generated types have finite size", "statement": "The relation 'stored by value in' between generated types is well founded: every cycle among the emitted type definitions goes through a Box.", "quantifier": "all grammars", "why_tests_cant": "all dependency graphs", "anchors": ["src/lower/mod.rs: gen_fix, gen_variable"]}
{"id": "C35", "title": "char conversions agree with printing", "statement": "Whenever a generated type has a conversion to char, the conversion of any value of it is defined and is the single character the value prints as.", "quantifier": "all grammars, all values", "why_tests_cant": "all values of all types", "anchors": ["src/lower/mod.rs: can_char"]}
{"id": "C36", "title": "Code generation does not panic on typed grammars", "statement": "Code generation and emission of an expression accepted by type inference in the empty context never index out of bounds and succeed, unless some user name in it has no conversion to a Rust identifier.", "quantifier": "all accepted grammars", "why_tests_cant": "all grammars", "anchors": ["src/lower/mod.rs: gen_variable"]}
{"id": "C38", "title": "Substitution is capture avoiding and leaves its argument intact", "statement": "Substitute replaces exactly the occurrences of the chosen variable, lowers the indices above it by one, adjusts the inserted expression at every binder so that its free variables keep their meaning, never underflows an index, and leaves the substituted expression unchanged for later occurrences.", "quantifier": "all expressions, all indices, all substituted expressions", "why_tests_cant": "all nestings of binders", "anchors": ["src/chomp/ast/substitute.rs: RenameVars, Substitute, with_args"]}
{"id": "C39", "title": "A call substitutes all its arguments simultaneously", "statement": "Reducing a call of a lambda replaces each parameter by the corresponding argument simultaneously: an argument mentioning outer variables is never confused with another parameter.", "quantifier": "all lambdas, all argument lists of the right length", "why_tests_cant": "all arities and all free variables", "anchors": ["src/chomp/ast/substitute.rs: Reduce::fold_call"]}
{"id": "C40", "title": "Reduction is sound", "statement": "If Reduce returns an expression, the input evaluates to it by beta steps (calls and lets replaced by their bodies), i.e. nothing but function application and let is changed.", "quantifier": "all expressions", "why_tests_cant": "all programs", "anchors": ["src/chomp/ast/substitute.rs: Reduce"]}
{"id": "C41", "title": "Reduction preserves scoping", "statement": "Reducing an expression whose variables are all bound (below n) yields an expression whose variables are all bound (below n).", "quantifier": "all expressions", "why_tests_cant": "all programs", "anchors": ["src/chomp/ast/substitute.rs"]}
{"id": "C42", "title": "Reduced expressions contain no call or let to evaluate", "statement": "After a successful Reduce no call and no let remains outside the body of a lambda that is not directly under a fix.", "quantifier": "all expressions", "why_tests_cant": "all programs", "anchors": ["src/chomp/ast/substitute.rs: Reduce"]}
{"id": "C43", "title": "The result of reduction is unique", "statement": "If a program can be evaluated by beta steps, in any order and place, to a call-free let-free grammar, then Reduce returns, never with an error, and returns exactly that grammar: the meaning of a program does not depend on the evaluation order.", "quantifier": "all programs, all evaluation orders", "why_tests_cant": "all reduction sequences", "anchors": ["src/chomp/ast/substitute.rs: Reduce"]}
{"id": "C44", "title": "Reduction returns exactly on programs that have a grammar", "statement": "Reduce returns a call-free, let-free grammar exactly when the program can be evaluated to one by beta steps in some order; this includes every simply typed program. It does not return on every program: on `let w x = x(x); match w(w);` it never does.", "quantifier": "every program; every simple typing of a program", "why_tests_cant": "termination", "anchors": ["src/chomp/ast/substitute.rs: Reduce::fold_call"]}
{"id": "C45", "title": "Reduction errors are exactly arity and non-function errors", "statement": "Reduce never panics; it fails exactly if, evaluating from left to right, it meets a call whose function part evaluates to something other than a lambda, or to a lambda with a different number of parameters than arguments, and the error carries that function part (and the arguments).", "quantifier": "all programs", "why_tests_cant": "all programs", "anchors": ["src/chomp/ast/substitute.rs: Reduce::fold_call", "src/chomp/ast/error.rs"]}
{"id": "C46", "title": "Reduction is idempotent", "statement": "Reducing the result of a successful Reduce returns the same expression.", "quantifier": "all programs", "why_tests_cant": "all programs", "anchors": ["src/chomp/ast/substitute.rs: Reduce"]}
{"id": "C47", "title": "Names resolve to the innermost binder", "statement": "In a converted program every variable refers to the innermost enclosing declaration (lambda parameter or earlier let) of its name, and every index produced is bound.", "quantifier": "all programs", "why_tests_cant": "all nestings and shadowings", "anchors": ["src/nibble/convert.rs: Context::lookup, Convert"]}
{"id": "C48", "title": "Conversion fails exactly on undeclared names", "statement": "Converting a parsed program fails exactly when some identifier is used outside the scope of every declaration of it, and the error names the first such identifier in source order.", "quantifier": "all programs", "why_tests_cant": "all programs", "anchors": ["src/nibble/convert.rs"]}
{"id": "C49", "title": "Conversion restores the context of names", "statement": "Converting an expression leaves the naming context exactly as it was, whether it succeeds or fails; converting a statement leaves it extended by exactly the let-names declared so far.", "quantifier": "all expressions, statements and contexts", "why_tests_cant": "all exits including early errors", "anchors": ["src/nibble/convert.rs: with_variables, push_variable"]}
{"id": "C50", "title": "Consistent renaming does not change the grammar", "statement": "Two programs of the same structure, whose identifiers are matched by pairing their declarations (two uses match when they refer to paired declarations), convert to the same expression apart from the attached names and positions; labels and positions may differ freely.", "quantifier": "all pairs of alpha-equivalent programs", "why_tests_cant": "all renamings", "anchors": ["src/nibble/convert.rs"]}
{"id": "C51", "title": "Name merging picks the highest-priority leftmost name", "statement": "merge is associative with None as identity; merge_all returns None exactly when every name is None, and otherwise the leftmost name of the highest kind present (label over let over variable).", "quantifier": "all lists of optional names", "why_tests_cant": "all lists", "anchors": ["src/chomp/name.rs: Name::merge, merge_all, Kind"]}
{"id": "C52", "title": "Name equality is compatible with hashing, and transitive except for raw identifiers", "statement": "Two names are equal exactly when they are of the same kind (label, let, variable) and of the same word and, if both are identifiers, both raw or neither. Content equality is reflexive and symmetric, and equal contents have equal hashes. It is not transitive: a raw identifier and a plain identifier of the same word are both equal to the spanless string of that word and not to each other; this is the only failure of transitivity.", "quantifier": "all names including raw identifiers", "why_tests_cant": "all triples", "anchors": ["src/chomp/name.rs: Content PartialEq, Hash", "src/chomp/name.rs: Name, Kind (derived PartialEq)"]}
{"id": "C53", "title": "Parsing a nibble program is the inverse of printing it", "statement": "A token sequence parses to a syntax tree exactly when the tree is well-formed for the nibble grammar and the sequence is the tree's printed tokens; in particular the grammar is unambiguous.", "quantifier": "all token sequences and syntax trees", "why_tests_cant": "all trees", "anchors": ["src/nibble/mod.rs: Parse and ToTokens impls"]}
{"id": "C54", "title": "End to end: the compiler accepts exactly the typable programs and its parser recognises their grammar", "statement": "If the pipeline (parse, convert, reduce, infer, generate) succeeds, the program stands for exactly one grammar, it is typable, and the generated parser returns on every input; it accepts exactly the language of that grammar when no fixed point of the grammar mentions an outer fixed point's variable. Every program standing for a typable grammar compiles (given enough reduction steps). Every error is justified: a parse error means no program prints so, a conversion error names the first undeclared identifier, a reduction error means the term fails that way, and a type error means no typable grammar. The pipeline never panics when every name can be converted to camel and snake case.", "quantifier": "all token sequences, all inputs", "why_tests_cant": "all programs and all inputs", "anchors": ["src/main.rs", "chomp-macro/src/lib.rs: nibble"]}
{"id": "C55", "title": "What the hand-written arithmetic parser computes", "statement": "parse_expr always ends. It returns Ok(n) exactly when the text is leading spaces followed by an arithmetic expression (decimal numbers, unary minus on a number, parentheses, left-associative * / binding tighter than left-associative + -) whose machine value is n: with overflow checks that is the exact integer value and lies in i64; in release builds it is the same whenever the checked value exists and the exact value modulo 2^64 when nothing is divided. Err means the text is no expression. It panics exactly on calculations that fail: division by zero or i64::MIN / -1 always, overflow with checks (so 9223372036854775808 panics in debug and is negative in release).", "quantifier": "all texts, both build modes", "why_tests_cant": "all texts", "anchors": ["chomp-bench/src/arith/mod.rs:take_number", "chomp-bench/src/arith/mod.rs:take_term", "chomp-bench/src/arith/mod.rs:take_product", "chomp-bench/src/arith/mod.rs:take_expr", "chomp-bench/src/arith/mod.rs:parse_expr"]}
{"id": "C56", "title": "What the hand-written JSON parser reads for \\u escapes", "statement": "After \\u the hand-written JSON parser takes exactly four hexadecimal digits (anything else is an error, never a panic) and always reads the character NUL, whatever the digits, with and without overflow checks: '\"\\u0041\"' parses to the one-character string NUL, and no second escape of a surrogate pair is ever looked for. (The value the digits denote is lost.)", "quantifier": "all digit sequences and continuations, both build modes", "why_tests_cant": "needs all 22^4 inputs and the arithmetic", "anchors": ["chomp-bench/src/json/mod.rs: parse_u16"]}
{"id": "C57", "title": "Surrogate pairs decode to the encoded character", "statement": "decode_pair(a, b) returns exactly when one argument is a high and the other a low surrogate, in either order, and then the code point the pair encodes, between 0x10000 and 0x10FFFF; on every other pair it panics. The pairs and these code points correspond one to one.", "quantifier": "all pairs of u16", "why_tests_cant": "all pairs", "anchors": ["chomp-bench/src/json/mod.rs: decode_pair"]}
{"id": "C58", "title": "When printing a JSON value works, and that it parses back", "statement": "Display of a Value panics exactly when some string or key in it contains a control character other than \\b \\f \\n \\r \\t, in debug and release builds alike. Otherwise parsing the printed text with the hand-written parser returns the same value (objects compared as maps), provided the texts of its numbers are made of number characters and are converted back by str::parse.", "quantifier": "all values, all iteration orders of its maps, both build modes", "why_tests_cant": "all strings", "anchors": ["chomp-bench/src/json/mod.rs:Display for Value", "chomp-bench/src/json/mod.rs:write_str", "chomp-bench/src/json/mod.rs:parse_str"]}
{"id": "C59", "title": "What the hand-written JSON parser accepts", "statement": "Value::parse_str always ends. It returns Ok(v) exactly when the text, up to white space around values, is JSON for v (objects as their entries in order, last wins) except that numbers are any run of digits and +-.eE starting with a digit or '-' that str::parse accepts, \\uXXXX is NUL, and an empty array or object must have nothing between its brackets ('[ ]' and '{ }' are refused). It panics exactly when, where a value or key is due, it meets a number str::parse rejects, or a string containing a control character or a backslash that starts no escape; a text that is a value never panics. Everything else is Err.", "quantifier": "all texts, both build modes, every number conversion", "why_tests_cant": "all texts", "anchors": ["chomp-bench/src/json/mod.rs: Value::take"]}
{"id": "C60", "title": "Autonibble iterators enumerate the parsed list in order", "statement": "The iterators over parsed names, calls, concatenations, alternations and literal characters return exactly the items of the parsed list in source order.", "quantifier": "all parsed lists", "why_tests_cant": "unbounded lists", "anchors": ["autonibble/src/lib.rs: Iterator impls"]}
{"id": "C61", "title": "First and flast sets are exact for productive grammars", "statement": "For an accepted closed grammar every sub-grammar of which has at least one word, a character is in first_set exactly when some word starts with it, and in flast_set exactly when it follows a complete non-empty word inside a longer word.", "quantifier": "all accepted grammars whose sub-grammars all have a word", "why_tests_cant": "Quantifies over all grammars and all words of infinite languages.", "anchors": ["src/chomp/typed/infer.rs TypeInfer", "src/chomp/typed/mod.rs Type::cat, Type::alt"]}
{"id": "C62", "title": "An accepted fixed point has one meaning", "statement": "For an accepted closed grammar that is a fixed point, the recursive equation it states has exactly one solution among all languages, so the grammar means the same under every reading of recursion.", "quantifier": "all accepted fixed-point grammars, all languages", "why_tests_cant": "Quantifies over all (infinite) languages.", "anchors": ["src/chomp/typed/infer.rs fold_fix", "src/chomp/typed/context.rs get_variable_type"]}
{"id": "C63", "title": "Accepted programs have no free variable", "statement": "Every variable of a grammar accepted by type inference in the empty context is bound by an enclosing fixed point.", "quantifier": "all accepted expressions", "why_tests_cant": "Must hold for every nesting of binders.", "anchors": ["src/chomp/typed/context.rs get_variable_type"]}
{"id": "C64", "title": "A reduction error points at a call of the program", "statement": "The span of every error returned by Reduce is the span of a call expression that occurs in the program given to it.", "quantifier": "every program and every error", "why_tests_cant": "calls are copied and moved by substitution before they are evaluated", "anchors": ["src/chomp/ast/substitute.rs: Reduce::fold_call", "src/chomp/ast/error.rs: ReductionError"]}
{"id": "C65", "title": "Names given to converted expressions", "statement": "A converted expression is named by its label if it has one, otherwise, if it is an identifier (possibly parenthesised), by that identifier, and otherwise it is unnamed. The goal is called Ast if it would be unnamed, and a let-bound definition is named by its let-name whatever label it carries.", "quantifier": "all expressions and programs", "why_tests_cant": "Names follow nested parentheses, labels and statements of any depth.", "anchors": ["src/nibble/convert.rs: Convert", "src/chomp/name.rs: Name"]}
{"id": "C66", "title": "Positions of converted expressions", "statement": "Every node of a converted program carries the position of the source phrase it was converted from: tokens carry their own, composite phrases the join of their first and last positions (or the first where the compiler cannot join), and each operator of a concatenation or alternation its own token's.", "quantifier": "all programs, every behaviour of joining positions", "why_tests_cant": "Holds for every node of every program.", "anchors": ["src/nibble/convert.rs: Convert", "src/nibble/mod.rs: span"]}
{"id": "C67", "title": "The generated arithmetic parser accepts exactly the arithmetic expressions", "statement": "The nibble! macro accepts the grammar of chomp-bench/src/arith/nibble.rs, and the generated parser always returns without panicking; it accepts a text iff it is leading spaces followed by an arithmetic expression. The hand-written parse_expr agrees: if it returns Ok the generated parser accepts, if it returns an error the generated parser returns an error.", "quantifier": "all texts, both build modes", "why_tests_cant": "infinitely many texts; the two parsers are compared on all of them", "anchors": ["chomp-bench/src/arith/nibble.rs", "chomp-bench/src/arith/mod.rs:parse_expr", "chomp-macro/src/lib.rs:nibble", "src/lower/mod.rs"]}
{"id": "C68", "title": "The value of an arithmetic parse tree is the value of the text", "statement": "With overflow checks, i64::from applied to the tree the generated parser returns gives n iff the hand-written parser returns Ok(n) on the same text, and panics iff that panics. Without overflow checks, if the conversion gives n then the hand-written parser returns Ok(n); the converse fails, since literals out of range panic in the conversion (str::parse().unwrap()) but wrap in the hand-written parser.", "quantifier": "all texts, both build modes", "why_tests_cant": "infinitely many texts", "anchors": ["chomp-bench/src/arith/nibble.rs:From<Ast>", "chomp-bench/src/arith/nibble.rs:From<Arith1>", "chomp-bench/src/arith/nibble.rs:From<Prod1>", "chomp-bench/src/arith/nibble.rs:From<Term1>", "chomp-bench/src/arith/mod.rs:parse_expr"]}
{"id": "C69", "title": "The generated JSON parser accepts exactly RFC 8259 JSON in printable ASCII", "statement": "The grammar of chomp-bench/src/json/nibble.rs compiles. The parser generated for it returns Ok on a text exactly when the text is, with white space around it, a JSON value as RFC 8259 has it whose strings use only the printable ASCII characters 0x20 to 0x7E and escapes; on every other text it returns an error. It always returns and never panics.", "quantifier": "all texts", "why_tests_cant": "infinitely many texts, nested to any depth", "anchors": ["chomp-bench/src/json/nibble.rs:nibble!", "chomp-bench/src/json/nibble.rs:Ast", "src/main.rs", "src/lower/mod.rs:RustBackend"]}
{"id": "C70", "title": "Converting the generated JSON tree gives the value of the text, except for half surrogate pairs", "statement": "Parsing a text with the generated parser and converting the tree with Value::from gives v exactly when v is the value of the text: \\u escapes outside D800-DFFF are that character, two consecutive ones that make a surrogate pair in either order are the character of the pair, members and elements come in the order of the text. A text has at most one value. On an accepted text the conversion panics exactly when there is no such v; it never panics if str::parse accepts every JSON number and no \\u escape is in D800-DFFF, but it panics on the accepted text \"\\ud800\".", "quantifier": "all texts, all behaviours of str::parse::<f64>", "why_tests_cant": "infinitely many texts", "anchors": ["chomp-bench/src/json/nibble.rs:From<Ast>", "chomp-bench/src/json/nibble.rs:From<Value1>", "chomp-bench/src/json/nibble.rs:Opt5", "chomp-bench/src/json/nibble.rs:Opt7", "chomp-bench/src/json/nibble.rs:Opt9", "chomp-bench/src/json/mod.rs:decode_pair"]}
{"id": "C71", "title": "Exactly where the two JSON readers agree", "statement": "The hand-written parser and the generated parser followed by Value::from give the same value v exactly on the texts that are v, with white space around values, in printable ASCII with numbers as in RFC 8259 (that str::parse accepts), nothing between the brackets of empty arrays and objects, and no other \\u escape than \\u0000. Both parsers accept exactly the texts of this kind with any \\u escapes. Elsewhere they differ: white space in empty brackets is accepted only by the generated parser, non-ASCII characters only by the hand-written one, and \\u0041 is A for the generated one and NUL for the hand-written one.", "quantifier": "all texts, all behaviours of str::parse::<f64>, both build modes", "why_tests_cant": "infinitely many texts", "anchors": ["chomp-bench/src/json/mod.rs:Value::take", "chomp-bench/src/json/nibble.rs:From<Ast>"]}
{"id": "C72", "title": "The generated JSON parser reads back what is printed", "statement": "If a value whose strings and keys are ASCII (below 0x7F), whose objects have distinct keys and whose numbers print as JSON numbers that str::parse takes back is printed by Display without a panic, the generated parser accepts the text and Value::from gives the same value, objects compared as maps. Strings with other characters are printed in a form it rejects.", "quantifier": "all values, both build modes", "why_tests_cant": "infinitely many values", "anchors": ["chomp-bench/src/json/mod.rs:Display for Value", "chomp-bench/src/json/nibble.rs:From<Ast>"]}
{"id": "C73", "title": "Autonibble's generated parser accepts exactly the written programs", "statement": "The parser generated from autonibble's grammar accepts a text exactly if it is a nibble program written with words for names, non-empty literals in printable ASCII and escapes, and white space where two terms meet; on every other text it returns an error, and it never panics.", "quantifier": "all texts", "why_tests_cant": "infinitely many texts", "anchors": ["autonibble/src/lib.rs", "autonibble/src/main.rs", "autonibble/tests/compare/main.rs"]}
{"id": "C74", "title": "Autonibble's conversion agrees with chomp's", "statement": "For every program and every text of it, converting autonibble's parse tree gives the expression chomp's conversion gives, with the same names (up to the goal's default name) and equal under PartialEq, or reports the same undeclared name; no other error occurs. It panics only if a literal escapes a number that is not a character, which can happen (violated expectation, shown by a witness), and then it never returns an expression.", "quantifier": "all programs and all their texts", "why_tests_cant": "the comparison tests cover five files", "anchors": ["autonibble/src/lib.rs", "autonibble/src/main.rs", "autonibble/tests/compare/main.rs", "src/nibble/convert.rs"]}
{"id": "C75", "title": "The two front ends agree wherever both read the text", "statement": "For every text autonibble's parser accepts: chomp's parser accepts it exactly if every escape is a character and no parameter is a reserved word, and then both front ends give equal expressions or report the same undeclared name.", "quantifier": "all texts", "why_tests_cant": "infinitely many texts", "anchors": ["autonibble/src/lib.rs", "autonibble/src/main.rs", "autonibble/tests/compare/main.rs", "src/nibble/mod.rs", "src/main.rs"]}
{"id": "C76", "title": "The two front ends accept different programs", "statement": "The front ends do not accept the same programs (violated expectation, shown by witnesses): autonibble accepts a parameter called self, chomp does not; chomp accepts f(x) without a space, an empty literal and a name starting with an underscore, autonibble does not. The exact condition in one direction is C75.", "quantifier": "all texts", "why_tests_cant": "a witness on each side needs a proof that the other side rejects", "anchors": ["autonibble/src/lib.rs", "autonibble/src/main.rs", "autonibble/tests/compare/main.rs", "src/nibble/mod.rs"]}
{"id": "C77", "title": "Names and positions do not change what a parser does", "statement": "Two programs (or expressions) that stand for the same grammar, whatever their labels, let names, parameter names and source positions, are accepted or rejected together by type checking (with equal types, or for the same reason with the same sets), and the parsers generated from them return the same on every input: the same tree, the same error at the same position, or both panic. Exact condition: every fixed point mentions only its own variable (or the typed expressions satisfy the sharing condition of C30); without it adding a label can change the accepted language (refuted with a witness).", "quantifier": "all pairs of expressions/programs with the same grammar, all name conversions, all inputs", "why_tests_cant": "It compares two runs of the whole back end for every pair of labellings and every input.", "anchors": ["src/chomp/typed/infer.rs:TypeInfer", "src/chomp/typed/mod.rs:PartialEq for TypedExpression", "src/lower/mod.rs:gen_fix", "src/lower/mod.rs:gen_alt", "src/main.rs:main"]}
{"id": "C78", "title": "Layout and positions only show in error messages", "statement": "Two token streams that differ only in source positions compile to exactly the same generated code, or fail with the same error except for the positions in it, however spans are joined; so two texts of one program that differ only in white space compile to the same code or fail alike.", "quantifier": "all pairs of token streams equal up to positions, all span-join functions, all name conversions; all pairs of texts of a program", "why_tests_cant": "It compares two whole compilations for every program and every layout.", "anchors": ["src/main.rs:main", "src/nibble/mod.rs:Parse", "src/nibble/convert.rs:Convert", "src/chomp/name.rs:PartialEq for Content", "src/lower/mod.rs:Backend"]}
{"id": "C79", "title": "autonibble compiles as chomp does", "statement": "On a text both front ends read, autonibble and chomp have the same outcome: both print code or the same stage (conversion, reduction, type checking) fails for the same reason; if the goal is a name or labelled, the code is identical byte for byte and errors are equal up to positions; otherwise chomp alone calls the goal Ast, so the code can differ (refuted with a witness), but the generated parsers return the same on every input when fixed points mention only their own variable.", "quantifier": "all texts, all name conversions, all fuels, all inputs of the generated parsers", "why_tests_cant": "It compares two compilers on every program; the repo's compare tests check a handful of files.", "anchors": ["autonibble/src/main.rs:main", "src/main.rs:main", "autonibble/src/lib.rs", "autonibble/tests/compare/main.rs"]}
{"id": "C80", "title": "What a type error says is true", "statement": "When the type checker rejects an expression, the error points at a part of that expression of the kind it talks about, at that part's position. If the expression is a grammar, what the error says holds of the languages of the parts: a 'nullable first part' does match the empty word; 'both branches are nullable' names a branch that matches the empty word, as one before it does; a free variable is bound by nothing; a guarded variable is left recursion; and if every sub-grammar has a word, a 'first set overlap' names two alternatives with words that start with the same character, and a 'flast overlap' a front that may stop before a character or go on with it while the next part starts with it. Without words everywhere, the last two can be false alarms.", "quantifier": "every expression and every error of its type check", "why_tests_cant": "The truth of a message is about infinite languages, and there are infinitely many grammars to reject.", "anchors": ["src/chomp/typed/infer.rs: TypeInfer", "src/chomp/typed/error.rs: TypeError, CatError, AltError, VariableError", "src/chomp/typed/context.rs: Context::get_variable_type"]}
{"id": "C81", "title": "Accepted exactly if it has no defect", "statement": "A grammar all of whose parts have a word is accepted exactly if none of these happens anywhere in it: a variable that is unbound or can be reached before anything is consumed, a concatenation whose first part matches the empty word, a front of a concatenation that may stop before a character or go on with it while the next part starts with it, two alternatives that match the empty word, two alternatives with words that start alike. An accepted grammar never has one of these; a rejected grammar without one has a part without words, and the error is one about overlapping sets.", "quantifier": "every expression that is a grammar", "why_tests_cant": "The criterion is about all words of all parts; acceptance and rejection must match it for every grammar.", "anchors": ["src/chomp/typed/infer.rs: TypeInfer", "src/chomp/typed/mod.rs: Type, FlastSet, FirstSet", "src/chomp/typed/context.rs: Context"]}
{"id": "C82", "title": "Errors of generated parsers say what could have followed", "statement": "If every sub-grammar has a word (and sharing is sound), an error of a generated parser is true of the language: the text before the reported position is the start of a word; a bad-branch error lists at least one character, each of the listed characters can follow that text in a word, and the one met is not among them; for a bad-string error the literal it expects, begun where it began, goes on to a word, and the character met differs from the one due; an end-of-input error means that the whole text is a proper start of a word; 'input continues' means that the text before the position is a word. No word goes on like the input from there. So the position is the first at which the text stops being the start of a word. The listed characters need not be all that could follow, and without words everywhere they may lead nowhere.", "quantifier": "every accepted grammar with words everywhere and sound sharing, every rejected input", "why_tests_cant": "That a listed character leads to a word is about all continuations; it must hold at every error of every grammar.", "anchors": ["src/lower/mod.rs: RustBackend::gen_alt, gen_cat, gen_literal", "chewed/src/parse.rs: TakeError, Parser::consume_str, Parse::parse", "chewed/src/error.rs: TakeError, ParseError"]}
{"id": "C83", "title": "No definition is generated twice", "statement": "In the code generated for an accepted program no two types are structs for the same literal text, structs with the same sequence of component types, enums with the same branch types, or boxes of the same type; there are at most as many types as literals, variables, sequences, alternations, fixed points and epsilons written in the grammar. Generating code for an expression equal to one already generated adds nothing and yields the same type, and equal parts of a sequence have the same type, as long as the expression has no epsilon outside fixed points and no name is a raw identifier (r#...): every epsilon is a new type to the generator, so that two occurrences of an optional part give two enums with the same text.", "quantifier": "every accepted expression, naming convention and list of expressions generated before", "why_tests_cant": "Quantifies over all programs and all sharing patterns between their sub-expressions; a test shows one table.", "anchors": ["src/lower/mod.rs: RustBackend::gen_epsilon, gen_literal, gen_cat, gen_alt, gen_fix, gen_variable", "src/chomp/typed/mod.rs: PartialEq for TypedExpression"]}
{"id": "C84", "title": "What the compiler says and generates comes from the program", "statement": "When a program is rejected after parsing, the error points into the program: an undeclared name is an identifier written in it, a wrong call is at a token of it or from one of its tokens to another, an error about a concatenation is at a dot written in it, an error about alternatives at a bar written in it, and an error about a variable shows a name written in it (or Ast, the name of a goal without one), never an index; no complaint about an unexpected call or let is ever shown. When it is accepted, every identifier of the generated code is a word and a number, and the word is a fixed one (Lit, Cat, Alt, Fix for types, part for fields, Branch for variants) or made by the change of case from a name written in the program or from Ast.", "quantifier": "every token sequence, every way of joining positions and of changing case", "why_tests_cant": "Quantifies over all programs: positions and names pass through conversion, substitution at any depth, merging, inference and code generation, and a test follows a few of them.", "anchors": ["src/main.rs: main", "src/nibble/convert.rs: Convert", "src/chomp/ast/substitute.rs: Substitute, Reduce", "src/chomp/typed/infer.rs: TypeInfer", "src/chomp/typed/error.rs", "src/lower/mod.rs: new_type_name, name_parts_snake, name_parts_camel"]}
{"id": "C85", "title": "The compiler's messages are true and tell the defects apart", "statement": "When a program is rejected after parsing, the text shown is one of eleven sentences (with the name or the two numbers filled in, and the number of nouns and verbs right), and what it says holds of the program: the undeclared name is the first one in reading order, as written; a call of something that is not a function is one; a function that takes m arguments is applied to n others; for the grammar the program stands for, some concatenation starts with a part that has the empty word, or some front can go on with a character its next part can start with, or two alternatives have the empty word, or two alternatives have words starting alike, or a variable is reached before anything else, or a variable is bound by nothing (the two complaints about characters for grammars all of whose parts have a word); and after a complaint about a function that is left the program stands for no grammar at all. Different complaints have different texts. The command ends with the code alone and status 0, one line of error alone and status 1, or a panic, and no panic when all names can be converted; the macro gives the same code, or the same text as a compile error at a place of the program.", "quantifier": "every token sequence, every way of joining positions and of changing case, every complaint", "why_tests_cant": "Quantifies over all rejected programs: truth of a message depends on the language of the grammar that remains after all calls are reduced, which a test can judge only for examples.", "anchors": ["src/main.rs: main", "chomp-macro/src/lib.rs: nibble", "src/nibble/convert.rs: Display for ConvertError", "src/chomp/ast/error.rs: Display for ReductionError", "src/chomp/typed/error.rs: Display", "src/chomp/name.rs: Display"]}
{"id": "C86", "title": "The messages of generated parsers locate the error and can be read back", "statement": "When a generated parser rejects an input, the text of the error starts with line:column: of the first character that was not consumed, followed by one of: Unexpected character c. Expected character d.; Unexpected character c. Expected one of l (comma separated); Unexpected string g. Expected e; Unexpected end of input; Expected end of input. The list of expected characters is never empty, repeats none and does not contain the character that was met, so an error inside the grammar never claims that the end of the input was expected. From the text the error can be recovered exactly: two different errors have different texts, given that the standard library's debug writing of characters and strings shows where it ends, which is proved of its documented escapes.", "quantifier": "every accepted grammar, every input, every table of printable characters", "why_tests_cant": "Quantifies over all grammars and inputs; the emptiness of an expected set depends on every fixed point having a first character, and readability on all characters and strings.", "anchors": ["chewed/src/error.rs: Display for TakeError, Display for ParseError", "chewed/src/position.rs: Display for LineCol", "src/lower/mod.rs: all_firsts"]}
{"id": "C87", "title": "The LALRPOP arithmetic parser of the benchmark reads and computes like the other two", "statement": "On texts whose only white space is the space, the LALRPOP grammar of the arithmetic benchmark has exactly the sentences the generated parser accepts, which are the expressions after leading spaces, and its value (or panic in an action) is the one obtained by converting the generated parser's tree. With overflow checks the hand-written parser returns a value exactly when the LALRPOP parser does, the same one, and panics wherever an action panics; without, it returns every value the LALRPOP parser returns (not conversely: a number out of range panics in the LALRPOP parser and wraps in the hand-written one). No text has two values. Other white space (a tab) is read as a space by the LALRPOP parser only.", "quantifier": "every text, with and without overflow checks", "why_tests_cant": "The benchmark compares the three parsers on the assumption that they do the same job; that they agree on every text and every value is not a matter of a few inputs.", "anchors": ["chomp-bench/src/arith/lalr.lalrpop", "chomp-bench/src/arith/nibble.rs: From<Ast> for i64", "chomp-bench/src/arith/mod.rs: parse_expr"]}
{"id": "C88", "title": "What the LALRPOP JSON parser of the benchmark reads", "statement": "The LALRPOP grammar of the JSON benchmark reads exactly JSON with these liberties: strings may contain any character from 0x20 up except quote and backslash, no digit need follow the point of a number, the first of the four digits of a \\u escape may be a plus sign, surrogate pairs may come in either order, and any Unicode white space may stand where JSON allows white space. A text has at most one value (or a panic in an action, not both). Every text the generated parser reads and converts it reads with the same value; on texts without \\u escapes and with nothing inside empty brackets the hand-written parser agrees too; what Display prints is read back as the same value for strings of arbitrary characters, if the numbers are printed as numbers. It panics on half surrogate pairs and on control characters in strings.", "quantifier": "every text, every conversion of numbers, every value", "why_tests_cant": "Three readers of one format are compared on all texts; longest-match tokenization and the grammar's unambiguity are statements about every text.", "anchors": ["chomp-bench/src/json/lalr.lalrpop: Value, Num, Str", "chomp-bench/src/json/mod.rs: Value::take, Display for Value, decode_pair", "chomp-bench/src/json/nibble.rs: From<Ast> for Value"]}
{"id": "C89", "title": "Programs are checked part by part", "statement": "Let parts of an accepted program, at any depth and any number of them, be exchanged for other accepted programs. If each new part has a type that promises no less (it is nullable only if the old one was, and its first and flast sets are contained in the old ones), the whole is still accepted, with a type that promises no less. If the types are equal, the whole is accepted before exactly when it is accepted after, with an equal type. The words of the whole grow with the words of the parts. If the parts have a word in each of their sub-grammars and the same words, then the two wholes are accepted together, with the same type and the same words: nothing but the words of a part matters to its surroundings.", "quantifier": "every program, every set of replaced parts at every depth", "why_tests_cant": "It compares two programs for every context in which a part can stand, including under fixed points whose types are computed by iteration.", "anchors": ["src/chomp/typed/infer.rs: TypeInfer", "src/chomp/set.rs", "src/chomp/typed/mod.rs: Type"]}
{"id": "C90", "title": "A fixed point and its unrolling are accepted together", "statement": "If !f reduces to a grammar without free variables in which every fixed point has a one-parameter function, then f (!f) reduces too, and type checking accepts both or neither, with the same type (nullability, first and flast sets). An accepted !f needs no further assumption than the one-parameter condition.", "quantifier": "every function f, every program of that form", "why_tests_cant": "The unrolled program types the body once with an iterated type in place of a variable; agreement needs the fixed point reached by iteration to be the least one, for every body.", "anchors": ["src/chomp/typed/infer.rs: fold_fix", "src/chomp/ast/substitute.rs: fold_call"]}
{"id": "C91", "title": "Every generated struct and enum of a program has two parts or more, and an error never expects a single character", "statement": "In the code generated for a nibble program every struct for a concatenation has two fields or more, and every enum for an alternation has two variants or more. When its parser rejects an input because no branch can start with the character it met, the error lists two characters or more: the remark 'Expected character ...' that the runtime has for a single one is never printed by the parser of a program (it is by a parser generated through the library from an alternation with a single branch).", "quantifier": "every program that compiles, every input its parser rejects", "why_tests_cant": "It ranges over all programs and inputs, and rests on every branch having a first character unless it is nullable, through recursion.", "anchors": ["src/nibble/mod.rs: Cat, Alt, Call", "src/lower/mod.rs: gen_cat, gen_alt", "chewed/src/error.rs: Display for TakeError"]}
{"id": "C92", "title": "What the text of an expression tells", "statement": "The text of an expression (its Display) depends only on its structure, the texts of its literals and names, and the indices of the variables that have no name. Conversely, two expressions with the same text agree in all of that, if literals and names are words (no space, bracket or punctuation used by the text, none of the words _, let, '.', '|' and ':'), no literal is the name of a variable, sequences and alternations have two parts or more and calls have an argument. Each of these conditions is needed, and the index of a named variable is not in the text.", "quantifier": "every two expressions", "why_tests_cant": "Unique readability is a statement about all pairs of nested expressions.", "anchors": ["src/chomp/ast/mod.rs: Display for NamedExpression, Expression, Cat, Alt, Fix, Variable, Call, Lambda, Let", "src/chomp/name.rs: Display for Name"]}
{"id": "C93", "title": "Equality of expressions is equality of terms and binders", "statement": "Two expressions compare equal exactly if they stand for the same term and the names bound by their functions and let statements are equal one by one: positions, labels and the names of variables are ignored. Equality is reflexive and symmetric, and transitive unless a bound name is a raw identifier, in which case it need not be. Equal expressions reduce to the same terms and are type checked with the same result.", "quantifier": "every two (three) expressions", "why_tests_cant": "It ranges over all pairs and triples of nested expressions.", "anchors": ["src/chomp/ast/mod.rs: PartialEq for NamedExpression, Cat, Alt", "src/chomp/name.rs: PartialEq for Content"]}
{"id": "C94", "title": "The emitted Rust items are a program, and that program is the parser", "statement": "The items printed by the compiler (structs, enums, aliases and implementations of Parse, Display and From for char, referring to each other by name) follow the rules of Rust if no converted user name ends in a digit or is Lit, Cat, Alt, Fix, Branch (part, for fields): every type, field, variant and implementation is unique, every type mentioned is declared, everything used as Parse, Display or Into<char> implements it, constructors are complete, matches exhaustive and types finite. Whenever the items follow those rules, running them by name accepts exactly the language of the grammar, gives the errors of the generated parser, returns values that correspond one to one to parse trees and print as the parsed text, and char::from of a value is the text it prints. Without the condition on names rustc refuses the items (violated expectation: a label lit, part or branch).", "quantifier": "every accepted grammar, with or without a name for the root type, and every input", "why_tests_cant": "It ranges over all grammars, labels and inputs; the emitted code is different for each.", "anchors": ["src/lower/mod.rs: gen_literal, gen_cat, gen_alt, gen_fix, gen_variable, indexes, ty_names, emit_code (the quote_spanned! templates)", "chewed/src/parse.rs: Parse, Parser, Epsilon, Box"]}
{"id": "C95", "title": "Names that cannot break the generated code", "statement": "Identifiers are converted to CamelCase and snake_case and the generator numbers the names it makes up. If no name in a program ends in a digit or is, ignoring case and underscores, lit, cat, alt, fix, branch or part, then the code chomp prints for it follows the rules of Rust, the root type's parse_str returns for every input a value or an error, accepts exactly the grammar's language when every fixed point has its own name, and accepted values print as the input. If moreover every name has a letter before its first digit the generator does not panic, and programs that pass the type checker compile. Both conditions are needed (violated expectation): a label Part gives two fields part1, and a name such as _1 or _ makes the generator panic.", "quantifier": "every program of the surface syntax over ASCII names, every input of the generated parser", "why_tests_cant": "It ranges over all programs, names and inputs.", "anchors": ["src/lower/mod.rs: GenerateCode, ty_names, indexes, emit_code", "src/main.rs: main", "src/chomp/name.rs: Name"]}
{"id": "C96", "title": "Type inference takes three rounds per fixed point, and time exponential in their nesting", "statement": "The loop that infers the type of a fixed point always ends within three rounds, whatever the body and the context: the first settles whether the type is nullable and its first set, the second its follow-last set, the third notices. Two are not enough. So the number of expressions visited is at most 3^d times the size of the expression, d being the depth of nesting of fixed points. The base is attained: for every d there is an accepted expression with 10d+1 nodes for which more than 3^d expressions are visited.", "quantifier": "every expression, every context reachable by inference, every bound on the rounds", "why_tests_cant": "It ranges over all expressions and contexts; a test shows the rounds of one expression.", "anchors": ["src/chomp/typed/infer.rs: TypeInfer, fold_cat, fold_alt", "src/chomp/typed/context.rs: Context", "src/chomp/typed/mod.rs: Type; src/chomp/set.rs: FirstSet, FlastSet"]}
{"id": "C97", "title": "The texts chomp reads", "statement": "chomp reads a text if and only if it is written, in Rust's way of writing tokens, for the tokens of a program of the nibble grammar: words end where no letter, digit or underscore follows, a literal is not followed by a letter, holds no bare quote, backslash or carriage return and only escapes of Unicode scalar values, parentheses are closed, white space may stand between tokens. What is read is that program; a text stands for at most one program. Every other text, and no other, is answered with the parse error (never a panic).", "quantifier": "every text in the subset without comments, numbers, brackets, byte and raw strings; every program of the grammar", "why_tests_cant": "It ranges over all texts and all programs.", "anchors": ["src/main.rs: main", "src/nibble/mod.rs: Parse for Statement, Expression, Term, Literal"]}
{"id": "C98", "title": "Every regular language can be written", "statement": "For every deterministic finite automaton (over a non-empty alphabet) and every state of it, there is a nibble expression that the type checker accepts and whose language is exactly the set of texts the automaton accepts from that state: the restrictions of the type system (no left recursion, first and follow sets apart) exclude no regular language. The texts over a, b whose last character but one is a are an instance.", "quantifier": "every finite automaton, every state, every text", "why_tests_cant": "It ranges over all automata and all texts.", "anchors": ["src/chomp/typed/infer.rs: TypeInfer", "src/chomp/typed/mod.rs: Type", "src/chomp/ast/mod.rs: NamedExpression"]}
{"id": "C99", "title": "The errors of the hand-written arithmetic parser", "statement": "When parse_expr returns an error there is exactly one place where the text goes wrong: what comes before can still be continued to an expression, what stands there (a character, or the end of the text) cannot follow. If the parentheses open at that place are all closed by the very next characters (in particular if none is open) the error names that place (line 1, columns from 0), is InputContinues iff a whole expression has been read, EndOfStream iff the text ends there, and otherwise BadBranch with the character found and exactly the characters other than a space that could have stood there. If fewer closing parentheses follow, the error is about the first missing ')' after them: so the place is the first wrong one also when no ')' follows, but '(()' , wrong at column 2, is reported at column 3.", "quantifier": "all texts on which the parser returns an error, both build modes", "why_tests_cant": "infinitely many texts; 'can still be continued' quantifies over all continuations", "anchors": ["chomp-bench/src/arith/mod.rs: parse_expr, take_expr, take_product, take_term, take_number", "chewed/src/error.rs: TakeError, ParseError"]}
