# Formal model of chomp (yellowsquid/chomp-mirror) in Coq 8.16.1

## Layers

* **Model files** (`rocq/theories/*.v` whose name is that of a component: Base, Runtime, Names, Sets,
  Types, Ast, Infer, InferState, Reduce, Lower, GenSem, Nibble, Convert, Main, ...) contain computable
  Gallina functions only, each citing the Rust lines it models. A `&mut` argument becomes a returned
  value, `Result` stays data, a Rust panic is the explicit value `Panic` (or `None`, where said), a loop
  or a recursion that is not structural takes fuel and returns `OutOfFuel` when it runs out.
* **Spec files** (`Spec*.v`) contain the independent vocabulary in which the properties are stated:
  languages and parse trees of a grammar (least fixed points, SpecLang), the declarative typing rules
  (SpecTyping), left recursion (SpecGuard), beta reduction and evaluation on de Bruijn terms (SpecBeta),
  simple types (SpecSimple), line/column of a text (SpecPos), values of generated types (SpecTable),
  sharing of fixed points (SpecSharing), the grammar of nibble (SpecSyntax), binding of names (SpecScope).
* **Fact files** (`*Facts.v`, `*More.v`) contain the proofs.
* **Property files** (`Prop*.v`) contain, for each property, the theorem, an example that a concrete
  non-trivial case meets its hypotheses (`C##_ex...`), and `Print Assumptions`.

Where the natural expectation turned out false of the code, `properties.jsonl` states the exact law the
code obeys (including the defect), a theorem `..._refuted` gives the witness, and the positive part is
proved under the exact condition.

## Plan per property

| Property | Modelled | Proof |
|---|---|---|
| C01-C03, C06, C07 | `IterWrapper` as (pos, lookahead, rest) | refinement to the list of remaining characters; position against `SpecPos` |
| C04, C05 | `consume_str` including the byte slice `&s[..count]` (UTF-8 lengths) | induction on the literal; C05 refuted for non-ASCII, proved for ASCII, exact panic condition and exact quoted text, against RFC 3629 byte sequences (`SpecUtf8.v`) |
| C08 | `Iter::next` and `collect` with a generic item parser | induction on fuel |
| C09 | `Parse::parse` | case analysis over an arbitrary `take` |
| C10 | `BTreeSet<char>` as strictly sorted lists | induction |
| C11 | `Type::{of_str,cat,alt}` | word combinatorics on arbitrary languages |
| C12 | `typed::Context` | every state reachable by nested scopes |
| C13-C15, C18, C19 | `TypeInfer` | Kleene iteration in a finite lattice; soundness and completeness against declarative rules |
| C16, C17, C61, C62 | same, with least fixed point semantics of grammars | Kleene approximants, continuity |
| C20, C42, C46, C63, C64 | `Reduce` then `TypeInfer` | shape of normal forms |
| C21 | `fold_fix` ignores the number of lambda parameters | refuted by witness; proved for one parameter |
| C22-C29 | table of generated types and its interpreter (the generated `Parse` impls) | soundness, completeness on parse trees, termination by guardedness (ranks), prefix determinacy, amortised cost; exact panic condition of C25 in PanicFacts.v (a panic in a definition is carried to every definition that mentions it) and PropPanic.v |
| C30, C34-C36 | `RustBackend::gen_*` | representation invariant between typed expressions and the table; C30 refuted by witness (`fix_map` is keyed by open terms), proved when sharing is context-consistent (decidable, ShareFacts) |
| C31 | `emit_code` | graph reachability |
| C32, C33 | naming functions, heck conversions as parameters | refuted by witness; proved for names not ending in a digit and not colliding with prefixes |
| C38-C45 | `RenameVars`, `Substitute`, `Reduce` | against simultaneous substitution; big-step evaluation, standardisation theorem for beta reduction in any order (hence uniqueness of results); omega refutes termination, a logical relation proves it for simply typed programs |
| C47-C50, C65, C66 | nibble syntax tree, `Convert` | against a declarative resolution relation, alpha-equivalence, names and positions |
| C51, C52 | `Kind`, `Name`, `Content` | algebra; transitivity refuted with raw identifiers, exact failure |
| C53 | `Parse`/`ToTokens` over token trees | induction; parse = inverse of print, both directions |
| C54 | composition of all stages (`src/main.rs`, `chomp-macro`) | corollary of the above: soundness, completeness, justified errors, no panic |
| C55 | `chomp-bench/src/arith/mod.rs` (Arith.v), values in machine arithmetic, overflow checks on or off | completeness by induction on the expression relation (SpecArith.v), soundness and termination by induction on fuel against the rest of the input; exactness by comparing calculators |
| C67, C68 | the compiler model run on the grammar text of `chomp-bench/src/arith/nibble.rs` (Source.v: a tokenizer and heck for ASCII; ArithGen.v: the grammar and `From<Ast> for i64`) | the table of types is computed by the kernel; its values are characterised by induction on trees (GenTrees.v, ArithGenFacts.v) and related to SpecArith.v; C55 gives the agreement with the hand-written parser |
| C56-C59 | `chomp-bench/src/json/mod.rs` (Json.v): reader, `decode_pair`, printer; `f64` parsing and printing are parameters, a map is the list of its entries | SpecJson.v gives JSON texts for a *dialect* and the texts a reader cannot survive; soundness and panics by induction on fuel over what remains of the input (JsonFacts.v, JsonRead.v), completeness likewise; printing by induction on values (JsonPrint.v); the first readings of C56, C58, C59 refuted and restated |
| C69-C72 | the compiler model run on the grammar text of `chomp-bench/src/json/nibble.rs` (JsonGen.v), `From<Ast> for Value` and its iterators on trees | the table (183 types) is computed once; JsonGenFacts.v and JsonGenValue.v give the trees of each type and relate them to SpecJson texts in the dialects `rfc8259` (language) and `generated` (values); uniqueness of trees (C22) makes the value theorem an equivalence; C71 by inclusion of dialects; C72 by the printer lemma for any dialect; JsonBoth.v and JsonBoth2.v: two dialects that read a text split it alike, so their intersection is a dialect (exact C71, PropJsonBoth.v) |
| C60, C73-C76 | the compiler model run on the grammar text of `autonibble/src/lib.rs` (AutoNibble.v, table of 238 types computed in AutoTable.v), its iterators and its `Convert` impls on trees; for C75 also `syn::parse_str` as a lexer (Source.v) followed by the parser of Nibble.v | AutoFacts.v and AutoRead.v relate the trees of each type to syntax trees and their texts (SpecAuto.v), AutoAgree.v the two conversions step by step in related contexts, AutoLex.v and AutoFront.v the lexer to the texts; Warm.v (not model: a faster inference, proved to give the same result as `typecheck`) lets the kernel evaluate the compiler on this grammar; uniqueness of trees (C22) turns this into statements about every text |
| C77 | nothing new: `typecheck`, `generate`, `take`, `chomp` | SameFacts.v: the table generated for a typed expression represents it (ReprFacts), so two tables for expressions equal up to names and positions are bisimilar and `take` returns the same with the same fuel; inference and reduction commute with erasure of names; C77_labels_refuted by computation on a relabelled C30 example |
| C78 | nothing new: `parse_program`, `convert`, `chomp`; `chomp_main` (AutoMain.v) for texts | SpanFacts.v: reduction, inference and generation commute with any kind-preserving renaming that also drops positions; SpanFront.v: so do parsing and conversion with dropping positions (SpecSame.v `unspan_*`); layout via the lexing lemma of AutoFront.v |
| C79 | `auto_main` (AutoMain.v): autonibble/src/main.rs; stdin and printing not modelled | AutoSame.v: the expressions of C75 map to one expression with plain names if the goal has a name, and no name is raw (by naturality of reduction and inference), so SpanFacts applies; otherwise they erase to the same term and C77 applies |
| C80 | nothing new: `typecheck` and its errors | SpecDefect.v `located`, `explains`; DefectFacts.v: types of unfinished rounds promise no more than the languages have (`under`), the failing place of each loop |
| C81 | nothing new | SpecDefect.v `defect`; errors are defects (C80), and typed grammars have none (`typed_describes`) |
| C82 | nothing new: `take`, `parse_str` | SpecViable.v `says`; ViableFacts.v: in a table of non-empty types first sets are exact (well-founded along left corners), then induction on the run; tables of productive grammars have no empty type (`repr`) |
| C83 | SpecDistinct/DistinctFacts/PropDistinct: invariant of the generator that every struct, enum and box is found under its own key in the maps of the backend; size by induction on the expression; lookup function that predicts the type of an already generated expression. |
| C84 | SpecOrigin/OriginFacts/PropOrigin: one predicate on expressions (all positions in A, separators in B and C, names in N, variables named) is established by conversion from the tokens and kept by renaming, substitution and reduction; inference errors and generated identifiers are read off it. |
| C85 | Messages (Display of the errors, main, the macro), SpecMessages (complaints, their sentences, what is wrong where), MessageFacts/PropMessages: the sentence is read off the error value (C84 excludes the shapes without a name), its truth comes from C45, C48 and the explanations of C80, carried to the grammar of the program by C43. |
| C86 | Messages (Display of chewed's errors), SpecReport (how a text shows where a part of it ends; documented escapes of Debug), ReportFacts (decimal, hexadecimal and escapes can be read back), ExpectFacts (induction over the well-founded left-corner relation of the table: every definition is nullable or has a first character; sets in order), PropReport. |
| C87 | ArithLalr (the grammar as mutually inductive relations on tokens with values, and LALRPOP's default lexer; LALRPOP itself is taken to read exactly the sentences of the grammar), ArithLalrFacts (induction on the tree one way, mutual induction on the derivation the other; lexing of concatenations), PropArithLalr. |
| C88 | JsonLalr (regular expressions as inductive predicates, the longest-match lexer as a relation, the loop of Str as a function, the grammar with values), SpecJsonLalr (the dialect), JsonLalrFacts (mutual inductions both ways; prefix arguments for tokens; determinism of the lexer and of the grammar), PropJsonLalr. |
| C89 | SpecReplace (`replaced R e e'`: parts exchanged at any depth), ReplaceFacts (weakening for closed grammars; the completeness proof of inference relativised to a pair of programs; monotone meaning), PropReplace. |
| C90 | UnrollFacts (substitution and anti-substitution lemmas for the typing rules; leastness through a substitution), PropUnroll. |
| C91 | WideFacts (conversion and reduction give concatenations and alternations two parts, `keeps` carries it to the typed expression, an invariant of generation to the table; one character or more per branch), PropWide. |
| C92 | Display (the Display impls of the AST), SpecDisplay (`alike`, `tame`), DisplayFacts (a reader for the texts, proved to read back the shape of every tame expression), PropDisplay. |
| C93 | `nexpr_eqb` (AutoNibble), SpecEqual (`binders`), EqualFacts, PropDisplay. |
| C94 | Rust (the templates as items that refer to each other by name, and their meaning by name), SpecRust (`well_formed`: the rules of Rust; `denotes`: the value of a parse tree), RustFacts (simulation of the table by the items), RustWf (`emitted_wf`), PropRust. |
| C95 | RustMain (`code_items`: main's output as items), SpecCase (the names of a program, `clean`, `speakable`), CaseFacts (names reach the generator unchanged; what heck's conversion does to ASCII names), PropCase (on top of C94). |
| C96 | InferCost (`visits`: the calls of the fold), SpecCost (`size`, `fix_depth`), RoundFacts (nullability and first sets do not depend on guarded variables; what a context adds to a type was added to the context; hence `third_round`), CostFacts (`visits_le`), PropRounds (the bound and the `tower` family that attains it). |
| C97 | SpecSource (`source`: how tokens are written down), SourceFacts (the lexer of Source is sound and complete for it), SourceRespan (spans do not matter), PropSource (with the exact grammar of C45/SpecSyntax). |
| C98 | SpecRegular (automata), RegularFacts (a grammar of nested fixed points, one per state, for every automaton: its language by induction on the length of the text, its type by induction on the nesting), PropRegular (through `typecheck_accepts`). About the type checker and the language of the grammar, not the generated code: nested fixed points here mention outer variables, where the code generator's sharing of equal bodies has to be excluded (C30; done by labels in C100). |
| C99 | SpecArithError (viable prefixes, the fitting error), ArithErr (an automaton with a counter for the prefixes of expressions, sound and complete for SpecArith), ArithErr2 (the parser of Arith follows it; the errors), PropArithErr; the unconditional claim (earliest place) is refuted by `(()`. |
| C100 | LabelFacts (a name occurs at one place, so sharing_ok holds), WriteFacts (the program of a grammar: parameters x, xx, ..., labels f, ff, ...), WriteConv (what Convert makes of it: that grammar, different names), WriteText (its text is read), PropWrite; with C95 (names), C94 (emitted items), C98 (automata). |
| C101 | Spec: SpecJsonError (Wrong: the first wrong place and what is missing; reported: what is said about it).  JsonErr (positions stay in step), JsonErr2-5 (a wrong text gives that error), JsonErr6-7 (an error comes from a wrong text), JsonErr8 (the place is the first wrong one), PropJsonErr. |
| C102 | Model: TakeStr (take_str).  TakeFacts: by induction on the derivation, take gives the tree when no word goes on with the next character (exact first sets from ViableFacts for the empty branch, TableFacts.take_complete inside a concatenation); PropTake: the converse from determinism (TableMore.take_earliest) and take_honest. |
| C103 | Model: Depth (nesting of the calls of take and of fmt, same recursion as GenSem).  SpecDepth (height of a value, recursive grammars), DepthFacts (nesting = height; nesting <= calls, so C28 bounds it; a value of height h prints at most B^h characters), DepthGram (a used variable puts a tree inside a higher one; without recursion heights are bounded), PropDepth. Stack frames are counted, not bytes. |
| C104 | Model: JsonDepth (Value::take with the bound on nested calls separate from the bound on loops).  SpecJsonDepth (depth of a value, opening brackets of a text), JsonDepthFacts (agrees with Json's take_value when brackets < bound; the bound needed for a value is its depth; monotone), PropJsonDepth. Frames are counted, not bytes; calls of the loops and of parse_str are not nested and not counted. |
| C105 | Nothing new is modelled.  SpecCombine (begins, continues, distinguishable, joinable, many), CombineFacts (defects of a closed grammar do not depend on the scope; defects of two-part alternations and concatenations and of the two repetitions; their languages), PropCombine (through C81_exactly; programs through evaluation, C40). |
| C106 | Nothing new is modelled.  SpecResidual (cats, residual, counts), ResidualFacts (for a grammar without defects, every non-empty residual of a sequence of its components is again such a sequence; by induction on the beginning read), PropResidual (through C81; the refutation by counting: infinitely many n, finitely many components). |
| C107 | ArithDepth.v: take_term with the bound on nested calls apart from the bound on its loops, and parse_expr over it.  SpecArithDepth (open_at_most: in no beginning are more than n parentheses open), ArithDepthFacts (what an operand reads never closes more than it opens and goes at most as deep as the room; more room changes nothing), PropArithDepth. |
| C108 | Nothing new is modelled.  SpecMistake (wrong_after), MistakeFacts (a value of every type of a table by search; C82 from the table alone, for tables all of whose types have values), PropMistake (the two benchmark grammars; comparison through C67 and C99; for autonibble, that no program begins with seven digits in an escape by inversion of SpecAuto's texts, and the run of the parser). |
| C109 | Nothing new is modelled.  SpecCount (parts of a grammar), CountFacts (the table read back as grammars: each type stands for one part by the representation of C30, each part for one type by C83, all are reached by C31), CountEps (the same with epsilon: the types whose grammar has an epsilon are mentioned exactly once each, so they are counted by occurrence), DoublingFacts and PropCount (evaluation of the doubling program through C40, inference on any expression with its grammar). |
| C110 | Nothing new is modelled.  SpecClosure (counted blocks, mirrored texts, stacks told apart), PropClosure (through the stack of C106: in each case some language of the stack after a^n determines n, but there are finitely many; reversal and renaming from C106's union, beginnings from `at_most`; the languages of the accepted expressions by induction). |
| C111 | Nothing new is modelled.  SpecArrange (`rearranged`, `loosened` on grammars), ArrangeFacts (the typing rules up to equality of types: an alternation by the set of its branches, a sequence by its front and what follows; languages), PropArrange (through C14 and the least types of C15). |
| C112 | Nothing new is modelled.  SpecUnused (`uses`, `indifferent` on terms without names and positions), UnusedFacts (evaluation and failure preserve `indifferent`; indifferent grammars are equal), PropUnused and PropUnusedArg (through C40, C45 and C14; a substitution only matters on the variables used). |
| C113 | Nothing new is modelled.  SpecRewrite (`rewritten`: beta steps forwards and backwards, `exchange`), RewriteFacts (parallel reduction; evaluation and failure commute with it; grammars are normal), RewriteBack (the same backwards, along standard reductions), PropRewrite (through C40, C43, C45 and C14). |
| C114 | Nothing new is modelled.  PropIdle: the unrolling (C90) of an idle fixed point is its body (C113), with the same language (C21), and equal grammars have equal types (C77). |

## What is modelled, and what is not

Modelled, function by function: chewed (position, error, parse), src/chomp (name, set, ast, substitute,
visit as structural recursion, typed/{mod,context,infer,error,lower}), src/lower (the table of generated
types, names, emission order and the behaviour of the generated `Parse`, `Display` and `From<_> for
char`), src/nibble (tokens to syntax tree to tokens; conversion), src/main.rs and chomp-macro (the
pipeline), the two JSON parsers and the arithmetic parsers of chomp-bench, autonibble.

Not modelled: rustc and the compilation of the generated code (its meaning is GenSem.v and, by name, Rust.v; PropRust.v proves that they agree), syn's
tokenizer (programs are token lists; Source.v has a lexer for the ASCII subset, used to run the model on the repository's grammars and, as a model of proc_macro2, in C75 and C76: it gives up on comments, numbers, brackets, byte and raw strings, suffixes, line continuations and identifiers outside ASCII), `Delimiter::None` groups, the reading of stdin (it is a token list), the text of syn's own error
messages (a parameter of Messages.v; all other messages are modelled there), LALRPOP (its grammars are read as the sentences they derive), proc_macro2 spans beyond opaque numbers (joining two spans is an arbitrary function `join`),
heck (case conversions are a parameter of the code generator; Source.v instantiates it on ASCII names, and the type names that come out for the bench grammars are those the repository's code uses), HashMap iteration order, memory, the size of stack frames
(their number is counted in C103, C104 and C107), performance other than the count of parser calls and of expressions visited by type inference. `usize` is unbounded `nat`.

## Trusted base

Coq 8.16.1's kernel (with `vm_compute` in some examples); the reading of the Rust source recorded in the
comments. `Print Assumptions` is run in the `Prop*.v` files for the theorems of the manifest and prints
"Closed under the global context" for each: no axiom is used, neither of the standard library nor
other. No library beyond the standard library of Coq is imported.
