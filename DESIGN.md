# Verification of knuffel 3.2.0 in Coq 8.16.1

This file says what is modelled, how each property of `properties.jsonl` is
proved, what was found, and what is trusted. Build with
`coq_makefile -f _CoqProject -o Makefile && make -j4` in `rocq/`.

## 1. The model

The model files are executable, total Gallina functions with no proofs in them.
Each definition cites the file and the lines of /repo that it models, and says
where it simplifies.

| file | models |
| --- | --- |
| `Chars.v` | characters as `N` (Unicode scalar values), UTF-8 lengths, the character classes of `grammar.rs` |
| `Ast.v` | `src/ast.rs`: literals, values, nodes, type names; the `BTreeMap` of properties; `Spanned` |
| `Errors.v` | `src/errors.rs`: `ParseError`, `merge` (with its `todo!()` as an explicit panic), `TokenFormat`, messages and labels of parse errors |
| `TokenSet.v`, `SpanOps.v` | the sets of expected tokens; `Eq`, `Ord`, `Hash` of `Spanned` |
| `Chumsky.v` | the combinators of chumsky 0.9.2 used by the grammar |
| `Spans.v` | `src/span.rs`: `Span`, `LineSpan`, both trackers, `stream` |
| `Grammar.v` | `src/grammar.rs`, one Gallina function per Rust function; `parse_ast` of `wrappers.rs` |
| `Scalar.v` | `src/convert.rs`, the scalars of `src/containers.rs` and `src/convert_ast.rs`, `decode::bytes`, and what `derive/src/scalar.rs` generates |
| `Decode.v` | `DecodeError`, `src/decode.rs`, `src/traits.rs`, `src/wrappers.rs` |
| `Containers.v` | the node implementations of `src/containers.rs` and `src/convert_ast.rs`; `DecodePartial` of `Box`, `Arc` and `Rc`, with the number of pointers |
| `ErrorText.v` | `Display` and `Diagnostic` of decode errors |
| `Report.v` | src/span.rs: `Into<ErrorSpan>`; src/errors.rs: `Error`, its source and its reports; src/wrappers.rs with the file name |
| `DeriveDef.v` | `derive/src/definition.rs`: sorting of attributed fields into a struct or enum definition, which structs are partial-compatible |
| `AttrParse.v` | the token-level part of `derive/src/definition.rs`: how `#[knuffel(..)]` attributes are read |
| `Derive.v` | the decoders that `derive/src/{node,variants}.rs` generate, as interpreters of a definition |
| `DeriveScalar.v` | `derive/src/scalar.rs`: the `DecodeScalar` derive |
| `Steps.v` | every parser once more with a count of its looks at the input |

Two files replay the tests of the repository against the model:
`Conformance.v` (the unit tests of `grammar.rs`, error messages, labels and
positions included) and `DeriveConformance.v` (`derive/tests/*.rs`). They check
that the model behaves as the code does; they are not properties.

A parser is a function from the remaining tokens to a result with three parts:
the errors emitted on the way (chumsky's secondary errors), the outcome
(`Ok value rest alt` or `Err error`), and a crash log. The crash log records
what would be a panic in Rust: fuel exhaustion of the model, the no-progress
panic of `repeated`, and the `todo!()` in `ParseError::merge`. It is a log and
not an outcome so that a panic inside an alternative that is later abandoned is
not forgotten. `parse_ast` returns `Panicked` if the log is not empty. C01 is
the theorem that it is always empty.

A position is the number of tokens that remain, so "further" means "fewer
remaining". chumsky's `Located::at` is the total minus this number.

A decoder is a function of the node (or value) and the context; the trait
implementations are records of such functions. The context is the list of
emitted errors (and the extensions, for C25). So user-written decoders are
covered by quantifying over all records, with hypotheses where a property needs
them ("never deletes errors", "does not panic").

## 2. Specifications

The properties are stated with these files, which do not use the model's
helpers:

| file | says |
| --- | --- |
| `Kdl.v` | the KDL grammar as inductive relations over texts and tokens, written from the KDL 1.0 text; known deviations of knuffel are listed at its top |
| `KdlText.v` | what a text means; the canonical printer |
| `Layout.v`, `Comment.v`, `Number.v` | documents with every choice of layout; comments by counting; spelled-out numbers |
| `Observe.v` | accepted, rejected, reads as, read alike |
| `PlaceSpec.v` | the places of a document: where a node, a name, an element or a value may begin |
| `SpanSpec.v`, `LineSpec.v`, `ErrSpec.v` | exact byte spans; lines and columns; what a parse error claims about the text |
| `DecodeSpec.v` | scalars, UTF-8 and base64 by their RFCs, contexts |
| `FieldSpec.v`, `StructSpec.v`, `DeriveSpec.v`, `HandSpec.v` | what the fields of a struct mean and get; what "handed to a field" is |
| `EnumSpec.v`, `UnwrapSpec.v`, `FlattenSpec.v`, `PartialSpec.v` | enums and newtypes; `unwrap(..)`; flattening; which structs are partial |
| `ScalarEnumSpec.v` | scalar enums; decimal numerals; the messages that list names |
| `StepsClosedSpec.v` | openings of block comments that are not closed, for C45 |
| `ConcatSpec.v` | documents put together and documents in braces, for C71 |
| `OrderSpec.v` | where an error begins and ends; errors in the order of the text, for C72 |
| `ReportSpec.v` | offsets and lengths that mark characters; what the error of a text holds, for C73 |
| `SteadySpec.v` | decoders that do the same in every context; nodes in another order, for C74 |
| `EarlySpec.v` | texts in which nothing is left open (`tidy`) |
| `LaxSpec.v` | the grammar as sets of texts, widened by the mistakes after which the parser goes on; beginnings of documents |
| `RecoverSpec.v` | documents with defects that are recovered from, and the errors they call for |
| `PointSpec.v`, `TruthSpec.v`, `ShownSpec.v` | where decode errors point; when which error may be reported; what messages may contain |
| `AlikeSpec.v` | things that are the same apart from spans and opaque values |
| `CalmSpec.v`, `PointerSpec.v` | what a field needs of its type so that nothing panics; sequences of insertions |
| `AcceptSpec.v`, `AttrSpec.v` | which items the derive should accept; the notation of attributes |

The `PropCnn.v` files contain the theorems and nothing else: each is closed by
`exact`, followed by `Print Assumptions`, with an Example beside it that a
non-trivial case meets the hypotheses. `*Sample.v` files hold the definitions
of those cases.

## 3. How each property is proved

Techniques, by name:

* *combinator invariant*: one lemma per combinator of `Chumsky.v`, then one line
  per grammar function (`Safe`, `Near`, `Good`, `ErrAt`, `Param`, `StepsBound`);
* *soundness*: success of a parser implies membership in the grammar of `Kdl.v`
  (`LexSpace`, `LexLit`, `LexIdent`, `Items`, `Nodes`);
* *completeness*: whatever the grammar derives, the parser accepts, by a calculus
  of "succeeds with" and "fails on" facts (`NodesComplete`);
* *interpreter traversal*: induction over the lists of fields and children that
  the generated code loops over (`DeriveProps`, `MissProps`, `HandProps`, ...).

| id | modelled | proof |
| --- | --- | --- |
| C01 | grammar, chumsky, merge | combinator invariant: the crash log is empty; the one error that cannot be merged is always compared at other positions (`NodeSafe`, `DocSafe`) |
| C02 | grammar | soundness and completeness against `Kdl.v`; spans of the derivation are the spans of the tree |
| C03 | grammar, printer | the printed text has a layout whose meaning is the tree (`PrintMeans`), then C02 |
| C04 | grammar | `render` of every layout means its content (`LayoutMeans`), then C02 |
| C05-C07 | strings | inversion of `means` on the text around the literal (`Template`, `LexProps`, `ItemProps`) |
| C08 | comments | equivalence of counting and nesting (`CommentProps`); refuted for comments unclosed at their level |
| C09 | slashdash | erasing skipped elements from the layout (`LayoutProps`) |
| C10 | numbers | `NumProps`, against spelled-out digits |
| C11, C12, C52 | `convert.rs` | induction on digits over `Z` (`IntProps`); C12 and C52 refuted in corners |
| C13, C14 | property map | `PropMap`: inserting one by one gives the unique map of the grammar |
| C15, C16 | names, values | C15 by inversion; C16: the parser is deterministic, so after any beginning that the grammar allows it stands at the given place, and a list of nodes that gets stuck there cannot be closed (`PlaceParse`, `PlaceProps`) |
| C17, C21, C22 | spans | the token lists of the trackers give each element the bytes, lines and columns of its text (`SpanProps`, `ByteSpans`, `LineProps`, `LineAst`, and for errors `LineErr`) |
| C18, C19, C51 | errors | combinator invariant `okp`: every error is right about the text (`ErrAt`, `ErrGrammar`, `ErrProps`) |
| C20 | both span types | parametricity in the span type (`Param`, `ParamGrammar`, `SpanIndep`) |
| C23 | newlines | from C02 |
| C24, C25, C26, C31, C54 | `decode.rs`, `wrappers.rs` | case analysis for arbitrary decoders (`DecodeProps`, `NodeProps`) |
| C27, C28, C48 | scalars | case analysis against `DecodeSpec` (`ScalarProps`) |
| C29, C53 | AST decoders | structural induction (`AstProps`, `NodeProps`) |
| C30 | bytes | against RFC 3629 and RFC 4648 (`BytesProps`) |
| C32, C49 | type names | enumeration of the builtin names and a general lemma for the others |
| C33-C35, C37 | derived structs | interpreter traversal, exact outcome (`DeriveProps`, `StructProps`, `MissProps`) |
| C36 | derived structs | what is not handed to a field is reported (`HandProps`), with C50 for whole parses |
| C38 | flatten | simulation between the flattening and the inlined struct (`FlattenProps`) |
| C39 | unwrap | exact outcome per mode (`UnwrapProps`) |
| C40, C41, C43 | enums, newtypes | exact outcome per variant (`EnumProps`) |
| C42 | type names of nodes | `TypedProps`; refuted for five kinds of node |
| C44 | `definition.rs` | invariant of `add_field` (`FieldProps`); refuted for two forms of flatten |
| C45 | step counts | `StepsProps` (exponential witness for every n), `StepsAccepted` (one that is accepted), `StepsComment`, `StepsBound`, `StepsNodes`, `StepsTotal` (upper bound by the openings of comments), `StepsClosed` (only those not closed count: what a closed comment takes is paid for by what it reads) |
| C46, C47 | orders and sets | order laws; sorted lists (`OrdProps`, `TokenSet`, `TokenProps`) |
| C50 | all decoders | relational invariant: contexts only grow (`HonestProps`, `LibraryProps`, `LostProps`) |
| C55, C56 | definitions | iff over the attributes (`PartialProps`, `FieldProps`) |
| C57 | decode modes | as C27 |
| C58 | decode errors | each span of an error is a span of the node (`PointProps`), which covers a piece of the text (`PointParse`) |
| C59 | decode errors | relation between the variables of the generated code and what has been seen (`TruthProps`) |
| C60 | messages | catalogue of all parse errors by traversal of the grammar (`ShownParse`); decode errors from C59 (`ShownProps`) |
| C61 | all decoders | interpreter traversal with "no panic, and the value has property P"; P is that each variable of the generated code has a value of its type (the model marks other values as panics) (`CalmProps`, `CalmLibrary`); C01 for the parser |
| C62 | pointers | simulation between a value and a pointer to it, by induction on the insertions (`PointerProps`) |
| C63 | `definition.rs`, code generation | iff: invariants of `attrs_update` and `add_field`, `unwrap` by induction (`AcceptProps`) |
| C64 | `AttrParse` | parser against a grammar, by induction on the fuel and the tokens (`AttrProps`, `AttrItem`) |
| C65 | `DeriveScalar` | exact outcome per kind of literal; uniqueness of decimal numerals by induction from the end (`ScalarEnumProps`) |
| C66 | `RecoverSpec` | calculus of parsers that emit errors (`RecoverCalc`), then mutual induction as for completeness (`RecoverProps`) |
| C67 | decoding and derive | binary logical relation on every construct of the decoders and of the derive (`AlikeProps`, `AlikeDerive`, `AlikeLib`); with C04 and C20 for whole texts (`AlikeParse`) |
| C68, C69 | `LaxSpec` | *combinator invariant*: for each parser, the language it reads and that every error lies after a text that can go on (`LaxCalc`, `LaxGrammar`, `LaxLit`, `LaxIdent`, `LaxNode`) |
| C70 | `EarlySpec` | *two runs on texts with a common part*: before the end of that part each parser does the same on both, and if one fails there so does the other (`EarlyCalc`, `EarlyGrammar`, `EarlyItems`, `EarlyItem2`, `EarlyDoc`, without spans); a relation of runs with different kinds of spans (`Coarse`, `CoarseGrammar`) and the kinds of emitted errors (`EarlyMild`) carry it over (`EarlyProps`) |
| C71 | `Kdl`, `ConcatSpec` | *derivations are joined*: a derivation of the grammar that does not reach the end of the text allows more text behind, and the last one is cut at its end (`Concat`); with the completeness of the parser for the grammar (`ConcatProps`) |
| C72 | `OrderSpec` | *combinator invariants*: every error a parser gives begins where it started or later (`OrderCalc`, `OrderLow`); an error kept aside after a success points at the character where it was found, or else the next parser in the grammar cannot go on (`OrderStuck`, `OrderNeat`, `OrderNode`); the errors emitted lie one after the other between start and end, or before the error kept aside (`OrderEmit`, `OrderText`, `OrderList`) |
| C73 | `ReportSpec` | *case analysis* on the errors, over C18 and C51 (places, labels and messages of parse errors), C58 (places of decode errors) and C67 (span types) |
| C74 | `SteadySpec` | interpreter traversal with "the same result and new errors in every context" (`SteadyProps`, `SteadyLibrary`); *induction* on the fields: two nodes of different names commute; *induction* on the nodes: a reordering is a sequence of such swaps (`SwapProps`); `insert_child` of a derived struct as the same walk over the fields, so flattened structs commute too (`SwapFlat`) |

Every listed property could be expressed; none is "not applicable". Status
`partial` in `MANIFEST.json` always means: the statement as first written is
false of the model; there is a `_refuted` theorem with a concrete witness, and
the largest part that holds is proved beside it.

## 4. Refuted statements and other findings

Refuted, with a witness computed by Coq:

* C08: `a /*/*/` is accepted although a comment inside is not closed at its
  level; the parser reads the second opening as text when that lets the comment
  end.
* C12: `1e` is accepted as a decimal literal but is no floating point number.
* C15: `nullable=1`: a bare property name may not begin with a keyword.
* C22: the tracker advances 8 columns for a tab, the end of input is computed with
  the tab's `unicode-width`; so if the last line has a tab the two differ. In
  TAB `a {` the opening brace is reported in the wrong column for this reason.
* C28: `Option`, `Box`, `Rc`, `Arc` and `Spanned` around `ast::Value` panic when
  decoded as scalars (`raw_decode` of `Value` is a `panic!`).
* C32, C49: reading the text `usize` or `isize` does not give the builtin type
  name, so these two do not survive a round trip; `(usize)1` is always a type error.
* C37: the default of a `bool` child is ignored.
* C38: a default on a field inside a flattened struct is ignored.
* C42: type names are silently ignored on unwrapped children, unit and tuple
  variants, flags and empty newtypes.
* C44: `flatten(child, property)` files the field twice, `flatten()` nowhere.
* C45: n+1 unclosed `/*` take at least 2^n steps. So does `/*/*/`, written n+1 times,
  which is accepted: a comment is tried from the second slash on to the end of the text.
* C68: the only error of `"\u{1234567}" 1` is at the `7`, but after `"\u{123456` nothing
  gives a document, as that is no code point.
* C69: for `}` alone, `0` is among what is expected, but no document begins with it. For
  `a { b }`, "end of input" is, but `a { b ` is not a document.
* C70: `a r"` has its error at the quotation mark, though `a r""` is fine: the raw string
  without an end is taken for the identifier `r`. `a -1=2` is reported as an identifier
  `-` used as an argument and an unexpected `1`, though `a -1` is fine (the branch for
  literals fails on the whole item, and the one for identifiers takes the sign).
  `a /*/*/}` is reported at its brace, though `a /*/*/}*/*/` is fine.
* C71: `a \` and a newline is accepted as one node; so is `"b"`; put together they are one
  node `a` with the argument `"b"`. `a \//`, a newline and `"b"` too. `a /*/*/` and
  `b "*/*/"` are accepted, but with two newlines between them are not.
* C48: wrong-kind errors of integers and floats say that a string was expected.
* C52: `-0` is rejected by unsigned types.

Found on the way (in Examples or notes of the theories):

* A raw string cannot be a node name or type name. `!` may start but not continue
  an identifier. U+FEFF is both white space and an identifier character.
* Children that are commented out followed by real children are rejected, as is
  `{child}` without a terminator; the span of a node includes its terminator.
* A commented-out bad argument (`n /-foo`) still rejects the document (C16).
* An unclosed raw string as an argument, and a missing value (`a k=`), are
  reported as "identifiers cannot be used as arguments".
* Floats reject integer literals. Of equal property names the last value and the
  first key span are kept.
* Defaults on `arguments`, `properties`, `children` and `flatten` fields are
  ignored. `std::option::Option<T>` is not seen as optional (C56). Of two fields
  with the same property name, or variants with the same kebab-case name, the
  first wins.
* `str` or `bytes` on a field without a mode is accepted and has no effect (C63).
* `DecodeScalar` ignores all attributes: `skip` does not hide a variant, and errors
  in attributes go unnoticed. Variants `A()` and `A {}` are rejected (C65).
* `unwrap()`, `unwrap(span)`, `unwrap(child, str)` and the like, `children(name=..)` of an optional type
  in a partial struct, newtypes around a type that is not optional, and `span`,
  `node_name`, `type_name` in tuple variants do not compile; variants with named
  fields hit a `todo!()`.
* A missing child is reported at the whole node, not at its name. A type name is
  shown unescaped in an error (C60 has a line break in a message).
* The error for `\u{1g}` loses its label when it is merged.
* A flattened `Arc<T>` or `Rc<T>` whose `Default` shares the value panics ("no Arc
  clone yet") at the first node or property (C62).

## 5. Trusted base

* Coq's kernel, and `vm_compute` for examples and refutation witnesses.
* What `Print Assumptions` prints beneath each theorem: "Closed under the global
  context" for all of them. No axioms of our own, none of the standard library's.
* That the model is the code, function by function as cited. In particular these
  parts are not in /repo and are modelled from their documentation:
  * chumsky 0.9.2: `just`, `filter`, `filter_map`, `none_of`, `end`,
    `take_until`, `or`, `choice`, `or_not`, `then`, `then_with`,
    `delimited_by`, `repeated`, `separated_by`, `rewind`, `map_err`,
    `map_err_with_span`, `map_with_span`, `try_map`, `validate`,
    `recover_with(skip_until)`. The sources are not in the sandbox; replaying the
    error tests of `grammar.rs` checks the recollection.
  * syn 1: `Punctuated::parse_terminated_with`, `parenthesized!`,
    `Attribute::parse_args_with`, `Path::is_ident`.
  * `BTreeMap`, `BTreeSet`, `HashMap<TypeId, _>`: sorted association lists and
    finite maps; inserting an equal key keeps the old key.
  * `from_str_radix`, `char::try_from`, `char::is_digit`, `str::from_utf8`: after
    their documentation.
  * the `base64` STANDARD engine: canonical padding required, non-zero trailing
    bits rejected.
* Left abstract, as parameters of the theorems:
  * `unicode-width`: any function from characters to widths;
  * `f32`/`f64` `from_str`: any function; only the syntax of what is passed
    matters;
  * `heck`'s kebab-case conversion: any function;
  * `FromStr`, `TryFrom<&[u8]>`, `Default` of user types, `Display` of user errors;
  * `syn::Expr` and `syn::Type` in attributes: any functions that read from the
    front of the tokens and that a comma after something complete ends (C64);
  * `minicbor`: an encoder and a decoder of strings that round-trip.
* Not modelled:
  * rendering of reports by `miette`: of a report its message, help and labels are
    modelled, and of an error the name and the text of its source;
  * stack depth and memory;
  * `syn` as a whole: items come as fields, types and attributes. Of attributes the
    tokens are modelled, without groups that have no delimiters; the texts of
    `syn`'s syntax errors are not;
  * rustc: name resolution and type checking of the generated code. The generated
    code is modelled directly; combinations that do not compile are left out and
    listed above;
  * steps (C45) count looks at the input and not machine steps.

## 6. Testing the theorems

`seeded/LOG.jsonl` lists wrong programs: one definition of the model edited, the
whole development rebuilt without the conformance files, and the proofs that no
longer went through. Where there were none, the entry names the theorems that were
added or strengthened until there was one.

`property_files_importing_a_failed_file` is worked out from the imports of the files as
they were when the edit was tried. These property files were not each built, and
properties added later were not tried against earlier edits.

For the entries `O1`–`O19` (C72), `V…` (C73) and `U…` (C74) only the files were rebuilt
on which the property depends, in a copy. In `V…` and `U…` a lemma whose proof failed was put aside, so that
the build went on, and `theorems_no_longer_proved` are the theorems that then depended
on such a lemma. In all entries "caught" means that a proof failed. It does not by
itself show that each theorem named is false for the edited program: a proof can also
fail because it follows the text of the definition. `breaks` names the property that
the edit was written to make false.
