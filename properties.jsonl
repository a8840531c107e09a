{"id": "C01", "title": "Parsing always returns", "statement": "For every text, parse_ast returns: either a document, or an error value holding at least one error. It never loops for ever, never trips the parser library's 'no progress' panic, never reaches the todo!() in error merging and never hits 'failed without an error'.", "quantifier": "every Unicode text, of any length and nesting depth", "why_tests_cant": "A test runs finitely many texts; an endless loop, a no-progress panic or the todo!() arm needs one unlucky text among infinitely many.", "anchors": ["/repo/src/wrappers.rs parse_ast", "/repo/src/grammar.rs document, nodes, ml_comment", "/repo/src/errors.rs ParseError::merge"]}
{"id": "C02", "title": "Accepted text is KDL and means what the document says", "statement": "Whenever parse_ast returns a document, the text is derivable in the KDL grammar (written down separately as inductive relations), and that derivation gives exactly the names, type names, arguments, properties and children of the returned document.", "quantifier": "every text that is accepted", "why_tests_cant": "Tests show a few accepted texts have the right tree; only a proof shows no text is accepted with a tree that its grammar reading does not give.", "anchors": ["/repo/src/grammar.rs document, nodes, prop_or_arg, literal, ident, string, number", "/repo/src/wrappers.rs parse_ast"]}
{"id": "C03", "title": "Every document value can be written and read back", "statement": "For every document value (any node names, type names, string/number/boolean/null arguments, properties, nested children), the canonical KDL text of the value is accepted by parse_ast and gives back the same value, spans aside.", "quantifier": "every document tree, unbounded depth and width, every string content", "why_tests_cant": "Round-trips of sample documents leave out infinitely many name/string/nesting combinations.", "anchors": ["/repo/src/grammar.rs document, nodes, escaped_string", "/repo/src/ast.rs Document, Node, Value"]}
{"id": "C04", "title": "Layout does not change meaning", "statement": "Wherever the grammar allows space, any mix of whitespace characters, block comments and line continuations between the parts of a node, and any mix of newlines, whitespace and line comments between nodes, gives the same document (spans aside).", "quantifier": "every document and every choice of layout between tokens", "why_tests_cant": "Layouts are unboundedly many strings; tests try a handful.", "anchors": ["/repo/src/grammar.rs ws, node_space, line_space, esc_line, comment, node_terminator"]}
{"id": "C05", "title": "Escaped strings denote their contents", "statement": "A quoted string literal yields exactly the sequence of characters written, with each of the escapes \\\" \\\\ \\/ \\b \\f \\n \\r \\t \\u{X} replaced by the character it names; every string has such a spelling, and the literal ends at the first unescaped quote.", "quantifier": "every character sequence, every choice of escape spelling", "why_tests_cant": "There are infinitely many strings and each character may be spelled several ways.", "anchors": ["/repo/src/grammar.rs escaped_string, esc_char"]}
{"id": "C06", "title": "Raw strings are verbatim", "statement": "A raw string r, n hashes, quote ... quote, n hashes yields exactly the characters between the delimiters, unmodified, and ends at the first quote followed by n hashes.", "quantifier": "every n and every content not containing the closing delimiter", "why_tests_cant": "Unbounded number of hashes and contents (including contents with fewer hashes after quotes).", "anchors": ["/repo/src/grammar.rs raw_string"]}
{"id": "C07", "title": "Unicode escapes are accepted exactly when valid", "statement": "\\u{h} inside a string is accepted if and only if h is 1 to 6 hexadecimal digits naming a Unicode scalar value (not a surrogate, at most 10FFFF), and it then denotes that scalar value; otherwise parsing returns an error.", "quantifier": "every sequence of characters between the braces", "why_tests_cant": "16^6 digit strings plus malformed ones; boundary values at surrogates and 10FFFF are easy to miss.", "anchors": ["/repo/src/grammar.rs esc_char"]}
{"id": "C08", "title": "Block comments nest and vanish", "statement": "A properly nested block comment /* ... */ (with nested ones to any depth) is skipped as a unit as if it were a space. A text in which the comment is not closed at its nesting level is rejected.", "quantifier": "every nesting depth and every comment body", "why_tests_cant": "Nesting depth is unbounded and the code falls back to other readings when a nested opening is never closed.", "anchors": ["/repo/src/grammar.rs ml_comment, ws"]}
{"id": "C09", "title": "Slashdash removes exactly one thing", "statement": "Prefixing a node, an argument, a property or a children block by /- (optionally followed by space) yields the document with exactly that element absent and nothing else changed.", "quantifier": "every document and every position of /-", "why_tests_cant": "Interaction with every element kind and all nesting.", "anchors": ["/repo/src/grammar.rs prop_or_arg, nodes"]}
{"id": "C10", "title": "Number literals keep sign, digits and radix", "statement": "A number literal yields an Int or a Decimal literal whose text is the source text with underscores (and the radix prefix) removed; it is Decimal exactly if it has a fraction or an exponent, and its radix is the one written.", "quantifier": "every number literal", "why_tests_cant": "Unbounded digit strings with underscores in arbitrary places.", "anchors": ["/repo/src/grammar.rs number, decimal_number, radix_number, digits", "/repo/src/ast.rs Integer, Decimal, Radix"]}
{"id": "C11", "title": "Integer decoding is exact or an error", "statement": "Decoding an integer literal into i8..i64, u8..u64, isize or usize gives exactly the mathematical value of the literal in its radix when that is in the type's range (a literal with a minus sign is never in the range of an unsigned type), and reports an error otherwise; it never wraps or truncates.", "quantifier": "every literal (any length, sign, radix) and every integer type", "why_tests_cant": "Value space is infinite; boundary behaviour in 4 radixes by 12 types.", "anchors": ["/repo/src/convert.rs impl_integer, impl_decode", "/repo/src/ast.rs Integer, Radix"]}
{"id": "C12", "title": "Every decimal literal the parser accepts is a decimal number", "statement": "If the grammar accepts a literal as Decimal, then its text is a syntactically valid floating point number (so decoding into f32/f64 gives its value).", "quantifier": "every accepted Decimal literal", "why_tests_cant": "Only specific shapes (an exponent without digits) violate it.", "anchors": ["/repo/src/grammar.rs decimal_number", "/repo/src/convert.rs impl_float"]}
{"id": "C13", "title": "Arguments keep order; the last property wins", "statement": "In the parsed node, arguments are the argument values in source order with duplicates kept; for each property name there is exactly one entry holding the value written last; entries are ordered by name.", "quantifier": "every sequence of arguments and properties", "why_tests_cant": "Arbitrary interleavings and duplicates.", "anchors": ["/repo/src/grammar.rs nodes", "/repo/src/ast.rs Node", "/repo/src/span.rs Spanned"]}
{"id": "C14", "title": "Reordering distinct properties does not matter", "statement": "Two nodes that differ only in the order of properties with distinct names, and in how properties are interleaved with arguments, parse to the same node (spans aside) and so decode alike.", "quantifier": "every permutation", "why_tests_cant": "Factorially many permutations at every size.", "anchors": ["/repo/src/grammar.rs nodes"]}
{"id": "C15", "title": "Every bare identifier can name a property", "statement": "Every bare identifier accepted as a node name is also accepted as a property name.", "quantifier": "every identifier", "why_tests_cant": "Only identifiers with particular prefixes could break it.", "anchors": ["/repo/src/grammar.rs bare_ident, keyword, prop_or_arg_inner, ident"]}
{"id": "C16", "title": "Misplaced identifiers, numbers and keywords are rejected", "statement": "A bare identifier in argument or value position, a number or a keyword as a property name, and a number or keyword as a node name always make parse_ast return an error, whatever surrounds them.", "quantifier": "every such element in every context", "why_tests_cant": "The parser has recovery and backtracking: an error that was emitted could get lost in a later alternative; only a proof rules that out for all contexts.", "anchors": ["/repo/src/grammar.rs prop_or_arg_inner, ident, bare_ident"]}
{"id": "C17", "title": "AST spans are exact", "statement": "In a document parsed with byte spans, every span satisfies start < end <= text length, lies on character boundaries, and the text slice at that span is exactly the source of that element; spans of children lie inside the span of the children block, that inside the node's span, and siblings are disjoint and in order.", "quantifier": "every accepted text, every element", "why_tests_cant": "Multi-byte characters, comments and continuations in all positions.", "anchors": ["/repo/src/grammar.rs spanned", "/repo/src/span.rs Span, OffsetTracker, Spanned"]}
{"id": "C18", "title": "Error spans point into the source", "statement": "Every error returned by parse_ast has spans inside the source text (start <= end <= length in bytes), so that rendering it cannot fail.", "quantifier": "every rejected text", "why_tests_cant": "Error positions are computed with at_start / before_start / at_end arithmetic that assumes ASCII; a bad text would go out of bounds.", "anchors": ["/repo/src/errors.rs ParseError", "/repo/src/span.rs at_start, at_end, before_start", "/repo/src/grammar.rs ml_comment, raw_string, escaped_string, nodes"]}
{"id": "C19", "title": "Unclosed-delimiter errors point at an opening delimiter that is never closed", "statement": "When an 'unclosed' error is reported for a comment, string, raw string or pair of braces, the reported opening span covers exactly the opening delimiter in the text, the other span is the end of the text, and no later part of the text closes what was opened there.", "quantifier": "every text rejected with an unclosed error", "why_tests_cant": "Positions are derived by arithmetic from the position after the opening.", "anchors": ["/repo/src/grammar.rs ml_comment, raw_string, escaped_string, type_name, nodes", "/repo/src/errors.rs ParseError::Unclosed"]}
{"id": "C20", "title": "The span type does not influence the result", "statement": "parse_ast with byte spans and parse_ast with line/column spans accept the same texts and return the same document (and the same errors) up to projecting the line/column spans to byte offsets.", "quantifier": "every text", "why_tests_cant": "It is a relation between two runs over all inputs.", "anchors": ["/repo/src/span.rs Span, LineSpan", "/repo/src/wrappers.rs parse_ast", "/repo/src/grammar.rs document"]}
{"id": "C21", "title": "Line and column numbers are right", "statement": "With line/column spans, the start of each character is (its byte offset, number of newlines before it with CRLF counting once, and the width of the text since the last newline with a tab counting 8). Both ends of every span of a parsed document are such positions, and so are those of every span of a parse error, except at the end of a text whose last line has a tab.", "quantifier": "every text, every position, every span of the document or of the errors", "why_tests_cant": "State machine over arbitrary sequences of newline characters.", "anchors": ["/repo/src/span.rs LineTracker, LinePos, LineSpan"]}
{"id": "C22", "title": "End-of-input position agrees with the tracker", "statement": "The position reported for end of input equals the end position of the last character.", "quantifier": "every text", "why_tests_cant": "Two separate computations of the same thing; they must agree on all texts.", "anchors": ["/repo/src/span.rs LineSpan::stream, LineTracker::next_span"]}
{"id": "C23", "title": "All newline forms separate nodes", "statement": "CR, LF, CR LF, FF, NEL, LS and PS each end a node and a line comment, and CR LF acts as one newline.", "quantifier": "every document and every choice of newline form", "why_tests_cant": "Unbounded combinations.", "anchors": ["/repo/src/grammar.rs newline, node_terminator, comment"]}
{"id": "C24", "title": "Decoding succeeds exactly when no error was produced", "statement": "parse and parse_with_context return the value if and only if the text parsed, decoding returned a value and no error was emitted to the context; otherwise the error list is not empty and lists emitted errors in order, then the returned one.", "quantifier": "every text and every decoder (including user-written ones)", "why_tests_cant": "Quantifies over arbitrary decoders.", "anchors": ["/repo/src/wrappers.rs parse, parse_with_context", "/repo/src/decode.rs node, Context"]}
{"id": "C25", "title": "Context values behave as a typed map", "statement": "get returns the value most recently set for that type, and setting one type never disturbs another or the error list; emitted errors are never lost or reordered.", "quantifier": "every sequence of set/get/emit_error calls", "why_tests_cant": "Arbitrary histories.", "anchors": ["/repo/src/decode.rs Context"]}
{"id": "C26", "title": "Decoding a list of nodes", "statement": "Decoding a document into Vec<T> decodes every node in order exactly once; values of successful nodes appear in order, every failing node contributes its error, and one failing node does not stop the others.", "quantifier": "every list of nodes and every element decoder", "why_tests_cant": "Unbounded lists with failures at arbitrary places.", "anchors": ["/repo/src/containers.rs Vec"]}
{"id": "C27", "title": "Scalar decoding accepts exactly its kind", "statement": "Decoding a literal into String, PathBuf, bool, an integer or a float succeeds without error only for string, string, boolean, integer and decimal literals respectively; any other kind, or an unsuitable type name, produces an error.", "quantifier": "every literal, type name and scalar type", "why_tests_cant": "Product of kinds, type names and types with unbounded contents.", "anchors": ["/repo/src/convert.rs", "/repo/src/traits.rs DecodeScalar::decode"]}
{"id": "C28", "title": "Option scalars map null to None", "statement": "Decoding Option<T> yields None exactly for null and otherwise what T yields; wrappers Box, Arc, Rc and Spanned change nothing but the wrapping, and Spanned records the literal's span.", "quantifier": "every value and every inner decoder", "why_tests_cant": "Quantifies over arbitrary inner decoders.", "anchors": ["/repo/src/containers.rs Option, Box, Arc, Rc, Spanned"]}
{"id": "C29", "title": "Decoding into the AST types is the identity", "statement": "Decoding a node into ast::Node / SpannedNode and a value into ast::Value / Literal returns the same tree (spans converted by the span decoder) and emits no error.", "quantifier": "every node tree", "why_tests_cant": "Unbounded trees.", "anchors": ["/repo/src/convert_ast.rs", "/repo/src/span.rs DecodeSpan"]}
{"id": "C30", "title": "Bytes decoding is faithful", "statement": "The bytes decoder returns the UTF-8 bytes of an untyped string; with type base64 it returns the bytes b exactly when the string is the standard padded base64 of b; anything else emits an error.", "quantifier": "every string and every byte sequence", "why_tests_cant": "Infinite data; padding and trailing-bit rules.", "anchors": ["/repo/src/decode.rs bytes"]}
{"id": "C31", "title": "Flag nodes", "statement": "check_flag_node emits no error exactly if the node has no arguments, properties and child nodes; otherwise one error per offending element, in order arguments, properties, children.", "quantifier": "every node", "why_tests_cant": "Unbounded nodes.", "anchors": ["/repo/src/decode.rs check_flag_node"]}
{"id": "C32", "title": "Type names round-trip through text", "statement": "For every builtin type, parsing its textual name gives the builtin type back; two type names are equal exactly if their texts are equal.", "quantifier": "every type name", "why_tests_cant": "Table with 13 entries against infinitely many custom names.", "anchors": ["/repo/src/ast.rs BuiltinType, TypeName"]}
{"id": "C33", "title": "Derived decoders: positional arguments", "statement": "A derived struct assigns argument i to the i-th argument field, the remaining ones in order to the arguments field; a missing required argument or a surplus argument makes the decode fail.", "quantifier": "every struct definition accepted by the derive and every node", "why_tests_cant": "Quantifies over definitions and nodes; the tests are for fixed structs.", "anchors": ["/repo/derive/src/node.rs decode_args", "/repo/derive/src/definition.rs Struct"]}
{"id": "C34", "title": "Derived decoders: properties", "statement": "A derived struct assigns each named property field the value of that property, collects the rest into the properties field in name order, and fails on a missing required property or, without a properties field, on an unknown one.", "quantifier": "every struct definition and every node", "why_tests_cant": "Quantifies over definitions and nodes.", "anchors": ["/repo/derive/src/node.rs decode_props"]}
{"id": "C35", "title": "Derived decoders: children", "statement": "A derived struct gives each named child field the child node of that name (error if missing and required, error if duplicated), collects all matching nodes in order for children(name) fields, the rest in order for a children field, and without one reports each unknown child.", "quantifier": "every struct definition and every list of child nodes", "why_tests_cant": "Quantifies over definitions and unbounded child lists.", "anchors": ["/repo/derive/src/node.rs decode_children"]}
{"id": "C36", "title": "Nothing is silently dropped", "statement": "If decoding a node with a derived struct gives a value and no error, then every argument, property and child of the node was handed to exactly one field's decoder.", "quantifier": "every struct definition and every node", "why_tests_cant": "A conservation law over all definitions and all nodes.", "anchors": ["/repo/derive/src/node.rs decode_args, decode_props, decode_children"]}
{"id": "C37", "title": "Defaults apply exactly to absent elements", "statement": "A field with a default gets it exactly if the argument, property or child is absent; a present one (including null for optional fields) is decoded; an optional field without default is None when absent.", "quantifier": "every definition and node", "why_tests_cant": "Quantifies over all field kinds and nodes.", "anchors": ["/repo/derive/src/node.rs decode_args, decode_props, decode_children"]}
{"id": "C38", "title": "Flattening equals inlining", "statement": "A struct that flattens another struct of optional properties and children accepts the same nodes and stores the same values as one that declares those fields itself.", "quantifier": "every pair of definitions and every node", "why_tests_cant": "Relational property over all definitions and nodes.", "anchors": ["/repo/derive/src/node.rs insert_property, insert_child, decode_props, decode_children"]}
{"id": "C39", "title": "Unwrapped children", "statement": "A child field with unwrap(argument) holds exactly the single argument of the child node; extra arguments, properties or children of that node are errors; similarly for unwrap(property / arguments / properties / children). The name that is not written is that of the field, \"field<i>\" in kebab case for field i of a tuple.", "quantifier": "every node and scalar decoder", "why_tests_cant": "Quantifies over nodes and decoders.", "anchors": ["/repo/derive/src/node.rs unwrap_fn, decode_node"]}
{"id": "C40", "title": "Enum decoding dispatches on the node name", "statement": "Decoding a node into a derived enum uses the variant whose name equals the node name, fails with an error for any other name, and never yields a skipped variant. The message for an unknown name lists up to three names, or two of more and the number of the others.", "quantifier": "every enum definition and node", "why_tests_cant": "Quantifies over definitions and names.", "anchors": ["/repo/derive/src/variants.rs emit_enum, decode"]}
{"id": "C41", "title": "Scalar enums dispatch on the string", "statement": "Decoding a scalar into a derived scalar enum yields the variant whose kebab-case name equals the string, an error for any other string or kind, and an error for any type name.", "quantifier": "every enum definition and value", "why_tests_cant": "Quantifies over definitions and strings.", "anchors": ["/repo/derive/src/scalar.rs emit_enum"]}
{"id": "C42", "title": "Undeclared node type names are rejected", "statement": "A node carrying a type name is decoded without error only into a type that declares a type_name field (the documentation says type names are not allowed on nodes by default).", "quantifier": "every definition and node", "why_tests_cant": "Each code path (struct, unwrap, enum variant, flag) must check it.", "anchors": ["/repo/derive/src/node.rs decode_specials, unwrap_fn", "/repo/derive/src/variants.rs decode", "/repo/src/decode.rs check_flag_node"]}
{"id": "C43", "title": "Newtype variants and structs", "statement": "A tuple struct or variant around an optional inner type gives None exactly for a node without arguments, properties and children braces, and otherwise decodes the inner type from the very same node.", "quantifier": "every node and inner decoder", "why_tests_cant": "Quantifies over inner decoders.", "anchors": ["/repo/derive/src/node.rs emit_new_type", "/repo/derive/src/variants.rs decode"]}
{"id": "C44", "title": "The derive files each field once", "statement": "For every list of field attributes that the derive accepts, each field is filed under exactly one category, so that the generated struct initialises every field exactly once; arguments never follow an arguments field.", "quantifier": "every list of attributed fields", "why_tests_cant": "All attribute combinations and orders.", "anchors": ["/repo/derive/src/definition.rs StructBuilder::add_field, Struct::all_fields"]}
{"id": "C45", "title": "Comment parsing takes reasonable time", "statement": "The number of parser steps (looks at the next character or the end) for a text is bounded by a polynomial in its length. This fails, even for texts that are accepted; it holds with a factor of 2 for each '/*' in the text whose comment is not closed, so in particular for all texts in which block comments are closed.", "quantifier": "every text", "why_tests_cant": "Complexity is a statement about growth over all lengths.", "anchors": ["src/grammar.rs:117-153", "src/grammar.rs:394-596", "src/wrappers.rs:13-31"]}
{"id": "C46", "title": "Spanned values compare by content", "statement": "Equality, ordering and hashing of spanned values depend on the values only, and ordering is a total order compatible with equality; property lookup by name therefore never depends on spans.", "quantifier": "every pair/triple of spanned values", "why_tests_cant": "Order laws over an infinite domain.", "anchors": ["/repo/src/span.rs Spanned"]}
{"id": "C47", "title": "'Expected' lists are complete and free of repeats", "statement": "A rendered 'found X, expected ...' message names every expected token of the merged errors exactly once, in sorted order, and merging is associative and commutative on the expected sets.", "quantifier": "every pair of merged parse errors", "why_tests_cant": "Merging happens over arbitrary combinations of alternatives.", "anchors": ["/repo/src/errors.rs TokenFormat, FormatUnexpected, merge"]}
{"id": "C48", "title": "Kind errors name the kind that is needed", "statement": "When a literal of the wrong kind is decoded into a scalar type, the error's expected kind is the kind which that type accepts.", "quantifier": "every scalar type and every literal of the wrong kind", "why_tests_cant": "Table over types and kinds, easily wrong in macro-generated code.", "anchors": ["/repo/src/convert.rs impl_integer, impl_float", "/repo/src/errors.rs DecodeError::scalar_kind"]}
{"id": "C49", "title": "Type names survive CBOR", "statement": "Encoding a type name to CBOR and decoding it gives an equal type name.", "quantifier": "every type name", "why_tests_cant": "Infinite set of names; only some builtin entries fail.", "anchors": ["/repo/src/ast.rs TypeName"]}
{"id": "C50", "title": "Errors found in a nested node are never lost", "statement": "An error emitted to the context by any scalar, child or nested decoder makes the whole parse fail and is contained in the reported list, whatever the surrounding derived decoders do.", "quantifier": "every definition, node and inner decoder", "why_tests_cant": "Error propagation over arbitrary compositions.", "anchors": ["/repo/derive/src/node.rs", "/repo/src/decode.rs Context", "/repo/src/wrappers.rs parse_with_context"]}
{"id": "C51", "title": "An error names what is really at its place, and its label and message are true", "statement": "In a parse error that says 'found X', the error's span covers exactly X in the source: the one character, the keyword, or nothing at the very end for the end of input. A label such as 'invalid escape char', 'unexpected number' or 'keyword' and a message such as 'numbers cannot be used as property names' hold of the text at the span. Other messages point at a non-empty piece of the source.", "quantifier": "every rejected text", "why_tests_cant": "Errors are merged, re-labelled and re-positioned while they travel through arbitrarily many alternatives.", "anchors": ["/repo/src/errors.rs ParseError, merge", "/repo/src/grammar.rs"]}
{"id": "C52", "title": "Zero may carry a minus sign", "statement": "An integer literal whose value is in the range of the type is decoded, also when it is written with a minus sign.", "quantifier": "all integer types, all radixes, all integer literals", "why_tests_cant": "Only the value zero separates the sign of the literal from the sign of its value; a test suite has to think of it.", "anchors": ["src/convert.rs:13-48"]}
{"id": "C53", "title": "Line spans decode to byte spans", "statement": "A text parsed with line-and-column spans and decoded into the AST with byte spans gives exactly the AST that parsing with byte spans gives.", "quantifier": "every text and every display width of characters", "why_tests_cant": "Positions of every node, name, literal and key of an unbounded document have to agree.", "anchors": ["/repo/src/span.rs LineSpan", "/repo/src/traits.rs DecodeSpan", "/repo/src/ast.rs", "/repo/src/convert_ast.rs"]}
{"id": "C54", "title": "Decoding one node reports everything", "statement": "decode::node gives a value exactly if the decoder returned one and reported no error; otherwise it gives all errors, those reported on the way first and the returned one last; it agrees with decoding a document of only that node into a Vec.", "quantifier": "every node and every decoder", "why_tests_cant": "It is a statement about arbitrary user decoders.", "anchors": ["/repo/src/decode.rs node", "/repo/src/wrappers.rs"]}
{"id": "C55", "title": "Which structs can be flattened, and which can be documents", "statement": "A derived struct implements DecodePartial exactly if each of its fields has no attribute, is flattened, is an optional property or child, or is a flag; it implements DecodeChildren exactly if no field asks for the span, names, arguments or properties of a node. Enums implement neither.", "quantifier": "every struct the derive accepts", "why_tests_cant": "Whether generated code contains an impl depends on all fields together; compile-fail tests cover single combinations.", "anchors": ["/repo/derive/src/node.rs emit_struct, child_can_partial", "/repo/derive/src/definition.rs"]}
{"id": "C56", "title": "A field may be left out exactly if it is written as Option", "statement": "A property, argument or child field without default whose element is absent is None if the type of the field is written Option<...>, and is an error otherwise.", "quantifier": "every struct the derive accepts and every node", "why_tests_cant": "How a type may be written is unbounded, and so are the nodes.", "anchors": ["/repo/derive/src/definition.rs is_option", "/repo/derive/src/node.rs"]}
{"id": "C57", "title": "decode(str) and decode(bytes) accept exactly the strings they should", "statement": "With decode(str) a value is accepted exactly if it is a string without type name that FromStr accepts, or null without type name for an optional field; with decode(bytes) exactly if it is a string, plain or base64, whose bytes TryFrom accepts, or null for an optional field. The result is that of FromStr or TryFrom, in Some if optional.", "quantifier": "every value, every type, both kinds of fields", "why_tests_cant": "All literals, type names and user conversions.", "anchors": ["/repo/derive/src/node.rs decode_value", "/repo/src/decode.rs bytes"]}
{"id": "C58", "title": "Decode errors point into the source", "statement": "Every error that a derived decoder returns or puts into the context carries a span that belongs to the node it was given (the node, a type name, the name, an argument, a property key or value, the children block, or the same of a nested node), provided the decoders of the field types do the same; the library's scalar and Vec decoders do. Hence every error returned by parse() has a span that covers a non-empty piece of the text between character boundaries (with right lines and columns for LineSpan), except for a node that is missing from the document as a whole, which has no span.", "quantifier": "for all derive inputs with pointing field types, all nodes and documents, all texts, all contexts, both span types", "why_tests_cant": "The tests compare messages of a few errors and hardly any spans; that no combination of field kinds, nesting, flatten, unwrap and error path ever attaches a foreign or default span ranges over infinitely many types and texts.", "anchors": ["derive/src/node.rs", "derive/src/variants.rs", "src/convert.rs:24-330", "src/decode.rs:49-132", "src/errors.rs:385-460", "src/wrappers.rs:35-59"]}
{"id": "C59", "title": "Derived decoders report only errors that are so, and say what is wrong", "statement": "Every error that a derived struct decoder returns or leaves in the context is either one that the decoder of a field reports on the argument, property, child or span that belongs to the field, or one of the struct's own: a required argument, property, child or type name that is indeed absent and has no default; an argument, property, child or type name that no field takes; a second node for a single child or flag; content in a flag node; a name or key that from_str rejects. Its span is that of the offending element (the node name for absent arguments, properties and type names; the node for an absent child), and its message names the argument, property or node in question. The same holds for what unwrap(..) decodes, and for documents parsed from text.", "quantifier": "all structs (named or tuple) that the derive accepts, without flattened fields or two fields of one name; all field types whose decoders only add errors; all nodes, documents and texts; all unwrap modes", "why_tests_cant": "tests look at a few messages; that no combination of fields and node contents yields a false or misplaced message is a statement about all of them", "anchors": ["derive/src/node.rs:312-451", "derive/src/node.rs:453-567", "derive/src/node.rs:569-607", "derive/src/node.rs:752-952", "src/errors.rs:401-426", "src/decode.rs:108-132"]}
{"id": "C60", "title": "What errors show is printable and escaped, except for type names", "statement": "Every message, label and help text of a parse error is one line of printable ASCII: characters from the source are shown as themselves if printable and otherwise as \\t, \\r, \\n or \\u{hex} with the right code; every parse error is one of a fixed list of shapes, and its labels point at the opening delimiter and the end of input, or at the offending characters. An invalid escape lists all escapes, a bad hexadecimal digit, keyword or number what was expected instead. The messages and labels of derived decoders and of the library's scalars are printable as well (names from the source are escaped; given printable field names and messages of foreign error types), except that a type name in a type name error is copied as it is. Expected types are listed as 'a, b or c'; labels carry the span of the error; map_span changes spans only.", "quantifier": "all texts, both span types; all structs that the derive accepts (as in C59), all nodes, documents and unwrap modes; all scalars of the library", "why_tests_cant": "the fixtures show some errors; that no text, not even one with control or astral characters, can put a raw character into any message or a label in the wrong place is a statement about all texts and types", "anchors": ["src/errors.rs:25-26", "src/errors.rs:39-147", "src/errors.rs:150-208", "src/errors.rs:228-282", "src/errors.rs:437-540", "src/grammar.rs:190-260", "derive/src/node.rs:312-451"]}
{"id": "C61", "title": "Decoding does not panic", "statement": "Parsing any text into a derived type, or a list of derived nodes, returns a value or errors; it never panics, as long as the hand-written decoders of the field types that the attributes call for do not. Inserting any sequence of nodes and properties into a struct that is flattened into another does not panic either. The library's own scalars, Option, Box, Arc, Rc, Spanned, Vec and the AST types do not panic (Value: only when decoded as such; its raw_decode always panics, see C28).", "quantifier": "all texts, both span types, all contexts; all structs and enums that the derive accepts, with all attributes, any nesting by unwrap and flatten; all field types with decoders that do not panic", "why_tests_cant": "panics in generated code depend on combinations of attributes, field types and node contents; no set of samples covers every struct that can be derived", "anchors": ["derive/src/node.rs:312-451", "derive/src/node.rs:453-607", "derive/src/node.rs:633-750", "derive/src/node.rs:752-952", "derive/src/variants.rs:25-159", "src/containers.rs:147-195", "src/convert.rs:13-262", "src/convert_ast.rs:7-89"]}
{"id": "C62", "title": "Box, Arc and Rc change nothing", "statement": "Decoding Box<T>, Arc<T> or Rc<T>, from a document or from a node, gives a pointer to exactly what decoding T gives, and the same errors. As a flattened field, a Box<T> takes the same nodes and properties as T and ends as a box of the same value, after any sequence of insertions; so do Arc<T> and Rc<T> as long as there is no other pointer to the value. If there is one (a Default that shares the value), the first insertion panics.", "quantifier": "all types T and decoders, all texts, nodes and contexts, all sequences of insertions", "why_tests_cant": "a test would have to be repeated for every type and every document; the panic needs a shared default that no test has", "anchors": ["src/containers.rs:12-145"]}
{"id": "C63", "title": "Which structs and enums the derive accepts", "statement": "#[derive(Decode)] compiles for a struct or an enum just if: each field has at most one mode, one of str and bytes, one unwrap and one default, and no skip or span_type; a child, children, flatten, span, node_name or type_name field has neither str nor bytes; what a child or children field unwraps is arguments, properties, flattened fields or (without str and bytes) children, at any depth; a flattened field is not optional; a child, or a property without a name, is not in a tuple; after an arguments field there is no argument or arguments, after properties no property, properties or flattened properties, after unnamed children no child, children or flattened children; variants that are not skipped have no named fields and no span, node_name or type_name, and variants have no attribute but skip; the container has none but span_type.", "quantifier": "all structs and enums with any fields, types and attributes (after the attributes are read); tuple fields without names, with flatten of exactly one kind", "why_tests_cant": "the tests derive items that compile; nothing tests rejection, and the combinations of attributes over fields are unbounded", "anchors": ["derive/src/definition.rs:260-330", "derive/src/definition.rs:340-640", "derive/src/definition.rs:656-770", "derive/src/node.rs:453-567", "derive/src/variants.rs:25-159"]}
{"id": "C64", "title": "How #[knuffel(..)] attributes are read", "statement": "The attributes of an item, variant or field are read without an error just if each #[knuffel(..)] holds a comma-separated list, with an optional comma at the end, of attributes in the documented notation, and the result is the attributes as written, in order: the names alone, property and children with an optional (name=\"..\"), flatten and unwrap with a list in parentheses, unwrap to any depth, default with an optional = expression, span_type = type. Attributes of others are ignored. It does not matter in which order attributes are given, nor how they are spread over several #[knuffel(..)].", "quantifier": "all token sequences and all nestings of unwrap; any parsers for expressions and types that read from the front and are ended by a comma; all items", "why_tests_cant": "token sequences and nestings are unbounded; the tests have well-formed attributes in one order only", "anchors": ["derive/src/definition.rs:771-923", "derive/src/definition.rs:656-770", "derive/src/definition.rs:296-310", "derive/src/definition.rs:590-640"]}
{"id": "C65", "title": "The DecodeScalar derive", "statement": "#[derive(DecodeScalar)] compiles just for enums whose variants are all bare names, whatever the attributes. A string decodes to the first variant that has it as kebab-case name; any other string is an error at the value that lists up to three names, or two of more and the number of the others; any other literal is an error that a string was expected. A type name is reported and does not stop decoding.", "quantifier": "all enums (of fewer than 10^20 variants), all values, all contexts", "why_tests_cant": "the tests have one enum with two variants; the message changes form with the number of variants", "anchors": ["derive/src/scalar.rs:22-141", "derive/src/lib.rs:36-47"]}
{"id": "C66", "title": "Recoverable defects are all reported, and nothing else", "statement": "If a text is a KDL document but for bare identifiers used as arguments and bad \\u escapes in strings (in names, type names, property names or values, commented out or not, at any depth), parse_ast returns exactly one error per such defect, in the order of the text: for an identifier the error that identifiers cannot be used as arguments, at the identifier; for an escape the error about the first character that is not as it should be, or about the whole braces if the code is not that of a character. After a bad escape reading goes on at the next closing brace, quote or backslash.", "quantifier": "all texts, any number of defects, both span types", "why_tests_cant": "tests have one defect per text; that errors are neither lost nor repeated depends on how alternatives, repetition and recovery combine at every depth", "anchors": ["src/grammar.rs:194-260", "src/grammar.rs:424-510"]}
{"id": "C67", "title": "Decoding does not look at positions", "statement": "The value that parse, parse_with_context or node gives, or the errors with their order, kinds and texts, depend on the content of the document only: other spaces, comments, line continuations, newlines or terminators, or LineSpan in place of Span, change nothing but the spans that are stored by #[knuffel(span)] fields, Spanned and the AST types and those carried by errors. Deriving Decode for the same item with another span type is accepted or rejected alike.", "quantifier": "all items, documents, span types and relations between spans, given user-written decoders that do not look at positions either", "why_tests_cant": "every test reads one text with one span type; that no branch anywhere compares or uses a span needs all code paths", "anchors": ["src/decode.rs:1-230", "src/convert.rs:13-262", "src/containers.rs:1-195", "src/convert_ast.rs:1-89", "derive/src/node.rs:100-920", "derive/src/variants.rs:20-159", "src/wrappers.rs:13-59"]}
{"id": "C68", "title": "No error is reported past a mistake", "statement": "Wherever a parse error starts, the text before it can be completed to a document of a grammar that is KDL widened only by the four mistakes after which the parser deliberately goes on reading (anything after \\u in a string, a bare identifier as argument, numbers and keywords as property names). So a text that begins no such document is never accepted, whatever follows, and all errors start before its end. With acceptance by the parser itself in place of the grammar this is false.", "quantifier": "all source texts, all reported errors and all their spans, for Span and LineSpan", "why_tests_cant": "chumsky merges errors of alternatives by position and forgets or keeps them on backtracking; that none of the merges picks a place past a mistake is a statement about all texts", "anchors": ["src/grammar.rs:1-596", "src/errors.rs:334-388", "src/wrappers.rs:13-31"]}
{"id": "C69", "title": "What an error says was expected can be written there", "statement": "If an error without a label names a found character and lists a character (other than 0), \"letter\" or \"newline\" as expected, then replacing the found character by it makes the text up to there one that can still be completed to a document (of the grammar of C68). For the character 0 and for \"end of input\" this is false.", "quantifier": "all source texts, all errors, all listed things", "why_tests_cant": "the lists come out of merging sets over all alternatives tried at a place; a test looks at the few lists it writes down", "anchors": ["src/grammar.rs:1-596", "src/errors.rs:334-388"]}
{"id": "C70", "title": "An error is not reported too early", "statement": "Let the texts t and t' begin with the same part m, let t' be accepted and t be rejected. Then an 'unexpected' error of t without a label starts no earlier than m ends, provided that comments, raw strings and \\u escapes begun in t are whole and no signed number stands before an equals sign in it. With C68 the error is at the end of the longest part of the text that can still be completed. In such texts every error but the last is the one about identifiers used as arguments. Without the condition on raw strings, or without that on numbers, the error can come too early.", "quantifier": "all pairs of texts with a common part, all errors, for Span and LineSpan", "why_tests_cant": "whether an alternative that was given up is the one whose error is shown depends on how chumsky compares alternatives at every place of every text", "anchors": ["src/grammar.rs:1-596", "src/errors.rs:334-388", "src/wrappers.rs:13-31"]}
{"id": "C71", "title": "Documents can be put together", "statement": "Two texts that are documents by the KDL grammar, with two newlines between them, are accepted and read as the nodes of the first followed by the nodes of the second; so do any number of texts, each followed by two newlines. Within the braces of a node of any (quoted) name such a text gives that node the document as its children. One newline is not enough (a first text may end in a line continuation, in a comment after one, or in both a backslash and the newline), and it is not enough that the parser accepts both texts (it accepts `/*/*/` at the end of a text).", "quantifier": "all texts of the grammar, any number of them, all node names", "why_tests_cant": "whether a text can be followed by more depends on everything that may be open at its end, over all ways to write comments, continuations, terminators and children", "anchors": ["src/grammar.rs:50-61", "src/grammar.rs:117-153", "src/grammar.rs:394-412", "src/grammar.rs:506-596", "src/wrappers.rs:13-31"]}
{"id": "C72", "title": "The errors of a text are listed in its order", "statement": "When a text is rejected, each error begins strictly after every error listed before it and shares no byte with it; so no error is listed twice. All errors but the last have exactly one place, of at least one byte, so that something not closed (which has two places) is only ever the last error. There are at most as many errors as the text has bytes, plus one. With lines and columns the offsets are in the same order.", "quantifier": "all texts", "why_tests_cant": "errors come from recovery inside strings, from validation of items, and from failures kept aside by alternatives, repetitions and separated lists, of which the furthest is chosen; any of these could bring an error from before one already emitted, in texts of any nesting", "anchors": ["src/grammar.rs:117-153", "src/grammar.rs:155-260", "src/grammar.rs:424-504", "src/grammar.rs:506-595", "src/errors.rs:334-387", "src/wrappers.rs:13-31"]}
{"id": "C73", "title": "Errors carry their source, and what they mark are whole characters of it", "statement": "An error of parse_ast, parse or parse_with_context holds exactly the file name and the text that were given, and at least one report. Every report of parse_ast has a message and one or more labels with words, each marking, by offset and length in bytes, whole characters inside the text. parse returns the error of parse_ast when the text is no document. Each report of a derived decoder has one label marking at least one character, or concerns a node missing from the document and has none. With LineSpan instead of Span the error is the same in all these.", "quantifier": "all file names and texts; all derived decoders whose field types report errors only at what they were given; all decoders that do not look at spans", "why_tests_cant": "a label that cuts a character or lies outside the source makes rendering fail or panic for the user, and the conversion from start/end to offset/length is applied to spans from every rule of the grammar and every decoder", "anchors": ["src/wrappers.rs:13-24", "src/wrappers.rs:26-59", "src/errors.rs:25-32", "src/errors.rs:162-203", "src/span.rs:85-104"]}
{"id": "C74", "title": "The order of children of different fields does not matter", "statement": "Take a struct with derived Decode. Let its child nodes (of a node, or of a document) be put in another order, where nodes for the same field keep their order: nodes of one field's name among themselves, and the nodes of no field's name among themselves. The fields of flattened structs count as fields too. If decoding gave a value it gives the same value again, with the same errors in some order and the same context. So parse accepts the one order if and only if it accepts the other, with the same value.", "quantifier": "all structs, documents, nodes, contexts and reorderings; all field types whose decoders do the same in every context (shown for the scalars of the crate and for everything derived from such types); all flattened types whose insert_child commutes for nodes of different names (shown for every derived struct over such types)", "why_tests_cant": "there are as many orders as permutations; the generated loop keeps one variable per field and a list for the rest, and stops at the first failure, so a branch that used what another child left behind would show only for particular orders", "anchors": ["derive/src/node.rs:752-952", "derive/src/node.rs:114-153", "src/wrappers.rs:26-59"]}
