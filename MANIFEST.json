{"claims": [
  {"property": "C01", "status": "proved", "theorems": ["C01_parse_ast_span_returns", "C01_parse_ast_linespan_returns", "C01_document_never_crashes"], "note": "For every text and both span types; the crash log (no-progress panic, todo!() in ParseError::merge, fuel) is proved empty."},
  {"property": "C02", "status": "proved", "theorems": ["C02_accepted_means", "C02_accepted_means_linespan", "C02_accepted_derivation", "C02_meaning_accepted", "C02_meaning_unique"], "note": "Soundness for the inductive grammar of Kdl.v with exact spans, and completeness for its strict reading of nested comments."},
  {"property": "C03", "status": "proved", "theorems": ["C03_print_parse", "C03_parsed_writable", "C03_parse_print_parse"], "note": "Printer/parser round trip for all document trees that a text can denote; every parsed document is one of them."},
  {"property": "C04", "status": "proved", "theorems": ["C04_layout", "C04_content"], "note": "Any two layouts of the same document (gaps, comments, continuations, newlines, terminators) read alike; a gap or name beginning with U+FEFF is excluded (it is both space and identifier character)."},
  {"property": "C05", "status": "proved", "theorems": ["C05_denotes", "C05_every_string", "C05_first_quote", "C05_unclosed", "C05_unique"], "note": "Denotation of every spelling, a spelling for every string, first unescaped quote ends the literal, rejection otherwise."},
  {"property": "C06", "status": "proved", "theorems": ["C06_verbatim", "C06_first_close", "C06_unclosed"], "note": "Verbatim contents for every number of hashes; first closing delimiter ends the string; rejection without one."},
  {"property": "C07", "status": "proved", "theorems": ["C07_valid", "C07_denotes", "C07_invalid"], "note": "Accepted iff 1-6 hex digits naming a scalar value, and then denotes it; h is the text up to the first closing brace."},
  {"property": "C08", "status": "partial", "theorems": ["C08_nesting", "C08_vanish", "C08_unclosed_partial", "C08_unclosed_refuted"], "note": "Nesting by counting equals the grammar's rule; comments read like a space anywhere; a comment with no closing at all is rejected. The claim for comments unclosed at their level is refuted by slash-star slash-star slash."},
  {"property": "C09", "status": "proved", "theorems": ["C09_removed"], "note": "All slashdashed elements (nodes, arguments, properties, children, any depth) removed at once give the same document."},
  {"property": "C10", "status": "proved", "theorems": ["C10_integer", "C10_radix", "C10_decimal", "C10_only", "C10_decimal_iff"], "note": "All three forms of numbers with sign, radix, underscores; classification as Decimal; converse for words beginning like a number."},
  {"property": "C11", "status": "proved", "theorems": ["C11_exact", "C11_range", "C11_total"], "note": "All ten integer types, all radixes, all texts; iff for success without error, and one conversion error when out of range."},
  {"property": "C12", "status": "partial", "theorems": ["C12_decimal_refuted", "C12_decimal_partial", "C12_exclusive"], "note": "Refuted by 1e; otherwise every decimal is a valid floating point text."},
  {"property": "C13", "status": "proved", "theorems": ["C13_items"], "note": "For every list of items of a node."},
  {"property": "C14", "status": "proved", "theorems": ["C14_reordered"], "note": "For every document, at every node."},
  {"property": "C15", "status": "partial", "theorems": ["C15_bare_key_refuted", "C15_bare_key_partial"], "note": "Refuted by nullable=1; characterised: a bare identifier names a property iff no keyword is a prefix of it."},
  {"property": "C16", "status": "proved", "theorems": ["C16_argument", "C16_value", "C16_key", "C16_name"], "note": "Proved at every place of a document (after any nodes, inside any children, commented out or not), with arbitrary text after the misplaced element. Excluded, because they are legal: an identifier before '=' (a property name), and r, r#, ... before a quote (a raw string). Identifiers that contain U+FEFF, which knuffel also takes for white space, are left out."},
  {"property": "C17", "status": "proved", "theorems": ["C17_exact", "C17_bytes", "C17_slices"], "note": "All byte spans of all elements of every accepted text."},
  {"property": "C18", "status": "proved", "theorems": ["C18_error_spans", "C18_bounds", "C18_slices", "C18_line_spans", "C18_some_error"], "note": "For every rejected text: each span of each error covers a piece of the source on character boundaries (byte spans and the offsets of line spans)."},
  {"property": "C19", "status": "proved", "theorems": ["C19_unclosed"], "note": "For every rejected text: an unclosed error's first span covers exactly an opening delimiter of the reported kind, the second is the end of the text, and the rest of the text does not close it (the body of a comment, string, raw string or node list followed by the closing delimiter is not a prefix of what follows). Only comments, strings, raw strings and braces are ever reported as unclosed."},
  {"property": "C20", "status": "proved", "theorems": ["C20_independent"], "note": "Every text and every width function; documents and errors alike."},
  {"property": "C21", "status": "proved", "theorems": ["C21_positions", "C21_document", "C21_errors", "C21_lines_unique", "C21_last_line_unique"], "note": "Every position of every text, every span of every parsed document and of every error; for errors the characters that open things must have width 1, and those at the end of the text need a last line without tab."},
  {"property": "C22", "status": "partial", "theorems": ["C22_tab_refuted", "C22_opened_refuted", "C22_line_partial", "C22_offset_and_line", "C22_byte_spans"], "note": "Refuted by a tab; proved for texts whose last line has no tab when LF has width 0, for offset and line always, and for byte spans always."},
  {"property": "C23", "status": "proved", "theorems": ["C23_separates", "C23_any_form"], "note": "Every newline form, as terminator and after a line comment."},
  {"property": "C24", "status": "proved", "theorems": ["C24_value", "C24_errors", "C24_syntax", "C24_total"], "note": "For every decoder and context closure; for the byte-span parser in addition that no outcome is missing."},
  {"property": "C25", "status": "proved", "theorems": ["C25_errors", "C25_get", "C25_unique"], "note": "For every sequence of set and emit_error."},
  {"property": "C26", "status": "proved", "theorems": ["C26_pass", "C26_errors"], "note": "For every node decoder that does not panic."},
  {"property": "C27", "status": "proved", "theorems": ["C27_string", "C27_bool", "C27_float", "C27_int", "C27_otherwise"], "note": "iff for each type; the standard library's float parser is a parameter."},
  {"property": "C28", "status": "partial", "theorems": ["C28_null_partial", "C28_some_partial", "C28_none_partial", "C28_wrapped_partial", "C28_spanned_partial", "C28_value_refuted"], "note": "For every type that keeps the provided decode; refuted for wrappers of ast::Value, which panic."},
  {"property": "C29", "status": "proved", "theorems": ["C29_document", "C29_node", "C29_snode", "C29_value", "C29_literal", "C29_any_span"], "note": "For every parsed document and every well-formed node; span decoders that use the context: same tree up to spans."},
  {"property": "C30", "status": "proved", "theorems": ["C30_bytes", "C30_otherwise"], "note": "iff against RFC 3629 and RFC 4648; the base64 crate is modelled."},
  {"property": "C31", "status": "proved", "theorems": ["C31_errors", "C31_clean"], "note": "For every node."},
  {"property": "C32", "status": "partial", "theorems": ["C32_round_refuted", "C32_equal_refuted", "C32_round_partial", "C32_text", "C32_equal_partial"], "note": "Refuted by usize and isize; proved for the other builtin types and for names read from text."},
  {"property": "C33", "status": "proved", "theorems": ["C33_arguments", "C33_rest", "C33_missing", "C33_surplus"], "note": "For every struct with named or numbered fields that the derive accepts, newtypes apart (C43); a failing decode is one that gives no value."},
  {"property": "C34", "status": "proved", "theorems": ["C34_properties", "C34_rest", "C34_missing", "C34_unknown"], "note": "For structs whose properties have different names and are not flattened (C38); the properties of the node are sorted, as a BTreeMap and the parser make them."},
  {"property": "C35", "status": "proved", "theorems": ["C35_node", "C35_document", "C35_missing_or_duplicate", "C35_document_missing_or_duplicate", "C35_unknown", "C35_document_unknown"], "note": "For nodes and for whole documents; children with different names, not flattened (C38). Unknown children are reported whenever there is a value."},
  {"property": "C36", "status": "proved", "theorems": ["C36_node", "C36_document", "C36_any_node", "C36_any_document", "C36_parse", "C36_parse_vec"], "note": "For nodes, documents and parsed texts; the decoders of the field types must not delete errors (C50). A weaker statement covers flattened fields and equal names. Newtypes and enums: C40, C43."},
  {"property": "C37", "status": "partial", "theorems": ["C37_argument", "C37_property", "C37_child", "C37_document_child", "C37_children", "C37_null_str", "C37_null_bytes", "C37_flag_refuted"], "note": "Proved for arguments, properties, children and children(name); refuted for a bool child, whose default is ignored."},
  {"property": "C38", "status": "partial", "theorems": ["C38_properties", "C38_children", "C38_parse", "C38_default_refuted"], "note": "Proved: flattening a struct of optional properties gives exactly the outcome (context, error or value) of declaring its fields; flattening a struct of optional children and flags the same, except that a repeated node is reported in the context instead of returned, so parse accepts the same documents with the same values. Refuted: a default on an optional field inside the flattened struct is ignored, while it counts if the field is declared. The Default of the inner struct is a hypothesis (None and false)."},
  {"property": "C39", "status": "proved", "theorems": ["C39_argument", "C39_arguments", "C39_property", "C39_properties", "C39_children", "C39_children_named", "C39_child", "C39_named_field", "C39_tuple_field", "C39_nothing_else", "C39_field"], "note": "Exact (iff) for each unwrap mode: what the field gets, which contexts result, when it fails; then all_inside for error-free nodes, and for the field of a derived struct. The type name of an unwrapped child is ignored (C42)."},
  {"property": "C40", "status": "proved", "theorems": ["C40_dispatch", "C40_otherwise", "C40_message", "C40_variant"], "note": "Exact: the outcome for each name and kind of variant (unit, nested, optional, tuple), and the error for other names. Variants with named fields and tuple variants with span, node_name or type_name fields are compile errors."},
  {"property": "C41", "status": "proved", "theorems": ["C41_dispatch", "C41_otherwise"], "note": "For every list of distinct variant names; the conversion of identifiers to kebab case is not modelled."},
  {"property": "C42", "status": "partial", "theorems": ["C42_struct", "C42_unwrap_ignores", "C42_flag_ignores", "C42_variant_ignores", "C42_newtype_ignores", "C42_unit_refuted", "C42_tuple_refuted", "C42_newtype_refuted", "C42_unwrap_refuted", "C42_flag_refuted"], "note": "Proved for derived structs; refuted for unit and tuple variants, flags, unwrapped children and newtypes without content, for which a type name is proved to make no difference."},
  {"property": "C43", "status": "proved", "theorems": ["C43_struct", "C43_variant", "C43_required"], "note": "For the newtype struct and for variants; a variant around a type that is not optional always decodes that type."},
  {"property": "C44", "status": "partial", "theorems": ["C44_filed", "C44_order", "C44_once", "C44_once_refuted", "C44_somewhere_refuted"], "note": "Proved for every list of fields; refuted for flatten(child, property), filed twice, and flatten(), filed nowhere."},
  {"property": "C45", "status": "partial", "theorems": ["C45_counted", "C45_refuted", "C45_openings", "C45_accepted_refuted", "C45_accepted", "C45_doubled_partial", "C45_few_unclosed_partial", "C45_unclosed"], "note": "Refuted: n+1 unclosed block comment openings take at least 2^n steps, so no polynomial bounds the steps; nor does one for the texts that are accepted (n+1 times '/*/*/'). Proved: the steps are at most a polynomial of the length, doubled with each '/*' whose comment is not closed, so polynomial where the number of these is bounded, in particular where every comment is closed."},
  {"property": "C46", "status": "proved", "theorems": ["C46_spans", "C46_laws", "C46_lookup"], "note": "For every value type with lawful Eq, Ord and Hash; lookup in every ordered property map."},
  {"property": "C47", "status": "proved", "theorems": ["C47_listed", "C47_message", "C47_message_none", "C47_merge", "C47_unique"], "note": "Sorted and free of repeats, also as displayed, for every error of every text; the message lists them all; merging is union."},
  {"property": "C48", "status": "partial", "theorems": ["C48_int_refuted", "C48_int_partial", "C48_float_partial", "C48_string", "C48_bool", "C48_enum"], "note": "Refuted for integers and floats (they ask for a string); proved for strings, booleans and scalar enums."},
  {"property": "C49", "status": "partial", "theorems": ["C49_cbor_refuted", "C49_cbor_partial"], "note": "Refuted by the builtin usize; proved for every name read from text."},
  {"property": "C50", "status": "proved", "theorems": ["C50_derived", "C50_appends", "C50_library", "C50_parse", "C50_parse_appends"], "note": "For every derived struct and enum and any relation between contexts that the field types keep; the decoders of the library included."},
  {"property": "C51", "status": "proved", "theorems": ["C51_found", "C51_label", "C51_message", "C51_message_help"], "note": "For every rejected text: the span of a 'found X' error covers exactly X, and each label and message is true of the text there (a bad escape character, a non-hex digit in \\u{..}, a keyword, a number, a bare identifier, a code that names no character)."},
  {"property": "C52", "status": "partial", "theorems": ["C52_minus_zero_refuted", "C52_in_range_partial"], "note": "Refuted for unsigned types; proved for the signed ones."},
  {"property": "C53", "status": "proved", "theorems": ["C53_line_to_byte"], "note": "For every text and every width function; the AST decoders are those of convert_ast.rs."},
  {"property": "C54", "status": "proved", "theorems": ["C54_document", "C54_value", "C54_errors"], "note": "For every decoder, including ones that panic."},
  {"property": "C55", "status": "proved", "theorems": ["C55_flattened", "C55_document", "C55_enum"], "note": "For every struct that the derive accepts other than newtypes; an iff over the attributes and types of the fields."},
  {"property": "C56", "status": "proved", "theorems": ["C56_property", "C56_argument", "C56_child"], "note": "What the macro sees is how the type is written: std::option::Option<T> is not optional (example)."},
  {"property": "C57", "status": "proved", "theorems": ["C57_str", "C57_bytes"], "note": "From and to all values; FromStr and TryFrom are parameters."},
  {"property": "C58", "status": "proved", "theorems": ["C58_derived", "C58_library", "C58_parse", "C58_parse_lines"], "note": "Proved for all derive inputs whose field types keep to it, and for the library's decoders; combined with the exactness of AST spans (C17, C21) for both span types. Errors of user code (DecodeError::Custom and hand-written implementations) are covered by the hypothesis on the field types."},
  {"property": "C59", "status": "proved", "theorems": ["C59_node", "C59_document", "C59_parse", "C59_unwrap"], "note": "Hoare-style traversal of the derived decoder: the variables of the generated code are related to the properties and children seen so far, so that 'missing' and 'duplicate' errors are true; messages and spans are given literally in TruthSpec.v. Structs with flattened fields or two fields of one name are left out, since there an earlier field may take the element."},
  {"property": "C60", "status": "proved", "theorems": ["C60_token", "C60_words", "C60_parse", "C60_parse_lines", "C60_labels", "C60_expected", "C60_kind", "C60_spans", "C60_map_span", "C60_node", "C60_document", "C60_unwrap", "C60_library"], "note": "Display and Diagnostic of ParseError and DecodeError are modelled in ErrorText.v and Errors.v. A traversal of the grammar shows that every parse error is one of eleven shapes with fixed words; printability and the places of the labels follow. Decode errors go through the catalogue of C59. A type name in a DecodeError::TypeName is shown unescaped (finding, with an Example that puts a line break into a message), so decode errors are shown printable when that name is."},
  {"property": "C61", "status": "proved", "theorems": ["C61_derived", "C61_insertion", "C61_library", "C61_parse"], "note": "For every derived struct and enum: no panic if the field types do not panic where their attributes use them (CalmSpec says which trait that is). The struct's own values stay insertable. Combined with C01 for whole texts. Example C61_needed shows that the hypothesis is needed."},
  {"property": "C62", "status": "proved", "theorems": ["C62_parse", "C62_node", "C62_box", "C62_shared", "C62_shared_twice"], "note": "Decode, DecodeChildren and DecodePartial of the three pointers, for any implementation of the inner type. Arc and Rc carry the number of pointers, so that get_mut can fail; C62_shared_twice is that case (finding)."},
  {"property": "C63", "status": "proved", "theorems": ["C63_accepts", "C63_fields", "C63_unwrap"], "note": "Iff between the derive's acceptance and a specification over attributes, names and types. A decode mode on a field without a mode is accepted without effect (C63_ignored). Rust's own type checking of field types is not modelled."},
  {"property": "C64", "status": "proved", "theorems": ["C64_attributes", "C64_items", "C64_accepts", "C64_order", "C64_spread", "C64_others", "C64_ends"], "note": "Iff between the token-level attribute parser and a grammar, for any nesting of unwrap; syn::Expr and syn::Type are parameters with the assumption `stops` (they read from the front and a comma after something complete ends it). Order and spreading of attributes proved irrelevant; the fuel is proved sufficient."},
  {"property": "C65", "status": "proved", "theorems": ["C65_accepts", "C65_refuses", "C65_named", "C65_unknown", "C65_no_string", "C65_attributes", "C65_message_unique"], "note": "All enums and values; kebab-case conversion is any function."},
  {"property": "C66", "status": "proved", "theorems": ["C66_all_reported", "C66_lines"], "note": "Exact error lists for a grammar of documents with defects, by the same mutual induction as completeness, over a calculus of parsers that give a result and emit errors. Line/column spans by C20."},
  {"property": "C67", "status": "proved", "theorems": ["C67_derived", "C67_library", "C67_keeping", "C67_spans", "C67_span_type", "C67_text", "C67_layout", "C67_node", "C67_same"], "note": "Logical relation between two span types (and two types of opaque values), preserved by every function of the decoders, the derive and the generated code; for whole texts together with C04 and C20. User-written decoders are required to respect the relation (hypothesis of item_alike / children_impl_alike)."},
  {"property": "C68", "status": "partial", "theorems": ["C68_before_errors", "C68_lines", "C68_seen", "C68_in_time", "C68_first", "C68_completed_refuted"], "note": "The grammar in place of KDL is wider in the four places listed in LaxSpec.v; with acceptance by the parser in place of it, refuted."},
  {"property": "C69", "status": "partial", "theorems": ["C69_expected_partial", "C69_expected_place_partial", "C69_zero_refuted", "C69_end_refuted"], "note": "Proved for characters other than 0, letters and newlines; refuted for 0 and for the end of input. Keywords and \"whitespace\" are left out."},
  {"property": "C70", "status": "partial", "theorems": ["C70_tidy", "C70_lines", "C70_pinned", "C70_others", "C70_comments_refuted", "C70_raw_strings_refuted", "C70_signed_names_refuted"], "note": "Proved for texts in which comments, raw strings and escapes are whole and no signed number stands before an equals sign; refuted without the condition on comments, without that on raw strings and without that on numbers. Whether the condition on escapes is needed is open."},
  {"property": "C71", "status": "partial", "theorems": ["C71_joined", "C71_together", "C71_children", "C71_newline_refuted", "C71_line_refuted", "C71_accepted_refuted"], "note": "Proved for texts of the KDL grammar with two newlines between them, for any number of texts and for children. Refuted: one newline is not always enough (open line continuation), and acceptance by the parser is not a sufficient condition (`/*/*/`)."},
  {"property": "C72", "status": "proved", "theorems": ["C72_in_order", "C72_lines", "C72_places", "C72_unclosed_last", "C72_once", "C72_number"], "note": "Proved for all texts of the model: order, disjointness, no duplicates, one non-empty place for all errors but the last, unclosed only last, and a bound on their number."},
  {"property": "C73", "status": "proved", "theorems": ["C73_parse_ast", "C73_lines", "C73_marked", "C73_length", "C73_parse", "C73_parse_lines", "C73_passed_on", "C73_reports", "C73_decode_reports", "C73_value", "C73_derived", "C73_decoded_lines", "C73_span_type"], "note": "Proved for parse_ast and parse with both types of spans: file name, source, number of reports, labels and what they mark. For decoders under the hypotheses of C58 and C67, which hold for derived decoders over the types of the library."},
  {"property": "C74", "status": "proved", "theorems": ["C74_node", "C74_document", "C74_parse", "C74_flattened", "C74_derived", "C74_scalars"], "note": "Proved for nodes, documents and parse, with flattened structs. The hypotheses on the field types are that decoders do not look at the context and that insert_child of a flattened type commutes for nodes of different names. The first is proved for the scalars of the crate and for all derived decoders over such types, the second for all derived structs over such types."}
]}
