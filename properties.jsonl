{"id": "C01", "title": "Literal block encoding is lossless", "statement": "Turning any string into literal-block lines and reading the block back with the chomping that pretty() chooses (keep when the string ends in a newline, strip otherwise) yields exactly the original string.", "quantifier": "every string, of any length, over any characters, including empty, only-newline and trailing-newline strings", "why_tests_cant": "the interaction of split, pop-last and three chomping modes must be right for every distribution of newlines", "anchors": ["src/yaml/string.rs:create_literal", "src/yaml/string.rs:parse_literal", "src/yaml/string.rs:handle_ending_newlines", "src/yaml/mod.rs:pretty_with_options"]}
{"id": "C02", "title": "Folded block encoding is lossless on foldable text", "statement": "Turning a string into folded-block lines of a given width and reading the block back yields the original string whenever the text consists of lines of single-space-separated words, each shorter than the width, no line other than the first starts with a space and the first line is not empty; outside that class the encoding may change the text (witnesses: an over-long word, a double space at a wrap point, a leading newline, an indented second line).", "quantifier": "every string meeting the side condition and every width", "why_tests_cant": "word wrapping depends on every prefix length; the failing inputs are at specific byte widths", "anchors": ["src/yaml/string.rs:create_folded", "src/yaml/string.rs:split_on_length", "src/yaml/string.rs:parse_folded"]}
{"id": "C03", "title": "Chomping modes do what they say", "statement": "A literal or folded block read with Strip never ends in a newline; with Clip it ends in exactly one; with Keep it is the joined text plus one newline; the text before the trailing newlines is the same in all three.", "quantifier": "every list of lines and every chomping mode", "why_tests_cant": "needs all lists of lines, including trailing empty lines", "anchors": ["src/yaml/string.rs:handle_ending_newlines", "src/yaml/string.rs:parse_literal", "src/yaml/string.rs:parse_folded"]}
{"id": "C04", "title": "Single-quoting is lossless", "statement": "Re-quoting any string as a single-quoted scalar and reading its value back yields the original string, and the parts never contain a raw quote inside a text part.", "quantifier": "every string", "why_tests_cant": "quotes may occur anywhere, adjacent, first or last", "anchors": ["src/yaml/mod.rs:str_to_single_quoted_parts", "src/yaml/string.rs:parse_single_quoted_string"]}
{"id": "C05", "title": "The serializer's scalar keeps the string", "statement": "The scalar node the serializer chooses for a Rust string (unquoted, single-quoted or double-quoted with escapes) has exactly that string as its value.", "quantifier": "every string", "why_tests_cant": "five code paths selected by content; every mixture of quotes, backslashes and line breaks", "anchors": ["src/yaml/serializer.rs:str_to_yaml", "src/yaml/serializer.rs:needs_quoting", "src/yaml/mod.rs:can_be_unquoted_in_block", "src/yaml/types.rs:as_string"]}
{"id": "C06", "title": "Unquoted scalars are never ambiguous with non-strings", "statement": "A string the serializer writes unquoted is never one the untyped deserializer reads as a bool, an integer, a float, or the nulls `~` and `null`; (it does read the unquoted strings `Null` and `NULL` as null, which the quoting test misses: a refutation is recorded).", "quantifier": "every string", "why_tests_cant": "the set of texts Rust parses as i64/u64/f64 is infinite", "anchors": ["src/yaml/mod.rs:can_be_unquoted_in_block", "src/yaml/serializer.rs:str_to_yaml", "src/yaml/deserializer.rs:deserialize_any"]}
{"id": "C07", "title": "pretty() keeps scalar values", "statement": "For every scalar node, in block or inline position, pretty() leaves its string value unchanged, provided that a quoted string that gets folded (longer than 90 bytes) is foldable.", "quantifier": "every scalar node, both positions", "why_tests_cant": "the rewriting depends on content length, escapes and line breaks", "anchors": ["src/yaml/mod.rs:pretty_with_options", "src/yaml/string.rs:create_folded", "src/yaml/string.rs:create_literal"]}
{"id": "C08", "title": "pretty() keeps the data of whole trees", "statement": "pretty() keeps the tree of keys, sequence elements, string values and references of any node: same keys in the same order, same number of elements, same scalar values, under the same proviso as C07.", "quantifier": "every tree of any depth and width, every position flag", "why_tests_cant": "recursion over arbitrary trees with inline and array context switching", "anchors": ["src/yaml/mod.rs:pretty_with_options"]}
{"id": "C09", "title": "pretty() keeps comments and aliases", "statement": "On trees whose inline collections contain no block collections (all parsed documents), pretty() keeps the sequence of comments and the sequence of aliases of the tree unchanged.", "quantifier": "every such tree", "why_tests_cant": "comments can be dropped by any of the rewriting arms", "anchors": ["src/yaml/mod.rs:pretty_with_options", "src/yaml/hash_data.rs", "src/yaml/array_data.rs"]}
{"id": "C10", "title": "pretty() is idempotent", "statement": "Applying pretty() twice gives the same tree as applying it once. Refuted in general (a block sequence inside a block sequence with an unquoted element containing a comma); proved for trees all of whose unquoted scalars are free of inline-breaking characters.", "quantifier": "every tree in the class", "why_tests_cant": "fixpoint over all trees", "anchors": ["src/yaml/mod.rs:pretty_with_options", "src/yaml/mod.rs:inline_breaking_chars"]}
{"id": "C11", "title": "Auto-inlining only happens under its documented conditions", "statement": "When pretty() turns a non-empty block sequence in block position into an inline one, it was a direct child of a block sequence, held no comments and no aliases, all its elements became inlineable, and the rendered text is at most 90 bytes.", "quantifier": "every block sequence", "why_tests_cant": "depends on the rendered width of arbitrary nested children", "anchors": ["src/yaml/mod.rs:pretty_with_options", "src/yaml/mod.rs:is_inlineable", "src/yaml/mod.rs:format"]}
{"id": "C12", "title": "Inline collections stay inline after pretty()", "statement": "After pretty() no inline collection contains a block mapping, a block sequence, or a block scalar. Refuted (single-quoted string with blank lines inside an inline sequence becomes a literal block); proved when inline collections hold no block scalars and no quoted strings with blank lines.", "quantifier": "every tree", "why_tests_cant": "context flag must be propagated through all arms", "anchors": ["src/yaml/mod.rs:pretty_with_options"]}
{"id": "C13", "title": "visit_yaml reaches every aliased value exactly once in document order", "statement": "The sequence of nodes handed to the visitor is the pre-order list of all aliased values in the tree.", "quantifier": "every tree", "why_tests_cant": "all tree shapes", "anchors": ["src/yaml/mod.rs:visit_yaml", "src/yaml/aliased.rs:visit_yaml", "src/yaml/hash_data.rs:visit_yaml", "src/yaml/array_data.rs:visit_yaml"]}
{"id": "C14", "title": "map_yaml visits each node once, children first, and preserves structure", "statement": "map_yaml calls the closure exactly once per node, on each node only after all its children have been replaced, in document order, and keeps keys, aliases and comments; with the identity closure it returns the tree unchanged.", "quantifier": "every tree and every stateful closure", "why_tests_cant": "closures with state observe the call order", "anchors": ["src/yaml/mod.rs:map_yaml", "src/yaml/aliased.rs:map_yaml"]}
{"id": "C15", "title": "find_values does not modify the document", "statement": "find_values leaves the document it is called on unchanged, for every path.", "quantifier": "every document and every path", "why_tests_cant": "it runs through the &mut traversal used by the editors", "anchors": ["src/yaml/insert.rs:find_values", "src/yaml/mod.rs:for_hash"]}
{"id": "C16", "title": "A count of zero means nothing changed", "statement": "If insert_into_hash, remove_from_hash, rename_field, to_object return 0, the document is unchanged.", "quantifier": "every document, path and argument", "why_tests_cant": "all paths, including conditions, wildcard and out-of-range indexes", "anchors": ["src/yaml/insert.rs", "src/yaml/mod.rs:edit_hash_structure", "src/yaml/mod.rs:for_hash"]}
{"id": "C17", "title": "insert_into_hash without overwrite never touches existing entries", "statement": "Inserting with overwrite=false only ever appends entries: every value found before the call by any key path of plain keys is still found, unchanged, after it, and every existing mapping entry keeps its position.", "quantifier": "every document, path and value", "why_tests_cant": "all documents including duplicate keys", "anchors": ["src/yaml/insert.rs:insert_into_hash"]}
{"id": "C18", "title": "Insert then find", "statement": "After insert_into_hash with overwrite=true on a path of keys, the number returned equals the number of mappings selected by the parent path, and looking the path up returns exactly that many copies of the inserted value.", "quantifier": "every document, every plain-key path, every value", "why_tests_cant": "nesting depth and duplicate keys are unbounded", "anchors": ["src/yaml/insert.rs:insert_into_hash", "src/yaml/insert.rs:find_values"]}
{"id": "C19", "title": "Overwrite replaces one entry in place", "statement": "Overwriting an existing key in a mapping keeps the position and all other entries (comments included) and replaces only the first entry with that key; a missing key is appended at the end.", "quantifier": "every mapping, key and value", "why_tests_cant": "all lists of entries", "anchors": ["src/yaml/insert.rs:insert_into_hash", "src/yaml/mod.rs:key_index"]}
{"id": "C20", "title": "remove_from_hash removes exactly one entry", "statement": "Removing an existing key from a mapping deletes exactly the first entry with that key, keeps the order of everything else, and returns 1; a missing key returns 0.", "quantifier": "every mapping and key", "why_tests_cant": "all lists of entries, duplicates", "anchors": ["src/yaml/insert.rs:remove_from_hash"]}
{"id": "C21", "title": "Insert then remove restores the document", "statement": "If inserting (overwrite=false) at a key path returns n and the key did not exist in any selected mapping, removing the same path returns n and gives back the original document.", "quantifier": "every document and every path in which no condition mentions the inserted key", "why_tests_cant": "round trip over all paths including wildcards", "anchors": ["src/yaml/insert.rs:insert_into_hash", "src/yaml/insert.rs:remove_from_hash"]}
{"id": "C22", "title": "rename_field changes only key names", "statement": "rename_field changes only key names: the tree of values, comments, aliases and shapes is unchanged, and the number returned equals the number of values find_values returns for the same path when the path ends in a key.", "quantifier": "every document, path and name", "why_tests_cant": "all trees", "anchors": ["src/yaml/insert.rs:rename_field", "src/yaml/mod.rs:for_hash"]}
{"id": "C23", "title": "to_object moves values one level down", "statement": "After to_object(path, k) on a path ending in a key, the number returned equals the number of values found at path before, and find_values(path.k) returns exactly the values found at path before.", "quantifier": "every document, every plain-key path, every name", "why_tests_cant": "all trees", "anchors": ["src/yaml/insert.rs:to_object"]}
{"id": "C24", "title": "Conditions filter exactly", "statement": "A node satisfies a list of conditions iff for every condition the first entry with that field name exists, is a scalar, and its string value equals the given value; edits never touch array elements or mappings that do not satisfy the conditions.", "quantifier": "every node and every condition list", "why_tests_cant": "all value styles (quoted, folded, ...) must compare by value", "anchors": ["src/yaml/mod.rs:fits_conditions", "src/yaml/mod.rs:key_value"]}
{"id": "C25", "title": "A wildcard index is the union of all indexes", "statement": "For a block sequence, path[*] finds exactly what path[0], path[1], ... up to the number of elements find, in order; out-of-range indexes find nothing; comments are not counted as elements.", "quantifier": "every sequence, every continuation path", "why_tests_cant": "all lengths, with comments interleaved", "anchors": ["src/yaml/mod.rs:for_hash", "src/yaml/array_data.rs:for_hash"]}
{"id": "C26", "title": "Indexes reach into inline sequences", "statement": "find_values with an index or wildcard on an inline sequence returns its elements. Refuted: the path is not advanced, nothing is ever found in sequences that are inline all the way down, although edit_hash_structure does advance.", "quantifier": "every inline sequence and path", "why_tests_cant": "universal emptiness claim", "anchors": ["src/yaml/mod.rs:for_hash", "src/yaml/mod.rs:edit_hash_structure"]}
{"id": "C27", "title": "Joining paths composes lookups", "statement": "After p.insert(q), find_values(p) returns the concatenation of find_values(q) on each node found by the original p.", "quantifier": "every document and all paths p (not the bare root), q", "why_tests_cant": "recursive data structure on both sides", "anchors": ["src/path.rs:insert", "src/yaml/insert.rs:find_values"]}
{"id": "C28", "title": "Document edits act on the YAML items only", "statement": "Edits on a Document leave leading comments and comment items untouched, act on each YAML item independently, and return the sum of the counts.", "quantifier": "every document", "why_tests_cant": "any number of items", "anchors": ["src/yaml/document.rs:edit_hash_structure", "src/yaml/document.rs:for_hash"]}
{"id": "C29", "title": "move_to_subfield conserves fields", "statement": "When the subfield is absent (or is a mapping) and names are plain and distinct, move_to_subfield moves exactly the first entry of each named existing field under the subfield, keeps values, and leaves all other entries in place; returns 1 iff some field existed. Refuted when the existing subfield is not a mapping: the fields are deleted although nothing was inserted.", "quantifier": "every mapping and field list", "why_tests_cant": "all subsets and orders of fields", "anchors": ["src/yaml/insert.rs:move_to_subfield"]}
{"id": "C30", "title": "move_to_map_with_field_as_key conserves entries", "statement": "Every entry of the old map ends up exactly once either in the old map or in the new map under the group named by its selector, with only the selector field removed, and no comment is lost. Refuted when the new map name already exists: the moved entries are deleted.", "quantifier": "every mapping, selector, keep list", "why_tests_cant": "all interleavings of groups, kept entries and comments", "anchors": ["src/yaml/insert.rs:move_to_map_with_field_as_key"]}
{"id": "C31", "title": "Groups come out sorted and unique", "statement": "The new map produced by move_to_map_with_field_as_key has strictly increasing, non-empty, non-kept group names.", "quantifier": "every mapping", "why_tests_cant": "all orders of group names", "anchors": ["src/yaml/insert.rs:move_to_map_with_field_as_key"]}
{"id": "C32", "title": "Path syntax round trip", "statement": "Writing a path of plain keys, indexes, wildcards and conditions in the documented syntax and parsing it gives back the same path.", "quantifier": "every path over plain names", "why_tests_cant": "PEG greediness and ordered choice over unbounded strings", "anchors": ["src/path.pest", "src/path.rs:from_str"]}
{"id": "C33", "title": "Plain field names are single-key paths", "statement": "Every name made of letters, digits, `_`, `-` and interior spaces parses as the one-key path with that name (so the movers, which re-parse field names, address the field itself). Names with `.`, `[` or `|` do not.", "quantifier": "every such name", "why_tests_cant": "implicit whitespace rules in the grammar", "anchors": ["src/path.pest", "src/path.rs:parse", "src/yaml/insert.rs:move_to_subfield"]}
{"id": "C34", "title": "Path parsing always terminates", "statement": "Parsing any string as a path terminates with a path or an error; the empty string is the root path; a huge index panics (witness).", "quantifier": "every string", "why_tests_cant": "all inputs", "anchors": ["src/path.pest", "src/path.rs:parse"]}
{"id": "C35", "title": "format then parse round trip", "statement": "Parsing the formatted text of a document in the canonical class gives back exactly that document. The class and the known violations outside it (one-element sequence inside a sequence, aliased mapping as first key of a sequence item, block scalar as first key of a sequence item, unquoted text ending in a colon, ...) are stated.", "quantifier": "every document in the class, any depth, width and text", "why_tests_cant": "PEG with a backtracking indentation stack; unbounded trees", "anchors": ["src/yaml.pest", "src/yaml/parser.rs", "src/yaml/mod.rs:format", "src/yaml/document.rs:format"]}
{"id": "C36", "title": "Parsing always terminates", "statement": "parse_yaml_file terminates on every input text.", "quantifier": "every input", "why_tests_cant": "all inputs; the grammar is recursive with nested repetitions", "anchors": ["src/yaml.pest", "src/yaml/parser.rs:parse_yaml_file"]}
{"id": "C37", "title": "The parser's indentation stack is never read when empty", "statement": "No input makes the grammar PEEK or POP an empty stack (a panic in pest), and a successful parse leaves the stack empty.", "quantifier": "every input", "why_tests_cant": "all backtracking histories", "anchors": ["src/yaml.pest"]}
{"id": "C38", "title": "Every accepted text is converted, except for block-scalar panics", "statement": "A text the grammar accepts always yields a document, unless a block scalar is present; some block scalars make the parser panic (witnesses: |0, a line indented less than the first one).", "quantifier": "every input without `|` and `>`", "why_tests_cant": "all parse trees", "anchors": ["src/yaml/parser.rs", "src/yaml/parser.rs:clean_multiline_strings"]}
{"id": "C39", "title": "Parsed keys are plain", "statement": "Every mapping key in a parsed document is non-empty, has only letters, numbers, `_`, `-` and interior spaces, and hence is a single-key path.", "quantifier": "every input that parses", "why_tests_cant": "all inputs", "anchors": ["src/yaml.pest", "src/yaml/parser.rs:hash_key"]}
{"id": "C40", "title": "Parsed inline collections contain only inline values; unquoted scalars are clean", "statement": "In a parsed document inline collections contain only inline values without aliases, and unquoted scalars have no line break, no `#`, no `: ` and no trailing space. They may be empty or start with spaces (witnesses).", "quantifier": "every input that parses", "why_tests_cant": "all inputs", "anchors": ["src/yaml.pest", "src/yaml/parser.rs"]}
{"id": "C41", "title": "Serialize then deserialize is the identity", "statement": "For every value of the supported type universe (bools, ints up to 64 bits, floats, chars, strings, options, units, sequences, tuples, structs, maps, unit enums, newtypes), deserializing the serialized tree gives back the value, provided no Some(v) holds a v that serializes to an unquoted null word. Refuted for Some(\"Null\"), for 128-bit integers and for enum variants with data.", "quantifier": "every type and every value of it", "why_tests_cant": "all types, all strings, all integers", "anchors": ["src/yaml/serializer.rs", "src/yaml/deserializer.rs"]}
{"id": "C42", "title": "Serialize, pretty, deserialize is the identity", "statement": "Same as C41 with pretty() in between, for values whose long strings are foldable.", "quantifier": "every type and value", "why_tests_cant": "all trees", "anchors": ["src/yaml/serializer.rs", "src/yaml/deserializer.rs", "src/yaml/mod.rs:pretty_with_options"]}
{"id": "C43", "title": "Serialize, pretty, format, parse, deserialize is the identity", "statement": "A value of a supported type comes back unchanged from serialization, pretty printing, formatting, parsing and deserialization, if its root is a nonempty sequence, mapping or struct, its mapping keys are plain names, its texts do not look like other syntax without quotes, and block scalars and one-element nested sequences stand where the parser can read them. Without these conditions values are lost, some silently: \"&a b\" comes back as \"b\", a leading tab drops the remaining lines.", "quantifier": "every type and value in the class", "why_tests_cant": "composition of all modules", "anchors": ["src/yaml/serializer.rs", "src/yaml/deserializer.rs", "src/yaml/mod.rs", "src/yaml/parser.rs"]}
{"id": "C44", "title": "Aliases resolve to the registered value; unknown aliases are errors", "statement": "Dereferencing an alias yields the value most recently registered under that name, and fails with an error when none is registered.", "quantifier": "every registration history", "why_tests_cant": "all orders of definition and use", "anchors": ["src/yaml/deserializer.rs:register", "src/yaml/deserializer.rs:resolve", "src/yaml/deserializer.rs:into_resolved"]}
{"id": "C45", "title": "Self-referential aliases do not terminate", "statement": "Untyped deserialization of an alias whose value is itself never finishes (refutes termination of deserialize_any).", "quantifier": "every amount of steps", "why_tests_cant": "non-termination cannot be tested", "anchors": ["src/yaml/deserializer.rs:deserialize_any"]}
{"id": "C46", "title": "Integers in range survive, others are rejected", "statement": "Every integer in the range of its type deserializes from its decimal text; text outside the range is an error, never a wrapped value.", "quantifier": "every integer and every text", "why_tests_cant": "64-bit domains", "anchors": ["src/yaml/deserializer.rs:deserialize_i64", "src/yaml/deserializer.rs:deserialize_u64"]}
{"id": "C47", "title": "Parsed documents are writable", "statement": "A parsed document is one root mapping or sequence between one-line comments; in it block collections have an element, aliases and references are names, comments and block scalar lines are on one line, quoted scalar parts have their special characters escaped and blank-line counts are positive. Comments on their own line stand before an entry, comments behind a value follow a one-line value, neighbouring texts of a quoted scalar are merged, and the root does not start with a comment.", "quantifier": "every input that parses", "why_tests_cant": "all inputs", "anchors": ["src/yaml.pest", "src/yaml/parser.rs"]}
{"id": "C48", "title": "Scalars mean what YAML says", "statement": "The value read from a scalar of the file is the one YAML gives it: escapes and doubled quotes in quoted scalars, line breaks and chomping in literal scalars, folding in folded scalars, text itself in unquoted scalars. Exceptions (refutations): a line break in a quoted scalar is dropped, an escaped one kept, indentation of continuation lines kept, a first empty line of a block scalar lost, indented lines in a folded scalar get extra empty lines, text of less indented lines is lost, CRLF files are read differently from LF files.", "quantifier": "every key, every text between the quotes, every list of lines", "why_tests_cant": "a wrong entry in an escape table or a wrong count of line breaks only shows on the one text that uses it", "anchors": ["src/yaml/string.rs:real_char", "src/yaml/string.rs:parse_double_quoted_string", "src/yaml/string.rs:parse_single_quoted_string", "src/yaml/string.rs:parse_literal", "src/yaml/string.rs:parse_folded", "src/yaml/parser.rs", "src/yaml.pest"]}
{"id": "C49", "title": "Formatting a parsed file keeps it", "statement": "If a text parses, formatting the document and parsing the result gives the same document, for every document in a stated class (unquoted scalars that cannot be misread, block scalars with a proper first line, collections that start on the line of a dash or alias start with two entries). Outside the class the refutations show accepted texts whose formatted form has another meaning or is rejected.", "quantifier": "every accepted text, any spacing, depth and width", "why_tests_cant": "each misreading needs one particular combination of place, indentation and content", "anchors": ["src/yaml.pest", "src/yaml/parser.rs", "src/yaml/mod.rs:format", "src/yaml/document.rs:format"]}
{"id": "C50", "title": "Siblings stay siblings", "statement": "Lines `key: text` (or `- text`) one below the other are read as the entries (elements) of one collection, in that order. Refuted for empty values, for a sequence or aliased mapping that starts on the line of a dash: the line below becomes a child.", "quantifier": "every list of keys and unquoted texts", "why_tests_cant": "any number of lines, any text; a text that looks like something else breaks the layout", "anchors": ["src/yaml.pest", "src/yaml/parser.rs"]}
{"id": "C51", "title": "Pretty printing a file keeps its data", "statement": "If a text parses, pretty printing the document, writing it and parsing the result gives a document with the same data and the same keys, comments and aliases in the same order, which pretty printing does not change again; for every document in a stated class (quoted scalars that do not need their quotes or can be block scalars where they stand). Outside the class the refutations show accepted texts whose pretty form has other data or is rejected: comments and following entries become text, needed quotes are removed.", "quantifier": "every accepted text in the class, any spacing, depth and width", "why_tests_cant": "parser, pretty printer and writer interact; each corruption needs one combination of style, place and text", "anchors": ["src/yaml/mod.rs:pretty", "src/yaml/mod.rs:format", "src/yaml.pest", "src/yaml/parser.rs", "src/yaml/string.rs"]}
{"id": "C52", "title": "Edits of a file survive writing and reading", "statement": "If a text parses, an entry is inserted (or overwritten) by a path, a key is renamed, a value is wrapped in an object or an entry is removed, and the document is written, then reading the text gives exactly the edited document, and a lookup finds the inserted value as often as it was inserted; for the stated classes of documents. Outside the classes the refutations show edits after which the written file means something else: the new entry becomes text of a block scalar, the entry after a removed one moves into an inner mapping, comments move to other entries.", "quantifier": "every accepted text in the class, every path, every value", "why_tests_cant": "parser, path operations and writer interact; the corruptions depend on where comments and block scalars stand next to the edited entry", "anchors": ["src/yaml/insert.rs", "src/yaml/mod.rs:edit_hash_structure", "src/yaml/mod.rs:for_hash", "src/yaml/mod.rs:format", "src/yaml.pest", "src/yaml/parser.rs"]}
{"id": "C53", "title": "A reader sees only the data", "statement": "Reading a node into any type gives the same result for two nodes that differ only in comments, in quoting and block scalar styles (except that the spellings of bools and null must stay unquoted) and in block or inline style of collections. For nodes without references and with distinct keys nothing else is lost: nodes that differ in more are read differently by some type. The untyped reader in addition sees whether a number is quoted. So pretty printing a node or a file, and rewriting a file, does not change what a program reads from it, unless a quoted word like 'yes' or 'Null' loses its quotes (refutations).", "quantifier": "every type, every pair of nodes; every accepted text in the class", "why_tests_cant": "it compares two runs of the deserializer, for all types and all ways to write the same data", "anchors": ["src/yaml/deserializer.rs", "src/yaml/mod.rs:pretty_with_options", "src/yaml/mod.rs:can_be_unquoted_in_block"]}
{"id": "C54", "title": "Entries removed or moved in a file arrive", "statement": "Removing entries, moving fields into a subfield and grouping entries by a field, below any path, in a file of the class without comments: the movers do not panic, and the file that is written is read as the edited document (a mapping that became empty is read as {}), if no block scalar comes to stand first on the line of a dash. Fields moved at the top of a document keep their data under the new name. Grouping by a text that is no plain key (like a.b) writes a file that cannot be read or says something else; the alias of a grouped mapping is written twice (refutations).", "quantifier": "every accepted text in the class, every path and every list of names", "why_tests_cant": "it follows all edits through writing and reading of unbounded documents", "anchors": ["src/yaml/insert.rs:remove_from_hash", "src/yaml/insert.rs:move_to_subfield", "src/yaml/insert.rs:move_to_map_with_field_as_key", "src/yaml/document.rs"]}
{"id": "C55", "title": "A typed reader returns what the node means", "statement": "Reading a node without references as a type succeeds with a value exactly when the node means that value for the type: the words for bools and null, decimal integers in range, floats of Rust's grammar, the text of a scalar in any style, elements in order, tuples from the first elements, fields by name in any order with unknown ones skipped, repeated ones an error and missing ones allowed only for options, variants by name. What is read always has the type, also through references. The order of entries and unknown fields do not matter, and a file is read as its first item that is not a comment. Extra elements of a tuple are dropped silently, the unit types read anything, and YAML's .inf, .nan, 0x1F and 0o17 are no numbers (refutations).", "quantifier": "every type of the serde data model with distinct names, every node without references, every value", "why_tests_cant": "it characterises all results and all errors for unbounded types and nodes", "anchors": ["src/yaml/deserializer.rs:YamlDeserializer", "src/yaml/deserializer.rs:from_yaml", "src/yaml/deserializer.rs:from_yaml_str"]}
{"id": "C56", "title": "Values of types with the serde attributes untagged, tag and flatten are written and read back", "statement": "A value of a type built with #[serde(untagged)], #[serde(tag = \"...\")] and #[serde(flatten)] that meets stated conditions on its names and texts is read back unchanged from the node it is serialized to, also after pretty printing and through the text of a file. A type without attributes is read as without this layer. Dropping each condition loses or changes data (refutations): the text Null, -0, an earlier variant that takes the value, two flattened maps, a flattened None, flattened maps with integer keys, names shared with a field or the tag, names that look like numbers, a field named true; and untagged reading differs from direct reading on 1.10, yes, -0, integer keys and sequences for structs.", "quantifier": "every type over the three attributes, every value, every depth of nesting", "why_tests_cant": "types, values and nesting are unbounded, and the interplay of deserialize_any with serde's buffers depends on every name and text", "anchors": ["src/yaml/deserializer.rs:deserialize_any", "src/yaml/deserializer.rs:from_yaml", "src/yaml/deserializer.rs:from_yaml_str", "src/yaml/serializer.rs:YamlSerializer"]}
{"id": "C57", "title": "What the untyped reader returns, and what types with attributes depend on", "statement": "deserialize_any on a node without references returns exactly what the node means: text, unless it is an unquoted null, true, false or number, which is then a 64-bit integer if it is one and a float otherwise. Types with attributes read only the data: not comments, styles, layout or (when no quoted word becomes special) pretty printing, and not formatting of the file. An untagged enum reads as the first variant that can, the tag may stand anywhere, and reading ends for every node without references within its depth. The order of the entries decides which variant a flattened enum reads, pretty printing turns the text 'Null' into an error, and a reference to itself is never read to an end (refutations).", "quantifier": "every type over the three attributes, every node or file, any number of steps", "why_tests_cant": "it characterises all results for unbounded types and nodes, including non-termination", "anchors": ["src/yaml/deserializer.rs:deserialize_any", "src/yaml/deserializer.rs:from_yaml", "src/yaml/deserializer.rs:from_yaml_str", "src/yaml/mod.rs:Pretty"]}
{"id": "C58", "title": "Files with Windows line endings are read like files with Unix line endings", "statement": "Let s be a text without carriage returns in which no double quote stands before a backslash at the end of a line. The text with CR LF at the end of every line is accepted, rejected or panics exactly when s is. The two documents differ at most in the number of empty lines inside block scalars and in carriage returns inside quoted scalars that span lines; if the document has neither, both documents, and so the formatted files, are equal. Dropping each condition is refuted: an empty line of a block scalar is read twice, a quoted scalar over two lines keeps the CR, an escaped line break is an error with CR LF.", "quantifier": "every text of any length, every Unicode table", "why_tests_cant": "it relates two runs of the grammar on all texts, with unbounded nesting, indentation stacks and comments at every place", "anchors": ["src/yaml.pest", "src/yaml/parser.rs:parse_yaml_file", "src/yaml/parser.rs:block_empty_lines", "src/yaml/parser.rs:string_multiline_content"]}
{"id": "C59", "title": "Reading a nested sequence takes work exponential in its depth, and never more than exponential in the length", "statement": "Count the rule calls a run of the grammar makes. For every text the run of the start rule exists, is unique and makes at most 2^(369*(length+1)) calls. For every n the crate's formatter writes n+1 nested one-element sequences as a file of 2n+7 characters; the parser reads that file back as the same document, and every run on it makes at least 2^n rule calls, because alternative_array reads the first element, fails, and block_array reads it again. Hence the claim that some polynomial in the length bounds the calls on accepted files is refuted.", "quantifier": "every text; every nesting depth n; every polynomial a*length^k; every Unicode table", "why_tests_cant": "a lower bound on the work for all depths and the absence of any polynomial bound cannot be observed on finitely many inputs, and inputs deep enough never finish", "anchors": ["src/yaml.pest:block_array", "src/yaml.pest:alternative_array", "src/yaml/parser.rs:parse_yaml_file", "src/yaml/mod.rs:format"]}
{"id": "C60", "title": "insert_into_hash_by_call asks the closure once per selected mapping, in document order", "statement": "Let the closure have effects (a function of a state). insert_into_hash_by_call calls it exactly once for every block mapping the path leads to, in document order, whether or not something is inserted there, with conditions anywhere on the path; the returned count is the number of mappings that received a value. Without conditions on the way the i-th selected mapping holds the i-th answer afterwards, except that without overwrite a mapping that had the key keeps its value and still uses up an answer. With a closure that always returns v it is insert_into_hash with v. On a document the roots are visited in order with one state. That the closure is called as often as a value is inserted is refuted.", "quantifier": "every closure and state type, every path of key, index and all steps, every tree whose inline values are flat, both values of overwrite", "why_tests_cant": "it relates the sequence of effects to the selection for every closure and every tree", "anchors": ["src/yaml/insert.rs:insert_into_hash_by_call", "src/yaml/mod.rs:edit_hash_structure", "src/yaml/document.rs:edit_hash_structure"]}
{"id": "C61", "title": "Every hand-written layout of a document is read as that document", "statement": "Spec_Layout.v defines, without the grammar, which texts lay out a document: comments and blank lines before and between entries, free indentation widths (sequences also at the indentation of their key), spaces before and after the signs and at line ends, inline collections broken over lines, block scalars at any indentation with blank lines, collections on the line of a dash or after an alias. Every such text is accepted and gives exactly that document; so no text lays out two documents. The conditions are needed: a blank line or a deeper comment after a block scalar, or a space after the colon together with a blank line and a comment, gives another document or an error.", "quantifier": "every document and every layout of it, of any size and depth, every Unicode table", "why_tests_cant": "the layouts of one document are infinitely many, and the parser's stack of indentations makes every choice depend on all lines around it", "anchors": ["src/yaml.pest", "src/yaml/parser.rs", "src/yaml/document.rs"]}
{"id": "C62", "title": "Edits change the text only where they apply", "statement": "If insert_into_hash, remove_from_hash, rename_field or to_object reports n changes, the formatted text after the edit is the formatted text before it with exactly n pieces replaced one after the other, and each piece is what the operation is about: an entry with the given key and value appears (or the value of an entry with that key is replaced, with overwriting); an entry with that key disappears; a key is replaced by the new name while its value stays byte for byte; a value moves under the new key two columns to the right. In documents read from a file, insertion without overwriting adds whole lines between two lines: all old lines stay, in order, and a one-line entry makes the file n lines longer. For removal the lines claim is false: the next entry may move up to the line of a dash.", "quantifier": "every document, every path that ends with a key (with conditions, wildcards, repeated and unordered indices), every key and value; the line claims for every parsed document", "why_tests_cant": "the text around an edit depends on the whole tree (indentation, dash lines, comments), which tests can only sample", "anchors": ["src/yaml/insert.rs", "src/yaml/mod.rs:Yaml::format", "src/yaml/document.rs:Document::format"]}
{"id": "C63", "title": "Types with serde attributes read exactly what a node means", "statement": "For every type built with untagged, tag and flatten, from_yaml returns a value exactly if the node means that value: an untagged enum takes the first variant that the buffered content fits; a tagged enum needs exactly one tag entry, of text (or a tag as first element), and reads the variant from the other entries; flattened fields of any type are read in order from the entries that no field is named after: a map reads all that remain and leaves them, a struct takes the entries of its names, an enum takes the first entry of a variant's name, an option that cannot be read is none and its entries are gone all the same (so an entry can be lost, refuted); a named field needs exactly one entry, or none if it is an option; buffered integers fit every integer type of their range, quoted numbers are text, keys of structs are text (or huge integers), only an owned empty mapping is a unit. The same is proved for reading out of serde's buffer by value and by reference; no content has two meanings.", "quantifier": "every type over the three attributes with distinct names, every node without references, every buffered content, every value", "why_tests_cant": "an exact characterisation speaks about all accepted and all rejected inputs of all types; tests see only some of each", "anchors": ["src/yaml/deserializer.rs:deserialize_any", "src/yaml/deserializer.rs:deserialize_enum", "src/yaml/deserializer.rs:from_yaml", "src/yaml/deserializer.rs:from_yaml_str"]}
{"id": "C64", "title": "Edits compose", "statement": "At one path: inserting without overwriting after an insertion changes nothing and counts 0; an overwriting insertion gives the same result whether or not something was inserted before; inserting and then removing gives the tree of removing alone, with the count of an overwriting insertion; removing twice changes nothing the second time if no mapping repeats a key; renaming to an absent name and back restores the tree with the same count. At two keys of the same mappings: removals commute, an insertion commutes with a removal, and the count of an insertion is not changed by another one. The conditions of the path at the mapping concerned must not be about the edited keys (refuted otherwise); removing twice with repeated keys, swapping two insertions and renaming back from a name that was there are refuted. The same holds for documents.", "quantifier": "every tree and document, every path without repeated positions, every value and overwrite flag", "why_tests_cant": "algebraic laws quantify over all trees, paths with wildcards, index lists and conditions, and values", "anchors": ["src/yaml/insert.rs:insert_into_hash", "src/yaml/insert.rs:remove_from_hash", "src/yaml/insert.rs:rename_field", "src/yaml/mod.rs:edit_hash_structure"]}
{"id": "C65", "title": "What the serializer writes, exactly", "statement": "A value is serialized to a node exactly if it is written as that node: bools and unit-like values as plain words, integers as their shortest decimal text, texts plain, in single quotes or in double quotes by explicit criteria on the text, with the quoted pieces given, tuples in flow style, sequences, bytes, maps and structs in block style, wrappers as their content. Serialization fails exactly if some map key is a collection or text that is written in single quotes.", "quantifier": "every serde value and every node", "why_tests_cant": "an equivalence over all values, with the full criteria for the style of every text", "anchors": ["src/yaml/serializer.rs:YamlSerializer", "src/yaml/serializer.rs:yaml_to_key_string", "src/yaml/serializer.rs:str_to_yaml", "src/yaml/mod.rs:str_to_single_quoted_parts"]}
{"id": "C66", "title": "Folding changes only blanks, and its lines fit", "statement": "Text that is folded and read back differs at most in spaces and line breaks, whatever the text, width and chomping; so pretty printing keeps all data of every tree and document up to blanks in text, without any condition. Each folded line is at most as wide as asked for (90 bytes in pretty printing) or a single word of the text, and a line ends only where the first word of the next one does not fit. That the words are kept is refuted: after a first word that is too long the next ones are glued together.", "quantifier": "every text, width, chomping, tree and document", "why_tests_cant": "all texts of all lengths, including words longer than the width and repeated blanks", "anchors": ["src/yaml/string.rs:split_on_length", "src/yaml/string.rs:create_folded", "src/yaml/string.rs:parse_folded", "src/yaml/mod.rs:pretty_with_options"]}
{"id": "C67", "title": "Which texts are paths, exactly", "statement": "A text is read as a path exactly if it is written as that path: names, bracketed numbers or stars, and conditions, with the rules for spaces in names and the characters that names, fields and values may contain. It is rejected with an error exactly if it does not fit the looser syntax in which spaces may stand after every punctuation mark, and reading it panics exactly if it fits that syntax but is no path. A text that panics contains a space or a bracketed number of at least 2^64.", "quantifier": "every text and every path", "why_tests_cant": "three equivalences over all texts, so every accepted, rejected and panicking text is covered", "anchors": ["src/path.pest", "src/path.rs:parse", "src/path.rs:from_str"]}
{"id": "C68", "title": "Which accepted texts make the parser panic, exactly", "statement": "Reading a text panics exactly if the grammar accepts it and some block scalar in its parse tree is bad: its indentation indicator is not a decimal number from 1 to 2^64-1, or some non-empty line of it cannot be cut by the indicator minus one, or without an indicator by the width in bytes of the white space at the start of its first line, because the line is too short or the cut falls inside a character. All other accepted texts are converted.", "quantifier": "every text and every table of letters and numbers", "why_tests_cant": "an equivalence over all texts and parse trees", "anchors": ["src/yaml/parser.rs:clean_multiline_strings", "src/yaml/parser.rs:count_whitespace_bytes_at_start", "src/yaml/parser.rs:string_multiline_indent", "src/yaml/parser.rs:string_multiline_content", "src/yaml/parser.rs:parse_yaml_file"]}
{"id": "C69", "title": "Which files with an inline collection are read, and as what, exactly", "statement": "A file is read as a document with an inline sequence exactly if it is: comments and blank lines, the line \"---\", comments, a bracketed list, comments and blank lines. In the list, items are separated by single commas and any spaces and line breaks (LF, CR, CRLF) may stand around them; each item is an unquoted text (described character by character), a quoted text with its space separators after it, a reference, or again an inline sequence or mapping. A file whose collection starts with a bracket never panics and is an error exactly if it is not such a text; one that starts with a brace is always an error. No text is two documents.", "quantifier": "every text, document and table of letters and numbers", "why_tests_cant": "an equivalence over all texts in both directions, with nesting of any depth and white space of any length", "anchors": ["src/yaml.pest:inline_array", "src/yaml.pest:inline_hash", "src/yaml.pest:inline_array_value", "src/yaml.pest:unquoted_inline_string", "src/yaml.pest:yaml", "src/yaml.pest:document", "src/yaml/parser.rs:parse_yaml_file"]}
{"id": "C70", "title": "References are read as what they refer to", "statement": "Take a tree in which no label (&name) is on two different values, and the tree in which every reference (*name) is replaced by the value with that label, at any depth, and the labels are removed. Whatever is read from the first tree as any type, with or without serde attributes or untyped, is also read from the second. If moreover every reference is to a label of a collection that contains it (before or after it), both trees are read as exactly the same value or both are errors; with C55 and C63 this is the value the replaced tree means. If every reference comes after the value it refers to, wherever that is in the tree, and no label is on a reference, the untyped reader always succeeds, with the content of the replaced tree. The replaced tree is unique, has no references and exists if every reference has a label and no value refers to itself. Counterexamples outside these conditions: a label inside a value the type ignores is not found; of two equal labels the last one in the collection counts, also before it; a reference to a reference is read only without a type.", "quantifier": "every tree, type, value and depth of nesting", "why_tests_cant": "compares two readings for all trees and types, with references nested in referred values to any depth", "anchors": ["src/yaml/deserializer.rs:register", "src/yaml/deserializer.rs:resolve", "src/yaml/deserializer.rs:into_resolved", "src/yaml/deserializer.rs:hash_entries", "src/yaml/deserializer.rs:seq_values", "src/yaml/deserializer.rs:from_yaml", "src/yaml/deserializer.rs:deserialize_any"]}
{"id": "C71", "title": "Nothing in an accepted file is ignored: its text is spelled out by the document", "statement": "Every text that is read as a document is, character by character, a spelling of that document: the comments, keys, names and values of the document in their order, with the signs of the syntax between them and white space only where the layout has it. The parser skips nothing else and invents nothing. Without block scalars the characters other than white space and syntax signs are exactly those of the document in the same order, so two files read as the same document have the same letters. Counterexamples: letters in the margin of a block scalar are dropped without an error; one line can be two elements of a sequence; a text can be spelled by two documents (`a: - b`), so the converse is false.", "quantifier": "every accepted text, every document, every Unicode table", "why_tests_cant": "for all texts the parser accepts, not only texts somebody wrote as YAML", "anchors": ["src/yaml.pest:yaml", "src/yaml.pest:hash", "src/yaml.pest:alternative_hash", "src/yaml.pest:block_array", "src/yaml.pest:alternative_array", "src/yaml.pest:string_multiline_content", "src/yaml/parser.rs:parse_yaml_file", "src/yaml/parser.rs:clean_multiline_strings"]}
{"id": "C72", "title": "A build without overflow checks reads the same documents and panics only less often", "statement": "The parser built with wrapping arithmetic (cargo's release profile) gives the same document for every text the checked build reads and an error for exactly the same texts. It panics exactly where the checked build panics, except for block scalars with the indentation indicator 0 none of whose lines has text. So it reads more texts exactly when there are such block scalars and no other bad ones (for example `k: |0` followed by a line of one space); on those the two builds differ.", "quantifier": "every text, every document, every Unicode table", "why_tests_cant": "tests run in one profile; the claim compares the two for every text", "anchors": ["src/yaml/parser.rs:string_multiline_indent", "src/yaml/parser.rs:clean_multiline_strings", "src/yaml/parser.rs:parse_yaml_file"]}
{"id": "C73", "title": "The error of the typed reader is the complaint about the first wrong node", "statement": "When from_yaml fails, the error is the one complaint that the first wrong node deserves, nodes being taken in the order of reading (entries in the order of the document, unknown fields skipped, labels registered on entering a collection, missing fields and missing elements complained about last). Every kind of error is stated separately: undefined anchor, not a bool (with or without the text), not an integer, unsigned integer, float, string, sequence or map, an integer out of range, a text that is not one character, too few elements, a field given twice, the first missing field, not a single-key map, an unknown variant. A node has such a complaint exactly when nothing is read, and only one. `undefined anchor: n` is reported only if the document refers to n, and never if every reference is to a label of a collection around it. The message `expected string for enum variant` is never used. Different errors made by the crate have different messages. The text of each of the crate's own messages says what was expected of that node, or names the label that is not known.", "quantifier": "every type built from bools, integers, floats, chars, strings, bytes, options, units, newtypes, sequences, tuples, maps, structs and enums with distinct names; every tree", "why_tests_cant": "it fixes which of several possible errors is returned for every type and tree, including the order in which wrong parts are noticed", "anchors": ["src/yaml/deserializer.rs:from_yaml", "src/yaml/deserializer.rs:into_resolved", "src/yaml/deserializer.rs:deserialize_enum", "src/yaml/deserializer.rs:deserialize_map"]}
{"id": "C74", "title": "Exactly what the typed reader returns for any tree with labels and references", "statement": "Reading a value of any type from any tree with any labels already known yields exactly the value given by the rules of Spec_Reads.v, and then exactly those labels are known: a reference stands for the value most recently labelled so (one step only), entering a block collection makes all its labels known before its first element is read, labels inside an element are known for the elements after it, unknown fields and surplus tuple elements are not read and so make no labels known. At most one value is possible. No assumption on the labels (they may be redefined, undefined, or cyclic).", "quantifier": "every type with distinct field and variant names, every tree, every list of known labels; every file", "why_tests_cant": "the label bookkeeping across nested and sibling values is checked for every tree and type at once, including redefinition and forward references", "anchors": ["src/yaml/deserializer.rs:from_yaml", "src/yaml/deserializer.rs:into_resolved", "src/yaml/deserializer.rs:hash_entries", "src/yaml/deserializer.rs:seq_values"]}
{"id": "C75", "title": "What the untyped reader does with any tree: value, error or recursion without end", "statement": "deserialize_any, reading every element again with deserialize_any, gives exactly the value and the known labels described by Spec_Any.v; its only error is a reference reached while its label is not known, and that reference is unique; its recursion depth is exactly the number of nested reads; the three outcomes exclude each other. If no label has two values, it recurses without end exactly if a reference of the same name is reached while a reference is read, and a reading that ends is never deeper than (number of names referred to + 1) times the depth of the tree. Trees without cyclic references always end in a value or an error.", "quantifier": "every tree, every list of known labels, every recursion limit", "why_tests_cant": "endless recursion cannot be observed by a test, and the bound is over all trees with any pattern of references", "anchors": ["src/yaml/deserializer.rs:deserialize_any", "src/yaml/deserializer.rs:into_resolved", "src/yaml/deserializer.rs:hash_entries", "src/yaml/deserializer.rs:seq_values"]}
{"id": "C76", "title": "Hand-written Serialize impls: what any order of map calls makes, and when the serializer panics", "statement": "Whatever sequence of serialize_key, serialize_value, serialize_element and serialize_field calls an impl makes, nested at any depth, the resulting node is exactly the one described by Spec_Calls.v: entries are the keys directly followed by a value, keys not followed by a value are forgotten. The serializer panics exactly if the first call that does not go well is a serialize_value without a pending key; so never if in every map each value directly follows a key. Derived impls make exactly what Ser.v says.", "quantifier": "every tree of serializer calls", "why_tests_cant": "arbitrary call sequences of any length and nesting; the crate's tests only use derived impls", "anchors": ["src/yaml/serializer.rs:serialize_key", "src/yaml/serializer.rs:serialize_value", "src/yaml/serializer.rs:serialize_element", "src/yaml/serializer.rs:serialize_field"]}
{"id": "C77", "title": "Hand-written Deserialize impls: what any order of map and sequence calls is given, and when the deserializer panics", "statement": "Whatever a visitor does with next_key, next_value and next_element (in any order, stopping early, choosing the next type by what was read, going on after errors), it is given the keys in order, each once, and for a value that of the last key given, once; its result is exactly what it makes of these. The deserializer panics exactly if a value is asked for when no key was given yet or the value of the last key was already given (or an item panics); never for visitors that ask for a value directly after a key. The visitors of Vec, tuples, maps and derived structs are instances and read exactly what De.v says.", "quantifier": "every visitor (as a tree of calls and continuations), every map or sequence, every set of registered anchors", "why_tests_cant": "arbitrary programs as visitors; the crate's tests only use derived impls", "anchors": ["src/yaml/deserializer.rs:next_key_seed", "src/yaml/deserializer.rs:next_value_seed", "src/yaml/deserializer.rs:next_element_seed", "src/yaml/deserializer.rs:deserialize_map", "src/yaml/deserializer.rs:deserialize_seq"]}
{"id": "C78", "title": "What stands before the collection of a file does not change how the collection is read", "statement": "For every text X that does not begin with a blank line or a comment there is one outcome (items, error or panic) such that after every heading (comments and blank lines, the line ---, comments and blank lines) the parser gives exactly this outcome with the heading's comments added; every text that is not rejected has such a heading. So a file is accepted iff its rest is accepted after a bare ---, and a comment line put before an accepted file adds exactly one leading comment.", "quantifier": "every text, every heading, all Unicode tables", "why_tests_cant": "unbounded texts and headings on both sides of an equation between parser outcomes, including errors and panics", "anchors": ["src/yaml.pest:yaml", "src/yaml.pest:leading_comments", "src/yaml.pest:commentnls", "src/yaml/parser.rs:yaml", "src/yaml/parser.rs:parse_yaml_file"]}
{"id": "C79", "title": "Reading mappings into maps: the last entry of each key is held, and what a map can hold comes back", "statement": "Reading a tree into types with std maps gives, at every level, a map with one entry for each key that was read, holding the value of the last entry with that key; repeated keys are never an error. A value whose maps have different keys comes back from its tree and from its text, its tree has no mapping with a key twice (different keys are written as different texts), and a value that was read from anything is stable under further writing and reading.", "quantifier": "all types, values and trees; all Unicode tables for the text", "why_tests_cant": "the claim ranges over all nestings of maps and over all pairs of keys of a type", "anchors": ["src/yaml/deserializer.rs:VecMapAccess", "src/yaml/deserializer.rs:from_yaml", "src/yaml/serializer.rs:yaml_to_key_string", "src/yaml/serializer.rs:MapSerializer"]}
{"id": "C80", "title": "What each method of the deserializer tells a visitor", "statement": "For every method of the deserializer, every node and all known labels it is determined which method of the visitor is called, with what value, deserializer or access, and which labels are known then; when there is an error instead and which labels it leaves behind; and that only the untyped method may recurse without end, exactly if references lead on and on. Where no reference leads to another, what the untyped method says the typed method for it says as well, and it says unit exactly where the method for options says none.", "quantifier": "all methods (tuples of any length), all nodes, all lists of known labels", "why_tests_cant": "the claim ranges over all visitors, so over types that no test defines, and over chains of references of any length", "anchors": ["src/yaml/deserializer.rs:deserialize_any", "src/yaml/deserializer.rs:deserialize_bool", "src/yaml/deserializer.rs:deserialize_i64", "src/yaml/deserializer.rs:deserialize_option", "src/yaml/deserializer.rs:deserialize_seq", "src/yaml/deserializer.rs:deserialize_map", "src/yaml/deserializer.rs:deserialize_enum"]}
{"id": "C81", "title": "Derived impls of Deserialize read what is claimed of them, call by call", "statement": "The impls that std and serde_derive give for every type of the data model, written as the method they call, the visitor they pass and the calls the visitor makes on the access, return exactly the values that C74 says are read, with the same labels known afterwards, and never panic or recurse without end, whatever the tree. For any other visitor, what its method for a scalar returns is what comes out, null for an option and null for an untyped value being different methods; options and newtypes go on with the node that the method was given.", "quantifier": "all types of the data model, all visitors, all nodes, all lists of known labels", "why_tests_cant": "the claim ranges over all types, nested to any depth, and over all trees", "anchors": ["src/yaml/deserializer.rs:YamlDeserializer", "src/yaml/deserializer.rs:VecMapAccess", "src/yaml/deserializer.rs:VecSeqAccess", "src/yaml/deserializer.rs:EnumAccess"]}
{"id": "C82", "title": "Files put together and files cut off", "statement": "If a document is written to a file and the text of a second document of the same kind (both block mappings or both block sequences) is put after it without its \"---\", the file is read as one document whose collection holds the entries of both in order, with the comments in between. If a file is cut off after an entry, it is read as the document with the entries written so far. The same holds for hand-written files whose collections have the same indentation.", "quantifier": "all documents in canonical form, all places between entries, all hand-written layouts, all tables of Unicode classes", "why_tests_cant": "the claim ranges over all pairs of documents and over all places at which writing may stop", "anchors": ["src/yaml/mod.rs:format", "src/yaml/parser.rs:parse_yaml_file", "src/yaml.pest:file"]}
{"id": "C83", "title": "What is written is YAML 1.2 with the same data", "statement": "The text that a document is written to, followed by a line feed, is a YAML 1.2.2 file, and the node that YAML finds in it has the same structure, anchors, references, keys and scalar values as the tree, block scalars with their indentation and chomping included. This holds for every document whose root is a block collection or a value on the line of the document marker, whose keys and unquoted texts are plain scalars of YAML, whose quoted scalars are on one line and whose folded lines do not start with white space. Comments may stand in all places where the writer puts them.", "quantifier": "all documents of that form, all depths and layouts", "why_tests_cant": "the claim is about the grammar of YAML, for all trees and texts; a test can only compare single files with another YAML library", "anchors": ["src/yaml/mod.rs:format", "src/yaml/document.rs:format", "src/yaml/string.rs:SingleQuotedStringPart", "src/yaml/string.rs:DoubleQuotedStringPart"]}
{"id": "C84", "title": "Plain scalars and the core schema of YAML 1.2", "statement": "The untyped reader takes a word for the same thing (null, bool, integer with its value, float, text) as the core schema of YAML 1.2, except: the empty text, True, TRUE, False, FALSE, 0o and 0x integers, and .inf and .nan with their spellings are text for the crate; inf, infinity and nan in any case are floats for the crate and text for YAML; integers that do not fit in 64 bits are floats for the crate. Integers, bools, null and finite floats that are serialized have the meaning meant; a string that is serialized without quotes is text for YAML, except Null, NULL and the words listed first.", "quantifier": "all texts, all integers, all bools", "why_tests_cant": "the exceptions are claimed to be all exceptions, over all texts", "anchors": ["src/yaml/deserializer.rs:deserialize_any", "src/yaml/serializer.rs:str_to_yaml", "src/yaml/mod.rs:can_be_unquoted_in_block"]}
{"id": "C85", "title": "Serialized values mean the same to YAML 1.2 readers", "statement": "The file written for a serialized value follows the grammar of YAML 1.2.2, and with the core schema the data in it is the value: bools, integers, finite floats, texts, nothing, sequences, tuples, maps and structs, with their keys. This holds if texts have no control characters and, when written without quotes, are plain scalars and text for YAML; keys likewise; floats are finite; tuples hold only scalars, tuples and empty collections. Which texts are fine is stated character by character: all texts written with quotes; without quotes all except those with a reserved first character (& * ! % @ ` or a tab), a colon or tab at the end, an indicator (- ? :) alone or before white space, a colon before a tab, a character that YAML does not allow, and the words that the core schema takes for something else.", "quantifier": "all values, of any depth and size", "why_tests_cant": "values nest without bound, and the claim is about every YAML 1.2 grammar reader, not about one library", "anchors": ["src/yaml/serializer.rs:str_to_yaml", "src/yaml/mod.rs:format"]}
{"id": "C86", "title": "Files in a common layout are read alike by this crate and by YAML 1.2", "statement": "A hand-written file with free indentation widths, spaces, blank lines, comments, inline collections on one line, block scalars, names and references is parsed by this crate to the document that it lays out, and by the grammar of YAML 1.2.2 it holds the same data, provided that: scalars and keys are plain for YAML; names before a nested collection stand at the end of their line; entries after a dash line up with the first one; references have no names; the lines of a block scalar are indented by more than its key, and those of a folded one do not start with white space; a block scalar at a dash is in the only entry. The document follows from a grammar of such files, which says for every layout what it means.", "quantifier": "all files of the layout, of any depth and length", "why_tests_cant": "layouts combine widths, spaces, comments and nesting without bound, and the claim is about the grammar of YAML, not about one library", "anchors": ["src/yaml.pest", "src/yaml/parser.rs"]}
{"id": "C87", "title": "Pretty printing keeps the data that readers of YAML 1.2 find", "statement": "If a document's text is YAML 1.2.2 with the data of its tree, then the text of the pretty printed document is YAML 1.2.2 as well and holds the same data: the same nesting, order, names, references, keys and texts, and the same meaning in the core schema. Conditions: a single quoted text of at most 90 bytes that loses its quotes is a plain scalar and a text for YAML; a longer quoted text consists of printable words with single spaces; a double quoted text with escapes becomes lines of printable characters, not starting with a line feed; the root and values with a comment on their line do not become block scalars; texts without quotes in a sequence in a sequence are plain inside inline collections. A serialized value that is pretty printed means the value to readers of YAML 1.2 under the corresponding condition on its texts.", "quantifier": "all documents and all serializable values that meet the conditions", "why_tests_cant": "the claim is about the grammar and the schema of YAML 1.2, for all trees, texts and comments; tests compare strings of examples", "anchors": ["src/yaml/mod.rs:pretty_with_options", "src/yaml/array_data.rs:pretty_with_options", "src/yaml/document.rs:pretty_with_options", "src/yaml/mod.rs:format"]}
{"id": "C88", "title": "Which node a value of a type with serde attributes is written as", "statement": "For types with the attributes untagged, tag and flatten, serializing a value succeeds with a node if and only if the rules give that node: tags come first with the name of the variant; the entries of newtype content and of flattened fields are inserted in place, those of variants under the name of the variant; untagged content stands alone; names that are written as keys of maps must not need single quotes; there is at most one node.", "quantifier": "all types with these attributes, nested to any depth, and all values", "why_tests_cant": "the attributes combine (enums in tagged enums, flattened options of maps, untagged in tagged); the rules and the errors are stated for all combinations", "anchors": ["src/yaml/serializer.rs:serialize_map", "src/yaml/serializer.rs:serialize_struct", "src/yaml/serializer.rs:yaml_to_key_string", "src/yaml/serializer.rs:str_to_yaml"]}
{"id": "C89", "title": "Collections can be indented with any white space", "statement": "A file in which the lines of every collection start with the same white space is read as those collections, with exactly those keys, texts and chomping signs: mappings whose values are texts, block scalars, sequences of these, or mappings again, to any depth. The white space of an inner collection is that of its key and some more; it may consist of any characters of Unicode's category Zs, in any order and number, and each inner collection may have its own. Within a collection it has to be the same on every line, character by character.", "quantifier": "all white space, all trees of mappings and sequences with any number of keys, elements and lines", "why_tests_cant": "the tests indent with spaces only, for which the order of the stack entries that are compared does not matter", "anchors": ["src/yaml.pest:string_multiline_content_part", "src/yaml.pest:string_multiline_content", "src/yaml.pest:hash_element_data", "src/yaml.pest:hash", "src/yaml.pest:block_array", "src/yaml.pest:array"]}
{"id": "C90", "title": "Readers of YAML 1.2 find nothing else in what is written", "statement": "The grammar of YAML 1.2 that C83, C85, C86 and C87 refer to gives a text at most one node. Therefore every reading of a written document is the data of its tree, documents with different data are written as different texts, every file in the common layout holds only the data that this crate reads from it, whatever a reader resolves from a serialized value (pretty printed or not) is that value, and every reading of a pretty printed text means what every reading of the text before means. The conditions are those of C83, C85, C86 and C87.", "quantifier": "all texts, all documents, values and files that meet the conditions", "why_tests_cant": "that no second reading exists is a claim about all derivations of a grammar; a test compares with the one that a library happens to find", "anchors": ["src/yaml/mod.rs:format", "src/yaml/document.rs:format", "src/yaml/serializer.rs:str_to_yaml", "src/yaml/mod.rs:pretty_with_options", "src/yaml.pest"]}
{"id": "C91", "title": "After an edit, readers of YAML 1.2 find the edited data", "statement": "A document of the kind that is written as valid YAML (C83) is edited with insert_into_hash, rename_field, to_object or remove_from_hash, and written. The new text follows the grammar of YAML 1.2 too, and the data that YAML finds in it comes from the data that YAML finds in the old text by exactly as many changes as the operation returns; each change is at one mapping: an entry is added at its end, where no entry had the key before; or the first entry with the key gets the new value, gets the new key, has its value nested in a mapping of its own, or is removed. Everything else, including anchors, is the same. Conditions: new keys and values can be written as YAML; when inserting, no mapping is an empty block mapping, and a value that takes the place of another one stands on one line or there are no comments on lines; when nesting, there are no comments on lines; when removing, there are no comments among entries, and the root does not become empty below comments.", "quantifier": "all documents that meet the conditions, all paths, keys and values", "why_tests_cant": "the layouts of trees, the places that a path selects and the values that can be put there are unbounded, and a test sees only what one reader makes of one result", "anchors": ["src/yaml/insert.rs:insert_into_hash", "src/yaml/insert.rs:rename_field", "src/yaml/insert.rs:to_object", "src/yaml/insert.rs:remove_from_hash", "src/yaml/mod.rs:format", "src/yaml/document.rs:format"]}
{"id": "C92", "title": "Reading a file, editing it and writing it, as YAML 1.2 sees it", "statement": "A file in the common layout (C86: free indentation, blank lines, comments) is read with this crate and written again. YAML 1.2 finds the same data in the old and in the new text. If the document is edited before it is written (insert_into_hash, rename_field, to_object, remove_from_hash), the data that YAML finds in the new text comes from the data in the old text by exactly as many changes as the operation returns, each at one mapping, as in C91; inserting needs no condition on the file but for overwriting with values of several lines where there are comments on lines. If the document is pretty printed, the data of the new text has exactly the meanings of the data of the old one, under the conditions of C87.", "quantifier": "all files in the common layout, all paths, keys and values that can be written as YAML", "why_tests_cant": "the claim is about all layouts of all files, together with all edits of all trees, and about every reader that follows the YAML specification", "anchors": ["src/yaml.pest", "src/yaml/parser.rs", "src/yaml/insert.rs", "src/yaml/mod.rs:Yaml::format", "src/yaml/document.rs:Document::format", "src/yaml/mod.rs:pretty_with_options"]}
{"id": "C93", "title": "A path of keys changes exactly the entry that it names, for YAML 1.2", "statement": "insert_into_hash, rename_field, to_object and remove_from_hash with a path k1.k2. ... .k of keys without conditions return 0 and leave the document as it is, or return 1, and then the data that YAML 1.2 finds in the new text differs from the data in the old text at exactly one place: in the mapping that is found under k1, k2, ... (the first entry counts, if keys repeat) the entry k is added (or overwritten if asked for), gets the new key, is wrapped in a mapping with the new key, or is gone; all other data stays. The conditions are those of C91. If the document has no inline mappings and YAML finds a mapping under k1, k2, ..., the result is 1 if the entry k is there, or, for inserting, if it is not there or may be overwritten. Entries of inline mappings are not found (refuted with an example).", "quantifier": "all documents that can be written as YAML, all lists of keys, all keys and values", "why_tests_cant": "the claim is about all trees, all key paths of any depth and every reader that follows the YAML specification; tests see a few paths and compare with the crate's own reading", "anchors": ["src/yaml/insert.rs", "src/path.rs", "src/yaml/mod.rs:Yaml::format", "src/yaml/document.rs:Document::format"]}
{"id": "C94", "title": "find_values finds the value that YAML 1.2 finds", "statement": "find_values with a path of keys and single positions without conditions (a.b[0].c) leaves the document as it is and returns nothing, or exactly one value, and then it is the content of the value that YAML 1.2 finds there (the first entry with the key, the element at the position counted from 0) in the text that is written for the document, and in the text that was read if it is in the common layout (C86). There is at most one value at a place. If the document has no inline mappings and no inline sequences, every value that YAML finds at such a place is returned. Values inside inline collections are not found (refuted with an example).", "quantifier": "all documents that can be written as YAML, all files in the common layout, all paths of keys and positions", "why_tests_cant": "the claim is about all trees, all layouts, all paths of any depth and every reader that follows the YAML specification; tests compare a few lookups with expected strings", "anchors": ["src/yaml/insert.rs:find_values", "src/path.rs", "src/yaml/mod.rs:Yaml::for_hash", "src/yaml.pest", "src/yaml/parser.rs", "src/yaml/document.rs:Document::for_hash"]}
{"id": "C95", "title": "Conditions and wildcards select what YAML 1.2 finds", "statement": "find_values with a path of keys, single positions and wildcards, each with conditions field=value, leaves the document as it is and returns exactly the values, in the order of the file, that the path selects from the data that YAML 1.2 finds in the text written for the document: conditions of a key are about the mapping that holds the key, conditions of positions and wildcards are about the elements; a condition holds if the first entry with the field is a scalar with this text, with or without quotes. The strings that as_string takes from the values are the texts of the scalars. The same holds for the data of files in the common layout (C86) that are read. The documents have no inline collections (C94 and C26 have the examples for these).", "quantifier": "all documents without inline collections that can be written as YAML, all files in the common layout without inline collections, all paths with keys, positions, wildcards and conditions", "why_tests_cant": "the claim is about all trees, all layouts, all paths with all conditions and every reader that follows the YAML specification", "anchors": ["src/yaml/insert.rs:find_values", "src/path.rs", "src/yaml/mod.rs:Yaml::for_hash", "src/yaml/mod.rs:fits_conditions", "src/yaml/types.rs:as_string", "src/yaml/array_data.rs"]}
{"id": "C96", "title": "Edits with conditions and wildcards change exactly the selected places, for YAML 1.2", "statement": "insert_into_hash, remove_from_hash, rename_field and to_object with a path of keys, single positions and wildcards, each with conditions field=value, and with a key at the end: whatever data YAML 1.2 finds in the text before the edit, in the text after the edit it finds exactly the data that comes from it by changing every mapping that the path leads to and that meets the conditions of the last key. The entry is added at the end or overwritten if asked for; removed; gets the new key; or its value is put into a mapping with the new key; the first entry counts, if keys repeat. All other data, with its anchors and order, stays. The conditions are those of C91, and there are no inline collections. The same holds with the text that was read, for files in the common layout (C86).", "quantifier": "all documents without inline collections that can be written as YAML, all files in the common layout without inline collections, all paths with keys, positions, wildcards and conditions, all keys and values", "why_tests_cant": "the claim is about all trees, all layouts, all paths with all conditions, all values and every reader that follows the YAML specification", "anchors": ["src/yaml/insert.rs", "src/path.rs", "src/yaml/mod.rs:Yaml::for_hash", "src/yaml/mod.rs:edit_hash_structure", "src/yaml/mod.rs:fits_conditions", "src/yaml/document.rs:Document::format"]}
{"id": "C97", "title": "Moving fields into a subfield, as YAML 1.2 sees it", "statement": "move_to_subfield at the top of a document: whatever data YAML 1.2 finds in the text before, in the text after it finds the same mapping with the first entry of every given name taken out and put into the mapping under the subfield, in the order of the names. A mapping that is there keeps its place, its anchor and its other entries, and entries with the same names are overwritten; otherwise a new mapping is added at the end. Values keep their anchors and nested data. The result is 1. The names are plain, the subfield is not among them, one of the names is there, the subfield is missing or a block mapping, and there are no comments between the entries of the two mappings.", "quantifier": "all documents that can be written as YAML, all names and subfields", "why_tests_cant": "the claim is about all trees, all lists of names and every reader that follows the YAML specification", "anchors": ["src/yaml/insert.rs:move_to_subfield", "src/yaml/mod.rs:Yaml::format", "src/yaml/document.rs:Document::for_hash"]}
{"id": "C98", "title": "Every path selects what YAML 1.2 finds", "statement": "find_values with any path leaves the document as it is and returns exactly the values that the path selects from the data that YAML 1.2 finds in the text written for the document. A list of positions gives its elements in the order of the list: positions that do not exist and elements that do not meet the conditions are skipped, positions that are listed twice give their element twice. A path without keys gives the whole data if it meets the conditions. The same holds for the data of files in the common layout (C86) that are read. The documents have no inline collections.", "quantifier": "all documents without inline collections that can be written as YAML, all files in the common layout without inline collections, all paths", "why_tests_cant": "the claim is about all trees, all layouts, all paths with all lists of positions and all conditions and every reader that follows the YAML specification", "anchors": ["src/yaml/insert.rs:find_values", "src/path.rs", "src/yaml/mod.rs:Yaml::for_hash", "src/yaml/mod.rs:fits_conditions", "src/yaml/array_data.rs"]}
{"id": "C99", "title": "Moving fields into a subfield below a path of keys changes exactly that mapping in YAML 1.2", "statement": "move_to_subfield with a path of keys that leads to a mapping counts 1, and whatever data YAML 1.2 finds in the text written before, it finds the same data in the text written after, but with the fields moved in the mapping that the first entries of the keys lead to: the first entry of each name goes with its node into the mapping under the subfield, which keeps its place and anchor (entries with the same names are overwritten) or is new at the end. The mappings above may have comments and anchors; their other entries do not change. At least one of the fields is there, and there are no comments between the entries of the mapping and of the subfield. The same holds for the data of files in the common layout (C86) that are read.", "quantifier": "all documents that can be written as YAML, all files in the common layout, all paths of keys, all plain names of subfields and fields", "why_tests_cant": "the claim is about all trees, all depths, all layouts, all lists of names and every reader that follows the YAML specification", "anchors": ["src/yaml/insert.rs:move_to_subfield", "src/yaml/mod.rs:Yaml::for_hash", "src/path.rs", "src/yaml/document.rs"]}
{"id": "C100", "title": "Edits along every path change exactly the selected mappings in YAML 1.2", "statement": "For insert_into_hash, remove_from_hash, rename_field and to_object with any path that ends in a key: whatever data YAML 1.2 finds in the text written before the edit, it finds the same data in the text written after, but with the entry put, dropped, renamed or wrapped in exactly the mappings that the path leads to. Lists of positions are followed one after the other: positions that do not exist and elements that do not meet the conditions stay as they are, and a position that is listed twice is edited twice. The documents have no inline collections, and neither does the inserted value; the conditions about comments are those of C91. By C96_file the old text can be that of a file in the common layout.", "quantifier": "all documents without inline collections that can be written as YAML, all paths that end in a key, all new keys and values", "why_tests_cant": "the claim is about all trees, all paths with all lists of positions and all conditions and every reader that follows the YAML specification", "anchors": ["src/yaml/insert.rs:insert_into_hash", "src/yaml/insert.rs:remove_from_hash", "src/yaml/insert.rs:rename_field", "src/yaml/mod.rs:Yaml::for_hash", "src/yaml/mod.rs:fits_conditions", "src/path.rs", "src/yaml/array_data.rs"]}
