# Formal model of m8rex/yaml-subset: design

Prover: Rocq (Coq 8.16.1), sources in `rocq/theories`, logical name `Verif`.
The Rust source in `/repo` was read as text; it was never built or run here.

## Trusted base

* The Coq kernel (including `vm_compute`).
* What `Print Assumptions` prints under each theorem (in the `Prop_*.v` files).
  The intention is "Closed under the global context" everywhere: the model adds no
  axiom and uses no library that needs one.
* The hand translation from Rust/pest to Gallina.  Every definition cites the Rust lines.
* The behaviour assumed of the Rust standard library (listed in *Not modelled*).
* The behaviour assumed of `pest` / `pest_consume`: operational PEG semantics with a
  push/pop stack which is restored on backtracking, implicit whitespace in `path.pest`.
  The model of the engine (`Peg.v`) is written from the pest documentation and is
  checked against the repository's own insta snapshots and unit tests
  (`RepoTests.v`), which record real outputs of the crate.

## Representation

| Rust | model |
|---|---|
| `char` | `N` code point |
| `String`, `&str` | `list N`; byte length via `utf8_len` |
| `usize` counts | `nat` (no overflow) |
| `Vec<T>` | `list T` |
| `BTreeMap<String,_>` | sorted association list |
| `&mut self` methods | state passing: result value paired with the new tree |
| panics (`unwrap`, slice, underflow) | an explicit error value, never a default |
| general recursion in the PEG engine | fuel with explicit out-of-fuel result, plus a proof that a computable amount suffices |
| Unicode tables (`LETTER`, `NUMBER`) | parameters `unitab` for non-ASCII characters (statements quantify over them); ASCII part, `White_Space` and `Zs` exact |

## Files

| file | models |
|---|---|
| `Base.v` | strings, `split`, `join`, `trim`, byte length |
| `Ast.v` | `yaml/mod.rs` enum, `hash_data.rs`, `array_data.rs`, `hash_element.rs`, `aliased.rs`, `document.rs` data types |
| `Strings.v` | `yaml/string.rs`, `types.rs` |
| `Path.v` | `path.rs` data type and `insert` |
| `Insert.v` | `for_hash`, `edit_hash_structure`, all `YamlInsert` methods on every receiver |
| `ByCall.v` | `insert_into_hash_by_call` with a closure that has effects (a function of a state) |
| `MoveDoc.v` | the two movers on a `Document` |
| `Format.v` | `Yaml::format`, `AliasedYaml::format`, `Document::format`, `utils.rs` indent |
| `Num.v` | text accepted by `str::parse` for i64/u64/i8.../f64, integer `Display` |
| `Pretty.v` | `Pretty`, `MapYaml`, `VisitYaml` impls and helpers |
| `Peg.v` | the PEG engine: relational semantics, evaluator, their agreement |
| `PathGrammar.v` | `path.pest` and the consumer in `path.rs` |
| `YamlGrammar.v`, `Consume.v` | `yaml.pest` and the consumer in `parser.rs` |
| `Ser.v` | `yaml/serializer.rs` on serde's data model (`sval`) |
| `SerCalls.v` | `yaml/serializer.rs` called by impls of `Serialize` in any order (`MapSerializer` as a state machine) |
| `DeCalls.v` | `yaml/deserializer.rs` called by impls of `Deserialize` in any order (`VecMapAccess` and `VecSeqAccess` as state machines, visitors as trees of calls) |
| `MapMerge.v` | std's maps filled by serde's map visitor from `VecMapAccess` (equal keys merged) |
| `Hints.v` | every method of `Deserializer` for `YamlDeserializer`, apart from the visitors; `EnumAccess` and `VariantAccess` |
| `De.v`, `FromStr.v` | `yaml/deserializer.rs`: typed deserialization for a universe of Rust types (`ty`), untyped `deserialize_any`, `from_yaml_str` |
| `DeErr.v` | the typed reader of `deserializer.rs` with its errors and the texts of the crate's own messages |
| `Release.v` | the consumer in `parser.rs` with wrapping subtraction |
| `Attr.v` | the serde attributes `untagged`, `tag`, `flatten` over `deserializer.rs` and `serializer.rs` |
| `RepoSerde.v` | no new model: the unit tests of `deserializer.rs` without serde attributes, computed on the model |
| `RepoAttr.v` | no new model: the unit tests of `deserializer.rs` with serde attributes, computed on the model |
| `RepoTests.v` | no new model: the repository's snapshot tests and unit tests, computed on the model |
| `Spec_*.v` | vocabulary of the property statements, written apart from the model |
| `*Facts*.v`, `PegTree.v`, `YamlTree.v`, `YamlValues.v`, `Reads.v`, `FormatText.v`, `FormatScalars.v`, `FormatFlow.v`, `FormatBlock.v`, `FormatTree.v`, `FormatExample.v`, `TextExample.v`, `Gives.v`, `ParsedNeat.v`, `ParsedNeat2.v`, `Flow*.v`, `Layout*.v`, `Spell*.v`, `Buffer*.v`, `Node*.v`, `Refs*.v`, `Any*.v`, `StableExample.v`, `PolishExample.v`, `EditExample.v` | proofs |
| `Prop_*.v` | only property theorems, each closed by `exact`, with `Print Assumptions` and an `Example` |

## Not modelled

* Float arithmetic: a float value is represented by its decimal text; `Display`/`FromStr`
  of floats being inverse of each other is a std guarantee and is trusted.  Which texts
  `f64::from_str` accepts is modelled exactly.
* Error messages and positions of the parsers, and of reading types with serde attributes (all errors
  of one kind are one value). The errors of the typed reader are modelled in `DeErr.v`; the texts of
  errors made by std and serde are not.
* The rules `number` and `string_value` of `yaml.pest`, which nothing uses.
* Release-mode wrapping: arithmetic is checked as in a debug build (`|0` panics there); the difference for
  the parser is C72 (`Release.v`). No other modelled arithmetic can be out of range but by sheer size.
* pest's optimizer (it rewrites the grammar into an equivalent one) and its error reports.
* Memory, stack depth, integer overflow of `usize` counters, running time
  (C59 counts rule calls of the grammar, nothing else).
* `Debug`, `Clone`, the derive macros themselves.
* serde itself: the visitors of std types and of derived `Deserialize` impls are written
  from serde's documentation (`De.v`), and so are the buffer readers behind the attributes
  `untagged`, `tag` and `flatten` (`Attr.v`); with these, byte arrays, unit structs and
  flattened fields of struct variants are left out; other serde attributes and f32 are left out; a deserialized map is the list of its entries in `De.v`, and `MapMerge.v` makes the map of them
  (the order in which a map lists its entries is left out); struct and enum type names are left out (the crate ignores them).

## Properties: what is modelled, how proved

| id | model | proof |
|---|---|---|
| C01 | `Strings.v` | induction on the string through `split`/`join` |
| C02 | `Strings.v` | invariant of the wrapping loop; refutation witnesses by computation |
| C03 | `Strings.v` | characterise `trim_end_matches` |
| C04 | `Strings.v`, `Pretty.v` | loop invariant on the buffer |
| C05 | `Ser.v` | case analysis plus C04 and the same for double quotes |
| C06 | `Num.v`, `Ser.v`, `De.v` | inclusion between accepted number grammars; refutation by computation |
| C07, C08 | `Pretty.v` | "data view" function written separately; induction on trees |
| C09, C10, C11, C12 | `Pretty.v` | induction on trees; refutations by computation |
| C13, C14 | `Pretty.v` | separate pre-order/post-order list specs; induction on trees |
| C15–C28 | `Insert.v` | induction on paths; list lemmas about first occurrence |
| C29–C31 | `Insert.v`, `PathGrammar.v` | loop invariants; uses C33 because the code re-parses names |
| C32–C34 | `PathGrammar.v`, `Peg.v` | big-step PEG lemmas; termination by measure |
| C35 | everything | the class of canonical documents is an inductive predicate (`Spec_Format.v`); PEG derivations are built by mutual induction on it (`Reads.v`, `Format*.v`) |
| C36 | `Peg.v` | generic theorem: a grammar that passes a computable well-formedness check terminates on every input, with explicit fuel |
| C37 | `Peg.v` | stack-height typing of grammar expressions |
| C38–C40, C47 | `Consume.v` | shape typing of parse trees; witnesses by computation |
| C41, C42 | `Ser.v`, `De.v` | induction on types |
| C43 | everything | the serialized tree is shown canonical in the sense of C35 (`TextFacts.v`, `TextFacts2.v`), then C35 and C42; the class of values is `Spec_Text.v`; witnesses outside it by computation |
| C48 | `Strings.v`, `Consume.v` | quoted texts are split into canonical parts, then C35; loop invariants of folding; deviations by computation |
| C49, C50 | everything | what the grammar can yield, read off the evaluator rule by rule (`Gives.v`, `ParsedNeat*.v`), shows that calm parsed documents are canonical in the sense of C35; witnesses by computation |
| C51 | everything | pretty printing keeps documents canonical (induction on the class of C35), then C35, C08, C09, C10; witnesses by computation |
| C52 | everything except pretty printing | each edit keeps documents canonical (relations between old and new nodes that keep the class of C35, by induction on the path), then C35, C18, C28; witnesses by computation |
| C53 | `De.v`, `Pretty.v`, and for files everything | relation on nodes and registrations kept by every reader (induction on types, on fuel); a separating type is built by induction on the node; then C51 |
| C54 | the same, and the movers on documents (`MoveDoc.v`) | an invariant without places (keys, aliases and scalars that can be written), kept by every edit; empty mappings are written like inline ones; then C35 and C29; witnesses by computation |
| C55 | `De.v`, `FromStr.v`, `Num.v` against a relation between types, data (`look`) and values | induction over types; the field loop of a struct is composed of steps that each concern one entry; order and unknown fields follow from the relation alone |
| C56 | `Attr.v` on top of `Ser.v`, `De.v`: the calls of the derived `Serialize` impls and serde's buffer readers | induction over types, the reader from nodes, from the buffer, from a reference to it and from flattened entries together; refutations by computation |
| C57 | `Attr.v`, `De.v` against the meaning of a node (`any_means`) and its data (`look`) | agreement of two readers as a relation on outcomes; termination and monotonicity in the number of steps by the same induction |
| C58 | `Peg.v`, `YamlGrammar.v`, `Consume.v` on a text and on the same text with CR LF | simulation of one run of the grammar by the other, expression by expression, with a checked condition on every rule; quoted scalars by their pieces; naturality of the consumer functions |
| C59 | `Peg.v`, `YamlGrammar.v`, `Format.v` | runs that count rule calls; lower bound by induction on the nesting; upper bound from the fuel that suffices |
| C44, C45 | `De.v` | list lemmas; induction on fuel |
| C46 | `Num.v`, `De.v` | decimal printing/parsing round trip |
| C60 | `ByCall.v` (`Insert.v` with the state of the closure threaded through) | induction on the steps, list induction for the loops |
| C61 | `Peg.v`, `YamlGrammar.v`, `Consume.v` on every layout of a document | what each rule reads from free text: blank and comment lines, inline collections with line breaks, block scalars at any indentation, what may follow a value; mutual induction over the layout relation |
| C62 | `Insert.v` (insert, remove, rename, to_object on documents) and `Format.v` | an edit with count n is n steps at one mapping of the tree; a step at one place changes the text at one place; parsed documents are tidy |
| C63 | `Attr.v` (read from nodes and from the buffer) and `De.v` | every reader agrees with its relation, by induction on the type; collecting the fields of a struct is a fold whose result is known per field; flattened fields are a chain, each with what it reads and what it leaves |
| C64 | `Insert.v` (`edit_hash`, `for_hash` and the closures) | two edits in a row are one edit with a fused closure (`edits_fuse`), so each law is a fact about one list of entries |
| C65 | `Ser.v`, `Num.v` (`show_int`), `Pretty.v` (quoting) | `ser v = Some y` iff the relation `writes v y` of `Spec_Ser.v`; failure iff `has_bad_key v` |
| C66 | `Strings.v` (`create_folded`, `parse_folded`), `Pretty.v` | `visible` (no spaces, no line breaks) is invariant; lines are narrow and full |
| C67 | `PathGrammar.v` (`parse_path_res`) | value iff `path_text`, error iff not `loose_path`, panic otherwise (`Spec_Syntax.v`) |
| C68 | `YamlGrammar.v`, `Consume.v` (`parse_yaml`) | panic iff the parse tree has a `bad_block` (`Spec_Panic.v`, stated on the tree with byte widths) |
| C69 | `YamlGrammar.v`, `Consume.v` (`parse_yaml`) | read as a document with an inline sequence iff the text is a `flow_file` (`Spec_Flow.v`, a grammar of texts) |
| C70 | `De.v` (`from_yaml`, `de_any`), `Attr.v` (`read`) | reading a tree with references = reading the tree with every reference replaced (`unfolds`, `Spec_Refs.v`) |
| C71 | `YamlGrammar.v`, `Consume.v` (`parse_yaml`) | every accepted text is `spelled` by its document (`Spec_Spell.v`, a grammar of texts without priorities) |
| C72 | `Release.v` (`yact_release`, `parse_yaml_release`) | against `parse_yaml`, `bad_block` (C68) and `spared` (`Spec_Release.v`) |
| C73 | `DeErr.v` (`de_e`, `from_yaml_e`) | `first_complaint`, `complaint`, `asks` (`Spec_Err.v`), `yields` (`Spec_Reads.v`) |
| C74 | `De.v` (`de`, `from_yaml`), `FromStr.v` | `yields` (`Spec_Reads.v`) |
| C75 | `De.v` (`de_any`) | `tells`, `needs`, `nested`, `lost`, `endless`, `comes_back` (`Spec_Any.v`) |
| C76 | `SerCalls.v` (`run`, `run_map`) | `makes`, `kept`, `misuses`, `orderly` (`Spec_Calls.v`), `writes` (`Spec_Ser.v`) |
| C77 | `DeCalls.v` (`serve`, `serve_seq`, `visit_map`, `visit_seq`) | `possible`, `follows`, `trips`, `polite`, `treads`, `agrees`, the visitors (`Spec_Visit.v`) |
| C78 | `YamlGrammar.v`, `Consume.v` (`parse_yaml`) | `heading` (`Spec_Flow.v`), `begins`, `headed` (`Spec_Heading.v`) |
| C79 | `MapMerge.v` (`collect`, `held`, `read_maps`), `De.v`, `Ser.v` | `yields` (`Spec_Reads.v`), `keeps`, `last_entry`, `proper`, `unambiguous` (`Spec_Maps.v`) |
| C80 | `Hints.v` (`tell`), `De.v` | `hears`, `chain`, `left_behind`, `asks_for` (`Spec_Told.v`) |
| C81 | `Hints.v` (`ask`), `DeCalls.v`, `De.v` | `derived` and its visitors (`Spec_Told.v`), `matches` (`Spec_Visit.v`), `yields` (`Spec_Reads.v`) |
| C82 | `Format.v`, `YamlGrammar.v`, `Consume.v` | `joined`, `cut` (`Spec_Join.v`), `entries`, `elements` (`Spec_Layout.v`) |
| C83 | `Format.v`, `Strings.v` (and `Ser.v` in the refutations) | `yaml_file` and the productions before it (`Spec_Yaml12.v`), `content_of`, `portable_doc` (`Spec_Portable.v`) |
| C84 | `De.v` (`any_unquoted`), `Ser.v`, `Num.v` | `core`, `taken`, `only_yaml`, `only_rust`, `too_long`, `finite` (`Spec_Core.v`) |
| C85 | `Ser.v`, `Format.v` | `resolved`, `intends`, `exports`, `awkward` (`Spec_Export.v`) |
| C86 | `YamlGrammar.v`, `Consume.v` | `common` (`Spec_Common.v`), `layout` (`Spec_Layout.v`), `yaml_file` (`Spec_Yaml12.v`) |
| C87 | `Pretty.v`, `Format.v`, `Ser.v` | `gentle`, `alike`, `tidy` (`Spec_Tidy.v`), `yaml_file` (`Spec_Yaml12.v`), `resolved` (`Spec_Export.v`) |
| C88 | `Attr.v`, `Ser.v` | `node_for` (`Spec_Emit.v`), `text_node`, `shortest` (`Spec_Ser.v`) |
| C89 | `Peg.v`, `YamlGrammar.v`, `Consume.v` | `white_file`, `space_separator`, `white`, `wnode` (`Spec_White.v`) |
| C90 | `Format.v`, `Pretty.v`, `Ser.v`, `YamlGrammar.v`, `Consume.v` | `yaml_file` (`Spec_Yaml12.v`), `portable_doc` (`Spec_Portable.v`), `exports`, `intends` (`Spec_Export.v`), `resolved` (`Spec_Export.v`), `gentle`, `stays`, `tidy` (`Spec_Tidy.v`), `common` (`Spec_Common.v`) |
| C91 | `Insert.v`, `Path.v`, `Format.v` | `amends` (`Spec_Amend.v`), `yaml_file` (`Spec_Yaml12.v`), `portable_doc` (`Spec_Portable.v`), `filled`, `no_comment`, `no_inline_comment`, `last_key` (`Spec_Edit.v`) |
| C92 | `YamlGrammar.v`, `Consume.v`, `Insert.v`, `Path.v`, `Format.v`, `Pretty.v` | `revises` (`Spec_Amend.v`), `common` (`Spec_Common.v`), `yaml_file` (`Spec_Yaml12.v`), `filled`, `no_comment`, `no_inline_comment`, `last_key` (`Spec_Edit.v`), `gentle`, `stays` (`Spec_Tidy.v`), `resolved` (`Spec_Export.v`) |
| C93 | `Insert.v`, `Path.v`, `Format.v` | `keys_path`, `keyed`, `leads`, `rewrites`, `not_inline` (`Spec_Named.v`), `gains`, `sets`, `rekeys`, `nests`, `loses`, `lacks` (`Spec_Amend.v`), `yaml_file` (`Spec_Yaml12.v`), `portable_doc` (`Spec_Portable.v`) |
| C94 | `Insert.v`, `Path.v`, `Format.v`, `YamlGrammar.v`, `Consume.v` | `steps`, `value_at`, `only_block` (`Spec_Seek.v`), `yaml_file` (`Spec_Yaml12.v`), `portable_doc`, `content_of` (`Spec_Portable.v`), `common` (`Spec_Common.v`), `lacks` (`Spec_Amend.v`) |
| C95 | `Insert.v`, `Path.v`, `Strings.v`, `Format.v`, `YamlGrammar.v`, `Consume.v` | `gather`, `meets`, `entry`, `body`, `text` (`Spec_Gather.v`), `step`, `path_of` (`Spec_Insert.v`), `only_block` (`Spec_Seek.v`), `yaml_file` (`Spec_Yaml12.v`), `portable_doc`, `content_of` (`Spec_Portable.v`), `common` (`Spec_Common.v`) |
| C96 | `Insert.v`, `Path.v`, `Format.v`, `YamlGrammar.v`, `Consume.v` | `change`, `put`, `drop`, `rekey`, `wrap`, `turns`, `at_entry`, `at_position` (`Spec_Change.v`), `meets` (`Spec_Gather.v`), `step`, `path_of` (`Spec_Insert.v`), `only_block` (`Spec_Seek.v`), `yaml_file` (`Spec_Yaml12.v`), `portable_doc` (`Spec_Portable.v`), `common` (`Spec_Common.v`) |
| C97 | `Insert.v`, `MoveDoc.v`, `Path.v`, `PathGrammar.v`, `Format.v` | `shift`, `shift_top`, `taken`, `rest_of` (`Spec_Shift.v`), `put`, `drop`, `turns` (`Spec_Change.v`), `entry` (`Spec_Gather.v`), `chosen` (`Spec_Move.v`), `yaml_file` (`Spec_Yaml12.v`), `portable_doc` (`Spec_Portable.v`) |
| C98 | `Insert.v`, `Path.v`, `Format.v`, `YamlGrammar.v`, `Consume.v` | `select`, `meets`, `entry`, `body` (`Spec_Gather.v`), `only_block` (`Spec_Seek.v`), `yaml_file` (`Spec_Yaml12.v`), `portable_doc`, `content_of` (`Spec_Portable.v`), `common` (`Spec_Common.v`) |
| C99 | `Insert.v`, `MoveDoc.v`, `Path.v`, `PathGrammar.v`, `Format.v`, `YamlGrammar.v`, `Consume.v` | `shift_at`, `shift`, `reaches` (`Spec_Shift.v`), `put`, `drop`, `turns`, `at_entry` (`Spec_Change.v`), `entry` (`Spec_Gather.v`), `chosen` (`Spec_Move.v`), `keys_path` (`Spec_Named.v`), `yaml_file` (`Spec_Yaml12.v`), `portable_doc` (`Spec_Portable.v`), `common` (`Spec_Common.v`) |
| C100 | `Insert.v`, `Path.v`, `Format.v` | `alter` (`Spec_Alter.v`), `put`, `drop`, `rekey`, `wrap`, `turns`, `at_entry`, `at_position` (`Spec_Change.v`), `meets` (`Spec_Gather.v`), `last_key` (`Spec_Edit.v`), `only_block` (`Spec_Seek.v`), `yaml_file` (`Spec_Yaml12.v`), `portable_doc` (`Spec_Portable.v`) |

The rest of this file is updated as the development grows (see *Status* below).

## Status

See `MANIFEST.json` for the per-property status and theorem names.
