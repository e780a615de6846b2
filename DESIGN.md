# Formal model of xsd-parser-rs

Subject: `/repo` (lumeohq/xsd-parser-rs, pinned commit). Tool: Rocq (Coq 8.16.1).
The properties are listed in `properties.jsonl`, their state in `MANIFEST.json`,
mutation experiments in `seeded/LOG.jsonl`.

## 1. How the code is modelled

* **Strings** are lists of Unicode scalar values (`str = list N`). Rust's byte-based
  operations (`len`, slicing, `char_indices`) go through the UTF-8 length of each
  character, so slices off a character boundary are visible (they panic).
* **Outcomes**: `res A = Ok a | Err | Panic`. `Result::Err` is `Err` (the message text is
  not modelled); `panic!`, `unwrap` on `None`/`Err`, `unreachable!`, `assert!`, slice
  errors, `RefCell` borrow errors are `Panic`.
* **Machine integers** are `N`/`Z` with the range written explicitly. Where arithmetic can
  overflow, the model takes the build mode (`overflow-checks` on: `Panic`, off: wrap) as
  an argument and theorems quantify over it.
* **f64** values are `Coq.Floats.SpecFloat` values with precision 53 and emax 1024
  (computable, no axioms).
* **Unicode tables** (`is_alphanumeric`, `is_numeric`, `is_lowercase`, `is_uppercase` on
  non-ASCII characters) are a record parameter; the ASCII part is fixed in the model.
  Theorems hold for every table, hence for the real one.
* **XML documents** are trees (tag local name, un-namespaced attributes, in-scope
  namespaces, children); ancestors are passed as a list, so `parent_element` is its head.
* **Interior mutability** (`RefCell` in `Struct`) becomes state passing; a live mutable
  borrow is an explicit marker so that a conflicting borrow is `Panic`.
* **HashMap**: insertion/lookup semantics as an association list; iteration order is a
  universally quantified permutation.

## 2. Trusted base

* Coq's kernel (and `vm_compute` for concrete witnesses).
* `Print Assumptions` below each property theorem: the expected answer everywhere is
  "Closed under the global context"; any exception is listed in section 5.
* The correspondence model/code (by reading; each definition cites file and lines).
* The behaviour of external crates, re-implemented as ordinary functions from knowledge of
  their sources: `num-bigint` integer parsing, `bigdecimal` parsing and display, `chrono` `FixedOffset` display and the
  `%Y-%m-%d` / `%H:%M:%S` formats, `Inflector` case conversion, `roxmltree` accessors,
  Rust `core` integer parsing/formatting, `f64` parsing/formatting (correctly rounded; the fewest
  digits that are read back), `str` methods. Error texts are not modelled.

### Not modelled

The XML tokenizer (roxmltree, xml-rs), yaserde's derive output for structs and enums (C68 and C69 read
the `rename`, `prefix`, `attribute` and container of a member as yaserde documents them; C83 adds
`flatten` for a member of an enum, whose variants are taken to be read from and written as elements
of their name and prefix; C84 adds `complexContent` restrictions of types declared before; C85
states what is written for whatever is held),
clap and the file system beneath the CLIs (`Cli.v` has an idealised one: no links, no
permissions, the input apart from the output), rustc itself (the compiled meaning
of generated code is modelled only for the facet validators and, in C70, for reading and writing
simple types; there an enumeration that meets an unknown text is taken to read nothing, although
yaserde goes on with the variant `__Unknown__`; in C75 an attribute is taken to be read like the
text of an element of the same type), logging/Debug output.

## 3. Files (`rocq/theories`)

| file | content |
|---|---|
| `Str.v` | Rust strings, chars, slices, splitting, integer parse/format |
| `StrFacts.v` | lemmas about them |
| `ArithProofs.v`, `PropsStd.v` | SpecFloat's sums and products as nearest numbers; durations with any seconds (C18) |
| `Tz.v`, `GTypes.v`, `Ints.v`, `BigDec.v`, `Dur.v`, `DateTime.v` | models of xsd-types (timezones, gYear..., integers, decimals, durations, dates) |
| `Serde.v` | model of the code generated by xsd-macro-utils and of `xsd-types/src/utils.rs`, over reader/writer events |
| `Prim.v` | Rust's parsers for the primitive types (`i8`...`u64`, `bool`, `f64` value space), used by C31/C51 |
| `Float.v` | `f64::from_str` (its `Display` is in `Dur.v`), as used for xs:double and xs:float |
| `Xml.v` | roxmltree documents |
| `Names.v`, `Comment.v` | name and comment formatting of the generator (used by both xsd-parser and wsdl-parser, whose copies are textually identical) |
| `Entity.v` | `parser/types.rs` and the entities handed from parser to generator |
| `Parser.v` | `parser/*.rs`: every node parser |
| `Link.v` | `parser/schema.rs`/`types.rs`: resolution of bases and attribute groups, `parser::parse` |
| `Gen.v` | `generator/*.rs` incl. facet validators |
| `Wsdl.v` | wsdl-parser and the text written by wsdl-parser-cli |
| `Cli.v` | directories and files of the command line tools, over an idealised file system |
| `Builder.v` | `generator/builder.rs` and the choice of sub-generators of `generator/mod.rs` and own base generators (`generator/base.rs`); own methods are functions |
| `XmlEq.v` | `xsd-types/src/utils/xml_eq.rs` over event streams |
| `Order.v` | derived comparison of durations (`types/duration.rs`) and of dates with times (`types/datetime.rs`, `datetimestamp.rs`, chrono) |
| `Spec*.v` | independent specifications: grammars and value spaces (`SpecLex`, `SpecDur`, `SpecDate`, `SpecDouble`), Rust's string functions (`SpecStr`), events (`SpecSerde`), names (`SpecNames`), built-ins (`SpecBuiltin`), what a schema document means (`SpecSchema`), inheritance (`SpecLink`), Rust tokens and items (`SpecRust`), items of a file (`SpecGen`), meaning of validator checks (`SpecCheck`), tidy documents (`SpecDoc`), WSDL (`SpecWsdl`), outputs of the tools (`SpecCli`), scopes of type names (`SpecScope`), traits that types provide and code demands (`SpecTraits`), types that contain themselves (`SpecSize`), distinct names (`SpecDistinct`), valid instances and what types hold (`SpecFit`; with choices `SpecChoice`, with restrictions `SpecRestrict`, all of these inside each other `SpecNest`), what is written (`SpecWrite`; with choices `SpecFlat`), values of simple types and what code makes of texts (`SpecValue`), texts and values of the built-in types, order (`SpecLibrary`), instances with values (`SpecTrip`), services of the usual kind (`SpecService`) |
| `*Facts.v`, `*Proofs*.v` | lemmas |
| `Props*.v` | the property theorems only, each followed by `Print Assumptions`, and examples |

`validation/` compares the model with the expected outputs shipped in `/repo` (see its README).

Simplifications beyond section 1:

* `Link.v`: a reference to a struct is its position in the file; `Struct::subtypes` is always
  empty at this stage (`C42_no_struct_subtypes`). Types and attribute groups are one list.
* `Gen.v`: the generator's in-place edits of `Rc<RefCell>` fields are returned as a new file
  (`C48` talks about the second run). All generators are the defaults of `GeneratorBuilder` (own ones are in `Builder.v`).
* `Wsdl.v`: imports, bindings, faults and parameters are their XML nodes (the code only wraps
  them). Iteration order of `HashMap` is an argument. `wsdl_code` is the text the tool writes;
  reading the file and formatting/writing it are not modelled.
* `usize` is 64 bits wide.

## 4. Plan per property

| id | model | method |
|---|---|---|
| C01 | `Tz.parse_timezone` char by char | case analysis on the string, grammar `TzLex` |
| C02 | `Tz.display_offset` | arithmetic on seconds, all offsets |
| C03-C07 | `GTypes.*_parse` incl. byte slicing | both directions of an iff with a grammar relation |
| C08 | `GTypes.*_display` | round trip through the grammar, plus the i32::MIN witness |
| C09 | same | panic characterisation; witnesses |
| C10-C12 | `Ints.*` over `Z` | induction on digit strings |
| C13-C16 | `Dur.parse` state machine | invariant along the character loop; grammar for the accepted language |
| C17 | SpecFloat | witness by computation |
| C18 | `Dur.to_std_duration`; the double of the seconds is read by `SpecDouble.units` | arithmetic; `ArithProofs.round_pos`, `mul_nearest`, `sub_exact`: SpecFloat's rounding is `round_ratio`, so products are nearest and a difference that is a double is exact; the nanoseconds are then compared with the whole numbers around them |
| C19-C21 | `DateTime.*` with a model of chrono's numeric items | grammar + round trip |
| C22 | `Serde.serialize/deserialize` on event lists | direct |
| C23-C25 | `Serde.list_*`, `Serde.union_*` parametric in the item codec | induction on lists |
| C26-C27 | `Comment.format_comment` | induction on lines and words |
| C28-C31 | `Names.*` (Inflector loops, sanitize) | loop invariants over character lists, witnesses |
| C32 | `Names.modify_type` | induction |
| C33-C39, C44-C46 | `Parser.parse_node` structural recursion on trees | induction on trees |
| C40-C43 | `Link.link` over the file's struct table | invariants along the processing order, witnesses |
| C47-C50 | `Gen.generate` | induction on entities, witnesses |
| C51 | `Gen.gen_validate_impl`; `SpecCheck.run_checks` gives the emitted checks a meaning | induction on facets |
| C52-C55, C58 | `Wsdl.*` | induction on children; permutation argument |
| C62 | `Cli.process_dir` over input trees and a disk as a function from paths | induction on trees; which paths a step may change |
| C63 | mentions and introductions of the items of a file; `Parser`, `Link`, `Gen` composed | induction on the tree: every entity is fine in its module; kept by resolution |
| C64 | the same items, with the derives of each definition; `SpecTraits.able` is a proof system for "this type has this trait" | every entity is sound in its module; induction on tuples and aliases |
| C65 | the same items, with the types each is made of; `SpecSize.sized` is a proof system for finite size, `SpecSize.grounded` says the document has no cycle | every type named in an item is below its declaration in the order of the document; well-founded induction |
| C66 | the same items, what each introduces and where; `SpecDistinct.given`/`expands` list the names a document gives its types; `SpecScope.borrowed` are the names of the library that code must not define anew (premises of C64, C65, C68, C69 exclude it, C66 proves it) | the names introduced by an entity are a sub-list of those the document gives; kept by resolution of bases |
| C67 | the same items, member names; `SpecDistinct.slots`/`bases`/`groups`/`contributes` list the members a document gives a type | the shown fields of a struct are a sub-list of the document's list, kept when bases and groups are merged (`MemberProofs.linked_members`) |
| C68 | `SpecFit.valid` (instances after XML Schema Part 1), `SpecFit.regular`, `SpecFit.fits` (what members of generated types can hold) | members of linked structs are slots of the elements and attributes the type is composed of (`FitProofs.made_slots`); names resolve to the definition of the declared type (`FitProofs2.named_goal`); induction on validity (`FitProofs2.valid_fits`) |
| C69 | `SpecWrite.written` (what is written for the value read from an instance), `SpecWrite.alike`, `SpecWrite.one_content` | the element members of a struct are in the order of the particles of its groups, permuted group-wise by inheritance (`FitProofs.slots_are`); with one full group the order is kept (`FitProofs2.single_elements`); induction on validity (`FitProofs2.valid_written`) |
| C70 | `SpecValue.denotes` (texts and values of simple types after XML Schema Part 2), `SpecValue.reads`, `shown`, `accepts` (what generated types do with a text, as the macros of xsd-macro-utils, C49 to C51 and yaserde's enums have it), `SpecValue.regular_simple` | generated items of a simple type follow its description (`ValueProofs.all_good`, induction on the type); names stand for one item (C66), so reading is a function (`reads_unique`); `ValueLib` gives the text and integer types without premises on the library; `C70_tuple`, `C70_vector`, `C70_vector_shown`, `C70_union` tie the description to the macros of Serde.v |
| C71 | `PropsXmlEq.delivered`, `kept` (events of a text, white space left out) | the final event of a stream occurs nowhere else in it, so zipped streams that agree have the same length |
| C72 | `PropsBuilder.given` (what was asked for), `occurs` (kinds of entities in an entity) | one lemma for all slots (`slot`); induction on entities with enough fuel |
| C73 | `SpecLibrary.literal` (texts and values of built-in types after XML Schema Part 2), `SpecLibrary.faithful` (the exceptions), `SpecLibrary.plain_simple` | the theorems on the single types (C05 to C23, C44) put together (`LibraryProofs.library_complete`, `library_exact`), then C70 |
| C74 | `SpecLibrary.shorter` (Part 2, 3.2.6.2: four reference moments), `SpecLibrary.instant` | `OrderProofs`: months are at least 28 days, years add up; the lexicographic order of fields is that of sums |
| C75 | `SpecTrip.handled`, `same_value`, `understood`, `shown_again`; `SpecFit.valid`, `fits` and `SpecWrite.written`, `same` take the texts as parameters (C68 and C69 are the instances that ignore them) | `TripProofs.document_trip`: `FitProofs2.valid_fits` and `valid_written` with the reading of simple types of C70 (`ValueProofs.all_good`) for the texts; then the library of C73 |
| C76 | `SpecService.exchanges`, `service`, `exchange_tokens` (what an operation says, the function for it) | what is read inside of a schema does not depend on what is around it (`ServiceProofs.schema_alone`, ancestor lists that agree up to the schema); then C52 to C55 and C60 |
| C77 | `SpecService.offered`, `callable_name`, `strangers` | elements with a definition introduce their type outside of modules; names of the schemas are lodged outside or under modules of their own (`ServiceProofs.settled_lodged`), lists of items that leave each other room join (`distinct_join`) |
| C78 | `SpecDouble.xsd_double`: literals with the nearest number of a binary format (`nearest`), order by size | `FloatProofs.round_nearest`: the quotient scaled to 53 bits and rounded; `reach_round`: all of the interval of a double is rounded to it; `DisplayProofs.shortest_ok`: 17 digits are always in the interval; then the text |
| C79 | `SpecStr`: UTF-8 bytes, the list of white-space characters, inductive splittings, words and lines, digits (`SpecLex.num`) | each function is equal to its relation, both ways (`StrProofs`) |
| C80 | laws of reading and replacing (`PropsEntity.comment_of`, `kind_of`) | case analysis over the variants |
| C81 | `PropsBase.laid_out` (white space at the beginning of lines, empty lines), `within` (part of a text), `differ_in_layout` | induction on the fuel, texts taken apart piece by piece; counterexamples by computation |
| C82 | `SpecValue.xml_items` (items of a text in XML), `PropsLists.counts` (what a facet says about the number of items) | the type is found as in C70 (`ValueProofs`); the item type `String` reads everything, so nothing is skipped; the counterexample by computation |
| C83 | `SpecChoice.chosen` (instances with choices), `SpecChoice.fits_all` (what structs with a flattened enum hold) | induction on the instance; the struct and the enum are found as in C66 (`top_placed`), instances without choices by C68; counterexamples by computation |
| C84 | `SpecRestrict.sound` (instances with types derived by restriction), `SpecFit.fits` | induction on the instance; the fields of the struct are those of the restriction and the kept ones of the base (`restricted_fields`), dropped elements are taken as a group without instances; then as C68 (`struct_holds`) |
| C85 | `SpecWrite.written`, `alike`, `SpecFit.fits`; `SpecFlat.written_all`, `SpecChoice.fits_all` | members of generated structs have one name each and no two the same one (`items_apart`, from the identifiers being distinct); then inductions on `fits` (`fits_alike`, `alike_fits`) and on `written` (`written_once`, `written_again`) |
| C86 | `SpecNest.nested` (instances with sequences, extensions, restrictions and choices at each level), `SpecNest.fits_deep`, `SpecNest.written_deep` | induction on the instance; what C68, C84 and C83 prove of one level is stated for children held in any sense (`struct_shape`, `choice_shape`); writing (`PropsDeep.v`): the rules of C85 for children of either kind, existence, uniqueness, likeness and the fixed point each by induction; values (`PropsNestValue.v`): the same induction with the texts of C75; the values after writing (`SpecNest.same_deep`): once more, over the members that one level is written from (`struct_kept`, `flat_kept`) |
| C87 | `SpecValue.denotes`, `SpecValue.reads`, `SpecValue.shown` | the induction on simple types of C70 with one more conjunct (`ValueProofs.settled`): one Rust value for all texts of a value, also for the one that is written, and for unions `chosen`; reading is a function (`reads_unique`) |
| C88 | `SpecNest.nested`, `SpecNest.written_deep`, `SpecTrip.shown_again` | for any way of writing texts: if what is written for a text is written again unchanged, so it is for instances (`deep_settle`), and if one text is written, one instance is (`deep_unique`), by induction on what is written; texts by C87, those of unions by `chosen` |
| C61 | `BigDec.decimal_from_str`, `decimal_display`; values in Q | case analysis on the text forms |
| C60 | `Parser`, `Link`, `Gen` composed; conditions on the document only (`SpecDoc`) | induction on the tree, invariants kept by resolution |
| C59 | `Gen.generate`, comments as tokens of `SpecRust.lex` (word by word) | induction on entities |
| C56, C57 | `Parser.parse_complex_type`, `parse_list` | case analysis on children |

No property of the list is considered inexpressible; where only part is provable the
theorem is named `..._partial` and the gap is stated next to it; properties the code
violates get a `..._refuted` witness and the strongest true restriction.

## 5. Assumptions report

Every theorem named in `MANIFEST.json` is followed by `Print Assumptions` in its `Props*.v`
file, and the answer is "Closed under the global context" for each of them: no axioms, neither
from the standard library nor from elsewhere, are used.

Modelled from knowledge of external sources, hence trusted: chrono 0.4.35 (numeric parsing
items, `FixedOffset`), num-bigint 0.4.4 (`from_str`), bigdecimal 0.4.3 (`from_str`, `Display`; the
build-time threshold of the exponential form is an argument), Inflector 0.11.4 (`to_pascal_case`,
`to_snake_case`), roxmltree accessors, the xml-rs event reader as configured by yaserde
(`Serde.v`, text channel), Rust `core` (`split`, `trim`, `lines`, `parse`, `Display`).

### How to read `seeded/LOG.jsonl`

Each line is one edit of a definition in a scratch copy. Lines without failed theorems are edits
that the build survived and that change nothing a property is about, or that broke a script only;
lines with `theorems_tightened` made a theorem say more. `broke_at` names the lemmas or theorems whose proof script was the first to fail in its
file. `theorems_failed` are the property theorems whose proofs use one of those, found from the
names in the proof texts. So for most lines the evidence is that a proof on the way to the theorem
no longer goes through. A failing script alone does not show that the theorem is false of the
edited definition: a script may also fail because an edit changed the shape of a definition.
The harness computes no counterexamples. Some edits are to the description of what generated
code does (`Spec*.v`), not to the model of the repository's own functions.

## 6. Findings

What the code does although a user would expect otherwise. Each item is a theorem with a
witness that the model computes.

Reading and writing values:

* Non-ASCII text of the right byte length makes the readers of gYear, gMonth, gDay and the time
  zone panic (`C09_gtypes_panic_refuted`). A length facet of 2^32 or with a blank makes the
  generator panic (`C60_length_refuted`), a type nested in itself through its base the parser
  (`C42_never_panics_refuted`).
* Texts outside XML Schema are read: `_` in integers, exponents in decimals, odd durations,
  `inf`, a final `z` (`C10_integer_only_xsd_refuted`, `C61_only_literals_refuted`,
  `C14_only_literals_refuted`, `C78_lenient_refuted`, `C21_lowercase_z_refuted`).
* Literals are rejected: years below 0 or above 9999, fractions of a time, 24:00:00, `1` for
  xs:boolean, `-0` (`C19_all_literals_refuted`, `C20_all_literals_refuted`,
  `C21_all_literals_refuted`, `C30_every_literal_refuted`).
* Values are written as other texts: small decimals with exponents, infinity as `inf`, 1.14
  seconds as another number (`C61_written_literal_refuted`, `C78_infinity_refuted`,
  `C17_fraction_round_trip_refuted`); PT2.3S is 2.299999999 s as a std::time::Duration
  (`C18_decimal_refuted`); blanks around strings and bad list items get lost
  (`C22_string_round_trip_refuted`, `C23_all_items_refuted`, `C25_union_round_trip_refuted`). What
  a union writes may be read as another member (`C87_union_refuted`). For ten built-in types the
  library misses or changes a literal (`C73_exceptions_refuted`).
* Durations with a sign are longer than all without, so bounds on them are wrong (`C74_refuted`,
  `C74_signs_refuted`, `C74_bound_refuted`). xs:float has the values of xs:double
  (`C78_float_refuted`). Defaults of two integer types are invalid (`C12_defaults_refuted`).

Names in the generated code:

* Reserved or empty identifiers, unescaped foreign names, names that collide when turned into
  Rust names, types called like library types (`C28_every_name_refuted`, `C29_every_type_refuted`,
  `C31_names_distinct_refuted`, `C47_variants_refuted`, `C66_*_refuted`, `C67_*_refuted`,
  `C77_names_refuted`, `C77_reserved_refuted`, `C77_parameter_refuted`).
* References without a definition: commented-out aliases, renamed choices, lists of anonymous
  unions, foreign namespaces in WSDL (`C63_*_refuted`, `C57_item_type_named_refuted`,
  `C77_namespace_refuted`, `C58_resolved_refuted`, `C76_*_refuted`); with an own base generator
  also anonymous types of members (`C81_nested_refuted`), and cases of enums are never named by it
  (`C81_cases_refuted`).
* Two definitions of one name in valid schemas: a choice in an element, two choices, two lists of
  anonymous unions (`C60_element_choice_refuted`, `C60_two_choices_refuted`,
  `C60_two_unions_refuted`).
* Quotes and line breaks of the schema are not escaped (`C47_sane_needed_refuted`); comments lose
  lines of one character and those of facets (`C59_everything_refuted`); an alias with
  documentation of its own is not commented out (`C49_always_commented_refuted`); generating twice
  from one file gives other code (`C48_always_refuted`), and references reach the types nested in
  a member under three conditions only (`C50_always_refuted`).

Structure of the generated types:

* Lost or doubled members: bases declared later or hidden by an element of their name, attribute
  and element groups outside of sequences, groups in groups, sequences before a group reference
  (`C40_*_refuted`, `C41_*_refuted`, `C43_*_refuted`, `C56_*_refuted`, `C68_group_refuted`).
* An optional element with maxOccurs written is required (`C33_natural_container_refuted`,
  `C68_optional_refuted`); elements inherited by an extension are written after its own
  (`C69_extension_refuted`); text content, wildcards and repeated choices have no member
  (`C68_text_refuted`, `C68_mixed_refuted`, `C68_wildcard_refuted`, `C68_choice_refuted`,
  `C68_repeated_refuted`). Unqualified local elements are expected in the target namespace
  (`C68_unqualified_refuted`), and an element that an extension repeats has one member
  (`C68_inherited_refuted`).
* Choices: alternatives with an anonymous type have no value, local alternatives of a qualified
  schema no prefix, repeated choices one value; a choice in the anonymous type of an element gives
  a struct and an enum of the same name (`C83_*_refuted`).
* An element of type xs:NMTOKENS, xs:IDREFS or xs:ENTITIES is taken for a repeated element of
  xs:string (`C82_member_refuted`).
* Types of infinite size, because only names decide about indirection
  (`C44_finite_size_refuted`, `C65_*_refuted`), and unrelated types hit by the same rule
  (`C44_only_recursive_refuted`).
* Traits that are missing: unions are not `Clone`, enumerations not `FromStr`, dates have no
  order for their bounds (`C64_*_refuted`).

Validation: structs check nothing, facets of a declared base are not inherited, lengths count
bytes, NaN passes, patterns are ignored, attributes of anonymous types are strings
(`C51_always_refuted`, `C70_*_refuted`, `C75_*_refuted`).

The tools: of two files with one stem one output is lost, and one bad file stops the others
(`C62_*_refuted`); the code for WSDL depends on the order of a `HashMap`
(`C54_determined_refuted`) and not every operation has a function
(`C54_every_operation_refuted`, `C55_*_refuted`). The test helper for XML tells the order of
attributes apart and ignores white space (`C71_attribute_order_refuted`,
`C71_white_space_refuted`).
