{"id": "C01", "title": "Time-zone suffix: exact accepted language and value", "statement": "parse_timezone(s) returns Ok(offset) exactly when s is \"Z\" or sign hh ':' mm with two ASCII digits each, hh:mm <= 14:00 and mm < 60, and the offset is then the signed number of seconds the text denotes; on every other string it returns Err, except the empty string and strings whose first character is not one byte long, where it panics.", "quantifier": "every string (any length, any Unicode characters)", "why_tests_cant": "The input space (all strings) is infinite; a test samples a handful of literals.", "anchors": ["xsd-types/src/types/utils.rs: parse_timezone"]}
{"id": "C02", "title": "Time-zone display/parse round trip is exact or refused, never misread", "statement": "For every FixedOffset, displaying it and parsing the text back gives the same offset when it is a whole number of minutes of absolute value at most 14 hours, and gives Err for every other offset; a different offset is never produced.", "quantifier": "every chrono FixedOffset (all 172799 second values)", "why_tests_cant": "Exhaustive over the offset type and tied to the string formatter; tests try four offsets.", "anchors": ["xsd-types/src/types/utils.rs: parse_timezone", "xsd-types/src/types/gday.rs: Display"]}
{"id": "C03", "title": "gDay: exact lexical space and value range", "statement": "GDay::from_str(s) is Ok(d, tz) exactly when s is \"---\" followed by two ASCII digits denoting d in 1..=31 and an optional XSD time zone denoting tz; the components returned are the ones written.", "quantifier": "every string on which the parser does not panic, every day, every time zone", "why_tests_cant": "The input space (all strings) is infinite; a test samples a handful of literals.", "anchors": ["xsd-types/src/types/gday.rs: GDay::from_str, GDay::new"]}
{"id": "C04", "title": "gMonth: exact lexical space and value range", "statement": "GMonth::from_str(s) is Ok(m, tz) exactly when s is \"--\" followed by two ASCII digits denoting m in 1..=12 and an optional XSD time zone denoting tz.", "quantifier": "every string on which the parser does not panic, every month, every time zone", "why_tests_cant": "The input space (all strings) is infinite; a test samples a handful of literals.", "anchors": ["xsd-types/src/types/gmonth.rs: GMonth::from_str, GMonth::new"]}
{"id": "C05", "title": "gMonthDay: exact lexical space, with month lengths", "statement": "GMonthDay::from_str(s) is Ok(m, d, tz) exactly when s is \"--MM-DD\" plus an optional time zone and d is a day that exists in month m of some year (29 February included, 30 February, 31 April etc. excluded).", "quantifier": "every string on which the parser does not panic, every month/day pair", "why_tests_cant": "The input space (all strings) is infinite; a test samples a handful of literals.", "anchors": ["xsd-types/src/types/gmonthday.rs: GMonthDay::from_str, GMonthDay::new"]}
{"id": "C06", "title": "gYear: exact lexical space, sign and absence of year zero", "statement": "GYear::from_str(s) is Ok(y, tz) exactly when s is an optional '-', at least four ASCII digits whose value is non-zero and fits i32, and an optional time zone; y carries the written sign.", "quantifier": "every string, every i32 year", "why_tests_cant": "The input space (all strings) is infinite; a test samples a handful of literals.", "anchors": ["xsd-types/src/types/gyear.rs: GYear::from_str, parse_str_positive, GYear::new"]}
{"id": "C07", "title": "gYearMonth: exact lexical space", "statement": "GYearMonth::from_str(s) is Ok(y, m, tz) exactly when s is an optional '-', at least four digits (non-zero, fitting i32), '-', two digits denoting a month in 1..=12, and an optional time zone.", "quantifier": "every string, every year and month", "why_tests_cant": "The input space (all strings) is infinite; a test samples a handful of literals.", "anchors": ["xsd-types/src/types/gyearmonth.rs: GYearMonth::from_str, parse_str_positive, GYearMonth::new"]}
{"id": "C08", "title": "g-types: displayed values parse back to themselves", "statement": "For GDay, GMonth, GMonthDay, GYear and GYearMonth, every value accepted by `new` whose time zone is absent or a whole-minute offset of at most 14 hours displays to a text that from_str maps back to exactly that value; the only excluded values are those with year i32::MIN, whose display is a panic (overflow checks on) or an unparsable text (off).", "quantifier": "every valid value of the five types, both overflow-check build modes", "why_tests_cant": "The value space has billions of members and the law couples two functions.", "anchors": ["xsd-types/src/types/gday.rs", "xsd-types/src/types/gmonth.rs", "xsd-types/src/types/gmonthday.rs", "xsd-types/src/types/gyear.rs", "xsd-types/src/types/gyearmonth.rs"]}
{"id": "C09", "title": "g-types: panics only on non-ASCII text", "statement": "from_str of the five g-types never panics on a string of ASCII characters; it can panic on non-ASCII strings of the matching byte length for GDay, GMonth and GMonthDay, and never panics for GYear and GYearMonth.", "quantifier": "every string", "why_tests_cant": "The input space (all strings) is infinite; a test samples a handful of literals.", "anchors": ["xsd-types/src/types/gday.rs: parse_value", "xsd-types/src/types/gmonthday.rs: parse_value"]}
{"id": "C10", "title": "Integer types: exact accepted language", "statement": "Integer, NonNegativeInteger, PositiveInteger, NonPositiveInteger and NegativeInteger accept exactly an optional single sign ('-' only for the signed ones) followed by decimal digits (possibly interspersed with '_', which XSD does not allow) denoting a number in the type's range, and return that number.", "quantifier": "every string, unbounded magnitude", "why_tests_cant": "The input space (all strings) is infinite; a test samples a handful of literals.", "anchors": ["xsd-types/src/types/integer.rs", "xsd-types/src/types/positive_integer.rs", "xsd-types/src/types/negative_integer.rs", "xsd-types/src/types/non_negative_integer.rs", "xsd-types/src/types/non_positive_integer.rs"]}
{"id": "C11", "title": "Integer types: display/parse round trip and range", "statement": "Every in-range value of the five integer types displays to a text that parses back to the same value, and every successfully parsed value lies in the range of its type; out-of-range numbers are rejected.", "quantifier": "every integer", "why_tests_cant": "Unbounded integers; tests use one literal per type.", "anchors": ["xsd-types/src/types/integer.rs", "xsd-types/src/types/positive_integer.rs", "xsd-types/src/types/negative_integer.rs"]}
{"id": "C12", "title": "Integer types: default values are valid members", "statement": "The Default value of each integer type is a member of the XSD type it models (refuted for PositiveInteger and NegativeInteger: default is 0, whose serialised form the same type refuses to parse).", "quantifier": "all five types", "why_tests_cant": "Relates Default, Display and FromStr of each type; no test looks at Default.", "anchors": ["xsd-types/src/types/positive_integer.rs: derive(Default)", "xsd-types/src/types/negative_integer.rs: derive(Default)"]}
{"id": "C13", "title": "duration: every XSD duration literal is accepted with the right components", "statement": "For every literal of the form -?P(nY)?(nM)?(nD)?(T(nH)?(nM)?(n(.f)?S)?)? with at least one component (and one after T), with numbers below 2^64 and fewer than 20 fraction digits, Duration::from_str returns exactly the written sign, years, months, days, hours and minutes, and the seconds as the floating-point sum of the integer part and the fraction.", "quantifier": "every literal in the XSD lexical space within the numeric limits, both overflow-check build modes", "why_tests_cant": "The input space (all strings) is infinite; a test samples a handful of literals.", "anchors": ["xsd-types/src/types/duration.rs: Duration::from_str"]}
{"id": "C14", "title": "duration: nothing outside the lexical space is accepted", "statement": "Duration::from_str accepts nothing but XSD duration literals (refuted: the empty string, \"P1Y0\", \"P1Y0.5\", \"P0T1H\" and \"PT1.5S0.7\"-style texts are accepted); what is accepted is exactly an XSD literal possibly interspersed with discarded zero-valued numbers, as characterised by the theorem.", "quantifier": "every string without numeric overflow", "why_tests_cant": "The input space (all strings) is infinite; a test samples a handful of literals.", "anchors": ["xsd-types/src/types/duration.rs: Duration::from_str"]}
{"id": "C15", "title": "duration: numeric overflow behaviour", "statement": "A component of 2^64 or more, or 20 or more fraction digits, is never reported as an error: it panics when overflow checks are on and silently yields the value modulo 2^64 when they are off.", "quantifier": "every digit string, both build modes", "why_tests_cant": "Needs unbounded digit strings and both build profiles.", "anchors": ["xsd-types/src/types/duration.rs: ParsingContext, digit arm"]}
{"id": "C16", "title": "duration: display/parse round trip", "statement": "Every Duration with whole non-negative seconds below 2^53 displays to a text that parses back to an equal Duration in every component; the display always is an XSD duration literal; negative zero-length durations keep their sign.", "quantifier": "every Duration value with integral seconds", "why_tests_cant": "Seven independent 64-bit components.", "anchors": ["xsd-types/src/types/duration.rs: Display, FromStr"]}
{"id": "C17", "title": "duration: fractional seconds round trip", "statement": "Displaying and re-parsing a Duration with fractional seconds returns the same f64 (refuted: the parser rounds twice, so some values come back one ulp away, and values below 1e-19 overflow the denominator).", "quantifier": "every finite non-negative f64", "why_tests_cant": "Depends on IEEE rounding for all 2^63 values.", "anchors": ["xsd-types/src/types/duration.rs: fill_seconds, Display"]}
{"id": "C18", "title": "duration: conversion to std::time::Duration", "statement": "to_std_duration fails exactly when years or months are non-zero; otherwise for integral seconds it returns seconds + 60*(minutes + 60*(hours + 24*days)) with zero nanoseconds whenever that fits 64 bits, and discards the sign (so P and -P of the same length convert to the same value). For fractional seconds below 2^64 the whole seconds are exact and the nanoseconds are below 10^9 and within one of the exact fraction (so a decimal fraction may lose a nanosecond); what it does for seconds that are no positive number, infinite or beyond 64 bits is stated too.", "quantifier": "every Duration value", "why_tests_cant": "64-bit arithmetic over four components and the sign.", "anchors": ["xsd-types/src/types/duration.rs: to_std_duration"]}
{"id": "C19", "title": "date: accepted language and round trip", "statement": "Date::from_str reads every YYYY-MM-DD literal (four-digit year) with an optional XSD time zone, returning the calendar date and zone written; the exact accepted language (blanks, short fields, signed years) is characterised and there is no panic; a Date survives display and parse exactly when its zone is an XSD zone and its year is 0..=9999, or negative with a zone that is not western; XSD literals with a negative year and no zone or with five-digit years are rejected.", "quantifier": "every valid calendar date, every zone", "why_tests_cant": "The input space (all strings) is infinite; a test samples a handful of literals.", "anchors": ["xsd-types/src/types/date.rs"]}
{"id": "C20", "title": "time: accepted language and round trip", "statement": "Time::from_str reads every hh:mm:ss literal with an optional XSD time zone and returns the time and zone written; the exact accepted language is characterised and there is no panic; a Time survives display and parse exactly when it is a whole second (leap second only as :60) with an XSD zone; fractional literals and 24:00:00 (legal XSD) are rejected.", "quantifier": "every time of day, every zone", "why_tests_cant": "The input space (all strings) is infinite; a test samples a handful of literals.", "anchors": ["xsd-types/src/types/time.rs"]}
{"id": "C21", "title": "dateTime: missing time zone is read as UTC and nothing else changes", "statement": "DateTime::from_str reads every XSD literal with a four-digit year and an hour below 24 as written, with UTC for a missing zone; its exact accepted language and that of DateTimeStamp::from_str are characterised and neither panics; a text with zone means the same to both (except the zones 'z' and U+2212, which DateTime rejects), and a text without zone is read as the text with 'Z' appended; a value survives display and parse exactly when its year is 0..=9999 and its offset a whole number of minutes (and a leap-second mark sits on second 59); literals with negative or five-digit years or 24:00:00 are rejected.", "quantifier": "every string", "why_tests_cant": "The input space (all strings) is infinite; a test samples a handful of literals.", "anchors": ["xsd-types/src/types/datetime.rs: from_str", "xsd-types/src/types/datetimestamp.rs: from_str"]}
{"id": "C22", "title": "scalar XML serde: element round trip at event level", "statement": "For every type using the derived text serde, serialising a value into an element and deserialising the events gives from_str of display(v) with the blanks at both ends trimmed by the reader (nothing is trimmed for the lexical types of xsd-types; an empty text comes back as from_str(\"\")); deserialising anything not starting with an element start is an error; with skip_start_end only the text is written.", "quantifier": "every value, every event stream", "why_tests_cant": "Quantifies over all types and event streams.", "anchors": ["xsd-types/src/utils/yaserde.rs: serialize, deserialize", "xsd-macro-utils/src/lib.rs: default_serde"]}
{"id": "C23", "title": "list types: exact parse and round trip", "statement": "from_str of a generated list tuple type returns the parses of the whitespace-separated tokens in order, dropping the tokens that do not parse; it never fails; display/parse round-trips every list whose items display to non-empty whitespace-free texts that parse back to the item.", "quantifier": "every list length, every item type with such a display", "why_tests_cant": "Lists are unbounded and item types are parameters.", "anchors": ["xsd-macro-utils/src/tuple.rs: from_str, display"]}
{"id": "C24", "title": "union types: first matching member wins", "statement": "Deserialising a union returns the first member type, in declaration order, that accepts the text, with the value that member parses; if none accepts, the text is kept in the unknown variant; it never fails.", "quantifier": "every list of member types, every text", "why_tests_cant": "Member lists are unbounded.", "anchors": ["xsd-macro-utils/src/union.rs: serde"]}
{"id": "C25", "title": "union types: serialisation round trip", "statement": "Serialising and deserialising a union value returns the same variant exactly when no earlier member accepts the displayed text; an unknown text is serialised as the empty string, so it is lost.", "quantifier": "every member list, every value", "why_tests_cant": "Interaction of all member types.", "anchors": ["xsd-macro-utils/src/union.rs: serde"]}
{"id": "C26", "title": "Documentation can never escape its comment", "statement": "Every line the comment formatter emits starts with the indentation followed by //, whatever the documentation text contains (any line separators, any Unicode), and the output is empty or ends in a newline.", "quantifier": "every documentation text, indentation and line width", "why_tests_cant": "The input space (all strings) is infinite; a test samples a handful of literals.", "anchors": ["xsd-parser/src/generator/default.rs: default_format_comment", "xsd-parser/src/generator/utils.rs: split_comment_line", "wsdl-parser/src/generator/mod.rs: default_format_comment"]}
{"id": "C27", "title": "Documentation words are preserved in order", "statement": "The words appearing after the // markers are exactly the whitespace-separated words of the documentation lines whose trimmed byte length is at least 2, in order; output lines are filled greedily: a line exceeds the width limit only if it holds a single word, and a word moves to the next line only if it does not fit.", "quantifier": "every documentation text and width", "why_tests_cant": "The input space (all strings) is infinite; a test samples a handful of literals.", "anchors": ["xsd-parser/src/generator/utils.rs: split_comment_line"]}
{"id": "C28", "title": "Field and module names are valid Rust identifiers", "statement": "For every ASCII name containing a letter or digit after its last ':', format_name yields a snake_case Rust identifier with the same letters and digits, with an underscore exactly at the word boundaries; the exceptions are the reserved word `try` (not escaped) and names without letters or digits (empty result). For non-ASCII names the word boundaries are wrong, since a byte index is used as a character index.", "quantifier": "every ASCII name", "why_tests_cant": "The input space (all strings) is infinite; a test samples a handful of literals.", "anchors": ["xsd-parser/src/generator/default.rs: default_format_name", "xsd-parser/src/generator/utils.rs: sanitize, RS_KEYWORDS"]}
{"id": "C29", "title": "Type names are valid Rust type paths", "statement": "For every type name whose local part has an ASCII letter or digit, format_type_name yields the built-in mapping, or for own-namespace and unprefixed names an unqualified Rust identifier (except `try`), or for foreign-namespace names the prefix, `::` and a non-empty alphanumeric name. That a foreign name is always a valid Rust path is false: neither the prefix nor the part after `::` is escaped (a:0fst, a:self, my-ns:t, type:t).", "quantifier": "every name, every target namespace", "why_tests_cant": "The input space (all strings) is infinite; a test samples a handful of literals.", "anchors": ["xsd-parser/src/generator/base.rs: format_type_name", "xsd-parser/src/generator/default.rs: default_format_type"]}
{"id": "C30", "title": "Built-in type mapping", "statement": "A name is mapped to a Rust built-in exactly when its prefix is the schema's own XMLSchema prefix and its local part one of the 46 simple built-ins of XML Schema Part 2 in the table; each is mapped to a Rust type with the same value space; for the integer types the Rust parser reads every literal of every value in the range (except '-0' for ranges without negative numbers), nothing outside the range and no other text (underscores aside). Every literal of every type is false (xs:boolean rejects 1 and 0).", "quantifier": "every prefixed name, every XMLSchema prefix including the default namespace", "why_tests_cant": "The input space (all strings) is infinite; a test samples a handful of literals.", "anchors": ["xsd-parser/src/generator/utils.rs: match_built_in_type"]}
{"id": "C31", "title": "Distinct schema names give distinct Rust names", "statement": "That two different schema names never give the same Rust name is false (fooBar and foo-bar). It holds for field names made of lower-case words joined by single underscores and for type names in upper camel case.", "quantifier": "all pairs of names", "why_tests_cant": "Pairs of arbitrary strings.", "anchors": ["xsd-parser/src/generator/default.rs: default_format_name, default_format_type"]}
{"id": "C32", "title": "Type modifiers", "statement": "The Rust type built from modifiers is () if any modifier is Empty, else Vec<T> if any is Recursive, else T wrapped once per Array (Vec) and Option in order, None changing nothing.", "quantifier": "every modifier list, every type text", "why_tests_cant": "Modifier lists are unbounded.", "anchors": ["xsd-parser/src/generator/default.rs: default_modify_type"]}
{"id": "C33", "title": "Occurrence constraints decide the container", "statement": "An element is generated as Vec exactly when minOccurs > 1 or maxOccurs is unbounded or > 1, as Option when minOccurs = 0 and maxOccurs is absent (or unreadable), and as a plain required field otherwise - in particular for the explicit minOccurs=\"0\" maxOccurs=\"1\", where the user expects Option.", "quantifier": "every pair of minOccurs/maxOccurs attribute texts", "why_tests_cant": "The input space (all strings) is infinite; a test samples a handful of literals.", "anchors": ["xsd-parser/src/parser/element.rs: element_modifier", "xsd-parser/src/parser/xsd_elements.rs: min_occurs, max_occurs"]}
{"id": "C34", "title": "Attribute use decides optionality", "statement": "A local attribute becomes Option<T> when use is absent or optional, T when required, and no field at all when prohibited; its name and type are the ones written (ref when there is no name/type, String when there is neither).", "quantifier": "every attribute element", "why_tests_cant": "All attribute combinations and names.", "anchors": ["xsd-parser/src/parser/attribute.rs: parse_attribute", "xsd-parser/src/generator/struct_field.rs: generate"]}
{"id": "C35", "title": "Schema-level declarations: one entity each, in document order", "statement": "Parsing a schema yields exactly one entity per non-annotation, non-attributeGroup child element, in document order, and one attribute-group entity per attributeGroup child; text and comments contribute nothing; named simpleType/complexType/element children give entities carrying their name.", "quantifier": "every schema document on which the parser does not panic", "why_tests_cant": "Documents are unbounded trees.", "anchors": ["xsd-parser/src/parser/schema.rs: parse_schema", "xsd-parser/src/parser/mod.rs: parse"]}
{"id": "C36", "title": "Sequence and all: one field per child, in order, none lost", "statement": "The struct of a sequence (or all) has exactly one field per non-annotation child element in document order, named and typed as written, with element multiplicity from its own occurrence attributes.", "quantifier": "every sequence on which the parser does not panic", "why_tests_cant": "Unbounded children.", "anchors": ["xsd-parser/src/parser/sequence.rs: elements_to_fields", "xsd-parser/src/parser/all.rs: elements_to_fields"]}
{"id": "C37", "title": "Enumerations: one case per value, in order, value kept", "statement": "A simple-type restriction whose enumeration values are all non-empty alphanumeric-or-dash texts becomes an enum with one case per enumeration facet in order whose XML name is the value; if some value is not of this kind no enum is made and all values stay as facets of a tuple struct over the base type, whose validation ignores them.", "quantifier": "every restriction element", "why_tests_cant": "Unbounded facets and Unicode values.", "anchors": ["xsd-parser/src/parser/restriction.rs: simple_type_restriction, is_simple_enumerations, cases"]}
{"id": "C38", "title": "Choice: one case per element child; other particles are dropped", "statement": "A choice becomes an enum with exactly one case per element child in order; nested sequences, choices, groups and wildcards contribute nothing, and anonymous types of the elements are dropped (the case has no payload).", "quantifier": "every choice element", "why_tests_cant": "Unbounded children.", "anchors": ["xsd-parser/src/parser/choice.rs: parse_choice", "xsd-parser/src/parser/element.rs: parse_case_of_choice"]}
{"id": "C39", "title": "Union: one case per member, in order", "statement": "A union has one case per non-empty memberTypes token (split at spaces only) followed by one per nested simpleType, in order, each nested case naming the nested type generated beside it.", "quantifier": "every union element", "why_tests_cant": "Unbounded members.", "anchors": ["xsd-parser/src/parser/union.rs: parse_union"]}
{"id": "C40", "title": "Extension: inherited fields are all present", "statement": "After parse, the struct of a type extending a base declared earlier in the schema has its own fields followed by all fields of the base (transitively) except those whose name it redeclares; when the base is declared after the extending type and itself extends another, the inherited fields of the grand-base are lost.", "quantifier": "every schema, every inheritance depth and declaration order", "why_tests_cant": "Inheritance depth and declaration order are unbounded.", "anchors": ["xsd-parser/src/parser/types.rs: Struct::extend_base", "xsd-parser/src/parser/mod.rs: parse"]}
{"id": "C41", "title": "Base placeholders never reach generated code", "statement": "After parse no top-level struct, nor any struct nested in its fields, has a field named __base__ provided bases are declared before the types using them (at the top level: in any order); own fields are kept in order and only fields of base types are appended; the wsdl path, which skips this step, does emit them.", "quantifier": "every schema", "why_tests_cant": "Unbounded nesting.", "anchors": ["xsd-parser/src/parser/types.rs: Struct::extend_base", "wsdl-parser-cli/src/main.rs: process_single_file"]}
{"id": "C42", "title": "Resolution never panics", "statement": "Base resolution terminates on every schema, cyclic inheritance included, and panics (RefCell already borrowed) exactly when an anonymous type nested in a type extends that enclosing type itself.", "quantifier": "every schema", "why_tests_cant": "Depends on aliasing between every pair of types.", "anchors": ["xsd-parser/src/parser/types.rs: Struct::extend_base, StructField::extend_base"]}
{"id": "C43", "title": "Attribute groups are inlined", "statement": "A complex type without content model that references attribute groups gets all their attributes appended in order after its own (refuted in general: references beside a sequence, in nested anonymous types, in choice types and inside other groups are lost).", "quantifier": "every schema", "why_tests_cant": "Unbounded references.", "anchors": ["xsd-parser/src/parser/types.rs: extend_attribute_group", "xsd-parser/src/parser/complex_type.rs: parse_complex_type"]}
{"id": "C44", "title": "Recursive element types are boxed in Vec", "statement": "Every element field whose type is the enclosing type is generated as Vec so the Rust type has finite size; conversely a field is so marked only if its type name ends with the enclosing name, which also hits unrelated longer names.", "quantifier": "every pair of names", "why_tests_cant": "The input space (all strings) is infinite; a test samples a handful of literals.", "anchors": ["xsd-parser/src/parser/sequence.rs: elements_to_fields", "xsd-parser/src/generator/default.rs: default_modify_type"]}
{"id": "C45", "title": "Namespace selection", "statement": "The target namespace is the first in-scope declaration whose URI is targetNamespace, absent if none; the XMLSchema prefix is the first named declaration of the XMLSchema URI, else the default one.", "quantifier": "every list of namespace declarations", "why_tests_cant": "Unbounded lists.", "anchors": ["xsd-parser/src/parser/schema.rs: parse_schema", "xsd-parser/src/parser/utils.rs: target_namespace"]}
{"id": "C46", "title": "Parser never panics on the supported subset", "statement": "parse never panics on schemas built from the supported constructs used with their required attributes (grammar given in the specification), for arbitrary nesting depth.", "quantifier": "every schema tree of the subset", "why_tests_cant": "Unbounded trees.", "anchors": ["xsd-parser/src/parser/node_parser.rs: parse_node"]}
{"id": "C47", "title": "Generator: output is the concatenation of per-type outputs in order", "statement": "generate_rs_file emits, in schema order, one item per entity: each struct, enum, tuple struct definition appears exactly once with its name, and each has a Validate impl.", "quantifier": "every entity list", "why_tests_cant": "Unbounded lists.", "anchors": ["xsd-parser/src/generator/mod.rs: generate_rs_file", "xsd-parser/src/generator/struct.rs", "xsd-parser/src/generator/enum.rs", "xsd-parser/src/generator/tuple_struct.rs"]}
{"id": "C48", "title": "Generating twice gives the same text", "statement": "Calling generate_rs_file twice on the same RsFile gives the same text when no field carries nested types (refuted in general: nested field type names are prefixed in place each time).", "quantifier": "every RsFile", "why_tests_cant": "Hidden mutation through RefCell over unbounded trees.", "anchors": ["xsd-parser/src/generator/struct.rs: fields"]}
{"id": "C49", "title": "Type aliases are always commented out", "statement": "A generated alias line is entirely within a comment when the alias has no (effective) documentation; with documentation the `pub type` line becomes live code.", "quantifier": "every alias", "why_tests_cant": "The input space (all strings) is infinite; a test samples a handful of literals.", "anchors": ["xsd-parser/src/generator/alias.rs: generate"]}
{"id": "C50", "title": "Nested types are referenced through the module that declares them", "statement": "Every field with nested types is emitted with type mod::Type where mod is the snake_case module emitted beside the struct and Type is declared in it.", "quantifier": "every struct", "why_tests_cant": "Unbounded nesting.", "anchors": ["xsd-parser/src/generator/struct.rs: fields, subtypes"]}
{"id": "C51", "title": "Facet validation accepts exactly the values allowed by the facets", "statement": "The generated validate body returns Ok exactly when the value satisfies every length/minLength/maxLength (in bytes) and min/max inclusive/exclusive facet; other facets never reject; a length facet value that is not a u32 makes the generator panic.", "quantifier": "every facet list, every value, every totally ordered value type", "why_tests_cant": "Unbounded facet lists and values.", "anchors": ["xsd-parser/src/generator/validator.rs", "xsd-parser/src/generator/tuple_struct.rs: validation"]}
{"id": "C52", "title": "WSDL: names are unique or the parser refuses", "statement": "Definitions::new succeeds only if message, portType, binding names and import namespaces are pairwise distinct, and then lookup by name returns the unique declaration.", "quantifier": "every WSDL document", "why_tests_cant": "Unbounded children.", "anchors": ["wsdl-parser/src/parser/definitions.rs: Definitions::new"]}
{"id": "C53", "title": "WSDL: operation classification", "statement": "An operation is request-response / one-way / solicit-response / notification according to the order of its first input/output children; faults are the fault children after them; otherwise construction panics.", "quantifier": "every operation element", "why_tests_cant": "Unbounded children.", "anchors": ["wsdl-parser/src/parser/port_type.rs: OperationType::new"]}
{"id": "C54", "title": "WSDL: one async function per operation, independent of map order", "statement": "generate emits exactly one function per operation of every portType; operations of one portType keep document order; any HashMap iteration order only permutes portType blocks.", "quantifier": "every WSDL document, every map iteration order", "why_tests_cant": "Iteration order is nondeterministic.", "anchors": ["wsdl-parser/src/generator/mod.rs: generate"]}
{"id": "C55", "title": "WSDL: message lookup ignores prefixes", "statement": "The message of a parameter is the one whose name is the text after the last ':'; a request-response operation whose message is missing yields no argument/empty return type rather than an error.", "quantifier": "every message reference", "why_tests_cant": "The input space (all strings) is infinite; a test samples a handful of literals.", "anchors": ["wsdl-parser/src/parser/definitions.rs: get_message_by_param", "wsdl-parser/src/generator/function.rs: Function::new"]}
{"id": "C56", "title": "Composition of complex types", "statement": "The struct of a complex type has the fields of its last content element followed by one field per attribute in order; a derived type has the fields of its last sequence, its attributes, the base placeholder and then the attributes written beside the content; a choice type gives the enum NameChoice with a nested struct Name holding the attributes and the choice field. Refuted: no content is lost (an attribute group after the sequence of an extension loses the sequence, attribute groups beside a sequence are dropped).", "quantifier": "every complex type, every enclosing context", "why_tests_cant": "Unbounded trees and contexts.", "anchors": ["xsd-parser/src/parser/complex_type.rs: parse_complex_type", "xsd-parser/src/parser/extension.rs: complex_content_extension", "xsd-parser/src/parser/restriction.rs: complex_content_restriction"]}
{"id": "C57", "title": "List types keep their item type", "statement": "A list becomes a tuple struct whose type is the written itemType, or that of the nested simple type, with one more Array modifier; facets and nested types of the item are kept. Refuted: the item type always has a name (a list of an anonymous union is Vec<>).", "quantifier": "every list element, every nesting", "why_tests_cant": "Unbounded nesting.", "anchors": ["xsd-parser/src/parser/list.rs: parse_list"]}
{"id": "C58", "title": "WSDL: the code of a document is that of its schemas and its operations", "statement": "The command line tool writes, for a WSDL document, the items of every schema embedded in its types elements in document order, followed by the functions of its operations; it succeeds exactly if every schema is parsed and generated and every operation has a function. Refuted: embedded schemas are treated like schemas on their own (base types and attribute groups stay unresolved).", "quantifier": "every WSDL document, every map iteration order", "why_tests_cant": "Unbounded documents.", "anchors": ["wsdl-parser-cli/src/main.rs: process_single_file", "wsdl-parser/src/parser/types.rs: schemas"]}
{"id": "C59", "title": "Documentation reaches the generated code", "statement": "The comments of the generated file are, word by word and in order, the documentation of its types, members, variants and nested types, each directly before the item it documents; comment line breaks never change this. Refuted: everything documented is kept (lines of one character, facets and prohibited attributes lose theirs).", "quantifier": "every file with sane names", "why_tests_cant": "Unbounded entities and texts.", "anchors": ["xsd-parser/src/generator/base.rs: format_comment", "xsd-parser/src/generator/struct.rs", "xsd-parser/src/generator/enum.rs", "xsd-parser/src/generator/tuple_struct.rs", "xsd-parser/src/generator/struct_field.rs", "xsd-parser/src/generator/enum_case.rs"]}
{"id": "C60", "title": "Every supported, tidy document becomes well-formed code", "statement": "A schema document in the supported subset, whose naming attributes are names, whose length facets are 32-bit numbers and in which nothing derives from the declaration around it, is parsed, resolved and generated without an error or panic, and the text lexes to the items of its types; every named simple and complex type and every untyped global element is defined at the top level under its name. Refuted: lengths need not be bounded; definitions have distinct names (element with a choice, two choices in a sequence, anonymous members of two unions).", "quantifier": "every document", "why_tests_cant": "Unbounded trees; the whole pipeline.", "anchors": ["xsd-parser/src/lib.rs: generate", "xsd-parser/src/parser/mod.rs: parse", "xsd-parser/src/generator/mod.rs: generate_rs_file"]}
{"id": "C61", "title": "xs:decimal values are exact and survive a round trip", "statement": "Every xs:decimal literal is read with its exact rational value; what Display writes is read back as the same mantissa and scale, whatever the threshold for the exponential form; the text is itself an xs:decimal literal exactly if the scale is between 0 and the number of digits plus the threshold. Refuted: only literals are read (exponents, underscores, a sign after the point); a literal is written back as a literal (0.0000001 becomes 1E-7).", "quantifier": "every text, every mantissa and scale, every threshold", "why_tests_cant": "The input space (all strings) is infinite; a test samples a handful of literals.", "anchors": ["xsd-types/src/types/decimal.rs: from_str, fmt"]}
{"id": "C62", "title": "Directories are converted file by file", "statement": "Processing a directory succeeds exactly if every file in it, at any depth, can be read and converted; then the directory structure is mirrored, every file has its code at its place with the extension rs, nothing else is changed, and the order of reading does not matter. Even a failing run only writes right code to right places. Refuted: every file has an output (equal stems), a failing file does not affect the others, any tree of convertible files succeeds (x.xsd beside a directory x.rs).", "quantifier": "every tree, every order of reading, every previous state of the disk", "why_tests_cant": "Unbounded trees; the order of read_dir is not specified.", "anchors": ["xsd-parser-cli/src/main.rs: main, process_dir, process_single_file, write_to_file", "wsdl-parser-cli/src/main.rs: process_dir"]}
{"id": "C63", "title": "Type names in generated code refer to something", "statement": "If every type reference of a supported, tidy document names a built-in type, a declaration of the document that introduces a type, or another namespace, then every type mentioned in the generated code (fields, variants, tuples, aliases, checks, at any module depth) is a library type, a type introduced in the same or an enclosing module or in the named module, a path into the module of another namespace, or a container of one of these. Refuted: declared references always resolve (reference to an undocumented typed element, a choice in an anonymous complex type, a list of an anonymous union).", "quantifier": "every document", "why_tests_cant": "Unbounded documents and nesting; renaming, modules and resolution interact.", "anchors": ["xsd-parser/src/parser/mod.rs: parse", "xsd-parser/src/generator/default.rs: format_type_name", "xsd-parser/src/generator/base.rs", "xsd-parser/src/generator/struct.rs", "xsd-parser/src/generator/alias.rs"]}
{"id": "C64", "title": "Generated code provides the traits it demands", "statement": "In the code of a supported, tidy document whose type references name declared types, whose simple types are practical (no unions; enumerations of built-in text types; bounds on ordered built-in types; lengths on built-in texts and lists; lists of single values) and whose definitions do not clash, every trait demanded by a derive, by UtilsTupleIo, UtilsDefaultSerde or UtilsUnionSerDe, by the Default of an enumeration or by a check of Validate is provided by the type it is demanded of. Refuted without the restriction: a field of a union type (no Clone), an enumeration in a union or list (no FromStr), an enumeration of numbers (no From<&str>), a bound on a date (no PartialOrd), a length of a type derived from text (no len).", "quantifier": "every document", "why_tests_cant": "Whether the derives of one type meet the demands of another depends on arbitrarily long chains of types in unbounded documents.", "anchors": ["xsd-parser/src/generator/base.rs", "xsd-parser/src/generator/tuple_struct.rs", "xsd-parser/src/generator/enum.rs", "xsd-parser/src/generator/validator.rs", "xsd-macro-utils/src/lib.rs", "xsd-macro-utils/src/tuple.rs", "xsd-macro-utils/src/union.rs"]}
{"id": "C65", "title": "Generated types have a finite size", "statement": "If no declaration of a supported, tidy document with declared type references contains itself (through types of elements and attributes, bases, members of unions and attribute groups, not counting repeated elements, lists, and elements of a sequence or all group whose type name ends in the name of the enclosing declaration), and the definitions of the code do not hide each other, then no generated struct, enum, tuple or alias contains itself other than inside a Vec: the compiler can give every type a size. Refuted without the condition: two types with optional elements of each other, a choice of the enclosing type, an element of a type derived from the enclosing one, a union with itself.", "quantifier": "every document", "why_tests_cant": "Recursion goes through arbitrarily long chains of types, renaming, modules and inherited fields.", "anchors": ["xsd-parser/src/parser/element.rs", "xsd-parser/src/parser/sequence.rs", "xsd-parser/src/parser/schema.rs", "xsd-parser/src/generator/base.rs", "xsd-parser/src/generator/struct.rs", "xsd-parser/src/generator/struct_field.rs"]}
{"id": "C66", "title": "Generated code defines no type twice", "statement": "In the code of a supported, tidy document with declared type references, no two type definitions have the same name in the same module, no definition in a module has the name of one in an enclosing module, no module is opened twice, no trait is implemented twice for one type, no definition takes a name the generated code uses of the library (String, Option, Result, Validate and so on) and no module is called xs, provided the names the document gives its types - declared names, the names derived for anonymous types, choices, list items and union members, taken over through bases and attribute groups - remain distinct, from each other and from the names of the library, after conversion to Rust names. With that, C64 and C65 hold under conditions on the document alone. Refuted with names distinct as XML Schema demands: an element and a type of one name, names that differ in case, two unions with an anonymous member, an anonymous type called like a declared one, elements of one name at two depths, types called Option, string or Xs.", "quantifier": "every document", "why_tests_cant": "Names from arbitrarily deep nesting and arbitrarily long chains of bases end up in one module.", "anchors": ["xsd-parser/src/parser/mod.rs: parse", "xsd-parser/src/parser/schema.rs", "xsd-parser/src/parser/types.rs: extend_base, extend_attribute_group", "xsd-parser/src/generator/struct.rs", "xsd-parser/src/generator/default.rs: format_type_name", "xsd-parser/src/generator/import.rs"]}
{"id": "C67", "title": "Generated structs and enums have no two members of one name", "statement": "In the code of a supported, tidy document with declared type references, no struct has two fields and no enum two variants (the added __Unknown__ included) of the same name, provided that after conversion to Rust names the elements, attributes and choices of each complex type together with those it inherits and does not redeclare and those of its attribute groups, the values of each enumeration, the cases of each choice and the members of each union are distinct, and references to attribute groups name attribute groups. Refuted with names distinct as XML Schema demands: an element and an attribute of one name, an element at two places of a sequence, names that differ in case or underscores, an inherited element that differs in case, enumeration values that differ in case, union members of one name in two namespaces, two choices in a sequence.", "quantifier": "every document", "why_tests_cant": "Members come from arbitrarily long chains of bases and groups; inheritance removes members by XML name while Rust compares converted names.", "anchors": ["xsd-parser/src/parser/schema.rs", "xsd-parser/src/parser/types.rs: extend_base, extend_attribute_group", "xsd-parser/src/parser/enumeration.rs", "xsd-parser/src/parser/union.rs", "xsd-parser/src/parser/choice.rs", "xsd-parser/src/generator/struct.rs", "xsd-parser/src/generator/struct_field.rs", "xsd-parser/src/generator/enum.rs", "xsd-parser/src/generator/enum_case.rs"]}
{"id": "C68", "title": "Generated types hold every valid instance", "statement": "Take a supported, tidy document with declared type references and separate names, and an instance that is valid after XML Schema Part 1 (content models with sequences, all groups, choices and occurrences, attributes with their use, extension, references, anonymous types, qualified and unqualified names). If the complex types of the instance are regular (at most one sequence or all group of elements of the target namespace, attributes, extensions of types declared before, no two members of one name), then the instance fits the Rust type made for its named type or for its global element with an anonymous type: every attribute and child element has a member with its name and prefix, a member that is no Option or Vec is provided exactly once and an Option at most once, every child fits the type of its member, at every depth. Refuted for types that are not regular: text of simpleContent and of mixed content, an element wildcard, an attribute group beside a sequence, the elements of a choice inside a sequence, an optional element with maxOccurs=1 written, a repeated sequence, unqualified local elements, an extension that repeats an inherited element.", "quantifier": "every document and every valid instance of it", "why_tests_cant": "Schemas and instances nest without bound; the statement quantifies over both and compares the content models of XML Schema with the generated members.", "anchors": ["xsd-parser/src/parser/element.rs", "xsd-parser/src/parser/sequence.rs", "xsd-parser/src/parser/complex_type.rs", "xsd-parser/src/parser/extension.rs", "xsd-parser/src/parser/utils.rs", "xsd-parser/src/parser/types.rs: extend_base", "xsd-parser/src/generator/struct.rs", "xsd-parser/src/generator/struct_field.rs", "xsd-parser/src/generator/default.rs: format_type_name"]}
{"id": "C69", "title": "What is read from a valid instance and written again is a valid instance", "statement": "Under the conditions of C68 (supported, tidy document, regular types), a value of the generated type that was read from a valid instance can be written. Whatever is written has the same name, text and attributes and, for each name, the same child elements in the same order, at every depth: nothing is lost. If moreover at most one of the groups of each type used, those of its base types included, has elements, what is written is again a valid instance of the same type, although members are written in the order of the struct. Refuted without the last condition: if base and extension both have elements, the members of the base come after those of the extension, and what is written for a valid instance is not valid.", "quantifier": "every document and every valid instance of it", "why_tests_cant": "Schemas and instances nest without bound; the statement composes reading and writing for all of them and relates the order of generated members with content models.", "anchors": ["xsd-parser/src/parser/types.rs: extend_base", "xsd-parser/src/parser/sequence.rs", "xsd-parser/src/parser/extension.rs", "xsd-parser/src/generator/struct.rs", "xsd-parser/src/generator/struct_field.rs"]}
{"id": "C70", "title": "Every text of a regular simple type is read, accepted and written back with the same value", "statement": "Take a supported, tidy, orderly schema document whose types have separate names, and a simple type in it: a built-in type, a restriction, list or union. Suppose the type is regular: bounds and lengths only directly on built-in types, enumerations only of types whose values have one text each, list items without enumerations, union members all with FromStr and all but the last reading only their own texts. Then every text that XML Schema allows for the type is read by the generated type, in exactly one way, passes its validator (lengths: if Rust's length is that of XML Schema, as for ASCII), and the text then written denotes the same value (for a union: some value of the type), unless there is a pattern. Of built-in types and restrictions by bounds and lengths, no other text is read and accepted. For the text types and the signed integer types this needs no premise on the library. Refuted for other types, with a document each: lengths of non-ASCII texts, enumerations of numbers, unions whose members have facets, facets of a declared base, lists with items that cannot be read, lists of texts with non-XML white space, patterns.", "quantifier": "all schema documents, all simple types, all texts, all values, all libraries satisfying the premises, all casings", "why_tests_cant": "the nesting of simple types, the texts and the values are all unbounded", "anchors": ["xsd-parser/src/generator/tuple_struct.rs", "xsd-parser/src/generator/enum.rs", "xsd-parser/src/generator/validator.rs", "xsd-macro-utils/src/tuple.rs", "xsd-macro-utils/src/union.rs", "xsd-macro-utils/src/lib.rs"]}
{"id": "C71", "title": "assert_xml_eq accepts exactly texts with the same events", "statement": "assert_xml_eq(actual, expected), which compares the zipped event streams of two texts, returns if and only if both texts have the same sequence of events up to the end of the document or the first error, events of white space left out; it panics otherwise. In particular the excess of one stream that zip ignores is never missed.", "quantifier": "for all pairs of event streams that end with the end of the document or an error", "why_tests_cant": "tests of the library use the function, none tests it; a comparison that accepts too much would make all of them meaningless", "anchors": ["xsd-types/src/utils/xml_eq.rs:3-13"]}
{"id": "C72", "title": "Generators put together with GeneratorBuilder", "statement": "After any chain of with_* calls, build gives a generator that has every sub-generator: for each kind the one given last, otherwise the default. generate calls the sub-generator of the entity's kind and never fails for a missing one; entities in which no replaced kind occurs at any depth get the text of the default generator; without calls every file gets the text of the default generator; one generator used for several files writes for each what it would write for it alone.", "quantifier": "for all chains of calls, own sub-generators, entities, files and sequences of files", "why_tests_cant": "there are unboundedly many chains of calls and own generators; the tests set one generator and look at one entity", "anchors": ["xsd-parser/src/generator/builder.rs:15-82", "xsd-parser/src/generator/mod.rs:28-74", "wsdl-parser-cli/src/main.rs:64-68"]}
{"id": "C73", "title": "Simple types made of built-in types are handled with the library types that exist", "statement": "Take the types of xsd-types and Rust that stand for the built-in types, all but lists and xs:float. They read every text of the built-in type with its value, and write every value as a text of that value, apart from stated exceptions (-0 for unsigned types; 1 and 0 for booleans; decimals with too many zeros after the point; dates and times with years that are signed or longer than four digits, the time 24:00:00, times with a fraction, dates with times without zone or with more than nine digits of a fraction; durations with a fraction of seconds or beyond 64 bits; infinite numbers; years beyond 31 bits). Booleans, fixed-size integers and the g-types read nothing else. Hence the claim of C70 holds for every regular simple type made of them without premises about the library. Each exception is shown to be needed.", "quantifier": "all texts, all values, all ranges of years chrono may have, both overflow modes, all documents and simple types in them", "why_tests_cant": "C70 assumes a library; here the 41 library types meet the assumption, for unboundedly many texts and values", "anchors": ["xsd-types/src/types/date.rs", "xsd-types/src/types/time.rs", "xsd-types/src/types/datetime.rs", "xsd-types/src/types/datetimestamp.rs", "xsd-types/src/types/decimal.rs", "xsd-types/src/types/duration.rs", "xsd-types/src/types/gyear.rs", "xsd-types/src/types/gyearmonth.rs", "xsd-types/src/types/gmonthday.rs", "xsd-types/src/types/gmonth.rs", "xsd-types/src/types/gday.rs", "xsd-parser/src/generator/base.rs"]}
{"id": "C74", "title": "Durations and moments are compared as XML Schema says", "statement": "Two durations without sign in normal form (months below 12, days below 28, hours below 24, minutes and whole seconds below 60) are less, equal or greater in Rust exactly as in XML Schema, where a duration is shorter than another if it leads to an earlier moment from each of four given moments. Two values of DateTime or DateTimeStamp are compared as the moments they are. Refuted for other durations: negative ones count as longer than positive ones, PT36H as shorter than P1D, P1M as longer than P40D, P12M as shorter than P1Y; so a generated type with maxInclusive P1D accepts PT36H and rejects -P1D. Whatever the signs, the order is antisymmetric.", "quantifier": "all durations in normal form, all moments with a time zone", "why_tests_cant": "the order is derived from the fields and no test compares values; it is what the bounds of generated types rest on", "anchors": ["xsd-types/src/types/duration.rs:5-14", "xsd-types/src/types/datetime.rs:6-9", "xsd-types/src/types/datetimestamp.rs:9-12", "xsd-parser/src/generator/validator.rs"]}
{"id": "C75", "title": "Instances with their values survive reading and writing", "statement": "Take a valid instance whose complex types are regular (C68) and whose element and attribute texts are literals of simple types that the generated code is right about (C70; with the library types of the repository: made of any built-in types but xs:float and lists). It fits the generated type; every text in it is read as exactly one value, which passes the checks of its type; what was read can be written; whatever is written has for every name the same attributes and child elements, with texts of the same values, and is a valid instance of the same type if at most one group of each type used has elements. Refuted: that checking a value finds what is not valid, since structs check none of their members; that the text of an attribute with a type of its own is checked (the member is a String).", "quantifier": "all documents and schemas under the conditions of C66, all valid instances of regular types", "why_tests_cant": "tests read and write a few instances with canonical literals; the theorem covers nesting, inheritance and every literal", "anchors": ["xsd-parser/src/generator/struct_field.rs:1-59", "xsd-parser/src/generator/validator.rs:1-60", "xsd-macro-utils/src/lib.rs:1-69", "xsd-macro-utils/src/tuple.rs:1-80", "xsd-macro-utils/src/union.rs:1-80"]}
{"id": "C76", "title": "Services of the usual kind are turned into code", "statement": "Take a WSDL document that is accepted, whose embedded schemas are of the supported kind (C60) and each of whose operations takes the element of a message of one part and answers with the element of another message. Whatever the order in which the port types are stored, code is generated without a panic and lexes to the items of the schemas, in document order, followed by one async function for each operation, with the element of the request as parameter and that of the response as result. Each schema is read as if it were a document of its own. Refuted: an operation without response gives a function without result type; with the prefix transport for the target namespace the path of the trait is lost; two schemas that declare an element of one name define a type twice.", "quantifier": "all documents of that kind, all iteration orders of the map of port types", "why_tests_cant": "tests print the result for one document; the theorem is about every document and every order of a hash map", "anchors": ["wsdl-parser/src/parser/definitions.rs", "wsdl-parser/src/generator/mod.rs", "wsdl-parser/src/generator/function.rs", "wsdl-parser-cli/src/main.rs", "xsd-parser/src/parser/schema.rs"]}
{"id": "C77", "title": "The functions of a service can be called", "statement": "In C76 let the messages refer, without prefix or with the prefix of the target namespace of the definitions, to elements with a definition in an embedded schema. Then the request and response types of every function are types introduced by the code of the schemas and not the type parameter, the names of functions are identifiers, and they are distinct if the names of the operations differ in more than case and punctuation. All that the schemas mention resolves (C63). If each schema gives separate names (C66) and no schema gives outside of modules a name another gives, the code of all schemas together defines nothing twice and hides nothing. Refuted: for operations of one name in two port types (bindings) the function is defined twice; an operation named Try gives a reserved word; elements of a namespace other than that of the definitions are written as paths into modules that do not exist; an element named t is hidden by the type parameter.", "quantifier": "all documents of that kind", "why_tests_cant": "rustc would only find this for one document at a time", "anchors": ["wsdl-parser/src/generator/function.rs", "wsdl-parser/src/generator/mod.rs", "wsdl-parser/src/parser/definitions.rs", "wsdl-parser-cli/src/main.rs"]}
{"id": "C78", "title": "Floating-point numbers survive reading and writing", "statement": "Every literal of xs:double (digits with or without a point, a sign, an exponent, INF, -INF, NaN) is read as the double nearest to the number it names, of two the one with the even mantissa. Besides literals nothing is read but signed and differently spelled names of infinity and NaN. Every double that is written is read back as itself, with the sign of zero; all but the infinities are written as literals. Values compare as XML Schema says. Infinity is written as a text that is no literal. Texts of xs:float are read as doubles, hence two texts of one value can be told apart and a value can change by being read and written.", "quantifier": "all texts, of any length; all doubles, subnormal ones included", "why_tests_cant": "There are 2^64 doubles and infinitely many texts. The correctness of the shortest digits and of rounding depends on the interval around a double, with other bounds at powers of two and for subnormal numbers; cases in which a wrong bound shows are too rare for samples.", "anchors": ["xsd-parser/src/generator/utils.rs:51-52", "xsd-macro-utils/src/tuple.rs:25-27", "xsd-macro-utils/src/tuple.rs:55-57", "xsd-macro-utils/src/tuple.rs:86-87"]}
{"id": "C79", "title": "Text functions mean what the standard library documents", "statement": "The functions on strings and numbers on which parsing, naming, documentation and values rest do what Rust documents: lengths and slices count UTF-8 bytes and stop the program off character boundaries; white space is the White_Space property of Unicode; splitting, trimming, words, lines and joining lose and invent no text; numbers are read in the range of their type and written in decimal without leading zeros or padded to a width.", "quantifier": "all strings, characters, offsets and numbers, all Unicode tables", "why_tests_cant": "each function has infinitely many inputs; the tests of the project use a few short ASCII texts", "anchors": ["xsd-parser/src/generator/utils.rs:3-19", "xsd-parser/src/generator/default.rs:11-18", "xsd-types/src/types/utils.rs", "xsd-types/src/types/gyear.rs", "xsd-macro-utils/src/tuple.rs:25-40"]}
{"id": "C80", "title": "Renaming an entity changes nothing else", "statement": "Giving an entity of the parser another name or other documentation changes exactly that: its kind and all its other parts stay, and the old name or documentation can be put back. What is read of an XML node is its own: the attribute of the name asked for, its children, its namespaces, and the text it is or begins with.", "quantifier": "all entities, names, comments, nodes", "why_tests_cant": "entities have seven variants with up to six parts each; the tests look at a few", "anchors": ["xsd-parser/src/parser/types.rs:191-230", "xsd-parser/src/parser/xsd_elements.rs"]}
{"id": "C81", "title": "Own base generators", "statement": "A user's own base generator determines the names of types, members and modules, the modifiers and the comments in the code of the default sub-generators, wherever they occur. An own indentation of white space changes the layout of the code only, for all files. Refuted: with own names for types, members with anonymous types refer to names that are not defined, and the cases of enums are not named by the base generator.", "quantifier": "for all base generators (any subset of own methods), entities, namespaces", "why_tests_cant": "there are unboundedly many implementations of the trait; the tests use the default one only", "anchors": ["xsd-parser/src/generator/base.rs:14-52", "xsd-parser/src/generator/struct.rs:13-75", "xsd-parser/src/generator/struct_field.rs:10-55", "xsd-parser/src/generator/tuple_struct.rs:12-56", "xsd-parser/src/generator/enum.rs:12-75", "xsd-parser/src/generator/enum_case.rs:7-75", "xsd-parser/src/generator/alias.rs:4-23"]}
{"id": "C82", "title": "Built-in list types", "statement": "A simple type that restricts xs:NMTOKENS, xs:IDREFS or xs:ENTITIES by lengths becomes a type that reads every text as the list of its items, in no other way, whose checks pass exactly for the allowed numbers of items, and that is written as a text with the same items. Refuted: an element of such a list type gets the code of a repeated element of xs:string, so its text is not taken apart.", "quantifier": "every document, every such type in it, every text", "why_tests_cant": "Texts and documents are unbounded; the items are those of XML Schema, the code splits by Rust's white space.", "anchors": ["xsd-parser/src/generator/utils.rs: match_built_in_type", "xsd-parser/src/generator/tuple_struct.rs", "xsd-macro-utils/src/tuple.rs", "xsd-macro-utils/src/lib.rs: default_serde", "xsd-parser/src/generator/validator.rs"]}
{"id": "C83", "title": "Types whose content is a choice", "statement": "A complex type whose content is one choice, taken once, of elements that occur once becomes a struct with the attributes and one flattened member of an enum. Every valid instance is held by it: the attributes have members, exactly one variant of the enum has the name and prefix of the child element, and the type in that variant holds the child, which may be an instance of a choice again, or of a type of C68. Refuted: alternatives with a local name in a qualified schema (the variant has no prefix), alternatives with an anonymous type (the variant has no value), choices that may be taken more than once (one value), and a choice in the anonymous type of an element (a struct and an enum of the same name).", "quantifier": "every document, every instance of such types at any depth", "why_tests_cant": "Instances and documents are unbounded; names of variants must be unique among all alternatives, and unaffected by keyword escaping and case conversion.", "anchors": ["xsd-parser/src/parser/choice.rs", "xsd-parser/src/parser/complex_type.rs", "xsd-parser/src/generator/enum.rs", "xsd-parser/src/generator/enum_case.rs", "xsd-parser/src/generator/struct_field.rs"]}
{"id": "C84", "title": "Types derived by restriction", "statement": "A complex type derived from a regular type by a restriction becomes a struct with the elements and attributes that the restriction declares, and with those of the base that it does not declare again. Every valid instance of it is held by that struct: optional elements of the base that the restriction drops are members that may be missing, prohibited attributes have no member, attributes of the base that are not mentioned stay, and declarations with other occurrences or other types are those of the restriction. The type may be named, or the anonymous type of an element, and such types may be nested in types of C68.", "quantifier": "every document, every instance of such types at any depth", "why_tests_cant": "Instances and documents are unbounded; whether a member is optional depends on two declarations at different places of the document.", "anchors": ["xsd-parser/src/parser/complex_content.rs", "xsd-parser/src/parser/restriction.rs", "xsd-parser/src/parser/complex_type.rs", "xsd-parser/src/generator/struct.rs"]}
{"id": "C85", "title": "What generated types hold is written back", "statement": "Whatever instance a type of the generated code holds, valid or not, can be written from it, and in one way only (texts aside). What is written has the same attributes, and under every name the same elements in the same order, at every depth. The same type holds what was written, and writing that gives the very same instance again, so that reading and writing reaches a fixed point after one round. This is so for all generated code in which no type and no member of a struct is defined twice, and therefore for every document of C66 and C67. It includes structs whose content is a choice (C83): the element of the variant that was read is written.", "quantifier": "every generated file, every type expression in it, every instance it holds", "why_tests_cant": "The instances are trees of unbounded depth and breadth, and the members of a struct may share local names or prefixes; that no member takes or writes the parts of another depends on all names of the struct.", "anchors": ["xsd-parser/src/generator/struct_field.rs", "xsd-parser/src/generator/struct.rs", "xsd-parser/src/generator/base.rs", "xsd-parser/src/parser/complex_type.rs"]}
{"id": "C86", "title": "Types of all supported kinds hold instances inside each other", "statement": "The generated types hold instances in which complex types with sequences or all groups, extensions, restrictions of earlier types and choices contain each other in any way and at any depth: all attributes and elements have a member or a variant of their own, each can occur as often as it does, and nothing the instance lacks is required. An element of a sequence whose type is a choice must have this type by name. What they hold is written in exactly one way, with the same attributes and, for each name, the same children in the same order; what is written is held again, and writing it again changes nothing. If the texts are literals of simple types of the kinds of C70, each is read as exactly one value, which passes the checks of its type; what was read can be written, and what is written holds the same values (texts of unions: texts of the union).", "quantifier": "every document of C66, every type, every instance, of any depth", "why_tests_cant": "The kinds of types are generated by different code (struct fields, flattened enums, merged restrictions) and tests cover one kind at a time; instances alternate between them without bound.", "anchors": ["xsd-parser/src/generator/struct_field.rs", "xsd-parser/src/generator/struct.rs", "xsd-parser/src/generator/enum.rs", "xsd-parser/src/generator/enum_case.rs", "xsd-parser/src/parser/complex_type.rs", "xsd-parser/src/parser/choice.rs", "xsd-parser/src/parser/complex_content.rs"]}
{"id": "C87", "title": "What is written is read as the same Rust value", "statement": "All texts of one value of a simple type are read as one and the same Rust value. The text that is written for this Rust value is a text of the same value of the type, and it is read as the very same Rust value, and as no other. This holds for named simple types and for the anonymous simple types of elements, made of restrictions and lists in any depth, without patterns. For unions it holds of every member type and every text that no earlier member type has, as long as no earlier member type has the text that is written; without that condition it is false of unions.", "quantifier": "every document of C66, every simple type of the kinds of C70, every value of it and every text of the value", "why_tests_cant": "Values have infinitely many texts, and the types are nested without bound; that reading undoes writing has to hold through generated tuples, vectors and library types together.", "anchors": ["xsd-macro-utils/src/tuple.rs", "xsd-macro-utils/src/union.rs", "xsd-parser/src/generator/tuple_struct.rs", "xsd-parser/src/generator/base.rs"]}
{"id": "C88", "title": "Writing what was read reaches a fixed point", "statement": "Take an instance in which types of all supported kinds contain each other (C86) and whose texts are literals of simple types without patterns; in a union, literals whose value has no text that an earlier member type has. It is written in exactly one way. What is written can be read by the same types and be written again, in exactly one way, and this gives the very same instance, with all texts: numbers, dates and lists may change their form the first time, and never again.", "quantifier": "every document of C66 and C67, every type, every instance of any depth", "why_tests_cant": "Depth, breadth and texts are unbounded; the fixed point depends on the form that each library type writes, on the members that structs write and on the names that tell members apart, together.", "anchors": ["xsd-parser/src/generator/struct_field.rs", "xsd-parser/src/generator/struct.rs", "xsd-parser/src/generator/enum_case.rs", "xsd-macro-utils/src/tuple.rs"]}
