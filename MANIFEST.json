{
 "claims": [
  {
   "property": "C01",
   "status": "proved",
   "theorems": [
    "C01_timezone_language"
   ],
   "note": ""
  },
  {
   "property": "C02",
   "status": "proved",
   "theorems": [
    "C02_timezone_round_trip"
   ],
   "note": ""
  },
  {
   "property": "C03",
   "status": "proved",
   "theorems": [
    "C03_gday_language"
   ],
   "note": ""
  },
  {
   "property": "C04",
   "status": "proved",
   "theorems": [
    "C04_gmonth_language"
   ],
   "note": ""
  },
  {
   "property": "C05",
   "status": "proved",
   "theorems": [
    "C05_gmonthday_language"
   ],
   "note": ""
  },
  {
   "property": "C06",
   "status": "proved",
   "theorems": [
    "C06_gyear_language"
   ],
   "note": ""
  },
  {
   "property": "C07",
   "status": "proved",
   "theorems": [
    "C07_gyearmonth_language"
   ],
   "note": ""
  },
  {
   "property": "C08",
   "status": "proved",
   "theorems": [
    "C08_gday_round_trip",
    "C08_gmonth_round_trip",
    "C08_gmonthday_round_trip",
    "C08_gyear_round_trip",
    "C08_gyearmonth_round_trip",
    "C08_gyear_min_year",
    "C08_gyearmonth_min_year"
   ],
   "note": ""
  },
  {
   "property": "C09",
   "status": "proved",
   "theorems": [
    "C09_gtypes_ascii_no_panic",
    "C09_gyear_never_panics",
    "C09_gtypes_panic_refuted"
   ],
   "note": "finding: non-ASCII text of the right byte length panics"
  },
  {
   "property": "C10",
   "status": "proved",
   "theorems": [
    "C10_integer_languages",
    "C10_integer_xsd",
    "C10_integer_never_panics",
    "C10_integer_only_xsd_refuted"
   ],
   "note": "finding: '_' is accepted between digits"
  },
  {
   "property": "C11",
   "status": "proved",
   "theorems": [
    "C11_integer_round_trip",
    "C11_display_is_xsd"
   ],
   "note": ""
  },
  {
   "property": "C12",
   "status": "proved",
   "theorems": [
    "C12_defaults_valid",
    "C12_defaults_refuted"
   ],
   "note": "finding: the defaults of PositiveInteger and NegativeInteger are invalid (refuted part of the claim)"
  },
  {
   "property": "C13",
   "status": "proved",
   "theorems": [
    "C13_duration_complete"
   ],
   "note": ""
  },
  {
   "property": "C14",
   "status": "proved",
   "theorems": [
    "C14_duration_accepts_exactly",
    "C14_duration_build_modes",
    "C14_only_literals_refuted"
   ],
   "note": "the exact accepted set is proved; 'only XSD literals' is refuted"
  },
  {
   "property": "C15",
   "status": "proved",
   "theorems": [
    "C15_duration_overflow",
    "C15_duration_no_panic"
   ],
   "note": ""
  },
  {
   "property": "C16",
   "status": "proved",
   "theorems": [
    "C16_duration_round_trip",
    "C16_duration_display_literal"
   ],
   "note": ""
  },
  {
   "property": "C17",
   "status": "proved",
   "theorems": [
    "C17_fraction_round_trip_refuted"
   ],
   "note": "refuted: double rounding, witness 1.14"
  },
  {
   "property": "C18",
   "status": "proved",
   "theorems": [
    "C18_to_std",
    "C18_fraction",
    "C18_other_seconds",
    "C18_decimal_refuted"
   ],
   "note": "Every value of the seconds field is covered; the reading that decimal fractions come out as the nanoseconds written is refuted (PT2.3S)."
  },
  {
   "property": "C19",
   "status": "proved",
   "theorems": [
    "C19_date_language",
    "C19_date_complete",
    "C19_date_round_trip",
    "C19_all_literals_refuted"
   ],
   "note": "the wider claim that every XSD literal is read is refuted"
  },
  {
   "property": "C20",
   "status": "proved",
   "theorems": [
    "C20_time_language",
    "C20_time_complete",
    "C20_time_round_trip",
    "C20_all_literals_refuted"
   ],
   "note": "fractions and 24:00:00 refuted"
  },
  {
   "property": "C21",
   "status": "proved",
   "theorems": [
    "C21_datetime_language",
    "C21_datetime_complete",
    "C21_zone_detection",
    "C21_lowercase_z_refuted",
    "C21_datetime_round_trip",
    "C21_all_literals_refuted"
   ],
   "note": ""
  },
  {
   "property": "C22",
   "status": "proved",
   "theorems": [
    "C22_element_round_trip",
    "C22_written_events",
    "C22_read_events",
    "C22_lexical_types",
    "C22_gyear_texts",
    "C22_string_values",
    "C22_string_round_trip_refuted"
   ],
   "note": "finding: blanks at the ends of string values are lost"
  },
  {
   "property": "C23",
   "status": "proved",
   "theorems": [
    "C23_list_language",
    "C23_list_round_trip",
    "C23_integer_list_round_trip",
    "C23_all_items_refuted"
   ],
   "note": "finding: items that do not parse are dropped silently"
  },
  {
   "property": "C24",
   "status": "proved",
   "theorems": [
    "C24_union_first_match"
   ],
   "note": ""
  },
  {
   "property": "C25",
   "status": "proved",
   "theorems": [
    "C25_union_round_trip",
    "C25_union_round_trip_refuted"
   ],
   "note": "finding: unknown text is lost"
  },
  {
   "property": "C26",
   "status": "proved",
   "theorems": [
    "C26_comment_lines",
    "C26_lines_exist"
   ],
   "note": ""
  },
  {
   "property": "C27",
   "status": "proved",
   "theorems": [
    "C27_comment_words",
    "C27_words_exist"
   ],
   "note": ""
  },
  {
   "property": "C28",
   "status": "proved",
   "theorems": [
    "C28_name_is_identifier",
    "C28_name_words",
    "C28_name_empty",
    "C28_every_name_refuted"
   ],
   "note": "findings: try, empty identifier, non-ASCII word boundaries"
  },
  {
   "property": "C29",
   "status": "proved",
   "theorems": [
    "C29_own_type",
    "C29_foreign_type",
    "C29_word_starts",
    "C29_every_type_refuted"
   ],
   "note": "finding: foreign names are not escaped part by part"
  },
  {
   "property": "C30",
   "status": "proved",
   "theorems": [
    "C30_builtin_names",
    "C30_builtin_mapping",
    "C30_value_spaces",
    "C30_integer_texts",
    "C30_every_literal_refuted"
   ],
   "note": ""
  },
  {
   "property": "C31",
   "status": "proved",
   "theorems": [
    "C31_names_distinct_refuted",
    "C31_field_names_injective",
    "C31_type_names_injective"
   ],
   "note": "injectivity in general is refuted"
  },
  {
   "property": "C32",
   "status": "proved",
   "theorems": [
    "C32_modifiers"
   ],
   "note": ""
  },
  {
   "property": "C33",
   "status": "proved",
   "theorems": [
    "C33_container",
    "C33_natural_container",
    "C33_natural_container_refuted"
   ],
   "note": "finding: minOccurs=0 with a written maxOccurs of 0 or 1 gives a required field"
  },
  {
   "property": "C34",
   "status": "proved",
   "theorems": [
    "C34_attribute",
    "C34_attribute_accepted"
   ],
   "note": ""
  },
  {
   "property": "C35",
   "status": "proved",
   "theorems": [
    "C35_declarations",
    "C35_unsupported_declarations"
   ],
   "note": ""
  },
  {
   "property": "C36",
   "status": "proved",
   "theorems": [
    "C36_sequence_fields",
    "C36_nested_model_group"
   ],
   "note": "nested sequences, alls and groups panic"
  },
  {
   "property": "C37",
   "status": "proved",
   "theorems": [
    "C37_restriction"
   ],
   "note": ""
  },
  {
   "property": "C38",
   "status": "proved",
   "theorems": [
    "C38_choice"
   ],
   "note": ""
  },
  {
   "property": "C39",
   "status": "proved",
   "theorems": [
    "C39_union",
    "C39_tokens_unique"
   ],
   "note": ""
  },
  {
   "property": "C40",
   "status": "proved",
   "theorems": [
    "C40_resolution",
    "C40_bases_first",
    "C40_inherited",
    "C40_own_fields",
    "C40_nothing_else",
    "C40_any_order_refuted",
    "C40_same_name_refuted"
   ],
   "note": "C40_resolution covers every declaration order; completeness is refuted when a base with a base is declared later, or when an element hides the type of its own name"
  },
  {
   "property": "C41",
   "status": "proved",
   "theorems": [
    "C41_no_placeholder",
    "C41_top_level",
    "C41_groups_plain",
    "C41_any_order_refuted",
    "C41_unlinked_refuted"
   ],
   "note": "nested placeholders survive when a base is declared later (refuted), and without the resolution step (WSDL tool)"
  },
  {
   "property": "C42",
   "status": "proved",
   "theorems": [
    "C42_panic",
    "C42_never_panics_refuted",
    "C42_document",
    "C42_no_struct_subtypes"
   ],
   "note": "panics exactly when an anonymous type extends the type enclosing it"
  },
  {
   "property": "C43",
   "status": "proved",
   "theorems": [
    "C43_groups",
    "C43_attribute_type",
    "C43_nested_refuted",
    "C43_choice_refuted",
    "C43_sequence_refuted",
    "C43_group_in_group_refuted",
    "C43_distinct_fields_refuted"
   ],
   "note": "inlining holds for types without content; refuted for the other places a reference may stand"
  },
  {
   "property": "C44",
   "status": "proved",
   "theorems": [
    "C44_recursive_types",
    "C44_only_recursive_refuted",
    "C44_finite_size_refuted"
   ],
   "note": "finite size and the converse are refuted"
  },
  {
   "property": "C45",
   "status": "proved",
   "theorems": [
    "C45_namespaces"
   ],
   "note": ""
  },
  {
   "property": "C46",
   "status": "proved",
   "theorems": [
    "C46_supported"
   ],
   "note": ""
  },
  {
   "property": "C56",
   "status": "proved",
   "theorems": [
    "C56_sequence_type",
    "C56_choice_type",
    "C56_attributes_only_type",
    "C56_derived_type",
    "C56_simple_content_type",
    "C56_extension_elements_refuted",
    "C56_group_reference_refuted"
   ],
   "note": "findings: elements and group references are lost in some type layouts"
  },
  {
   "property": "C57",
   "status": "proved",
   "theorems": [
    "C57_list",
    "C57_item_type_named_refuted"
   ],
   "note": "finding: a list of an anonymous union has no item type"
  },
  {
   "property": "C47",
   "status": "proved",
   "theorems": [
    "C47_file",
    "C47_panic",
    "C47_unique",
    "C47_defined",
    "C47_variants",
    "C47_variants_refuted",
    "C47_sane_needed_refuted"
   ],
   "note": "findings: variants of foreign or symbol-only names, unescaped quotes and line breaks"
  },
  {
   "property": "C48",
   "status": "proved",
   "theorems": [
    "C48_again",
    "C48_prefixed_again",
    "C48_always_refuted"
   ],
   "note": "refuted in general: nested types are prefixed again"
  },
  {
   "property": "C49",
   "status": "proved",
   "theorems": [
    "C49_alias",
    "C49_always_commented_refuted"
   ],
   "note": "finding: documentation makes the alias live code"
  },
  {
   "property": "C50",
   "status": "proved",
   "theorems": [
    "C50_module",
    "C50_reference",
    "C50_always_refuted"
   ],
   "note": "refuted for structs named like the target prefix and nested names that need an escape"
  },
  {
   "property": "C51",
   "status": "proved",
   "theorems": [
    "C51_validate",
    "C51_checks",
    "C51_unchecked",
    "C51_length_panic",
    "C51_always_refuted"
   ],
   "note": "findings: NaN passes, lengths are bytes, structs check nothing"
  },
  {
   "property": "C52",
   "status": "proved",
   "theorems": [
    "C52_accepted",
    "C52_lookup"
   ],
   "note": ""
  },
  {
   "property": "C53",
   "status": "proved",
   "theorems": [
    "C53_classification"
   ],
   "note": ""
  },
  {
   "property": "C54",
   "status": "proved",
   "theorems": [
    "C54_functions",
    "C54_panic",
    "C54_unique",
    "C54_order",
    "C54_determined_refuted",
    "C54_every_operation_refuted"
   ],
   "note": "refuted: the text is determined by the document; every accepted operation gets a function (notifications, solicit-response, single parts given by type and empty responses panic)"
  },
  {
   "property": "C55",
   "status": "proved",
   "theorems": [
    "C55_message",
    "C55_function",
    "C55_scoped",
    "C55_scoped_refuted",
    "C55_namespace_refuted"
   ],
   "note": "findings: the body uses an undeclared variable for missing and multi-part messages, missing responses give Result<,..>, part names and built-in types are emitted untranslated"
  },
  {
   "property": "C58",
   "status": "proved",
   "theorems": [
    "C58_document",
    "C58_succeeds",
    "C58_resolved_refuted"
   ],
   "note": "refuted: base types of embedded schemas are resolved"
  },
  {
   "property": "C59",
   "status": "proved",
   "theorems": [
    "C59_comments",
    "C59_words",
    "C47_file",
    "C59_everything_refuted"
   ],
   "note": "refuted: one-character lines and documentation of facets and prohibited attributes are kept"
  },
  {
   "property": "C60",
   "status": "proved",
   "theorems": [
    "C60_document",
    "C60_schema",
    "C60_types",
    "C60_length_refuted",
    "C60_element_choice_refuted",
    "C60_two_choices_refuted",
    "C60_two_unions_refuted"
   ],
   "note": "findings: a length of 2^32 or with a blank panics; definitions with equal names"
  },
  {
   "property": "C61",
   "status": "proved",
   "theorems": [
    "C61_literals",
    "C61_accepted",
    "C61_only_literals_refuted",
    "C61_round_trip",
    "C61_element_round_trip",
    "C61_written_literal",
    "C61_written_literal_refuted"
   ],
   "note": "finding: small values are written in exponential form, which xs:decimal does not allow"
  },
  {
   "property": "C62",
   "status": "proved",
   "theorems": [
    "C62_writes",
    "C62_succeeds",
    "C62_outputs",
    "C62_order",
    "C62_documents",
    "C62_single",
    "C62_every_file_refuted",
    "C62_isolated_refuted",
    "C62_clash_refuted"
   ],
   "note": "refuted: every file has an output; files are independent; files and directories of a tree never clash. File system: no links, input apart from the output"
  },
  {
   "property": "C63",
   "status": "proved",
   "theorems": [
    "C63_resolved",
    "C63_schema",
    "C63_alias_refuted",
    "C63_anonymous_choice_refuted",
    "C63_list_refuted"
   ],
   "note": "findings: aliases of undocumented typed elements are commented out; the choice of an anonymous complex type is renamed but not its uses; Vec<> for a list of an anonymous union. Shadowing (a type named like a library type) is not considered"
  },
  {
   "property": "C64",
   "status": "proved",
   "theorems": [
    "C64_equipped",
    "C64_schema",
    "C64_union_refuted",
    "C64_member_refuted",
    "C64_list_refuted",
    "C64_enumeration_refuted",
    "C64_bound_refuted",
    "C64_length_refuted"
   ],
   "note": "traits of types in modules of other namespaces are taken for granted; clashing definitions are excluded by a premise on the code; findings: types of union fields lack Clone, enumerations lack FromStr, enumerations of numbers call String::into on numbers, dates have no order but bounds on them are compared, a derived text type has no len"
  },
  {
   "property": "C65",
   "status": "proved",
   "theorems": [
    "C65_finite",
    "C65_schema",
    "C65_mutual_refuted",
    "C65_choice_refuted",
    "C65_derived_refuted",
    "C65_union_refuted"
   ],
   "note": "types in modules of other namespaces are taken for granted; hidden definitions are excluded by a premise on the code; findings: only an element whose type name ends in the name of the enclosing declaration is put in a Vec, so mutual recursion, recursion through a choice or a derived type gives code that does not compile"
  },
  {
   "property": "C66",
   "status": "proved",
   "theorems": [
    "C66_distinct",
    "C66_schema",
    "C66_equipped",
    "C66_finite",
    "C66_element_refuted",
    "C66_case_refuted",
    "C66_union_refuted",
    "C66_hidden_refuted",
    "C66_depth_refuted",
    "C66_library_refuted",
    "C66_string_refuted",
    "C66_xs_refuted"
   ],
   "note": "distinctness of converted names is a premise on the document; names that XML Schema keeps apart but the generator does not are the findings"
  },
  {
   "property": "C68",
   "status": "proved",
   "theorems": [
    "C68_instances_fit",
    "C68_text_refuted",
    "C68_mixed_refuted",
    "C68_optional_refuted",
    "C68_repeated_refuted",
    "C68_choice_refuted",
    "C68_wildcard_refuted",
    "C68_unqualified_refuted",
    "C68_inherited_refuted",
    "C68_group_refuted"
   ],
   "note": "proved for the regular types (one sequence or all group of elements, attributes, extensions of types declared before); values of simple types, xsi attributes and the flatten attribute of yaserde are not looked at; what yaserde does with the attributes is read off its documentation; findings: text of simple and mixed content, wildcards, attribute groups beside a sequence and elements of a choice inside a sequence have no member; optional elements with maxOccurs written are required; repeated groups and repeated inherited elements have a single member; unqualified local elements get the prefix of the target namespace"
  },
  {
   "property": "C69",
   "status": "proved",
   "theorems": [
    "C69_written_instances",
    "C69_extension_refuted"
   ],
   "note": "what yaserde writes for a struct (its members in order, attributes and elements with their rename and prefix) is read off its documentation; texts are taken to be written as they were read (for the library types see C01 to C31); finding: elements inherited by an extension are written after its own"
  },
  {
   "property": "C70",
   "status": "proved",
   "theorems": [
    "C70_values",
    "C70_complete",
    "C70_exact",
    "C70_basic",
    "C70_tuple",
    "C70_vector",
    "C70_vector_shown",
    "C70_union",
    "C70_length_refuted",
    "C70_enumeration_refuted",
    "C70_union_refuted",
    "C70_inherited_refuted",
    "C70_list_refuted",
    "C70_space_refuted",
    "C70_pattern_refuted"
   ],
   "note": "findings, each with a document: lengths are counted in bytes; enumerations are matched by text; a union takes the first member that parses, ignoring its facets; facets of a declared base type are not checked by types derived from it; lists skip items they cannot read; lists are cut at Unicode white space; patterns are not checked and can be broken on writing"
  },
  {
   "property": "C71",
   "status": "proved",
   "theorems": [
    "C71_xml_eq",
    "C71_attribute_order_refuted",
    "C71_white_space_refuted"
   ],
   "note": "zip ignores an excess of events, which is harmless because of the final events; attribute order matters and white space content does not"
  },
  {
   "property": "C72",
   "status": "proved",
   "theorems": [
    "C72_built",
    "C72_own",
    "C72_others",
    "C72_default",
    "C72_reuse",
    "C72_unbuilt"
   ],
   "note": ""
  },
  {
   "property": "C67",
   "status": "proved",
   "theorems": [
    "C67_members",
    "C67_attribute_refuted",
    "C67_repeated_refuted",
    "C67_alike_refuted",
    "C67_inherited_refuted",
    "C67_values_refuted",
    "C67_cases_refuted",
    "C67_union_refuted",
    "C67_choices_refuted"
   ],
   "note": "distinctness of converted names is a premise on the document; names that XML Schema keeps apart but the generator does not are the findings"
  },
  {
   "property": "C73",
   "status": "proved",
   "theorems": [
    "C73_complete",
    "C73_exact",
    "C73_values",
    "C73_exceptions_refuted"
   ],
   "note": "xs:float and lists are left out; values are finer than those of XML Schema for durations (by components) and decimals (1.5 and 1.50 are told apart but compare as equal); the comparison of BigInt and BigDecimal is taken to be that of numbers"
  },
  {
   "property": "C74",
   "status": "proved",
   "theorems": [
    "C74_order",
    "C74_moments",
    "C74_antisymmetric",
    "C74_refuted",
    "C74_bound_refuted",
    "C74_signs_refuted"
   ],
   "note": "finding: the derived order of durations is wrong for signed and for non-normalised durations, which makes bounds on xs:duration wrong; overflow at the first and last year of chrono is not modelled"
  },
  {
   "property": "C75",
   "status": "proved",
   "theorems": [
    "C75_round_trip",
    "C75_library",
    "C75_struct_checks_refuted",
    "C75_attribute_type_refuted"
   ],
   "note": "combines C68, C69, C70 and C73; attributes are taken to be read by yaserde like the text of an element of the same type (from its documentation); attributes that refer to global attributes are left out; patterns are left out where the written text is concerned; findings: validation of a struct checks nothing, attributes with anonymous types become String"
  },
  {
   "property": "C76",
   "status": "proved",
   "theorems": [
    "C76_schema_alone",
    "C76_document",
    "C76_one_way_refuted",
    "C76_transport_refuted",
    "C76_distinct_refuted"
   ],
   "note": "operations with a request of one part and a response; bases are not resolved inside of WSDL documents (C58), so the schemas are as parse_schema leaves them"
  },
  {
   "property": "C77",
   "status": "proved",
   "theorems": [
    "C77_callable",
    "C77_resolved",
    "C77_distinct",
    "C77_names_refuted",
    "C77_reserved_refuted",
    "C77_namespace_refuted",
    "C77_parameter_refuted"
   ],
   "note": "findings: operations shared by port types are defined twice; element references into other namespaces than that of the definitions do not resolve; a type T is hidden by the type parameter"
  },
  {
   "property": "C78",
   "status": "proved",
   "theorems": [
    "C78_reads",
    "C78_language",
    "C78_one_value",
    "C78_round_trip",
    "C78_values",
    "C78_written",
    "C78_order",
    "C78_infinity_refuted",
    "C78_lenient_refuted",
    "C78_float_read",
    "C78_float_refuted"
   ],
   "note": "findings: infinity is written as inf, which other XML Schema processors reject; xs:float has the values of xs:double; from_str and Display of f64 are those of Rust core, from knowledge of its documented behaviour (correct rounding, shortest digits)"
  },
  {
   "property": "C79",
   "status": "proved",
   "theorems": [
    "C79_literals",
    "C79_equal",
    "C79_characters",
    "C79_case",
    "C79_bytes",
    "C79_slices",
    "C79_search",
    "C79_split",
    "C79_words",
    "C79_lines",
    "C79_join",
    "C79_read",
    "C79_write"
   ],
   "note": "fixes the meaning of the functions of Str.v, some of which the other specifications use; case conversion and classes beyond ASCII are parameters"
  },
  {
   "property": "C80",
   "status": "proved",
   "theorems": [
    "C80_names",
    "C80_comments",
    "C80_variants",
    "C80_attributes",
    "C80_nodes"
   ],
   "note": ""
  },
  {
   "property": "C81",
   "status": "proved",
   "theorems": [
    "C81_methods",
    "C81_layout",
    "C81_indent",
    "C81_names",
    "C81_nested_refuted",
    "C81_cases_refuted"
   ],
   "note": "own methods are functions of their arguments (no state, no panic except in join_subtypes)"
  },
  {
   "property": "C82",
   "status": "proved",
   "theorems": [
    "C82_restricted",
    "C82_member_refuted"
   ],
   "note": "conditions of C70 on the document; restrictions of a list type itself, not of such restrictions; no enumeration"
  },
  {
   "property": "C83",
   "status": "proved",
   "theorems": [
    "C83_choices_fit",
    "C83_local_refuted",
    "C83_anonymous_refuted",
    "C83_repeated_refuted",
    "C83_element_refuted"
   ],
   "note": "conditions of C68 on the document and on types inside; alternatives have a type by name, or are references to elements with a Rust type; an enum variant is taken to be read from, and written as, an element of its name and prefix"
  },
  {
   "property": "C84",
   "status": "proved",
   "theorems": [
    "C84_restrictions_fit"
   ],
   "note": "conditions of C68 on the document and on types inside; the base is a regular type declared before; what the restriction declares again has the name or reference of the base, and what it drops may occur zero times in the base (both required by XML Schema)"
  },
  {
   "property": "C85",
   "status": "proved",
   "theorems": [
    "C85_written_back",
    "C85_documents",
    "C85_choices_written_back",
    "C85_choices"
   ],
   "note": "texts are compared as they are (values of texts: C70, C75); yaserde as described in SpecWrite.v and SpecFit.v; that no type or member is defined twice is a premise of C85_written_back (code without this does not compile) and follows from the premises of C66 and C67 in C85_documents"
  },
  {
   "property": "C86",
   "status": "proved",
   "theorems": [
    "C86_nested_fit",
    "C86_written_back",
    "C86_nested_written",
    "C86_values",
    "C86_library",
    "C86_same_values",
    "C86_library_same"
   ],
   "note": "conditions of C68, C83 and C84, for what is written also that members have distinct names (C67); an element of a sequence whose type is a choice must have the type by name, since anonymous choice types are refuted (C83_anonymous_refuted); values: the texts that C70 and C75 are about; the first three theorems do not look at texts"
  },
  {
   "property": "C87",
   "status": "proved",
   "theorems": [
    "C87_read_back",
    "C87_library",
    "C87_union",
    "C87_union_library",
    "C87_union_refuted"
   ],
   "note": "types of C70 without patterns; unions only if no earlier member type has the text that is written (C87_union), otherwise refuted (C87_union_refuted); C87_read_back and C87_union for any library types that read and write as C70 demands, C87_library and C87_union_library for those of the repository except xs:float"
  },
  {
   "property": "C88",
   "status": "proved",
   "theorems": [
    "C88_fixed_point",
    "C88_library"
   ],
   "note": "conditions of C86 with written instances, and the texts of C87; texts of a union only if no earlier member type has any text of the same value"
  }
 ]
}