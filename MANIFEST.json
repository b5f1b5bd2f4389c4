{
 "claims": [
  {
   "property": "C01",
   "status": "proved",
   "theorems": [
    "C01_variant_renaming_follows_convention"
   ],
   "note": "Any number of words of any length, all nine rules, whatever Unicode says about upper case outside ASCII."
  },
  {
   "property": "C02",
   "status": "proved",
   "theorems": [
    "C02_field_renaming_follows_convention"
   ],
   "note": "As C01 for fields; the first character must be ASCII for camelCase (C03)."
  },
  {
   "property": "C03",
   "status": "partial",
   "theorems": [
    "C03_renaming_never_panics_refuted",
    "C03_variant_renaming_panics_exactly_partial",
    "C03_field_renaming_panics_exactly_partial"
   ],
   "note": "FINDING: camelCase panics on identifiers of underscores only or with a non-ASCII first letter (refuted); the exact panic condition is proved for every string."
  },
  {
   "property": "C04",
   "status": "proved",
   "theorems": [
    "C04_variant_renaming_injective",
    "C04_field_renaming_injective",
    "C04_lower_upper_not_injective_refuted",
    "C04_digit_words_collide_refuted"
   ],
   "note": "Injective on conventional identifiers for every word-separating rule; the exceptions named in the statement are refuted."
  },
  {
   "property": "C05",
   "status": "proved",
   "theorems": [
    "C05_unknown_rule_changes_nothing",
    "C05_rename_all_spellings"
   ],
   "note": "Exact set of spellings; an unknown spelling changes nothing in the generated code."
  },
  {
   "property": "C06",
   "status": "proved",
   "theorems": [
    "C06_struct_property_names",
    "C06_unit_variant_names",
    "C06_external_variant_fields",
    "C06_untagged_variant_fields",
    "C06_internal_variant_fields",
    "C06_names_are_unique",
    "C06_raw_identifiers"
   ],
   "note": "Struct properties, unit variants, fields of struct variants in three representations (adjacent: C19); names are unique and explicit names win."
  },
  {
   "property": "C07",
   "status": "proved",
   "theorems": [
    "C07_order_and_grouping"
   ],
   "note": "Any permutation and regrouping of the items at any set of places."
  },
  {
   "property": "C08",
   "status": "proved",
   "theorems": [
    "C08_errors_exactly_for_unacceptable",
    "C08_unacceptable_never_accepted",
    "C08_accepted_settings_are_single",
    "C08_struct_settings_verbatim"
   ],
   "note": "Errors exactly for unacceptable attributes, on inputs of a supported shape with ordinary identifiers; never accepted in any case. Accepted settings are single and, by the descriptions of C13-C22, taken verbatim."
  },
  {
   "property": "C09",
   "status": "proved",
   "theorems": [
    "C09_unknown_opg_rejected",
    "C09_unknown_serde_changes_nothing"
   ],
   "note": "Unknown opg items are never accepted (an error, unless an odd identifier makes the derive panic first); unknown serde items change nothing, errors included."
  },
  {
   "property": "C10",
   "status": "partial",
   "theorems": [
    "C10_never_panics_refuted",
    "C10_accepted_exactly",
    "C10_panics_exactly",
    "C10_errors_exactly",
    "C10_panics_exactly_partial",
    "C10_no_panic_partial",
    "C10_errors_have_a_reason"
   ],
   "note": "FINDING: the derive panics on several inputs (refuted). Proved exactly which inputs are accepted, which panic and which are reported as errors, also for inputs with several mistakes (PanicSpec: the first value given counts)."
  },
  {
   "property": "C11",
   "status": "partial",
   "theorems": [
    "C11_always_reported_refuted",
    "C11_unsupported_rejected",
    "C11_reported_exactly",
    "C11_shape_errors"
   ],
   "note": "FINDING: one combination panics instead (refuted). Never accepted; proved exactly when they are reported; in particular whenever identifiers are ordinary, and three of the four shapes whatever the names."
  },
  {
   "property": "C12",
   "status": "proved",
   "theorems": [
    "C12_representation_selected",
    "C12_representation_shape"
   ],
   "note": "Representation total and unique; shape of the schema per representation."
  },
  {
   "property": "C13",
   "status": "proved",
   "theorems": [
    "C13_struct_members"
   ],
   "note": "Properties, required list, per-property schema."
  },
  {
   "property": "C14",
   "status": "partial",
   "theorems": [
    "C14_skipped_never_described_refuted",
    "C14_skipped_variant_refuted",
    "C14_skipped_leave_no_trace_partial",
    "C14_marks_in_vain"
   ],
   "note": "FINDING: skipped tuple fields are described and registered; a skipped variant with payload changes the shape (refuted). Proved for all named fields except in adjacently tagged variants, and all variants that do not change unit-ness; on all other fields a mark to skip has no effect at all (C14_marks_in_vain), so for fields the picture is complete."
  },
  {
   "property": "C15",
   "status": "proved",
   "theorems": [
    "C15_unit_enum"
   ],
   "note": "All fieldless enums."
  },
  {
   "property": "C16",
   "status": "proved",
   "theorems": [
    "C16_repr_enum"
   ],
   "note": "All repr enums."
  },
  {
   "property": "C17",
   "status": "partial",
   "theorems": [
    "C17_always_tagged_refuted",
    "C17_tag_clash_refuted",
    "C17_internal_enum",
    "C17_tagged_partial"
   ],
   "note": "FINDING: the tag is dropped for non-object payloads and on name clashes (refuted). Exact description of every alternative; tag present for unit and struct variants without a clash."
  },
  {
   "property": "C18",
   "status": "proved",
   "theorems": [
    "C18_adjacent_enum"
   ],
   "note": "All adjacently tagged enums with a payload variant."
  },
  {
   "property": "C19",
   "status": "partial",
   "theorems": [
    "C19_struct_variant_is_object_refuted",
    "C19_struct_variants_partial"
   ],
   "note": "FINDING: adjacently tagged struct variants are arrays (refuted). Proved for the other three representations."
  },
  {
   "property": "C20",
   "status": "proved",
   "theorems": [
    "C20_external_enum",
    "C20_untagged_enum"
   ],
   "note": "Each alternative described."
  },
  {
   "property": "C21",
   "status": "partial",
   "theorems": [
    "C21_container_nullable_refuted",
    "C21_newtype_struct"
   ],
   "note": "FINDING: container nullable is dropped (refuted); exact description proved."
  },
  {
   "property": "C22",
   "status": "partial",
   "theorems": [
    "C22_flag_replaces_type_refuted",
    "C22_type_not_consulted_partial",
    "C22_flagged_property",
    "C22_flagged_reference"
   ],
   "note": "FINDING: ignored on the field of newtype structs (refuted). Proved for struct properties and wherever a field is described by reference; the Rust type is not consulted."
  },
  {
   "property": "C23",
   "status": "proved",
   "theorems": [
    "C23_where_clause",
    "C23_bound_iff_mentioned",
    "C23_bounds_sufficient_refuted",
    "C23_bounds_necessary_refuted"
   ],
   "note": "The generics of the generated impl are characterised completely (existence, uniqueness). FINDING: the bounds are neither sufficient (skipped tuple fields are still asked for their schema) nor necessary (fields with an explicit type flag), see the two _refuted theorems."
  },
  {
   "property": "C24",
   "status": "proved",
   "theorems": [
    "C24_mention_leaves_no_dangling_link",
    "C24_schema_leaves_no_dangling_link",
    "C24_history_leaves_no_dangling_link"
   ],
   "note": "For every type environment, type, context and history."
  },
  {
   "property": "C25",
   "status": "proved",
   "theorems": [
    "C25_registered_components_never_change",
    "C25_add_model_first_wins",
    "C25_security_scheme_first_wins"
   ],
   "note": "All public mutators of Components, any history."
  },
  {
   "property": "C26",
   "status": "proved",
   "theorems": [
    "C26_schema_context_independent",
    "C26_reference_context_independent"
   ],
   "note": "Both get_schema and mention_schema."
  },
  {
   "property": "C27",
   "status": "partial",
   "theorems": [
    "C27_order_independent_refuted",
    "C27_order_independent_option_refuted",
    "C27_order_independent_partial",
    "C27_same_mentions_same_components_partial"
   ],
   "note": "FINDING: false when two types share an identifier or T and Option<T> are both linked (refuted theorems). Proved for every history whose linked names are unambiguous."
  },
  {
   "property": "C28",
   "status": "proved",
   "theorems": [
    "C28_returns_iff_not_recursive",
    "C28_recursive_types_never_return",
    "C28_non_recursive_types_return_everywhere"
   ],
   "note": "Finite type graphs with unique names: returns iff not recursive; recursive types diverge for every amount of fuel. FINDING: recursive types overflow the stack."
  },
  {
   "property": "C29",
   "status": "partial",
   "theorems": [
    "C29_link_leads_to_own_schema_refuted",
    "C29_links_lead_to_own_schema_partial",
    "C29_exactly_the_linked_types_are_registered_partial",
    "C29_registered_is_a_linked_schema_partial",
    "C29_fresh_link_leads_to_own_schema"
   ],
   "note": "FINDING: false with shared identifiers (refuted). Proved exactly for unambiguous names; without any naming assumption, the component is the schema of some linked type of that name, and a fresh link always leads to its own schema."
  },
  {
   "property": "C30",
   "status": "partial",
   "theorems": [
    "C30_option_sets_nullable_of_single_types_partial",
    "C30_option_is_nullable_refuted",
    "C30_linked_option_is_nullable_refuted"
   ],
   "note": "FINDING: Option of a oneOf schema, and a linked Option of an already registered type, are not nullable (refuted). The exact effect of Option on every schema is proved."
  },
  {
   "property": "C31",
   "status": "proved",
   "theorems": [
    "C31_wrappers_are_transparent"
   ],
   "note": "All eight wrappers, all contexts."
  },
  {
   "property": "C32",
   "status": "proved",
   "theorems": [
    "C32_named_mention_is_a_link",
    "C32_link_ignores_params",
    "C32_inline_mention_applies_params"
   ],
   "note": "Exact description of mentions."
  },
  {
   "property": "C33",
   "status": "proved",
   "theorems": [
    "C33_apply_params_overrides_exactly",
    "C33_members_determine_schema",
    "C33_apply_twice_is_combined",
    "C33_no_params_no_change"
   ],
   "note": "Member-wise, with completeness of the members."
  },
  {
   "property": "C34",
   "status": "proved",
   "theorems": [
    "C34_merge_succeeds_iff_disjoint_objects",
    "C34_merge_result_is_union"
   ],
   "note": "Exact success condition and result."
  },
  {
   "property": "C35",
   "status": "partial",
   "theorems": [
    "C35_failed_merge_changes_nothing_refuted",
    "C35_failed_merge_partial"
   ],
   "note": "FINDING: a failed merge keeps the properties inserted before the clash (refuted); the exact state after failure is proved."
  },
  {
   "property": "C36",
   "status": "proved",
   "theorems": [
    "C36_add_property_all_or_nothing"
   ],
   "note": "add_property is all-or-nothing."
  },
  {
   "property": "C37",
   "status": "partial",
   "theorems": [
    "C37_verify_finds_every_dangling_link_refuted",
    "C37_verify_ok_iff_direct_links_resolve_partial",
    "C37_verify_reports_a_dangling_link",
    "C37_verify_accepts_closed"
   ],
   "note": "FINDING: links nested in inline schemas are not checked (refuted); the exact set of links checked is proved, and closed components are accepted."
  },
  {
   "property": "C38",
   "status": "proved",
   "theorems": [
    "C38_generated_components_verify"
   ],
   "note": "Any history of mentions."
  },
  {
   "property": "C39",
   "status": "proved",
   "theorems": [
    "C39_render_shape",
    "C39_parse_back",
    "C39_injective",
    "C39_any_path_refuted"
   ],
   "note": "All paths with slash- and brace-free segments, with an explicit parser. Without the condition two paths can render alike (_refuted)."
  },
  {
   "property": "C40",
   "status": "partial",
   "theorems": [
    "C40_path_parameters_partial",
    "C40_path_parameters_exact",
    "C40_emitted_partial",
    "C40_path_parameters_refuted"
   ],
   "note": "FINDING: a header or query parameter of the path item with the same name replaces the path parameter (refuted). Exact description of every parameter map; proved for names not reused, in the document and in the emitted value."
  },
  {
   "property": "C41",
   "status": "proved",
   "theorems": [
    "C41_refs_resolve",
    "C41_refs_resolve_or_written",
    "C41_raw_response_refuted"
   ],
   "note": "Every $ref at any depth of the emitted document resolves when no response schema is written by hand; otherwise it resolves or comes from one (which may dangle, refuted)."
  },
  {
   "property": "C42",
   "status": "proved",
   "theorems": [
    "C42_document",
    "C42_schema",
    "C42_reference",
    "C42_components",
    "C42_operation",
    "C42_parameters",
    "C42_any_path_refuted"
   ],
   "note": "Injectivity of serialisation of schemas, references, parameters, operations, components and whole documents (paths with plain segments; needed, see _refuted)."
  },
  {
   "property": "C43",
   "status": "partial",
   "theorems": [
    "C43_described",
    "C43_described_refuted",
    "C43_keys_distinct_iff",
    "C43_keys_distinct_refuted"
   ],
   "note": "FINDING: listing a path twice emits a duplicate key (refuted, also from describe_api!). Exact: keys are distinct everywhere iff the rendered paths of each list (document and every callback) are."
  },
  {
   "property": "C44",
   "status": "proved",
   "theorems": [
    "C44_described",
    "C44_no_null_iff",
    "C44_no_null_refuted"
   ],
   "note": "No document of describe_api! contains null. Exact for documents built by hand: no null iff every request body has a description (FINDING, refuted otherwise)."
  },
  {
   "property": "C45",
   "status": "proved",
   "theorems": [
    "C45_described",
    "C45_described_order",
    "C45_document_order",
    "C45_path_item_order",
    "C45_operation_order",
    "C45_schema_order",
    "C45_declaration_order_irrelevant"
   ],
   "note": "Key order of every kind of map in documents, path items, operations and schemas, for documents built by hand and by describe_api!; permuting distinct declarations does not change a map; paths and servers keep their order."
  },
  {
   "property": "C46",
   "status": "proved",
   "theorems": [
    "C46_tags",
    "C46_security_schemes",
    "C46_paths",
    "C46_methods",
    "C46_operation",
    "C46_meaning"
   ],
   "note": "Tags, security schemes, methods, responses, parameters, callbacks; and the whole meaning of an invocation (ApiSpec.api_means)."
  },
  {
   "property": "C47",
   "status": "proved",
   "theorems": [
    "C47_response_description",
    "C47_emitted"
   ],
   "note": "The table of canonical reasons (crate http) is a parameter."
  },
  {
   "property": "C48",
   "status": "partial",
   "theorems": [
    "C48_identifiers_registered",
    "C48_registered_iff",
    "C48_registered_value",
    "C48_requirements_partial",
    "C48_requirements_refuted"
   ],
   "note": "FINDING: schemes named by a literal are not checked (refuted). Schemes named by identifiers are registered; exact set and value of the registered schemes; requirements name registered schemes if no literal is used."
  },
  {
   "property": "C49",
   "status": "partial",
   "theorems": [
    "C49_callbacks_partial",
    "C49_declared_partial",
    "C49_callbacks_refuted"
   ],
   "note": "FINDING: paths of callbacks named by a literal are lost (refuted). Identifier-named callbacks keep all their paths, at any depth, and each that is not declared again is there (C49_declared_partial)."
  },
  {
   "property": "C50",
   "status": "proved",
   "theorems": [
    "C50_split_join",
    "C50_join_split",
    "C50_elements",
    "C50_rejected",
    "C50_slashes"
   ],
   "note": "Splitting and joining are inverse; leading, trailing and doubled slashes and unparsable segments are rejected."
  },
  {
   "property": "C51",
   "status": "proved",
   "theorems": [
    "C51_changes_only",
    "C51_sets",
    "C51_later_overrides",
    "C51_commute"
   ],
   "note": "All builder calls and call sequences."
  },
  {
   "property": "C52",
   "status": "proved",
   "theorems": [
    "C52_operation_parameters",
    "C52_header",
    "C52_query",
    "C52_given"
   ],
   "note": "Defaults and overriding of every property of header and query parameters."
  },
  {
   "property": "C53",
   "status": "proved",
   "theorems": [
    "C53_object",
    "C53_simple",
    "C53_array",
    "C53_links_written",
    "C53_written_links",
    "C53_not_nullable"
   ],
   "note": "All invocations of any nesting; written links are there if no property is declared twice in one object."
  },
  {
   "property": "C54",
   "status": "proved",
   "theorems": [
    "C54_tuple_struct"
   ],
   "note": "All tuple structs."
  },
  {
   "property": "C55",
   "status": "proved",
   "theorems": [
    "C55_type_name"
   ],
   "note": "Every accepted input."
  },
  {
   "property": "C56",
   "status": "proved",
   "theorems": [
    "C56_components",
    "C56_components_exact",
    "C56_order_irrelevant"
   ],
   "note": "Exact for unambiguous names (C27); in general the components are those of a history of mentions of exactly the written types."
  },
  {
   "property": "C57",
   "status": "proved",
   "theorems": [
    "C57_describes_iff",
    "C57_deterministic",
    "C57_not_recursive",
    "C57_recursive",
    "C57_unnameable"
   ],
   "note": "Exact condition. FINDINGS: recursive types and non-ASCII type names."
  },
  {
   "property": "C58",
   "status": "proved",
   "theorems": [
    "C58_does_not_compile_iff"
   ],
   "note": "Exact rules, on the syntax the macro grammar admits."
  },
  {
   "property": "C59",
   "status": "partial",
   "theorems": [
    "C59_json_accepted_partial",
    "C59_one_element_tuple_refuted",
    "C59_optional_alternatives_refuted",
    "C59_external_unit_variant_refuted",
    "C59_tagged_unit_enum_refuted",
    "C59_adjacent_struct_variant_refuted",
    "C59_implicit_discriminants_refuted",
    "C59_transparent_struct_refuted",
    "C59_flattened_field_refuted",
    "C59_duplicate_names_refuted"
   ],
   "note": "Proved for all types made of supported parts (SoundSpec.supported_inside), which include 18 of the 22 types of the repository tests, types described by type flags that suit what serde writes (which flags do not is C86), structs with a tag, and structs and struct variants with flattened fields that are marked optional (or skip_serializing_if) and whose members have other names than the fields beside them. FINDINGS: nine kinds of types for which it is false (refuted). oneOf is read as at least one; see C61 and C69 for the strict reading."
  },
  {
   "property": "C60",
   "status": "partial",
   "theorems": [
    "C60_request_bodies_partial",
    "C60_responses_partial"
   ],
   "note": "As C59, at the request bodies and responses of documents of describe_api!; hand-written response schemas excluded."
  },
  {
   "property": "C61",
   "status": "proved",
   "theorems": [
    "C61_internal_exactly_one",
    "C61_internal_objects",
    "C61_tuples_refuted"
   ],
   "note": "Internally tagged enums with differently named variants. FINDING: tuples (refuted)."
  },
  {
   "property": "C62",
   "status": "proved",
   "theorems": [
    "C62_integers",
    "C62_others",
    "C62_date_time_has_date_format"
   ],
   "note": "All built-in types. FINDING: DateTime and NaiveDateTime have format date."
  },
  {
   "property": "C63",
   "status": "proved",
   "theorems": [
    "C63_sequences",
    "C63_dictionaries",
    "C63_tuples"
   ],
   "note": "Exact, as equivalences."
  },
  {
   "property": "C64",
   "status": "proved",
   "theorems": [
    "C64_document",
    "C64_schema",
    "C64_reference",
    "C64_components",
    "C64_described",
    "C64_any_path_refuted"
   ],
   "note": "Whole documents and each part, with a reader written from the OpenAPI specification (ReadSpec); also for describe_api!. Without the condition on segments a literal segment in braces is read as a parameter (refuted)."
  },
  {
   "property": "C65",
   "status": "partial",
   "theorems": [
    "C65_document_iff",
    "C65_schema_iff",
    "C65_types_partial",
    "C65_components_partial",
    "C65_types_iff",
    "C65_described_partial",
    "C65_described_iff",
    "C65_no_paths_refuted",
    "C65_responses_refuted",
    "C65_status_refuted",
    "C65_api_key_refuted",
    "C65_enum_refuted",
    "C65_tuple_refuted",
    "C65_required_refuted"
   ],
   "note": "Exact for documents and schemas (C65_document_iff, C65_schema_iff, against OpenApiSpec.conforms written from the OpenAPI specification). C65_types_iff is exact for histories of mentions of derived types (unambiguous names, no two fields of one name). C65_described_iff is exact for the documents of describe_api! under the same conditions, if nothing is declared in two ways. FINDINGS: without the conditions seven kinds of inputs give documents that do not conform (refuted)."
  },
  {
   "property": "C66",
   "status": "partial",
   "theorems": [
    "C66_accepted_json_readable_partial",
    "C66_request_bodies_partial",
    "C66_responses_partial",
    "C66_unit_refuted",
    "C66_array_length_refuted",
    "C66_tuple_length_refuted",
    "C66_unknown_variant_refuted",
    "C66_other_content_refuted",
    "C66_discriminant_refuted",
    "C66_optional_field_refuted",
    "C66_nullable_field_refuted",
    "C66_any_field_refuted"
   ],
   "note": "For types described exactly (ReadsSpec.exact_inside), also for the bodies of describe_api!. The condition exact_inside is sufficient, not necessary. FINDINGS: nine kinds of types whose schemas accept JSON that serde cannot read (refuted)."
  },
  {
   "property": "C67",
   "status": "proved",
   "theorems": [
    "C67_document",
    "C67_reads",
    "C67_rejects",
    "C67_unknown_section",
    "C67_one_meaning",
    "C67_trailing_comma",
    "C67_segments",
    "C67_no_sections_refuted",
    "C67_scheme_variable_refuted",
    "C67_literal_callback_refuted",
    "C67_callback_comma_refuted"
   ],
   "note": "Sound, complete and unambiguous for the grammar of SyntaxSpec.invocation, for every caller (fragment parser) that meets rust_like; the invocation in the repository tests is read token by token. FINDINGS: four quirks of the grammar, as _refuted theorems. Not modelled: calls of the internal @ rules by users; for the recursion limit of macros see C81."
  },
  {
   "property": "C68",
   "status": "proved",
   "theorems": [
    "C68_model",
    "C68_one_meaning",
    "C68_key_order_refuted",
    "C68_commas_refuted"
   ],
   "note": "Sound, complete and unambiguous for the grammar of SyntaxSpec.type_form. FINDINGS: order of keys and commas."
  },
  {
   "property": "C69",
   "status": "partial",
   "theorems": [
    "C69_not_both",
    "C69_strict_is_stricter",
    "C69_readings_agree_partial",
    "C69_json_accepted_strictly_partial",
    "C69_request_bodies_partial",
    "C69_responses_partial",
    "C69_request_bodies_strict_partial",
    "C69_responses_strict_partial",
    "C69_tuple_refuted",
    "C69_repr_enum_refuted",
    "C69_external_refuted",
    "C69_untagged_refuted",
    "C69_adjacent_refuted"
   ],
   "note": "For types that tell their alternatives apart (StrictSpec.told_apart, a condition on the sources), also for the bodies of describe_api!. Agreement of the readings is for alternatives of different kinds or with different tags; what serde writes is accepted strictly also where objects are told apart by their members only (each has a field that is always written and the other lacks). The condition is sufficient, not necessary. FINDINGS: five kinds of types whose own values are rejected in the strict reading (refuted)."
  },
  {
   "property": "C70",
   "status": "proved",
   "theorems": [
    "C70_reads",
    "C70_one_reading",
    "C70_builtin_types",
    "C70_builtin_coverage",
    "C70_plain_form_refuted",
    "C70_plain_form_name",
    "C70_imports_refuted",
    "C70_bare_forms"
   ],
   "note": "What the macro accepts and the impl it writes are exact (C70_reads); the impls of lib.rs are proved to be the ones the model of generation assumes (C70_builtin_types, C70_builtin_coverage). FINDINGS: the plain form does not compile without a type T in scope (refuted), and five of the seven forms need Model or serde imported by the caller (refuted, with the exact forms that do not, C70_bare_forms)."
  },
  {
   "property": "C71",
   "status": "partial",
   "theorems": [
    "C71_path_depends_on_itself",
    "C71_appending_only_adds",
    "C71_components_stay_partial",
    "C71_components_stay_refuted"
   ],
   "note": "Paths: for all APIs. Components: for all APIs when sections are added at the end; when added elsewhere, if no two reachable types share a name. FINDING: otherwise not (refuted)."
  },
  {
   "property": "C72",
   "status": "proved",
   "theorems": [
    "C72_same_outcome",
    "C72_get_schema",
    "C72_mention_schema",
    "C72_type_name",
    "C72_never_wrong",
    "C72_one_result"
   ],
   "note": "For all accepted declarations, types and contexts. Rust.v is a fragment of Rust with values for the types of models.rs; the code of opg.rs is transcribed template by template in Quote.v. Trusted: that the fragment means what rustc makes of it, and that examples given by expressions do not touch the components."
  },
  {
   "property": "C73",
   "status": "partial",
   "theorems": [
    "C73_examples_keep_meaning_partial",
    "C73_examples_keep_meaning_refuted",
    "C73_const_names"
   ],
   "note": "True of every expression without the words cx, properties and required, in all code the derive accepts; FINDING: otherwise not (refuted: an example that calls a function named required). Scoping of the written code is HygieneSpec.stands; that quote! identifiers share the hygiene of the call site is trusted. The constants: for all identifiers."
  },
  {
   "property": "C74",
   "status": "proved",
   "theorems": [
    "C74_errors_exact",
    "C74_errors_in_order",
    "C74_errors_when",
    "C74_never_aborts",
    "C74_same_outcome"
   ],
   "note": "Exact, for all declarations: DiagSpec.complains says what there is to complain about, where, and in which words. Places are named by where they stand (owner, attribute, item, part); that syn turns tokens at such a place into its span is trusted. The text of the errors of syn itself, and the place they point to within the attribute, are not modelled."
  },
  {
   "property": "C75",
   "status": "partial",
   "theorems": [
    "C75_all_shown_refuted",
    "C75_all_shown_refuted_by_panic",
    "C75_all_shown_partial",
    "C75_named_once_refuted",
    "C75_named_right_refuted",
    "C75_named_right_partial"
   ],
   "note": "Shown all at once unless discriminants are inconsistent or renaming panics (C75_all_shown_partial); repeated attributes are named rightly except inside rename(..)/rename_all(..) (C75_named_right_partial). FINDINGS: hidden errors (two refutations), a union reported twice (refuted), rename_all called rename (refuted)."
  },
  {
   "property": "C76",
   "status": "proved",
   "theorems": [
    "C76_document_told",
    "C76_schema_told"
   ],
   "note": "For all documents. Trusted: that Serde.v says what serde_derive makes of the attributes (FlatMapSerializer, TaggedSerializer, rename_all, skip_serializing_if); serializers themselves (YAML, JSON text) are not modelled."
  },
  {
   "property": "C77",
   "status": "partial",
   "theorems": [
    "C77_runs_as_read",
    "C77_caller_meaning_partial",
    "C77_caller_meaning_refuted",
    "C77_callbacks_need_import",
    "C77_import_refuted",
    "C77_operation_texts_need_reference",
    "C77_operation_string_refuted"
   ],
   "note": "For every invocation that compiles: C77_runs_as_read is exact (info read as the macro reads it); with the meaning of the caller if no expression in info depends on a variable named as a property before it (C77_caller_meaning_partial). FINDINGS: capture in info (refuted); callbacks without CallbackObject imported never compile (C77_callbacks_need_import, C77_import_refuted); the summary, operationId and description of an operation must be references, a String is rejected (C77_operation_texts_need_reference, C77_operation_string_refuted). Trusted: that marks on identifiers are the hygiene of macro_rules!. Expressions of the caller are functions of the caller's variables: they have no effects and do not panic."
  },
  {
   "property": "C78",
   "status": "partial",
   "theorems": [
    "C78_reader_sees_source",
    "C78_published",
    "C78_request_bodies_partial",
    "C78_responses_partial"
   ],
   "note": "C78_reader_sees_source and C78_published are exact about the document (for plain url segments; C64_any_path_refuted shows the need). Bodies and responses: for supported types, as C59 and C60, whose refutations apply. Trusted: the laws of the Rust parser in rust_like."
  },
  {
   "property": "C79",
   "status": "partial",
   "theorems": [
    "C79_fits_is_accepted",
    "C79_no_undescribed_members_partial",
    "C79_tagged_struct_refuted",
    "C79_flattened_field_refuted",
    "C79_request_bodies_partial",
    "C79_responses_partial"
   ],
   "note": "For supported types without tagged structs and flattened fields, otherwise as C59, whose refutations apply: what is not accepted does not fit either. FINDING: the tag of a tagged struct, and what is flattened into a struct, is written but not described (refuted). The example shows that fitting says more than accepting."
  },
  {
   "property": "C80",
   "status": "partial",
   "theorems": [
    "C80_in_order",
    "C80_panics",
    "C80_same_document",
    "C80_at_most_once",
    "C80_once_partial",
    "C80_as_written_partial",
    "C80_as_written_refuted",
    "C80_once_refuted"
   ],
   "note": "Exact: C80_in_order gives the order of evaluation for all expressions, with any effects, C80_panics what happens at a panic, C80_same_document that the code is that of C77. FINDINGS: names of headers and apiKey schemes come after the properties (refuted); contents of callbacks named by a literal are not evaluated (refuted); in all other invocations each is evaluated once (C80_once_partial), as written (C80_as_written_partial)."
  },
  {
   "property": "C81",
   "status": "proved",
   "theorems": [
    "C81_document",
    "C81_levels",
    "C81_beyond",
    "C81_higher_limit",
    "C81_sections",
    "C81_paths",
    "C81_operation",
    "C81_schemes",
    "C81_lists",
    "C81_urls",
    "C81_every_invocation_refuted",
    "C81_responses_refuted",
    "C81_model",
    "C81_objects",
    "C81_every_type_refuted"
   ],
   "note": "Exact: C81_document is an equivalence for every limit, C81_levels gives the depth of every invocation that the grammar reads. FINDING: for every limit there are invocations with a meaning that exceed it (C81_every_invocation_refuted, C81_responses_refuted). Only calls of describe_api! and describe_type! themselves are counted: other macros within (stringify!, vec!, those of the caller) may need a few levels more."
  },
  {
   "property": "C82",
   "status": "proved",
   "theorems": [
    "C82_documentation_only",
    "C82_same_json",
    "C82_api",
    "C82_removal"
   ],
   "note": "C82_documentation_only is about schemas and components, C82_same_json about the JSON accepted, C82_api about whole documents, C82_removal about compiling. For any choice of the three kinds of documentation. Documentation that the derive rejects (a repeated description) is not covered: both programs compile."
  },
  {
   "property": "C83",
   "status": "proved",
   "theorems": [
    "C83_tokens",
    "C83_errors_point_at_string",
    "C83_same_expression"
   ],
   "note": "For every lexer and every parser that meets the two laws in RespanSpec (syn's are trusted to). That rustc shows errors at, and looks names up by, the place of a token is trusted."
  },
  {
   "property": "C84",
   "status": "proved",
   "theorems": [
    "C84_meaning",
    "C84_source",
    "C84_grammars",
    "C84_read_once",
    "C84_variables",
    "C84_every_description_refuted"
   ],
   "note": "Exact: C84_meaning and C84_source are equivalences, for every set of variables and every mark. FINDING: a variable holding a model or data that is named twice is moved by the first use, so a description that the grammar reads and that has a meaning does not compile (C84_every_description_refuted). That identifiers of different expansions differ is how macro_rules hygiene works and is trusted."
  },
  {
   "property": "C85",
   "status": "proved",
   "theorems": [
    "C85_contains",
    "C85_only_called",
    "C85_schemas",
    "C85_added_is_there",
    "C85_mentioned_is_there",
    "C85_added_free",
    "C85_dangling",
    "C85_verify",
    "C85_security"
   ],
   "note": "For sequences of calls that return (see C28). That everything linked is there is C29 (for unambiguous names)."
  },
  {
   "property": "C86",
   "status": "proved",
   "theorems": [
    "C86_external_unit_variants",
    "C86_tagged_units",
    "C86_integer_enums",
    "C86_optional",
    "C86_optional_integer_enum",
    "C86_optional_internal_enum",
    "C86_transparent_struct",
    "C86_transparent_tuple",
    "C86_flattened",
    "C86_adjacent_struct_variants",
    "C86_flagged_newtype",
    "C86_flagged_field",
    "C86_one_element_tuples"
   ],
   "note": "These are the exclusions of C59 (findings), now for every type of each shape. Not of this kind, since other alternatives or attributes may accept the value: one-element tuples of derived types, fields of equal names, struct variants of adjacently tagged enums that also have newtype variants."
  },
  {
   "property": "C87",
   "status": "proved",
   "theorems": [
    "C87_moves",
    "C87_own_variables",
    "C87_many_uses",
    "C87_every_invocation_refuted",
    "C87_order_refuted"
   ],
   "note": "An exact characterisation, for info sections whose properties differ and do not use variables with the names of properties before them (others: C77). The theorems with the suffix _refuted are the FINDING: Strings named for two servers, or for a server and later elsewhere, are rejected."
  },
  {
   "property": "C88",
   "status": "partial",
   "theorems": [
    "C88_mentions_partial",
    "C88_request_bodies_partial",
    "C88_responses_partial",
    "C88_optional_field_refuted",
    "C88_first_payload_refuted"
   ],
   "note": "For supported types (as C59) after the change, whose refutations apply. The relation GrowSpec.grows is sufficient, not necessary. FINDINGS: an added field of type Option is required unless marked (C88_optional_field_refuted); the first variant with contents changes how all others are described (C88_first_payload_refuted)."
  },
  {
   "property": "C89",
   "status": "partial",
   "theorems": [
    "C89_mentions_partial",
    "C89_narrowed_partial",
    "C89_request_bodies_partial",
    "C89_responses_partial",
    "C89_new_variant_refuted"
   ],
   "note": "For supported types (as C59) before the change. The relation AddSpec.adds_fields is sufficient, not necessary. C89_new_variant_refuted shows the limit: a new variant is rejected by the old document."
  }
 ]
}