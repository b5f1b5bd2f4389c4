{"id": "C01", "title": "rename_all on enum variants follows the word-splitting convention", "statement": "For every PascalCase variant identifier (a concatenation of capitalised words), each `rename_all` rule yields exactly the conventional spelling: lowercase/UPPERCASE concatenation, camelCase with a lowercased head, snake/SCREAMING_SNAKE/kebab/SCREAMING-KEBAB as the words joined by `_` or `-` in the right case, and PascalCase/no rule leave it unchanged.", "quantifier": "all variant identifiers built from any number of words of any length, all nine rules", "why_tests_cant": "unit tests fix four identifiers; the rule must hold for unboundedly many words and lengths", "anchors": ["opg_derive/src/case.rs: RenameRule::apply_to_variant"]}
{"id": "C02", "title": "rename_all on struct fields follows the word-splitting convention", "statement": "For every snake_case field identifier (words joined by single underscores), each `rename_all` rule yields exactly the conventional spelling: PascalCase capitalises and concatenates the words, camelCase does so except for the first word, kebab joins with `-`, UPPERCASE/SCREAMING variants upper-case, lowercase/snake/no rule leave it unchanged.", "quantifier": "all field identifiers built from any number of words, all nine rules", "why_tests_cant": "unbounded family of identifiers", "anchors": ["opg_derive/src/case.rs: RenameRule::apply_to_field"]}
{"id": "C03", "title": "Renaming never crashes the derive", "statement": "Applying any rename rule to any identifier returns a name. (The code only achieves this when the rule is not camelCase, or when the first character that camelCase would lower-case exists and is one byte long; otherwise the derive macro panics.)", "quantifier": "all identifiers over all Unicode scalar values, all rules", "why_tests_cant": "needs every identifier, including all-underscore and non-ASCII ones", "anchors": ["opg_derive/src/case.rs: RenameRule::apply_to_variant", "opg_derive/src/case.rs: RenameRule::apply_to_field"]}
{"id": "C04", "title": "Renaming keeps distinct names distinct", "statement": "Two different identifiers of the same container never receive the same serialised name from a word-separating rename rule (snake, SCREAMING_SNAKE, kebab, SCREAMING-KEBAB, PascalCase and camelCase on conventional identifiers). lowercase and UPPERCASE on variants do not have this property.", "quantifier": "all pairs of conventional identifiers, all rules", "why_tests_cant": "quantifies over pairs of arbitrary identifiers", "anchors": ["opg_derive/src/case.rs: RenameRule::apply_to_variant", "opg_derive/src/case.rs: RenameRule::apply_to_field"]}
{"id": "C05", "title": "rename_all accepts exactly the eight documented spellings", "statement": "A `rename_all` string selects a rule if and only if it is one of the eight documented spellings, each selects its own rule, and any other string leaves names unchanged without reporting an error.", "quantifier": "all strings", "why_tests_cant": "a universal statement over all strings", "anchors": ["opg_derive/src/case.rs: RenameRule::from_str", "opg_derive/src/attr.rs: Container::from_ast", "opg_derive/src/attr.rs: Variant::from_ast"]}
{"id": "C06", "title": "Explicit rename beats rename_all, and rename_all reaches exactly the direct children", "statement": "A variant or field with an explicit `rename` is emitted under exactly that name whatever `rename_all` says; without it, variants use the container's rule, struct fields use the container's rule, and fields of a variant use that variant's own rule only.", "quantifier": "all containers, variants, fields, names and rules", "why_tests_cant": "ranges over all combinations of attributes at the three levels", "anchors": ["opg_derive/src/attr.rs: Name", "opg_derive/src/ast.rs: Container::from_ast", "opg_derive/src/attr.rs: Variant::rename_by_rule", "opg_derive/src/attr.rs: Field::rename_by_rule"]}
{"id": "C07", "title": "Attribute order and grouping do not matter", "statement": "If a list of container, variant or field attributes is accepted by the derive, then any permutation of the items, and any regrouping of them into several #[opg(..)]/#[serde(..)] lists, is accepted and configures the item identically.", "quantifier": "all attribute lists and all permutations/regroupings of them", "why_tests_cant": "factorially many orders of unboundedly many attributes", "anchors": ["opg_derive/src/attr.rs: Container::from_ast", "opg_derive/src/attr.rs: Variant::from_ast", "opg_derive/src/attr.rs: Field::from_ast", "opg_derive/src/attr.rs: get_meta_items"]}
{"id": "C08", "title": "Repeated attributes are rejected, and an accepted attribute is taken verbatim", "statement": "On inputs of a shape it supports, whose identifiers can be renamed, the derive reports an error exactly when some single-valued attribute (description, format, example, rename, inline, nullable, optional, skip, flatten, tag, content, repr, ... or the explicit-type flag) is given more than once or an item is malformed; when there is no error every setting equals the one value the user wrote.", "quantifier": "all attribute lists", "why_tests_cant": "all multiplicities and positions of duplicates", "anchors": ["opg_derive/src/attr.rs: Attr::set", "opg_derive/src/attr.rs: BoolAttr::set_true", "opg_derive/src/attr.rs: OneOfFlagsAttr::at_most_one", "opg_derive/src/attr.rs: VecAttr::at_most_one"]}
{"id": "C09", "title": "Unknown opg attributes are rejected, unknown serde attributes are ignored", "statement": "Any #[opg(..)] item whose key is not documented for that position makes the derive fail; any #[serde(..)] item the generator does not know has no effect at all on the generated model or on acceptance.", "quantifier": "all attribute lists and all unknown keys", "why_tests_cant": "the set of unknown keys is infinite", "anchors": ["opg_derive/src/attr.rs: Container::from_ast", "opg_derive/src/attr.rs: Variant::from_ast", "opg_derive/src/attr.rs: Field::from_ast"]}
{"id": "C10", "title": "The derive never panics", "statement": "Running the derive on any input yields generated code or a list of compile errors. (False of the code: it panics exactly for untagged enums with a serialised unit or tuple variant, adjacently tagged enums with a serialised unit variant, internally tagged enums with a serialised tuple variant, newtype structs whose container is marked `any`, and camelCase on an identifier without a one-byte first letter.)", "quantifier": "all derive inputs", "why_tests_cant": "all shapes of enums/structs with all attribute combinations", "anchors": ["opg_derive/src/opg.rs: impl_derive_opg_model", "opg_derive/src/opg.rs: serialize_body", "opg_derive/src/opg.rs: serialize_enum", "opg_derive/src/opg.rs: serialize_untagged_enum", "opg_derive/src/opg.rs: serialize_adjacent_tagged_enum", "opg_derive/src/opg.rs: serialize_internal_tagged_enum", "opg_derive/src/opg.rs: serialize_newtype_struct"]}
{"id": "C11", "title": "Unsupported shapes are reported as errors, not mis-described", "statement": "Unions, unit structs, untagged enums consisting only of unit variants and enums mixing explicit and implicit discriminants are always rejected with at least one compile error, whatever else the input contains. (False of the code for untagged unit enums with camelCase on an identifier it cannot lower-case, where the derive panics; never accepted in any case.)", "quantifier": "all derive inputs of these shapes", "why_tests_cant": "any attributes and any number of variants may surround the shape", "anchors": ["opg_derive/src/attr.rs: decide_model_type", "opg_derive/src/ast.rs: Container::from_ast", "opg_derive/src/ast.rs: enum_from_ast"]}
{"id": "C12", "title": "Enum representation is selected as serde selects it", "statement": "Exactly: no tag attributes means externally tagged, `untagged` alone untagged, `tag` alone internally tagged, `tag`+`content` adjacently tagged, contradictory combinations externally tagged; an enum all of whose variants are unit becomes a plain list of strings whatever its tag (a deviation from serde for `tag`ged unit enums).", "quantifier": "all enums and tag attribute combinations", "why_tests_cant": "all variant lists", "anchors": ["opg_derive/src/attr.rs: decide_tag", "opg_derive/src/attr.rs: decide_model_type", "opg_derive/src/opg.rs: serialize_enum"]}
{"id": "C13", "title": "A struct's schema has exactly its serialised fields", "statement": "For every accepted struct with named fields the generated schema is an object whose property names are exactly the serialised names of the fields that are not skipped, and whose `required` list is exactly the serialised names of the non-skipped, non-optional fields in declaration order; when names are distinct each property's schema is the one of its own field.", "quantifier": "all structs with any number of fields and attributes, all contexts", "why_tests_cant": "unbounded number of fields, all attribute combinations", "anchors": ["opg_derive/src/opg.rs: serialize_struct", "opg_derive/src/opg.rs: object_type_description", "opg_derive/src/opg.rs: field_model_reference"]}
{"id": "C14", "title": "Skipped fields and variants never reach the document", "statement": "A field or variant marked `skip`/`skip_serializing` contributes nothing to the generated schema or to the registered components. (False of the code for tuple structs/variants and newtype variants, whose skipped fields are still described.)", "quantifier": "all containers, all positions of skipped members", "why_tests_cant": "all combinations of skipped and kept members", "anchors": ["opg_derive/src/opg.rs: object_type_description", "opg_derive/src/opg.rs: tuple_type_description", "opg_derive/src/opg.rs: serialize_newtype_enum", "opg_derive/src/opg.rs: serialize_untagged_enum"]}
{"id": "C15", "title": "Unit enums list exactly their serialised variants", "statement": "A fieldless enum's schema is a string with an `enum` list equal to the serialised names of all non-skipped variants in declaration order, and its example is the first of them (none if there are none); it touches no components.", "quantifier": "all fieldless enums, any number of variants", "why_tests_cant": "unbounded variants", "anchors": ["opg_derive/src/opg.rs: serialize_newtype_enum"]}
{"id": "C16", "title": "repr enums list exactly their explicit discriminants", "statement": "A fieldless enum with #[repr(..)] is described as a oneOf with one integer alternative per non-skipped variant that has an explicit discriminant, in order, carrying the variant's serialised name in the description and the discriminant's source text as example; variants without discriminants are omitted.", "quantifier": "all fieldless repr enums", "why_tests_cant": "unbounded variants", "anchors": ["opg_derive/src/opg.rs: serialize_newtype_enum"]}
{"id": "C17", "title": "Every alternative of an internally tagged enum carries its tag", "statement": "Each alternative of an internally tagged enum is an object that lists the tag property, as a one-value string enum equal to the variant's serialised name, among its required properties. (False of the code when the variant's payload is not an object schema, or already has a property named like the tag; then the tag is silently dropped. Proved exactly otherwise.)", "quantifier": "all internally tagged enums, payload types and tag names", "why_tests_cant": "all payload schemas and name clashes", "anchors": ["opg_derive/src/opg.rs: serialize_internal_tagged_enum", "opg/src/models.rs: Model::try_merge", "opg/src/models.rs: ModelObject::merge"]}
{"id": "C18", "title": "Adjacently tagged enums describe tag and content", "statement": "An adjacently tagged enum is an object with exactly the two required properties tag and content (in that order of requirement); the tag enumerates the serialised names of the non-skipped variants in order, the content is a oneOf with one alternative per such variant in the same order.", "quantifier": "all adjacently tagged enums with distinct tag and content keys", "why_tests_cant": "unbounded variants", "anchors": ["opg_derive/src/opg.rs: serialize_adjacent_tagged_enum"]}
{"id": "C19", "title": "A struct-like variant is described as an object with its named fields", "statement": "A variant with named fields is described as an object whose properties are its fields in every tagging mode. (False of the code for adjacently tagged enums, which describe it as an array.)", "quantifier": "all enums with struct variants, all four tagging modes", "why_tests_cant": "all modes and fields", "anchors": ["opg_derive/src/opg.rs: serialize_adjacent_tagged_enum", "opg_derive/src/opg.rs: serialize_external_tagged_enum", "opg_derive/src/opg.rs: serialize_untagged_enum", "opg_derive/src/opg.rs: serialize_internal_tagged_enum"]}
{"id": "C20", "title": "Externally tagged and untagged enums list one alternative per serialised variant, in order", "statement": "An externally tagged enum is an object whose additional properties are a oneOf over the non-skipped variants in order; an untagged enum is directly that oneOf.", "quantifier": "all such enums", "why_tests_cant": "unbounded variants", "anchors": ["opg_derive/src/opg.rs: serialize_external_tagged_enum", "opg_derive/src/opg.rs: serialize_untagged_enum"]}
{"id": "C21", "title": "A newtype struct is its inner type with the attributes applied", "statement": "The schema of `struct N(T)` is T's schema with description, format, example and nullability taken from the field's attributes first, else from the container's, else left as T has them. (False of the code for container-level `nullable`, which is dropped.)", "quantifier": "all newtype structs, inner types and attributes", "why_tests_cant": "all inner schemas", "anchors": ["opg_derive/src/opg.rs: serialize_newtype_struct", "opg_derive/src/opg.rs: ContextParams::or", "opg/src/models.rs: Model::apply_params"]}
{"id": "C22", "title": "An explicit type flag replaces the field's type completely", "statement": "A field marked string/integer/number/boolean is described by exactly that primitive with the field's own description/format/example/nullability, `any` by the empty schema, and neither consults the Rust type nor registers any component for it.", "quantifier": "all fields, types and contexts", "why_tests_cant": "all surrounding contexts", "anchors": ["opg_derive/src/opg.rs: field_model_reference", "opg_derive/src/opg.rs: newtype_model"]}
{"id": "C23", "title": "Generic parameters get an OpgModel bound exactly when needed", "statement": "The generated impl requires `T: OpgModel` for a type parameter T if and only if T occurs as a bare type somewhere in the type of a field that is serialised (outside PhantomData and macros), and requires `T::A: OpgModel` for each serialised field whose type is such a projection; it adds nothing else and keeps the user's own bounds.", "quantifier": "all generic containers and field types of any nesting", "why_tests_cant": "unbounded nesting of types", "anchors": ["opg_derive/src/bound.rs: with_bound", "opg_derive/src/opg.rs: build_generics", "opg_derive/src/bound.rs: without_default"]}
{"id": "C24", "title": "Generation never leaves a dangling link", "statement": "After mentioning any type in any context whose components are link-closed, every `$ref` reachable at any depth in the returned reference and in every registered component names a registered component.", "quantifier": "all type environments, types, contexts and histories of mentions", "why_tests_cant": "all type graphs and all histories", "anchors": ["opg/src/models.rs: Components::mention_schema", "opg/src/models.rs: OpgModel::select_reference", "opg_derive/src/opg.rs: field_model_reference"]}
{"id": "C25", "title": "Registered components are never removed or changed", "statement": "No sequence of mention_schema / add_model / mention_security_scheme calls removes or alters a component that was already registered; the first registration under a name wins.", "quantifier": "all histories of calls on Components", "why_tests_cant": "histories of unbounded length", "anchors": ["opg/src/models.rs: Components::mention_schema", "opg/src/models.rs: Components::add_model", "opg/src/models.rs: Components::mention_security_scheme"]}
{"id": "C26", "title": "A type's schema does not depend on the context it is generated in", "statement": "get_schema and the reference returned by mention_schema give the same result for a type whatever has been registered before; only the side effect on the components differs.", "quantifier": "all type environments, types and pairs of contexts", "why_tests_cant": "all pairs of contexts", "anchors": ["opg/src/models.rs: OpgModel::get_schema", "opg/src/models.rs: Components::mention_schema"]}
{"id": "C27", "title": "The document does not depend on the order in which types are mentioned", "statement": "Mentioning the same collection of types in any order leads to the same registered components. (False of the code in general: with a component name shared by two types, or by `T` and `Option<T>`, the first mention wins. Proved whenever no such sharing occurs.)", "quantifier": "all type environments and all permutations of all mention sequences", "why_tests_cant": "factorially many orders", "anchors": ["opg/src/models.rs: Components::mention_schema", "opg/src/macros.rs: impl_opg_model"]}
{"id": "C28", "title": "Schema generation terminates exactly for non-recursive types", "statement": "Generating a type's schema returns if and only if the type does not (transitively) contain itself through serialised fields; every recursive type makes generation run forever (stack overflow), although Rust accepts the type and the derive accepts it.", "quantifier": "all type environments with unambiguous names, all types", "why_tests_cant": "non-termination cannot be observed by a test; all type graphs", "anchors": ["opg/src/models.rs: Components::mention_schema", "opg_derive/src/opg.rs: implement_type"]}
{"id": "C29", "title": "A `$ref` leads to the schema of the very type that was mentioned", "statement": "After mentioning a named type by reference, the component the link leads to is that type's own schema. (False of the code when two types share an identifier, as in different modules or two instances of one generic, and for Option<T>. Proved whenever names are unambiguous.)", "quantifier": "all type environments and histories", "why_tests_cant": "all pairs of types with equal names in all histories", "anchors": ["opg/src/models.rs: Components::mention_schema", "opg_derive/src/opg.rs: implement_type"]}
{"id": "C30", "title": "Option makes a schema nullable", "statement": "The schema of Option<T> differs from that of T exactly in being marked nullable. (False of the code when T's schema is a oneOf, or, through a link, when T was registered earlier. Proved exactly otherwise.)", "quantifier": "all types T", "why_tests_cant": "all inner schemas", "anchors": ["opg/src/macros.rs: impl_opg_model generic_simple(nullable)", "opg/src/lib.rs: Option<T>"]}
{"id": "C31", "title": "Smart pointers and references are transparent", "statement": "&T, &mut T, Box<T>, Rc<T>, Arc<T>, Cell<T>, RefCell<T> and (T,) are described exactly like T: same schema, same component name, same reference, same effect on the components.", "quantifier": "all types, nestings and contexts", "why_tests_cant": "unbounded nesting", "anchors": ["opg/src/macros.rs: impl_opg_model generic_simple", "opg/src/lib.rs"]}
{"id": "C32", "title": "Inline mentions carry the context parameters, links never do", "statement": "A mention yields a link exactly when the type has a name and inlining is not requested, and then description/format/example/nullability given at the place of use have no effect on anything; otherwise it yields the type's schema with those parameters applied and does not register the type itself.", "quantifier": "all types, contexts and parameters", "why_tests_cant": "all parameters and contexts", "anchors": ["opg/src/models.rs: OpgModel::select_reference", "opg/src/models.rs: Components::mention_schema"]}
{"id": "C33", "title": "apply_params overrides exactly what is given", "statement": "Applying context parameters replaces description by the given one, and for a single-typed schema nullable, and for strings the enum list, and for strings/numbers/integers format and example; every parameter not given and every part of the schema not listed is untouched. Applying twice equals applying the combined parameters once.", "quantifier": "all schemas and parameter sets", "why_tests_cant": "all schemas of unbounded depth", "anchors": ["opg/src/models.rs: Model::apply_params", "opg/src/models.rs: ModelData::apply_params", "opg/src/models.rs: ModelType::apply_params", "opg/src/models.rs: ModelTypeDescription::apply_params", "opg/src/models.rs: ModelString::apply_params", "opg/src/models.rs: ModelSimple::apply_params"]}
{"id": "C34", "title": "Merging two object schemas is a disjoint union or an error", "statement": "try_merge succeeds exactly when both schemas are objects without a common property; then the result has exactly the properties of both, the required lists concatenated, and the description, nullability and additional properties of the first.", "quantifier": "all pairs of schemas", "why_tests_cant": "all property maps", "anchors": ["opg/src/models.rs: Model::try_merge", "opg/src/models.rs: ModelObject::merge"]}
{"id": "C35", "title": "A failed merge changes nothing", "statement": "When try_merge reports an error the receiver is as before. (False of the code: properties preceding the clash in key order have already been added.)", "quantifier": "all pairs of schemas", "why_tests_cant": "all property maps", "anchors": ["opg/src/models.rs: ModelObject::merge"]}
{"id": "C36", "title": "add_property is all-or-nothing", "statement": "Adding a property fails exactly if the name is already present, and then the object is unchanged; otherwise exactly that property is added and the name is appended to `required` exactly if requested.", "quantifier": "all objects, names, references", "why_tests_cant": "all property maps", "anchors": ["opg/src/models.rs: ModelObject::add_property"]}
{"id": "C37", "title": "verify_schemas finds every dangling link", "statement": "verify_schemas returns Ok exactly if every link in the registered components resolves, and otherwise returns a link that does not. (The code only looks at links that are not nested inside an inlined schema; deeper dangling links are missed. Proved exactly for what it looks at, including which link is reported.)", "quantifier": "all component sets", "why_tests_cant": "all schemas of unbounded depth", "anchors": ["opg/src/models.rs: Components::verify_schemas", "opg/src/models.rs: ModelReference::traverse", "opg/src/models.rs: ModelObject::traverse"]}
{"id": "C38", "title": "Generated components always verify", "statement": "For components built only by mentioning types, verify_schemas returns Ok, and indeed no link at any depth dangles.", "quantifier": "all type environments and histories of mentions", "why_tests_cant": "all histories", "anchors": ["opg/src/models.rs: Components::mention_schema", "opg/src/models.rs: Components::verify_schemas"]}
{"id": "C39", "title": "A path renders unambiguously", "statement": "A path renders as `/` followed by each segment, parameters in braces; two paths whose segments contain no slash or brace render to the same string only if they are equal, and the rendering can be parsed back.", "quantifier": "all paths of any length", "why_tests_cant": "all pairs of paths", "anchors": ["opg/src/models.rs: serialize_path_elements"]}
{"id": "C40", "title": "Every path parameter is declared", "statement": "For every path described through describe_api!, each `{name}` in its template has a parameter entry of that name that is `in: path` and required. (False of the code when a header or query parameter, of the path item, reuses the name and overwrites the entry. Proved whenever it does not.)", "quantifier": "all describe_api inputs", "why_tests_cant": "all path templates and parameter lists", "anchors": ["opg/src/macros.rs: @opg_path_url", "opg/src/macros.rs: @opg_path_insert_url_param", "opg/src/macros.rs: @opg_path_value_parameters"]}
{"id": "C41", "title": "Every $ref of the emitted document resolves", "statement": "In the serialised document of any describe_api! invocation (with no hand-written response schemas), every `$ref` string anywhere, in paths, parameters, bodies, responses, callbacks or components, is `#/components/schemas/N` for an N present under components.schemas.", "quantifier": "all describe_api inputs and type environments", "why_tests_cant": "all documents", "anchors": ["opg/src/macros.rs: describe_api", "opg/src/models.rs: serialize_model_reference_link", "opg/src/models.rs: Components::mention_schema"]}
{"id": "C42", "title": "Serialisation loses nothing", "statement": "The serialised document determines the document: omitting empty and default members never confuses two different schemas, operations, parameters or documents.", "quantifier": "all pairs of documents with well-formed paths", "why_tests_cant": "all pairs of documents", "anchors": ["opg/src/models.rs: Opg", "opg/src/models.rs: Model", "opg/src/models.rs: ModelReference", "opg/src/models.rs: serialize_parameters"]}
{"id": "C43", "title": "No object in the emitted document has duplicate keys", "statement": "Every mapping in the serialised document has pairwise distinct keys. (False of the code when the same path is listed twice. Proved whenever rendered paths are distinct.)", "quantifier": "all documents", "why_tests_cant": "all documents", "anchors": ["opg/src/models.rs: serialize_ordered_entries", "opg/src/models.rs: PathValue", "opg/src/models.rs: CallbackObject"]}
{"id": "C44", "title": "No null values are emitted", "statement": "A document built through describe_api! contains no null anywhere. (A RequestBody built by hand without description is emitted with `description: null`.)", "quantifier": "all describe_api inputs", "why_tests_cant": "all documents", "anchors": ["opg/src/models.rs: RequestBody::serialize", "opg/src/macros.rs: body"]}
{"id": "C45", "title": "Emitted mappings are in canonical order", "statement": "Properties, parameters, tags, components, security schemes, callbacks and responses are emitted in ascending key order and operations in the fixed method order, whatever order they were declared in; paths, servers, `required` and operation tags keep declaration order.", "quantifier": "all documents and declaration orders", "why_tests_cant": "all permutations of declarations", "anchors": ["opg/src/models.rs: serialize_parameters", "opg/src/models.rs: serialize_tags", "opg/src/models.rs: serialize_ordered_entries", "opg/src/models.rs: HttpMethod"]}
{"id": "C46", "title": "Repeated declarations in describe_api: the last one wins", "statement": "If a method, response code, tag, parameter name, callback name or security scheme is declared several times in its group, the emitted entry is exactly the last declaration; all other entries are unaffected.", "quantifier": "all declaration lists", "why_tests_cant": "all multiplicities", "anchors": ["opg/src/macros.rs: @opg_path_value_properties", "opg/src/macros.rs: @opg_path_value_parameters", "opg/src/macros.rs: @opg_property tags"]}
{"id": "C47", "title": "Response descriptions default to the HTTP reason", "statement": "A response's description is the one given, else the canonical reason of its status code, else empty, never missing.", "quantifier": "all status codes and response declarations", "why_tests_cant": "all 65536 codes and declaration lists", "anchors": ["opg/src/macros.rs: @opg_path_value_operation_properties response"]}
{"id": "C48", "title": "Security requirements refer to declared schemes", "statement": "Each scheme named by identifier in an operation's `security` is registered in the components (the first registration under that name is kept); every requirement names a registered scheme. (False of the code for schemes named by string literal, which are not checked.)", "quantifier": "all describe_api inputs", "why_tests_cant": "all inputs", "anchors": ["opg/src/macros.rs: @opg_path_value_security_item", "opg/src/models.rs: Components::mention_security_scheme"]}
{"id": "C49", "title": "Callbacks keep their paths", "statement": "Each callback declared in `callbacks` is emitted with the paths declared for it. (False of the code for callbacks named by a string literal: their paths are dropped.)", "quantifier": "all describe_api inputs", "why_tests_cant": "all inputs", "anchors": ["opg/src/macros.rs: @opg_path_value_callbacks"]}
{"id": "C50", "title": "The path DSL splits segments at slashes", "statement": "A token sequence s1 / s2 / ... / sn of non-empty, slash-free segments is split into exactly those segments in order; any sequence with a leading, trailing or doubled slash is rejected at compile time.", "quantifier": "all token sequences", "why_tests_cant": "all sequences", "anchors": ["opg/src/macros.rs: @opg_property_url", "opg/src/macros.rs: @opg_path_url"]}
{"id": "C51", "title": "Builder methods set exactly one setting", "statement": "Each Operation builder method changes exactly its own setting to the given value and nothing else; later calls override earlier ones and calls on different settings commute.", "quantifier": "all operations and call sequences", "why_tests_cant": "all call sequences", "anchors": ["opg/src/models.rs: Operation::with_summary", "opg/src/models.rs: Operation::with_operation_id", "opg/src/models.rs: Operation::with_description", "opg/src/models.rs: Operation::mark_deprecated", "opg/src/models.rs: Operation::with_request_body"]}
{"id": "C52", "title": "Parameters have the documented defaults", "statement": "A header parameter is a required string unless stated otherwise, a query parameter is optional with its given type, neither is deprecated unless stated; each given property overrides exactly its own default.", "quantifier": "all parameter declarations", "why_tests_cant": "all property lists", "anchors": ["opg/src/macros.rs: @opg_path_value_parameters", "opg/src/macros.rs: @opg_path_value_parameter_properties"]}
{"id": "C53", "title": "describe_type! builds exactly the described schema", "statement": "The object form has exactly the listed properties, requires exactly those marked [required] in order, and every link in the result is one that was written; nothing is nullable.", "quantifier": "all describe_type invocations of any nesting", "why_tests_cant": "unbounded nesting", "anchors": ["opg/src/macros.rs: describe_type"]}
{"id": "C54", "title": "A tuple struct is an array over all its fields", "statement": "The schema of a struct with zero or several unnamed fields is an array whose items are a oneOf over the schemas of all fields in order (skipped ones included), with the container's description and nullability.", "quantifier": "all tuple structs and type environments", "why_tests_cant": "all inputs", "anchors": ["opg_derive/src/opg.rs: serialize_tuple_struct", "opg_derive/src/opg.rs: tuple_type_description"]}
{"id": "C55", "title": "A derived type's component name is its Rust identifier", "statement": "The name under which a derived type is linked and registered is its identifier, whatever serde(rename) says, and it is inlined everywhere exactly if it is marked #[opg(inline)].", "quantifier": "all derive inputs", "why_tests_cant": "all inputs", "anchors": ["opg_derive/src/opg.rs: impl_derive_opg_model"]}
{"id": "C56", "title": "The components of a document are the types it mentions", "statement": "The schema components of a described document are exactly the linked types found, at any depth, in the types written in the invocation (urls, parameters, bodies, responses, callbacks), each with its own schema; they do not depend on the order or number of the mentions. (Stated for unambiguous type names, see C27.)", "quantifier": "all describe_api inputs and type environments", "why_tests_cant": "all inputs, orders and multiplicities", "anchors": ["opg/src/macros.rs: describe_api", "opg/src/models.rs: Components::mention_schema"]}
{"id": "C57", "title": "When describe_api! gives a document", "statement": "An invocation that compiles gives a document, always the same one, exactly if every type it mentions can be described and every type in a url gives a parameter name; in particular it does for all finite non-recursive types. (FINDING: with a recursive type it never returns, and with a url type whose name starts outside ASCII it panics.)", "quantifier": "all describe_api inputs and type environments", "why_tests_cant": "termination and panics range over all inputs", "anchors": ["opg/src/macros.rs: describe_api", "opg/src/macros.rs: @opg_path_url", "opg/src/models.rs: ParameterName"]}
{"id": "C58", "title": "Which describe_api! invocations compile", "statement": "An invocation is rejected at compile time exactly if it breaks a rule: an info property given twice, an incomplete security scheme, an empty or malformed url segment, a body without schema, an empty security requirement, roles on a requirement, or a literal-named callback that is not last.", "quantifier": "all describe_api inputs that match the grammar's outer form", "why_tests_cant": "all inputs", "anchors": ["opg/src/macros.rs: describe_api"]}
{"id": "C59", "title": "What serde writes is accepted by the schema", "statement": "For every type, whatever JSON serde_json writes for a value of it is accepted by the schema generated for the type, with links resolved in the document's components. (Stated for types made of supported parts. FINDINGS: false for one-element tuples, Option of an enum described by alternatives, unit variants of mixed externally tagged enums, tagged unit-only enums, struct variants of adjacently tagged enums, repr enums with implicit discriminants, transparent structs, flattened fields that are not marked optional, type flags that do not suit the field (C86), and structs with two fields of one name.)", "quantifier": "all supported types of any nesting, all values, all histories of mentions", "why_tests_cant": "all types and all values", "anchors": ["opg_derive/src/opg.rs: impl_derive_opg_model", "opg/src/lib.rs: impl_opg_model", "opg/src/models.rs: Components::mention_schema"]}
{"id": "C60", "title": "Request and response bodies of a described API are accepted", "statement": "In a described document, whatever serde writes for a value of the type given for a request body or response is accepted by the schema in that place, with links resolved in the document itself.", "quantifier": "all describe_api inputs, operations (callbacks included), supported types and values", "why_tests_cant": "all inputs and values", "anchors": ["opg/src/macros.rs: describe_api", "opg/src/macros.rs: @opg_path_value_operation_properties", "opg/src/models.rs: Components::mention_schema"]}
{"id": "C61", "title": "The alternatives of an internally tagged enum exclude each other", "statement": "Every object the schema of an internally tagged enum accepts is accepted by exactly one of its oneOf alternatives, as OpenAPI demands of oneOf. (Variants named differently. FINDING: tuples do not have this: in the strict reading of oneOf the schema of (i32, i32) accepts no pair.)", "quantifier": "all supported internally tagged enums and all JSON objects", "why_tests_cant": "all objects", "anchors": ["opg_derive/src/opg.rs: serialize_internal_tagged_enum", "opg/src/models.rs: Model::try_merge"]}
{"id": "C62", "title": "Built-in types have the matching kind and format", "statement": "Integers are described as integers with the format int/uint followed by their width, floats as numbers, strings, chars and uuids as strings, booleans as booleans; only () is nullable; nothing is registered. (FINDING: dates with a time have the format of plain dates.)", "quantifier": "all built-in types and contexts", "why_tests_cant": "all contexts", "anchors": ["opg/src/lib.rs: impl_opg_model"]}
{"id": "C63", "title": "Collections describe their elements", "statement": "A sequence is described as an array of the element's schema, a dictionary as an object whose additional properties have the value's schema, a tuple as an array whose items are a oneOf over the elements' schemas in order; elements are linked if they have a name; no other component is touched.", "quantifier": "all element types, type environments and contexts", "why_tests_cant": "all nestings", "anchors": ["opg/src/lib.rs: impl_opg_model", "opg/src/macros.rs: impl_opg_model"]}
{"id": "C64", "title": "An OpenAPI reader recovers the document", "statement": "A reader that follows the OpenAPI 3.0.3 specification, looking up every part of an emitted document under its OpenAPI keyword, recovers exactly the document that was serialised: every schema, parameter, operation, callback, security scheme, tag and server, and nothing else. (For paths whose segments contain no slash or brace.)", "quantifier": "all documents, built by hand or by describe_api!", "why_tests_cant": "all documents of any nesting", "anchors": ["opg/src/models.rs: Opg", "opg/src/models.rs: Model", "opg/src/models.rs: Operation", "opg/src/models.rs: PathValue", "opg/src/models.rs: SecurityScheme"]}
{"id": "C65", "title": "Emitted documents conform to OpenAPI 3.0.3", "statement": "Every emitted document meets the demands of the OpenAPI 3.0.3 specification on its objects: the required fields are there, each field has the demanded type, lists that must not be empty are not, names are well formed and unique. (Exactly which documents do is characterised; so are the histories of mentions, and the invocations of describe_api! in which nothing is declared in two ways, if types are derived, no name stands for two types and no object has two fields of one name: these documents conform exactly if every operation has responses with HTTP status codes, names of schemes and linked types are allowed, paths differ, and every type has a source whose enums keep a variant and whose tuples keep a field. FINDINGS: false otherwise: no paths, operations without responses, empty enum and oneOf lists, names twice in required, api keys in the path.)", "quantifier": "all documents, all types and sources, all describe_api inputs", "why_tests_cant": "all documents of any nesting and all sources", "anchors": ["opg/src/models.rs: Opg", "opg/src/models.rs: Model", "opg/src/models.rs: Operation", "opg_derive/src/opg.rs: impl_derive_opg_model", "opg/src/macros.rs: describe_api"]}
{"id": "C66", "title": "What the schema accepts can be read", "statement": "Every JSON text that the schema generated for a type accepts, and in which no object repeats a name, can be read by serde as a value of the type (up to the ranges of integers and the formats of texts). In particular the request and response bodies that a document of describe_api! allows can be read. (True of built-in types, pointers, Option, lists, maps, structs with named fields, newtypes, enums of unit variants, untagged and internally tagged enums, without type flags and with optional and nullable only where the type allows it. FINDINGS: false of (), arrays of fixed length, tuples, externally and adjacently tagged enums, enums written as integers, and fields marked optional, nullable or any otherwise.)", "quantifier": "all types, sources, histories of mentions and all JSON values", "why_tests_cant": "all JSON values of any nesting, all types and sources", "anchors": ["opg_derive/src/opg.rs: impl_derive_opg_model", "opg/src/macros.rs: describe_type", "opg/src/models.rs: OpgModel", "opg/src/models.rs: Components", "test_suite/tests/models.rs"]}
{"id": "C67", "title": "describe_api! accepts exactly its grammar", "statement": "A token sequence given to describe_api! compiles to a document exactly if the documented grammar reads it as an API description that has that document; it reads it as at most one; anything else does not compile; a trailing comma after the last section changes nothing. (FINDINGS: no sections at all do not compile; a security scheme held in a variable cannot be listed; the body of a callback named by a literal is ignored; in a callback a trailing comma is an error.)", "quantifier": "all token sequences of any length and nesting, and all behaviours of the Rust parser on fragments that meet the stated laws", "why_tests_cant": "all token sequences, macro matching with backtracking-free ambiguity errors", "anchors": ["opg/src/macros.rs: describe_api"]}
{"id": "C68", "title": "describe_type! accepts exactly its grammar", "statement": "A token sequence given to describe_type! compiles to a schema exactly if the grammar reads it as a description that has that schema; it reads it as at most one. (FINDINGS: the keys must come in one fixed order, and properties must not be separated by commas.)", "quantifier": "all token sequences of any length and nesting", "why_tests_cant": "all token sequences", "anchors": ["opg/src/macros.rs: describe_type", "opg/src/models.rs: macro tests"]}
{"id": "C69", "title": "Exactly one alternative of every oneOf accepts", "statement": "What serde writes for a value of a type is accepted by the type's schema in the strict reading that OpenAPI demands of oneOf: exactly one alternative accepts. More: the lenient and the strict reading accept the same JSON. (True of types whose alternatives differ in the kind of JSON value, or are the variants of an internally tagged enum with different names, at every level. FINDINGS: false of tuples with two parts of one kind, of enums written as integers, and of externally tagged, adjacently tagged and untagged enums with two variants that carry the same type: every value of these is rejected.)", "quantifier": "all types, sources, histories of mentions and all JSON values", "why_tests_cant": "all JSON values of any nesting, all types and sources", "anchors": ["opg_derive/src/opg.rs: impl_derive_opg_model", "opg/src/macros.rs: impl_opg_model", "opg/src/models.rs: Components", "opg/src/models.rs: Model::try_merge"]}
{"id": "C70", "title": "impl_opg_model! writes the impl that its form names", "statement": "A token sequence given to impl_opg_model! compiles exactly if it is one of the documented forms, and gives the type after the colon the impl that the form names: the schema of its argument, nullable or not, an array, a dictionary, a tuple, or a primitive schema with the given format; it has at most one reading. The invocations in the library itself give every built-in type the schema, the name and the way of being mentioned that a document is generated with, and no type is missing. (FINDINGS: the form without always_inline does not compile without a type called T in scope; most forms compile only if the caller has imported Model or serde.)", "quantifier": "all token sequences, scopes, and all arguments of generic types", "why_tests_cant": "all token sequences and all generic arguments", "anchors": ["opg/src/macros.rs: impl_opg_model", "opg/src/lib.rs: impl_opg_model!", "opg/src/lib.rs: array_impls"]}
{"id": "C71", "title": "Extending an API description changes nothing that was documented before", "statement": "What a document says about a path (template, parameters, operations, callbacks) depends on the declaration of that path alone, wherever it stands and whatever else is declared. Sections added at the end of an invocation keep all paths, servers and component schemas of the document; so do declarations added anywhere, if no two types share a name. (FINDING: if two do, a path added in front may replace the schema another path's link leads to.)", "quantifier": "all pairs of describe_api! invocations, type environments and sources", "why_tests_cant": "all pairs of invocations of any size, callbacks nested at any depth", "anchors": ["opg/src/macros.rs: describe_api", "opg/src/models.rs: Components::mention_schema"]}
{"id": "C72", "title": "The impls that the derive writes, run as Rust code, give the schemas that everything else is proved about", "statement": "For every accepted declaration the impl that the derive writes (as Rust: blocks, lets, method calls, trait calls) and the impls of the library, when called, come back exactly when the model of generation says so, with the same schema or reference and the same changes to the components; a call has one result at most; no call ever uses an unbound variable, a missing or doubled field or a value of the wrong type. The derive writes an impl, reports errors or panics exactly as the model says.", "quantifier": "all sets of declarations (recursive ones included), all types, contexts and parameters", "why_tests_cant": "all declarations, types of any nesting, and all histories of the components", "anchors": ["opg_derive/src/opg.rs: impl_derive_opg_model", "opg_derive/src/opg.rs: implement_type", "opg/src/models.rs: OpgModel", "opg/src/models.rs: Components::mention_schema", "opg/src/macros.rs: impl_opg_model", "opg/src/macros.rs: FromStrangeTuple"]}
{"id": "C73", "title": "What the derive writes keeps apart from the names of the program it is written into", "statement": "The expressions given as examples mean, in the code the derive writes, what they mean where the type is declared: no name in them is taken for a variable of the written code. The constants that wrap the impls are named after the types (_IMPL_OPG_MODEL_FOR_ and the name) and have different names for types of different names, however these are spelled (r#). (FINDING: the first is false of expressions with the names cx, properties or required, and true of all others.)", "quantifier": "all derive inputs the derive accepts, all example expressions, all pairs of identifiers", "why_tests_cant": "all inputs and all places an expression can be written to", "anchors": ["opg_derive/src/opg.rs: impl_derive_opg_model", "opg_derive/src/dummy.rs: wrap_in_const"]}
{"id": "C74", "title": "The compile errors of the derive point at what causes them", "statement": "If the derive rejects a declaration with errors, the errors shown are exactly the complaints there are: for each attribute that is not a list or not readable, for each item that is malformed or unknown, for each item that repeats an attribute, for each second type flag and for each unsupported shape there is one error, which stands at that attribute, item, literal or identifier and says the documented text. They come in the order of the source and none comes twice. Errors are shown exactly if there is a complaint and renaming does not panic. The collector of errors never panics when it is dropped, and the compiler is never aborted.", "quantifier": "all declarations, all texts of attributes, all results of the expression parser", "why_tests_cant": "all declarations with any number of errors in any combination", "anchors": ["opg_derive/src/parsing_context.rs: ParsingContext", "opg_derive/src/attr.rs: Container::from_ast", "opg_derive/src/attr.rs: Attr::set", "opg_derive/src/attr.rs: OneOfFlagsAttr", "opg_derive/src/ast.rs: Container::from_ast", "opg_derive/src/lib.rs: derive_opg_model"]}
{"id": "C75", "title": "No error of the derive hides another, and each problem is named rightly and once", "statement": "Every problem of a declaration is shown by the first attempt to compile it, whatever other problems there are; each is shown by one error, and an error that says that an attribute is repeated names that attribute. (FINDINGS: inconsistent discriminants hide all errors of variants and fields; a panic in renaming hides all errors; a union is reported twice; a repeated value in rename_all(..) is called `rename`. Otherwise true.)", "quantifier": "all declarations, all texts of attributes", "why_tests_cant": "all declarations with any number of errors in any combination", "anchors": ["opg_derive/src/parsing_context.rs: ParsingContext", "opg_derive/src/attr.rs: get_renames", "opg_derive/src/ast.rs: enum_from_ast", "opg_derive/src/ast.rs: Container::from_ast"]}
{"id": "C76", "title": "Serialising a document never fails", "statement": "Whatever document is serialised, the Serialize impls raise no error of their own (nothing that cannot be flattened is flattened, nothing that cannot be tagged is tagged), every mapping has keys that JSON allows, and the serializer is told exactly the members that the OpenAPI reading of the document (C43, C64) is proved about.", "quantifier": "all documents and all schemas, of any nesting", "why_tests_cant": "all documents; serde raises these errors at run time, depending on the value", "anchors": ["opg/src/models.rs: Opg", "opg/src/models.rs: Model", "opg/src/models.rs: ModelTypeDescription", "opg/src/models.rs: PathValue", "opg/src/models.rs: Callback", "opg/src/models.rs: serialize_ordered_entries", "opg/src/models.rs: serialize_parameters", "opg/src/models.rs: serialize_tags", "opg/src/models.rs: Path"]}
{"id": "C77", "title": "Expressions in an API description mean what they mean to the caller", "statement": "The code that describe_api! becomes, run where it stands, gives the document that the description says, with each expression evaluated among the variables of the caller: no variable of the macro is taken for one of the caller or the other way round, whatever their names are, and values flow through the statements of the macro as described. (FINDINGS: false in info, where a property given before is a variable of its name for the expressions after it; an invocation with callbacks compiles only where the caller has imported CallbackObject. Otherwise true.)", "quantifier": "all describe_api! invocations, all expressions in them, all sets of variables of the caller, all type environments", "why_tests_cant": "all invocations of any size, callbacks nested at any depth, and all names of variables", "anchors": ["opg/src/macros.rs: describe_api"]}
{"id": "C78", "title": "What a reader of the published document sees is what the source says", "statement": "From the tokens between the braces of describe_api! to the reader of the serialised document: if the source compiles and its code returns, then what is told to the serializer is read back, by a reader that knows only OpenAPI, as the document that the source describes as the grammar reads it; there is exactly one such publication for every source that describes a document. In what the reader has, the schema found for each request body and response accepts, with links resolved there, whatever serde writes for values of the type that the source names. (For url segments without slashes and braces, types with names of their own, and the types of C59.)", "quantifier": "all token sequences, all environments of types, sources of types and values", "why_tests_cant": "all sources of any size; it composes matching, generation, serialisation and reading", "anchors": ["opg/src/macros.rs: describe_api", "opg/src/models.rs: Opg", "opg/src/models.rs: Components::mention_schema", "opg_derive/src/opg.rs: impl_derive_opg_model", "test_suite/tests/api.rs: expands_normally"]}
{"id": "C79", "title": "What serde writes has no members that the schema does not mention", "statement": "Whatever serde writes for a value of a type is accepted by the schema of the type even by a validator that takes schemas to be complete: every member of every object in it is listed in the properties of the schema, or is described by its additionalProperties. The same holds of the request and response bodies of a described API. (For the types of C59, whose refutations apply.)", "quantifier": "all types made of supported types, all their values, all histories of mentions, all described APIs", "why_tests_cant": "all types and all values of any nesting", "anchors": ["opg_derive/src/opg.rs: impl_derive_opg_model", "opg_derive/src/opg.rs: object_type_description", "opg/src/models.rs: Components::mention_schema", "opg/src/models.rs: Model::try_merge"]}
{"id": "C80", "title": "The expressions in an API description are evaluated once each, in the order of the source", "statement": "Running the code of a describe_api! invocation evaluates the expressions written in it once each and in the order in which they are written, whatever they do and return; if one panics none after it is evaluated and there is no document. (FINDINGS: the name of a header parameter and of an apiKey scheme is evaluated after the expressions among its properties; expressions in a callback that is named by a literal are never evaluated. Otherwise true.)", "quantifier": "all describe_api! invocations, all expressions in them with any effects (their value may depend on all that was evaluated before), all variables of the caller", "why_tests_cant": "all invocations of any size, callbacks nested at any depth, and all behaviours of the expressions", "anchors": ["opg/src/macros.rs: describe_api"]}
{"id": "C81", "title": "How long the lists of an API description may be", "statement": "In a crate with a given recursion limit (128 unless changed), a source between the braces of describe_api! gives a document exactly if it describes that document and the depth of its macro calls, a number computed from the lengths of its lists, is within the limit. Sections, paths, tags, servers and info entries do not count against each other, so that their number is not limited; the items of all other lists (operation properties, parameters and their properties, responses, security requirements, security schemes and their properties, callbacks, url tokens) count one each, responses by type two. In describe_type! only nesting counts. (FINDING: every limit is exceeded by invocations that have a meaning, with the usual limit by an operation with 63 responses.)", "quantifier": "all limits, all token sequences, all descriptions, all fragment parsers", "why_tests_cant": "all invocations of any size; a test fixes the length of each list", "anchors": ["opg/src/macros.rs: describe_api", "opg/src/macros.rs: describe_type"]}
{"id": "C82", "title": "Documentation changes nothing but documentation", "statement": "If descriptions (doc comments included), formats or examples are added to, changed in or removed from the types of a program, or given as parameters, then the schemas, the components, their names and their order stay the same except for the members description, format and example; the same JSON is accepted as before, in both readings of oneOf. An API description over these types compiles, panics or returns as before, and its document is the same except for these members. Taking documentation away never makes the derive reject a type. This holds for each of the three kinds on its own.", "quantifier": "all pairs of programs that differ in documentation only, all sequences of requests for schemas, all API descriptions, all JSON values", "why_tests_cant": "all declarations of any shape, with any number of changes at any places at once", "anchors": ["opg_derive/src/attr.rs: Container::from_ast", "opg_derive/src/opg.rs: impl_derive_opg_model", "opg/src/models.rs: Model::apply_params", "opg/src/models.rs: Model::try_merge", "opg/src/models.rs: Components::mention_schema", "opg/src/macros.rs: describe_api"]}
{"id": "C83", "title": "Expressions in string attributes stand where the string stands", "statement": "An expression written in a string (example_with, skip_serializing_if) consists of the tokens of the string's value, unchanged and in order, and each of them, however deep inside parentheses, stands at the place of the string: whatever the compiler has to say about any part of the expression, it points at that string, and names in it are looked up as if written there. Where the string stands does not matter to whether it is accepted, nor to what it says.", "quantifier": "all texts, all token sequences of any nesting, all parsers that take their places from the tokens", "why_tests_cant": "all expressions of any nesting; the tests contain no wrong expression", "anchors": ["opg_derive/src/attr.rs: parse_lit_str", "opg_derive/src/attr.rs: spanned_tokens", "opg_derive/src/attr.rs: respan_token_stream", "opg_derive/src/attr.rs: respan_token_tree"]}
{"id": "C84", "title": "Variables named in a described type are the caller's", "statement": "The code that describe_type! becomes, run where it stands, compiles exactly if the description has a meaning and names no variable that holds a model or data twice (such a variable is moved), and then gives the model of the description with the caller's variables put in: raw models, raw types and linked names are those of the caller, whatever the variables are called (properties and required included), at any nesting of objects and arrays; it leaves the caller no new variable, and changes none. (FINDING: so a description that has a meaning need not compile.)", "quantifier": "all descriptions, all token sequences that the grammar reads, all sets of variables of the caller, all marks of the expansion", "why_tests_cant": "all descriptions of any nesting and all names of variables", "anchors": ["opg/src/macros.rs: describe_type", "opg/src/macros.rs: FromStrangeTuple"]}
{"id": "C85", "title": "What the components hold after any sequence of calls", "statement": "After any sequence of calls that mention types, ask for schemas, add models by hand and give security schemes: contains_model answers whether a schema of that name is there; a name is there only if a model was added under it or a type of that name is linked from a type consulted, and it holds such a model or the schema of such a type; everything added or mentioned by name is there; a model added under a free name keeps it; links that lead nowhere stand only in models added by hand, and if there are none verify_schemas reports nothing; the security schemes are exactly those given, the first for each name.", "quantifier": "all sequences of calls of the public methods of Components, all environments of types", "why_tests_cant": "all histories of any length and all types", "anchors": ["opg/src/models.rs: Components::contains_model", "opg/src/models.rs: Components::mention_schema", "opg/src/models.rs: Components::add_model", "opg/src/models.rs: Components::mention_security_scheme", "opg/src/models.rs: Components::verify_schemas", "opg/src/models.rs: OpgModel::get_schema"]}
{"id": "C86", "title": "The shapes of types whose values their schemas always reject", "statement": "For every derived type of the following shapes, at any point of any generation: the schema accepts no string if it is an externally tagged enum with unit and other variants (serde writes strings for the unit variants); no object if it is an enum of unit variants with a tag; nothing but integers if it is an enum written as an integer, and nothing at all if no discriminant is written out; no null if it is an Option of such an enum or of an internally tagged enum without newtype variants; nothing but objects (arrays) if it is a transparent struct with named (several unnamed) fields; no object without a member named like a non-optional flattened field; no object as content of an adjacently tagged enum without newtype variants; of a value described by a type flag, exactly the JSON of that kind.", "quantifier": "all derived types of these shapes, all values, all contents of the components", "why_tests_cant": "all inputs to the derive and all JSON values", "anchors": ["opg/src/macros.rs: impl_opg_model! (Option)", "opg_derive/src/opg.rs: serialize_enum", "opg_derive/src/opg.rs: serialize_struct", "opg_derive/src/opg.rs: serialize_newtype_struct", "opg/src/models.rs: ModelType::apply_params"]}
{"id": "C87", "title": "What describe_api! does with the caller's variables", "statement": "Whether the code of a describe_api! invocation compiles does not depend on the macro's own variables, none of which it uses after moving it: it is rejected for a moved value exactly if the uses the caller made of their own variables, taken in the order of the code, contain one after a move. Variables named for servers are moved, so are operation texts, flags and raw schemas (if their types cannot be copied); everything else is used by reference and can be used any number of times. (FINDING: a String named for two servers, or for a server and later elsewhere, is rejected, although every single use is fine.)", "quantifier": "all describe_api! invocations, all expressions of the caller with any uses of variables inside them, all sets of variables, copyable or not", "why_tests_cant": "all invocations of any size and callbacks of any nesting; a test that compiles fixes one invocation", "anchors": ["opg/src/macros.rs: describe_api"]}
{"id": "C88", "title": "What was written before a compatible change is accepted afterwards", "statement": "If the types of a program only grow - fields that may be left out are added, variants are added, fields become optional or boxed, integers get wider types, arrays of fixed length become lists, documentation changes - then every JSON text that serde wrote before the change is accepted by the schemas generated after it: for types mentioned by hand and for the request bodies and responses of an API description, at any nesting. (FINDINGS: not if the first variant with contents is added to an enum of unit variants; nor if an added field has type Option but is not marked with skip_serializing_if or optional: the schema requires it, although serde reads objects without it.)", "quantifier": "all pairs of programs of which the second is grown from the first, all types made of supported types, all API descriptions, all JSON values serde writes", "why_tests_cant": "all changes at any places at once, in types of any nesting, and all values", "anchors": ["opg_derive/src/opg.rs: impl_derive_opg_model", "opg_derive/src/opg.rs: object_type_description", "opg_derive/src/opg.rs: serialize_enum", "opg/src/models.rs: Components::mention_schema", "opg/src/macros.rs: describe_api"]}
{"id": "C89", "title": "A document published before fields were added accepts what is written afterwards", "statement": "If the types of a program get more fields - required or not, of any types, in structs and in variants with named fields, anywhere among the others, as long as their names, or the members flattened for them, are not taken by the fields there were - then every JSON text that serde writes afterwards is accepted by the schemas that were generated before: for types mentioned by hand and for the request bodies and responses of an API description, at any nesting. This stays so if, besides, types of fields are narrowed, variants or optional fields are removed, or documentation changes (C88, read backwards). A document published before a variant was added rejects that variant.", "quantifier": "all pairs (and triples) of programs related by such changes, all types made of supported types, all API descriptions, all JSON values serde writes", "why_tests_cant": "all changes at any places at once, in types of any nesting, and all values", "anchors": ["opg_derive/src/opg.rs: impl_derive_opg_model", "opg_derive/src/opg.rs: object_type_description", "opg_derive/src/opg.rs: serialize_enum", "opg/src/models.rs: Components::mention_schema", "opg/src/models.rs: ModelObject", "opg/src/macros.rs: describe_api"]}
