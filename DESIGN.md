# Formal model of Rexagon/opg in Rocq (Coq 8.16.1)

## Files (rocq/theories)

Model files (definitions only; each definition cites the lines of /repo it models):

| file | models | size of the code modelled |
|---|---|---|
| `Str.v` | Rust `String`/`&str`: lists of Unicode scalar values, order of `str`, ASCII case maps, UTF-8 lengths for slicing | std |
| `BMap.v` | `BTreeMap`: key-sorted association lists with insert, get, entry, ordered iteration | std |
| `Schema.v` | schema types of `opg/src/models.rs` and `apply_params`, `try_merge`, `add_property`, `traverse` | models.rs 639-1066 |
| `Gen.v` | `Components` (with `mention_schema`, `mention_security_scheme`, `add_model`, `verify_schemas`), trait `OpgModel` with its defaults, the impls for std/chrono/uuid types, and the execution of derived `get_schema` bodies | models.rs 510-637, lib.rs |
| `Case.v` | rename rules | case.rs 8-110 |
| `Attr.v`, `Ast.v` | attribute parsing, tag type and model type decisions, renaming, shape checks | attr.rs, ast.rs, symbol.rs, parsing_context.rs |
| `Derive.v` | from the container to the body of the generated impl (deep embedding of the quoted code) | opg.rs |
| `Bound.v` | where clause of the generated impl | bound.rs, opg.rs 37-48 |
| `Doc.v` | document types: `Opg`, `Info`, `Path`, `PathValue`, `Operation`, parameters, callbacks, security schemes, and the builder methods of `Operation` | models.rs 11-510, 1068-1130 |
| `Api.v` | `describe_api!` and `describe_type!` | macros.rs |
| `Tokens.v`, `Match.v` | token trees, and matching of `macro_rules!` patterns as rustc does it | rustc (macro_parser) |
| `Syntax.v` | the rules of `describe_api!` and `describe_type!`, from tokens to the descriptions of `Api.v` | macros.rs |
| `Impl.v`, `LibImpls.v` | `impl_opg_model!`: its rules, the impls it writes, and its invocations in lib.rs as token trees | macros.rs 165-330, lib.rs 13-118 |
| `Diag.v` | the compile errors: the collector of errors, texts and places, what the compiler is shown | parsing_context.rs 1-48, attr.rs 30-848, ast.rs 36-170, opg.rs 10-35, lib.rs 19-30 |
| `Rust.v`, `Quote.v` | a fragment of Rust with its meaning; the code that the derive quotes, template by template; the bodies of the library impls and of the trait's own functions | opg.rs 10-908, dummy.rs 1-25, models.rs 536-548, 596-611, macros.rs 1-330, lib.rs 13-262 |
| `Serde.v` | the calls of a serializer made by the derived and manual `Serialize` impls, attribute by attribute, with their failures | models.rs (serde attributes, manual impls) |
| `Expand.v` | the statements that describe_api! writes, with hygienic identifiers and the expressions of the caller, and running them | macros.rs:332-748 |
| `Trace.v` | running the same statements, where expressions of the caller may have effects and panic, with a record of what is evaluated | macros.rs:332-748 |
| `ExpandType.v` | the code that describe_type! writes, with hygienic identifiers and moves, and running it | macros.rs:3-163 |
| `Moves.v` | the check for uses of moved variables in the code of describe_api! | macros.rs:332-748 |
| `Respan.v` | the places of the tokens of expressions written in strings | attr.rs:591-616 |
| `Levels.v` | how deeply the calls of describe_api! and describe_type! nest, and the macros under a recursion limit | macros.rs:21-162, 332-748 |
| `Ser.v` | serde serialisation of every type of models.rs into serde's data model | models.rs (serde attributes, manual impls) |

Specification files (`*Spec.v`) are small and independent of the helpers of the model: `CaseSpec` (identifiers as lists of words),
`AttrSpec` (per setting, the list of values written), `PanicSpec` (which values count when errors are reported as well), `DeriveSpec` (what is written on an item; which properties, alternatives and
links a schema has), `BoundSpec` (inductive occurrence of a type in a type), `SchemaSpec` (members of a schema),
`GenSpec` (histories of mentions, reachability of types, recursion), `SerSpec` (an independent decoder, keys, links),
`ApiSpec` (what an invocation means, as relations; events of execution), `SyntaxSpec` (the grammar of the macros), `LevelsSpec` (the depth of an invocation), `MovesSpec` (what an invocation does with the variables of the caller), `ImplSpec` (the grammar of `impl_opg_model!`, the types it is used for), `QuoteSpec` (what it is for written code to be run), `HygieneSpec` (where the user's expressions stand in it), `SkipSpec` (inputs that differ in marks without effect), `RespanSpec` (tokens and their places), `DocsSpec` (inputs, schemas and documents without documentation), `SerdeSpec` (keys that JSON allows), `ExpandSpec` (what an invocation with expressions says), `ExpandTypeSpec` (what a described type says in which variables are named), `HistorySpec` (sequences of calls on components), `OrderSpec` (the expressions of an invocation in order), `PublishSpec` (from source to published document), `FitsSpec` (validity without undescribed members), `DiagSpec` (the complaints about a declaration, their places, words and order), `ReadSpec` (a reader of OpenAPI documents), `ReadsSpec` (the JSON serde reads), `RejectSpec` (what schemas never accept), `StrictSpec` (the strict reading of oneOf, and the sources that tell alternatives apart), `OpenApiSpec` (the demands of OpenAPI 3.0.3 on a document), `TidySpec` (the sources whose documents meet them), `SoundSpec` (JSON values, validity of a JSON value against
a schema, and the JSON serde_json writes for the values of a type).
Proofs are in `*Facts*.v`, concrete cases in `*Examples.v`, and the property theorems, each with an `Example` of a concrete case and
`Print Assumptions`, in `Prop*.v`, which contain nothing else.

`Conformance.v` with `Expected.v`, and `ConformanceCase.v`, run the model on the inputs of the repository's own tests (test_suite/tests/{models,repr,api}.rs, the unit tests of case.rs)
and compares the serialised result with the YAML expected there (generated from the text of the tests). It is a check of the
fidelity of the model, not a proof of a property.

## Trusted base

* Coq's kernel (8.16.1), including `vm_compute`, which is used for concrete cases.
* `Print Assumptions` says `Closed under the global context` for every property theorem: no axioms, neither of the standard library
  nor of our own. The seven `Coq.ssr.ssrunder.Under_rel.*` constants that a checker of whole libraries may list are members of a
  module type of the standard library, loaded with `From Coq Require Import List`; nothing uses them.
* `coqchk`, Coq's independent checker, accepts all the compiled `Prop*` modules with what they need and reports `Axioms: <none>`
  (run on commit d1f55bf).
* The correspondence of the model with /repo, definition by definition, as cited in the comments; the parts below that are not
  modelled; and the readings of external behaviour listed as parameters.

### Parameters (universally quantified in every theorem, hence arbitrary)

| parameter | stands for |
|---|---|
| `parses_expr`, `parses_path` (`pe`, `pp`) | whether syn parses the text of a literal as an expression or path (attributes `default`, `example_with`, `skip_serializing_if`, `with`, ...) |
| `uni_upper` (`uni`) | `char::is_uppercase` outside ASCII |
| `eval_expr` (`ev`) | the run-time value of `(expr).to_string()` of an example expression, assumed to have no effects |
| `E : env` | the meaning of type names: the impl the derive generated for each; theorems hold for every environment, so also for derived impls that are not well formed |
| `reason` | `http::StatusCode::canonical_reason` |
| `C : caller` with `rust_like C` (C67) | what rustc's parser makes of an `expr` or `path` fragment: which tokens may begin it, how many tokens it takes, and what it means in the scope of the invocation. The laws assumed (`rust_like`, SyntaxSpec.v): fragments are not empty, begin with a token that may begin one, are delimited by a comma as by the end of input, and `None` is a path. `test_caller` is an instance |
| `seg` | the segment (ident literal or path type) that a group of tokens between slashes forms |
| `disc` | the value of a discriminant expression (SoundSpec only) |
| `fuel` | number of nested calls; exhaustion is the error value `Fuel`, never a result. Statements about results hold for every fuel; divergence is stated as `Fuel` for every fuel |

### Not modelled

* Calls of the internal `@` rules of the macros by users, and the recursion limit of macros except in Levels.v (C81). C39-C60 start from the
  description that an invocation stands for (`Api.v`); C67 and C68 lead from the tokens to the description; C77 shows that the
  statements of describe_api!, run with hygienic names, give the document of the description; C84 does so for
  describe_type!. The statements of impl_opg_model! are modelled by what they compute. Moves of variables are
  checked in ExpandType.v (C84) and Moves.v (C87); borrows only as far as a value that was moved cannot be borrowed. Effects and panics of the caller's expressions are modelled only in
  Trace.v (C80).
* syn's parsing of Rust source, `quote`'s rendering into tokens, and rustc's type checking of the generated code, except the trait
  bounds (C23), the code's meaning (C72) and the names in scope of the user's expressions (C73).
* The text of the errors of syn's parser, and the place within an attribute they point to. Texts and places of all other errors of the
  derive are modelled in Diag.v (C74); elsewhere an error is its kind.
* serde_yaml/serde_json text output: we model the data model value handed to the serializer.
* `OpgModel` impls written by hand by users, except as far as `E` covers them (a body that mentions types and builds a schema).
* `Eq`, `Hash`, `Clone`, `Debug` derives; `FromStr` and the like do not exist in the code.
* Allocation, stack size: a terminating generation is assumed to fit the stack.

## Findings

Properties which are false of the code are stated as `_refuted` theorems (a concrete input of the model with the wrong outcome),
with the exact behaviour, or the largest part we can prove, beside them:

1. Recursive types make schema generation recurse forever (stack overflow), C28, C57.
2. `verify_schemas` does not look at links nested in inline schemas, C37.
3. Types with one identifier share one component, which is then wrong for the second, C27, C29.
4. `Option` of an enum (oneOf) is not nullable; a linked `Option<T>` is not nullable if `T` was linked before, C30.
5. Parameters on links are dropped, C32.
6. A failed merge leaves a part of the properties merged, C35; the failure is ignored in internally tagged enums, which lose the tag, C17.
7. `nullable` on a newtype struct is dropped, C21.
8. Skipped fields of tuple structs and variants are described, C14; then the trait bounds are insufficient, C23.
9. Struct variants of adjacently tagged enums are described as arrays, C19; tagged enums of unit variants as plain strings, C59.
10. The derive panics on several inputs, C03, C10, C11.
11. Variants of repr enums without an explicit discriminant are missing, C16, C59.
12. `flatten` and `transparent` (of structs with named fields) are ignored, so that what serde writes is rejected (unless a flattened field is marked optional), C59; the tag of a tagged struct, and the members of a flattened field marked optional, are written but not described, C79; unknown `rename_all` values are ignored, C05.
13. Parameters are keyed by name only: a header replaces a path parameter of the same name, C40.
14. Listing one path twice gives duplicate keys, C43.
15. A request body without description is written with `description: null` (only by hand, not by the macro), C44.
16. Callbacks named by a literal lose their paths, C49; security schemes named by a literal are not checked, C48.
17. Type flags on the field of a newtype struct are ignored, C22; flagged fields still require the trait bound, C23.
18. A path parameter given as a type with a non-ASCII first character panics, C57.
19. One-element tuples are described as their element, C59; the oneOf of a tuple is not exclusive, C61.
20. `DateTime` and `NaiveDateTime` have the format `date`, C62; `()` is described as nullable string.
21. Documents that OpenAPI does not accept, C65: `paths` is left out if empty; operations may have no responses; `enum` and `oneOf` may be
    empty (all variants skipped, `struct T();`); a name may stand twice in `required`; api keys may be in the path; status codes are not
    checked; component names are Rust identifiers as written, which may be raw or contain letters OpenAPI does not allow.
22. Schemas accept JSON that serde cannot read, C66: arrays and tuples of the wrong length, unknown variant names of externally tagged
    enums, the content of another variant of adjacently tagged enums, integers that are no discriminant, strings for `()`, missing or null
    members for fields marked `optional` or `nullable` that are no `Option` and have no default, anything for fields marked `any`.
23. The grammar of the macros, C67, C68: `describe_api!{}` does not compile; lists in some places accept a lone comma, in others
    not; `servers: {,}` is ambiguous; no comma may follow the last path of a callback; a callback named by a literal must be last
    without comma, and its body is ignored; a security scheme in a variable is never accepted (`stringity!` does not exist);
    `describe_type!` demands one order of keys and no commas.
24. Overlapping alternatives, C69: OpenAPI demands that exactly one alternative of a `oneOf` accepts. The schemas of `(i32, i32)`,
    of every enum with `#[repr]`, and of enums with two variants carrying the same type (unless internally tagged) reject the
    values serde writes, in that reading.
25. `impl_opg_model!`, C70: the form without `always_inline` (`string: Foo`) refers to a type `T` that it does not declare; it does
    not compile unless a type of that name is in scope, whose component name it then takes. The forms other than `generic_simple`
    and `generic_tuple` need `Model` (and `serde`) imported by the caller, as the expansion writes them without `$crate`.
26. Extending an API, C71: a path added in front of another may replace the component schema that the other's link leads to, if
    two types share an identifier (as in C27, C29). Sections added at the end change nothing.
27. Names in the written code, C73: an example given by an expression is written where the variables `cx`, `properties` and
    `required` of the generated code are in scope, with the hygiene of the call site: `#[opg(example_with = "required()")]` does not
    call the user's function of that name.
28. Compile errors, C75: inconsistent discriminants hide the errors of all variants and fields, and a panic in renaming hides all
    errors; a union is reported twice in different words; `rename_all(serialize = .., serialize = ..)` is reported as a duplicate
    `rename`; unknown keys are called "variant attribute" on containers and fields too, and "varant" is misspelled.
29. Names in describe_api!, C77: in `info: { title: "A", description: title }` the description is "A", whatever `title` is where the
    macro is called: the properties become variables with the caller's hygiene.
30. Callbacks in describe_api!, C77: the macro writes `CallbackObject` without a path, so an invocation with callbacks compiles only
    where the caller has imported it.
31. Order in describe_api!, C80: the name of a header parameter or of an apiKey scheme is evaluated after the expressions among its
    properties, and the expressions in a callback that is named by a literal are not evaluated at all.
32. Long lists in describe_api!, C81: most lists are read by a macro that calls itself once per item (twice for a response given
    by a type), so that the recursion limit of the compiler bounds them: with 128, 62 responses of an operation, 123 parameters
    without properties, 124 security schemes of one property, urls of 62 literal parts. Paths, tags and servers are not bounded.
33. Variables in describe_type!, C84: a model or data named by a variable is moved, so one variable cannot be used for two properties
    although the grammar takes it (linked names can).
34. Texts of operations in describe_api!, C77: the `summary`, `operationId` and `description` of an operation are passed to functions that
    take a reference, so a `String` (`format!(..)`, a variable) is rejected there, while the texts of tags, parameters, `info` and
    security schemes are `.to_string()`ed and take both.
35. Variables named for servers in describe_api!, C87: the macro calls `.into()` on the variable itself, which moves a `String`; a second
    server of the same variable, or any use of it later in the invocation, is rejected, while the same variable used before the server,
    or a `&str`, is accepted.
36. Fields added to types, C88: a field of type `Option` is required by the schema unless it is marked with `skip_serializing_if` or
    `optional`, so that objects written before it was added are rejected although serde reads them; the first variant with contents
    added to an enum of unit variants makes its schema reject all values written before.

## Testing the theorems

`seeded/LOG.jsonl` lists wrong programs tried: each edits one definition of the model in a scratch copy the way a realistic bug would;
proofs that fail are admitted one by one until everything else compiles, and the property theorems that then depend on an admitted
lemma are listed as failed. A claim with no failed theorem is a weak theorem and is tightened (field `tightened`).

## Properties

**C01 rename_all on enum variants follows the word-splitting convention** (proved). `Case.v` on lists of scalar values; specification by words (`CaseSpec`); induction on the words. Any number of words of any length, all nine rules, whatever Unicode says about upper case outside ASCII. Theorems: `C01_variant_renaming_follows_convention`.

**C02 rename_all on struct fields follows the word-splitting convention** (proved). As C01 for snake case words. As C01 for fields; the first character must be ASCII for camelCase (C03). Theorems: `C02_field_renaming_follows_convention`.

**C03 Renaming never crashes the derive** (partial). Slicing `[..1]` is an explicit panic value; the panic condition is characterised for every string by case analysis. FINDING: camelCase panics on identifiers of underscores only or with a non-ASCII first letter (refuted); the exact panic condition is proved for every string. Theorems: `C03_renaming_never_panics_refuted`, `C03_variant_renaming_panics_exactly_partial`, `C03_field_renaming_panics_exactly_partial`.

**C04 Renaming keeps distinct names distinct** (proved). From C01/C02: the convention is injective on word lists; induction with a separator argument. Injective on conventional identifiers for every word-separating rule; the exceptions named in the statement are refuted. Theorems: `C04_variant_renaming_injective`, `C04_field_renaming_injective`, `C04_lower_upper_not_injective_refuted`, `C04_digit_words_collide_refuted`.

**C05 rename_all accepts exactly the eight documented spellings** (proved). The parser of the rule is a finite map on strings; `Derive` of an input with an unknown rule equals that without it. Exact set of spellings; an unknown spelling changes nothing in the generated code. Theorems: `C05_unknown_rule_changes_nothing`, `C05_rename_all_spellings`.

**C06 Explicit rename beats rename_all, and rename_all reaches exactly the direct children** (proved). `AttrSpec` gives the names written; `DeriveSpec` relates the properties of the executed schema to them. Struct properties, unit variants, fields of struct variants in three representations (adjacent: C19); names are unique and explicit names win. Theorems: `C06_struct_property_names`, `C06_unit_variant_names`, `C06_external_variant_fields`, `C06_untagged_variant_fields`, `C06_internal_variant_fields`, `C06_names_are_unique`, `C06_raw_identifiers`.

**C07 Attribute order and grouping do not matter** (proved). Parsing is a fold over items; proved equal to the order-free meaning in `AttrSpec`; permutation invariance follows. Any permutation and regrouping of the items at any set of places. Theorems: `C07_order_and_grouping`.

**C08 Repeated attributes are rejected, and an accepted attribute is taken verbatim** (proved). `AttrSpec.unacceptable` per place; errors iff some place is unacceptable, by the meaning of the fold. Errors exactly for unacceptable attributes, on inputs of a supported shape with ordinary identifiers; never accepted in any case. Accepted settings are single and, by the descriptions of C13-C22, taken verbatim. Theorems: `C08_errors_exactly_for_unacceptable`, `C08_unacceptable_never_accepted`, `C08_accepted_settings_are_single`, `C08_struct_settings_verbatim`.

**C09 Unknown opg attributes are rejected, unknown serde attributes are ignored** (proved). As C08; deletion of unknown serde items leaves the parse unchanged. Unknown opg items are never accepted (an error, unless an odd identifier makes the derive panic first); unknown serde items change nothing, errors included. Theorems: `C09_unknown_opg_rejected`, `C09_unknown_serde_changes_nothing`.

**C10 The derive never panics** (partial). Panics are results of `derive`; exact conditions by following the phases (`Attr`, `Ast`, `Derive`). FINDING: the derive panics on several inputs (refuted). Proved exactly which inputs are accepted, which panic and which are reported as errors, also for inputs with several mistakes (PanicSpec: the first value given counts). Theorems: `C10_never_panics_refuted`, `C10_accepted_exactly`, `C10_panics_exactly`, `C10_errors_exactly`, `C10_panics_exactly_partial`, `C10_no_panic_partial`, `C10_errors_have_a_reason`.

**C11 Unsupported shapes are reported as errors, not mis-described** (partial). Shape checks of `ast.rs`/`attr.rs` as accumulated errors. FINDING: one combination panics instead (refuted). Never accepted; proved exactly when they are reported; in particular whenever identifiers are ordinary, and three of the four shapes whatever the names. Theorems: `C11_always_reported_refuted`, `C11_unsupported_rejected`, `C11_reported_exactly`, `C11_shape_errors`.

**C12 Enum representation is selected as serde selects it** (proved). The decision tables of `attr.rs` for tag types and model types. Representation total and unique; shape of the schema per representation. Theorems: `C12_representation_selected`, `C12_representation_shape`.

**C13 A struct's schema has exactly its serialised fields** (proved). Execution of the generated body against any `Components`; relation to the fields in `DeriveSpec`. Properties, required list, per-property schema. Theorems: `C13_struct_members`.

**C14 Skipped fields and variants never reach the document** (partial). The derive of an input equals that of the input without the skipped parts. SkipSpec.input_marked relates inputs that differ only in marks on unnamed fields and on fields of adjacently tagged variants; the derive gives the same code for both. FINDING: skipped tuple fields are described and registered; a skipped variant with payload changes the shape (refuted). Proved for all named fields except in adjacently tagged variants, and all variants that do not change unit-ness; on all other fields a mark to skip has no effect at all (C14_marks_in_vain), so for fields the picture is complete. Theorems: `C14_skipped_never_described_refuted`, `C14_skipped_variant_refuted`, `C14_skipped_leave_no_trace_partial`, `C14_marks_in_vain`.

**C15 Unit enums list exactly their serialised variants** (proved). As C13 for unit enums. All fieldless enums. Theorems: `C15_unit_enum`.

**C16 repr enums list exactly their explicit discriminants** (proved). As C13 for repr enums. All repr enums. Theorems: `C16_repr_enum`.

**C17 Every alternative of an internally tagged enum carries its tag** (partial). As C13 with the exact effect of `try_merge` (C34, C35). FINDING: the tag is dropped for non-object payloads and on name clashes (refuted). Exact description of every alternative; tag present for unit and struct variants without a clash. Theorems: `C17_always_tagged_refuted`, `C17_tag_clash_refuted`, `C17_internal_enum`, `C17_tagged_partial`.

**C18 Adjacently tagged enums describe tag and content** (proved). As C13. All adjacently tagged enums with a payload variant. Theorems: `C18_adjacent_enum`.

**C19 A struct-like variant is described as an object with its named fields** (partial). As C13. FINDING: adjacently tagged struct variants are arrays (refuted). Proved for the other three representations. Theorems: `C19_struct_variant_is_object_refuted`, `C19_struct_variants_partial`.

**C20 Externally tagged and untagged enums list one alternative per serialised variant, in order** (proved). As C13. Each alternative described. Theorems: `C20_external_enum`, `C20_untagged_enum`.

**C21 A newtype struct is its inner type with the attributes applied** (partial). As C13. FINDING: container nullable is dropped (refuted); exact description proved. Theorems: `C21_container_nullable_refuted`, `C21_newtype_struct`.

**C22 An explicit type flag replaces the field's type completely** (partial). The derive of the input with another type in the field gives the same code. FINDING: ignored on the field of newtype structs (refuted). Proved for struct properties and wherever a field is described by reference; the Rust type is not consulted. Theorems: `C22_flag_replaces_type_refuted`, `C22_type_not_consulted_partial`, `C22_flagged_property`, `C22_flagged_reference`.

**C23 Generic parameters get an OpgModel bound exactly when needed** (proved). `Bound.v`: the visitor as recursion on types; specification by inductive occurrence; an interpretation of bounds for sufficiency. The generics of the generated impl are characterised completely (existence, uniqueness). FINDING: the bounds are neither sufficient (skipped tuple fields are still asked for their schema) nor necessary (fields with an explicit type flag), see the two _refuted theorems. Theorems: `C23_where_clause`, `C23_bound_iff_mentioned`, `C23_bounds_sufficient_refuted`, `C23_bounds_necessary_refuted`.

**C24 Generation never leaves a dangling link** (proved). Invariant of `Components` by induction on fuel, for every environment. For every type environment, type, context and history. Theorems: `C24_mention_leaves_no_dangling_link`, `C24_schema_leaves_no_dangling_link`, `C24_history_leaves_no_dangling_link`.

**C25 Registered components are never removed or changed** (proved). Monotonicity by induction on fuel and on the history. All public mutators of Components, any history. Theorems: `C25_registered_components_never_change`, `C25_add_model_first_wins`, `C25_security_scheme_first_wins`.

**C26 A type's schema does not depend on the context it is generated in** (proved). Two runs from different contexts; induction on fuel. Both get_schema and mention_schema. Theorems: `C26_schema_context_independent`, `C26_reference_context_independent`.

**C27 The document does not depend on the order in which types are mentioned** (partial). The components after a history are characterised as a set (C29), which is order-free if names are unambiguous. FINDING: false when two types share an identifier or T and Option<T> are both linked (refuted theorems). Proved for every history whose linked names are unambiguous. Theorems: `C27_order_independent_refuted`, `C27_order_independent_option_refuted`, `C27_order_independent_partial`, `C27_same_mentions_same_components_partial`.

**C28 Schema generation terminates exactly for non-recursive types** (proved). Accessibility of the relation "describes a part of"; finite graphs: pigeonhole. Finite type graphs with unique names: returns iff not recursive; recursive types diverge for every amount of fuel. FINDING: recursive types overflow the stack. Theorems: `C28_returns_iff_not_recursive`, `C28_recursive_types_never_return`, `C28_non_recursive_types_return_everywhere`.

**C29 A `$ref` leads to the schema of the very type that was mentioned** (partial). Invariant: every component is the schema of some linked type of that name. FINDING: false with shared identifiers (refuted). Proved exactly for unambiguous names; without any naming assumption, the component is the schema of some linked type of that name, and a fresh link always leads to its own schema. Theorems: `C29_link_leads_to_own_schema_refuted`, `C29_links_lead_to_own_schema_partial`, `C29_exactly_the_linked_types_are_registered_partial`, `C29_registered_is_a_linked_schema_partial`, `C29_fresh_link_leads_to_own_schema`.

**C30 Option makes a schema nullable** (partial). Case analysis on schemas. FINDING: Option of a oneOf schema, and a linked Option of an already registered type, are not nullable (refuted). The exact effect of Option on every schema is proved. Theorems: `C30_option_sets_nullable_of_single_types_partial`, `C30_option_is_nullable_refuted`, `C30_linked_option_is_nullable_refuted`.

**C31 Smart pointers and references are transparent** (proved). Computation, for every inner type. All eight wrappers, all contexts. Theorems: `C31_wrappers_are_transparent`.

**C32 Inline mentions carry the context parameters, links never do** (proved). Computation, exact equivalences. Exact description of mentions. Theorems: `C32_named_mention_is_a_link`, `C32_link_ignores_params`, `C32_inline_mention_applies_params`.

**C33 apply_params overrides exactly what is given** (proved). Members of a schema as relation (`SchemaSpec`); case analysis. Member-wise, with completeness of the members. Theorems: `C33_apply_params_overrides_exactly`, `C33_members_determine_schema`, `C33_apply_twice_is_combined`, `C33_no_params_no_change`.

**C34 Merging two object schemas is a disjoint union or an error** (proved). Induction on the properties merged. Exact success condition and result. Theorems: `C34_merge_succeeds_iff_disjoint_objects`, `C34_merge_result_is_union`.

**C35 A failed merge changes nothing** (partial). As C34: the prefix before the clash. FINDING: a failed merge keeps the properties inserted before the clash (refuted); the exact state after failure is proved. Theorems: `C35_failed_merge_changes_nothing_refuted`, `C35_failed_merge_partial`.

**C36 add_property is all-or-nothing** (proved). Case analysis. add_property is all-or-nothing. Theorems: `C36_add_property_all_or_nothing`.

**C37 verify_schemas finds every dangling link** (partial). Induction on schemas; `direct links` as specification. FINDING: links nested in inline schemas are not checked (refuted); the exact set of links checked is proved, and closed components are accepted. Theorems: `C37_verify_finds_every_dangling_link_refuted`, `C37_verify_ok_iff_direct_links_resolve_partial`, `C37_verify_reports_a_dangling_link`, `C37_verify_accepts_closed`.

**C38 Generated components always verify** (proved). From C24. Any history of mentions. Theorems: `C38_generated_components_verify`.

**C39 A path renders unambiguously** (proved). A parser of rendered paths; round trip. All paths with slash- and brace-free segments, with an explicit parser. Without the condition two paths can render alike (_refuted). Theorems: `C39_render_shape`, `C39_parse_back`, `C39_injective`, `C39_any_path_refuted`.

**C40 Every path parameter is declared** (partial). Exact parameter maps by induction on the path; key lookup in sorted maps. FINDING: a header or query parameter of the path item with the same name replaces the path parameter (refuted). Exact description of every parameter map; proved for names not reused, in the document and in the emitted value. Theorems: `C40_path_parameters_partial`, `C40_path_parameters_exact`, `C40_emitted_partial`, `C40_path_parameters_refuted`.

**C41 Every $ref of the emitted document resolves** (proved). C24 lifted to the document: every link in the value emitted comes from a mention, a component or a hand-written schema. Every $ref at any depth of the emitted document resolves when no response schema is written by hand; otherwise it resolves or comes from one (which may dangle, refuted). Theorems: `C41_refs_resolve`, `C41_refs_resolve_or_written`, `C41_raw_response_refuted`.

**C42 Serialisation loses nothing** (proved). Decoders (`SerSpec`) and round trips, by induction on schemas and callbacks. Injectivity of serialisation of schemas, references, parameters, operations, components and whole documents (paths with plain segments; needed, see _refuted). Theorems: `C42_document`, `C42_schema`, `C42_reference`, `C42_components`, `C42_operation`, `C42_parameters`, `C42_any_path_refuted`.

**C43 No object in the emitted document has duplicate keys** (partial). Induction on values; sorted maps have distinct keys. FINDING: listing a path twice emits a duplicate key (refuted, also from describe_api!). Exact: keys are distinct everywhere iff the rendered paths of each list (document and every callback) are. Theorems: `C43_described`, `C43_described_refuted`, `C43_keys_distinct_iff`, `C43_keys_distinct_refuted`.

**C44 No null values are emitted** (proved). Induction on values. No document of describe_api! contains null. Exact for documents built by hand: no null iff every request body has a description (FINDING, refuted otherwise). Theorems: `C44_described`, `C44_no_null_iff`, `C44_no_null_refuted`.

**C45 Emitted mappings are in canonical order** (proved). Sortedness of maps in the emitted value. Key order of every kind of map in documents, path items, operations and schemas, for documents built by hand and by describe_api!; permuting distinct declarations does not change a map; paths and servers keep their order. Theorems: `C45_described`, `C45_described_order`, `C45_document_order`, `C45_path_item_order`, `C45_operation_order`, `C45_schema_order`, `C45_declaration_order_irrelevant`.

**C46 Repeated declarations in describe_api: the last one wins** (proved). `ApiSpec.api_means`: last declaration per key; induction on declarations. Tags, security schemes, methods, responses, parameters, callbacks; and the whole meaning of an invocation (ApiSpec.api_means). Theorems: `C46_tags`, `C46_security_schemes`, `C46_paths`, `C46_methods`, `C46_operation`, `C46_meaning`.

**C47 Response descriptions default to the HTTP reason** (proved). From C46. The table of canonical reasons (crate http) is a parameter. Theorems: `C47_response_description`, `C47_emitted`.

**C48 Security requirements refer to declared schemes** (partial). Events of the execution; registered schemes are those of events. FINDING: schemes named by a literal are not checked (refuted). Schemes named by identifiers are registered; exact set and value of the registered schemes; requirements name registered schemes if no literal is used. Theorems: `C48_identifiers_registered`, `C48_registered_iff`, `C48_registered_value`, `C48_requirements_partial`, `C48_requirements_refuted`.

**C49 Callbacks keep their paths** (partial). From C46 with recursion through callbacks. FINDING: paths of callbacks named by a literal are lost (refuted). Identifier-named callbacks keep all their paths, at any depth, and each that is not declared again is there (C49_declared_partial). Theorems: `C49_callbacks_partial`, `C49_declared_partial`, `C49_callbacks_refuted`.

**C50 The path DSL splits segments at slashes** (proved). The tt-muncher as list function; inverse to joining. Splitting and joining are inverse; leading, trailing and doubled slashes and unparsable segments are rejected. Theorems: `C50_split_join`, `C50_join_split`, `C50_elements`, `C50_rejected`, `C50_slashes`.

**C51 Builder methods set exactly one setting** (proved). Record updates; all sequences of calls by induction. All builder calls and call sequences. Theorems: `C51_changes_only`, `C51_sets`, `C51_later_overrides`, `C51_commute`.

**C52 Parameters have the documented defaults** (proved). From C46. Defaults and overriding of every property of header and query parameters. Theorems: `C52_operation_parameters`, `C52_header`, `C52_query`, `C52_given`.

**C53 describe_type! builds exactly the described schema** (proved). Structural induction on invocations of `describe_type!`. All invocations of any nesting; written links are there if no property is declared twice in one object. Theorems: `C53_object`, `C53_simple`, `C53_array`, `C53_links_written`, `C53_written_links`, `C53_not_nullable`.

**C54 A tuple struct is an array over all its fields** (proved). As C13. All tuple structs. Theorems: `C54_tuple_struct`.

**C55 A derived type's component name is its Rust identifier** (proved). Computation on every accepted input. Every accepted input. Theorems: `C55_type_name`.

**C56 The components of a document are the types it mentions** (proved). Events of an invocation are a history of mentions; C27/C29. Exact for unambiguous names (C27); in general the components are those of a history of mentions of exactly the written types. Theorems: `C56_components`, `C56_components_exact`, `C56_order_irrelevant`.

**C57 When describe_api! gives a document** (proved). Exact outcome by events: fuel (C28) and naming of types. Exact condition. FINDINGS: recursive types and non-ASCII type names. Theorems: `C57_describes_iff`, `C57_deterministic`, `C57_not_recursive`, `C57_recursive`, `C57_unnameable`.

**C58 Which describe_api! invocations compile** (proved). The `compile_error` cases as boolean function, compared with an inductive specification. Exact rules, on the syntax the macro grammar admits. Theorems: `C58_does_not_compile_iff`.

**C59 What serde writes is accepted by the schema** (partial). `SoundSpec`: validity of JSON against schemas with links, the JSON serde writes (inductive on type descriptions of the input, independent of the derive); induction on the derivation of the writing, using C13-C22, C54 for the schemas. Proved for all types made of supported parts (SoundSpec.supported_inside), which include 18 of the 22 types of the repository tests, types described by type flags that suit what serde writes (which flags do not is C86), structs with a tag, and structs and struct variants with flattened fields that are marked optional (or skip_serializing_if) and whose members have other names than the fields beside them. FINDINGS: nine kinds of types for which it is false (refuted). oneOf is read as at least one; see C61 and C69 for the strict reading. Theorems: `C59_json_accepted_partial`, `C59_one_element_tuple_refuted`, `C59_optional_alternatives_refuted`, `C59_external_unit_variant_refuted`, `C59_tagged_unit_enum_refuted`, `C59_adjacent_struct_variant_refuted`, `C59_implicit_discriminants_refuted`, `C59_transparent_struct_refuted`, `C59_flattened_field_refuted`, `C59_duplicate_names_refuted`.

**C60 Request and response bodies of a described API are accepted** (partial). C59 with C46, C56: the schema in the document is the mention, links resolve in the final components. As C59, at the request bodies and responses of documents of describe_api!; hand-written response schemas excluded. Theorems: `C60_request_bodies_partial`, `C60_responses_partial`.

**C61 The alternatives of an internally tagged enum exclude each other** (proved). From C17: two alternatives require the tag with different single-valued enums. Internally tagged enums with differently named variants. FINDING: tuples (refuted). Theorems: `C61_internal_exactly_one`, `C61_internal_objects`, `C61_tuples_refuted`.

**C62 Built-in types have the matching kind and format** (proved). Finite case analysis over the built-in types, for every context. All built-in types. FINDING: DateTime and NaiveDateTime have format date. Theorems: `C62_integers`, `C62_others`, `C62_date_time_has_date_format`.

**C63 Collections describe their elements** (proved). Equivalences from the definition of execution, with the state threaded through the elements. Exact, as equivalences. Theorems: `C63_sequences`, `C63_dictionaries`, `C63_tuples`.

**C64 An OpenAPI reader recovers the document** (proved). The reader looks members up by OpenAPI keywords. Induction on schemas and callbacks; each part of an object is found because no other member has its keyword. Whole documents and each part, with a reader written from the OpenAPI specification (ReadSpec); also for describe_api!. Without the condition on segments a literal segment in braces is read as a parameter (refuted). Theorems: `C64_document`, `C64_schema`, `C64_reference`, `C64_components`, `C64_described`, `C64_any_path_refuted`.

**C65 Emitted documents conform to OpenAPI 3.0.3** (partial). OpenApiSpec writes the demands of OpenAPI 3.0.3 on a value down, object by object. The serialised value meets them exactly if the document is tidy (induction on schemas and on callbacks). That generated schemas are tidy is an invariant of generation over neat code; that derived code is neat follows from the parsed source; for describe_api! every parameter, body, response and scheme is traced to its declaration. The converse (TidyFacts4, TidyFacts5): a result is tidy only if the code is neat and every schema used in it is tidy, by induction on the code; along the types visited this carries to all of them, links leading to the type's own schema by C29; that neat derived code has a filled source is read off the parsed source. For describe_api! (TidyFacts6) every declaration that no other hides is found in the document, by induction on the callbacks around it. Exact for documents and schemas (C65_document_iff, C65_schema_iff, against OpenApiSpec.conforms written from the OpenAPI specification). C65_types_iff is exact for histories of mentions of derived types (unambiguous names, no two fields of one name). C65_described_iff is exact for the documents of describe_api! under the same conditions, if nothing is declared in two ways. FINDINGS: without the conditions seven kinds of inputs give documents that do not conform (refuted). Theorems: `C65_document_iff`, `C65_schema_iff`, `C65_types_partial`, `C65_components_partial`, `C65_types_iff`, `C65_described_partial`, `C65_described_iff`, `C65_no_paths_refuted`, `C65_responses_refuted`, `C65_status_refuted`, `C65_api_key_refuted`, `C65_enum_refuted`, `C65_tuple_refuted`, `C65_required_refuted`.

**C66 What the schema accepts can be read** (partial). ReadsSpec: the JSON serde reads, inductive on types and what their sources say, independent of the derive. Induction on the (well-founded) nesting of the types mentioned, using that links lead to the own schema (C11) and the parsed source (C20-C25); refutations by computation of the schema and inversion of reading. For types described exactly (ReadsSpec.exact_inside), also for the bodies of describe_api!. The condition exact_inside is sufficient, not necessary. FINDINGS: nine kinds of types whose schemas accept JSON that serde cannot read (refuted). Theorems: `C66_accepted_json_readable_partial`, `C66_request_bodies_partial`, `C66_responses_partial`, `C66_unit_refuted`, `C66_array_length_refuted`, `C66_tuple_length_refuted`, `C66_unknown_variant_refuted`, `C66_other_content_refuted`, `C66_discriminant_refuted`, `C66_optional_field_refuted`, `C66_nullable_field_refuted`, `C66_any_field_refuted`.

**C67 describe_api! accepts exactly its grammar** (proved). Tokens.v/Match.v: token trees and the macro_rules matcher as rustc runs it (parallel threads, one fragment at a time, ambiguity is an error, first matching rule). Syntax.v: every rule of macros.rs as data, and the munchers as recursive calls on what is left. SyntaxSpec gives the grammar as inductive relations. A big-step relation of the matcher is proved equivalent to it; then each rule, each list and each muncher is proved sound and complete, and the results are put together by induction on the length of the input. Sound, complete and unambiguous for the grammar of SyntaxSpec.invocation, for every caller (fragment parser) that meets rust_like; the invocation in the repository tests is read token by token. FINDINGS: four quirks of the grammar, as _refuted theorems. Not modelled: calls of the internal @ rules by users; for the recursion limit of macros see C81. Theorems: `C67_document`, `C67_reads`, `C67_rejects`, `C67_unknown_section`, `C67_one_meaning`, `C67_trailing_comma`, `C67_segments`, `C67_no_sections_refuted`, `C67_scheme_variable_refuted`, `C67_literal_callback_refuted`, `C67_callback_comma_refuted`.

**C68 describe_type! accepts exactly its grammar** (proved). As C67, by induction on the nesting of the groups. Sound, complete and unambiguous for the grammar of SyntaxSpec.type_form. FINDINGS: order of keys and commas. Theorems: `C68_model`, `C68_one_meaning`, `C68_key_order_refuted`, `C68_commas_refuted`.

**C69 Exactly one alternative of every oneOf accepts** (partial). StrictSpec: acceptance and rejection as mutual inductive relations, so that "the others reject" is positive. That they exclude each other is proved by induction. The readings agree where the alternatives of every oneOf in the schema and the components are apart (different kinds, or a tag property with different values; for documents without undescribed members, C79, also a required property each that the other has not); that generated code is so follows from the sources (induction on the kinds of types; parsed sources as in C66). For types that tell their alternatives apart (StrictSpec.told_apart, a condition on the sources), also for the bodies of describe_api!. Agreement of the readings is for alternatives of different kinds or with different tags; what serde writes is accepted strictly also where objects are told apart by their members only (each has a field that is always written and the other lacks). The condition is sufficient, not necessary. FINDINGS: five kinds of types whose own values are rejected in the strict reading (refuted). Theorems: `C69_not_both`, `C69_strict_is_stricter`, `C69_readings_agree_partial`, `C69_json_accepted_strictly_partial`, `C69_request_bodies_partial`, `C69_responses_partial`, `C69_request_bodies_strict_partial`, `C69_responses_strict_partial`, `C69_tuple_refuted`, `C69_repr_enum_refuted`, `C69_external_refuted`, `C69_untagged_refuted`, `C69_adjacent_refuted`.

**C70 impl_opg_model! writes the impl that its form names** (proved). Impl.v: the seven rules of `impl_opg_model!` as data for the matcher of Match.v, and the impl each writes. ImplSpec gives the grammar as an inductive relation; the matcher is proved to accept exactly it, rule by rule, with the results on `describe_type!` (C68) for the schema in the body. The invocations of lib.rs are transcribed as tokens and run through it; each impl is proved to do what `Gen.v` does for its type, for all arguments. What the macro accepts and the impl it writes are exact (C70_reads); the impls of lib.rs are proved to be the ones the model of generation assumes (C70_builtin_types, C70_builtin_coverage). FINDINGS: the plain form does not compile without a type T in scope (refuted), and five of the seven forms need Model or serde imported by the caller (refuted, with the exact forms that do not, C70_bare_forms). Theorems: `C70_reads`, `C70_one_reading`, `C70_builtin_types`, `C70_builtin_coverage`, `C70_plain_form_refuted`, `C70_plain_form_name`, `C70_imports_refuted`, `C70_bare_forms`.

**C71 Extending an API description changes nothing that was documented before** (partial). The meaning of a declaration (ApiSpec.path_means, callback_means) is proved to be functional, by nested induction on callbacks, with the context independence of references (C26); documents have the meaning of each declaration at its place (C46). Components: histories of mentions (C29, C56) and growth (C25). Paths: for all APIs. Components: for all APIs when sections are added at the end; when added elsewhere, if no two reachable types share a name. FINDING: otherwise not (refuted). Theorems: `C71_path_depends_on_itself`, `C71_appending_only_adds`, `C71_components_stay_partial`, `C71_components_stay_refuted`.

**C72 The impls that the derive writes, run as Rust code, give the schemas that everything else is proved about** (proved). Rust.v: a fragment of Rust (blocks, lets, `if let`, `match`, struct literals with `..Default::default()`, `vec!`, `format!`, calls of trait functions) with an evaluator that is `Wrong` on anything ill-typed and observes calls up to a depth. Quote.v: each function of opg.rs once more, now giving the expression that it quotes. The relation between running code and the model is an abstract predicate on observations closed under return, sequencing and calls; every template is proved to meet it once, and two instances (what is observed agrees; what the model says is observed at some depth) give both directions by induction on depth. For all accepted declarations, types and contexts. Rust.v is a fragment of Rust with values for the types of models.rs; the code of opg.rs is transcribed template by template in Quote.v. Trusted: that the fragment means what rustc makes of it, and that examples given by expressions do not touch the components. Theorems: `C72_same_outcome`, `C72_get_schema`, `C72_mention_schema`, `C72_type_name`, `C72_never_wrong`, `C72_one_result`.

**C73 What the derive writes keeps apart from the names of the program it is written into** (partial). HygieneSpec.stands: an inductive relation for where an expression of the user stands in code and which names are bound there (function parameters, lets of the blocks around it, patterns). Every template of Quote.v is proved to put expressions only where at most `cx`, `properties` and `required` are bound; the code after `let mut model` of internally tagged enums holds no expression of the user. The constants: injectivity of `const_name` up to the spelling of identifiers. True of every expression without the words cx, properties and required, in all code the derive accepts; FINDING: otherwise not (refuted: an example that calls a function named required). Scoping of the written code is HygieneSpec.stands; that quote! identifiers share the hygiene of the call site is trusted. The constants: for all identifiers. Theorems: `C73_examples_keep_meaning_partial`, `C73_examples_keep_meaning_refuted`, `C73_const_names`.

**C74 The compile errors of the derive point at what causes them** (proved). Diag.v: the reporting functions once more, in a monad with the `ParsingContext` (an optional list; `unwrap` on a checked one unwinds, dropping an unchecked one panics, a panic while unwinding aborts). DiagSpec.complains: an inductive relation listing the complaints about a declaration with place and text; comes_before: an order on them. Proof: the loops are runs over a sorted list of events (attribute, item); invariants say which variables are set after a prefix of the events; the errors of an owner are those of its events, then those of a second type; owners are sorted. Exact, for all declarations: DiagSpec.complains says what there is to complain about, where, and in which words. Places are named by where they stand (owner, attribute, item, part); that syn turns tokens at such a place into its span is trusted. The text of the errors of syn itself, and the place they point to within the attribute, are not modelled. Theorems: `C74_errors_exact`, `C74_errors_in_order`, `C74_errors_when`, `C74_never_aborts`, `C74_same_outcome`.

**C75 No error of the derive hides another, and each problem is named rightly and once** (partial). Follows from C74 where true; witnesses where not. Shown all at once unless discriminants are inconsistent or renaming panics (C75_all_shown_partial); repeated attributes are named rightly except inside rename(..)/rename_all(..) (C75_named_right_partial). FINDINGS: hidden errors (two refutations), a union reported twice (refuted), rename_all called rename (refuted). Theorems: `C75_all_shown_refuted`, `C75_all_shown_refuted_by_panic`, `C75_all_shown_partial`, `C75_named_once_refuted`, `C75_named_right_refuted`, `C75_named_right_partial`.

**C76 Serialising a document never fails** (proved). Serde.v: the calls of the serializer that the derived impls make, from the attributes in models.rs, with the failures of flattening and tagging; proved equal to the values of Ser.v by induction on schemas and callbacks. SerdeSpec.json_writable: which keys JSON allows. For all documents. Trusted: that Serde.v says what serde_derive makes of the attributes (FlatMapSerializer, TaggedSerializer, rename_all, skip_serializing_if); serializers themselves (YAML, JSON text) are not modelled. Theorems: `C76_document_told`, `C76_schema_told`.

**C77 Expressions in an API description mean what they mean to the caller** (partial). Expand.v: the right-hand sides of the rules of describe_api! as Rust statements with marked identifiers, run in a frame of variables; expressions of the caller are functions of the variables without mark. ExpandSpec.reads_api: which description with values an invocation with expressions stands for. Proof: every template, run in a frame that tracks the document and the object under construction, ends in one that tracks what Api.v computes, changes no other variable, and leaves new variables only with marks of its own expansion (`goes`); induction over lists, callbacks by their own induction. For every invocation that compiles: C77_runs_as_read is exact (info read as the macro reads it); with the meaning of the caller if no expression in info depends on a variable named as a property before it (C77_caller_meaning_partial). FINDINGS: capture in info (refuted); callbacks without CallbackObject imported never compile (C77_callbacks_need_import, C77_import_refuted); the summary, operationId and description of an operation must be references, a String is rejected (C77_operation_texts_need_reference, C77_operation_string_refuted). Trusted: that marks on identifiers are the hygiene of macro_rules!. Expressions of the caller are functions of the caller's variables: they have no effects and do not panic. Theorems: `C77_runs_as_read`, `C77_caller_meaning_partial`, `C77_caller_meaning_refuted`, `C77_callbacks_need_import`, `C77_import_refuted`, `C77_operation_texts_need_reference`, `C77_operation_string_refuted`.

**C78 What a reader of the published document sees is what the source says** (partial). PublishSpec.publishes composes the matcher (Syntax.v), the code (Api.v, Gen.v) and the Serialize impls (Serde.v). Composition of C67, C76, C64 and C60. C78_reader_sees_source and C78_published are exact about the document (for plain url segments; C64_any_path_refuted shows the need). Bodies and responses: for supported types, as C59 and C60, whose refutations apply. Trusted: the laws of the Rust parser in rust_like. Theorems: `C78_reader_sees_source`, `C78_published`, `C78_request_bodies_partial`, `C78_responses_partial`.

**C79 What serde writes has no members that the schema does not mention** (partial). FitsSpec.fits is validation in which every member must be described. The induction is done once for validation in which undescribed members are allowed or not (FitsFacts.meets) (the objects that derived code describes have exactly the fields as properties; merging the tag adds the tag), and C59 and C60, where they are allowed and structs may have tags, are the other case. For supported types without tagged structs and flattened fields, otherwise as C59, whose refutations apply: what is not accepted does not fit either. FINDING: the tag of a tagged struct, and what is flattened into a struct, is written but not described (refuted). The example shows that fitting says more than accepting. Theorems: `C79_fits_is_accepted`, `C79_no_undescribed_members_partial`, `C79_tagged_struct_refuted`, `C79_flattened_field_refuted`, `C79_request_bodies_partial`, `C79_responses_partial`.

**C80 The expressions in an API description are evaluated once each, in the order of the source** (partial). Trace.v: the evaluator of Expand.v once more, where an expression asks an oracle that knows the history, and the history is recorded. OrderSpec: the expressions of an invocation listed by walking it. Proof: an inductive relation lists the expressions of code (choices hold none); running code evaluates a prefix of its list, all of it if it ends, by mutual induction; the templates have the lists of the specification. Exact: C80_in_order gives the order of evaluation for all expressions, with any effects, C80_panics what happens at a panic, C80_same_document that the code is that of C77. FINDINGS: names of headers and apiKey schemes come after the properties (refuted); contents of callbacks named by a literal are not evaluated (refuted); in all other invocations each is evaluated once (C80_once_partial), as written (C80_as_written_partial). Theorems: `C80_in_order`, `C80_panics`, `C80_same_document`, `C80_at_most_once`, `C80_once_partial`, `C80_as_written_partial`, `C80_as_written_refuted`, `C80_once_refuted`.

**C81 How long the lists of an API description may be** (proved). Levels.v: the rules of Syntax.v with weights (how deep the calls for an item go, how far the call for the rest is), run by the same matcher. LevelsSpec: the depth as a function of the description. Proof: weights do not change what is matched; rule by rule they are those of the specification; induction on the fuel of the munchers and the nesting of callbacks. Exact: C81_document is an equivalence for every limit, C81_levels gives the depth of every invocation that the grammar reads. FINDING: for every limit there are invocations with a meaning that exceed it (C81_every_invocation_refuted, C81_responses_refuted). Only calls of describe_api! and describe_type! themselves are counted: other macros within (stringify!, vec!, those of the caller) may need a few levels more. Theorems: `C81_document`, `C81_levels`, `C81_beyond`, `C81_higher_limit`, `C81_sections`, `C81_paths`, `C81_operation`, `C81_schemes`, `C81_lists`, `C81_urls`, `C81_every_invocation_refuted`, `C81_responses_refuted`, `C81_model`, `C81_objects`, `C81_every_type_refuted`.

**C82 Documentation changes nothing but documentation** (proved). DocsSpec.bare_*: sources, parameters, schemas and documents without documentation of given kinds; two are alike if these are equal. Proof: parsing attributes without the documentation gives the settings without it; the derive commutes with leaving out; evaluation, apply_params and try_merge respect being alike (a simulation, by induction on fuel and on code), and so does every step of describe_api!. C82_documentation_only is about schemas and components, C82_same_json about the JSON accepted, C82_api about whole documents, C82_removal about compiling. For any choice of the three kinds of documentation. Documentation that the derive rejects (a repeated description) is not covered: both programs compile. Theorems: `C82_documentation_only`, `C82_same_json`, `C82_api`, `C82_removal`.

**C83 Expressions in string attributes stand where the string stands** (proved). Respan.v: the tokens of proc_macro2 with their places; `parse_lit_str`, `spanned_tokens`, `respan_token_stream`, `respan_token_tree`. RespanSpec: tokens that are the same but for places; the places in a row of tokens at any depth. Induction on token trees. For every lexer and every parser that meets the two laws in RespanSpec (syn's are trusted to). That rustc shows errors at, and looks names up by, the place of a token is trusted. Theorems: `C83_tokens`, `C83_errors_point_at_string`, `C83_same_expression`.

**C84 Variables named in a described type are the caller's** (proved). ExpandType.v: the right-hand sides of the rules as expressions and statements, with marks on identifiers, scopes and moves. ExpandTypeSpec: `means` puts values for names; `moved` lists the uses by value; `written` is the grammar with names. Proof: running the code threads the caller's frame through the description (induction on descriptions, generalised over the frame; the macro's variables have the mark and are never found under a caller's name); this is `means` with no variable moved twice. Grammars: induction on the number of tokens. Exact: C84_meaning and C84_source are equivalences, for every set of variables and every mark. FINDING: a variable holding a model or data that is named twice is moved by the first use, so a description that the grammar reads and that has a meaning does not compile (C84_every_description_refuted). That identifiers of different expansions differ is how macro_rules hygiene works and is trusted. Theorems: `C84_meaning`, `C84_source`, `C84_grammars`, `C84_read_once`, `C84_variables`, `C84_every_description_refuted`.

**C85 What the components hold after any sequence of calls** (proved). HistorySpec: the four calls as operations, sequences of them. Invariants of single calls (what is registered has a source; links lead somewhere except in added models; maps sorted), by the induction principle over generation (GenFacts2), then induction on the sequence. For sequences of calls that return (see C28). That everything linked is there is C29 (for unambiguous names). Theorems: `C85_contains`, `C85_only_called`, `C85_schemas`, `C85_added_is_there`, `C85_mentioned_is_there`, `C85_added_free`, `C85_dangling`, `C85_verify`, `C85_security`.

**C86 The shapes of types whose values their schemas always reject** (proved). RejectSpec: `rejects` (no schema of the type, wherever it is made, accepts the value), `of_kind`. Proof: the described shapes of C12-C22 (DeriveFacts2) and inversion of `valid` on each shape; what serde writes is `emits` of SoundSpec. These are the exclusions of C59 (findings), now for every type of each shape. Not of this kind, since other alternatives or attributes may accept the value: one-element tuples of derived types, fields of equal names, struct variants of adjacently tagged enums that also have newtype variants. Theorems: `C86_external_unit_variants`, `C86_tagged_units`, `C86_integer_enums`, `C86_optional`, `C86_optional_integer_enum`, `C86_optional_internal_enum`, `C86_transparent_struct`, `C86_transparent_tuple`, `C86_flattened`, `C86_adjacent_struct_variants`, `C86_flagged_newtype`, `C86_flagged_field`, `C86_one_element_tuples`.

**C87 What describe_api! does with the caller's variables** (proved). Moves.v: the check for moves over the code of Expand.v (the same code that C77 runs). MovesSpec: `api_uses` (the uses of the caller's variables in an invocation, by reference or by value), `allowed`. Proof: for each part of the code, the check succeeds exactly if its uses are allowed, and leaves the slots of the other variables as they were (MovesFacts-MovesFacts4), by induction on the invocation with callbacks nested in it. An exact characterisation, for info sections whose properties differ and do not use variables with the names of properties before them (others: C77). The theorems with the suffix _refuted are the FINDING: Strings named for two servers, or for a server and later elsewhere, are rejected. Theorems: `C87_moves`, `C87_own_variables`, `C87_many_uses`, `C87_every_invocation_refuted`, `C87_order_refuted`.

**C88 What was written before a compatible change is accepted afterwards** (partial). GrowSpec: `wider` (types), `grows` (sources: what the attributes that serde reads say stays the same; fields and variants are added). Proof: everything serde writes for the old sources it may write for the new ones (mutual induction on `emits`, with an inner induction on `wider`); then C59 and C60 for the new sources. For supported types (as C59) after the change, whose refutations apply. The relation GrowSpec.grows is sufficient, not necessary. FINDINGS: an added field of type Option is required unless marked (C88_optional_field_refuted); the first variant with contents changes how all others are described (C88_first_payload_refuted). Theorems: `C88_mentions_partial`, `C88_request_bodies_partial`, `C88_responses_partial`, `C88_optional_field_refuted`, `C88_first_payload_refuted`.

**C89 A document published before fields were added accepts what is written afterwards** (partial). AddSpec: `members_added`, `variant_added`, `data_added`, `adds_fields` (what was serialised still is, with other members of other names; `keeps_clear`: what is flattened has other names too). Proof: the induction of C59 is over what serde writes for the sources now, against the code derived from the sources before; members of no described name are allowed by `additionalProperties: None` (`meets` with `loose`). C59 is the case without additions. With C88 for the narrowed sources. For supported types (as C59) before the change. The relation AddSpec.adds_fields is sufficient, not necessary. C89_new_variant_refuted shows the limit: a new variant is rejected by the old document. Theorems: `C89_mentions_partial`, `C89_narrowed_partial`, `C89_request_bodies_partial`, `C89_responses_partial`, `C89_new_variant_refuted`.

