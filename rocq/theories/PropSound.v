(** Generated schemas against what serde writes, and the impls for the types of the standard library: C59-C63. *)
From Verif Require Import Attr Ast Derive DeriveSpec Schema SchemaSpec Gen GenSpec DeriveExamples Conformance BuiltinFacts.
From Verif Require Import AttrSpec Doc Ser Api SerSpec ApiSpec ApiExamples SoundSpec SoundFacts4 SoundFacts5 SoundExamples.
From Coq Require Import ZArith.
Local Open Scope string_scope. Local Open Scope list_scope.

(** * C59: What serde writes is accepted by the schema *)

(** For every type made of supported types ([supported_inside]: see SoundSpec.v; [True]: structs with a tag, and
    structs and variants with flattened fields that are marked optional and share no member with the others, are among them), in any history of mentions in which no two
    types share a component name. *)
Theorem C59_json_accepted_partial : forall pe pp uni disc D ev E calls cx_end,
  names_unambiguous E (call_sites calls) -> mentions_return E calls cx_new cx_end ->
  forall c cx0 r cx1 j, In c calls -> harmless (mc_params c) ->
  supported_inside pe pp D True (mc_ty c) -> derived_inside pe pp uni D ev E (mc_ty c) ->
  mention_returns E (mc_ty c) (mc_inline c) (mc_params c) cx0 r cx1 ->
  emits pe pp uni disc D (mc_ty c) j -> valid (cx_schemas cx_end) r j.
Proof. exact mention_accepts. Qed.
(** The 18 of the 22 types of the repository's tests that are supported, together; and one of their values. *)
Example C59_case :
  names_unambiguous test_env (call_sites supported_calls) /\ mentions_return test_env supported_calls cx_new supported_cx /\
  map mc_ty supported_calls = map TNamed [0; 1; 2; 3; 4; 5; 6; 7; 9; 10; 11; 14; 15; 16; 18; 19; 20; 21] /\
  (forall c, In c supported_calls -> harmless (mc_params c) /\ supported_inside yes yes test_source True (mc_ty c) /\
     derived_inside yes yes noupper test_source eval_text test_env (mc_ty c)) /\
  emits yes yes noupper test_disc test_source (TNamed 6)
    (JObj [(u "tag", JStr (u "test")); (u "asd", JInt 5); (u "helloCamelCase", JStr (u "x"))]).
Proof.
  split; [exact supported_unambiguous|]. split; [exact supported_return|]. split; [reflexivity|]. split; [|exact internal_emits].
  intros c Hc. apply in_map_iff in Hc as (id & <- & Hid). split; [apply harmless_default|]. now apply test_supported_ok.
Qed.
(** A struct whose fields are described by flags that suit them, one of them optional; and a newtype struct with a flag. *)
Example C59_flags_case : di_data (f_source 1) = DaStruct (FNamed [
    fld [opg_attr [word_item "string"] ] "id" (TPrim PUuid); fld [opg_attr [word_item "integer"; word_item "nullable"] ] "age" (TOption (TPrim PU8));
    fld [opg_attr [word_item "string"] ] "nick" (TWrap WBox (TNamed 0)); fld [] "name" (TNamed 0)]) /\
  supported_inside yes yes f_source True (TNamed 1) /\ derived_inside yes yes noupper f_source DeriveExamples.same f_env (TNamed 1) /\
  emits yes yes noupper test_disc f_source (TNamed 1)
    (JObj [(u "id", JStr (u "x")); (u "age", JNull); (u "nick", JStr (u "y")); (u "name", JStr (u "z"))]).
Proof. split; [reflexivity|]. split; [apply f_supported|]. split; [exact f_derived|exact f_emits]. Qed.
(** A struct with a tag, which the schema does not mention but accepts ([supported_inside] is given [True] for this). *)
Example C59_tag_case :
  AttrSpec.said yes yes (PContainer DkNamed) (di_attrs (sources [tagged_struct] 0)) (STag (u "kind")) /\
  supported_inside yes yes (sources [tagged_struct]) True (TNamed 0) /\
  derived_inside yes yes noupper (sources [tagged_struct]) DeriveExamples.same (sources_env [tagged_struct]) (TNamed 0) /\
  emits yes yes noupper zero (sources [tagged_struct]) (TNamed 0) (JObj [(u "kind", JStr (u "event")); (u "code", JInt 5)]).
Proof. split; [exact tagged_said|]. split; [exact tagged_supported|]. split; [exact tagged_derived|exact tagged_emits]. Qed.
(** A struct with a flattened field that is marked optional: the schema has it as a member, but accepts it flattened. *)
Example C59_flattened_case :
  di_data (side_sources 0) = DaStruct (FNamed [fld [] "text" (TPrim PString); side_paging]) /\
  AttrSpec.said yes yes PField (fs_attrs side_paging) SFlatten /\
  supported_inside yes yes side_sources True (TNamed 0) /\
  derived_inside yes yes noupper side_sources DeriveExamples.same side_env (TNamed 0) /\
  emits yes yes noupper zero side_sources (TNamed 0) (JObj [(u "text", JStr (u "a")); (u "limit", JInt 5)]).
Proof. split; [reflexivity|]. split; [exact side_said|]. split; [exact side_supported|]. split; [exact side_derived|exact side_emits]. Qed.
(** The same in a variant of an internally tagged enum. *)
Example C59_flattened_variant_case :
  di_data (search_sources 0) = DaEnum [vrt [] "Text" (FNamed [fld [] "text" (TPrim PString); side_paging]); vrt [] "All" FUnit] /\
  supported_inside yes yes search_sources True (TNamed 0) /\
  derived_inside yes yes noupper search_sources DeriveExamples.same search_env (TNamed 0) /\
  emits yes yes noupper zero search_sources (TNamed 0) (JObj [(u "kind", JStr (u "Text")); (u "text", JStr (u "a")); (u "limit", JInt 5)]).
Proof. split; [reflexivity|]. split; [exact search_supported|]. split; [exact search_derived|exact search_emits]. Qed.
(** The same in the struct that a variant of an internally tagged enum holds. *)
Example C59_flattened_newtype_case :
  di_data (held_sources 0) = DaEnum [vrt [] "Text" (FUnnamed [pos_fld [] (TNamed 2)]); vrt [] "All" FUnit] /\
  di_data (held_sources 2) = DaStruct (FNamed [fld [] "text" (TPrim PString); side_paging]) /\
  supported_inside yes yes held_sources True (TNamed 0) /\
  derived_inside yes yes noupper held_sources DeriveExamples.same held_env (TNamed 0) /\
  emits yes yes noupper zero held_sources (TNamed 0) (JObj [(u "kind", JStr (u "Text")); (u "text", JStr (u "a")); (u "limit", JInt 5)]).
Proof. do 2 (split; [reflexivity|]). split; [exact held_supported|]. split; [exact held_derived|exact held_emits]. Qed.
(** FINDINGS: it is false of one-element tuples, ... *)
Theorem C59_one_element_tuple_refuted : exists pe pp uni ev disc D E,
  misdescribed pe pp uni ev disc D E (TWrap WTuple1 (TPrim PI32)) (JArr [JInt 5]).
Proof. do 7 eexists. exact mis_tuple1. Qed.
(** ... an [Option] of an enum written as an integer, ... *)
Theorem C59_optional_alternatives_refuted : exists pe pp uni ev disc D E id,
  (exists vs, di_data (D id) = DaEnum vs /\ written_as_int pe pp (D id) vs) /\
  misdescribed pe pp uni ev disc D E (TOption (TNamed id)) JNull.
Proof.
  exists yes, yes, noupper, DeriveExamples.same, zero, (sources [i_level]), (sources_env [i_level]), 0. split; [|exact mis_option].
  eexists. split; [reflexivity|]. exact level_int.
Qed.
(** ... a unit variant of an externally tagged enum that has other variants, ... *)
Theorem C59_external_unit_variant_refuted : exists pe pp uni ev disc D E id n v,
  enum_variant pe pp uni (D id) RepExternal n v /\ unit_variant v /\ misdescribed pe pp uni ev disc D E (TNamed id) (JStr n).
Proof.
  exists yes, yes, noupper, DeriveExamples.same, zero, (sources [unit_or]), (sources_env [unit_or]), 0, (u "Empty"), (vrt [] "Empty" FUnit).
  split; [exact unit_or_variant|]. split; [reflexivity|exact mis_external_unit].
Qed.
(** ... an enum of unit variants with a tag, ... *)
Theorem C59_tagged_unit_enum_refuted : exists pe pp uni ev disc D E id tag n,
  misdescribed pe pp uni ev disc D E (TNamed id) (JObj [(tag, JStr n)]) /\ represents pe pp (di_attrs (D id)) (RepInternal tag).
Proof.
  exists yes, yes, noupper, DeriveExamples.same, zero, (sources [tagged_units]), (sources_env [tagged_units]), 0, (u "kind"), (u "Stop").
  split; [exact mis_tagged_units|exact tagged_units_rep].
Qed.
(** ... a variant with named fields of an adjacently tagged enum, ... *)
Theorem C59_adjacent_struct_variant_refuted : exists pe pp uni ev disc D E id tag content n ms,
  misdescribed pe pp uni ev disc D E (TNamed id) (JObj [(tag, JStr n); (content, JObj ms)]) /\
  represents pe pp (di_attrs (D id)) (RepAdjacent tag content).
Proof.
  exists yes, yes, noupper, DeriveExamples.same, zero, (sources [i_adjacent]), (sources_env [i_adjacent]), 0, (u "t"), (u "c"), (u "Rec"), [(u "a", JInt 1)].
  split; [exact mis_adjacent_struct|exact adjacent_rep].
Qed.
(** ... an enum written as an integer whose discriminants are implicit, ... *)
Theorem C59_implicit_discriminants_refuted : exists pe pp uni ev disc D E id z,
  (exists vs, di_data (D id) = DaEnum vs /\ written_as_int pe pp (D id) vs) /\ misdescribed pe pp uni ev disc D E (TNamed id) (JInt z).
Proof.
  exists yes, yes, noupper, DeriveExamples.same, zero, (sources [implicit]), (sources_env [implicit]), 0, 1%Z. split; [|exact mis_implicit].
  eexists. split; [reflexivity|]. exact implicit_int.
Qed.
(** ... a transparent struct with a named field, ... *)
Theorem C59_transparent_struct_refuted : exists pe pp uni ev disc D E id f fs j,
  di_data (D id) = DaStruct (FNamed fs) /\ transparent_field pe pp (D id) f /\ emits pe pp uni disc D (fs_ty f) j /\
  misdescribed pe pp uni ev disc D E (TNamed id) j.
Proof.
  exists yes, yes, noupper, DeriveExamples.same, zero, (sources [see_through]), (sources_env [see_through]), 0, (fld [] "value" i32), [fld [] "value" i32], (JInt 5).
  split; [reflexivity|]. split; [exact see_through_field|]. split; [exact see_through_value|exact mis_transparent].
Qed.
(** ... a struct with a flattened field that is required in the schema, ... *)
Theorem C59_flattened_field_refuted : exists pe pp uni ev disc D E id f fs ms,
  di_data (D id) = DaStruct (FNamed fs) /\ In f fs /\ AttrSpec.said pe pp PField (fs_attrs f) SFlatten /\
  misdescribed pe pp uni ev disc D E (TNamed id) (JObj ms).
Proof.
  exists yes, yes, noupper, DeriveExamples.same, zero, (sources [flat_query; flat_paging]), (sources_env [flat_query; flat_paging]), 0. do 3 eexists.
  split; [reflexivity|]. split; [right; now left|]. split; [exact flat_said|exact mis_flatten].
Qed.
(** ... and a struct with two fields of one name. *)
Theorem C59_duplicate_names_refuted : exists pe pp uni ev disc D E id k j1 j2,
  misdescribed pe pp uni ev disc D E (TNamed id) (JObj [(k, j1); (k, j2)]).
Proof.
  exists yes, yes, noupper, DeriveExamples.same, zero, (sources [twins]), (sources_env [twins]), 0, (u "x"), (JInt 1), (JStr (u "s")).
  exact mis_twins.
Qed.
Print Assumptions C59_json_accepted_partial.
Print Assumptions C59_one_element_tuple_refuted.
Print Assumptions C59_optional_alternatives_refuted.
Print Assumptions C59_external_unit_variant_refuted.
Print Assumptions C59_tagged_unit_enum_refuted.
Print Assumptions C59_adjacent_struct_variant_refuted.
Print Assumptions C59_implicit_discriminants_refuted.
Print Assumptions C59_transparent_struct_refuted.
Print Assumptions C59_flattened_field_refuted.
Print Assumptions C59_duplicate_names_refuted.

(** * C60: Request and response bodies of a described API are accepted *)
Theorem C60_request_bodies_partial : forall pe pp uni disc D ev E reason seg a d,
  describes E reason seg a d ->
  (forall ts, (forall t, In t ts <-> names_type seg a t) -> names_unambiguous E (map (fun t => SMention t false) ts)) ->
  forall o x, has_operation (og_paths d) o -> op_body o = Some x ->
  exists l b t, declares_operation a l /\ op_means E reason (callback_means E reason seg) l o /\ In (OpBody b) l /\ body_type b t /\
    (supported_inside pe pp D True t -> derived_inside pe pp uni D ev E t ->
     forall j, emits pe pp uni disc D t j -> valid (cx_schemas (og_components d)) (rb_schema x) j).
Proof. exact body_accepts. Qed.
Theorem C60_responses_partial : forall pe pp uni disc D ev E reason seg a d,
  describes E reason seg a d ->
  (forall ts, (forall t, In t ts <-> names_type seg a t) -> names_unambiguous E (map (fun t => SMention t false) ts)) ->
  forall o c x r, has_operation (og_paths d) o -> bm_get c (op_responses o) = Some x -> rs_schema x = Some r ->
  exists l desc s, declares_operation a l /\ op_means E reason (callback_means E reason seg) l o /\ In (OpResponse c desc s) l /\
    (s = RsRaw (Some r) \/ exists t, response_type s t /\
      (supported_inside pe pp D True t -> derived_inside pe pp uni D ev E t ->
       forall j, emits pe pp uni disc D t j -> valid (cx_schemas (og_components d)) r j)).
Proof. exact response_accepts. Qed.
Example C60_case :
  describes test_env test_reason test_seg test_api test_doc /\
  (forall ts, (forall t, In t ts <-> names_type test_seg test_api t) -> names_unambiguous test_env (map (fun t => SMention t false) ts)) /\
  (exists o x, has_operation (og_paths test_doc) o /\ op_body o = Some x /\ rb_schema x = Link (u "InModule")) /\
  supported_inside yes yes test_source True (TNamed 20) /\ derived_inside yes yes noupper test_source eval_text test_env (TNamed 20) /\
  emits yes yes noupper test_disc test_source (TNamed 20)
    (JObj [(u "field", JStr (u "a")); (u "second", JObj [(u "another_field", JNull)])]).
Proof. exact (api_case True). Qed.
Print Assumptions C60_request_bodies_partial.
Print Assumptions C60_responses_partial.

(** * C61: The alternatives of an internally tagged enum exclude each other *)

(** Each object the schema accepts is accepted by exactly one alternative; and serde writes objects. *)
Theorem C61_internal_exactly_one : forall pe pp uni D ev E id vs w tag,
  supported_inside pe pp D True (TNamed id) /\ derived_inside pe pp uni D ev E (TNamed id) ->
  di_data (D id) = DaEnum vs -> In w vs -> ~ unit_variant w -> represents pe pp (di_attrs (D id)) (RepInternal tag) ->
  forall cx cx' m, schema_returns E (TNamed id) cx m cx' ->
  forall S rs l ms, enum_variants pe pp uni (D id) vs l -> NoDup (map fst l) -> alternatives_of m = Some rs ->
  valid_model S m (JObj ms) -> exactly_one S rs (JObj ms).
Proof. exact (fun pe pp uni D ev => internal_exactly_one pe pp uni D ev True). Qed.
Theorem C61_internal_objects : forall pe pp uni disc D ev E id vs w tag,
  supported_inside pe pp D True (TNamed id) /\ derived_inside pe pp uni D ev E (TNamed id) ->
  di_data (D id) = DaEnum vs -> In w vs -> ~ unit_variant w -> represents pe pp (di_attrs (D id)) (RepInternal tag) ->
  forall j, emits pe pp uni disc D (TNamed id) j -> exists ms, j = JObj ms.
Proof. exact (fun pe pp uni disc D ev => internal_object pe pp uni disc D ev True). Qed.
Example C61_case : exists vs w l m cx,
  (supported_inside yes yes test_source True (TNamed 6) /\ derived_inside yes yes noupper test_source eval_text test_env (TNamed 6)) /\
  di_data (test_source 6) = DaEnum vs /\ In w vs /\ ~ unit_variant w /\ represents yes yes (di_attrs (test_source 6)) (RepInternal (u "tag")) /\
  schema_returns test_env (TNamed 6) cx_new m cx /\ enum_variants yes yes noupper (test_source 6) vs l /\
  map fst l = [u "test"; u "another-test"] /\
  valid_model (cx_schemas cx) m (JObj [(u "tag", JStr (u "test")); (u "asd", JInt 5); (u "helloCamelCase", JStr (u "x"))]).
Proof. exact exclusive_case. Qed.
(** FINDING: in the strict reading of [oneOf], the schema of [(i32, i32)] accepts no pair. *)
Theorem C61_tuples_refuted : exists E t m rs items, schema_returns E t cx_new m cx_new /\ t = TTuple [TPrim PI32; TPrim PI32] /\
  items_of m = Some (Inline items) /\ kind_of items = KOneOf /\ alternatives_of items = Some rs /\
  forall S z, ~ exactly_one S rs (JInt z).
Proof. exact tuple_both. Qed.
Print Assumptions C61_internal_exactly_one.
Print Assumptions C61_internal_objects.
Print Assumptions C61_tuples_refuted.

(** * C62: Built-in types have the matching kind and format *)
Theorem C62_integers : forall E p signed bits cx m cx', int_type p = Some (signed, bits) -> schema_returns E (TPrim p) cx m cx' ->
  kind_of m = KInteger /\ nullable_of m = Some false /\ m_description m = None /\ example_of m = None /\ cx' = cx /\
  (machine_sized p -> format_of m = None) /\
  (~ machine_sized p -> format_of m = Some ((if signed then u "int" else u "uint") ++ nat_to_string (Z.to_nat bits))).
Proof. exact integer_described. Qed.
Theorem C62_others : forall E p cx m cx', int_type p = None -> schema_returns E (TPrim p) cx m cx' ->
  cx' = cx /\ enum_of m = None /\ (nullable_of m = Some true <-> p = PUnit) /\ nullable_of m <> None /\
  match p with
  | PBool | PAtomicBool => kind_of m = KBoolean
  | PF32 => kind_of m = KNumber /\ format_of m = Some (u "float")
  | PF64 => kind_of m = KNumber /\ format_of m = Some (u "double")
  | PStr | PString => kind_of m = KString /\ format_of m = None
  | PChar => kind_of m = KString /\ format_of m = Some (u "char")
  | PUnit => kind_of m = KString /\ format_of m = Some (u "null")
  | PUuid => kind_of m = KString /\ format_of m = Some (u "uuid")
  | _ => kind_of m = KString /\ format_of m = Some (u "date")
  end.
Proof. exact other_described. Qed.
(** FINDING: dates with a time have the format of dates (OpenAPI has "date-time"). *)
Theorem C62_date_time_has_date_format : forall E cx m1 m2 m3 cx1 cx2 cx3, schema_returns E (TPrim PDateTime) cx m1 cx1 ->
  schema_returns E (TPrim PNaiveDateTime) cx m2 cx2 -> schema_returns E (TPrim PNaiveDate) cx m3 cx3 ->
  format_of m1 = format_of m3 /\ format_of m2 = format_of m3.
Proof. exact date_formats. Qed.
Example C62_case : int_type PU16 = Some (false, 16%Z) /\ ~ machine_sized PU16 /\
  u "uint" ++ nat_to_string (Z.to_nat 16) = u "uint16" /\
  schema_returns ex_env (TPrim PU16) cx_new (prim_schema PU16) cx_new /\
  schema_returns ex_env (TPrim PDateTime) cx_new (prim_schema PDateTime) cx_new.
Proof.
  split; [reflexivity|]. split; [cbv; intuition discriminate|]. split; [reflexivity|]. split; exists 1; reflexivity.
Qed.
Print Assumptions C62_integers.
Print Assumptions C62_others.
Print Assumptions C62_date_time_has_date_format.

(** * C63: Collections describe their elements *)
Theorem C63_sequences : forall E k t cx m cx', schema_returns E (TSeq k t) cx m cx' <->
  exists r, mention_returns E t false params_default cx r cx' /\ m = Model None (Single (MType false (TdArray r))).
Proof. exact seq_returns. Qed.
Theorem C63_dictionaries : forall E k t cx m cx', schema_returns E (TDict k t) cx m cx' <->
  exists r, mention_returns E t false params_default cx r cx' /\
    m = Model None (Single (MType false (TdObject (MObject [] (Some r) [])))).
Proof. exact dict_returns. Qed.
Theorem C63_tuples : forall E ts cx m cx', schema_returns E (TTuple ts) cx m cx' <->
  exists rs, in_order (fun t cx r cx' => mention_returns E t false params_default cx r cx') ts cx rs cx' /\
    m = Model None (Single (MType false (TdArray (Inline (Model None (OneOf rs)))))).
Proof. exact tuple_returns. Qed.
Example C63_case : exists m1 m2 m3 cx1 cx2 cx3,
  schema_returns test_env (TSeq KVec (TNamed 2)) cx_new m1 cx1 /\ items_of m1 = Some (Link (u "SimpleStruct")) /\
  schema_returns test_env (TDict KHashMap (TNamed 2)) cx_new m2 cx2 /\
  object_of m2 = Some (MObject [] (Some (Link (u "SimpleStruct"))) []) /\
  schema_returns test_env (TTuple [TNamed 2; TNamed 4]) cx_new m3 cx3 /\
  items_of m3 = Some (Inline (Model None (OneOf [Link (u "SimpleStruct"); Link (u "ExternallyTaggedEnum")]))).
Proof. do 6 eexists. do 2 (split; [exists 10; vm_compute; reflexivity|]; split; [reflexivity|]). split; [exists 10; vm_compute; reflexivity|reflexivity]. Qed.
Print Assumptions C63_sequences.
Print Assumptions C63_dictionaries.
Print Assumptions C63_tuples.
