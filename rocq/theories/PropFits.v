(** What serde writes has no members that the schema does not mention: C79. *)
From Verif Require Import Attr Ast Derive DeriveSpec Schema SchemaSpec Gen GenSpec DeriveExamples Conformance.
From Verif Require Import Doc Ser Api SerSpec ApiSpec ApiExamples SoundSpec FitsSpec FitsFacts SoundFacts4 SoundFacts5 SoundExamples FitsExamples.
From Coq Require Import ZArith.
Local Open Scope string_scope. Local Open Scope list_scope.

(** * C79: No undescribed members *)

(** Fitting is accepting, and more. *)
Theorem C79_fits_is_accepted : forall S r j, fits S r j -> valid S r j.
Proof. exact fits_valid. Qed.
(** For every type made of supported types ([supported_inside]: see SoundSpec.v; [False]: structs with a tag are
    not among them, see below), in any history of mentions in which no two
    types share a component name. *)
Theorem C79_no_undescribed_members_partial : forall pe pp uni disc D ev E calls cx_end,
  names_unambiguous E (call_sites calls) -> mentions_return E calls cx_new cx_end ->
  forall c cx0 r cx1 j, In c calls -> harmless (mc_params c) ->
  supported_inside pe pp D False (mc_ty c) -> derived_inside pe pp uni D ev E (mc_ty c) ->
  mention_returns E (mc_ty c) (mc_inline c) (mc_params c) cx0 r cx1 ->
  emits pe pp uni disc D (mc_ty c) j -> fits (cx_schemas cx_end) r j.
Proof. exact mention_fits. Qed.
(** 18 of the 22 types of the repository's tests, together; one of their values; and the same with one member more, which the
    schema accepts although it does not fit. *)
Example C79_case :
  names_unambiguous test_env (call_sites supported_calls) /\ mentions_return test_env supported_calls cx_new supported_cx /\
  (forall c, In c supported_calls -> harmless (mc_params c) /\ supported_inside yes yes test_source False (mc_ty c) /\
     derived_inside yes yes noupper test_source eval_text test_env (mc_ty c)) /\
  emits yes yes noupper test_disc test_source (TNamed 20)
    (JObj [(u "field", JStr (u "a")); (u "second", JObj [(u "another_field", JNull)])]) /\
  (exists cx0 cx1, mention_returns test_env (TNamed 20) false params_default cx0 (Link (u "InModule")) cx1) /\
  valid (cx_schemas supported_cx) (Link (u "InModule"))
    (JObj [(u "field", JStr (u "a")); (u "second", JObj [(u "another_field", JNull)]); (u "extra", JInt 1)]) /\
  ~ fits (cx_schemas supported_cx) (Link (u "InModule"))
    (JObj [(u "field", JStr (u "a")); (u "second", JObj [(u "another_field", JNull)]); (u "extra", JInt 1)]).
Proof.
  split; [exact supported_unambiguous|]. split; [exact supported_return|]. split.
  { intros c Hc. apply in_map_iff in Hc as (id & <- & Hid). split; [apply harmless_default|]. now apply test_supported_ok. }
  split; [exact module_emits|]. split; [exact module_mention|]. split; [exact extra_valid|exact extra_misfit].
Qed.
(** FINDING: it is false of a struct with a tag: serde writes the tag, the schema does not mention it. *)
Theorem C79_tagged_struct_refuted : exists pe pp uni ev disc D E id fs tag m j,
  di_data (D id) = DaStruct (FNamed fs) /\ AttrSpec.said pe pp (PContainer DkNamed) (di_attrs (D id)) (STag tag) /\
  derived_inside pe pp uni D ev E (TNamed id) /\ emits pe pp uni disc D (TNamed id) j /\
  schema_returns E (TNamed id) cx_new m cx_new /\ valid_model (cx_schemas cx_new) m j /\ ~ fits_model (cx_schemas cx_new) m j /\
  exists o, object_of m = Some o /\ bm_get tag (mo_properties o) = None.
Proof.
  destruct tagged_schema as (m & H). exists yes, yes, noupper, DeriveExamples.same, zero, (sources [tagged_struct]), (sources_env [tagged_struct]), 0.
  eexists. exists (u "kind"), m, (JObj tagged_json). split; [reflexivity|]. split; [exact tagged_said|]. split; [exact tagged_derived|].
  split; [exact tagged_emits|exact H].
Qed.
(** FINDING: and of a struct with a flattened field, even where the schema accepts what serde writes. *)
Theorem C79_flattened_field_refuted : exists pe pp uni ev disc D E id fs f k j m cx ms,
  di_data (D id) = DaStruct (FNamed fs) /\ In f fs /\ AttrSpec.said pe pp PField (fs_attrs f) SFlatten /\
  derived_inside pe pp uni D ev E (TNamed id) /\ emits pe pp uni disc D (TNamed id) (JObj ms) /\ In (k, j) ms /\
  schema_returns E (TNamed id) cx_new m cx /\ valid_model (cx_schemas cx) m (JObj ms) /\ ~ fits_model (cx_schemas cx) m (JObj ms) /\
  exists o, object_of m = Some o /\ bm_get k (mo_properties o) = None /\ mo_additional o = None.
Proof.
  destruct side_schema as (m & cx & H). exists yes, yes, noupper, DeriveExamples.same, zero, side_sources, side_env, 0.
  eexists. exists side_paging, (u "limit"), (JInt 5), m, cx. eexists. split; [reflexivity|]. split; [right; now left|]. split; [exact side_said|].
  split; [exact side_derived|]. split; [exact side_emits|]. split; [right; now left|exact H].
Qed.
(** The same of the bodies of a described API. *)
Theorem C79_request_bodies_partial : forall pe pp uni disc D ev E reason seg a d,
  describes E reason seg a d ->
  (forall ts, (forall t, In t ts <-> names_type seg a t) -> names_unambiguous E (map (fun t => SMention t false) ts)) ->
  forall o x, has_operation (og_paths d) o -> op_body o = Some x ->
  exists l b t, declares_operation a l /\ op_means E reason (callback_means E reason seg) l o /\ In (OpBody b) l /\ body_type b t /\
    (supported_inside pe pp D False t -> derived_inside pe pp uni D ev E t ->
     forall j, emits pe pp uni disc D t j -> fits (cx_schemas (og_components d)) (rb_schema x) j).
Proof. exact body_fits. Qed.
Theorem C79_responses_partial : forall pe pp uni disc D ev E reason seg a d,
  describes E reason seg a d ->
  (forall ts, (forall t, In t ts <-> names_type seg a t) -> names_unambiguous E (map (fun t => SMention t false) ts)) ->
  forall o c x r, has_operation (og_paths d) o -> bm_get c (op_responses o) = Some x -> rs_schema x = Some r ->
  exists l desc s, declares_operation a l /\ op_means E reason (callback_means E reason seg) l o /\ In (OpResponse c desc s) l /\
    (s = RsRaw (Some r) \/ exists t, response_type s t /\
      (supported_inside pe pp D False t -> derived_inside pe pp uni D ev E t ->
       forall j, emits pe pp uni disc D t j -> fits (cx_schemas (og_components d)) r j)).
Proof. exact response_fits. Qed.
Example C79_api_case :
  describes test_env test_reason test_seg test_api test_doc /\
  (forall ts, (forall t, In t ts <-> names_type test_seg test_api t) -> names_unambiguous test_env (map (fun t => SMention t false) ts)) /\
  (exists o x, has_operation (og_paths test_doc) o /\ op_body o = Some x /\ rb_schema x = Link (u "InModule")) /\
  supported_inside yes yes test_source False (TNamed 20) /\ derived_inside yes yes noupper test_source eval_text test_env (TNamed 20) /\
  emits yes yes noupper test_disc test_source (TNamed 20)
    (JObj [(u "field", JStr (u "a")); (u "second", JObj [(u "another_field", JNull)])]).
Proof. exact (api_case False). Qed.
Print Assumptions C79_fits_is_accepted.
Print Assumptions C79_no_undescribed_members_partial.
Print Assumptions C79_tagged_struct_refuted.
Print Assumptions C79_flattened_field_refuted.
Print Assumptions C79_request_bodies_partial.
Print Assumptions C79_responses_partial.
